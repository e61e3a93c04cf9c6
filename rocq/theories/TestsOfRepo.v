(** * TestsOfRepo: the expectations of the project's own unit tests, evaluated in the model

    No claim rests on this file. It transcribes inputs and expected results of /repo/test/unit-tests; that the model computes the same
    results is evidence, independent of reading the sources, that the model is the one of the code. *)

From Verif Require Import Base Sequence Control Signature Printer Reports Expectation Scenario.
From Verif Require Matcher Strings.
Local Open Scope string_scope.

(** Texts as lists of lines. *)
Fixpoint lines (l : list string) : string := match l with [] => "" | s :: l' => s ++ nl ++ lines l' end.

(** ** Sequence.cpp *)

(** 286-302 and 303-319: the strategies. *)
Example lazy_table :
  map (fun '(id, cursor) => strategy_priority Lazy id cursor) [(0, 0); (1, 1); (1, 0); (2, 0); (2, 1)]
  = map (fun d => Ret (INT_MAX - d)%Z) [0; 0; 1; 2; 1]%Z.
Proof. reflexivity. Qed.
Example greedy_table :
  map (fun '(id, cursor) => strategy_priority Greedy id cursor) [(0, 0); (1, 1); (1, 0); (2, 0); (2, 1)] = map Ret [0; 0; 1; 2; 1]%Z.
Proof. reflexivity. Qed.

(** 84-272: a sequence with a number of ids; what is consumable, what has a priority, what the destructor reports. *)
Definition adds (n : nat) : bseq := mkSeq Lazy (repeat Unsatisfied n) 0.
Definition has_priority (q : bseq) (id : nat) : bool := match seq_priority_of q id with Ret (Some _) => true | _ => false end.
Definition then_ (f : bseq -> nat -> outcome bseq) (id : nat) (q : outcome bseq) : outcome bseq := obind q (fun x => f x id).
Definition errors (q : outcome bseq) : outcome (option string) :=
  obind q (fun x => Ret (option_map (fun '(k, n) => sequence_error_message k n) (seq_dtor_error x))).
Definition open (q : outcome bseq) (ids : list nat) : outcome (list bool) :=
  obind q (fun x => if forallb (fun i => Bool.eqb (seq_is_consumable x i) (has_priority x i)) ids then Ret (map (seq_is_consumable x) ids) else Undef UbAssert).

Example adds_of_add :
  obind (seq_add (seq_new Lazy)) (fun '(q, _) => obind (seq_add q) (fun '(q, _) => obind (seq_add q) (fun '(q, i) => Ret (q, i)))) = Ret (adds 3, 2).
Proof. reflexivity. Qed.
Example zero_elements : errors (Ret (adds 0)) = Ret None.
Proof. reflexivity. Qed.
Example one_id :
  (open (Ret (adds 1)) [0] = Ret [true]) /\
  (errors (Ret (adds 1)) = Ret (Some "Unfulfilled sequence. 0 out of 1 expectation(s) are satisfied.")) /\
  (errors (seq_consume (adds 1) 0) = Ret (Some "Unfulfilled sequence. 0 out of 1 expectation(s) are satisfied.")) /\
  (open (seq_set_satisfied (adds 1) 0) [0] = Ret [true]) /\ (errors (seq_set_satisfied (adds 1) 0) = Ret None) /\
  (open (seq_set_saturated (adds 1) 0) [0] = Ret [false]) /\ (errors (then_ seq_set_saturated 0 (seq_consume (adds 1) 0)) = Ret None).
Proof. repeat split; reflexivity. Qed.

Definition no_change (q : bseq) (id : nat) : outcome bseq := Ret q.
Definition alter : list (bseq -> nat -> outcome bseq) := [no_change; seq_set_satisfied; seq_set_saturated].
Example only_the_first_is_consumable :
  flat_map (fun f => map (fun g => let q := then_ g 2 (then_ f 1 (Ret (adds 3))) in (open q [0; 1; 2], errors (then_ seq_consume 0 q))) alter) alter
  = repeat (Ret [true; false; false], Ret (Some "Unfulfilled sequence. 0 out of 3 expectation(s) are satisfied.")) 9.
Proof. reflexivity. Qed.
Example the_second_becomes_consumable :
  flat_map (fun c => flat_map (fun '(f, b) => map (fun g =>
      let q := then_ g 2 (then_ f 0 (then_ c 0 (Ret (adds 3)))) in
      (match open q [0; 1; 2] with Ret [x; true; false] => Bool.eqb x b | _ => false end, errors q)) alter)
    [(seq_set_satisfied, true); (seq_set_saturated, false)]) [no_change; seq_consume]
  = repeat (true, Ret (Some "Unfulfilled sequence. 1 out of 3 expectation(s) are satisfied.")) 12.
Proof. reflexivity. Qed.
Example the_last_becomes_consumable :
  flat_map (fun f => flat_map (fun g =>
      let q := then_ g 1 (then_ f 0 (Ret (adds 3))) in
      let q' := then_ seq_consume 2 q in
      (match open q [2] with Ret [true] => errors q' | _ => Ret None end) :: map (fun h => errors (then_ h 2 q')) (tl alter)) (tl alter)) (tl alter)
  = flat_map (fun _ => [Ret (Some "Unfulfilled sequence. 2 out of 3 expectation(s) are satisfied."); Ret None; Ret None]) (seq 0 4).
Proof. reflexivity. Qed.

(** 320-432: has_better_rating, both directions. *)
Definition rate (l : list (Z * nat)) : list rating := map (fun '(p, t) => mkRating p t) l.
Definition both (lhs rhs : list (Z * nat)) : bool * bool := (has_better_rating (rate lhs) (rate rhs), has_better_rating (rate rhs) (rate lhs)).
Example zero_ratings :
  map (fun rhs => fst (both [] rhs)) [[]; [(INT_MAX, 1)]; [(INT_MAX, 1); (0%Z, 2)]] = [true; true; true].
Proof. reflexivity. Qed.
Example one_rating :
  (fst (both [(42%Z, 2)] []) = true) /\
  (map (both [(42%Z, 2)]) [[(42%Z, 2)]; [(41%Z, 2)]; [(43%Z, 2)]] = [(true, true); (true, false); (false, true)]) /\
  (fst (both [(42%Z, 2)] [(INT_MAX, 1); (43%Z, 2)]) = false).
Proof. repeat split; reflexivity. Qed.
Example two_ratings :
  map (both [(42%Z, 2); (1337%Z, 1)])
    [[(42%Z, 2); (1337%Z, 1)]; [(43%Z, 2); (1337%Z, 1)]; [(42%Z, 2); (1338%Z, 1)]; [(43%Z, 2); (1338%Z, 1)]; [(43%Z, 2); (0%Z, 3); (1338%Z, 1)]]
  = [(true, true); (true, true); (true, true); (false, true); (false, true)].
Proof. reflexivity. Qed.
Example three_ratings :
  let lhs := [(42%Z, 2); (25%Z, 3); (1337%Z, 1)] in
  fst (both lhs []) = true /\
  map (both lhs)
    [[(1338%Z, 1)]; [(1338%Z, 1); (43%Z, 2)]; [(1338%Z, 1); (43%Z, 2); (26%Z, 3)]; [(1336%Z, 1); (43%Z, 2); (26%Z, 3)]; [(1336%Z, 1); (43%Z, 2); (24%Z, 3)]]
  = [(true, true); (true, true); (false, true); (false, true); (true, false)].
Proof. split; reflexivity. Qed.

(** 447-535: in_sequences and concat. *)
Example configs :
  (map config_make [[0; 0]; [0; 1; 0]] = [Throw EInvalidArgument; Throw EInvalidArgument]) /\
  (map config_make [[0; 1]; [0; 2; 1]] = [Ret [0; 1]; Ret [0; 2; 1]]) /\
  (config_concat [] [] = Ret []) /\ (config_concat [] [0] = Ret [0]) /\ (config_concat [0] [1] = Ret [0; 1]) /\
  (config_concat [0; 1] [0] = Throw EInvalidArgument) /\ (config_concat [0; 1] [1] = Throw EInvalidArgument) /\
  (config_concat [0; 1] [2] = Ret [0; 1; 2]).
Proof. repeat split; reflexivity. Qed.

(** ** TypeTraits.cpp *)

(** void(), void() const, ... *)
Definition fn (ret : ty) (params : list ty) (c : bool) (r : refq) : signature := mkSig ret params false c r false.
Definition v0 : signature := fn 0 [] false RefNone.
Definition v0c : signature := fn 0 [] true RefNone.
Definition v0l : signature := fn 0 [] false RefL.
Definition v0cl : signature := fn 0 [] true RefL.
Definition v0r : signature := fn 0 [] false RefR.
Definition v0cr : signature := fn 0 [] true RefR.
Definition to_int (s : signature) : signature := fn 1 (sg_params s) (sg_const s) (sg_ref s).

(** 509-577: all variants with noexcept and both orders have the expected value. *)
Definition variants (f s : signature) : list bool :=
  flat_map (fun a => flat_map (fun b => [is_overloadable_with a b; is_overloadable_with b a]) [s; add_noexcept s]) [f; add_noexcept f].
Definition all_same (b : bool) (l : list (signature * signature)) : bool := forallb (fun '(f, s) => forallb (Bool.eqb b) (variants f s)) l.
Example not_overloadable :
  all_same false
    (map (fun s => (s, s)) [v0; v0c; v0l; v0cl; v0r; v0cr] ++ map (fun s => (to_int s, s)) [v0; v0c; v0l; v0cl; v0r; v0cr]
     ++ map (fun s => (v0, s)) [v0l; v0cl; v0r; v0cr] ++ map (fun s => (v0c, s)) [v0l; v0cl; v0r; v0cr])%list = true.
Proof. reflexivity. Qed.
Example overloadable :
  all_same true
    [(v0, v0c); (v0l, v0cl); (v0l, v0r); (v0l, v0cr); (v0cl, v0l); (v0cl, v0r); (v0cl, v0cr); (v0r, v0l); (v0r, v0cl); (v0r, v0cr);
     (v0cr, v0l); (v0cr, v0cl); (v0cr, v0r); (v0, fn 0 [1] false RefNone); (to_int v0, fn 0 [1] false RefNone);
     (fn 0 [1] false RefNone, fn 0 [2] false RefNone)] = true.
Proof. reflexivity. Qed.

(** 579-598: overload sets, with the first signature in front and at the end. *)
Definition set_ (l : list signature) : bool * bool := (is_overload_set l, is_overload_set (match l with [] => [] | x :: l' => l' ++ [x] end)%list).
Example overload_sets :
  map set_ [[v0; to_int v0]; [v0; v0cl]; [v0l; v0cl; to_int v0l; v0r; v0cr]; [v0]; [v0; v0c]; [v0l; v0cl; v0r; v0cr]; [fn 2 [1] false RefNone; v0l; v0cl; v0r; v0cr]]
  = map (fun b => (b, b)) [false; false; false; true; true; true; true].
Proof. reflexivity. Qed.

(** ** Printer.cpp *)

(** 244-600 (as far as the printed type is one of the model). *)
Definition quoted (s : string) : string := quote ++ s ++ quote.
Example printed_values :
  map print
    [VStr ""; VStr "Hello, World!"; VRange []; VRange [VInt 42]; VRange [VInt 42; VInt 1337]; VRange [VOpaque; VOpaque; VOpaque]; VRange [VInt 84; VInt 2674];
     VOpt None; VOpt (Some (VInt 1337)); VOpt (Some VOpaque); VTuple []; VTuple [VInt 1337]; VTuple [VOpaque; VInt 1337];
     VPtr 0; VPtr 0x1234567890ABCDEF; VPtr 0x1234; VOpaque; VInt 42]
  = [quoted ""; quoted "Hello, World!"; "{  }"; "{ 42 }"; "{ 42, 1337 }"; "{ {?}, {?}, {?} }"; "{ 84, 2674 }";
     "nullopt"; "{ value: 1337 }"; "{ value: {?} }"; "{  }"; "{ 1337 }"; "{ {?}, 1337 }";
     "0x0000000000000000"; "0x1234567890abcdef"; "0x0000000000001234"; "{?}"; "42"].
Proof. reflexivity. Qed.

(** 604-658: categories and constness. *)
Example printed_qualifiers :
  map print_category [CatAny; CatR; CatL] = ["any"; "rvalue"; "lvalue"] /\
  map print_constness [ConstAny; AsConst; NonConst] = ["any"; "const"; "mutable"].
Proof. split; reflexivity. Qed.

(** 660-754: strings of other character types, in both models of strings. *)
Definition he_llo : list N := [0x48; 0x65; 0x2c; 0x20; 0x6c; 0x6c; 0x6f]%N.
Definition he_llo_spaces : list N := ([0x20] ++ he_llo ++ [0x20])%list%N.
Example printed_units :
  flat_map (fun p => [print (VWStr p []); print (VWStr p he_llo); print (VWStr p he_llo_spaces)]) ["L"; "u8"; "u"; "U"]
  = flat_map (fun p => [p ++ quoted ""; p ++ quoted "0x48, 0x65, 0x2c, 0x20, 0x6c, 0x6c, 0x6f";
                        p ++ quoted "0x20, 0x48, 0x65, 0x2c, 0x20, 0x6c, 0x6c, 0x6f, 0x20"]) ["L"; "u8"; "u"; "U"].
Proof. reflexivity. Qed.
Example printed_units_strings :
  flat_map (fun t => [Strings.print_str t (Strings.SView []); Strings.print_str t (Strings.SView (map Z.of_N he_llo))]) [Strings.CtWchar; Strings.Ct8; Strings.Ct16; Strings.Ct32]
  = flat_map (fun p => [Ret (p ++ quoted ""); Ret (p ++ quoted "0x48, 0x65, 0x2c, 0x20, 0x6c, 0x6c, 0x6f")]) ["L"; "u8"; "u"; "U"].
Proof. reflexivity. Qed.

(** ** Reports.cpp *)

(** 270-333: the number of matches. *)
Definition times_text (l : list (N * N * N)) : list string := map (fun '(c, mn, mx) => print_times_state c mn mx) l.
Definition starts_with (p s : string) : bool := String.prefix p s.
Example times_states :
  forallb (starts_with "accepts further matches (matched ") (times_text [(0, 0, 1); (1, 0, 2); (21, 3, 42)]%N) = true /\
  forallb (starts_with "matched ") (times_text [(0, 1, 2); (1, 2, 5); (2, 3, 42)]%N) = true.
Proof. split; reflexivity. Qed.

(** 335-453: control states. *)
Definition tags (n : nat) : list rating := repeat (mkRating 0 1) n.
Example control_states :
  map print_control_state
    [StApplicable 42 1337 256 []; StApplicable 42 1337 256 (tags 1); StInapplicable 42 1337 256 (tags 1) [2; 3];
     StSaturated 42 1337 1337 []; StSaturated 42 1337 1337 [1]]
  = ["accepts further matches (matched 256 out of 1337 times)";
     "accepts further matches (matched 256 out of 1337 times)," ++ nl ++ tab ++ "and is the current element of 1 sequence(s).";
     "accepts further matches (matched 256 out of 1337 times)," ++ nl ++ tab ++ "but is not the current element of 2 sequence(s) (3 total).";
     "already saturated (matched 1337 times)";
     "already saturated (matched 1337 times)," ++ nl ++ tab ++ "and is part of 1 sequence(s)."].
Proof. reflexivity. Qed.

(** 870-930: the verdict on a report. *)
Definition plain (st : control_state) (l : list bool) : match_report := mkMatchReport None None st (map (fun b => mkPolicyReport b None) l).
Example verdicts :
  (forall st, map evaluate_match_report (map (plain st) [[false]; [true; false]; [false; true]]) = [MatchNone; MatchNone; MatchNone]) /\
  (map evaluate_match_report (flat_map (fun st => map (plain st) [[]; [true]; [true; true]]) [StInapplicable 0 1 0 [] [1]; StSaturated 0 42 42 []])
   = repeat MatchInapplicable 6) /\
  (map evaluate_match_report (map (plain (StApplicable 0 1 0 [])) [[]; [true]; [true; true]]) = repeat MatchFull 3).
Proof. repeat split; reflexivity. Qed.

(** 933-1107: match reports; the location is the one of Scenario.v. *)
Definition from : string := "from: main.cpp[10:5], main".
Definition req (l : list bool) : list policy_report :=
  match l with
  | [a; b] => [mkPolicyReport a (Some "Requirement1 description"); mkPolicyReport b (Some "Requirement2 description")]
  | _ => []
  end.
Example match_reports :
  map print_match_report
    [mkMatchReport (Some here) None (StApplicable 0 1 0 []) [];
     mkMatchReport (Some here) None (StApplicable 0 1 0 []) (req [true; true]);
     mkMatchReport (Some here) None (StSaturated 0 42 42 []) [];
     mkMatchReport (Some here) None (StInapplicable 0 42 5 (tags 1) [2; 3]) [];
     mkMatchReport (Some here) None (StSaturated 0 42 42 []) (req [true; true]);
     mkMatchReport (Some here) None (StApplicable 0 1 0 []) (req [false; false]);
     mkMatchReport (Some here) None (StApplicable 0 1 0 []) (req [true; false]);
     mkMatchReport None None (StApplicable 0 1 0 []) []]
  = [lines ["Matched expectation: {"; from; "}"];
     lines ["Matched expectation: {"; from; "passed:"; tab ++ "Requirement1 description,"; tab ++ "Requirement2 description,"; "}"];
     lines ["Inapplicable, but otherwise matched expectation: {"; "reason: already saturated (matched 42 times)"; from; "}"];
     lines ["Inapplicable, but otherwise matched expectation: {"; "reason: accepts further matches (matched 5 out of 42 times),";
            tab ++ "but is not the current element of 2 sequence(s) (3 total)."; from; "}"];
     lines ["Inapplicable, but otherwise matched expectation: {"; "reason: already saturated (matched 42 times)"; from; "passed:";
            tab ++ "Requirement1 description,"; tab ++ "Requirement2 description,"; "}"];
     lines ["Unmatched expectation: {"; from; "failed:"; tab ++ "Requirement1 description,"; tab ++ "Requirement2 description,"; "}"];
     lines ["Unmatched expectation: {"; from; "failed:"; tab ++ "Requirement2 description,"; "passed:"; tab ++ "Requirement1 description,"; "}"];
     lines ["Matched expectation: {"; "}"]].
Proof. reflexivity. Qed.

(** 1109-1163: call reports. *)
Definition type_name (t : ty) : string := match t with 0 => "v" | 1 => "i" | _ => "d" end.
Example call_reports :
  map (print_call_report type_name) [mkCallReport 0 [] here CatAny ConstAny; mkCallReport 1 [(2, "4.2")] here CatL AsConst]
  = [lines ["call from main.cpp[10:5], main"; "constness: any"; "value category: any"; "return type: v"];
     lines ["call from main.cpp[10:5], main"; "constness: const"; "value category: lvalue"; "return type: i"; "args:"; tab ++ "arg[0]: {";
            tab ++ tab ++ "type: d,"; tab ++ tab ++ "value: 4.2"; tab ++ "},"]].
Proof. reflexivity. Qed.

(** 1165-1290: expectation reports. *)
Example exp_reports :
  let f := Some "finalizer description" in let t := Some "times description" in let d := Some "expectation1 description" in
  map print_exp_report
    [mkExpReport (Some here) f t [d]; mkExpReport (Some here) f None [d]; mkExpReport (Some here) None t [d]; mkExpReport (Some here) f t [None];
     mkExpReport (Some here) f t []; mkExpReport (Some here) f t [d; None]; mkExpReport None f t [d]]
  = let head := "Expectation report:" in let times := "times: times description" in let final := "finally: finalizer description" in
    [lines [head; from; times; "expects:"; tab ++ "expectation1 description,"; final];
     lines [head; from; "expects:"; tab ++ "expectation1 description,"; final];
     lines [head; from; times; "expects:"; tab ++ "expectation1 description,"];
     lines [head; from; times; final];
     lines [head; from; times; final];
     lines [head; from; times; "expects:"; tab ++ "expectation1 description,"; final];
     lines [head; times; "expects:"; tab ++ "expectation1 description,"; final]].
Proof. reflexivity. Qed.

(** ** ExpectationPolicies.cpp *)

(** 86-91, 140-145, 970-978: descriptions of the policies. *)
Example policy_descriptions :
  (map (fun c => policy_describe (PCategory c)) [CatL; CatR; CatAny]
   = map (fun s => Ret (Some ("expect: from " ++ s ++ " category overload"))) ["lvalue"; "rvalue"; "any"]) /\
  (map (fun c => policy_describe (PConstness c)) [AsConst; NonConst; ConstAny]
   = map (fun s => Ret (Some ("expect: from " ++ s ++ " qualified overload"))) ["const"; "mutable"; "any"]) /\
  (policy_describe (PArg 0 (mkMatcher (fun _ => UOk true) (UOk "matcher description")) (fun v => UOk v))
   = Ret (Some "expect: arg[0] matcher description")).
Proof. repeat split; reflexivity. Qed.

(** ** ControlPolicy.cpp *)

(** 17-68: limits. *)
Example limits :
  (times_default = mkTimes 1 1) /\
  (map (fun '(mn, mx) => times_config mn mx) [(0, 0); (0, 4); (3, 7)]%Z = [Ret (mkTimes 0 0); Ret (mkTimes 0 4); Ret (mkTimes 3 7)]) /\
  (map (fun '(mn, mx) => times_config mn mx) [(1, 0); (8, 4); (-1, -1); (-1, 3); (-42, -40); (- INT_MAX - 1, - INT_MAX + 3)]%Z = repeat (Throw EInvalidArgument) 6).
Proof. repeat split; reflexivity. Qed.

(** 70-126 and 266-354: a policy which is consumed until it is saturated, without sequence and with one sequence; the states before each of
    the matches and at the end, and whether it is satisfied then. *)
Fixpoint consumed (n : nat) (ss : seq_store) (c : control) : outcome (list (control_state * bool)) :=
  obind (control_state_of ss c) (fun st =>
    match n with
    | 0 => Ret [(st, control_is_satisfied c)]
    | Datatypes.S n' =>
        obind (control_consume ss c) (fun '(ss1, c1) => obind (consumed n' ss1 c1) (fun l => Ret ((st, control_is_satisfied c) :: l)))
    end).
Definition made (mn mx : nat) (n : nat) : outcome (list (control_state * bool)) :=
  obind (control_new (repeat (seq_new Greedy) n) (mkTimes (Z.of_nat mn) (Z.of_nat mx)) (seq 0 n)) (fun '(ss, c) => consumed mx ss c).
Definition expected (mn mx : nat) (n : nat) : list (control_state * bool) :=
  (map (fun i => (StApplicable (Z.of_nat mn) (Z.of_nat mx) (Z.of_nat i) (map (fun t => mkRating 0 t) (seq 0 n)), mn <=? i)%nat) (seq 0 mx)
   ++ [(StSaturated (Z.of_nat mn) (Z.of_nat mx) (Z.of_nat mx) (seq 0 n), true)])%list.
Definition grid {A : Type} (f : nat -> nat -> nat -> A) : list A :=
  flat_map (fun n => flat_map (fun mn => map (fun d => f mn (mn + d)%nat n) (seq 0 5)) (seq 0 5)) [0; 1; 2].
Example policies_until_saturated : grid made = grid (fun mn mx n => Ret (expected mn mx n)).
Proof. vm_compute. reflexivity. Qed.

(** 397-489: the order of two policies in one sequence. *)
Definition two_policies (k : Z) : outcome (seq_store * control * control) :=
  obind (control_new [seq_new Lazy] (mkTimes 1 1) [0]) (fun '(ss, c1) =>
    obind (control_new ss (mkTimes k k) [0]) (fun '(ss, c2) => Ret (ss, c1, c2))).
Example order_of_policies :
  forall k, In k [1; 2; 3; 4]%Z ->
  obind (two_policies k) (fun '(ss, c1, c2) =>
    obind (control_state_of ss c1) (fun a => obind (control_state_of ss c2) (fun b =>
      obind (control_consume ss c1) (fun '(ss, c1) => obind (control_state_of ss c1) (fun a' => obind (control_state_of ss c2) (fun b' => Ret [a; b; a'; b']))))))
  = Ret [StApplicable 1 1 0 [mkRating INT_MAX 0]; StInapplicable k k 0 [] [0]; StSaturated 1 1 1 [0]; StApplicable k k 0 [mkRating (INT_MAX - 1) 0]].
Proof. intros k [<-|[<-|[<-|[<-|[]]]]]; reflexivity. Qed.

(** ** Matcher.cpp and matchers/*.cpp *)

Definition ints : Matcher.operators Z Z := Matcher.mkOps Z.eqb (fun a b => negb (a =? b)%Z) Z.ltb Z.leb (fun a b => (b <? a)%Z) (fun a b => (b <=? a)%Z).
Definition show_int (z : Z) : outcome string := Ret (dec_Z z).
Definition show_ints (l : list Z) : outcome string := Ret (print (VRange (map VInt l))).
(** A matcher and its inverted one: descriptions and results. *)
Definition probes {T S : Type} (show : S -> outcome string) (m : Matcher.pmatcher T S) (targets : list T) : list (outcome string) * list (outcome bool * outcome bool) :=
  ([Matcher.pm_describe show m; Matcher.pm_describe show (Matcher.pm_not m)],
   map (fun t => (Matcher.pm_matches m t, Matcher.pm_matches (Matcher.pm_not m) t)) targets).
Definition answers (d i : string) (yes : list bool) : list (outcome string) * list (outcome bool * outcome bool) :=
  ([Ret d; Ret i], map (fun b => (Ret b, Ret (negb b))) yes).

Definition min_int : Z := (- INT_MAX - 1)%Z.
Example comparisons :
  let v := Matcher.TValue 42%Z in
  (probes show_int (Matcher.m_eq ints v) [42; 1337]%Z = answers "== 42" "!= 42" [true; false]) /\
  (probes show_int (Matcher.m_ne ints v) [1337; 42]%Z = answers "!= 42" "== 42" [true; false]) /\
  (probes show_int (Matcher.m_lt ints v) [min_int; -1; 0; 1; 41; 42; 43; INT_MAX]%Z = answers "< 42" ">= 42" [true; true; true; true; true; false; false; false]) /\
  (probes show_int (Matcher.m_le ints v) [min_int; -1; 0; 1; 42; 43; INT_MAX]%Z = answers "<= 42" "> 42" [true; true; true; true; true; false; false]) /\
  (probes show_int (Matcher.m_gt ints v) [43; INT_MAX; min_int; -1; 0; 1; 42]%Z = answers "> 42" "<= 42" [true; true; false; false; false; false; false]) /\
  (probes show_int (Matcher.m_ge ints v) [42; 43; INT_MAX; min_int; -1; 0; 1; 41]%Z = answers ">= 42" "< 42" [true; true; true; false; false; false; false; false]).
Proof. repeat split; reflexivity. Qed.

Definition eq_ (a b : Z) : outcome bool := Ret (a =? b)%Z.
Definition lt_ (a b : Z) : outcome bool := Ret (a <? b)%Z.
Example ranges :
  (probes show_ints (Matcher.range_eq true eq_ []) [[]; [42%Z]] = answers "elements are {  }" "elements are not {  }" [true; false]) /\
  (probes show_ints (Matcher.range_eq true eq_ [1337; 42]%Z) [[1337; 42]; [42; 1337]; [42]]%Z
   = answers "elements are { 1337, 42 }" "elements are not { 1337, 42 }" [true; false; false]) /\
  (probes show_ints (Matcher.range_unordered_eq Z.eqb []) [[]; [42%Z]] = answers "is a permutation of {  }" "is not a permutation of {  }" [true; false]) /\
  (probes show_ints (Matcher.range_unordered_eq Z.eqb [1337; 42]%Z) [[1337; 42]; [42; 1337]; [42]]%Z
   = answers "is a permutation of { 1337, 42 }" "is not a permutation of { 1337, 42 }" [true; true; false]) /\
  (probes show_int (Matcher.range_is_sorted lt_) [[]; [42; 1337]; [1337; 42]]%Z = answers "is a sorted range" "is an unsorted range" [true; true; false]) /\
  (probes show_int (@Matcher.range_is_empty Z Z) [[]; [42]]%Z = answers "is an empty range" "is not an empty range" [true; false]) /\
  (probes show_int (@Matcher.range_has_size Z 2) [[42; 1337]; [42]]%Z = answers "has size of 2" "has different size than 2" [true; false]) /\
  (probes show_int (@Matcher.range_has_size Z 1) [[]; [42; 1337]]%Z = answers "has size of 1" "has different size than 1" [false; false]).
Proof. repeat split; reflexivity. Qed.

Definition element (m : Matcher.pmatcher Z Z) : Matcher.inner Z := Matcher.as_inner show_int m.
Example elements :
  let v z := Matcher.TValue z in let d := fun i => Matcher.in_describe i in
  (probes d (Matcher.range_each (element (Matcher.m_ge ints (v 42%Z)))) [[]; [42; 1337]]%Z = answers "each el in range: el >= 42" "not each el in range: el >= 42" [true; true]) /\
  (probes d (Matcher.range_each (element (Matcher.m_gt ints (v 42%Z)))) [[42; 1337]]%Z = answers "each el in range: el > 42" "not each el in range: el > 42" [false]) /\
  (probes d (Matcher.range_each (element (Matcher.m_gt ints (v 1337%Z)))) [[42; 1337]]%Z = answers "each el in range: el > 1337" "not each el in range: el > 1337" [false]) /\
  (probes d (Matcher.range_any (element (Matcher.m_ge ints (v 42%Z)))) [[42; 1337]]%Z = answers "any el in range: el >= 42" "none el in range: el >= 42" [true]) /\
  (probes d (Matcher.range_any (element (Matcher.m_ge ints (v 1337%Z)))) [[42; 1337]]%Z = answers "any el in range: el >= 1337" "none el in range: el >= 1337" [true]) /\
  (probes d (Matcher.range_any (element (Matcher.m_gt ints (v 1337%Z)))) [[]; [42; 1337]]%Z = answers "any el in range: el > 1337" "none el in range: el > 1337" [false; false]).
Proof. repeat split; reflexivity. Qed.

(** Strings: literals as arrays (with the terminating zero), std::string and views. *)
Definition chars (s : string) : list Z := map (fun c => Z.of_nat (nat_of_ascii c)) (list_ascii_of_string s).
Definition forms (s : string) : list Strings.str := [Strings.SPtr (Some (chars s ++ [0%Z])%list); Strings.SString (chars s); Strings.SView (chars s)].
Definition show_char (s : Strings.str) : outcome string := Strings.print_str Strings.CtChar s.
Definition for_all_forms (mk : Strings.str -> Matcher.pmatcher Strings.str Strings.str) (show : Strings.str -> outcome string) (pattern : string) (d i : string) (yes no : list string) : Prop :=
  forall p, In p (forms pattern) ->
    probes show (mk p) (flat_map forms (yes ++ no)%list) = answers d i (repeat true (3 * List.length yes) ++ repeat false (3 * List.length no))%list.
Ltac forms := intros p [<-|[<-|[<-|[]]]]; vm_compute; reflexivity.

Definition hello_units : string := "0x48, 0x65, 0x6c, 0x6c, 0x6f, 0x2c, 0x20, 0x57, 0x6f, 0x72, 0x6c, 0x64, 0x21".
Example strings_eq :
  for_all_forms Strings.str_eq show_char "" ("is equal to " ++ quoted "") ("is not equal to " ++ quoted "") [""] [" "] /\
  for_all_forms Strings.str_eq show_char "Hello, World!" ("is equal to " ++ quoted "Hello, World!") ("is not equal to " ++ quoted "Hello, World!") ["Hello, World!"] ["Hello, WOrld!"].
Proof. split; forms. Qed.
Example strings_eq_wide :
  forall ct prefix, In (ct, prefix) [(Strings.CtWchar, "L"); (Strings.Ct8, "u8"); (Strings.Ct16, "u"); (Strings.Ct32, "U")] ->
  for_all_forms Strings.str_eq (Strings.print_str ct) "Hello, World!" ("is equal to " ++ prefix ++ quoted hello_units) ("is not equal to " ++ prefix ++ quoted hello_units)
    ["Hello, World!"] ["Hello, WOrld!"].
Proof. intros ct prefix [E|[E|[E|[E|[]]]]]; inversion E; subst; forms. Qed.
Example strings_contains :
  for_all_forms Strings.str_contains show_char "lo, Wo" ("contains " ++ quoted "lo, Wo") ("contains not " ++ quoted "lo, Wo")
    ["lo, Wo"; "Hello, World!"] ["Hello, W"; "o, World!"; "lo, wo"] /\
  (forall signed, for_all_forms (Strings.str_contains_ci signed) show_char "lo, Wo" ("case-insensitively contains " ++ quoted "lo, Wo")
    ("case-insensitively contains not " ++ quoted "lo, Wo") ["lo, Wo"; "Lo, Wo"; "lo, wo"; "HelLO, wOrld!"] ["Hello, W"; "o, World!"]).
Proof. split; [|intros []]; forms. Qed.
Example strings_starts :
  for_all_forms Strings.str_starts show_char "Hello, " ("starts with " ++ quoted "Hello, ") ("starts not with " ++ quoted "Hello, ")
    ["Hello, "; "Hello, World!"] [" Hello, "; "Hello,"; "hello, "; "ello, "] /\
  (forall signed, for_all_forms (Strings.str_starts_ci signed) show_char "Hello, " ("case-insensitively starts with " ++ quoted "Hello, ")
    ("case-insensitively starts not with " ++ quoted "Hello, ") ["Hello, "; "hello, "; "hElLO, "; "hElLO, World!"] [" Hello, "; "Hello,"; "ello, "]).
Proof. split; [|intros []]; forms. Qed.
Example strings_ends :
  for_all_forms Strings.str_ends show_char ", World!" ("ends with " ++ quoted ", World!") ("ends not with " ++ quoted ", World!")
    [", World!"; "Hello, World!"] [", World! "; " World!"; ", worlD!"; ", World"] /\
  (forall signed, for_all_forms (Strings.str_ends_ci signed) show_char ", World!" ("case-insensitively ends with " ++ quoted ", World!")
    ("case-insensitively ends not with " ++ quoted ", World!") [", World!"; ", WorlD!"; "Hello, World!Hello, WoRlD!"] [", World! "; " World!"; ", World"]).
Proof. split; [|intros []]; forms. Qed.
Example strings_eq_ci :
  forall signed, for_all_forms (Strings.str_eq_ci signed) show_char "Hello, World!" ("is case-insensitively equal to " ++ quoted "Hello, World!")
    ("is case-insensitively not equal to " ++ quoted "Hello, World!") ["Hello, World!"; "hello, World!"; "Hello, world!"; "HelLo, world!"]
    [" hello, world!"; "hello, world! "; "hello,world!"].
Proof. intros []; forms. Qed.
