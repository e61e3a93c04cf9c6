(** * Reference: what the library does, told without its data structures.

    The state of the reference machine holds no counters, no cursors, no entry states, no lists of expectations and no
    flags of destroyed sequences: it consists of the objects the user made (as they were declared) and of what was
    reported so far. How often an expectation matched, which one is the current element of a sequence, what rating it has and whether a
    sequence died unfulfilled is computed from the declarations and the reports. *)

From Verif Require Import Base Sequence Control Signature Printer Reports Expectation Builder BuildSpec World WorldSpec.

(** An expectation as declared, the place it belongs to and whether its scope lasts. *)
Record rexp : Type := mkRExp {
  x_loc : loc;
  x_lo : Z;
  x_hi : Z;
  x_in : list nat;
  x_reqs : list policy;
  x_fin : finalizer;
  x_home : nat;
  x_live : bool
}.

Record rworld : Type := mkRWorld {
  rw_flavours : list strategy;     (* of the sequences, in creation order *)
  rw_iface : list bool;            (* does the user still have the sequence object? *)
  rw_exps : list rexp;             (* in creation order *)
  rw_homes : nat;                  (* how many places for expectations were made *)
  rw_mocks : list mock;
  rw_scoped : list handle;
  rw_frames : list frame;
  rw_rid : nat;
  rw_reporter : reporter;
  rw_uncaught : nat;
  rw_trace : list event
}.

Inductive rstepped : Type :=
| RNext (r : rworld) (res : result)
| RStop
| RWrong (u : ub)
| RInvalid.

Definition with_trace (r : rworld) (evs : list event) : rworld :=
  mkRWorld (rw_flavours r) (rw_iface r) (rw_exps r) (rw_homes r) (rw_mocks r) (rw_scoped r) (rw_frames r)
    (rw_rid r) (rw_reporter r) (rw_uncaught r) (rw_trace r ++ evs).
Definition with_frames (r : rworld) (fs : list frame) : rworld :=
  mkRWorld (rw_flavours r) (rw_iface r) (rw_exps r) (rw_homes r) (rw_mocks r) (rw_scoped r) fs
    (rw_rid r) (rw_reporter r) (rw_uncaught r) (rw_trace r).
Definition with_exps (r : rworld) (xs : list rexp) : rworld :=
  mkRWorld (rw_flavours r) (rw_iface r) xs (rw_homes r) (rw_mocks r) (rw_scoped r) (rw_frames r)
    (rw_rid r) (rw_reporter r) (rw_uncaught r) (rw_trace r).
Definition with_scoped (r : rworld) (hs : list handle) : rworld :=
  mkRWorld (rw_flavours r) (rw_iface r) (rw_exps r) (rw_homes r) (rw_mocks r) hs (rw_frames r)
    (rw_rid r) (rw_reporter r) (rw_uncaught r) (rw_trace r).
Definition with_mocks (r : rworld) (homes : nat) (ms : list mock) : rworld :=
  mkRWorld (rw_flavours r) (rw_iface r) (rw_exps r) homes ms (rw_scoped r) (rw_frames r)
    (rw_rid r) (rw_reporter r) (rw_uncaught r) (rw_trace r).
Definition with_sequences (r : rworld) (fl : list strategy) (ifs : list bool) : rworld :=
  mkRWorld fl ifs (rw_exps r) (rw_homes r) (rw_mocks r) (rw_scoped r) (rw_frames r)
    (rw_rid r) (rw_reporter r) (rw_uncaught r) (rw_trace r).

(** ** What follows from declarations and reports *)

Definition mem (s : nat) (l : list nat) : bool := existsb (Nat.eqb s) l.

(** How often the expectation matched. *)
Definition matched (r : rworld) (e : nat) : nat := accepted (rw_trace r) e.

(** Did it match often enough? *)
Definition fulfilled (r : rworld) (e : nat) : bool :=
  match nth_error (rw_exps r) e with
  | Some x => (x_lo x <=? Z.of_nat (matched r e))%Z
  | None => true
  end.

(** The expectations of a sequence, in creation order. *)
Definition elements (r : rworld) (s : nat) : list nat :=
  filter (fun e => match nth_error (rw_exps r) e with Some x => mem s (x_in x) | None => false end)
    (seq 0 (length (rw_exps r))).

(** It is [e]'s turn in the sequence: all earlier elements are fulfilled, no later one has begun. *)
Definition turn (r : rworld) (e s : nat) : bool :=
  forallb (fun k => if k <? e then fulfilled r k else if e <? k then matched r k =? 0 else true) (elements r s).

(** The position of [e] in the sequence and the position of the latest element which has begun. *)
Definition position (r : rworld) (s e : nat) : nat := length (filter (fun k => k <? e) (elements r s)).
Definition progress (r : rworld) (s : nat) : nat :=
  match filter (fun k => 0 <? matched r k) (rev (elements r s)) with
  | [] => 0
  | k :: _ => position r s k
  end.

(** The rating of [e]: its distance to the progress of the sequence, counted from the other end if the sequence is lazy. *)
Definition rate (r : rworld) (e s : nat) : rating :=
  let distance := (Z.of_nat (position r s e) - Z.of_nat (progress r s))%Z in
  mkRating (match nth_error (rw_flavours r) s with
            | Some Lazy => INT_MAX - distance
            | Some Greedy => distance
            | None => 0
            end)%Z s.

Definition exhausted (r : rworld) (e : nat) (x : rexp) : bool := (Z.of_nat (matched r e) =? x_hi x)%Z.
Definition applies (r : rworld) (e : nat) (x : rexp) : bool :=
  negb (exhausted r e x) && forallb (turn r e) (x_in x).

Definition condition (r : rworld) (e : nat) (x : rexp) : control_state :=
  let n := Z.of_nat (matched r e) in
  if exhausted r e x then StSaturated (x_lo x) (x_hi x) n (x_in x)
  else if applies r e x then StApplicable (x_lo x) (x_hi x) n (map (rate r e) (x_in x))
  else StInapplicable (x_lo x) (x_hi x) n (map (rate r e) (filter (turn r e) (x_in x)))
         (filter (fun s => negb (turn r e s)) (x_in x)).

Definition description (r : rworld) (e : nat) (x : rexp) (ds : list (option string)) : exp_report :=
  mkExpReport (Some (x_loc x)) None (Some (print_control_state (condition r e x))) ds.

(** ** Ends of lifetimes *)

(** A sequence lives as long as the user has it or an expectation in scope takes part in it. *)
Definition used (r : rworld) (s : nat) : bool :=
  nth s (rw_iface r) false || existsb (fun x => x_live x && mem s (x_in x)) (rw_exps r).

Fixpoint leading {A : Type} (f : A -> bool) (l : list A) : nat :=
  match l with
  | [] => 0
  | x :: l' => if f x then S (leading f l') else 0
  end.

(** The complaint about a sequence nobody uses any longer. *)
Definition complaint (r : rworld) (s : nat) : list report :=
  if used r s || forallb (fulfilled r) (elements r s) then []
  else [RError (leading (fulfilled r) (elements r s)) (length (elements r s))].

Definition complaints (r : rworld) (tags : list nat) : list (report * nat) :=
  flat_map (fun s => map (fun rep => (rep, s)) (complaint r s)) tags.

(** The sequences [tags] lose a user while [u] exceptions are in flight: the complaints are reported, and the program only survives if the
    reporter returns. *)
Definition let_go (r : rworld) (u : nat) (tags : list nat) (res : result) : rstepped :=
  if forallb (fun p => match rw_reporter r (fst p) u with Returns => true | _ => false end) (complaints r tags)
  then RNext (with_trace r (map (fun p => EvReport (rw_rid r) (fst p) [snd p]) (complaints r tags))) res
  else RStop.

Definition ended_exp (x : rexp) : rexp :=
  mkRExp (x_loc x) (x_lo x) (x_hi x) (x_in x) (x_reqs x) (x_fin x) (x_home x) false.

(** The scope of an expectation ends. *)
Definition end_of (r : rworld) (e : nat) : rstepped :=
  match nth_error (rw_exps r) e with
  | None => RWrong UbDangling
  | Some x =>
      let r' := with_exps r (upd (rw_exps r) e (ended_exp x)) in
      if fulfilled r e then let_go r' (rw_uncaught r) (x_in x) RUnit
      else
        match omap policy_describe (x_reqs x) with
        | Ret ds =>
            let rep := RUnfulfilled (description r e x ds) in
            let r2 := with_trace r' [EvReport (rw_rid r) rep [e]] in
            match rw_reporter r rep (rw_uncaught r) with
            | Returns => let_go r2 (rw_uncaught r) (x_in x) RUnit
            | Throws => let_go r2 (S (rw_uncaught r)) (x_in x) (RThrow EReporter)
            | Terminates => RStop
            end
        | Throw y => let_go r' (S (rw_uncaught r)) (x_in x) (RThrow y)
        | Terminate => RStop
        | Undef u => RWrong u
        end
  end.

(** ** Calls *)

(** The expectations in scope which belong to a place, newest first. *)
Definition present (r : rworld) (home : nat) : list nat :=
  rev (filter (fun e => match nth_error (rw_exps r) e with Some x => x_live x && (x_home x =? home) | None => false end)
         (seq 0 (length (rw_exps r)))).

(** One expectation is asked whether it accepts the call. *)
Definition ask (r : rworld) (c : call_info) (e : nat) : outcome match_attempt :=
  match nth_error (rw_exps r) e with
  | None => Undef UbDangling
  | Some x =>
      match omap (policy_report_of c) (x_reqs x) with
      | Ret rs => Ret (AttemptReport (mkMatchReport (Some (x_loc x)) None (condition r e x) rs))
      | Throw y =>
          match omap policy_describe (x_reqs x) with
          | Ret ds =>
              match rw_reporter r (RUnhandled (make_call_report c) (description r e x ds) y) (rw_uncaught r) with
              | Returns => Ret (AttemptUnhandled (description r e x ds) y)
              | _ => Terminate
              end
          | _ => Terminate
          end
      | Terminate => Terminate
      | Undef u => Undef u
      end
  end.

(** The answers: those with accepted arguments and those without, and the exceptions. *)
Definition answers : Type := list (nat * match_attempt).
Definition accepting_answers (as_ : answers) : list (nat * match_report) :=
  flat_map (fun p => match snd p with
                     | AttemptReport m => if forallb pr_matching (mr_policies m) then [(fst p, m)] else []
                     | AttemptUnhandled _ _ => []
                     end) as_.
Definition rejecting_answers (as_ : answers) : list (nat * match_report) :=
  flat_map (fun p => match snd p with
                     | AttemptReport m => if forallb pr_matching (mr_policies m) then [] else [(fst p, m)]
                     | AttemptUnhandled _ _ => []
                     end) as_.
Definition exceptions_of (rid : nat) (c : call_info) (as_ : answers) : list event :=
  flat_map (fun p => match snd p with
                     | AttemptReport _ => []
                     | AttemptUnhandled rep y => [EvReport rid (RUnhandled (make_call_report c) rep y) [fst p]]
                     end) as_.

Definition applies_now (r : rworld) (p : nat * match_report) : bool :=
  match nth_error (rw_exps r) (fst p) with Some x => applies r (fst p) x | None => false end.

(** Sequence [s] votes for [b] against [a]: lazy sequences prefer the older expectation, greedy ones the newer. *)
Definition votes_for (r : rworld) (a b s : nat) : bool :=
  match nth_error (rw_flavours r) s with
  | Some Lazy => b <? a
  | _ => a <? b
  end.

(** [a] stays the favourite if it takes part in a sequence without [b], or not more than half of its sequences vote for [b]. *)
Definition stays (r : rworld) (a b : nat) : bool :=
  match nth_error (rw_exps r) a, nth_error (rw_exps r) b with
  | Some xa, Some xb =>
      existsb (fun s => negb (mem s (x_in xb))) (x_in xa)
      || (2 * length (filter (votes_for r a b) (x_in xa)) <=? length (x_in xa))
  | _, _ => true
  end.

Definition favourite (r : rworld) (first : nat * match_report) (others : list (nat * match_report)) : nat * match_report :=
  fold_left (fun b p => if stays r (fst b) (fst p) then b else p) others first.

Definition leave (ne : bool) (r : rworld) (x : exn) : rstepped := if ne then RStop else RNext r (RThrow x).

Definition call_on (r : rworld) (home : nat) (c : call_info) (ne : bool) : rstepped :=
  match omap (ask r c) (present r home) with
  | Ret l =>
      let as_ := combine (present r home) l in
      let r1 := with_trace r (exceptions_of (rw_rid r) c as_) in
      match filter (applies_now r) (accepting_answers as_) with
      | first :: others =>
          let '(n, m) := favourite r first others in
          let rep := RFull (make_call_report c) m in
          match rw_reporter r rep (rw_uncaught r), nth_error (rw_exps r) n with
          | Returns, Some x =>
              RNext (with_frames (with_trace r1 [EvReport (rw_rid r) rep [n]])
                       (mkFrame n (side_effects (x_reqs x)) false false ne :: rw_frames r)) RUnit
          | _, _ => RStop
          end
      | [] =>
          let '(rep, who) :=
            match accepting_answers as_ with
            | [] => (RNoMatch (make_call_report c) (map snd (rejecting_answers as_)), map fst (rejecting_answers as_))
            | l => (RInapplicable (make_call_report c) (map snd l), map fst l)
            end in
          match rw_reporter r rep (rw_uncaught r) with
          | Returns => RWrong UbUnreachable
          | Throws => leave ne (with_trace r1 [EvReport (rw_rid r) rep who]) EReporter
          | Terminates => RStop
          end
      end
  | Throw _ | Terminate => RStop
  | Undef u => RWrong u
  end.

(** The overload number [ov] of a mock: signature and place of its expectations. *)
Definition overload_of (r : rworld) (m ov : nat) : rstepped + (signature * nat) :=
  match nth_error (rw_mocks r) m with
  | Some (mkMock sigs colls true) =>
      match nth_error sigs ov, colls with
      | Some s, Some homes => match nth_error homes ov with Some h => inr (s, h) | None => inl RInvalid end
      | Some _, None => inl (RWrong UbNull)
      | None, _ => inl RInvalid
      end
  | _ => inl RInvalid
  end.

(** ** Declaring an expectation *)

Fixpoint distinct (l : list nat) : bool :=
  match l with
  | [] => true
  | s :: l' => negb (mem s l') && distinct l'
  end.

Definition clause_accepted (r : rworld) (nparams : nat) (cl : clause) : bool :=
  match cl with
  | ClSeq tags => match tags with [] => false | _ => forallb (fun s => nth s (rw_iface r) false) tags end
  | ClPolicy (PArg i _ _) => i <? nparams
  | ClPolicy _ => true
  | ClTimes t => times_expr_int t
  | ClFinal FInit => false
  | ClFinal _ => true
  end.

(** What the compiler accepts. *)
Definition compiles (r : rworld) (s : signature) (ms : list matcher) (cls : list clause) : bool :=
  (length ms =? length (sg_params s)) && forallb (clause_accepted r (length (sg_params s))) cls
  && (length (times_clauses cls) <=? 1) && (length (final_clauses cls) <=? 1)
  && ((sg_ret s =? 0) || (0 <? length (final_clauses cls))).

(** What is checked when the expression is evaluated. *)
Definition meaningful (cls : list clause) : bool :=
  (0 <=? fst (declared_limits cls))%Z && (fst (declared_limits cls) <=? snd (declared_limits cls))%Z
  && distinct (clause_seqs cls).

Definition declare (r : rworld) (s : signature) (home : nat) (ms : list matcher) (cls : list clause) (l : loc) : rstepped :=
  if negb (compiles r s ms cls) then RInvalid
  else if negb (meaningful cls) then RNext r (RThrow EInvalidArgument)
  else if existsb (fun t => INT_MAX <? Z.of_nat (length (elements r t)))%Z (clause_seqs cls) then RStop
  else
    RNext (with_scoped
             (with_exps r
                (rw_exps r ++
                 [mkRExp l (fst (declared_limits cls)) (snd (declared_limits cls)) (clause_seqs cls)
                    (arg_requirements ms ++ overload_requirements s ++ clause_policies cls) (declared_finalizer cls) home true]))
             (rw_scoped r ++ [HOwns (length (rw_exps r))])) RUnit.

(** ** All operations *)

Definition in_scope (r : rworld) (e : nat) : bool :=
  match nth_error (rw_exps r) e with Some x => x_live x | None => false end.

Definition ref_step (r : rworld) (o : op) : rstepped :=
  match o with
  | ONewSeq st => RNext (with_sequences r (rw_flavours r ++ [st]) (rw_iface r ++ [true])) RUnit
  | ODropSeq s =>
      if nth s (rw_iface r) false
      then let_go (with_sequences r (rw_flavours r) (upd (rw_iface r) s false)) (rw_uncaught r) [s] RUnit
      else RInvalid
  | ONewMock sigs =>
      if is_overload_set sigs && forallb (fun s => negb (sg_variadic s)) sigs
      then RNext (with_mocks r (rw_homes r + length (mock_collections sigs))
                    (rw_mocks r ++ [mkMock sigs (Some (map (fun s => match overload_collection sigs s with
                                                                     | Some i => rw_homes r + i
                                                                     | None => rw_homes r
                                                                     end) sigs)) true])) RUnit
      else RInvalid
  | OMoveMock m =>
      match nth_error (rw_mocks r) m with
      | Some (mkMock sigs homes true) =>
          RNext (with_mocks r (rw_homes r) (upd (rw_mocks r) m (mkMock sigs None true) ++ [mkMock sigs homes true])) RUnit
      | _ => RInvalid
      end
  | OMoveAssignMock dst src =>
      match nth_error (rw_mocks r) dst, nth_error (rw_mocks r) src with
      | Some (mkMock sigs _ true), Some (mkMock sigs' homes true) =>
          if list_eq_dec signature_eq_dec sigs sigs'
          then if dst =? src then RNext r RUnit
               else RNext (with_mocks r (rw_homes r)
                             (upd (upd (rw_mocks r) src (mkMock sigs None true)) dst (mkMock sigs homes true))) RUnit
          else RInvalid
      | _, _ => RInvalid
      end
  | ODestroyMock m =>
      match nth_error (rw_mocks r) m with
      | Some (mkMock sigs _ true) => RNext (with_mocks r (rw_homes r) (upd (rw_mocks r) m (mkMock sigs None false))) RUnit
      | _ => RInvalid
      end
  | OExpect m ov ms cls l =>
      match overload_of r m ov with
      | inr (s, home) => declare r s home ms cls l
      | inl other => other
      end
  | OCall m ov args l =>
      match overload_of r m ov with
      | inr (s, home) =>
          if length args =? length (sg_params s) then call_on r home (call_of s args l) (sg_noexcept s) else RInvalid
      | inl other => other
      end
  | OAction =>
      match rw_frames r with
      | mkFrame e (n :: todo) _ final ne :: fs =>
          if in_scope r e
          then RNext (with_frames (with_trace r [EvAction e n]) (mkFrame e todo true final ne :: fs)) RUnit
          else RWrong UbDangling
      | _ => RInvalid
      end
  | OActionThrows _ =>
      match rw_frames r with
      | mkFrame _ _ true false _ :: _ => RStop
      | _ => RInvalid
      end
  | OFinal =>
      match rw_frames r with
      | mkFrame e [] started false ne :: fs =>
          if in_scope r e
          then RNext (with_frames (with_trace r [EvFinal e]) (mkFrame e [] started true ne :: fs)) RUnit
          else RWrong UbDangling
      | _ => RInvalid
      end
  | OReturn user =>
      match rw_frames r with
      | mkFrame e _ _ true ne :: fs =>
          match nth_error (rw_exps r) e with
          | Some x =>
              let r' := with_frames r fs in
              match x_fin x, user with
              | FInit, _ => RNext r' (RVal None)
              | FReturns v, _ => RNext r' (RVal (Some v))
              | FThrows y, _ => leave ne r' y
              | FAction, UOk v => RNext r' (RVal (Some v))
              | FAction, UThrow y => leave ne r' y
              end
          | None => RInvalid
          end
      | _ => RInvalid
      end
  | OSatisfied h =>
      match nth_error (rw_scoped r) h with
      | Some (HOwns e) => RNext r (RBool (fulfilled r e))
      | Some HEmpty => RWrong UbNull
      | _ => RInvalid
      end
  | OEndScope h =>
      match nth_error (rw_scoped r) h with
      | Some (HOwns e) => end_of (with_scoped r (upd (rw_scoped r) h HDead)) e
      | Some HEmpty => RNext (with_scoped r (upd (rw_scoped r) h HDead)) RUnit
      | _ => RInvalid
      end
  | OMoveScoped h =>
      match nth_error (rw_scoped r) h with
      | Some HDead | None => RInvalid
      | Some x => RNext (with_scoped r (upd (rw_scoped r) h HEmpty ++ [x])) RUnit
      end
  | OMoveAssignScoped dst src =>
      match nth_error (rw_scoped r) dst, nth_error (rw_scoped r) src with
      | Some HDead, _ | _, Some HDead | None, _ | _, None => RInvalid
      | Some old, Some x =>
          if dst =? src then RNext r RUnit
          else
            let r' := with_scoped r (upd (upd (rw_scoped r) src HEmpty) dst x) in
            match old with
            | HOwns e => match end_of r' e with RNext _ (RThrow _) => RStop | other => other end
            | _ => RNext r' RUnit
            end
      end
  | OInstall rp =>
      RNext (mkRWorld (rw_flavours r) (rw_iface r) (rw_exps r) (rw_homes r) (rw_mocks r) (rw_scoped r) (rw_frames r)
               (S (rw_rid r)) rp (rw_uncaught r) (rw_trace r ++ [EvInstall (S (rw_rid r))])) RUnit
  | OUnwind n =>
      RNext (mkRWorld (rw_flavours r) (rw_iface r) (rw_exps r) (rw_homes r) (rw_mocks r) (rw_scoped r) (rw_frames r)
               (rw_rid r) (rw_reporter r) n (rw_trace r)) RUnit
  end.

Definition ref_init : rworld := mkRWorld [] [] [] 0 [] [] [] 0 default_reporter 0 [].

(** ** What the user can tell from a program *)

(** A run of the reference machine: its outcomes, and the state it is left in. *)
Inductive ending : Type :=
| Completed
| Terminated
| Undefined (u : ub)
| Rejected.

Fixpoint ref_play (r : rworld) (ops : list op) : list result * ending * list event :=
  match ops with
  | [] => ([], Completed, rw_trace r)
  | o :: ops' =>
      match ref_step r o with
      | RNext r' res => let '(rs, e, tr) := ref_play r' ops' in (res :: rs, e, tr)
      | RStop => ([], Terminated, rw_trace r)
      | RWrong u => ([], Undefined u, rw_trace r)
      | RInvalid => ([], Rejected, rw_trace r)
      end
  end.

Fixpoint observed (w : world) (ops : list op) : list result * ending * list event :=
  match ops with
  | [] => ([], Completed, w_trace w)
  | o :: ops' =>
      match step w o with
      | Next w' res => let '(rs, e, tr) := observed w' ops' in (res :: rs, e, tr)
      | Stop => ([], Terminated, w_trace w)
      | Wrong u => ([], Undefined u, w_trace w)
      | Invalid => ([], Rejected, w_trace w)
      end
  end.

(** ** Forgetting the data structures *)

Definition forget_exp (x : eobj) : rexp :=
  mkRExp (e_loc (eo_exp x)) (x_min x) (x_max x) (x_seqs x) (e_policies (eo_exp x)) (e_final (eo_exp x)) (eo_coll x) (eo_alive x).

Definition forget (w : world) : rworld :=
  mkRWorld (map s_strategy (w_seqs w)) (w_iface w) (map forget_exp (w_exps w)) (length (w_colls w)) (w_mocks w) (w_scoped w)
    (w_frames w) (w_rid w) (w_reporter w) (w_uncaught w) (w_trace w).

Definition forget_stepped (st : stepped) : rstepped :=
  match st with
  | Next w r => RNext (forget w) r
  | Stop => RStop
  | Wrong u => RWrong u
  | Invalid => RInvalid
  end.
