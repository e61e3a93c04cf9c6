(** * PropText: what printed values and reports say (C45, C46, C47). *)

From Verif Require Import Base Lib Sequence Control Signature Printer Reports Expectation Builder World WorldSpec CallSpec SeqInv WorldInv CallProofs
  CountProofs SelectProofs Scenario TextSpec TextProofs.
Local Open Scope string_scope.

(** ** C45: values *)

(** Numbers are printed in decimal: reading the digits gives the number back, there are no leading zeros, negative numbers have a sign. *)
Theorem C45_numbers (n : N) :
  read_decimal 0 (dec n) = Some n /\ (forall rest, dec n = String "0" rest -> n = 0%N /\ rest = "") /\
  print (VInt (Z.of_N n)) = dec n /\ ((0 < n)%N -> print (VInt (- Z.of_N n)) = "-" ++ dec n).
Proof.
  split; [apply read_dec|]. split.
  - intros rest H. pose proof (dec_no_zero _ _ H) as ->. split; auto. pose proof (read_dec n) as R. rewrite H in R. cbn in R. congruence.
  - destruct n; cbn; split; auto. intros H. inversion H.
Qed.

Example C45_numbers_example : print (VInt (-2048)) = "-2048" /\ print (VInt 0) = "0" /\ print (VPtr 48879) = "0x000000000000beef".
Proof. repeat split. Qed.

Lemma join_joined l : join l = joined ", " l.
Proof.
  unfold joined. destruct l as [|s l]; auto. revert s. induction l as [|t l IH]; intros s.
  - apply sapp_nil.
  - change (join (s :: t :: l)) with (s ++ ", " ++ join (t :: l)). rewrite IH. reflexivity.
Qed.

(** The layout of compound values. *)
Theorem C45_layout (l : list val) (v : val) (s : string) (b : bool) :
  print (VRange l) = "{ " ++ joined ", " (map print l) ++ " }" /\
  print (VTuple l) = "{ " ++ joined ", " (map print l) ++ " }" /\
  print (VOpt None) = "nullopt" /\ print (VOpt (Some v)) = "{ value: " ++ print v ++ " }" /\
  print (VStr s) = String "034" s ++ String "034" "" /\ print VOpaque = "{?}" /\ print (VBool b) = (if b then "true" else "false") /\ print (VText s) = s.
Proof. rewrite <- join_joined. repeat split. Qed.

Lemma print_shape v : print (shape v) = print v.
Proof.
  induction v as [z|bo|s|p u|l IH|l IH| |v IH|n| |x] using val_induction; auto; cbn [shape print]; [| |congruence].
  - do 3 f_equal. induction IH as [|x l Hx Hl E]; cbn [map]; congruence.
  - do 3 f_equal. induction IH as [|x l Hx Hl E]; cbn [map]; congruence.
Qed.

(** Values without narrow strings are printed equally only if they are equal (up to the difference between ranges and tuples). *)
Theorem C45_distinguishes v v' : plain v = true -> plain v' = true -> (print v = print v' <-> shape v = shape v').
Proof.
  intros Hp Hp'. split; intros H.
  - apply (readable_all v v' "" ""); auto. rewrite !sapp_nil. exact H.
  - rewrite <- print_shape, H. apply print_shape.
Qed.

Theorem C45_integer_ranges (l l' : list Z) : print (VRange (map VInt l)) = print (VRange (map VInt l')) <-> l = l'.
Proof.
  assert (P : forall l, plain (VRange (map VInt l)) = true) by (intros k; cbn [plain]; induction k; auto).
  rewrite C45_distinguishes by auto. split; [|congruence]. cbn [shape]. rewrite !map_map. intros H. injection H as H.
  revert l' H. induction l as [|x l IH]; intros [|y l'] H; cbn [map] in H; try discriminate; auto.
  injection H as -> H. f_equal. auto.
Qed.

Example C45_distinguishes_example :
  plain (VTuple [VInt 3; VOpt (Some (VRange [VInt 1; VInt 2])); VWStr "L" [104; 105]%N; VPtr 0; VBool true; VOpt None]) = true /\
  print (VTuple [VInt 3; VOpt (Some (VRange [VInt 1; VInt 2])); VWStr "L" [104; 105]%N; VPtr 0; VBool true; VOpt None])
  = "{ 3, { value: { 1, 2 } }, L" ++ quote ++ "0x68, 0x69" ++ quote ++ ", 0x0000000000000000, true, nullopt }".
Proof. split; reflexivity. Qed.

(** Strings are not escaped: different ranges of strings may be printed equally. *)
Theorem C45_string_ranges_refuted : exists l l' : list string, l <> l' /\ print (VRange (map VStr l)) = print (VRange (map VStr l')).
Proof.
  exists ["a"; "b"], ["a" ++ quote ++ ", " ++ quote ++ "b"]. split; [discriminate|reflexivity].
Qed.

(** The enumerations used in reports have different names; locations in the same file are printed equally only if they are equal. *)
Theorem C45_enums : 
  (forall c c', print_category c = print_category c' -> c = c') /\ (forall c c', print_constness c = print_constness c' -> c = c').
Proof. split; intros [] []; cbn; congruence. Qed.

Theorem C45_location l l' : l_file l = l_file l' -> print_loc l = print_loc l' -> l = l'.
Proof.
  destruct l as [f fn ln co], l' as [f' fn' ln' co']. cbn [l_file]. intros ->. unfold print_loc. cbn [l_file l_line l_col l_func].
  intros H. apply sapp_inv in H. apply (sapp_inv "[") in H. unfold dec_nat in H.
  apply dec_split in H as [E1 H]; auto. apply (sapp_inv ":") in H. apply dec_split in H as [E2 H]; auto. apply (sapp_inv "], ") in H.
  subst. assert (ln = ln') by lia. assert (co = co') by lia. congruence.
Qed.
Example C45_location_example : print_loc here = "main.cpp[10:5], main".
Proof. reflexivity. Qed.

(** ** C46: times *)

Lemma size_t_id z : (0 <= z <= INT_MAX)%Z -> to_size_t z = Z.to_N z.
Proof. intros H. unfold to_size_t. rewrite Z.mod_small; auto. unfold INT_MAX in H. lia. Qed.

Lemma dec_Z_N z : (0 <= z)%Z -> dec (Z.to_N z) = dec_Z z.
Proof. intros H. destruct z; try reflexivity. lia. Qed.

Lemma verbalize_often z : (0 <= z)%Z -> verbalize_value (Z.to_N z) = often z.
Proof.
  intros H. destruct z as [|p|p]; [reflexivity| |lia].
  unfold often. cbn [Z.eqb Z.to_N]. destruct p as [p|p|]; [| |reflexivity].
  - destruct p; reflexivity.
  - destruct p; reflexivity.
Qed.

Lemma print_times mn mx n : (0 <= mn <= mx)%Z -> (mx <= INT_MAX)%Z -> (0 <= n <= mx)%Z ->
  print_times_state (to_size_t n) (to_size_t mn) (to_size_t mx) = times_sentence mn mx n.
Proof.
  intros H1 H2 H3. rewrite !size_t_id by lia. unfold print_times_state, times_sentence, verbalize_interval.
  rewrite !verbalize_often, !dec_Z_N by lia.
  destruct (Z.eqb_spec n mx) as [->|Hne]; [rewrite N.eqb_refl; reflexivity|].
  replace (Z.to_N n =? Z.to_N mx)%N with false by (symmetry; apply N.eqb_neq; lia).
  destruct (Z.leb_spec mn n).
  - replace (Z.to_N mn <=? Z.to_N n)%N with true by (symmetry; apply N.leb_le; lia). reflexivity.
  - replace (Z.to_N mn <=? Z.to_N n)%N with false by (symmetry; apply N.leb_gt; lia).
    destruct (Z.eqb_spec mn mx) as [->|Hm].
    + rewrite N.ltb_irrefl. rewrite !sapp_assoc. reflexivity.
    + replace (Z.to_N mn <? Z.to_N mx)%N with true by (symmetry; apply N.ltb_lt; lia). rewrite !sapp_assoc. reflexivity.
Qed.

(** The text about an expectation in any report: the sentence about its limits and its number of accepted calls, followed by
    the number of its sequences, and of those in which it is not the current element. *)
Theorem C46_times_text w e x st : reachable w -> exp_at w e x -> control_state_of (w_seqs w) (e_ctl (eo_exp x)) = Ret st ->
  let n := Z.of_nat (accepted (w_trace w) e) in
  exists addendum, print_control_state st = times_sentence (x_min x) (x_max x) n ++ addendum /\
    (x_seqs x = [] -> addendum = "") /\
    (x_seqs x <> [] -> n = x_max x -> addendum = "," ++ nl ++ tab ++ "and is part of " ++ dec_nat (List.length (x_seqs x)) ++ " sequence(s).") /\
    (x_seqs x <> [] -> n <> x_max x -> (forall s, In s (x_seqs x) -> current_in w e s) ->
       addendum = "," ++ nl ++ tab ++ "and is the current element of " ++ dec_nat (List.length (x_seqs x)) ++ " sequence(s).") /\
    (n <> x_max x -> forall s, In s (x_seqs x) -> ~ current_in w e s -> exists others,
       (forall t, In t others <-> In t (x_seqs x) /\ ~ current_in w e t) /\ NoDup others /\
       addendum = "," ++ nl ++ tab ++ "but is not the current element of " ++ dec_nat (List.length others) ++ " sequence(s) ("
                  ++ dec_nat (List.length (x_seqs x)) ++ " total).").
Proof.
  intros Hr Hx Hcs n. pose proof (winv_reachable _ Hr) as I.
  assert (Hst : true_state w e x st).
  { destruct (state_true _ _ _ I Hx) as (st' & Hst' & Ht & _). unfold ctl_of in Hst'. congruence. }
  destruct (si_ok _ _ (wi_s _ I) _ _ (ctls_nth _ _ _ Hx)) as (Hmm & Hmax & Hcnt). rewrite (wi_count _ I _ _ Hx) in Hcnt. fold n in Hcnt.
  assert (Hp : print_times_state (to_size_t n) (to_size_t (x_min x)) (to_size_t (x_max x)) = times_sentence (x_min x) (x_max x) n) by (apply print_times; auto).
  destruct st as [mn mx k rs ts|mn mx k rs|mn mx k seqs]; cbn [true_state print_control_state] in *; fold n in Hst.
  - destruct Hst as (-> & -> & -> & Hlt & Hne & Hlen & Hin & Hcur). rewrite Hp. eexists. split; [reflexivity|].
    assert (Hs : exists s, In s ts) by (destruct ts as [|s ts]; [contradiction|exists s; left; auto]). destruct Hs as [s0 Hs0]. apply Hin in Hs0.
    split; [intros E; rewrite E in Hs0; destruct Hs0 as [[] _]|]. split; [intros _ E; lia|]. split; [intros _ _ Ha; exfalso; apply Hs0; apply Ha; tauto|].
    intros _ s Hs Hns. exists ts. split; [exact Hin|]. split; [|rewrite <- Hlen; reflexivity].
    assert (Hnd : NoDup (map r_tag rs ++ ts)%list).
    { apply (NoDup_incl_NoDup (l := x_seqs x)); [eapply x_seqs_nodup; eauto|rewrite app_length, map_length; lia|].
      intros t Ht. destruct (in_dec Nat.eq_dec t (map r_tag rs ++ ts)%list) as [Hi|Hi]; auto. exfalso. apply Hi. apply in_or_app.
      right. apply Hin. split; auto. intros Hc. apply Hi. apply in_or_app. left. apply Hcur. auto. }
    clear -Hnd. induction (map r_tag rs) as [|y l IH]; auto. apply IH. inversion Hnd; auto.
  - destruct Hst as (-> & -> & -> & Hlt & Htag & Hcur). rewrite Hp. eexists. split; [reflexivity|].
    assert (Hl : List.length rs = List.length (x_seqs x)) by (rewrite <- Htag, map_length; reflexivity). rewrite Hl.
    split; [intros ->; reflexivity|]. split; [intros _ E; lia|]. split.
    + intros Hne _ _. destruct (x_seqs x); [contradiction|]. reflexivity.
    + intros _ s Hs Hns. exfalso. auto.
  - destruct Hst as (-> & -> & -> & Hsat & ->). rewrite Hp. eexists. split; [reflexivity|].
    split; [intros ->; reflexivity|]. split; [intros Hne _; destruct (x_seqs x); [contradiction|reflexivity]|]. split; intros; lia.
Qed.

Lemma often_split n m a b : (0 <= n)%Z -> (0 <= m)%Z -> often n ++ a = often m ++ b -> n = m /\ a = b.
Proof.
  intros Hn Hm H. unfold often in H.
  assert (D : forall z c t r, (0 <= z)%Z -> (dec_Z z ++ " times") ++ t = String c r -> is_digit c = true).
  { intros z c t r Hz E. rewrite sapp_assoc in E. rewrite <- dec_Z_N in E by auto. destruct (dec_cons (Z.to_N z)) as (c' & s & E' & Hc). rewrite E' in E. cbn in E. congruence. }
  destruct (Z.eqb_spec n 0), (Z.eqb_spec m 0); subst; cbn [append] in H;
    try (split; [reflexivity|congruence]).
  all: repeat match goal with
       | H : context [(?a =? ?b)%Z] |- _ => destruct (Z.eqb_spec a b); subst
       end; cbn [Z.eqb append] in H; try congruence; try (split; [reflexivity|congruence]);
    try (apply D in H; [discriminate H|assumption]); try (symmetry in H; apply D in H; [discriminate H|assumption]).
  rewrite !sapp_assoc in H. apply dec_Z_split in H as [-> H]; auto. apply (sapp_inv " times") in H. auto.
Qed.

Lemma sentence_split mn mx n mn' mx' n' a b :
  (0 <= mn <= mx)%Z -> (0 <= n <= mx)%Z -> (0 <= mn' <= mx')%Z -> (0 <= n' <= mx')%Z ->
  times_sentence mn mx n ++ a = times_sentence mn' mx' n' ++ b ->
  n = n' /\ (n = mx <-> n' = mx') /\ (n < mn <-> n' < mn')%Z /\ (n < mx -> mx = mx')%Z /\ (n < mn -> mn = mn')%Z.
Proof.
  intros Hm Hn Hm' Hn' H. unfold times_sentence in H.
  destruct (Z.eqb_spec n mx), (Z.eqb_spec n' mx');
    try (destruct (Z.leb_spec mn n)); try (destruct (Z.leb_spec mn' n'));
    try (destruct (Z.eqb_spec mn mx)); try (destruct (Z.eqb_spec mn' mx')); try discriminate H; rewrite ?sapp_assoc in H; try lia;
    lazymatch type of H with
    | "already saturated (matched " ++ _ = _ => apply (sapp_inv "already saturated (matched ") in H; apply often_split in H as [? H]; lia
    | "accepts further matches (matched " ++ _ = _ =>
        apply (sapp_inv "accepts further matches (matched ") in H; apply dec_Z_split in H as [? H]; [|reflexivity|reflexivity];
        apply (sapp_inv " out of ") in H; apply dec_Z_split in H as [? H]; [lia|reflexivity|reflexivity]
    | "matched " ++ _ = _ => apply (sapp_inv "matched ") in H; apply often_split in H as [? H]; [|lia|lia]; apply (sapp_inv " - ") in H
    | _ => idtac
    end;
    lazymatch type of H with
    | "exactly " ++ _ = "exactly " ++ _ => apply (sapp_inv "exactly ") in H; apply often_split in H as [? H]; lia
    | "between " ++ _ = "between " ++ _ =>
        apply (sapp_inv "between ") in H; apply dec_Z_split in H as [? H]; [|reflexivity|reflexivity];
        apply (sapp_inv " and ") in H; apply dec_Z_split in H as [? H]; [lia|reflexivity|reflexivity]
    | _ => try discriminate H
    end.
  - apply (sapp_inv "exactly ") in H. apply often_split in H as [? H]; lia.
  - apply (sapp_inv "between ") in H. apply dec_Z_split in H as [? H]; [|reflexivity|reflexivity].
    apply (sapp_inv " and ") in H. apply dec_Z_split in H as [? H]; [lia|reflexivity|reflexivity].
Qed.

Lemma bounds w e x : reachable w -> exp_at w e x ->
  (0 <= x_min x <= x_max x)%Z /\ (x_max x <= INT_MAX)%Z /\ (0 <= Z.of_nat (accepted (w_trace w) e) <= x_max x)%Z.
Proof.
  intros Hr Hx. pose proof (winv_reachable _ Hr) as I. destruct (si_ok _ _ (wi_s _ I) _ _ (ctls_nth _ _ _ Hx)) as (Hmm & Hmax & Hcnt).
  rewrite (wi_count _ I _ _ Hx) in Hcnt. auto.
Qed.

(** The beginning of the text tells in which phase the expectation is. *)
Theorem C46_phase w e x st : reachable w -> exp_at w e x -> control_state_of (w_seqs w) (e_ctl (eo_exp x)) = Ret st ->
  let n := Z.of_nat (accepted (w_trace w) e) in
  (starts "already saturated" (print_control_state st) <-> n = x_max x) /\
  (starts "accepts further matches" (print_control_state st) <-> (x_min x <= n < x_max x)%Z) /\
  (starts "matched" (print_control_state st) <-> (n < x_min x)%Z).
Proof.
  intros Hr Hx Hst n. destruct (C46_times_text _ _ _ _ Hr Hx Hst) as (ad & -> & _). destruct (bounds _ _ _ Hr Hx) as (H1 & _ & H2). fold n in H2 |- *.
  unfold times_sentence.
  destruct (Z.eqb_spec n (x_max x)); [|destruct (Z.leb_spec (x_min x) n); [|destruct (Z.eqb_spec (x_min x) (x_max x))]];
    (split; [|split]); (split; [intros [r Er]; try discriminate Er; try lia|intros; try lia]); rewrite ?sapp_assoc.
  all: first [exists (" (matched " ++ often n ++ ")" ++ ad); reflexivity
    |exists (" (matched " ++ dec_Z n ++ " out of " ++ dec_Z (x_max x) ++ " times)" ++ ad); reflexivity
    |exists (" " ++ often n ++ " - exactly " ++ often (x_max x) ++ " is expected" ++ ad); reflexivity
    |exists (" " ++ often n ++ " - between " ++ dec_Z (x_min x) ++ " and " ++ dec_Z (x_max x) ++ " times is expected" ++ ad); reflexivity].
Qed.

(** Equal texts mean equal numbers: of accepted calls, the upper limit unless it is reached, and the lower limit unless it is reached. *)
Theorem C46_text_tells_numbers w e x st w' e' x' st' :
  reachable w -> exp_at w e x -> control_state_of (w_seqs w) (e_ctl (eo_exp x)) = Ret st ->
  reachable w' -> exp_at w' e' x' -> control_state_of (w_seqs w') (e_ctl (eo_exp x')) = Ret st' ->
  print_control_state st = print_control_state st' ->
  let n := accepted (w_trace w) e in
  n = accepted (w_trace w') e' /\ ((Z.of_nat n < x_max x)%Z -> x_max x' = x_max x) /\ ((Z.of_nat n < x_min x)%Z -> x_min x' = x_min x).
Proof.
  intros Hr Hx Hst Hr' Hx' Hst' E n.
  destruct (C46_times_text _ _ _ _ Hr Hx Hst) as (ad & E1 & _). destruct (C46_times_text _ _ _ _ Hr' Hx' Hst') as (ad' & E2 & _).
  rewrite E1, E2 in E. destruct (bounds _ _ _ Hr Hx) as (B1 & _ & B2), (bounds _ _ _ Hr' Hx') as (B1' & _ & B2').
  apply sentence_split in E; auto. fold n in E. repeat split; intros; [lia|symmetry; apply E; auto|symmetry; apply E; auto].
Qed.

(** Expectation 0 needs 2 to 4 calls and got one; expectation 1 is not yet the current element of sequence 0, but of sequence 1. *)
Definition prog_text : list op :=
  [ONewSeq Lazy; ONewSeq Greedy; ONewMock [sig_int];
   OExpect 0 0 [m_any] [ClTimes (TxRange 2 4); ClSeq [0]; ClFinal (FReturns (VInt 1))] here; OCall 0 0 [VInt 7] here;
   OExpect 0 0 [m_eq 7] [ClTimes (TxExactly 3); ClSeq [0; 1]; ClFinal (FReturns (VInt 2))] there;
   OExpect 0 0 [m_eq 8] [ClTimes TxOnce; ClFinal (FReturns (VInt 2))] there; OCall 0 0 [VInt 8] here].
Example C46_example :
  reachable (after prog_text) /\
  (map (fun x => match control_state_of (w_seqs (after prog_text)) (e_ctl (eo_exp x)) with Ret st => print_control_state st | _ => "" end) (w_exps (after prog_text))
   = ["matched once - between 2 and 4 times is expected," ++ nl ++ tab ++ "and is the current element of 1 sequence(s).";
      "matched never - exactly 3 times is expected," ++ nl ++ tab ++ "but is not the current element of 1 sequence(s) (2 total).";
      "already saturated (matched once)"]).
Proof. split; [apply after_reachable; reflexivity|vm_compute; reflexivity]. Qed.

(** ** C47: match reports *)

Lemma split_described l : split_descs l = (described true l, described false l).
Proof.
  induction l as [|[m d] l IH]; auto. cbn [split_descs]. rewrite IH. unfold described. cbn [flat_map pr_matching pr_desc].
  destruct d, m; reflexivity.
Qed.

Lemma lines_all l : print_desc_lines l = all_of (map (fun s => tab ++ s ++ "," ++ nl) l).
Proof. induction l as [|s l IH]; auto. cbn [print_desc_lines map all_of]. rewrite IH, !sapp_assoc. reflexivity. Qed.

(** The text consists of the verdict, the place of the expectation, and the failed and passed requirements in order. *)
Theorem C47_layout r :
  exists verdict, print_match_report r =
    verdict ++ match mr_loc r with Some l => "from: " ++ print_loc l ++ nl | None => "" end
    ++ section "failed:" (described false (mr_policies r)) ++ section "passed:" (described true (mr_policies r)) ++ "}" ++ nl /\
  let all := forall p, In p (mr_policies r) -> pr_matching p = true in
  let free := exists mn mx n rs, mr_state r = StApplicable mn mx n rs in
  (all -> free -> verdict = "Matched expectation: {" ++ nl) /\
  (all -> ~ free -> verdict = "Inapplicable, but otherwise matched expectation: {" ++ nl ++ "reason: " ++ print_control_state (mr_state r) ++ nl) /\
  (~ all -> verdict = "Unmatched expectation: {" ++ nl).
Proof.
  unfold print_match_report. rewrite split_described.
  assert (S : forall t l, (match l with [] => "" | _ => t ++ nl ++ print_desc_lines l end) = section t l).
  { intros t [|s l]; auto. unfold section. rewrite lines_all. reflexivity. }
  pose proof (S "failed:" (described false (mr_policies r))) as ->. pose proof (S "passed:" (described true (mr_policies r))) as ->.
  eexists. split; [reflexivity|]. cbn zeta.
  assert (A : forallb pr_matching (mr_policies r) = true <-> forall p, In p (mr_policies r) -> pr_matching p = true) by apply forallb_forall.
  unfold evaluate_match_report. destruct (forallb pr_matching (mr_policies r)) eqn:E; cbn [negb].
  - split; [|split].
    + intros _ (mn & mx & n & rs & ->). reflexivity.
    + intros _ Hf. destruct (mr_state r) as [| |]; auto. exfalso. apply Hf. eauto.
    + intros Hn. exfalso. apply Hn, A. reflexivity.
  - split; [|split]; auto; intros Ha; apply A in Ha; discriminate.
Qed.

(** Of a truthful report (as delivered by calls, see C10): the failed requirements are exactly those which the arguments do not meet. *)
Theorem C47_truthful w c e x m b : true_report w c e x m ->
  described b (mr_policies m)
  = flat_map (fun p => match policy_matches p c, policy_describe p with
                       | Ret b', Ret (Some d) => if Bool.eqb b' b then [d] else []
                       | _, _ => []
                       end) (e_policies (eo_exp x)).
Proof.
  intros (_ & _ & _ & H). unfold described. induction H as [|p r ps rs [Hm Hd] H IH]; auto. cbn [flat_map]. rewrite Hm, Hd, IH.
  destruct (pr_desc r), (Bool.eqb (pr_matching r) b); reflexivity.
Qed.

Theorem C47_verdicts r :
  (starts "Matched" (print_match_report r) <-> evaluate_match_report r = MatchFull) /\
  (starts "Inapplicable" (print_match_report r) <-> evaluate_match_report r = MatchInapplicable) /\
  (starts "Unmatched" (print_match_report r) <-> evaluate_match_report r = MatchNone).
Proof.
  unfold print_match_report. destruct (split_descs (mr_policies r)) as [ms us]. unfold starts.
  destruct (evaluate_match_report r); cbn [append]; (split; [|split]); split; intros H; try discriminate;
    first [reflexivity|eexists; reflexivity|destruct H as [? H]; discriminate H].
Qed.

Example C47_example :
  print_match_report (mkMatchReport (Some here) None (StApplicable 1 1 0 [])
    [mkPolicyReport true (Some "expect: arg[0] == 1"); mkPolicyReport false (Some "expect: arg[1] == 2"); mkPolicyReport true None;
     mkPolicyReport true (Some "expect: arg[2] == 3")])
  = "Unmatched expectation: {" ++ nl ++ "from: main.cpp[10:5], main" ++ nl ++ "failed:" ++ nl ++ tab ++ "expect: arg[1] == 2," ++ nl
    ++ "passed:" ++ nl ++ tab ++ "expect: arg[0] == 1," ++ nl ++ tab ++ "expect: arg[2] == 3," ++ nl ++ "}" ++ nl.
Proof. reflexivity. Qed.

(** ** C60: the texts of whole reports *)

Lemma print_args_blocks tn args : forall i,
  print_args tn i args = all_of (map (fun ia => arg_block (fst ia) (tn (fst (snd ia))) (snd (snd ia))) (combine (seq i (List.length args)) args)).
Proof.
  induction args as [|[t s] args IH]; intros i; auto. cbn [print_args List.length seq combine map all_of fst snd]. rewrite IH.
  unfold arg_block. rewrite !sapp_assoc. reflexivity.
Qed.

(** A printed call names where it comes from, the overload, the return type, and of every argument its index, type and value, in order. *)
Theorem C60_call_text tn c : List.length (ci_params c) = List.length (ci_args c) ->
  print_call_report tn (make_call_report c)
  = "call from " ++ print_loc (ci_loc c) ++ nl ++ "constness: " ++ print_constness (ci_constness c) ++ nl
    ++ "value category: " ++ print_category (ci_category c) ++ nl ++ "return type: " ++ tn (ci_ret c) ++ nl
    ++ (if Nat.eqb (List.length (ci_args c)) 0 then "" else "args:" ++ nl)
    ++ all_of (map (fun i => arg_block i (tn (nth i (ci_params c) 0)) (print (nth i (ci_args c) VOpaque))) (seq 0 (List.length (ci_args c)))).
Proof.
  destruct c as [ret ps args cat con l]. cbn [ci_params ci_args ci_ret ci_loc ci_category ci_constness]. intros Hl.
  unfold print_call_report, make_call_report. cbn [cr_loc cr_constness cr_category cr_ret cr_args ci_params ci_args ci_ret ci_loc ci_category ci_constness].
  do 11 f_equal. rewrite print_args_blocks.
  assert (G : forall (ps : list ty) (args : list val) i k, List.length ps = List.length args ->
     map (fun ia => arg_block (fst ia) (tn (fst (snd ia))) (snd (snd ia))) (combine (seq (k + i) (List.length (combine ps (map print args)))) (combine ps (map print args)))
     = map (fun j => arg_block (k + j) (tn (nth (j - i) ps 0)) (print (nth (j - i) args VOpaque))) (seq i (List.length args))).
  { clear. induction ps as [|p ps IH]; intros [|a args] i k H; cbn [List.length] in H; try discriminate; auto.
    cbn [map combine List.length seq fst snd]. rewrite Nat.sub_diag. cbn [nth]. f_equal.
    rewrite <- Nat.add_succ_r, IH by congruence. apply map_ext_in. intros j Hj. apply in_seq in Hj.
    replace (j - i) with (S (j - S i)) by lia. reflexivity. }
  specialize (G ps args 0 0 Hl). cbn [Nat.add] in G. rewrite G. clear G.
  rewrite (map_ext _ (fun i => arg_block i (tn (nth i ps 0)) (print (nth i args VOpaque)))) by (intros j; rewrite Nat.sub_0_r; reflexivity).
  destruct ps, args; try discriminate; reflexivity.
Qed.

(** A report about an expectation names its place, its times, and all descriptions of its requirements in order. *)
Theorem C60_expectation_text ss x r : exp_report_of ss x = Ret r ->
  exists st, control_state_of ss (e_ctl x) = Ret st /\
  print_exp_report r
  = "Expectation report:" ++ nl ++ "from: " ++ print_loc (e_loc x) ++ nl ++ "times: " ++ print_control_state st ++ nl
    ++ section "expects:" (flat_map (fun p => match policy_describe p with Ret (Some d) => [d] | _ => [] end) (e_policies x)).
Proof.
  unfold exp_report_of. destruct (control_state_of ss (e_ctl x)) as [st| | |]; try discriminate. cbn [obind].
  destruct (omap policy_describe (e_policies x)) as [ds| | |] eqn:E; try discriminate. cbn [obind]. intros H. injection H as <-.
  exists st. split; auto. unfold print_exp_report. cbn [er_loc er_times er_descs er_final].
  assert (D : somes ds = flat_map (fun p => match policy_describe p with Ret (Some d) => [d] | _ => [] end) (e_policies x)).
  { revert ds E. induction (e_policies x) as [|p ps IH]; intros ds E; cbn [omap] in E; [injection E as <-; reflexivity|].
    destruct (policy_describe p) as [d| | |] eqn:Ed; try discriminate. cbn [obind] in E.
    destruct (omap policy_describe ps) as [ds'| | |]; try discriminate. cbn [obind] in E. injection E as <-.
    cbn [flat_map]. rewrite Ed, <- (IH ds' eq_refl). destruct d; reflexivity. }
  rewrite <- D, sapp_nil, !sapp_assoc.
  assert (S : (if has_some ds then "expects:" ++ nl ++ print_desc_lines (somes ds) else "") = section "expects:" (somes ds)).
  { unfold section. rewrite lines_all. clear. induction ds as [|[d|] ds IH]; auto. }
  rewrite S. reflexivity.
Qed.

(** The texts of failing calls: the call, and every tested expectation in order; their number or their absence is stated. *)
Lemma print_reports_all l : print_match_reports l = all_of (map (fun r => print_match_report r ++ nl) l).
Proof. induction l as [|r l IH]; auto. cbn [print_match_reports map all_of]. rewrite IH, sapp_assoc. reflexivity. Qed.

Theorem C60_failure_text tn c l :
  stringify_no_match tn c l
  = "No match for " ++ print_call_report tn c ++ nl
    ++ (if Nat.eqb (List.length l) 0 then "No expectations available." ++ nl else dec_nat (List.length l) ++ " available expectation(s):" ++ nl)
    ++ all_of (map (fun r => print_match_report r ++ nl) l) /\
  stringify_inapplicable tn c l
  = "No applicable match for " ++ print_call_report tn c ++ nl ++ "Tested expectations:" ++ nl
    ++ all_of (map (fun r => print_match_report r ++ nl) l).
Proof.
  rewrite <- print_reports_all. split; [|reflexivity]. unfold stringify_no_match. destruct l as [|r l]; [reflexivity|].
  cbn [List.length Nat.eqb]. rewrite !sapp_assoc. reflexivity.
Qed.

(** The six kinds of reports are recognised by their text. *)
Theorem C60_kinds tn c c' c'' l l' m r r' k n w :
  let texts := [stringify_no_match tn c l; stringify_inapplicable tn c' l'; stringify_full tn c'' m; stringify_unfulfilled r;
                sequence_error_message k n; stringify_unhandled tn c r' w] in
  List.NoDup texts.
Proof.
  cbn zeta. repeat (constructor; [cbn [List.In]; unfold stringify_no_match, stringify_inapplicable, stringify_full, stringify_unfulfilled, stringify_unhandled, sequence_error_message; intros H; repeat destruct H as [H|H]; try discriminate H; try contradiction|]).
  constructor.
Qed.

(** The message of a sequence determines both numbers. *)
Theorem C60_sequence_message k n k' n' : sequence_error_message k n = sequence_error_message k' n' -> k = k' /\ n = n'.
Proof.
  unfold sequence_error_message, dec_nat. intros H. apply (sapp_inv "Unfulfilled sequence. ") in H. apply dec_split in H as [E1 H]; auto.
  apply (sapp_inv " out of ") in H. apply dec_split in H as [E2 _]; auto. lia.
Qed.

Definition call_text_example : call_info := mkCall 1 [1; 2] [VInt 3; VStr "x"] CatL AsConst here.
Example C60_example :
  List.length (ci_params call_text_example) = List.length (ci_args call_text_example) /\
  stringify_no_match (fun t => match t with 1 => "int" | _ => "std::string" end) (make_call_report call_text_example) []
  = "No match for call from main.cpp[10:5], main" ++ nl ++ "constness: const" ++ nl ++ "value category: lvalue" ++ nl ++ "return type: int" ++ nl
    ++ "args:" ++ nl ++ tab ++ "arg[0]: {" ++ nl ++ tab ++ tab ++ "type: int," ++ nl ++ tab ++ tab ++ "value: 3" ++ nl ++ tab ++ "}," ++ nl
    ++ tab ++ "arg[1]: {" ++ nl ++ tab ++ tab ++ "type: std::string," ++ nl ++ tab ++ tab ++ "value: " ++ quote ++ "x" ++ quote ++ nl ++ tab ++ "}," ++ nl
    ++ nl ++ "No expectations available." ++ nl /\
  sequence_error_message 1 2 = "Unfulfilled sequence. 1 out of 2 expectation(s) are satisfied.".
Proof. repeat split. Qed.

Example C60_example_others :
  let er := mkExpReport (Some there) None (Some "matched never - exactly once is expected") [Some "expect: arg[0] == 1"; None] in
  let cr := make_call_report (mkCall 0 [] [] CatAny NonConst here) in
  let call := "call from main.cpp[10:5], main" ++ nl ++ "constness: mutable" ++ nl ++ "value category: any" ++ nl ++ "return type: void" ++ nl in
  let exp := "Expectation report:" ++ nl ++ "from: main.cpp[20:5], main" ++ nl ++ "times: matched never - exactly once is expected" ++ nl
             ++ "expects:" ++ nl ++ tab ++ "expect: arg[0] == 1," ++ nl in
  stringify_unfulfilled er = "Unfulfilled expectation:" ++ nl ++ exp ++ nl /\
  stringify_unhandled (fun _ => "void") cr er (Some "oops")
  = "Unhandled exception: what: oops" ++ nl ++ "while checking expectation:" ++ nl ++ exp ++ nl ++ "For " ++ call ++ nl /\
  stringify_unhandled (fun _ => "void") cr er None
  = "Unhandled exception: Unknown exception type." ++ nl ++ "while checking expectation:" ++ nl ++ exp ++ nl ++ "For " ++ call ++ nl /\
  stringify_full (fun _ => "void") cr (mkMatchReport (Some there) None (StApplicable 1 1 0 []) [])
  = "Found match for " ++ call ++ nl ++ "Matched expectation: {" ++ nl ++ "from: main.cpp[20:5], main" ++ nl ++ "}" ++ nl ++ nl /\
  stringify_inapplicable (fun _ => "void") cr [mkMatchReport (Some there) None (StSaturated 1 1 1 []) []]
  = "No applicable match for " ++ call ++ nl ++ "Tested expectations:" ++ nl ++ "Inapplicable, but otherwise matched expectation: {" ++ nl
    ++ "reason: already saturated (matched once)" ++ nl ++ "from: main.cpp[20:5], main" ++ nl ++ "}" ++ nl ++ nl.
Proof. repeat split. Qed.

Print Assumptions C45_numbers.
Print Assumptions C45_layout.
Print Assumptions C45_distinguishes.
Print Assumptions C45_integer_ranges.
Print Assumptions C45_string_ranges_refuted.
Print Assumptions C45_enums.
Print Assumptions C45_location.
Print Assumptions C46_times_text.
Print Assumptions C46_phase.
Print Assumptions C46_text_tells_numbers.
Print Assumptions C47_layout.
Print Assumptions C47_truthful.
Print Assumptions C47_verdicts.
Print Assumptions C60_call_text.
Print Assumptions C60_expectation_text.
Print Assumptions C60_failure_text.
Print Assumptions C60_kinds.
Print Assumptions C60_sequence_message.
