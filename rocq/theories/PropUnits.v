(** * PropUnits: C72, the contracts of BasicSequence and ControlPolicy on their own, with and without asserts. *)

From Verif Require Import Base Lib Sequence Control SeqInv Signature Printer Reports Expectation Builder World Conc UnitSpec UnitProofs.

(** ** BasicSequence *)

Theorem C72_set_satisfied q id :
  (forall q', seq_set_satisfied q id = Ret q' <-> s_cursor q <= id /\ entry q id = Some Unsatisfied /\ entry_changed q q' id Satisfied) /\
  (~ (s_cursor q <= id /\ entry q id = Some Unsatisfied) -> seq_set_satisfied q id = Undef UbAssert).
Proof. exact (set_satisfied_spec q id). Qed.

Theorem C72_set_saturated q id :
  (forall q', seq_set_saturated q id = Ret q' <->
     s_cursor q <= id /\ (entry q id = Some Unsatisfied \/ entry q id = Some Satisfied) /\ entry_changed q q' id Saturated) /\
  (~ (s_cursor q <= id /\ (entry q id = Some Unsatisfied \/ entry q id = Some Satisfied)) -> seq_set_saturated q id = Undef UbAssert).
Proof. exact (set_saturated_spec q id). Qed.

Theorem C72_consume q id :
  (seq_is_consumable q id = true <-> consumable q id) /\
  (consumable q id -> seq_consume q id = Ret (mkSeq (s_strategy q) (s_entries q) id)) /\
  (~ consumable q id -> seq_consume q id = Undef UbAssert).
Proof. split; [apply consumable_iff|exact (consume_spec q id)]. Qed.

Theorem C72_add q :
  ((Z.of_nat (length (s_entries q)) <= INT_MAX)%Z ->
     exists q', seq_add q = Ret (q', length (s_entries q)) /\ s_strategy q' = s_strategy q /\ s_cursor q' = s_cursor q /\
       length (s_entries q') = S (length (s_entries q)) /\ entry q' (length (s_entries q)) = Some Unsatisfied /\
       forall k, k <> length (s_entries q) -> entry q' k = entry q k) /\
  ((INT_MAX < Z.of_nat (length (s_entries q)))%Z -> seq_add q = Throw ERuntimeError).
Proof. exact (add_spec q). Qed.

(** The error of the destructor names the first unsatisfied entry at or behind the cursor and the number of entries. *)
Theorem C72_destructor q :
  (forall k n, seq_dtor_error q = Some (k, n) <->
     n = length (s_entries q) /\ s_cursor q <= k /\ entry q k = Some Unsatisfied /\
     forall j, s_cursor q <= j < k -> entry q j = Some Satisfied \/ entry q j = Some Saturated) /\
  (seq_dtor_error q = None <-> forall k, s_cursor q <= k -> entry q k <> Some Unsatisfied).
Proof.
  split; [intros k n; apply dtor_error_spec|]. split.
  - intros H k Hk Hu. unfold seq_dtor_error in H. destruct (find_not_done _) as [i|] eqn:E; [discriminate|]. clear H.
    revert k Hk Hu. unfold entry. intros k Hk Hu.
    assert (G : nth_error (skipn (s_cursor q) (s_entries q)) (k - s_cursor q) = Some Unsatisfied).
    { rewrite nth_error_skipn'. replace (s_cursor q + (k - s_cursor q)) with k by lia. auto. }
    revert E G. generalize (skipn (s_cursor q) (s_entries q)) as l, (k - s_cursor q) as i. clear.
    induction l as [|a l IH]; intros [|i] E G; simpl in *; try discriminate.
    + inversion G; subst. discriminate.
    + destruct (state_done a); [|discriminate]. destruct (find_not_done l); [discriminate|]. eapply IH; eauto.
  - intros H. destruct (seq_dtor_error q) as [[k n]|] eqn:E; auto. apply dtor_error_spec in E.
    destruct E as (_ & H1 & H2 & _). exfalso. eapply H; eauto.
Qed.

Theorem C72_priority q id :
  (consumable q id -> seq_priority_of q id = Ret (Some (priority q id))) /\
  (~ consumable q id -> id < length (s_entries q) -> seq_priority_of q id = Ret None) /\
  (length (s_entries q) <= id -> seq_priority_of q id = Undef UbAssert).
Proof. exact (priority_of_spec q id). Qed.

(** A lazy sequence prefers the earlier of two consumable entries, a greedy one the later; the priorities are non-negative ints. *)
Theorem C72_priorities_ordered q i j : consumable q i -> consumable q j -> i < j -> (Z.of_nat (length (s_entries q)) <= INT_MAX + 1)%Z ->
  (0 <= priority q i <= INT_MAX)%Z /\ (0 <= priority q j <= INT_MAX)%Z /\
  match s_strategy q with
  | Lazy => (priority q j < priority q i)%Z
  | Greedy => (priority q i < priority q j)%Z
  end.
Proof.
  intros (Hi & _) (Hj & Hj2 & _) Hlt Hl.
  assert (j < length (s_entries q)) by (destruct Hj2 as [H|H]; eapply nth_error_lt; eauto).
  unfold priority. destruct (s_strategy q); lia.
Qed.

Example C72_sequence_example :
  let q := mkSeq Lazy [Saturated; Satisfied; Saturated; Unsatisfied; Unsatisfied] 1 in
  consumable q 1 /\ consumable q 3 /\ ~ consumable q 0 /\ ~ consumable q 2 /\ ~ consumable q 4 /\
  seq_set_satisfied q 3 = Ret (mkSeq Lazy [Saturated; Satisfied; Saturated; Satisfied; Unsatisfied] 1) /\
  seq_set_saturated q 4 = Ret (mkSeq Lazy [Saturated; Satisfied; Saturated; Unsatisfied; Saturated] 1) /\
  seq_consume q 3 = Ret (mkSeq Lazy [Saturated; Satisfied; Saturated; Unsatisfied; Unsatisfied] 3) /\
  seq_dtor_error q = Some (3, 5) /\ seq_set_satisfied q 0 = Undef UbAssert /\ seq_set_satisfied q 1 = Undef UbAssert /\
  seq_set_saturated q 2 = Undef UbAssert.
Proof.
  intros q. repeat (split; [rewrite <- consumable_iff; reflexivity|]).
  repeat (split; [rewrite <- consumable_iff; intros H; vm_compute in H; discriminate|]).
  vm_compute. auto 10.
Qed.

(** ** Histories of a sequence *)

(** Every state a sequence can be in is determined by the calls made so far. *)
Theorem C72_history st ops q : seq_history st ops q ->
  s_strategy q = st /\ length (s_entries q) = adds ops /\ s_cursor q = last_consumed ops /\
  forall id, id < adds ops ->
    (entry q id = Some Saturated <-> In (OpSaturated id) ops) /\
    (entry q id = Some Satisfied <-> In (OpSatisfied id) ops /\ ~ In (OpSaturated id) ops) /\
    (entry q id = Some Unsatisfied <-> ~ In (OpSatisfied id) ops /\ ~ In (OpSaturated id) ops).
Proof. exact (history_spec st ops q). Qed.

(** And so is which calls may follow. *)
Theorem C72_next_call st ops q op : seq_history st ops q -> ((exists q', seq_apply q op = Ret q') <-> allowed ops op).
Proof. exact (history_allowed st ops q op). Qed.

(** Calls consume entries in the order of their ids. *)
Theorem C72_consumed_in_order st ops1 id1 ops2 id2 ops3 q :
  seq_history st (ops1 ++ OpConsume id1 :: ops2 ++ OpConsume id2 :: ops3) q -> id1 <= id2.
Proof.
  intros H. destruct (history_step _ _ _ _ _ H) as (q1 & q1' & _ & _ & H1).
  replace (ops1 ++ OpConsume id1 :: ops2 ++ OpConsume id2 :: ops3) with ((ops1 ++ [OpConsume id1] ++ ops2) ++ OpConsume id2 :: ops3) in H
    by (rewrite <- !app_assoc; reflexivity).
  destruct (history_step _ _ _ _ _ H) as (q2 & q2' & _ & _ & H2).
  replace ((ops1 ++ [OpConsume id1] ++ ops2) ++ [OpConsume id2]) with ((ops1 ++ [OpConsume id1]) ++ (ops2 ++ [OpConsume id2])) in H2
    by (rewrite <- !app_assoc; reflexivity).
  pose proof (cursor_mono _ _ _ _ _ H1 H2) as Hm.
  apply history_spec in H1, H2. destruct H1 as (_ & _ & E1 & _), H2 as (_ & _ & E2 & _).
  rewrite app_assoc, last_snoc in E2. rewrite last_snoc in E1. lia.
Qed.

Example C72_history_example :
  let ops := [OpAdd; OpAdd; OpSatisfied 0; OpConsume 0; OpSaturated 0; OpConsume 1; OpAdd] in
  seq_history Greedy ops (mkSeq Greedy [Saturated; Unsatisfied; Unsatisfied] 1) /\
  allowed ops (OpSatisfied 1) /\ ~ allowed ops (OpSatisfied 0) /\ ~ allowed ops (OpConsume 2) /\ allowed ops (OpConsume 1).
Proof.
  intros ops. split.
  - pose proof (sh_new Greedy) as H0. unfold seq_new in H0.
    assert (H1 : seq_history Greedy [OpAdd] (mkSeq Greedy [Unsatisfied] 0)) by (apply (sh_step Greedy [] _ OpAdd _ H0); reflexivity).
    assert (H2 : seq_history Greedy [OpAdd; OpAdd] (mkSeq Greedy [Unsatisfied; Unsatisfied] 0))
      by (apply (sh_step Greedy [OpAdd] _ OpAdd _ H1); reflexivity).
    assert (H3 : seq_history Greedy [OpAdd; OpAdd; OpSatisfied 0] (mkSeq Greedy [Satisfied; Unsatisfied] 0))
      by (apply (sh_step Greedy [OpAdd; OpAdd] _ (OpSatisfied 0) _ H2); reflexivity).
    assert (H4 : seq_history Greedy [OpAdd; OpAdd; OpSatisfied 0; OpConsume 0] (mkSeq Greedy [Satisfied; Unsatisfied] 0))
      by (apply (sh_step Greedy [OpAdd; OpAdd; OpSatisfied 0] _ (OpConsume 0) _ H3); reflexivity).
    assert (H5 : seq_history Greedy [OpAdd; OpAdd; OpSatisfied 0; OpConsume 0; OpSaturated 0] (mkSeq Greedy [Saturated; Unsatisfied] 0))
      by (apply (sh_step Greedy [OpAdd; OpAdd; OpSatisfied 0; OpConsume 0] _ (OpSaturated 0) _ H4); reflexivity).
    assert (H6 : seq_history Greedy [OpAdd; OpAdd; OpSatisfied 0; OpConsume 0; OpSaturated 0; OpConsume 1]
                   (mkSeq Greedy [Saturated; Unsatisfied] 1))
      by (apply (sh_step Greedy [OpAdd; OpAdd; OpSatisfied 0; OpConsume 0; OpSaturated 0] _ (OpConsume 1) _ H5); reflexivity).
    apply (sh_step Greedy [OpAdd; OpAdd; OpSatisfied 0; OpConsume 0; OpSaturated 0; OpConsume 1] _ OpAdd _ H6); reflexivity.
  - unfold ops, allowed, last_consumed, adds. simpl.
    split; [split; [lia|split; intros H; repeat (destruct H as [H|H]; [discriminate|]); contradiction]|].
    split; [intros ([H _] & _); lia|]. split.
    + intros (_ & _ & H). destruct (H 1 ltac:(lia)) as [G|G]; repeat (destruct G as [G|G]; [discriminate|]); contradiction.
    + split; [lia|]. split; [intros H; repeat (destruct H as [H|H]; [discriminate|]); contradiction|]. intros k Hk. lia.
Qed.

(** ** ControlPolicy *)

(** Consuming succeeds iff the policy may accept a call; then the count and the sequences change as specified and nothing else; otherwise
    it is undefined, never an exception. *)
Theorem C72_policy_consume ss c : NoDup (map fst (c_seqs c)) ->
  (forall ss' c', control_consume ss c = Ret (ss', c') <->
     may_accept ss c /\ c' = mkControl (c_min c) (c_max c) (c_count c + 1) (c_seqs c) /\ accepted_effect ss ss' c) /\
  (~ may_accept ss c -> exists u, control_consume ss c = Undef u).
Proof.
  intros Hnd. split.
  - intros ss' c'. split.
    + intros H. pose proof (consume_needs _ _ _ Hnd H) as Hm. destruct (consume_accepts _ _ Hnd Hm) as (ss1 & E & Heff).
      rewrite H in E. inversion E; subst. auto.
    + intros (Hm & -> & Heff). destruct (consume_accepts _ _ Hnd Hm) as (ss1 & E & Heff1). rewrite E. f_equal. f_equal.
      apply (effect_unique ss ss1 ss' c); auto. intros s id Hin. destruct Hm as (_ & _ & Hm).
      destruct (Hm _ _ Hin) as (q & Hq & _). eauto.
  - intros Hn. destruct (consume_undef ss c) as [[r H]|H]; auto. exfalso. apply Hn. eapply consume_needs; eauto.
Qed.

(** Without asserts the same happens whenever the entries exist, even if the policy may not accept a call. *)
Theorem C72_policy_consume_release ss c : entries_exist ss c -> c_count c <> INT_MAX ->
  (forall ss' c', control_consume_nd ss c = Ret (ss', c') <->
     c' = mkControl (c_min c) (c_max c) (c_count c + 1) (c_seqs c) /\ accepted_effect ss ss' c) /\
  (may_accept ss c -> control_consume_nd ss c = control_consume ss c).
Proof.
  intros Hex Hm. destruct (consume_nd_accepts ss c Hex Hm) as (ss1 & E & Heff1).
  assert (Hq : forall s id, In (s, id) (c_seqs c) -> exists q, nth_error ss s = Some q).
  { destruct Hex as [_ Hex]. intros s id Hin. destruct (Hex _ _ Hin) as (q & H & _). eauto. }
  split.
  - intros ss' c'. rewrite E. split.
    + intros H. inversion H; subst. auto.
    + intros [-> Heff]. f_equal. f_equal. apply (effect_unique ss ss1 ss' c); auto. apply Hex.
  - intros Hacc. destruct (consume_accepts ss c (proj1 Hex) Hacc) as (ss2 & E2 & Heff2). rewrite E, E2. f_equal. f_equal.
    apply (effect_unique ss ss1 ss2 c); auto. apply Hex.
Qed.

(** In release builds setting the state of an entry which does not exist is undefined, everything else is done without a check. *)
Theorem C72_release_primitives q id st :
  seq_consume_nd q id = Ret (mkSeq (s_strategy q) (s_entries q) id) /\
  (id < length (s_entries q) -> exists q', seq_set_nd st q id = Ret q' /\ entry_changed q q' id st) /\
  (length (s_entries q) <= id -> seq_set_nd st q id = Undef UbDomain).
Proof.
  split; [reflexivity|]. unfold seq_set_nd, seq_is_valid. split.
  - intros H. pose proof H as H'. apply Nat.ltb_lt in H. rewrite H. eexists. split; [reflexivity|].
    apply nth_error_ex in H'. destruct H' as [x Hx]. eapply changed_upd; eauto.
  - intros H. apply Nat.ltb_ge in H. rewrite H. reflexivity.
Qed.

(** The state of a policy: saturated iff the maximum is reached; else it lists the priority of every consumable entry and the sequences of
    all others, and is applicable iff there are no others. *)
Theorem C72_policy_state ss c : entries_exist ss c ->
  (c_count c = c_max c -> control_state_of ss c = Ret (StSaturated (c_min c) (c_max c) (c_count c) (map fst (c_seqs c)))) /\
  (c_count c <> c_max c -> exists rs ts,
     control_state_of ss c = Ret (match ts with
                                  | [] => StApplicable (c_min c) (c_max c) (c_count c) rs
                                  | _ => StInapplicable (c_min c) (c_max c) (c_count c) rs ts
                                  end) /\
     (forall r, In r rs <-> exists id q, In (r_tag r, id) (c_seqs c) /\ nth_error ss (r_tag r) = Some q /\ consumable q id /\
                                         r_priority r = priority q id) /\
     (forall s, In s ts <-> exists id q, In (s, id) (c_seqs c) /\ nth_error ss s = Some q /\ ~ consumable q id) /\
     length rs + length ts = length (c_seqs c)) /\
  (control_is_applicable ss c = true <->
     (c_count c < c_max c)%Z /\ forall s id, In (s, id) (c_seqs c) -> exists q, nth_error ss s = Some q /\ consumable q id).
Proof.
  intros [Hnd Hex]. unfold control_state_of. split; [|split].
  - intros H. apply Z.eqb_eq in H. rewrite H. reflexivity.
  - intros H. apply Z.eqb_neq in H. rewrite H. destruct (collect_spec ss (c_seqs c) Hex) as (rs & ts & E & R & T & L).
    rewrite E. simpl. exists rs, ts. destruct ts; auto.
  - rewrite is_applicable_spec. split; intros [H1 H2]; split; auto; intros s id Hin; destruct (H2 _ _ Hin) as (q & Hq & Hc); exists q;
      (split; [exact Hq|]); apply consumable_iff; exact Hc.
Qed.

Theorem C72_policy_counts c :
  (control_is_satisfied c = true <-> (c_min c <= c_count c <= c_max c)%Z) /\ (control_is_saturated c = true <-> c_count c = c_max c).
Proof.
  unfold control_is_satisfied, control_is_saturated. rewrite andb_true_iff, !Z.leb_le, Z.eqb_eq. tauto.
Qed.

(** A policy with the range 1..2 in two sequences: the first call satisfies, the second saturates its entries, a third one is undefined, but
    goes through without asserts. A policy which needs exactly 2 is never marked saturated. *)
Example C72_policy_example :
  let ss := [mkSeq Lazy [Satisfied; Unsatisfied] 0; mkSeq Greedy [Unsatisfied] 0; mkSeq Lazy [Unsatisfied] 0] in
  let c := mkControl 1 2 0 [(0, 1); (1, 0)] in
  may_accept ss c /\
  control_consume ss c = Ret ([mkSeq Lazy [Satisfied; Satisfied] 1; mkSeq Greedy [Satisfied] 0; mkSeq Lazy [Unsatisfied] 0],
                              mkControl 1 2 1 [(0, 1); (1, 0)]) /\
  obind (control_consume ss c) (fun '(ss1, c1) => control_consume ss1 c1)
    = Ret ([mkSeq Lazy [Satisfied; Saturated] 1; mkSeq Greedy [Saturated] 0; mkSeq Lazy [Unsatisfied] 0],
           mkControl 1 2 2 [(0, 1); (1, 0)]) /\
  obind (control_consume ss c) (fun '(ss1, c1) => obind (control_consume ss1 c1) (fun '(ss2, c2) => control_consume ss2 c2)) = Undef UbAssert /\
  obind (control_consume ss c) (fun '(ss1, c1) => obind (control_consume ss1 c1) (fun '(ss2, c2) => control_consume_nd ss2 c2))
    = Ret ([mkSeq Lazy [Satisfied; Saturated] 1; mkSeq Greedy [Saturated] 0; mkSeq Lazy [Unsatisfied] 0],
           mkControl 1 2 3 [(0, 1); (1, 0)]) /\
  obind (control_consume ss (mkControl 2 2 1 [(2, 0)])) (fun '(ss1, c1) => control_state_of ss1 (mkControl 2 3 2 [(2, 0)]))
    = Ret (StApplicable 2 3 2 [mkRating INT_MAX 2]).
Proof.
  intros ss c. split; [|vm_compute; auto 10].
  split; [vm_compute; reflexivity|]. split; [vm_compute; discriminate|]. intros s id [E|[E|[]]]; inversion E; subst.
  - eexists. split; [reflexivity|]. split; [apply consumable_iff; vm_compute; reflexivity|]. reflexivity.
  - eexists. split; [reflexivity|]. split; [apply consumable_iff; vm_compute; reflexivity|]. reflexivity.
Qed.

Print Assumptions C72_set_satisfied.
Print Assumptions C72_set_saturated.
Print Assumptions C72_consume.
Print Assumptions C72_add.
Print Assumptions C72_destructor.
Print Assumptions C72_priority.
Print Assumptions C72_priorities_ordered.
Print Assumptions C72_history.
Print Assumptions C72_next_call.
Print Assumptions C72_consumed_in_order.
Print Assumptions C72_policy_consume.
Print Assumptions C72_policy_consume_release.
Print Assumptions C72_release_primitives.
Print Assumptions C72_policy_state.
Print Assumptions C72_policy_counts.
