(** * MoveProofs: programs which name their mocks and ScopedExpectations differently behave the same. *)

From Verif Require Import Base Lib Sequence Control Signature Printer Reports Expectation Builder World WorldSpec CallSpec StepCases
  CountProofs IsolateProofs PlayProofs.

(** The world [w] with other tables of mocks and handles. *)
Definition put (ms : list mock) (hs : list handle) (w : world) : world :=
  mkWorld (w_seqs w) (w_iface w) (w_sdead w) (w_exps w) (w_colls w) ms hs (w_frames w) (w_rid w) (w_reporter w) (w_uncaught w) (w_trace w).
Definition putl (ms : list mock) (hs : list handle) (s : stepped) : stepped :=
  match s with
  | Next w r => Next (put ms hs w) r
  | other => other
  end.

Lemma put_self w : put (w_mocks w) (w_scoped w) w = w.
Proof. destruct w; reflexivity. Qed.

Section Put.
Context (ms : list mock) (hs : list handle).

Lemma release_seq_put w s : release_seq (put ms hs w) s = putl ms hs (release_seq w s).
Proof.
  unfold release_seq. change (seq_in_use (put ms hs w) s) with (seq_in_use w s). change (w_sdead (put ms hs w)) with (w_sdead w).
  change (w_seqs (put ms hs w)) with (w_seqs w).
  destruct (seq_in_use w s || nth s (w_sdead w) true); auto. destruct (nth_error (w_seqs w) s) as [q|]; auto.
  destruct (seq_dtor_error q) as [[k n]|]; auto. unfold react. cbn [w_reporter w_uncaught set_sdead put].
  destruct (w_reporter w (RError k n) (w_uncaught w)); auto.
Qed.

Lemma release_seqs_put l : forall w, release_seqs (put ms hs w) l = putl ms hs (release_seqs w l).
Proof.
  induction l as [|s l IH]; intros w; auto. cbn [release_seqs]. rewrite release_seq_put.
  destruct (release_seq w s) as [w' r| |u|]; auto. cbn [putl]. apply IH.
Qed.

Lemma end_expectation_put w e : end_expectation (put ms hs w) e = putl ms hs (end_expectation w e).
Proof.
  unfold end_expectation. change (w_exps (put ms hs w)) with (w_exps w). change (w_colls (put ms hs w)) with (w_colls w).
  change (w_seqs (put ms hs w)) with (w_seqs w).
  destruct (nth_error (w_exps w) e) as [eo|]; auto. destruct (nth_error (w_colls w) (eo_coll eo)) as [l|]; auto.
  destruct (existsb (Nat.eqb e) l); auto. cbn [negb].
  destruct (exp_is_satisfied (eo_exp eo)).
  - rewrite <- release_seqs_put. reflexivity.
  - destruct (exp_report_of (w_seqs w) (eo_exp eo)) as [r|x| |u]; auto.
    + unfold react. cbn [w_reporter w_uncaught set_colls put].
      destruct (w_reporter w (RUnfulfilled r) (w_uncaught w)); auto.
      * rewrite <- release_seqs_put. reflexivity.
      * match goal with |- match release_seqs ?a ?l0 with _ => _ end = putl ms hs (match release_seqs ?b _ with _ => _ end) =>
          replace (release_seqs a l0) with (putl ms hs (release_seqs b l0)) by (rewrite <- release_seqs_put; reflexivity);
          destruct (release_seqs b l0) as [w' r'| |u|] end; auto.
    + match goal with |- match release_seqs ?a ?l0 with _ => _ end = putl ms hs (match release_seqs ?b _ with _ => _ end) =>
          replace (release_seqs a l0) with (putl ms hs (release_seqs b l0)) by (rewrite <- release_seqs_put; reflexivity);
          destruct (release_seqs b l0) as [w' r'| |u|] end; auto.
Qed.

Lemma lookup_exps_put w l : lookup_exps (put ms hs w) l = lookup_exps w l.
Proof. apply lookup_exps_ext. reflexivity. Qed.

Lemma emit_unhandled_put c l : forall w, emit_unhandled (put ms hs w) c l = put ms hs (emit_unhandled w c l).
Proof.
  induction l as [|[n [r x]] l IH]; intros w; auto. cbn [emit_unhandled]. rewrite <- IH. reflexivity.
Qed.

Lemma handle_call_put w coll c ne : handle_call (put ms hs w) coll c ne = putl ms hs (handle_call w coll c ne).
Proof.
  unfold handle_call. change (w_colls (put ms hs w)) with (w_colls w). change (w_reporter (put ms hs w)) with (w_reporter w).
  change (w_uncaught (put ms hs w)) with (w_uncaught w). change (w_seqs (put ms hs w)) with (w_seqs w).
  destruct (nth_error (w_colls w) coll) as [l|]; auto. rewrite lookup_exps_put. destruct (lookup_exps w (rev l)) as [es|]; auto.
  destruct (match_loop _ _ _ _ _ _) as [ml|x| |u]; auto; [|unfold thrown; destruct ne; reflexivity].
  rewrite emit_unhandled_put. set (w1 := emit_unhandled w c (ml_unhandled ml)).
  destruct (ml_full ml) as [|first others].
  - unfold react. cbn [w_reporter w_uncaught put].
    set (rep := match ml_inapplicable ml with [] => _ | _ => _ end). set (who := match ml_inapplicable ml with [] => map fst (ml_none ml) | _ => _ end).
    destruct (w_reporter w1 rep (w_uncaught w1)); auto. unfold thrown. destruct ne; auto.
  - destruct (pick_best first others) as [[n m]|x| |u]; auto; [|unfold thrown; destruct ne; reflexivity].
    unfold react. cbn [w_reporter w_uncaught put].
    destruct (w_reporter w1 (RFull (make_call_report c) m) (w_uncaught w1)); auto. cbn [w_exps w_seqs emit_report emit].
    change (w_exps (put ms hs w1)) with (w_exps w1). destruct (nth_error (w_exps w1) n) as [eo|]; auto.
    change (w_seqs (put ms hs w1)) with (w_seqs w1).
    destruct (control_consume (w_seqs w1) (e_ctl (eo_exp eo))) as [[ss ctl]|x| |u]; auto.
    + destruct (consume_asserts (e_policies (eo_exp eo)) c) as [[]|x| |u]; auto.
    + unfold thrown. destruct ne; auto.
Qed.
End Put.

(** ** Renaming *)

(** [l1] contains the elements of [l] under the new names; elements which are not [ok] need not be found again. *)
Record rel {A : Type} (rho : nat -> nat) (ok : nat -> bool) (l l1 : list A) : Prop := mkRel {
  r_nth : forall i, ok i = true -> nth_error l1 (rho i) = nth_error l i;
  r_inj : forall i j, ok i = true -> ok j = true -> rho i = rho j -> i = j;
  r_new : forall i, length l <= i -> ok i = true /\ rho i = length l1 + (i - length l)
}.

Lemma rel_upd {A} rho ok (l l1 : list A) i x : rel rho ok l l1 -> ok i = true -> i < length l -> rel rho ok (upd l i x) (upd l1 (rho i) x).
Proof.
  intros R Hi Hl. constructor.
  - intros j Hj. destruct (Nat.eq_dec i j) as [<-|Hne].
    + rewrite (nth_error_upd_eq l) by auto. apply nth_error_upd_eq. destruct (nth_error_ex _ _ Hl) as [y Hy].
      rewrite <- (r_nth _ _ _ _ R _ Hi) in Hy. eapply nth_error_lt; eauto.
    + rewrite !nth_error_upd_neq; auto; [apply (r_nth _ _ _ _ R); auto|]. intros E. apply Hne. eapply (r_inj _ _ _ _ R); eauto.
  - apply (r_inj _ _ _ _ R).
  - intros j Hj. rewrite !length_upd in *. apply (r_new _ _ _ _ R); auto.
Qed.

Lemma rel_snoc {A} rho ok (l l1 : list A) x : rel rho ok l l1 -> rel rho ok (l ++ [x]) (l1 ++ [x]).
Proof.
  intros R. constructor.
  - intros j Hj. destruct (Nat.lt_ge_cases j (length l)) as [Hlt|Hge].
    + rewrite (nth_error_app1 l) by auto. rewrite nth_error_app1; [apply (r_nth _ _ _ _ R); auto|].
      destruct (nth_error_ex _ _ Hlt) as [y Hy]. rewrite <- (r_nth _ _ _ _ R _ Hj) in Hy. eapply nth_error_lt; eauto.
    + destruct (r_new _ _ _ _ R _ Hge) as [_ E]. rewrite E. rewrite !nth_error_app2 by lia. f_equal. lia.
  - apply (r_inj _ _ _ _ R).
  - intros j Hj. rewrite !app_length in *. simpl in *. destruct (r_new _ _ _ _ R j) as [A1 A2]; [lia|]. split; auto. lia.
Qed.

Lemma rel_eqb {A} rho ok (l l1 : list A) i j : rel rho ok l l1 -> ok i = true -> ok j = true -> (rho i =? rho j) = (i =? j).
Proof.
  intros R Hi Hj. destruct (Nat.eqb_spec i j) as [->|Hne]; [apply Nat.eqb_refl|]. apply Nat.eqb_neq. intros E. apply Hne. eapply (r_inj _ _ _ _ R); eauto.
Qed.

(** An operation under the new names. *)
Definition rename (rm rh : nat -> nat) (o : op) : op :=
  match o with
  | OMoveMock m => OMoveMock (rm m)
  | OMoveAssignMock d s => OMoveAssignMock (rm d) (rm s)
  | ODestroyMock m => ODestroyMock (rm m)
  | OExpect m ov ms cls l => OExpect (rm m) ov ms cls l
  | OCall m ov args l => OCall (rm m) ov args l
  | OSatisfied h => OSatisfied (rh h)
  | OEndScope h => OEndScope (rh h)
  | OMoveScoped h => OMoveScoped (rh h)
  | OMoveAssignScoped d s => OMoveAssignScoped (rh d) (rh s)
  | other => other
  end.

(** The mocks / handles named by an operation. *)
Definition mocks_of (o : op) : list nat :=
  match o with
  | OMoveMock m | ODestroyMock m | OExpect m _ _ _ _ | OCall m _ _ _ => [m]
  | OMoveAssignMock d s => [d; s]
  | _ => []
  end.
Definition handles_of (o : op) : list nat :=
  match o with
  | OSatisfied h | OEndScope h | OMoveScoped h => [h]
  | OMoveAssignScoped d s => [d; s]
  | _ => []
  end.

Section Rename.
Context (rm rh : nat -> nat) (okm okh : nat -> bool).

Definition sim (w w1 : world) : Prop :=
  exists ms hs, w1 = put ms hs w /\ rel rm okm (w_mocks w) ms /\ rel rh okh (w_scoped w) hs.

Definition sims (s s1 : stepped) : Prop :=
  match s, s1 with
  | Next w r, Next w1 r1 => sim w w1 /\ r = r1
  | Stop, Stop => True
  | Wrong u, Wrong u1 => u = u1
  | Invalid, Invalid => True
  | _, _ => False
  end.

Lemma sims_refl_put s ms hs : (forall w r, s = Next w r -> rel rm okm (w_mocks w) ms /\ rel rh okh (w_scoped w) hs) -> sims s (putl ms hs s).
Proof.
  intros H. destruct s as [w r| |u|]; simpl; auto. split; auto. destruct (H w r eq_refl). exists ms, hs. auto.
Qed.

Lemma end_parts w e w' r : end_expectation w e = Next w' r -> w_mocks w' = w_mocks w /\ w_scoped w' = w_scoped w.
Proof. intros H. apply end_expectation_next in H. destruct H as (eo & l & unf & evs & d' & _ & _ & _ & _ & -> & _). auto. Qed.

Lemma sim_step w w1 o : sim w w1 -> forallb okm (mocks_of o) = true -> forallb okh (handles_of o) = true ->
  sims (step w o) (step w1 (rename rm rh o)).
Proof.
  intros (ms & hs & -> & Rm & Rh) Hm Hh.
  assert (Hfind : forall m ov, okm m = true -> find_overload (put ms hs w) (rm m) ov = find_overload w m ov).
  { intros m ov Hok. unfold find_overload. cbn [w_mocks put]. rewrite (r_nth _ _ _ _ Rm _ Hok). reflexivity. }
  destruct o; cbn [rename step].
  - simpl. split; auto. exists ms, hs. auto.
  - change (w_iface (put ms hs w)) with (w_iface w). destruct (nth s (w_iface w) false); simpl; auto.
    change (set_iface (put ms hs w) (upd (w_iface w) s false)) with (put ms hs (set_iface w (upd (w_iface w) s false))).
    rewrite release_seq_put. apply sims_refl_put. intros w' r H. apply release_seq_next in H. destruct H as [_ [[-> _]|(_ & _ & q & _ & -> & _)]]; auto.
  - destruct (_ && _); simpl; auto. split; auto. eexists. eexists. split; [reflexivity|]. split; auto. apply rel_snoc; auto.
  - cbn [mocks_of forallb] in Hm. rewrite andb_true_r in Hm. cbn [w_mocks put]. rewrite (r_nth _ _ _ _ Rm _ Hm).
    destruct (nth_error (w_mocks w) m) as [mk|] eqn:E; simpl; auto. destruct (mk_alive mk); simpl; auto. split; auto.
    eexists. eexists. split; [reflexivity|]. split; auto. apply rel_snoc, rel_upd; auto. eapply nth_error_lt; eauto.
  - cbn [mocks_of forallb] in Hm. rewrite andb_true_r in Hm. apply andb_true_iff in Hm. destruct Hm as [Hd Hs]. cbn [w_mocks put].
    rewrite (r_nth _ _ _ _ Rm _ Hd), (r_nth _ _ _ _ Rm _ Hs), (rel_eqb _ _ _ _ _ _ Rm Hd Hs).
    destruct (nth_error (w_mocks w) dst) as [md|] eqn:Ed; simpl; auto. destruct (nth_error (w_mocks w) src) as [mk|] eqn:Es; simpl; auto.
    destruct (mk_alive md && mk_alive mk && _); simpl; auto. destruct (dst =? src); simpl; split; auto.
    + exists ms, hs. auto.
    + eexists. eexists. split; [reflexivity|]. split; auto. apply rel_upd; auto; [apply rel_upd; auto; eapply nth_error_lt; eauto|].
      rewrite length_upd. eapply nth_error_lt; eauto.
  - cbn [mocks_of forallb] in Hm. rewrite andb_true_r in Hm. cbn [w_mocks put]. rewrite (r_nth _ _ _ _ Rm _ Hm).
    destruct (nth_error (w_mocks w) m) as [mk|] eqn:E; simpl; auto. destruct (mk_alive mk); simpl; auto. split; auto.
    eexists. eexists. split; [reflexivity|]. split; auto. apply rel_upd; auto. eapply nth_error_lt; eauto.
  - cbn [mocks_of forallb] in Hm. rewrite andb_true_r in Hm. unfold do_expect. rewrite (Hfind _ _ Hm).
    destruct (find_overload w m ov) as [s|[s coll]] eqn:Hf; [destruct (find_overload_inl _ _ _ _ Hf); subst; simpl; auto|].
    change (clause_ok (put ms hs w)) with (clause_ok w). destruct (negb _); simpl; auto. destruct (build s ms0 cls) as [b|x|]; simpl; auto.
    + destruct (negb (finalize_ok s b)); simpl; auto. 
      destruct (control_new (w_seqs w) (b_times b) (b_seqs b)) as [[ss ctl]|x| |u]; simpl; auto.
      * destruct (nth_error (w_colls w) coll); simpl; auto. split; auto. eexists. eexists. split; [reflexivity|]. split; auto. apply rel_snoc; auto.
      * split; auto. exists ms, hs. auto.
    + destruct (finalizable s cls); simpl; auto. split; auto. exists ms, hs. auto.
  - cbn [mocks_of forallb] in Hm. rewrite andb_true_r in Hm. unfold do_call. rewrite (Hfind _ _ Hm).
    destruct (find_overload w m ov) as [s|[s coll]] eqn:Hf; [destruct (find_overload_inl _ _ _ _ Hf); subst; simpl; auto|].
    destruct (negb _); simpl; auto. rewrite handle_call_put. apply sims_refl_put. intros w' r H.
    apply handle_call_next in H. destruct H as (lst & es & ml & _ & _ & _ & Hcr). inversion Hcr; subst; auto.
  - unfold do_action. change (w_frames (put ms hs w)) with (w_frames w). destruct (w_frames w) as [|f fs]; simpl; auto.
    destruct (f_todo f); simpl; auto. change (exp_alive (put ms hs w)) with (exp_alive w).
    destruct (exp_alive w (f_exp f)); simpl; auto. split; auto. exists ms, hs. auto.
  - change (w_frames (put ms hs w)) with (w_frames w). destruct (w_frames w) as [|f fs]; simpl; auto. destruct (f_started f && negb (f_final f)); simpl; auto.
  - unfold do_final. change (w_frames (put ms hs w)) with (w_frames w). destruct (w_frames w) as [|f fs]; simpl; auto.
    destruct (f_todo f); simpl; auto. destruct (f_final f); simpl; auto. change (exp_alive (put ms hs w)) with (exp_alive w).
    destruct (exp_alive w (f_exp f)); simpl; auto. split; auto. exists ms, hs. auto.
  - unfold do_return. change (w_frames (put ms hs w)) with (w_frames w). destruct (w_frames w) as [|f fs]; simpl; auto.
    destruct (negb (f_final f)); simpl; auto. destruct (nth_error (w_exps w) (f_exp f)) as [eo|]; simpl; auto.
    destruct (finalizer_result _ _); simpl; [split; auto; exists ms, hs; auto|]. unfold thrown. destruct (f_noexcept f); simpl; auto. split; auto. exists ms, hs; auto.
  - cbn [handles_of forallb] in Hh. rewrite andb_true_r in Hh. cbn [w_scoped put]. rewrite (r_nth _ _ _ _ Rh _ Hh).
    destruct (nth_error (w_scoped w) h) as [[e| |]|]; simpl; auto. destruct (nth_error (w_exps w) e) as [eo|]; simpl; auto.
    destruct (eo_alive eo); simpl; auto. split; auto. exists ms, hs; auto.
  - cbn [handles_of forallb] in Hh. rewrite andb_true_r in Hh. cbn [w_scoped put]. rewrite (r_nth _ _ _ _ Rh _ Hh).
    destruct (nth_error (w_scoped w) h) as [[e| |]|] eqn:E; simpl; auto.
    + change (set_scoped (put ms hs w) (upd hs (rh h) HDead)) with (put ms (upd hs (rh h) HDead) (set_scoped w (upd (w_scoped w) h HDead))).
      rewrite end_expectation_put. apply sims_refl_put. intros w' r H. apply end_parts in H. destruct H as [-> ->]. split; auto.
      apply rel_upd; auto. eapply nth_error_lt; eauto.
    + split; auto. eexists. eexists. split; [reflexivity|]. split; auto. apply rel_upd; auto. eapply nth_error_lt; eauto.
  - cbn [handles_of forallb] in Hh. rewrite andb_true_r in Hh. cbn [w_scoped put]. rewrite (r_nth _ _ _ _ Rh _ Hh).
    destruct (nth_error (w_scoped w) h) as [[e| |]|] eqn:E; simpl; auto; split; auto; eexists; eexists; (split; [reflexivity|]); split; auto;
      apply rel_snoc, rel_upd; auto; eapply nth_error_lt; eauto.
  - cbn [handles_of forallb] in Hh. rewrite andb_true_r in Hh. apply andb_true_iff in Hh. destruct Hh as [Hd Hs]. cbn [w_scoped put].
    rewrite (r_nth _ _ _ _ Rh _ Hd), (r_nth _ _ _ _ Rh _ Hs), (rel_eqb _ _ _ _ _ _ Rh Hd Hs).
    assert (RR : forall x, dst < length (w_scoped w) -> src < length (w_scoped w) ->
              rel rh okh (upd (upd (w_scoped w) src HEmpty) dst x) (upd (upd hs (rh src) HEmpty) (rh dst) x)).
    { intros x L1 L2. apply rel_upd; auto; [apply rel_upd; auto|]. rewrite length_upd. auto. }
    destruct (nth_error (w_scoped w) dst) as [od|] eqn:Ed;
      [|destruct (nth_error (w_scoped w) src) as [[]|]; simpl; auto].
    destruct (nth_error (w_scoped w) src) as [os|] eqn:Es; [|destruct od; simpl; auto].
    pose proof (nth_error_lt _ _ _ Ed) as L1. pose proof (nth_error_lt _ _ _ Es) as L2.
    assert (Hend : forall e x, sims
       (match end_expectation (set_scoped w (upd (upd (w_scoped w) src HEmpty) dst x)) e with Next w2 (RThrow _) => Stop | other => other end)
       (match end_expectation (set_scoped (put ms hs w) (upd (upd hs (rh src) HEmpty) (rh dst) x)) e with Next w2 (RThrow _) => Stop | other => other end)).
    { intros e x. change (set_scoped (put ms hs w) (upd (upd hs (rh src) HEmpty) (rh dst) x))
        with (put ms (upd (upd hs (rh src) HEmpty) (rh dst) x) (set_scoped w (upd (upd (w_scoped w) src HEmpty) dst x))).
      rewrite end_expectation_put. destruct (end_expectation _ e) as [w' r| |u|] eqn:Ee; simpl; auto. apply end_parts in Ee. destruct Ee as [E1 E2].
      assert (S : sim w' (put ms (upd (upd hs (rh src) HEmpty) (rh dst) x) w')).
      { eexists. eexists. split; [reflexivity|]. rewrite E1, E2. split; auto. apply RR; auto. }
      destruct r; simpl; auto. }
    destruct od as [e| |], os as [e'| |]; simpl; auto; destruct (dst =? src); simpl;
      try (split; auto; exists ms, hs; auto; fail); try apply Hend;
      split; auto; eexists; eexists; (split; [reflexivity|]); split; auto; apply RR; auto.
  - simpl. split; auto. exists ms, hs. auto.
  - simpl. split; auto. exists ms, hs. auto.
Qed.

Theorem sim_play ops : forall w w1, sim w w1 ->
  (forall o, In o ops -> forallb okm (mocks_of o) = true /\ forallb okh (handles_of o) = true) ->
  play w1 (map (rename rm rh) ops) = play w ops.
Proof.
  induction ops as [|o ops IH]; intros w w1 S H; auto. cbn [map play].
  destruct (H o (or_introl eq_refl)) as [H1 H2]. pose proof (sim_step _ _ _ S H1 H2) as SS.
  assert (Et : w_trace w1 = w_trace w) by (destruct S as (ms & hs & -> & _); reflexivity).
  destruct (step w o) as [w' r| |u|], (step w1 (rename rm rh o)) as [w1' r1| |u1|]; simpl in SS; try contradiction; auto.
  - destruct SS as [S' <-]. rewrite (IH _ _ S'); [|intros o' Ho'; apply H; right; auto].
    assert (Et' : w_trace w1' = w_trace w') by (destruct S' as (ms & hs & -> & _); reflexivity). rewrite Et, Et'. reflexivity.
  - subst. auto.
Qed.
End Rename.

Lemma rel_refl {A} (l : list A) : rel (fun i => i) (fun _ => true) l l.
Proof. constructor; auto. intros i Hi. split; auto. lia. Qed.

(** The new names after object [m] of [n] objects was moved to a new object: [m] becomes [n], later objects shift. *)
Definition redirect (m n : nat) (i : nat) : nat := if i =? m then n else if i <? n then i else S i.

Lemma rel_redirect {A} (l : list A) m x y : nth_error l m = Some x ->
  rel (redirect m (length l)) (fun _ => true) l (upd l m y ++ [x]).
Proof.
  intros Hm. pose proof (nth_error_lt _ _ _ Hm) as Hl. unfold redirect. constructor.
  - intros i _. destruct (Nat.eqb_spec i m) as [->|Hne].
    + rewrite nth_error_app2 by (rewrite length_upd; auto). rewrite length_upd, Nat.sub_diag. auto.
    + destruct (Nat.ltb_spec i (length l)) as [Hlt|Hge].
      * rewrite nth_error_app1 by (rewrite length_upd; auto). apply nth_error_upd_neq; auto.
      * rewrite (proj2 (nth_error_None l i)) by auto. apply nth_error_None. rewrite app_length, length_upd. simpl. lia.
  - intros i j _ _. destruct (Nat.eqb_spec i m), (Nat.eqb_spec j m);
      destruct (Nat.ltb_spec i (length l)); destruct (Nat.ltb_spec j (length l)); lia.
  - intros i Hi. split; auto. rewrite app_length, length_upd. simpl. destruct (Nat.eqb_spec i m); [lia|].
    destruct (Nat.ltb_spec i (length l)); lia.
Qed.

(** Object [m] was changed, the others keep their names. *)
Lemma rel_except {A} (l : list A) m y : m < length l -> rel (fun i => i) (fun i => negb (i =? m)) l (upd l m y).
Proof.
  intros Hm. constructor.
  - intros i Hi. apply nth_error_upd_neq. apply negb_true_iff, Nat.eqb_neq in Hi. auto.
  - auto.
  - intros i Hi. rewrite length_upd. split; [apply negb_true_iff, Nat.eqb_neq; lia|lia].
Qed.

(** Object [s] was moved onto [d]. *)
Definition onto (s d : nat) (i : nat) : nat := if i =? s then d else i.
Lemma rel_onto {A} (l : list A) s d x y : nth_error l s = Some x -> d < length l -> s <> d ->
  rel (onto s d) (fun i => negb (i =? d)) l (upd (upd l s y) d x).
Proof.
  intros Hs Hd Hne. pose proof (nth_error_lt _ _ _ Hs) as Hl. unfold onto. constructor.
  - intros i Hi. apply negb_true_iff, Nat.eqb_neq in Hi. destruct (Nat.eqb_spec i s) as [->|Hn].
    + rewrite nth_error_upd_eq; auto. rewrite length_upd. auto.
    + rewrite !nth_error_upd_neq; auto.
  - intros i j Hi Hj. apply negb_true_iff, Nat.eqb_neq in Hi, Hj. destruct (Nat.eqb_spec i s), (Nat.eqb_spec j s); lia.
  - intros i Hi. rewrite !length_upd. split; [apply negb_true_iff, Nat.eqb_neq; lia|]. destruct (Nat.eqb_spec i s); lia.
Qed.
