(** * PropFailing: operations which are left by an exception half-way. Property C81. *)

From Verif Require Import Base Lib Sequence Control Signature Printer Reports Expectation Builder BuildSpec BuilderLemmas BuildProofs World WorldSpec
  SeqSpec SeqInv StepCases WorldInv ObjInv CountProofs SeqEnd CallSpec Scenario Failing FailProofs.

(** ** Statements *)

(** The operation is one of those which are left half-way. *)
Definition failing (o : fop) : Prop := match o with FDone _ => False | _ => True end.

(** Nothing but the sequences (and the numbering of expectations) differs. *)
Definition only_sequences (w w' : world) : Prop :=
  w_iface w' = w_iface w /\ w_sdead w' = w_sdead w /\ w_colls w' = w_colls w /\ w_mocks w' = w_mocks w /\ w_scoped w' = w_scoped w /\
  w_frames w' = w_frames w /\ w_rid w' = w_rid w /\ w_reporter w' = w_reporter w /\ w_uncaught w' = w_uncaught w /\ w_trace w' = w_trace w /\
  (forall e x, exp_at w e x -> exp_at w' e x) /\ (forall e x, exp_at w' e x -> eo_alive x = true -> exp_at w e x).

(** The applicability of C13 without a look at expectation [t]. *)
Definition applicable_without (t : nat) (w : world) (e : nat) (x : eobj) : Prop :=
  (Z.of_nat (accepted (w_trace w) e) < x_max x)%Z /\
  forall s, In s (x_seqs x) ->
  forall e' x', e' <> t -> exp_at w e' x' -> In s (x_seqs x') ->
    (e' < e -> (x_min x' <= Z.of_nat (accepted (w_trace w) e'))%Z) /\
    (e < e' -> accepted (w_trace w) e' = 0).

(** ** Programs without failures are programs *)

Theorem C81_conservative w ops w' : run w ops w' <-> frun w (map FDone ops) w'.
Proof.
  split.
  - intros H. induction H; simpl; econstructor; eauto.
  - revert w. induction ops as [|o ops IH]; intros w H; inversion H; subst; [constructor|]. econstructor; eauto.
Qed.

(** ** The stages of a declaration *)

Theorem C81_stages w m ov ms cls l w1 x : freachable w -> step w (OExpect m ov ms cls l) = Next w1 RUnit ->
  fstep w (FExpect m ov ms cls l AtOperand x) = Next w (RThrow x) /\
  fstep w (FExpect m ov ms cls l InControl x) = (if length (clause_seqs cls) =? 0 then Invalid else Stop) /\
  fstep w (FExpect m ov ms cls l InModel x) = Stop /\
  exists w2, fstep w (FExpect m ov ms cls l AfterControl x) = Next w2 (RThrow x) /\ only_sequences w w2 /\ w_seqs w2 = w_seqs w1 /\
    (clause_seqs cls = [] -> w2 = w).
Proof.
  intros Hr H. pose proof (finv _ Hr) as I. cbn [step] in H.
  destruct (do_expect_next _ _ _ _ _ _ _ _ H) as (s & coll & Hf & Hl & Hok & [(y & _ & _ & E)|(b & ss & ctl & mem & Hb & Hfin & Hc & Hm & _ & Ew)]); [discriminate|].
  assert (Hv : viable false false cls = true).
  { unfold build in Hb. destruct (viable false false cls); auto. discriminate. }
  assert (F : finalizable s cls = true).
  { destruct (build_inv _ _ _ _ Hb) as (_ & _ & Eb). unfold finalize_ok in Hfin. unfold finalizable. apply orb_true_iff in Hfin. apply orb_true_iff.
    destruct Hfin as [E|E]; auto. right. rewrite Eb in E. unfold finished in E. cbn [b_finalized] in E. unfold final_clauses in E.
    clear - E. induction cls as [|cl cls IH]; [discriminate|]. simpl in *. destruct cl; auto. }
  destruct (winv_half w cls s ms coll b ss ctl mem l x I Hok Hb Hc Hm) as (_ & Els & Es & _).
  apply Nat.eqb_eq in Hl.
  cbn [fstep]. unfold do_expect_fails. rewrite Hf, Hl, Hok, Hv, F. cbn [andb negb]. rewrite Hb, Hc, Hm.
  assert (Hbs : b_seqs b = clause_seqs cls) by (apply (build_ok _ _ _ _ Hb (clauses_times _ _ _ Hok))). rewrite Hbs.
  do 3 (split; [reflexivity|]). clear Hbs. eexists. split; [reflexivity|].
  assert (Ess : c_seqs ctl = [] -> ss = w_seqs w).
  { intros E. unfold control_new in Hc. destruct (build_ok _ _ _ _ Hb (clauses_times _ _ _ Hok)) as (_ & Hbs & _).
    rewrite E in Es. simpl in Es. rewrite <- Es in Hbs. rewrite Hbs in Hc. cbn in Hc. unfold control_update in Hc. cbn [c_count c_min c_max c_seqs] in Hc.
    destruct (0 =? t_min (b_times b))%Z; [|destruct (0 =? t_max (b_times b))%Z]; cbn in Hc; inversion Hc; reflexivity. }
  unfold half_built. destruct (c_seqs ctl) as [|p t] eqn:Ep.
  - split; [unfold only_sequences; repeat split; auto|]. split; [|auto]. rewrite Ew. cbn. symmetry. auto.
  - split; [|split; [rewrite Ew; reflexivity|intros E; rewrite E in Es; discriminate]].
    unfold only_sequences. cbn [w_iface w_sdead w_colls w_mocks w_scoped w_frames w_rid w_reporter w_uncaught w_trace set_exps set_seqs].
    do 10 (split; [reflexivity|]). split.
    + intros e z Hz. apply nth_error_snoc_old; auto.
    + intros e z Hz Ha. apply nth_error_snoc in Hz. destruct Hz as [[Hz _]|[-> ->]]; auto. discriminate.
Qed.

(** Operands which bring objects of user types along: finalizers, requirements and side effects. *)
Definition user_operand (cl : clause) : Prop :=
  match cl with
  | ClFinal _ | ClPolicy (PArg _ _ _) | ClPolicy (PSideEffect _) => True
  | _ => False
  end.

(** A matcher, an action or a finalizer can not be stored in the builder: the constructor is noexcept. Without any of them there is nothing to fail. *)
Theorem C81_builder_noexcept w m ov ms cls l w1 x : freachable w -> step w (OExpect m ov ms cls l) = Next w1 RUnit ->
  ((ms <> [] \/ exists cl, In cl cls /\ user_operand cl) -> fstep w (FExpect m ov ms cls l InBuilder x) = Stop) /\
  (ms = [] -> (forall cl, In cl cls -> ~ user_operand cl) -> fstep w (FExpect m ov ms cls l InBuilder x) = Invalid).
Proof.
  intros Hr H. pose proof (finv _ Hr) as I. cbn [step] in H.
  destruct (do_expect_next _ _ _ _ _ _ _ _ H) as (s & coll & Hf & Hl & Hok & [(y & _ & _ & E)|(b & ss & ctl & mem & Hb & Hfin & Hc & Hm & _ & Ew)]); [discriminate|].
  destruct (build_inv _ _ _ _ Hb) as (_ & _ & Eb).
  assert (Hv : viable false false cls = true).
  { unfold build in Hb. destruct (viable false false cls); auto. discriminate. }
  assert (F : finalizable s cls = true).
  { unfold finalize_ok in Hfin. unfold finalizable. apply orb_true_iff in Hfin. apply orb_true_iff.
    destruct Hfin as [E|E]; auto. right. rewrite Eb in E. unfold finished in E. cbn [b_finalized] in E. unfold final_clauses in E.
    clear - E. induction cls as [|cl cls IH]; [discriminate|]. simpl in *. destruct cl; auto. }
  apply Nat.eqb_eq in Hl.
  cbn [fstep]. unfold do_expect_fails. rewrite Hf, Hl, Hok, Hv, F. cbn [andb negb]. rewrite Hb.
  assert (U : user_made b = true <-> (ms <> [] \/ exists cl, In cl cls /\ user_operand cl)).
  { rewrite Eb. unfold user_made, finished. cbn [b_finalized b_policies]. rewrite orb_true_iff, !existsb_app, !orb_true_iff. clear. split.
    - intros [A|[A|[A|A]]].
      + right. assert (X : exists f, In f (final_clauses cls)) by (destruct (final_clauses cls) as [|f t]; [discriminate|exists f; left; auto]).
        destruct X as [f X]. unfold final_clauses in X. apply in_flat_map in X. destruct X as (cl & C1 & C2). exists cl. split; auto. destruct cl; try contradiction. exact Logic.I.
      + left. intros ->. discriminate.
      + discriminate.
      + right. apply existsb_exists in A. destruct A as (p & A & B). unfold clause_policies in A. apply in_flat_map in A. destruct A as (cl & C1 & C2).
        exists cl. split; auto. destruct cl as [| | |q]; try contradiction. destruct C2 as [->|[]]. destruct p; try discriminate; exact Logic.I.
    - intros [A|(cl & A & B)].
      + right; left. destruct ms as [|m0 ms]; [congruence|]. reflexivity.
      + destruct cl as [t|tags|f|p]; try contradiction.
        * left. assert (X : In f (final_clauses cls)) by (apply in_flat_map; exists (ClFinal f); split; auto; left; auto).
          destruct (final_clauses cls); [destruct X|reflexivity].
        * right; right; right. apply existsb_exists. exists p. split; [apply in_flat_map; exists (ClPolicy p); split; auto; left; auto|].
          destruct p; try contradiction; reflexivity. }
  split.
  - intros A. apply U in A. rewrite A. reflexivity.
  - intros -> A. destruct (user_made b); auto. exfalso. destruct (proj1 U eq_refl) as [B|(cl & B & C)]; [congruence|]. eapply A; eauto.
Qed.

(** ** What holds no matter what fails *)

(** Failing operations count no call. *)
Theorem C81_failures_count_nothing w o w' r : freachable w -> fstep w o = Next w' r -> failing o ->
  forall e, accepted (w_trace w') e = accepted (w_trace w) e.
Proof.
  intros Hr H Hf. destruct (fstep_accepted _ _ _ _ (finv _ Hr) H) as [E|(m & ov & args & l & s & coll & n & x & -> & _)]; auto. destruct Hf.
Qed.

(** Limits. *)
Theorem C81_limits w0 m ov ms cls l w1 ops w2 :
  freachable w0 -> step w0 (OExpect m ov ms cls l) = Next w1 RUnit -> frun w1 ops w2 ->
  (Z.of_nat (accepted (w_trace w2) (length (w_exps w0))) <= snd (declared_limits cls))%Z.
Proof.
  intros Hr H1 H2. pose proof (finv _ Hr) as I.
  destruct (expect_next _ _ _ _ _ _ _ _ H1) as (s & coll & Hf & _ & _ & [(_ & _ & x & Hx & Hd & Hc & _)|(_ & Hc & _)]); [|discriminate].
  pose proof (winv_step _ _ _ _ I H1) as I1.
  destruct (frun_exps _ _ _ I1 H2 _ _ Hx) as (x' & Hx' & (_ & Em & _) & _). destruct Hd as (_ & Hmax & _). rewrite <- Hmax, <- Em.
  pose proof (finv_run _ _ _ I1 H2) as I2. rewrite <- (wi_count _ I2 _ _ Hx').
  destruct (si_ok _ _ (wi_s _ I2) _ _ (ctls_nth _ _ _ Hx')) as (_ & _ & H). unfold x_max. fold (ctl_of x'). lia.
Qed.

(** Applicability is a matter of the history, as in C13; half-built expectations count as elements of their sequences. *)
Theorem C81_applicable_iff_history w e x : freachable w -> exp_at w e x ->
  (control_is_applicable (w_seqs w) (e_ctl (eo_exp x)) = true <-> applicable w e x).
Proof. intros Hr Hx. apply (applicable_iff w e x (finv _ Hr) Hx). Qed.

(** Calls are accepted by candidates only. *)
Theorem C81_accepted_by_candidates w o w' r e : freachable w -> fstep w o = Next w' r ->
  accepted (w_trace w') e <> accepted (w_trace w) e ->
  exists m ov args l s coll x, o = FDone (OCall m ov args l) /\ candidate w coll (call_of s args l) e x /\
    accepted (w_trace w') e = S (accepted (w_trace w) e).
Proof.
  intros Hr H Hne. destruct (fstep_accepted _ _ _ _ (finv _ Hr) H) as [E|(m & ov & args & l & s & coll & n & x & -> & Hc & E)]; [congruence|].
  rewrite E in Hne |- *. destruct (Nat.eqb_spec n e) as [En|En]; [|lia]. rewrite En in Hc. exists m, ov, args, l, s, coll, x. split; auto. split; auto. lia.
Qed.

(** The complaints about sequences, as in C18. *)
Theorem C81_sequence_error_iff w s : freachable w -> s < length (w_seqs w) ->
  (seq_error_reports (w_trace w) s = 1 /\ gone w s /\ exists e, missed w s e) \/
  (seq_error_reports (w_trace w) s = 0 /\ ~ (gone w s /\ exists e, missed w s e)).
Proof.
  intros Hr Hs. pose proof (finv _ Hr) as I. rewrite gone_spec, (wi_err _ I _ Hs), (wi_dead _ I _ Hs).
  destruct (seq_in_use w s); simpl; [right; split; auto; intros []; discriminate|].
  destruct (all_met (ctls w) s) eqn:E; simpl.
  - right. split; auto. intros [_ H]. apply all_met_spec in H; auto. congruence.
  - left. do 2 (split; auto). apply all_met_spec; auto.
Qed.

(** ** Half-built expectations *)

(** A declaration with sequences which fails after the sequences were entered: a number without a live expectation. *)
Lemma half_built_number w m ov ms cls l x w1 r : freachable w -> fstep w (FExpect m ov ms cls l AfterControl x) = Next w1 r -> clause_seqs cls <> [] ->
  exists y, exp_at w1 (length (w_exps w)) y /\ eo_alive y = false /\ x_min y = fst (declared_limits cls) /\ x_seqs y = clause_seqs cls /\
    describable (eo_exp y) = false /\ accepted (w_trace w1) (length (w_exps w)) = 0 /\ unfulfilled_reports (w_trace w1) (length (w_exps w)) = 0 /\
    w_trace w1 = w_trace w /\ length (w_exps w1) = S (length (w_exps w)).
Proof.
  intros Hr H Hs. pose proof (finv _ Hr) as I. pose proof (fstep_change _ _ _ _ I H) as C.
  destruct C as [o' E H1|evs y E1 E2 Q|m' ov' ms' cls' l' y s coll b ss ctl mem E _ Hf Hl Hok Hb Hc Hm Hs' Ew|h k eo y E Hh He Ha Hsat _]; try discriminate.
  - exfalso. cbn [fstep] in H. unfold do_expect_fails in H. destruct (find_overload w m ov) as [r0|[s coll]] eqn:Hf.
    { unfold find_overload in Hf. destruct (nth_error (w_mocks w) m) as [mk|]; [|inversion Hf; subst; discriminate].
      destruct (negb (mk_alive mk)); [inversion Hf; subst; discriminate|]. destruct (nth_error (mk_sigs mk) ov); [|inversion Hf; subst; discriminate].
      destruct (mk_colls mk) as [cs|]; [|inversion Hf; subst; discriminate]. destruct (nth_error cs ov); inversion Hf; subst; discriminate. }
    destruct ((length ms =? length (sg_params s)) && forallb (clause_ok w (length (sg_params s))) cls) eqn:Hok; [|discriminate]. cbn [negb] in H.
    apply andb_true_iff in Hok. destruct Hok as [_ Hok]. destruct (viable false false cls && finalizable s cls); [|discriminate]. cbn [negb] in H.
    destruct (build s ms cls) as [b| |] eqn:Hb; try discriminate. destruct (control_new _ _ _) as [[ss ctl]| | |] eqn:Hc; try discriminate.
    destruct (nth_error (w_colls w) coll) as [mem|] eqn:Hm; [|discriminate].
    destruct (winv_half w cls s ms coll b ss ctl mem l x I Hok Hb Hc Hm) as (_ & _ & Es & _).
    assert (Ew : w1 = half_built w l ss ctl x) by (inversion H; auto). clear H. unfold half_built in Ew.
    destruct (c_seqs ctl) as [|p t] eqn:Ec; [symmetry in Es; auto|].
    assert (L : length (w_exps w1) = S (length (w_exps w))) by (rewrite Ew; cbn [w_exps set_exps]; rewrite app_length; simpl; lia).
    rewrite E2 in L. simpl in L. lia.
  - inversion E; subst m' ov' ms' cls' l' y. clear E.
    destruct (winv_half w cls s ms coll b ss ctl mem l x I Hok Hb Hc Hm) as (_ & _ & Es & E0 & Emin & _).
    destruct (build_inv _ _ _ _ Hb) as (_ & _ & Eb).
    eexists. split; [subst w1; unfold exp_at; simpl; apply nth_error_app_last|].
    split; [reflexivity|]. split; [unfold x_min; simpl; rewrite Emin, Eb; reflexivity|]. split; [exact Es|]. split; [reflexivity|].
    destruct (wi_fresh _ I (length (w_exps w)) (le_n _)) as [A B]. subst w1. simpl. rewrite app_length. simpl. repeat split; auto. lia.
  - destruct E as [E|(? & E & _)]; discriminate.
Qed.

(** Nothing which enters such a sequence later ever accepts a call, unless the lower limit of the half-built expectation is zero. *)
Theorem C81_half_built_blocks w m ov ms cls l x w1 r ops w2 s e y :
  freachable w -> fstep w (FExpect m ov ms cls l AfterControl x) = Next w1 r -> (0 < fst (declared_limits cls))%Z -> In s (clause_seqs cls) ->
  frun w1 ops w2 -> length (w_exps w) <= e -> exp_at w2 e y -> In s (x_seqs y) ->
  accepted (w_trace w2) e = 0 /\ (length (w_exps w) < e -> ~ applicable w2 e y).
Proof.
  intros Hr H Hmin Hs Hrun Hge Hy Hsy.
  assert (Hne : clause_seqs cls <> []) by (intros E; rewrite E in Hs; destruct Hs).
  destruct (half_built_number _ _ _ _ _ _ _ _ _ Hr H Hne) as (t & Ht & Ha & Em & Es & _ & E0 & _ & Et & _).
  pose proof (finv_step _ _ _ _ (finv _ Hr) H) as I1. rewrite <- Em in Hmin. rewrite <- Es in Hs.
  destruct (Nat.eq_dec e (length (w_exps w))) as [->|Hne'].
  - split; [|lia]. rewrite (fdead_accepts_nothing _ _ _ _ _ I1 Hrun Ht Ha). auto.
  - destruct (fblocked w1 ops w2 _ t e y s I1 Ht Ha ltac:(rewrite E0; simpl; lia) Hs Hrun Hy Hsy ltac:(lia)) as [N E]. split; auto.
    rewrite E, Et. apply (wi_fresh _ (finv _ Hr)). lia.
Qed.

(** Its sequences complain at their end, no matter what the program does until then. *)
Theorem C81_half_built_complains w m ov ms cls l x w1 r ops w2 s :
  freachable w -> fstep w (FExpect m ov ms cls l AfterControl x) = Next w1 r -> (0 < fst (declared_limits cls))%Z -> In s (clause_seqs cls) ->
  frun w1 ops w2 -> s < length (w_seqs w2) -> gone w2 s -> seq_error_reports (w_trace w2) s = 1.
Proof.
  intros Hr H Hmin Hs Hrun Hlt Hg.
  assert (Hne : clause_seqs cls <> []) by (intros E; rewrite E in Hs; destruct Hs).
  destruct (half_built_number _ _ _ _ _ _ _ _ _ Hr H Hne) as (t & Ht & Ha & Em & Es & _ & E0 & _ & Et & _).
  pose proof (finv_step _ _ _ _ (finv _ Hr) H) as I1.
  destruct (frun_exps _ _ _ I1 Hrun _ _ Ht) as (t' & Ht' & (Sm & _ & Sq) & _).
  assert (R2 : freachable w2).
  { destruct Hr as [ops0 Hr]. exists (ops0 ++ FExpect m ov ms cls l AfterControl x :: ops). eapply frun_app; eauto. econstructor; eauto. }
  destruct (C81_sequence_error_iff w2 s R2 Hlt) as [(E & _)|(_ & N)]; auto. exfalso. apply N. split; auto.
  exists (length (w_exps w)), t'. split; auto. split; [rewrite Sq, Es; auto|].
  rewrite (fdead_accepts_nothing _ _ _ _ _ I1 Hrun Ht Ha), E0, Sm, Em. simpl. auto.
Qed.

(** With a lower limit of zero it is harmless for everybody else. *)
Theorem C81_optional_is_harmless w m ov ms cls l x w1 r ops w2 e y :
  freachable w -> fstep w (FExpect m ov ms cls l AfterControl x) = Next w1 r -> fst (declared_limits cls) = 0%Z -> clause_seqs cls <> [] ->
  frun w1 ops w2 -> exp_at w2 e y ->
  (applicable w2 e y <-> applicable_without (length (w_exps w)) w2 e y) /\ (forall s, ~ missed w2 s (length (w_exps w))).
Proof.
  intros Hr H Hmin Hne Hrun Hy.
  destruct (half_built_number _ _ _ _ _ _ _ _ _ Hr H Hne) as (t & Ht & Ha & Em & Es & _ & E0 & _ & Et & _).
  pose proof (finv_step _ _ _ _ (finv _ Hr) H) as I1.
  destruct (frun_exps _ _ _ I1 Hrun _ _ Ht) as (t' & Ht' & (Sm & _ & Sq) & _).
  pose proof (fdead_accepts_nothing _ _ _ _ _ I1 Hrun Ht Ha) as D. rewrite E0 in D. rewrite Em, Hmin in Sm.
  split.
  - split; intros [A B]; split; auto.
    + intros s Hs e' x' _. apply B; auto.
    + intros s Hs e' x' Hx' Hs'. destruct (Nat.eq_dec e' (length (w_exps w))) as [->|Hn]; [|eapply B; eauto].
      unfold exp_at in *. rewrite Ht' in Hx'. inversion Hx'; subst x'. rewrite D, Sm. simpl. split; intros; lia.
  - intros s (z & Hz & _ & Hlt). unfold exp_at in *. rewrite Ht' in Hz. inversion Hz; subst z. rewrite D, Sm in Hlt. simpl in Hlt. lia.
Qed.

(** It is never reported as unfulfilled. *)
Theorem C81_half_built_never_reported w m ov ms cls l x w1 r ops w2 :
  freachable w -> fstep w (FExpect m ov ms cls l AfterControl x) = Next w1 r -> clause_seqs cls <> [] -> frun w1 ops w2 ->
  unfulfilled_reports (w_trace w2) (length (w_exps w)) = 0.
Proof.
  intros Hr H Hne Hrun. destruct (half_built_number _ _ _ _ _ _ _ _ _ Hr H Hne) as (t & Ht & Ha & _ & _ & Hd & _).
  pose proof (finv_step _ _ _ _ (finv _ Hr) H) as I1.
  destruct (frun_exps _ _ _ I1 Hrun _ _ Ht) as (t' & Ht' & _ & K). destruct (K Ha) as [_ Ed].
  rewrite (wi_unf _ (finv_run _ _ _ I1 Hrun) _ _ Ht'), Ed, Hd, andb_false_r. reflexivity.
Qed.

(** ** Reports which can not be made *)

Lemma tomb_report w e y l ctl x : WInv w -> exp_at w e y -> eo_exp y = tomb_exp l ctl x -> exp_report_of (w_seqs w) (eo_exp y) = Throw x.
Proof.
  intros I Hy E. unfold exp_report_of. fold (ctl_of y). rewrite (control_state_ok _ _ _ _ (wi_s _ I) (ctls_nth _ _ _ Hy)), E. reflexivity.
Qed.

(** The scope of an unfulfilled expectation ends while its report can not be made: the exception leaves the destructor, the expectation is gone,
    and it is never reported. *)
Theorem C81_lost_report w h e x w1 r ops w2 :
  freachable w -> nth_error (w_scoped w) h = Some (HOwns e) -> fstep w (FEndScope h x) = Next w1 r -> frun w1 ops w2 ->
  r = RThrow x /\ unfulfilled_reports (w_trace w2) e = 0 /\ exists y, exp_at w2 e y /\ eo_alive y = false /\
    (Z.of_nat (accepted (w_trace w2) e) < x_min y)%Z.
Proof.
  intros Hr Hh H Hrun. pose proof (finv _ Hr) as I. pose proof (finv_step _ _ _ _ I H) as I1.
  cbn [fstep] in H. unfold do_end_fails in H. rewrite Hh in H.
  destruct (nth_error (w_exps w) e) as [eo|] eqn:He; [|discriminate]. destruct (eo_alive eo) eqn:Ha; [|discriminate].
  destruct (exp_is_satisfied (eo_exp eo)) eqn:Hs; [discriminate|]. cbn [andb negb] in H.
  pose (y := mkEObj (tomb_exp (e_loc (eo_exp eo)) (e_ctl (eo_exp eo)) x) (eo_coll eo) true (eo_ov eo) tomb_sig).
  assert (Hy : exp_at (bury w e x) e y).
  { unfold exp_at, bury. rewrite He. cbn [w_exps set_exps]. rewrite Ha. apply nth_error_upd_eq. eapply nth_error_lt; eauto. }
  assert (Ib : WInv (bury w e x)) by (apply winv_bury; eauto).
  destruct (step_exps _ _ _ _ Ib H _ _ Hy) as (z & Hz & Sz & Az). cbn [ended] in Az. rewrite bury_scoped, Hh, Nat.eqb_refl in Az. cbn in Az.
  assert (Dz : describable (eo_exp z) = false) by (rewrite (static_describable _ _ Sz); reflexivity).
  assert (Er : r = RThrow x).
  { cbn [step] in H. rewrite bury_scoped, Hh in H. destruct (end_expectation_next _ _ _ _ H) as (eo' & l & unf & evs & d' & He' & _ & _ & _ & _ & C).
    cbn [w_exps set_scoped] in He'. unfold exp_at in Hy. rewrite Hy in He'. inversion He'; subst eo'.
    assert (Sat : exp_is_satisfied (eo_exp y) = false).
    { unfold exp_is_satisfied in *. cbn in *. rewrite andb_true_r. apply andb_false_iff in Hs. destruct Hs as [Hs|Hs]; auto.
      exfalso. clear - Hs. induction (e_policies (eo_exp eo)); simpl in *; discriminate || auto. }
    destruct C as [(C & _)|[(_ & x' & Hx & _ & ->)|(_ & rep & Hrep & _)]]; [congruence| |].
    - cbn [w_seqs set_scoped] in Hx. rewrite (tomb_report _ _ _ _ _ _ Ib Hy eq_refl) in Hx. inversion Hx; auto.
    - cbn [w_seqs set_scoped] in Hrep. rewrite (tomb_report _ _ _ _ _ _ Ib Hy eq_refl) in Hrep. discriminate. }
  split; auto.
  destruct (frun_exps _ _ _ I1 Hrun _ _ Hz) as (z' & Hz' & (Sm & _ & _) & K). destruct (K Az) as [A' D'].
  split; [rewrite (wi_unf _ (finv_run _ _ _ I1 Hrun) _ _ Hz'), D', Dz, andb_false_r; reflexivity|].
  exists z'. split; auto. split; auto. destruct (static_limits _ _ Sz) as (Sz1 & _). rewrite Sm, Sz1.
  rewrite (fdead_accepts_nothing _ _ _ _ _ I1 Hrun Hz Az).
  assert (Ea : accepted (w_trace w1) e = accepted (w_trace w) e).
  { destruct (fstep_accepted w (FEndScope h x) w1 r I) as [E|(? & ? & ? & ? & ? & ? & ? & ? & E & _)]; [|auto|discriminate].
    cbn [fstep]. unfold do_end_fails. rewrite Hh, He, Ha, Hs. exact H. }
  rewrite Ea, <- (wi_count _ I _ _ He). change (x_min y) with (c_min (e_ctl (eo_exp eo))). unfold ctl_of.
  unfold exp_is_satisfied, control_is_satisfied in Hs. apply andb_false_iff in Hs. destruct Hs as [Hs|Hs].
  - destruct (si_ok _ _ (wi_s _ I) _ _ (ctls_nth _ _ _ He)) as (Hok1 & _ & Hok3). unfold ctl_of in *.
    apply andb_false_iff in Hs. destruct Hs as [Hs|Hs]; [apply Z.leb_gt in Hs; lia|apply Z.leb_gt in Hs; lia].
  - exfalso. clear - Hs. induction (e_policies (eo_exp eo)); simpl in *; discriminate || auto.
Qed.

(** By a move assignment it ends the program (the operator is noexcept). *)
Theorem C81_lost_report_assigned w dst src x w1 r : freachable w -> fstep w (FMoveAssign dst src x) = Next w1 r -> False.
Proof.
  intros Hr H. pose proof (finv _ Hr) as I. cbn [fstep] in H. destruct (Nat.eqb_spec dst src) as [|Hne]; [discriminate|]. unfold do_end_fails in H.
  destruct (nth_error (w_scoped w) dst) as [[e| |]|] eqn:Hh; try discriminate.
  destruct (nth_error (w_exps w) e) as [eo|] eqn:He; [|discriminate]. destruct (eo_alive eo) eqn:Ha; [|discriminate].
  destruct (exp_is_satisfied (eo_exp eo)) eqn:Hs; [discriminate|]. cbn [andb negb] in H. cbn [step] in H.
  pose (y := mkEObj (tomb_exp (e_loc (eo_exp eo)) (e_ctl (eo_exp eo)) x) (eo_coll eo) true (eo_ov eo) tomb_sig).
  assert (Hy : exp_at (bury w e x) e y).
  { unfold exp_at, bury. rewrite He. cbn [w_exps set_exps]. rewrite Ha. apply nth_error_upd_eq. eapply nth_error_lt; eauto. }
  assert (Ib : WInv (bury w e x)) by (apply winv_bury; eauto).
  rewrite bury_scoped, Hh in H. apply Nat.eqb_neq in Hne. rewrite Hne in H.
  assert (N : forall w0 r0 sc, end_expectation (set_scoped (bury w e x) sc) e = Next w0 r0 -> exists y, r0 = RThrow y).
  { intros w0 r0 sc E. destruct (end_expectation_next _ _ _ _ E) as (eo' & l & unf & evs & d' & He' & _ & _ & _ & _ & C).
    cbn [w_exps set_scoped] in He'. unfold exp_at in Hy. rewrite Hy in He'. inversion He'; subst eo'. cbn [w_seqs set_scoped] in C.
    rewrite (tomb_report _ _ _ _ _ _ Ib Hy eq_refl) in C.
    destruct C as [(C & _)|[(_ & x' & _ & _ & Er)|(_ & rep & Hrep & _)]]; [|eauto|discriminate].
    exfalso. unfold exp_is_satisfied in C, Hs. cbn in C. rewrite andb_true_r in C. rewrite C in Hs. cbn [andb] in Hs.
    clear - Hs. induction (e_policies (eo_exp eo)); simpl in *; discriminate || auto. }
  destruct (nth_error (w_scoped w) src) as [[e'| |]|] eqn:Hsrc; try discriminate;
  match type of H with context [end_expectation ?a ?b] => destruct (end_expectation a b) as [w2 r2| | |] eqn:E end; try discriminate;
  destruct (N _ _ _ E) as [z ->]; discriminate.
Qed.

(** ** The strong exception guarantee does not hold *)

Fixpoint fexec (w : world) (ops : list fop) : option (world * list result) :=
  match ops with
  | [] => Some (w, [])
  | o :: ops' =>
      match fstep w o with
      | Next w1 r => match fexec w1 ops' with Some (w2, rs) => Some (w2, r :: rs) | None => None end
      | _ => None
      end
  end.
Lemma fexec_run ops : forall w w' rs, fexec w ops = Some (w', rs) -> frun w ops w'.
Proof.
  induction ops as [|o ops IH]; intros w w' rs H; simpl in H.
  - inversion H; subst. constructor.
  - destruct (fstep w o) as [w1 r| | |] eqn:E; try discriminate. destruct (fexec w1 ops) as [[w2 rs2]|] eqn:E2; [|discriminate]. inversion H; subst.
    econstructor; eauto.
Qed.
Definition fafter (ops : list fop) : world := match fexec init ops with Some (w, _) => w | None => init end.
Definition fresults (ops : list fop) : list result := match fexec init ops with Some (_, rs) => rs | None => [] end.
Lemma fafter_reachable ops : (match fexec init ops with Some _ => true | None => false end) = true -> freachable (fafter ops).
Proof. unfold fafter. destruct (fexec init ops) as [[w rs]|] eqn:E; [|discriminate]. intros _. exists ops. eapply fexec_run; eauto. Qed.

Definition before_failure : list fop := [FDone (ONewSeq Lazy); FDone (ONewMock [sig_unary])].
Definition failed_declaration (cls : list clause) : fop := FExpect 0 0 [m_any] (cls ++ [ClSeq [0]]) here AfterControl (EUser 7).
Definition declare_and_call : list fop := [FDone (OExpect 0 0 [m_any] [ClSeq [0]] there); FDone (OCall 0 0 [VInt 5] here)].

(** A failed declaration is not as if nothing had happened: the same call is accepted without and rejected with it. *)
Theorem C81_strong_guarantee_refuted : exists w o w1 x ops w2 rs w2' rs',
  freachable w /\ failing o /\ fstep w o = Next w1 (RThrow x) /\
  fexec w ops = Some (w2, rs) /\ fexec w1 ops = Some (w2', rs') /\ rs = [RUnit; RUnit] /\ rs' = [RUnit; RThrow EReporter].
Proof.
  exists (fafter before_failure), (failed_declaration []).
  eexists; exists (EUser 7), declare_and_call. do 4 eexists.
  split; [apply fafter_reachable; vm_compute; reflexivity|]. split; [exact Logic.I|].
  split; [vm_compute; reflexivity|]. split; [vm_compute; reflexivity|]. split; [vm_compute; reflexivity|]. split; reflexivity.
Qed.

(** ** Concrete programs *)

(** The hypotheses of the theorems are met: the later declaration is blocked, the end of the sequence complains (and ends the program, as the
    default reporter throws), with a lower limit of zero nothing happens. *)
Example blocked_case :
  let w := fafter before_failure in
  let w1 := fafter (before_failure ++ [failed_declaration []]) in
  let w2 := fafter (before_failure ++ [failed_declaration []] ++ declare_and_call) in
  freachable w /\ fstep w (failed_declaration []) = Next w1 (RThrow (EUser 7)) /\
  fst (declared_limits ([] ++ [ClSeq [0]])) = 1%Z /\ clause_seqs ([] ++ [ClSeq [0]]) = [0] /\
  length (w_exps w) = 0 /\ length (w_exps w2) = 2 /\ accepted (w_trace w2) 1 = 0 /\ map eo_alive (w_exps w2) = [false; true] /\
  w_colls w2 = [[1]] /\ w_scoped w2 = [HOwns 1] /\ fexec w1 [FDone (ODropSeq 0)] = None /\
  option_map (fun p => seq_error_reports (w_trace (fst p)) 0) (fexec w1 [FDone (OUnwind 1); FDone (ODropSeq 0)]) = Some 1.
Proof.
  cbv zeta. split; [apply fafter_reachable; vm_compute; reflexivity|]. split; [vm_compute; reflexivity|]. vm_compute. repeat split.
Qed.
Example harmless_case :
  fresults (before_failure ++ [failed_declaration [ClTimes (TxAtMost 3)]] ++ declare_and_call ++ [FDone OFinal; FDone (OReturn (UOk (VInt 0)));
    FDone (OEndScope 0); FDone (ODropSeq 0)]) =
  [RUnit; RUnit; RThrow (EUser 7); RUnit; RUnit; RUnit; RVal None; RUnit; RUnit].
Proof. vm_compute. reflexivity. Qed.

(** The stages, without and with sequences. *)
Example stages_case :
  let w := fafter before_failure in
  let d cls := OExpect 0 0 [m_any] cls here in
  let f cls st := fstep w (FExpect 0 0 [m_any] cls here st (EUser 3)) in
  (exists w1, step w (d [ClSeq [0]]) = Next w1 RUnit) /\
  f [] AfterControl = Next w (RThrow (EUser 3)) /\ f [ClSeq [0]] AtOperand = Next w (RThrow (EUser 3)) /\
  f [] InControl = Invalid /\ f [ClSeq [0]] InControl = Stop /\ f [] InModel = Stop /\ f [] InBuilder = Stop /\
  fstep (fafter [FDone (ONewMock [sig_void])]) (FExpect 0 0 [] [] here InBuilder (EUser 3)) = Invalid /\ f [ClSeq [1]] AfterControl = Invalid /\ f [ClSeq [0; 0]] AfterControl = Invalid.
Proof. cbv zeta. split; [eexists; vm_compute; reflexivity|]. vm_compute. repeat split. Qed.

(** Calls: nothing is counted; the unhandled exceptions reported before stay reported; a noexcept operator ends the program. *)
Example call_case :
  let p := [FDone (ONewMock [sig_unary]); FDone (OExpect 0 0 [m_any] [] here); FDone (OExpect 0 0 [m_throws 4] [] there)] in
  let w := fafter p in
  let w0 := fafter (p ++ [FCall 0 0 [VInt 1] here 0 (EUser 9)]) in
  let w2 := fafter (p ++ [FCall 0 0 [VInt 1] here 2 (EUser 9)]) in
  w0 = w /\ w_exps w2 = w_exps w /\ w_seqs w2 = w_seqs w /\ w_frames w2 = [] /\
  map (fun ev => match ev with EvReport _ (RUnhandled _ _ x) who => Some (x, who) | _ => None end) (w_trace w2) = [Some (EUser 4, [1])] /\
  fresults (p ++ [FCall 0 0 [VInt 1] here 2 (EUser 9)]) = [RUnit; RUnit; RUnit; RThrow (EUser 9)] /\
  fstep (fafter [FDone (ONewMock [sig_void_noexcept])]) (FCall 0 0 [] here 0 (EUser 9)) = Stop /\
  fstep w (FCall 0 0 [] here 0 (EUser 9)) = Invalid.
Proof. vm_compute. repeat split. Qed.

(** An expectation nobody called, without memory for its report; the default reporter never hears of it. *)
Example lost_case :
  let p := [FDone (ONewMock [sig_void]); FDone (OExpect 0 0 [] [] here); FDone (OExpect 0 0 [] [ClTimes (TxAtMost 1)] here)] in
  let w := fafter p in
  nth_error (w_scoped w) 0 = Some (HOwns 0) /\
  fresults (p ++ [FEndScope 0 (EUser 8)]) = [RUnit; RUnit; RUnit; RThrow (EUser 8)] /\
  w_trace (fafter (p ++ [FEndScope 0 (EUser 8)])) = [] /\
  w_colls (fafter (p ++ [FEndScope 0 (EUser 8)])) = [[1]] /\
  fstep w (FEndScope 1 (EUser 8)) = Invalid /\ fstep w (FMoveAssign 0 1 (EUser 8)) = Stop /\ fstep w (FMoveAssign 0 0 (EUser 8)) = Invalid.
Proof. vm_compute. repeat split. Qed.

(** Constructors which throw. *)
Example nothing_case : fstep (fafter before_failure) (FNothing (EUser 1)) = Next (fafter before_failure) (RThrow (EUser 1)).
Proof. reflexivity. Qed.

Print Assumptions C81_conservative.
Print Assumptions C81_stages.
Print Assumptions C81_builder_noexcept.
Print Assumptions C81_failures_count_nothing.
Print Assumptions C81_limits.
Print Assumptions C81_applicable_iff_history.
Print Assumptions C81_accepted_by_candidates.
Print Assumptions C81_sequence_error_iff.
Print Assumptions C81_half_built_blocks.
Print Assumptions C81_half_built_complains.
Print Assumptions C81_optional_is_harmless.
Print Assumptions C81_half_built_never_reported.
Print Assumptions C81_lost_report.
Print Assumptions C81_lost_report_assigned.
Print Assumptions C81_strong_guarantee_refuted.
