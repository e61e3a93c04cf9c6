(** * PropFailingBuilders: stored builders whose operations are left by an exception half-way. Property C97. *)

From Verif Require Import Base Lib Sequence Control Signature Printer Reports Expectation Builder BuildSpec BuilderLemmas BuildProofs World WorldSpec
  SeqSpec SeqInv StepCases WorldInv ObjInv CountProofs PlayProofs MoveProofs SeqEnd CallSpec Scenario Failing FailProofs Builders StoredProofs
  FailingBuilders FailBuildProofs PropFailing PropStored.

(** ** Statements *)

(** The operation is one of those which are left half-way. *)
Definition half_way (o : fbop) : Prop := match o with FBDone _ | FBWorld (FDone _) => False | _ => True end.

(** The builder number [k] is an operand of the operation. *)
Definition concerns (k : nat) (o : fbop) : Prop :=
  match o with
  | FBDone o => touches k o = true
  | FBAnd j _ | FBMove j _ | FBFinalize j _ _ _ => j = k
  | FBMoveAssign d s _ _ => d = k \/ s = k
  | _ => False
  end.

(** A part of the builder has a user supplied type. *)
Definition user_parts (bd : builder) : Prop :=
  b_finalized bd = true \/ exists p, In p (b_policies bd) /\ match p with PArg _ _ _ | PSideEffect _ => True | _ => False end.

Lemma user_parts_spec bd : user_made bd = true <-> user_parts bd.
Proof.
  unfold user_made, user_parts. rewrite orb_true_iff, existsb_exists. split; intros [H|(p & H & U)]; auto; right; exists p; split; auto; destruct p; auto; discriminate || contradiction.
Qed.

(** ** Programs without failures *)

Theorem C97_conservative b ops b' : brun b ops b' <-> fbrun b (map FBDone ops) b'.
Proof.
  split.
  - intros H. induction H; simpl; econstructor; eauto.
  - revert b. induction ops as [|o ops IH]; intros b H; inversion H; subst; [constructor|]. econstructor; eauto.
Qed.

(** The failures of programs without builders, for the sequence objects the user has. *)
Theorem C97_world b o : match o with FDone _ => True | FExpect _ _ _ cls _ _ _ => forallb (names_ok b) cls = true | _ => True end ->
  match o with
  | FDone o' => fbstep b (FBWorld o) = bstep b (BOp o')
  | _ => match fstep (bw b) o with
         | Next w' r => exists b', fbstep b (FBWorld o) = BNext b' r /\ bw b' = w' /\ bw_user b' = bw_user b /\ bw_builders b' = bw_builders b
         | Stop => fbstep b (FBWorld o) = BStop
         | Wrong u => fbstep b (FBWorld o) = BWrong u
         | Invalid => fbstep b (FBWorld o) = BInvalid
         end
  end.
Proof.
  intros N. destruct o as [o|x|m ov ms cls l st x|m ov args l i x|h x|dst src x]; cbn [fbstep]; auto; try rewrite N;
    match goal with |- context [fstep ?w ?o] => destruct (fstep w o) end; cbn [blift]; auto; eexists; split; eauto.
Qed.

(** ** Every program *)

(** Whatever fails: there is a program of [Failing], without builders, which looks the same. *)
Theorem C97_every_program b : fbreachable b -> exists w, freachable w /\ looks_like b w.
Proof. intros H. destruct (fbinv_reachable _ H) as (I & w & Fr & T). exists w. split; auto. apply twin_looks; auto. Qed.

Lemma fb_winv b : fbreachable b -> WInv (bw b).
Proof. intros H. destruct (fbinv_reachable _ H) as (I & w & Fr & T). eapply winv_twin; eauto. apply finv; auto. Qed.

(** In particular, limits, order and the lifetime of sequences. *)
Theorem C97_limits b e x : fbreachable b -> exp_at (bw b) e x -> (Z.of_nat (accepted (w_trace (bw b)) e) <= x_max x)%Z.
Proof.
  intros H Hx. pose proof (fb_winv _ H) as I. rewrite <- (wi_count _ I _ _ Hx).
  destruct (si_ok _ _ (wi_s _ I) _ _ (ctls_nth _ _ _ Hx)) as (_ & _ & L). unfold x_max. fold (ctl_of x). lia.
Qed.

Theorem C97_applicable_iff_history b e x : fbreachable b -> exp_at (bw b) e x ->
  (control_is_applicable (w_seqs (bw b)) (e_ctl (eo_exp x)) = true <-> applicable (bw b) e x).
Proof. intros H Hx. apply (applicable_iff _ e x (fb_winv _ H) Hx). Qed.

Theorem C97_sequence_lifetime b s : fbreachable b -> s < length (w_seqs (bw b)) ->
  nth s (w_sdead (bw b)) true =
  negb (nth s (bw_user b) false || held b s || existsb (fun eo => eo_alive eo && attached_to s (e_ctl (eo_exp eo))) (w_exps (bw b))).
Proof.
  intros H Hs. destruct (C97_every_program _ H) as (w & Hr & L). pose proof (finv _ Hr) as I.
  rewrite <- (ll_sdead _ _ L), <- (ll_exps _ _ L), <- (ll_iface _ _ L). rewrite (wi_dead _ I) by (rewrite (ll_seqs _ _ L); auto). reflexivity.
Qed.

(** A sequence complains once, and exactly if it is gone and something in it, possibly half-built, missed calls. *)
Theorem C97_sequence_error_iff b s : fbreachable b -> s < length (w_seqs (bw b)) ->
  (seq_error_reports (w_trace (bw b)) s = 1 /\ nth s (w_sdead (bw b)) true = true /\ exists e, missed (bw b) s e) \/
  (seq_error_reports (w_trace (bw b)) s = 0 /\ ~ (nth s (w_sdead (bw b)) true = true /\ exists e, missed (bw b) s e)).
Proof.
  intros Hr Hs. pose proof (fb_winv _ Hr) as I. rewrite (wi_err _ I _ Hs), (wi_dead _ I _ Hs).
  destruct (seq_in_use (bw b) s); simpl; [right; split; auto; intros []; discriminate|].
  destruct (all_met (ctls (bw b)) s) eqn:E; simpl.
  - right. split; auto. intros [_ H]. apply all_met_spec in H; auto. congruence.
  - left. do 2 (split; auto). apply all_met_spec; auto.
Qed.

(** ** Finalizing *)

Lemma fbrun_reachable b ops b' : fbreachable b -> fbrun b ops b' -> fbreachable b'.
Proof.
  intros [ops0 R0] R. exists (ops0 ++ ops). induction R0; cbn; auto. econstructor; eauto.
Qed.

(** The stages of finalize: entering the sequences and attaching are noexcept; between them there is a gap. Then the sequences keep what was entered, and
    the builder is as used up as after success. *)
Theorem C97_finalize_stages b k l b1 x ob : bstep b (BFinalize k l) = BNext b1 RUnit -> nth_error (bw_builders b) k = Some ob ->
  fbstep b (FBFinalize k l InControl x) = (if length (b_seqs (bo_members ob)) =? 0 then BInvalid else BStop) /\
  fbstep b (FBFinalize k l InModel x) = BStop /\
  fbstep b (FBFinalize k l AtOperand x) = BInvalid /\ fbstep b (FBFinalize k l InBuilder x) = BInvalid /\
  exists b2, fbstep b (FBFinalize k l AfterControl x) = BNext b2 (RThrow x) /\
    only_sequences (bw b) (bw b2) /\ (b_seqs (bo_members ob) <> [] -> w_seqs (bw b2) = w_seqs (bw b1)) /\ (b_seqs (bo_members ob) = [] -> bw b2 = bw b) /\
    bw_user b2 = bw_user b1 /\ bw_builders b2 = bw_builders b1.
Proof.
  intros H Hk. cbn [fbstep bstep] in *. unfold do_bfinalize, do_bfinalize_fails in *. rewrite Hk in *.
  destruct (negb _); [discriminate|]. destruct (bo_null ob && _); [discriminate|].
  destruct (control_new _ _ _) as [[ss ctl]|y| |u] eqn:Hc; try discriminate. destruct (bo_storage ob) as [coll|]; [|discriminate].
  destruct (nth_error (w_colls (bw b)) coll) as [mem|]; [|discriminate]. injection H as <-.
  do 4 (split; [reflexivity|]). eexists. split; [reflexivity|]. cbn [set_bw set_builders bw bw_user bw_builders].
  assert (Es : map fst (c_seqs ctl) = b_seqs (bo_members ob)) by (eapply control_new_parts; eauto).
  split; [|split; [|split; [|split; reflexivity]]].
  - unfold half_built. destruct (c_seqs ctl) as [|p t].
    + unfold only_sequences. repeat split; auto.
    + unfold only_sequences. cbn [w_iface w_sdead w_colls w_mocks w_scoped w_frames w_rid w_reporter w_uncaught w_trace set_exps set_seqs].
      do 10 (split; [reflexivity|]). split.
      * intros e z Hz. apply nth_error_snoc_old; auto.
      * intros e z Hz Ha. apply nth_error_snoc in Hz. destruct Hz as [[Hz _]|[-> ->]]; auto. discriminate.
  - intros Hne. unfold half_built. destruct (c_seqs ctl); [symmetry in Es; contradiction|reflexivity].
  - intros E. rewrite E in Es. unfold half_built. destruct (c_seqs ctl); [reflexivity|discriminate].
Qed.

Lemma failed_finalize b k l st x b1 r : fbreachable b -> fbstep b (FBFinalize k l st x) = BNext b1 r ->
  st = AfterControl /\ r = RThrow x /\ exists ob, nth_error (bw_builders b) k = Some ob /\ bw_builders b1 = upd (bw_builders b) k (used_up ob) /\ bw_user b1 = bw_user b /\
  exists w g ms cls w1, freachable w /\ twin b w /\ fstep w (FExpect g (bo_ov ob) ms cls l AfterControl x) = Next w1 (RThrow x) /\ twin b1 w1 /\ BInv b1 [] /\
    declared_limits cls = (t_min (b_times (bo_members ob)), t_max (b_times (bo_members ob))) /\ clause_seqs cls = b_seqs (bo_members ob).
Proof.
  intros Hr H. destruct (fbinv_reachable _ Hr) as (I & w & Fr & T). cbn [fbstep] in H. unfold do_bfinalize_fails in H.
  destruct (nth_error (bw_builders b) k) as [ob|] eqn:Hk; [|discriminate].
  destruct (bo_alive ob) eqn:A; [|discriminate]. destruct (finalize_ok (bo_sig ob) (bo_members ob)) eqn:F; [|discriminate]. cbn [andb negb] in H.
  destruct (bo_null ob && _) eqn:N; [discriminate|]. destruct (control_new _ _ _) as [[ss ctl]| | |] eqn:Hc; try discriminate. destruct st; try discriminate.
  { destruct (_ =? 0); discriminate. }
  injection H as <- <-. split; auto. split; auto. exists ob. split; auto. split; auto. split; auto.
  destruct (twin_half _ _ _ l x _ _ _ I T Fr Hk A F N Hc) as (I' & g & ms & cls & w2 & H2 & T2 & E1 & E2). exists w, g, ms, cls, w2. auto 10.
Qed.

(** A builder whose finalization failed is used up: it can neither be finalized nor extended again, though this compiles. *)
Theorem C97_failed_finalize_uses_up b k l st x b1 r : fbreachable b -> fbstep b (FBFinalize k l st x) = BNext b1 r ->
  r = RThrow x /\ exists ob, nth_error (bw_builders b1) k = Some ob /\ bo_storage ob = None /\ bo_alive ob = true /\ finalize_ok (bo_sig ob) (bo_members ob) = true /\
  forall l', bstep b1 (BFinalize k l') = BStop \/ exists u, bstep b1 (BFinalize k l') = BWrong u.
Proof.
  intros Hr H. pose proof H as H0. cbn [fbstep] in H0. unfold do_bfinalize_fails in H0.
  destruct (failed_finalize _ _ _ _ _ _ _ Hr H) as (_ & -> & ob & Hk & Eb & _). rewrite Hk in H0.
  destruct (bo_alive ob && finalize_ok (bo_sig ob) (bo_members ob)) eqn:A; [|discriminate]. clear H0. apply andb_true_iff in A. destruct A as [A F].
  assert (Hk1 : nth_error (bw_builders b1) k = Some (used_up ob)) by (rewrite Eb; apply nth_error_upd_eq; eapply nth_error_lt; eauto).
  split; auto. exists (used_up ob). split; auto. split; auto. split; auto. split; auto. intros l'.
  destruct (C80_second_use_undefined b1 k (used_up ob) Hk1 eq_refl A) as [G _]. apply G. exact F.
Qed.

(** What it left in its sequences: it blocks everything behind it for ever, and lets the sequences complain, unless its lower limit is zero. *)
Theorem C97_half_built_blocks b k l x b1 r ops b2 ob s e y :
  fbreachable b -> fbstep b (FBFinalize k l AfterControl x) = BNext b1 r -> nth_error (bw_builders b) k = Some ob ->
  (0 < t_min (b_times (bo_members ob)))%Z -> In s (b_seqs (bo_members ob)) -> fbrun b1 ops b2 ->
  length (w_exps (bw b)) <= e -> exp_at (bw b2) e y -> In s (x_seqs y) ->
  accepted (w_trace (bw b2)) e = 0 /\ (length (w_exps (bw b)) < e -> control_is_applicable (w_seqs (bw b2)) (e_ctl (eo_exp y)) = false).
Proof.
  intros Hr H Hk Hmin Hs Hrun Hge Hy Hsy.
  assert (R1 : fbreachable b1) by (eapply fbrun_reachable; [exact Hr|econstructor; [exact H|constructor]]).
  assert (R2 : fbreachable b2) by (eapply fbrun_reachable; eauto).
  destruct (failed_finalize _ _ _ _ _ _ _ Hr H) as (_ & -> & ob' & Hk' & _ & _ & w & g & ms & cls & w1 & Fr & T & Hf & T1 & I1 & E1 & E2).
  rewrite Hk in Hk'. injection Hk' as <-.
  assert (Fr1 : freachable w1) by (eapply freachable_run; [exact Fr|econstructor; [exact Hf|constructor]]).
  destruct (twin_fbrun _ _ _ Hrun _ I1 T1 Fr1) as (I2 & ops1 & w2 & Rw & T2).
  pose proof (twin_looks _ _ I2 T2) as L2. destruct (fbinv_reachable _ Hr) as (I & _). pose proof (twin_looks _ _ I T) as L.
  assert (Hy2 : exp_at w2 e y) by (unfold exp_at; rewrite (ll_exps _ _ L2); exact Hy).
  rewrite <- (ll_exps _ _ L) in Hge |- *. rewrite <- (ll_trace _ _ L2), <- (ll_seqs _ _ L2).
  destruct (C81_half_built_blocks w g _ ms cls l x w1 _ ops1 w2 s e y Fr Hf) as [A B]; auto; [rewrite E1; auto|rewrite E2; auto|].
  split; auto. intros Hlt. apply not_true_is_false. intros C. apply (B Hlt).
  apply (C81_applicable_iff_history w2 e y); auto. eapply freachable_run; eauto.
Qed.

Theorem C97_half_built_complains b k l x b1 r ops b2 ob s :
  fbreachable b -> fbstep b (FBFinalize k l AfterControl x) = BNext b1 r -> nth_error (bw_builders b) k = Some ob ->
  (0 < t_min (b_times (bo_members ob)))%Z -> In s (b_seqs (bo_members ob)) -> fbrun b1 ops b2 ->
  s < length (w_seqs (bw b2)) -> nth s (w_sdead (bw b2)) true = true -> seq_error_reports (w_trace (bw b2)) s = 1.
Proof.
  intros Hr H Hk Hmin Hs Hrun Hlt Hd.
  destruct (failed_finalize _ _ _ _ _ _ _ Hr H) as (_ & -> & ob' & Hk' & _ & _ & w & g & ms & cls & w1 & Fr & T & Hf & T1 & I1 & E1 & E2).
  rewrite Hk in Hk'. injection Hk' as <-.
  assert (Fr1 : freachable w1) by (eapply freachable_run; [exact Fr|econstructor; [exact Hf|constructor]]).
  destruct (twin_fbrun _ _ _ Hrun _ I1 T1 Fr1) as (I2 & ops1 & w2 & Rw & T2).
  pose proof (twin_looks _ _ I2 T2) as L2. rewrite <- (ll_trace _ _ L2).
  apply (C81_half_built_complains w g (bo_ov ob) ms cls l x w1 (RThrow x) ops1 w2 s); auto; [rewrite E1; auto|rewrite E2; auto|rewrite (ll_seqs _ _ L2); auto|].
  assert (Fr2 : freachable w2) by (eapply freachable_run; eauto). pose proof (finv _ Fr2) as W2.
  apply gone_spec. rewrite <- (ll_sdead _ _ L2) in Hd. rewrite (wi_dead _ W2) in Hd by (rewrite (ll_seqs _ _ L2); auto). apply negb_true_iff in Hd. exact Hd.
Qed.

(** ** Builders which can not be created *)

(** Storing user supplied parts in another builder must not fail: its constructor is noexcept. *)
Theorem C97_extension_terminates b k cl b1 nb : bstep b (BAnd k cl) = BNext b1 RUnit -> nth_error (bw_builders b1) (length (bw_builders b)) = Some nb ->
  (user_parts (bo_members nb) -> fbstep b (FBAnd k cl) = BStop) /\ (~ user_parts (bo_members nb) -> fbstep b (FBAnd k cl) = BInvalid).
Proof.
  intros H Hn. rewrite <- user_parts_spec. cbn [bstep fbstep] in *. unfold do_band, do_band_fails in *.
  destruct (nth_error (bw_builders b) k) as [ob|]; [|discriminate]. destruct (negb _); [discriminate|].
  destruct (match cl with ClSeq _ => _ | _ => _ end); [discriminate|]. destruct (builder_and _ _) as [bd| |]; try discriminate.
  destruct (bo_storage ob); [|discriminate]. injection H as <-. cbn [set_builders bw_builders] in Hn.
  rewrite nth_error_app2 in Hn by (rewrite length_upd; auto). rewrite length_upd, Nat.sub_diag in Hn. injection Hn as <-. cbn [bo_members].
  destruct (user_made bd); split; auto; intros N; [contradiction N; auto|discriminate].
Qed.
Theorem C97_expect_call_terminates b m ov ms b1 : bstep b (BExpect m ov ms) = BNext b1 RUnit ->
  fbstep b (FBExpect m ov ms) = match ms with [] => BInvalid | _ => BStop end.
Proof.
  intros H. cbn [bstep fbstep] in *. unfold do_bexpect, do_bexpect_fails in *. destruct (find_overload (bw b) m ov) as [r|[s coll]] eqn:F.
  - destruct (find_overload_inl _ _ _ _ F); subst; discriminate.
  - destruct (negb _); [discriminate|]. destruct ms; reflexivity.
Qed.

(** ** Moves *)

Lemma osd_unwinding w n w' : only_sequences_die (set_uncaught w n) w' -> only_sequences_die w (set_uncaught w' (w_uncaught w)).
Proof. intros [A1 A2 A3 A4 A5 A6 (A7 & A8 & A9) Ad At]. constructor; auto. Qed.

(** A failed construction from a builder: there is no new builder, and the old one has lost its contents, including its sequences, which may die. *)
Theorem C97_failed_move b k x b' r ob : fbstep b (FBMove k x) = BNext b' r -> nth_error (bw_builders b) k = Some ob ->
  r = RThrow x /\ length (bw_builders b') = length (bw_builders b) /\ bw_user b' = bw_user b /\ only_sequences_die (bw b) (bw b') /\
  (exists ob', nth_error (bw_builders b') k = Some ob' /\ bo_storage ob' = None /\ bo_null ob' = true /\ bo_alive ob' = true) /\
  user_parts (bo_members ob) /\ forall j, j <> k -> nth_error (bw_builders b') j = nth_error (bw_builders b) j.
Proof.
  intros H Hk. cbn [fbstep] in H. unfold do_bmove_fails in H. rewrite Hk in H. destruct (bo_alive ob && user_made (bo_members ob)) eqn:A; [|discriminate].
  apply andb_true_iff in A. destruct A as [A U]. apply user_parts_spec in U.
  match type of H with context [release_shares ?b1 ?l] => destruct (release_shares b1 l) as [b2 r2| |u|] eqn:E end; try discriminate. injection H as <- <-.
  pose proof (release_shares_parts _ _ _ _ E) as [E1 E2]. pose proof (osd_release _ _ _ _ E) as O. cbn [set_bw set_builders bw bw_user bw_builders] in *.
  split; auto. rewrite E2, length_upd. split; auto. split; auto. split; [eapply osd_unwinding; exact O|]. split; [|split; auto].
  - exists (moved_from ob). split; [apply nth_error_upd_eq; eapply nth_error_lt; eauto|]. auto.
  - intros j Hj. apply nth_error_upd_neq; auto.
Qed.

(** A failed move assignment: the source has lost its contents; the target has the mock, the limits and the sequences of the source, the finalizer of the
    source unless it was the finalizer which failed, and the first requirements of the source, followed by the last ones of its own. *)
Theorem C97_failed_assignment b dst src n x b' r d s : fbstep b (FBMoveAssign dst src n x) = BNext b' r -> dst <> src ->
  nth_error (bw_builders b) dst = Some d -> nth_error (bw_builders b) src = Some s ->
  r = RThrow x /\ bw_user b' = bw_user b /\ only_sequences_die (bw b) (bw b') /\
  (exists s', nth_error (bw_builders b') src = Some s' /\ bo_storage s' = None /\ bo_null s' = true /\ bo_alive s' = true) /\
  (exists d', nth_error (bw_builders b') dst = Some d' /\ bo_storage d' = bo_storage s /\ bo_sig d' = bo_sig s /\ bo_ov d' = bo_ov s /\ bo_null d' = bo_null s /\ bo_alive d' = true /\
     b_times (bo_members d') = b_times (bo_members s) /\ b_seqs (bo_members d') = b_seqs (bo_members s) /\
     static_type d' = static_type s /\
     b_final (bo_members d') = b_final (bo_members (match n with None => d | Some _ => s end)) /\
     forall i, nth_error (b_policies (bo_members d')) i = nth_error (b_policies (bo_members (match n with Some j => if i <? j then s else d | None => d end))) i) /\
  (forall j, j <> dst -> j <> src -> nth_error (bw_builders b') j = nth_error (bw_builders b) j).
Proof.
  intros H Hne Hd Hs. cbn [fbstep] in H. unfold do_bassign_fails in H. rewrite Hd, Hs in H.
  destruct (bo_alive d && bo_alive s && same_type d s && fails_at (bo_members s) n) eqn:C; [|discriminate]. cbn [negb] in H.
  rewrite !andb_true_iff in C. destruct C as (((Ad & As) & St) & Fa). apply Nat.eqb_neq in Hne. rewrite Hne in H. apply Nat.eqb_neq in Hne.
  destruct (release_shares _ _) as [b2 r2| |u|] eqn:E in H; try discriminate. injection H as <- <-.
  pose proof (release_shares_parts _ _ _ _ E) as [E1 E2]. pose proof (osd_release _ _ _ _ E) as O. cbn [set_builders bw bw_user bw_builders] in *.
  split; auto. split; auto. split; auto. rewrite E2.
  assert (Lp : length (b_policies (bo_members d)) = length (b_policies (bo_members s))).
  { unfold same_type in St. destruct (signature_eq_dec (bo_sig d) (bo_sig s)); [|discriminate]. rewrite !andb_true_iff, !Nat.eqb_eq in St. tauto. }
  split; [|split].
  - exists (moved_from s). split; [|auto]. rewrite nth_error_upd_neq by auto. apply nth_error_upd_eq. eapply nth_error_lt; eauto.
  - exists (half_assigned d s n). split; [apply nth_error_upd_eq; rewrite length_upd; eapply nth_error_lt; eauto|].
    split; [reflexivity|]. split; [reflexivity|]. split; [reflexivity|]. split; [reflexivity|]. split; [exact Ad|]. split; [reflexivity|]. split; [reflexivity|].
    split.
    { unfold static_type, half_assigned, mixed. cbn [bo_sig bo_members b_times_configured b_finalized b_seqs b_policies]. f_equal. destruct n as [j|]; auto.
      fold (mix j (b_policies (bo_members s)) (b_policies (bo_members d))). rewrite mix_length; auto. }
    split; [destruct n; reflexivity|].
    intros i. cbn [half_assigned mixed bo_members b_policies]. destruct n as [j|]; auto.
    assert (Hj : j < length (b_policies (bo_members s))).
    { cbn [fails_at] in Fa. destruct (nth_error (b_policies (bo_members s)) j) eqn:Hp; [|discriminate]. eapply nth_error_lt; eauto. }
    destruct (Nat.ltb_spec i j) as [Hi|Hi].
    + rewrite nth_error_app1 by (rewrite firstn_length; lia). rewrite <- (firstn_skipn j (b_policies (bo_members s))) at 2.
      rewrite nth_error_app1 by (rewrite firstn_length; lia). reflexivity.
    + rewrite nth_error_app2 by (rewrite firstn_length; lia). rewrite <- (firstn_skipn j (b_policies (bo_members d))) at 2.
      rewrite (nth_error_app2 (firstn j _)) by (rewrite firstn_length; lia). rewrite !firstn_length, Lp. reflexivity.
  - intros j Hj1 Hj2. rewrite !nth_error_upd_neq; auto.
Qed.
(** Assigning a builder to itself changes nothing. When assignments can fail: the part which fails has a user supplied type. *)
Theorem C97_failed_self_assignment b k n x b' r : fbstep b (FBMoveAssign k k n x) = BNext b' r -> b' = b /\ r = RThrow x.
Proof.
  intros H. cbn [fbstep] in H. unfold do_bassign_fails in H. destruct (nth_error (bw_builders b) k); [|discriminate]. destruct (negb _); [discriminate|].
  rewrite Nat.eqb_refl in H. injection H as <- <-. auto.
Qed.
Theorem C97_assignment_fails_at b dst src n x b1 r s : bstep b (BMoveAssign dst src) = BNext b1 r -> nth_error (bw_builders b) src = Some s ->
  (fbstep b (FBMoveAssign dst src n x) <> BInvalid -> match n with
     | None => b_finalized (bo_members s) = true
     | Some j => exists p, nth_error (b_policies (bo_members s)) j = Some p /\ match p with PArg _ _ _ | PSideEffect _ => True | _ => False end
     end) /\
  (dst = src -> match n with
     | None => b_finalized (bo_members s) = true
     | Some j => exists p, nth_error (b_policies (bo_members s)) j = Some p /\ match p with PArg _ _ _ | PSideEffect _ => True | _ => False end
     end -> fbstep b (FBMoveAssign dst src n x) = BNext b (RThrow x)).
Proof.
  intros H Hs. cbn [bstep fbstep] in *. unfold do_bassign, do_bassign_fails in *. rewrite Hs in *. destruct (nth_error (bw_builders b) dst) as [d|]; [|discriminate].
  destruct (bo_alive d && bo_alive s && same_type d s); [|discriminate]. cbn [andb negb].
  assert (Fa : fails_at (bo_members s) n = true <-> match n with
     | None => b_finalized (bo_members s) = true
     | Some j => exists p, nth_error (b_policies (bo_members s)) j = Some p /\ match p with PArg _ _ _ | PSideEffect _ => True | _ => False end
     end).
  { unfold fails_at. destruct n as [j|]; [|tauto]. destruct (nth_error (b_policies (bo_members s)) j) as [p|]; [|split; [discriminate|intros (p & N & _); discriminate]].
    split; [intros U; exists p; split; auto; destruct p; auto; discriminate|]. intros (q & Eq & U). injection Eq as <-. destruct p; auto; contradiction. }
  split.
  - intros N. apply Fa. destruct (fails_at (bo_members s) n); auto.
  - intros -> U. apply Fa in U. rewrite U. cbn [negb]. rewrite Nat.eqb_refl. reflexivity.
Qed.

(** ** What failures leave alone *)

(** The operands of an operation. *)
Theorem C97_operands k o : concerns k o <->
  (exists cl, o = FBDone (BAnd k cl) \/ o = FBAnd k cl) \/ (o = FBDone (BMove k) \/ exists x, o = FBMove k x) \/
  (exists j, o = FBDone (BMoveAssign k j) \/ o = FBDone (BMoveAssign j k) \/ exists n x, o = FBMoveAssign k j n x \/ o = FBMoveAssign j k n x) \/
  o = FBDone (BDrop k) \/ exists l, o = FBDone (BFinalize k l) \/ exists st x, o = FBFinalize k l st x.
Proof.
  split.
  - destruct o as [[o|m ov ms|j cl|j|d s|j|j l]|o|m ov ms|j cl|j x|d s n x|j l st x]; cbn [concerns touches]; intros H; try discriminate H; try contradiction H;
      try (apply orb_prop in H); rewrite ?Nat.eqb_eq in H; try (destruct H as [H|H]); subst; eauto 12.
  - intros [(cl & [->| ->])|[[->|(x & ->)]|[(j & [->|[->|(n & x & [->| ->])]])|[->|(l & [->|(st & x & ->)])]]]]; cbn [concerns touches]; rewrite ?Nat.eqb_refl, ?orb_true_r; auto.
Qed.

(** A builder which is no operand stays as it is. *)
Theorem C97_untouched b o b' r k ob : fbstep b o = BNext b' r -> nth_error (bw_builders b) k = Some ob -> ~ concerns k o ->
  nth_error (bw_builders b') k = Some ob.
Proof.
  intros H Hk Hc.
  assert (Done : forall o', bstep b o' = BNext b' r -> touches k o' <> true -> nth_error (bw_builders b') k = Some ob).
  { intros o' E N. eapply C80_untouched; eauto. apply not_true_is_false. auto. }
  assert (Lift : forall st, blift b st = BNext b' r -> nth_error (bw_builders b') k = Some ob).
  { intros st E. destruct st; cbn in E; try discriminate. injection E as <- _. auto. }
  destruct o as [o|o|m ov ms|j cl|j x|dst src n x|j l st x]; cbn [concerns] in Hc.
  - eapply Done; eauto.
  - destruct o as [o|x|m ov ms cls l st x|m ov args l i x|h x|dst src x]; cbn [fbstep] in H; try (eapply Lift; eauto; fail).
    + apply (Done (BOp o)); auto. discriminate.
    + destruct (forallb (names_ok b) cls); [eapply Lift; eauto|discriminate].
  - exfalso. cbn [fbstep] in H. unfold do_bexpect_fails in H. destruct (find_overload (bw b) m ov) as [s|[s coll]] eqn:Hf.
    + destruct (find_overload_inl _ _ _ _ Hf); subst; discriminate.
    + destruct (negb _); [discriminate|]. destruct (_ =? 0); discriminate.
  - exfalso. cbn [fbstep] in H. unfold do_band_fails in H. destruct (nth_error (bw_builders b) j); [|discriminate]. destruct (negb _); [discriminate|].
    destruct (match cl with ClSeq _ => _ | _ => _ end); [discriminate|]. destruct (builder_and _ _) as [bd| |]; try discriminate. destruct (user_made bd); discriminate.
  - destruct (nth_error (bw_builders b) j) as [oj|] eqn:Hj; [|cbn [fbstep] in H; unfold do_bmove_fails in H; rewrite Hj in H; discriminate].
    destruct (C97_failed_move _ _ _ _ _ _ H Hj) as (_ & _ & _ & _ & _ & _ & E). rewrite E; auto.
  - destruct (Nat.eq_dec dst src) as [->|Hne]; [destruct (C97_failed_self_assignment _ _ _ _ _ _ H) as [-> _]; auto|].
    destruct (nth_error (bw_builders b) dst) as [d|] eqn:Hd; [|cbn [fbstep] in H; unfold do_bassign_fails in H; rewrite Hd in H; discriminate].
    destruct (nth_error (bw_builders b) src) as [s|] eqn:Hs; [|cbn [fbstep] in H; unfold do_bassign_fails in H; rewrite Hd, Hs in H; discriminate].
    destruct (C97_failed_assignment _ _ _ _ _ _ _ _ _ H Hne Hd Hs) as (_ & _ & _ & _ & _ & E). rewrite E; auto.
  - cbn [fbstep] in H. unfold do_bfinalize_fails in H. destruct (nth_error (bw_builders b) j) as [oj|]; [|discriminate]. destruct (negb _); [discriminate|].
    destruct (bo_null oj && _); [discriminate|]. destruct (control_new _ _ _) as [[ss ctl]| | |]; try discriminate. destruct st; try discriminate.
    { destruct (_ =? 0); discriminate. }
    injection H as <- _. cbn [set_bw set_builders bw_builders]. rewrite nth_error_upd_neq; auto.
Qed.

(** They count no call, and what the mocks and their expectations are does not change. *)
Theorem C97_failures_count_nothing b o b' r : fbreachable b -> fbstep b o = BNext b' r -> half_way o ->
  forall e, accepted (w_trace (bw b')) e = accepted (w_trace (bw b)) e.
Proof.
  intros Hr H Hw e. pose proof (fb_winv _ Hr) as I.
  assert (Osd : forall w w', only_sequences_die w w' -> accepted (w_trace w') e = accepted (w_trace w) e).
  { intros w w' O. destruct (osd_trace _ _ O) as (evs & E & A). rewrite E. unfold accepted. rewrite filter_app, app_length.
    replace (filter (is_accept e) evs) with (@nil event); [simpl; lia|]. symmetry. clear E. induction evs as [|ev evs IH]; auto. cbn [filter].
    destruct (A ev (or_introl eq_refl)) as (? & ? & ? & -> & _). cbn. apply IH. intros ev' Hin. apply A. right. exact Hin. }
  assert (Lift : forall f, (forall o', f <> FDone o') -> blift b (fstep (bw b) f) = BNext b' r -> accepted (w_trace (bw b')) e = accepted (w_trace (bw b)) e).
  { intros f Nd E. destruct (fstep (bw b) f) as [w' r'| | |] eqn:Ef; try discriminate. injection E as <- _. cbn.
    destruct (fstep_accepted _ _ _ _ I Ef) as [A|(? & ? & ? & ? & ? & ? & ? & ? & E & _)]; [apply A|exfalso; eapply Nd; eauto]. }
  destruct o as [o|o|m ov ms|k cl|k x|dst src n x|k l st x].
  - destruct Hw.
  - destruct o as [o|x|m ov ms cls l st x|m ov args l i x|h x|dst src x]; cbn [fbstep] in H; try (eapply Lift; [|exact H]; discriminate).
    + destruct Hw.
    + destruct (forallb (names_ok b) cls); [|discriminate]. eapply Lift; [|exact H]; discriminate.
  - exfalso. cbn [fbstep] in H. unfold do_bexpect_fails in H. destruct (find_overload (bw b) m ov) as [s|[s coll]] eqn:Hf.
    + destruct (find_overload_inl _ _ _ _ Hf); subst; discriminate.
    + destruct (negb _); [discriminate|]. destruct (_ =? 0); discriminate.
  - exfalso. cbn [fbstep] in H. unfold do_band_fails in H. destruct (nth_error (bw_builders b) k); [|discriminate]. destruct (negb _); [discriminate|].
    destruct (match cl with ClSeq _ => _ | _ => _ end); [discriminate|]. destruct (builder_and _ _) as [bd| |]; try discriminate. destruct (user_made bd); discriminate.
  - destruct (nth_error (bw_builders b) k) as [oj|] eqn:Hj; [|cbn [fbstep] in H; unfold do_bmove_fails in H; rewrite Hj in H; discriminate].
    apply Osd. apply (C97_failed_move _ _ _ _ _ _ H Hj).
  - destruct (Nat.eq_dec dst src) as [->|Hne]; [destruct (C97_failed_self_assignment _ _ _ _ _ _ H) as [-> _]; auto|].
    destruct (nth_error (bw_builders b) dst) as [d|] eqn:Hd; [|cbn [fbstep] in H; unfold do_bassign_fails in H; rewrite Hd in H; discriminate].
    destruct (nth_error (bw_builders b) src) as [s|] eqn:Hs; [|cbn [fbstep] in H; unfold do_bassign_fails in H; rewrite Hd, Hs in H; discriminate].
    apply Osd. apply (C97_failed_assignment _ _ _ _ _ _ _ _ _ H Hne Hd Hs).
  - destruct (failed_finalize _ _ _ _ _ _ _ Hr H) as (_ & _ & ob & _ & _ & _ & w & g & ms & cls & w1 & Fr & T & Hf & T1 & I1 & _).
    destruct (fbinv_reachable _ Hr) as (Ib & _). rewrite <- (ll_trace _ _ (twin_looks _ _ I1 T1)), <- (ll_trace _ _ (twin_looks _ _ Ib T)).
    eapply C81_failures_count_nothing; eauto.
Qed.

(** ** Concrete programs *)

Fixpoint fbexec (b : bworld) (ops : list fbop) : option (bworld * list result) :=
  match ops with
  | [] => Some (b, [])
  | o :: t =>
      match fbstep b o with
      | BNext b1 r => match fbexec b1 t with Some (b2, rs) => Some (b2, r :: rs) | None => None end
      | _ => None
      end
  end.
Lemma fbexec_run ops : forall b b' rs, fbexec b ops = Some (b', rs) -> fbrun b ops b'.
Proof.
  induction ops as [|o ops IH]; intros b b' rs H; cbn [fbexec] in H; [injection H as <- _; constructor|].
  destruct (fbstep b o) as [b1 r| |u|] eqn:E; try discriminate. destruct (fbexec b1 ops) as [[b2 rs2]|] eqn:E2; [|discriminate]. injection H as <- _.
  econstructor; eauto.
Qed.
Definition fbafter (ops : list fbop) : bworld := match fbexec binit ops with Some (b, _) => b | None => binit end.
Definition fbresults (ops : list fbop) : list result := match fbexec binit ops with Some (_, rs) => rs | None => [] end.
Lemma fbafter_reachable ops : (match fbexec binit ops with Some _ => true | None => false end) = true -> fbreachable (fbafter ops).
Proof. unfold fbafter. destruct (fbexec binit ops) as [[b rs]|] eqn:E; [|discriminate]. intros _. exists ops. eapply fbexec_run; eauto. Qed.

(** auto b1 = mock.expect_call(4) and finally::returns(7); auto b3 = mock.expect_call(5) and finally::returns(8); the second one is assigned to the first
    one, but moving the finalizer fails. *)
Definition two_values : list fbop :=
  map FBDone [BOp (ONewMock [sig_int]); BExpect 0 0 [m_eq 4]; BAnd 0 (ClFinal (FReturns (VInt 7)));
              BExpect 0 0 [m_eq 5]; BAnd 2 (ClFinal (FReturns (VInt 8)))].
Definition called_with (k : nat) (v : Z) : list fbop :=
  map FBDone [BFinalize k here; BOp (OCall 0 0 [VInt v] here); BOp OFinal; BOp (OReturn (UOk (VInt 0)))].

(** One expects a failed assignment to leave the target with its old or with its new value; but the finalizer may come from one and the requirements from
    the other. *)
Theorem C97_old_or_new_refuted : exists b dst src n x b' d s d',
  fbreachable b /\ dst <> src /\ fbstep b (FBMoveAssign dst src n x) = BNext b' (RThrow x) /\
  nth_error (bw_builders b) dst = Some d /\ nth_error (bw_builders b) src = Some s /\ nth_error (bw_builders b') dst = Some d' /\
  b_final (bo_members d') <> b_final (bo_members d) /\ b_policies (bo_members d') <> b_policies (bo_members s).
Proof.
  set (look := fun (o : bobj) => map (fun p => match p with PArg _ m _ => match m_matches m (VInt 4) with UOk t => t | _ => false end | _ => true end) (b_policies (bo_members o))).
  set (fin := fun (o : bobj) => match b_final (bo_members o) with FReturns v => Some v | _ => None end).
  destruct (nth_error (bw_builders (fbafter two_values)) 1) as [d|] eqn:Hd; [|exfalso; revert Hd; vm_compute; discriminate].
  destruct (nth_error (bw_builders (fbafter two_values)) 3) as [s|] eqn:Hs; [|exfalso; revert Hs; vm_compute; discriminate].
  destruct (nth_error (bw_builders (fbafter (two_values ++ [FBMoveAssign 1 3 (Some 0) (EUser 9)]))) 1) as [d'|] eqn:Hd'; [|exfalso; revert Hd'; vm_compute; discriminate].
  exists (fbafter two_values), 1, 3, (Some 0), (EUser 9), (fbafter (two_values ++ [FBMoveAssign 1 3 (Some 0) (EUser 9)])), d, s, d'.
  split; [apply fbafter_reachable; vm_compute; reflexivity|]. split; [discriminate|]. split; [vm_compute; reflexivity|]. split; auto. split; auto. split; auto.
  assert (F1 : option_map fin (nth_error (bw_builders (fbafter two_values)) 1) = Some (Some (VInt 7))) by (vm_compute; reflexivity).
  assert (F2 : option_map fin (nth_error (bw_builders (fbafter (two_values ++ [FBMoveAssign 1 3 (Some 0) (EUser 9)]))) 1) = Some (Some (VInt 8))) by (vm_compute; reflexivity).
  assert (L1 : option_map look (nth_error (bw_builders (fbafter two_values)) 3) = Some [false; true; true]) by (vm_compute; reflexivity).
  assert (L2 : option_map look (nth_error (bw_builders (fbafter (two_values ++ [FBMoveAssign 1 3 (Some 0) (EUser 9)]))) 1) = Some [true; true; true]) by (vm_compute; reflexivity).
  rewrite Hd in F1. rewrite Hd' in F2, L2. rewrite Hs in L1. cbn [option_map] in *. injection F1 as F1. injection F2 as F2. injection L1 as L1. injection L2 as L2.
  split; [intros E; unfold fin in *; rewrite E in F2; congruence|intros E; unfold look in *; rewrite E in L2; congruence].
Qed.

(** Without the failure, the target answers 5 with 8; if a move fails it may answer 4 with 8, or 4 with 7: then everything which can be seen of it is its own. *)
Example chimera :
  fbresults (two_values ++ [FBDone (BMoveAssign 1 3)] ++ called_with 1 5) = repeat RUnit 9 ++ [RVal (Some (VInt 8))] /\
  fbresults (two_values ++ [FBMoveAssign 1 3 (Some 0) (EUser 9)] ++ called_with 1 4) = repeat RUnit 5 ++ RThrow (EUser 9) :: repeat RUnit 3 ++ [RVal (Some (VInt 8))] /\
  fbresults (two_values ++ [FBMoveAssign 1 3 None (EUser 9)] ++ called_with 1 4) = repeat RUnit 5 ++ RThrow (EUser 9) :: repeat RUnit 3 ++ [RVal (Some (VInt 7))] /\
  fbstep (fbafter two_values) (FBMoveAssign 1 3 (Some 1) (EUser 9)) = BInvalid /\ fbstep (fbafter two_values) (FBMoveAssign 1 3 (Some 3) (EUser 9)) = BInvalid /\
  fbstep (fbafter two_values) (FBMoveAssign 1 0 None (EUser 9)) = BInvalid /\ fbstep (fbafter two_values) (FBMoveAssign 1 1 None (EUser 9)) = BNext (fbafter two_values) (RThrow (EUser 9)) /\
  fbstep (fbafter (two_values ++ [FBMoveAssign 1 3 None (EUser 9)])) (FBDone (BFinalize 3 here)) = BWrong UbAssert.
Proof. vm_compute. auto 10. Qed.

(** auto b1 = mock.expect_call(4) and expect::in_sequence(seq), where the user has given up the sequence; moving the matcher fails: the sequence is gone. *)
Definition owner : list fbop :=
  map FBDone [BOp (OInstall (fun _ _ => Returns)); BOp (ONewSeq Lazy); BOp (ONewMock [sig_unary]); BExpect 0 0 [m_eq 4]; BAnd 0 (ClSeq [0])].
Theorem C97_strong_guarantee_refuted : exists b k x b' ob, fbreachable b /\ fbstep b (FBMove k x) = BNext b' (RThrow x) /\
  nth_error (bw_builders b) k = Some ob /\ bo_storage ob <> None /\
  (exists b1, bstep b (BFinalize k here) = BNext b1 RUnit) /\ bstep b' (BFinalize k here) = BWrong UbNull /\
  nth 0 (w_sdead (bw b)) true = false /\ nth 0 (w_sdead (bw b')) true = true.
Proof.
  destruct (nth_error (bw_builders (fbafter (owner ++ [FBDone (BOp (ODropSeq 0))]))) 1) as [ob|] eqn:Hk; [|exfalso; revert Hk; vm_compute; discriminate].
  exists (fbafter (owner ++ [FBDone (BOp (ODropSeq 0))])), 1, (EUser 9), (fbafter (owner ++ [FBDone (BOp (ODropSeq 0)); FBMove 1 (EUser 9)])), ob.
  split; [apply fbafter_reachable; vm_compute; reflexivity|]. split; [vm_compute; reflexivity|]. split; auto. split.
  { assert (S1 : option_map bo_storage (nth_error (bw_builders (fbafter (owner ++ [FBDone (BOp (ODropSeq 0))]))) 1) = Some (Some 0)) by (vm_compute; reflexivity).
    rewrite Hk in S1. injection S1 as ->. discriminate. }
  split; [exists (fbafter (owner ++ [FBDone (BOp (ODropSeq 0)); FBDone (BFinalize 1 here)])); vm_compute; reflexivity|].
  split; [vm_compute; reflexivity|]. split; vm_compute; reflexivity.
Qed.

(** The stages of a finalization and of extensions; a failed finalization, again and again: each time another element in the sequence. *)
Example stages_case :
  let b := fbafter owner in
  let again := [FBFinalize 1 here AfterControl (EUser 9); FBFinalize 1 there AfterControl (EUser 8)] in
  (exists b1, bstep b (BFinalize 1 here) = BNext b1 RUnit) /\
  fbstep b (FBFinalize 1 here InControl (EUser 9)) = BStop /\ fbstep b (FBFinalize 1 here InModel (EUser 9)) = BStop /\
  fbresults (owner ++ again) = repeat RUnit 5 ++ [RThrow (EUser 9); RThrow (EUser 8)] /\
  map eo_alive (w_exps (bw (fbafter (owner ++ again)))) = [false; false] /\ w_colls (bw (fbafter (owner ++ again))) = [[]] /\
  map holds (bw_builders (fbafter (owner ++ again))) = [[]; [0]] /\ bstep (fbafter (owner ++ again)) (BFinalize 1 here) = BWrong UbAssert /\
  match fbstep b (FBFinalize 0 here AfterControl (EUser 9)) with BNext b' r => length (w_exps (bw b')) = 0 /\ r = RThrow (EUser 9) | _ => False end /\
  fbstep b (FBFinalize 7 here AfterControl (EUser 9)) = BInvalid /\
  fbstep b (FBAnd 1 (ClTimes TxOnce)) = BStop /\ fbstep b (FBAnd 1 (ClSeq [0])) = BInvalid /\ fbstep b (FBAnd 7 (ClTimes TxOnce)) = BInvalid /\
  fbstep b (FBAnd 0 (ClTimes TxOnce)) = BStop /\
  fbstep b (FBExpect 0 0 [m_any]) = BStop /\ fbstep b (FBExpect 0 0 []) = BInvalid /\ fbstep b (FBMove 7 (EUser 9)) = BInvalid.
Proof.
  cbv zeta. split; [exists (fbafter (owner ++ [FBDone (BFinalize 1 here)])); vm_compute; reflexivity|]. vm_compute. auto 20.
Qed.

(** The hypotheses of C97_half_built_blocks and C97_half_built_complains are met. *)
Definition blocked : list fbop :=
  owner ++ FBFinalize 1 here AfterControl (EUser 9) ::
  map FBDone [BExpect 0 0 [m_eq 4]; BAnd 2 (ClSeq [0]); BFinalize 3 here].
Example blocked_case :
  fbresults (blocked ++ map FBDone [BOp (OInstall (fun _ _ => Throws)); BOp (OCall 0 0 [VInt 4] here)]) =
    repeat RUnit 5 ++ [RThrow (EUser 9); RUnit; RUnit; RUnit; RUnit; RThrow EReporter] /\
  option_map (fun o => (t_min (b_times (bo_members o)), b_seqs (bo_members o))) (nth_error (bw_builders (fbafter owner)) 1) = Some (1%Z, [0]) /\
  w_sdead (bw (fbafter (blocked ++ map FBDone [BDrop 1; BDrop 3; BOp (OEndScope 0); BOp (ODropSeq 0)]))) = [true] /\
  seq_error_reports (w_trace (bw (fbafter (blocked ++ map FBDone [BDrop 1; BDrop 3; BOp (OEndScope 0); BOp (ODropSeq 0)])))) 0 = 1.
Proof. vm_compute. auto 10. Qed.

Print Assumptions C97_conservative.
Print Assumptions C97_world.
Print Assumptions C97_every_program.
Print Assumptions C97_limits.
Print Assumptions C97_applicable_iff_history.
Print Assumptions C97_sequence_lifetime.
Print Assumptions C97_sequence_error_iff.
Print Assumptions C97_finalize_stages.
Print Assumptions C97_failed_finalize_uses_up.
Print Assumptions C97_half_built_blocks.
Print Assumptions C97_half_built_complains.
Print Assumptions C97_extension_terminates.
Print Assumptions C97_expect_call_terminates.
Print Assumptions C97_failed_move.
Print Assumptions C97_failed_assignment.
Print Assumptions C97_failed_self_assignment.
Print Assumptions C97_assignment_fails_at.
Print Assumptions C97_operands.
Print Assumptions C97_untouched.
Print Assumptions C97_failures_count_nothing.
Print Assumptions C97_old_or_new_refuted.
Print Assumptions C97_strong_guarantee_refuted.
