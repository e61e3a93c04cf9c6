(** * ConcOrder: sequences and limits in all interleavings of builds with asserts. *)

From Verif Require Import Base Lib Sequence Control Signature Printer Reports Expectation Builder World WorldSpec CallSpec
  SeqInv BuildSpec BuilderLemmas StepCases MatchLemmas WorldInv ObjInv CallProofs BuildProofs CountProofs FrameSpec Conc ConcSpec ConcProofs.

(** ** The invariant of sequences and controls *)

Definition SI (w : world) : Prop := SInv (w_seqs w) (ctls w) /\ length (w_iface w) = length (w_seqs w).

Lemma si_core w w' : core w = core w' -> SI w -> SI w'.
Proof. intros H. destruct (core_fields _ _ H) as (E1 & E2 & _ & E4 & _). unfold SI, ctls. rewrite E1, E2, E4. auto. Qed.

Lemma si_new w ms cls l s coll b ss ctl mem ov : SI w ->
  forallb (clause_ok w (length (sg_params s))) cls = true -> build s ms cls = BOk b ->
  control_new (w_seqs w) (b_times b) (b_seqs b) = Ret (ss, ctl) ->
  SI (new_world w coll mem ss (mkEObj (mkExp l ctl (b_policies b) (b_final b)) coll true ov s)).
Proof.
  intros [I Li] Hok Hb Hc. destruct (build_ok _ _ _ _ Hb (clauses_times _ _ _ Hok)) as (Hv & Hbs & Hbp).
  assert (Hif : forall t, In t (b_seqs b) -> nth t (w_iface w) false = true).
  { intros t Ht. rewrite Hbs in Ht. eapply clauses_seqs; eauto. }
  destruct (control_new_ok _ _ (b_times b) (b_seqs b) I (bv_times _ Hv) (bv_max _ Hv) (bv_seqs _ Hv)) as
    [(ss' & c' & Hc' & Hmin & Hmax & Hcnt & Hseqs & Hls & Hat & Hout)|[Hc' _]]; [| |congruence].
  { intros t Ht. apply nth_error_ex. rewrite <- Li. apply nth_true_lt; auto. }
  rewrite Hc in Hc'. injection Hc' as <- <-.
  split.
  - assert (Hcts : ctls (new_world w coll mem ss (mkEObj (mkExp l ctl (b_policies b) (b_final b)) coll true ov s)) = ctls w ++ [ctl]).
    { unfold ctls, new_world. simpl. rewrite map_app. reflexivity. }
    rewrite Hcts. apply (sinv_new (w_seqs w)); auto.
    + unfold ctl_ok. rewrite Hmin, Hmax, Hcnt. pose proof (bv_times _ Hv). pose proof (bv_max _ Hv). lia.
    + rewrite Hseqs. apply (bv_seqs _ Hv).
    + rewrite Hseqs. auto.
  - cbn [w_iface w_seqs new_world set_scoped set_colls set_exps set_seqs]. congruence.
Qed.

Lemma ctls_kill w e eo l sc : nth_error (w_exps w) e = Some eo -> ctls (kill (set_scoped w sc) e eo l) = ctls w.
Proof.
  intros H. unfold ctls, kill. cbn [w_exps set_exps set_scoped]. rewrite map_upd. apply upd_same. exact (map_nth_error ctl_of _ _ H).
Qed.

Lemma si_step w o w' r : SI w -> is_call o = false -> step w o = Next w' r -> SI w'.
Proof.
  intros H Ho Hs. apply step_change in Hs. destruct Hs.
  - destruct H as [I Li]. unfold SI, ctls. rewrite H0, H1, H3. auto.
  - subst. destruct H as [I Li]. split; [apply sinv_new_seq; auto|].
    cbn [w_iface w_seqs set_sdead set_iface set_seqs]. rewrite !app_length, Li. reflexivity.
  - subst. destruct H as [I Li]. split; [exact I|].
    cbn [w_iface w_seqs set_sdead_trace add_trace set_sdead set_iface]. rewrite length_upd. auto.
  - subst. eapply si_new; eauto.
  - subst. discriminate.
  - destruct H0 as [sc ->]. subst w'. destruct H as [I Li]. split; [|exact Li].
    change (ctls (add_trace (set_sdead (kill (set_scoped w sc) e eo l) d') (unf ++ evs))) with (ctls (kill (set_scoped w sc) e eo l)).
    rewrite ctls_kill by auto. exact I.
Qed.

(** ** Counting *)

(** The counting step of the chosen expectation when the invariant holds: an assert fails unless it is applicable, in which case both
    kinds of builds do the same. *)
Lemma count_cases w n c ne x : SI w -> exp_at w n x -> eo_alive x = true -> consume_asserts (e_policies (eo_exp x)) c = Ret tt ->
  (control_is_applicable (w_seqs w) (ctl_of x) = false /\ count_call false w n c ne = Wrong UbAssert) \/
  (control_is_applicable (w_seqs w) (ctl_of x) = true /\ exists w', count_call false w n c ne = Next w' RUnit /\ count_call true w n c ne = Next w' RUnit /\ SI w').
Proof.
  intros [I Li] Hx Ha Hca. pose proof (ctls_nth _ _ _ Hx) as Hcx. unfold exp_at in Hx. unfold count_call. rewrite Hx, Ha. cbn [negb consume_with].
  fold (ctl_of x). destruct (control_is_applicable (w_seqs w) (ctl_of x)) eqn:Happ.
  - right. split; auto. destruct (control_consume_ok _ _ _ _ I Hcx Happ) as (ss' & Hc & Hls & Hat & Hout).
    rewrite Hc, (consume_nd_same _ _ _ Hc), Hca. eexists. split; [reflexivity|]. split; [reflexivity|].
    split; [|cbn [w_iface w_seqs set_frames set_exps set_seqs]; congruence].
    unfold ctls. cbn [w_seqs w_exps set_frames set_exps set_seqs]. rewrite ctls_upd.
    unfold ctl_of at 1. cbn [eo_exp e_ctl with_ctl]. apply (sinv_accept _ _ _ _ _ I Hcx); auto.
  - left. split; auto. unfold control_consume. unfold assert_ at 1. rewrite Happ. reflexivity.
Qed.

(** What a counting step does. *)
Lemma cstep_count release c t c' r : cstep release c t ACount = CNext c' r ->
  exists th n ci ne x v ss ctl, nth_error (c_threads c) t = Some th /\ t_pending th = Some (n, ci, ne) /\ exp_at (cw c) n x /\ eo_alive x = true /\
    consume_with release (w_seqs (cw c)) (ctl_of x) = Ret (ss, ctl) /\
    consume_asserts (e_policies (eo_exp x)) ci = Ret tt /\ count_call release (enter (cw c) th) n ci ne = Next v RUnit /\
    r = RUnit /\ c' = leave c t v None (c_log c ++ [(t, n, ci)]) /\
    w_exps v = upd (w_exps (cw c)) n (mkEObj (with_ctl (eo_exp x) ctl) (eo_coll x) true (eo_ov x) (eo_sig x)).
Proof.
  unfold cstep. intros H. destruct (nth_error (c_threads c) t) as [th|] eqn:Hth; [|discriminate].
  destruct (t_pending th) as [[[n ci] ne]|] eqn:Hp; [|discriminate].
  destruct (count_call release (enter (cw c) th) n ci ne) as [v r0| | |] eqn:Hcc; cbn [embed] in H; try discriminate. injection H as <- <-.
  pose proof Hcc as Hcc'. unfold count_call in Hcc. cbn [w_exps w_seqs enter set_uncaught set_frames] in Hcc.
  destruct (nth_error (w_exps (cw c)) n) as [x|] eqn:Hx; [|discriminate].
  destruct (eo_alive x) eqn:Ha; [|discriminate]. cbn [negb] in Hcc.
  destruct (consume_with release (w_seqs (cw c)) (e_ctl (eo_exp x))) as [[ss ctl]|y| |u] eqn:Hcons; try discriminate.
  2:{ exfalso. destruct release; cbn [consume_with] in Hcons.
      - eapply consume_nd_nothrow; eauto.
      - eapply control_consume_nothrow; eauto. }
  destruct (consume_asserts (e_policies (eo_exp x)) ci) as [[]| | |] eqn:Hca; try discriminate. injection Hcc as <- <-.
  exists th, n, ci, ne, x. eexists _, ss, ctl. repeat (split; [eauto; fail|]). reflexivity.
Qed.

(** A matching step changes no object. *)
Lemma cstep_match_core release c t m ov args l c' r : cstep release c t (AMatch m ov args l) = CNext c' r ->
  core (cw c') = core (cw c) /\ c_log c' = c_log c.
Proof.
  intros H. apply cstep_match in H. destruct H as (th & s & coll & Hth & _ & Hf & Hl & [(w1 & n & Hm & -> & ->)|(w1 & Hm & ->)]).
  - destruct (match_chosen _ _ _ _ _ _ Hm) as (Hc & _). split; [exact Hc|reflexivity].
  - split; [|reflexivity]. assert (Hs : step (enter (cw c) th) (OCall m ov args l) = Next w1 r).
    { rewrite (step_call _ _ _ _ _ _ _ Hf Hl), handle_call_split, Hm. reflexivity. }
    destruct (over_throws _ _ _ _ _ _ Hm) as [y ->]. rewrite core_leave, <- (core_enter (cw c) th).
    rewrite (step_call _ _ _ _ _ _ _ Hf Hl) in Hs. apply handle_call_next in Hs. destruct Hs as (lst & es & ml & _ & _ & _ & Hcr).
    inversion Hcr. subst. reflexivity.
Qed.

Lemma cstep_op release c t o c' r : cstep release c t (AOp o) = CNext c' r ->
  exists th v, nth_error (c_threads c) t = Some th /\ t_pending th = None /\ is_call o = false /\
    step (enter (cw c) th) o = Next v r /\ c' = leave c t v None (c_log c).
Proof.
  unfold cstep. intros H. destruct (nth_error (c_threads c) t) as [th|] eqn:Hth; [|discriminate].
  destruct (t_pending th) as [[[n ci] ne]|] eqn:Hp; [discriminate|]. destruct (is_call o) eqn:Ho; [discriminate|].
  destruct (step (enter (cw c) th) o) as [v r0| | |] eqn:Hs; cbn [embed] in H; try discriminate. injection H as <- <-. exists th, v. auto.
Qed.

Lemma si_cstep c t a c' r : SI (cw c) -> cstep false c t a = CNext c' r -> SI (cw c').
Proof.
  intros I H. destruct a as [o|m ov args l|].
  - apply cstep_op in H. destruct H as (th & v & _ & _ & Ho & Hs & ->).
    apply (si_core v); [reflexivity|]. eapply (si_step (enter (cw c) th)); eauto.
  - apply cstep_match_core in H. destruct H as [Hc _]. eapply si_core; [symmetry; exact Hc|]. auto.
  - apply cstep_count in H. destruct H as (th & n & ci & ne & x & v & ss & ctl & Hth & Hp & Hx & Ha & Hcons & Hca & Hcc & _ & -> & _).
    apply (si_core v); [reflexivity|].
    destruct (count_cases (enter (cw c) th) n ci ne x I Hx Ha Hca) as [[_ E]|(_ & w' & E & _ & I')]; [congruence|].
    rewrite Hcc in E. injection E as ->. auto.
Qed.

Lemma si_init k : SI (cw (cinit k)).
Proof. split; [apply sinv_init|reflexivity]. Qed.

Theorem si_run k acts c : cruns false (cinit k) acts c -> SI (cw c).
Proof.
  intros H. pose proof (si_init k) as I. revert I. induction H as [|c t a c1 r acts c2 Hs Hr IH]; auto.
  intros I. apply IH. eapply si_cstep; eauto.
Qed.

(** ** Applicability by counted calls *)

Lemma open_iff release c n x : CInv release c -> SI (cw c) -> exp_at (cw c) n x ->
  (control_is_applicable (w_seqs (cw c)) (ctl_of x) = true <-> open_for c n x).
Proof.
  intros C [I _] He. rewrite (applicable_by_counts _ _ _ _ I (ctls_nth _ _ _ He)).
  unfold open_for, x_max. fold (ctl_of x). rewrite (ci_count _ _ C _ _ He). split; intros [Hc H]; split; auto.
  - intros s Hs e' x' He' Hs'. destruct (H s Hs e' (ctl_of x') (ctls_nth _ _ _ He') Hs') as [H1 H2].
    rewrite (ci_count _ _ C _ _ He') in *. split; auto. intros Hl. specialize (H2 Hl). lia.
  - intros s Hs e' c' He' Hs'. apply ctls_nth_inv in He'. destruct He' as (x' & He' & ->).
    destruct (H s Hs e' x' He' Hs') as [H1 H2]. unfold x_min in H1. fold (ctl_of x') in H1.
    rewrite (ci_count _ _ C _ _ He') in *. split; auto. intros Hl. specialize (H2 Hl). lia.
Qed.

(** Counting steps with and without asserts. *)
Lemma count_agree release c t : CInv release c -> SI (cw c) ->
  forall c' r, cstep true c t ACount = CNext c' r ->
  cstep false c t ACount = CNext c' r \/ cstep false c t ACount = CWrong UbAssert.
Proof.
  intros C I c' r H. pose proof H as H0. apply cstep_count in H. destruct H as (th & n & ci & ne & x & v & ss & ctl & Hth & Hp & Hx & Ha & Hcons & Hca & Hcc & -> & -> & _).
  unfold cstep. rewrite Hth, Hp.
  destruct (count_cases (enter (cw c) th) n ci ne x I Hx Ha Hca) as [[_ ->]|(_ & w' & -> & E & _)]; auto.
  left. rewrite Hcc in E. injection E as ->. reflexivity.
Qed.

Lemma count_both c t c' r : cstep false c t ACount = CNext c' r -> cstep true c t ACount = CNext c' r.
Proof.
  intros H. pose proof H as H0. apply cstep_count in H. destruct H as (th & n & ci & ne & x & v & ss & ctl & Hth & Hp & Hx & Ha & Hcons & Hca & Hcc & -> & -> & _).
  unfold cstep. rewrite Hth, Hp. unfold count_call in *. cbn [w_exps w_seqs enter set_uncaught set_frames] in *. unfold exp_at in Hx. rewrite Hx, Ha in *.
  cbn [negb consume_with] in *. fold (ctl_of x) in *. rewrite Hcons in Hcc. rewrite (consume_nd_same _ _ _ Hcons), Hca in *. injection Hcc as <-. reflexivity.
Qed.

Lemma cstep_same c t a : a <> ACount -> cstep false c t a = cstep true c t a.
Proof. intros H. unfold cstep. destruct (nth_error (c_threads c) t) as [th|]; auto. destruct (t_pending th) as [[[n ci] ne]|], a; congruence. Qed.

(** ** Order within sequences *)

Lemma times_in_app a b e : times_in (a ++ b) e = times_in a e + times_in b e.
Proof. unfold times_in. rewrite filter_app, app_length. reflexivity. Qed.

Definition ordered (c : cworld) : Prop := forall e1 x1 e2 x2 s a t ci b,
  exp_at (cw c) e1 x1 -> exp_at (cw c) e2 x2 -> In s (x_seqs x1) -> In s (x_seqs x2) -> e1 < e2 ->
  c_log c = a ++ (t, e2, ci) :: b -> (x_min x1 <= Z.of_nat (times_in a e1))%Z /\ times_in b e1 = 0.

Lemma snoc_split {A} (l : list A) z a y b : l ++ [z] = a ++ y :: b -> (b = [] /\ y = z /\ a = l) \/ exists b', b = b' ++ [z] /\ l = a ++ y :: b'.
Proof.
  intros H. destruct b as [|w b] using rev_ind.
  - left. apply app_inj_tail in H. destruct H as [-> ->]. auto.
  - right. exists b. rewrite app_comm_cons, app_assoc in H. apply app_inj_tail in H. destruct H as [-> ->]. auto.
Qed.

Lemma ordered_step c t a c' r : CInv false c -> SI (cw c) -> ordered c -> cstep false c t a = CNext c' r -> ordered c'.
Proof.
  intros C I O H. destruct a as [o|m ov args l|].
  - apply cstep_op in H. destruct H as (th & v & Hth & Hp & Ho & Hs & ->).
    destruct (step_keeps _ _ _ _ Hs Ho) as [Hk _].
    intros e1 x1 e2 x2 s a t' ci b H1 H2 Hs1 Hs2 Hlt Hlog. cbn [c_log leave] in Hlog.
    assert (Hin : In (t', e2, ci) (c_log c)) by (rewrite Hlog; apply in_elt).
    destruct (ci_log _ _ C _ _ _ Hin) as (y2 & Hy2 & _).
    assert (Hl1 : e1 < length (w_exps (cw c))) by (apply nth_error_lt in Hy2; lia).
    destruct (nth_error_ex _ _ Hl1) as [y1 Hy1].
    destruct (Hk _ _ Hy1) as (z1 & Hz1 & _ & E1). destruct (Hk _ _ Hy2) as (z2 & Hz2 & _ & E2).
    unfold exp_at in *. cbn [cw leave w_exps set_uncaught set_frames] in *.
    rewrite H1 in Hz1. injection Hz1 as <-. rewrite H2 in Hz2. injection Hz2 as <-.
    unfold x_seqs, x_min in *. rewrite E1 in *. rewrite E2 in *. apply (O e1 y1 e2 y2 s a t' ci b); auto.
  - apply cstep_match_core in H. destruct H as [Hc Hl]. destruct (core_fields _ _ Hc) as (_ & _ & _ & E & _).
    intros e1 x1 e2 x2 s a t' ci b H1 H2 Hs1 Hs2 Hlt Hlog. unfold exp_at in *. rewrite E in *. rewrite Hl in Hlog. apply (O e1 x1 e2 x2 s a t' ci b); auto.
  - apply cstep_count in H. destruct H as (th & n & ci & ne & x & v & ss & ctl & Hth & Hp & Hx & Ha & Hcons & Hca & Hcc & _ & -> & Hex).
    assert (Happ : control_is_applicable (w_seqs (cw c)) (ctl_of x) = true) by (eapply consume_applicable; exact Hcons).
    pose proof (proj1 (open_iff false c n x C I Hx) Happ) as [Hmax Hord].
    assert (Hctl : ctl = bump (ctl_of x)).
    { destruct I as [I _]. destruct (control_consume_ok _ _ _ _ I (ctls_nth _ _ _ Hx) Happ) as (ss' & E & _).
      cbn [consume_with] in Hcons. rewrite E in Hcons. injection Hcons as _ <-. reflexivity. }
    assert (Hback : forall e y, nth_error (w_exps v) e = Some y -> exists y0, exp_at (cw c) e y0 /\ x_seqs y = x_seqs y0 /\ x_min y = x_min y0).
    { intros e y Hy. rewrite Hex in Hy. apply nth_error_upd in Hy. destruct Hy as [(-> & _ & ->)|(Hne & Hy)].
      - exists x. split; auto. unfold x_seqs, x_min. cbn [eo_exp e_ctl with_ctl]. rewrite Hctl. auto.
      - exists y. auto. }
    intros e1 x1 e2 x2 s a t' ci' b H1 H2 Hs1 Hs2 Hlt Hlog. unfold exp_at in H1, H2. cbn [cw leave w_exps set_uncaught set_frames c_log] in H1, H2, Hlog.
    destruct (Hback _ _ H1) as (y1 & Hy1 & Es1 & Em1). destruct (Hback _ _ H2) as (y2 & Hy2 & Es2 & _). rewrite Es1 in Hs1. rewrite Es2 in Hs2. rewrite Em1.
    destruct (snoc_split _ _ _ _ _ Hlog) as [(-> & E & ->)|(b' & -> & E)].
    + injection E as -> -> ->. split; [|reflexivity].
      assert (E : y2 = x) by (unfold exp_at in *; congruence). subst y2.
      apply (proj1 (Hord s Hs2 e1 y1 Hy1 Hs1)); auto.
    + destruct (O e1 y1 e2 y2 s a t' ci' b' Hy1 Hy2 Hs1 Hs2 Hlt E) as [O1 O2]. split; auto.
      rewrite times_in_app, O2. unfold times_in. cbn [filter]. destruct (Nat.eqb_spec n e1) as [Heq|]; auto. exfalso. subst n.
      assert (Ey : y1 = x) by (unfold exp_at in *; congruence). subst y1.
      assert (Hz : counted c e2 = 0) by (apply (proj2 (Hord s Hs1 e2 y2 Hy2 Hs2)); auto).
      unfold counted in Hz. fold (times_in (c_log c) e2) in Hz. rewrite E, times_in_app in Hz. unfold times_in in Hz at 2. cbn [filter] in Hz.
      rewrite Nat.eqb_refl in Hz. cbn [length] in Hz. lia.
Qed.

Lemma ordered_init k : ordered (cinit k).
Proof. intros e1 x1 e2 x2 s a t ci b _ _ _ _ _ H. cbn in H. destruct a; discriminate. Qed.

Theorem ordered_run k acts c : cruns false (cinit k) acts c -> ordered c.
Proof.
  intros H. pose proof (si_init k) as I. pose proof (cinv_init false k) as C. pose proof (ordered_init k) as O. revert I C O.
  induction H as [|c t a c1 r acts c2 Hs Hr IH]; auto. intros I C O. apply IH.
  - eapply si_cstep; eauto.
  - eapply cinv_step; eauto.
  - eapply ordered_step; eauto.
Qed.

(** ** Between matching and counting *)

(** What a step of a build with asserts keeps. *)
Lemma cstep_limits c t a c' r : SI (cw c) -> cstep false c t a = CNext c' r ->
  forall e x, exp_at (cw c) e x -> exists x', exp_at (cw c') e x' /\ x_min x' = x_min x /\ x_max x' = x_max x /\ x_seqs x' = x_seqs x.
Proof.
  intros I H e x0 He. destruct a as [o|m ov args l|].
  - apply cstep_op in H. destruct H as (th & v & Hth & Hp & Ho & Hs & ->).
    destruct (step_keeps _ _ _ _ Hs Ho) as [Hk _]. destruct (Hk _ _ He) as (x' & Hx' & _ & E). exists x'. split; auto.
    unfold x_min, x_max, x_seqs. rewrite E. auto.
  - apply cstep_match_core in H. destruct H as [Hc _]. destruct (core_fields _ _ Hc) as (_ & _ & _ & E & _). exists x0. unfold exp_at. rewrite E. auto.
  - apply cstep_count in H. destruct H as (th & n & ci & ne & x & v & ss & ctl & Hth & Hp & Hx & Ha & Hcons & Hca & Hcc & _ & -> & Hex).
    assert (Happ : control_is_applicable (w_seqs (cw c)) (ctl_of x) = true) by (eapply consume_applicable; exact Hcons).
    destruct I as [I _]. destruct (control_consume_ok _ _ _ _ I (ctls_nth _ _ _ Hx) Happ) as (ss' & E & _).
    cbn [consume_with] in Hcons. rewrite E in Hcons. injection Hcons as _ <-.
    unfold exp_at. cbn [cw leave w_exps set_uncaught set_frames]. rewrite Hex. destruct (Nat.eq_dec e n) as [->|Hne].
    + rewrite nth_error_upd_eq by (eapply nth_error_lt; eauto). eexists. split; [reflexivity|].
      assert (E' : x0 = x) by (unfold exp_at in *; congruence). subst x0. auto.
    + rewrite nth_error_upd_neq by auto. exists x0. auto.
Qed.

Lemma cruns_limits c acts c' : SI (cw c) -> cruns false c acts c' ->
  forall e x, exp_at (cw c) e x -> exists x', exp_at (cw c') e x' /\ x_min x' = x_min x /\ x_max x' = x_max x /\ x_seqs x' = x_seqs x.
Proof.
  intros I H. revert I. induction H as [c|c t a c1 r acts c2 Hs Hr IH]; intros I e x He; [eauto 8|].
  destruct (cstep_limits _ _ _ _ _ I Hs _ _ He) as (x1 & Hx1 & E1 & E2 & E3).
  destruct (IH (si_cstep _ _ _ _ _ I Hs) _ _ Hx1) as (x2 & Hx2 & F1 & F2 & F3). exists x2. repeat split; congruence.
Qed.

(** A pending call stays pending until it is counted. *)
Lemma cstep_pending release c t a c' r t0 th p : cstep release c t a = CNext c' r -> nth_error (c_threads c) t0 = Some th -> t_pending th = Some p ->
  exists added, c_log c' = c_log c ++ added /\
  ((exists th', nth_error (c_threads c') t0 = Some th' /\ t_pending th' = Some p) \/ In (t0, fst (fst p), snd (fst p)) added).
Proof.
  intros H Hth Hp. 
  assert (Hne : t0 <> t -> forall w q l, exists th', nth_error (c_threads (leave c t w q l)) t0 = Some th' /\ t_pending th' = Some p).
  { intros Hn w q l. exists th. split; auto. cbn [c_threads leave]. rewrite nth_error_upd_neq; auto. }
  destruct a as [o|m ov args l|].
  - apply cstep_op in H. destruct H as (th' & v & Hth' & Hp' & Ho & Hs & ->). exists []. rewrite app_nil_r. split; [reflexivity|].
    left. apply Hne. intros ->. congruence.
  - apply cstep_match in H. destruct H as (th' & s & coll & Hth' & Hp' & Hf & Hl & H). exists []. rewrite app_nil_r.
    destruct H as [(w1 & n & Hm & -> & ->)|(w1 & Hm & ->)]; (split; [reflexivity|]); left; apply Hne; intros ->; congruence.
  - apply cstep_count in H. destruct H as (th' & n & ci & ne & x & v & ss & ctl & Hth' & Hp' & Hx & Ha & Hcons & Hca & Hcc & _ & -> & Hex).
    eexists. split; [reflexivity|]. destruct (Nat.eq_dec t0 t) as [->|Hn]; [|left; apply Hne; auto].
    right. rewrite Hth in Hth'. injection Hth' as <-. rewrite Hp in Hp'. injection Hp' as ->. left. reflexivity.
Qed.

Lemma cruns_log release c acts c' : cruns release c acts c' -> exists added, c_log c' = c_log c ++ added.
Proof.
  intros H. induction H as [c|c t a c1 r acts c2 Hs Hr [added IH]]; [exists []; rewrite app_nil_r; auto|].
  assert (H1 : exists l, c_log c1 = c_log c ++ l).
  { destruct a as [o|m ov args l|].
    - apply cstep_op in Hs. destruct Hs as (th' & v & _ & _ & _ & _ & ->). exists []. rewrite app_nil_r. reflexivity.
    - apply cstep_match_core in Hs. exists []. rewrite app_nil_r. apply Hs.
    - apply cstep_count in Hs. destruct Hs as (th' & n & ci & ne & x & v & ss & ctl & _ & _ & _ & _ & _ & _ & _ & _ & -> & _). eexists. reflexivity. }
  destruct H1 as [l1 E1]. exists (l1 ++ added). rewrite IH, E1, app_assoc. reflexivity.
Qed.

Lemma cruns_pending release c acts c' : cruns release c acts c' -> forall t0 th p added,
  nth_error (c_threads c) t0 = Some th -> t_pending th = Some p -> c_log c' = c_log c ++ added ->
  (exists th', nth_error (c_threads c') t0 = Some th' /\ t_pending th' = Some p) \/ In (t0, fst (fst p), snd (fst p)) added.
Proof.
  intros H. induction H as [c|c t a c1 r acts c2 Hs Hr IH]; intros t0 th p added Hth Hp Hl; [eauto|].
  destruct (cstep_pending _ _ _ _ _ _ _ _ _ Hs Hth Hp) as (l1 & E1 & D).
  destruct (cruns_log _ _ _ _ Hr) as [l2 E2]. assert (added = l1 ++ l2). { rewrite E2, E1, <- app_assoc in Hl. apply app_inv_head in Hl. auto. }
  subst added. destruct D as [(th' & Hth' & Hp')|D]; [|right; apply in_or_app; auto].
  destruct (IH _ _ _ l2 Hth' Hp' E2) as [|]; auto. right. apply in_or_app. auto.
Qed.

(** The chosen expectation is open when it is chosen. *)
Lemma matched_open c t m ov args l c1 r th n ci ne : CInv false c -> SI (cw c) ->
  cstep false c t (AMatch m ov args l) = CNext c1 r -> nth_error (c_threads c1) t = Some th -> t_pending th = Some (n, ci, ne) ->
  exists x, exp_at (cw c) n x /\ accepts (eo_exp x) ci /\ open_for c n x.
Proof.
  intros C I H Hth Hp. apply cstep_match in H. destruct H as (th' & s & coll & Hth' & Hp' & Hf & Hl & H).
  destruct H as [(w1 & n' & Hm & -> & ->)|(w1 & Hm & ->)]; rewrite (leave_thread _ _ _ _ _ _ Hth') in Hth; injection Hth as <-; cbn [t_pending] in Hp; [|discriminate].
  injection Hp as -> <- <-. destruct (match_chosen _ _ _ _ _ _ Hm) as (_ & x & Hx & Hacc & st & Hst & Hap).
  exists x. split; auto. split; auto. apply (open_iff false c n x C I Hx).
  assert (Hcx : nth_error (ctls (cw c)) n = Some (ctl_of x)) by (apply ctls_nth; auto). destruct I as [I _].
  change (w_seqs (enter (cw c) th')) with (w_seqs (cw c)) in Hst.
  rewrite (control_state_ok _ _ _ _ I Hcx) in Hst. injection Hst as <-.
  destruct (c_count (ctl_of x) =? c_max (ctl_of x))%Z; [contradiction|].
  destruct (control_is_applicable (w_seqs (cw c)) (ctl_of x)); [auto|contradiction].
Qed.

(** Counting an open expectation succeeds. *)
Lemma count_open c t th n ci ne x : CInv false c -> SI (cw c) -> nth_error (c_threads c) t = Some th -> t_pending th = Some (n, ci, ne) ->
  exp_at (cw c) n x -> eo_alive x = true -> open_for c n x -> exists c', cstep false c t ACount = CNext c' RUnit.
Proof.
  intros C I Hth Hp Hx Ha Ho. apply (open_iff false c n x C I Hx) in Ho.
  destruct (ci_pending _ _ C _ _ _ _ _ Hth Hp) as (y & Hy & [_ Hall]).
  assert (E : y = x) by (unfold exp_at in *; congruence). subst y.
  destruct (count_cases (enter (cw c) th) n ci ne x I Hx Ha (consume_asserts_ok _ _ Hall)) as [[E _]|(_ & w' & E & _)].
  - cbn [w_seqs enter set_uncaught set_frames] in E. congruence.
  - unfold cstep. rewrite Hth, Hp, E. cbn [embed]. eauto.
Qed.
