(** * FailProofs: the invariant of all programs in which things may fail. *)

From Verif Require Import Base Lib Sequence Control Signature Printer Reports Expectation Builder World WorldSpec
  SeqInv BuildSpec BuilderLemmas StepCases MatchLemmas CallSpec WorldInv ObjInv CountProofs History Failing.

(** ** Half-built expectations *)

Lemma tomb_not_describable l ctl x : describable (tomb_exp l ctl x) = false.
Proof. reflexivity. Qed.

Lemma winv_half w cls s ms coll b ss ctl mem l x : WInv w ->
  forallb (clause_ok w (length (sg_params s))) cls = true ->
  build s ms cls = BOk b ->
  control_new (w_seqs w) (b_times b) (b_seqs b) = Ret (ss, ctl) ->
  nth_error (w_colls w) coll = Some mem ->
  WInv (set_exps (set_seqs w ss) (w_exps w ++ [mkEObj (tomb_exp l ctl x) 0 false 0 tomb_sig])) /\ length ss = length (w_seqs w) /\
  map fst (c_seqs ctl) = clause_seqs cls /\ c_count ctl = 0%Z /\ c_min ctl = t_min (b_times b) /\ c_max ctl = t_max (b_times b).
Proof.
  intros I Hok Hb Hc Hm. destruct (wi_len _ I) as [Li Ld].
  destruct (build_ok _ _ _ _ Hb (clauses_times _ _ _ Hok)) as (Hv & Hbs & Hbp).
  assert (Hif : forall t, In t (b_seqs b) -> nth t (w_iface w) false = true).
  { intros t Ht. rewrite Hbs in Ht. eapply clauses_seqs; eauto. }
  destruct (control_new_ok _ _ (b_times b) (b_seqs b) (wi_s _ I) (bv_times _ Hv) (bv_max _ Hv) (bv_seqs _ Hv)) as
    [(ss' & c' & Hc' & Hmin & Hmax & Hcnt & Hseqs & Hls & Hat & Hout)|[Hc' _]]; [| |congruence].
  { intros t Ht. apply nth_error_ex. rewrite <- Li. apply nth_true_lt; auto. }
  rewrite Hc in Hc'. inversion Hc'; subst ss' c'. clear Hc'.
  set (y := mkEObj (tomb_exp l ctl x) 0 false 0 tomb_sig).
  set (w' := set_exps (set_seqs w ss) (w_exps w ++ [y])).
  assert (Hcts : ctls w' = ctls w ++ [ctl]).
  { unfold ctls, w'. simpl. rewrite map_app. reflexivity. }
  assert (Huse : forall k, seq_in_use w' k = seq_in_use w k).
  { intros k. unfold seq_in_use, w'. simpl. rewrite existsb_app. simpl. rewrite orb_false_r. reflexivity. }
  destruct (wi_fresh _ I (length (w_exps w)) (le_n _)) as [Hfa Hfu].
  split; [|split; [auto|split; [congruence|auto]]].
  constructor.
  - rewrite Hcts. simpl. apply (sinv_new (w_seqs w)); auto.
    + apply (wi_s _ I).
    + unfold ctl_ok. rewrite Hmin, Hmax, Hcnt. pose proof (bv_times _ Hv). pose proof (bv_max _ Hv). lia.
    + rewrite Hseqs. apply (bv_seqs _ Hv).
    + rewrite Hseqs. auto.
  - intros e z Hz. simpl. apply nth_error_snoc in Hz. destruct Hz as [[Hz _]|[-> ->]].
    + eapply (wi_count _ I); eauto.
    + rewrite Hfa. unfold ctl_of. simpl. auto.
  - intros e He. simpl in *. rewrite app_length in He. simpl in He. apply (wi_fresh _ I). lia.
  - simpl. rewrite Hls. auto.
  - intros k Hk. simpl in *. rewrite Hls in Hk. apply (wi_fresh_seq _ I); auto.
  - intros c lst Hl. simpl in *. rewrite members_snoc. simpl. rewrite app_nil_r. apply (wi_coll _ I); auto.
  - intros e z Hz. simpl. apply nth_error_snoc in Hz. destruct Hz as [[Hz _]|[-> ->]].
    + eapply (wi_collr _ I); eauto.
    + simpl. apply nth_error_lt in Hm. lia.
  - intros k Hk. change (w_sdead w') with (w_sdead w). simpl in Hk. rewrite Hls in Hk.
    rewrite Huse. apply (wi_dead _ I); auto.
  - intros e z Hz. apply nth_error_snoc in Hz. destruct Hz as [[Hz _]|[-> ->]].
    + eapply (wi_pol _ I); eauto.
    + reflexivity.
  - intros e z Hz. simpl. apply nth_error_snoc in Hz. destruct Hz as [[Hz _]|[-> ->]].
    + eapply (wi_unf _ I); eauto.
    + simpl. rewrite andb_false_r. auto.
  - intros k Hk. change (w_sdead w') with (w_sdead w).
    change (w_trace w') with (w_trace w). simpl in Hk. rewrite Hls in Hk.
    rewrite (wi_err _ I) by auto. destruct (nth k (w_sdead w) true) eqn:Hd; auto. simpl.
    replace (all_met (ctls w') k) with (all_met (ctls w) k); auto.
    unfold all_met. rewrite Hcts, filter_app. simpl. destruct (attached_in k ctl) eqn:Ha; [|rewrite app_nil_r; auto].
    exfalso. apply attached_in_spec in Ha. rewrite Hseqs in Ha. apply Hif in Ha.
    rewrite (wi_dead _ I) in Hd by auto. apply negb_true_iff in Hd.
    assert (seq_in_use w k = true) by (apply in_use_spec; auto). congruence.
Qed.

(** ** Expectations which can not be described any more *)

Lemma winv_bury w e x : WInv w -> (exists eo, exp_at w e eo /\ eo_alive eo = true) -> WInv (bury w e x).
Proof.
  intros I (eo & He & Ha). unfold bury. unfold exp_at in He. rewrite He.
  set (y := mkEObj (tomb_exp (e_loc (eo_exp eo)) (e_ctl (eo_exp eo)) x) (eo_coll eo) (eo_alive eo) (eo_ov eo) tomb_sig).
  set (w' := set_exps w (upd (w_exps w) e y)).
  assert (Hcts : ctls w' = ctls w).
  { unfold ctls, w'. simpl. rewrite map_upd. apply upd_same. change (ctl_of y) with (ctl_of eo). apply ctls_nth; auto. }
  assert (Hex : forall k z, exp_at w' k z -> (k = e /\ z = y) \/ (k <> e /\ exp_at w k z)).
  { intros k z Hz. unfold exp_at, w' in Hz. simpl in Hz. apply nth_error_upd in Hz. destruct Hz as [(-> & _ & ->)|(Hne & Hz)]; auto. }
  assert (Huse : forall k, seq_in_use w' k = seq_in_use w k).
  { intros k. unfold seq_in_use. f_equal. unfold w'. simpl. clear - He. revert e He. induction (w_exps w) as [|z l IH]; intros [|e] He; simpl in *; try discriminate.
    - inversion He; subst. reflexivity.
    - rewrite (IH _ He). reflexivity. }
  constructor.
  - rewrite Hcts. apply (wi_s _ I).
  - intros k z Hz. destruct (Hex _ _ Hz) as [[-> ->]|[_ Hz']]; [|eapply (wi_count _ I); eauto].
    change (ctl_of y) with (ctl_of eo). apply (wi_count _ I); auto.
  - intros k Hk. simpl in *. rewrite length_upd in Hk. apply (wi_fresh _ I); auto.
  - apply (wi_len _ I).
  - apply (wi_fresh_seq _ I).
  - intros c lst Hl. simpl in *. rewrite (wi_coll _ I _ _ Hl). unfold members. rewrite length_upd. apply filter_ext. intros k. unfold lives.
    destruct (Nat.eq_dec k e) as [->|Hne]; [rewrite He, (nth_error_upd_eq _ _ y (nth_error_lt _ _ _ He)); reflexivity|].
    rewrite nth_error_upd_neq by auto. reflexivity.
  - intros k z Hz. destruct (Hex _ _ Hz) as [[-> ->]|[_ Hz']]; [|eapply (wi_collr _ I); eauto]. simpl. eapply (wi_collr _ I); eauto.
  - intros k Hk. rewrite Huse. apply (wi_dead _ I); auto.
  - intros k z Hz. destruct (Hex _ _ Hz) as [[-> ->]|[_ Hz']]; [reflexivity|eapply (wi_pol _ I); eauto].
  - intros k z Hz. destruct (Hex _ _ Hz) as [[-> ->]|[_ Hz']]; [|eapply (wi_unf _ I); eauto].
    simpl. rewrite (wi_unf _ I _ _ He), Ha. reflexivity.
  - intros k Hk. rewrite Hcts. apply (wi_err _ I); auto.
Qed.

(** ** What a failing operation changes *)

Inductive fchange (w : world) (o : fop) (r : result) (w' : world) : Prop :=
| FcStep o' : o = FDone o' -> step w o' = Next w' r -> fchange w o r w'
| FcQuiet evs x : r = RThrow x -> w' = add_trace w evs -> forallb quiet evs = true -> fchange w o r w'
| FcHalf m ov ms cls l x s coll b ss ctl mem :
    o = FExpect m ov ms cls l AfterControl x -> r = RThrow x -> find_overload w m ov = inr (s, coll) ->
    length ms = length (sg_params s) -> forallb (clause_ok w (length (sg_params s))) cls = true ->
    build s ms cls = BOk b -> control_new (w_seqs w) (b_times b) (b_seqs b) = Ret (ss, ctl) ->
    nth_error (w_colls w) coll = Some mem -> clause_seqs cls <> [] ->
    w' = set_exps (set_seqs w ss) (w_exps w ++ [mkEObj (tomb_exp l ctl x) 0 false 0 tomb_sig]) -> fchange w o r w'
| FcEnd h e eo x :
    (o = FEndScope h x \/ exists src, o = FMoveAssign h src x /\ h <> src) ->
    nth_error (w_scoped w) h = Some (HOwns e) -> exp_at w e eo -> eo_alive eo = true -> exp_is_satisfied (eo_exp eo) = false ->
    (exists o', ended (bury w e x) o' = Some e /\ step (bury w e x) o' = Next w' r) -> fchange w o r w'.

Lemma bury_scoped w e x : w_scoped (bury w e x) = w_scoped w.
Proof. unfold bury. destruct (nth_error (w_exps w) e); reflexivity. Qed.

Lemma fstep_change w o w' r : WInv w -> fstep w o = Next w' r -> fchange w o r w'.
Proof.
  intros I H. destruct o as [o|x|m ov ms cls l st x|m ov args l i x|h x|dst src x]; cbn [fstep] in H.
  - eapply FcStep; eauto.
  - inversion H; subst. apply (FcQuiet _ _ _ _ [] x); auto. rewrite add_trace_nil. auto.
  - unfold do_expect_fails in H. destruct (find_overload w m ov) as [r0|[s coll]] eqn:Hf.
    { unfold find_overload in Hf. destruct (nth_error (w_mocks w) m) as [mk|]; [|inversion Hf; subst; discriminate].
      destruct (negb (mk_alive mk)); [inversion Hf; subst; discriminate|]. destruct (nth_error (mk_sigs mk) ov); [|inversion Hf; subst; discriminate].
      destruct (mk_colls mk) as [cs|]; [|inversion Hf; subst; discriminate]. destruct (nth_error cs ov); inversion Hf; subst; discriminate. }
    destruct ((length ms =? length (sg_params s)) && forallb (clause_ok w (length (sg_params s))) cls) eqn:Hok; [|discriminate]. cbn [negb] in H.
    apply andb_true_iff in Hok. destruct Hok as [Hl Hok]. apply Nat.eqb_eq in Hl.
    destruct (viable false false cls && finalizable s cls); [|discriminate]. cbn [negb] in H.
    destruct st.
    + inversion H; subst. apply (FcQuiet _ _ _ _ [] x); auto. rewrite add_trace_nil. auto.
    + destruct (build s ms cls) as [b| |]; try discriminate. destruct (user_made b); discriminate.
    + destruct (build s ms cls); try discriminate. destruct (control_new _ _ _) as [[ss ctl]| | |]; try discriminate. destruct (nth_error (w_colls w) coll); [|discriminate]. destruct (_ =? 0); discriminate.
    + destruct (build s ms cls) as [b| |] eqn:Hb; try discriminate. destruct (control_new _ _ _) as [[ss ctl]| | |] eqn:Hc; try discriminate.
      destruct (nth_error (w_colls w) coll) as [mem|] eqn:Hm; [|discriminate].
      destruct (winv_half w cls s ms coll b ss ctl mem l x I Hok Hb Hc Hm) as (_ & _ & Hs & _).
      inversion H; subst. unfold half_built. destruct (c_seqs ctl) as [|p t] eqn:Es.
      * apply (FcQuiet _ _ _ _ [] x); auto. rewrite add_trace_nil. auto.
      * eapply FcHalf; eauto. rewrite <- Hs. discriminate.
    + destruct (build s ms cls); try discriminate. destruct (control_new _ _ _) as [[ss ctl]| | |]; try discriminate. destruct (nth_error (w_colls w) coll); discriminate.
  - unfold do_call_fails in H. destruct (find_overload w m ov) as [r0|[s coll]] eqn:Hf.
    { unfold find_overload in Hf. destruct (nth_error (w_mocks w) m) as [mk|]; [|inversion Hf; subst; discriminate].
      destruct (negb (mk_alive mk)); [inversion Hf; subst; discriminate|]. destruct (nth_error (mk_sigs mk) ov); [|inversion Hf; subst; discriminate].
      destruct (mk_colls mk) as [cs|]; [|inversion Hf; subst; discriminate]. destruct (nth_error cs ov); inversion Hf; subst; discriminate. }
    destruct (negb _); [discriminate|]. destruct (nth_error (w_colls w) coll) as [mem|]; [|discriminate].
    destruct (lookup_exps w (firstn i (rev mem))) as [es|]; [|discriminate].
    destruct (match_loop _ _ _ _ es _) as [ml|y| |u]; try discriminate; unfold thrown in H; destruct (frontend_noexcept s); try discriminate;
      inversion H; subst.
    + rewrite emit_unhandled_add. eapply (FcQuiet _ _ _ _ _ x); eauto. apply quiet_unhandled.
    + eapply (FcQuiet _ _ _ _ [] y); auto. rewrite add_trace_nil. auto.
  - unfold do_end_fails in H. destruct (nth_error (w_scoped w) h) as [[e| |]|] eqn:Hh; try discriminate.
    destruct (nth_error (w_exps w) e) as [eo|] eqn:He; [|discriminate]. destruct (eo_alive eo) eqn:Ha; [|discriminate].
    destruct (exp_is_satisfied (eo_exp eo)) eqn:Hs; [discriminate|]. cbn [andb negb] in H.
    eapply FcEnd; eauto. exists (OEndScope h). split; auto. cbn [ended]. rewrite bury_scoped, Hh. reflexivity.
  - destruct (Nat.eqb_spec dst src) as [|Hne]; [discriminate|].
    unfold do_end_fails in H. destruct (nth_error (w_scoped w) dst) as [[e| |]|] eqn:Hh; try discriminate.
    destruct (nth_error (w_exps w) e) as [eo|] eqn:He; [|discriminate]. destruct (eo_alive eo) eqn:Ha; [|discriminate].
    destruct (exp_is_satisfied (eo_exp eo)) eqn:Hs; [discriminate|]. cbn [andb negb] in H.
    eapply FcEnd; eauto. exists (OMoveAssignScoped dst src). split; auto. cbn [ended]. rewrite bury_scoped, Hh.
    destruct (Nat.eqb_spec dst src); [congruence|reflexivity].
Qed.

(** ** The invariant *)

Theorem finv_step w o w' r : WInv w -> fstep w o = Next w' r -> WInv w'.
Proof.
  intros I H. pose proof (fstep_change _ _ _ _ I H) as C.
  destruct C as [o' E H1|evs x _ E Q|m ov ms cls l x s coll b ss ctl mem E _ Hf Hl Hok Hb Hc Hm Hs Ew|h e eo x E Hh He Ha Hsat (o' & Ho & Hst)].
  - eapply winv_step; eauto.
  - subst w'. eapply (winv_admin w _ evs); eauto.
  - subst w'. eapply winv_half; eauto.
  - eapply winv_step; [|exact Hst]. apply winv_bury; eauto.
Qed.

Theorem finv_run w ops w' : WInv w -> frun w ops w' -> WInv w'.
Proof. intros I H. induction H; auto. apply IHfrun. eapply finv_step; eauto. Qed.

Theorem finv w : freachable w -> WInv w.
Proof. intros [ops H]. eapply finv_run; eauto. apply winv_init. Qed.

(** ** What stays of an expectation *)

(** Limits and sequences. *)
Definition same_limits (x x' : eobj) : Prop := x_min x' = x_min x /\ x_max x' = x_max x /\ x_seqs x' = x_seqs x.

Lemma same_limits_trans x y z : same_limits x y -> same_limits y z -> same_limits x z.
Proof. unfold same_limits. intuition congruence. Qed.

Lemma static_limits x x' : same_static x x' -> same_limits x x'.
Proof. intros H. split; [|split]; [apply static_min|apply static_max|apply static_seqs]; auto. Qed.

Lemma static_describable x x' : same_static x x' -> describable (eo_exp x') = describable (eo_exp x).
Proof. intros (_ & _ & _ & _ & H & _). unfold describable. rewrite H. reflexivity. Qed.

Lemma bury_exps w e x k z : exp_at w k z -> exists z', exp_at (bury w e x) k z' /\ same_limits z z' /\ eo_alive z' = eo_alive z /\
  (k <> e -> describable (eo_exp z') = describable (eo_exp z)).
Proof.
  intros Hz. unfold exp_at in *. unfold bury. destruct (nth_error (w_exps w) e) as [eo|] eqn:He.
  - cbn [w_exps set_exps]. destruct (Nat.eq_dec k e) as [->|Hne].
    + rewrite He in Hz. inversion Hz; subst. rewrite nth_error_upd_eq by (eapply nth_error_lt; eauto). eexists. split; eauto. split; [repeat split|]. split; [auto|congruence].
    + rewrite nth_error_upd_neq by auto. exists z. repeat split; auto.
  - exists z. repeat split; auto.
Qed.

Lemma fstep_exps w o w' r : WInv w -> fstep w o = Next w' r -> forall e x, exp_at w e x ->
  exists x', exp_at w' e x' /\ same_limits x x' /\ (eo_alive x = false -> eo_alive x' = false /\ describable (eo_exp x') = describable (eo_exp x)).
Proof.
  intros I H e x Hx. pose proof (fstep_change _ _ _ _ I H) as C.
  destruct C as [o' E H1|evs y _ E Q|m ov ms cls l y s coll b ss ctl mem E _ Hf Hl Hok Hb Hc Hm Hs Ew|h k eo y E Hh He Ha Hsat (o' & Ho & Hst)].
  - destruct (step_exps _ _ _ _ I H1 _ _ Hx) as (x' & Hx' & S & A). exists x'. split; auto. split; [apply static_limits; auto|].
    intros Hd. rewrite A, Hd. split; auto. apply static_describable; auto.
  - subst w'. exists x. split; auto. repeat split; auto.
  - subst w'. exists x. split; [apply nth_error_snoc_old; auto|]. repeat split; auto.
  - destruct (bury_exps w k y e x Hx) as (z & Hz & Sz & Az & Dz).
    assert (I' : WInv (bury w k y)) by (apply winv_bury; eauto).
    destruct (step_exps _ _ _ _ I' Hst _ _ Hz) as (x' & Hx' & S & A). exists x'. split; auto.
    split; [eapply same_limits_trans; eauto; apply static_limits; auto|]. intros Hd. rewrite A, Az, Hd. split; auto.
    rewrite (static_describable _ _ S). apply Dz. intros ->. unfold exp_at in *. congruence.
Qed.

Lemma frun_exps w ops w' : WInv w -> frun w ops w' -> forall e x, exp_at w e x ->
  exists x', exp_at w' e x' /\ same_limits x x' /\ (eo_alive x = false -> eo_alive x' = false /\ describable (eo_exp x') = describable (eo_exp x)).
Proof.
  intros I H. induction H as [|w o w1 r ops w2 Hs Hr IH]; intros e x Hx.
  - exists x. repeat split; auto.
  - destruct (fstep_exps _ _ _ _ I Hs _ _ Hx) as (x1 & Hx1 & S1 & A1).
    destruct (IH (finv_step _ _ _ _ I Hs) _ _ Hx1) as (x2 & Hx2 & S2 & A2). exists x2. split; auto. split; [eapply same_limits_trans; eauto|].
    intros Hd. destruct (A1 Hd) as [D1 E1]. destruct (A2 D1) as [D2 E2]. split; auto. congruence.
Qed.

(** ** Who accepts calls *)

Lemma bury_trace w e x : w_trace (bury w e x) = w_trace w.
Proof. unfold bury. destruct (nth_error (w_exps w) e); reflexivity. Qed.

Lemma ended_no_call w o e : ended w o = Some e -> forall m ov args l, o <> OCall m ov args l.
Proof. intros H m ov args l ->. discriminate. Qed.

Lemma fstep_accepted w o w' r : WInv w -> fstep w o = Next w' r ->
  (forall e, accepted (w_trace w') e = accepted (w_trace w) e) \/
  (exists m ov args l s coll n x, o = FDone (OCall m ov args l) /\ candidate w coll (call_of s args l) n x /\
     forall e, accepted (w_trace w') e = accepted (w_trace w) e + if n =? e then 1 else 0).
Proof.
  intros I H. pose proof (fstep_change _ _ _ _ I H) as C.
  destruct C as [o' E H1|evs y _ E Q|m ov ms cls l y s coll b ss ctl mem E _ Hf Hl Hok Hb Hc Hm Hs Ew|h k eo y E Hh He Ha Hsat (o' & Ho & Hst)].
  - destruct (step_accepted_inv _ _ _ _ I H1) as [(evs & Et & Hn)|(m & ov & args & l & s & coll & n & x & mr & unh & Eo & _ & _ & Hc & Et & Hn)].
    + left. intros e. rewrite Et, accepted_app, Hn. lia.
    + right. subst o'. exists m, ov, args, l, s, coll, n, x. split; auto. split; auto. intros e. rewrite Et, !accepted_app, Hn, accepted_full. lia.
  - left. intros e. subst w'. cbn [w_trace add_trace]. rewrite accepted_app. destruct (quiet_counts _ Q e) as (-> & _). lia.
  - left. intros e. subst w'. reflexivity.
  - left. intros e. assert (I' : WInv (bury w k y)) by (apply winv_bury; eauto).
    destruct (step_accepted_inv _ _ _ _ I' Hst) as [(evs & Et & Hn)|(m & ov & args & l & s & coll & n & x & mr & unh & Eo & _)].
    + rewrite Et, accepted_app, Hn, bury_trace. lia.
    + exfalso. eapply ended_no_call; eauto.
Qed.

Lemma fdead_accepts_nothing w ops w' e x : WInv w -> frun w ops w' -> exp_at w e x -> eo_alive x = false ->
  accepted (w_trace w') e = accepted (w_trace w) e.
Proof.
  intros I H. revert I x. induction H as [|w o w1 r ops w2 Hs Hr IH]; intros I x Hx Ha; auto.
  destruct (fstep_exps _ _ _ _ I Hs _ _ Hx) as (x1 & Hx1 & _ & A1).
  rewrite (IH (finv_step _ _ _ _ I Hs) _ Hx1 (proj1 (A1 Ha))).
  destruct (fstep_accepted _ _ _ _ I Hs) as [->|(m & ov & args & l & s & coll & n & y & _ & ((L & La & _) & _) & ->)]; auto.
  destruct (Nat.eqb_spec n e) as [->|]; [|lia]. unfold exp_at in *. congruence.
Qed.

Lemma frun_app w ops1 w1 ops2 w2 : frun w ops1 w1 -> frun w1 ops2 w2 -> frun w (ops1 ++ ops2) w2.
Proof. intros H. induction H; intros; simpl; auto. econstructor; eauto. Qed.

(** A dead expectation below its minimum bars the later elements of its sequences. *)
Lemma fblocked w ops w' e x e' x' s : WInv w -> exp_at w e x -> eo_alive x = false ->
  (Z.of_nat (accepted (w_trace w) e) < x_min x)%Z -> In s (x_seqs x) ->
  frun w ops w' -> exp_at w' e' x' -> In s (x_seqs x') -> e < e' ->
  ~ applicable w' e' x' /\ accepted (w_trace w') e' = accepted (w_trace w) e'.
Proof.
  intros I Hx Ha Hm Hs Hrun Hx' Hs' Hlt.
  assert (N : forall v ops1 z', frun w ops1 v -> exp_at v e' z' -> In s (x_seqs z') -> ~ applicable v e' z').
  { intros v ops1 z' Q Hz' Hsz [_ Ap].
    destruct (frun_exps _ _ _ I Q _ _ Hx) as (y & Hy & (Sm & _ & Sq) & _).
    rewrite <- Sq in Hs. destruct (Ap s Hsz e y Hy Hs) as [B _]. specialize (B Hlt).
    rewrite Sm, (fdead_accepts_nothing _ _ _ _ _ I Q Hx Ha) in B. lia. }
  split; [eapply N; eauto|].
  assert (G : forall u ops1 ops2, frun w ops1 u -> frun u ops2 w' -> accepted (w_trace w') e' = accepted (w_trace u) e').
  { intros u ops1 ops2 Q1 Q2. revert ops1 Q1. induction Q2 as [|u o u1 r ops2 u2 Hst Q2 IH]; intros ops1 Q1; auto.
    pose proof (finv_run _ _ _ I Q1) as Iu.
    rewrite (IH Hrun Hx' (ops1 ++ [o])).
    - destruct (fstep_accepted _ _ _ _ Iu Hst) as [->|(m & ov & args & l & s0 & coll & n & y & _ & ((L & _) & _ & Ap) & ->)]; auto.
      destruct (Nat.eqb_spec n e') as [->|]; [|lia]. exfalso.
      apply (N _ _ y Q1 L); auto.
      destruct (frun_exps _ (o :: ops2) _ Iu ltac:(econstructor; eauto) _ _ L) as (z & Hz & (_ & _ & Sq) & _).
      unfold exp_at in *. rewrite Hx' in Hz. inversion Hz; subst z. rewrite <- Sq. auto.
    - eapply frun_app; eauto. econstructor; eauto. constructor. }
  apply (G w [] ops); auto. constructor.
Qed.
