(** * CountProofs: accepted calls, limits and satisfaction. *)

From Verif Require Import Base Lib Sequence Control Signature Printer Reports Expectation Builder BuildSpec World WorldSpec
  SeqInv BuilderLemmas BuildProofs StepCases MatchLemmas WorldInv ObjInv CallSpec CallProofs.

Lemma run_app w ops1 w1 ops2 w2 : run w ops1 w1 -> run w1 ops2 w2 -> run w (ops1 ++ ops2) w2.
Proof. intros H. induction H; simpl; auto. intros. econstructor; eauto. Qed.

Lemma run_one w o w' r : step w o = Next w' r -> run w [o] w'.
Proof. intros H. econstructor; eauto. constructor. Qed.

Lemma reachable_run w ops w' : reachable w -> run w ops w' -> reachable w'.
Proof. intros [ops0 H] H'. exists (ops0 ++ ops). eapply run_app; eauto. Qed.

Lemma reachable_step w o w' r : reachable w -> step w o = Next w' r -> reachable w'.
Proof. intros H H'. eapply reachable_run; eauto. eapply run_one; eauto. Qed.

Lemma reachable_init : reachable init.
Proof. exists []. constructor. Qed.

(** ** Traces only grow *)

Lemma step_trace w o w' r : step w o = Next w' r -> exists evs, w_trace w' = w_trace w ++ evs.
Proof.
  intros H. apply step_change in H. destruct H; subst; simpl; eauto.
  - exists []. rewrite app_nil_r. auto.
  - exists []. rewrite app_nil_r. auto.
  - destruct H as [sc ->]. simpl. eauto.
Qed.

Lemma run_trace w ops w' : run w ops w' -> exists evs, w_trace w' = w_trace w ++ evs.
Proof.
  intros H. induction H as [|w o w1 r ops w2 Hs Hr [evs2 IH]].
  - exists []. rewrite app_nil_r. auto.
  - destruct (step_trace _ _ _ _ Hs) as [evs1 E]. exists (evs1 ++ evs2). rewrite IH, E, app_assoc. auto.
Qed.

Lemma accepted_mono w ops w' e : run w ops w' -> accepted (w_trace w) e <= accepted (w_trace w') e.
Proof. intros H. destruct (run_trace _ _ _ H) as [evs ->]. rewrite accepted_app. lia. Qed.

(** ** C01 *)

Lemma max_bound w e x : reachable w -> exp_at w e x -> (Z.of_nat (accepted (w_trace w) e) <= x_max x)%Z.
Proof.
  intros Hr Hx. pose proof (winv_reachable _ Hr) as I. rewrite <- (wi_count _ I _ _ Hx).
  destruct (si_ok _ _ (wi_s _ I) _ _ (ctls_nth _ _ _ Hx)) as (_ & _ & H). unfold x_max. fold (ctl_of x). lia.
Qed.

Lemma declared_expectation ops0 w0 m ov ms cls l w1 ops w2 :
  run init ops0 w0 -> step w0 (OExpect m ov ms cls l) = Next w1 RUnit -> run w1 ops w2 ->
  exists s coll x, find_overload w0 m ov = inr (s, coll) /\ exp_at w2 (length (w_exps w0)) x /\ as_declared x s ov ms cls l /\ eo_coll x = coll.
Proof.
  intros H0 H1 H2. assert (R0 : reachable w0) by (exists ops0; auto).
  destruct (expect_next _ _ _ _ _ _ _ _ H1) as (s & coll & Hf & _ & _ & [(_ & _ & x & Hx & Hd & Hc & _)|(_ & Hc & _)]); [|discriminate].
  pose proof (winv_step _ _ _ _ (winv_reachable _ R0) H1) as I1.
  destruct (run_static _ _ _ I1 H2 _ _ Hx) as (x' & Hx' & Hst). exists s, coll, x'. split; auto. split; auto. split.
  - eapply as_declared_static; eauto.
  - destruct Hst as (E & _). congruence.
Qed.

Lemma declared_bound ops0 w0 m ov ms cls l w1 ops w2 :
  run init ops0 w0 -> step w0 (OExpect m ov ms cls l) = Next w1 RUnit -> run w1 ops w2 ->
  (Z.of_nat (accepted (w_trace w2) (length (w_exps w0))) <= snd (declared_limits cls))%Z.
Proof.
  intros H0 H1 H2. destruct (declared_expectation _ _ _ _ _ _ _ _ _ _ H0 H1 H2) as (s & coll & x & _ & Hx & Hd & _).
  destruct Hd as (_ & Hmax & _). rewrite <- Hmax. apply max_bound; auto.
  exists (ops0 ++ (OExpect m ov ms cls l :: ops)). eapply run_app; eauto. econstructor; eauto.
Qed.

(** ** C02 *)

Definition in_limits (w : world) (e : nat) (x : eobj) : bool :=
  (x_min x <=? Z.of_nat (accepted (w_trace w) e))%Z && (Z.of_nat (accepted (w_trace w) e) <=? x_max x)%Z.

Lemma satisfied_observed w h e x : reachable w -> nth_error (w_scoped w) h = Some (HOwns e) -> exp_at w e x ->
  step w (OSatisfied h) = Next w (RBool (in_limits w e x)).
Proof.
  intros Hr Hh Hx. pose proof (winv_reachable _ Hr) as I. pose proof (oinv_reachable _ Hr) as O.
  destruct (oi_own _ O _ _ Hh) as (x' & Hx' & Ha). unfold exp_at in *. rewrite Hx in Hx'. inversion Hx'; subst x'.
  simpl. rewrite Hh, Hx, Ha. do 2 f_equal. unfold exp_is_satisfied, control_is_satisfied, in_limits, x_min, x_max.
  fold (ctl_of x). rewrite (wi_count _ I _ _ Hx). replace (forallb policy_is_satisfied _) with true; [apply andb_true_r|].
  symmetry. apply forallb_forall. reflexivity.
Qed.

Lemma satisfied_owner w h b : reachable w -> step w (OSatisfied h) = Next w (RBool b) ->
  exists e x, nth_error (w_scoped w) h = Some (HOwns e) /\ exp_at w e x /\ eo_alive x = true /\ b = in_limits w e x.
Proof.
  intros Hr H. pose proof H as H'. simpl in H. destruct (nth_error (w_scoped w) h) as [[e| |]|] eqn:Hh; try discriminate.
  destruct (nth_error (w_exps w) e) as [x|] eqn:Hx; [|discriminate]. destruct (eo_alive x) eqn:Ha; [|discriminate].
  exists e, x. repeat split; auto. rewrite (satisfied_observed _ _ _ _ Hr Hh Hx) in H'. inversion H'; auto.
Qed.

Lemma satisfied_stays w h e ops w' h' : reachable w -> nth_error (w_scoped w) h = Some (HOwns e) ->
  step w (OSatisfied h) = Next w (RBool true) -> run w ops w' -> nth_error (w_scoped w') h' = Some (HOwns e) ->
  step w' (OSatisfied h') = Next w' (RBool true).
Proof.
  intros Hr Hh Hs Hrun Hh'. destruct (satisfied_owner _ _ _ Hr Hs) as (e0 & x & Hh0 & Hx & _ & Hb).
  rewrite Hh in Hh0. inversion Hh0; subst e0.
  destruct (run_static _ _ _ (winv_reachable _ Hr) Hrun _ _ Hx) as (x' & Hx' & Hst).
  pose proof (reachable_run _ _ _ Hr Hrun) as Hr'.
  rewrite (satisfied_observed _ _ _ _ Hr' Hh' Hx'). do 2 f_equal. unfold in_limits in *.
  symmetry in Hb. apply andb_true_iff in Hb. destruct Hb as [Hb _]. apply Z.leb_le in Hb.
  destruct Hst as (_ & _ & _ & _ & _ & _ & Emin & Emax & _). apply andb_true_iff; rewrite !Z.leb_le. split.
  - rewrite Emin. pose proof (accepted_mono _ _ _ e Hrun). lia.
  - apply max_bound; auto.
Qed.

(** ** C06 *)

Lemma att_report_clean rp u ss c x m : att rp u ss c x = Ret (AttemptReport m) -> clean x c.
Proof.
  unfold att, make_match_report. destruct (exp_matches ss x c) as [m'|y| |v] eqn:E; simpl; try discriminate.
  - intros _. apply clean_reports. unfold exp_matches in E. destruct (control_state_of ss (e_ctl x)); simpl in E; try discriminate.
    destruct (omap (policy_report_of c) (e_policies x)); simpl in E; try discriminate. eauto.
  - destruct (exp_report_of ss x); simpl; try discriminate. destruct (rp _ u); simpl; discriminate.
Qed.

Lemma call_effect_inv w m ov args l w' r : WInv w -> step w (OCall m ov args l) = Next w' r ->
  (exists s coll n x mr unh, r = RUnit /\ find_overload w m ov = inr (s, coll) /\ length args = length (sg_params s) /\
     candidate w coll (call_of s args l) n x /\
     w_trace w' = w_trace w ++ unh ++ [EvReport (w_rid w) (RFull (make_call_report (call_of s args l)) mr) [n]] /\
     forallb quiet unh = true /\
     w_exps w' = upd (w_exps w) n (mkEObj (with_ctl (eo_exp x) (bump (ctl_of x))) (eo_coll x) (eo_alive x) (eo_ov x) (eo_sig x)) /\
     w_scoped w' = w_scoped w /\ w_mocks w' = w_mocks w /\ w_colls w' = w_colls w /\ w_iface w' = w_iface w /\ w_sdead w' = w_sdead w /\
     w_frames w' = mkFrame n (side_effects (e_policies (eo_exp x))) false false (sg_noexcept s) :: w_frames w) \/
  (r = RThrow EReporter /\ exists evs, forallb quiet evs = true /\ w' = only_reports w evs).
Proof.
  intros I H. simpl in H. apply do_call_next in H.
  destruct H as (s & coll & Hf & Hlen & H). apply handle_call_next in H. destruct H as (lst & es & ml & Hl & Hes & Hml & Hcr).
  inversion Hcr; subst.
  - left. destruct (chosen_alive _ _ _ _ _ _ _ _ _ _ I Hl Hes Hml H H0) as (x & Hlive & Hatt & Hev & _).
    pose proof Hlive as (Hx & Ha & Hc). unfold exp_at in Hx. rewrite H2 in Hx. inversion Hx; subst x.
    pose proof (consume_applicable _ _ _ H3) as Happ.
    destruct (control_consume_ok _ _ _ _ (wi_s _ I) (ctls_nth _ _ _ H2) Happ) as (ss' & Hc' & _).
    unfold ctl_of in Hc'. rewrite H3 in Hc'. inversion Hc'; subst.
    exists s, (eo_coll eo), n, eo, m0, (map (unhandled_event (w_rid w) (call_of s args l)) (ml_unhandled ml)).
    split; auto. split; auto. split; auto. split.
    + split; auto. destruct (att_clean _ _ _ (call_of s args l) I H2 (att_report_clean _ _ _ _ _ _ Hatt)) as (m' & Hm' & _ & Hfull & _).
      rewrite Hatt in Hm'. inversion Hm'; subst m'. apply Hfull; auto.
    + simpl. repeat split; auto. apply quiet_unhandled.
  - right. split; auto. eexists. split; [|reflexivity]. rewrite forallb_app, quiet_unhandled. cbn [forallb]. rewrite quiet_fail. reflexivity.
Qed.

Lemma call_effect w m ov args l w' r : reachable w -> step w (OCall m ov args l) = Next w' r ->
  (exists s coll n x mr unh, r = RUnit /\ find_overload w m ov = inr (s, coll) /\ length args = length (sg_params s) /\
     candidate w coll (call_of s args l) n x /\
     w_trace w' = w_trace w ++ unh ++ [EvReport (w_rid w) (RFull (make_call_report (call_of s args l)) mr) [n]] /\
     forallb quiet unh = true /\
     w_exps w' = upd (w_exps w) n (mkEObj (with_ctl (eo_exp x) (bump (ctl_of x))) (eo_coll x) (eo_alive x) (eo_ov x) (eo_sig x)) /\
     w_scoped w' = w_scoped w /\ w_mocks w' = w_mocks w /\ w_colls w' = w_colls w /\ w_iface w' = w_iface w /\ w_sdead w' = w_sdead w /\
     w_frames w' = mkFrame n (side_effects (e_policies (eo_exp x))) false false (sg_noexcept s) :: w_frames w) \/
  (r = RThrow EReporter /\ exists evs, forallb quiet evs = true /\ w' = only_reports w evs).
Proof. intros Hr. apply call_effect_inv, winv_reachable; auto. Qed.

Lemma matched_counts w m ov args l w' : reachable w -> step w (OCall m ov args l) = Next w' RUnit ->
  exists s coll n x, find_overload w m ov = inr (s, coll) /\ candidate w coll (call_of s args l) n x /\
    (exists mr unh, w_trace w' = w_trace w ++ unh ++ [EvReport (w_rid w) (RFull (make_call_report (call_of s args l)) mr) [n]] /\
        forall e, accepted unh e = 0) /\
    (forall e, accepted (w_trace w') e = accepted (w_trace w) e + (if n =? e then 1 else 0)) /\
    w_scoped w' = w_scoped w /\
    (forall e, e <> n -> nth_error (w_exps w') e = nth_error (w_exps w) e).
Proof.
  intros Hr H. destruct (call_effect _ _ _ _ _ _ _ Hr H) as [(s & coll & n & x & mr & unh & _ & Hf & _ & Hc & Ht & Hq & Hx & Hsc & _)|[E _]]; [|discriminate].
  exists s, coll, n, x. split; auto. split; auto. split.
  - exists mr, unh. split; auto. intros e. destruct (quiet_counts _ Hq e) as [A _]. auto.
  - split; [|split; auto].
    + intros e. rewrite Ht, !accepted_app, accepted_full. destruct (quiet_counts _ Hq e) as [A _]. lia.
    + intros e He. rewrite Hx. apply nth_error_upd_neq; auto.
Qed.

Lemma matched_others w m ov args l w' h e b : reachable w -> step w (OCall m ov args l) = Next w' RUnit ->
  nth_error (w_scoped w) h = Some (HOwns e) -> accepted (w_trace w') e = accepted (w_trace w) e ->
  (step w (OSatisfied h) = Next w (RBool b) <-> step w' (OSatisfied h) = Next w' (RBool b)).
Proof.
  intros Hr H Hh He. destruct (matched_counts _ _ _ _ _ _ Hr H) as (s & coll & n & x & _ & _ & _ & Hcnt & Hsc & Hx).
  assert (Hne : e <> n). { intros ->. rewrite Hcnt, Nat.eqb_refl in He. lia. }
  specialize (Hx e Hne). simpl. rewrite Hsc, Hh, Hx. destruct (nth_error (w_exps w) e) as [y|]; [|split; discriminate].
  destruct (eo_alive y); [|split; discriminate]. split; intros E; inversion E; subst; auto.
Qed.

Lemma failed_counts w m ov args l w' y : reachable w -> step w (OCall m ov args l) = Next w' (RThrow y) ->
  exists evs, w' = only_reports w evs /\ forall e, accepted (w_trace w') e = accepted (w_trace w) e.
Proof.
  intros Hr H. destruct (call_effect _ _ _ _ _ _ _ Hr H) as [(s & coll & n & x & mr & unh & E & _)|[E (evs & Hq & ->)]]; [discriminate|].
  exists evs. split; auto. intros e. simpl. rewrite accepted_app. destruct (quiet_counts _ Hq e) as [A _]. lia.
Qed.

(** ** C24 *)

Lemma exhausted_stays w e x ops w' : reachable w -> exp_at w e x -> Z.of_nat (accepted (w_trace w) e) = x_max x ->
  run w ops w' -> accepted (w_trace w') e = accepted (w_trace w) e.
Proof.
  intros Hr Hx He Hrun. destruct (run_static _ _ _ (winv_reachable _ Hr) Hrun _ _ Hx) as (x' & Hx' & Hst).
  pose proof (max_bound _ _ _ (reachable_run _ _ _ Hr Hrun) Hx') as Hb. pose proof (accepted_mono _ _ _ e Hrun) as Hm.
  destruct Hst as (_ & _ & _ & _ & _ & _ & _ & Emax & _). lia.
Qed.

Lemma nested_no_rematch w m ov args l w1 n x ops w2 : reachable w ->
  step w (OCall m ov args l) = Next w1 RUnit -> accepted (w_trace w1) n = S (accepted (w_trace w) n) ->
  exp_at w n x -> Z.of_nat (S (accepted (w_trace w) n)) = x_max x ->
  run w1 ops w2 -> accepted (w_trace w2) n = accepted (w_trace w1) n.
Proof.
  intros Hr Hs Hn Hx Hmax Hrun. pose proof (reachable_step _ _ _ _ Hr Hs) as Hr1.
  destruct (step_exps _ _ _ _ (winv_reachable _ Hr) Hs _ _ Hx) as (x1 & Hx1 & Hst & _).
  eapply exhausted_stays; eauto. destruct Hst as (_ & _ & _ & _ & _ & _ & _ & Emax & _). rewrite Emax, Hn. auto.
Qed.

(** The same call made in a program with other calls in progress. *)
Definition in_frames (fs : list frame) (s : stepped) : stepped :=
  match s with
  | Next w' RUnit => Next (set_frames w' (firstn 1 (w_frames w') ++ fs)) RUnit
  | Next w' r => Next (set_frames w' fs) r
  | other => other
  end.

Lemma lookup_exps_ext w w' l : w_exps w = w_exps w' -> lookup_exps w l = lookup_exps w' l.
Proof. intros H. induction l as [|n l IH]; simpl; auto. rewrite H, IH. reflexivity. Qed.

Lemma emit_unhandled_parts w c l : exists evs, emit_unhandled w c l =
  mkWorld (w_seqs w) (w_iface w) (w_sdead w) (w_exps w) (w_colls w) (w_mocks w) (w_scoped w) (w_frames w)
    (w_rid w) (w_reporter w) (w_uncaught w) (w_trace w ++ evs).
Proof. rewrite emit_unhandled_add. eexists. reflexivity. Qed.

Lemma call_frames w fs m ov args l : step (set_frames w fs) (OCall m ov args l) = in_frames fs (step w (OCall m ov args l)).
Proof.
  simpl. unfold do_call. change (find_overload (set_frames w fs) m ov) with (find_overload w m ov).
  destruct (find_overload w m ov) as [r|[s coll]] eqn:Hf.
  { unfold find_overload in Hf. destruct (nth_error (w_mocks w) m) as [mk|]; [|inversion Hf; subst; reflexivity].
    destruct (negb (mk_alive mk)); [inversion Hf; subst; reflexivity|].
    destruct (nth_error (mk_sigs mk) ov); [|inversion Hf; subst; reflexivity].
    destruct (mk_colls mk) as [cs|]; [|inversion Hf; subst; reflexivity].
    destruct (nth_error cs ov); inversion Hf; subst; reflexivity. }
  destruct (negb (length args =? length (sg_params s))); [reflexivity|].
  unfold handle_call. change (w_colls (set_frames w fs)) with (w_colls w).
  destruct (nth_error (w_colls w) coll) as [lst|]; [|reflexivity].
  rewrite (lookup_exps_ext (set_frames w fs) w) by reflexivity.
  destruct (lookup_exps w (rev lst)) as [es|]; [|reflexivity].
  change (w_reporter (set_frames w fs)) with (w_reporter w). change (w_uncaught (set_frames w fs)) with (w_uncaught w).
  change (w_seqs (set_frames w fs)) with (w_seqs w).
  set (c := mkCall _ _ _ _ _ _).
  destruct (match_loop (w_reporter w) (w_uncaught w) (w_seqs w) c es (mkLists [] [] [] [])) as [ml|y| |v]; try reflexivity.
  2:{ unfold thrown. destruct (frontend_noexcept s); reflexivity. }
  rewrite !emit_unhandled_add. unfold react, emit_report, emit, thrown.
  destruct (ml_full ml) as [|first others].
  - destruct (ml_inapplicable ml); cbn [w_reporter w_uncaught add_trace set_frames];
      (destruct (w_reporter w _ (w_uncaught w)); [reflexivity| |reflexivity]); destruct (frontend_noexcept s); reflexivity.
  - destruct (pick_best first others) as [[n mr]|y| |v]; try reflexivity; [|destruct (frontend_noexcept s); reflexivity].
    cbn [w_reporter w_uncaught add_trace set_frames]. destruct (w_reporter w _ (w_uncaught w)); try reflexivity.
    cbn [w_exps w_seqs w_frames add_trace set_frames set_exps set_seqs]. destruct (nth_error (w_exps w) n) as [eo|]; [|reflexivity].
    destruct (control_consume (w_seqs w) (e_ctl (eo_exp eo))) as [[ss ctl]|y| |v]; try reflexivity; [|destruct (frontend_noexcept s); reflexivity].
    destruct (consume_asserts (e_policies (eo_exp eo)) c); reflexivity.
Qed.
