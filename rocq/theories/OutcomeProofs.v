(** * OutcomeProofs: the outcome of a call, and what its failure reports list. *)

From Coq Require Import Sorted.
From Verif Require Import Base Lib Sequence Control Signature Printer Reports Expectation Builder BuildSpec World WorldSpec CallSpec
  SeqInv BuilderLemmas StepCases MatchLemmas WorldInv ObjInv CallProofs BuildProofs CountProofs.

(** ** Vocabulary *)

(** The three reports which are the outcome of a call. *)
Definition is_outcome (ev : event) : bool :=
  match ev with
  | EvReport _ (RFull _ _) _ | EvReport _ (RInapplicable _ _) _ | EvReport _ (RNoMatch _ _) _ => true
  | _ => false
  end.

(** A requirement holds for a call, written down without the functions of the library. *)
Definition holds (p : policy) (c : call_info) : Prop :=
  match p with
  | PCategory x => x = CatAny \/ ci_category c = CatAny \/ ci_category c = x
  | PConstness x => x = ConstAny \/ ci_constness c = ConstAny \/ ci_constness c = x
  | PArg i m proj => exists v y, nth_error (ci_args c) i = Some v /\ proj v = UOk y /\ m_matches m y = UOk true
  | PSideEffect _ => True
  end.

Lemma holds_spec p c b : policy_matches p c = Ret b -> (b = true <-> holds p c).
Proof.
  destruct p as [x|x|i m proj|n]; simpl; intros H.
  - inversion H; subst. destruct x, (ci_category c); vm_compute; intuition congruence.
  - inversion H; subst. destruct x, (ci_constness c); vm_compute; intuition congruence.
  - destruct (nth_error (ci_args c) i) as [v|]; [|discriminate]. destruct (proj v) as [y|] eqn:Ep; simpl in H; [|discriminate].
    destruct (m_matches m y) as [b'|] eqn:Em; simpl in H; inversion H; subst. split.
    + intros ->. exists v, y. auto.
    + intros (v' & y' & E1 & E2 & E3). inversion E1; subst. rewrite Ep in E2. inversion E2; subst. rewrite Em in E3. inversion E3; auto.
  - inversion H; subst. tauto.
Qed.

Lemma holds_true p c : policy_matches p c = Ret true <-> holds p c.
Proof.
  split; [intros H; apply (holds_spec p c true H); auto|].
  destruct p as [x|x|i m proj|n]; simpl; auto.
  - intros H. f_equal. destruct x, (ci_category c); vm_compute; intuition congruence.
  - intros H. f_equal. destruct x, (ci_constness c); vm_compute; intuition congruence.
  - intros (v & y & -> & H1 & H2). rewrite H1. simpl. rewrite H2. reflexivity.
Qed.

(** ** The number of outcome reports *)

Lemma unhandled_no_outcome w coll c unh : unhandled_reports w coll c unh -> filter is_outcome unh = [].
Proof.
  intros (who & _ & H). induction H as [|e ev who unh (x & r & y & _ & _ & _ & ->) H IH]; auto.
Qed.

Lemma unhandled_events_no_outcome rid c l : filter is_outcome (map (unhandled_event rid c) l) = [].
Proof. induction l as [|[n [r x]] l IH]; auto. Qed.

Lemma outcome_next w m ov args l w' r : reachable w -> step w (OCall m ov args l) = Next w' r ->
  exists s coll evs rep who, find_overload w m ov = inr (s, coll) /\ length args = length (sg_params s) /\
    w_trace w' = w_trace w ++ evs /\ filter is_outcome evs = [EvReport (w_rid w) rep who] /\
    let c := call_of s args l in
    ((exists n x mr, r = RUnit /\ rep = RFull (make_call_report c) mr /\ who = [n] /\ candidate w coll c n x) \/
     (r = RThrow EReporter /\ exists ms, (rep = RInapplicable (make_call_report c) ms \/ rep = RNoMatch (make_call_report c) ms))).
Proof.
  intros Hr H. pose proof H as H0.
  destruct (call_effect _ _ _ _ _ _ _ Hr H0) as [(s & coll & n & x & mr & unh & -> & Hf & Hlen & Hc & _)|[-> _]].
  - simpl in H. apply do_call_next in H. destruct H as (s' & coll' & Hf' & _ & H). rewrite Hf in Hf'. inversion Hf'; subst s' coll'.
    apply handle_call_next in H. destruct H as (lst & es & ml & Hl & Hes & Hml & Hcr). inversion Hcr; subst.
    exists s, coll. do 3 eexists. split; [auto|]. split; [auto|]. split; [reflexivity|]. split.
    { rewrite filter_app, unhandled_events_no_outcome. reflexivity. }
    left. destruct (call_effect _ _ _ _ _ _ _ Hr H0) as [(s2 & coll2 & n2 & x2 & mr2 & unh2 & _ & Hf2 & _ & Hc2 & Ht & _)|[E _]]; [|discriminate].
    rewrite Hf in Hf2. inversion Hf2; subst s2 coll2. cbn [w_trace accept_world add_trace set_frames set_exps set_seqs] in Ht.
    apply app_inv_head in Ht. apply app_inj_tail in Ht. destruct Ht as [_ Ht]. inversion Ht; subst.
    exists n2, x2, mr2. auto.
  - simpl in H. apply do_call_next in H. destruct H as (s & coll & Hf & Hlen & H).
    apply handle_call_next in H. destruct H as (lst & es & ml & Hl & Hes & Hml & Hcr). inversion Hcr; subst.
    exists s, coll. eexists. exists (fail_report (call_of s args l) ml), (fail_who ml). split; [auto|]. split; [auto|]. split; [reflexivity|]. split.
    { rewrite filter_app, unhandled_events_no_outcome. cbn [app filter is_outcome]. unfold fail_report. destruct (ml_inapplicable ml); reflexivity. }
    right. split; auto. unfold fail_report. destruct (ml_inapplicable ml); eauto.
Qed.

(** ** Content of failure reports *)

Lemma forall2_matching c ps rs :
  Forall2 (fun p r => policy_matches p c = Ret (pr_matching r) /\ policy_describe p = Ret (pr_desc r)) ps rs ->
  (forallb pr_matching rs = true <-> forall p, In p ps -> policy_matches p c = Ret true) /\
  (existsb (fun r => negb (pr_matching r)) rs = true <-> exists p, In p ps /\ policy_matches p c = Ret false).
Proof.
  intros H. assert (H' : Forall2 (fun p r => policy_report_of c p = Ret r) ps rs).
  { induction H as [|p r ps rs [H1 H2] H IH]; constructor; auto. unfold policy_report_of. rewrite H1, H2. destruct r; reflexivity. }
  destruct (reports_matching _ _ _ H') as [A B]. split; auto. rewrite <- B. clear. induction rs as [|r rs IH]; simpl; [split; discriminate|].
  destruct (pr_matching r); simpl; auto. tauto.
Qed.

(** A listed expectation which accepts but is not applicable evaluates to "inapplicable", and so on: this is what
    DefaultReporter asserts (Reporter.hpp 428-434, 454-460, 479). *)
Lemma evaluate_true w c e x mr : true_report w c e x mr ->
  (accepts (eo_exp x) c -> evaluate_match_report mr = match mr_state mr with StApplicable _ _ _ _ => MatchFull | _ => MatchInapplicable end) /\
  (rejects (eo_exp x) c -> evaluate_match_report mr = MatchNone /\ existsb (fun r => negb (pr_matching r)) (mr_policies mr) = true).
Proof.
  intros (_ & _ & _ & H). destruct (forall2_matching _ _ _ H) as [A B]. split.
  - intros [_ Ha]. unfold evaluate_match_report. rewrite (proj2 A Ha). reflexivity.
  - intros [_ Ha]. split; [|apply B; auto]. unfold evaluate_match_report.
    destruct (forallb pr_matching (mr_policies mr)) eqn:E; auto. exfalso.
    destruct Ha as (p & Hp & Hf). rewrite (proj1 A eq_refl p Hp) in Hf. discriminate.
Qed.

Lemma true_state_applicable w e x st : true_state w e x st ->
  (match st with StApplicable _ _ _ _ => True | _ => False end <-> applicable w e x).
Proof.
  unfold true_state, applicable. destruct st as [mn mx k rs ts|mn mx k rs|mn mx k seqs].
  - intros (_ & _ & _ & H1 & Hne & _ & H2 & _). split; [contradiction|]. intros [_ Ha].
    destruct ts as [|t ts]; [contradiction|]. destruct (proj1 (H2 t)) as [Hi Hn]; [left; auto|]. apply Hn. exact (Ha t Hi).
  - intros (_ & _ & _ & H1 & _ & H2). split; auto.
  - intros (_ & _ & _ & H1 & _). split; [contradiction|]. intros [Ha _]. lia.
Qed.

(** ** A throwing description *)

Lemma att_undescribed n w e x c : WInv w -> exp_at w e x -> forallb (policy_ok n) (e_policies (eo_exp x)) = true -> length (ci_args c) = n ->
  ~ clean (eo_exp x) c -> ~ describes (eo_exp x) ->
  att (w_reporter w) (w_uncaught w) (w_seqs w) c (eo_exp x) = Terminate.
Proof.
  intros I Hx Hok Hlen Hnc Hnd. unfold att, make_match_report, exp_matches, exp_report_of.
  destruct (state_true w e x I Hx) as (st & Hst & _). unfold ctl_of in Hst. rewrite Hst. cbn [obind].
  destruct (omap_total (policy_report_of c) (e_policies (eo_exp x))) as [[rs Hrs]|[y Hy]].
  - intros p Hp. rewrite forallb_forall in Hok. eapply policy_report_ok; eauto.
  - exfalso. apply Hnc. apply clean_reports. eauto.
  - rewrite Hy. cbn [obind].
    destruct (omap_total policy_describe (e_policies (eo_exp x))) as [[ds Hds]|[z Hz]].
    + intros p Hp. apply policy_describe_ok.
    + exfalso. apply Hnd. intros p Hp. apply omap_ret_inv in Hds. clear -Hds Hp. induction Hds; [contradiction|]. destruct Hp as [<-|Hp]; eauto.
    + rewrite Hz. reflexivity.
Qed.

(** With a reporter that accepts unhandled exception reports, every attempt either succeeds or terminates. *)
Lemma match_loop_terminates rp u ss c es : forall acc,
  (forall p, In p es -> (exists a, att rp u ss c (snd p) = Ret a) \/ att rp u ss c (snd p) = Terminate) ->
  (exists p, In p es /\ att rp u ss c (snd p) = Terminate) -> match_loop rp u ss c es acc = Terminate.
Proof.
  induction es as [|[n x] es IH]; intros acc Hall (p & Hp & Ht); [contradiction|]. cbn [match_loop].
  destruct (Hall (n, x) (or_introl eq_refl)) as [[a Ha]|Ha]; unfold att in Ha; cbn [snd] in Ha; rewrite Ha; cbn [obind]; auto.
  apply IH.
  - intros q Hq. apply Hall. right; auto.
  - destruct Hp as [<-|Hp]; [unfold att in Ht; cbn [snd] in Ht; congruence|]. eauto.
Qed.

Lemma describes_dec x : describes x \/ ~ describes x.
Proof. rewrite describes_b. destruct (describable x); auto. Qed.

Lemma undescribed_stops w m ov args l s coll e x : call_setting w m ov args s coll ->
  throwing w coll (call_of s args l) e x -> ~ describes (eo_exp x) ->
  (forall r y, w_reporter w (RUnhandled (make_call_report (call_of s args l)) r y) (w_uncaught w) = Returns) ->
  step w (OCall m ov args l) = Stop.
Proof.
  intros (Hr & Hf & Hlen) [Hlive Hnc] Hnd Hunh. pose proof (winv_reachable _ Hr) as I. pose proof (oinv_reachable _ Hr) as O.
  set (c := call_of s args l) in *. pose proof (find_overload_coll _ _ _ _ _ O Hf) as Hcoll.
  destruct (call_entries w coll I Hcoll) as (lst & es & Hl & Hes & _ & Hin).
  assert (Hpol : forall k y, live_in w coll k y -> forallb (policy_ok (length args)) (e_policies (eo_exp y)) = true).
  { intros k y Hy. destruct (overload_live_params _ _ _ _ _ I O Hf _ _ Hy) as [Hd _]. rewrite Hlen, <- (decay_params _ _ Hd).
    destruct Hy as [Hy _]. exact (wi_pol _ I _ _ Hy). }
  simpl. unfold do_call. rewrite Hf, Hlen, Nat.eqb_refl. cbn [negb]. fold (call_of s args l). fold c. unfold handle_call. rewrite Hl, Hes.
  rewrite (match_loop_terminates (w_reporter w) (w_uncaught w) (w_seqs w) c es); auto.
  - intros [k y0] Hk. cbn [snd]. apply Hin in Hk. destruct Hk as (y & Hy & ->). pose proof Hy as (Hya & _).
    destruct (clean_dec (length args) (eo_exp y) c (Hpol _ _ Hy) eq_refl) as [Hc|Hc].
    + destruct (att_clean w k y c I Hya Hc) as (mr & H & _). left; eauto.
    + destruct (describes_dec (eo_exp y)) as [Hd|Hd].
      * destruct (att_throws (length args) w k y c I Hya (Hpol _ _ Hy) eq_refl) as (r & z & H & _); eauto.
      * right. exact (att_undescribed (length args) w k y c I Hya (Hpol _ _ Hy) eq_refl Hc Hd).
  - exists (e, eo_exp x). split; [apply Hin; eauto|]. cbn [snd]. pose proof Hlive as (Hx & _).
    exact (att_undescribed (length args) w e x c I Hx (Hpol _ _ Hlive) eq_refl Hnc Hnd).
Qed.
