(** * CallProofs: calls on mocks meet CallSpec. *)

From Coq Require Import Sorted.
From Verif Require Import Base Lib Sequence Control Signature Printer Reports Expectation Builder BuildSpec World WorldSpec CallSpec
  SeqInv BuilderLemmas StepCases MatchLemmas WorldInv ObjInv.

(** ** Truthful states *)

Lemma consumable_current w e x s id q : WInv w -> exp_at w e x -> In (s, id) (c_seqs (ctl_of x)) -> nth_error (w_seqs w) s = Some q ->
  (c_count (ctl_of x) < c_max (ctl_of x))%Z ->
  (seq_is_consumable q id = true <-> current_in w e s).
Proof.
  intros I Hx Hin Hq Hlt. rewrite (consumable_spec _ _ _ _ _ _ _ (wi_s _ I) (ctls_nth _ _ _ Hx) Hin Hq Hlt).
  unfold current_in. split; intros H e' y He' Hs.
  - destruct (H e' (ctl_of y) (ctls_nth _ _ _ He') Hs) as [H1 H2]. rewrite (wi_count _ I _ _ He') in *.
    split; auto. intros Hl. specialize (H2 Hl). lia.
  - apply ctls_nth_inv in He'. destruct He' as (x' & He' & ->). destruct (H e' x' He' Hs) as [H1 H2].
    unfold x_min in H1. fold (ctl_of x') in H1. rewrite (wi_count _ I _ _ He') in *. split; auto. intros Hl. rewrite (H2 Hl). reflexivity.
Qed.

Lemma filter_length_split {A} (f : A -> bool) l : length (filter f l) + length (filter (fun x => negb (f x)) l) = length l.
Proof. induction l as [|a l IH]; simpl; auto. destruct (f a); simpl; lia. Qed.

Lemma rating_in_tag ss l : map r_tag (map (rating_in ss) l) = map fst l.
Proof. rewrite map_map. apply map_ext. intros [s id]. unfold rating_in. simpl. destruct (nth_error ss s); reflexivity. Qed.

Lemma nodup_fst_in {A} (l : list (nat * A)) p q : NoDup (map fst l) -> In p l -> In q l -> fst p = fst q -> p = q.
Proof.
  destruct p as [a b], q as [a' b']. simpl. intros Hn Hp Hq ->. f_equal. eapply nodup_fst_inj; eauto.
Qed.

Lemma state_true w e x : WInv w -> exp_at w e x ->
  exists st, control_state_of (w_seqs w) (ctl_of x) = Ret st /\ true_state w e x st /\
    (match st with StApplicable _ _ _ rs => rs = map (rating_in (w_seqs w)) (c_seqs (ctl_of x)) | _ => True end) /\
    ((match st with StApplicable _ _ _ _ => True | _ => False end) <-> applicable w e x).
Proof.
  intros I Hx. pose proof (control_state_ok _ _ _ _ (wi_s _ I) (ctls_nth _ _ _ Hx)) as Hst.
  destruct (si_ok _ _ (wi_s _ I) _ _ (ctls_nth _ _ _ Hx)) as (_ & _ & Hcnt).
  pose proof (wi_count _ I _ _ Hx) as Hc. eexists. split; [exact Hst|].
  pose proof (applicable_iff _ _ _ I Hx) as Happ.
  pose proof (si_nodup _ _ (wi_s _ I) _ _ (ctls_nth _ _ _ Hx)) as Hnd.
  assert (Hent : forall p, In p (c_seqs (ctl_of x)) -> exists q, nth_error (w_seqs w) (fst p) = Some q).
  { intros [s id] Hp. destruct (si_entry _ _ (wi_s _ I) _ _ _ _ (ctls_nth _ _ _ Hx) Hp) as (q & Hq & _). eauto. }
  unfold true_state, x_min, x_max, x_seqs. fold (ctl_of x).
  destruct (Z.eqb_spec (c_count (ctl_of x)) (c_max (ctl_of x))) as [Hsat|Hns].
  - split; [rewrite <- Hc; repeat split; auto|]. split; [auto|]. split; [tauto|]. intros [Hlt _]. unfold x_max in Hlt. fold (ctl_of x) in Hlt. lia.
  - assert (Hlt : (c_count (ctl_of x) < c_max (ctl_of x))%Z) by lia.
    assert (Hcur : forall p, In p (c_seqs (ctl_of x)) -> (consumable_in (w_seqs w) p = true <-> current_in w e (fst p))).
    { intros [s id] Hp. destruct (Hent _ Hp) as [q Hq]. unfold consumable_in. simpl in *. rewrite Hq.
      eapply consumable_current; eauto. }
    destruct (control_is_applicable (w_seqs w) (ctl_of x)) eqn:Ha.
    + split; [|split; [auto|tauto]]. repeat split; auto; try lia; try (apply rating_in_tag); destruct Happ as [Happ _]; specialize (Happ eq_refl);
        destruct Happ as [_ Happ]; intros; eapply Happ; eauto.
    + assert (Hex : exists p, In p (c_seqs (ctl_of x)) /\ consumable_in (w_seqs w) p = false).
      { unfold control_is_applicable in Ha. apply andb_false_iff in Ha. destruct Ha as [Ha|Ha]; [apply Z.ltb_ge in Ha; lia|].
        clear -Ha. induction (c_seqs (ctl_of x)) as [|[s id] l IH]; simpl in Ha; [discriminate|].
        apply andb_false_iff in Ha. destruct Ha as [Ha|Ha].
        - exists (s, id). split; [left; auto|]. exact Ha.
        - destruct (IH Ha) as (p & Hp & Hf). exists p. split; auto. right; auto. }
      split; [|split; [auto|split; [tauto|intros H; apply Happ in H; congruence]]].
      split; auto. split; auto. split; auto. split; [lia|]. split.
      { destruct Hex as (p & Hp & Hf). intros E.
        assert (Hin : In (fst p) (map fst (filter (fun p => negb (consumable_in (w_seqs w) p)) (c_seqs (ctl_of x))))).
        { apply in_map. apply filter_In. split; auto. rewrite Hf. reflexivity. }
        rewrite E in Hin. destruct Hin. }
      split; [rewrite !map_length; apply filter_length_split|].
      split.
      * intros s. rewrite in_map_iff. split.
        -- intros (p & <- & Hp). apply filter_In in Hp. destruct Hp as [Hp Hf]. split; [apply in_map; auto|].
           intros Hcu. apply Hcur in Hcu; auto. rewrite Hcu in Hf. discriminate.
        -- intros [Hs Hcu]. apply in_map_iff in Hs. destruct Hs as (p & <- & Hp). exists p. split; auto.
           apply filter_In. split; auto. destruct (consumable_in (w_seqs w) p) eqn:E; auto. apply Hcur in E; [contradiction|auto].
      * intros s. rewrite rating_in_tag, in_map_iff. split.
        -- intros (p & <- & Hp). apply filter_In in Hp. destruct Hp as [Hp Hf]. split; [apply in_map; auto|]. apply Hcur; auto.
        -- intros [Hs Hcu]. apply in_map_iff in Hs. destruct Hs as (p & <- & Hp). exists p. split; auto.
           apply filter_In. split; auto. apply Hcur; auto.
Qed.

(** ** One expectation *)

Lemma clean_dec n x c : forallb (policy_ok n) (e_policies x) = true -> length (ci_args c) = n -> clean x c \/ ~ clean x c.
Proof.
  intros Hok Hlen. rewrite clean_reports. rewrite forallb_forall in Hok.
  destruct (omap_total (policy_report_of c) (e_policies x)) as [[rs H]|[y H]].
  - intros p Hp. eapply policy_report_ok; eauto.
  - left; eauto.
  - right. intros [rs E]. congruence.
Qed.

Lemma att_clean w e x c : WInv w -> exp_at w e x -> clean (eo_exp x) c ->
  exists m, att (w_reporter w) (w_uncaught w) (w_seqs w) c (eo_exp x) = Ret (AttemptReport m) /\ true_report w c e x m /\
    (evaluate_match_report m = MatchFull <-> accepts (eo_exp x) c /\ applicable w e x) /\
    (evaluate_match_report m = MatchInapplicable <-> accepts (eo_exp x) c /\ ~ applicable w e x) /\
    (evaluate_match_report m = MatchNone <-> rejects (eo_exp x) c) /\
    (applicable w e x -> match mr_state m with StApplicable _ _ _ rs => rs = map (rating_in (w_seqs w)) (c_seqs (ctl_of x)) | _ => False end).
Proof.
  intros I Hx Hcl. destruct (state_true _ _ _ I Hx) as (st & Hst & Htrue & Hrs & Happ).
  destruct (proj1 (clean_reports _ _) Hcl) as [rs Hr].
  exists (mkMatchReport (Some (e_loc (eo_exp x))) None st rs).
  unfold att, make_match_report, exp_matches. fold (ctl_of x). rewrite Hst. simpl. rewrite Hr. simpl.
  pose proof (omap_ret_inv _ _ _ Hr) as Hf2. destruct (reports_matching _ _ _ Hf2) as [Hm1 Hm2].
  split; auto. split.
  { unfold true_report. simpl. repeat split; auto. eapply Forall2_weaken; [|exact Hf2]. intros p r Hp. apply policy_report_ret; auto. }
  unfold evaluate_match_report. simpl. unfold accepts, rejects.
  destruct (forallb pr_matching rs) eqn:Hall; simpl.
  - assert (Hacc : forall p, In p (e_policies (eo_exp x)) -> policy_matches p c = Ret true) by (apply Hm1; auto).
    assert (Hrej : ~ exists p, In p (e_policies (eo_exp x)) /\ policy_matches p c = Ret false).
    { intros H. apply Hm2 in H. congruence. }
    destruct st; simpl in *.
    + split; [split; [discriminate|tauto]|]. split; [tauto|]. split; [split; [discriminate|tauto]|]. tauto.
    + split; [tauto|]. split; [split; [discriminate|tauto]|]. split; [split; [discriminate|tauto]|]. tauto.
    + split; [split; [discriminate|tauto]|]. split; [tauto|]. split; [split; [discriminate|tauto]|]. tauto.
  - assert (Hno : ~ (forall p, In p (e_policies (eo_exp x)) -> policy_matches p c = Ret true)).
    { intros H. apply Hm1 in H. congruence. }
    assert (Hrej : exists p, In p (e_policies (eo_exp x)) /\ policy_matches p c = Ret false) by (apply Hm2; auto).
    split; [split; [discriminate|tauto]|]. split; [split; [discriminate|tauto]|]. split; [tauto|].
    intros H. apply Happ in H. destruct st; try contradiction. auto.
Qed.

Lemma describes_b x : describes x <-> describable x = true.
Proof.
  unfold describes, describable. rewrite forallb_forall. split; intros H p Hp.
  - destruct (H p Hp) as [d ->]. reflexivity.
  - specialize (H p Hp). destruct (policy_describe p); eauto; discriminate.
Qed.

Lemma exp_report_true w e x : WInv w -> exp_at w e x -> describes (eo_exp x) ->
  exists r, exp_report_of (w_seqs w) (eo_exp x) = Ret r /\ true_exp_report w e x r.
Proof.
  intros I Hx Hd. destruct (state_true _ _ _ I Hx) as (st & Hst & Htrue & _).
  destruct (omap_ret policy_describe (e_policies (eo_exp x)) Hd) as [ds Hds].
  unfold exp_report_of. fold (ctl_of x). rewrite Hst. simpl. rewrite Hds. simpl.
  eexists. split; [reflexivity|]. repeat split; simpl; auto; [exists st; auto|]. apply omap_ret_inv; auto.
Qed.

Lemma att_throws n w e x c : WInv w -> exp_at w e x -> forallb (policy_ok n) (e_policies (eo_exp x)) = true -> length (ci_args c) = n ->
  ~ clean (eo_exp x) c -> describes (eo_exp x) ->
  (forall r y, w_reporter w (RUnhandled (make_call_report c) r y) (w_uncaught w) = Returns) ->
  exists r y, att (w_reporter w) (w_uncaught w) (w_seqs w) c (eo_exp x) = Ret (AttemptUnhandled r y) /\
    true_exp_report w e x r /\ first_exception (e_policies (eo_exp x)) c y.
Proof.
  intros I Hx Hok Hlen Hnc Hd Hrp. destruct (state_true _ _ _ I Hx) as (st & Hst & _).
  destruct (exp_report_true _ _ _ I Hx Hd) as (r & Hr & Htr).
  rewrite clean_reports in Hnc. rewrite forallb_forall in Hok.
  destruct (omap_total (policy_report_of c) (e_policies (eo_exp x))) as [[rs H]|[y H]];
    [intros p Hp; eapply policy_report_ok; eauto|exfalso; eauto|].
  exists r, y. unfold att, make_match_report, exp_matches. fold (ctl_of x). rewrite Hst. simpl. rewrite H. simpl. rewrite Hr. simpl.
  rewrite Hrp. simpl. split; auto. split; auto.
  destruct (omap_throw_inv _ _ _ H) as (pre & p & post & E & Hp & Hpre). exists pre, p, post. split; auto. split.
  - unfold policy_report_of in Hp. destruct (policy_matches p c); simpl in Hp; try discriminate; try congruence.
    destruct (Hd p) as [d Hdp]; [rewrite E; apply in_app_iff; right; left; auto|]. rewrite Hdp in Hp. discriminate.
  - intros q Hq. destruct (Hpre q Hq) as [z Hz]. apply policy_report_ret in Hz. destruct Hz. eauto.
Qed.

(** ** The loop over the live expectations *)

Lemma sorted_rev_members xs c : StronglySorted (fun a b => b < a) (rev (members xs c)).
Proof.
  unfold members. generalize (length xs). intros n. induction n as [|n IH]; [constructor|].
  rewrite seq_S, filter_app, rev_app_distr. simpl. destruct (lives xs c n); simpl; auto.
  constructor; auto. apply Forall_forall. intros y Hy. apply in_rev in Hy. apply filter_In in Hy. destruct Hy as [Hy _].
  apply in_seq in Hy. lia.
Qed.

Lemma sorted_flat_map {A B} (R : nat -> nat -> Prop) (f : nat * A -> list (nat * B)) l :
  (forall p, f p = [] \/ exists b, f p = [(fst p, b)]) ->
  StronglySorted R (map fst l) -> StronglySorted R (map fst (flat_map f l)).
Proof.
  intros Hf. induction l as [|p l IH]; simpl; intros H; auto. inversion H; subst.
  destruct (Hf p) as [->|[b ->]]; simpl; auto. constructor; auto.
  rewrite Forall_forall in *. intros y Hy. apply H3. apply in_map_iff in Hy. destruct Hy as ([k v] & <- & Hin).
  apply in_flat_map in Hin. destruct Hin as (q & Hq & Hin). destruct (Hf q) as [E|[b' E]]; rewrite E in Hin; [destruct Hin|].
  destruct Hin as [Hin|[]]. inversion Hin; subst. simpl. apply in_map; auto.
Qed.

Lemma sel_shape rp u ss c want p : sel rp u ss c want p = [] \/ exists m, sel rp u ss c want p = [(fst p, m)].
Proof.
  unfold sel. destruct (att rp u ss c (snd p)) as [[m|]| | |]; auto. destruct (evaluate_match_report m), want; eauto.
Qed.

Lemma sel_unhandled_shape rp u ss c p : sel_unhandled rp u ss c p = [] \/ exists m, sel_unhandled rp u ss c p = [(fst p, m)].
Proof. unfold sel_unhandled. destruct (att rp u ss c (snd p)) as [[m|]| | |]; eauto. Qed.

Section Call.
  Context (w : world) (coll : nat) (s : signature) (args : list val) (l : loc).
  Let c := call_of s args l.
  Context (I : WInv w).
  Context (Hcoll : coll < length (w_colls w)).
  Context (Hargs : forall e x, live_in w coll e x -> length (sg_params (eo_sig x)) = length args).
  Context (Htame : forall e x, throwing w coll c e x -> describes (eo_exp x)).
  Context (Hunh : forall r y, w_reporter w (RUnhandled (make_call_report c) r y) (w_uncaught w) = Returns).

  Let rp := w_reporter w.
  Let u := w_uncaught w.
  Let ss := w_seqs w.

  Lemma call_entries : exists lst es, nth_error (w_colls w) coll = Some lst /\ lookup_exps w (rev lst) = Some es /\
    StronglySorted (fun a b => b < a) (map fst es) /\
    (forall n e, In (n, e) es <-> exists x, live_in w coll n x /\ e = eo_exp x).
  Proof using I Hcoll.
    clear -I Hcoll.
    destruct (nth_error_ex (w_colls w) coll Hcoll) as [lst Hl]. pose proof (wi_coll _ I _ _ Hl) as Hm.
    destruct (lookup_exps_some w (rev lst)) as [es Hes].
    { intros n Hn. apply in_rev in Hn. rewrite Hm in Hn. apply members_in in Hn. destruct Hn as (x & Hx & _).
      eapply nth_error_lt; eauto. }
    destruct (lookup_exps_spec _ _ _ Hes) as [Hmap Hin].
    exists lst, es. split; auto. split; auto. split.
    - rewrite Hmap, Hm. apply sorted_rev_members.
    - intros n e. split.
      + intros H. destruct (Hin _ _ H) as (x & Hx & ->). exists x. split; auto.
        assert (Hn : In n (rev lst)) by (rewrite <- Hmap; apply in_map_fst; eauto). apply in_rev in Hn. rewrite Hm in Hn.
        apply members_in in Hn. destruct Hn as (y & Hy & Ha & Hc). rewrite Hx in Hy. inversion Hy; subst. repeat split; auto.
      + intros (x & (Hx & Ha & Hc) & ->). assert (Hn : In n (map fst es)).
        { rewrite Hmap, Hm. apply -> in_rev. apply members_in. exists x. auto. }
        apply in_map_iff in Hn. destruct Hn as ([n' e'] & E & Hne). simpl in E. subst n'.
        destruct (Hin _ _ Hne) as (y & Hy & ->). unfold exp_at in Hx. rewrite Hx in Hy. inversion Hy; subst. auto.
  Qed.

  Lemma live_policies e x : live_in w coll e x -> forallb (policy_ok (length args)) (e_policies (eo_exp x)) = true.
  Proof. intros H. rewrite <- (Hargs _ _ H). destruct H as [Hx _]. eapply wi_pol; eauto. Qed.

  Lemma live_clean e x : live_in w coll e x -> clean (eo_exp x) c \/ ~ clean (eo_exp x) c.
  Proof. intros H. eapply clean_dec; [eapply live_policies; eauto|reflexivity]. Qed.

  Lemma att_live e x : live_in w coll e x ->
    (clean (eo_exp x) c /\ exists m, att rp u ss c (eo_exp x) = Ret (AttemptReport m) /\ true_report w c e x m /\
       (evaluate_match_report m = MatchFull <-> accepts (eo_exp x) c /\ applicable w e x) /\
       (evaluate_match_report m = MatchInapplicable <-> accepts (eo_exp x) c /\ ~ applicable w e x) /\
       (evaluate_match_report m = MatchNone <-> rejects (eo_exp x) c) /\
       (applicable w e x -> match mr_state m with StApplicable _ _ _ rs => rs = map (rating_in (w_seqs w)) (c_seqs (ctl_of x)) | _ => False end)) \/
    (~ clean (eo_exp x) c /\ exists r y, att rp u ss c (eo_exp x) = Ret (AttemptUnhandled r y) /\
       true_exp_report w e x r /\ first_exception (e_policies (eo_exp x)) c y).
  Proof.
    intros H. destruct (live_clean _ _ H) as [Hc|Hc]; [left|right]; split; auto.
    - apply att_clean; auto. apply H.
    - eapply att_throws; eauto; [apply H|eapply live_policies; eauto|]. apply (Htame e). split; auto.
  Qed.

  Context (lst : list nat) (es : list (nat * expectation)).
  Context (Hsort : StronglySorted (fun a b => b < a) (map fst es)).
  Context (Hes : forall n e, In (n, e) es <-> exists x, live_in w coll n x /\ e = eo_exp x).

  Lemma loop_total : exists ml, match_loop rp u ss c es lists0 = Ret ml.
  Proof.
    apply match_loop_all. intros [n e] Hin. apply Hes in Hin. destruct Hin as (x & Hl & ->). simpl.
    destruct (att_live _ _ Hl) as [(_ & m & H & _)|(_ & r & y & H & _)]; rewrite H; eauto.
  Qed.

  Lemma sel_newest want P :
    (forall n x m, live_in w coll n x -> att rp u ss c (eo_exp x) = Ret (AttemptReport m) -> (evaluate_match_report m = want <-> P n x)) ->
    (forall n x, P n x -> live_in w coll n x /\ clean (eo_exp x) c) ->
    newest_first w P (map fst (flat_map (sel rp u ss c want) es)) /\
    true_reports w c (map fst (flat_map (sel rp u ss c want) es)) (map snd (flat_map (sel rp u ss c want) es)).
  Proof.
    intros HP HP2. split; [split|].
    - apply sorted_flat_map; auto. intros p. apply sel_shape.
    - intros e. rewrite in_map_iff. split.
      + intros ([k m] & <- & Hin). apply sel_in in Hin. destruct Hin as (x0 & Hin & Ha & Hev). apply Hes in Hin.
        destruct Hin as (x & Hl & ->). simpl. exists x. split; [apply Hl|]. eapply HP; eauto.
      + intros (x & Hx & Hp). destruct (HP2 _ _ Hp) as [Hl Hcl].
        destruct (att_live _ _ Hl) as [(_ & m & H & _)|(Hn & _)]; [|tauto].
        exists (e, m). split; auto. eapply sel_of; eauto; [apply Hes; eauto|]. eapply HP; eauto.
    - unfold true_reports.
      assert (H : forall p, In p (flat_map (sel rp u ss c want) es) -> exists x, exp_at w (fst p) x /\ true_report w c (fst p) x (snd p)).
      { intros [k m] Hin. apply sel_in in Hin. destruct Hin as (x0 & Hin & Ha & Hev). apply Hes in Hin.
        destruct Hin as (x & Hl & ->). simpl. exists x. split; [apply Hl|].
        destruct (att_live _ _ Hl) as [(_ & m' & H & Ht & _)|(_ & r & y & H & _)]; unfold rp, u, ss in *; rewrite Ha in H; inversion H; subst; auto. }
      revert H. generalize (flat_map (sel rp u ss c want) es). intros ps H. induction ps as [|p ps IH]; simpl; constructor.
      + apply H. left; auto.
      + apply IH. intros q Hq. apply H. right; auto.
  Qed.

  Lemma unhandled_newest : unhandled_reports w coll c (map (unhandled_event (w_rid w) c) (flat_map (sel_unhandled rp u ss c) es)).
  Proof.
    exists (map fst (flat_map (sel_unhandled rp u ss c) es)). split; [split|].
    - apply sorted_flat_map; auto. intros p. apply sel_unhandled_shape.
    - intros e. rewrite in_map_iff. split.
      + intros ([k m] & <- & Hin). apply in_flat_map in Hin. destruct Hin as ([n x0] & Hin & H). apply Hes in Hin.
        destruct Hin as (x & Hl & ->). unfold sel_unhandled in H. simpl in H.
        destruct (att_live _ _ Hl) as [(_ & m' & E & _)|(Hn & r & y & E & _)]; rewrite E in H; [contradiction|destruct H as [H|[]]].
        inversion H; subst. simpl. exists x. split; [apply Hl|]. split; auto.
      + intros (x & Hx & Hl & Hn). destruct (att_live _ _ Hl) as [(Hc & _)|(_ & r & y & E & _)]; [tauto|].
        exists (e, (r, y)). split; auto. apply in_flat_map. exists (e, eo_exp x). split; [apply Hes; eauto|].
        unfold sel_unhandled. simpl. rewrite E. left; auto.
    - assert (H : forall p, In p (flat_map (sel_unhandled rp u ss c) es) ->
                exists x r y, exp_at w (fst p) x /\ true_exp_report w (fst p) x r /\ first_exception (e_policies (eo_exp x)) c y /\
                  unhandled_event (w_rid w) c p = EvReport (w_rid w) (RUnhandled (make_call_report c) r y) [fst p]).
      { intros [k m] Hin. apply in_flat_map in Hin. destruct Hin as ([n x0] & Hin & H). apply Hes in Hin.
        destruct Hin as (x & Hl & ->). unfold sel_unhandled in H. simpl in H.
        destruct (att_live _ _ Hl) as [(_ & m' & E & _)|(Hn & r & y & E & Ht & Hf)]; rewrite E in H; [contradiction|destruct H as [H|[]]].
        inversion H; subst. simpl. exists x, r, y. split; [apply Hl|]. split; auto. }
      revert H. generalize (flat_map (sel_unhandled rp u ss c) es). intros ps H. induction ps as [|p ps IH]; simpl; constructor.
      + destruct (H p (or_introl eq_refl)) as (x & r & y & H1 & H2 & H3 & H4). exists x, r, y. auto.
      + apply IH. intros q Hq. apply H. right; auto.
  Qed.

  (** The reports of candidates carry their ratings. *)
  Lemma full_ratings n m : In (n, m) (flat_map (sel rp u ss c MatchFull) es) ->
    exists x, candidate w coll c n x /\ true_report w c n x m /\
      ratings_of m = Ret (map (rating_in (w_seqs w)) (c_seqs (ctl_of x))).
  Proof.
    intros Hin. apply sel_in in Hin. destruct Hin as (x0 & Hin & Ha & Hev). apply Hes in Hin. destruct Hin as (x & Hl & ->).
    destruct (att_live _ _ Hl) as [(_ & m' & H & Ht & Hf & _ & _ & Hr)|(_ & r & y & H & _)];
      unfold rp, u, ss in *; rewrite Ha in H; inversion H; subst m'.
    apply Hf in Hev. destruct Hev as [Hacc Happ]. exists x. split; [split; auto|]. split; auto.
    specialize (Hr Happ). unfold ratings_of. destruct (mr_state m); try contradiction. subst; auto.
  Qed.

  Lemma pick_best_total rest : forall best,
    (forall p, In p (best :: rest) -> exists rs, ratings_of (snd p) = Ret rs) -> exists p, pick_best best rest = Ret p.
  Proof.
    induction rest as [|x rest IH]; intros best H; simpl; eauto.
    destruct (H best) as [rb ->]; [left; auto|]. destruct (H x) as [rx ->]; [right; left; auto|]. simpl.
    apply IH. intros p [<-|Hp]; [destruct (has_better_rating rb rx); apply H; simpl; auto|apply H; simpl; auto].
  Qed.
End Call.

(** ** The master lemma *)

Definition fulls (w : world) (c : call_info) (es : list (nat * expectation)) : list (nat * match_report) :=
  flat_map (sel (w_reporter w) (w_uncaught w) (w_seqs w) c MatchFull) es.

Lemma decay_params a b : decay a = decay b -> sg_params a = sg_params b.
Proof. unfold decay. intros H. inversion H; auto. Qed.

Lemma overload_live_params w m ov s coll : WInv w -> OInv w -> find_overload w m ov = inr (s, coll) ->
  forall e x, live_in w coll e x -> decay (eo_sig x) = decay s /\ coll < length (w_colls w).
Proof.
  intros I O Hf e x (Hx & _ & Hc). destruct (find_overload_inr _ _ _ _ _ Hf) as (mk & cs & Hm & _ & Hs & Hcs & Hn).
  subst coll. destruct (oi_exp _ O _ _ _ _ _ _ Hx Hm Hcs Hn) as [H1 H2]. split.
  - apply (oi_decay _ O _ _ _ _ _ _ _ _ _ Hm Hcs H2 Hn H1 Hs); auto.
  - eapply oi_range; eauto.
Qed.

Lemma find_overload_coll w m ov s coll : OInv w -> find_overload w m ov = inr (s, coll) -> coll < length (w_colls w).
Proof.
  intros O Hf. destruct (find_overload_inr _ _ _ _ _ Hf) as (mk & cs & Hm & _ & Hs & Hcs & Hn). eapply oi_range; eauto.
Qed.

Definition call_setting (w : world) (m ov : nat) (args : list val) (s : signature) (coll : nat) : Prop :=
  reachable w /\ find_overload w m ov = inr (s, coll) /\ length args = length (sg_params s).

Theorem call_master w m ov args l s coll : 
  call_setting w m ov args s coll ->
  let c := call_of s args l in
  (forall e x, throwing w coll c e x -> describes (eo_exp x)) ->
  (forall r y, w_reporter w (RUnhandled (make_call_report c) r y) (w_uncaught w) = Returns) ->
  (forall mr, w_reporter w (RFull (make_call_report c) mr) (w_uncaught w) = Returns) ->
  exists unh, unhandled_reports w coll c unh /\
  ((exists who ms n mr x ss ctl, newest_first w (candidate w coll c) who /\ who <> [] /\
      Forall2 (fun e r => exists y, exp_at w e y /\ true_report w c e y r /\
                 ratings_of r = Ret (map (rating_in (w_seqs w)) (c_seqs (ctl_of y)))) who ms /\
      (match combine who ms with first :: others => pick_best first others = Ret (n, mr) | [] => False end) /\
      candidate w coll c n x /\ true_report w c n x mr /\ control_consume (w_seqs w) (ctl_of x) = Ret (ss, ctl) /\
      step w (OCall m ov args l) =
        Next (accept_world w n x ss ctl (sg_noexcept s) (unh ++ [EvReport (w_rid w) (RFull (make_call_report c) mr) [n]])) RUnit) \/
   ((forall e x, ~ candidate w coll c e x) /\ exists rep who,
      ((exists e x, accepting w coll c e x) /\ newest_first w (accepting w coll c) who /\
         (exists ms, rep = RInapplicable (make_call_report c) ms /\ true_reports w c who ms) \/
       (forall e x, ~ accepting w coll c e x) /\ newest_first w (rejecting w coll c) who /\
         (exists ms, rep = RNoMatch (make_call_report c) ms /\ true_reports w c who ms)) /\
      step w (OCall m ov args l) =
        failed (sg_noexcept s) (react w rep) (only_reports w (unh ++ [EvReport (w_rid w) rep who])))).
Proof.
  intros (Hre & Hf & Hlen) c Htame Hunh Hful.
  pose proof (winv_reachable _ Hre) as I. pose proof (oinv_reachable _ Hre) as O.
  pose proof (find_overload_coll _ _ _ _ _ O Hf) as Hcoll.
  assert (Hargs : forall e x, live_in w coll e x -> length (sg_params (eo_sig x)) = length args).
  { intros e x Hl. destruct (overload_live_params _ _ _ _ _ I O Hf _ _ Hl) as [Hd _]. rewrite (decay_params _ _ Hd); auto. }
  destruct (call_entries w coll I Hcoll) as (lst & es & Hlst & Hes & Hsort & Hin).
  destruct (loop_total w coll s args l I Hargs Htame Hunh es Hin) as [ml Hml].
  destruct (match_loop_ret _ _ _ _ _ _ _ Hml) as (_ & Hfull & Hina & Hnone & Hunhd). simpl in Hfull, Hina, Hnone, Hunhd.
  exists (map (unhandled_event (w_rid w) c) (ml_unhandled ml)). split.
  { rewrite Hunhd. eapply unhandled_newest; eauto. }
  assert (Hstep : step w (OCall m ov args l) = handle_call w coll c (sg_noexcept s)).
  { simpl. unfold do_call. rewrite Hf, Hlen, Nat.eqb_refl. reflexivity. }
  unfold handle_call in Hstep. rewrite Hlst, Hes in Hstep. fold lists0 in Hstep. fold c in Hml. rewrite Hml in Hstep.
  assert (Hcand : newest_first w (candidate w coll c) (map fst (ml_full ml)) /\ true_reports w c (map fst (ml_full ml)) (map snd (ml_full ml))).
  { rewrite Hfull. apply (sel_newest w coll s args l I Hargs Htame Hunh es Hsort Hin).
    - intros n x mr Hl Ha. destruct (att_live w coll s args l I Hargs Htame Hunh _ _ Hl) as [(Hc & m' & H & _ & H1 & _)|(_ & r & y & H & _)];
        rewrite Ha in H; inversion H; subst. rewrite H1. unfold candidate. tauto.
    - intros n x (Hl & (Hc & _) & _). auto. }
  destruct Hcand as [Hcand Hcandr].
  assert (Hsame : emit_unhandled w c (ml_unhandled ml) = only_reports w (map (unhandled_event (w_rid w) c) (ml_unhandled ml))).
  { apply emit_unhandled_add. }
  rewrite Hsame in Hstep.
  assert (Hrat : forall n r, In (n, r) (ml_full ml) -> exists x, candidate w coll c n x /\ true_report w c n x r /\
              ratings_of r = Ret (map (rating_in (w_seqs w)) (c_seqs (ctl_of x)))).
  { intros n r Hnr. rewrite Hfull in Hnr. eapply full_ratings; eauto. }
  destruct (ml_full ml) as [|first others] eqn:Hml2.
  - right. split.
    { intros e x Hc. destruct Hcand as [_ Hc2]. destruct (proj2 (Hc2 e)); eauto. exists x. split; auto. apply Hc. }
    set (rep := match ml_inapplicable ml with
                | [] => RNoMatch (make_call_report c) (map snd (ml_none ml))
                | l => RInapplicable (make_call_report c) (map snd l)
                end) in *.
    set (who := match ml_inapplicable ml with
                | [] => map fst (ml_none ml)
                | l => map fst l
                end) in *.
    exists rep, who. split.
    + assert (Hina' : newest_first w (accepting w coll c) (map fst (ml_inapplicable ml)) /\
                      true_reports w c (map fst (ml_inapplicable ml)) (map snd (ml_inapplicable ml))).
      { rewrite Hina. apply (sel_newest w coll s args l I Hargs Htame Hunh es Hsort Hin).
        - intros n x mr Hl Ha. destruct (att_live w coll s args l I Hargs Htame Hunh _ _ Hl) as [(Hc & m' & H & _ & _ & H1 & _)|(_ & r & y & H & _)];
            rewrite Ha in H; inversion H; subst. rewrite H1. unfold accepting. split; [tauto|]. intros [_ Hacc]. split; auto.
          intros Happ. destruct Hcand as [_ Hc2]. destruct (proj2 (Hc2 n)). exists x. split; [apply Hl|]. split; auto.
        - intros n x (Hl & Hc & _). auto. }
      destruct Hina' as [Hina' Hinar].
      assert (Hnone' : newest_first w (rejecting w coll c) (map fst (ml_none ml)) /\
                       true_reports w c (map fst (ml_none ml)) (map snd (ml_none ml))).
      { rewrite Hnone. apply (sel_newest w coll s args l I Hargs Htame Hunh es Hsort Hin).
        - intros n x mr Hl Ha. destruct (att_live w coll s args l I Hargs Htame Hunh _ _ Hl) as [(Hc & m' & H & _ & _ & _ & H1 & _)|(_ & r & y & H & _)];
            rewrite Ha in H; inversion H; subst. rewrite H1. unfold rejecting. tauto.
        - intros n x (Hl & Hc & _). auto. }
      destruct Hnone' as [Hnone' Hnoner].
      unfold rep, who. destruct (ml_inapplicable ml) as [|p rest] eqn:Hi.
      * right. split.
        { intros e x Ha. destruct Hina' as [_ H2]. destruct (proj2 (H2 e)). exists x. split; auto. apply Ha. }
        split; auto. exists (map snd (ml_none ml)). auto.
      * left. split.
        { destruct Hina' as [_ H2]. destruct (proj1 (H2 (fst p))) as (x & _ & Hx); [left; auto|]. exists (fst p), x. auto. }
        split; auto. exists (map snd (p :: rest)). auto.
    + rewrite Hstep. unfold failed, react, thrown. simpl. destruct (w_reporter w rep (w_uncaught w)); auto.
      destruct (sg_noexcept s); auto. unfold emit_report. rewrite emit_add.
      change (only_reports w) with (add_trace w). rewrite add_trace_app. reflexivity.
  - left. destruct (pick_best_total others first) as [[n mr] Hp].
    { intros [k r] Hk. destruct (Hrat k r Hk) as (x & _ & _ & Hr). simpl. eauto. }
    rewrite Hp in Hstep.
    pose proof (pick_best_in _ _ _ Hp) as Hpin.
    destruct (Hrat _ _ Hpin) as (x & Hcx & Htx & _).
    destruct Hcx as (Hl & Hacc & Happ). pose proof Hl as (Hx & _).
    destruct (control_consume_ok _ _ _ _ (wi_s _ I) (ctls_nth _ _ _ Hx) (proj2 (applicable_iff _ _ _ I Hx) Happ)) as (ss' & Hc' & _).
    exists (map fst (first :: others)), (map snd (first :: others)), n, mr, x, ss', (bump (ctl_of x)).
    split; auto. split; [discriminate|]. split.
    { assert (H : forall p, In p (first :: others) -> exists y, exp_at w (fst p) y /\ true_report w c (fst p) y (snd p) /\
                    ratings_of (snd p) = Ret (map (rating_in (w_seqs w)) (c_seqs (ctl_of y)))).
      { intros [k r] Hk. destruct (Hrat k r Hk) as (y & Hy & Ht & Hr). exists y. split; auto. apply Hy. }
      revert H. generalize (first :: others). intros ps H. induction ps as [|p ps IH]; simpl; constructor.
      - apply H; left; auto.
      - apply IH. intros q Hq. apply H. right; auto. }
    split.
    { assert (E : forall ps : list (nat * match_report), combine (map fst ps) (map snd ps) = ps).
      { induction ps as [|[a b] ps IH]; simpl; f_equal; auto. }
      rewrite E. auto. }
    split; [split; auto|]. split; auto. split; auto.
    rewrite Hstep. unfold react. simpl. rewrite Hful. unfold exp_at in Hx. rewrite Hx. unfold ctl_of in Hc'. rewrite Hc'.
    destruct Hacc as [_ Hall]. rewrite (consume_asserts_ok _ _ Hall).
    unfold accept_world, add_trace, set_frames, set_exps, set_seqs, emit_report, emit, only_reports. simpl. rewrite app_assoc. reflexivity.
Qed.
