(** * ScheduleRaces: threads which are apart have no memory in common. *)

From Verif Require Import Base Lib Sequence Control Signature Printer Reports Expectation Builder World WorldSpec MatchLemmas
  Conc ConcSpec ConcProofs Race RaceSpec RaceProofs RaceFree Lifetime LifetimeSpec LifetimeProofs Colls CollsSpec ScheduleSpec ScheduleProofs.

Section Places.
Context (owner : nat -> nat) (c0 : cworld) (release : bool).
Context (members : Members c0).
Context (seqs_ok : forall coll e x coll' e' x' q, listed c0 coll e -> exp_at (cw c0) e x -> listed c0 coll' e' -> exp_at (cw c0) e' x' ->
  In q (map fst (c_seqs (e_ctl (eo_exp x)))) -> In q (map fst (c_seqs (e_ctl (eo_exp x')))) -> owner coll = owner coll').

(** The event touches only what belongs to the thread, or reads the reporter. *)
Definition ok (t : nat) (y : hev) : Prop := forall p, touched y p -> owned owner c0 t p \/ y = HL (LE (MRead PlReporter)).
Definition okm (t : nat) (x : mev) : Prop := ok t (HL (LE x)).

Lemma ok_user t u : okm t (MUser u).
Proof. intros p H. inversion H. Qed.
Lemma ok_lock t k : owner k = t -> okm t (MLock k).
Proof. intros E p H. inversion H; subst. left. reflexivity. Qed.
Lemma ok_unlock t k : owner k = t -> okm t (MUnlock k).
Proof. intros E p H. inversion H; subst. left. reflexivity. Qed.
Lemma ok_read t p : owned owner c0 t p -> okm t (MRead p).
Proof. intros E p' H. inversion H; subst. left. exact E. Qed.
Lemma ok_write t p : owned owner c0 t p -> okm t (MWrite p).
Proof. intros E p' H. inversion H; subst. left. exact E. Qed.
Lemma ok_kill t p : owned owner c0 t p -> ok t (HL (LKill p)).
Proof. intros E p' H. inversion H; subst. left. exact E. Qed.
Lemma ok_drop t q : owned owner c0 t (PlSeq q) -> ok t (HL (LDrop q)).
Proof. intros E p' H. inversion H; subst. left. exact E. Qed.
Lemma ok_coll_drop t k : owner k = t -> ok t (HDrop k).
Proof. intros E p' H. inversion H; subst. left. reflexivity. Qed.
Lemma ok_coll_kill t k : owner k = t -> ok t (HKill k).
Proof. intros E p' H. inversion H; subst. left. reflexivity. Qed.
Lemma ok_deliver t k : Forall (okm t) (deliver k).
Proof. unfold deliver. constructor; [intros p _; right; reflexivity|]. constructor; [apply ok_user|constructor]. Qed.

(** The objects of one expectation. *)
Definition whole (t e : nat) (ctl : control) : Prop := owned owner c0 t (PlCount e) /\ forall q, In q (map fst (c_seqs ctl)) -> owned owner c0 t (PlSeq q).

Lemma reads_of t e ctl : whole t e ctl -> Forall (okm t) (reads_seqs ctl).
Proof.
  intros [_ H]. apply Forall_forall. intros y Hy. unfold reads_seqs in Hy. apply in_map_iff in Hy. destruct Hy as ([q id] & <- & Hq).
  apply ok_read, H. apply in_map_iff. exists (q, id). auto.
Qed.
Lemma writes_of t e ctl : whole t e ctl -> Forall (okm t) (writes_seqs ctl).
Proof.
  intros [_ H]. apply Forall_forall. intros y Hy. unfold writes_seqs in Hy. apply in_map_iff in Hy. destruct Hy as ([q id] & <- & Hq).
  apply ok_write, H. apply in_map_iff. exists (q, id). auto.
Qed.
Lemma state_of t e ctl : whole t e ctl -> Forall (okm t) (state_events e ctl).
Proof. intros H. unfold state_events. constructor; [apply ok_read, H|]. destruct (_ =? _)%Z; [constructor|eapply reads_of; eauto]. Qed.
Lemma user_if t (b : bool) u : Forall (okm t) (if b then [MUser u] else []).
Proof. destruct b; [constructor; [apply ok_user|constructor]|constructor]. Qed.
Lemma describe_of t e ps : forall i, Forall (okm t) (describe_events e i ps).
Proof.
  induction ps as [|p ps IH]; intros i; cbn [describe_events]; [constructor|]. apply Forall_app. split; [apply user_if|].
  destruct (policy_describe p); auto.
Qed.
Lemma policies_of t e ci ps : forall i, Forall (okm t) (policy_events e i ps ci).
Proof.
  induction ps as [|p ps IH]; intros i; cbn [policy_events]; [constructor|]. apply Forall_app. split; [apply user_if|].
  destruct (policy_matches p ci); auto. apply Forall_app. split; [apply user_if|]. destruct (policy_describe p); auto.
Qed.
Lemma report_of t e x : whole t e (e_ctl x) -> Forall (okm t) (report_events e x).
Proof. intros H. unfold report_events. apply Forall_app; split; [eapply state_of; eauto|apply describe_of]. Qed.
Lemma visit_of t e x ss ci : whole t e (e_ctl x) -> Forall (okm t) (visit_events ss ci (e, x)).
Proof.
  intros H. unfold visit_events. apply Forall_app; split; [eapply state_of; eauto|]. apply Forall_app; split; [apply policies_of|].
  destruct (exp_matches _ _ _); auto. apply Forall_app. split; [apply report_of; auto|]. destruct (exp_report_of _ _); auto using ok_deliver.
Qed.
Lemma count_of t e ctl : whole t e ctl -> Forall (okm t) (count_events release e ctl).
Proof.
  intros H. unfold count_events. apply Forall_app; split; [|apply Forall_app; split; [|apply Forall_app; split]].
  - destruct release; [constructor|]. constructor; [apply ok_read, H|]. eapply reads_of; eauto.
  - eapply writes_of; eauto.
  - constructor; [apply ok_read, H|]. constructor; [apply ok_write, H|constructor].
  - destruct (_ || _); [eapply writes_of; eauto|constructor].
Qed.
Lemma remove_of t ss k e x : whole t e (e_ctl x) -> owner k = t -> Forall (okm t) (remove_events ss k e x).
Proof.
  intros H Hk. unfold remove_events. apply Forall_app; split; [|apply Forall_app; split].
  - constructor; [apply ok_lock; auto|]. constructor; [apply ok_read; exact Hk|]. constructor; [apply ok_write; exact Hk|]. constructor; [apply ok_read, H|constructor].
  - destruct (exp_is_satisfied x); [constructor|]. apply Forall_app; split; [apply report_of; auto|]. destruct (exp_report_of _ _); auto using ok_deliver.
  - constructor; [apply ok_unlock; auto|constructor].
Qed.
Lemma error_of t w s : Forall (okm t) (error_events w s).
Proof.
  unfold error_events. destruct s; auto. apply Forall_forall. intros y Hy. apply in_flat_map in Hy. destruct Hy as (v & _ & Hy).
  assert (F : Forall (okm t) (deliver KError)) by apply ok_deliver. rewrite Forall_forall in F.
  destruct v; try (cbn in Hy; contradiction). match type of Hy with context [match ?r with _ => _ end] => destruct r; try (cbn in Hy; contradiction) end. exact (F _ Hy).
Qed.
Lemma drops_of t w l : (forall q, In q l -> owned owner c0 t (PlSeq q)) -> Forall (fun y => ok t (HL y)) (drop_events w l).
Proof.
  induction l as [|q l IH]; intros H; cbn [drop_events]; [constructor|]. constructor; [apply ok_drop, H; left; reflexivity|].
  apply Forall_app. split; [|apply IH; intros q' Hq'; apply H; right; exact Hq'].
  destruct (_ || _); [constructor|]. unfold seq_end. constructor; [apply ok_kill, H; left; reflexivity|].
  destruct (nth_error (w_seqs w) q) as [s|]; [|constructor]. destruct (seq_dtor_error s); [|constructor]. apply Forall_map. apply ok_deliver.
Qed.
Lemma colls_of t w l : (forall k, In k l -> owner k = t) -> Forall (ok t) (drop_colls w l).
Proof.
  induction l as [|k l IH]; intros H; cbn [drop_colls]; [constructor|]. constructor; [apply ok_coll_drop, H; left; reflexivity|].
  apply Forall_app. split; [|apply IH; intros k' Hk'; apply H; right; exact Hk']. destruct (_ || _); [constructor|].
  constructor; [apply ok_coll_kill, H; left; reflexivity|constructor].
Qed.

(** ** Steps *)

Lemma whole_mine c t e x : during owner c0 c -> mine owner c0 t e -> exp_at (cw c) e x -> whole t e (e_ctl (eo_exp x)).
Proof.
  intros D M Hx. destruct (at_start _ _ _ _ _ D Hx) as (x0 & H0 & E & _). destruct M as (coll & Hl & Ho). split; [exists coll, x0; auto|].
  intros q Hq. rewrite <- E in Hq. exists coll, e, x0. auto.
Qed.

Lemma handle_of c t th h : during owner c0 c -> allowed owner c0 t (AOp (OEndScope h)) -> nth_error (c_threads c) t = Some th ->
  Forall (okm t) (handle_events (enter (cw c) th) h) /\ Forall (fun y => ok t (HL y)) (handle_ending (enter (cw c) th) h) /\
  forall k, In k (handle_coll (enter (cw c) th) h) -> owner k = t.
Proof.
  intros D (_ & _ & _ & He) Hth. destruct (He h eq_refl) as (e0 & H0 & M). unfold handle_events, handle_ending, handle_coll. cbn [w_scoped w_exps enter set_uncaught set_frames].
  destruct (nth_error (w_scoped (cw c)) h) as [[e| |]|] eqn:Hh; try (repeat split; try constructor; intros k []).
  apply (du_scoped _ _ _ D) in Hh. assert (e = e0) by congruence. subst e0. unfold end_events, Lifetime.ending. cbn [w_exps enter set_uncaught set_frames].
  destruct (nth_error (w_exps (cw c)) e) as [x|] eqn:Hx; [|repeat split; try constructor; intros k []].
  pose proof (whole_mine c t e x D M Hx) as W. pose proof (mine_coll_now owner c0 members c t e x D M Hx) as Ho.
  split; [apply remove_of; auto|]. split; [|intros k [<-|[]]; exact Ho].
  constructor; [apply ok_kill, W|]. apply drops_of. apply W.
Qed.

Lemma ev_ok c t a : during owner c0 c -> allowed owner c0 t a -> Forall (okm t) (ev_of release c t a).
Proof.
  intros D Al. pose proof Al as (Ha & Ho & Has & Hend). unfold ev_of. destruct (nth_error (c_threads c) t) as [th|] eqn:Hth; [|constructor].
  destruct (t_pending th) as [[[n ci] ne]|] eqn:Hpe, a as [o|m ov args l|]; try constructor.
  - cbn [w_exps enter set_uncaught set_frames]. destruct (nth_error (w_exps (cw c)) n) as [x|] eqn:Hx; [|constructor].
    apply count_of. eapply whole_mine; eauto. apply (du_pending _ _ _ D). exists th, ci, ne. auto.
  - destruct (is_call o); [constructor|]. destruct o; try destruct Ha; cbn [op_events]; try solve [constructor]; try solve [constructor; [apply ok_user|constructor]].
    + cbn [w_scoped enter set_uncaught set_frames]. destruct (nth_error (w_scoped (cw c)) _) as [[e| |]|] eqn:Hh; [constructor; [|constructor]|constructor|constructor|constructor].
      apply (du_scoped _ _ _ D) in Hh. apply ok_read. destruct (Has _ _ eq_refl Hh) as (coll & Hl & Hc). destruct (members _ _ Hl) as (x & Hx & _). exists coll, x. auto.
    + apply Forall_app. split; [eapply handle_of; eauto|apply error_of].
  - destruct (find_overload (enter (cw c) th) m ov) as [?|[s coll]] eqn:Hf; [constructor|]. cbv zeta. cbn [w_colls enter set_uncaught set_frames].
    destruct (nth_error (w_colls (cw c)) coll) as [lst|] eqn:Hlst; [|constructor].
    assert (Hown : owner coll = t).
    { apply (Ho m ov args l coll eq_refl). apply (uses_start owner c0 c); auto. exists s. exact Hf. }
    destruct (lookup_exps _ (rev lst)) as [es|] eqn:Hes; [|constructor].
    unfold match_events. apply Forall_app; split; [|apply Forall_app; split; [|apply Forall_app; split]].
    + constructor; [apply ok_lock; auto|]. constructor; [apply ok_read; exact Hown|constructor].
    + apply Forall_forall. intros y Hy. apply in_flat_map in Hy. destruct Hy as ([e ex] & Hin & Hy).
      destruct (lookup_exps_spec _ _ _ Hes) as [Hfst Hlk]. destruct (Hlk _ _ Hin) as (eo & He & ->).
      assert (M : mine owner c0 t e).
      { exists coll. split; auto. apply (du_listed _ _ _ D). exists lst. split; auto. apply in_rev. rewrite <- Hfst. apply in_map_iff. exists (e, eo_exp eo). auto. }
      match type of Hy with In _ (visit_events ?ss ?ci _) => pose proof (visit_of t e (eo_exp eo) ss ci (whole_mine c t e eo D M He)) as HF end.
      rewrite Forall_forall in HF. apply HF. exact Hy.
    + constructor; [apply ok_unlock; auto|constructor].
    + destruct (outcome_of _ _ _); [apply ok_deliver|constructor].
Qed.

Lemma full_ok c t a : during owner c0 c -> allowed owner c0 t a -> Forall (ok t) (full_of release c t a).
Proof.
  intros D Al. pose proof (ev_ok c t a D Al) as E. pose proof Al as (Ha & _). unfold full_of. apply Forall_app. split.
  - apply Forall_map. unfold life_of. unfold ev_of in E. destruct (nth_error (c_threads c) t) as [th|] eqn:Hth; [|constructor].
    assert (G : Forall (fun y => ok t (HL y)) (map LE (ev_of release c t a))) by (apply Forall_map; apply ev_ok; auto).
    destruct (t_pending th) as [[[n ci] ne]|] eqn:Hpe; [exact G|]. destruct a as [o|m ov args l|]; [|exact G|exact G]. clear G.
    destruct (is_call o); [constructor|]. apply Forall_app. split.
    + apply Forall_map. destruct o; try destruct Ha; cbn [before_endings]; try exact E. eapply handle_of; eauto.
    + unfold endings. destruct (step _ _); try constructor. destruct o; try constructor; try destruct Ha. eapply handle_of; eauto.
  - destruct (nth_error (c_threads c) t) as [th|] eqn:Hth; [|constructor]. destruct (t_pending th) as [[[n ci] ne]|]; [constructor|].
    destruct a as [o|m ov args l|]; try constructor. destruct (is_call o); [constructor|]. unfold coll_events. destruct (step _ _); try constructor.
    apply colls_of. destruct o; try destruct Ha; try (intros k []). cbn [let_go]. eapply handle_of; eauto.
Qed.

Lemma all_ok acts : forall c, all_allowed owner c0 acts -> during owner c0 c ->
  Forall (fun '(t, x) => okm t x) (events release c acts) /\
  Forall (fun '(t, _, y) => ok t (HL y)) (life release c acts) /\
  Forall (fun '(t, _, y) => ok t y) (full release c acts).
Proof.
  induction acts as [|[t a] acts IH]; intros c Ha D; cbn [events life full]; [repeat split; constructor|].
  assert (Al : allowed owner c0 t a) by (apply Ha; left; reflexivity). pose proof (ev_ok c t a D Al) as E. pose proof (full_ok c t a D Al) as F.
  assert (R : match cstep release c t a with
    | CNext c1 _ => Forall (fun '(t, x) => okm t x) (events release c1 acts) /\ Forall (fun '(t, _, y) => ok t (HL y)) (life release c1 acts) /\
                    Forall (fun '(t, _, y) => ok t y) (full release c1 acts)
    | _ => True end).
  { destruct (cstep release c t a) eqn:Hs; auto. apply IH; [intros t' a' Hin; apply Ha; right; exact Hin|]. eapply during_step; eauto. }
  split; [|split]; apply Forall_app; (split; [apply Forall_map|destruct (cstep release c t a); try constructor; apply R]).
  - exact E.
  - unfold full_of in F. apply Forall_app in F. destruct F as [F _]. rewrite Forall_map in F. exact F.
  - exact F.
Qed.

Lemma owned_one t t' p : owned owner c0 t p -> owned owner c0 t' p -> t = t'.
Proof.
  apply owned_once; [|exact seqs_ok]. intros coll e x Hl Hx. destruct (members _ _ Hl) as (y & Hy & E). unfold exp_at in *. congruence.
Qed.
End Places.
