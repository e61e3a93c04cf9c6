(** * FootProofs: operations touch nothing but their footprint. *)

From Verif Require Import Base Lib Sequence Control Signature Printer Reports Expectation Builder World WorldSpec MatchLemmas
  Conc ConcSpec ConcProofs Race RaceSpec RaceProofs Lifetime LifetimeSpec Colls CollsSpec Guarded GuardedSpec ScheduleSpec FootSpec.

Section Within.
Context (P : place -> Prop) (reporter : P PlReporter) (installs : Prop) (release : bool).

Definition within (y : hev) : Prop := (forall p, touched y p -> P p) /\ (changes PlReporter y -> installs).
Definition withinm (x : mev) : Prop := within (HL (LE x)).

Lemma within_user u : withinm (MUser u).
Proof. split; [intros p H; inversion H|intros [H|H]; discriminate]. Qed.
Lemma within_lock k : P (PlVector k) -> withinm (MLock k).
Proof. intros E. split; [intros p H; inversion H; subst; exact E|intros [H|H]; discriminate]. Qed.
Lemma within_unlock k : P (PlVector k) -> withinm (MUnlock k).
Proof. intros E. split; [intros p H; inversion H; subst; exact E|intros [H|H]; discriminate]. Qed.
Lemma within_read p : P p -> withinm (MRead p).
Proof. intros E. split; [intros p' H; inversion H; subst; exact E|intros [H|H]; discriminate]. Qed.
Lemma within_write p : P p -> p <> PlReporter -> withinm (MWrite p).
Proof. intros E N. split; [intros p' H; inversion H; subst; exact E|intros [H|H]; congruence]. Qed.
Lemma within_install : installs -> withinm (MWrite PlReporter).
Proof. intros E. split; [intros p' H; inversion H; subst; exact reporter|auto]. Qed.
Lemma within_kill p : P p -> p <> PlReporter -> within (HL (LKill p)).
Proof. intros E N. split; [intros p' H; inversion H; subst; exact E|intros [H|H]; congruence]. Qed.
Lemma within_drop q : P (PlSeq q) -> within (HL (LDrop q)).
Proof. intros E. split; [intros p' H; inversion H; subst; exact E|intros [H|H]; discriminate]. Qed.
Lemma within_deliver k : Forall withinm (deliver k).
Proof. unfold deliver. constructor; [apply within_read; exact reporter|]. constructor; [apply within_user|constructor]. Qed.

Definition all_of (e : nat) (ctl : control) : Prop := P (PlCount e) /\ forall q, In q (map fst (c_seqs ctl)) -> P (PlSeq q).

Lemma reads_within e ctl : all_of e ctl -> Forall withinm (reads_seqs ctl).
Proof.
  intros [_ H]. apply Forall_forall. intros y Hy. unfold reads_seqs in Hy. apply in_map_iff in Hy. destruct Hy as ([q id] & <- & Hq).
  apply within_read, H. apply in_map_iff. exists (q, id). auto.
Qed.
Lemma writes_within e ctl : all_of e ctl -> Forall withinm (writes_seqs ctl).
Proof.
  intros [_ H]. apply Forall_forall. intros y Hy. unfold writes_seqs in Hy. apply in_map_iff in Hy. destruct Hy as ([q id] & <- & Hq).
  apply within_write; [|discriminate]. apply H. apply in_map_iff. exists (q, id). auto.
Qed.
Lemma state_within e ctl : all_of e ctl -> Forall withinm (state_events e ctl).
Proof. intros H. unfold state_events. constructor; [apply within_read, H|]. destruct (_ =? _)%Z; [constructor|eapply reads_within; eauto]. Qed.
Lemma user_within (b : bool) u : Forall withinm (if b then [MUser u] else []).
Proof. destruct b; [constructor; [apply within_user|constructor]|constructor]. Qed.
Lemma describe_within e ps : forall i, Forall withinm (describe_events e i ps).
Proof.
  induction ps as [|p ps IH]; intros i; cbn [describe_events]; [constructor|]. apply Forall_app. split; [apply user_within|].
  destruct (policy_describe p); auto.
Qed.
Lemma policies_within e ci ps : forall i, Forall withinm (policy_events e i ps ci).
Proof.
  induction ps as [|p ps IH]; intros i; cbn [policy_events]; [constructor|]. apply Forall_app. split; [apply user_within|].
  destruct (policy_matches p ci); auto. apply Forall_app. split; [apply user_within|]. destruct (policy_describe p); auto.
Qed.
Lemma report_within e x : all_of e (e_ctl x) -> Forall withinm (report_events e x).
Proof. intros H. unfold report_events. apply Forall_app; split; [eapply state_within; eauto|apply describe_within]. Qed.
Lemma visit_within e x ss ci : all_of e (e_ctl x) -> Forall withinm (visit_events ss ci (e, x)).
Proof.
  intros H. unfold visit_events. apply Forall_app; split; [eapply state_within; eauto|]. apply Forall_app; split; [apply policies_within|].
  destruct (exp_matches _ _ _); auto. apply Forall_app. split; [apply report_within; auto|]. destruct (exp_report_of _ _); auto using within_deliver.
Qed.
Lemma count_within e ctl : all_of e ctl -> Forall withinm (count_events release e ctl).
Proof.
  intros H. unfold count_events. apply Forall_app; split; [|apply Forall_app; split; [|apply Forall_app; split]].
  - destruct release; [constructor|]. constructor; [apply within_read, H|]. eapply reads_within; eauto.
  - eapply writes_within; eauto.
  - constructor; [apply within_read, H|]. constructor; [apply within_write; [apply H|discriminate]|constructor].
  - destruct (_ || _); [eapply writes_within; eauto|constructor].
Qed.
Lemma remove_within ss k e x : all_of e (e_ctl x) -> P (PlVector k) -> Forall withinm (remove_events ss k e x).
Proof.
  intros H Hk. unfold remove_events. apply Forall_app; split; [|apply Forall_app; split].
  - constructor; [apply within_lock; auto|]. constructor; [apply within_read; exact Hk|]. constructor; [apply within_write; [exact Hk|discriminate]|]. constructor; [apply within_read, H|constructor].
  - destruct (exp_is_satisfied x); [constructor|]. apply Forall_app; split; [apply report_within; auto|]. destruct (exp_report_of _ _); auto using within_deliver.
  - constructor; [apply within_unlock; auto|constructor].
Qed.
Lemma expect_within k b : P (PlVector k) -> (forall q, In q (b_seqs b) -> P (PlSeq q)) -> Forall withinm (expect_events k b).
Proof.
  intros Hk Hq. unfold expect_events. apply Forall_app; split; [|apply Forall_app; split].
  - apply Forall_forall. intros y Hy. apply in_flat_map in Hy. destruct Hy as (q & Hin & [<-|[<-|[]]]); [apply within_read; auto|apply within_write; [auto|discriminate]].
  - destruct (_ || _); [|constructor]. apply Forall_forall. intros y Hy. apply in_map_iff in Hy. destruct Hy as (q & <- & Hin). apply within_write; [auto|discriminate].
  - constructor; [apply within_lock; auto|]. constructor; [apply within_read; auto|]. constructor; [apply within_write; [auto|discriminate]|]. constructor; [apply within_unlock; auto|constructor].
Qed.
Lemma drops_within w l : (forall q, In q l -> P (PlSeq q)) -> Forall (fun y => within (HL y)) (drop_events w l).
Proof.
  induction l as [|q l IH]; intros H; cbn [drop_events]; [constructor|]. constructor; [apply within_drop, H; left; reflexivity|].
  apply Forall_app. split; [|apply IH; intros q' Hq'; apply H; right; exact Hq'].
  destruct (_ || _); [constructor|]. unfold seq_end. constructor; [apply within_kill; [apply H; left; reflexivity|discriminate]|].
  destruct (nth_error (w_seqs w) q) as [s|]; [|constructor]. destruct (seq_dtor_error s); [|constructor]. apply Forall_map. apply within_deliver.
Qed.
Lemma colls_within w l : (forall k, In k l -> P (PlVector k)) -> Forall within (drop_colls w l).
Proof.
  induction l as [|k l IH]; intros H; cbn [drop_colls]; [constructor|].
  assert (Hk : P (PlVector k)) by (apply H; left; reflexivity). constructor; [split; [intros p Hp; inversion Hp; subst; exact Hk|intros [Q|Q]; discriminate]|].
  apply Forall_app. split; [|apply IH; intros k' Hk'; apply H; right; exact Hk']. destruct (_ || _); [constructor|].
  constructor; [split; [intros p Hp; inversion Hp; subst; exact Hk|intros [Q|Q]; discriminate]|constructor].
Qed.

Lemma handle_within c th h : (forall p, part_of_handle c h p -> P p) ->
  Forall withinm (handle_events (enter (cw c) th) h) /\ Forall (fun y => within (HL y)) (handle_ending (enter (cw c) th) h) /\
  forall k, In k (handle_coll (enter (cw c) th) h) -> P (PlVector k).
Proof.
  intros H. unfold handle_events, handle_ending, handle_coll. cbn [w_scoped w_exps enter set_uncaught set_frames].
  destruct (nth_error (w_scoped (cw c)) h) as [[e| |]|] eqn:Hh; try (repeat split; try constructor; intros k []).
  unfold end_events, Lifetime.ending. cbn [w_exps enter set_uncaught set_frames].
  destruct (nth_error (w_exps (cw c)) e) as [x|] eqn:Hx; [|repeat split; try constructor; intros k []].
  assert (A : all_of e (e_ctl (eo_exp x))).
  { split; [apply H; eapply ph_exp; [exact Hh|constructor]|]. intros q Hq. apply H. eapply ph_exp; [exact Hh|]. econstructor; [exact Hx|exact Hq]. }
  assert (Hk : P (PlVector (eo_coll x))) by (apply H; eapply ph_list; [exact Hh|exact Hx]).
  split; [apply remove_within; auto|]. split; [|intros k [<-|[]]; exact Hk].
  constructor; [apply within_kill; [apply A|discriminate]|]. apply drops_within. apply A.
Qed.

Lemma part_all c e x : (forall p, part_of c e p -> P p) -> exp_at (cw c) e x -> all_of e (e_ctl (eo_exp x)).
Proof. intros H Hx. split; [apply H; constructor|]. intros q Hq. apply H. econstructor; eauto. Qed.

Lemma before_within c th t o : (forall p, footprint c t (AOp o) p -> P p) -> (forall rp, o = OInstall rp -> installs) -> Forall withinm (before_endings (enter (cw c) th) o).
Proof.
  intros H HI. destruct o; cbn [before_endings op_events]; try solve [constructor]; try solve [constructor; [apply within_user|constructor]].
  - destruct (find_overload (enter (cw c) th) _ _) as [?|[s k]] eqn:Hf; [constructor|]. destruct (build s _ _) as [b| |] eqn:Hb; [|constructor|constructor].
    apply expect_within; [apply H; eapply fp_expect; [exact Hf|exact Hb]|]. intros q Hq. apply H. eapply fp_attach; [exact Hf|exact Hb|exact Hq].
  - cbn [w_scoped enter set_uncaught set_frames]. destruct (nth_error (w_scoped (cw c)) _) as [[e| |]|] eqn:Hh; [|constructor|constructor|constructor].
    constructor; [|constructor]. apply within_read, H. econstructor. exact Hh.
  - eapply handle_within. intros p Hp. apply H. constructor. exact Hp.
  - destruct (_ =? _) eqn:E; [constructor|]. eapply handle_within. intros p Hp. apply H. constructor; [apply Nat.eqb_neq; exact E|exact Hp].
  - constructor; [apply within_install; exact (HI _ eq_refl)|constructor].
Qed.

Lemma step_within c t a : (forall p, footprint c t a p -> P p) -> (forall rp, a = AOp (OInstall rp) -> installs) -> Forall within (full_of release c t a).
Proof.
  intros H HI. unfold full_of, life_of. destruct (nth_error (c_threads c) t) as [th|] eqn:Hth; [|constructor].
  destruct (t_pending th) as [[[n ci] ne]|] eqn:Hpe, a as [o|m ov args l|]; try rewrite app_nil_r;
    try (apply Forall_map, Forall_map; change (Forall withinm (ev_of release c t _)) || idtac; unfold ev_of; rewrite Hth, Hpe); try solve [constructor].
  - cbn [w_exps enter set_uncaught set_frames]. destruct (nth_error (w_exps (cw c)) n) as [x|] eqn:Hx; [|constructor].
    apply count_within. apply (part_all c n x); [|exact Hx]. intros p Hp. apply H. econstructor; [|exact Hp]. exists th, ci, ne. auto.
  - destruct (is_call o); [constructor|]. apply Forall_app. split; [apply Forall_map, Forall_app; split|].
    + apply Forall_map. apply (before_within c th t o H). intros rp ->. exact (HI _ eq_refl).
    + unfold endings. destruct (step _ _); try solve [constructor]. destruct o; try solve [constructor].
      * apply drops_within. intros q [<-|[]]. apply H. constructor.
      * eapply handle_within. intros p Hp. apply H. constructor. exact Hp.
      * destruct (_ =? _) eqn:E; [constructor|]. eapply handle_within. intros p Hp. apply H. constructor; [apply Nat.eqb_neq; exact E|exact Hp].
    + unfold coll_events. destruct (step _ _); try constructor. apply colls_within. intros k Hk. destruct o; cbn [let_go] in Hk; try destruct Hk.
      * destruct (_ =? _) eqn:E; [destruct Hk|]. apply H. constructor; [apply Nat.eqb_neq; exact E|exact Hk].
      * apply H. constructor. apply in_rev. exact Hk.
      * eapply handle_within; [|exact Hk]. intros p Hp. apply H. constructor. exact Hp.
      * destruct (_ =? _) eqn:E; [destruct Hk|]. eapply handle_within; [|exact Hk]. intros p Hp. apply H. constructor; [apply Nat.eqb_neq; exact E|exact Hp].
  - destruct (find_overload (enter (cw c) th) m ov) as [?|[s coll]] eqn:Hf; [constructor|]. cbv zeta. cbn [w_colls enter set_uncaught set_frames].
    destruct (nth_error (w_colls (cw c)) coll) as [lst|] eqn:Hlst; [|constructor].
    assert (Hu : uses_coll c m ov coll) by (exists s; exact Hf). assert (Hk : P (PlVector coll)) by (apply H; constructor; exact Hu).
    destruct (lookup_exps _ (rev lst)) as [es|] eqn:Hes; [|constructor].
    unfold match_events. apply Forall_app; split; [|apply Forall_app; split; [|apply Forall_app; split]].
    + constructor; [apply within_lock; auto|]. constructor; [apply within_read; exact Hk|constructor].
    + apply Forall_forall. intros y Hy. apply in_flat_map in Hy. destruct Hy as ([e ex] & Hin & Hy).
      destruct (lookup_exps_spec _ _ _ Hes) as [Hfst Hlk]. destruct (Hlk _ _ Hin) as (eo & He & ->).
      assert (M : listed c coll e).
      { exists lst. split; auto. apply in_rev. rewrite <- Hfst. apply in_map_iff. exists (e, eo_exp eo). auto. }
      match type of Hy with In _ (visit_events ?ss ?ci _) => assert (HF : Forall withinm (visit_events ss ci (e, eo_exp eo))) end.
      { apply visit_within. apply (part_all c e eo); [|exact He]. intros p Hp. apply H. eapply fp_member; eauto. }
      rewrite Forall_forall in HF. apply HF. exact Hy.
    + constructor; [apply within_unlock; auto|constructor].
    + destruct (outcome_of _ _ _); [apply within_deliver|constructor].
Qed.
End Within.
