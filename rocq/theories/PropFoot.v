(** * PropFoot: what operations touch, and programs with a mutex per object (C104). *)

From Verif Require Import Base Lib Sequence Control Signature Printer Reports Expectation Builder World WorldSpec WorldInv StepCases BuildProofs MatchLemmas Scenario
  Conc ConcSpec ConcProofs PropConc ConcOrder Race RaceSpec RaceProofs RaceFree Lifetime LifetimeSpec LifetimeProofs LifetimeOrder Colls CollsSpec
  Visits PropVisits ScheduleSpec ScheduleProofs Guarded GuardedSpec GuardedProofs PropGuarded FootSpec FootProofs.

(** ** The footprint *)

(** Whatever a step touches is part of its footprint, or the reporter. *)
Theorem C104_footprint release c t a y p : In y (full_of release c t a) -> touched y p -> footprint c t a p \/ p = PlReporter.
Proof.
  intros Hy Ht. pose proof (step_within (fun p => footprint c t a p \/ p = PlReporter) (or_intror eq_refl) True release c t a (fun p H => or_introl H) (fun _ _ => I)) as H.
  rewrite Forall_forall in H. exact (proj1 (H y Hy) p Ht).
Qed.

(** The reporter is replaced by the function for that only, and never destroyed. *)
Theorem C104_reporter release c t a y : In y (full_of release c t a) -> changes PlReporter y -> exists rp, a = AOp (OInstall rp).
Proof.
  intros Hy Hc. pose proof (step_within (fun _ => True) I (exists rp, a = AOp (OInstall rp)) release c t a (fun _ _ => I) (fun rp E => ex_intro _ rp E)) as H.
  rewrite Forall_forall in H. exact (proj2 (H y Hy) Hc).
Qed.

Lemma op_events_in c t o release th y : nth_error (c_threads c) t = Some th -> t_pending th = None -> is_call o = false ->
  In y (before_endings (enter (cw c) th) o) -> In (HL (LE y)) (full_of release c t (AOp o)).
Proof.
  intros Hth Hp Hc Hy. unfold full_of, life_of. rewrite Hth, Hp, Hc. apply in_or_app. left. apply in_map. apply in_or_app. left. apply in_map. exact Hy.
Qed.
Lemma endings_in c t o release th y : nth_error (c_threads c) t = Some th -> t_pending th = None -> is_call o = false ->
  In y (endings (enter (cw c) th) o) -> In (HL y) (full_of release c t (AOp o)).
Proof.
  intros Hth Hp Hc Hy. unfold full_of, life_of. rewrite Hth, Hp, Hc. apply in_or_app. left. apply in_map. apply in_or_app. right. exact Hy.
Qed.
Lemma colls_in c t o release th y : nth_error (c_threads c) t = Some th -> t_pending th = None -> is_call o = false ->
  In y (coll_events (enter (cw c) th) o) -> In y (full_of release c t (AOp o)).
Proof. intros Hth Hp Hc Hy. unfold full_of. rewrite Hth, Hp, Hc. apply in_or_app. right. exact Hy. Qed.
Lemma ev_in c t a release y : (forall o, a <> AOp o) -> In y (ev_of release c t a) -> In (HL (LE y)) (full_of release c t a).
Proof.
  intros Ha Hy. unfold full_of, life_of. pose proof Hy as Hy'. unfold ev_of in Hy. destruct (nth_error (c_threads c) t) as [th|]; [|destruct Hy].
  apply in_or_app. left. apply in_map. destruct (t_pending th) as [[[n ci] ne]|], a as [o|m ov args l|]; try (destruct (Ha _ eq_refl)); apply in_map; exact Hy'.
Qed.

Lemma drop_events_in w q l : In q l -> In (LDrop q) (drop_events w l).
Proof.
  induction l as [|s l IH]; [intros []|]. intros [->|H]; cbn [drop_events]; [left; reflexivity|]. right. apply in_or_app. right. auto.
Qed.
Lemma drop_colls_in w k l : In k l -> In (HDrop k) (drop_colls w l).
Proof.
  induction l as [|s l IH]; [intros []|]. intros [->|H]; cbn [drop_colls]; [left; reflexivity|]. right. apply in_or_app. right. auto.
Qed.

Lemma handle_touches c th h p : part_of_handle c h p -> (forall e, nth_error (w_scoped (cw c)) h = Some (HOwns e) -> exists x, exp_at (cw c) e x) ->
  (exists y, In y (handle_events (enter (cw c) th) h) /\ touched (HL (LE y)) p) \/ (exists y, In y (handle_ending (enter (cw c) th) h) /\ touched (HL y) p).
Proof.
  intros H E. unfold handle_events, handle_ending. cbn [w_scoped enter set_uncaught set_frames].
  destruct H as [e p Hh [|x q Hx Hq]|e x Hh Hx]; rewrite Hh; unfold end_events, Lifetime.ending; cbn [w_exps enter set_uncaught set_frames].
  - destruct (E e Hh) as (x & Hx). unfold exp_at in Hx. rewrite Hx. right. eexists. split; [left; reflexivity|constructor].
  - unfold exp_at in Hx. rewrite Hx. right. exists (LDrop q). split; [right; apply drop_events_in; exact Hq|constructor].
  - unfold exp_at in Hx. rewrite Hx. left. exists (MLock (eo_coll x)). split; [left; reflexivity|constructor].
Qed.

Lemma owns_exists c th h w' r o : step (enter (cw c) th) o = Next w' r -> (o = OEndScope h \/ exists src, o = OMoveAssignScoped h src /\ h <> src) ->
  forall e, nth_error (w_scoped (cw c)) h = Some (HOwns e) -> exists x, exp_at (cw c) e x.
Proof.
  intros Hs Ho e Hh. unfold exp_at. destruct (nth_error (w_exps (cw c)) e) as [x|] eqn:Hx; [eauto|]. exfalso.
  destruct Ho as [->|(src & -> & Hne)]; cbn [step] in Hs; cbn [w_scoped enter set_uncaught set_frames] in Hs; rewrite ?Hh in Hs.
  - unfold end_expectation in Hs. cbn [w_exps set_scoped enter set_uncaught set_frames] in Hs. rewrite Hx in Hs. discriminate.
  - destruct (nth_error (w_scoped (cw c)) src) as [[e'| |]|]; try discriminate; apply Nat.eqb_neq in Hne; rewrite ?Hne in Hs; cbn [negb] in Hs;
      unfold end_expectation in Hs; cbn [w_exps set_scoped enter set_uncaught set_frames] in Hs; rewrite ?Hx in Hs; discriminate.
Qed.

(** And a step which succeeds does touch its footprint; only the sequences of expectations which take no further calls are not looked at by a call. *)
Theorem C104_footprint_is_touched release c t a c' r p : cstep release c t a = CNext c' r -> footprint c t a p ->
  (forall m ov args l q, a = AMatch m ov args l -> p <> PlSeq q) -> exists y, In y (full_of release c t a) /\ touched y p.
Proof.
  intros H F NS. destruct F as [m ov args l k Hu|m ov args l k e p Hu Hl Hp|e p Hpe Hp|m ov ms cls l s k b Hf Hb|m ov ms cls l s k b q Hf Hb Hq|h e Hh|h p Hp|dst src p Hne Hp|s|m k Hk|dst src k Hne Hk].
  - exists (HL (LE (MRead (PlVector k)))). split; [|constructor]. apply ev_in; [discriminate|].
    pose proof (cstep_match _ _ _ _ _ _ _ _ _ H) as (th & s' & coll' & Hth & Hp & Hf' & Hlen & D). destruct Hu as (s & Hf).
    unfold ev_of. rewrite Hth, Hp. change (find_overload (enter (cw c) th) m ov) with (find_overload (cw c) m ov) in *. rewrite Hf in *. injection Hf' as <- <-. cbv zeta.
    destruct (nth_error (w_colls (enter (cw c) th)) k) as [lst|] eqn:Hlst.
    2:{ exfalso. destruct D as [(w' & n & Hm & _)|(w' & Hm & _)]; unfold match_call in Hm; rewrite Hlst in Hm; discriminate. }
    destruct (lookup_exps (enter (cw c) th) (rev lst)) as [es|] eqn:E.
    2:{ exfalso. destruct D as [(w' & n & Hm & _)|(w' & Hm & _)]; unfold match_call in Hm; rewrite Hlst, E in Hm; discriminate. }
    right. left. reflexivity.
  - destruct Hp as [|x q Hx Hq]; [|destruct (NS _ _ _ _ _ eq_refl eq_refl)]. exists (HL (LE (MRead (PlCount e)))). split; [|constructor].
    apply ev_in; [discriminate|]. eapply match_accesses; eauto.
  - pose proof (cstep_count _ _ _ _ _ H) as (th & n & ci & ne & x & _ & _ & _ & Hth & Hpe' & Hx & _).
    assert (e = n) by (destruct Hpe as (th' & ci' & ne' & Hth' & Hp'); congruence). subst n.
    destruct (count_accesses release c t e x Hpe Hx) as [A B]. destruct Hp as [|x' q Hx' Hq].
    + eexists. split; [apply ev_in; [discriminate|exact A]|constructor].
    + assert (x' = x) by (unfold exp_at in *; congruence). subst x'. eexists. split; [apply ev_in; [discriminate|exact (B q Hq)]|constructor].
  - pose proof (cstep_op _ _ _ _ _ _ H) as (th & v & Hth & Hpe & Hc & Hs & _). exists (HL (LE (MLock k))). split; [|constructor]. eapply op_events_in; eauto.
    cbn [before_endings op_events]. change (find_overload (enter (cw c) th) m ov) with (find_overload (cw c) m ov). rewrite Hf, Hb.
    unfold expect_events. apply in_or_app. right. apply in_or_app. right. left. reflexivity.
  - pose proof (cstep_op _ _ _ _ _ _ H) as (th & v & Hth & Hpe & Hc & Hs & _). exists (HL (LE (MWrite (PlSeq q)))). split; [|constructor]. eapply op_events_in; eauto.
    cbn [before_endings op_events]. change (find_overload (enter (cw c) th) m ov) with (find_overload (cw c) m ov). rewrite Hf, Hb.
    unfold expect_events. apply in_or_app. left. apply in_flat_map. exists q. split; auto. right. left. reflexivity.
  - pose proof (cstep_op _ _ _ _ _ _ H) as (th & v & Hth & Hpe & Hc & Hs & _). exists (HL (LE (MRead (PlCount e)))). split; [|constructor]. eapply op_events_in; eauto.
    cbn [before_endings op_events w_scoped enter set_uncaught set_frames]. rewrite Hh. left. reflexivity.
  - pose proof (cstep_op _ _ _ _ _ _ H) as (th & v & Hth & Hpe & Hc & Hs & _). destruct (handle_touches c th h p Hp (owns_exists c th h _ _ _ Hs (or_introl eq_refl))) as [(y & Hy & T)|(y & Hy & T)].
    + eexists. split; [eapply op_events_in; eauto|exact T].
    + eexists. split; [eapply endings_in; eauto|exact T]. unfold endings. rewrite Hs. exact Hy.
  - pose proof (cstep_op _ _ _ _ _ _ H) as (th & v & Hth & Hpe & Hc & Hs & _).
    destruct (handle_touches c th dst p Hp (owns_exists c th dst _ _ _ Hs (or_intror (ex_intro _ src (conj eq_refl Hne))))) as [(y & Hy & T)|(y & Hy & T)]; apply Nat.eqb_neq in Hne.
    + eexists. split; [eapply op_events_in; eauto|exact T]. cbn [before_endings]. rewrite Hne. exact Hy.
    + eexists. split; [eapply endings_in; eauto|exact T]. unfold endings. rewrite Hs, Hne. exact Hy.
  - pose proof (cstep_op _ _ _ _ _ _ H) as (th & v & Hth & Hpe & Hc & Hs & _). exists (HL (LDrop s)). split; [|constructor]. eapply endings_in; eauto.
    unfold endings. rewrite Hs. apply drop_events_in. left. reflexivity.
  - pose proof (cstep_op _ _ _ _ _ _ H) as (th & v & Hth & Hpe & Hc & Hs & _). exists (HDrop k). split; [|constructor]. eapply colls_in; eauto.
    unfold coll_events. rewrite Hs. apply drop_colls_in. cbn [let_go]. apply in_rev in Hk. exact Hk.
  - pose proof (cstep_op _ _ _ _ _ _ H) as (th & v & Hth & Hpe & Hc & Hs & _). exists (HDrop k). split; [|constructor]. eapply colls_in; eauto.
    unfold coll_events. rewrite Hs. apply drop_colls_in. cbn [let_go]. apply Nat.eqb_neq in Hne. rewrite Hne. exact Hk.
Qed.

(** ** What operations change *)

Lemma add_entries_keep tags : forall ss r en, add_entries ss tags = Ret (r, en) -> forall q, ~ In q tags -> nth_error r q = nth_error ss q.
Proof.
  induction tags as [|s tags IH]; intros ss r en H q Hq; cbn [add_entries] in H; [injection H as <- _; reflexivity|]. unfold with_seq in H.
  destruct (nth_error ss s) as [sq|] eqn:Hs; [|discriminate]. destruct (seq_add sq) as [[q' id]|x| |u]; cbn [obind] in H; try discriminate.
  destruct (add_entries (upd ss s q') tags) as [[ss2 en2]|x| |u] eqn:E; cbn [obind] in H; try discriminate. injection H as <- <-.
  rewrite (IH _ _ _ E) by (intros Hin; apply Hq; right; exact Hin). apply nth_error_upd_neq. intros ->. apply Hq. left. reflexivity.
Qed.

Lemma control_new_keeps ss t tags r c : control_new ss t tags = Ret (r, c) -> forall q, ~ In q tags -> nth_error r q = nth_error ss q.
Proof.
  intros H q Hq. pose proof (control_new_parts _ _ _ _ _ H) as (_ & _ & _ & Etags). unfold control_new, make_sequence_entries in H.
  destruct (add_entries ss tags) as [[ss1 en]|x| |u] eqn:E; cbn [obind noexcept_of] in H; try discriminate.
  destruct (control_update ss1 _) as [ss2|x| |u] eqn:E2; cbn [obind noexcept_of] in H; try discriminate. injection H as <- <-. cbn [c_seqs] in Etags.
  rewrite <- (add_entries_keep _ _ _ _ E q Hq). unfold control_update in E2. cbn [c_seqs c_count c_min c_max] in E2.
  repeat match type of E2 with context [if ?b then _ else _] => destruct b end; try (injection E2 as <-; reflexivity);
    apply for_each_keeps in E2; apply E2; rewrite Etags; exact Hq.
Qed.

(** A step does not change objects outside its footprint. *)
Theorem C104_frame release c t a c' r p : cstep release c t a = CNext c' r -> exists_at c p -> ~ footprint c t a p -> same_at c c' p.
Proof.
  intros H X F. destruct a as [o|m ov args l|].
  - pose proof (cstep_op _ _ _ _ _ _ H) as (th & v & Hth & Hpe & Hc & Hs & ->). destruct p as [k|e|q|]; cbn [same_at exists_at cw leave w_colls w_exps w_seqs set_uncaught set_frames] in *; auto.
    + destruct (nth_error (w_colls (cw c)) k) as [l|] eqn:Hk; [|apply nth_error_None in Hk; lia].
      destruct (step_colls _ _ _ _ Hs Hc k l Hk) as [W|E]; [|auto]. exfalso. apply F. destruct o; cbn [wants] in W; try destruct W.
      * change (find_overload (enter (cw c) th) m ov) with (find_overload (cw c) m ov) in W. destruct (find_overload (cw c) m ov) as [?|[s coll]] eqn:Hf; [destruct W|].
        destruct (build s _ _) as [b| |] eqn:Hb; [|destruct W|destruct W]. destruct W as [->|[]]. eapply fp_expect; eauto.
      * unfold wants_handle in W. cbn [w_scoped w_exps enter set_uncaught set_frames] in W. destruct (nth_error (w_scoped (cw c)) h) as [[e| |]|] eqn:Hh; try destruct W.
        destruct (nth_error (w_exps (cw c)) e) as [x|] eqn:Hx; [|destruct W]. destruct W as [<-|[]]. constructor. eapply ph_list; eauto.
      * destruct (_ =? _) eqn:Ne; [destruct W|]. unfold wants_handle in W. cbn [w_scoped w_exps enter set_uncaught set_frames] in W. destruct (nth_error (w_scoped (cw c)) dst) as [[e| |]|] eqn:Hh; try destruct W.
        destruct (nth_error (w_exps (cw c)) e) as [x|] eqn:Hx; [|destruct W]. destruct W as [<-|[]]. constructor; [apply Nat.eqb_neq; exact Ne|]. eapply ph_list; eauto.
    + destruct (nth_error (w_exps (cw c)) e) as [x|] eqn:Hx; [|apply nth_error_None in Hx; lia]. destruct (step_keeps _ _ _ _ Hs Hc) as [Hk _].
      destruct (Hk e x Hx) as (x' & Hx' & _ & E). unfold exp_at in Hx'. cbn [option_map]. rewrite Hx'. cbn [option_map]. rewrite E. reflexivity.
    + symmetry. apply step_change in Hs. destruct Hs.
      * rewrite H0. reflexivity.
      * subst v. cbn. apply nth_error_app1. exact X.
      * subst v. reflexivity.
      * subst o v. change (nth_error ss q = nth_error (w_seqs (cw c)) q). eapply control_new_keeps; eauto. intros Hin. apply F. eapply fp_attach; eauto.
      * subst o. discriminate.
      * destruct H0 as [sc ->]. subst v. reflexivity.
  - apply cstep_match_core in H. destruct H as [Hc _]. destruct (core_exps _ _ Hc) as (E1 & E2 & E3). destruct p; cbn [same_at]; rewrite ?E1, ?E2, ?E3; auto.
  - pose proof (cstep_count _ _ _ _ _ H) as (th & n & ci & ne & x & v & ss & ctl & Hth & Hp & Hx & Ha & Hcons & _ & Hcc & _ & -> & Hex).
    assert (Hpe : pending_exp c t n) by (exists th, ci, ne; auto).
    destruct p as [k|e|q|]; cbn [same_at exists_at cw leave w_colls w_exps w_seqs set_uncaught set_frames] in *; auto.
    + rewrite (count_colls _ _ _ _ _ _ _ Hcc). reflexivity.
    + destruct (Nat.eq_dec e n) as [->|Hne]; [exfalso; apply F; econstructor; [exact Hpe|constructor]|]. rewrite Hex, nth_error_upd_neq by auto. reflexivity.
    + assert (Es : w_seqs v = ss).
      { unfold count_call in Hcc. cbn [w_exps w_seqs enter set_uncaught set_frames] in Hcc. unfold exp_at in Hx. unfold ctl_of in Hcons. rewrite Hx, Ha in Hcc. cbn [negb] in Hcc. rewrite Hcons in Hcc.
        destruct (consume_asserts _ _) as [[]|y| |u]; try discriminate; injection Hcc as <-; reflexivity. }
      rewrite Es. symmetry. destruct (consume_keeps _ _ _ _ _ Hcons) as (_ & K & _). apply K. intros Hin. apply F. econstructor; [exact Hpe|]. econstructor; [exact Hx|exact Hin].
Qed.

(** ** A mutex per object *)

Lemma locks_app release cov f A : forall g g1 B, locks release cov f g (A ++ B) -> gruns release g A g1 -> locks release cov f g1 B.
Proof.
  induction A as [|[t x] A IH]; intros g g1 B H R; inversion R; subst; auto. inversion H; subst.
  match goal with E : gstep _ _ _ _ = _, E' : gstep _ _ _ _ = _ |- _ => rewrite E in E'; injection E' as <- _ end. eauto.
Qed.

Lemma touches_touched p y : touches p y -> touched y p.
Proof. intros [->|[->| ->]]; constructor. Qed.

(** In a program which holds a mutex of its own for each object it may touch, objects are not part of any data race; the mutexes of
    different objects may be different. *)
Theorem C104_locked_objects_never_race release n cov f acts g p : gruns release (ginit n) acts g -> locks release cov f (ginit n) acts ->
  cov p -> p <> PlReporter -> ~ any_race (gevents release (ginit n) acts) p.
Proof.
  intros R L Hp Hr. apply (C102_protected_places_never_race release n (f p) p acts g R). clear R. revert L. generalize (ginit n).
  induction acts as [|[t x] acts IH]; intros g0 L; [constructor|].
  inversion L as [|g1 t1 x1 g1' r1 acts1 Hs Hok Hg]; subst. econstructor; [exact Hs| |apply IH; exact Hg]. intros (y & Hy & T).
  destruct x as [m0|m0|a]; [destruct Hy as [Hy|[]]; discriminate|destruct Hy as [Hy|[]]; discriminate|].
  cbn [gev_of] in Hy. apply in_map_iff in Hy. destruct Hy as (y' & E & Hy). injection E as ->.
  destruct (C104_footprint _ _ _ _ _ _ Hy (touches_touched _ _ T)) as [F|F]; [|congruence]. exact (Hok a p eq_refl F Hp).
Qed.

(** Nor are lists destroyed while another thread uses them. *)
Theorem C104_locked_lists_never_race release n cov f acts g k : gruns release (ginit n) acts g -> locks release cov f (ginit n) acts ->
  cov (PlVector k) -> ~ list_race (gevents release (ginit n) acts) k.
Proof.
  intros R L Hp (i & j & t & t' & a & b & x & Hi & Hj & Hne & Hx & N1 & N2).
  assert (K : forall A B g1 q s c z, acts = A ++ (s, c) :: B -> gruns release (ginit n) A g1 -> nth_error (gev_of release g1 s c) q = Some (GE z) -> touched z (PlVector k) -> has g1 (f (PlVector k)) s).
  { intros A B g1 q s c z -> RA Hk T. destruct (gev_lib _ _ _ _ _ _ Hk) as [a0 ->]. pose proof (locks_app _ _ _ _ _ _ _ L RA) as P'.
    inversion P' as [|g0 t0 x0 g0' r0 acts0 Hs0 Hp0 Hr0]; subst. apply nth_error_In in Hk. cbn [gev_of] in Hk. apply in_map_iff in Hk. destruct Hk as (y' & E & Hy). injection E as ->.
    destruct (C104_footprint _ _ _ _ _ _ Hy T) as [F|F]; [|discriminate]. exact (Hp0 a0 _ eq_refl F Hp). }
  assert (T1 : touched (HL (LE x)) (PlVector k)) by (destruct Hx as [<-|[<-|[<-|[<-|[]]]]]; constructor).
  assert (T2 : touched (HKill k) (PlVector k)) by constructor.
  destruct (Nat.lt_trichotomy i j) as [Lt|[Lt|Lt]].
  - apply N1. eapply pair_ordered; eauto. intros A B g1 q s c z E RA Hk [[-> _]|[-> _]]; eauto.
  - subst. rewrite Hi in Hj. congruence.
  - apply N2. eapply (pair_ordered release n acts g j i t' t b a _ _); eauto. intros A B g1 q s c z E RA Hk [[-> _]|[-> _]]; eauto.
Qed.

(** While nobody installs another one, the reporter is not part of any data race either, without any mutex. *)
Theorem C104_reporter_never_races release n acts g : gruns release (ginit n) acts g -> (forall t rp, ~ In (t, GDo (AOp (OInstall rp))) acts) ->
  ~ any_race (gevents release (ginit n) acts) PlReporter.
Proof.
  intros R N (i & j & t & t' & a & b & x & y & Hi & Hj & Hne & _ & _ & C & _).
  assert (K : forall k s d z, nth_error (gevents release (ginit n) acts) k = Some (s, d, GE z) -> ~ changes PlReporter z).
  { clear -R N. revert R N. generalize (ginit n). induction acts as [|[s0 d0] acts IH]; intros g0 R N k s d z Hk Hz; [destruct k; discriminate|].
    inversion R as [|? ? ? g1 r ? ? Hs R']; subst. rewrite (gevents_cons _ _ _ _ _ _ _ Hs) in Hk. apply nth_error_In, in_app_or in Hk. destruct Hk as [Hk|Hk].
    - apply in_map_iff in Hk. destruct Hk as (y & E & Hy). injection E as -> -> ->. destruct d as [m|m|a]; cbn [gev_of] in Hy; [destruct Hy as [Hy|[]]; discriminate|destruct Hy as [Hy|[]]; discriminate|].
      apply in_map_iff in Hy. destruct Hy as (y & E & Hy). injection E as ->. destruct (C104_reporter _ _ _ _ _ Hy Hz) as [rp ->]. exact (N s rp (or_introl eq_refl)).
    - apply In_nth_error in Hk. destruct Hk as [k' Hk]. exact (IH g1 R' (fun t rp H => N t rp (or_intror H)) k' s d z Hk Hz). }
  destruct C as [C|C]; [exact (K _ _ _ _ Hi C)|exact (K _ _ _ _ Hj C)].
Qed.

(** ** Limits *)

Record within_limits (release : bool) (f : place -> nat) (g : gworld) : Prop := mkWL {
  wl_inv : CInv release (gc g);
  wl_held : HU g;
  wl_max : forall e x, exp_at (cw (gc g)) e x -> (c_count (ctl_of x) <= c_max (ctl_of x))%Z;
  wl_kept : forall t e, pending_exp (gc g) t e -> has g (f (PlCount e)) t;
  wl_less : forall t e x, pending_exp (gc g) t e -> exp_at (cw (gc g)) e x -> (c_count (ctl_of x) < c_max (ctl_of x))%Z
}.

Lemma pending_leave c t w p log t' e : pending_exp (leave c t w p log) t' e -> (t' = t /\ exists ci ne, p = Some (e, ci, ne)) \/ pending_exp c t' e.
Proof.
  intros (th & ci & ne & Hth & Hp). destruct (upd_threads _ _ _ _ _ _ _ Hth) as [[-> E]|H0]; [left; split; auto; exists ci, ne; congruence|right; exists th, ci, ne; auto].
Qed.

Lemma limits_do release cov f g t a c' r : (forall e, cov (PlCount e)) -> within_limits release f g -> cstep release (gc g) t a = CNext c' r ->
  (forall p, footprint (gc g) t a p -> cov p -> has g (f p) t) -> within_limits release f (mkG c' (g_held g)).
Proof.
  intros Hcov [I U M K L] H F. pose proof (cinv_step _ _ _ _ _ _ I H) as I'. destruct a as [o|m ov args l|].
  - pose proof (cstep_op _ _ _ _ _ _ H) as (th & v & Hth & Hpe & Hc & Hs & ->). destruct (step_keeps _ _ _ _ Hs Hc) as [Hk Hn].
    assert (P : forall t' e, pending_exp (leave (gc g) t v None (c_log (gc g))) t' e -> pending_exp (gc g) t' e).
    { intros t' e Hp. destruct (pending_leave _ _ _ _ _ _ _ Hp) as [[_ (ci & ne & E)]|Hp']; [discriminate|exact Hp']. }
    assert (B : forall e x', exp_at v e x' -> (exists x, exp_at (cw (gc g)) e x /\ ctl_of x' = ctl_of x) \/ (c_count (ctl_of x') = 0%Z /\ (0 <= c_max (ctl_of x'))%Z)).
    { intros e x' Hx'. destruct (nth_error (w_exps (cw (gc g))) e) as [x|] eqn:Hx.
      - left. destruct (Hk e x Hx) as (x0 & Hx0 & _ & E). exists x. split; auto. assert (x' = x0) by (unfold exp_at in *; congruence). subst x0. exact E.
      - right. apply Hn with e; auto. apply nth_error_None in Hx. exact Hx. }
    constructor; auto.
    + intros e x' Hx'. destruct (B e x' Hx') as [(x & Hx & ->)|[E1 E2]]; [apply (M _ _ Hx)|lia].
    + intros t' e Hp. exact (K _ _ (P _ _ Hp)).
    + intros t' e x' Hp Hx'. pose proof (P _ _ Hp) as Hp0. destruct Hp0 as (th0 & ci & ne & Hth0 & Ht0).
      destruct (ci_pending _ _ I _ _ _ _ _ Hth0 Ht0) as (x & Hx & _). destruct (Hk e x Hx) as (x0 & Hx0 & _ & E).
      assert (x' = x0) by (unfold exp_at in *; cbn [gc cw leave w_exps set_uncaught set_frames] in *; congruence). subst x0. unfold ctl_of. rewrite E. apply (L t' e x (P _ _ Hp) Hx).
  - pose proof (cstep_match_core _ _ _ _ _ _ _ _ _ H) as [Hc _]. destruct (core_exps _ _ Hc) as (E1 & E2 & E3).
    pose proof (cstep_match _ _ _ _ _ _ _ _ _ H) as (th & s & coll & Hth & Hpe & Hf & Hlen & D).
    assert (N : forall t' e, pending_exp c' t' e -> pending_exp (gc g) t' e \/
      (t' = t /\ listed (gc g) coll e /\ exists x, exp_at (cw (gc g)) e x /\ c_count (ctl_of x) <> c_max (ctl_of x))).
    { intros t' e Hp. destruct D as [(w' & n & Hm & _ & ->)|(w' & Hm & ->)]; destruct (pending_leave _ _ _ _ _ _ _ Hp) as [[-> (ci & ne & E)]|Hp']; auto; [|discriminate].
      injection E as <- _ _. right. split; auto. split; [exact (match_listed _ _ _ _ _ _ Hm)|]. destruct (match_chosen _ _ _ _ _ _ Hm) as (_ & x & Hx & _ & st & Hst & A). exists x. split; [exact Hx|].
      unfold control_state_of in Hst. intros E. rewrite E, Z.eqb_refl in Hst. injection Hst as <-. exact A. }
    constructor; auto; cbn [gc].
    + intros e x Hx. unfold exp_at in Hx. rewrite E1 in Hx. exact (M _ _ Hx).
    + intros t' e Hp. destruct (N _ _ Hp) as [Hp'|(-> & Hl & _)]; [exact (K _ _ Hp')|]. apply (F (PlCount e)); [|apply Hcov].
      eapply fp_member; [exists s; exact Hf|exact Hl|constructor].
    + intros t' e x Hp Hx. unfold exp_at in Hx. rewrite E1 in Hx. destruct (N _ _ Hp) as [Hp'|(-> & Hl & x0 & Hx0 & Hne)]; [exact (L _ _ _ Hp' Hx)|].
      assert (x0 = x) by (unfold exp_at in *; congruence). subst x0. pose proof (M _ _ Hx). lia.
  - pose proof (cstep_count _ _ _ _ _ H) as (th & n & ci & ne & x & v & ss & ctl & Hth & Hp & Hx & Ha & Hcons & _ & Hcc & _ & -> & Hex).
    assert (Hpe : pending_exp (gc g) t n) by (exists th, ci, ne; auto). destruct (consume_with_counts _ _ _ _ _ Hcons) as (C1 & C2 & _). pose proof (L _ _ _ Hpe Hx) as Lx.
    assert (P : forall t' e, pending_exp (leave (gc g) t v None (c_log (gc g) ++ [(t, n, ci)])) t' e -> pending_exp (gc g) t' e /\ t' <> t).
    { intros t' e Hq. destruct Hq as (th' & ci' & ne' & Hth' & Hp'). assert (Hne : t' <> t).
      { intros ->. cbn [c_threads leave] in Hth'. rewrite nth_error_upd_eq in Hth' by (eapply nth_error_lt; eauto). injection Hth' as <-. discriminate. }
      split; auto. cbn [c_threads leave] in Hth'. rewrite nth_error_upd_neq in Hth' by auto. exists th', ci', ne'. auto. }
    constructor; auto; cbn [gc].
    + intros e y Hy. unfold exp_at in Hy. cbn [cw leave w_exps set_uncaught set_frames] in Hy. rewrite Hex in Hy. destruct (Nat.eq_dec e n) as [->|Hne].
      * rewrite nth_error_upd_eq in Hy by (eapply nth_error_lt; eauto). injection Hy as <-. unfold ctl_of. cbn [eo_exp with_ctl e_ctl]. rewrite C1, C2. lia.
      * rewrite nth_error_upd_neq in Hy by auto. exact (M _ _ Hy).
    + intros t' e Hq. exact (K _ _ (proj1 (P _ _ Hq))).
    + intros t' e y Hq Hy. destruct (P _ _ Hq) as [Hq' Hne]. unfold exp_at in Hy. cbn [cw leave w_exps set_uncaught set_frames] in Hy. rewrite Hex in Hy.
      destruct (Nat.eq_dec e n) as [->|Hen].
      * exfalso. apply Hne. exact (has_one _ _ _ _ U (K _ _ Hq') (K _ _ Hpe)).
      * rewrite nth_error_upd_neq in Hy by auto. exact (L _ _ _ Hq' Hy).
Qed.

Lemma limits_run release (cov : place -> Prop) f acts : (forall e, cov (PlCount e)) -> forall g g', within_limits release f g -> gruns release g acts g' ->
  locks release cov f g acts -> keeps release cov f g acts -> within_limits release f g'.
Proof.
  intros Hcov. induction acts as [|[t x] acts IH]; intros g g' W R L K; inversion R; subst; [exact W|]. inversion L; subst. inversion K; subst.
  repeat match goal with E : gstep _ g t x = GNext ?a _, E' : gstep _ g t x = GNext ?b _ |- _ => rewrite E in E'; injection E' as <- <- end.
  assert (W1 : within_limits release f g1); [|eapply IH; eauto].
  match goal with E : gstep _ g t x = GNext g1 _ |- _ => rename E into Hs end.
  assert (G : forall h, gc g1 = gc g -> (forall t' e, pending_exp (gc g) t' e -> ~ (x = GUnlock (f (PlCount e)) /\ t' = t)) -> h = g1 -> within_limits release f h).
  { intros h E Hk ->. pose proof (gstep_hu _ _ _ _ _ _ (wl_held _ _ _ W) Hs) as U. destruct W as [I U0 M Kp Ls]. constructor; rewrite ?E; auto.
    intros t' e Hp. apply (gstep_has _ _ _ _ _ _ (f (PlCount e)) t' U0 Hs). left. split; [exact (Kp _ _ Hp)|exact (Hk _ _ Hp)]. }
  destruct x as [m|m|a].
  - apply (G g1); auto; [cbn [gstep] in Hs; destruct (holder g m) as [t'|]; [destruct (t' =? t); discriminate|]; injection Hs as <- _; reflexivity|]. intros t' e _ [Q _]. discriminate.
  - apply (G g1); auto; [cbn [gstep] in Hs; destruct (holder g m) as [t'|]; [|discriminate]; destruct (t' =? t); [|discriminate]; injection Hs as <- _; reflexivity|].
    intros t' e Hp [Q ->]. injection Q as Q. match goal with Hk : forall m0 e p, GUnlock m = GUnlock m0 -> _ |- _ => exact (Hk m e _ eq_refl Hp (po_count _ _) (Hcov e) (eq_sym Q)) end.
  - cbn [gstep] in Hs. destruct (cstep release (gc g) t a) as [c' r0| | |] eqn:Hc; try discriminate. injection Hs as <- <-. eapply limits_do; eauto.
Qed.

Lemma limits_init release f n : within_limits release f (ginit n).
Proof.
  constructor; [apply cinv_init|apply hu_init| | |]; cbn [ginit gc cinit cw].
  - intros e x Hx. destruct e; discriminate.
  - intros t e (th & ci & ne & Hth & Hp). apply nth_error_In in Hth. cbn [c_threads cinit] in Hth. apply repeat_spec in Hth. subst. discriminate.
  - intros t e x _ Hx. destruct e; discriminate.
Qed.

(** If each expectation is locked by whoever may touch it, and stays locked from the matching to the counting of a call, its upper limit
    is never exceeded, with or without NDEBUG. *)
Theorem C104_limit release n cov f acts g e x : gruns release (ginit n) acts g -> locks release cov f (ginit n) acts -> keeps release cov f (ginit n) acts ->
  (forall k, cov (PlCount k)) -> exp_at (cw (gc g)) e x -> (Z.of_nat (counted (gc g) e) <= x_max x)%Z.
Proof.
  intros R L K Hcov Hx. pose proof (limits_run _ _ _ _ Hcov _ _ (limits_init release f n) R L K) as W.
  rewrite <- (ci_count _ _ (wl_inv _ _ _ W) _ _ Hx). exact (wl_max _ _ _ W _ _ Hx).
Qed.

(** ** Asserts *)

(** All objects which calls under way need are locked by their threads, and as they were found. *)
Record in_place (f : place -> nat) (g : gworld) : Prop := mkIP {
  ip_seqs : SI (cw (gc g));
  ip_lists : LI (cw (gc g));
  ip_held : HU g;
  ip_inv : CInv false (gc g);
  ip_ready : forall t e, pending_exp (gc g) t e -> exists x, exp_at (cw (gc g)) e x /\ eo_alive x = true /\
    control_is_applicable (w_seqs (cw (gc g))) (ctl_of x) = true /\ forall p, part_of (gc g) e p -> has g (f p) t
}.

Lemma ctl_stays release c t a c' r e x : cstep release c t a = CNext c' r -> exp_at (cw c) e x -> ~ footprint c t a (PlCount e) ->
  exists x', exp_at (cw c') e x' /\ ctl_of x' = ctl_of x.
Proof.
  intros H Hx F. destruct a as [o|m ov args l|].
  - pose proof (cstep_op _ _ _ _ _ _ H) as (th & v & Hth & Hpe & Hc & Hs & ->). destruct (step_keeps _ _ _ _ Hs Hc) as [Hk _].
    destruct (Hk e x Hx) as (x' & Hx' & _ & E). exists x'. split; [exact Hx'|exact E].
  - apply cstep_match_core in H. destruct H as [Hc _]. destruct (core_exps _ _ Hc) as (E1 & _). exists x. unfold exp_at. rewrite E1. auto.
  - pose proof (cstep_count _ _ _ _ _ H) as (th & n & ci & ne & y & v & ss & ctl & Hth & Hp & Hy & Ha & Hcons & _ & Hcc & _ & -> & Hex).
    destruct (Nat.eq_dec e n) as [->|Hne]; [exfalso; apply F; apply (fp_count c t n); [exists th, ci, ne; auto|constructor]|].
    exists x. unfold exp_at. cbn [cw leave w_exps set_uncaught set_frames]. rewrite Hex, nth_error_upd_neq by auto. auto.
Qed.

Lemma applicable_same ss ss' c : control_is_applicable ss c = true -> (forall q, q < length ss -> In q (map fst (c_seqs c)) -> nth_error ss q = nth_error ss' q) ->
  control_is_applicable ss' c = true.
Proof.
  unfold control_is_applicable. intros H E. apply andb_prop in H. destruct H as [H1 H2]. rewrite H1. cbn [andb]. rewrite forallb_forall in *. intros [s id] Hin. specialize (H2 _ Hin). cbn in H2.
  destruct (nth_error ss s) as [q|] eqn:Hs; [|discriminate]. rewrite <- (E s), Hs; [exact H2|eapply nth_error_lt; eauto|]. apply in_map_iff. exists (s, id). auto.
Qed.

Lemma pending_other release c t a c' r t' e : cstep release c t a = CNext c' r -> t' <> t -> pending_exp c' t' e -> pending_exp c t' e.
Proof.
  intros H Hne Hp. destruct a as [o|m ov args l|].
  - pose proof (cstep_op _ _ _ _ _ _ H) as (th & v & _ & _ & _ & _ & ->). destruct (pending_leave _ _ _ _ _ _ _ Hp) as [[E _]|Hq]; [congruence|exact Hq].
  - pose proof (cstep_match _ _ _ _ _ _ _ _ _ H) as (th & s & coll & _ & _ & _ & _ & [(w' & n & _ & _ & ->)|(w' & _ & ->)]);
      destruct (pending_leave _ _ _ _ _ _ _ Hp) as [[E _]|Hq]; try congruence; exact Hq.
  - pose proof (cstep_count _ _ _ _ _ H) as (th & n & ci & ne & y & v & ss & ctl & _ & _ & _ & _ & _ & _ & _ & _ & -> & _).
    destruct (pending_leave _ _ _ _ _ _ _ Hp) as [[E _]|Hq]; [congruence|exact Hq].
Qed.

Lemma place_step (cov : place -> Prop) f g t a c' r : (forall p, p <> PlReporter -> cov p) -> in_place f g -> cstep false (gc g) t a = CNext c' r ->
  (forall p, footprint (gc g) t a p -> cov p -> has g (f p) t) -> in_place f (mkG c' (g_held g)).
Proof.
  intros Hcov [S L U C P] H F. constructor; cbn [gc].
  - eapply si_cstep; eauto.
  - eapply li_step; eauto.
  - exact U.
  - eapply cinv_step; eauto.
  - intros t' e Hp. destruct (Nat.eq_dec t' t) as [->|Hne].
    + destruct a as [o|m ov args l|].
      * exfalso. pose proof (cstep_op _ _ _ _ _ _ H) as (th & v & Hth & Hpe & _ & _ & E). rewrite E in Hp. destruct (pending_leave _ _ _ _ _ _ _ Hp) as [[_ (ci & ne & Q)]|(th' & ci & ne & Q1 & Q2)]; congruence.
      * pose proof (cstep_match_core _ _ _ _ _ _ _ _ _ H) as [Hc _]. destruct (core_exps _ _ Hc) as (E1 & E2 & E3).
        destruct Hp as (th' & ci & ne & Hth' & Hpe'). destruct (matched_open _ _ _ _ _ _ _ _ _ _ _ _ C S H Hth' Hpe') as (x & Hx & _ & Ho).
        pose proof (cstep_match _ _ _ _ _ _ _ _ _ H) as (th & s & coll & Hth & Hpe & Hf & Hlen & D).
        assert (Hl : listed (gc g) coll e).
        { destruct D as [(w' & n & Hm & _ & ->)|(w' & Hm & ->)]; rewrite (leave_thread _ _ _ _ _ _ Hth) in Hth'; injection Hth' as <-; cbn [t_pending] in Hpe'; [|discriminate].
          injection Hpe' as -> _ _. exact (match_listed _ _ _ _ _ _ Hm). }
        exists x. unfold exp_at. rewrite E1, E2. split; [exact Hx|]. split; [|split].
        -- destruct Hl as (lst & Hlst & Hin). rewrite (li_coll _ L _ _ Hlst) in Hin. apply members_in in Hin. destruct Hin as (y & Hy & Ha & _). unfold exp_at in Hx. rewrite Hx in Hy. injection Hy as <-. exact Ha.
        -- apply (open_iff false (gc g) e x C S Hx). exact Ho.
        -- intros p Hpp. assert (Hpg : part_of (gc g) e p) by (destruct Hpp as [|y q Hy Hq]; [constructor|econstructor; [unfold exp_at in Hy; rewrite E1 in Hy; exact Hy|exact Hq]]).
           apply F; [eapply fp_member; [exists s; exact Hf|exact Hl|exact Hpg]|]. apply Hcov. destruct Hpg; discriminate.
      * exfalso. pose proof (cstep_count _ _ _ _ _ H) as (th & n & ci & ne & y & v & ss & ctl & Hth & _ & _ & _ & _ & _ & _ & _ & E & _). rewrite E in Hp.
        destruct Hp as (th' & ci' & ne' & Hth' & Hp'). cbn [c_threads leave] in Hth'. rewrite nth_error_upd_eq in Hth' by (eapply nth_error_lt; eauto). injection Hth' as <-. discriminate.
    + pose proof (pending_other _ _ _ _ _ _ _ _ H Hne Hp) as Hp0. destruct (P _ _ Hp0) as (x & Hx & Ha & Happ & Hh).
      assert (NF : forall p, part_of (gc g) e p -> ~ footprint (gc g) t a p).
      { intros p Hpp Hf. apply Hne. eapply has_one; [exact U|exact (Hh p Hpp)|]. apply F; [exact Hf|]. apply Hcov. destruct Hpp; discriminate. }
      destruct (ctl_stays _ _ _ _ _ _ _ _ H Hx (NF _ (po_count _ _))) as (x' & Hx' & E). exists x'. split; [exact Hx'|]. split; [|split].
      * destruct (step_stays _ _ _ _ _ _ _ _ L H Hx Ha) as [(y & Hy & Hay & _)|(_ & _ & Hkill & _)].
        -- assert (y = x') by (unfold exp_at in *; congruence). subst y. exact Hay.
        -- exfalso. destruct (C104_footprint false (gc g) t a (HL (LKill (PlCount e))) (PlCount e)) as [Hf|Hf]; [unfold full_of; apply in_or_app; left; apply in_map; exact Hkill|constructor|exact (NF _ (po_count _ _) Hf)|discriminate].
      * rewrite E. eapply applicable_same; [exact Happ|]. intros q Hq Hin. apply (C104_frame _ _ _ _ _ _ (PlSeq q) H Hq). apply NF. econstructor; [exact Hx|exact Hin].
      * intros p Hpp. apply Hh. destruct Hpp as [|y q Hy Hq]; [constructor|]. assert (y = x') by (unfold exp_at in *; congruence). subst y. unfold ctl_of in E. rewrite E in Hq. econstructor; eauto.
Qed.

Lemma place_counts f g t e : in_place f g -> pending_exp (gc g) t e -> exists c', cstep false (gc g) t ACount = CNext c' RUnit /\ cstep true (gc g) t ACount = CNext c' RUnit.
Proof.
  intros [S L U C P] Hp. destruct (P _ _ Hp) as (x & Hx & Ha & Happ & _). destruct Hp as (th & ci & ne & Hth & Ht).
  destruct (count_open _ _ _ _ _ _ _ C S Hth Ht Hx Ha (proj1 (open_iff false _ _ _ C S Hx) Happ)) as [c' Hc]. exists c'. split; [exact Hc|apply count_both; exact Hc].
Qed.

Lemma place_same f g t a : in_place f g -> forall c' r, cstep true (gc g) t a = CNext c' r <-> cstep false (gc g) t a = CNext c' r.
Proof.
  intros I c' r. assert (D : a = ACount \/ a <> ACount) by (destruct a; auto; right; discriminate). destruct D as [->|Ha]; [|rewrite (cstep_same _ _ _ Ha); reflexivity].
  split; [|apply count_both]. intros H. pose proof (cstep_count _ _ _ _ _ H) as (th & n & ci & ne & _ & _ & _ & _ & Hth & Hp & _).
  destruct (place_counts f g t n I) as (c2 & H1 & H2); [exists th, ci, ne; auto|]. congruence.
Qed.

Lemma place_run release cov f acts : (forall p, p <> PlReporter -> cov p : Prop) -> forall g g', in_place f g -> gruns release g acts g' ->
  locks release cov f g acts -> keeps release cov f g acts -> in_place f g' /\ forall release', gruns release' g acts g'.
Proof.
  intros Hcov. induction acts as [|[t x] acts IH]; intros g g' W R L K; inversion R; subst; [split; [exact W|constructor]|]. inversion L; subst. inversion K; subst.
  repeat match goal with E : gstep _ g t x = GNext ?a _, E' : gstep _ g t x = GNext ?b _ |- _ => rewrite E in E'; injection E' as <- <- end.
  match goal with E : gstep _ g t x = GNext g1 _ |- _ => rename E into Hs end.
  assert (W1 : in_place f g1 /\ forall release', gstep release' g t x = GNext g1 r).
  { assert (G : gc g1 = gc g -> (forall t' e p, pending_exp (gc g) t' e -> part_of (gc g) e p -> ~ (x = GUnlock (f p) /\ t' = t)) -> in_place f g1).
    { intros E Hk. pose proof (gstep_hu _ _ _ _ _ _ (ip_held _ _ W) Hs) as U. destruct W as [S0 L0 U0 C0 P0]. constructor; rewrite ?E; auto.
      intros t' e Hp. destruct (P0 t' e Hp) as (y & Hy & Ha & Happ & Hh). exists y. split; [exact Hy|]. split; [exact Ha|]. split; [exact Happ|].
      intros p Hpp. apply (gstep_has _ _ _ _ _ _ (f p) t' U0 Hs). left. split; [exact (Hh p Hpp)|exact (Hk _ _ _ Hp Hpp)]. }
    destruct x as [m|m|a].
    - split; [|intros; exact Hs]. apply G; [cbn [gstep] in Hs; destruct (holder g m) as [t'|]; [destruct (t' =? t); discriminate|]; injection Hs as <- _; reflexivity|]. intros t' e p _ _ [Q _]. discriminate.
    - split; [|intros; exact Hs]. apply G; [cbn [gstep] in Hs; destruct (holder g m) as [t'|]; [|discriminate]; destruct (t' =? t); [|discriminate]; injection Hs as <- _; reflexivity|].
      intros t' e p Hp Hpp [Q ->]. injection Q as Q. match goal with Hk : forall m0 e p, GUnlock m = GUnlock m0 -> _ |- _ => refine (Hk m e p eq_refl Hp Hpp (Hcov p _) (eq_sym Q)) end. destruct Hpp; discriminate.
    - cbn [gstep] in Hs. destruct (cstep release (gc g) t a) as [c' r0| | |] eqn:Hc; try discriminate. injection Hs as <- <-.
      assert (Hf : cstep false (gc g) t a = CNext c' r0) by (destruct release; [apply (place_same f g t a W); exact Hc|exact Hc]).
      split; [eapply (place_step cov); eauto|]. intros release'. cbn [gstep]. destruct release'; [rewrite (proj2 (place_same f g t a W c' r0) Hf)|rewrite Hf]; reflexivity. }
  destruct W1 as [W1 Hall]. destruct (IH g1 g' W1) as [W2 R2]; auto. split; [exact W2|]. intros release'. econstructor; [apply Hall|apply R2].
Qed.

Lemma place_init f n : in_place f (ginit n).
Proof.
  constructor; [apply si_init|exact li_init|apply hu_init|apply cinv_init|]. intros t e (th & ci & ne & Hth & Hp). apply nth_error_In in Hth. cbn [ginit gc c_threads cinit] in Hth. apply repeat_spec in Hth. subst. discriminate.
Qed.

(** If the sequences are locked, too, an accepted call is counted, whatever the other threads do in between: no assert fails ... *)
Theorem C104_counting_succeeds release n cov f acts g t th p : gruns release (ginit n) acts g -> locks release cov f (ginit n) acts -> keeps release cov f (ginit n) acts ->
  (forall q, q <> PlReporter -> cov q) -> nth_error (c_threads (gc g)) t = Some th -> t_pending th = Some p -> exists g', gstep release g t (GDo ACount) = GNext g' RUnit.
Proof.
  intros R L K Hcov Hth Hp. destruct (place_run _ _ _ _ Hcov _ _ (place_init f n) R L K) as [W _]. destruct p as [[e ci] ne].
  destruct (place_counts f g t e W) as (c' & H1 & H2); [exists th, ci, ne; auto|]. exists (mkG c' (g_held g)). cbn [gstep]. destruct release; [rewrite H2|rewrite H1]; reflexivity.
Qed.

(** ... and the program does the same with and without NDEBUG. *)
Theorem C104_asserts_make_no_difference release release' n cov f acts g : gruns release (ginit n) acts g -> locks release cov f (ginit n) acts -> keeps release cov f (ginit n) acts ->
  (forall q, q <> PlReporter -> cov q) -> gruns release' (ginit n) acts g.
Proof. intros R L K Hcov. exact (proj2 (place_run _ _ _ _ Hcov _ _ (place_init f n) R L K) release'). Qed.

(** So the calls counted for a sequence come in its order without asserts, too. (C82_order_refuted: in general they do not.) *)
Theorem C104_sequences_in_order release n cov f acts g e1 x1 e2 x2 s before t ci behind : gruns release (ginit n) acts g ->
  locks release cov f (ginit n) acts -> keeps release cov f (ginit n) acts -> (forall q, q <> PlReporter -> cov q) ->
  exp_at (cw (gc g)) e1 x1 -> exp_at (cw (gc g)) e2 x2 -> In s (x_seqs x1) -> In s (x_seqs x2) -> e1 < e2 -> c_log (gc g) = before ++ (t, e2, ci) :: behind ->
  (x_min x1 <= Z.of_nat (times_in before e1))%Z /\ times_in behind e1 = 0.
Proof.
  intros R L K Hcov. pose proof (C104_asserts_make_no_difference release false n cov f acts g R L K Hcov) as R'. destruct (C102_executions _ _ _ _ R') as [H _].
  apply (ordered_run _ _ _ H).
Qed.

(** ** Examples *)

Definition part_list (c : cworld) (e : nat) : list place :=
  PlCount e :: match nth_error (w_exps (cw c)) e with Some x => map PlSeq (map fst (c_seqs (e_ctl (eo_exp x)))) | None => [] end.
Definition handle_list (c : cworld) (h : nat) : list place :=
  match nth_error (w_scoped (cw c)) h with
  | Some (HOwns e) => part_list c e ++ match nth_error (w_exps (cw c)) e with Some x => [PlVector (eo_coll x)] | None => [] end
  | _ => []
  end.
Definition foot (c : cworld) (t : nat) (a : action) : list place :=
  match a with
  | AMatch m ov _ _ =>
      match find_overload (cw c) m ov with
      | inr (_, k) => PlVector k :: match nth_error (w_colls (cw c)) k with Some l => flat_map (part_list c) l | None => [] end
      | inl _ => []
      end
  | ACount => match nth_error (c_threads c) t with Some th => match t_pending th with Some (e, _, _) => part_list c e | None => [] end | None => [] end
  | AOp (OExpect m ov ms cls _) =>
      match find_overload (cw c) m ov with
      | inr (s, k) => match build s ms cls with BOk b => PlVector k :: map PlSeq (b_seqs b) | _ => [] end
      | inl _ => []
      end
  | AOp (OSatisfied h) | AOp (OEndScope h) | AOp (OMoveAssignScoped h _) => handle_list c h
  | AOp (ODropSeq s) => [PlSeq s]
  | AOp (ODestroyMock m) | AOp (OMoveAssignMock m _) => map PlVector (mock_colls (cw c) m)
  | AOp _ => []
  end.

Lemma part_listed c e p : part_of c e p -> In p (part_list c e).
Proof. intros [|x q Hx Hq]; [left; reflexivity|]. right. unfold exp_at in Hx. rewrite Hx. apply in_map. exact Hq. Qed.
Lemma handle_listed c h p : part_of_handle c h p -> In p (handle_list c h).
Proof.
  intros [e p' Hh Hp|e x Hh Hx]; unfold handle_list; rewrite Hh; apply in_or_app; [left; apply part_listed; exact Hp|right]. unfold exp_at in Hx. rewrite Hx. left. reflexivity.
Qed.
Lemma foot_complete c t a p : footprint c t a p -> In p (foot c t a).
Proof.
  intros [m ov args l k (s & Hf)|m ov args l k e p' (s & Hf) (lst & Hl & Hi) Hp|e p' (th & ci & ne & Hth & Ht) Hp|m ov ms cls l s k b Hf Hb|m ov ms cls l s k b q Hf Hb Hq|h e Hh|h p' Hp|dst src p' Hne Hp|s|m k Hk|dst src k Hne Hk]; cbn [foot].
  - rewrite Hf. left. reflexivity.
  - rewrite Hf, Hl. right. apply in_flat_map. exists e. split; auto. apply part_listed. exact Hp.
  - rewrite Hth, Ht. apply part_listed. exact Hp.
  - rewrite Hf, Hb. left. reflexivity.
  - rewrite Hf, Hb. right. apply in_map. exact Hq.
  - apply handle_listed. eapply ph_exp; [exact Hh|constructor].
  - apply handle_listed. exact Hp.
  - apply handle_listed. exact Hp.
  - left. reflexivity.
  - apply in_map. exact Hk.
  - apply in_map. exact Hk.
Qed.

Fixpoint locksb (release : bool) (cov : place -> bool) (f : place -> nat) (g : gworld) (acts : list (nat * gaction)) : bool :=
  match acts with
  | [] => true
  | (t, x) :: rest =>
      match gstep release g t x with
      | GNext g1 _ =>
          (match x with
           | GDo a => forallb (fun p => negb (cov p) || hasb g (f p) t) (foot (gc g) t a)
           | GUnlock m => match nth_error (c_threads (gc g)) t with
                          | Some th => match t_pending th with Some (e, _, _) => forallb (fun p => negb (cov p) || negb (f p =? m)) (part_list (gc g) e) | None => true end
                          | None => true
                          end
           | GLock _ => true
           end) && locksb release cov f g1 rest
      | _ => false
      end
  end.
Lemma locksb_locks release cov f acts : forall g, locksb release cov f g acts = true -> locks release (fun p => cov p = true) f g acts /\ keeps release (fun p => cov p = true) f g acts.
Proof.
  induction acts as [|[t x] acts IH]; intros g H; [split; constructor|]. cbn [locksb] in H. destruct (gstep release g t x) as [g1 r| | | | |] eqn:Hs; try discriminate. apply andb_prop in H.
  destruct H as [H1 H2]. destruct (IH g1 H2) as [L K]. split; (econstructor; [exact Hs| |assumption]).
  - intros a p -> F C. apply foot_complete in F. rewrite forallb_forall in H1. specialize (H1 p F). rewrite C in H1. apply hasb_has. exact H1.
  - intros m e p -> (th & ci & ne & Hth & Ht) Hp C. rewrite Hth, Ht, forallb_forall in H1. specialize (H1 p (part_listed _ _ _ Hp)). rewrite C in H1. apply negb_true_iff, Nat.eqb_neq in H1. exact H1.
Qed.

(** Two mocks with a mutex each: two threads call them at the same time; then the second thread calls the first mock, too. *)
Definition by_mock (p : place) : nat := match p with PlVector 0 | PlCount 0 => 5 | PlVector _ | PlCount _ => 6 | _ => 7 end.
Definition two_mocks : list (nat * gaction) :=
  under 5 0 [AOp (ONewMock [sig_void]); AOp (OExpect 0 0 [] [ClTimes TxOnce] here)] ++ under 6 1 [AOp (ONewMock [sig_void]); AOp (OExpect 1 0 [] [ClTimes TxOnce] here)] ++
  [(0, GLock 5); (1, GLock 6); (0, GDo (AMatch 0 0 [] here)); (1, GDo (AMatch 1 0 [] there)); (0, GDo ACount); (1, GDo ACount)] ++
  map (fun a => (0, GDo a)) (map snd (finish 0)) ++ map (fun a => (1, GDo a)) (map snd (finish 1)) ++ [(0, GUnlock 5); (1, GUnlock 6)] ++
  under 5 1 [AMatch 0 0 [] there] ++ under 5 1 [AOp (OSatisfied 0); AOp (OEndScope 0); AOp (ODestroyMock 0)].
Example C104_example : locks true (fun _ => True) by_mock (ginit 2) two_mocks /\ keeps true (fun _ => True) by_mock (ginit 2) two_mocks /\
  (exists g, gruns true (ginit 2) two_mocks g) /\
  match gexec true (ginit 2) two_mocks with Some g => counted (gc g) 0 = 1 /\ counted (gc g) 1 = 1 /\ g_held g = [] | None => False end.
Proof.
  assert (B : locksb true (fun _ => true) by_mock (ginit 2) two_mocks = true) by (vm_compute; reflexivity).
  destruct (locksb_locks _ _ _ _ _ B) as [L K]. split; [|split].
  - clear -L. revert L. generalize (ginit 2). induction two_mocks as [|[t x] l IH]; intros g H; [constructor|]. inversion H; subst. econstructor; eauto.
  - clear -K. revert K. generalize (ginit 2). induction two_mocks as [|[t x] l IH]; intros g H; [constructor|]. inversion H; subst. econstructor; eauto.
  - split; [|vm_compute; repeat split]. destruct (gexec true (ginit 2) two_mocks) as [g|] eqn:E; [exists g; apply gexec_runs; exact E|vm_compute in E; discriminate].
Qed.

(** It is not enough to lock the lists and the expectations of the mock which is called: a sequence may belong to expectations of both mocks. *)
Definition one_sequence : list (nat * gaction) :=
  [(0, GLock 5); (0, GLock 6)] ++ map (fun a => (0, GDo a)) [AOp (ONewMock [sig_void]); AOp (ONewMock [sig_void]); AOp (ONewSeq Lazy);
    AOp (OExpect 0 0 [] [ClSeq [0]] here); AOp (OExpect 1 0 [] [ClSeq [0]] here)] ++
  [(0, GUnlock 6); (0, GDo (AMatch 0 0 [] here)); (0, GDo ACount); (1, GLock 6); (1, GDo (AMatch 1 0 [] there))].

Theorem C104_without_sequences_refuted : exists acts g f, gruns true (ginit 2) acts g /\ locks true (fun p => forall q, p <> PlSeq q) f (ginit 2) acts /\
  keeps true (fun p => forall q, p <> PlSeq q) f (ginit 2) acts /\ any_race (gevents true (ginit 2) acts) (PlSeq 0).
Proof.
  exists one_sequence. eexists. exists by_mock. split; [apply gexec_runs; vm_compute; reflexivity|].
  assert (B : locksb true (fun p => match p with PlSeq _ => false | _ => true end) by_mock (ginit 2) one_sequence = true) by (vm_compute; reflexivity).
  destruct (locksb_locks _ _ _ _ _ B) as [L K]. clear B. split; [|split].
  - clear K. revert L. generalize (ginit 2). induction one_sequence as [|[t x] l IH]; intros g H; [constructor|]. inversion H as [|g0 t0 x0 g1 r acts Hs Hp Hl]; subst.
    econstructor; [exact Hs| |exact (IH _ Hl)]. intros a p E F C. apply (Hp a p E F). destruct p as [k|e|q|]; auto. destruct (C q eq_refl).
  - clear L. revert K. generalize (ginit 2). induction one_sequence as [|[t x] l IH]; intros g H; [constructor|]. inversion H as [|g0 t0 x0 g1 r acts Hs Hp Hl]; subst.
    econstructor; [exact Hs| |exact (IH _ Hl)]. intros m e p E F1 F2 C. apply (Hp m e p E F1 F2). destruct p as [k|e'|q|]; auto. destruct (C q eq_refl).
  - exists 25, 30, 0, 1. do 4 eexists. split; [vm_compute; reflexivity|]. split; [vm_compute; reflexivity|]. split; [discriminate|].
    split; [right; left; reflexivity|]. split; [left; reflexivity|]. split; [left; left; reflexivity|]. split.
    + intros H. destruct (C102_order _ _ _ H) as [_ O]. edestruct O as (k & k' & t2 & a1 & a2 & u & v & L1 & L2 & L3 & Hk & Hk' & Ht & Hs); [vm_compute; reflexivity|vm_compute; reflexivity|discriminate|].
      assert (Ek : k = 25 \/ k = 26 \/ k = 27 \/ k = 28 \/ k = 29) by lia. destruct Ek as [->|[->|[->|[->| ->]]]]; vm_compute in Hk; try discriminate Hk.
      injection Hk as <- <-. destruct Hs as [(m & E & _)|[(m & E & _)|[(q & E & _)|(q & E & _)]]]; discriminate E.
    + intros H. apply C102_order in H. lia.
Qed.

(** Nor is it enough to lock an expectation while it is looked at, and again while the call is counted. *)
Theorem C104_unlocked_between_refuted : exists acts g f x, gruns true (ginit 2) acts g /\ locks true (fun _ => True) f (ginit 2) acts /\
  exp_at (cw (gc g)) 0 x /\ x_max x = 1%Z /\ counted (gc g) 0 = 2.
Proof.
  set (acts := under 5 0 (map snd setup) ++ under 5 0 [AMatch 0 0 [] here] ++ under 5 1 [AMatch 0 0 [] there] ++ under 5 0 [ACount] ++ under 5 1 [ACount]).
  exists acts. eexists. exists (fun _ => 5). eexists. split; [apply gexec_runs; vm_compute; reflexivity|]. split; [|repeat split; vm_compute; reflexivity].
  assert (B : eachb true (fun _ => 5) (ginit 2) acts = true) by (vm_compute; reflexivity). apply eachb_each in B. revert B. clearbody acts. generalize (ginit 2).
  induction acts as [|[t x] l IH]; intros g H; [constructor|]. inversion H as [|g0 t0 x0 g1 r acts' Hs Hp Hl]; subst. econstructor; [exact Hs| |exact (IH _ Hl)]. intros a p -> _ _. exact Hp.
Qed.

(** An accepted call need not be counted if the sequences are not locked: an assert fails, as the call of another mock has moved the sequence on in between. *)
Definition overtaken (both : nat) : list (nat * gaction) :=
  [(0, GLock 5); (0, GLock 6); (0, GLock 7)] ++ map (fun a => (0, GDo a)) [AOp (ONewMock [sig_void]); AOp (ONewMock [sig_void]); AOp (ONewSeq Lazy);
    AOp (OExpect 0 0 [] [ClTimes (TxAtMost 2); ClSeq [0]] here); AOp (OExpect 1 0 [] [ClSeq [0]] here)] ++
  [(0, GUnlock 6); (0, GUnlock 7); (0, GLock both); (0, GDo (AMatch 0 0 [] here)); (1, GLock 6)].
Theorem C104_counting_without_sequences_refuted : exists acts g f, gruns false (ginit 2) acts g /\ locks false (fun p => forall q, p <> PlSeq q) f (ginit 2) acts /\
  keeps false (fun p => forall q, p <> PlSeq q) f (ginit 2) acts /\ pending_exp (gc g) 0 0 /\ gstep false g 0 (GDo ACount) = GWrong UbAssert.
Proof.
  set (acts := overtaken 8 ++ [(1, GDo (AMatch 1 0 [] there)); (1, GDo ACount)]).
  destruct (gexec false (ginit 2) acts) as [g|] eqn:E; [|vm_compute in E; discriminate]. exists acts, g, by_mock. split; [apply gexec_runs; exact E|].
  assert (B : locksb false (fun p => match p with PlSeq _ => false | _ => true end) by_mock (ginit 2) acts = true) by (vm_compute; reflexivity).
  destruct (locksb_locks _ _ _ _ _ B) as [L K]. clear B.
  assert (Q : match gexec false (ginit 2) acts with Some g => match gstep false g 0 (GDo ACount) with GWrong UbAssert => true | _ => false end | None => false end = true) by (vm_compute; reflexivity).
  assert (P : match gexec false (ginit 2) acts with Some g => match nth_error (c_threads (gc g)) 0 with Some th => match t_pending th with Some (0, _, _) => true | _ => false end | None => false end | None => false end = true) by (vm_compute; reflexivity).
  rewrite E in Q, P. clear E. clearbody acts. split; [|split; [|split]].
  - clear K. revert L. generalize (ginit 2). induction acts as [|[t x] l IH]; intros g0 H; [constructor|]. inversion H as [|g1 t0 x0 g2 r l0 Hs Hp Hl]; subst.
    econstructor; [exact Hs| |exact (IH _ Hl)]. intros a p E F C. apply (Hp a p E F). destruct p as [k|e|q|]; auto. destruct (C q eq_refl).
  - clear L. revert K. generalize (ginit 2). induction acts as [|[t x] l IH]; intros g0 H; [constructor|]. inversion H as [|g1 t0 x0 g2 r l0 Hs Hp Hl]; subst.
    econstructor; [exact Hs| |exact (IH _ Hl)]. intros m e p E F1 F2 C. apply (Hp m e p E F1 F2). destruct p as [k|e'|q|]; auto. destruct (C q eq_refl).
  - destruct (nth_error (c_threads (gc g)) 0) as [th|] eqn:Hth; [|discriminate]. destruct (t_pending th) as [[[e ci] ne]|] eqn:Ht; [|discriminate]. destruct e; [|discriminate]. exists th, ci, ne. auto.
  - destruct (gstep false g 0 (GDo ACount)) as [| |[]| | |]; try discriminate. reflexivity.
Qed.

(** With a mutex for the sequence the second thread waits for it; the call of the first one is counted. *)
Example C104_counting_example : let acts := overtaken 7 in locks false (fun _ => True) by_mock (ginit 2) acts /\ keeps false (fun _ => True) by_mock (ginit 2) acts /\
  match gexec false (ginit 2) acts with
  | Some g => map (fun th => match t_pending th with Some (e, _, _) => Some e | None => None end) (c_threads (gc g)) = [Some 0; None] /\
      gstep false g 1 (GLock 7) = GBlocked /\ match gstep false g 0 (GDo ACount) with GNext g' _ => counted (gc g') 0 = 1 | _ => False end
  | None => False
  end.
Proof.
  cbv zeta. assert (B : locksb false (fun _ => true) by_mock (ginit 2) (overtaken 7) = true) by (vm_compute; reflexivity).
  destruct (locksb_locks _ _ _ _ _ B) as [L K]. split; [|split].
  - clear -L. revert L. generalize (ginit 2). induction (overtaken 7) as [|[t x] l IH]; intros g H; [constructor|]. inversion H; subst. econstructor; eauto.
  - clear -K. revert K. generalize (ginit 2). induction (overtaken 7) as [|[t x] l IH]; intros g H; [constructor|]. inversion H; subst. econstructor; eauto.
  - vm_compute. auto.
Qed.

(** Both calls, one after the other, as the mutex of the sequence demands. *)
Definition in_turn : list (nat * gaction) := overtaken 7 ++ [(0, GDo ACount); (0, GUnlock 7); (1, GLock 7); (1, GDo (AMatch 1 0 [] there)); (1, GDo ACount)].
Example C104_sequences_example : locks true (fun _ => True) by_mock (ginit 2) in_turn /\ keeps true (fun _ => True) by_mock (ginit 2) in_turn /\
  match gexec true (ginit 2) in_turn with
  | Some g => map (fun p => fst p) (c_log (gc g)) = [(0, 0); (1, 1)] /\ map x_seqs (w_exps (cw (gc g))) = [[0]; [0]]
  | None => False
  end.
Proof.
  assert (B : locksb true (fun _ => true) by_mock (ginit 2) in_turn = true) by (vm_compute; reflexivity).
  destruct (locksb_locks _ _ _ _ _ B) as [L K]. split; [|split].
  - clear -L. revert L. generalize (ginit 2). induction in_turn as [|[t x] l IH]; intros g H; [constructor|]. inversion H; subst. econstructor; eauto.
  - clear -K. revert K. generalize (ginit 2). induction in_turn as [|[t x] l IH]; intros g H; [constructor|]. inversion H; subst. econstructor; eauto.
  - vm_compute. auto.
Qed.

(** A footprint: the call of the second thread in the example before touches the sequence and the second expectation, but not the first one. *)
Definition before_second : gworld := match gexec true (ginit 2) (firstn 11 one_sequence) with Some g => g | None => ginit 2 end.
Example C104_footprint_example :
  (exists c' r, cstep true (gc before_second) 1 (AMatch 1 0 [] there) = CNext c' r) /\
  footprint (gc before_second) 1 (AMatch 1 0 [] there) (PlVector 1) /\ footprint (gc before_second) 1 (AMatch 1 0 [] there) (PlSeq 0) /\
  footprint (gc before_second) 1 (AMatch 1 0 [] there) (PlCount 1) /\
  ~ footprint (gc before_second) 1 (AMatch 1 0 [] there) (PlCount 0) /\ exists_at (gc before_second) (PlCount 0) /\
  footprint (gc before_second) 0 (AOp (ODestroyMock 0)) (PlVector 0) /\ ~ footprint (gc before_second) 0 (AOp (ODestroyMock 0)) (PlVector 1).
Proof.
  assert (F1 : find_overload (cw (gc before_second)) 1 0 = inr (sig_void, 1)) by (vm_compute; reflexivity).
  assert (F2 : nth_error (w_colls (cw (gc before_second))) 1 = Some [1]) by (vm_compute; reflexivity).
  assert (F3 : option_map (fun x => map fst (c_seqs (e_ctl (eo_exp x)))) (nth_error (w_exps (cw (gc before_second))) 1) = Some [0]) by (vm_compute; reflexivity).
  assert (F4 : foot (gc before_second) 1 (AMatch 1 0 [] there) = [PlVector 1; PlCount 1; PlSeq 0]) by (vm_compute; reflexivity).
  assert (F5 : length (w_exps (cw (gc before_second))) = 2) by (vm_compute; reflexivity).
  assert (F6 : match cstep true (gc before_second) 1 (AMatch 1 0 [] there) with CNext _ _ => true | _ => false end = true) by (vm_compute; reflexivity).
  assert (F7 : mock_colls (cw (gc before_second)) 0 = [0]) by (vm_compute; reflexivity).
  revert F1 F2 F3 F4 F5 F6 F7. generalize before_second. intros g F1 F2 F3 F4 F5 F6 F7.
  assert (U : uses_coll (gc g) 1 0 1) by (exists sig_void; exact F1).
  assert (L : listed (gc g) 1 1) by (exists [1]; split; [exact F2|left; reflexivity]).
  split; [destruct (cstep true (gc g) 1 (AMatch 1 0 [] there)) as [c' r| | |]; try discriminate; eauto|]. split; [apply fp_call; exact U|].
  split; [destruct (nth_error (w_exps (cw (gc g))) 1) as [x|] eqn:Hx; [|discriminate]; injection F3 as F3; eapply fp_member; [exact U|exact L|]; eapply po_seq; [exact Hx|rewrite F3; left; reflexivity]|].
  split; [eapply fp_member; [exact U|exact L|apply po_count]|].
  split; [intros F; apply foot_complete in F; rewrite F4 in F; destruct F as [F|[F|[F|[]]]]; discriminate|].
  split; [unfold exists_at; rewrite F5; lia|]. split; [apply fp_destroy; rewrite F7; left; reflexivity|].
  intros F. inversion F; subst. match goal with H : In 1 _ |- _ => rewrite F7 in H; destruct H as [H|[]]; discriminate end.
Qed.

Print Assumptions C104_footprint.
Print Assumptions C104_reporter.
Print Assumptions C104_reporter_never_races.
Print Assumptions C104_footprint_is_touched.
Print Assumptions C104_frame.
Print Assumptions C104_locked_objects_never_race.
Print Assumptions C104_locked_lists_never_race.
Print Assumptions C104_limit.
Print Assumptions C104_counting_succeeds.
Print Assumptions C104_asserts_make_no_difference.
Print Assumptions C104_sequences_in_order.
Print Assumptions C104_without_sequences_refuted.
Print Assumptions C104_counting_without_sequences_refuted.
Print Assumptions C104_unlocked_between_refuted.
