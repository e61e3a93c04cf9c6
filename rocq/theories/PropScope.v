(** * PropScope: C10, C11, C34, C35 and C48, scope ends, moves and the delivery of reports. *)

From Verif Require Import Base Lib Sequence Control Signature Printer Reports Expectation Builder World WorldSpec CallSpec SeqSpec
  SeqInv BuildSpec StepCases WorldInv ObjInv CallProofs BuildProofs CountProofs IsolateProofs PlayProofs MoveProofs History SeqEnd ScopeProofs
  PropCalls Scenario.

(** ** C10: the scope end of an expectation *)

(** The events of a scope end: at most error reports of sequences, preceded by exactly one truthful unfulfilled report iff the
    expectation accepted fewer than [min] calls. *)
Theorem C10_scope_end w h e x w' r :
  reachable w -> nth_error (w_scoped w) h = Some (HOwns e) -> exp_at w e x -> describes (eo_exp x) ->
  step w (OEndScope h) = Next w' r ->
  exists errs, (forall ev, In ev errs -> exists s, is_seq_error s ev = true) /\
    (((x_min x <= Z.of_nat (accepted (w_trace w) e))%Z /\ w_trace w' = w_trace w ++ errs /\ r = RUnit) \/
     ((Z.of_nat (accepted (w_trace w) e) < x_min x)%Z /\
      exists rep, true_exp_report w e x rep /\
        w_trace w' = w_trace w ++ EvReport (w_rid w) (RUnfulfilled rep) [e] :: errs /\
        ((react w (RUnfulfilled rep) = Returns /\ r = RUnit) \/ (react w (RUnfulfilled rep) = Throws /\ r = RThrow EReporter)))).
Proof.
  intros Hr Hh Hx Hd H. pose proof (winv_reachable _ Hr) as I. cbn [step] in H. rewrite Hh in H.
  apply end_expectation_next in H. destruct H as (eo & l & unf & evs & d' & He & Hl & Hi & Hrel & -> & Hc).
  unfold exp_at in Hx. cbn [w_exps set_scoped] in He. rewrite Hx in He. inversion He; subst eo. exists evs. split.
  { clear - Hrel. induction Hrel as [|s l0 d0 evs0 d1 Hk H IH|s q l0 d0 evs0 d1 Hu Hd Hq H IH]; intros ev Hin; [contradiction|auto|].
    apply in_app_iff in Hin. destruct Hin as [Hin|]; auto. unfold dtor_events in Hin.
    destruct (seq_dtor_error q) as [[k n]|]; [|contradiction]. destruct Hin as [<-|[]]. exists s. cbn [is_seq_error].
    destruct (list_eq_dec Nat.eq_dec [s] [s]); congruence. }
  destruct (exp_report_true _ _ _ I Hx Hd) as (rep' & Erep & Htrue). cbn [w_seqs set_scoped] in Hc. rewrite Erep in Hc.
  destruct (satisfied_count _ _ _ I Hx) as [[Hs Hm]|[Hs Hm]]; rewrite Hs in Hc.
  - left. split; auto. destruct Hc as [(_ & -> & ->)|[(Hf & _)|(Hf & _)]]; [auto|discriminate|discriminate].
  - right. split; auto. destruct Hc as [(Hf & _)|[(_ & y & Hf & _)|(_ & rep & E & -> & Hre)]]; [discriminate|discriminate|].
    inversion E; subst rep'. exists rep. split; auto.
Qed.

(** At every moment: reported exactly once iff its scope has ended with fewer than [min] accepted calls. *)
Theorem C10_reported_once_iff w e x :
  reachable w -> exp_at w e x -> describes (eo_exp x) ->
  (unfulfilled_reports (w_trace w) e = 1 /\ eo_alive x = false /\ (Z.of_nat (accepted (w_trace w) e) < x_min x)%Z) \/
  (unfulfilled_reports (w_trace w) e = 0 /\ (eo_alive x = true \/ (x_min x <= Z.of_nat (accepted (w_trace w) e))%Z)).
Proof.
  intros Hr Hx Hd. pose proof (winv_reachable _ Hr) as I. rewrite (wi_unf _ I _ _ Hx). apply describable_describes in Hd. rewrite Hd, andb_true_r.
  pose proof (unmet_count _ _ _ I Hx) as U. destruct (eo_alive x); simpl; auto. destruct (unmet x).
  - left. do 2 (split; auto). apply U; auto.
  - right. split; auto. right. destruct (Z.lt_ge_cases (Z.of_nat (accepted (w_trace w) e)) (x_min x)); auto. apply U in H. discriminate.
Qed.

(** It is gone for good: not alive, and never matched or reported again. *)
Theorem C10_over_for_good w h e x w1 r ops w' :
  reachable w -> nth_error (w_scoped w) h = Some (HOwns e) -> exp_at w e x ->
  step w (OEndScope h) = Next w1 r -> run w1 ops w' ->
  (exists x', exp_at w' e x' /\ eo_alive x' = false) /\
  accepted (w_trace w') e = accepted (w_trace w) e /\
  unfulfilled_reports (w_trace w') e = unfulfilled_reports (w_trace w1) e /\
  forall coll c y, ~ candidate w' coll c e y.
Proof.
  intros Hr Hh Hx Hs Hrun. pose proof (winv_reachable _ Hr) as I. pose proof (reachable_step _ _ _ _ Hr Hs) as Hr1.
  pose proof (winv_reachable _ Hr1) as I1.
  destruct (step_exps _ _ _ _ I Hs _ _ Hx) as (x1 & Hx1 & S1 & Ha1). cbn [ended] in Ha1. rewrite Hh, Nat.eqb_refl, andb_false_r in Ha1.
  destruct (dead_run _ _ _ _ _ I1 Hrun Hx1 Ha1) as (x2 & Hx2 & S2 & Ha2).
  pose proof (dead_accepts_nothing _ _ _ _ _ Hr1 Hrun Hx1 Ha1) as Ea.
  assert (Ea1 : accepted (w_trace w1) e = accepted (w_trace w) e).
  { destruct (step_accepted _ _ _ _ Hr Hs) as [(evs & -> & E)|(m & ov & args & l & s & coll & n & y & mr & unh & Eo & _)]; [|discriminate].
    rewrite accepted_app, E. lia. }
  pose proof (winv_run _ _ _ I1 Hrun) as I2.
  split; [eauto|]. split; [congruence|]. split.
  - rewrite (wi_unf _ I2 _ _ Hx2), (wi_unf _ I1 _ _ Hx1), Ha1, Ha2. destruct S2 as (_ & _ & _ & _ & Ep & _ & Em & _).
    unfold describable. rewrite Ep. replace (unmet x2) with (unmet x1); auto. apply negb_iff.
    rewrite (unmet_count _ _ _ I1 Hx1), (unmet_count _ _ _ I2 Hx2), Em, Ea. reflexivity.
  - intros coll c y ((Hy & Hal & _) & _). unfold exp_at in *. rewrite Hx2 in Hy. inversion Hy; subst. congruence.
Qed.

(** All other expectations and objects are unaffected. *)
Theorem C10_others_unaffected w h e w' r :
  reachable w -> nth_error (w_scoped w) h = Some (HOwns e) -> step w (OEndScope h) = Next w' r ->
  (forall k, k <> e -> nth_error (w_exps w') k = nth_error (w_exps w) k) /\
  (forall k y, k <> e -> exp_at w k y -> (applicable w k y <-> applicable w' k y)) /\
  (forall k, accepted (w_trace w') k = accepted (w_trace w) k) /\
  (forall k, k <> e -> unfulfilled_reports (w_trace w') k = unfulfilled_reports (w_trace w) k) /\
  (forall k, k <> h -> nth_error (w_scoped w') k = nth_error (w_scoped w) k) /\
  (forall c l l', nth_error (w_colls w) c = Some l -> nth_error (w_colls w') c = Some l' -> l' = filter (fun k => negb (e =? k)) l) /\
  w_mocks w' = w_mocks w /\ w_seqs w' = w_seqs w /\ w_iface w' = w_iface w /\ w_frames w' = w_frames w /\
  w_rid w' = w_rid w /\ w_reporter w' = w_reporter w /\ w_uncaught w' = w_uncaught w.
Proof.
  intros Hr Hh Hs. pose proof (winv_reachable _ Hr) as I. pose proof (winv_step _ _ _ _ I Hs) as I'.
  assert (Hacc : forall k, accepted (w_trace w') k = accepted (w_trace w) k).
  { intros k. destruct (step_accepted _ _ _ _ Hr Hs) as [(evs & -> & E)|(m & ov & args & l & s & coll & n & y & mr & unh & Eo & _)]; [|discriminate].
    rewrite accepted_app, E. lia. }
  pose proof Hs as Hs0. cbn [step] in Hs. rewrite Hh in Hs.
  apply end_expectation_next in Hs. destruct Hs as (eo & l & unf & evs & d' & He & Hl & Hi & Hrel & Ew & Hc).
  assert (Hother : forall k, k <> e -> nth_error (w_exps w') k = nth_error (w_exps w) k).
  { intros k Hk. rewrite Ew. cbn. apply nth_error_upd_neq. auto. }
  split; [exact Hother|]. split.
  { intros k y Hk Hy. destruct (applicable_step _ _ _ _ _ _ Hr Hs0 Hy Hacc) as (y' & Hy' & _ & E).
    unfold exp_at in *. rewrite Hother in Hy' by auto. rewrite Hy in Hy'. inversion Hy'; subst. auto. }
  split; [exact Hacc|]. split.
  { intros k Hk. rewrite Ew. cbn [w_trace add_trace]. rewrite !unf_app.
    destruct (released_spec _ _ _ _ _ Hrel) as (_ & _ & R3 & _). destruct (R3 k) as [_ ->].
    change (w_trace (set_sdead (kill (set_scoped w (upd (w_scoped w) h HDead)) e eo l) d')) with (w_trace w).
    destruct Hc as [(_ & -> & _)|[(_ & y & _ & -> & _)|(_ & rep & _ & -> & _)]]; rewrite ?unf_unf; simpl; try lia.
    destruct (Nat.eqb_spec e k); [congruence|lia]. }
  split; [intros k Hk; rewrite Ew; cbn; apply nth_error_upd_neq; auto|]. split.
  { intros c l0 l' Hc0 Hc1. rewrite (wi_coll _ I' _ _ Hc1), (wi_coll _ I _ _ Hc0). rewrite Ew. cbn [w_exps add_trace set_sdead kill set_exps].
    cbn [w_exps set_scoped] in He |- *. rewrite (members_kill _ _ _ _ He). destruct (Nat.eqb_spec (eo_coll eo) c) as [E|Hne].
    - apply erase_first_filter. apply members_nodup.
    - symmetry. apply forallb_filter_id. apply forallb_forall. intros k Hk. apply members_in in Hk. destruct Hk as (y & Hy & _ & Hcy).
      apply negb_true_iff, Nat.eqb_neq. intros ->. rewrite He in Hy. inversion Hy; subst. auto. }
  rewrite Ew. do 6 (split; [reflexivity|]). reflexivity.
Qed.

(** The scope end cannot go wrong otherwise: it goes on, or the reporter ended the program. *)
Theorem C10_scope_end_defined w h e :
  reachable w -> nth_error (w_scoped w) h = Some (HOwns e) ->
  (exists w' r, step w (OEndScope h) = Next w' r) \/ step w (OEndScope h) = Stop.
Proof. intros Hr Hh. cbn [step]. rewrite Hh. eapply end_next_or_stop; eauto. Qed.

(** A requirement whose description throws: the exception leaves the scope end and nothing was reported. *)
Theorem C10_always_reported_refuted :
  exists w h e x w' y, reachable w /\ nth_error (w_scoped w) h = Some (HOwns e) /\ exp_at w e x /\
    (Z.of_nat (accepted (w_trace w) e) < x_min x)%Z /\ step w (OEndScope h) = Next w' (RThrow y) /\ w_trace w' = w_trace w.
Proof.
  exists (after [ONewMock [sig_unary]; OExpect 0 0 [m_undescribed 4] [] here]), 0, 0.
  eexists. eexists. exists (EUser 4). split; [apply after_reachable; vm_compute; reflexivity|].
  do 2 (split; [vm_compute; reflexivity|]). split; [vm_compute; reflexivity|]. split; vm_compute; reflexivity.
Qed.

(** Three expectations on one mock, ended out of order: the second was fulfilled, the others were not. *)
Definition prog_scopes : list op :=
  [ONewMock [sig_unary]; OExpect 0 0 [m_eq 1] [ClTimes (TxExactly 2)] here; OExpect 0 0 [m_eq 2] [] there; OExpect 0 0 [m_eq 3] [] there;
   OCall 0 0 [VInt 1] here; OFinal; OReturn (UOk (VInt 0)); OCall 0 0 [VInt 2] here; OFinal; OReturn (UOk (VInt 0));
   OEndScope 1; OEndScope 0; OEndScope 2].
Example C10_example :
  results prog_scopes = [RUnit; RUnit; RUnit; RUnit; RUnit; RUnit; RVal None; RUnit; RUnit; RVal None;
                         RUnit; RThrow EReporter; RThrow EReporter] /\
  map (unfulfilled_reports (w_trace (after prog_scopes))) [0; 1; 2] = [1; 0; 1].
Proof. vm_compute. auto. Qed.

(** ** C11: no second exception while unwinding *)

Definition library_reporter (rp : reporter) : Prop := rp = default_reporter \/ exists fail, rp = basic_reporter fail.

Lemma library_reporter_unwinding w : library_reporter (w_reporter w) -> 0 < w_uncaught w ->
  (forall k n, react w (RError k n) = Returns) /\ (forall r, react w (RUnfulfilled r) = Returns).
Proof.
  intros H Hu. unfold react. assert (E : (w_uncaught w =? 0) = false) by (apply Nat.eqb_neq; lia).
  destruct H as [->|[fail ->]]; simpl; rewrite E; auto.
Qed.

Theorem C11_scope_end w h e x :
  reachable w -> library_reporter (w_reporter w) -> 0 < w_uncaught w ->
  nth_error (w_scoped w) h = Some (HOwns e) -> exp_at w e x -> describes (eo_exp x) ->
  exists w', step w (OEndScope h) = Next w' RUnit.
Proof.
  intros Hr Hl Hu Hh Hx Hd. destruct (library_reporter_unwinding _ Hl Hu) as [H1 H2]. cbn [step]. rewrite Hh.
  eapply end_total; eauto.
Qed.

Theorem C11_move_assignment w dst src e x y :
  reachable w -> library_reporter (w_reporter w) -> 0 < w_uncaught w ->
  nth_error (w_scoped w) dst = Some (HOwns e) -> nth_error (w_scoped w) src = Some y -> y <> HDead ->
  exp_at w e x -> describes (eo_exp x) ->
  exists w', step w (OMoveAssignScoped dst src) = Next w' RUnit.
Proof.
  intros Hr Hl Hu Hh Hs Hy Hx Hd. destruct (library_reporter_unwinding _ Hl Hu) as [H1 H2]. cbn [step]. rewrite Hh, Hs.
  destruct y as [e'| |]; [| |contradiction]; (destruct (dst =? src); [eauto|]);
    match goal with |- context [end_expectation (set_scoped w ?sc) e] =>
      destruct (end_total w _ sc dst e x Hr Hh eq_refl Hx Hd H1 H2) as [w' ->] end; eauto.
Qed.

Theorem C11_drop_sequence w s :
  reachable w -> library_reporter (w_reporter w) -> 0 < w_uncaught w -> nth s (w_iface w) false = true ->
  exists w', step w (ODropSeq s) = Next w' RUnit.
Proof.
  intros Hr Hl Hu Hi. destruct (library_reporter_unwinding _ Hl Hu) as [H1 _]. cbn [step]. rewrite Hi.
  pose proof (winv_reachable _ Hr) as I. destruct (wi_len _ I) as [Li _]. pose proof (nth_true_lt _ _ Hi) as Hs. rewrite Li in Hs.
  destruct (nth_error_ex _ _ Hs) as [q Hq].
  destruct (release_seqs_total [s] (set_iface w (upd (w_iface w) s false)) H1) as [w' E]; [intros t [<-|[]]; eauto|].
  cbn [release_seqs] in E. destruct (release_seq _ s) as [w1 r1| |u|] eqn:E1; try discriminate. apply release_seq_next in E1.
  destruct E1 as [-> _]. eauto.
Qed.

(** A throwing description is not covered: the exception leaves the destructor although another one is in flight. *)
Theorem C11_throwing_description_refuted :
  exists w h e w' y, reachable w /\ w_reporter w = default_reporter /\ w_uncaught w = 1 /\ nth_error (w_scoped w) h = Some (HOwns e) /\
    step w (OEndScope h) = Next w' (RThrow y).
Proof.
  exists (after [ONewMock [sig_unary]; OExpect 0 0 [m_undescribed 4] [] here; OUnwind 1]), 0, 0. eexists. exists (EUser 4).
  split; [apply after_reachable; vm_compute; reflexivity|]. do 3 (split; [vm_compute; reflexivity|]). vm_compute. reflexivity.
Qed.

(** The same two objects end with and without an exception in flight. *)
Definition prog_unwind (n : nat) : list op :=
  [ONewSeq Lazy; ONewMock [sig_void]; OExpect 0 0 [] [ClSeq [0]] here; OUnwind n; OEndScope 0; OUnwind n].
Example C11_example :
  results (prog_unwind 1 ++ [ODropSeq 0]) = [RUnit; RUnit; RUnit; RUnit; RUnit; RUnit; RUnit] /\
  results (prog_unwind 0) = [RUnit; RUnit; RUnit; RUnit; RThrow EReporter; RUnit] /\ exec init (prog_unwind 0 ++ [ODropSeq 0]) = None /\
  unfulfilled_reports (w_trace (after (prog_unwind 1 ++ [ODropSeq 0]))) 0 = 1.
Proof. vm_compute. auto. Qed.

(** ** C34: expectations outlive and follow their mock *)

Lemma rename_id o : rename (fun i => i) (fun i => i) o = o.
Proof. destruct o; reflexivity. Qed.
Lemma map_rename_id ops : map (rename (fun i => i) (fun i => i)) ops = ops.
Proof. induction ops as [|o ops IH]; simpl; auto. rewrite rename_id, IH. reflexivity. Qed.

(** Moving mock [m] creates mock number [n]. Afterwards every program that uses [n] wherever it used [m] before (and numbers later
    mocks accordingly) shows exactly the same results, events and ending. *)
Theorem C34_move_follows w m w1 r ops :
  step w (OMoveMock m) = Next w1 r ->
  r = RUnit /\ w_trace w1 = w_trace w /\
  play w1 (map (rename (redirect m (length (w_mocks w))) (fun h => h)) ops) = play w ops.
Proof.
  cbn [step]. destruct (nth_error (w_mocks w) m) as [mk|] eqn:Hm; [|discriminate]. destruct (mk_alive mk) eqn:Ha; [|discriminate].
  cbn [negb]. intros H. inversion H; subst. do 2 (split; [reflexivity|]).
  apply (sim_play _ _ (fun _ => true) (fun _ => true)).
  - eexists. eexists. split; [reflexivity|]. split; [|apply rel_refl].
    replace (mkMock (mk_sigs mk) (mk_colls mk) true) with mk by (destruct mk; simpl in *; subst; reflexivity).
    apply rel_redirect; auto.
  - intros o _. split; apply forallb_forall; auto.
Qed.

(** Destroying mock [m] changes nothing for programs which do not name it any more. *)
Theorem C34_destroy_changes_nothing w m w1 r ops :
  step w (ODestroyMock m) = Next w1 r -> (forall o, In o ops -> ~ In m (mocks_of o)) ->
  r = RUnit /\ w_trace w1 = w_trace w /\ w_exps w1 = w_exps w /\ w_scoped w1 = w_scoped w /\ play w1 ops = play w ops.
Proof.
  cbn [step]. destruct (nth_error (w_mocks w) m) as [mk|] eqn:Hm; [|discriminate]. destruct (mk_alive mk) eqn:Ha; [|discriminate].
  cbn [negb]. intros H Hops. inversion H; subst. do 4 (split; [reflexivity|]). rewrite <- (map_rename_id ops) at 1.
  apply (sim_play _ _ (fun i => negb (i =? m)) (fun _ => true)).
  - eexists. eexists. split; [reflexivity|]. split; [|apply rel_refl]. apply rel_except. eapply nth_error_lt; eauto.
  - intros o Ho. split; apply forallb_forall; auto. intros i Hi. apply negb_true_iff, Nat.eqb_neq. intros ->. exact (Hops _ Ho Hi).
Qed.

(** Move assignment: [dst] answers as [src] did. What [dst] referred to before is only lost for calls through [dst]. *)
Theorem C34_move_assign_follows w dst src w1 r ops :
  step w (OMoveAssignMock dst src) = Next w1 r -> dst <> src -> (forall o, In o ops -> ~ In dst (mocks_of o)) ->
  r = RUnit /\ w_trace w1 = w_trace w /\ play w1 (map (rename (onto src dst) (fun h => h)) ops) = play w ops.
Proof.
  cbn [step]. destruct (nth_error (w_mocks w) dst) as [md|] eqn:Hd; [|discriminate].
  destruct (nth_error (w_mocks w) src) as [mk|] eqn:Hs; [|discriminate].
  destruct (mk_alive md && mk_alive mk && _) eqn:Ha; [|discriminate]. cbn [negb]. intros H Hne Hops.
  destruct (Nat.eqb_spec dst src); [contradiction|]. inversion H; subst. do 2 (split; [reflexivity|]).
  apply andb_true_iff in Ha. destruct Ha as [Ha _]. apply andb_true_iff in Ha. destruct Ha as [_ Ha].
  apply (sim_play _ _ (fun i => negb (i =? dst)) (fun _ => true)).
  - eexists. eexists. split; [reflexivity|]. split; [|apply rel_refl].
    replace (mkMock (mk_sigs mk) (mk_colls mk) true) with mk by (destruct mk; simpl in *; subst; reflexivity).
    apply rel_onto; auto. eapply nth_error_lt; eauto.
  - intros o Ho. split; apply forallb_forall; auto. intros i Hi. apply negb_true_iff, Nat.eqb_neq. intros ->. exact (Hops _ Ho Hi).
Qed.

(** Using the moved-from mock is undefined behaviour, for calls and for new expectations. *)
Theorem C34_moved_from_is_undefined w m w1 r s ov args l ms cls :
  step w (OMoveMock m) = Next w1 r -> (exists mk, nth_error (w_mocks w) m = Some mk /\ nth_error (mk_sigs mk) ov = Some s) ->
  step w1 (OCall m ov args l) = Wrong UbNull /\ step w1 (OExpect m ov ms cls l) = Wrong UbNull.
Proof.
  cbn [step]. intros H (mk & Hm & Hs). rewrite Hm in H. destruct (mk_alive mk) eqn:Ha; [|discriminate]. inversion H; subst.
  assert (E : find_overload (set_mocks w (upd (w_mocks w) m (mkMock (mk_sigs mk) None true) ++ [mkMock (mk_sigs mk) (mk_colls mk) true])) m ov
              = inl (Wrong UbNull)).
  { unfold find_overload. cbn [w_mocks set_mocks]. pose proof (nth_error_lt _ _ _ Hm) as L.
    rewrite nth_error_app1 by (rewrite length_upd; auto). rewrite nth_error_upd_eq by auto. simpl. rewrite Hs. reflexivity. }
  unfold do_call, do_expect. rewrite E. auto.
Qed.

(** The mock is moved twice and destroyed; its expectations answer through the new object and report at their scope end. *)
Definition prog_moved : list op :=
  [ONewMock [sig_unary]; OExpect 0 0 [m_eq 1] [ClTimes (TxExactly 2)] here; OMoveMock 0; OMoveMock 1; ODestroyMock 0;
   OCall 2 0 [VInt 1] here; OFinal; OReturn (UOk (VInt 0)); ODestroyMock 2; OEndScope 0].
Example C34_example :
  results prog_moved = [RUnit; RUnit; RUnit; RUnit; RUnit; RUnit; RUnit; RVal None; RUnit; RThrow EReporter] /\
  accepted (w_trace (after prog_moved)) 0 = 1 /\ unfulfilled_reports (w_trace (after prog_moved)) 0 = 1 /\
  play (after (firstn 3 prog_moved)) [OCall 0 0 [VInt 1] here] = ([], Broken UbNull).
Proof. vm_compute. auto. Qed.

(** ** C35: moving a ScopedExpectation *)

Theorem C35_move_transfers w h w1 r ops :
  step w (OMoveScoped h) = Next w1 r ->
  r = RUnit /\ w_trace w1 = w_trace w /\ w_exps w1 = w_exps w /\
  play w1 (map (rename (fun m => m) (redirect h (length (w_scoped w)))) ops) = play w ops.
Proof.
  cbn [step]. intros H.
  assert (E : exists x, nth_error (w_scoped w) h = Some x /\ Next (set_scoped w (upd (w_scoped w) h HEmpty ++ [x])) RUnit = Next w1 r).
  { destruct (nth_error (w_scoped w) h) as [[e| |]|]; try discriminate; eauto. }
  destruct E as (x & Hx & E). inversion E; subst. do 3 (split; [reflexivity|]).
  apply (sim_play _ _ (fun _ => true) (fun _ => true)).
  - eexists. eexists. split; [reflexivity|]. split; [apply rel_refl|]. apply rel_redirect; auto.
  - intros o _. split; apply forallb_forall; auto.
Qed.

(** The destruction of the moved-from object does nothing. *)
Theorem C35_moved_from_ends_silently w h w1 r ops :
  step w (OMoveScoped h) = Next w1 r ->
  exists w2, step w1 (OEndScope h) = Next w2 RUnit /\ w_trace w2 = w_trace w1 /\ w_exps w2 = w_exps w1 /\
    ((forall o, In o ops -> ~ In h (handles_of o)) -> play w2 ops = play w1 ops).
Proof.
  cbn [step]. intros H.
  assert (E : exists x, nth_error (w_scoped w) h = Some x /\ Next (set_scoped w (upd (w_scoped w) h HEmpty ++ [x])) RUnit = Next w1 r).
  { destruct (nth_error (w_scoped w) h) as [[e| |]|]; try discriminate; eauto. }
  destruct E as (x & Hx & E). inversion E; subst. pose proof (nth_error_lt _ _ _ Hx) as L. cbn [w_scoped set_scoped].
  rewrite nth_error_app1 by (rewrite length_upd; auto). rewrite nth_error_upd_eq by auto. eexists. split; [reflexivity|].
  do 2 (split; [reflexivity|]). intros Hops. rewrite <- (map_rename_id ops) at 1.
  apply (sim_play _ _ (fun _ => true) (fun i => negb (i =? h))).
  - eexists. eexists. split; [reflexivity|]. split; [apply rel_refl|]. apply rel_except. cbn. rewrite app_length, length_upd. lia.
  - intros o Ho. split; apply forallb_forall; auto. intros i Hi. apply negb_true_iff, Nat.eqb_neq. intros ->. exact (Hops _ Ho Hi).
Qed.

(** Move assignment is a scope end of the overwritten object followed by the transfer, as long as that scope end does not throw. *)
Theorem C35_assign_ends_and_transfers w dst src x w1 ops :
  dst <> src -> nth_error (w_scoped w) src = Some x -> x <> HDead -> step w (OEndScope dst) = Next w1 RUnit ->
  exists w2, step w (OMoveAssignScoped dst src) = Next w2 RUnit /\ w_trace w2 = w_trace w1 /\ w_exps w2 = w_exps w1 /\
    ((forall o, In o ops -> ~ In dst (handles_of o)) ->
     play w2 (map (rename (fun m => m) (onto src dst)) ops) = play w1 ops).
Proof.
  intros Hne Hsrc Hx H. cbn [step] in *. rewrite Hsrc.
  assert (Hd : exists od, nth_error (w_scoped w) dst = Some od) by (destruct (nth_error (w_scoped w) dst); [eauto|discriminate]).
  destruct Hd as [od Hdst]. rewrite Hdst in H |- *. pose proof (nth_error_lt _ _ _ Hdst) as L1. pose proof (nth_error_lt _ _ _ Hsrc) as L2.
  set (sc1 := upd (w_scoped w) dst HDead) in *. set (sc2 := upd (upd (w_scoped w) src HEmpty) dst x).
  assert (Hsc : sc2 = upd (upd sc1 src HEmpty) dst x).
  { unfold sc2, sc1. clear - Hne. revert dst src Hne. induction (w_scoped w) as [|a l IH]; intros [|d] [|s] Hne; simpl; auto; try contradiction.
    - rewrite upd_upd. reflexivity.
    - f_equal. apply IH. auto. }
  assert (Hplay : forall v, w_scoped v = sc1 -> (forall o, In o ops -> ~ In dst (handles_of o)) ->
     play (put (w_mocks v) sc2 v) (map (rename (fun m => m) (onto src dst)) ops) = play v ops).
  { intros v Hv Hops. apply (sim_play _ _ (fun _ => true) (fun i => negb (i =? dst))).
    - eexists. eexists. split; [reflexivity|]. split; [apply rel_refl|]. rewrite Hv, Hsc. apply rel_onto; auto.
      + unfold sc1. rewrite nth_error_upd_neq; auto.
      + unfold sc1. rewrite length_upd. auto.
    - intros o Ho. split; apply forallb_forall; auto. intros i Hi. apply negb_true_iff, Nat.eqb_neq. intros ->. exact (Hops _ Ho Hi). }
  assert (Hb : (dst =? src) = false) by (apply Nat.eqb_neq; auto). rewrite Hb.
  destruct od as [e| |]; [| |discriminate].
  - change (set_scoped w sc1) with (put (w_mocks w) sc1 w) in H. rewrite end_expectation_put in H.
    change (set_scoped w sc2) with (put (w_mocks w) sc2 w).
    assert (E : exists v, end_expectation w e = Next v RUnit /\ w1 = put (w_mocks w) sc1 v).
    { destruct (end_expectation w e) as [v r| |u|]; try discriminate. simpl in H. inversion H; subst. eauto. }
    destruct E as (v & E & ->). assert (E2 : end_expectation (put (w_mocks w) sc2 w) e = Next (put (w_mocks w) sc2 v) RUnit)
      by (rewrite end_expectation_put, E; reflexivity).
    exists (put (w_mocks w) sc2 v). destruct x as [e'| |]; [| |contradiction]; rewrite E2;
      (split; [reflexivity|]); do 2 (split; [reflexivity|]); intros Hops;
      exact (Hplay (put (w_mocks w) sc1 v) eq_refl Hops).
  - inversion H; subst w1. exists (set_scoped w sc2). destruct x as [e'| |]; [| |contradiction];
      (split; [reflexivity|]); do 2 (split; [reflexivity|]); intros Hops; exact (Hplay (set_scoped w sc1) eq_refl Hops).
Qed.

(** But if the reporter does not return from the unfulfilled report, the program ends: the move assignment of the held unique_ptr
    is noexcept. *)
Theorem C35_assign_unfulfilled_terminates w dst src e x y :
  reachable w -> dst <> src -> nth_error (w_scoped w) dst = Some (HOwns e) -> nth_error (w_scoped w) src = Some y -> y <> HDead ->
  exp_at w e x -> (Z.of_nat (accepted (w_trace w) e) < x_min x)%Z -> describes (eo_exp x) ->
  (forall rep, react w (RUnfulfilled rep) <> Returns) ->
  step w (OMoveAssignScoped dst src) = Stop.
Proof.
  intros Hr Hne Hd Hs Hy Hx Hm Hde Hre. cbn [step]. rewrite Hd, Hs.
  assert (Hb : (dst =? src) = false) by (apply Nat.eqb_neq; auto). rewrite Hb.
  assert (E : forall sc, match end_expectation (set_scoped w sc) e with Next w2 (RThrow _) => Stop | other => other end = Stop).
  { intros sc. destruct (end_next_or_stop w dst e Hr Hd sc) as [(w' & r & E)|E]; rewrite E; auto.
    apply end_expectation_next in E. destruct E as (eo & l & unf & evs & d' & He & _ & _ & _ & _ & Hc).
    unfold exp_at in Hx. cbn [w_exps w_seqs set_scoped] in He, Hc. rewrite Hx in He. inversion He; subst eo.
    destruct (satisfied_count _ _ _ (winv_reachable _ Hr) Hx) as [[_ Hm']|[Hf _]]; [lia|]. rewrite Hf in Hc.
    destruct Hc as [(F & _)|[(_ & z & _ & _ & ->)|(_ & rep & _ & _ & [[F _]|[_ ->]])]]; auto; [discriminate|].
    exfalso. exact (Hre rep F). }
  destruct y as [e'| |]; [apply E|apply E|contradiction].
Qed.

(** User expectation: like a scope end, the failure reaches the caller as an exception. Refuted with the DefaultReporter. *)
Theorem C35_assign_like_scope_end_refuted :
  exists w dst src w1, reachable w /\ w_reporter w = default_reporter /\ w_uncaught w = 0 /\
    step w (OEndScope dst) = Next w1 (RThrow EReporter) /\ step w (OMoveAssignScoped dst src) = Stop.
Proof.
  exists (after [ONewMock [sig_void]; OExpect 0 0 [] [] here; OExpect 0 0 [] [] there]), 0, 1. eexists.
  split; [apply after_reachable; vm_compute; reflexivity|]. do 2 (split; [vm_compute; reflexivity|]). split; vm_compute; reflexivity.
Qed.

Definition prog_handles : list op :=
  [ONewMock [sig_void]; OExpect 0 0 [] [ClTimes (TxAtMost 1)] here; OExpect 0 0 [] [] there; OMoveScoped 1; OEndScope 1; OMoveAssignScoped 0 2;
   OSatisfied 0; OCall 0 0 [] here; OFinal; OReturn (UOk (VInt 0)); OSatisfied 0; OEndScope 2; OEndScope 0].
Example C35_example :
  results prog_handles = [RUnit; RUnit; RUnit; RUnit; RUnit; RUnit; RBool false; RUnit; RUnit; RVal None; RBool true; RUnit; RUnit] /\
  accepted (w_trace (after prog_handles)) 1 = 1 /\ accepted (w_trace (after prog_handles)) 0 = 0.
Proof. vm_compute. auto. Qed.

(** ** C48: reports go to the most recently installed reporter *)

(** Number of the reporter installed last according to the trace; 0 is the DefaultReporter of the start. *)
Definition installed (tr : list event) : nat := fold_left (fun k ev => match ev with EvInstall id => id | _ => k end) tr 0.

(** The reporter given by the last install operation of a program. *)
Fixpoint last_reporter (rp : reporter) (ops : list op) : reporter :=
  match ops with
  | [] => rp
  | OInstall rp' :: ops' => last_reporter rp' ops'
  | _ :: ops' => last_reporter rp ops'
  end.

Lemma installed_app t t' : installed (t ++ t') = fold_left (fun k ev => match ev with EvInstall id => id | _ => k end) t' (installed t).
Proof. apply fold_left_app. Qed.

Lemma installed_current t evs rid : (forall ev, In ev evs -> to_current rid ev) -> installed (t ++ evs) = installed t.
Proof.
  intros H. rewrite installed_app. revert H. generalize (installed t). induction evs as [|ev evs IH]; intros k H; auto. simpl.
  rewrite IH by (intros; apply H; right; auto). specialize (H ev (or_introl eq_refl)). destruct ev; simpl in *; auto. contradiction.
Qed.

Theorem C48_delivered_to_last_installed w :
  reachable w -> w_rid w = installed (w_trace w) /\
  forall t to r who t', w_trace w = t ++ EvReport to r who :: t' -> to = installed t.
Proof.
  revert w. apply (reachable_steps (fun w => w_rid w = installed (w_trace w) /\
    forall t to r who t', w_trace w = t ++ EvReport to r who :: t' -> to = installed t)).
  - split; [reflexivity|]. intros [|] ? ? ? ? H; discriminate.
  - intros w o w' r0 Hr [IH1 IH2] Hs. destruct (step_delivers _ _ _ _ Hs) as (evs & Ht & Hd).
    assert (Hnew : (forall ev, In ev evs -> to_current (w_rid w) ev) -> forall t to r who t',
              w_trace w ++ evs = t ++ EvReport to r who :: t' -> to = installed t).
    { intros Hc t to r who t' E. apply app_split in E. destruct E as [(u & E & _)|(u & -> & E)]; [eapply IH2; eauto|].
      rewrite (installed_current _ u (w_rid w)) by (intros ev Hin; apply Hc; rewrite E; apply in_app_iff; auto).
      rewrite <- IH1. apply (Hc (EvReport to r who)). rewrite E. apply in_app_iff. right. left. auto. }
    assert (Hother : w_rid w' = w_rid w /\ w_reporter w' = w_reporter w /\ (forall ev, In ev evs -> to_current (w_rid w) ev) ->
              w_rid w' = installed (w_trace w') /\ forall t to r who t', w_trace w' = t ++ EvReport to r who :: t' -> to = installed t).
    { intros (E & _ & Hc). rewrite Ht, E. split; [rewrite (installed_current _ _ _ Hc); auto|]. apply Hnew; auto. }
    destruct o; auto. destruct Hd as (-> & E & _). rewrite Ht, E. split; [rewrite installed_app; reflexivity|].
    intros t to r who t' E'. apply app_split in E'. destruct E' as [(u & E' & _)|(u & -> & E')]; [eapply IH2; eauto|].
    destruct u as [|a [|]]; discriminate.
Qed.

(** The reaction to reports is that of the reporter object given by the last install, initially the DefaultReporter; every install
    gets a number of its own. *)
Theorem C48_last_installed_reacts ops w :
  run init ops w -> w_reporter w = last_reporter default_reporter ops /\
  w_rid w = length (filter (fun o => match o with OInstall _ => true | _ => false end) ops).
Proof.
  assert (H : forall ops v w, run v ops w -> w_reporter w = last_reporter (w_reporter v) ops /\
    w_rid w = w_rid v + length (filter (fun o => match o with OInstall _ => true | _ => false end) ops)).
  { intros ops0 v w0 H. induction H as [v|v o v1 r ops0 w0 Hs _ [IH1 IH2]]; [simpl; auto|].
    destruct (step_delivers _ _ _ _ Hs) as (evs & _ & Hd). rewrite IH1, IH2.
    destruct o; simpl; try (destruct Hd as (E1 & E2 & _); rewrite E1, E2; auto).
    destruct Hd as (_ & E1 & E2). rewrite E1, E2. split; auto. lia. }
  intros Hr. destruct (H _ _ _ Hr) as [A B]. split; auto.
Qed.

Definition prog_install : list op :=
  [ONewMock [sig_void]; OCall 0 0 [] here; OInstall (basic_reporter Throws); OCall 0 0 [] here;
   OInstall default_reporter; OExpect 0 0 [] [] here; OEndScope 0].
Example C48_example :
  flat_map (fun ev => match ev with EvReport to _ _ => [to] | _ => [] end) (w_trace (after prog_install)) = [0; 1; 2].
Proof. vm_compute. reflexivity. Qed.

Print Assumptions C10_scope_end.
Print Assumptions C10_reported_once_iff.
Print Assumptions C10_over_for_good.
Print Assumptions C10_others_unaffected.
Print Assumptions C10_scope_end_defined.
Print Assumptions C10_always_reported_refuted.
Print Assumptions C11_scope_end.
Print Assumptions C11_move_assignment.
Print Assumptions C11_drop_sequence.
Print Assumptions C11_throwing_description_refuted.
Print Assumptions C34_move_follows.
Print Assumptions C34_destroy_changes_nothing.
Print Assumptions C34_move_assign_follows.
Print Assumptions C34_moved_from_is_undefined.
Print Assumptions C35_move_transfers.
Print Assumptions C35_moved_from_ends_silently.
Print Assumptions C35_assign_ends_and_transfers.
Print Assumptions C35_assign_unfulfilled_terminates.
Print Assumptions C35_assign_like_scope_end_refuted.
Print Assumptions C48_delivered_to_last_installed.
Print Assumptions C48_last_installed_reacts.
