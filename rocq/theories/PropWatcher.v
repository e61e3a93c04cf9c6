(** * PropWatcher: C50-C52. Watched objects. *)

From Verif Require Import Base Lib Sequence Control Signature Printer Reports Expectation Builder BuildSpec World WorldSpec CallSpec
  SeqInv BuilderLemmas StepCases WorldInv ObjInv CallProofs BuildProofs Scenario CountProofs History SeqSpec SeqEnd ScopeProofs PropCounts PropScope
  FrameSpec FrameProofs Watcher WatchSpec WatchProofs WatchSteps.

(** A program with watchers is a program: [ww_log] are the operations it executed. *)
Theorem C50_is_a_program s : wreachable s -> run init (ww_log s) (ww s).
Proof. intros H. apply (v_run _ (inv_wreachable _ H)). Qed.

(** ** C50: the destruction of a watched object calls its mock exactly once. *)

(** No identity is called while a watcher carries it; destroying that watcher calls it, and nobody calls it ever again. *)
Theorem C50_called_once s i m fl ne l s1 r ops s2 :
  wreachable s -> carries s i m fl -> wstep s (LDestroy i ne l) = WNext s1 r -> wrun s1 ops s2 ->
  calls m (ww_log s) = 0 /\ calls m (ww_log s1) = 1 /\ calls m (ww_log s2) = 1 /\ forall j fl', ~ carries s2 j m fl'.
Proof.
  intros Hr Hc Hs Hrun. pose proof (inv_wreachable _ Hr) as I. destruct (v_life _ I _ _ _ Hc) as [Hin _]. pose proof (carries_held _ _ _ _ Hc) as Hh.
  pose proof (v_calls _ I m Hin) as H0.
  pose proof (wstep_later _ _ _ _ Hs) as (_ & Hl1 & _). pose proof (wrun_later _ _ _ Hrun) as (_ & Hl2 & _).
  pose proof (wreachable_step _ _ _ _ Hr Hs) as Hr1. pose proof (wreachable_run _ _ _ Hr1 Hrun) as Hr2.
  pose proof (v_calls _ (inv_wreachable _ Hr1) m (Hl1 _ Hin)) as H1. pose proof (v_calls _ (inv_wreachable _ Hr2) m (Hl2 _ (Hl1 _ Hin))) as H2.
  pose proof (later_calls _ _ m (wrun_later _ _ _ Hrun)) as H12.
  pose proof (adds_step m s (LDestroy i ne l) (in_or_app _ _ _ (or_introl Hin))) as A. rewrite Hs in A. cbn [adds calling] in A.
  unfold carries in Hc. rewrite Hc in A. cbn [holds] in A. rewrite Nat.eqb_refl in A.
  split; [lia|]. split; [lia|]. split; [lia|]. intros j fl' Hj. apply carries_held in Hj. lia.
Qed.

(** Exactly the destruction and the copy assignment of the carrying watcher call the mock of an identity. *)
Theorem C50_who_calls s o s' r m :
  wreachable s -> In m (ww_lmocks s) -> wstep s o = WNext s' r ->
  calls m (ww_log s') = calls m (ww_log s) \/
  calls m (ww_log s) = 0 /\ calls m (ww_log s') = 1 /\
  exists i fl, carries s i m fl /\ ((exists ne l, o = LDestroy i ne l) \/ (exists j l, o = LCopyAssign i j l)).
Proof.
  intros Hr Hin Hs. pose proof (inv_wreachable _ Hr) as I. pose proof (adds_step m s o (in_or_app _ _ _ (or_introl Hin))) as A. rewrite Hs in A. cbn [adds] in A.
  destruct (calling s o m) eqn:E; [right|left; lia].
  assert (G : forall i, match nth_error (ww_life s) i with Some x => holds m x | None => false end = true -> exists fl, carries s i m fl).
  { intros i Hi. unfold carries. destruct (nth_error (ww_life s) i) as [[[fl [n|]]|]|]; try discriminate. simpl in Hi. apply Nat.eqb_eq in Hi. subst. eauto. }
  assert (G2 : forall i, match nth_error (ww_reloc s) i with Some x => rholds m x | None => false end = true -> False).
  { intros i Hi. destruct (nth_error (ww_reloc s) i) as [[n|]|] eqn:En; try discriminate. simpl in Hi. apply Nat.eqb_eq in Hi. subst.
    eapply (v_disj _ I); eauto. apply (v_reloc _ I _ _ En). }
  destruct o; cbn [calling] in E; try discriminate; try (exfalso; eapply G2; eauto; fail); destruct (G _ E) as [fl Hc];
    pose proof (carries_held _ _ _ _ Hc); pose proof (v_calls _ I m Hin); (split; [lia|]; split; [lia|]; eauto 10).
Qed.

(** What the destruction of a watched object does: its only new event is the report about the call on its mock, a full match if
    some expectation of this identity can take the call and a failure otherwise; the watcher is gone in any case. *)
Theorem C50_destruction s i m fl c ne l :
  wreachable s -> carries s i m fl -> place (ww s) m c -> obeys_contract (w_reporter (ww s)) ->
  let w := ww s in let call := watcher_call l in
  (exists e x mr s', candidate w c call e x /\ true_report w call e x mr /\ wstep s (LDestroy i ne l) = WNext s' RUnit /\
     w_trace (ww s') = w_trace w ++ [EvReport (w_rid w) (RFull (make_call_report call) mr) [e]] /\ accepted (w_trace (ww s')) e = 1 /\
     ww_life s' = upd (ww_life s) i None) \/
  ((forall e x, ~ candidate w c call e x) /\ exists rep who s', failure w c call rep who /\
     wstep s (LDestroy i ne l) = violated ne (react w rep) s' /\ w_trace (ww s') = w_trace w ++ [EvReport (w_rid w) rep who] /\
     ww_life s' = upd (ww_life s) i None /\ w_exps (ww s') = w_exps w).
Proof.
  intros Hr Hc Hp Hct w call. pose proof (inv_wreachable _ Hr) as I.
  assert (Es : wstep s (LDestroy i ne l) = call_then (set_life s (upd (ww_life s) i None)) m l (KDestroy m ne)).
  { cbn [wstep]. unfold carries in Hc. rewrite Hc. reflexivity. }
  destruct (call_then_outcome (set_life s (upd (ww_life s) i None)) m c l (KDestroy m ne) (v_reachable _ I) Hp Hct) as
    [(e & x & mr & s' & Hcand & Ht & Hs & Htr & _ & Hl & _)|(Hn & rep & who & Hf & Hs)].
  - left. exists e, x, mr, s'. rewrite Es. do 4 (split; [auto|]). split; [|auto]. rewrite Htr, accepted_app, accepted_full, Nat.eqb_refl.
    destruct (v_life _ I _ _ _ Hc) as [_ (c' & Hp' & Hid)]. unfold place in *. rewrite Hp in Hp'. inversion Hp'; subst c'.
    destruct Hcand as ((Hx & _ & Hxc) & _). destruct (Hid _ _ Hx Hxc) as (_ & _ & _ & E0 & _). cbn [ww set_life] in *. rewrite E0. reflexivity.
  - right. split; [exact Hn|]. exists rep, who.
    exists (after_op (after_op (set_life s (upd (ww_life s) i None)) (only_reports w [EvReport (w_rid w) rep who]) (OCall m 0 [] l))
              (set_mocks (only_reports w [EvReport (w_rid w) rep who]) (upd (w_mocks w) m (mkMock [sig_watch] None false))) (ODestroyMock m)).
    split; [exact Hf|]. split; [|repeat split; reflexivity]. rewrite Es, Hs. cbn [ww set_life]. fold w. destruct (react w rep); try reflexivity.
    cbn [finish]. unfold perform at 1. cbn [ww after_op]. rewrite (destroy_alive (only_reports w [EvReport (w_rid w) rep who]) m _ Hp eq_refl).
    unfold leave. destruct ne; reflexivity.
Qed.

(** The mock of every identity has its own collection of expectations. *)
Theorem C50_collection s i m fl : wreachable s -> carries s i m fl -> exists c, place (ww s) m c.
Proof. intros Hr Hc. destruct (v_life _ (inv_wreachable _ Hr) _ _ _ Hc) as [_ Hi]. apply (ident_fixed _ _ _ Hi). Qed.

(** An identity on which expect_destruct was not used has no expectation, otherwise it has at most one: exactly once, not used so far. *)
Theorem C50_at_most_one s i m fl e x :
  wreachable s -> carries s i m fl -> destruct_expectation (ww s) m e x ->
  fl = true /\ x_min x = 1%Z /\ x_max x = 1%Z /\ accepted (w_trace (ww s)) e = 0 /\
  forall e' x', destruct_expectation (ww s) m e' x' -> e' = e.
Proof.
  intros Hr Hc (c & Hp & Hx & Hxc). destruct (v_life _ (inv_wreachable _ Hr) _ _ _ Hc) as [_ (c' & Hp' & Hid)]. unfold place in *. rewrite Hp in Hp'. inversion Hp'; subst c'.
  destruct (Hid _ _ Hx Hxc) as (A & B & C & D & E). do 4 (split; auto). intros e' x' (c2 & Hp2 & Hx2 & Hc2). unfold place in Hp2. rewrite Hp in Hp2. inversion Hp2; subst c2. eauto.
Qed.

(** Unexpected destruction: expect_destruct was not used, the destruction is reported as a call without any match. *)
Theorem C50_unexpected s i m ne l :
  wreachable s -> carries s i m false -> obeys_contract (w_reporter (ww s)) ->
  let rep := RNoMatch (make_call_report (watcher_call l)) [] in
  exists s', wstep s (LDestroy i ne l) = violated ne (react (ww s) rep) s' /\
    w_trace (ww s') = w_trace (ww s) ++ [EvReport (w_rid (ww s)) rep []].
Proof.
  intros Hr Hc Hct rep. destruct (C50_collection _ _ _ _ Hr Hc) as [c Hp].
  assert (Hno : forall e x, live_in (ww s) c e x -> False).
  { intros e x (Hx & _ & Hxc). destruct (C50_at_most_one _ _ _ _ e x Hr Hc) as [F _]; [exists c; auto|discriminate]. }
  destruct (C50_destruction s i m false c ne l Hr Hc Hp Hct) as [(e & x & mr & s' & (Hl & _) & _)|(_ & rep' & who & s' & Hf & Hs & Ht & _)]; [exfalso; eauto|].
  exists s'. assert (rep' = rep /\ who = []) as [-> ->]; [|auto].
  destruct Hf as [((e & x & Hl & _) & _)|(_ & [_ Hw] & ms & -> & Hms)]; [exfalso; eauto|].
  assert (who = []) as ->. { destruct who as [|e who]; auto. exfalso. destruct (proj1 (Hw e) (or_introl eq_refl)) as (x & _ & Hl & _). eauto. }
  inversion Hms; subst. auto.
Qed.

(** Expected destruction: expect_destruct was used once, with clauses that do not restrict it further. Wherever the identity has been
    moved to since then, its destruction is accepted by this expectation (if its scope has not ended): one full-match report and nothing
    else, and the expectation is never reported as unfulfilled. *)
Theorem C50_expected s0 i m cls l0 s1 ops s2 j fl x2 ne l :
  wreachable s0 -> carries s0 i m false -> wstep s0 (LExpect i cls l0) = WNext s1 RUnit -> plain cls ->
  let e := length (w_exps (ww s0)) in
  wrun s1 ops s2 -> carries s2 j m fl -> exp_at (ww s2) e x2 -> eo_alive x2 = true -> obeys_contract (w_reporter (ww s2)) ->
  exists mr s3, wstep s2 (LDestroy j ne l) = WNext s3 RUnit /\
    w_trace (ww s3) = w_trace (ww s2) ++ [EvReport (w_rid (ww s2)) (RFull (make_call_report (watcher_call l)) mr) [e]] /\
    forall ops' s4, wrun s3 ops' s4 -> accepted (w_trace (ww s4)) e = 1 /\ unfulfilled_reports (w_trace (ww s4)) e = 0.
Proof.
  intros Hr Hc Hs Hpl e Hrun Hc2 Hx2 Ha Hct. pose proof (inv_wreachable _ Hr) as I0.
  assert (He : exists w1, step (ww s0) (OExpect m 0 [] (ClTimes TxOnce :: cls) l0) = Next w1 RUnit /\ ww s1 = w1).
  { cbn [wstep] in Hs. unfold expect_destruct in Hs. unfold carries in Hc. rewrite Hc in Hs. apply perform_inv in Hs. destruct Hs as (w1 & r1 & E & H). inversion H; subst.
    exists w1. auto. }
  destruct He as (w1 & He & Ew1). pose proof (wreachable_step _ _ _ _ Hr Hs) as Hr1. pose proof (wreachable_run _ _ _ Hr1 Hrun) as Hr2.
  pose proof (inv_wreachable _ Hr2) as I2. pose proof (v_reachable _ I2) as Hre2.
  destruct (v_life _ I0 _ _ _ Hc) as [_ (c & Hp & Hid)].
  destruct (expect_next _ _ _ _ _ _ _ _ He) as (sg & coll & Hf & _ & _ & [(_ & _ & x & Hx & Hd & Hxc & _ & Hlen & Ht & _)|(_ & F & _)]); [|discriminate].
  rewrite (watcher_overload _ _ _ Hp) in Hf. inversion Hf; subst sg coll. fold e in Hx.
  assert (Hlat : exists more, run w1 more (ww s2)). { destruct (wrun_later _ _ _ Hrun) as ((more & _ & H) & _). rewrite Ew1 in H. eauto. }
  destruct Hlat as (more & Hmore). pose proof (reachable_step _ _ _ _ (v_reachable _ I0) He) as Hre1.
  destruct (run_static _ _ _ (winv_reachable _ Hre1) Hmore _ _ Hx) as (y & Hy & Hst). unfold exp_at in *. rewrite Hx2 in Hy. inversion Hy; subst y. clear Hy.
  pose proof (as_declared_static _ _ _ _ _ _ _ Hd Hst) as (D1 & D2 & D3 & D4 & D5).
  assert (Hcoll : eo_coll x2 = c) by (destruct Hst as (E & _); congruence).
  pose proof (inv_wreachable _ Hr1) as I1.
  assert (Hc1 : carries s1 i m true /\ place (ww s1) m c).
  { cbn [wstep] in Hs. unfold expect_destruct in Hs. pose proof Hc as Hc'. unfold carries in Hc'. rewrite Hc' in Hs. apply perform_inv in Hs.
    destruct Hs as (w1' & r1 & E & H). inversion H; subst. split.
    - unfold carries. cbn [ww_life after_op set_life]. apply nth_error_upd_eq. eapply nth_error_lt; eauto.
    - cbn [ww after_op set_life] in *. eapply unmoved_mock; eauto. exact Logic.I. }
  destruct Hc1 as [Hc1 Hp1]. pose proof (place_stays _ _ _ _ _ _ _ _ _ I1 Hrun Hc1 Hc2 Hp1) as Hp2.
  destruct (plain_accepts _ _ _ l (conj D1 (conj D2 (conj D3 (conj D4 D5)))) Hpl) as [Hacc Hseq].
  destruct (v_life _ I2 _ _ _ Hc2) as [_ (c' & Hp' & Hid2)]. unfold place in Hp'. rewrite Hp2 in Hp'. inversion Hp'; subst c'.
  destruct (Hid2 _ _ Hx2 Hcoll) as (_ & Emin & Emax & E0 & Euniq).
  assert (Hcand : candidate (ww s2) c (watcher_call l) e x2).
  { split; [split; auto|]. split; auto. split; [rewrite E0, Emax; reflexivity|]. rewrite Hseq. intros q []. }
  destruct (C50_destruction s2 j m fl c ne l Hr2 Hc2 Hp2 Hct) as [(e' & x' & mr & s3 & (Hl & _) & _ & Hs3 & Ht3 & Ha3 & _)|(Hn & _)]; [|exfalso; eapply Hn; eauto].
  assert (e' = e) as ->. { destruct Hl as (Hx' & _ & Hc'). eapply Euniq; eauto. }
  exists mr, s3. do 2 (split; [auto|]). intros ops' s4 Hrun'. pose proof (wreachable_step _ _ _ _ Hr2 Hs3) as Hr3.
  pose proof (wreachable_run _ _ _ Hr3 Hrun') as Hr4. pose proof (inv_wreachable _ Hr4) as I4. pose proof (v_reachable _ I4) as Hre4.
  destruct (later_trans _ _ _ (wstep_later _ _ _ _ Hs3) (wrun_later _ _ _ Hrun')) as ((more4 & _ & Hm4) & _).
  destruct (run_static _ _ _ (winv_reachable _ Hre2) Hm4 _ _ Hx2) as (x4 & Hx4 & (_ & _ & _ & _ & _ & _ & S1 & S2 & _)).
  assert (Eacc : accepted (w_trace (ww s4)) e = 1).
  { destruct (wrun_later _ _ _ Hrun') as ((more5 & _ & Hm) & _). pose proof (accepted_mono _ _ _ e Hm) as G. pose proof (C01_max_never_exceeded _ _ _ Hre4 Hx4) as G2. lia. }
  split; auto. rewrite (wi_unf _ (winv_reachable _ Hre4) _ _ Hx4).
  assert (unmet x4 = false) as ->. { destruct (unmet x4) eqn:E; auto. apply (unmet_count _ _ _ (winv_reachable _ Hre4) Hx4) in E. lia. }
  rewrite andb_false_r. reflexivity.
Qed.

(** The scope of an expectation ends while its identity is still alive, i.e. carried by some watcher: it is reported as unfulfilled. *)
Theorem C50_unfulfilled s i m fl e x h s' r :
  wreachable s -> carries s i m fl -> destruct_expectation (ww s) m e x -> nth_error (w_scoped (ww s)) h = Some (HOwns e) ->
  wstep s (WOp (OEndScope h)) = WNext s' r ->
  exists rep errs, true_exp_report (ww s) e x rep /\ (forall ev, In ev errs -> exists q, is_seq_error q ev = true) /\
    w_trace (ww s') = w_trace (ww s) ++ EvReport (w_rid (ww s)) (RUnfulfilled rep) [e] :: errs.
Proof.
  intros Hr Hc Hd Hh Hs. destruct (C50_at_most_one _ _ _ _ _ _ Hr Hc Hd) as (_ & Emin & _ & E0 & _).
  pose proof (v_reachable _ (inv_wreachable _ Hr)) as Hre. destruct Hd as (c & Hp & Hx & Hxc).
  pose proof (watcher_describes _ _ _ _ _ Hre Hp Hx Hxc) as Hdesc.
  assert (exists w1 r1, step (ww s) (OEndScope h) = Next w1 r1 /\ ww s' = w1) as (w1 & r1 & Hs1 & Ew).
  { cbn [wstep] in Hs. change (existsb (is_private s) (named (OEndScope h))) with false in Hs. cbv iota in Hs. unfold perform in Hs.
    destruct (step (ww s) (OEndScope h)) as [w1 r1| | |] eqn:E; try discriminate. exists w1, r1. split; auto.
    pose proof (plain_step s (OEndScope h) w1 r1 Hr eq_refl E ltac:(discriminate)) as P. cbn [wstep] in P.
    change (existsb (is_private s) (named (OEndScope h))) with false in P. cbv iota in P. unfold perform in P. rewrite E in P. rewrite Hs in P. inversion P; subst. reflexivity. }
  destruct (C10_scope_end _ _ _ _ _ _ Hre Hh Hx Hdesc Hs1) as (errs & Herrs & [(F & _)|(_ & rep & Hrep & Ht & _)]).
  - rewrite E0, Emin in F. lia.
  - exists rep, errs. rewrite Ew. auto.
Qed.

(** A second expect_destruct on the same identity, through whichever watcher carries it by then, throws and changes nothing. It does
    not matter what became of the first one. *)
Theorem C50_second_throws s i m fl o s1 r ops s2 j fl' o' :
  wreachable s -> carries s i m fl -> announces o i -> wstep s o = WNext s1 r -> wrun s1 ops s2 -> carries s2 j m fl' -> announces o' j ->
  wstep s2 o' = WNext s2 (RThrow ELogicError).
Proof.
  intros Hr Hc Ho Hs Hrun Hc2 Ho'. pose proof (wreachable_step _ _ _ _ Hr Hs) as Hr1.
  assert (Hc1 : carries s1 i m true).
  { unfold carries in *. destruct Ho as [->|(cls & l & ->)]; cbn [wstep] in Hs; unfold expect_destruct in Hs; rewrite Hc in Hs; destruct fl; try (inversion Hs; subst; exact Hc).
    - inversion Hs; subst. cbn [ww_life set_life]. apply nth_error_upd_eq. eapply nth_error_lt; eauto.
    - apply perform_inv in Hs. destruct Hs as (w1 & r1 & _ & H). inversion H; subst. cbn [ww_life set_life after_op]. apply nth_error_upd_eq. eapply nth_error_lt; eauto. }
  pose proof (flag_stays _ _ _ _ _ _ _ (inv_wreachable _ Hr1) Hrun Hc1 Hc2) as ->. unfold carries in Hc2.
  destruct Ho' as [->|(cls & l & ->)]; cbn [wstep]; unfold expect_destruct; rewrite Hc2; reflexivity.
Qed.

(** A first one does not: unless an expect_destruct was used on the identity, its flag is not set (and expect_destruct does not throw
    logic_error, see below). *)
Theorem C50_flag_only_by_announcing s ops s' i j m :
  wreachable s -> carries s i m false -> wrun s ops s' -> carries s' j m true ->
  exists ops1 k o ops2 s1, ops = ops1 ++ o :: ops2 /\ wrun s ops1 s1 /\ carries s1 k m false /\ announces o k.
Proof.
  intros Hr Hc H. revert i Hr Hc. induction H as [|s o s1 r ops s2 Hs Hrun IH]; intros i Hr Hc Hc2.
  - exfalso. destruct (unique_carrier _ _ _ _ _ _ (inv_wreachable _ Hr) Hc Hc2). discriminate.
  - pose proof (wreachable_step _ _ _ _ Hr Hs) as Hr1.
    assert (Hin1 : exists k f, carries s1 k m f).
    { pose proof (carried_below _ _ _ _ (inv_wreachable _ Hr) Hc) as Hb.
      assert (Hb1 : m < length (w_mocks (ww s1))).
      { destruct (wstep_later _ _ _ _ Hs) as ((more & _ & Hm) & _). assert (length (w_mocks (ww s)) <= length (w_mocks (ww s1))); [|lia].
        clear - Hm. induction Hm as [|w o w1 r ops w2 Hs _ IH]; auto. apply mocks_grow in Hs. lia. }
      clear IH Hr Hc Hs Hr1. clear Hb. revert Hb1 Hc2. generalize true. induction Hrun as [|a oa b ra opsa c Ha Hab IH]; intros f Hb1 Hc2; eauto.
      assert (Hb2 : m < length (w_mocks (ww b))).
      { destruct (wstep_later _ _ _ _ Ha) as ((more & _ & Hm) & _). assert (length (w_mocks (ww a)) <= length (w_mocks (ww b))); [|lia].
        clear - Hm. induction Hm as [|w o w1 r ops w2 Hs _ IH]; auto. apply mocks_grow in Hs. lia. }
      destruct (IH f Hb2 Hc2) as (k & g & Hk). destruct (carry_step _ _ _ _ _ _ _ Ha Hk) as [(k2 & f2 & H2 & _)|[Hge _]]; [eauto|lia]. }
    destruct Hin1 as (k & f & Hk). destruct (carry_step _ _ _ _ _ _ _ Hs Hk) as [(k0 & f0 & H0 & Hf)|[Hge _]].
    + destruct (unique_carrier _ _ _ _ _ _ (inv_wreachable _ Hr) Hc H0) as [<- <-]. destruct Hf as [->|(_ & -> & Ho)].
      * destruct (IH k Hr1 Hk Hc2) as (ops1 & k1 & o1 & ops2 & s3 & -> & R & C & A). exists (o :: ops1), k1, o1, ops2, s3.
        split; auto. split; auto. econstructor; eauto.
      * exists [], i, o, ops, s. split; auto. split; [constructor|]. auto.
    + pose proof (carried_below _ _ _ _ (inv_wreachable _ Hr) Hc). lia.
Qed.

(** The first expect_destruct never throws logic_error. *)
Theorem C50_first_succeeds s i m cls l s' r :
  wreachable s -> carries s i m false -> wstep s (LExpect i cls l) = WNext s' r ->
  carries s' i m true /\
  (r = RUnit /\ (exists x, destruct_expectation (ww s') m (length (w_exps (ww s))) x /\ eo_alive x = true /\ as_declared x sig_watch 0 [] (ClTimes TxOnce :: cls) l /\
     nth_error (w_scoped (ww s')) (length (w_scoped (ww s))) = Some (HOwns (length (w_exps (ww s))))) \/
   r = RThrow EInvalidArgument /\ ~ NoDup (clause_seqs cls) /\ ww s' = ww s).
Proof.
  intros Hr Hc Hs. pose proof (inv_wreachable _ Hr) as I. destruct (v_life _ I _ _ _ Hc) as [_ Hid]. destruct (ident_fixed _ _ _ Hid) as [c Hp].
  cbn [wstep] in Hs. unfold expect_destruct in Hs. pose proof Hc as Hc'. unfold carries in Hc'. rewrite Hc' in Hs. apply perform_inv in Hs.
  destruct Hs as (w1 & r1 & E & H). inversion H; subst. cbn [ww set_life] in E. split.
  - unfold carries. cbn [ww_life set_life after_op]. apply nth_error_upd_eq. eapply nth_error_lt; eauto.
  - cbn [ww after_op]. destruct (expect_next _ _ _ _ _ _ _ _ E) as (sg & coll & Hf & _ & Hw & [(_ & -> & x & Hx & Hd & Hxc & Ha & _ & _ & Hsc)|(Hv & -> & ->)]).
    + left. split; auto. rewrite (watcher_overload _ _ _ Hp) in Hf. inversion Hf; subst sg coll. exists x. split; [|auto]. exists c. split; auto.
      exact (unmoved_mock _ _ _ _ _ _ E Hp Logic.I).
    + right. split; auto. split; [|reflexivity]. intros Hnd. apply Hv. split; [|exact Hnd].
      destruct Hw as (Hw & _). simpl in Hw. destruct (times_clauses cls) eqn:Et; [|simpl in Hw; lia]. unfold times_clauses in *. simpl. rewrite Et. constructor; [|constructor]. unfold valid_limits. split; [intros H0; vm_compute in H0; discriminate|intros H0; vm_compute in H0; discriminate].
Qed.

(** expect_destruct fixes the times to once, so that a further times clause does not compile. *)
Theorem C50_no_times s i m cls l t s' r :
  wreachable s -> carries s i m false -> In (ClTimes t) cls -> wstep s (LExpect i cls l) <> WNext s' r.
Proof.
  intros Hr Hc Hin Hs. cbn [wstep] in Hs. unfold expect_destruct in Hs. unfold carries in Hc. rewrite Hc in Hs. apply perform_inv in Hs.
  destruct Hs as (w1 & r1 & E & _). destruct (expect_next _ _ _ _ _ _ _ _ E) as (sg & coll & _ & _ & (Hw & _) & _).
  assert (In t (times_clauses cls)) as Ht. { unfold times_clauses. apply in_flat_map. exists (ClTimes t). split; auto. left; auto. }
  change (times_clauses (ClTimes TxOnce :: cls)) with (TxOnce :: times_clauses cls) in Hw. destruct (times_clauses cls); [contradiction|]. simpl in Hw. lia.
Qed.

(** ** C51: copying and moving. *)

(** Move construction: the new watcher carries the identity with everything set up on it, the old one is moved-from. Nothing else
    changes; in particular nothing is reported. *)
Theorem C51_move s i m fl :
  carries s i m fl ->
  exists s', wstep s (LMove i) = WNext s' RUnit /\ ww s' = ww s /\ carries s' (length (ww_life s)) m fl /\ moved_from s' i /\
    (forall k, k <> i -> k < length (ww_life s) -> nth_error (ww_life s') k = nth_error (ww_life s) k) /\ ww_reloc s' = ww_reloc s.
Proof.
  intros Hc. unfold carries in *. pose proof (nth_error_lt _ _ _ Hc) as Hl. cbn [wstep]. rewrite Hc. eexists. split; [reflexivity|]. cbn [ww ww_life ww_reloc set_life lw_flag].
  split; auto. split; [rewrite <- (length_upd (ww_life s) i (Some (mkLW fl None))) at 1; apply nth_error_app_last|].
  split; [exists fl; cbn [ww_life set_life lw_flag]; rewrite nth_error_app1 by (rewrite length_upd; auto); apply nth_error_upd_eq; auto|]. split; auto.
  intros k Hk Hkl. rewrite nth_error_app1 by (rewrite length_upd; auto). apply nth_error_upd_neq; auto.
Qed.

(** The destruction of a moved-from watcher is silent. *)
Theorem C51_moved_from_is_silent s i ne l :
  moved_from s i -> exists s', wstep s (LDestroy i ne l) = WNext s' RUnit /\ ww s' = ww s /\ ww_log s' = ww_log s /\ ww_life s' = upd (ww_life s) i None.
Proof. intros (fl & H). cbn [wstep]. rewrite H. eexists. split; [reflexivity|]. auto. Qed.

(** A moved-from watcher must not be used for expectations: expect_destruct dereferences a null pointer, unless it throws because the
    moved-from watcher still remembers that expect_destruct was used on the identity that left it. *)
Theorem C51_expecting_moved_from s i o :
  moved_from s i -> announces o i -> wstep s o = WWrong UbNull \/ wstep s o = WNext s (RThrow ELogicError).
Proof. intros ([|] & H) [->|(cls & l & ->)]; cbn [wstep]; unfold expect_destruct; rewrite H; auto. Qed.

(** A fresh identity: never seen before, without expectations. *)
Definition fresh_identity (s s' : wworld) (m : nat) : Prop :=
  ~ In m (ww_lmocks s) /\ In m (ww_lmocks s') /\ calls m (ww_log s') = 0 /\ (forall e x, ~ destruct_expectation (ww s') m e x).

Lemma fresh_identity_new s s' r o i m fl : wreachable s -> wstep s o = WNext s' r -> carries s' i m fl -> length (w_mocks (ww s)) <= m ->
  fresh_identity s s' m /\ fl = false.
Proof.
  intros Hr Hs Hc Hm. pose proof (inv_wreachable _ Hr) as I. pose proof (wreachable_step _ _ _ _ Hr Hs) as Hr'. pose proof (inv_wreachable _ Hr') as I'.
  destruct (v_life _ I' _ _ _ Hc) as [Hin Hid]. assert (fl = false) as ->.
  { destruct (carry_step _ _ _ _ _ _ _ Hs Hc) as [(k & f & Hk & _)|[_ ->]]; auto. pose proof (carried_below _ _ _ _ I Hk). lia. }
  split; auto. split; [intros H; apply (v_lm _ I) in H; lia|]. split; auto. split.
  - pose proof (v_calls _ I' m Hin). pose proof (carries_held _ _ _ _ Hc). lia.
  - intros e x H. destruct (C50_at_most_one _ _ _ _ _ _ Hr' Hc H) as [F _]. discriminate.
Qed.

(** Copy construction and default construction: a fresh identity, whatever the source is; the source is not touched. *)
Theorem C51_copy s o :
  wreachable s -> (o = LNew \/ exists i lw, o = LCopy i /\ nth_error (ww_life s) i = Some (Some lw)) ->
  exists s' m, wstep s o = WNext s' RUnit /\ carries s' (length (ww_life s)) m false /\ fresh_identity s s' m /\
    w_trace (ww s') = w_trace (ww s) /\ w_exps (ww s') = w_exps (ww s) /\
    (forall k, k < length (ww_life s) -> nth_error (ww_life s') k = nth_error (ww_life s) k).
Proof.
  intros Hr Ho. assert (E : wstep s o = new_life s). { destruct Ho as [->|(i & lw & -> & Hi)]; cbn [wstep]; [|rewrite Hi]; reflexivity. }
  unfold new_life, perform in E. destruct (step (ww s) (ONewMock [sig_watch])) as [w1 r1| | |] eqn:Es; try discriminate.
  pose proof (kept _ _ _ _ (eq_refl : frames_kept (ONewMock [sig_watch]) = true) Es) as (_ & Ht & He & _). eexists. exists (length (w_mocks (ww s))). split; [exact E|].
  assert (Hc : carries (set_life (own_life (after_op s w1 (ONewMock [sig_watch])) (length (w_mocks (ww s)))) (ww_life s ++ [Some (mkLW false (Some (length (w_mocks (ww s)))))]))
            (length (ww_life s)) (length (w_mocks (ww s))) false) by apply nth_error_app_last.
  split; [exact Hc|]. split; [apply (fresh_identity_new _ _ _ _ _ _ _ Hr E Hc (le_n _))|]. do 2 (split; [auto|]).
  intros k Hk. cbn [ww_life set_life]. apply nth_error_app1. auto.
Qed.

(** Copy assignment, also of an object to itself, counts as destruction of the identity of the target: the same mock is called
    once, with the same possible outcomes as in C50_destruction. In case of a failure the target stays moved-from. *)
Theorem C51_copy_assign s i j m fl lj c l :
  wreachable s -> carries s i m fl -> nth_error (ww_life s) j = Some (Some lj) -> place (ww s) m c -> obeys_contract (w_reporter (ww s)) ->
  let w := ww s in let call := watcher_call l in
  (exists e x mr s', candidate w c call e x /\ true_report w call e x mr /\ wstep s (LCopyAssign i j l) = WNext s' RUnit /\
     w_trace (ww s') = w_trace w ++ [EvReport (w_rid w) (RFull (make_call_report call) mr) [e]] /\ calls m (ww_log s') = 1 /\
     moved_from s' i /\ ww_conts s' = (depth s, KReset i m) :: ww_conts s /\ depth s' = S (depth s)) \/
  ((forall e x, ~ candidate w c call e x) /\ exists rep who s', failure w c call rep who /\
     wstep s (LCopyAssign i j l) = violated false (react w rep) s' /\ w_trace (ww s') = w_trace w ++ [EvReport (w_rid w) rep who] /\
     moved_from s' i).
Proof.
  intros Hr Hc Hj Hp Hct w call. pose proof (inv_wreachable _ Hr) as I. pose proof (nth_error_lt _ _ _ Hc) as Hlen.
  assert (Es : wstep s (LCopyAssign i j l) = call_then (set_life s (upd (ww_life s) i (Some (mkLW fl None)))) m l (KReset i m)).
  { cbn [wstep]. unfold carries in Hc. rewrite Hc, Hj. reflexivity. }
  destruct (v_life _ I _ _ _ Hc) as [Hin _].
  destruct (call_then_outcome (set_life s (upd (ww_life s) i (Some (mkLW fl None)))) m c l (KReset i m) (v_reachable _ I) Hp Hct) as
    [(e & x & mr & s' & Hcand & Ht & Hs & Htr & _ & Hl & _ & Hk & Hd)|(Hn & rep & who & Hf & Hs)].
  - left. exists e, x, mr, s'. rewrite Es. do 4 (split; [auto|]). split.
    + rewrite <- Es in Hs. pose proof (adds_step m s (LCopyAssign i j l) (in_or_app _ _ _ (or_introl Hin))) as A. rewrite Hs in A. cbn [adds calling] in A.
      unfold carries in Hc. rewrite Hc in A. cbn [holds] in A. rewrite Nat.eqb_refl in A. pose proof (v_calls _ I m Hin). pose proof (carries_held _ _ _ _ Hc). lia.
    + split; [|auto]. exists fl. rewrite Hl. cbn [ww_life set_life]. apply nth_error_upd_eq. auto.
  - right. split; [exact Hn|]. exists rep, who.
    exists (after_op (after_op (set_life s (upd (ww_life s) i (Some (mkLW fl None)))) (only_reports w [EvReport (w_rid w) rep who]) (OCall m 0 [] l))
              (set_mocks (only_reports w [EvReport (w_rid w) rep who]) (upd (w_mocks w) m (mkMock [sig_watch] None false))) (ODestroyMock m)).
    split; [exact Hf|]. split; [|split; [reflexivity|exists fl; cbn [ww_life after_op set_life]; apply nth_error_upd_eq; auto]].
    rewrite Es, Hs. cbn [ww set_life]. fold w. destruct (react w rep); try reflexivity.
    cbn [finish]. unfold perform. cbn [ww after_op]. rewrite (destroy_alive (only_reports w [EvReport (w_rid w) rep who]) m _ Hp eq_refl). reflexivity.
Qed.

(** ... and when the call has ended normally, the target gets a fresh identity. *)
Theorem C51_copy_assign_ends s n i m ks lw u w1 v :
  wreachable s -> ww_conts s = (n, KReset i m) :: ks -> depth s = S n -> nth_error (ww_life s) i = Some (Some lw) ->
  step (ww s) (OReturn u) = Next w1 (RVal v) ->
  exists s' m', wstep s (WOp (OReturn u)) = WNext s' RUnit /\ carries s' i m' false /\ fresh_identity s s' m' /\ ww_conts s' = ks /\
    w_trace (ww s') = w_trace (ww s).
Proof.
  intros Hr Hk Hd Hi Hs. pose proof (inv_wreachable _ Hr) as I. pose proof (v_reachable _ I) as Hre.
  assert (Hfr : length (w_frames w1) = n /\ w_trace w1 = w_trace (ww s)).
  { unfold depth in Hd. destruct (step_trace _ _ _ _ Hs) as [new Ht].
    destruct (step_frames _ _ _ _ _ Hre Hs Ht) as [E _|? ? ? ? ? ? ? Eo _ _ E _|? ? ? ? Eo Ew _ E _|? ? Eo Ew _ _ E _|f fs u0 Eo Ew _ E En _ _]; try discriminate.
    - exfalso. cbn [step] in Hs. unfold do_return in Hs. destruct (w_frames (ww s)) as [|f fs] eqn:Ef; [discriminate|]. destruct (negb (f_final f)); [discriminate|].
      destruct (nth_error (w_exps (ww s)) (f_exp f)); [|discriminate]. destruct (finalizer_result _ _) in Hs; [|unfold thrown in Hs; destruct (f_noexcept f); discriminate].
      inversion Hs; subst. cbn [w_frames set_frames] in E. assert (length fs = length (f :: fs)) by congruence. simpl in *. lia.
    - rewrite Ew in Hd. simpl in Hd. inversion Hd. rewrite E, Ht, En, app_nil_r. auto. }
  destruct Hfr as [Hfr Htr].
  assert (I1 : WatchInv (after_op s w1 (OReturn u))) by (eapply inv_op; eauto).
  destruct (good_pop (after_op s w1 (OReturn u)) n (KReset i m) ks I1 Hk) as [_ (Hin & (c & Hp) & _)]. cbn [ww set_conts after_op] in Hp.
  assert (E : exists s', wstep s (WOp (OReturn u)) = WNext s' RUnit /\ ww_life s' = upd (ww_life s) i (Some (mkLW false (Some (length (w_mocks w1))))) /\ ww_conts s' = ks /\
    w_trace (ww s') = w_trace w1).
  { cbn [wstep]. change (existsb (is_private s) (named (OReturn u))) with false. cbv iota. unfold perform at 1. rewrite Hs. unfold resume. cbn [ww_conts ww]. rewrite Hk, Hfr, Nat.leb_refl.
    cbn [finish is_throw]. unfold perform. cbn [ww set_conts]. rewrite (destroy_alive _ _ _ Hp eq_refl). unfold refresh. cbn [ww_life ww set_conts after_op ww_conts ww_reloc ww_log ww_lmocks ww_rmocks]. rewrite Hi. unfold perform.
    cbn [ww mk_sigs]. destruct (step (set_mocks w1 (upd (w_mocks w1) m (mkMock [sig_watch] None false))) (ONewMock [sig_watch])) as [w2 r2| | |] eqn:E2; try discriminate.
    pose proof (kept _ _ _ _ (eq_refl : frames_kept (ONewMock [sig_watch]) = true) E2) as (_ & Ht2 & _). 
    assert (Hm2 : w_mocks w2 = upd (w_mocks w1) m (mkMock [sig_watch] None false) ++ [mkMock [sig_watch] (Some [length (w_colls w1)]) true])
      by (apply new_mock_step in E2; destruct E2 as (_ & -> & _); reflexivity).
    cbn [w_mocks set_mocks]. rewrite length_upd. destruct (lw_mock lw) as [mo|] eqn:Hmo; cbn [drop_mock].
    - assert (Hcar : carries s i mo (lw_flag lw)) by (unfold carries; rewrite Hi; destruct lw; simpl in *; congruence).
      pose proof (carries_held _ _ _ _ Hcar) as Hh. pose proof (v_own _ I mo) as Ho.
      assert (mo <> m) as Hne. { intros ->. rewrite Hk, countb_cons in Ho. unfold waits in Ho at 1. simpl in Ho. rewrite Nat.eqb_refl in Ho. simpl in Ho. lia. }
      destruct (v_life _ I1 i mo (lw_flag lw) Hcar) as [_ Hido]. destruct (ident_fixed _ _ _ Hido) as [co Hpo]. cbn [ww after_op] in Hpo. unfold place in Hpo.
      assert (Hpo2 : nth_error (w_mocks w2) mo = Some (mkMock [sig_watch] (Some [co]) true)).
      { rewrite Hm2. apply nth_error_snoc_old. rewrite nth_error_upd_neq; auto. }
      unfold perform. cbn [ww set_life own_life]. rewrite (destroy_alive _ _ _ Hpo2 eq_refl). eexists. split; [reflexivity|]. repeat split; auto.
    - eexists. split; [reflexivity|]. repeat split; auto. }
  destruct E as (s' & Hst & Hl & Hks & Ht'). exists s', (length (w_mocks w1)). assert (Hc : carries s' i (length (w_mocks w1)) false).
  { unfold carries. rewrite Hl. apply nth_error_upd_eq. eapply nth_error_lt; eauto. }
  split; auto. split; auto. split; [|split; auto; congruence]. eapply fresh_identity_new; eauto. eapply mocks_grow; eauto.
Qed.

(** Copy assignment to a moved-from watcher calls nothing and gives it a fresh identity. *)
Theorem C51_copy_assign_moved_from s i j lj l :
  wreachable s -> moved_from s i -> nth_error (ww_life s) j = Some (Some lj) ->
  exists s' m, wstep s (LCopyAssign i j l) = WNext s' RUnit /\ carries s' i m false /\ fresh_identity s s' m /\ w_trace (ww s') = w_trace (ww s).
Proof.
  intros Hr (fl & Hi) Hj. assert (E : exists s', wstep s (LCopyAssign i j l) = WNext s' RUnit /\
    ww_life s' = upd (ww_life s) i (Some (mkLW false (Some (length (w_mocks (ww s)))))) /\ w_trace (ww s') = w_trace (ww s)).
  { cbn [wstep]. rewrite Hi, Hj. cbn [lw_mock]. unfold refresh. rewrite Hi. unfold perform. destruct (step (ww s) (ONewMock [sig_watch])) as [w1 r1| | |] eqn:E; try discriminate.
    pose proof (kept _ _ _ _ (eq_refl : frames_kept (ONewMock [sig_watch]) = true) E) as (_ & Ht & _). eexists. split; [reflexivity|]. auto. }
  destruct E as (s' & E & El & Et). exists s', (length (w_mocks (ww s))). assert (Hc : carries s' i (length (w_mocks (ww s))) false).
  { unfold carries. rewrite El. apply nth_error_upd_eq. eapply nth_error_lt; eauto. }
  split; auto. split; auto. split; auto. eapply fresh_identity_new; eauto.
Qed.

(** Move assignment: the identity of the source goes to the target, the source is moved-from. The former identity of the target is lost:
    its mock is destroyed without having been called, and no report is made. *)
Theorem C51_move_assign s i j m fl m' fl' :
  wreachable s -> i <> j -> carries s i m fl -> carries s j m' fl' ->
  exists s', wstep s (LMoveAssign i j) = WNext s' RUnit /\ carries s' i m' fl' /\ moved_from s' j /\
    w_trace (ww s') = w_trace (ww s) /\ w_exps (ww s') = w_exps (ww s) /\ w_scoped (ww s') = w_scoped (ww s) /\
    forall ops s2, wrun s' ops s2 -> calls m (ww_log s2) = 0 /\ forall k f, ~ carries s2 k m f.
Proof.
  intros Hr Hne Hi Hj. pose proof (inv_wreachable _ Hr) as I. destruct (v_life _ I _ _ _ Hi) as [Hin Hid]. destruct (ident_fixed _ _ _ Hid) as [c Hp].
  assert (E : exists s', wstep s (LMoveAssign i j) = WNext s' RUnit /\
    ww_life s' = upd (upd (ww_life s) j (Some (mkLW fl' None))) i (Some (mkLW fl' (Some m'))) /\ w_trace (ww s') = w_trace (ww s) /\
    w_exps (ww s') = w_exps (ww s) /\ w_scoped (ww s') = w_scoped (ww s)).
  { cbn [wstep]. unfold carries in *. rewrite Hi, Hj. apply Nat.eqb_neq in Hne. rewrite Hne. cbn [lw_mock lw_flag drop_mock]. unfold perform. cbn [ww set_life].
    rewrite (destroy_alive _ _ _ Hp eq_refl). eexists. split; [reflexivity|]. auto. }
  destruct E as (s' & E & El & Et & Ee & Esc). exists s'. split; auto. pose proof (nth_error_lt _ _ _ Hi) as Li. pose proof (nth_error_lt _ _ _ Hj) as Lj.
  split; [unfold carries; rewrite El; apply nth_error_upd_eq; rewrite length_upd; auto|].
  split; [exists fl'; rewrite El, nth_error_upd_neq by auto; apply nth_error_upd_eq; auto|]. do 3 (split; [auto|]).
  pose proof (wreachable_step _ _ _ _ Hr E) as Hr'. pose proof (inv_wreachable _ Hr') as I'.
  assert (Hmm : m' <> m). { intros ->. destruct (unique_carrier _ _ _ _ _ _ I Hi Hj). auto. }
  assert (G : In m (ww_lmocks s') /\ calls m (ww_log s') = 0 /\ forall k f, ~ carries s' k m f).
  { destruct (wstep_later _ _ _ _ E) as (_ & Hl & _). split; [apply Hl; auto|].
    pose proof (adds_step m s (LMoveAssign i j) (in_or_app _ _ _ (or_introl Hin))) as A. rewrite E in A. cbn [adds calling] in A.
    pose proof (v_calls _ I m Hin). pose proof (carries_held _ _ _ _ Hi). split; [lia|]. intros k f Hk. unfold carries in Hk. rewrite El in Hk.
    apply nth_upd_inv in Hk. destruct Hk as [[_ Hk]|[Hki Hk]]; [congruence|]. apply nth_upd_inv in Hk. destruct Hk as [[_ Hk]|[Hkj Hk]]; [discriminate|].
    destruct (unique_carrier _ _ _ _ _ _ I Hi Hk). auto. }
  clear - Hr' G. intros ops s2 H. revert Hr' G. induction H as [|s o s1 r ops s2 Hs Hr IH]; intros Hr' (G1 & G2 & G3); [auto|].
  pose proof (wreachable_step _ _ _ _ Hr' Hs) as Hr1. apply IH; auto. destruct (wstep_later _ _ _ _ Hs) as (_ & Hl & _). split; [apply Hl; auto|]. split.
  - destruct (C50_who_calls _ _ _ _ _ Hr' G1 Hs) as [E|(_ & _ & k & f & Hk & _)]; [congruence|]. exfalso. eapply G3; eauto.
  - intros k f Hk. destruct (carry_step _ _ _ _ _ _ _ Hs Hk) as [(k0 & f0 & H0 & _)|[Hge _]]; [eapply G3; eauto|].
    pose proof (v_lm _ (inv_wreachable _ Hr') _ G1). lia.
Qed.

(** Apart from that, every identity is either carried by exactly one watcher or has been reported: it gets lost only by the move
    assignment over its watcher, or by a copy assignment to its watcher that was already waiting for its own call. *)
Theorem C51_lost_only_by_assignment s o s' r i m fl :
  wreachable s -> carries s i m fl -> wstep s o = WNext s' r ->
  (exists j fl', carries s' j m fl') \/ calls m (ww_log s') = 1 \/ (exists j, j <> i /\ o = LMoveAssign i j) \/
  (exists o' n m0 ks, o = WOp o' /\ ww_conts s = (n, KReset i m0) :: ks /\ m0 <> m).
Proof.
  intros Hr Hc Hs. pose proof (inv_wreachable _ Hr) as I. pose proof (wreachable_step _ _ _ _ Hr Hs) as Hr'. pose proof (inv_wreachable _ Hr') as I'.
  destruct (countb (holds m) (ww_life s')) eqn:E.
  - right. destruct (lost_step _ _ _ _ _ _ _ I Hs Hc) as [H|H]; [|left|right; exact H].
    + intros j f H. apply carries_held in H. lia.
    + destruct (v_life _ I _ _ _ Hc) as [Hin _]. destruct (wstep_later _ _ _ _ Hs) as (_ & Hl & _). pose proof (v_calls _ I' m (Hl _ Hin)). lia.
  - left. apply held_carries. lia.
Qed.

(** No two watchers carry the same identity. *)
Theorem C51_unique s i j m fl fl' : wreachable s -> carries s i m fl -> carries s j m fl' -> i = j /\ fl = fl'.
Proof. intros Hr. apply unique_carrier. apply inv_wreachable; auto. Qed.

(** ** Executing programs with watchers, for the examples. *)

Fixpoint wexec (s : wworld) (ops : list wop) : option (wworld * list result) :=
  match ops with
  | [] => Some (s, [])
  | o :: ops' =>
      match wstep s o with
      | WNext s1 r => match wexec s1 ops' with Some (s2, rs) => Some (s2, r :: rs) | None => None end
      | _ => None
      end
  end.
Definition wafter (ops : list wop) : wworld := match wexec winit ops with Some (s, _) => s | None => winit end.
Definition wresults (ops : list wop) : list result := match wexec winit ops with Some (_, rs) => rs | None => [] end.
Lemma wexec_run ops : forall s s' rs, wexec s ops = Some (s', rs) -> wrun s ops s'.
Proof.
  induction ops as [|o ops IH]; intros s s' rs H; simpl in H; [inversion H; subst; constructor|].
  destruct (wstep s o) as [s1 r| | |] eqn:E; try discriminate. destruct (wexec s1 ops) as [[s2 rs2]|] eqn:E2; [|discriminate]. inversion H; subst. econstructor; eauto.
Qed.
Lemma wafter_reachable ops : (match wexec winit ops with Some _ => true | None => false end) = true -> wreachable (wafter ops).
Proof. unfold wafter. destruct (wexec winit ops) as [[s rs]|] eqn:E; [|discriminate]. intros _. exists ops. eapply wexec_run; eauto. Qed.

(** The claim that every identity is reported exactly once when its object is gone is false: here the object whose destruction is expected is
    move-assigned over, nothing is reported at that point, and the end of the scope reports the expectation as unfulfilled. *)
Definition lost_identity : list wop := [LNew; LExpect 0 [] here; LNew; LMoveAssign 0 1; LDestroy 1 false here].
Theorem C51_every_identity_reported_refuted :
  exists s m s', wreachable s /\ In m (ww_lmocks s) /\ (forall j fl, ~ carries s j m fl) /\ calls m (ww_log s) = 0 /\ w_trace (ww s) = [] /\
    wstep s (WOp (OEndScope 0)) = WNext s' (RThrow EReporter) /\ unfulfilled_reports (w_trace (ww s')) 0 = 1.
Proof.
  exists (wafter lost_identity), 0. eexists. split; [apply wafter_reachable; vm_compute; reflexivity|]. split; [vm_compute; auto|]. split.
  - intros j fl. unfold carries. vm_compute. destruct j as [|[|j]]; try discriminate. destruct j; discriminate.
  - split; [vm_compute; reflexivity|]. split; [vm_compute; reflexivity|]. split; [vm_compute; reflexivity|vm_compute; reflexivity].
Qed.

(** ** C52: relocation. *)

Lemma return_step w u w1 r1 : step w (OReturn u) = Next w1 r1 ->
  length (w_frames w) = S (length (w_frames w1)) /\ w_trace w1 = w_trace w /\ w_mocks w1 = w_mocks w /\ w_exps w1 = w_exps w.
Proof.
  cbn [step]. unfold do_return. destruct (w_frames w) as [|f fs]; [discriminate|]. destruct (negb (f_final f)); [discriminate|].
  destruct (nth_error (w_exps w) (f_exp f)); [|discriminate]. destruct (finalizer_result _ _); [|unfold thrown; destruct (f_noexcept f)]; intros H; inversion H; subst; auto.
Qed.

Lemma candidate_ext w w' : w_exps w' = w_exps w -> w_trace w' = w_trace w -> forall c k e x, candidate w' c k e x = candidate w c k e x.
Proof. intros H1 H2 c k e x. unfold candidate, live_in, applicable, exp_at. rewrite H1, H2. reflexivity. Qed.
Lemma true_report_ext w w' : w_exps w' = w_exps w -> w_trace w' = w_trace w -> forall k e x mr, true_report w' k e x mr = true_report w k e x mr.
Proof. intros H1 H2 k e x mr. unfold true_report, true_state, current_in, exp_at. rewrite H1, H2. reflexivity. Qed.
Lemma failure_ext w w' : w_exps w' = w_exps w -> w_trace w' = w_trace w -> forall c k rep who, failure w' c k rep who = failure w c k rep who.
Proof.
  intros H1 H2 c k rep who. unfold failure, newest_first, true_reports, true_report, true_state, current_in, accepting, rejecting, live_in, exp_at.
  rewrite H1, H2. reflexivity.
Qed.

(** Two watchers never share expectations. *)
Theorem C52_unique s i j c : wreachable s -> watches s i c -> watches s j c -> i = j.
Proof.
  intros Hr (m & Hi & Hp) (n & Hj & Hq). pose proof (inv_wreachable _ Hr) as I. pose proof (v_reachable _ I) as Hre.
  pose proof (place_owner _ _ _ _ _ _ Hre Hp (watcher_overload _ _ _ Hq)) as E. subst n.
  pose proof (v_rown _ I m) as Ho. destruct (Nat.eq_dec i j) as [|Hne]; auto. exfalso.
  pose proof (countb_upd (rholds m) (ww_reloc s) i (Some m) None Hi) as H. cbn [rholds] in H. rewrite Nat.eqb_refl in H. cbn [b2n] in H.
  assert (1 <= countb (rholds m) (upd (ww_reloc s) i None)).
  { apply countb_in with (x := Some m); [|simpl; apply Nat.eqb_refl]. apply nth_error_In with (n := j). rewrite nth_error_upd_neq; auto. }
  lia.
Qed.

(** Every move from a watched object calls its mock once: one report, a full match if some expectation of the object can take it and a
    failure otherwise. In the latter case nothing is moved. Otherwise the move waits for the side effects and the finalizer of the expectation. *)
Theorem C52_relocation s i c o ne l :
  wreachable s -> watches s i c -> relocates s o i ne l -> obeys_contract (w_reporter (ww s)) ->
  let w := ww s in let call := watcher_call l in
  (exists e x mr s' k, candidate w c call e x /\ true_report w call e x mr /\ wstep s o = WNext s' RUnit /\
     w_trace (ww s') = w_trace w ++ [EvReport (w_rid w) (RFull (make_call_report call) mr) [e]] /\ accepted (w_trace (ww s')) e = S (accepted (w_trace w) e) /\
     ww_reloc s' = ww_reloc s /\ (forall j d, watches s j d -> watches s' j d) /\
     ww_conts s' = (depth s, k) :: ww_conts s /\ depth s' = S (depth s) /\
     (o = RMove i ne l /\ k = KMoved i (length (w_mocks w)) ne \/ exists j, o = RMoveAssign j i ne l /\ k = KAssigned j i ne)) \/
  ((forall e x, ~ candidate w c call e x) /\ exists rep who s', failure w c call rep who /\
     wstep s o = violated ne (react w rep) s' /\ w_trace (ww s') = w_trace w ++ [EvReport (w_rid w) rep who] /\
     ww_reloc s' = ww_reloc s /\ (forall j d, watches s j d -> watches s' j d)).
Proof.
  intros Hr (m & Hi & Hp) Ho Hct w call. pose proof (inv_wreachable _ Hr) as I. pose proof (v_reachable _ I) as Hre.
  assert (Acc : forall (tr : list event) rid cr mr e, accepted (tr ++ [EvReport rid (RFull cr mr) [e]]) e = S (accepted tr e)).
  { intros. rewrite accepted_app, accepted_full, Nat.eqb_refl. lia. }
  destruct Ho as [->|(k & mk & Hk & ->)].
  - cbn [wstep]. rewrite Hi. unfold perform. fold w. destruct (step w (ONewMock [sig_watch])) as [w1 r1| | |] eqn:Es; try discriminate.
    pose proof (kept _ _ _ _ (eq_refl : frames_kept (ONewMock [sig_watch]) = true) Es) as (Kf & Kt & Ke & _ & _ & Kr & Kp & Ku).
    pose proof (new_mock_step _ _ _ Es) as (_ & Km & _ & _ & _ & _). fold (after_op s w1 (ONewMock [sig_watch])). set (d := length (w_mocks w)) in *.
    set (s1 := own_reloc (after_op s w1 (ONewMock [sig_watch])) d). assert (Hp1 : place w1 m c) by (unfold place in *; rewrite Km; apply nth_error_snoc_old; auto).
    assert (Hold : forall j e, watches s j e -> exists n, nth_error (ww_reloc s) j = Some (Some n) /\ place w1 n e /\ n <> d).
    { intros j e (n & Hj & Hn). exists n. split; auto. unfold place in *. split; [rewrite Km; apply nth_error_snoc_old; auto|]. apply nth_error_lt in Hn. unfold d, w. lia. }
    destruct (call_then_outcome s1 m c l (KMoved i d ne)) as [(e & x & mr & s' & Hc & Ht & Hs & Htr & Hm & _ & Hrl & Hcs & Hd)|(Hn & rep & who & Hf & Hs)]; auto.
    { apply (reachable_step _ _ _ _ Hre Es). } { cbn [ww s1 own_reloc after_op]. rewrite Kp. auto. }
    + left. cbn [ww s1 own_reloc after_op] in *. rewrite (candidate_ext w w1 Ke Kt) in Hc. rewrite (true_report_ext w w1 Ke Kt) in Ht.
      exists e, x, mr, s', (KMoved i d ne). do 3 (split; [auto|]). rewrite Htr, Kt, Kr. split; auto. split; auto. split; auto. split.
      { intros j q Hj. destruct (Hold _ _ Hj) as (n & A & B & _). exists n. rewrite Hrl. split; auto. unfold place in *. rewrite Hm. auto. }
      assert (depth s1 = depth s) as Ed by (unfold depth; cbn [ww s1 own_reloc after_op]; rewrite Kf; reflexivity). rewrite Ed in *. auto 10.
    + right. cbn [ww s1 own_reloc after_op] in *. split. { intros e x Hc. rewrite <- (candidate_ext w w1 Ke Kt) in Hc. eapply Hn; eauto. }
      rewrite (failure_ext w w1 Ke Kt) in Hf. exists rep, who.
      set (w2 := only_reports w1 [EvReport (w_rid w1) rep who]) in *.
      exists (after_op (after_op s1 w2 (OCall m 0 [] l)) (set_mocks w2 (upd (w_mocks w2) d (mkMock [sig_watch] None false))) (ODestroyMock d)).
      split; auto. split; [|split; [|split; [reflexivity|]]].
      * change (call_then s1 m l (KMoved i d ne) = violated ne (react w rep) (after_op (after_op s1 w2 (OCall m 0 [] l)) (set_mocks w2 (upd (w_mocks w2) d (mkMock [sig_watch] None false))) (ODestroyMock d))).
        rewrite Hs. assert (react w1 rep = react w rep) as -> by (unfold react; rewrite Kp, Ku; reflexivity). destruct (react w rep); try reflexivity.
        cbn [finish is_throw]. unfold perform. cbn [ww after_op].
        rewrite (destroy_alive w2 d (mkMock [sig_watch] (Some [length (w_colls w)]) true)); [reflexivity| |reflexivity].
        unfold w2. cbn [only_reports w_mocks]. rewrite Km. apply nth_error_app_last.
      * cbn [ww after_op set_mocks w_trace]. unfold w2. cbn [only_reports w_trace]. rewrite Kt, Kr. reflexivity.
      * intros j q Hj. destruct (Hold _ _ Hj) as (n & A & B & Hne). exists n. split; auto. unfold place in *. cbn [ww after_op set_mocks w_mocks]. rewrite nth_error_upd_neq by auto. exact B.
  - assert (Es : wstep s (RMoveAssign k i ne l) = call_then s m l (KAssigned k i ne)) by (cbn [wstep]; rewrite Hk, Hi; reflexivity).
    destruct (call_then_outcome s m c l (KAssigned k i ne)) as [(e & x & mr & s' & Hc & Ht & Hs & Htr & Hm & _ & Hrl & Hcs & Hd)|(Hn & rep & who & Hf & Hs)]; auto.
    + left. exists e, x, mr, s', (KAssigned k i ne). rewrite Es. do 4 (split; [auto|]). fold w in Htr. rewrite Htr. split; auto. split; auto. split.
      { intros j q (n & A & B). exists n. rewrite Hrl. split; auto. unfold place in *. rewrite Hm. auto. }
      split; auto. split; auto. right. eauto.
    + right. split; auto. exists rep, who. exists (after_op s (only_reports w [EvReport (w_rid w) rep who]) (OCall m 0 [] l)).
      split; auto. split; [|split; [reflexivity|split; [reflexivity|auto]]]. rewrite Es, Hs. fold w. destruct (react w rep); try reflexivity.
Qed.

(** The expectation's part of the call has ended: the expectations of the source go to the target, the source is moved-from. *)
Theorem C52_move_ends s n i d ne ks c u w1 v :
  wreachable s -> ww_conts s = (n, KMoved i d ne) :: ks -> depth s = S n -> watches s i c -> step (ww s) (OReturn u) = Next w1 (RVal v) ->
  exists s', wstep s (WOp (OReturn u)) = WNext s' RUnit /\ w_trace (ww s') = w_trace (ww s) /\ ww_conts s' = ks /\
    watches s' (length (ww_reloc s)) c /\ emptied s' i /\
    (forall j e, j <> i -> watches s j e -> watches s' j e).
Proof.
  intros Hr Hk Hd (m & Hi & Hp) Hs. pose proof (inv_wreachable _ Hr) as I. destruct (return_step _ _ _ _ Hs) as (Hf & Ht & Hm & _). unfold depth in Hd.
  destruct (good_pop s n (KMoved i d ne) ks I Hk) as [_ (Hdin & (cs & Hda) & Hdo)]. cbn [ww set_conts ww_reloc ww_conts] in *.
  assert (Hdm : d <> m). { intros ->. pose proof (reloc_held _ _ _ Hi). lia. }
  unfold place in Hp. exists (set_reloc (after_op (set_conts (after_op s w1 (OReturn u)) ks)
     (set_mocks w1 (upd (upd (w_mocks w1) m (mkMock [sig_watch] None true)) d (mkMock [sig_watch] (Some [c]) true))) (OMoveAssignMock d m)) (ww_reloc s ++ [Some d])).
  split; [|split; [exact Ht|split; [reflexivity|split; [|split]]]].
  - cbn [wstep]. change (existsb (is_private s) (named (OReturn u))) with false. cbv iota. unfold perform at 1. rewrite Hs. fold (after_op s w1 (OReturn u)). unfold resume. cbn [ww_conts ww after_op]. rewrite Hk.
    replace (length (w_frames w1)) with n by lia. rewrite Nat.leb_refl. cbn [finish is_throw ww_reloc set_conts after_op]. rewrite Hi. unfold perform. cbn [ww set_conts after_op].
    assert (E : step w1 (OMoveAssignMock d m) = Next (set_mocks w1 (upd (upd (w_mocks w1) m (mkMock [sig_watch] None true)) d (mkMock [sig_watch] (Some [c]) true))) RUnit).
    { cbn [step]. rewrite Hm, Hda, Hp. cbn [mk_alive mk_sigs mk_colls andb]. destruct (list_eq_dec signature_eq_dec [sig_watch] [sig_watch]) as [_|F]; [|contradiction].
      cbn [negb]. apply Nat.eqb_neq in Hdm. rewrite Hdm. reflexivity. }
    rewrite E. reflexivity.
  - exists d. cbn [ww_reloc set_reloc ww after_op]. split; [apply nth_error_app_last|]. unfold place. cbn [set_mocks w_mocks]. apply nth_error_upd_eq. rewrite length_upd, Hm. eapply nth_error_lt; eauto.
  - exists m. cbn [ww_reloc set_reloc ww after_op]. split; [apply nth_error_snoc_old; auto|]. cbn [set_mocks w_mocks]. rewrite nth_error_upd_neq by auto. apply nth_error_upd_eq. rewrite Hm. eapply nth_error_lt; eauto.
  - intros j e Hj (q & A & B). exists q. cbn [ww_reloc set_reloc ww after_op]. split; [apply nth_error_snoc_old; auto|]. unfold place in *. cbn [set_mocks w_mocks].
    assert (q <> d). { intros ->. pose proof (reloc_held _ _ _ A). lia. }
    assert (q <> m). { intros ->. apply Hj. eapply C52_unique; [eauto| |]; exists m; unfold place; eauto. }
    rewrite !nth_error_upd_neq by auto. rewrite Hm. exact B.
Qed.

Theorem C52_assign_ends s n k i ne ks c mk u w1 v :
  wreachable s -> ww_conts s = (n, KAssigned k i ne) :: ks -> depth s = S n -> watches s i c -> nth_error (ww_reloc s) k = Some (Some mk) ->
  step (ww s) (OReturn u) = Next w1 (RVal v) ->
  exists s', wstep s (WOp (OReturn u)) = WNext s' RUnit /\ w_trace (ww s') = w_trace (ww s) /\ ww_conts s' = ks /\ ww_reloc s' = ww_reloc s /\
    watches s' k c /\ (k <> i -> emptied s' i) /\
    (forall j e, j <> i -> j <> k -> watches s j e -> watches s' j e).
Proof.
  intros Hr Hk Hd (m & Hi & Hp) Hki Hs. pose proof (inv_wreachable _ Hr) as I. destruct (return_step _ _ _ _ Hs) as (Hf & Ht & Hm & _). unfold depth in Hd.
  destruct (v_reloc _ I _ _ Hki) as [_ [cs Hmk]]. unfold place in Hp.
  assert (E0 : wstep s (WOp (OReturn u)) = perform (set_conts (after_op s w1 (OReturn u)) ks) (OMoveAssignMock mk m) (fun s1 _ => WNext s1 RUnit)).
  { cbn [wstep]. change (existsb (is_private s) (named (OReturn u))) with false. cbv iota. unfold perform at 1. rewrite Hs. fold (after_op s w1 (OReturn u)). unfold resume. cbn [ww_conts ww after_op]. rewrite Hk.
    replace (length (w_frames w1)) with n by lia. rewrite Nat.leb_refl. cbn [finish is_throw ww_reloc set_conts after_op]. rewrite Hki, Hi. reflexivity. }
  assert (Hsame : forall a b, nth_error (ww_reloc s) a = Some (Some b) -> forall a', nth_error (ww_reloc s) a' = Some (Some b) -> a = a').
  { intros a b A a' A'. destruct (Nat.eq_dec a a') as [|Hne]; auto. exfalso. pose proof (v_rown _ I b) as Ho.
    pose proof (countb_upd (rholds b) (ww_reloc s) a (Some b) None A) as H. cbn [rholds] in H. rewrite Nat.eqb_refl in H. cbn [b2n] in H.
    assert (1 <= countb (rholds b) (upd (ww_reloc s) a None)); [|lia].
    apply countb_in with (x := Some b); [|simpl; apply Nat.eqb_refl]. apply nth_error_In with (n := a'). rewrite nth_error_upd_neq; auto. }
  rewrite E0. unfold perform. cbn [ww set_conts after_op step]. rewrite Hm, Hmk, Hp. cbn [mk_alive mk_sigs mk_colls andb].
  destruct (list_eq_dec signature_eq_dec [sig_watch] [sig_watch]) as [_|F]; [|contradiction]. cbn [negb].
  destruct (Nat.eqb_spec mk m) as [->|Hne].
  - assert (k = i) by eauto. subst k. eexists. split; [reflexivity|]. split; [exact Ht|]. split; [reflexivity|]. split; [reflexivity|]. split; [|split].
    + exists m. split; auto. unfold place. cbn [ww]. rewrite Hm. auto.
    + congruence.
    + intros j e _ _ (q & A & B). exists q. split; auto. unfold place in *. cbn [ww]. rewrite Hm. auto.
  - eexists. split; [reflexivity|]. split; [exact Ht|]. split; [reflexivity|]. split; [reflexivity|]. split; [|split].
    + exists mk. split; auto. unfold place. cbn [ww set_mocks w_mocks]. apply nth_error_upd_eq. rewrite length_upd. eapply nth_error_lt; eauto.
    + intros _. exists m. split; auto. cbn [ww set_mocks w_mocks]. rewrite nth_error_upd_neq by auto. apply nth_error_upd_eq. eapply nth_error_lt; eauto.
    + intros j e Hj Hjk (q & A & B). exists q. split; auto. unfold place in *. cbn [ww set_mocks w_mocks]. rewrite !nth_error_upd_neq; auto; intros ->; eauto.
Qed.

(** If the expectation's part of the call throws, nothing is moved, and the exception leaves the special member function, which ends the
    program if that is noexcept. *)
Theorem C52_throwing_relocation s n k ks ne u w1 x :
  wreachable s -> ww_conts s = (n, k) :: ks -> (exists i d, k = KMoved i d ne) \/ (exists i j, k = KAssigned i j ne) -> depth s = S n ->
  step (ww s) (OReturn u) = Next w1 (RThrow x) ->
  (ne = true /\ wstep s (WOp (OReturn u)) = WStop) \/
  (ne = false /\ exists s', wstep s (WOp (OReturn u)) = WNext s' (RThrow x) /\ ww_reloc s' = ww_reloc s /\ ww_conts s' = ks /\
     w_trace (ww s') = w_trace (ww s) /\ (forall j e, watches s j e -> watches s' j e)).
Proof.
  intros Hr Hk Hkind Hd Hs. pose proof (inv_wreachable _ Hr) as I. destruct (return_step _ _ _ _ Hs) as (Hf & Ht & Hm & _). unfold depth in Hd.
  assert (E0 : wstep s (WOp (OReturn u)) = finish (set_conts (after_op s w1 (OReturn u)) ks) k (RThrow x)).
  { cbn [wstep]. change (existsb (is_private s) (named (OReturn u))) with false. cbv iota. unfold perform at 1. rewrite Hs. fold (after_op s w1 (OReturn u)). unfold resume. cbn [ww_conts ww after_op]. rewrite Hk.
    replace (length (w_frames w1)) with n by lia. rewrite Nat.leb_refl. reflexivity. }
  rewrite E0. destruct Hkind as [(i & d & ->)|(i & j & ->)]; cbn [finish is_throw].
  - destruct (good_pop s n (KMoved i d ne) ks I Hk) as [_ (Hdin & (cs & Hda) & Hdo)]. cbn [ww set_conts ww_reloc ww_conts] in *. rewrite <- Hm in Hda.
    unfold perform. cbn [ww set_conts after_op]. rewrite (destroy_alive _ _ _ Hda eq_refl). cbn [leave]. destruct ne; [left; auto|right]. split; auto.
    eexists. split; [reflexivity|]. split; [reflexivity|]. split; [reflexivity|]. split; [exact Ht|].
    intros j e (q & A & B). exists q. split; auto. unfold place in *. cbn [ww set_mocks w_mocks]. rewrite nth_error_upd_neq; [rewrite Hm; auto|]. intros ->.
    pose proof (reloc_held _ _ _ A). lia.
  - cbn [leave]. destruct ne; [left; auto|right]. split; auto. eexists. split; [reflexivity|]. split; [reflexivity|]. split; [reflexivity|]. split; [exact Ht|].
    intros q e (m & A & B). exists m. split; auto. unfold place in *. cbn [ww set_conts after_op]. rewrite Hm. auto.
Qed.

(** Construction and copy construction: no expectations; nothing is reported and the source is not touched. *)
Theorem C52_copy s o :
  wreachable s -> (o = RNew \/ exists i m, o = RCopy i /\ nth_error (ww_reloc s) i = Some (Some m)) ->
  exists s' c, wstep s o = WNext s' RUnit /\ watches s' (length (ww_reloc s)) c /\ (forall e x, exp_at (ww s') e x -> eo_coll x <> c) /\
    w_trace (ww s') = w_trace (ww s) /\ w_exps (ww s') = w_exps (ww s) /\ (forall j d, watches s j d -> watches s' j d).
Proof.
  intros Hr Ho. pose proof (inv_wreachable _ Hr) as I. pose proof (v_reachable _ I) as Hre.
  assert (E : wstep s o = new_reloc s). { destruct Ho as [->|(i & m & -> & Hi)]; cbn [wstep]; [|rewrite Hi]; reflexivity. }
  unfold new_reloc, perform in E. destruct (step (ww s) (ONewMock [sig_watch])) as [w1 r1| | |] eqn:Es; try discriminate.
  pose proof (new_mock_step _ _ _ Es) as (_ & Hm & He & _ & Ht & _).
  eexists. exists (length (w_colls (ww s))). split; [exact E|]. cbn [ww set_reloc own_reloc ww_reloc]. split; [|split; [|split; [auto|split; [auto|]]]].
  - exists (length (w_mocks (ww s))). split; [apply nth_error_app_last|]. unfold place. cbn [ww set_reloc own_reloc]. rewrite Hm. apply nth_error_app_last.
  - intros e x Hx Hc. unfold exp_at in Hx. rewrite He in Hx. pose proof (wi_collr _ (winv_reachable _ Hre) _ _ Hx). lia.
  - intros j d (q & A & B). exists q. cbn [ww_reloc set_reloc own_reloc ww]. split; [apply nth_error_snoc_old; auto|]. unfold place in *. cbn [ww set_reloc own_reloc]. rewrite Hm. apply nth_error_snoc_old; auto.
Qed.

(** Copy assignment: the target starts fresh; nothing is reported (the expectations it had can not be met any more), nothing else changes. *)
Theorem C52_copy_assign s i j m mj :
  wreachable s -> nth_error (ww_reloc s) i = Some (Some m) -> nth_error (ww_reloc s) j = Some (Some mj) ->
  exists s' c, wstep s (RCopyAssign i j) = WNext s' RUnit /\ watches s' i c /\ (forall e x, exp_at (ww s') e x -> eo_coll x <> c) /\
    w_trace (ww s') = w_trace (ww s) /\ w_exps (ww s') = w_exps (ww s) /\ ww_reloc s' = ww_reloc s /\
    (forall k d, k <> i -> watches s k d -> watches s' k d).
Proof.
  intros Hr Hi Hj. pose proof (inv_wreachable _ Hr) as I. pose proof (v_reachable _ I) as Hre. destruct (v_reloc _ I _ _ Hi) as [_ [cs Hmi]].
  destruct (step (ww s) (ONewMock [sig_watch])) as [w1 r1| | |] eqn:Es; try discriminate.
  pose proof (new_mock_step _ _ _ Es) as (_ & Hm & He & _ & Ht & _). set (d := length (w_mocks (ww s))) in *. set (c := length (w_colls (ww s))) in *.
  assert (Hdm : d <> m). { apply nth_error_lt in Hmi. unfold d. lia. }
  assert (Hm1 : nth_error (w_mocks w1) m = Some (mkMock [sig_watch] cs true)) by (rewrite Hm; apply nth_error_snoc_old; auto).
  assert (Hd1 : nth_error (w_mocks w1) d = Some (mkMock [sig_watch] (Some [c]) true)) by (rewrite Hm; apply nth_error_app_last).
  set (w2 := set_mocks w1 (upd (upd (w_mocks w1) d (mkMock [sig_watch] None true)) m (mkMock [sig_watch] (Some [c]) true))).
  assert (E2 : step w1 (OMoveAssignMock m d) = Next w2 RUnit).
  { cbn [step]. rewrite Hm1, Hd1. cbn [mk_alive mk_sigs mk_colls andb]. destruct (list_eq_dec signature_eq_dec [sig_watch] [sig_watch]) as [_|F]; [|contradiction].
    cbn [negb]. destruct (Nat.eqb_spec m d); [congruence|reflexivity]. }
  assert (Hd2 : nth_error (w_mocks w2) d = Some (mkMock [sig_watch] None true)).
  { unfold w2. cbn [set_mocks w_mocks]. rewrite nth_error_upd_neq by auto. apply nth_error_upd_eq. eapply nth_error_lt; eauto. }
  pose proof (destroy_alive w2 d _ Hd2 eq_refl) as E3. eexists. exists c. split.
  { cbn [wstep]. rewrite Hi, Hj. unfold perform at 1. rewrite Es. unfold perform at 1. cbn [ww own_reloc]. fold d. rewrite E2. unfold perform. cbn [ww]. fold d. rewrite E3. reflexivity. }
  cbn [ww ww_reloc]. split; [|split; [|split; [exact Ht|split; [exact He|split; [reflexivity|]]]]].
  - exists m. split; auto. unfold place. cbn [ww set_mocks w_mocks]. rewrite nth_error_upd_neq by auto. unfold w2. cbn [set_mocks w_mocks]. apply nth_error_upd_eq. rewrite length_upd. eapply nth_error_lt; eauto.
  - intros e x Hx Hc. unfold exp_at in Hx. cbn [set_mocks w_exps] in Hx. unfold w2 in Hx. cbn [set_mocks w_exps] in Hx. rewrite He in Hx. pose proof (wi_collr _ (winv_reachable _ Hre) _ _ Hx). unfold c in Hc. lia.
  - intros k e Hk (q & A & B). exists q. split; auto. unfold place in *. cbn [ww set_mocks w_mocks]. pose proof (nth_error_lt _ _ _ B) as Hq. fold d in Hq.
    assert (q <> m).
    { intros ->. assert (k = i); [|auto]. destruct (Nat.eq_dec k i) as [|Hne]; auto. exfalso. pose proof (v_rown _ I m) as Ho.
      pose proof (countb_upd (rholds m) (ww_reloc s) k (Some m) None A) as H. cbn [rholds] in H. rewrite Nat.eqb_refl in H. cbn [b2n] in H.
      assert (1 <= countb (rholds m) (upd (ww_reloc s) k None)); [|lia].
      apply countb_in with (x := Some m); [|simpl; apply Nat.eqb_refl]. apply nth_error_In with (n := i). rewrite nth_error_upd_neq; auto. }
    rewrite nth_error_upd_neq by lia. unfold w2. cbn [set_mocks w_mocks]. rewrite !nth_error_upd_neq by lia. rewrite Hm. apply nth_error_snoc_old; auto.
Qed.

(** expect_relocate puts an ordinary expectation on the watcher: with the declared limits, sequences, requirements, finalizer. *)
Theorem C52_expect s i c cls l s' r :
  wreachable s -> watches s i c -> wstep s (RExpect i cls l) = WNext s' r ->
  watches s' i c /\ w_trace (ww s') = w_trace (ww s) /\
  ((r = RUnit /\ exists x, exp_at (ww s') (length (w_exps (ww s))) x /\ eo_coll x = c /\ eo_alive x = true /\ as_declared x sig_watch 0 [] cls l) \/
   (r = RThrow EInvalidArgument /\ ww s' = ww s)).
Proof.
  intros Hr (m & Hi & Hp) Hs. cbn [wstep] in Hs. rewrite Hi in Hs. apply perform_inv in Hs. destruct Hs as (w1 & r1 & E & H). inversion H; subst. cbn [ww after_op].
  destruct (expect_next _ _ _ _ _ _ _ _ E) as (sg & coll & Hf & _ & _ & [(_ & -> & x & Hx & Hd & Hxc & Ha & _ & Ht & _)|(_ & -> & ->)]).
  - rewrite (watcher_overload _ _ _ Hp) in Hf. injection Hf as <- Hcc. rewrite <- Hcc in Hxc.
    split; [|split; [exact Ht|left; split; auto; exists x; auto]].
    exists m. split; auto. exact (unmoved_mock _ _ _ _ _ _ E Hp Logic.I).
  - split; [|split; auto]. exists m. auto.
Qed.

(** An upper limit on the accepted relocations, wherever the object has been moved to: the declared one. *)
Theorem C52_limit s i cls l s1 ops s2 :
  wreachable s -> wstep s (RExpect i cls l) = WNext s1 RUnit -> wrun s1 ops s2 ->
  (Z.of_nat (accepted (w_trace (ww s2)) (length (w_exps (ww s)))) <= snd (declared_limits cls))%Z.
Proof.
  intros Hr Hs Hrun. pose proof (inv_wreachable _ Hr) as I. cbn [wstep] in Hs. destruct (nth_error (ww_reloc s) i) as [[m|]|]; try discriminate.
  apply perform_inv in Hs. destruct Hs as (w1 & r1 & E & H). inversion H; subst. destruct (wrun_later _ _ _ Hrun) as ((more & _ & Hm) & _). cbn [ww after_op] in Hm.
  eapply C01_declared_max_never_exceeded; eauto. apply (v_run _ I).
Qed.

(** The count of an expectation on a watched object is raised only by moves from that object, each time by one. *)
Definition quiet (s : wworld) (e : nat) (st : wstepped) : Prop :=
  match st with WNext s' _ => accepted (w_trace (ww s')) e = accepted (w_trace (ww s)) e | _ => True end.
Lemma quiet_perform s e o k : reachable (ww s) -> (forall m ov args l, o <> OCall m ov args l) ->
  (forall w1 r1, step (ww s) o = Next w1 r1 -> reachable w1 -> quiet (after_op s w1 o) e (k (after_op s w1 o) r1)) -> quiet s e (perform s o k).
Proof.
  intros Hr Ho H. unfold perform. destruct (step (ww s) o) as [w1 r1| | |] eqn:E; simpl; auto. specialize (H _ _ eq_refl (reachable_step _ _ _ _ Hr E)). fold (after_op s w1 o).
  assert (accepted (w_trace w1) e = accepted (w_trace (ww s)) e).
  { destruct (step_accepted _ _ _ _ Hr E) as [(evs & -> & Ea)|(m' & ov & args & l & sg & coll & n & z & mr & unh & -> & _)]; [rewrite accepted_app, Ea; lia|]. exfalso. eapply Ho; eauto. }
  unfold quiet in *. destruct (k (after_op s w1 o) r1); auto. cbn [ww after_op] in H. congruence.
Qed.
Lemma quiet_same s s1 e st : ww s1 = ww s -> quiet s1 e st -> quiet s e st.
Proof. destruct st; simpl; auto. intros <-. auto. Qed.
Lemma quiet_leave s e ne r : quiet s e (leave ne s r).
Proof. destruct r; simpl; auto. destruct ne; simpl; auto. Qed.
Lemma quiet_drop s e mo : reachable (ww s) -> quiet s e (drop_mock s mo).
Proof. intros Hr. destruct mo; simpl; auto. apply quiet_perform; auto; [discriminate|]. intros. reflexivity. Qed.
Lemma quiet_refresh s e i : reachable (ww s) -> quiet s e (refresh s i).
Proof.
  intros Hr. unfold refresh. destruct (nth_error (ww_life s) i) as [[lw|]|]; simpl; auto. apply quiet_perform; auto; [discriminate|]. intros w1 r1 _ Hr1.
  match goal with |- quiet _ _ (drop_mock ?x _) => apply (quiet_same _ x); [reflexivity|] end. apply quiet_drop. auto.
Qed.
Lemma quiet_finish s e k r : reachable (ww s) -> quiet s e (finish s k r).
Proof.
  intros Hr. destruct k; cbn [finish].
  - apply quiet_perform; auto; [discriminate|]. intros. apply quiet_leave.
  - apply quiet_perform; auto; [discriminate|]. intros. destruct (is_throw r); [reflexivity|]. apply quiet_refresh. auto.
  - destruct (is_throw r); [apply quiet_perform; auto; [discriminate|]; intros; apply quiet_leave|].
    destruct (nth_error (ww_reloc s) i) as [[q|]|]; simpl; auto. apply quiet_perform; auto; [discriminate|]. intros. reflexivity.
  - destruct (is_throw r); [apply quiet_leave|]. destruct (nth_error (ww_reloc s) i) as [[q|]|]; simpl; auto. destruct (nth_error (ww_reloc s) j) as [[q'|]|]; simpl; auto.
    apply quiet_perform; auto; [discriminate|]. intros. reflexivity.
Qed.
Lemma quiet_resume s e r : reachable (ww s) -> quiet s e (resume s r).
Proof.
  intros Hr. unfold resume. destruct (ww_conts s) as [|[d k] ks]; [reflexivity|]. destruct (length (w_frames (ww s)) <=? d); [|reflexivity].
  apply (quiet_same _ (set_conts s ks)); [reflexivity|]. apply quiet_finish. auto.
Qed.

(** A call either leaves the count of [e] alone or raises it by one, and then it is a call on the mock owning the collection of [e]. *)
Lemma call_counts w m ov args l w1 r1 e x : reachable w -> step w (OCall m ov args l) = Next w1 r1 -> exp_at w e x ->
  accepted (w_trace w1) e = accepted (w_trace w) e \/
  accepted (w_trace w1) e = S (accepted (w_trace w) e) /\ exists sg, find_overload w m ov = inr (sg, eo_coll x).
Proof.
  intros Hr Hs Hx. destruct (step_accepted _ _ _ _ Hr Hs) as [(evs & -> & Ea)|(m' & ov' & args' & l' & sg & coll & n & z & mr & unh & Eo & _ & Hf & ((Hz & _ & Hzc) & _) & -> & Ea)].
  - left. rewrite accepted_app, Ea. lia.
  - inversion Eo; subst m' ov' args' l'. rewrite !accepted_app, Ea, accepted_full. destruct (Nat.eqb_spec n e) as [->|]; [right|left; lia]. split; [lia|].
    unfold exp_at in *. rewrite Hx in Hz. inversion Hz; subst z. rewrite Hzc. eauto.
Qed.
Lemma call_then_counts s m l k s' r e x : call_then s m l k = WNext s' r -> reachable (ww s) -> exp_at (ww s) e x ->
  accepted (w_trace (ww s')) e = accepted (w_trace (ww s)) e \/
  accepted (w_trace (ww s')) e = S (accepted (w_trace (ww s)) e) /\ exists sg, find_overload (ww s) m 0 = inr (sg, eo_coll x).
Proof.
  intros Hs Hr Hx. unfold call_then in Hs. apply perform_inv in Hs. destruct Hs as (w1 & r1 & E & H). pose proof (reachable_step _ _ _ _ Hr E) as Hr1.
  assert (accepted (w_trace (ww s')) e = accepted (w_trace w1) e) as ->.
  { destruct (is_throw r1); [|inversion H; subst; reflexivity]. pose proof (quiet_finish (after_op s w1 (OCall m 0 [] l)) e k r1 Hr1) as Q. rewrite H in Q. exact Q. }
  eapply call_counts; eauto.
Qed.

Lemma call_or_not o : (exists n ov args l, o = OCall n ov args l) \/ ~ (exists n ov args l, o = OCall n ov args l).
Proof. destruct o; try (left; eauto; fail); right; intros (? & ? & ? & ? & F); discriminate. Qed.

Theorem C52_counts_relocations s i c e x o s' r :
  wreachable s -> watches s i c -> exp_at (ww s) e x -> eo_coll x = c -> wstep s o = WNext s' r ->
  accepted (w_trace (ww s')) e = accepted (w_trace (ww s)) e \/
  accepted (w_trace (ww s')) e = S (accepted (w_trace (ww s)) e) /\ exists ne l, relocates s o i ne l.
Proof.
  intros Hr (m & Hi & Hp) Hx Hc Hs. subst c. pose proof (inv_wreachable _ Hr) as I. pose proof (v_reachable _ I) as Hre. destruct (v_reloc _ I _ _ Hi) as [Hm _].
  assert (Q : quiet s e (wstep s o) -> accepted (w_trace (ww s')) e = accepted (w_trace (ww s)) e) by (rewrite Hs; auto).
  assert (Own : forall n sg, find_overload (ww s) n 0 = inr (sg, eo_coll x) -> n = m) by (intros; eapply place_owner; eauto).
  destruct o as [o| |j|j|j j' l|j j'|j ne l|j cls l|j| |j|j ne l|j j'|j j' ne l|j|j cls l]; cbn [wstep] in Q, Hs.
  - destruct (existsb (is_private s) (named o)) eqn:E; [discriminate|]. left.
    destruct (call_or_not o) as [(n & ov & args & l & ->)|Hn].
    + apply perform_inv in Hs. destruct Hs as (w1 & r1 & E1 & H). assert (accepted (w_trace (ww s')) e = accepted (w_trace w1) e) as ->.
      { pose proof (quiet_resume (after_op s w1 (OCall n ov args l)) e r1 (reachable_step _ _ _ _ Hre E1)) as Q'. rewrite H in Q'. exact Q'. }
      destruct (call_counts _ _ _ _ _ _ _ _ _ Hre E1 Hx) as [|[_ [sg Hf]]]; auto. exfalso. pose proof (place_owner _ _ _ _ _ _ Hre Hp Hf) as En. subst n.
      cbn [named existsb] in E. rewrite orb_false_r in E. apply private_spec in E. tauto.
    + apply Q. apply quiet_perform; auto; [intros; intros F; apply Hn; eauto|]. intros. apply quiet_resume. auto.
  - left. apply Q. apply quiet_perform; auto; [discriminate|]. intros. reflexivity.
  - left. apply Q. destruct (nth_error (ww_life s) j) as [[lw|]|]; simpl; auto; apply quiet_perform; auto; try discriminate; intros; reflexivity.
  - left. apply Q. destruct (nth_error (ww_life s) j) as [[lw|]|]; simpl; auto.
  - left. destruct (nth_error (ww_life s) j) as [[[fl mo]|]|] eqn:Ej; try discriminate. destruct (nth_error (ww_life s) j') as [[lj|]|]; try discriminate. cbn [lw_mock] in *. destruct mo as [n|]; [|apply Q; apply quiet_refresh; auto].
    destruct (call_then_counts _ _ _ _ _ _ e x Hs Hre Hx) as [|[_ [sg Hf]]]; auto. exfalso. pose proof (Own _ _ Hf) as En. subst n.
    destruct (v_life _ I _ _ _ Ej) as [H _]. eapply (v_disj _ I); eauto.
  - left. apply Q. destruct (nth_error (ww_life s) j) as [[lw|]|]; simpl; auto. destruct (nth_error (ww_life s) j') as [[lj|]|]; simpl; auto.
    destruct (j =? j'); [reflexivity|]. match goal with |- quiet _ _ (drop_mock ?x _) => apply (quiet_same _ x); [reflexivity|] end. apply quiet_drop. auto.
  - left. destruct (nth_error (ww_life s) j) as [[[fl mo]|]|] eqn:Ej; try discriminate. cbn [lw_mock] in *. destruct mo as [n|]; [|apply Q; reflexivity].
    destruct (call_then_counts _ _ _ _ _ _ e x Hs Hre Hx) as [|[_ [sg Hf]]]; auto. exfalso. pose proof (Own _ _ Hf) as En. subst n.
    destruct (v_life _ I _ _ _ Ej) as [H _]. eapply (v_disj _ I); eauto.
  - left. apply Q. unfold expect_destruct. destruct (nth_error (ww_life s) j) as [[[[|] [n|]]|]|]; simpl; auto.
    match goal with |- quiet _ _ (perform ?x _ _) => apply (quiet_same _ x); [reflexivity|] end. apply quiet_perform; auto; [discriminate|]. intros. reflexivity.
  - left. apply Q. unfold expect_destruct. destruct (nth_error (ww_life s) j) as [[[[|] [n|]]|]|]; simpl; auto.
  - left. apply Q. apply quiet_perform; auto; [discriminate|]. intros. reflexivity.
  - left. apply Q. destruct (nth_error (ww_reloc s) j) as [[lw|]|]; try exact Logic.I. apply quiet_perform; auto; [discriminate|]. intros. reflexivity.
  - destruct (nth_error (ww_reloc s) j) as [[n|]|] eqn:Ej; try discriminate. apply perform_inv in Hs. destruct Hs as (w1 & r1 & E1 & H).
    pose proof (new_mock_step _ _ _ E1) as (_ & Hm1 & He1 & _ & Ht1 & _). pose proof (reachable_step _ _ _ _ Hre E1) as Hre1.
    assert (Hx1 : exp_at w1 e x) by (unfold exp_at; rewrite He1; auto).
    destruct (call_then_counts _ _ _ _ _ _ e x H Hre1 Hx1) as [G|[G [sg Hf]]]; cbn [ww own_reloc after_op] in *; rewrite G, Ht1; auto.
    right. split; auto. assert (place w1 m (eo_coll x)) as Hp1 by (unfold place in *; rewrite Hm1; apply nth_error_snoc_old; auto).
    pose proof (place_owner _ _ _ _ _ _ Hre1 Hp1 Hf) as En. subst n. assert (j = i) as ->; [|exists ne, l; left; auto].
    eapply C52_unique; [exact Hr| |]; exists m; eauto.
  - left. apply Q. destruct (nth_error (ww_reloc s) j) as [[n|]|]; try exact Logic.I. destruct (nth_error (ww_reloc s) j') as [[n'|]|]; try exact Logic.I.
    apply quiet_perform; auto; [discriminate|]. intros w1 r1 _ Hr1. match goal with |- quiet _ _ (perform ?x _ _) => apply (quiet_same _ x); [reflexivity|] end.
    apply quiet_perform; auto; [discriminate|]. intros w2 r2 _ Hr2. apply quiet_perform; auto; [discriminate|]. intros. reflexivity.
  - destruct (nth_error (ww_reloc s) j) as [[n|]|] eqn:Ej; try discriminate. destruct (nth_error (ww_reloc s) j') as [[n'|]|] eqn:Ej'; try discriminate.
    destruct (call_then_counts _ _ _ _ _ _ e x Hs Hre Hx) as [|[G [sg Hf]]]; auto. right. split; auto. pose proof (Own _ _ Hf) as En. subst n'.
    assert (j' = i) as ->; [|exists ne, l; right; eauto]. eapply C52_unique; [exact Hr| |]; exists m; eauto.
  - left. apply Q. destruct (nth_error (ww_reloc s) j) as [[n|]|]; try exact Logic.I. match goal with |- quiet _ _ (perform ?x _ _) => apply (quiet_same _ x); [reflexivity|] end. apply quiet_perform; auto; [discriminate|]. intros. reflexivity.
  - left. apply Q. destruct (nth_error (ww_reloc s) j) as [[n|]|]; try exact Logic.I. apply quiet_perform; auto; [discriminate|]. intros. reflexivity.
Qed.

(** A moved-from relocation watcher must not be moved from: its mock is called nevertheless, through a null pointer. *)
Theorem C52_moving_moved_from s i o ne l :
  wreachable s -> emptied s i -> relocates s o i ne l -> wstep s o = WWrong UbNull.
Proof.
  intros Hr (m & Hi & Hm) [->|(k & mk & Hk & ->)]; cbn [wstep]; rewrite Hi, ?Hk.
  - unfold perform. destruct (step (ww s) (ONewMock [sig_watch])) as [w1 r1| | |] eqn:Es; try discriminate. pose proof (new_mock_step _ _ _ Es) as (_ & Km & _).
    unfold call_then, perform. cbn [ww own_reloc step]. unfold do_call, find_overload. rewrite Km, (nth_error_snoc_old _ _ _ _ Hm). reflexivity.
  - unfold call_then, perform. cbn [step]. unfold do_call, find_overload. rewrite Hm. reflexivity.
Qed.

(** So the claim that each move reports one relocation is false for moved-from objects, e.g. when std::swap is used on an object and itself. *)
Definition self_swap : list wop :=
  [RNew; RExpect 0 [ClTimes (TxAtLeast 1)] here; RMove 0 false here; WOp OFinal; WOp (OReturn (UOk (VInt 0)))].
Theorem C52_every_move_reported_refuted :
  exists s i, wreachable s /\ emptied s i /\ wstep s (RMoveAssign i i false here) = WWrong UbNull.
Proof.
  exists (wafter self_swap), 0. assert (R : wreachable (wafter self_swap)) by (apply wafter_reachable; vm_compute; reflexivity).
  assert (E : emptied (wafter self_swap) 0) by (exists 0; split; vm_compute; reflexivity).
  split; [exact R|]. split; [exact E|]. apply (C52_moving_moved_from _ 0 _ false here R E). right. exists 0, 0. split; auto.
Qed.

(** ** Concrete programs. *)

(** Expected destruction after a move (C50_expected, C51_move, C51_moved_from_is_silent): the only events are the report, the side effect
    and the finalizer. *)
Definition prog_moved : list wop :=
  [LNew; LExpect 0 [ClPolicy (PSideEffect 3)] here; LMove 0; LDestroy 0 false there; LDestroy 1 true there; WOp OAction; WOp OFinal; WOp (OReturn (UOk (VInt 0))); WOp (OEndScope 0)].
Example prog_moved_runs :
  wresults prog_moved = [RUnit; RUnit; RUnit; RUnit; RUnit; RUnit; RUnit; RUnit; RUnit] /\ accepted (w_trace (ww (wafter prog_moved))) 0 = 1 /\
  length (w_trace (ww (wafter prog_moved))) = 3 /\ ww_life (wafter prog_moved) = [None; None] /\ ww_conts (wafter prog_moved) = [].
Proof. vm_compute. repeat split. Qed.
Example prog_moved_hypotheses :
  let s0 := wafter [LNew] in let s1 := wafter (firstn 2 prog_moved) in let s2 := wafter (firstn 4 prog_moved) in
  wreachable s0 /\ carries s0 0 0 false /\ wstep s0 (LExpect 0 [ClPolicy (PSideEffect 3)] here) = WNext s1 RUnit /\ plain [ClPolicy (PSideEffect 3)] /\
  wrun s1 [LMove 0; LDestroy 0 false there] s2 /\ carries s2 1 0 true /\ place (ww s2) 0 0 /\
  (exists x, exp_at (ww s2) 0 x /\ eo_alive x = true /\ eo_coll x = 0) /\ obeys_contract (w_reporter (ww s2)).
Proof.
  cbv zeta. split; [apply wafter_reachable; vm_compute; reflexivity|]. split; [vm_compute; reflexivity|]. split; [vm_compute; reflexivity|].
  split; [intros cl [<-|[]]; exact Logic.I|]. split; [eapply wexec_run; vm_compute; reflexivity|]. split; [vm_compute; reflexivity|]. split; [vm_compute; reflexivity|].
  split; [eexists; split; [vm_compute; reflexivity|split; reflexivity]|]. repeat split; discriminate.
Qed.

(** Without an expectation: reported, and the exception leaves the destructor (or ends the program, if it is noexcept). *)
Example prog_unexpected : wresults [LNew; LDestroy 0 false here] = [RUnit; RThrow EReporter] /\ wexec winit [LNew; LDestroy 0 true here] = None /\
  wstep (wafter [LNew]) (LDestroy 0 true here) = WStop.
Proof. vm_compute. repeat split. Qed.

(** expect_destruct is used up by its first use, and it follows the identity; the moved-from watcher is of no use. *)
Example prog_announced_twice :
  wresults [LNew; LExpectDropped 0; LExpect 0 [] here; LMove 0; LExpect 1 [] here; LExpect 0 [] here] =
    [RUnit; RUnit; RThrow ELogicError; RUnit; RThrow ELogicError; RThrow ELogicError] /\
  wstep (wafter [LNew; LMove 0]) (LExpect 0 [] here) = WWrong UbNull /\ wresults [LNew; LMove 0; LExpect 1 [] here] = [RUnit; RUnit; RUnit].
Proof. vm_compute. repeat split. Qed.

(** The identity outlives the scope of its expectation. *)
Example prog_outlives : wresults [LNew; LExpect 0 [] here; LMove 0; WOp (OEndScope 0)] = [RUnit; RUnit; RUnit; RThrow EReporter].
Proof. vm_compute. reflexivity. Qed.

(** Copy assignment (here of an object to itself) counts as destruction; afterwards the watcher has a new identity. *)
Definition prog_assign : list wop := [LNew; LExpect 0 [] here; LCopyAssign 0 0 here; WOp OFinal; WOp (OReturn (UOk (VInt 0)))].
Example prog_assign_runs :
  wresults prog_assign = [RUnit; RUnit; RUnit; RUnit; RUnit] /\ carries (wafter prog_assign) 0 1 false /\ calls 0 (ww_log (wafter prog_assign)) = 1 /\
  wresults [LNew; LNew; LCopyAssign 0 1 here] = [RUnit; RUnit; RThrow EReporter] /\ moved_from (wafter [LNew; LNew; LCopyAssign 0 1 here]) 0 /\
  wresults [LNew; LMove 0; LCopyAssign 0 1 here] = [RUnit; RUnit; RUnit].
Proof. vm_compute. repeat split. exists false. reflexivity. Qed.
Example prog_assign_hypotheses :
  let s := wafter (firstn 4 prog_assign) in
  wreachable s /\ ww_conts s = [(0, KReset 0 0)] /\ depth s = 1 /\ nth_error (ww_life s) 0 = Some (Some (mkLW true None)) /\
  exists w1, step (ww s) (OReturn (UOk (VInt 0))) = Next w1 (RVal None).
Proof. cbv zeta. split; [apply wafter_reachable; vm_compute; reflexivity|]. vm_compute. repeat split. eexists. reflexivity. Qed.
Example prog_move_assign_hypotheses :
  let s := wafter (firstn 3 lost_identity) in wreachable s /\ carries s 0 0 true /\ carries s 1 1 false.
Proof. cbv zeta. split; [apply wafter_reachable; vm_compute; reflexivity|]. vm_compute. auto. Qed.

(** Two relocations are expected, the third one fails; the copy is not expected to be moved at all. *)
Definition prog_relocate : list wop :=
  [RNew; RExpect 0 [ClTimes (TxExactly 2)] here; RMove 0 false there; WOp OFinal; WOp (OReturn (UOk (VInt 0))); RNew;
   RMoveAssign 2 1 true there; WOp OFinal; WOp (OReturn (UOk (VInt 0)))].
Example prog_relocate_runs :
  wresults prog_relocate = [RUnit; RUnit; RUnit; RUnit; RUnit; RUnit; RUnit; RUnit; RUnit] /\ accepted (w_trace (ww (wafter prog_relocate))) 0 = 2 /\
  wresults (prog_relocate ++ [RMove 2 false here]) = wresults prog_relocate ++ [RThrow EReporter] /\
  wresults (prog_relocate ++ [RCopy 2; RMove 3 false here]) = wresults prog_relocate ++ [RUnit; RThrow EReporter] /\
  wstep (wafter prog_relocate) (RMove 2 true here) = WStop /\
  wresults (prog_relocate ++ [WOp (OEndScope 0)]) = wresults prog_relocate ++ [RUnit].
Proof. vm_compute. repeat split. Qed.
Example prog_relocate_hypotheses :
  let s1 := wafter (firstn 2 prog_relocate) in let s2 := wafter (firstn 4 prog_relocate) in let s3 := wafter (firstn 6 prog_relocate) in let s4 := wafter (firstn 8 prog_relocate) in
  wreachable s1 /\ wreachable s2 /\ wreachable s3 /\ wreachable s4 /\
  watches s1 0 0 /\ relocates s1 (RMove 0 false there) 0 false there /\ obeys_contract (w_reporter (ww s1)) /\
  watches s2 0 0 /\ ww_conts s2 = [(0, KMoved 0 1 false)] /\ depth s2 = 1 /\ (exists w1, step (ww s2) (OReturn (UOk (VInt 0))) = Next w1 (RVal None)) /\
  watches s3 1 0 /\ emptied s3 0 /\ relocates s3 (RMoveAssign 2 1 true there) 1 true there /\
  watches s4 1 0 /\ ww_conts s4 = [(0, KAssigned 2 1 true)] /\ depth s4 = 1 /\ (exists w1, step (ww s4) (OReturn (UOk (VInt 0))) = Next w1 (RVal None)).
Proof.
  cbv zeta. do 4 (split; [apply wafter_reachable; vm_compute; reflexivity|]).
  split; [exists 0; vm_compute; auto|]. split; [left; reflexivity|]. split; [repeat split; discriminate|]. split; [exists 0; vm_compute; auto|].
  split; [vm_compute; reflexivity|]. split; [vm_compute; reflexivity|]. split; [vm_compute; eexists; reflexivity|]. split; [exists 1; vm_compute; auto|].
  split; [exists 0; vm_compute; auto|]. split; [right; exists 2, 2; vm_compute; auto|]. split; [exists 1; vm_compute; auto|]. split; [vm_compute; reflexivity|].
  split; [vm_compute; reflexivity|]. vm_compute; eexists; reflexivity.
Qed.
(** A finalizer that throws: nothing is moved. *)
Definition prog_throwing_move : list wop := [RNew; RExpect 0 [ClFinal (FThrows (EUser 4))] here; RMove 0 false there; WOp OFinal].
Example prog_throwing_move_runs :
  let s := wafter prog_throwing_move in
  wresults (prog_throwing_move ++ [WOp (OReturn (UOk (VInt 0)))]) = [RUnit; RUnit; RUnit; RUnit; RThrow (EUser 4)] /\
  watches (wafter (prog_throwing_move ++ [WOp (OReturn (UOk (VInt 0)))])) 0 0 /\
  wreachable s /\ ww_conts s = [(0, KMoved 0 1 false)] /\ depth s = 1 /\ exists w1, step (ww s) (OReturn (UOk (VInt 0))) = Next w1 (RThrow (EUser 4)).
Proof.
  cbv zeta. split; [vm_compute; reflexivity|]. split; [exists 0; vm_compute; auto|]. split; [apply wafter_reachable; vm_compute; reflexivity|].
  split; [vm_compute; reflexivity|]. split; [vm_compute; reflexivity|]. eexists. vm_compute. reflexivity.
Qed.

Print Assumptions C50_is_a_program.
Print Assumptions C50_called_once.
Print Assumptions C50_who_calls.
Print Assumptions C50_destruction.
Print Assumptions C50_collection.
Print Assumptions C50_at_most_one.
Print Assumptions C50_unexpected.
Print Assumptions C50_expected.
Print Assumptions C50_unfulfilled.
Print Assumptions C50_second_throws.
Print Assumptions C50_flag_only_by_announcing.
Print Assumptions C50_first_succeeds.
Print Assumptions C50_no_times.
Print Assumptions C51_move.
Print Assumptions C51_moved_from_is_silent.
Print Assumptions C51_expecting_moved_from.
Print Assumptions C51_copy.
Print Assumptions C51_copy_assign.
Print Assumptions C51_copy_assign_ends.
Print Assumptions C51_copy_assign_moved_from.
Print Assumptions C51_move_assign.
Print Assumptions C51_lost_only_by_assignment.
Print Assumptions C51_unique.
Print Assumptions C51_every_identity_reported_refuted.
Print Assumptions C52_unique.
Print Assumptions C52_relocation.
Print Assumptions C52_move_ends.
Print Assumptions C52_assign_ends.
Print Assumptions C52_throwing_relocation.
Print Assumptions C52_copy.
Print Assumptions C52_copy_assign.
Print Assumptions C52_expect.
Print Assumptions C52_limit.
Print Assumptions C52_counts_relocations.
Print Assumptions C52_moving_moved_from.
Print Assumptions C52_every_move_reported_refuted.
