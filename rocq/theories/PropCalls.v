(** * PropCalls: C04, C08, C09, C33 (calls), C44, C58. *)

From Verif Require Import Base Lib Sequence Control Signature Printer Reports Expectation Builder BuildSpec World WorldSpec CallSpec
  MatchLemmas WorldInv ObjInv BuildProofs CallProofs CountProofs IsolateProofs OutcomeProofs Scenario.

(** A call which is legal in [w]: [w] occurs in a program, the mock has the overload (with signature [s], whose expectations are
    those of [coll]) and the number of arguments fits; the installed reporter obeys its contract. *)
Definition legal_call (w : world) (m ov : nat) (args : list val) (s : signature) (coll : nat) : Prop :=
  reachable w /\ find_overload w m ov = inr (s, coll) /\ length args = length (sg_params s) /\ obeys_contract (w_reporter w).

(** No description of a throwing expectation throws as well (see C58). *)
Definition describable_throwers (w : world) (coll : nat) (c : call_info) : Prop :=
  forall e x, throwing w coll c e x -> describes (eo_exp x).

(** ** C04: exactly one outcome. *)

(** However the call goes on, its new events contain exactly one outcome report, a full match of a live, accepting and
    applicable expectation if it goes on normally and a failure if it is left by an exception. *)
Theorem C04_one_outcome_report w m ov args l w' r :
  reachable w -> step w (OCall m ov args l) = Next w' r ->
  exists s coll evs rep who, find_overload w m ov = inr (s, coll) /\ length args = length (sg_params s) /\
    w_trace w' = w_trace w ++ evs /\ filter is_outcome evs = [EvReport (w_rid w) rep who] /\
    let c := call_of s args l in
    ((exists n x mr, r = RUnit /\ rep = RFull (make_call_report c) mr /\ who = [n] /\ candidate w coll c n x) \/
     (r = RThrow EReporter /\ exists ms, (rep = RInapplicable (make_call_report c) ms \/ rep = RNoMatch (make_call_report c) ms))).
Proof. exact (outcome_next w m ov args l w' r). Qed.

(** Which outcome it is: the three cases are exclusive and cover everything. In the failing cases the reaction of the reporter
    decides between an exception and the end of the program, see [failed]. *)
Theorem C04_which_outcome w m ov args l s coll :
  legal_call w m ov args s coll ->
  let c := call_of s args l in
  describable_throwers w coll c ->
  exists evs, 
    ((exists n x mr w', candidate w coll c n x /\ step w (OCall m ov args l) = Next w' RUnit /\ w_trace w' = w_trace w ++ evs /\
        filter is_outcome evs = [EvReport (w_rid w) (RFull (make_call_report c) mr) [n]]) \/
     ((forall e x, ~ candidate w coll c e x) /\ (exists e x, accepting w coll c e x) /\
      exists ms who, filter is_outcome evs = [EvReport (w_rid w) (RInapplicable (make_call_report c) ms) who] /\
        step w (OCall m ov args l) = failed (sg_noexcept s) (react w (RInapplicable (make_call_report c) ms)) (only_reports w evs)) \/
     ((forall e x, ~ accepting w coll c e x) /\
      exists ms who, filter is_outcome evs = [EvReport (w_rid w) (RNoMatch (make_call_report c) ms) who] /\
        step w (OCall m ov args l) = failed (sg_noexcept s) (react w (RNoMatch (make_call_report c) ms)) (only_reports w evs))).
Proof.
  intros (Hr & Hf & Hlen & C1 & C2 & C3 & C4) c Ht.
  destruct (call_master w m ov args l s coll (conj Hr (conj Hf Hlen)) Ht (fun r y => C4 _ r y _) (fun mr => C3 _ mr _)) as (unh & Hu & H).
  pose proof (unhandled_no_outcome _ _ _ _ Hu) as Hno.
  destruct H as [(who & ms & n & mr & x & ss & ctl & _ & _ & _ & _ & Hc & _ & _ & Hs)|(Hn & rep & who & H & Hs)].
  - eexists. left. exists n, x, mr. eexists. split; [exact Hc|]. split; [exact Hs|]. split; [reflexivity|].
    rewrite filter_app. fold c in Hno. rewrite Hno. reflexivity.
  - eexists. right. destruct H as [(He & _ & ms & -> & _)|(He & _ & ms & -> & _)].
    + left. split; auto. split; auto. exists ms, who. split; [|exact Hs]. rewrite filter_app, Hno. reflexivity.
    + right. split; auto. exists ms, who. split; [|exact Hs]. rewrite filter_app, Hno. reflexivity.
Qed.

(** A call is matched exactly if there is a candidate. *)
Theorem C04_matched_iff_candidate w m ov args l s coll :
  legal_call w m ov args s coll -> describable_throwers w coll (call_of s args l) ->
  ((exists w', step w (OCall m ov args l) = Next w' RUnit) <-> (exists e x, candidate w coll (call_of s args l) e x)).
Proof.
  intros Hl Ht. destruct (C04_which_outcome _ _ _ _ l _ _ Hl Ht) as (evs & [(n & x & mr & w' & Hc & Hs & _)|[(Hn & _ & ms & who & _ & Hs)|(Hn & ms & who & _ & Hs)]]).
  - split; eauto.
  - split.
    + intros (w' & Hs'). rewrite Hs in Hs'. unfold failed in Hs'. destruct (react _ _), (sg_noexcept s); discriminate.
    + intros (e & x & H). exfalso. eapply Hn; eauto.
  - split.
    + intros (w' & Hs'). rewrite Hs in Hs'. unfold failed in Hs'. destruct (react _ _), (sg_noexcept s); discriminate.
    + intros (e & x & H1 & H2 & _). exfalso. apply (Hn e x). split; auto.
Qed.

(** A mock with two expectations: the first call is matched, the second one is inapplicable, the third one matches nothing. *)
Definition prog_outcomes : list op :=
  [ONewMock [sig_unary]; OExpect 0 0 [m_eq 1] [] here; OExpect 0 0 [m_eq 2] [] there;
   OCall 0 0 [VInt 1] here; OFinal; OReturn (UOk (VInt 0)); OCall 0 0 [VInt 1] here; OCall 0 0 [VInt 3] here].
Definition kind (ev : event) : nat * list nat :=
  match ev with
  | EvReport _ (RFull _ _) who => (1, who)
  | EvReport _ (RInapplicable _ _) who => (2, who)
  | EvReport _ (RNoMatch _ _) who => (3, who)
  | EvReport _ (RUnhandled _ _ _) who => (4, who)
  | EvReport _ (RUnfulfilled _) who => (5, who)
  | EvReport _ (RError _ _) who => (6, who)
  | _ => (0, [])
  end.
Example C04_example :
  results prog_outcomes = [RUnit; RUnit; RUnit; RUnit; RUnit; RVal None; RThrow EReporter; RThrow EReporter] /\
  map kind (filter is_outcome (w_trace (after prog_outcomes))) = [(1, [0]); (2, [0]); (3, [1; 0])].
Proof. vm_compute. auto. Qed.

(** ** C08: what failure reports list. *)

(** The report of a failing call, with the expectations it lists: newest first, truthful (see [true_report]: source location,
    state and each requirement's result and description in order), and with the evaluation the reporter asserts. *)
Theorem C08_failure_reports w m ov args l s coll :
  legal_call w m ov args s coll ->
  let c := call_of s args l in
  describable_throwers w coll c -> (forall e x, ~ candidate w coll c e x) ->
  exists evs who ms,
    ((exists e x, accepting w coll c e x) /\ newest_first w (accepting w coll c) who /\
     true_reports w c who ms /\ Forall (fun r => evaluate_match_report r = MatchInapplicable) ms /\
     step w (OCall m ov args l) = failed (sg_noexcept s) (react w (RInapplicable (make_call_report c) ms))
       (only_reports w (evs ++ [EvReport (w_rid w) (RInapplicable (make_call_report c) ms) who]))) \/
    ((forall e x, ~ accepting w coll c e x) /\ newest_first w (fun e x => live_in w coll e x /\ clean (eo_exp x) c) who /\
     true_reports w c who ms /\
     Forall (fun r => evaluate_match_report r = MatchNone /\ exists p, In p (mr_policies r) /\ pr_matching p = false) ms /\
     step w (OCall m ov args l) = failed (sg_noexcept s) (react w (RNoMatch (make_call_report c) ms))
       (only_reports w (evs ++ [EvReport (w_rid w) (RNoMatch (make_call_report c) ms) who]))).
Proof.
  intros (Hr & Hf & Hlen & C1 & C2 & C3 & C4) c Ht Hnc.
  destruct (call_master w m ov args l s coll (conj Hr (conj Hf Hlen)) Ht (fun r y => C4 _ r y _) (fun mr => C3 _ mr _)) as (unh & Hu & H).
  destruct H as [(who & ms & n & mr & x & ss & ctl & _ & _ & _ & _ & Hc & _)|(Hn & rep & who & H & Hs)]; [exfalso; eapply Hnc; exact Hc|].
  exists unh, who. destruct H as [(He & Hnf & ms & -> & Htr)|(He & Hnf & ms & -> & Htr)]; exists ms; [left|right].
  - split; auto. split; auto. split; auto. split; auto.
    assert (Hwho : forall e, In e who -> exists x, exp_at w e x /\ accepting w coll c e x) by (intros e; apply Hnf).
    clear -Htr Hwho Hnc. induction Htr as [|e r who ms (x & Hx & Hr) Htr IH]; constructor.
    + destruct (Hwho e (or_introl eq_refl)) as (y & Hy & Hl & Ha). unfold exp_at in *. rewrite Hx in Hy. inversion Hy; subst y.
      destruct (evaluate_true _ _ _ _ _ Hr) as [E _]. rewrite (E Ha).
      destruct Hr as (_ & _ & Hst & _). destruct (true_state_applicable _ _ _ _ Hst) as [Happ _].
      destruct (mr_state r); auto. exfalso. apply (Hnc e x). split; auto.
    + apply IH. intros k Hk. apply Hwho. right; auto.
  - assert (Hcl : forall e x, rejecting w coll c e x <-> live_in w coll e x /\ clean (eo_exp x) c).
    { intros e x. split; [intros [Hl [Hc _]]; auto|]. intros [Hl Hc]. split; auto. split; auto.
      assert (D : (forall p, In p (e_policies (eo_exp x)) -> policy_matches p c = Ret true) \/
                  exists p, In p (e_policies (eo_exp x)) /\ policy_matches p c = Ret false).
      { revert Hc. unfold clean. generalize (e_policies (eo_exp x)). intros ps. induction ps as [|p ps IH]; intros Hc.
        - left. intros p [].
        - destruct IH as [IH|(q & Hq & Hf')]; [intros q Hq; apply Hc; right; auto| |right; exists q; split; auto; right; auto].
          destruct (Hc p (or_introl eq_refl)) as [[b Hb] _]. destruct b; [left|right; exists p; split; auto; left; auto].
          intros q [<-|Hq]; auto. }
      destruct D as [D|D]; auto. exfalso. apply (He e x). split; auto. split; auto. }
    split; auto. split.
    { destruct Hnf as [H1 H2]. split; auto. intros e. rewrite H2. split; intros (x & Hx & H); exists x; split; auto; apply Hcl; auto. }
    split; auto. split; auto.
    assert (Hwho : forall e, In e who -> exists x, exp_at w e x /\ rejecting w coll c e x) by (intros e; apply Hnf).
    clear -Htr Hwho. induction Htr as [|e r who ms (x & Hx & Hr) Htr IH]; constructor.
    + destruct (Hwho e (or_introl eq_refl)) as (y & Hy & Hl & Ha). unfold exp_at in *. rewrite Hx in Hy. inversion Hy; subst y.
      destruct (evaluate_true _ _ _ _ _ Hr) as [_ E]. destruct (E Ha) as [E1 E2]. split; auto.
      apply existsb_exists in E2. destruct E2 as (p & Hp & E3). exists p. split; auto. destruct (pr_matching p); auto; discriminate.
    + apply IH. intros k Hk. apply Hwho. right; auto.
Qed.

(** A report listing two of three expectations: the one which throws is missing. *)
Definition prog_throwing : list op :=
  [ONewMock [sig_unary]; OExpect 0 0 [m_eq 1] [] here; OExpect 0 0 [m_throws 9] [] there; OExpect 0 0 [m_eq 2] [] there;
   OCall 0 0 [VInt 3] here].
Example C08_example : map kind (w_trace (after prog_throwing)) = [(4, [1]); (3, [2; 0])].
Proof. vm_compute. reflexivity. Qed.

(** ** C09: a throwing matcher only disables its own expectation for that call. *)

(** [without w coll e] is [w] without expectation [e] in its collection and [hide] removes nothing but the unhandled-exception
    report of [e] from the events of the call: the call does the same without [e]. Any number of expectations may throw. *)
Theorem C09_as_if_absent w m ov args l s coll e x :
  legal_call w m ov args s coll -> throwing w coll (call_of s args l) e x -> describes (eo_exp x) ->
  step (without w coll e) (OCall m ov args l) = hide w coll e (step w (OCall m ov args l)).
Proof.
  intros (Hr & Hf & Hlen & _ & _ & _ & C) Ht Hd.
  exact (isolated w m ov args l s coll e x Hr Hf Hlen Ht Hd (fun r y => C _ r y _)).
Qed.

(** Exactly one report names it, with the exception of its first throwing requirement. *)
Theorem C09_one_report w m ov args l s coll e x w' r :
  legal_call w m ov args s coll -> throwing w coll (call_of s args l) e x -> describes (eo_exp x) ->
  step w (OCall m ov args l) = Next w' r ->
  exists evs rep y, w_trace w' = w_trace w ++ evs /\
    filter (is_unhandled e) evs = [EvReport (w_rid w) (RUnhandled (make_call_report (call_of s args l)) rep y) [e]] /\
    true_exp_report w e x rep /\ first_exception (e_policies (eo_exp x)) (call_of s args l) y /\
    nth_error (w_exps w') e = Some x /\ accepted (w_trace w') e = accepted (w_trace w) e.
Proof.
  intros (Hr & Hf & Hlen & _ & _ & _ & C) Ht Hd Hs.
  destruct (isolated_report w m ov args l s coll e x w' r Hr Hf Hlen Ht Hd (fun r y => C _ r y _) Hs) as (evs & rep & y & H1 & H2 & H3 & H4).
  exists evs, rep, y. do 4 (split; auto).
  pose proof Ht as [[Hx _] Hnc].
  destruct (call_effect _ _ _ _ _ _ _ Hr Hs) as [(s' & coll' & n & x' & mr & unh & _ & Hf' & _ & Hc & Htr & Hq & He & _)|(_ & evs' & Hq & ->)].
  - rewrite Hf in Hf'. inversion Hf'; subst s' coll'. destruct Hc as ((Hx' & _) & (Hcl & _) & _).
    assert (Hne : n <> e). { intros ->. unfold exp_at in *. rewrite Hx in Hx'. inversion Hx'; subst. auto. }
    split; [rewrite He; rewrite nth_error_upd_neq; auto|]. rewrite Htr, !accepted_app, accepted_full.
    destruct (quiet_counts _ Hq e) as [A _]. destruct (Nat.eqb_spec n e); [congruence|lia].
  - split; auto. simpl. rewrite accepted_app. destruct (quiet_counts _ Hq e) as [A _]. lia.
Qed.

(** Two of three expectations throw; the remaining one is matched. *)
Example C09_example : let prog :=
  [ONewMock [sig_unary]; OExpect 0 0 [m_throws 1] [] here; OExpect 0 0 [m_any] [] there; OExpect 0 0 [m_throws 2] [] there;
   OCall 0 0 [VInt 3] here] in
  map kind (w_trace (after prog)) = [(4, [2]); (4, [0]); (1, [1])] /\
  map (accepted (w_trace (after prog))) [0; 1; 2] = [0; 1; 0].
Proof. vm_compute. auto. Qed.

(** ** C33: noexcept overloads, the calls themselves (finalizers in PropFrames.v). *)

(** A call on a noexcept overload is never left by an exception. *)
Theorem C33_noexcept_never_throws w m ov args l s coll w' r :
  reachable w -> find_overload w m ov = inr (s, coll) -> sg_noexcept s = true -> step w (OCall m ov args l) = Next w' r -> r = RUnit.
Proof.
  intros Hr Hf Hn Hs. destruct (call_effect _ _ _ _ _ _ _ Hr Hs) as [(s' & coll' & n & x & mr & unh & E & _)|_]; auto.
  pose proof Hs as Hs2. simpl in Hs2. apply StepCases.do_call_next in Hs2. destruct Hs2 as (s' & coll' & Hf' & _ & H).
  rewrite Hf in Hf'. inversion Hf'; subst s' coll'. apply StepCases.handle_call_next in H.
  destruct H as (lst & es & ml & _ & _ & _ & Hcr). inversion Hcr; subst; auto. unfold frontend_noexcept in *. congruence.
Qed.

(** With a reporter that throws on failures, an unmatched or inapplicable call on a noexcept overload ends the program; on an
    overload without noexcept the exception of the reporter reaches the caller. *)
Theorem C33_unmatched w m ov args l s coll :
  legal_call w m ov args s coll -> describable_throwers w coll (call_of s args l) ->
  (forall c ms, react w (RNoMatch c ms) = Throws /\ react w (RInapplicable c ms) = Throws) ->
  (forall e x, ~ candidate w coll (call_of s args l) e x) ->
  if sg_noexcept s then step w (OCall m ov args l) = Stop
  else exists evs, step w (OCall m ov args l) = Next (only_reports w evs) (RThrow EReporter).
Proof.
  intros Hl Ht Hre Hnc. destruct (C04_which_outcome _ _ _ _ l _ _ Hl Ht) as (evs & [(n & x & mr & w' & Hc & _)|[(_ & _ & ms & who & _ & Hs)|(_ & ms & who & _ & Hs)]]).
  - exfalso. eapply Hnc; eauto.
  - rewrite Hs. rewrite (proj2 (Hre _ _)). cbn [failed]. destruct (sg_noexcept s); eauto.
  - rewrite Hs. rewrite (proj1 (Hre _ _)). cbn [failed]. destruct (sg_noexcept s); eauto.
Qed.

Example C33_example :
  step (after [ONewMock [sig_void_noexcept]]) (OCall 0 0 [] here) = Stop /\
  results [ONewMock [sig_void]; OCall 0 0 [] here] = [RUnit; RThrow EReporter].
Proof. vm_compute. auto. Qed.

(** ** C44: conjunction of the requirements, without short-circuit. *)

(** An expectation accepts a call iff nothing throws and each requirement written down in the program holds. *)
Theorem C44_conjunction ops0 w0 m ov ms cls l w1 ops w2 :
  run init ops0 w0 -> step w0 (OExpect m ov ms cls l) = Next w1 RUnit -> run w1 ops w2 ->
  exists s coll x, find_overload w0 m ov = inr (s, coll) /\ exp_at w2 (length (w_exps w0)) x /\
    forall c, accepts (eo_exp x) c <->
      clean (eo_exp x) c /\ forall p, In p (arg_requirements ms ++ overload_requirements s ++ clause_policies cls) -> holds p c.
Proof.
  intros H0 H1 H2. destruct (declared_expectation _ _ _ _ _ _ _ _ _ _ H0 H1 H2) as (s & coll & x & Hf & Hx & Hd & _).
  exists s, coll, x. split; auto. split; auto. intros c. destruct Hd as (_ & _ & _ & Hp & _). unfold accepts. rewrite Hp.
  split; intros [Hc Ha]; split; auto; intros p Hin; apply holds_true; auto.
Qed.

(** The argument requirements, spelled out. *)
Theorem C44_arguments ms c : 
  (forall p, In p (arg_requirements ms) -> holds p c) <->
  forall i mt, nth_error ms i = Some mt -> exists v, nth_error (ci_args c) i = Some v /\ m_matches mt v = UOk true.
Proof.
  unfold arg_requirements.
  assert (G : forall ms k, (forall p, In p (map (fun im => PArg (fst im) (snd im) (fun v => UOk v)) (combine (seq k (length ms)) ms)) -> holds p c) <->
              forall i mt, nth_error ms i = Some mt -> exists v, nth_error (ci_args c) (k + i) = Some v /\ m_matches mt v = UOk true).
  { clear ms. induction ms as [|m0 ms IH]; intros k.
    - split; [intros _ [|i] mt H; discriminate|intros _ p []].
    - cbn [length seq combine map]. split.
      + intros H i mt Hi. destruct i as [|i]; simpl in Hi.
        * inversion Hi; subst. destruct (H _ (or_introl eq_refl)) as (v & y & H1 & H2 & H3). cbn [fst snd] in *. inversion H2; subst.
          rewrite Nat.add_0_r. eauto.
        * replace (k + S i) with (S k + i) by lia. apply (proj1 (IH (S k))); auto. intros p Hp. apply H. right; auto.
      + intros H p [<-|Hp].
        * destruct (H 0 m0 eq_refl) as (v & H1 & H2). rewrite Nat.add_0_r in H1. exists v, v. auto.
        * revert p Hp. apply (proj2 (IH (S k))). intros i mt Hi. replace (S k + i) with (k + S i) by lia. apply H. auto. }
  exact (G ms 0).
Qed.

(** Every requirement is evaluated and reported, in order, whatever the results of the others are. *)
Theorem C44_all_reported ss x c mr :
  exp_matches ss x c = Ret mr ->
  Forall2 (fun p r => (pr_matching r = true <-> holds p c) /\ policy_describe p = Ret (pr_desc r)) (e_policies x) (mr_policies mr) /\
  (evaluate_match_report mr = MatchNone <-> exists p, In p (e_policies x) /\ ~ holds p c).
Proof.
  intros H. unfold exp_matches in H. destruct (control_state_of ss (e_ctl x)) as [st| | |]; simpl in H; try discriminate.
  destruct (omap (policy_report_of c) (e_policies x)) as [rs| | |] eqn:E; simpl in H; try discriminate. inversion H; subst. cbn [mr_policies].
  apply omap_ret_inv in E. assert (F : Forall2 (fun p r => (pr_matching r = true <-> holds p c) /\ policy_describe p = Ret (pr_desc r)) (e_policies x) rs).
  { clear -E. induction E as [|p r ps rs Hr E IH]; constructor; auto. apply policy_report_ret in Hr. destruct Hr as [H1 H2]. split; auto.
    eapply holds_spec; eauto. }
  split; auto. unfold evaluate_match_report. cbn [mr_policies mr_state].
  assert (G : forallb pr_matching rs = false <-> exists p, In p (e_policies x) /\ ~ holds p c).
  { clear -F. induction F as [|p r ps rs [H1 _] F IH]; simpl; [split; [discriminate|intros (p & [] & _)]|].
    rewrite Bool.andb_false_iff, IH. split.
    - intros [H|(q & Hq & Hn)]; [exists p; split; auto; intros Hh; apply H1 in Hh; congruence|exists q; auto].
    - intros (q & [<-|Hq] & Hn); [left; destruct (pr_matching r); auto; exfalso; tauto|right; eauto]. }
  destruct (forallb pr_matching rs); simpl.
  - split; [destruct st; discriminate|]. intros H'. apply G in H'. discriminate.
  - split; auto. intros _. apply G. auto.
Qed.

(** A later requirement is evaluated even if an earlier one failed: its exception is not suppressed. *)
Theorem C44_no_short_circuit ss x c pre p post y :
  e_policies x = pre ++ p :: post -> (forall q, In q pre -> exists r, policy_report_of c q = Ret r) -> policy_matches p c = Throw y ->
  (exists st, control_state_of ss (e_ctl x) = Ret st) -> exp_matches ss x c = Throw y.
Proof.
  intros Hp Hpre Hy [st Hst]. unfold exp_matches. rewrite Hst. simpl. rewrite Hp. clear Hp Hst.
  induction pre as [|q pre IH]; simpl.
  - unfold policy_report_of at 1. rewrite Hy. reflexivity.
  - destruct (Hpre q (or_introl eq_refl)) as [r ->]. simpl. 
    assert (IH' := IH (fun q' Hq => Hpre q' (or_intror Hq))).
    destruct (omap (policy_report_of c) (pre ++ p :: post)); simpl in *; congruence.
Qed.

(** The first requirement (m_eq 1) fails and the second one (expect::arg) throws: unhandled exception instead of a mismatch. *)
Example C44_example : let prog :=
  [ONewMock [sig_unary]; OExpect 0 0 [m_eq 1] [ClPolicy (PArg 0 (m_throws 4) (fun v => UOk v))] here;
   OExpect 0 0 [m_eq 1] [ClPolicy (PArg 0 (m_eq 3) (fun v => UOk v))] here; OCall 0 0 [VInt 3] here] in
  map kind (w_trace (after prog)) = [(4, [0]); (3, [1])] /\
  map (fun ev => match ev with EvReport _ (RNoMatch _ [mr]) _ => map pr_matching (mr_policies mr) | _ => [] end) (w_trace (after prog))
  = [[]; [false; true; true; true]].
Proof. vm_compute. auto. Qed.

(** ** C58: isolation fails for throwing descriptions. *)

(** Whatever else is there: if the requirements of some live expectation throw and one of its descriptions throws as well, the
    program is terminated. *)
Theorem C58_throwing_description_terminates w m ov args l s coll e x :
  legal_call w m ov args s coll -> throwing w coll (call_of s args l) e x -> ~ describes (eo_exp x) ->
  step w (OCall m ov args l) = Stop.
Proof.
  intros (Hr & Hf & Hlen & _ & _ & _ & C) Ht Hd.
  exact (undescribed_stops w m ov args l s coll e x (conj Hr (conj Hf Hlen)) Ht Hd (fun r y => C _ r y _)).
Qed.

(** So the expectation of C09 without the condition on descriptions is false, also if a perfectly matching expectation exists. *)
Definition m_undescribed (n : nat) : matcher := mkMatcher (fun _ => UOk true) (UThrow (EUser n)).
Theorem C58_isolation_refuted :
  exists w m ov args l s coll, legal_call w m ov args s coll /\ sg_noexcept s = false /\
    (exists e x, candidate w coll (call_of s args l) e x) /\ step w (OCall m ov args l) = Stop.
Proof.
  pose (prog := [ONewMock [sig_unary]; OExpect 0 0 [m_undescribed 1] [] here; OExpect 0 0 [m_any] [] there]).
  exists (after prog), 0, 0, [VInt 3], here, sig_unary, 0. split; [|split; [reflexivity|split; [|vm_compute; reflexivity]]].
  - split; [apply after_reachable; vm_compute; reflexivity|]. do 2 (split; [reflexivity|]).
    change (w_reporter (after prog)) with default_reporter. repeat split; simpl; discriminate.
  - exists 1. eexists. split; [split; [vm_compute; reflexivity|split; reflexivity]|]. split.
    + split; intros p Hp; vm_compute in Hp; destruct Hp as [<-|[<-|[<-|[]]]]; vm_compute; eauto.
    + split; [vm_compute; reflexivity|]. intros s [].
Qed.

(** If all live expectations throw, the no-match report lists nothing and its text denies that there are expectations. *)
Theorem C58_all_threw_looks_empty w m ov args l s coll :
  legal_call w m ov args s coll -> describable_throwers w coll (call_of s args l) ->
  (forall e x, live_in w coll e x -> throwing w coll (call_of s args l) e x) ->
  let c := call_of s args l in
  exists evs, step w (OCall m ov args l) = failed (sg_noexcept s) (react w (RNoMatch (make_call_report c) []))
                (only_reports w (evs ++ [EvReport (w_rid w) (RNoMatch (make_call_report c) []) []])).
Proof.
  intros Hl Ht Hall c.
  assert (Hna : forall e x, ~ accepting w coll c e x).
  { intros e x [Hlv [Hc _]]. destruct (Hall _ _ Hlv) as [_ Hn]. auto. }
  destruct (C08_failure_reports _ _ _ _ l _ _ Hl Ht) as (evs & who & ms & [((e & x & H) & _)|(_ & Hnf & Htr & _ & Hs)]).
  - intros e x (H1 & H2 & _). apply (Hna e x). split; auto.
  - exfalso. exact (Hna _ _ H).
  - exists evs. assert (E : who = []).
    { destruct who as [|e who]; auto. exfalso. destruct Hnf as [_ Hin]. destruct (proj1 (Hin e) (or_introl eq_refl)) as (x & _ & Hlv & Hc).
      destruct (Hall _ _ Hlv) as [_ Hn]. auto. }
    subst who. inversion Htr; subst. exact Hs.
Qed.

Theorem C58_misleading_text_refuted :
  exists w m ov args l s coll ev rest, legal_call w m ov args s coll /\ (exists e x, live_in w coll e x) /\
    step w (OCall m ov args l) = Next (only_reports w (rest ++ [ev])) (RThrow EReporter) /\
    forall tn, match ev with
               | EvReport _ (RNoMatch c ms) _ =>
                   stringify_no_match tn c ms = ("No match for " ++ print_call_report tn c ++ nl ++ "No expectations available." ++ nl)%string
               | _ => False
               end.
Proof.
  pose (prog := [ONewMock [sig_unary]; OExpect 0 0 [m_throws 1] [] here]).
  exists (after prog), 0, 0, [VInt 3], here, sig_unary, 0. 
  pose (tr := w_trace (after (prog ++ [OCall 0 0 [VInt 3] here]))).
  exists (nth 1 tr (EvInstall 0)), [nth 0 tr (EvInstall 0)]. split; [|split; [|split]].
  - split; [apply after_reachable; vm_compute; reflexivity|]. do 2 (split; [reflexivity|]).
    change (w_reporter (after prog)) with default_reporter. repeat split; simpl; discriminate.
  - exists 0. eexists. split; [vm_compute; reflexivity|split; reflexivity].
  - vm_compute. reflexivity.
  - intros tn. unfold tr. change (nth 1 _ _) with
      (EvReport 0 (RNoMatch (make_call_report (call_of sig_unary [VInt 3] here)) []) []). reflexivity.
Qed.

Print Assumptions C04_one_outcome_report.
Print Assumptions C04_which_outcome.
Print Assumptions C04_matched_iff_candidate.
Print Assumptions C08_failure_reports.
Print Assumptions C09_as_if_absent.
Print Assumptions C09_one_report.
Print Assumptions C33_noexcept_never_throws.
Print Assumptions C33_unmatched.
Print Assumptions C44_conjunction.
Print Assumptions C44_arguments.
Print Assumptions C44_all_reported.
Print Assumptions C44_no_short_circuit.
Print Assumptions C58_throwing_description_terminates.
Print Assumptions C58_isolation_refuted.
Print Assumptions C58_all_threw_looks_empty.
Print Assumptions C58_misleading_text_refuted.
