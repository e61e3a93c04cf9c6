(** * PropConcOrder: sequences under concurrency, and what asserts change (C82). *)

From Verif Require Import Base Lib Sequence Control Signature Printer Reports Expectation Builder World WorldSpec
  SeqInv WorldInv CountProofs FrameSpec Scenario Conc ConcSpec ConcProofs ConcOrder PropConc.

(** ** With asserts *)

(** In every interleaving a call is counted only for an expectation which accepts it, whose limit is not reached, whose
    predecessors in all its sequences have had their minimal number of calls and whose successors have had none. *)
Theorem C82_counted_only_if_open threads acts c t c' r :
  cruns false (cinit threads) acts c -> cstep false c t ACount = CNext c' r ->
  exists n ci x, c_log c' = c_log c ++ [(t, n, ci)] /\ exp_at (cw c) n x /\ accepts (eo_exp x) ci /\ open_for c n x.
Proof.
  intros H Hs. pose proof (cinv_run _ _ _ _ H) as C. pose proof (si_run _ _ _ H) as I. apply cstep_count in Hs.
  destruct Hs as (th & n & ci & ne & x & v & ss & ctl & Hth & Hp & Hx & Ha & Hcons & Hca & Hcc & _ & -> & Hex).
  exists n, ci, x. split; [reflexivity|]. split; auto. split.
  - destruct (ci_pending _ _ C _ _ _ _ _ Hth Hp) as (y & Hy & Hacc). assert (E : y = x) by (unfold exp_at in *; congruence). subst y. auto.
  - apply (open_iff false c n x C I Hx). eapply consume_applicable. exact Hcons.
Qed.

(** Hence the calls counted for the expectations of a sequence come in the order of the sequence: before the first call for a later
    element each earlier one has had its minimal number of calls, and it gets none afterwards. *)
Theorem C82_sequences_in_order threads acts c e1 x1 e2 x2 s before t ci behind :
  cruns false (cinit threads) acts c ->
  exp_at (cw c) e1 x1 -> exp_at (cw c) e2 x2 -> In s (x_seqs x1) -> In s (x_seqs x2) -> e1 < e2 ->
  c_log c = before ++ (t, e2, ci) :: behind ->
  (x_min x1 <= Z.of_nat (times_in before e1))%Z /\ times_in behind e1 = 0.
Proof. intros H. apply (ordered_run _ _ _ H). Qed.

(** A matched call can be counted unless in the meantime its expectation or a later element of its sequences was called, or the
    scope of the expectation has ended. *)
Theorem C82_undisturbed threads acts c t m ov args l c1 r th n ci ne mid c2 added x :
  cruns false (cinit threads) acts c -> cstep false c t (AMatch m ov args l) = CNext c1 r ->
  nth_error (c_threads c1) t = Some th -> t_pending th = Some (n, ci, ne) ->
  cruns false c1 mid c2 -> c_log c2 = c_log c1 ++ added -> exp_at (cw c2) n x ->
  (forall t' n' ci', In (t', n', ci') added -> n' <> n /\
     (n < n' -> forall x' s, exp_at (cw c2) n' x' -> In s (x_seqs x) -> ~ In s (x_seqs x'))) ->
  eo_alive x = true -> exists c3, cstep false c2 t ACount = CNext c3 RUnit.
Proof.
  intros H Hs Hth Hp Hmid Hlog Hx Hfree Ha.
  pose proof (cinv_run _ _ _ _ H) as C. pose proof (si_run _ _ _ H) as I.
  destruct (matched_open _ _ _ _ _ _ _ _ _ _ _ _ C I Hs Hth Hp) as (x0 & Hx0 & _ & Hmax & Hord).
  assert (H1 : cruns false (cinit threads) (acts ++ [(t, AMatch m ov args l)]) c1) by (eapply cruns_app; [exact H|]; econstructor; [exact Hs|constructor]).
  assert (H2 := cruns_app _ _ _ _ _ _ H1 Hmid).
  pose proof (cinv_run _ _ _ _ H1) as C1. pose proof (si_run _ _ _ H1) as I1.
  pose proof (cinv_run _ _ _ _ H2) as C2. pose proof (si_run _ _ _ H2) as I2.
  destruct (cstep_match_core _ _ _ _ _ _ _ _ _ Hs) as [Hc Hl1]. destruct (core_fields _ _ Hc) as (_ & _ & _ & Ee & _).
  assert (Hlim := cruns_limits _ _ _ I1 Hmid).
  assert (Hx1 : exp_at (cw c1) n x0) by (unfold exp_at in *; congruence).
  destruct (Hlim _ _ Hx1) as (y & Hy & Em & EM & Es). assert (E : y = x) by (unfold exp_at in *; congruence). subst y.
  assert (Hnone : forall e, (forall t' ci', ~ In (t', e, ci') added) -> counted c2 e = counted c e).
  { intros e He. unfold counted. rewrite Hlog, Hl1, filter_app, app_length.
    replace (filter _ added) with (@nil (nat * nat * call_info)); [cbn [length]; lia|]. symmetry. apply filter_none. intros [[t' n'] ci'] Hin.
    apply Nat.eqb_neq. intros ->. eapply He; eauto. }
  destruct (cruns_pending _ _ _ _ Hmid _ _ _ _ Hth Hp Hlog) as [(th2 & Hth2 & Hp2)|Hin].
  2:{ destruct (Hfree _ _ _ Hin) as [Hn _]. exfalso. apply Hn. reflexivity. }
  apply (count_open c2 t th2 n ci ne x); auto. split.
  - rewrite Hnone, EM; auto. intros t' ci' Hin. destruct (Hfree _ _ _ Hin) as [Hn _]. auto.
  - intros s Hs' e' x' He' Hse'. rewrite Es in Hs'. split; intros Hlt.
    + assert (He1 : e' < length (w_exps (cw c))) by (apply nth_error_lt in Hx0; lia).
      destruct (nth_error_ex _ _ He1) as [y' Hy']. assert (Hy1 : exp_at (cw c1) e' y') by (unfold exp_at; congruence).
      destruct (Hlim _ _ Hy1) as (z & Hz & F1 & _ & F3). assert (E : z = x') by (unfold exp_at in *; congruence). subst z.
      rewrite F3 in Hse'. destruct (Hord s Hs' e' y' Hy' Hse') as [Ho _]. specialize (Ho Hlt). rewrite F1.
      unfold counted in *. rewrite Hlog, Hl1, filter_app, app_length. lia.
    + rewrite Hnone.
      2:{ intros t' ci' Hin. destruct (Hfree _ _ _ Hin) as [_ Hf]. apply (Hf Hlt x' s He'); auto. rewrite Es. exact Hs'. }
      destruct (Nat.lt_ge_cases e' (length (w_exps (cw c)))) as [He1|He1]; [|eapply counted_fresh; eauto].
      destruct (nth_error_ex _ _ He1) as [y' Hy']. assert (Hy1 : exp_at (cw c1) e' y') by (unfold exp_at; congruence).
      destruct (Hlim _ _ Hy1) as (z & Hz & _ & _ & F3). assert (E : z = x') by (unfold exp_at in *; congruence). subst z.
      rewrite F3 in Hse'. apply (Hord s Hs' e' y' Hy' Hse'). auto.
Qed.

(** ** Without asserts *)

(** A build without asserts behaves like one with asserts up to the first assert which would fail: *)
Theorem C82_release_until_assert threads acts c :
  cruns true (cinit threads) acts c ->
  cruns false (cinit threads) acts c \/
  exists a t b c1, acts = a ++ (t, ACount) :: b /\ cruns false (cinit threads) a c1 /\ cruns true (cinit threads) a c1 /\
    cstep false c1 t ACount = CWrong UbAssert.
Proof.
  intros H.
  assert (G : forall c0 acts c, cruns true c0 acts c -> CInv true c0 -> SI (cw c0) -> cruns false c0 acts c \/
     exists a t b c1, acts = a ++ (t, ACount) :: b /\ cruns false c0 a c1 /\ cruns true c0 a c1 /\ cstep false c1 t ACount = CWrong UbAssert).
  { clear. intros c0 acts c H. induction H as [c|c t a c1 r acts c2 Hs Hr IH]; intros C I; [left; constructor|].
    assert (D : cstep false c t a = CNext c1 r \/ (a = ACount /\ cstep false c t ACount = CWrong UbAssert)).
    { destruct a as [o|m ov args l|]; [left; rewrite cstep_same; auto; discriminate|left; rewrite cstep_same; auto; discriminate|].
      destruct (count_agree true c t C I _ _ Hs); auto. }
    destruct D as [D|[-> D]].
    - destruct IH as [IH|(a' & t' & b & c3 & -> & H1 & H2 & H3)].
      + eapply cinv_step; eauto.
      + eapply si_cstep; eauto.
      + left. econstructor; eauto.
      + right. exists ((t, a) :: a'), t', b, c3. split; [reflexivity|]. split; [econstructor; eauto|]. split; [econstructor; eauto|]. auto.
    - right. exists [], t, acts, c. split; [reflexivity|]. split; [constructor|]. split; [constructor|]. auto. }
  apply G; auto; [apply cinv_init|apply si_init].
Qed.

(** conversely nothing else changes. *)
Theorem C82_asserts_only_stop threads acts c : cruns false (cinit threads) acts c -> cruns true (cinit threads) acts c.
Proof.
  intros H. induction H as [c|c t a c1 r acts c2 Hs Hr IH]; [constructor|]. apply (cr_cons true c t a c1 r); auto.
  destruct a as [o|m ov args l|]; [rewrite <- cstep_same; auto; discriminate|rewrite <- cstep_same; auto; discriminate|apply count_both; auto].
Qed.

(** So everything above holds without asserts if every call is counted while its expectation is open: *)
Theorem C82_release_if_open threads acts c :
  cruns true (cinit threads) acts c ->
  (forall a t b c1 th n ci ne x, acts = a ++ (t, ACount) :: b -> cruns true (cinit threads) a c1 ->
     nth_error (c_threads c1) t = Some th -> t_pending th = Some (n, ci, ne) -> exp_at (cw c1) n x -> open_for c1 n x) ->
  cruns false (cinit threads) acts c.
Proof.
  intros H Ho. destruct (C82_release_until_assert _ _ _ H) as [|(a & t & b & c1 & -> & H1 & H2 & H3)]; auto. exfalso.
  assert (Hs : exists c' r, cstep true c1 t ACount = CNext c' r).
  { assert (G : forall c0, cruns true c0 (a ++ (t, ACount) :: b) c -> cruns true c0 a c1 -> exists c' r, cstep true c1 t ACount = CNext c' r).
    { clear. induction a as [|[t' a'] a IH]; intros c0 H H2; cbn [app] in H.
      - inversion H2; subst. inversion H; subst. eauto.
      - inversion H2 as [|x1 x2 x3 y r1 x5 x6 Hs1 Hr1]; subst. inversion H as [|z1 z2 z3 y' r2 z5 z6 Hs2 Hr2]; subst.
        assert (E : y = y') by congruence. subst y'. apply (IH y); auto. }
    eauto. }
  destruct Hs as (c' & r & Hs). pose proof Hs as Hs0. apply cstep_count in Hs.
  destruct Hs as (th & n & ci & ne & x & v & ss & ctl & Hth & Hp & Hx & Ha & _).
  destruct (count_open c1 t th n ci ne x) as [c3 E]; auto; [eapply cinv_run; eauto|eapply si_run; eauto| |congruence].
  eapply Ho; eauto.
Qed.

(** ** What does not hold *)

(** Sequence 0: expectation 0 for the argument 1, then expectation 2 for the argument 2; sequence 1: expectation 1 for the argument 2, then
    expectation 3 for the argument 1. *)
Definition two_sequences : list (nat * action) :=
  [(0, AOp (ONewSeq Lazy)); (0, AOp (ONewSeq Lazy)); (0, AOp (ONewMock [sig_unary]));
   (0, AOp (OExpect 0 0 [m_eq 1] [ClTimes TxOnce; ClSeq [0]; ClFinal (FReturns (VInt 0))] here));
   (0, AOp (OExpect 0 0 [m_eq 2] [ClTimes TxOnce; ClSeq [1]; ClFinal (FReturns (VInt 0))] here));
   (0, AOp (OExpect 0 0 [m_eq 2] [ClTimes (TxAtMost 1); ClSeq [0]; ClFinal (FReturns (VInt 0))] here));
   (0, AOp (OExpect 0 0 [m_eq 1] [ClTimes (TxAtMost 1); ClSeq [1]; ClFinal (FReturns (VInt 0))] here))].

(** Thread 0 calls with 1, thread 1 with 2. *)
Definition match_by (t : nat) : nat * action := (t, AMatch 0 0 [VInt (Z.of_nat t + 1)] here).
Definition call_by (t : nat) : list (nat * action) := [match_by t; (t, ACount)].

(** Even if no assert fails, two concurrent calls are not equivalent to any order of these calls: one after the other, the second
    call would be matched by the element which the first call made current. *)
Theorem C82_not_linearizable_refuted : exists c together first_0 first_1,
  cruns false (cinit 2) two_sequences c /\
  cruns false c [match_by 0; match_by 1; (0, ACount); (1, ACount)] together /\ map (counted together) [0; 1; 2; 3] = [1; 1; 0; 0] /\
  cruns false c (call_by 0 ++ call_by 1) first_0 /\ map (counted first_0) [0; 1; 2; 3] = [1; 0; 1; 0] /\
  cruns false c (call_by 1 ++ call_by 0) first_1 /\ map (counted first_1) [0; 1; 2; 3] = [0; 1; 0; 1].
Proof.
  destruct (cexec false (cinit 2) two_sequences) as [c|] eqn:Hc; [|vm_compute in Hc; discriminate].
  assert (Hr := cexec_runs _ _ _ _ Hc). vm_compute in Hc. injection Hc as Hc.
  eexists c, _, _, _. split; [exact Hr|]. clear Hr. subst c.
  split; [apply cexec_runs; vm_compute; reflexivity|]. split; [vm_compute; reflexivity|].
  split; [apply cexec_runs; vm_compute; reflexivity|]. split; [vm_compute; reflexivity|].
  split; [apply cexec_runs; vm_compute; reflexivity|]. vm_compute; reflexivity.
Qed.

(** Without asserts the order of a sequence is violated: a call matched for the first element is counted after one for the second. *)
Definition one_sequence : list (nat * action) :=
  [(0, AOp (ONewSeq Lazy)); (0, AOp (ONewMock [sig_unary]));
   (0, AOp (OExpect 0 0 [m_eq 1] [ClTimes (TxAtMost 2); ClSeq [0]; ClFinal (FReturns (VInt 0))] here));
   (0, AOp (OExpect 0 0 [m_eq 2] [ClTimes (TxAtMost 1); ClSeq [0]; ClFinal (FReturns (VInt 0))] here))].
Theorem C82_order_refuted : exists c x0 x1 before t ci behind,
  cruns true (cinit 2) (one_sequence ++ [(0, AMatch 0 0 [VInt 1] here); (1, AMatch 0 0 [VInt 2] here); (1, ACount); (0, ACount)]) c /\
  exp_at (cw c) 0 x0 /\ exp_at (cw c) 1 x1 /\ x_seqs x0 = [0] /\ x_seqs x1 = [0] /\
  c_log c = before ++ (t, 1, ci) :: behind /\ times_in behind 0 = 1.
Proof.
  eexists _, _, _, [], _, _, _. split; [apply cexec_runs; vm_compute; reflexivity|].
  split; [vm_compute; reflexivity|]. split; [vm_compute; reflexivity|]. split; [vm_compute; reflexivity|]. split; [vm_compute; reflexivity|].
  split; [cbn [c_log]; reflexivity|]. vm_compute. reflexivity.
Qed.

(** ** Examples *)

(** Interleaved calls for the elements of a sequence in an asserting build, with another thread's call in between. *)
Example C82_in_order_example : exists c, 
  cruns false (cinit 2) (one_sequence ++ [(0, AMatch 0 0 [VInt 1] here); (0, ACount); (0, AOp OFinal); (1, AMatch 0 0 [VInt 2] here);
     (0, AOp (OReturn (UOk (VInt 0)))); (1, ACount)]) c /\
  map (fun '(_, n, _) => n) (c_log c) = [0; 1].
Proof. eexists. split; [apply cexec_runs; vm_compute; reflexivity|]. vm_compute. reflexivity. Qed.

(** A call which stays pending while another one for an earlier element of its sequence is counted. *)
Example C82_undisturbed_example : exists c th ci ne x, 
  cruns false (cinit 2) (one_sequence ++ [(1, AMatch 0 0 [VInt 2] here); (0, AMatch 0 0 [VInt 1] here); (0, ACount)]) c /\
  nth_error (c_threads c) 1 = Some th /\ t_pending th = Some (1, ci, ne) /\ exp_at (cw c) 1 x /\ eo_alive x = true /\ counted c 0 = 1 /\
  exists c', cstep false c 1 ACount = CNext c' RUnit.
Proof.
  eexists _, _, _, _, _. split; [apply cexec_runs; vm_compute; reflexivity|].
  split; [vm_compute; reflexivity|]. split; [vm_compute; reflexivity|]. split; [vm_compute; reflexivity|]. split; [vm_compute; reflexivity|].
  split; [vm_compute; reflexivity|]. eexists. vm_compute. reflexivity.
Qed.

(** The first failing assert of the violation above. *)
Example C82_until_assert_example : exists c,
  cruns false (cinit 2) (one_sequence ++ [(0, AMatch 0 0 [VInt 1] here); (1, AMatch 0 0 [VInt 2] here); (1, ACount)]) c /\
  cstep false c 0 ACount = CWrong UbAssert /\ exists c', cstep true c 0 ACount = CNext c' RUnit.
Proof.
  eexists. split; [apply cexec_runs; vm_compute; reflexivity|]. split; [vm_compute; reflexivity|]. eexists. vm_compute. reflexivity.
Qed.

Print Assumptions C82_counted_only_if_open.
Print Assumptions C82_sequences_in_order.
Print Assumptions C82_undisturbed.
Print Assumptions C82_release_until_assert.
Print Assumptions C82_asserts_only_stop.
Print Assumptions C82_release_if_open.
Print Assumptions C82_not_linearizable_refuted.
Print Assumptions C82_order_refuted.
