(** * PropReentrant: reporters which use mocks (C83). *)

From Verif Require Import Base Lib Sequence Control Signature Printer Reports Expectation Builder World WorldSpec
  SeqInv StepCases WorldInv CountProofs FrameSpec Scenario Conc ConcSpec ConcProofs ConcOrder PropConc PropConcOrder Reentrant ReentrantSpec ReentrantProofs.

(** ** A callback acts like another thread *)

(** For every program whose reporter may do anything in its callbacks there is a program with threads in which all objects are in the
    same state, the same events happened and the same calls were counted in the same order. *)
Theorem C83_callbacks_are_threads release ops q :
  qruns release qinit ops q ->
  exists threads acts c, cruns release (cinit threads) acts c /\ agrees (qw q) c /\ w_trace (qw q) = w_trace (cw c) /\
    without_threads (c_log c) = q_log q.
Proof.
  intros H. destruct (sim_run release ops qinit (cinit (S (length ops + 0))) q 0 (sim_init _) H) as (acts & c & Hr & [Hw _ Hl]).
  exists (S (length ops + 0)), acts, c. split; auto. rewrite Hw. split; [|split; [reflexivity|exact Hl]].
  apply agrees_core. rewrite Hw. split; reflexivity.
Qed.

Lemma calls_in_threads log e : calls_in (without_threads log) e = times_in log e.
Proof.
  unfold calls_in, times_in, without_threads. induction log as [|[[t n] ci] log IH]; auto. cbn [map filter]. destruct (n =? e); cbn [length]; auto.
Qed.

(** So calls are counted only for expectations which accept them, and the stored counts are the numbers of counted calls. *)
Theorem C83_counted_calls_were_accepted release ops q n ci :
  qruns release qinit ops q -> In (n, ci) (q_log q) -> exists x, exp_at (qw q) n x /\ accepts (eo_exp x) ci.
Proof.
  intros H Hin. destruct (C83_callbacks_are_threads _ _ _ H) as (k & acts & c & Hr & (_ & _ & _ & E & _) & _ & Hl).
  rewrite <- Hl in Hin. apply in_map_iff in Hin. destruct Hin as ([[t n'] ci'] & Heq & Hin). injection Heq as -> ->.
  destruct (C28_counted_calls_were_accepted _ _ _ _ _ _ _ Hr Hin) as (x & Hx & Ha). exists x. split; auto. unfold exp_at in *. rewrite E. auto.
Qed.

Theorem C83_count_is_exact release ops q e x :
  qruns release qinit ops q -> exp_at (qw q) e x -> c_count (e_ctl (eo_exp x)) = Z.of_nat (calls_in (q_log q) e).
Proof.
  intros H Hx. destruct (C83_callbacks_are_threads _ _ _ H) as (k & acts & c & Hr & (_ & _ & _ & E & _) & _ & Hl).
  unfold exp_at in *. rewrite E in Hx. rewrite (C28_count_is_exact _ _ _ _ _ _ Hr Hx), <- Hl, calls_in_threads. reflexivity.
Qed.

(** With asserts, limits and sequences are respected by every program that goes on. *)
Theorem C83_limit_with_asserts ops q e x :
  qruns false qinit ops q -> exp_at (qw q) e x -> (Z.of_nat (calls_in (q_log q) e) <= x_max x)%Z.
Proof.
  intros H Hx. destruct (C83_callbacks_are_threads _ _ _ H) as (k & acts & c & Hr & (_ & _ & _ & E & _) & _ & Hl).
  unfold exp_at in *. rewrite E in Hx. rewrite <- Hl, calls_in_threads. apply (C27_limit_with_asserts _ _ _ _ _ Hr Hx).
Qed.

Lemma without_threads_split l : forall log before n ci behind, l = log -> without_threads log = before ++ (n, ci) :: behind ->
  exists b t e, log = b ++ (t, n, ci) :: e /\ without_threads b = before /\ without_threads e = behind.
Proof.
  intros log before. revert l log. induction before as [|z before IH]; intros l log n ci behind El H; destruct log as [|[[t n'] ci'] log]; try discriminate; cbn in H.
  - injection H as -> -> <-. exists [], t, log. auto.
  - injection H as <- H. destruct (IH log log n ci behind eq_refl H) as (b & t' & e & -> & <- & <-). exists ((t, n', ci') :: b), t', e. auto.
Qed.

Theorem C83_sequences_in_order ops q e1 x1 e2 x2 s before ci behind :
  qruns false qinit ops q ->
  exp_at (qw q) e1 x1 -> exp_at (qw q) e2 x2 -> In s (x_seqs x1) -> In s (x_seqs x2) -> e1 < e2 ->
  q_log q = before ++ (e2, ci) :: behind ->
  (x_min x1 <= Z.of_nat (calls_in before e1))%Z /\ calls_in behind e1 = 0.
Proof.
  intros H H1 H2 Hs1 Hs2 Hlt Hlog. destruct (C83_callbacks_are_threads _ _ _ H) as (k & acts & c & Hr & (_ & _ & _ & E & _) & _ & Hl).
  unfold exp_at in *. rewrite E in *. rewrite <- Hl in Hlog. destruct (without_threads_split _ _ _ _ _ _ eq_refl Hlog) as (b & t & e & Hlog' & <- & <-).
  rewrite !calls_in_threads. eapply (C82_sequences_in_order k acts c); eauto.
Qed.

(** ** Harmless callbacks *)

(** A callback which ends regularly does no harm if it does not end the scope of the reported expectation and makes no calls for
    it and for later elements of its sequences: the reported call is counted. It may call other mocks, create and end expectations
    and fail calls. *)
Theorem C83_harmless_callback ops q m ov args l q1 r p n ci ne mid q2 added x :
  qruns false qinit ops q -> qstep false q (QCall m ov args l) = QNext q1 r ->
  q_stack q1 = p :: q_stack q -> p_call p = (n, ci, ne) ->
  qruns false q1 mid q2 -> q_stack q2 = q_stack q1 -> w_frames (qw q2) = [] -> w_uncaught (qw q2) = p_uncaught p ->
  q_log q2 = q_log q1 ++ added -> exp_at (qw q2) n x ->
  (forall n' ci', In (n', ci') added -> n' <> n /\
     (n < n' -> forall x' s, exp_at (qw q2) n' x' -> In s (x_seqs x) -> ~ In s (x_seqs x'))) ->
  eo_alive x = true -> exists q3, qstep false q2 QReturn = QNext q3 RUnit /\ q_stack q3 = q_stack q /\ q_log q3 = q_log q2 ++ [(n, ci)].
Proof.
  intros H Hs Hstk Hpc Hmid Hstk2 Hfr Hu Hlog Hx Hfree Ha.
  destruct (sim_run false ops qinit (cinit (S (length ops + S (length mid + 0)))) q (S (length mid + 0)) (sim_init _) H) as (acts & c & Hr & Hsim).
  destruct (sim_match _ _ _ _ _ _ _ _ _ _ _ Hsim Hs Hstk) as (c1 & c1' & th & Hc1 & Hth & Hpe & _ & Hl1 & Hq1 & Hr1 & Hsim1).
  destruct (sim_run false mid q1 c1' q2 0 Hsim1 Hmid) as (acts2 & c2 & Hr2 & Hsim2).
  rewrite Hpc in Hpe. assert (Hr12 := cruns_app _ _ _ _ _ _ Hr1 Hr2).
  assert (Hst2 : q_stack q2 = p :: q_stack q) by congruence.
  destruct (sim_return false q2 c2 0 p (q_stack q) Hsim2 Hst2 Hfr Hu) as (n' & ci' & ne' & th2 & s & Hpc' & Hth2 & Hpe2 & Hcs & Hqs).
  rewrite Hpc in Hpc'. injection Hpc' as <- <- <-.
  destruct (cruns_log _ _ _ _ Hr12) as [ad Had].
  assert (Hadded : without_threads ad = added).
  { pose proof (sm_log _ _ _ Hsim2) as L2. pose proof (sm_log _ _ _ Hsim) as L0. change strip with without_threads in *.
    rewrite Had in L2. unfold without_threads in L2, L0. rewrite map_app in L2. rewrite Hl1, L0, <- Hq1, Hlog in L2. apply app_inv_head in L2. exact L2. }
  assert (Ew : w_exps (cw c2) = w_exps (qw q2)) by (rewrite (sm_world _ _ _ Hsim2); reflexivity).
  destruct (C82_undisturbed _ _ _ _ _ _ _ _ _ _ _ _ _ _ _ _ ad x Hr Hc1 Hth Hpe Hr12 Had) as [c3 Hc3]; auto.
  - unfold exp_at. rewrite Ew. exact Hx.
  - intros t' n' ci' Hin. assert (Hin' : In (n', ci') added).
    { rewrite <- Hadded. apply in_map_iff. exists (t', n', ci'). auto. }
    destruct (Hfree _ _ Hin') as [F1 F2]. split; auto. intros Hlt x' s' Hx'. unfold exp_at in Hx'. rewrite Ew in Hx'. apply F2; auto.
  - unfold level in Hc3. rewrite Hcs in Hc3. destruct s as [v r0| | |]; cbn [embed] in Hc3; try discriminate. injection Hc3 as _ ->.
    cbn [qembed] in Hqs. eexists. split; [exact Hqs|]. auto.
Qed.

(** ** Reporters which do not use mocks *)

(** A call whose callback does nothing is a call of the single-threaded model, *)
Theorem C83_quiet_callback q m ov args l q1 q2 r :
  qstep false q (QCall m ov args l) = QNext q1 RUnit -> qstep false q1 QReturn = QNext q2 r ->
  step (qw q) (OCall m ov args l) = Next (qw q2) r /\ q_stack q2 = q_stack q.
Proof.
  intros H1 H2. cbn [qstep] in H1.
  destruct (find_overload (qw q) m ov) as [s|[s coll]] eqn:Hf.
  { unfold find_overload in Hf. destruct (nth_error (w_mocks (qw q)) m) as [mk|]; [|injection Hf as <-; discriminate].
    destruct (mk_alive mk); [|injection Hf as <-; discriminate]. cbn [negb] in Hf. destruct (nth_error (mk_sigs mk) ov); [|injection Hf as <-; discriminate].
    destruct (mk_colls mk) as [cs|]; [|injection Hf as <-; discriminate]. destruct (nth_error cs ov); [discriminate|injection Hf as <-; discriminate]. }
  destruct (length args =? length (sg_params s)) eqn:Hlen; cbn [negb] in H1; [|discriminate]. apply Nat.eqb_eq in Hlen. fold (call_of s args l) in H1.
  destruct (match_call (qw q) coll (call_of s args l) (frontend_noexcept s)) as [w' n|s'] eqn:Hm.
  - injection H1 as <-. rewrite (step_call _ _ _ _ _ _ _ Hf Hlen), handle_call_split, Hm.
    cbn [qstep q_stack qw set_frames w_frames w_uncaught p_uncaught p_call p_frames q_log] in H2. rewrite Nat.eqb_refl in H2. cbn [andb negb] in H2.
    replace (set_frames (set_frames w' []) (w_frames w')) with w' in H2 by (apply IsolateProofs.world_ext; reflexivity).
    destruct (count_call false w' n (call_of s args l) (frontend_noexcept s)) as [v r0| | |] eqn:Hcc; cbn [qembed] in H2; try discriminate. injection H2 as <- <-.
    pose proof Hcc as Hcc'. unfold count_call in Hcc'. destruct (nth_error (w_exps w') n) as [eo|]; [|discriminate]. destruct (eo_alive eo); [|discriminate]. auto.
  - destruct s' as [w' r0| | |]; cbn [qembed] in H1; try discriminate. injection H1 as <- ->. destruct (over_throws _ _ _ _ _ _ Hm). discriminate.
Qed.

(** and every single-threaded program is such a program. *)
Theorem C83_conservative ops w : run init ops w -> exists qops log, qruns false qinit qops (mkQ w [] log).
Proof.
  assert (Happ : forall q a q1 b q2, qruns false q a q1 -> qruns false q1 b q2 -> qruns false q (a ++ b) q2).
  { intros q a q1 b q2 H. induction H; cbn [app]; auto. intros. econstructor; eauto. }
  assert (G : forall w0 ops w, run w0 ops w -> reachable w0 -> forall log, exists qops log', qruns false (mkQ w0 [] log) qops (mkQ w [] log')).
  { intros w0 ops' w'. induction 1 as [w0|w0 o w1 r ops' w2 Hs Hr IH]; intros Hre log; [exists [], log; constructor|].
    assert (Hre1 : reachable w1) by (eapply reachable_step; eauto).
    destruct (is_call o) eqn:Ho.
    - destruct o; try discriminate.
      destruct (qstep_call (mkQ w0 [] log) _ _ _ _ _ _ Hre Hs) as [(x & -> & Hq)|(q1 & n & ci & -> & Hq1 & Hq2)].
      + destruct (IH Hre1 log) as (qops & log' & H'). exists (QCall m ov args l :: qops), log'. econstructor; eauto.
      + destruct (IH Hre1 (log ++ [(n, ci)])) as (qops & log' & H'). exists (QCall m ov args l :: QReturn :: qops), log'. econstructor; [exact Hq1|]. econstructor; [exact Hq2|]. exact H'.
    - destruct (IH Hre1 log) as (qops & log' & H'). exists (QOp o :: qops), log'. econstructor; [|exact H']. cbn [qstep]. rewrite Ho. cbn [qw q_stack q_log]. rewrite Hs. reflexivity. }
  intros H. apply (G init ops w H); auto. apply reachable_init.
Qed.

(** ** What does not hold *)

Fixpoint qexec (release : bool) (q : qworld) (ops : list qop) : option qworld :=
  match ops with
  | [] => Some q
  | o :: rest => match qstep release q o with QNext q1 _ => qexec release q1 rest | _ => None end
  end.
Lemma qexec_runs release ops : forall q q', qexec release q ops = Some q' -> qruns release q ops q'.
Proof.
  induction ops as [|o ops IH]; intros q q' H; cbn [qexec] in H; [injection H as <-; constructor|].
  destruct (qstep release q o) as [q1 r| | |] eqn:E; try discriminate. econstructor; eauto.
Qed.

Definition start : list qop := [QOp (ONewMock [sig_void]); QOp (OExpect 0 0 [] [ClTimes TxOnce] here)].
(** The callback calls the same mock again; the innermost callback returns, then the side effects of the inner call are over. *)
Definition again : list qop := [QCall 0 0 [] here; QCall 0 0 [] there; QReturn; QOp OFinal; QOp (OReturn (UOk (VInt 0)))].

(** Without asserts the limit is exceeded - without any threads. *)
Theorem C83_limit_refuted : exists q x, qruns true qinit (start ++ again ++ [QReturn]) q /\
  exp_at (qw q) 0 x /\ x_max x = 1%Z /\ calls_in (q_log q) 0 = 2.
Proof. eexists _, _. split; [apply qexec_runs; vm_compute; reflexivity|]. repeat split; vm_compute; reflexivity. Qed.

(** With asserts the outer call fails one. *)
Theorem C83_assert_refuted : exists q, qruns false qinit (start ++ again) q /\ qstep false q QReturn = QWrong UbAssert.
Proof. eexists. split; [apply qexec_runs; vm_compute; reflexivity|]. vm_compute. reflexivity. Qed.

(** A callback which ends the scope of the reported expectation leaves a dangling reference. *)
Theorem C83_scope_ended_refuted : forall release, exists q,
  qruns release qinit [QOp (ONewMock [sig_void]); QOp (OExpect 0 0 [] [ClTimes (TxAtMost 1)] here); QCall 0 0 [] here; QOp (OEndScope 0)] q /\
  qstep release q QReturn = QWrong UbDangling.
Proof. intros []; eexists; (split; [apply qexec_runs; vm_compute; reflexivity|]; vm_compute; reflexivity). Qed.

(** No exception gets out of a callback. *)
Theorem C83_throwing_callback release q : q_stack q <> [] -> qstep release q QThrow = QStop.
Proof. cbn [qstep]. destruct (q_stack q); congruence. Qed.

(** ** Examples *)

(** A reporter which logs through another mock: the call of the logger is counted first, both calls go on. *)
Definition logging : list qop :=
  [QOp (ONewMock [sig_void]); QOp (ONewMock [sig_void]); QOp (OExpect 0 0 [] [ClTimes TxOnce] here); QOp (OExpect 1 0 [] [ClTimes TxOnce] there);
   QCall 0 0 [] here].
Example C83_harmless_example : exists q q1 p ci q2 x,
  qexec false qinit (removelast logging) = Some q /\ qstep false q (QCall 0 0 [] here) = QNext q1 RUnit /\
  q_stack q1 = p :: q_stack q /\ p_call p = (0, ci, false) /\
  qruns false q1 [QCall 1 0 [] there; QReturn; QOp OFinal; QOp (OReturn (UOk (VInt 0)))] q2 /\ q_stack q2 = q_stack q1 /\
  map fst (q_log q2) = [1] /\ exp_at (qw q2) 0 x /\ eo_alive x = true /\
  exists q3, qstep false q2 QReturn = QNext q3 RUnit /\ map fst (q_log q3) = [1; 0].
Proof.
  eexists _, _, _, _, _, _. split; [vm_compute; reflexivity|]. split; [vm_compute; reflexivity|]. split; [reflexivity|]. split; [reflexivity|].
  split; [apply qexec_runs; vm_compute; reflexivity|]. split; [reflexivity|]. split; [reflexivity|]. split; [reflexivity|]. split; [reflexivity|].
  eexists. split; vm_compute; reflexivity.
Qed.

(** A callback within a callback: three calls of which the innermost is counted first. *)
Example C83_nested_example : exists q,
  qruns false qinit ([QOp (ONewMock [sig_void]); QOp (OExpect 0 0 [] [ClTimes (TxExactly 3)] here); QCall 0 0 [] here; QCall 0 0 [] here;
    QCall 0 0 [] there; QReturn; QOp OFinal; QOp (OReturn (UOk (VInt 0))); QReturn; QOp OFinal; QOp (OReturn (UOk (VInt 0))); QReturn]) q /\
  q_stack q = [] /\ map (fun c => ci_loc (snd c)) (q_log q) = [there; here; here] /\ length (w_frames (qw q)) = 1.
Proof. eexists. split; [apply qexec_runs; vm_compute; reflexivity|]. repeat split; vm_compute; reflexivity. Qed.

(** A callback returns only when its own calls are over and without exceptions in flight. *)
Example C83_callback_ends : exists q q', 
  qexec false qinit (start ++ [QCall 0 0 [] here; QOp (OUnwind 1)]) = Some q /\ qstep false q QReturn = QInvalid /\
  qexec false qinit (logging ++ [QCall 1 0 [] there; QReturn]) = Some q' /\ qstep false q' QReturn = QInvalid /\
  qstep false qinit QReturn = QInvalid /\ qstep false qinit QThrow = QInvalid /\ qstep false q (QOp (OCall 0 0 [] here)) = QInvalid /\
  qstep false q (QCall 0 0 [VInt 1] here) = QInvalid.
Proof.
  eexists _, _. split; [vm_compute; reflexivity|]. split; [vm_compute; reflexivity|]. split; [vm_compute; reflexivity|].
  repeat split; vm_compute; reflexivity.
Qed.

Print Assumptions C83_callbacks_are_threads.
Print Assumptions C83_counted_calls_were_accepted.
Print Assumptions C83_count_is_exact.
Print Assumptions C83_limit_with_asserts.
Print Assumptions C83_sequences_in_order.
Print Assumptions C83_harmless_callback.
Print Assumptions C83_quiet_callback.
Print Assumptions C83_conservative.
Print Assumptions C83_limit_refuted.
Print Assumptions C83_assert_refuted.
Print Assumptions C83_scope_ended_refuted.
Print Assumptions C83_throwing_callback.
