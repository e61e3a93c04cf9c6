(** * PropReference: C78, the library behaves like the reference machine, whose state is what the user declared and what was reported. *)

From Verif Require Import Base Lib Sequence Control Signature Printer Reports Expectation Builder World WorldSpec WorldInv ObjInv
  CountProofs Scenario Reference RefProofs.

(** Every operation of the library in every reachable state does what the reference machine does: same outcome (going on with the same
    result, std::terminate, the same undefined behaviour, or not compiling), and states which correspond again. *)
Theorem C78_operation w o : reachable w -> forget_stepped (step w o) = ref_step (forget w) o.
Proof. exact (step_forget w o). Qed.

Lemma observed_ref w ops : reachable w -> observed w ops = ref_play (forget w) ops.
Proof.
  revert w. induction ops as [|o ops IH]; intros w Hr; [reflexivity|]. cbn [observed ref_play]. rewrite <- (step_forget w o Hr).
  destruct (step w o) as [w' res| | |] eqn:E; cbn [forget_stepped]; auto. rewrite IH; auto.
  destruct Hr as [ops0 Hr]. exists (ops0 ++ [o]). eapply run_app; eauto. econstructor; eauto. constructor.
Qed.

(** A whole program shows the same: the results of its operations, the way it ends, and everything that was reported. *)
Theorem C78_program ops : observed init ops = ref_play ref_init ops.
Proof. apply (observed_ref init). exists []. constructor. Qed.

(** The same for the rest of a program. *)
Theorem C78_continuation w ops : reachable w -> observed w ops = ref_play (forget w) ops.
Proof. exact (observed_ref w ops). Qed.

(** Executions of the reference machine. *)
Inductive ref_run : rworld -> list op -> rworld -> Prop :=
| ref_nil r : ref_run r [] r
| ref_cons r o r1 res ops r2 : ref_step r o = RNext r1 res -> ref_run r1 ops r2 -> ref_run r (o :: ops) r2.

Lemma run_ref w ops w' : reachable w -> run w ops w' -> ref_run (forget w) ops (forget w').
Proof.
  intros Hr H. revert Hr. induction H as [|w o w1 r ops w2 Hs H IH]; intros Hr; [constructor|].
  apply (ref_cons _ _ (forget w1) r); [rewrite <- (step_forget w o Hr), Hs; reflexivity|]. apply IH.
  destruct Hr as [ops0 Hr]. exists (ops0 ++ [o]). eapply run_app; eauto. econstructor; eauto. constructor.
Qed.

Lemma ref_run_back ops : forall w r, reachable w -> ref_run (forget w) ops r -> exists w', run w ops w' /\ forget w' = r.
Proof.
  induction ops as [|o ops IH]; intros w r Hr H; inversion H; subst; [exists w; split; auto; constructor|].
  match goal with E : ref_step (forget w) o = _ |- _ => rewrite <- (step_forget w o Hr) in E end.
  destruct (step w o) as [w1 res1| | |] eqn:E; cbn [forget_stepped] in *; try discriminate.
  match goal with E : RNext _ _ = RNext _ _ |- _ => inversion E; subst end.
  destruct (IH w1 r) as (w' & Hrun & E'); auto.
  - destruct Hr as [ops0 Hr]. exists (ops0 ++ [o]). eapply run_app; eauto. econstructor; eauto. constructor.
  - exists w'. split; auto. econstructor; eauto.
Qed.

(** The reachable states of the two machines are the same, up to the data structures. *)
Theorem C78_reachable_states ops r : ref_run ref_init ops r <-> exists w, run init ops w /\ forget w = r.
Proof.
  split.
  - apply (ref_run_back ops init). exists []. constructor.
  - intros (w & H & <-). apply (run_ref init); auto. exists []. constructor.
Qed.

(** The data structures hold nothing else: two programs which made the same objects and were told the same reports cannot be told apart
    by anything done afterwards. *)
Theorem C78_history_suffices w1 w2 ops :
  reachable w1 -> reachable w2 -> forget w1 = forget w2 -> observed w1 ops = observed w2 ops.
Proof. intros H1 H2 E. rewrite (observed_ref w1), (observed_ref w2) by auto. rewrite E. reflexivity. Qed.

(** ** Examples *)

(** What the reports are about, for short. *)
Inductive told : Type := Matched (e : nat) | Rejected_by (es : list nat) | Inapplicable (es : list nat) | Missed (e : nat)
| Broken (who : list nat) | Threw (e : nat) | Did (e n : nat) | Finalized (e : nat) | Installed (n : nat) | Other.
Definition tell (ev : event) : told :=
  match ev with
  | EvReport _ (RFull _ _) [e] => Matched e
  | EvReport _ (RNoMatch _ _) es => Rejected_by es
  | EvReport _ (RInapplicable _ _) es => Inapplicable es
  | EvReport _ (RUnfulfilled _) [e] => Missed e
  | EvReport _ (RError _ _) who => Broken who
  | EvReport _ (RUnhandled _ _ _) [e] => Threw e
  | EvReport _ _ _ => Other
  | EvAction e n => Did e n
  | EvFinal e => Finalized e
  | EvInstall n => Installed n
  end.
Definition summary (x : list result * ending * list event) := let '(rs, e, evs) := x in (rs, e, map tell evs).

Definition ex (h : nat) (cls : list clause) : op := OExpect h 0 [m_any] (cls ++ [ClFinal (FReturns (VInt 7))]) here.
Definition call (h : nat) (z : Z) : op := OCall h 0 [VInt z] there.
Definition done : list op := [OFinal; OReturn (UOk VOpaque)].

(** Two expectations of one sequence, the first of which may be left out. *)
Definition pair_in (st : strategy) : list op :=
  [ONewSeq st; ONewMock [sig_int]; ex 0 [ClSeq [0]; ClTimes (TxRange 0 2); ClPolicy (PSideEffect 3)]; ex 0 [ClSeq [0]]].

(** The lazy sequence stays at the first one, and goes on when it is exhausted; a call beyond fails. *)
Example lazy_pair : summary (ref_play ref_init
    (pair_in Lazy ++ [call 0 1; OAction] ++ done ++ [call 0 2; OAction] ++ done ++ [call 0 3] ++ done ++ [call 0 4; OSatisfied 0; OEndScope 1; OEndScope 0; ODropSeq 0])) =
  (repeat RUnit 4 ++ [RUnit; RUnit; RUnit; RVal (Some (VInt 7)); RUnit; RUnit; RUnit; RVal (Some (VInt 7)); RUnit; RUnit; RVal (Some (VInt 7))] ++
   [RThrow EReporter; RBool true; RUnit; RUnit; RUnit], Completed,
   [Matched 0; Did 0 3; Finalized 0; Matched 0; Did 0 3; Finalized 0; Matched 1; Finalized 1; Inapplicable [1; 0]]).
Proof. vm_compute. reflexivity. Qed.

(** The greedy one goes on at once. *)
Example greedy_pair : summary (ref_play ref_init
    (pair_in Greedy ++ [call 0 1] ++ done ++ [call 0 2; OEndScope 0; OEndScope 1; ODropSeq 0])) =
  (repeat RUnit 4 ++ [RUnit; RUnit; RVal (Some (VInt 7)); RThrow EReporter; RUnit; RUnit; RUnit], Completed,
   [Matched 1; Finalized 1; Inapplicable [1; 0]]).
Proof. vm_compute. reflexivity. Qed.

(** Missing calls are reported; while the sequence dies the exception of the reporter ends the program. *)
Example missing_calls :
  summary (ref_play ref_init (pair_in Lazy ++ [OEndScope 0; OEndScope 1; ODropSeq 0])) =
    (repeat RUnit 5 ++ [RThrow EReporter], Terminated, [Missed 1]) /\
  summary (ref_play ref_init (pair_in Lazy ++ [OUnwind 1; OEndScope 0; OEndScope 1; ODropSeq 0; OSatisfied 0])) =
    (repeat RUnit 8, Rejected, [Missed 1; Broken [0]]) /\
  summary (ref_play ref_init (pair_in Lazy ++ [OMoveMock 0; call 0 1])) = (repeat RUnit 5, Undefined UbNull, []).
Proof. split; [vm_compute; reflexivity|]. split; vm_compute; reflexivity. Qed.

(** Limits and sequences are checked; the expectation which throws during matching is told and passed over. *)
Example checked :
  summary (ref_play ref_init
    (pair_in Greedy ++ [ex 0 [ClSeq [0; 0]]; ex 0 [ClTimes (TxRange 3 2)]; OExpect 0 0 [m_throws 4] [ClFinal FAction] here; call 0 5])) =
    (repeat RUnit 4 ++ [RThrow EInvalidArgument; RThrow EInvalidArgument; RUnit; RUnit], Completed, [Threw 2; Matched 1]) /\
  summary (ref_play ref_init (pair_in Greedy ++ [OExpect 0 0 [m_eq 3] [] here])) = (repeat RUnit 4, Rejected, []).
Proof. split; vm_compute; reflexivity. Qed.

(** The library itself, on the same program. *)
Example library_shows_it : summary (observed init (pair_in Greedy ++ [call 0 1] ++ done ++ [call 0 2; OEndScope 0; OEndScope 1; ODropSeq 0])) =
  (repeat RUnit 4 ++ [RUnit; RUnit; RVal (Some (VInt 7)); RThrow EReporter; RUnit; RUnit; RUnit], Completed,
   [Matched 1; Finalized 1; Inapplicable [1; 0]]).
Proof. rewrite C78_program. exact greedy_pair. Qed.

(** Different programs which made the same objects: a refused expectation leaves nothing behind, the order of a mock and a sequence is
    irrelevant. The states have cursors and counters (of which the reference knows nothing). *)
Definition roundabout : list op :=
  [ONewMock [sig_int]; ONewSeq Lazy; ex 0 [ClSeq [0; 0]]; OUnwind 3; ex 0 [ClSeq [0]; ClTimes (TxRange 0 2); ClPolicy (PSideEffect 3)];
   OSatisfied 0; ex 0 [ClSeq [0]]; OUnwind 0; call 0 1; OAction] ++ done ++ [call 0 2; OAction] ++ done ++ [call 0 3].
Definition direct : list op := pair_in Lazy ++ [call 0 1; OAction] ++ done ++ [call 0 2; OAction] ++ done ++ [call 0 3].
Example same_history :
  reachable (after direct) /\ reachable (after roundabout) /\ forget (after direct) = forget (after roundabout) /\
  map (fun q => (s_cursor q, s_entries q)) (w_seqs (after direct)) = [(1, [Saturated; Satisfied])] /\
  map (fun x => c_count (e_ctl (eo_exp x))) (w_exps (after direct)) = [2; 1]%Z.
Proof.
  split; [apply after_reachable; vm_compute; reflexivity|]. split; [apply after_reachable; vm_compute; reflexivity|].
  split; [vm_compute; reflexivity|]. split; vm_compute; reflexivity.
Qed.

Print Assumptions C78_operation.
Print Assumptions C78_program.
Print Assumptions C78_continuation.
Print Assumptions C78_reachable_states.
Print Assumptions C78_history_suffices.
