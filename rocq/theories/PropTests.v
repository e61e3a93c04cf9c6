(** * PropTests: C76, a test passes exactly if its calls are those which its expectations ask for. *)

From Coq Require Import Permutation.
From Verif Require Import Base Lib Sequence Control Signature Printer Reports Expectation Builder World WorldSpec CallSpec
  CountProofs Scenario TestSpec TestProofs ProgramProofs.

(** No call of a test which passes is taken by chance: whatever the strategies of the sequences, the matchers and the newer expectations
    which hide older ones, the calls can be distributed to the expectations within their limits and in the order of every sequence. *)
Theorem C76_passed_test_conforms w ops w' :
  reachable w -> fresh w -> Forall (fun o => body_op o = true) ops -> passing w ops w' -> fulfilled w' -> conforms w (calls_of ops).
Proof. exact (passing_conforms w ops w'). Qed.

(** Conversely, if no call may be taken by two expectations, every next call of a conforming test is accepted. *)
Theorem C76_conforming_call_accepted w ops w1 c rest :
  set_up w -> Forall (fun o => body_op o = true) ops -> run w ops w1 ->
  unambiguous w (calls_of ops ++ c :: rest) -> conforms w (calls_of ops ++ c :: rest) ->
  exists w2, step w1 (call_op c) = Next w2 RUnit.
Proof.
  intros H0 Hb Hrun Hu Hc. pose proof H0 as (Hr & _ & Hf & _).
  destruct (conforming_run w w [] [] ops w1 H0 (progress_init _ Hr Hf) Hb) as [_ (es & Hp)]; auto.
  { exists (c :: rest). auto. }
  eapply next_call_passes; eauto.
Qed.

(** A whole test, with the destruction of its expectations (in any order, also by moves). *)
Theorem C76_test_passes_iff_conforms w ops w1 ends w2 :
  set_up w -> Forall (fun o => body_op o = true) ops -> unambiguous w (calls_of ops) ->
  run w ops w1 -> calls_of ends = [] -> run w1 ends w2 -> torn_down w w2 ->
  (passing w ops w1 /\ nothing_missed w w2) <-> conforms w (calls_of ops).
Proof.
  intros H0 Hb Hu Hrun He Hends Ht. pose proof H0 as (Hr & _ & Hf & _).
  assert (E : fulfilled w1 <-> nothing_missed w w2).
  { apply (fulfilled_silent w w1 ends w2); auto; [eapply reachable_run; eauto|eapply body_same_setup; eauto]. }
  split.
  - intros [Hp Hn]. apply E in Hn. eapply passing_conforms; eauto.
  - intros Hc. destruct (conforms_fulfilled w ops w1 H0 Hb Hu Hc Hrun) as [Hp Hful]. split; auto. apply E. exact Hful.
Qed.

(** The failing direction needs no unambiguity: a test which does not conform fails in a call or is reported at its end. *)
Theorem C76_nonconforming_test_fails w ops w1 ends w2 :
  set_up w -> Forall (fun o => body_op o = true) ops -> run w ops w1 -> calls_of ends = [] -> run w1 ends w2 -> torn_down w w2 ->
  ~ conforms w (calls_of ops) -> ~ passing w ops w1 \/ exists e, e < length (w_exps w) /\ unfulfilled_reports (w_trace w2) e <> 0.
Proof.
  intros H0 Hb Hrun He Hends Ht Hn. pose proof H0 as (Hr & _ & Hf & _).
  assert (E : fulfilled w1 <-> nothing_missed w w2).
  { apply (fulfilled_silent w w1 ends w2); auto; [eapply reachable_run; eauto|eapply body_same_setup; eauto]. }
  destruct (forallb (fun e => unfulfilled_reports (w_trace w2) e =? 0) (seq 0 (length (w_exps w)))) eqn:D.
  - left. intros Hp. apply Hn. eapply passing_conforms; eauto. apply E. intros e Hlt. rewrite forallb_forall in D.
    apply Nat.eqb_eq. apply D. apply in_seq. lia.
  - right. apply not_true_iff_false in D. rewrite forallb_forall in D.
    assert (G : exists e, In e (seq 0 (length (w_exps w))) /\ (unfulfilled_reports (w_trace w2) e =? 0) = false).
    { clear -D. induction (seq 0 (length (w_exps w))) as [|a l IH]; [exfalso; apply D; contradiction|].
      destruct (unfulfilled_reports (w_trace w2) a =? 0) eqn:A; [|exists a; split; [left|]; auto].
      destruct IH as (e & H1 & H2); [|exists e; split; [right|]; auto]. intros H. apply D. intros x [<-|Hx]; auto. }
    destruct G as (e & H1 & H2). exists e. apply in_seq in H1. apply Nat.eqb_neq in H2. split; [lia|auto].
Qed.

(** Without common sequences the order of the calls does not matter. *)
Theorem C76_order_irrelevant w calls calls' :
  no_shared_sequence w -> Permutation calls calls' -> (conforms w calls <-> conforms w calls').
Proof.
  intros Hn Hp. split; apply conforms_permutation; auto. apply Permutation_sym. auto.
Qed.

(** If all expectations are attached to one sequence, the calls are a word of the regular expression of the expectations. *)
Theorem C76_one_sequence w s calls : all_in_sequence w s -> (conforms w calls <-> in_blocks w calls).
Proof. exact (conforms_blocks w s calls). Qed.

(** ** Whole programs

    Expectations may be created between the calls, end early and be moved; mocks and sequences may come and go; other reporters may be
    installed; exceptions may be in flight. If nothing but full matches and exceptions of matchers was reported, the calls can be distributed
    to expectations which were alive at that time and could take them, within the limits of all expectations and in the order of all sequences. *)
Theorem C76_program_without_failure_conforms ops w :
  run init ops w -> all_ended w -> all_describe w -> no_failure w -> program_conforms ops w.
Proof. exact (silent_conforms ops w). Qed.

(** And conversely, if at no time a call may be taken by two expectations. *)
Theorem C76_program_passes_iff_conforms ops w :
  run init ops w -> all_ended w -> all_describe w -> contracts ops -> program_unambiguous ops ->
  (no_failure w <-> program_conforms ops w).
Proof.
  intros H He Hd Hc Hu. split; [apply silent_conforms; auto|apply conforms_silent; auto].
Qed.

(** Then the library makes the same distribution: every expectation has accepted the calls given to it. *)
Theorem C76_program_distribution ops es w :
  handed init ops es w -> ordered w es -> within_limits w es -> all_describe w -> contracts ops -> program_unambiguous ops ->
  forall e, accepted (w_trace w) e = times_taken es e.
Proof.
  intros H Ho Hl Hd Hcon Hu. destruct (conforming_accepted init ops es w H [] counted_init Ho Hl Hcon) as [(_ & _ & Ha) _]; auto.
  - repeat split; simpl; discriminate.
  - intros ev [].
Qed.

(** ** Without unambiguity: no backtracking *)

Definition call1 (z : Z) : call_expr := mkCallExpr 0 0 [VInt z] here.

(** A lazy sequence: the first expectation takes the call which the second one needs. *)
Definition setup_lazy : list op :=
  [ONewSeq Lazy; ONewMock [sig_unary]; OExpect 0 0 [m_any] [ClSeq [0]; ClTimes (TxAtMost 2)] here; OExpect 0 0 [m_eq 7] [ClSeq [0]] there].
(** A greedy sequence: the second expectation takes the first of the two calls; then the first one is over. *)
Definition setup_greedy : list op :=
  [ONewSeq Greedy; ONewMock [sig_unary]; OExpect 0 0 [m_eq 7] [ClSeq [0]; ClTimes (TxAtMost 1)] here; OExpect 0 0 [m_eq 7] [ClSeq [0]] there].
(** No sequence: the newer expectation takes the call which the older one needs. *)
Definition setup_newer : list op :=
  [ONewMock [sig_unary]; OExpect 0 0 [m_any] [] here; OExpect 0 0 [m_eq 7] [ClTimes (TxAtMost 1)] there].

Theorem C76_ambiguous_lazy_refuted :
  exists w ops w', set_up w /\ Forall (fun o => body_op o = true) ops /\ run w ops w' /\ conforms w (calls_of ops) /\
    passing w ops w' /\ ~ fulfilled w'.
Proof.
  exists (after setup_lazy), [call_op (call1 7)], (after (setup_lazy ++ [call_op (call1 7)])).
  assert (S : step (after setup_lazy) (call_op (call1 7)) = Next (after (setup_lazy ++ [call_op (call1 7)])) RUnit) by (vm_compute; reflexivity).
  split; [apply set_up_check; [apply after_reachable| | |]; vm_compute; reflexivity|]. split; [repeat constructor|].
  split; [eapply run_one; exact S|]. split; [apply (conforms_check _ _ [1]); vm_compute; reflexivity|].
  split; [econstructor; [exact S|reflexivity|constructor]|].
  intros H. specialize (H 1). destruct (nth_error (w_exps (after (setup_lazy ++ [call_op (call1 7)]))) 1) as [x|] eqn:E; [|vm_compute in E; discriminate].
  specialize (H x E). assert (M : x_min x = 1%Z) by (vm_compute in E; inversion E; reflexivity). rewrite M in H. vm_compute in H. apply H. reflexivity.
Qed.

Theorem C76_ambiguous_greedy_refuted :
  exists w ops w', set_up w /\ Forall (fun o => body_op o = true) ops /\ run w ops w' /\ conforms w (calls_of ops) /\
    ~ passing w ops w'.
Proof.
  set (ops := [call_op (call1 7); call_op (call1 7)]).
  exists (after setup_greedy), ops, (after (setup_greedy ++ ops)).
  assert (S1 : step (after setup_greedy) (call_op (call1 7)) = Next (after (setup_greedy ++ [call_op (call1 7)])) RUnit) by (vm_compute; reflexivity).
  assert (S2 : step (after (setup_greedy ++ [call_op (call1 7)])) (call_op (call1 7)) = Next (after (setup_greedy ++ ops)) (RThrow EReporter))
    by (vm_compute; reflexivity).
  split; [apply set_up_check; [apply after_reachable| | |]; vm_compute; reflexivity|]. split; [repeat constructor|].
  split; [econstructor; [exact S1|]; eapply run_one; exact S2|]. split; [apply (conforms_check _ _ [0; 1]); vm_compute; reflexivity|].
  exact (passing_second_fails _ _ _ _ _ _ _ _ S1 S2 ltac:(discriminate)).
Qed.

Theorem C76_ambiguous_newer_refuted :
  exists w ops w', set_up w /\ no_shared_sequence w /\ Forall (fun o => body_op o = true) ops /\ run w ops w' /\ conforms w (calls_of ops) /\
    passing w ops w' /\ ~ fulfilled w'.
Proof.
  exists (after setup_newer), [call_op (call1 7)], (after (setup_newer ++ [call_op (call1 7)])).
  assert (S : step (after setup_newer) (call_op (call1 7)) = Next (after (setup_newer ++ [call_op (call1 7)])) RUnit) by (vm_compute; reflexivity).
  split; [apply set_up_check; [apply after_reachable| | |]; vm_compute; reflexivity|].
  split. { intros a b x y s Ha _ Hs _. exfalso. destruct a as [|[|a]]; vm_compute in Ha; inversion Ha; subst; try contradiction. destruct a; discriminate. }
  split; [repeat constructor|].
  split; [eapply run_one; exact S|]. split; [apply (conforms_check _ _ [0]); vm_compute; reflexivity|].
  split; [econstructor; [exact S|reflexivity|constructor]|].
  intros H. specialize (H 0). destruct (nth_error (w_exps (after (setup_newer ++ [call_op (call1 7)]))) 0) as [x|] eqn:E; [|vm_compute in E; discriminate].
  specialize (H x E). assert (M : x_min x = 1%Z) by (vm_compute in E; inversion E; reflexivity). rewrite M in H. vm_compute in H. apply H. reflexivity.
Qed.

(** ** Examples *)

(** Two mocks, a lazy and a greedy sequence and an expectation of both; 7 twice, then at most one call of the second mock, then 9; 5 at any
    time. *)
Definition setup_test : list op :=
  [ONewSeq Lazy; ONewSeq Greedy; ONewMock [sig_unary]; ONewMock [sig_void];
   OExpect 0 0 [m_eq 7] [ClSeq [0]; ClTimes (TxExactly 2)] here;
   OExpect 1 0 [] [ClSeq [0; 1]; ClTimes (TxAtMost 1)] there;
   OExpect 0 0 [m_eq 9] [ClSeq [1]; ClTimes (TxAtLeast 1)] there;
   OExpect 0 0 [m_eq 5] [] there].
Definition complete (c : call_expr) : list op := [call_op c; OFinal; OReturn (UOk (VInt 0))].
Definition call2 : call_expr := mkCallExpr 1 0 [] here.
Definition body_good : list op := flat_map complete [call1 7; call1 5; call1 7; call2; call1 9; call1 9].
Definition ends : list op := [OEndScope 2; OEndScope 0; OEndScope 3; OEndScope 1].

Lemma unambiguous_test : unambiguous (after setup_test) (calls_of body_good).
Proof. apply unambiguous_b_sound. vm_compute. reflexivity. Qed.

Example C76_example :
  set_up (after setup_test) /\ unambiguous (after setup_test) (calls_of body_good) /\
  conforms (after setup_test) (calls_of body_good) /\
  run (after setup_test) body_good (after (setup_test ++ body_good)) /\
  run (after (setup_test ++ body_good)) ends (after (setup_test ++ body_good ++ ends)) /\
  torn_down (after setup_test) (after (setup_test ++ body_good ++ ends)) /\
  map (unfulfilled_reports (w_trace (after (setup_test ++ body_good ++ ends)))) [0; 1; 2; 3] = [0; 0; 0; 0] /\
  map (accepted (w_trace (after (setup_test ++ body_good ++ ends)))) [0; 1; 2; 3] = [2; 1; 2; 1].
Proof.
  split; [apply set_up_check; [apply after_reachable| | |]; vm_compute; reflexivity|]. split; [exact unambiguous_test|].
  split; [apply (conforms_check _ _ [0; 3; 0; 1; 2; 2]); vm_compute; reflexivity|].
  split; [apply (exec_run _ _ _ (concat (repeat [RUnit; RUnit; RVal None] 6))); vm_compute; reflexivity|].
  split; [apply (exec_run _ _ _ (repeat RUnit 4)); vm_compute; reflexivity|]. split.
  - intros e x Hx _. destruct e as [|[|[|[|e]]]]; vm_compute in Hx; inversion Hx; subst; try reflexivity. destruct e; discriminate.
  - split; vm_compute; reflexivity.
Qed.

(** The conforming and non-conforming order in one sequence: 7 7 9 is a word of 7{2} 9{1}, 7 9 7 is not. *)
Definition setup_one : list op :=
  [ONewSeq Lazy; ONewMock [sig_unary]; OExpect 0 0 [m_eq 7] [ClSeq [0]; ClTimes (TxExactly 2)] here; OExpect 0 0 [m_eq 9] [ClSeq [0]] there].
Example C76_one_sequence_example :
  all_in_sequence (after setup_one) 0 /\ in_blocks (after setup_one) [call1 7; call1 7; call1 9] /\
  ~ conforms (after setup_one) [call1 7; call1 9; call1 7].
Proof.
  assert (A : all_in_sequence (after setup_one) 0).
  { intros e x Hx. destruct e as [|[|e]]; vm_compute in Hx; inversion Hx; subst; try (vm_compute; auto). destruct e; discriminate. }
  split; [exact A|]. split; [apply (C76_one_sequence _ 0 _ A); apply (conforms_check _ _ [0; 0; 1]); vm_compute; reflexivity|].
  intros (es & He & Ho & _).
  assert (T : forall z e, takes (after setup_one) (call1 z) e -> (z = 7%Z -> e = 0) /\ (z = 9%Z -> e = 1)).
  { intros z e H. apply takes_b_iff in H. split; intros ->; destruct e as [|[|e]]; auto; vm_compute in H; try discriminate; destruct e; discriminate. }
  inversion He as [|? a ? ? T1 H1]; subst. inversion H1 as [|? b ? ? T2 H2]; subst. inversion H2 as [|? c ? ? T3 H3]; subst. inversion H3; subst.
  apply T in T1. apply T in T2. apply T in T3. rewrite (proj1 T1 eq_refl), (proj2 T2 eq_refl), (proj1 T3 eq_refl) in Ho.
  destruct (nth_error (w_exps (after setup_one)) 0) as [x|] eqn:Hx; [|vm_compute in Hx; discriminate].
  destruct (nth_error (w_exps (after setup_one)) 1) as [y|] eqn:Hy; [|vm_compute in Hy; discriminate].
  pose proof (Ho [0] 1 [] 0 [] 0 y x eq_refl Hy Hx (A _ _ Hy) (A _ _ Hx)). lia.
Qed.

(** Without sequences. *)
Example C76_order_example :
  no_shared_sequence (after setup_newer) /\ conforms (after setup_newer) [call1 3; call1 7] /\ conforms (after setup_newer) [call1 7; call1 3].
Proof.
  split. { intros a b x y s Ha _ Hs _. exfalso. destruct a as [|[|a]]; vm_compute in Ha; inversion Ha; subst; try contradiction. destruct a; discriminate. }
  split; [apply (conforms_check _ _ [0; 1])|apply (conforms_check _ _ [1; 0])]; vm_compute; reflexivity.
Qed.
Definition body_bad : list op := map call_op [call1 7; call1 9; call1 7].
Definition ends_one : list op := [OEndScope 1; OEndScope 0].
Example C76_nonconforming_example :
  set_up (after setup_one) /\ ~ conforms (after setup_one) (calls_of body_bad) /\
  run (after setup_one) body_bad (after (setup_one ++ body_bad)) /\
  run (after (setup_one ++ body_bad)) ends_one (after (setup_one ++ body_bad ++ ends_one)) /\
  torn_down (after setup_one) (after (setup_one ++ body_bad ++ ends_one)) /\
  map (unfulfilled_reports (w_trace (after (setup_one ++ body_bad ++ ends_one)))) [0; 1] = [0; 1].
Proof.
  split; [apply set_up_check; [apply after_reachable| | |]; vm_compute; reflexivity|]. split; [exact (proj2 (proj2 C76_one_sequence_example))|].
  split; [apply (exec_run _ _ _ [RUnit; RThrow EReporter; RUnit]); vm_compute; reflexivity|].
  split; [apply (exec_run _ _ _ [RThrow EReporter; RUnit]); vm_compute; reflexivity|]. split.
  - intros e x Hx _. destruct e as [|[|e]]; vm_compute in Hx; inversion Hx; subst; try reflexivity. destruct e; discriminate.
  - vm_compute. reflexivity.
Qed.

(** A program in which the second expectation of the sequence is created after the first call, a fulfilled expectation ends early, the mock is
    moved between the calls, and a third expectation is created after the end of the first. *)
Definition prog_mixed (calls : list call_expr) : list op :=
  match calls with
  | [a; b; c] =>
      [ONewSeq Greedy; ONewMock [sig_unary]; OExpect 0 0 [m_eq 7] [ClSeq [0]] here] ++ complete a ++
      [OExpect 0 0 [m_eq 9] [ClSeq [0]; ClTimes (TxAtMost 1)] there; OEndScope 0; OMoveMock 0; OExpect 1 0 [m_eq 7] [ClSeq [0]] there] ++
      complete b ++ complete c ++ [OEndScope 2; ODropSeq 0; OEndScope 1; ODestroyMock 1]
  | _ => []
  end.
Definition on_moved (z : Z) : call_expr := mkCallExpr 1 0 [VInt z] here.
Definition prog_good : list op := prog_mixed [call1 7; on_moved 9; on_moved 7].
Example C76_program_example :
  run init prog_good (after prog_good) /\ all_ended (after prog_good) /\ all_describe (after prog_good) /\ contracts prog_good /\
  program_unambiguous prog_good /\ program_conforms prog_good (after prog_good) /\ no_failure (after prog_good) /\
  map (accepted (w_trace (after prog_good))) [0; 1; 2] = [1; 1; 1].
Proof.
  split; [apply after_run; vm_compute; reflexivity|]. split; [apply ended_check; vm_compute; reflexivity|].
  split; [apply describes_check; vm_compute; reflexivity|]. split; [apply contracts_check; vm_compute; reflexivity|].
  split; [apply program_unambiguous_check; vm_compute; reflexivity|].
  split; [apply (program_conforms_check _ [0; 1; 2]); vm_compute; reflexivity|].
  split; [apply no_failure_check|]; vm_compute; reflexivity.
Qed.

(** The same with the last two calls swapped (the second of them fails), while the end of all scopes is reached in both cases. *)
Definition prog_swapped : list op :=
  [ONewSeq Greedy; ONewMock [sig_unary]; OExpect 0 0 [m_eq 7] [ClSeq [0]] here] ++ complete (call1 7) ++
  [OExpect 0 0 [m_eq 9] [ClSeq [0]; ClTimes (TxAtMost 1)] there; OEndScope 0; OMoveMock 0; OExpect 1 0 [m_eq 7] [ClSeq [0]] there] ++
  complete (on_moved 7) ++ [call_op (on_moved 9); OEndScope 2; ODropSeq 0; OEndScope 1; ODestroyMock 1].
Example C76_program_swapped :
  run init prog_swapped (after prog_swapped) /\ all_ended (after prog_swapped) /\ all_describe (after prog_swapped) /\ contracts prog_swapped /\
  program_unambiguous prog_swapped /\ ~ no_failure (after prog_swapped) /\ ~ program_conforms prog_swapped (after prog_swapped).
Proof.
  assert (R : run init prog_swapped (after prog_swapped)) by (apply after_run; vm_compute; reflexivity).
  assert (E : all_ended (after prog_swapped)) by (apply ended_check; vm_compute; reflexivity).
  assert (D : all_describe (after prog_swapped)) by (apply describes_check; vm_compute; reflexivity).
  assert (C : contracts prog_swapped) by (apply contracts_check; vm_compute; reflexivity).
  assert (U : program_unambiguous prog_swapped) by (apply program_unambiguous_check; vm_compute; reflexivity).
  assert (N : ~ no_failure (after prog_swapped)).
  { intros H. apply no_failure_check in H. vm_compute in H. discriminate. }
  split; [exact R|]. split; [exact E|]. split; [exact D|]. split; [exact C|]. split; [exact U|]. split; [exact N|].
  intros H. apply N. apply (C76_program_passes_iff_conforms _ _ R E D C U). exact H.
Qed.

Print Assumptions C76_program_without_failure_conforms.
Print Assumptions C76_program_passes_iff_conforms.
Print Assumptions C76_program_distribution.
Print Assumptions C76_passed_test_conforms.
Print Assumptions C76_conforming_call_accepted.
Print Assumptions C76_test_passes_iff_conforms.
Print Assumptions C76_nonconforming_test_fails.
Print Assumptions C76_order_irrelevant.
Print Assumptions C76_one_sequence.
Print Assumptions C76_ambiguous_lazy_refuted.
Print Assumptions C76_ambiguous_greedy_refuted.
Print Assumptions C76_ambiguous_newer_refuted.
