(** * ExamplesOfRepo: the programs of /repo/examples, executed in the model

    No claim rests on this file. The comments of the examples say which expectation takes which call; that the model does the same is
    evidence that it is the one of the code. *)

From Verif Require Import Base Sequence Control Signature Printer Reports Expectation Builder World Scenario.
From Verif Require Actions Watcher.

(** The expectations which took calls, in order. *)
Definition takers (w : world) : list nat :=
  flat_map (fun ev => match ev with EvReport _ (RFull _ _) who => who | _ => [] end) (w_trace w).
Definition is_failure (ev : event) : bool := match ev with EvReport _ (RFull _ _) _ => false | EvReport _ _ _ => true | _ => false end.
(** The failures a program reports (and throws). *)
Definition failures (w : world) : nat := length (filter is_failure (w_trace w)).
Definition values (rs : list result) : list val := flat_map (fun r => match r with RVal (Some v) => [v] | _ => [] end) rs.
Definition exceptions (rs : list result) : list exn := flat_map (fun r => match r with RThrow x => [x] | _ => [] end) rs.

(** A call which runs to its end; [n]: the number of its side effects. *)
Definition complete (n m ov : nat) (args : list val) (user : ures val) : list op :=
  OCall m ov args here :: repeat OAction n ++ [OFinal; OReturn user].
Definition call_ (m : nat) (z : Z) : list op := complete 0 m 0 [VInt z] (UOk (VInt 0)).
Definition call0 (m : nat) : list op := complete 0 m 0 [] (UOk (VInt 0)).
(** The end of the scope: the expectations, sequences and mocks which were created, in reverse order of creation as far as it matters. *)
Definition leave (exps seqs mocks : nat) : list op :=
  map OEndScope (rev (seq 0 exps)) ++ map ODropSeq (rev (seq 0 seqs)) ++ map ODestroyMock (rev (seq 0 mocks)).
(** All goes well: nobody throws, no failure is reported, and the calls are taken by the given expectations. *)
Definition all_well (p : list op) (who : list nat) : Prop :=
  exists w rs, exec init p = Some (w, rs) /\ takers w = who /\ failures w = 0 /\ exceptions rs = [].
Ltac run := eexists; eexists; split; [vm_compute; reflexivity|vm_compute; auto].

Definition on_int (f : Z -> bool) (d : string) : matcher := mkMatcher (fun v => UOk (match v with VInt y => f y | _ => false end)) (UOk d).
Definition m_ne (z : Z) : matcher := on_int (fun y => negb (y =? z)%Z) ("!= " ++ dec_Z z)%string.
Definition m_le (z : Z) : matcher := on_int (fun y => (y <=? z)%Z) ("<= " ++ dec_Z z)%string.
Definition m_gt (z : Z) : matcher := on_int (fun y => (z <? y)%Z) ("> " ++ dec_Z z)%string.
Definition plain (v : val) : ures val := UOk v.

(** ** Sequences.cpp; SequenceT is LazySequence (Sequence.hpp 397). *)

Definition seq_example : list op := [ONewMock [sig_unary]; ONewSeq Lazy; OExpect 0 0 [m_ne 0] [ClSeq [0]] here; OExpect 0 0 [m_le 42] [ClSeq [0]] here].
(** 12-35: "matches the first expectation", "matches the second expectation". *)
Example sequence_two : all_well (seq_example ++ call_ 0 42 ++ call_ 0 0 ++ leave 2 1 1) [0; 1].
Proof. run. Qed.
(** "note: when we change the call order, the sequence would be violated": the call mock(0) is not taken. *)
Example sequence_two_violated :
  exists w rs, exec init (seq_example ++ [OCall 0 0 [VInt 0] here]) = Some (w, rs) /\ takers w = [] /\ failures w = 1 /\ exceptions rs = [EReporter].
Proof. run. Qed.
(** 37-58: two mocks, mock2 must go first. *)
Example sequence_two_mocks :
  all_well ([ONewMock [sig_unary]; ONewMock [sig_unary]; ONewSeq Lazy; OExpect 1 0 [m_any] [ClSeq [0]] here; OExpect 0 0 [m_any] [ClSeq [0]] here]
            ++ call_ 1 42 ++ call_ 0 1337 ++ leave 2 1 2) [0; 1].
Proof. run. Qed.
(** 60-92: mixed. The comments number the expectations from 1. *)
Example sequence_mixed :
  all_well ([ONewMock [sig_unary]; OExpect 0 0 [m_eq 42] [] here; OExpect 0 0 [m_eq 1337] [] here; ONewSeq Lazy; OExpect 0 0 [m_eq 1337] [ClSeq [0]] here;
             OExpect 0 0 [m_eq 1337] [] here; OExpect 0 0 [m_eq 42] [ClSeq [0]] here]
            ++ call_ 0 42 ++ call_ 0 1337 ++ call_ 0 1337 ++ call_ 0 42 ++ call_ 0 1337 ++ leave 5 1 1) [0; 3; 2; 4; 1].
Proof. run. Qed.
(** 94-119: several sequences. *)
Example sequence_multiple :
  all_well ([ONewMock [sig_void]; ONewSeq Lazy; ONewSeq Lazy; OExpect 0 0 [] [ClSeq [0]] here; OExpect 0 0 [] [ClSeq [0; 1]] here; OExpect 0 0 [] [ClSeq [1]] here]
            ++ call0 0 ++ call0 0 ++ call0 0 ++ leave 3 2 1) [0; 1; 2].
Proof. run. Qed.
(** 121-143: lazy. *)
Example sequence_lazy :
  all_well ([ONewMock [sig_void]; ONewSeq Lazy; OExpect 0 0 [] [ClSeq [0]; ClTimes (TxAtMost 1)] here; OExpect 0 0 [] [ClSeq [0]] here]
            ++ call0 0 ++ call0 0 ++ leave 2 1 1) [0; 1].
Proof. run. Qed.
(** 145-167: greedy. "no further call possible, because that would be out of sequence and will lead to an inapplicable match report!" *)
Definition greedy_example : list op :=
  [ONewMock [sig_void]; ONewSeq Greedy; OExpect 0 0 [] [ClSeq [0]; ClTimes (TxAtMost 1)] here; OExpect 0 0 [] [ClSeq [0]] here] ++ call0 0.
Example sequence_greedy : all_well (greedy_example ++ leave 2 1 1) [1].
Proof. run. Qed.
Example sequence_greedy_further :
  exists w rs, exec init (greedy_example ++ [OCall 0 0 [] here]) = Some (w, rs) /\ takers w = [1] /\ exceptions rs = [EReporter] /\
  (exists to c l who rest, rev (w_trace w) = EvReport to (RInapplicable c l) who :: rest).
Proof. eexists; eexists; split; [vm_compute; reflexivity|]. split; [vm_compute; reflexivity|]. split; [vm_compute; reflexivity|]. do 5 eexists. vm_compute. reflexivity. Qed.

(** ** Times.cpp *)

Definition times_example (t : times_expr) (n : nat) : list op := [ONewMock [sig_void]; OExpect 0 0 [] [ClTimes t] here] ++ flat_map (fun _ => call0 0) (seq 0 n).
Definition enough (t : times_expr) (n : nat) : Prop := all_well (times_example t n ++ leave 1 0 1) (repeat 0 n).
(** Too few calls: the end of the expectation throws. Too many: the call throws. *)
Definition not_enough (t : times_expr) (n : nat) : Prop :=
  exists w rs, exec init (times_example t n ++ leave 1 0 1) = Some (w, rs) /\ takers w = repeat 0 n /\ failures w = 1 /\ exceptions rs = [EReporter].
Definition exhausted (t : times_expr) (n : nat) : Prop :=
  exists w rs, exec init (times_example t n ++ [OCall 0 0 [] here]) = Some (w, rs) /\ takers w = repeat 0 n /\ failures w = 1 /\ exceptions rs = [EReporter].
Example once : not_enough TxOnce 0 /\ enough TxOnce 1 /\ exhausted TxOnce 1.
Proof. repeat split; run. Qed.
Example twice : not_enough TxTwice 1 /\ enough TxTwice 2 /\ exhausted TxTwice 2.
Proof. repeat split; run. Qed.
Example at_least : not_enough (TxAtLeast 2) 1 /\ enough (TxAtLeast 2) 2 /\ enough (TxAtLeast 2) 3.
Proof. repeat split; run. Qed.
Example at_most : enough (TxAtMost 2) 1 /\ enough (TxAtMost 2) 2 /\ exhausted (TxAtMost 2) 2.
Proof. repeat split; run. Qed.
Example times_single : not_enough (TxExactly 2) 1 /\ enough (TxExactly 2) 2 /\ exhausted (TxExactly 2) 2.
Proof. repeat split; run. Qed.
Example times_range : not_enough (TxRange 1 3) 0 /\ enough (TxRange 1 3) 1 /\ enough (TxRange 1 3) 2 /\ enough (TxRange 1 3) 3 /\ exhausted (TxRange 1 3) 3.
Proof. repeat split; run. Qed.

(** ** Requirements.cpp *)

Definition required (ms : list matcher) (cls : list clause) (z : Z) : list op := [ONewMock [sig_unary]; OExpect 0 0 ms cls here] ++ call_ 0 z ++ leave 1 0 1.
(** 12-103: matches::eq and the short form, the wildcard, expect::arg, both, inverted, predicate. *)
Example requirements :
  all_well (required [m_eq 42] [] 42) [0] /\ all_well (required [m_any] [] 1337) [0] /\
  all_well (required [m_any] [ClPolicy (PArg 0 (m_gt 42) plain)] 1337) [0] /\
  all_well (required [m_le 1337] [ClPolicy (PArg 0 (m_gt 42) plain)] 1337) [0] /\
  all_well (required [m_any] [ClPolicy (PArg 0 (on_int (fun z => Z.odd z) "passes predicate") plain)] 1337) [0].
Proof. repeat split; run. Qed.

(** ** Finalizers.cpp, as far as World.v describes results *)

Definition sig_get : signature := mkSig 1 [] false false RefNone false.
Definition returned (f : finalizer) (user : ures val) : option (list val * list exn) :=
  match exec init ([ONewMock [sig_get]; OExpect 0 0 [] [ClFinal f] here] ++ complete 0 0 0 [] user) with
  | Some (_, rs) => Some (values rs, exceptions rs)
  | None => None
  end.
Example finalizers :
  (returned (FReturns (VInt 42)) (UOk (VInt 0)) = Some ([VInt 42], [])) /\ (returned (FThrows ERuntimeError) (UOk (VInt 0)) = Some ([], [ERuntimeError])) /\
  (returned FAction (UOk (VInt 1337)) = Some ([VInt 1337], [])).
Proof. repeat split; vm_compute; reflexivity. Qed.

(** ** Finalizers.cpp and SideEffects.cpp, on memory *)

Section Memory.
Import Actions.
(** int{} as the value of moved-from objects. *)
Definition hollow (v : val) : val := v.
Definition read (m : mem) (e : expr) : Z := match e with Prv (VInt z) => z | Lv l | Xv l => match nth_error m l with Some (VInt z) => z | _ => 0%Z end | _ => 0%Z end.
Definition write (l : nat) (z : Z) (m : mem) : mem := upd m l (VInt z).
Definition outcome_value (o : Actions.outcome) : option cres := match o with Returned _ r _ => Some r | _ => None end.
Definition memory_after (o : Actions.outcome) : option mem := match o with Returned _ _ m => Some m | _ => None end.
Definition plus : ufun := fun args m => (URet (Prv (VInt (fold_left Z.add (map (read m) args) 0%Z))), m).
Definition ignored : uresult := URet (Prv (VInt 0)).

(** returns(42); int& from returns(std::ref(myReturn)) and from returns(42): the stored object, which later calls return again. *)
Example returns_value : outcome_value (mock_call hollow [] RetValue [] (FinReturns 0) [] [VInt 42]) = Some (CVal (VInt 42)).
Proof. reflexivity. Qed.
Example returns_ref :
  let first := mock_call hollow [] RetLref [] (FinReturns 0) [] [VInt 42] in
  outcome_value first = Some (CRef 0) /\
  outcome_value (mock_call hollow [] RetValue [] (FinReturns 0) [] (write 0 1337 [VInt 42])) = Some (CVal (VInt 1337)).
Proof. split; reflexivity. Qed.
Example throws_object : mock_call hollow [] RetValue [] (FinThrows 0) [] [VInt 7] = Threw [] (VInt 7) [VInt 7].
Proof. reflexivity. Qed.
Example returns_arg : outcome_value (mock_call hollow [ByValue; ByValue] RetValue [] (FinArg 1) [Prv (VInt 1337); Prv (VInt 42)] []) = Some (CVal (VInt 42)).
Proof. reflexivity. Qed.
Example returns_apply :
  (outcome_value (mock_call hollow [ByValue; ByValue] RetValue [] (FinApply [0; 1] plus) [Prv (VInt 1337); Prv (VInt 42)] []) = Some (CVal (VInt 1379))) /\
  (outcome_value (mock_call hollow [ByValue; ByValue] RetValue [] (FinApplyAll plus) [Prv (VInt 1337); Prv (VInt 42)] []) = Some (CVal (VInt 1379))).
Proof. split; reflexivity. Qed.

(** SideEffects.cpp: the variable [value] or [outResult] is object 0. *)
Definition set_first (f : Z -> Z) : ufun :=
  fun args m => match args with [Lv l] => (ignored, write l (f (read m (Lv l))) m) | _ => (ignored, m) end.
Definition sum_out : ufun :=
  fun args m => match args with [a; b; Lv l] => (ignored, write l (read m a + read m b) m) | _ => (ignored, m) end.
Example side_effects :
  (memory_after (mock_call hollow [ByLref] RetVoid [(0, ApplyArgs [0] (set_first (fun _ => 1337%Z)))] FinVoid [Lv 0] [VInt 42]) = Some [VInt 1337]) /\
  (memory_after (mock_call hollow [ByLref] RetVoid
     [(0, ApplyArgs [0] (set_first (fun _ => 1337%Z))); (1, ApplyArgs [0] (set_first (fun v => if v =? 1337 then -1337 else -42)%Z))] FinVoid [Lv 0] [VInt 42])
   = Some [VInt (-1337)]).
Proof. split; reflexivity. Qed.
Example side_effects_order :
  (option_map (fun m => nth_error m 0) (memory_after (mock_call hollow [ByLref; ByValue; ByValue] RetVoid [(0, ApplyArgs [1; 2; 0] sum_out)] FinVoid
     [Lv 0; Prv (VInt 1); Prv (VInt 2)] [VInt 0])) = Some (Some (VInt 3))) /\
  (option_map (fun m => nth_error m 0) (memory_after (mock_call hollow [ByLref; ByValue] RetVoid [(0, ApplyArgs [1; 1; 0] sum_out)] FinVoid
     [Lv 0; Prv (VInt 42)] [VInt 0])) = Some (Some (VInt 84))).
Proof. split; reflexivity. Qed.
End Memory.

(** ** Mock.cpp: a stack over mocks; the container is moved into the stack. Mocks 0-3: empty, back, push_back, pop_back. *)

Definition container : list op :=
  [ONewMock [mkSig 3 [] false true RefNone false]; ONewMock [mkSig 1 [] false false RefNone false; mkSig 1 [] false true RefNone false];
   ONewMock [sig_unary]; ONewMock [sig_void]].
(** Mocks 4-7 after the move. *)
Definition moved : list op := map OMoveMock [0; 1; 2; 3].
Definition gives (v : val) : list clause := [ClFinal (FReturns v)].
Definition ends (n : nat) : list op := leave n 0 8.
(** 102-110: push. *)
Example stack_push : all_well (container ++ [OExpect 2 0 [m_eq 42] [] here] ++ moved ++ call_ 6 42 ++ ends 1) [0].
Proof. run. Qed.
(** 117-130: top throws when empty() is true; both overloads of top ask. *)
Example stack_top_empty :
  exists w rs, exec init (container ++ [OExpect 0 0 [] (ClTimes (TxExactly 2) :: gives (VBool true)) here] ++ moved ++ call0 4 ++ call0 4 ++ ends 1) = Some (w, rs) /\
  takers w = [0; 0] /\ failures w = 0 /\ values rs = [VBool true; VBool true].
Proof. run. Qed.
(** 132-159: top of a const and of a mutable stack uses the overload of back. *)
Example stack_top :
  forall ov, In ov [0; 1] ->
  exists w rs, exec init (container ++ [OExpect 0 0 [] (gives (VBool false)) here; OExpect 1 ov [] (gives (VInt 42)) here] ++ moved
                          ++ call0 4 ++ complete 0 5 ov [] (UOk (VInt 0)) ++ ends 2) = Some (w, rs) /\
  takers w = [0; 1] /\ failures w = 0 /\ values rs = [VBool false; VInt 42].
Proof. intros ov [<-|[<-|[]]]; run. Qed.
(** The other overload is not prepared. *)
Example stack_top_other :
  exists w rs, exec init (container ++ [OExpect 0 0 [] (gives (VBool false)) here; OExpect 1 1 [] (gives (VInt 42)) here] ++ moved
                          ++ call0 4 ++ [OCall 5 0 [] here]) = Some (w, rs) /\
  takers w = [0] /\ failures w = 1 /\ exceptions rs = [EReporter].
Proof. run. Qed.
(** 175-184: pop. *)
Example stack_pop :
  all_well (container ++ [OExpect 0 0 [] (gives (VBool false)) here; OExpect 3 0 [] [] here] ++ moved ++ call0 4 ++ call0 7 ++ ends 2) [0; 1].
Proof. run. Qed.

(** ** Watcher.cpp *)

Section Watchers.
Import Watcher.
Fixpoint wexec (s : wworld) (ops : list wop) : option (wworld * list result) :=
  match ops with
  | [] => Some (s, [])
  | o :: ops' =>
      match wstep s o with
      | WNext s1 r => match wexec s1 ops' with Some (s2, rs) => Some (s2, r :: rs) | None => None end
      | _ => None
      end
  end.
Definition fin : list wop := map WOp [OFinal; OReturn (UOk (VInt 0))].
Definition throws_at_end (p : list wop) (o : wop) : Prop :=
  exists s rs s', wexec winit p = Some (s, rs) /\ exceptions rs = [] /\ wstep s o = WNext s' (RThrow EReporter).

(** 12-39: no destruction expectation. *)
Example watched_violation : throws_at_end [LNew] (LDestroy 0 false here).
Proof. do 3 eexists. split; [vm_compute; reflexivity|]. split; [reflexivity|vm_compute; reflexivity]. Qed.
(** 41-78: the copy has no expectation; the moved object has. Objects 0-2: source, moved, other. *)
Example watched_copy : throws_at_end [LNew; LExpect 0 [] here; LMove 0; LCopy 0] (LDestroy 2 false here).
Proof. do 3 eexists. split; [vm_compute; reflexivity|]. split; [reflexivity|vm_compute; reflexivity]. Qed.
(** 86-121: assigning to an object without expectation. *)
Example watched_assign : throws_at_end [LNew; LExpect 0 [] here; LMove 0; LNew] (LCopyAssign 2 0 here).
Proof. do 3 eexists. split; [vm_compute; reflexivity|]. split; [reflexivity|vm_compute; reflexivity]. Qed.
(** 123-160: the assignment fulfills the expectation, and the object needs a new one. *)
Example watched_assign2 : throws_at_end ([LNew; LExpect 0 [] here; LMove 0; LNew; LExpect 2 [] here; LCopyAssign 2 0 here] ++ fin) (LDestroy 2 false here).
Proof. do 3 eexists. split; [vm_compute; reflexivity|]. split; [reflexivity|vm_compute; reflexivity]. Qed.
(** The same programs with expectations for all objects end without a failure. *)
Example watched_assign_ok :
  exists s rs, wexec winit ([LNew; LExpect 0 [] here; LMove 0; LNew; LExpect 2 [] here; LCopyAssign 2 0 here] ++ fin
                            ++ [LExpect 2 [] here; LDestroy 2 false here] ++ fin ++ [LDestroy 1 false here] ++ fin ++ [LDestroy 0 false here]
                            ++ map WOp [OEndScope 2; OEndScope 1; OEndScope 0]) = Some (s, rs) /\
  exceptions rs = [] /\ failures (ww s) = 0 /\ takers (ww s) = [1; 2; 0].
Proof. do 2 eexists. split; [vm_compute; reflexivity|]. vm_compute. auto. Qed.

(** 162-194: the call and then the destruction of the mock, in one sequence. Mock 0 is the watched mock, its move has number 2;
    watcher 0 becomes watcher 1. *)
Example watched_sequence :
  exists s rs, wexec winit ([WOp (ONewMock [sig_void]); LNew; WOp (ONewSeq Lazy); WOp (OExpect 0 0 [] [ClSeq [0]] here); LExpect 0 [ClSeq [0]] here;
                             WOp (OMoveMock 0); LMove 0; WOp (OCall 2 0 [] here)] ++ fin ++ [LDestroy 1 false here] ++ fin
                            ++ [WOp (ODestroyMock 2); WOp (OEndScope 1); WOp (OEndScope 0); WOp (ODropSeq 0); LDestroy 0 false here]) = Some (s, rs) /\
  exceptions rs = [] /\ failures (ww s) = 0 /\ takers (ww s) = [0; 1].
Proof. do 2 eexists. split; [vm_compute; reflexivity|]. vm_compute. auto. Qed.
(** If the function destroys the mock without calling it, the destruction is out of order. *)
Example watched_sequence_violated :
  throws_at_end [WOp (ONewMock [sig_void]); LNew; WOp (ONewSeq Lazy); WOp (OExpect 0 0 [] [ClSeq [0]] here); LExpect 0 [ClSeq [0]] here; WOp (OMoveMock 0); LMove 0]
    (LDestroy 1 false here).
Proof. do 3 eexists. split; [vm_compute; reflexivity|]. split; [reflexivity|vm_compute; reflexivity]. Qed.

(** 199-226: life time and relocations; the side effect of the relocation expectation runs twice. *)
Definition relocations (w : world) : nat := length (filter (fun ev => match ev with EvAction _ _ => true | _ => false end) (w_trace w)).
Example watched_relocation :
  exists s rs, wexec winit ([LNew; RNew; LExpect 0 [] here; RExpect 0 [ClPolicy (PSideEffect 0); ClTimes (TxAtLeast 1)] here]
                            ++ [LMove 0; RMove 0 false here; WOp OAction] ++ fin
                            ++ [LMove 1; RMove 1 false here; WOp OAction] ++ fin
                            ++ [LDestroy 1 false here; RDestroy 1; LDestroy 2 false here] ++ fin ++ [RDestroy 2]
                            ++ map WOp [OEndScope 1; OEndScope 0] ++ [LDestroy 0 false here; RDestroy 0]) = Some (s, rs) /\
  exceptions rs = [] /\ failures (ww s) = 0 /\ relocations (ww s) = 2.
Proof. do 2 eexists. split; [vm_compute; reflexivity|]. vm_compute. auto. Qed.
End Watchers.
