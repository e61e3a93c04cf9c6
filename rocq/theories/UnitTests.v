(** * UnitTests: further unit tests of the project, evaluated in the model

    Continuation of TestsOfRepo.v for the test files about mocks, expectations, builders, watchers and reporters. No claim rests on
    this file: it transcribes inputs and expected results of /repo/test/unit-tests, as evidence that the model is the one of the code. *)

From Verif Require Import Base Sequence Control Signature Printer Reports Expectation Builder World Scenario ExamplesOfRepo.
From Verif Require Overload Actions Watcher Stateful Custom Reporter.
Local Open Scope string_scope.

(** TestReporter.hpp 26-121: it throws for calls without match only, and keeps everything it is told. *)
Definition test_reporter : reporter := fun r _ => match r with RNoMatch _ _ | RInapplicable _ _ => Throws | _ => Returns end.
Record kept : Type := mkKept { k_none : nat; k_inapplicable : nat; k_full : nat; k_unfulfilled : nat; k_errors : nat; k_unhandled : nat }.
Definition keep (k : kept) (ev : event) : kept :=
  match ev with
  | EvReport _ (RNoMatch _ l) _ => mkKept (k_none k + length l) (k_inapplicable k) (k_full k) (k_unfulfilled k) (k_errors k) (k_unhandled k)
  | EvReport _ (RInapplicable _ l) _ => mkKept (k_none k) (k_inapplicable k + length l) (k_full k) (k_unfulfilled k) (k_errors k) (k_unhandled k)
  | EvReport _ (RFull _ _) _ => mkKept (k_none k) (k_inapplicable k) (k_full k + 1) (k_unfulfilled k) (k_errors k) (k_unhandled k)
  | EvReport _ (RUnfulfilled _) _ => mkKept (k_none k) (k_inapplicable k) (k_full k) (k_unfulfilled k + 1) (k_errors k) (k_unhandled k)
  | EvReport _ (RError _ _) _ => mkKept (k_none k) (k_inapplicable k) (k_full k) (k_unfulfilled k) (k_errors k + 1) (k_unhandled k)
  | EvReport _ (RUnhandled _ _ _) _ => mkKept (k_none k) (k_inapplicable k) (k_full k) (k_unfulfilled k) (k_errors k) (k_unhandled k + 1)
  | _ => k
  end.
Definition reported (w : world) : kept := fold_left keep (w_trace w) (mkKept 0 0 0 0 0 0).
Definition none_ : kept := mkKept 0 0 0 0 0 0.
(** What a program reports, its results, and who took calls. *)
Definition told (p : list op) : option (kept * list result) :=
  match exec init (OInstall test_reporter :: p) with Some (w, rs) => Some (reported w, tl rs) | None => None end.

(** ** Call.cpp, Expectation.cpp *)

(** Expectation.cpp 37-86: the end of a fulfilled expectation is not reported, that of an unfulfilled one is. *)
Example removing :
  (option_map fst (told ([ONewMock [sig_void]; OExpect 0 0 [] [] here] ++ call0 0 ++ [OEndScope 0]))%list = Some (mkKept 0 0 1 0 0 0)) /\
  (told [ONewMock [sig_void]; OExpect 0 0 [] [] here; OEndScope 0] = Some (mkKept 0 0 0 1 0 0, [RUnit; RUnit; RUnit])).
Proof. split; vm_compute; reflexivity. Qed.

(** 121-271: four expectations; [Y]: it matches, [N]: it does not, [X]: it matches but is exhausted (times(0)), newest first. *)
Inductive answer : Type := Y | N | X.
Definition answering (a : answer) : op :=
  match a with
  | Y => OExpect 0 0 [m_any] [ClTimes (TxRange 0 1337)] here
  | N => OExpect 0 0 [m_eq 42] [ClTimes (TxRange 0 1337)] here
  | X => OExpect 0 0 [m_any] [ClTimes (TxExactly 0)] here
  end.
Definition asked (l : list answer) : option (kept * list nat * bool) :=
  match exec init (OInstall test_reporter :: ONewMock [sig_unary] :: map answering (rev l) ++ [OCall 0 0 [VInt 7] here])%list with
  | Some (w, rs) => Some (reported w, takers w, match last rs RUnit with RThrow EReporter => true | _ => false end)
  | None => None
  end.
Example full_match : asked [N; N; Y; N] = Some (mkKept 0 0 1 0 0 0, [1], false).
Proof. vm_compute. reflexivity. Qed.
Example inapplicable_match :
  map asked [[X; N; N; N]; [N; X; N; N]; [N; N; X; N]; [N; N; N; X]; [X; N; X; N]; [N; X; N; X]; [X; N; X; X]; [X; X; X; X]]
  = map (fun n => Some (mkKept 0 n 0 0 0 0, [], true)) [1; 1; 1; 1; 2; 2; 3; 4].
Proof. vm_compute. reflexivity. Qed.
Example no_match : asked [N; N; N; N] = Some (mkKept 4 0 0 0 0 0, [], true).
Proof. vm_compute. reflexivity. Qed.

(** 273-360: an exception while matching is reported, and the other expectation takes the call. *)
Example unhandled_match :
  option_map fst (told ([ONewMock [sig_unary]; OExpect 0 0 [m_any] [] here; OExpect 0 0 [m_throws 3] [ClTimes (TxRange 0 1)] there] ++ call_ 0 7)%list)
  = Some (mkKept 0 0 1 0 0 1).
Proof. vm_compute. reflexivity. Qed.
Example unhandled_report :
  exists w rs to c r ev, exec init [ONewMock [sig_unary]; OExpect 0 0 [m_any] [] here; OExpect 0 0 [m_throws 3] [] there; OCall 0 0 [VInt 7] here] = Some (w, rs) /\
  w_trace w = [EvReport to (RUnhandled c r (EUser 3)) [1]; ev] /\ er_loc r = Some there /\ cr_loc c = here.
Proof. do 6 eexists. split; [vm_compute; reflexivity|]. split; [vm_compute; reflexivity|]. split; vm_compute; reflexivity. Qed.

(** 423-767: BasicExpectation with user written policies. A policy with a description which gives fixed answers. *)
Section OwnPolicies.
Import Stateful Custom.
Definition fixed (satisfied matches : bool) (d : string) (n : nat) : cpolicy unit :=
  COwn (mkUPolicy (fun _ => satisfied) (fun _ u => (UOk matches, u)) (fun u => (UOk (Some d), u)) n).
Definition a_call : call_info := mkCall 0 [] [] CatAny ConstAny here.
Definition with_times (mn mx : Z) (n : Z) : expectation := mkExp here (mkControl mn mx n []) [] FInit.
(** The reports of the policies and the result of the match. *)
Definition matched (e : expectation) (ps : list (cpolicy unit)) : outcome (list (bool * option string) * match_result) :=
  fst (sbind (c_exp_matches [] e ps a_call) (fun m =>
         sret (Ret (map (fun r => (pr_matching r, pr_desc r)) (mr_policies m), evaluate_match_report m))) tt).
Definition open_ : expectation := with_times 0 1337 0.
Definition shut : expectation := with_times 0 1 1.
Example own_none : matched open_ [] = Ret ([], MatchFull) /\ matched shut [] = Ret ([], MatchInapplicable).
Proof. split; reflexivity. Qed.
Example own_one :
  forall b, matched open_ [fixed true b "policy description" 0] = Ret ([(b, Some "policy description")], if b then MatchFull else MatchNone) /\
    matched shut [fixed true b "policy description" 0] = Ret ([(b, Some "policy description")], if b then MatchInapplicable else MatchNone).
Proof. intros []; split; reflexivity. Qed.
Example own_two :
  forall b1 b2, matched open_ [fixed true b1 "policy1 description" 0; fixed true b2 "policy2 description" 1]
    = Ret ([(b1, Some "policy1 description"); (b2, Some "policy2 description")], if b1 && b2 then MatchFull else MatchNone).
Proof. intros [] []; reflexivity. Qed.
Example own_satisfied :
  (forall b1 b2, c_is_satisfied open_ [fixed b1 true "" 0; fixed b2 true "" 1] tt = b1 && b2) /\
  (forall b, c_is_satisfied (with_times 1 1 0) [fixed b true "" 0] tt = false) /\ (forall b, c_is_satisfied shut [fixed b true "" 0] tt = b).
Proof. repeat split; repeat intros []; reflexivity. Qed.
Example own_consume : c_actions [fixed true true "" 4; fixed true true "" 9] = [4; 9].
Proof. reflexivity. Qed.
(** 769-843: the report asks the policies for their descriptions; the times description is there. *)
Example own_report :
  exists t, fst (c_exp_report [] open_ [fixed true true "expectation description" 0] tt) = Ret (mkExpReport (Some here) None (Some t) [Some "expectation description"]) /\
    t <> "".
Proof. eexists. split; [reflexivity|]. vm_compute. discriminate. Qed.
(** ExpectationBuilder.cpp 243-296. *)
Example own_built : c_is_satisfied (with_times 0 0 0) [fixed true true "" 0] tt = true /\ c_is_satisfied (with_times 0 0 0) [fixed true true "" 0; fixed true true "" 1] tt = true.
Proof. split; reflexivity. Qed.
End OwnPolicies.

(** 845-877: an exception of the finalizer leaves the call. *)
Example throwing_finalizer : returned FAction (UThrow (EUser 1)) = Some ([], [EUser 1]).
Proof. vm_compute. reflexivity. Qed.

(** 888-967: moving scoped expectations; is_satisfied of the current owner, the end of the last one removes the expectation. *)
Definition handles (l : list op) : option (kept * list result) := told ([ONewMock [sig_void]; OExpect 0 0 [] [ClTimes (TxAtMost 1)] here] ++ l)%list.
Example handle_moved :
  handles [OSatisfied 0; OMoveScoped 0; OSatisfied 1; OMoveAssignScoped 0 1; OSatisfied 0; OMoveAssignScoped 1 0; OMoveAssignScoped 1 1; OSatisfied 1;
           OMoveAssignScoped 0 1; OEndScope 0; OEndScope 1]
  = Some (none_, [RUnit; RUnit; RBool true; RUnit; RBool true; RUnit; RBool true; RUnit; RUnit; RBool true; RUnit; RUnit; RUnit]).
Proof. vm_compute. reflexivity. Qed.

(** 969-1012: which of two possible expectations takes the call. *)
Definition ambiguous (st : strategy) : option (list val) :=
  option_map (fun x => values (snd x))
    (exec init ([ONewMock [sig_get]; ONewSeq st; OExpect 0 0 [] [ClTimes (TxRange 0 1); ClSeq [0]; ClFinal (FReturns (VInt 42))] here;
                 OExpect 0 0 [] [ClTimes (TxRange 0 1); ClSeq [0]; ClFinal (FReturns (VInt 1337))] here] ++ call0 0)%list).
Example greedy_prefers_younger : ambiguous Greedy = Some [VInt 1337].
Proof. vm_compute. reflexivity. Qed.
Example lazy_prefers_older : ambiguous Lazy = Some [VInt 42].
Proof. vm_compute. reflexivity. Qed.

(** ** ExpectationBuilder.cpp *)

(** 46-92, 136-148: limits and finalizers can be given once. *)
Definition builds (s : signature) (cls : list clause) : bool := match exec init [ONewMock [s]; ONewSeq Lazy; ONewSeq Lazy; OExpect 0 0 [] cls here] with Some _ => true | None => false end.
Example exchanged_once :
  builds sig_void [ClTimes (TxExactly 1)] = true /\ builds sig_void [ClTimes (TxExactly 1); ClTimes (TxExactly 1)] = false /\
  builds sig_void [ClFinal FAction] = true /\ builds sig_void [ClFinal FAction; ClFinal FAction] = false /\
  builds sig_void [] = true /\ builds sig_get [] = false /\ builds sig_get [ClFinal FAction] = true.
Proof. vm_compute. auto 10. Qed.
(** 57-134: calls until the expectation is satisfied. *)
Definition satisfied_after (cls : list clause) (n : nat) : option (list bool) :=
  option_map (fun x => flat_map (fun r => match r with RBool b => [b] | _ => [] end) (snd x))
    (told ([ONewMock [sig_void]; ONewSeq Lazy; ONewSeq Lazy; OExpect 0 0 [] cls here; OSatisfied 0] ++ flat_map (fun _ => call0 0 ++ [OSatisfied 0]) (seq 0 n))%list).
Example satisfied_builds :
  satisfied_after [] 1 = Some [false; true] /\ satisfied_after [ClTimes (TxExactly 0)] 0 = Some [true] /\
  satisfied_after [ClSeq [0]] 1 = Some [false; true] /\ satisfied_after [ClTimes TxTwice; ClSeq [0]] 2 = Some [false; false; true] /\
  satisfied_after [ClSeq [0]; ClSeq [1]] 1 = Some [false; true].
Proof. repeat split; vm_compute; reflexivity. Qed.

(** ** Mock.cpp *)

Section Overloads.
Import Overload.
(** 66-470: which object expressions (lvalue, rvalue; plain, const) can call a mock with the given qualifiers. One type, all conversions. *)
Definition one_type : language := mkLanguage (fun _ _ => true) (fun _ _ _ => false) (fun _ _ => Strings.mkTraits false None None true) 9.
Definition callable (o : object_expr) (s : signature) : bool := match resolve_call one_type o [] [s] with Chosen 0 => true | _ => false end.
Definition qualified (c : bool) (r : refq) : signature := mkSig 0 [] false c r false.
(** Mock&, const Mock&, Mock&&, const Mock&&. *)
Definition objects : list object_expr := [mkObject false false; mkObject true false; mkObject false true; mkObject true true].
Definition callables (c : bool) (r : refq) : list bool := map (fun o => callable o (qualified c r)) objects.
Example invocables :
  callables false RefNone = [true; false; true; false] /\ callables true RefNone = [true; true; true; true] /\
  callables false RefL = [true; false; false; false] /\ callables true RefL = [true; true; true; true] /\
  callables false RefR = [false; false; true; false] /\ callables true RefR = [false; false; true; true].
Proof. repeat split; reflexivity. Qed.
(** 816-862: the overloads void() and void() const; 864-894: void() and double(int) const. *)
Example similar_overloads :
  let sigs := [qualified false RefNone; qualified true RefNone] in
  map (fun o => (resolve_call one_type o [] sigs, resolve_expect one_type o [] sigs)) [mkObject false false; mkObject true false]
  = [(Chosen 0, Chosen 0); (Chosen 1, Chosen 1)].
Proof. reflexivity. Qed.
Example arbitrary_overloads :
  let sigs := [qualified false RefNone; mkSig 2 [1] false true RefNone false] in
  let la := mkLanguage (fun _ t => (t =? 1)%nat) (fun _ _ _ => false) (fun _ _ => Strings.mkTraits false None None true) 9 in
  map (fun args => (resolve_call la (mkObject false false) args sigs, resolve_expect la (mkObject false false) args sigs)) [[]; [0]]
  = [(Chosen 0, Chosen 0); (Chosen 1, Chosen 1)].
Proof. reflexivity. Qed.
End Overloads.

(** 472-862: an expectation of a mock with any qualifiers is satisfied after the call, which returns the value. *)
Definition all_qualifiers : list (bool * refq * bool) :=
  flat_map (fun c => flat_map (fun r => map (fun ne => (c, r, ne)) [false; true]) [RefNone; RefL; RefR]) [false; true].
Definition supports (ret : ty) (cls : list clause) (q : bool * refq * bool) : option (list result) :=
  let '(c, r, ne) := q in
  option_map snd (told ([ONewMock [mkSig ret [] false c r ne]; OExpect 0 0 [] cls here; OSatisfied 0] ++ call0 0 ++ [OSatisfied 0; OEndScope 0])%list).
Example all_support :
  map (supports 0 []) all_qualifiers = repeat (Some [RUnit; RUnit; RBool false; RUnit; RUnit; RVal None; RBool true; RUnit]) 12 /\
  map (supports 1 [ClFinal (FReturns (VInt 42))]) all_qualifiers
  = repeat (Some [RUnit; RUnit; RBool false; RUnit; RUnit; RVal (Some (VInt 42)); RBool true; RUnit]) 12.
Proof. split; vm_compute; reflexivity. Qed.
(** 816-894: the expectations of overloads are independent. *)
Example overloads_apart :
  option_map (fun x => filter (fun r => match r with RBool _ | RVal _ => true | _ => false end) (snd x))
    (told ([ONewMock [sig_get; mkSig 1 [] false true RefNone false]; OExpect 0 0 [] [ClFinal (FReturns (VInt 42))] here; OExpect 0 1 [] [ClFinal (FReturns (VInt 1337))] here;
            OSatisfied 0; OSatisfied 1] ++ complete 0 0 0 [] (UOk (VInt 0)) ++ [OSatisfied 0; OSatisfied 1] ++ complete 0 0 1 [] (UOk (VInt 0)) ++ [OSatisfied 0; OSatisfied 1])%list)
  = Some [RBool false; RBool false; RVal (Some (VInt 42)); RBool true; RBool false; RVal (Some (VInt 1337)); RBool true; RBool true].
Proof. vm_compute. reflexivity. Qed.

(** ** ObjectWatcher.cpp *)

Section Watching.
Import Watcher.
(** What a program with watchers reports, and the exceptions which leave its statements. *)
Definition watch (p : list wop) : option (kept * list exn) :=
  match wexec winit (WOp (OInstall test_reporter) :: p) with Some (s, rs) => Some (reported (ww s), exceptions rs) | None => None end.
Definition one_full : kept := mkKept 0 0 1 0 0 0.
Definition gone (i : nat) : wop := LDestroy i false here.
(** The watcher and then the expectation end. *)
Definition ended (i h : nat) : list wop := ([gone i] ++ fin ++ [WOp (OEndScope h)])%list.

(** 17-134: without expectation; the expectation expires first; as expected; a second expectation. *)
Example lifetime_basics :
  watch [LNew; gone 0] = Some (none_, [EReporter]) /\
  watch [LNew; LExpect 0 [] here; WOp (OEndScope 0)] = Some (mkKept 0 0 0 1 0 0, []) /\
  watch [LNew; LExpect 0 [] here; WOp (OEndScope 0); gone 0] = Some (mkKept 0 0 0 1 0 0, [EReporter]) /\
  watch ([LNew; LExpect 0 [] here] ++ ended 0 0) = Some (one_full, []) /\
  watch ([LNew; LExpect 0 [] here; LExpectDropped 0; LExpectDropped 0] ++ ended 0 0) = Some (one_full, [ELogicError; ELogicError]).
Proof. repeat split; vm_compute; reflexivity. Qed.
(** 136-203: moving. Watcher 0 is the source. *)
Example lifetime_moved :
  watch ([LNew; LExpect 0 [] here; LMove 0] ++ ended 1 0 ++ [gone 0]) = Some (one_full, []) /\
  watch ([LNew; LExpect 0 [] here; LNew; LExpect 1 [] here; LMoveAssign 1 0; gone 1] ++ fin ++ [gone 0; WOp (OEndScope 0)]) = Some (one_full, []) /\
  watch ([LNew; LExpect 0 [] here; LMoveAssign 0 0] ++ ended 0 0) = Some (one_full, []) /\
  watch ([LNew; LMove 0; LExpect 1 [] here] ++ ended 1 0 ++ [gone 0]) = Some (one_full, []) /\
  watch ([LNew; LNew; LExpect 1 [] here; LMoveAssign 1 0; LExpect 1 [] here; gone 1] ++ fin ++ [WOp (OEndScope 1); gone 0]) = Some (one_full, []).
Proof. repeat split; vm_compute; reflexivity. Qed.
(** The expectation of the target of a move assignment was not fulfilled by it; the test lets it end unobserved. *)
Example lifetime_move_assigned :
  watch ([LNew; LNew; LExpect 1 [] here; LMoveAssign 1 0; LExpect 1 [] here; WOp (OEndScope 0)]) = Some (mkKept 0 0 0 1 0 0, []).
Proof. vm_compute. reflexivity. Qed.
(** 205-287: copying. *)
Example lifetime_copied :
  watch ([LNew; LExpect 0 [] here; LCopy 0; LExpect 1 [] here] ++ ended 1 1 ++ ended 0 0) = Some (mkKept 0 0 2 0 0 0, []) /\
  watch ([LNew; LExpect 0 [] here; LNew; LExpect 1 [] here; LCopyAssign 1 0 here] ++ fin ++ [LExpect 1 [] here; WOp (OEndScope 1); gone 1] ++ fin
         ++ [WOp (OEndScope 2)] ++ ended 0 0) = Some (mkKept 0 0 3 0 0 0, []) /\
  watch ([LNew; LExpect 0 [] here; LCopyAssign 0 0 here] ++ fin ++ [LExpect 0 [] here] ++ ended 0 1 ++ [WOp (OEndScope 0)]) = Some (mkKept 0 0 2 0 0 0, []) /\
  watch ([LNew; LCopy 0; LExpect 1 [] here] ++ ended 1 0 ++ [LExpect 0 [] here] ++ ended 0 1) = Some (mkKept 0 0 2 0 0 0, []) /\
  watch ([LNew; LNew; LExpect 1 [] here; LCopyAssign 1 0 here] ++ fin ++ [LExpect 1 [] here; WOp (OEndScope 0); gone 1] ++ fin
         ++ [WOp (OEndScope 1); LExpect 0 [] here] ++ ended 0 2) = Some (mkKept 0 0 3 0 0 0, []).
Proof. repeat split; vm_compute; reflexivity. Qed.
(** 289-312: finally::throws. *)
Example lifetime_throws :
  watch ([LNew; LExpect 0 [ClFinal (FThrows (EUser 5))] here; LMove 0; gone 1] ++ fin ++ [WOp (OEndScope 0); gone 0]) = Some (one_full, [EUser 5]).
Proof. vm_compute. reflexivity. Qed.
(** 314-386: Watched<Mock<void(int)>, LifetimeWatcher>; the mock and the watcher are moved together. Mock 0, watcher 0 (with mock 1). *)
Example lifetime_watched :
  watch ([WOp (ONewMock [sig_unary]); LNew; LExpect 0 [] here; WOp (OExpect 0 0 [m_eq 42] [] here); WOp (OCall 0 0 [VInt 42] here)] ++ fin
         ++ [WOp (OMoveMock 0); LMove 0; gone 1] ++ fin ++ [WOp (ODestroyMock 2); WOp (OEndScope 1); WOp (OEndScope 0); gone 0; WOp (ODestroyMock 0)])
  = Some (mkKept 0 0 2 0 0 0, []).
Proof. vm_compute. reflexivity. Qed.
(** 350-386, one sequence for the end of another object, the call and the end of the object. *)
Example lifetime_sequence :
  watch ([WOp (ONewMock [sig_unary]); LNew; WOp (ONewSeq Lazy); LNew; LExpect 1 [ClSeq [0]] here; LMove 1; gone 2] ++ fin ++ [WOp (OEndScope 0); gone 1]
         ++ [WOp (OExpect 0 0 [m_eq 42] [ClSeq [0]] here); LExpect 0 [ClSeq [0]] here; WOp (OCall 0 0 [VInt 42] here)] ++ fin
         ++ [WOp (OMoveMock 0); LMove 0; gone 3] ++ fin ++ [WOp (OEndScope 2); WOp (OEndScope 1); WOp (ODropSeq 0); gone 0])
  = Some (mkKept 0 0 3 0 0 0, []).
Proof. vm_compute. reflexivity. Qed.

(** 443-560: relocations without expectation, with an expired one, and as expected. *)
Definition rmove (i : nat) : wop := RMove i false here.
Definition rassign (i j : nat) : wop := RMoveAssign i j false here.
Example relocation_basics :
  watch [RNew; rmove 0] = Some (none_, [EReporter]) /\
  watch [RNew; RNew; rassign 1 0] = Some (none_, [EReporter]) /\
  watch [RNew; rassign 0 0] = Some (none_, [EReporter]) /\
  watch [RNew; RExpect 0 [] here; WOp (OEndScope 0)] = Some (mkKept 0 0 0 1 0 0, []) /\
  watch ([RNew; RExpect 0 [] here; rmove 0] ++ fin ++ [RDestroy 1; WOp (OEndScope 0)]) = Some (one_full, []) /\
  watch ([RNew; RExpect 0 [] here; RNew; rassign 1 0] ++ fin ++ [RDestroy 1; WOp (OEndScope 0)]) = Some (one_full, []) /\
  watch ([RNew; RExpect 0 [] here; rassign 0 0] ++ fin ++ [WOp (OEndScope 0)]) = Some (one_full, []).
Proof. repeat split; vm_compute; reflexivity. Qed.
(** 562-618: copying does not satisfy the expectation. *)
Example relocation_copied :
  watch [RNew; RExpect 0 [] here; RCopy 0; RDestroy 1; WOp (OEndScope 0)] = Some (mkKept 0 0 0 1 0 0, []) /\
  watch [RNew; RExpect 0 [] here; RNew; RCopyAssign 1 0; RDestroy 1; WOp (OEndScope 0)] = Some (mkKept 0 0 0 1 0 0, []) /\
  watch [RNew; RExpect 0 [] here; RCopyAssign 0 0; WOp (OEndScope 0)] = Some (mkKept 0 0 0 1 0 0, []) /\
  watch [RNew; RExpect 0 [] here; RCopyAssign 0 0; rassign 0 0; WOp (OEndScope 0)] = Some (mkKept 0 0 0 1 0 0, [EReporter]).
Proof. repeat split; vm_compute; reflexivity. Qed.
(** 620-668: finally::throws. *)
Example relocation_throws :
  watch ([RNew; RExpect 0 [ClFinal (FThrows (EUser 5))] here; rmove 0] ++ fin ++ [WOp (OEndScope 0)]) = Some (one_full, [EUser 5]) /\
  watch ([RNew; RExpect 0 [ClFinal (FThrows (EUser 5))] here; RNew; rassign 1 0] ++ fin ++ [WOp (OEndScope 0)]) = Some (one_full, [EUser 5]).
Proof. split; vm_compute; reflexivity. Qed.
(** 712-764: a mock with a relocation watcher, moved forth and back; in the second test in one sequence. Mock 0 with watcher 0 (mock 1). *)
Definition forth_and_back : list wop :=
  ([WOp (OCall 0 0 [VInt 42] here)] ++ fin ++ [WOp (OMoveMock 0); rmove 0] ++ fin ++ [WOp (OCall 2 0 [VInt 1337] here)] ++ fin
   ++ [WOp (OMoveAssignMock 0 2); rassign 0 1] ++ fin)%list.
Example relocation_watched :
  watch ([WOp (ONewMock [sig_unary]); RNew; WOp (OExpect 0 0 [m_eq 1337] [] here); RExpect 0 [ClTimes TxTwice] here; WOp (OExpect 0 0 [m_eq 42] [] here)]
         ++ forth_and_back ++ map WOp [OEndScope 2; OEndScope 1; OEndScope 0]) = Some (mkKept 0 0 4 0 0 0, []) /\
  watch ([WOp (ONewMock [sig_unary]); RNew; WOp (ONewSeq Lazy); WOp (OExpect 0 0 [m_eq 42] [ClSeq [0]] here); RExpect 0 [ClSeq [0]] here;
          WOp (OExpect 0 0 [m_eq 1337] [ClSeq [0]] here); RExpect 0 [ClSeq [0]] here]
         ++ forth_and_back ++ map WOp [OEndScope 3; OEndScope 2; OEndScope 1; OEndScope 0; ODropSeq 0]) = Some (mkKept 0 0 4 0 0 0, []).
Proof. split; vm_compute; reflexivity. Qed.
End Watching.

(** ** ExpectationPolicies.cpp *)

(** 66-172: all categories and constnesses of policy and call. *)
Definition policy_table {A : Type} (l : list A) (p : A -> policy) (c : A -> call_info) : list (outcome bool * bool) :=
  flat_map (fun a => map (fun b => (policy_matches (p a) (c b), match policy_consume_assert (p a) (c b) with Ret tt => true | _ => false end)) l) l.
Example categories :
  policy_table [CatL; CatR; CatAny] PCategory (fun b => mkCall 0 [] [] b ConstAny here)
  = map (fun b => (Ret b, b)) [true; false; true; false; true; true; true; true; true].
Proof. reflexivity. Qed.
Example constnesses :
  policy_table [NonConst; AsConst; ConstAny] PConstness (fun b => mkCall 0 [] [] CatAny b here)
  = map (fun b => (Ret b, b)) [true; false; true; false; true; true; true; true; true].
Proof. reflexivity. Qed.

Section Policies.
Import Actions.
Definition same (v : val) : val := v.
(** A function which reports its arguments by the objects they refer to. *)
Definition objects_of (l : list expr) : list nat := map (fun e => match e with Lv l | Xv l => l | Prv _ => 99 end) l.
Definition void_fun : ufun := fun _ m => (URet (Prv (VInt 0)), m).
Definition three : mem := [VInt 1337; VInt 42; VStr "Hello, World!"; VInt 7].
Definition refs : list pmode := [ByLref; ByLref; ByLref].
Definition args_of (ps : list pmode) (es : list expr) (se : side_effect) : option (list nat) :=
  match mock_call same ps RetVoid [(0, se)] FinVoid es three with Returned [i] _ _ => Some (objects_of (i_args i)) | _ => None end.
(** 371-521, 780-937: the objects handed to side effects. *)
Example applied :
  (map (fun l => args_of refs [Lv 0; Lv 1; Lv 2] (ApplyArgs l void_fun)) [[0]; [1]; [2]; [0; 1; 2]; [2; 1; 0]; [1; 0; 2; 2; 0]; [0; 1]; [1; 0; 0; 1]]
   = map Some [[0]; [1]; [2]; [0; 1; 2]; [2; 1; 0]; [1; 0; 2; 2; 0]; [0; 1]; [1; 0; 0; 1]]) /\
  (map (fun n => args_of (repeat ByLref n) (map Lv (seq 0 n)) (ApplyAll void_fun)) [0; 1; 2; 3] = map Some [[]; [0]; [0; 1]; [0; 1; 2]]) /\
  (args_of refs [Lv 0; Lv 1; Lv 2] (Invoke void_fun) = Some []) /\ (args_of [ByLref] [Lv 0] (ApplyArgs [1] void_fun) = None).
Proof. repeat split; reflexivity. Qed.

(** 1035-1467: results of the finalizers: the object 3 holds what [returns] and [throws] store, or what a reference wrapper refers to. *)
Definition finalized (r : rmode) (ps : list pmode) (es : list expr) (f : fin) : option (cres + val) :=
  match mock_call same ps r [] f es three with Returned _ c _ => Some (inl c) | Threw _ v _ => Some (inr v) | _ => None end.
Definition give (e : expr) : ufun := fun _ m => (URet e, m).
Example finalizing :
  (finalized RetLref [] [] (FinResultOf (give (Lv 1))) = Some (inl (CRef 1))) /\
  (map (fun r => finalized r [] [] (FinReturns 3)) [RetValue; RetLref; RetCref; RetRref] = map (fun c => Some (inl c)) [CVal (VInt 7); CRef 3; CRef 3; CRef 3]) /\
  (finalized RetRref [ByValue; ByValue; ByRref] [Lv 0; Lv 1; Xv 2] (FinApply [2] (fun args m => match args with [Lv l] => (URet (Xv l), m) | _ => (URaise (VInt 0), m) end))
   = Some (inl (CRef 2))) /\
  (finalized RetLref [] [] (FinApplyAll (give (Lv 3))) = Some (inl (CRef 3))) /\
  (finalized RetValue [ByValue; ByLref; ByRref] [Prv (VInt 1337); Lv 1; Xv 2] (FinArg 0) = Some (inl (CVal (VInt 1337)))) /\
  (finalized RetLref [ByValue; ByLref; ByRref] [Prv (VInt 1337); Lv 1; Xv 2] (FinArg 1) = Some (inl (CRef 1))) /\
  (finalized RetCref [ByValue; ByCref; ByRref] [Prv (VInt 1337); Lv 1; Xv 2] (FinArg 1) = Some (inl (CRef 1))) /\
  (finalized RetRref [ByValue; ByLref; ByRref] [Prv (VInt 1337); Lv 1; Xv 2] (FinArg 2) = Some (inl (CRef 2))) /\
  (finalized RetVoid [] [] (FinThrows 3) = Some (inr (VInt 7))) /\ (finalized RetRref [] [] (FinThrows 3) = Some (inr (VInt 7))).
Proof. repeat split; reflexivity. Qed.
(** 50-64: InitFinalize does nothing. *)
Example init_finalize : finalized RetVoid [] [] FinVoid = Some (inl CVoid).
Proof. reflexivity. Qed.
End Policies.

(** 939-1033: expect::arg with and without projection. *)
Example requirement_arg :
  forall b, policy_matches (PArg 0 (mkMatcher (fun v => UOk (match v with VInt 42 => b | _ => negb b end)) (UOk "matcher description")) (fun v => UOk v)) (mkCall 0 [1] [VInt 42] CatAny ConstAny here) = Ret b /\
    policy_matches (PArg 0 (mkMatcher (fun v => UOk (match v with VStr "42" => b | _ => negb b end)) (UOk "")) (fun v => UOk (match v with VInt z => VStr (dec_Z z) | _ => v end)))
      (mkCall 0 [1] [VInt 42] CatAny ConstAny here) = Ret b.
Proof. intros []; split; reflexivity. Qed.

(** ** ControlPolicy.cpp *)

(** 497-803: policies in several sequences. TestSequenceT rates an id by itself, so only who is applicable is compared here. *)
Inductive kind_of_state : Type := Ap (seqs : list nat) | In_ (ok blocked : list nat) | Sat (seqs : list nat).
Definition kind_of (st : control_state) : kind_of_state :=
  match st with
  | StApplicable _ _ _ rs => Ap (map r_tag rs)
  | StInapplicable _ _ _ rs ss => In_ (map r_tag rs) ss
  | StSaturated _ _ _ ss => Sat ss
  end.
Fixpoint kinds (ss : seq_store) (l : list control) : outcome (list (kind_of_state * bool)) :=
  match l with
  | [] => Ret []
  | c :: l' => obind (control_state_of ss c) (fun st => obind (kinds ss l') (fun r => Ret ((kind_of st, control_is_satisfied c) :: r)))
  end.
Fixpoint policies_in (ss : seq_store) (l : list (list nat)) : outcome (seq_store * list control) :=
  match l with
  | [] => Ret (ss, [])
  | q :: l' => obind (control_new ss (mkTimes 1 1) q) (fun '(ss1, c) => obind (policies_in ss1 l') (fun '(ss2, cs) => Ret (ss2, c :: cs)))
  end.
(** The kinds of states before and after each of the policies is consumed in turn. *)
Fixpoint in_turn (n : nat) (i : nat) (ss : seq_store) (l : list control) : outcome (list (list (kind_of_state * bool))) :=
  obind (kinds ss l) (fun ks =>
    match n, nth_error l i with
    | Datatypes.S n', Some c =>
        obind (control_consume ss c) (fun '(ss1, c1) => obind (in_turn n' (Datatypes.S i) ss1 (upd l i c1)) (fun r => Ret (ks :: r)))
    | _, _ => Ret [ks]
    end).
Definition course (l : list (list nat)) : outcome (list (list (kind_of_state * bool))) :=
  obind (policies_in [seq_new Greedy; seq_new Greedy] l) (fun '(ss, cs) => in_turn (length l) 0 ss cs).
Example prefix_of_sequences :
  course [[0; 1]; [1]] = Ret [[(Ap [0; 1], false); (In_ [] [1], false)]; [(Sat [0; 1], true); (Ap [1], false)]; [(Sat [0; 1], true); (Sat [1], true)]].
Proof. vm_compute. reflexivity. Qed.
Example waits_for_sequences :
  course [[0]; [1]; [0; 1]]
  = Ret [[(Ap [0], false); (Ap [1], false); (In_ [] [0; 1], false)];
         [(Sat [0], true); (Ap [1], false); (In_ [0] [1], false)];
         [(Sat [0], true); (Sat [1], true); (Ap [0; 1], false)];
         [(Sat [0], true); (Sat [1], true); (Sat [0; 1], true)]].
Proof. vm_compute. reflexivity. Qed.

(** 805-1060: two policies with at_most(1) in one lazy or greedy sequence; which of them are consumed, in order. *)
Fixpoint consume_all (ss : seq_store) (l : list control) (who : list nat) : outcome (list (control_state * bool)) :=
  match who with
  | [] => omap (fun c => obind (control_state_of ss c) (fun st => Ret (st, control_is_satisfied c))) l
  | i :: who' =>
      match nth_error l i with
      | Some c => obind (control_consume ss c) (fun '(ss1, c1) => consume_all ss1 (upd l i c1) who')
      | None => Undef UbDangling
      end
  end.
Definition skippable (st : strategy) (who : list nat) : outcome (list (control_state * bool)) :=
  obind (control_new [seq_new st] (mkTimes 0 1) [0]) (fun '(ss, c1) => obind (control_new ss (mkTimes 0 1) [0]) (fun '(ss, c2) => consume_all ss [c1; c2] who)).
Definition ap (r : Z) : control_state * bool := (StApplicable 0 1 0 [mkRating r 0], true).
Definition inap : control_state * bool := (StInapplicable 0 1 0 [] [0], true).
Definition sat : control_state * bool := (StSaturated 0 1 1 [0], true).
Example lazy_skippable :
  map (skippable Lazy) [[]; [0]; [1]; [0; 1]] = map Ret [[ap INT_MAX; ap (INT_MAX - 1)]; [sat; ap (INT_MAX - 1)]; [inap; sat]; [sat; sat]]%Z.
Proof. vm_compute. reflexivity. Qed.
Example greedy_skippable : map (skippable Greedy) [[]; [0]; [1]; [0; 1]] = map Ret [[ap 0; ap 1]; [sat; ap 1]; [inap; sat]; [sat; sat]]%Z.
Proof. vm_compute. reflexivity. Qed.

(** 1062-1182: the factories. *)
Definition five : list Z := [0; 1; 2; 3; 4]%Z.
Example factories :
  (map eval_times (map TxExactly five) = map (fun z => Ret (mkTimes z z)) five) /\ (map eval_times (map TxAtMost five) = map (fun z => Ret (mkTimes 0 z)) five) /\
  (map eval_times (map TxAtLeast five) = map (fun z => Ret (mkTimes z INT_MAX)) five) /\
  (flat_map (fun a => map (fun d => eval_times (TxRange a (a + d))) five) five = flat_map (fun a => map (fun d => Ret (mkTimes a (a + d))) five) five) /\
  (eval_times TxOnce = Ret (mkTimes 1 1)) /\ (eval_times TxTwice = Ret (mkTimes 2 2)) /\
  (map eval_times (map TxExactly [- INT_MAX - 1; -1]%Z ++ map TxAtLeast [- INT_MAX - 1; -1]%Z ++ map TxAtMost [- INT_MAX - 1; -1]%Z
                 ++ [TxRange (-1) 42; TxRange 42 (-1); TxRange 3 2; TxRange 1 0])%list = repeat (Throw EInvalidArgument) 10).
Proof. repeat split; vm_compute; reflexivity. Qed.

(** ** Reporter.cpp *)

Section Reporting.
Import Reporter.
Definition names (t : ty) : string := if (t =? 0)%nat then "void" else "int".
Definition says (x : exn) : option string := match x with ERuntimeError => Some "An std::exception type." | _ => None end.
Definition a_report : call_report := mkCallReport 0 [] here CatAny ConstAny.
Definition an_exp : exp_report := mkExpReport None None None [].
Definition none_matches : report := RNoMatch a_report [mkMatchReport None None (StApplicable 1 1 0 []) [mkPolicyReport false None]].
Definition inapplicables : report := RInapplicable a_report [mkMatchReport None None (StInapplicable 1 1 1 [] [0]) []].
Definition fulls : report := RFull a_report (mkMatchReport None None (StApplicable 1 1 0 []) []).
Inductive left_kind : Type := LkReturn | LkUnmatched | LkUnfulfilled | LkMessage | LkOther.
Definition left_kind_of (l : left_by) : left_kind :=
  match l with
  | LeftReturn => LkReturn
  | LeftError (ErrUnmatched _ _ _ _) => LkUnmatched
  | LeftError (ErrUnfulfilled _ _) => LkUnfulfilled
  | LeftError (ErrMessage _) => LkMessage
  | _ => LkOther
  end.
(** 141-318: the DefaultReporter with and without stream, without and with an exception in flight. *)
Definition defaults (out : bool) (r : report) (uncaught : nat) (p : string) : left_kind * bool :=
  let '(texts, l) := default_report names says out r uncaught in
  (left_kind_of l, match texts with [t] => out && String.prefix p t && negb (String.eqb p "") | [] => negb out || String.eqb p "" | _ => false end).
Example default_reports :
  forall out,
  defaults out none_matches 0 "No match for" = (LkUnmatched, true) /\ defaults out inapplicables 0 "No applicable match for" = (LkUnmatched, true) /\
  defaults out fulls 0 "" = (LkReturn, true) /\ defaults out (RUnfulfilled an_exp) 0 "Unfulfilled expectation:" = (LkUnfulfilled, true) /\
  defaults out (RUnfulfilled an_exp) 1 "" = (LkReturn, true) /\ defaults out (RError 1 2) 0 "Unfulfilled sequence." = (LkMessage, true) /\
  defaults out (RError 1 2) 1 "" = (LkReturn, true) /\ defaults out (RUnhandled a_report an_exp ERuntimeError) 0 "Unhandled exception:" = (LkReturn, true).
Proof. intros []; repeat split; vm_compute; reflexivity. Qed.

(** 427-605: BasicReporter with callbacks of which send_fail throws. The program is run in the model of the mocks; its reports are
    handed to the reporter. *)
Definition callbacks (ch : channel) (msg : string) : reaction := match ch with ChFail => Throws | _ => Returns end.
Definition basic : reporter := fun r n =>
  match snd (basic_report names says callbacks r n) with LeftReturn => Returns | LeftTerminate => Terminates | _ => Throws end.
(** The messages which are sent (without exception in flight) and the exceptions of the program. *)
Definition sends (p : list op) : option (list (channel * string) * list exn) :=
  match exec init (OInstall basic :: p) with
  | Some (w, rs) => Some (flat_map (fun ev => match ev with EvReport _ r _ => fst (basic_report names says callbacks r 0) | _ => [] end) (w_trace w), exceptions rs)
  | None => None
  end.
(** The given channels, with these beginnings and parts of the messages. *)
Fixpoint contains (p s : string) : bool := String.prefix p s || match s with EmptyString => false | String _ s' => contains p s' end.
Definition sent (p : list op) (l : list (channel * string * string)) (xs : list exn) : Prop :=
  exists msgs, sends p = Some (msgs, xs) /\ map fst msgs = map (fun x => fst (fst x)) l /\
    forallb (fun '((_, m), (_, a, b)) => String.prefix a m && contains b m) (combine msgs l) = true.
Ltac sending := eexists; split; [vm_compute; reflexivity|split; vm_compute; reflexivity].
Definition unary (cls : list clause) : list op := [ONewMock [sig_unary]; OExpect 0 0 [m_eq 42] cls here].
Example basic_success : sent (unary [] ++ call_ 0 42) [(ChSuccess, "Found match for", "")] [].
Proof. sending. Qed.
Example basic_no_expectation : sent [ONewMock [sig_unary]; OCall 0 0 [VInt 1337] here] [(ChFail, "No match for", "No expectations available.")] [EReporter].
Proof. sending. Qed.
Example basic_no_match : sent (unary [ClTimes (TxAtMost 1)] ++ [OCall 0 0 [VInt 1337] here; OEndScope 0]) [(ChFail, "No match for", "1 available expectation(s):")] [EReporter].
Proof. sending. Qed.
Example basic_inapplicable :
  sent (unary [] ++ call_ 0 42 ++ [OCall 0 0 [VInt 42] here]) [(ChSuccess, "Found match for", ""); (ChFail, "No applicable match for", "Tested expectations:")] [EReporter].
Proof. sending. Qed.
Example basic_unfulfilled : sent [ONewMock [sig_void]; OExpect 0 0 [] [] here; OEndScope 0] [(ChFail, "Unfulfilled expectation:", "")] [EReporter].
Proof. sending. Qed.
(** An exception is in flight: the reporter is told, but sends nothing. *)
Definition silent (p : list op) : option (list nat * list exn) :=
  match exec init (OInstall basic :: p) with
  | Some (w, rs) => Some (flat_map (fun ev => match ev with EvReport _ r _ => [List.length (fst (basic_report names says callbacks r 1))] | _ => [] end) (w_trace w), exceptions rs)
  | None => None
  end.
Example basic_unwinding : silent [ONewMock [sig_void]; OExpect 0 0 [] [] here; OUnwind 1; OEndScope 0] = Some ([0], []).
Proof. vm_compute. reflexivity. Qed.
Example basic_unhandled :
  forall x t, In (x, t) [(ERuntimeError, "Unhandled exception: what: An std::exception type."); (EUser 1, "Unhandled exception: Unknown exception type.")] ->
  sent ([ONewMock [sig_unary]; OExpect 0 0 [m_any] [] here; OExpect 0 0 [mkMatcher (fun _ => UThrow x) (UOk "")] [ClTimes (TxAtMost 1)] here] ++ call_ 0 7)
    [(ChWarning, t, ""); (ChSuccess, "Found match for", "")] [].
Proof. intros x t [[= <- <-]|[[= <- <-]|[]]]; sending. Qed.
End Reporting.
