(** * Expectation: model of the policies (/repo/include/mimic++/ExpectationPolicies.hpp) and of
    BasicExpectation / ExpectationCollection matching (/repo/include/mimic++/Expectation.hpp) *)

From Verif Require Import Base Sequence Control Signature Printer Reports.
Local Open Scope string_scope.

(** Result of user supplied code called during matching: a value or an exception. *)
Inductive ures (A : Type) : Type :=
| UOk (a : A)
| UThrow (x : exn).
Arguments UOk {A} _.
Arguments UThrow {A} _.

Definition of_ures {A : Type} (r : ures A) : outcome A :=
  match r with
  | UOk a => Ret a
  | UThrow x => Throw x
  end.

(** A matcher as seen through the hooks, Matcher.hpp 31-111. Matchers may be arbitrary user code; the only assumption is
    that their answer is a function of the value and that they do not touch mocks, expectations or sequences. *)
Record matcher : Type := mkMatcher {
  m_matches : val -> ures bool;
  m_describe : ures string
}.

(** call::Info, Call.hpp 40-59, by value. [ci_ret], [ci_params] stand for the template arguments. *)
Record call_info : Type := mkCall {
  ci_ret : ty;
  ci_params : list ty;
  ci_args : list val;
  ci_category : category;
  ci_constness : constness;
  ci_loc : loc
}.

(** make_call_report, Reports.hpp 242-263. *)
Definition make_call_report (c : call_info) : call_report :=
  mkCallReport (ci_ret c) (combine (ci_params c) (map print (ci_args c))) (ci_loc c) (ci_category c) (ci_constness c).

(** The expectation policies of the library, ExpectationPolicies.hpp 30-88, 150-263.
    [PArg i m p]: expect::arg<i>(m, p), 403-425, i.e. a Requirement with the projection ApplyArgsAction<p, .., i>.
    [PSideEffect n]: SideEffectAction with an action identified by [n].
    Simplification: Requirements with projections other than expect::arg can not be built with the public functions. *)
Inductive policy : Type :=
| PCategory (c : category)
| PConstness (c : constness)
| PArg (i : nat) (m : matcher) (p : val -> ures val)
| PSideEffect (n : nat).

(** matches() of the policies: ExpectationPolicies.hpp 40-43, 70-73, 183-189 (with 331-353 as projection), 238-242. *)
Definition policy_matches (p : policy) (c : call_info) : outcome bool :=
  match p with
  | PCategory x => Ret (is_matching_category (ci_category c) x)
  | PConstness x => Ret (is_matching_constness (ci_constness c) x)
  | PArg i m proj =>
      match nth_error (ci_args c) i with
      | None => Undef UbDomain     (* rejected at compile time: requires indices < sizeof...(Args), 331-332 *)
      | Some v => obind (of_ures (proj v)) (fun x => of_ures (m_matches m x))
      end
  | PSideEffect _ => Ret true
  end.

(** describe() of the policies: ExpectationPolicies.hpp 51-57, 81-87, 198-203 (with 364-377), 244-248. *)
Definition policy_describe (p : policy) : outcome (option string) :=
  match p with
  | PCategory x => Ret (Some ("expect: from " ++ print_category x ++ " category overload"))
  | PConstness x => Ret (Some ("expect: from " ++ print_constness x ++ " qualified overload"))
  | PArg i m _ =>
      obind (of_ures (m_describe m)) (fun d => Ret (Some ("expect: arg[" ++ dec_nat i ++ "] " ++ d)))
  | PSideEffect _ => Ret None
  end.

(** is_satisfied() of the policies, ExpectationPolicies.hpp 34-37, 64-67, 173-176, 232-235. *)
Definition policy_is_satisfied (p : policy) : bool := true.

(** consume() of the policies without the effect of side effects: only the asserts at ExpectationPolicies.hpp 45-49, 75-79. *)
Definition policy_consume_assert (p : policy) (c : call_info) : outcome unit :=
  match p with
  | PCategory x => assert_ (is_matching_category (ci_category c) x) (Ret tt)
  | PConstness x => assert_ (is_matching_constness (ci_constness c) x) (Ret tt)
  | PArg _ _ _ | PSideEffect _ => Ret tt
  end.

(** The finalize policies: InitFinalize 21-28, ReturnsResultOf (90-124) with the constant of finally::returns (500-512),
    Throws (126-148), ReturnsResultOf with arbitrary user code. ExpectationPolicies.hpp *)
Inductive finalizer : Type :=
| FInit
| FReturns (v : val)
| FThrows (x : exn)
| FAction.

(** BasicExpectation, data members Expectation.hpp 556-559. *)
Record expectation : Type := mkExp {
  e_loc : loc;
  e_ctl : control;
  e_policies : list policy;
  e_final : finalizer
}.

Definition with_ctl (e : expectation) (c : control) : expectation := mkExp (e_loc e) c (e_policies e) (e_final e).

(** BasicExpectation::report, Expectation.hpp 457-482. *)
Definition exp_report_of (ss : seq_store) (e : expectation) : outcome exp_report :=
  obind (control_state_of ss (e_ctl e)) (fun st =>
    obind (omap policy_describe (e_policies e)) (fun ds =>
      Ret (mkExpReport (Some (e_loc e)) None (Some (print_control_state st)) ds))).

(** BasicExpectation::is_satisfied, Expectation.hpp 487-497. *)
Definition exp_is_satisfied (e : expectation) : bool :=
  control_is_satisfied (e_ctl e) && forallb policy_is_satisfied (e_policies e).

(** The element of the vector at Expectation.hpp 512-517 for one policy (braced initialisation, hence evaluated in order). *)
Definition policy_report_of (c : call_info) (p : policy) : outcome policy_report :=
  obind (policy_matches p c) (fun b => obind (policy_describe p) (fun d => Ret (mkPolicyReport b d))).

(** BasicExpectation::matches, Expectation.hpp 502-521. *)
Definition exp_matches (ss : seq_store) (e : expectation) (c : call_info) : outcome match_report :=
  obind (control_state_of ss (e_ctl e)) (fun st =>
    obind (omap (policy_report_of c) (e_policies e)) (fun rs =>
      Ret (mkMatchReport (Some (e_loc e)) None st rs))).

(** The asserting part of BasicExpectation::consume, Expectation.hpp 526-535, for the policies in order. *)
Fixpoint consume_asserts (ps : list policy) (c : call_info) : outcome unit :=
  match ps with
  | [] => Ret tt
  | p :: ps' => obind (policy_consume_assert p c) (fun _ => consume_asserts ps' c)
  end.

(** The side effects of an expectation in the order in which BasicExpectation::consume invokes them, Expectation.hpp 529-534. *)
Fixpoint side_effects (ps : list policy) : list nat :=
  match ps with
  | [] => []
  | PSideEffect n :: ps' => n :: side_effects ps'
  | _ :: ps' => side_effects ps'
  end.

(** The reports of IReporter, Reporter.hpp 55-158. *)
Inductive report : Type :=
| RNoMatch (c : call_report) (l : list match_report)
| RInapplicable (c : call_report) (l : list match_report)
| RFull (c : call_report) (m : match_report)
| RUnfulfilled (r : exp_report)
| RError (k n : nat)                                       (* the only error: sequence_error_message k n *)
| RUnhandled (c : call_report) (r : exp_report) (x : exn).

(** What a reporter does with a report: return, throw, or end the program. *)
Inductive reaction : Type := Returns | Throws | Terminates.

(** An installed reporter: its reaction to a report, depending on std::uncaught_exceptions(). *)
Definition reporter : Type := report -> nat -> reaction.

(** Outcome of make_match_report (Expectation.hpp 27-46): either a report or the content of the unhandled exception report. *)
Inductive match_attempt : Type :=
| AttemptReport (m : match_report)
| AttemptUnhandled (r : exp_report) (x : exn).

(** make_match_report, Expectation.hpp 27-46 (noexcept; the reporter is called in the catch block). *)
Definition make_match_report (rp : reporter) (uncaught : nat) (ss : seq_store) (e : expectation) (c : call_info) : outcome match_attempt :=
  noexcept_of
    (match exp_matches ss e c with
     | Ret m => Ret (AttemptReport m)
     | Throw x =>
         obind (exp_report_of ss e) (fun r =>
           match rp (RUnhandled (make_call_report c) r x) uncaught with
           | Returns => Ret (AttemptUnhandled r x)
           | Throws => Throw EReporter
           | Terminates => Terminate
           end)
     | Terminate => Terminate
     | Undef u => Undef u
     end).

(** The local vectors of handle_call, Expectation.hpp 303-305, and (in addition) the emitted unhandled exception reports,
    each with the identity of the expectation. *)
Record match_lists : Type := mkLists {
  ml_full : list (nat * match_report);
  ml_inapplicable : list (nat * match_report);
  ml_none : list (nat * match_report);
  ml_unhandled : list (nat * (exp_report * exn))
}.

(** The loop of handle_call, Expectation.hpp 307-330; [es] in the visited order (newest first). *)
Fixpoint match_loop (rp : reporter) (uncaught : nat) (ss : seq_store) (c : call_info)
    (es : list (nat * expectation)) (acc : match_lists) : outcome match_lists :=
  match es with
  | [] => Ret acc
  | (n, e) :: es' =>
      obind (make_match_report rp uncaught ss e c) (fun a =>
        match_loop rp uncaught ss c es'
          (match a with
           | AttemptUnhandled r x =>
               mkLists (ml_full acc) (ml_inapplicable acc) (ml_none acc) (ml_unhandled acc ++ [(n, (r, x))])
           | AttemptReport m =>
               match evaluate_match_report m with
               | MatchNone => mkLists (ml_full acc) (ml_inapplicable acc) (ml_none acc ++ [(n, m)]) (ml_unhandled acc)
               | MatchInapplicable => mkLists (ml_full acc) (ml_inapplicable acc ++ [(n, m)]) (ml_none acc) (ml_unhandled acc)
               | MatchFull => mkLists (ml_full acc ++ [(n, m)]) (ml_inapplicable acc) (ml_none acc) (ml_unhandled acc)
               end
           end))
  end.

(** The lambda [ratings] of pick_best_match, Expectation.hpp 51-55; std::get on the wrong alternative throws inside noexcept. *)
Definition ratings_of (m : match_report) : outcome (list rating) :=
  match mr_state m with
  | StApplicable _ _ _ rs => Ret rs
  | _ => Terminate
  end.

(** The loop of pick_best_match, Expectation.hpp 57-70. *)
Fixpoint pick_best (best : nat * match_report) (rest : list (nat * match_report)) : outcome (nat * match_report) :=
  match rest with
  | [] => Ret best
  | x :: rest' =>
      obind (ratings_of (snd best)) (fun rb =>
        obind (ratings_of (snd x)) (fun rx =>
          pick_best (if has_better_rating rb rx then best else x) rest'))
  end.
