(** * Operands: how the factories of the library take their operands, and what their conditional noexcept promises

    Sources: the factories of ExpectationPolicies.hpp 403-732 and Matcher.hpp 345-990, the constructors they use (ExpectationPolicies.hpp
    96-340, Matcher.hpp 180-193), the functions which later invoke the stored object (ExpectationPolicies.hpp 105-117, 252-258, 283-305,
    333-352, 473-479, 723-729; Matcher.hpp 195-213). Actions.v and Objects.v assume that nothing of this throws; here copies, moves and
    calls of the user's types may throw, and have or have not declared so. *)

From Verif Require Import Base.

(** The category of an operand of type T: T lvalue, const T lvalue, T rvalue, const T rvalue. *)
Inductive vcat : Type := LV | CLV | RV | CRV.

(** One member function of a user type: is it declared noexcept, and does it throw (this time)? *)
Record behaviour : Type := mkBehaviour { b_noexcept : bool; b_throws : option exn }.

(** A user type: its constructors, and its call operators, selected by the category; [None]: there is none (or it is deleted). *)
Record vtype : Type := mkType { t_ctor : vcat -> option behaviour; t_call : vcat -> option behaviour }.

(** std::is_nothrow_constructible_v, std::is_nothrow_invocable_v. *)
Definition nothrow (o : option behaviour) : bool := match o with Some b => b_noexcept b | None => false end.

(** How a function ends: normally, by an exception, by std::terminate; or it does not compile. *)
Inductive ended : Type := Done | Threw (x : exn) | Dead | IllFormed.

(** A use of a member function. *)
Definition use (o : option behaviour) : ended :=
  match o with
  | None => IllFormed
  | Some b => match b_throws b with None => Done | Some x => if b_noexcept b then Dead else Threw x end
  end.

(** Parts of a body, one after the other. A part which does not compile makes the whole ill-formed. *)
Definition and_then (a b : ended) : ended :=
  match a, b with
  | IllFormed, _ | _, IllFormed => IllFormed
  | Done, b => b
  | a, _ => a
  end.

(** A function with the exception specification [noexcept(ne)]. *)
Definition declared (ne : bool) (e : ended) : ended := match e with Threw _ => if ne then Dead else e | _ => e end.

(** ** Construction *)

(** A constructor which moves its parameter into a member: ReturnsResultOf (ExpectationPolicies.hpp 96-102), Throws (132-136),
    SideEffectAction (219-225), ApplyAllArgsAction (270-276), ApplyArgsAction (316-322): all noexcept(std::is_nothrow_move_constructible_v). *)
Definition move_in (t : vtype) : ended := declared (nothrow (t_ctor t RV)) (use (t_ctor t RV)).

(** The specification shared by the factories below: noexcept(std::is_nothrow_constructible_v<std::remove_cvref_t<T>, T>), ExpectationPolicies.hpp
    471, 505, 530, 557, 603, 651, 677, 700, 721. [T] is deduced from an operand of category [c]. *)
Definition nothrow_from (t : vtype) (c : vcat) : bool := nothrow (t_ctor t c).

(** finally::returns_result_of, ExpectationPolicies.hpp 464-481; returns, 499-513; then::invoke, 716-732: the operand is captured by a
    closure, which is moved into the policy. *)
Definition make_captured (t : vtype) (c : vcat) : ended := declared (nothrow_from t c) (and_then (use (t_ctor t c)) (move_in t)).

(** finally::throws, ExpectationPolicies.hpp 598-608: a parameter by value, moved into the policy. *)
Definition make_throws (t : vtype) (c : vcat) : ended := declared (nothrow_from t c) (and_then (use (t_ctor t c)) (move_in t)).

(** finally::returns_apply_result_of, returns_apply_all_result_of, then::apply_arg, apply_args, apply_all, ExpectationPolicies.hpp 526-566,
    647-709: a parameter by value of ApplyArgsAction, moved into its member; that object is moved into the policy. *)
Definition make_applied (t : vtype) (c : vcat) : ended :=
  declared (nothrow_from t c) (and_then (use (t_ctor t c)) (and_then (move_in t) (move_in t))).

(** expect::arg, ExpectationPolicies.hpp 402-425, with the constructor of Requirement, 158-173: [m] is the type of the matcher, [p] that of the projection, whose
    parameter is initialised by the caller. The initialisers within braces are evaluated from left to right. *)
Definition make_arg (m p : vtype) (c : vcat) : ended :=
  declared (nothrow_from m c && nothrow (t_ctor p RV))
    (and_then (use (t_ctor m c))
      (and_then (and_then (use (t_ctor p RV)) (move_in p))
        (declared (nothrow (t_ctor m RV) && nothrow (t_ctor p RV)) (and_then (use (t_ctor m RV)) (use (t_ctor p RV)))))).

(** The comparison and string matchers, Matcher.hpp 349-443, 591-795: the operand becomes an element of a tuple, which is moved into the
    matcher (180-193). matches::predicate, 453-466: a parameter by value, moved. The factories themselves have no exception specification. *)
Definition make_matcher (t : vtype) (c : vcat) : ended := and_then (use (t_ctor t c)) (move_in t).

(** ** Invocation *)

(** The closure of returns_result_of, ExpectationPolicies.hpp 473-479: specified by the type of the parameter, but it calls the captured
    object. [c]: the category of the operand the factory was given. *)
Definition call_result_of (t : vtype) (c : vcat) : ended := declared (nothrow (t_call t c)) (use (t_call t LV)).

(** The type [Action&] for a deduced [Action] ([dcl.ref]: reference collapsing). *)
Definition collapsed (c : vcat) : vcat := match c with LV | RV => LV | CLV | CRV => CLV end.

(** The closure of then::invoke, ExpectationPolicies.hpp 723-729. *)
Definition call_invoke (t : vtype) (c : vcat) : ended := declared (nothrow (t_call t (collapsed c))) (use (t_call t LV)).

(** operator() of ApplyAllArgsAction and ApplyArgsAction, ExpectationPolicies.hpp 283-305, 333-352; the projections used by the library only
    add references. *)
Definition call_applied (t : vtype) (c : vcat) : ended := declared (nothrow (t_call t CLV)) (use (t_call t CLV)).

(** ReturnsResultOf::finalize_call, ExpectationPolicies.hpp 105-117: [inner] is the stored action (its specification and its end), [conv] the
    conversion of its result. *)
Definition finalize_call (inner_noexcept : bool) (inner : ended) (conv : option behaviour) : ended :=
  declared (inner_noexcept && nothrow conv) (and_then inner (use conv)).

(** The three kinds of finalizers with a function of the user's: what leaves Expectation::finalize_call (Expectation.hpp 525-530). *)
Inductive finalizer_kind : Type := KResultOf | KApplyArgs | KApplyAll.
Definition run_finalizer (k : finalizer_kind) (t : vtype) (c : vcat) (conv : option behaviour) : ended :=
  match k with
  | KResultOf => finalize_call (nothrow (t_call t c)) (call_result_of t c) conv
  | KApplyArgs | KApplyAll => finalize_call (nothrow (t_call t CLV)) (call_applied t c) conv
  end.

(** SideEffectAction::consume, ExpectationPolicies.hpp 252-258, inside of the noexcept lambda of BasicExpectation::consume, Expectation.hpp
    509-519. *)
Definition run_side_effect (inner_noexcept : bool) (inner : ended) : ended := declared true (declared inner_noexcept inner).

(** PredicateMatcher::matches, Matcher.hpp 195-213: [proj]: the projections of the stored arguments (as_matches_arg, 135-138, each with its
    own specification), [conv]: the conversion of the result to bool. Their exceptions are not part of the specification. *)
Definition predicate_matches (pred : option behaviour) (proj : list behaviour) (conv : behaviour) : ended :=
  declared (nothrow pred) (and_then (fold_right (fun b e => and_then (use (Some b)) e) Done proj) (and_then (use pred) (use (Some conv)))).

(** ** What is left of an operand *)

Inductive left_over : Type := Kept | MovedFrom.

(** The factories with a forwarding reference: ExpectationPolicies.hpp 403-732; Matcher.hpp 349-443 (comparisons), 453-466 (predicate), 591-795
    (strings), 817-873 (ranges), 938-990 (elements); operator&& and the arguments of expect_call, ExpectationBuilder.hpp 60-110, 197-262. *)
Inductive factory : Type :=
| FaReturnsResultOf | FaReturns | FaReturnsApply | FaReturnsApplyAll | FaThrows
| FaApplyArg | FaApplyArgs | FaApplyAll | FaInvoke | FaArg
| FaCompare | FaPredicate | FaString | FaRange | FaEachElement | FaAnyElement
| FaPolicy | FaExpectCall.

(** The category of the expression which initialises what is stored: std::forward<T>(operand) has the category of the operand; in
    Matcher.hpp 957 and 986 T is replaced by std::remove_cvref_t<T>, so it is a cast to an rvalue, which does not compile for const
    operands. Ranges are handed to std::views::all (839, 869). [None]: ill-formed. *)
Definition taken_as (f : factory) (c : vcat) : option vcat :=
  match f with
  | FaEachElement | FaAnyElement => match c with LV | RV => Some RV | CLV | CRV => None end
  | _ => Some c
  end.

(** A constructor called with an rvalue moves, every other one leaves the operand as it is (the usual semantics of copies). *)
Definition leftover (c : vcat) : left_over := match c with RV => MovedFrom | _ => Kept end.
Definition operand_after (f : factory) (c : vcat) : option left_over := option_map leftover (taken_as f c).

(** A variable which is the operand of several factories, one after the other. *)
Fixpoint variable_after (s : left_over) (l : list factory) : option left_over :=
  match l with
  | [] => Some s
  | f :: l' => match operand_after f LV with
               | Some Kept => variable_after s l'
               | Some MovedFrom => variable_after MovedFrom l'
               | None => None
               end
  end.
