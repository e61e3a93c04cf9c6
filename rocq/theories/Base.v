(** * Base: C++ outcomes and small list helpers shared by all model files.

    Nothing in this file models a particular function of /repo; it fixes the vocabulary
    in which the other files describe what a C++ evaluation can do. *)

From Coq Require Export String Ascii.
From Coq Require Export List Arith ZArith Bool Lia.
Export ListNotations.
Open Scope list_scope.

(** The largest value of the C++ type [int] (LP64 platforms, 32 bit). *)
Definition INT_MAX : Z := 2147483647%Z.

(** Reasons for undefined behaviour. A failed [assert] is counted as undefined behaviour, because that is
    what remains of it when [NDEBUG] is defined. *)
Inductive ub : Type :=
| UbAssert        (* an assert(...) of the library does not hold *)
| UbOverflow      (* signed integer overflow *)
| UbNull          (* null pointer dereferenced (moved-from object used) *)
| UbDangling      (* destroyed object accessed *)
| UbUnreachable   (* mimicpp::unreachable() reached, Utility.hpp 83-106 *)
| UbDomain.       (* library function called outside its domain *)

(** Exceptions which can leave library functions. *)
Inductive exn : Type :=
| EInvalidArgument                (* std::invalid_argument *)
| ERuntimeError                   (* std::runtime_error *)
| ELogicError                     (* std::logic_error *)
| EReporter                       (* whatever the installed reporter throws *)
| EUser (n : nat).                (* exceptions of user supplied code *)

(** The possible ends of evaluating a C++ expression. *)
Inductive outcome (A : Type) : Type :=
| Ret (a : A)
| Throw (e : exn)
| Terminate
| Undef (u : ub).
Arguments Ret {A} _.
Arguments Throw {A} _.
Arguments Terminate {A}.
Arguments Undef {A} _.

Definition obind {A B : Type} (m : outcome A) (k : A -> outcome B) : outcome B :=
  match m with
  | Ret a => k a
  | Throw e => Throw e
  | Terminate => Terminate
  | Undef u => Undef u
  end.

(** Leaving a function declared [noexcept] by an exception calls std::terminate. *)
Definition noexcept_of {A : Type} (m : outcome A) : outcome A :=
  match m with
  | Throw _ => Terminate
  | m' => m'
  end.

(** [assert (b)] *)
Definition assert_ {A : Type} (b : bool) (k : outcome A) : outcome A :=
  if b then k else Undef UbAssert.

(** std::source_location (the parts the library ever looks at). *)
Record loc : Type := mkLoc { l_file : string; l_func : string; l_line : nat; l_col : nat }.

(** Assignment to the element at index [i] ([v[i] = x]); out of range indices leave the list unchanged,
    callers have to check the range. *)
Fixpoint upd {A : Type} (l : list A) (i : nat) (x : A) : list A :=
  match l, i with
  | [], _ => []
  | _ :: l', 0 => x :: l'
  | y :: l', S i' => y :: upd l' i' x
  end.

(** Sum type free map over [outcome]: evaluate from left to right, stop at the first failure. *)
Fixpoint omap {A B : Type} (f : A -> outcome B) (l : list A) : outcome (list B) :=
  match l with
  | [] => Ret []
  | x :: l' => obind (f x) (fun y => obind (omap f l') (fun ys => Ret (y :: ys)))
  end.
