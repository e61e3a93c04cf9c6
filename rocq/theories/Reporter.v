(** * Reporter: model of the reporters of the library, /repo/include/mimic++/Reporter.hpp 160-192, 196-529.

    World.v knows reporters only by their reaction. Here the text they produce, where it goes, and the exception objects are added. *)

From Verif Require Import Base Signature Sequence Control Printer Reports Expectation World.
Local Open Scope string_scope.

(** Exceptions of type Error<Data>, Reporter.hpp 160-192: UnmatchedCallT and UnfulfilledExpectationT (406-407) and Error<nullptr_t>.
    The source location of the latter two is the place of the throw expression inside of the library and therefore omitted. *)
Inductive error : Type :=
| ErrUnmatched (what : string) (call : call_report) (reports : list match_report) (where_ : loc)
| ErrUnfulfilled (what : string) (r : exp_report)
| ErrMessage (what : string).

(** How a member function of a reporter is left. *)
Inductive left_by : Type :=
| LeftReturn
| LeftError (e : error)
| LeftCallback          (* exception of a callback *)
| LeftTerminate
| LeftUndef (u : ub).

(** evaluate_match_report compared with a MatchResult, as in the asserts at Reporter.hpp 428-432, 454-458, 479. *)
Definition has_result (res : match_result) (r : match_report) : bool :=
  match evaluate_match_report r, res with
  | MatchNone, MatchNone | MatchInapplicable, MatchInapplicable | MatchFull, MatchFull => true
  | _, _ => false
  end.

Section Reporters.
  (** [typeid(T).name()], and [e.what()] of exceptions derived from std::exception ([None] for all others). *)
  Context (type_name : ty -> string) (what_of : exn -> option string).

  (** [if (m_Out) *m_Out << msg << '\n'], Reporter.hpp 435-438, 461-464, 489-492, 506-509, 520-524. *)
  Definition write (out : bool) (msg : string) : list string := if out then [msg ++ nl] else [].

  (** DefaultReporter, Reporter.hpp 412-529; [out]: constructed with a stream; [uncaught]: std::uncaught_exceptions(). Result: what is
      written to the stream and how the function is left. Writing to the stream is assumed not to throw. *)
  Definition default_report (out : bool) (r : report) (uncaught : nat) : list string * left_by :=
    match r with
    | RNoMatch c l =>
        if forallb (has_result MatchNone) l
        then let msg := stringify_no_match type_name c l in (write out msg, LeftError (ErrUnmatched msg c l (cr_loc c)))
        else ([], LeftUndef UbAssert)
    | RInapplicable c l =>
        if forallb (has_result MatchInapplicable) l
        then let msg := stringify_inapplicable type_name c l in (write out msg, LeftError (ErrUnmatched msg c l (cr_loc c)))
        else ([], LeftUndef UbAssert)
    | RFull c m => if has_result MatchFull m then ([], LeftReturn) else ([], LeftUndef UbAssert)
    | RUnfulfilled r =>
        if (uncaught =? 0)%nat
        then let msg := stringify_unfulfilled r in (write out msg, LeftError (ErrUnfulfilled msg r))
        else ([], LeftReturn)
    | RError k n =>
        if (uncaught =? 0)%nat
        then let msg := sequence_error_message k n in (write out msg, LeftError (ErrMessage msg))
        else ([], LeftReturn)
    | RUnhandled c r x => (write out (stringify_unhandled type_name c r (what_of x)), LeftReturn)
    end.

  (** The callbacks of BasicReporter, Reporter.hpp 329-333. *)
  Inductive channel : Type := ChSuccess | ChWarning | ChFail.

  Context (callback : channel -> string -> reaction).

  (** send_success, send_warning, Reporter.hpp 386-394. *)
  Definition send (ch : channel) (msg : string) : list (channel * string) * left_by :=
    ([(ch, msg)], match callback ch msg with Returns => LeftReturn | Throws => LeftCallback | Terminates => LeftTerminate end).

  (** send_fail, Reporter.hpp 396-403. *)
  Definition send_fail (msg : string) : list (channel * string) * left_by :=
    ([(ChFail, msg)], match callback ChFail msg with Returns => LeftUndef UbUnreachable | Throws => LeftCallback | Terminates => LeftTerminate end).

  (** An exception leaving a noexcept function. *)
  Definition no_throw (l : left_by) : left_by :=
    match l with LeftError _ | LeftCallback => LeftTerminate | other => other end.

  (** BasicReporter, Reporter.hpp 329-404: the invoked callbacks with their argument, and how the function is left. *)
  Definition basic_report (r : report) (uncaught : nat) : list (channel * string) * left_by :=
    match r with
    | RNoMatch c l => send_fail (stringify_no_match type_name c l)
    | RInapplicable c l => send_fail (stringify_inapplicable type_name c l)
    | RFull c m => let '(calls, l) := send ChSuccess (stringify_full type_name c m) in (calls, no_throw l)
    | RUnfulfilled r => if (uncaught =? 0)%nat then send_fail (stringify_unfulfilled r) else ([], LeftReturn)
    | RError k n => if (uncaught =? 0)%nat then send_fail (sequence_error_message k n) else ([], LeftReturn)
    | RUnhandled c r x => send ChWarning (stringify_unhandled type_name c r (what_of x))
    end.
End Reporters.
