(** * Reentrant: reporters which use mocks themselves (one thread).

    IReporter is an interface for users (Reporter.hpp 55-149), and its report_full_match may do anything but throw (100-107): call mocks,
    create expectations, end scopes. ExpectationCollection::handle_call invokes it after it has released its mutex and before it consumes
    the chosen expectation (Expectation.hpp 332-340), so a call which was made by the reporter is completed between the two halves of
    the reported call, and may report a match itself.

    Only the callback of a full match is split off. The other callbacks are the last thing which happens to the library's objects in
    their operations (report_no_matches, report_inapplicable_matches, report_error), so that what they do are just further operations; or
    they run while the mutex is held (report_unhandled_exception, report_unfulfilled_expectation: Expectation.hpp 28-46, 276-290, 307-330; see
    C68), where they are modelled as using no mocks. *)

From Verif Require Import Base Sequence Control Signature Printer Reports Expectation Builder World Conc.

(** A call whose report is being delivered: the calls it is nested in, std::uncaught_exceptions at that time, and the arguments for
    the second half, Expectation.hpp 338. *)
Record reported : Type := mkReported {
  p_frames : list frame;
  p_uncaught : nat;
  p_call : nat * call_info * bool
}.

(** The objects together with the running calls of the innermost callback, the calls whose reports are being delivered (innermost
    first), and the counted calls so far. *)
Record qworld : Type := mkQ {
  qw : world;
  q_stack : list reported;
  q_log : list (nat * call_info)
}.

Definition qinit : qworld := mkQ init [] [].

Inductive qop : Type :=
| QOp (o : op)                                         (* any operation but a call *)
| QCall (m ov : nat) (args : list val) (l : loc)       (* a call, up to the callback of its report *)
| QReturn                                              (* the innermost callback returns; its call is counted *)
| QThrow.                                              (* an exception leaves the innermost callback *)

Inductive qstepped : Type :=
| QNext (q : qworld) (r : result)
| QStop
| QWrong (u : ub)
| QInvalid.

Definition qembed (st : list reported) (log : list (nat * call_info)) (s : stepped) : qstepped :=
  match s with
  | Next w r => QNext (mkQ w st log) r
  | Stop => QStop
  | Wrong u => QWrong u
  | Invalid => QInvalid
  end.

(** Frontends, handle_call, report_full_match: Mock.hpp 84-90, Expectation.hpp 301-352, Reporter.hpp 585-594 (noexcept). A callback returns when the
    calls it made are over and no additional exceptions are in flight. *)
Definition qstep (release : bool) (q : qworld) (o : qop) : qstepped :=
  let w := qw q in
  match o with
  | QOp o => if is_call o then QInvalid else qembed (q_stack q) (q_log q) (step w o)
  | QCall m ov args l =>
      match find_overload w m ov with
      | inl s => qembed (q_stack q) (q_log q) s
      | inr (s, coll) =>
          if negb (length args =? length (sg_params s)) then QInvalid
          else
            let ci := mkCall (sg_ret s) (sg_params s) args (frontend_category s) (frontend_constness s) l in
            match match_call w coll ci (frontend_noexcept s) with
            | MOver s' => qembed (q_stack q) (q_log q) s'
            | MChosen w' n =>
                QNext (mkQ (set_frames w' []) (mkReported (w_frames w') (w_uncaught w') (n, ci, frontend_noexcept s) :: q_stack q) (q_log q)) RUnit
            end
      end
  | QReturn =>
      match q_stack q with
      | [] => QInvalid
      | p :: rest =>
          if negb (match w_frames w with [] => true | _ => false end && (w_uncaught w =? p_uncaught p)) then QInvalid
          else
            let '(n, ci, ne) := p_call p in
            qembed rest (q_log q ++ [(n, ci)]) (count_call release (set_frames w (p_frames p)) n ci ne)
      end
  | QThrow => match q_stack q with [] => QInvalid | _ => QStop end
  end.

Inductive qruns (release : bool) : qworld -> list qop -> qworld -> Prop :=
| qr_nil q : qruns release q [] q
| qr_cons q o q1 r ops q2 : qstep release q o = QNext q1 r -> qruns release q1 ops q2 -> qruns release q (o :: ops) q2.
