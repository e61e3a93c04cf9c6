(** * Printing: calls whose arguments can not be printed.

    The text of each argument is produced by mimicpp::print (/repo/include/mimic++/Reports.hpp 242-263), which runs user code: operator<<, std::formatter
    or custom::Printer of the argument's type (Printer.hpp 91-604). Such code may throw. [World] takes it as total; here it may fail. *)

From Verif Require Import Base Sequence Control Signature Printer Reports Expectation Builder World.

(** The printers of the user's types: does printing the value throw, and what? *)
Definition printers : Type := val -> option exn.

(** make_call_report, Reports.hpp 242-263: the arguments are printed from left to right (braced initialisation); the first exception leaves it. *)
Fixpoint unprintable (pr : printers) (args : list val) : option exn :=
  match args with
  | [] => None
  | v :: args' => match pr v with Some x => Some x | None => unprintable pr args' end
  end.

(** The loop of handle_call (Expectation.hpp 307-330) for such a call; the result are the full matches. If a requirement throws, the catch block of
    make_match_report builds the call report (39-42), and the printer's exception leaves a noexcept function (27-31). *)
Fixpoint matches_unprinted (ss : seq_store) (c : call_info) (es : list (nat * expectation)) (full : list (nat * match_report)) :
    outcome (list (nat * match_report)) :=
  match es with
  | [] => Ret full
  | (n, e) :: es' =>
      match exp_matches ss e c with
      | Ret m =>
          matches_unprinted ss c es'
            (match evaluate_match_report m with MatchFull => full ++ [(n, m)] | _ => full end)
      | Throw _ | Terminate => Terminate
      | Undef u => Undef u
      end
  end.

(** handle_call, Expectation.hpp 300-352, for a call whose report can not be made because of [x]: each of the three branches (332-340, 342-347,
    349-351) builds the call report before it does anything else, except for choosing the best match. *)
Definition handle_unprintable (w : world) (coll : nat) (c : call_info) (ne : bool) (x : exn) : stepped :=
  match nth_error (w_colls w) coll with
  | None => Wrong UbDangling
  | Some l =>
      match lookup_exps w (rev l) with
      | None => Wrong UbDangling
      | Some es =>
          match matches_unprinted (w_seqs w) c es [] with
          | Undef u => Wrong u
          | Throw _ | Terminate => Stop
          | Ret [] => thrown ne w x
          | Ret (first :: others) =>
              match pick_best first others with
              | Undef u => Wrong u
              | Throw _ | Terminate => Stop
              | Ret _ => thrown ne w x
              end
          end
      end
  end.

(** operator() of the MockFrontends and BasicMockFrontend::handle_call, Mock.hpp 32-47, 68-519. *)
Definition do_unprintable (w : world) (m ov : nat) (args : list val) (l : loc) (x : exn) : stepped :=
  match find_overload w m ov with
  | inl r => r
  | inr (s, coll) =>
      if negb (length args =? length (sg_params s)) then Invalid
      else handle_unprintable w coll
             (mkCall (sg_ret s) (sg_params s) args (frontend_category s) (frontend_constness s) l)
             (frontend_noexcept s) x
  end.

(** The operations of [World], with printers which may throw. *)
Definition pstep (pr : printers) (w : world) (o : op) : stepped :=
  match o with
  | OCall m ov args l =>
      match unprintable pr args with
      | Some x => do_unprintable w m ov args l x
      | None => step w o
      end
  | _ => step w o
  end.

(** Executions. *)
Inductive prun (pr : printers) : world -> list op -> world -> Prop :=
| prun_nil w : prun pr w [] w
| prun_cons w o w1 r ops w2 : pstep pr w o = Next w1 r -> prun pr w1 ops w2 -> prun pr w (o :: ops) w2.
