(** * Race: the accesses to shared memory and the mutexes behind the steps of Conc.v.

    Each step of Conc.v is refined to the list of what it does to memory shared by threads: locking and unlocking the mutex of an
    ExpectationCollection (m_ExpectationsMx, Expectation.hpp 356), reading and writing members, and running user code. Only the order of
    these events matters here; their results are those of Conc.v.

    Simplifications: constructing objects is not listed (making a new object known to other threads is up to the program), nor is the
    destruction of expectations and sequences (Lifetime.v lists it) and the Mock objects themselves. One place stands for
    all members of a sequence (m_Entries, m_Cursor). *)

From Verif Require Import Base Sequence Control Signature Printer Reports Expectation Builder World Conc.

(** Memory shared by threads. *)
Inductive place : Type :=
| PlVector (coll : nat)      (* ExpectationCollection::m_Expectations, Expectation.hpp 355 *)
| PlCount (e : nat)          (* ControlPolicy::m_Count, ControlPolicy.hpp 237 *)
| PlSeq (q : nat)            (* BasicSequence, Sequence.hpp 216-217 *)
| PlReporter.                (* the static of get_reporter, Reporter.hpp 538-545 *)

Inductive report_kind : Type := KNoMatch | KInapplicable | KFull | KUnfulfilled | KError | KUnhandled.

(** Code supplied by the user; [i] is the number of the policy of expectation [e]. *)
Inductive user_code : Type :=
| UMatches (e i : nat)       (* projection and matcher *)
| UDescribe (e i : nat)      (* description of the matcher *)
| UReport (k : report_kind)  (* the installed reporter *)
| USideEffect
| UFinalizer.

Inductive mev : Type :=
| MLock (coll : nat)
| MUnlock (coll : nat)
| MRead (p : place)
| MWrite (p : place)
| MUser (u : user_code).

Definition reads_seqs (ctl : control) : list mev := map (fun '(q, _) => MRead (PlSeq q)) (c_seqs ctl).
Definition writes_seqs (ctl : control) : list mev := map (fun '(q, _) => MWrite (PlSeq q)) (c_seqs ctl).

(** ControlPolicy::state, ControlPolicy.hpp 224-232 with make_control_state 93-160: the sequences are not asked if saturated. *)
Definition state_events (e : nat) (ctl : control) : list mev :=
  MRead (PlCount e) :: (if (c_count ctl =? c_max ctl)%Z then [] else reads_seqs ctl).

Definition is_arg (p : policy) : bool := match p with PArg _ _ _ => true | _ => false end.

(** [policies.describe()...], Expectation.hpp 475-479; ends with the first exception. *)
Fixpoint describe_events (e i : nat) (ps : list policy) : list mev :=
  match ps with
  | [] => []
  | p :: ps' =>
      (if is_arg p then [MUser (UDescribe e i)] else [])
      ++ match policy_describe p with Ret _ => describe_events e (S i) ps' | _ => [] end
  end.

(** BasicExpectation::report, Expectation.hpp 457-482. *)
Definition report_events (e : nat) (x : expectation) : list mev := state_events e (e_ctl x) ++ describe_events e 0 (e_policies x).

(** The vector of MatchReport::Expectation, Expectation.hpp 509-520: matches and describe of each policy in order, up to the first exception. *)
Fixpoint policy_events (e i : nat) (ps : list policy) (c : call_info) : list mev :=
  match ps with
  | [] => []
  | p :: ps' =>
      (if is_arg p then [MUser (UMatches e i)] else [])
      ++ match policy_matches p c with
         | Ret _ =>
             (if is_arg p then [MUser (UDescribe e i)] else [])
             ++ match policy_describe p with Ret _ => policy_events e (S i) ps' c | _ => [] end
         | _ => []
         end
  end.

(** Delivery of a report, Reporter.hpp 547-621. *)
Definition deliver (k : report_kind) : list mev := [MRead PlReporter; MUser (UReport k)].

(** make_match_report, Expectation.hpp 27-46, with BasicExpectation::matches, 502-521. *)
Definition visit_events (ss : seq_store) (c : call_info) (ex : nat * expectation) : list mev :=
  let '(e, x) := ex in
  state_events e (e_ctl x) ++ policy_events e 0 (e_policies x) c
  ++ match exp_matches ss x c with
     | Throw _ => report_events e x ++ match exp_report_of ss x with Ret _ => deliver KUnhandled | _ => [] end
     | _ => []
     end.

(** handle_call up to and including the report of its outcome, Expectation.hpp 300-337, 342-352. The kind of the report is the one
    match_call (Conc.v) delivers; [None]: the program ended while matching. *)
Definition match_events (ss : seq_store) (coll : nat) (c : call_info) (es : list (nat * expectation)) (outcome : option report_kind) : list mev :=
  [MLock coll; MRead (PlVector coll)] ++ flat_map (visit_events ss c) es ++ [MUnlock coll]
  ++ match outcome with Some k => deliver k | None => [] end.

(** The report which ends the matching. *)
Definition outcome_of (w : world) (c : call_info) (es : list (nat * expectation)) : option report_kind :=
  match match_loop (w_reporter w) (w_uncaught w) (w_seqs w) c es (mkLists [] [] [] []) with
  | Ret ml => Some (match ml_full ml with
                    | _ :: _ => KFull
                    | [] => match ml_inapplicable ml with [] => KNoMatch | _ => KInapplicable end
                    end)
  | _ => None
  end.

(** ControlPolicy::consume, ControlPolicy.hpp 208-222, 241-261; the assert exists in debug builds only. *)
Definition count_events (release : bool) (n : nat) (ctl : control) : list mev :=
  (if release then [] else MRead (PlCount n) :: reads_seqs ctl)
  ++ writes_seqs ctl
  ++ [MRead (PlCount n); MWrite (PlCount n)]
  ++ (if (c_count ctl + 1 =? c_min ctl)%Z || (c_count ctl + 1 =? c_max ctl)%Z then writes_seqs ctl else []).

(** BasicExpectationBuilder::finalize (ExpectationBuilder.hpp 154-185): the ControlPolicy enters the sequences (ControlPolicy.hpp 26-47,
    169-181), then ExpectationCollection::push, Expectation.hpp 258-267. *)
Definition expect_events (coll : nat) (b : builder) : list mev :=
  flat_map (fun q => [MRead (PlSeq q); MWrite (PlSeq q)]) (b_seqs b)
  ++ (if (0 =? t_min (b_times b))%Z || (0 =? t_max (b_times b))%Z then map (fun q => MWrite (PlSeq q)) (b_seqs b) else [])
  ++ [MLock coll; MRead (PlVector coll); MWrite (PlVector coll); MUnlock coll].

(** ExpectationCollection::remove, Expectation.hpp 276-289; the report is made while the mutex is held. *)
Definition remove_events (ss : seq_store) (coll e : nat) (x : expectation) : list mev :=
  [MLock coll; MRead (PlVector coll); MWrite (PlVector coll); MRead (PlCount e)]
  ++ (if exp_is_satisfied x then []
      else report_events e x ++ match exp_report_of ss x with Ret _ => deliver KUnfulfilled | _ => [] end)
  ++ [MUnlock coll].

Definition end_events (w : world) (e : nat) : list mev :=
  match nth_error (w_exps w) e with
  | Some eo => remove_events (w_seqs w) (eo_coll eo) e (eo_exp eo)
  | None => []
  end.

(** The errors reported by destroyed sequences (Sequence.hpp 90-109): those the operation adds to the trace. *)
Definition error_events (w : world) (s : stepped) : list mev :=
  match s with
  | Next w' _ =>
      flat_map (fun ev => match ev with EvReport _ (RError _ _) _ => deliver KError | _ => [] end)
        (skipn (length (w_trace w)) (w_trace w'))
  | _ => []
  end.

Definition handle_events (w : world) (h : nat) : list mev :=
  match nth_error (w_scoped w) h with Some (HOwns e) => end_events w e | _ => [] end.

Definition op_events (w : world) (o : op) : list mev :=
  match o with
  | OExpect m ov ms cls l =>
      match find_overload w m ov with
      | inr (s, coll) => match build s ms cls with BOk b => expect_events coll b | _ => [] end
      | inl _ => []
      end
  | OEndScope h => handle_events w h ++ error_events w (step w o)
  | OMoveAssignScoped dst src => (if dst =? src then [] else handle_events w dst) ++ error_events w (step w o)
  | ODropSeq _ => error_events w (step w o)
  | OSatisfied h => match nth_error (w_scoped w) h with Some (HOwns e) => [MRead (PlCount e)] | _ => [] end
  | OInstall _ => [MWrite PlReporter]
  | OAction => [MUser USideEffect]
  | OFinal => [MUser UFinalizer]
  | _ => []
  end.

(** The events of one step of Conc.v. *)
Definition ev_of (release : bool) (c : cworld) (t : nat) (a : action) : list mev :=
  match nth_error (c_threads c) t with
  | None => []
  | Some th =>
      let w := enter (cw c) th in
      match t_pending th, a with
      | None, AOp o => if is_call o then [] else op_events w o
      | None, AMatch m ov args l =>
          match find_overload w m ov with
          | inl _ => []
          | inr (s, coll) =>
              let ci := mkCall (sg_ret s) (sg_params s) args (frontend_category s) (frontend_constness s) l in
              match nth_error (w_colls w) coll with
              | None => []
              | Some l' => match lookup_exps w (rev l') with
                           | None => []
                           | Some es => match_events (w_seqs w) coll ci es (outcome_of w ci es)
                           end
              end
          end
      | Some (n, _, _), ACount =>
          match nth_error (w_exps w) n with Some eo => count_events release n (e_ctl (eo_exp eo)) | None => [] end
      | _, _ => []
      end
  end.

(** The events of an execution, each with its thread. *)
Fixpoint events (release : bool) (c : cworld) (acts : list (nat * action)) : list (nat * mev) :=
  match acts with
  | [] => []
  | (t, a) :: rest =>
      map (pair t) (ev_of release c t a)
      ++ match cstep release c t a with CNext c1 _ => events release c1 rest | _ => [] end
  end.
