(** * Conc: calls from several threads.

    The threads share all objects. A call consists of two steps: ExpectationCollection::handle_call holds the mutex of the
    collection while it matches (Expectation.hpp 307-330) and releases it before the chosen expectation is reported and
    consumed (332-340), so other threads may do anything in between. Side effects and the finalizer are executed by the
    calling thread afterwards. Every other operation is one step.

    Simplifications: steps are atomic and sequentially consistent. The members of ControlPolicy and BasicSequence are plain ints
    and vectors, so that unsynchronised accesses are data races, i.e. undefined behaviour; the model only shows what happens if
    the accesses happen not to overlap. std::uncaught_exceptions is per thread. *)

From Verif Require Import Base Sequence Control Signature Printer Reports Expectation Builder World.

(** ** Release builds: the functions below without their asserts (NDEBUG). *)

(** BasicSequence::consume, set_satisfied and set_saturated, Sequence.hpp 135-156, 178-183. *)
Definition seq_consume_nd (q : bseq) (id : nat) : outcome bseq := Ret (mkSeq (s_strategy q) (s_entries q) id).
Definition seq_set_nd (st : entry_state) (q : bseq) (id : nat) : outcome bseq :=
  if seq_is_valid q id then Ret (mkSeq (s_strategy q) (upd (s_entries q) id st) (s_cursor q)) else Undef UbDomain.

(** ControlPolicy::update_sequence_states, ControlPolicy.hpp 241-261. *)
Definition control_update_nd (ss : seq_store) (c : control) : outcome seq_store :=
  if (c_count c =? c_min c)%Z then for_each_seq (seq_set_nd Satisfied) ss (c_seqs c)
  else if (c_count c =? c_max c)%Z then for_each_seq (seq_set_nd Saturated) ss (c_seqs c)
  else Ret ss.

(** ControlPolicy::consume, ControlPolicy.hpp 208-222. *)
Definition control_consume_nd (ss : seq_store) (c : control) : outcome (seq_store * control) :=
  obind (for_each_seq seq_consume_nd ss (c_seqs c)) (fun ss1 =>
    if (c_count c =? INT_MAX)%Z then Undef UbOverflow
    else
      let c' := mkControl (c_min c) (c_max c) (c_count c + 1) (c_seqs c) in
      obind (control_update_nd ss1 c') (fun ss2 => Ret (ss2, c'))).

(** [release] tells whether asserts are switched off. *)
Definition consume_with (release : bool) : seq_store -> control -> outcome (seq_store * control) :=
  if release then control_consume_nd else control_consume.

(** ** The two steps of a call *)

(** Matching, Expectation.hpp 303-352: either an expectation was chosen and reported, or the call is over. *)
Inductive matching : Type :=
| MChosen (w : world) (n : nat)
| MOver (s : stepped).

(** handle_call up to report_full_match, Expectation.hpp 301-337, 342-352. *)
Definition match_call (w : world) (coll : nat) (c : call_info) (ne : bool) : matching :=
  match nth_error (w_colls w) coll with
  | None => MOver (Wrong UbDangling)
  | Some l =>
      match lookup_exps w (rev l) with
      | None => MOver (Wrong UbDangling)
      | Some es =>
          match match_loop (w_reporter w) (w_uncaught w) (w_seqs w) c es (mkLists [] [] [] []) with
          | Throw x => MOver (thrown ne w x)
          | Terminate => MOver Stop
          | Undef u => MOver (Wrong u)
          | Ret ml =>
              let w1 := emit_unhandled w c (ml_unhandled ml) in
              match ml_full ml with
              | first :: others =>
                  match pick_best first others with
                  | Throw x => MOver (thrown ne w1 x)
                  | Terminate => MOver Stop
                  | Undef u => MOver (Wrong u)
                  | Ret (n, m) =>
                      match react w1 (RFull (make_call_report c) m) with
                      | Throws | Terminates => MOver Stop
                      | Returns => MChosen (emit_report w1 (RFull (make_call_report c) m) [n]) n
                      end
                  end
              | [] =>
                  let rep := match ml_inapplicable ml with
                             | [] => RNoMatch (make_call_report c) (map snd (ml_none ml))
                             | l => RInapplicable (make_call_report c) (map snd l)
                             end in
                  let who := match ml_inapplicable ml with
                             | [] => map fst (ml_none ml)
                             | l => map fst l
                             end in
                  match react w1 rep with
                  | Returns => MOver (Wrong UbUnreachable)
                  | Throws => MOver (thrown ne (emit_report w1 rep who) EReporter)
                  | Terminates => MOver Stop
                  end
              end
          end
      end
  end.

(** exp.consume(call), Expectation.hpp 338, 526-535, through the plain reference obtained while matching (334). *)
Definition count_call (release : bool) (w : world) (n : nat) (c : call_info) (ne : bool) : stepped :=
  match nth_error (w_exps w) n with
  | None => Wrong UbDangling
  | Some eo =>
      if negb (eo_alive eo) then Wrong UbDangling
      else
        let e := eo_exp eo in
        match consume_with release (w_seqs w) (e_ctl e) with
        | Throw x => thrown ne w x
        | Terminate => Stop
        | Undef u => Wrong u
        | Ret (ss, ctl) =>
            match consume_asserts (e_policies e) c with
            | Undef u => Wrong u
            | Throw _ | Terminate => Stop
            | Ret _ =>
                let w3 := set_exps (set_seqs w ss)
                            (upd (w_exps w) n (mkEObj (with_ctl e ctl) (eo_coll eo) (eo_alive eo) (eo_ov eo) (eo_sig eo))) in
                Next (set_frames w3 (mkFrame n (side_effects (e_policies e)) false false ne :: w_frames w3)) RUnit
            end
        end
  end.

(** ** Threads *)

(** The running calls of a thread, its in-flight exceptions, and the call which was matched but not counted yet. *)
Record thread : Type := mkThread {
  t_frames : list frame;
  t_uncaught : nat;
  t_pending : option (nat * call_info * bool)
}.

(** The shared objects (the frames and in-flight exceptions in [cw] are not used), the threads, and the counting steps done so
    far: thread, expectation and call. *)
Record cworld : Type := mkC {
  cw : world;
  c_threads : list thread;
  c_log : list (nat * nat * call_info)
}.

Definition cinit (threads : nat) : cworld := mkC init (repeat (mkThread [] 0 None) threads) [].

Inductive action : Type :=
| AOp (o : op)                                            (* any operation but a call *)
| AMatch (m ov : nat) (args : list val) (l : loc)         (* first step of a call *)
| ACount.                                                 (* second step of the matched call *)

Inductive cstepped : Type :=
| CNext (c : cworld) (r : result)
| CStop
| CWrong (u : ub)
| CInvalid.

(** The world as seen by a thread, and back. *)
Definition enter (w : world) (th : thread) : world := set_uncaught (set_frames w (t_frames th)) (t_uncaught th).
Definition leave (c : cworld) (t : nat) (w : world) (p : option (nat * call_info * bool)) (log : list (nat * nat * call_info)) : cworld :=
  mkC (set_uncaught (set_frames w []) 0) (upd (c_threads c) t (mkThread (w_frames w) (w_uncaught w) p)) log.

Definition embed (c : cworld) (t : nat) (log : list (nat * nat * call_info)) (s : stepped) : cstepped :=
  match s with
  | Next w r => CNext (leave c t w None log) r
  | Stop => CStop
  | Wrong u => CWrong u
  | Invalid => CInvalid
  end.

Definition is_call (o : op) : bool := match o with OCall _ _ _ _ => true | _ => false end.

Definition cstep (release : bool) (c : cworld) (t : nat) (a : action) : cstepped :=
  match nth_error (c_threads c) t with
  | None => CInvalid
  | Some th =>
      let w := enter (cw c) th in
      match t_pending th, a with
      | None, AOp o => if is_call o then CInvalid else embed c t (c_log c) (step w o)
      | None, AMatch m ov args l =>
          match find_overload w m ov with
          | inl s => embed c t (c_log c) s
          | inr (s, coll) =>
              if negb (length args =? length (sg_params s)) then CInvalid
              else
                let ci := mkCall (sg_ret s) (sg_params s) args (frontend_category s) (frontend_constness s) l in
                match match_call w coll ci (frontend_noexcept s) with
                | MOver s' => embed c t (c_log c) s'
                | MChosen w' n => CNext (leave c t w' (Some (n, ci, frontend_noexcept s)) (c_log c)) RUnit
                end
          end
      | Some (n, ci, ne), ACount => embed c t (c_log c ++ [(t, n, ci)]) (count_call release w n ci ne)
      | _, _ => CInvalid
      end
  end.

(** All interleavings. *)
Inductive cruns (release : bool) : cworld -> list (nat * action) -> cworld -> Prop :=
| cr_nil c : cruns release c [] c
| cr_cons c t a c1 r acts c2 : cstep release c t a = CNext c1 r -> cruns release c1 acts c2 -> cruns release c ((t, a) :: acts) c2.
