(** * Visits: matching as a sequence of visits.

    Conc.v treats the matching of a call as one step. ExpectationCollection::handle_call really visits one expectation after the other
    (Expectation.hpp 307-330). It holds the mutex of its collection meanwhile, but sequences are shared with other mocks, and counting is done
    without mutex (338): between two visits other threads may call other mocks, count calls matched earlier, or create and end expectations of
    other mocks. So may the user code which runs during the visits (matchers, descriptions, a reporter which is told of an unhandled
    exception) in the same thread; here it is one more thread, as in C83. A visit reads the state of the expectation's control
    policy before it evaluates the requirements (Expectation.hpp 508-517), so what these do comes after the visit.

    Simplifications: each visit is atomic and sequentially consistent (cf. Conc.v); if a requirement throws, the state for the report of
    the exception (Expectation.hpp 37-42) is read in the same step. *)

From Verif Require Import Base Sequence Control Signature Printer Reports Expectation Builder World Conc.

(** What a thread is doing: nothing of this kind; visiting the expectations of collection [coll] for a call, whose mutex it holds, with the
    expectations which are left and the local vectors (Expectation.hpp 303-308); or it has chosen expectation [n] and not counted yet (332-338). *)
Inductive phase : Type :=
| Idle
| Visiting (coll : nat) (c : call_info) (ne : bool) (todo : list nat) (ml : match_lists)
| Picked (n : nat) (c : call_info) (ne : bool).

(** The running calls of a thread, its in-flight exceptions, and its phase. *)
Record vthread : Type := mkVT {
  vt_frames : list frame;
  vt_uncaught : nat;
  vt_phase : phase
}.

(** The shared objects, the threads, and the counting steps done so far, as in Conc.v. *)
Record vworld : Type := mkV {
  vw : world;
  v_threads : list vthread;
  v_log : list (nat * nat * call_info)
}.

Definition vinit (threads : nat) : vworld := mkV init (repeat (mkVT [] 0 Idle) threads) [].

Inductive vaction : Type :=
| VOp (o : op)                                            (* any operation but a call *)
| VCall (m ov : nat) (args : list val) (l : loc)          (* a call, up to the acquisition of the mutex *)
| VVisit                                                  (* the next expectation *)
| VChoose                                                 (* after the last one: release the mutex, choose, report *)
| VCount.                                                 (* count the chosen expectation *)

(** [VBlocked]: waits for the mutex of a collection. *)
Inductive vstepped : Type :=
| VNext (v : vworld) (r : result)
| VStop
| VWrong (u : ub)
| VInvalid
| VBlocked.

(** The world as seen by a thread, and back. *)
Definition venter (w : world) (th : vthread) : world := set_uncaught (set_frames w (vt_frames th)) (vt_uncaught th).
Definition vleave (v : vworld) (t : nat) (w : world) (ph : phase) (log : list (nat * nat * call_info)) : vworld :=
  mkV (set_uncaught (set_frames w []) 0) (upd (v_threads v) t (mkVT (w_frames w) (w_uncaught w) ph)) log.

Definition vembed (v : vworld) (t : nat) (log : list (nat * nat * call_info)) (s : stepped) : vstepped :=
  match s with
  | Next w r => VNext (vleave v t w Idle log) r
  | Stop => VStop
  | Wrong u => VWrong u
  | Invalid => VInvalid
  end.

(** Is m_ExpectationsMx (Expectation.hpp 356) of the collection held? It is from 307 to 330. *)
Definition visits (coll : nat) (th : vthread) : bool :=
  match vt_phase th with Visiting k _ _ _ _ => k =? coll | _ => false end.
Definition locked (v : vworld) (coll : nat) : bool := existsb (visits coll) (v_threads v).

(** The collection from which an expectation is removed when the handle gives it up, Expectation.hpp 276-290. *)
Definition wants_handle (w : world) (h : nat) : list nat :=
  match nth_error (w_scoped w) h with
  | Some (HOwns e) => match nth_error (w_exps w) e with Some eo => [eo_coll eo] | None => [] end
  | _ => []
  end.

(** The collections whose mutex an operation takes: push (Expectation.hpp 258-267) and remove (276-290). *)
Definition wants (w : world) (o : op) : list nat :=
  match o with
  | OExpect m ov ms cls _ =>
      match find_overload w m ov with
      | inr (s, coll) => match build s ms cls with BOk _ => [coll] | _ => [] end
      | inl _ => []
      end
  | OEndScope h => wants_handle w h
  | OMoveAssignScoped dst src => if dst =? src then [] else wants_handle w dst
  | _ => []
  end.

(** handle_call after the loop, Expectation.hpp 332-352, up to the report of the chosen expectation (337). *)
Definition choose (w : world) (c : call_info) (ne : bool) (ml : match_lists) : matching :=
  match ml_full ml with
  | first :: others =>
      match pick_best first others with
      | Throw x => MOver (thrown ne w x)
      | Terminate => MOver Stop
      | Undef u => MOver (Wrong u)
      | Ret (n, m) =>
          match react w (RFull (make_call_report c) m) with
          | Throws | Terminates => MOver Stop
          | Returns => MChosen (emit_report w (RFull (make_call_report c) m) [n]) n
          end
      end
  | [] =>
      let rep := match ml_inapplicable ml with
                 | [] => RNoMatch (make_call_report c) (map snd (ml_none ml))
                 | l => RInapplicable (make_call_report c) (map snd l)
                 end in
      let who := match ml_inapplicable ml with
                 | [] => map fst (ml_none ml)
                 | l => map fst l
                 end in
      match react w rep with
      | Returns => MOver (Wrong UbUnreachable)
      | Throws => MOver (thrown ne (emit_report w rep who) EReporter)
      | Terminates => MOver Stop
      end
  end.

(** The body of the loop, Expectation.hpp 308-329, for the expectation [n]; unhandled exceptions are reported at once (39-42). *)
Definition visit (w : world) (c : call_info) (n : nat) (ml : match_lists) : outcome (world * match_lists) :=
  match nth_error (w_exps w) n with
  | None => Undef UbDangling
  | Some eo =>
      obind (match_loop (w_reporter w) (w_uncaught w) (w_seqs w) c [(n, eo_exp eo)] ml) (fun ml' =>
        Ret (emit_unhandled w c (ml_unhandled ml'), mkLists (ml_full ml') (ml_inapplicable ml') (ml_none ml') []))
  end.

(** The frontends and handle_call, Mock.hpp 32-47, 84-90, Expectation.hpp 301-352, in five steps. *)
Definition vstep (release : bool) (v : vworld) (t : nat) (a : vaction) : vstepped :=
  match nth_error (v_threads v) t with
  | None => VInvalid
  | Some th =>
      let w := venter (vw v) th in
      match vt_phase th, a with
      | Idle, VOp o =>
          if is_call o then VInvalid else if existsb (locked v) (wants w o) then VBlocked else vembed v t (v_log v) (step w o)
      | Idle, VCall m ov args l =>
          match find_overload w m ov with
          | inl s => vembed v t (v_log v) s
          | inr (s, coll) =>
              if negb (length args =? length (sg_params s)) then VInvalid
              else if locked v coll then VBlocked
              else
                let ci := mkCall (sg_ret s) (sg_params s) args (frontend_category s) (frontend_constness s) l in
                match nth_error (w_colls w) coll with
                | None => VWrong UbDangling
                | Some lst => VNext (vleave v t w (Visiting coll ci (frontend_noexcept s) (rev lst) (mkLists [] [] [] [])) (v_log v)) RUnit
                end
          end
      | Visiting coll ci ne (n :: todo) ml, VVisit =>
          match visit w ci n ml with
          | Throw x => vembed v t (v_log v) (thrown ne w x)
          | Terminate => VStop
          | Undef u => VWrong u
          | Ret (w', ml') => VNext (vleave v t w' (Visiting coll ci ne todo ml') (v_log v)) RUnit
          end
      | Visiting coll ci ne [] ml, VChoose =>
          match choose w ci ne ml with
          | MOver s => vembed v t (v_log v) s
          | MChosen w' n => VNext (vleave v t w' (Picked n ci ne) (v_log v)) RUnit
          end
      | Picked n ci ne, VCount => vembed v t (v_log v ++ [(t, n, ci)]) (count_call release w n ci ne)
      | _, _ => VInvalid
      end
  end.

(** All interleavings. *)
Inductive vruns (release : bool) : vworld -> list (nat * vaction) -> vworld -> Prop :=
| vr_nil v : vruns release v [] v
| vr_cons v t a v1 r acts v2 : vstep release v t a = VNext v1 r -> vruns release v1 acts v2 -> vruns release v ((t, a) :: acts) v2.
