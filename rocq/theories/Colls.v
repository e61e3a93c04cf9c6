(** * Colls: the ends of the ExpectationCollections in programs with several threads.

    A collection is owned by the overloads of its mock (BasicMockFrontend::m_Expectations, Mock.hpp 62), by the ScopedExpectations
    which entered it (Model::m_Storage, Expectation.hpp 632), and ends with its last owner. The mutex of the collection is a member of it
    (Expectation.hpp 356). The events of Lifetime.v are extended by the releases of these shared_ptrs.

    Simplifications: as in Lifetime.v. Copies which are made while a mock lives and given back to nobody before its next operation are not
    listed: the tuple of collections of the constructor of Mock (Mock.hpp 616-624, 648-657), and the builder of an expectation
    (ExpectationBuilder.hpp 188), whose shared_ptr is moved to the ScopedExpectation. *)

From Verif Require Import Base Signature Expectation World Conc Race Lifetime.

Inductive hev : Type :=
| HL (y : lev)            (* an event of Lifetime.v *)
| HDrop (coll : nat)      (* a shared_ptr to collection [coll] is released *)
| HKill (coll : nat).     (* the collection ends, and its mutex *)

(** The collections of a mock, one for each overload; none after a move (Mock.hpp 640, 645). *)
Definition held_by (mk : mock) : list nat := match mk_colls mk with Some cs => cs | None => [] end.
Definition mock_colls (w : world) (m : nat) : list nat := match nth_error (w_mocks w) m with Some mk => held_by mk | None => [] end.

(** Some shared_ptr refers to collection [k]. *)
Definition coll_in_use (w : world) (k : nat) : bool :=
  existsb (fun mk => existsb (Nat.eqb k) (held_by mk)) (w_mocks w)
  || existsb (fun eo => eo_alive eo && (eo_coll eo =? k)) (w_exps w).

(** Releasing shared_ptrs to the collections [l] in order; [w] is the state without these owners. *)
Fixpoint drop_colls (w : world) (l : list nat) : list hev :=
  match l with
  | [] => []
  | k :: l' => HDrop k :: (if coll_in_use w k || existsb (Nat.eqb k) l' then [] else [HKill k]) ++ drop_colls w l'
  end.

(** ~Model releases m_Expectation, then m_Storage: members are destroyed in reverse order, Expectation.hpp 600-603, 632-633. *)
Definition handle_coll (w : world) (h : nat) : list nat :=
  match nth_error (w_scoped w) h with
  | Some (HOwns e) => match nth_error (w_exps w) e with Some eo => [eo_coll eo] | None => [] end
  | _ => []
  end.

(** The shared_ptrs an operation releases. The frontends are base classes of Mock (Mock.hpp 597-599): the destructor (610) destroys them in
    reverse order, the defaulted move assignment (Mock.hpp 645) assigns them in order. *)
Definition let_go (w : world) (o : op) : list nat :=
  match o with
  | ODestroyMock m => rev (mock_colls w m)
  | OMoveAssignMock dst src => if dst =? src then [] else mock_colls w dst
  | OEndScope h => handle_coll w h
  | OMoveAssignScoped dst src => if dst =? src then [] else handle_coll w dst
  | _ => []
  end.

Definition coll_events (w : world) (o : op) : list hev :=
  match step w o with Next w' _ => drop_colls w' (let_go w o) | _ => [] end.

(** The events of one step of Conc.v. *)
Definition full_of (release : bool) (c : cworld) (t : nat) (a : action) : list hev :=
  map HL (life_of release c t a)
  ++ match nth_error (c_threads c) t with
     | None => []
     | Some th =>
         match t_pending th, a with
         | None, AOp o => if is_call o then [] else coll_events (enter (cw c) th) o
         | _, _ => []
         end
     end.

(** The events of an execution, each with its thread and the action it belongs to. *)
Definition htrace : Type := list (nat * action * hev).
Fixpoint full (release : bool) (c : cworld) (acts : list (nat * action)) : htrace :=
  match acts with
  | [] => []
  | (t, a) :: rest =>
      map (pair (t, a)) (full_of release c t a)
      ++ match cstep release c t a with CNext c1 _ => full release c1 rest | _ => [] end
  end.
