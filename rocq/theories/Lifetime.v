(** * Lifetime: when other threads may still use what is destroyed.

    Race.v lists the accesses of each step of Conc.v. Here the ends of the lifetimes of expectations and sequences are added: the
    destruction of a BasicExpectation (with its ControlPolicy), the release of its shared_ptrs to sequences, and the destruction of
    a BasicSequence by its last owner.

    Simplifications: a step which ends the program is listed like in Race.v. Copying a shared_ptr (an increment without any order) is
    not listed. The shared_ptr of a ScopedExpectation and the one in the list of the overload are released by the same thread, one
    after the other, hence the expectation is destroyed there. Colls.v adds the ends of the collections. *)

From Verif Require Import Base Sequence Control Expectation Builder World Conc Race.

Inductive lev : Type :=
| LE (x : mev)          (* an event of Race.v *)
| LDrop (q : nat)       (* a shared_ptr to sequence [q] is released: an atomic decrement of its counter *)
| LKill (p : place).    (* the object ends of which [p] is a member *)

(** ~BasicSequence, Sequence.hpp 90-109, which may report an error. *)
Definition seq_end (w : world) (s : nat) : list lev :=
  LKill (PlSeq s)
  :: match nth_error (w_seqs w) s with
     | Some q => match seq_dtor_error q with Some _ => map LE (deliver KError) | None => [] end
     | None => []
     end.

(** Releasing the shared_ptrs to the sequences [l] in order (the tuple of ControlPolicy.hpp 239); the last owner destroys the sequence.
    [w] is the state without these owners. *)
Fixpoint drop_events (w : world) (l : list nat) : list lev :=
  match l with
  | [] => []
  | s :: l' => LDrop s :: (if seq_in_use w s || existsb (Nat.eqb s) l' then [] else seq_end w s) ++ drop_events w l'
  end.

(** The end of ~Model, Expectation.hpp 600-603, after [remove] has returned: the expectation is destroyed, then its sequences are released. *)
Definition ending (w : world) (e : nat) : list lev :=
  match nth_error (w_exps w) e with
  | Some eo =>
      LKill (PlCount e)
      :: drop_events (set_exps w (upd (w_exps w) e (mkEObj (eo_exp eo) (eo_coll eo) false (eo_ov eo) (eo_sig eo))))
           (map fst (c_seqs (e_ctl (eo_exp eo))))
  | None => []
  end.

Definition handle_ending (w : world) (h : nat) : list lev :=
  match nth_error (w_scoped w) h with Some (HOwns e) => ending w e | _ => [] end.

(** The lifetimes which an operation ends. *)
Definition endings (w : world) (o : op) : list lev :=
  match step w o with
  | Next _ _ =>
      match o with
      | OEndScope h => handle_ending w h                                                   (* ~ScopedExpectation *)
      | OMoveAssignScoped dst src => if dst =? src then [] else handle_ending w dst        (* the former expectation of [dst] *)
      | ODropSeq s => drop_events (set_iface w (upd (w_iface w) s false)) [s]  (* ~BasicSequenceInterface, Sequence.hpp 263 *)
      | _ => []
      end
  | _ => []
  end.

(** What happens before that. *)
Definition before_endings (w : world) (o : op) : list mev :=
  match o with
  | OEndScope h => handle_events w h
  | OMoveAssignScoped dst src => if dst =? src then [] else handle_events w dst
  | ODropSeq _ => []
  | _ => op_events w o
  end.

(** The events of one step of Conc.v. *)
Definition life_of (release : bool) (c : cworld) (t : nat) (a : action) : list lev :=
  match nth_error (c_threads c) t with
  | None => []
  | Some th =>
      match t_pending th, a with
      | None, AOp o => if is_call o then [] else map LE (before_endings (enter (cw c) th) o) ++ endings (enter (cw c) th) o
      | _, _ => map LE (ev_of release c t a)
      end
  end.

(** The events of an execution, each with its thread and the action it belongs to. *)
Definition ltrace : Type := list (nat * action * lev).
Fixpoint life (release : bool) (c : cworld) (acts : list (nat * action)) : ltrace :=
  match acts with
  | [] => []
  | (t, a) :: rest =>
      map (pair (t, a)) (life_of release c t a)
      ++ match cstep release c t a with CNext c1 _ => life release c1 rest | _ => [] end
  end.
