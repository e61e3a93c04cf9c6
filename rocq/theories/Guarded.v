(** * Guarded: programs with mutexes of their own.

    The documentation of sequences (Sequence.hpp 54-56) asks for explicit synchronisation. Here the threads of Conc.v may also lock and
    unlock mutexes (std::mutex) which belong to the program, around calls and other operations; the library knows nothing of them.

    Simplifications: those of Conc.v. The mutexes of the program are never destroyed. *)

From Verif Require Import Base Race World Conc Lifetime Colls.

Inductive gaction : Type :=
| GLock (m : nat)                   (* m.lock() *)
| GUnlock (m : nat)                 (* m.unlock() *)
| GDo (a : action).                 (* a step of Conc.v *)

(** The state of Conc.v, and the locked mutexes with their threads. *)
Record gworld : Type := mkG { gc : cworld; g_held : list (nat * nat) }.

Definition ginit (threads : nat) : gworld := mkG (cinit threads) [].

(** [GBlocked]: another thread has locked the mutex. [GBroken]: the thread has locked it already, or unlocks a mutex it has not locked;
    both are undefined behaviour of std::mutex. *)
Inductive gstepped : Type :=
| GNext (g : gworld) (r : result)
| GStop
| GWrong (u : ub)
| GInvalid
| GBlocked
| GBroken.

Definition holder (g : gworld) (m : nat) : option nat :=
  match find (fun p => fst p =? m) (g_held g) with Some p => Some (snd p) | None => None end.

Definition gstep (release : bool) (g : gworld) (t : nat) (x : gaction) : gstepped :=
  match x with
  | GLock m =>
      match holder g m with
      | None => GNext (mkG (gc g) ((m, t) :: g_held g)) RUnit
      | Some t' => if t' =? t then GBroken else GBlocked
      end
  | GUnlock m =>
      match holder g m with
      | Some t' => if t' =? t then GNext (mkG (gc g) (filter (fun p => negb (fst p =? m)) (g_held g))) RUnit else GBroken
      | None => GBroken
      end
  | GDo a =>
      match cstep release (gc g) t a with
      | CNext c r => GNext (mkG c (g_held g)) r
      | CStop => GStop
      | CWrong u => GWrong u
      | CInvalid => GInvalid
      end
  end.

(** All interleavings. *)
Inductive gruns (release : bool) : gworld -> list (nat * gaction) -> gworld -> Prop :=
| gr_nil g : gruns release g [] g
| gr_cons g t x g1 r acts g2 : gstep release g t x = GNext g1 r -> gruns release g1 acts g2 -> gruns release g ((t, x) :: acts) g2.

(** The events: those of Colls.v, and those of the program's mutexes. *)
Inductive gev : Type :=
| GE (y : hev)
| GLocked (m : nat)
| GUnlocked (m : nat).

Definition gev_of (release : bool) (g : gworld) (t : nat) (x : gaction) : list gev :=
  match x with
  | GLock m => [GLocked m]
  | GUnlock m => [GUnlocked m]
  | GDo a => map GE (full_of release (gc g) t a)
  end.

Definition gtrace : Type := list (nat * gaction * gev).

Fixpoint gevents (release : bool) (g : gworld) (acts : list (nat * gaction)) : gtrace :=
  match acts with
  | [] => []
  | (t, x) :: rest =>
      match gstep release g t x with
      | GNext g' _ => map (pair (t, x)) (gev_of release g t x) ++ gevents release g' rest
      | _ => []
      end
  end.
