(** * LifetimeSpec: happens-before with the counters of std::shared_ptr ([util.smartptr.shared], [intro.races] of C++20). *)

From Verif Require Import Base Race World Conc Lifetime.

(** As in RaceSpec.v; in addition, releasing a shared_ptr happens before each later release of a shared_ptr to the same object. *)
Inductive lhb (tr : ltrace) : nat -> nat -> Prop :=
| lhb_program i j t a b x y : i < j -> nth_error tr i = Some (t, a, x) -> nth_error tr j = Some (t, b, y) -> lhb tr i j
| lhb_mutex i j t t' a b m : i < j -> nth_error tr i = Some (t, a, LE (MUnlock m)) -> nth_error tr j = Some (t', b, LE (MLock m)) -> lhb tr i j
| lhb_count i j t t' a b q : i < j -> nth_error tr i = Some (t, a, LDrop q) -> nth_error tr j = Some (t', b, LDrop q) -> lhb tr i j
| lhb_trans i j k : lhb tr i j -> lhb tr j k -> lhb tr i k.

(** Event [i] of the trace is an access of thread [t] to [p], made by action [a]; event [j] is the end of [p]. *)
Definition access_at (tr : ltrace) (i t : nat) (a : action) (p : place) : Prop :=
  nth_error tr i = Some (t, a, LE (MRead p)) \/ nth_error tr i = Some (t, a, LE (MWrite p)).
Definition end_at (tr : ltrace) (j t : nat) (p : place) : Prop := exists b, nth_error tr j = Some (t, b, LKill p).

(** An access and the end of the object are not ordered. *)
Definition end_race (tr : ltrace) (p : place) : Prop :=
  exists i j t t' a, access_at tr i t a p /\ end_at tr j t' p /\ t <> t' /\ ~ lhb tr i j /\ ~ lhb tr j i.

(** The accesses which are made without a mutex: counting an accepted call, and asking a ScopedExpectation. *)
Definition unguarded (a : action) : Prop := a = ACount \/ exists h, a = AOp (OSatisfied h).

(** The number of shared_ptrs to sequence [q]. *)
Definition owners_of (w : world) (q : nat) : nat :=
  (if nth q (w_iface w) false then 1 else 0)
  + list_sum (map (fun x => if eo_alive x then count_occ Nat.eq_dec (map fst (Control.c_seqs (Expectation.e_ctl (eo_exp x)))) q else 0) (w_exps w)).

(** The events of Race.v, and the releases of shared_ptrs, among the events of a step. *)
Definition plain_events (l : list lev) : list mev := flat_map (fun y => match y with LE x => [x] | _ => [] end) l.
Definition releases (l : list lev) : list nat := flat_map (fun y => match y with LDrop q => [q] | _ => [] end) l.

(** Actions which neither use a mutex nor release anything. *)
Definition quiet (a : action) : bool :=
  match a with
  | AMatch _ _ _ _ => false
  | AOp (OExpect _ _ _ _ _) | AOp (OEndScope _) | AOp (OMoveAssignScoped _ _) | AOp (ODropSeq _) => false
  | _ => true
  end.
