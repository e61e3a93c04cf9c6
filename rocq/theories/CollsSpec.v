(** * CollsSpec: happens-before with the counters of all std::shared_ptrs. *)

From Verif Require Import Base Race World Conc Lifetime LifetimeSpec Colls.

(** As in LifetimeSpec.v, with the releases of collections. *)
Inductive hhb (tr : htrace) : nat -> nat -> Prop :=
| hhb_program i j t a b x y : i < j -> nth_error tr i = Some (t, a, x) -> nth_error tr j = Some (t, b, y) -> hhb tr i j
| hhb_mutex i j t t' a b m : i < j -> nth_error tr i = Some (t, a, HL (LE (MUnlock m))) -> nth_error tr j = Some (t', b, HL (LE (MLock m))) -> hhb tr i j
| hhb_count i j t t' a b q : i < j -> nth_error tr i = Some (t, a, HL (LDrop q)) -> nth_error tr j = Some (t', b, HL (LDrop q)) -> hhb tr i j
| hhb_coll i j t t' a b k : i < j -> nth_error tr i = Some (t, a, HDrop k) -> nth_error tr j = Some (t', b, HDrop k) -> hhb tr i j
| hhb_trans i j k : hhb tr i j -> hhb tr j k -> hhb tr i k.

(** Uses of a collection: of its mutex and of its vector. *)
Inductive use_of (k : nat) : mev -> Prop :=
| UseLock : use_of k (MLock k)
| UseUnlock : use_of k (MUnlock k)
| UseRead : use_of k (MRead (PlVector k))
| UseWrite : use_of k (MWrite (PlVector k)).

Definition uses_at (tr : htrace) (i t : nat) (a : action) (k : nat) : Prop := exists x, use_of k x /\ nth_error tr i = Some (t, a, HL (LE x)).
Definition coll_end_at (tr : htrace) (j t : nat) (k : nat) : Prop := exists b, nth_error tr j = Some (t, b, HKill k).

(** The number of shared_ptrs to collection [k]: one for each overload which uses it, and one for each live expectation in it. *)
Definition coll_owners (w : world) (k : nat) : nat :=
  list_sum (map (fun mk => match mk_colls mk with Some cs => count_occ Nat.eq_dec cs k | None => 0 end) (w_mocks w))
  + length (filter (fun x => eo_alive x && (eo_coll x =? k)) (w_exps w)).

(** The events of Lifetime.v, and the releases of collections, among events. *)
Definition plain_life (l : list hev) : list lev := flat_map (fun y => match y with HL x => [x] | _ => [] end) l.
Definition coll_releases (l : list hev) : list nat := flat_map (fun y => match y with HDrop k => [k] | _ => [] end) l.

(** A call which finds no expectation at all. *)
Definition finds_nothing (w : world) (a : action) (k : nat) : Prop :=
  match a with AMatch _ _ _ _ => nth_error (w_colls w) k = Some [] | _ => False end.

(** Actions which create owners of collections. *)
Definition new_owner (a : action) : bool := match a with AOp (ONewMock _) | AOp (OExpect _ _ _ _ _) => true | _ => false end.

(** Actions which neither use a mutex nor release anything. *)
Definition silent (a : action) : bool :=
  LifetimeSpec.quiet a && match a with AOp (ODestroyMock _) | AOp (OMoveAssignMock _ _) => false | _ => true end.

(** A use of a collection and its end are not ordered. *)
Definition coll_race (tr : htrace) (k : nat) : Prop :=
  exists i j t t' a, uses_at tr i t a k /\ coll_end_at tr j t' k /\ t <> t' /\ ~ hhb tr i j /\ ~ hhb tr j i.
