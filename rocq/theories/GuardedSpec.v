(** * GuardedSpec: happens-before with the program's mutexes; programs which guard the library. *)

From Verif Require Import Base Race World Conc Lifetime Colls Guarded.

(** As in CollsSpec.v, with the program's mutexes. *)
Inductive ghb (tr : gtrace) : nat -> nat -> Prop :=
| ghb_program i j t a b x y : i < j -> nth_error tr i = Some (t, a, x) -> nth_error tr j = Some (t, b, y) -> ghb tr i j
| ghb_mutex i j t t' a b m : i < j -> nth_error tr i = Some (t, a, GE (HL (LE (MUnlock m)))) -> nth_error tr j = Some (t', b, GE (HL (LE (MLock m)))) -> ghb tr i j
| ghb_count i j t t' a b q : i < j -> nth_error tr i = Some (t, a, GE (HL (LDrop q))) -> nth_error tr j = Some (t', b, GE (HL (LDrop q))) -> ghb tr i j
| ghb_coll i j t t' a b k : i < j -> nth_error tr i = Some (t, a, GE (HDrop k)) -> nth_error tr j = Some (t', b, GE (HDrop k)) -> ghb tr i j
| ghb_user i j t t' a b m : i < j -> nth_error tr i = Some (t, a, GUnlocked m) -> nth_error tr j = Some (t', b, GLocked m) -> ghb tr i j
| ghb_trans i j k : ghb tr i j -> ghb tr j k -> ghb tr i k.

(** The accesses to a place, and its end. *)
Definition touches (p : place) (y : hev) : Prop := y = HL (LE (MRead p)) \/ y = HL (LE (MWrite p)) \/ y = HL (LKill p).
Definition changes (p : place) (y : hev) : Prop := y = HL (LE (MWrite p)) \/ y = HL (LKill p).

(** Two threads touch a place, one of them changes or destroys it, and neither happens before the other. *)
Definition any_race (tr : gtrace) (p : place) : Prop :=
  exists i j t t' a b x y, nth_error tr i = Some (t, a, GE x) /\ nth_error tr j = Some (t', b, GE y) /\ t <> t' /\
    touches p x /\ touches p y /\ (changes p x \/ changes p y) /\ ~ ghb tr i j /\ ~ ghb tr j i.

(** A list or its mutex is used by one thread and destroyed by another one, and neither happens before the other. *)
Definition list_race (tr : gtrace) (k : nat) : Prop :=
  exists i j t t' a b x, nth_error tr i = Some (t, a, GE (HL (LE x))) /\ nth_error tr j = Some (t', b, GE (HKill k)) /\ t <> t' /\
    In x [MLock k; MUnlock k; MRead (PlVector k); MWrite (PlVector k)] /\ ~ ghb tr i j /\ ~ ghb tr j i.

(** Thread [t] has locked [m]. *)
Definition has (g : gworld) (m t : nat) : Prop := In (m, t) (g_held g).

(** No call of thread [t] is under way between its matching and its counting. *)
Definition settled (g : gworld) (t : nat) : Prop := forall th, nth_error (c_threads (gc g)) t = Some th -> t_pending th = None.

(** A program which does everything while it holds the mutex [m], and keeps it from the matching to the counting of a call. *)
Inductive guarded (release : bool) (m : nat) : gworld -> list (nat * gaction) -> Prop :=
| gd_nil g : guarded release m g []
| gd_cons g t x g1 r acts : gstep release g t x = GNext g1 r ->
    match x with GDo _ => has g m t | GUnlock m' => m' = m -> settled g t | GLock _ => True end ->
    guarded release m g1 acts -> guarded release m g ((t, x) :: acts).

(** Each access to [p] is made by a thread which holds [m]. *)
Inductive protected (release : bool) (m : nat) (p : place) : gworld -> list (nat * gaction) -> Prop :=
| pt_nil g : protected release m p g []
| pt_cons g t x g1 r acts : gstep release g t x = GNext g1 r ->
    ((exists y, In (GE y) (gev_of release g t x) /\ touches p y) -> has g m t) ->
    protected release m p g1 acts -> protected release m p g ((t, x) :: acts).
