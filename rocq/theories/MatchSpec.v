(** * MatchSpec: the vocabulary of the statements about matchers, independent of the model's algorithms. *)

From Coq Require Import Permutation Sorted.
From Verif Require Import Base.

(** ** Strings as lists of code units *)

Definition begins_with (t p : list Z) : Prop := exists rest, t = p ++ rest.
Definition finishes_with (t p : list Z) : Prop := exists start, t = start ++ p.
Definition includes (t p : list Z) : Prop := exists start rest, t = start ++ p ++ rest.

(** Two characters which are the same or the two cases of one of the 26 ASCII letters. *)
Definition same_letter (a b : Z) : Prop :=
  a = b \/ (97 <= a <= 122 /\ b = a - 32)%Z \/ (97 <= b <= 122 /\ a = b - 32)%Z.
Definition same_text (t p : list Z) : Prop := Forall2 same_letter t p.

Definition ascii_char (c : Z) : Prop := (0 <= c <= 127)%Z.
Definition ascii_text (l : list Z) : Prop := Forall ascii_char l.

(** ** Ranges *)

(** The same elements up to [E], in any order. *)
Definition rearranged {A : Type} (E : A -> A -> Prop) (l r : list A) : Prop :=
  exists l', Permutation l l' /\ Forall2 E l' r.

(** No element comes before one which is less. *)
Definition in_order {A : Type} (less : A -> A -> Prop) (l : list A) : Prop :=
  forall pre a mid b post, l = pre ++ a :: mid ++ b :: post -> ~ less b a.

Record equivalence {A : Type} (E : A -> A -> Prop) : Prop := {
  eqv_refl : forall a, E a a;
  eqv_sym : forall a b, E a b -> E b a;
  eqv_trans : forall a b c, E a b -> E b c -> E a c
}.

Record weak_order {A : Type} (less : A -> A -> Prop) : Prop := {
  wo_irrefl : forall a, ~ less a a;
  wo_trans : forall a b c, less a b -> less b c -> less a c;
  wo_incomparable : forall a b c, ~ less a b -> ~ less b c -> ~ less a c
}.

(** [f] decides [P]. *)
Definition decides {A B : Type} (f : A -> B -> bool) (P : A -> B -> Prop) : Prop := forall a b, f a b = true <-> P a b.

Record total_order {A : Type} (less : A -> A -> Prop) : Prop := {
  to_irrefl : forall a, ~ less a a;
  to_trans : forall a b c, less a b -> less b c -> less a c;
  to_total : forall a b, less a b \/ a = b \/ less b a
}.

(** ** Text *)

Definition no_braces (s : string) : Prop :=
  Forall (fun c => c <> "{"%char /\ c <> "}"%char) (list_ascii_of_string s).
