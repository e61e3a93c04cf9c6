(** * SigSpec: the language rules for overloads. *)

From Verif Require Import Base Signature.

(** Two non-static member functions of the same name may be overloaded ([over.load]): their parameter lists differ, or both or
    none of them have a ref-qualifier and they differ in const or ref-qualifier. Return types and noexcept play no role. *)
Definition may_overload (a b : signature) : Prop :=
  sg_params a <> sg_params b \/
  ((sg_ref a = RefNone <-> sg_ref b = RefNone) /\ (sg_const a <> sg_const b \/ sg_ref a <> sg_ref b)).

(** Every two of them may be overloaded. *)
Definition pairwise {A} (R : A -> A -> Prop) (l : list A) : Prop :=
  forall i j a b, i <> j -> nth_error l i = Some a -> nth_error l j = Some b -> R a b.
