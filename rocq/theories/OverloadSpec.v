(** * OverloadSpec: the language's answers for calls through overload sets, in words of the programmer. *)

From Verif Require Import Base Signature Printer Strings Overload.

(** The object may be used with a function of this qualification. *)
Definition object_fits (o : object_expr) (s : signature) : Prop :=
  (ob_const o = true -> sg_const s = true) /\
  (sg_ref s = RefL -> ob_rvalue o = true -> sg_const s = true) /\
  (sg_ref s = RefR -> ob_rvalue o = true).

(** Of two functions which fit the object, the first one fits better. *)
Definition fits_better (o : object_expr) (a b : signature) : Prop :=
  (sg_const a = false /\ sg_const b = true) \/ (ob_rvalue o = true /\ sg_ref a = RefR /\ sg_ref b = RefL).

(** The qualifications (const, ref-qualifier) in the order they are tried for an object. Functions with the same parameters either all
    have a ref-qualifier or none of them, so the place of the unqualified ones does not matter. *)
Definition preference (o : object_expr) : list (bool * refq) :=
  match ob_const o, ob_rvalue o with
  | false, false => [(false, RefNone); (true, RefNone); (false, RefL); (true, RefL)]
  | true, false => [(true, RefNone); (true, RefL)]
  | false, true => [(false, RefNone); (true, RefNone); (false, RefR); (true, RefR); (true, RefL)]
  | true, true => [(true, RefNone); (true, RefR); (true, RefL)]
  end.
Definition qualification (s : signature) : bool * refq := (sg_const s, sg_ref s).

(** The function with the first qualification in the list which any function has. *)
Fixpoint first_with (quals : list (bool * refq)) (sigs : list signature) : option signature :=
  match quals with
  | [] => None
  | q :: quals' =>
      match find (fun s => Bool.eqb (sg_const s) (fst q) && refq_eqb (sg_ref s) (snd q)) sigs with
      | Some s => Some s
      | None => first_with quals' sigs
      end
  end.

(** The arguments of a call fit the parameters, either without or with an explicit location at the end. *)
Definition call_fits (la : language) (args : list nat) (s : signature) : Prop :=
  Forall2 (fun a p => la_converts la a p = true) args (sg_params s) \/
  exists args' l, args = args' ++ [l] /\ Forall2 (fun a p => la_converts la a p = true) args' (sg_params s) /\
    la_converts la l (la_location la) = true.

(** The arguments of an expect_call fit the parameters. *)
Definition expect_fits (la : language) (args : list nat) (s : signature) : Prop :=
  Forall2 (fun a p => make_arg_matcher (la_traits la a p) = UseMatcher \/ make_arg_matcher (la_traits la a p) = UseStrEq \/
                      make_arg_matcher (la_traits la a p) = UseEq) args (sg_params s).

(** Checking whether they fit is an error. *)
Definition expect_error (la : language) (args : list nat) (s : signature) : Prop :=
  length args = length (sg_params s) /\
  exists i a p, nth_error args i = Some a /\ nth_error (sg_params s) i = Some p /\ make_arg_matcher (la_traits la a p) = HardError.

(** Some argument converts better to the parameter of the first function; the location is the last parameter. *)
Definition converts_better (la : language) (args : list nat) (a b : signature) : Prop :=
  exists i x p q, nth_error args i = Some x /\ nth_error (sg_params a ++ [la_location la]) i = Some p /\
    nth_error (sg_params b ++ [la_location la]) i = Some q /\ la_better la x p q = true.

(** A call prefers the first function: the object or an argument fits better and nothing fits worse. *)
Definition call_prefers (la : language) (o : object_expr) (args : list nat) (a b : signature) : Prop :=
  (fits_better o a b \/ converts_better la args a b) /\ ~ fits_better o b a /\ ~ converts_better la args b a.
