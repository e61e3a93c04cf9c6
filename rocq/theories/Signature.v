(** * Signature: model of /repo/include/mimic++/TypeTraits.hpp, the overload related parts of Utility.hpp
    and of Mock.hpp. Types are abstract identifiers ([ty]). *)

From Verif Require Import Base.

(** A C++ type; number 0 is [void], 1 is [int] etc., the numbers have no other meaning. *)
Definition ty : Type := nat.

(** The ref-qualifier of a function type. *)
Inductive refq : Type := RefNone | RefL | RefR.

(** A function type [Return(Params...) const? ref? noexcept?], as covered by the partial specialisations in
    TypeTraits.hpp 34-488. [sg_variadic]: C-style ellipsis. Simplification: volatile is not covered by the code either. *)
Record signature : Type := mkSig {
  sg_ret : ty;
  sg_params : list ty;
  sg_variadic : bool;
  sg_const : bool;
  sg_ref : refq;
  sg_noexcept : bool
}.

(** signature_add_noexcept, TypeTraits.hpp 34-176. *)
Definition add_noexcept (s : signature) : signature :=
  mkSig (sg_ret s) (sg_params s) (sg_variadic s) (sg_const s) (sg_ref s) true.

(** signature_remove_noexcept, TypeTraits.hpp 190-332. *)
Definition remove_noexcept (s : signature) : signature :=
  mkSig (sg_ret s) (sg_params s) (sg_variadic s) (sg_const s) (sg_ref s) false.

(** signature_decay, TypeTraits.hpp 346-488. *)
Definition decay (s : signature) : signature :=
  mkSig (sg_ret s) (sg_params s) (sg_variadic s) false RefNone false.

(** signature_return_type, TypeTraits.hpp 502-519. *)
Definition return_type (s : signature) : ty := sg_ret (decay s).

(** signature_param_type, TypeTraits.hpp 533-546; no specialisation exists for variadic signatures. *)
Definition param_type (i : nat) (s : signature) : option ty :=
  if sg_variadic (decay s) then None else nth_error (sg_params (decay s)) i.

(** signature_param_list, TypeTraits.hpp 560-572; no specialisation exists for variadic signatures. *)
Definition param_list (s : signature) : option (list ty) :=
  if sg_variadic (decay s) then None else Some (sg_params (decay s)).

Definition list_ty_eqb (a b : list ty) : bool := if list_eq_dec Nat.eq_dec a b then true else false.

Definition refq_eqb (a b : refq) : bool :=
  match a, b with
  | RefNone, RefNone | RefL, RefL | RefR, RefR => true
  | _, _ => false
  end.

Definition signature_eq_dec (a b : signature) : {a = b} + {a <> b}.
Proof.
  repeat (decide equality).
Defined.
Definition signature_eqb (a b : signature) : bool := if signature_eq_dec a b then true else false.

(** The seven specialisations for equal parameter lists, TypeTraits.hpp 599-639 (arguments: const and ref qualifier of
    [First] and of [Second]; both without noexcept). *)
Definition overload_table (c1 : bool) (r1 : refq) (c2 : bool) (r2 : refq) : bool :=
  match c1, r1, c2, r2 with
  | false, RefNone, true, RefNone => true     (* 599-603 *)
  | false, RefL, true, RefL => true           (* 605-609 *)
  | false, RefL, false, RefR => true          (* 611-615 *)
  | false, RefL, true, RefR => true           (* 617-621 *)
  | true, RefL, false, RefR => true           (* 623-627 *)
  | true, RefL, true, RefR => true            (* 629-633 *)
  | false, RefR, true, RefR => true           (* 635-639 *)
  | _, _, _, _ => false
  end.

(** detail::is_overloadable_with, TypeTraits.hpp 580-639 for signatures without ellipsis and without noexcept.
    The specialisations at 599-639 require equal parameter lists and no noexcept. Simplification: for signatures with ellipsis
    the constraint at 590-594 is a hard error (signature_param_list inherits from itself, 560-566), i.e. no program; the
    answers given here for them have no meaning, no theorem is about them, and [ONewMock] (World.v) excludes them. *)
Definition overloadable_table_applies (f s : signature) : bool :=
  list_ty_eqb (sg_params f) (sg_params s)
  && negb (sg_variadic f) && negb (sg_variadic s)
  && negb (sg_noexcept f) && negb (sg_noexcept s)
  && overload_table (sg_const f) (sg_ref f) (sg_const s) (sg_ref s).

(** The instantiation with [reversed = true], TypeTraits.hpp 580-587 and 599-639: only the table is left. *)
Definition detail_overloadable_reversed (f s : signature) : bool := overloadable_table_applies f s.

(** The instantiation with [reversed = false], TypeTraits.hpp 580-639. *)
Definition detail_overloadable (f s : signature) : bool :=
  if negb (list_ty_eqb (sg_params (decay f)) (sg_params (decay s))) then true     (* 589-597 *)
  else if overloadable_table_applies f s then true                               (* 599-639 *)
  else detail_overloadable_reversed s f.                                         (* 580-587 *)

(** is_overloadable_with, TypeTraits.hpp 650-656. *)
Definition is_overloadable_with (f s : signature) : bool :=
  detail_overloadable (remove_noexcept f) (remove_noexcept s).

(** is_overload_set, TypeTraits.hpp 670-683. The recursion is on the list of remaining signatures:
    [<First>] is true, [<First, Second, Others...>] is the conjunction of
    [is_overloadable_with<First, Second>], [<First, Others...>] and [<Second, Others...>]. *)
Fixpoint overload_set_from (first : signature) (rest : list signature) : bool :=
  match rest with
  | [] => true
  | second :: others =>
      is_overloadable_with first second
      && overload_set_from first others
      && overload_set_from second others
  end.
Definition is_overload_set (sigs : list signature) : bool :=
  match sigs with
  | [] => false      (* Mock requires at least one signature, Mock.hpp 595-597 *)
  | first :: rest => overload_set_from first rest
  end.

(** unique, Utility.hpp 125-148: [uniques] is the already parsed part. *)
Fixpoint unique_onto (uniques : list signature) (rest : list signature) : list signature :=
  match rest with
  | [] => uniques
  | first :: others =>
      unique_onto (if existsb (signature_eqb first) uniques then uniques else uniques ++ [first]) others
  end.

(** unique_list_t, Utility.hpp 150-151. *)
Definition unique_list (sigs : list signature) : list signature := unique_onto [] sigs.

(** ValueCategory and Constness, Fwd.hpp 187-199. *)
Inductive category : Type := CatL | CatR | CatAny.
Inductive constness : Type := NonConst | AsConst | ConstAny.

(** The enumerator values, Fwd.hpp 187-199. *)
Definition category_bits (c : category) : N :=
  match c with CatL => 1 | CatR => 2 | CatAny => 3 end%N.
Definition constness_bits (c : constness) : N :=
  match c with NonConst => 1 | AsConst => 2 | ConstAny => 3 end%N.

(** is_matching, Utility.hpp 110-120. *)
Definition is_matching_constness (a b : constness) : bool :=
  negb (N.land (constness_bits a) (constness_bits b) =? 0)%N.
Definition is_matching_category (a b : category) : bool :=
  negb (N.land (category_bits a) (category_bits b) =? 0)%N.

(** The template arguments of the twelve MockFrontend specialisations, Mock.hpp 68-519. *)
Definition frontend_category (s : signature) : category :=
  match sg_ref s with RefNone => CatAny | RefL => CatL | RefR => CatR end.
Definition frontend_constness (s : signature) : constness :=
  if sg_const s then AsConst else NonConst.
(** operator() of these specialisations is noexcept for the last six, Mock.hpp 290-519. *)
Definition frontend_noexcept (s : signature) : bool := sg_noexcept s.

(** Index of the collection used by an overload: std::get<...> of the tuple built from unique_list_t of the decayed
    signatures, Mock.hpp 616-624, 648-657. *)
Fixpoint index_of (s : signature) (l : list signature) : option nat :=
  match l with
  | [] => None
  | x :: l' => if signature_eqb s x then Some 0 else option_map S (index_of s l')
  end.
Definition mock_collections (sigs : list signature) : list signature := unique_list (map decay sigs).
Definition overload_collection (sigs : list signature) (s : signature) : option nat :=
  index_of (decay s) (mock_collections sigs).
