(** * Specialise: the template specialisations of TypeTraits.hpp, Call.hpp and Mock.hpp, one by one

    Signature.v says what the traits compute. Here the hand written partial specialisations are listed as they stand in the source (each
    row with its line), together with the part of the language which selects among them ([temp.spec.partial.match]). A function type
    may also be volatile or variadic, and a template argument may be no function type at all. *)

From Verif Require Import Base Signature.

(** The qualifiers of a function type; the rows of the source have no volatile ([qs]). *)
Record quals : Type := mkQuals { q_variadic : bool; q_const : bool; q_volatile : bool; q_ref : refq; q_noexcept : bool }.
Definition qs (variadic const : bool) (ref : refq) (ne : bool) : quals := mkQuals variadic const false ref ne.
Definition quals_eq_dec (a b : quals) : {a = b} + {a <> b}.
Proof. repeat (decide equality). Defined.
Definition quals_eqb (a b : quals) : bool := if quals_eq_dec a b then true else false.

(** A template argument: a function type, or any other type. *)
Inductive targ : Type :=
| TFun (ret : ty) (params : list ty) (q : quals)
| TOther (t : ty).

(** What [X<T>::type] (or [::value]) is: the member; nothing, because only the declaration of the primary template fits (a substitution
    failure where the standard allows one); or an error which ends the compilation. *)
Inductive inst (A : Type) : Type :=
| Has (a : A)
| NoMember
| HardError.
Arguments Has {A} _.
Arguments NoMember {A}.
Arguments HardError {A}.

(** In a base clause or in the condition of a static member both failures end the compilation. *)
Definition needed {A B : Type} (i : inst A) (f : A -> inst B) : inst B :=
  match i with Has a => f a | NoMember | HardError => HardError end.

(** The partial specialisations which match; two of them are ambiguous, for none of the rows below is more special than another. *)
Definition select {A : Type} (pattern : A -> quals) (rows : list A) (q : quals) : inst A :=
  match filter (fun r => quals_eqb (pattern r) q) rows with
  | [] => NoMember
  | [r] => Has r
  | _ => HardError
  end.

(** A specialisation [X<Return(Params...) a>] with [using type = Return(Params...) b;]: the pair of [a] and [b]. *)
Definition row : Type := (quals * quals)%type.
Definition apply_rows (rows : list row) (t : targ) : inst targ :=
  match t with
  | TFun r ps q => match select fst rows q with Has x => Has (TFun r ps (snd x)) | NoMember => NoMember | HardError => HardError end
  | TOther _ => NoMember
  end.

(** signature_add_noexcept, TypeTraits.hpp 34-176 (primary template: Fwd.hpp 27-28). *)
Definition add_noexcept_rows : list row := [
  (qs false false RefNone false, qs false false RefNone true);  (* 35 *)  (qs true false RefNone false, qs true false RefNone true);  (* 41 *)
  (qs false false RefNone true, qs false false RefNone true);  (* 47 *)  (qs true false RefNone true, qs true false RefNone true);  (* 53 *)
  (qs false true RefNone false, qs false true RefNone true);  (* 59 *)  (qs true true RefNone false, qs true true RefNone true);  (* 65 *)
  (qs false true RefNone true, qs false true RefNone true);  (* 71 *)  (qs true true RefNone true, qs true true RefNone true);  (* 77 *)
  (qs false false RefL false, qs false false RefL true);  (* 83 *)  (qs true false RefL false, qs true false RefL true);  (* 89 *)
  (qs false false RefL true, qs false false RefL true);  (* 95 *)  (qs true false RefL true, qs true false RefL true);  (* 101 *)
  (qs false true RefL false, qs false true RefL true);  (* 107 *)  (qs true true RefL false, qs true true RefL true);  (* 113 *)
  (qs false true RefL true, qs false true RefL true);  (* 119 *)  (qs true true RefL true, qs true true RefL true);  (* 125 *)
  (qs false false RefR false, qs false false RefR true);  (* 131 *)  (qs true false RefR false, qs true false RefR true);  (* 137 *)
  (qs false false RefR true, qs false false RefR true);  (* 143 *)  (qs true false RefR true, qs true false RefR true);  (* 149 *)
  (qs false true RefR false, qs false true RefR true);  (* 155 *)  (qs true true RefR false, qs true true RefR true);  (* 161 *)
  (qs false true RefR true, qs false true RefR true);  (* 167 *)  (qs true true RefR true, qs true true RefR true)  (* 173 *)
].

(** signature_remove_noexcept, TypeTraits.hpp 190-332 (primary template: Fwd.hpp 43-44). *)
Definition remove_noexcept_rows : list row := [
  (qs false false RefNone false, qs false false RefNone false);  (* 191 *)  (qs true false RefNone false, qs true false RefNone false);  (* 197 *)
  (qs false false RefNone true, qs false false RefNone false);  (* 203 *)  (qs true false RefNone true, qs true false RefNone false);  (* 209 *)
  (qs false true RefNone false, qs false true RefNone false);  (* 215 *)  (qs true true RefNone false, qs true true RefNone false);  (* 221 *)
  (qs false true RefNone true, qs false true RefNone false);  (* 227 *)  (qs true true RefNone true, qs true true RefNone false);  (* 233 *)
  (qs false false RefL false, qs false false RefL false);  (* 239 *)  (qs true false RefL false, qs true false RefL false);  (* 245 *)
  (qs false false RefL true, qs false false RefL false);  (* 251 *)  (qs true false RefL true, qs true false RefL false);  (* 257 *)
  (qs false true RefL false, qs false true RefL false);  (* 263 *)  (qs true true RefL false, qs true true RefL false);  (* 269 *)
  (qs false true RefL true, qs false true RefL false);  (* 275 *)  (qs true true RefL true, qs true true RefL false);  (* 281 *)
  (qs false false RefR false, qs false false RefR false);  (* 287 *)  (qs true false RefR false, qs true false RefR false);  (* 293 *)
  (qs false false RefR true, qs false false RefR false);  (* 299 *)  (qs true false RefR true, qs true false RefR false);  (* 305 *)
  (qs false true RefR false, qs false true RefR false);  (* 311 *)  (qs true true RefR false, qs true true RefR false);  (* 317 *)
  (qs false true RefR true, qs false true RefR false);  (* 323 *)  (qs true true RefR true, qs true true RefR false)  (* 329 *)
].

(** signature_decay, TypeTraits.hpp 346-488 (primary template: Fwd.hpp 59-60). *)
Definition decay_rows : list row := [
  (qs false false RefNone false, qs false false RefNone false);  (* 347 *)  (qs false true RefNone false, qs false false RefNone false);  (* 353 *)
  (qs false false RefL false, qs false false RefNone false);  (* 359 *)  (qs false true RefL false, qs false false RefNone false);  (* 365 *)
  (qs false false RefR false, qs false false RefNone false);  (* 371 *)  (qs false true RefR false, qs false false RefNone false);  (* 377 *)
  (qs false false RefNone true, qs false false RefNone false);  (* 383 *)  (qs false true RefNone true, qs false false RefNone false);  (* 389 *)
  (qs false false RefL true, qs false false RefNone false);  (* 395 *)  (qs false true RefL true, qs false false RefNone false);  (* 401 *)
  (qs false false RefR true, qs false false RefNone false);  (* 407 *)  (qs false true RefR true, qs false false RefNone false);  (* 413 *)
  (qs true false RefNone false, qs true false RefNone false);  (* 419 *)  (qs true true RefNone false, qs true false RefNone false);  (* 425 *)
  (qs true false RefL false, qs true false RefNone false);  (* 431 *)  (qs true true RefL false, qs true false RefNone false);  (* 437 *)
  (qs true false RefR false, qs true false RefNone false);  (* 443 *)  (qs true true RefR false, qs true false RefNone false);  (* 449 *)
  (qs true false RefNone true, qs true false RefNone false);  (* 455 *)  (qs true true RefNone true, qs true false RefNone false);  (* 461 *)
  (qs true false RefL true, qs true false RefNone false);  (* 467 *)  (qs true true RefL true, qs true false RefNone false);  (* 473 *)
  (qs true false RefR true, qs true false RefNone false);  (* 479 *)  (qs true true RefR true, qs true false RefNone false)  (* 485 *)
].

(** The aliases, Fwd.hpp 36, 52, 68. *)
Definition t_add_noexcept : targ -> inst targ := apply_rows add_noexcept_rows.
Definition t_remove_noexcept : targ -> inst targ := apply_rows remove_noexcept_rows.
Definition t_decay : targ -> inst targ := apply_rows decay_rows.

(** A trait with a specialisation for [Return(Params...)] (and possibly one for [Return(Params..., ...)]), and a general one which inherits
    from the trait of the decayed type. If that is the same type again, the class is its own base and the program is ill-formed. [direct]:
    the member provided by the specialisations which are more special. *)
Definition by_decay {A : Type} (direct : targ -> option (inst A)) (t : targ) : inst A :=
  match direct t with
  | Some x => x
  | None => needed (t_decay t) (fun d => match direct d with Some x => x | None => HardError end)
  end.
Definition plain (q : quals) : bool := quals_eqb q (qs false false RefNone false).
Definition plain_variadic (q : quals) : bool := quals_eqb q (qs true false RefNone false).
Definition is_function (t : targ) : bool := match t with TFun _ _ _ => true | TOther _ => false end.

(** signature_return_type, TypeTraits.hpp 502-519; the general one requires std::is_function_v. *)
Definition t_return_type (t : targ) : inst ty :=
  if is_function t
  then by_decay (fun t => match t with TFun r _ q => if plain q || plain_variadic q then Some (Has r) else None | TOther _ => None end) t
  else NoMember.

(** signature_param_type, TypeTraits.hpp 533-546; std::tuple_element does not accept an index out of range. *)
Definition t_param_type (i : nat) (t : targ) : inst ty :=
  if is_function t
  then by_decay (fun t => match t with
                          | TFun _ ps q => if plain q then Some (match nth_error ps i with Some p => Has p | None => HardError end) else None
                          | TOther _ => None
                          end) t
  else NoMember.

(** signature_param_list, TypeTraits.hpp 560-572. *)
Definition t_param_list (t : targ) : inst (list ty) :=
  if is_function t
  then by_decay (fun t => match t with TFun _ ps q => if plain q then Some (Has ps) else None | TOther _ => None end) t
  else NoMember.

(** call::info_for_signature, Call.hpp 60-77: the template arguments of call::Info. The general one is the primary template. *)
Definition t_info (t : targ) : inst (ty * list ty) :=
  by_decay (fun t => match t with TFun r ps q => if plain q then Some (Has (r, ps)) else None | TOther _ => None end) t.

(** detail::is_overloadable_with, the seven specialisations at TypeTraits.hpp 599-639: patterns of [First] and [Second], which have the
    same parameters. *)
Definition overloadable_rows : list (quals * quals) := [
  (qs false false RefNone false, qs false true RefNone false);  (* 599-603 *)
  (qs false false RefL false, qs false true RefL false);  (* 605-609 *)
  (qs false false RefL false, qs false false RefR false);  (* 611-615 *)
  (qs false false RefL false, qs false true RefR false);  (* 617-621 *)
  (qs false true RefL false, qs false false RefR false);  (* 623-627 *)
  (qs false true RefL false, qs false true RefR false);  (* 629-633 *)
  (qs false false RefR false, qs false true RefR false)  (* 635-639 *)
].
Definition matching_rows (a b : targ) : nat :=
  match a, b with
  | TFun _ ps q, TFun _ ps' q' =>
      if list_ty_eqb ps ps' then length (filter (fun r => quals_eqb (fst r) q && quals_eqb (snd r) q') overloadable_rows) else 0
  | _, _ => 0
  end.

(** The instantiation with [reversed = true], TypeTraits.hpp 580-587, 599-639. *)
Definition t_overloadable_reversed (a b : targ) : inst bool :=
  match matching_rows a b with 0 => Has false | 1 => Has true | _ => HardError end.

(** The instantiation with [reversed = false], TypeTraits.hpp 580-639: to find the matching specialisations, the constraint at 590-594 is
    evaluated; an operand which is no function type makes it unsatisfied. *)
Definition t_params_differ (a b : targ) : inst bool :=
  match t_decay a, t_decay b with
  | HardError, _ | _, HardError => HardError
  | NoMember, _ | _, NoMember => Has false
  | Has a', Has b' =>
      match t_param_list a', t_param_list b' with
      | HardError, _ | _, HardError => HardError
      | NoMember, _ | _, NoMember => Has false
      | Has l, Has l' => Has (negb (list_ty_eqb l l'))
      end
  end.
Definition t_detail_overloadable (a b : targ) : inst bool :=
  match t_params_differ a b with
  | HardError | NoMember => HardError
  | Has true => match matching_rows a b with 0 => Has true | _ => HardError end
  | Has false => match matching_rows a b with 0 => t_overloadable_reversed b a | 1 => Has true | _ => HardError end
  end.

(** is_overloadable_with, TypeTraits.hpp 650-656. *)
Definition t_overloadable (a b : targ) : inst bool :=
  needed (t_remove_noexcept a) (fun a' => needed (t_remove_noexcept b) (fun b' => t_detail_overloadable a' b')).

(** std::conjunction: the operands after the first false one are not instantiated. *)
Fixpoint conjunction (l : list (inst bool)) : inst bool :=
  match l with
  | [] => Has true
  | i :: l' => needed i (fun b => if b then conjunction l' else Has false)
  end.

(** is_overload_set, TypeTraits.hpp 670-683. *)
Fixpoint t_overload_set_from (first : targ) (rest : list targ) : inst bool :=
  match rest with
  | [] => Has true
  | second :: others => conjunction [t_overloadable first second; t_overload_set_from first others; t_overload_set_from second others]
  end.
Definition t_overload_set (l : list targ) : inst bool :=
  match l with [] => NoMember | first :: rest => t_overload_set_from first rest end.

(** A specialisation of MockFrontend: the pattern; the category and constness of its base and those of its alias SuperT, whose functions it
    calls; SignatureT; the qualifiers of operator() and of expect_call. *)
Record frontend : Type := mkFrontend {
  fe_pattern : quals;
  fe_category : category; fe_constness : constness;
  fe_super_category : category; fe_super_constness : constness;
  fe_signature : quals;
  fe_call : quals;
  fe_expect : quals
}.

(** Mock.hpp 68-519. *)
Definition frontends : list frontend := [
  mkFrontend (qs false false RefNone false) CatAny NonConst CatAny NonConst (qs false false RefNone false) (qs false false RefNone false) (qs false false RefNone false);  (* 69 *)
  mkFrontend (qs false true RefNone false) CatAny AsConst CatAny AsConst (qs false true RefNone false) (qs false true RefNone false) (qs false true RefNone false);  (* 106 *)
  mkFrontend (qs false false RefL false) CatL NonConst CatL NonConst (qs false false RefL false) (qs false false RefL false) (qs false false RefL false);  (* 143 *)
  mkFrontend (qs false true RefL false) CatL AsConst CatL AsConst (qs false true RefL false) (qs false true RefL false) (qs false true RefL false);  (* 180 *)
  mkFrontend (qs false false RefR false) CatR NonConst CatR NonConst (qs false false RefR false) (qs false false RefR false) (qs false false RefR false);  (* 217 *)
  mkFrontend (qs false true RefR false) CatR AsConst CatR AsConst (qs false true RefR false) (qs false true RefR false) (qs false true RefR false);  (* 254 *)
  mkFrontend (qs false false RefNone true) CatAny NonConst CatAny NonConst (qs false false RefNone true) (qs false false RefNone true) (qs false false RefNone false);  (* 291 *)
  mkFrontend (qs false true RefNone true) CatAny AsConst CatAny AsConst (qs false true RefNone true) (qs false true RefNone true) (qs false true RefNone false);  (* 328 *)
  mkFrontend (qs false false RefL true) CatL NonConst CatL NonConst (qs false false RefL true) (qs false false RefL true) (qs false false RefL false);  (* 368 *)
  mkFrontend (qs false true RefL true) CatL AsConst CatL AsConst (qs false true RefL true) (qs false true RefL true) (qs false true RefL false);  (* 405 *)
  mkFrontend (qs false false RefR true) CatR NonConst CatR NonConst (qs false false RefR true) (qs false false RefR true) (qs false false RefR false);  (* 445 *)
  mkFrontend (qs false true RefR true) CatR AsConst CatR AsConst (qs false true RefR true) (qs false true RefR true) (qs false true RefR false)  (* 482 *)
].

Definition t_frontend (t : targ) : inst frontend :=
  match t with TFun _ _ q => select fe_pattern frontends q | TOther _ => NoMember end.

(** class Mock, Mock.hpp 595-606: the constraint, then the base classes; SuperT must name the base, otherwise its protected functions are
    not accessible. The same class cannot be a direct base twice. *)
Definition super_ok (f : frontend) : bool :=
  (category_bits (fe_category f) =? category_bits (fe_super_category f))%N && (constness_bits (fe_constness f) =? constness_bits (fe_super_constness f))%N.
Definition targ_eq_dec (a b : targ) : {a = b} + {a <> b}.
Proof. repeat (decide equality). Defined.
Fixpoint distinct (l : list targ) : bool :=
  match l with [] => true | t :: l' => negb (existsb (fun u => if targ_eq_dec t u then true else false) l') && distinct l' end.
Fixpoint all_inst {A B : Type} (f : A -> inst B) (l : list A) : inst (list B) :=
  match l with
  | [] => Has []
  | a :: l' => needed (f a) (fun b => needed (all_inst f l') (fun bs => Has (b :: bs)))
  end.
Definition t_mock (l : list targ) : inst (list frontend) :=
  needed (t_overload_set l) (fun ok =>
    if ok && distinct l
    then needed (all_inst t_frontend l) (fun fs => if forallb super_ok fs then Has fs else HardError)
    else HardError).

(** uint_with_size, TypeTraits.hpp 697-731: the specialisations as pairs of the argument and the size of the type. *)
Definition uint_rows : list (nat * nat) := [(1, 1); (2, 2); (4, 4); (8, 8)].
Definition t_uint_with_size (n : nat) : inst nat :=
  match filter (fun r => fst r =? n) uint_rows with [] => NoMember | [r] => Has (snd r) | _ => HardError end.

(** ** The arguments of a call *)

(** Parameter types as far as std::ref looks at them: std::reference_wrapper<T>, const T, T&, T&&, and everything else. *)
Inductive ptype : Type :=
| PNamed (n : nat)
| PWrapper (t : ptype)
| PConst (t : ptype)
| PLRef (t : ptype)
| PRRef (t : ptype).
Definition ptype_eq_dec (a b : ptype) : {a = b} + {a <> b}.
Proof. repeat (decide equality). Defined.

(** std::remove_reference_t and std::remove_cv_t. *)
Definition remove_reference (t : ptype) : ptype := match t with PLRef u | PRRef u => u | _ => t end.
Definition remove_const (t : ptype) : ptype := match t with PConst u => u | _ => t end.

(** std::ref applied to the name of a parameter, Mock.hpp 88 etc.: the type its result refers to. For a std::reference_wrapper the overload
    [ref(reference_wrapper<T>)] is more special than [ref(T&)], and nothing is wrapped twice ([refwrap.helpers]). *)
Definition std_ref (t : ptype) : ptype :=
  match remove_const (remove_reference t) with PWrapper u => u | _ => remove_reference t end.

(** The parameter of BasicMockFrontend::handle_call, Mock.hpp 33-34, and call::Info::ArgListT, Call.hpp 44. *)
Definition arg_list (params : list ptype) : list ptype := map remove_reference params.

(** The call of handle_call in operator(), Mock.hpp 87-89: a reference wrapper is never converted into the wrapper of a wrapper, since
    the constructor from an rvalue of the wrapped type is deleted ([refwrap.const]). So both tuples must be of the same type. *)
Definition call_compiles (params : list ptype) : bool :=
  if list_eq_dec ptype_eq_dec (map std_ref params) (arg_list params) then true else false.
