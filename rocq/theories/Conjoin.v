(** * Conjoin: which expectation expressions compile, and which operator && they use

    Sources: the concepts expectation_policy_for and finalize_policy_for (Expectation.hpp 361-384), the four overloads of operator && of
    BasicExpectationBuilder and finalize (ExpectationBuilder.hpp 60-185), the constructor of ScopedExpectation (Expectation.hpp 660-676).
    Builder.v starts from operands whose kind is known; here the operand is any type at all, and overload resolution ([over.match]) finds
    out what it is. Not modelled: operands which are conversions to a sequence configuration (template argument deduction does not consider
    them), operator && of the user's own, and conversions of operands which depend on the category of the operand. *)

From Verif Require Import Base Signature Expectation Builder Operands.

(** A member function as the concepts look at it: can it be called for a const object, is it declared noexcept, can its result be converted
    to what is asked for? *)
Record member : Type := mkMember { mb_const : bool; mb_noexcept : bool; mb_converts : bool }.

(** The rank of the conversion of an operand to a parameter, [over.best.ics]: it is of the type of the parameter, of a class derived from
    it, or it is converted by a conversion function. *)
Inductive rank : Type := SameType | DerivedClass | UserConversion.
Definition rank_number (r : rank) : nat := match r with SameType => 0 | DerivedClass => 1 | UserConversion => 2 end.

(** The type of an operand, without cv and reference, together with the signature: from which categories it can be constructed
    ([Operands.vcat]), whether it can be destroyed, its members (for the Info of the signature), its relation to TimesConfig and to the
    sequence configurations, and whether it is InitFinalize. *)
Record otype : Type := mkOType {
  ot_from : vcat -> bool;
  ot_destructible : bool;
  ot_is_satisfied : option member;
  ot_matches : option member;
  ot_describe : option member;
  ot_consume : option member;
  ot_finalize : option member;
  ot_times : option rank;
  ot_seqs : option rank;
  ot_init : bool
}.

(** [{ std::as_const(policy).f() } -> std::convertible_to<...>] *)
Definition const_call (m : option member) : bool := match m with Some f => mb_const f && mb_converts f | None => false end.
(** [{ ... } noexcept -> ...] *)
Definition const_call_noexcept (m : option member) : bool :=
  match m with Some f => mb_const f && mb_noexcept f && mb_converts f | None => false end.

(** concept expectation_policy_for, Expectation.hpp 361-370; consume is called for a non-const object, its result is ignored. *)
Definition expectation_policy (t : otype) : bool :=
  ot_from t RV && ot_destructible t && const_call_noexcept (ot_is_satisfied t) && const_call (ot_matches t) && const_call (ot_describe t)
  && match ot_consume t with Some _ => true | None => false end.

(** concept finalize_policy_for, Expectation.hpp 377-384; finalize_call is called for a non-const object. *)
Definition finalize_policy (t : otype) : bool :=
  ot_from t RV && ot_destructible t && match ot_finalize t with Some f => mb_converts f | None => false end.

(** The template arguments of a builder which matter: timesConfigured, and whether FinalizePolicy is InitFinalize. ExpectationBuilder.hpp
    18-24. *)
Record bstate : Type := mkBState { bs_times : bool; bs_init : bool }.

(** The overloads: 60-81, 83-110, 112-130, 132-152. *)
Inductive which : Type := OvFinal | OvPolicy | OvTimes | OvSeqs.
Definition which_eqb (a b : which) : bool :=
  match a, b with OvFinal, OvFinal | OvPolicy, OvPolicy | OvTimes, OvTimes | OvSeqs, OvSeqs => true | _, _ => false end.

(** A parameter [X&&] which is no forwarding reference: only non-const rvalues of X and of classes derived from X bind directly; a
    conversion function makes a temporary. *)
Definition binds (r : option rank) (c : vcat) : option rank :=
  match r with
  | Some UserConversion => Some UserConversion
  | Some r => match c with RV => Some r | _ => None end
  | None => None
  end.

Definition candidate_of (w : which) (r : option rank) : list (which * rank) := match r with Some r => [(w, r)] | None => [] end.

(** The viable overloads for an operand of type [t] and category [c]; all of them are members with the ref-qualifier &&, so the builder (of
    category [bc]) must be a non-const rvalue. [Policy&&] is a forwarding reference: it binds to everything without a conversion. For
    [Config<Sequences...>&&] the template arguments are deduced, also from a base class, but not through conversion functions. *)
Definition candidates (b : bstate) (bc : vcat) (t : otype) (c : vcat) : list (which * rank) :=
  match bc with
  | RV =>
      candidate_of OvFinal (if bs_init b && negb (ot_init t) && finalize_policy t then Some SameType else None)
      ++ candidate_of OvPolicy (if expectation_policy t then Some SameType else None)
      ++ candidate_of OvTimes (if bs_times b then None else binds (ot_times t) c)
      ++ candidate_of OvSeqs (match ot_seqs t with Some UserConversion => None | r => binds r c end)
  | _ => []
  end.

(** [over.match.best]: among overloads with conversions of the same rank a function which is no template is better (OvTimes), then the more
    specialised template (OvSeqs). The constraints of OvFinal and OvPolicy come from different concepts, none is more constrained. *)
Definition preferred (a b : which) : bool :=
  match a, b with
  | OvTimes, OvTimes => false
  | OvTimes, _ => true
  | OvSeqs, OvFinal | OvSeqs, OvPolicy => true
  | _, _ => false
  end.
Definition better (a b : which * rank) : bool :=
  (rank_number (snd a) <? rank_number (snd b)) || ((rank_number (snd a) =? rank_number (snd b)) && preferred (fst a) (fst b)).

Inductive resolution : Type := Selected (w : which) | NoOverload | Ambiguous.
Definition resolve (l : list (which * rank)) : resolution :=
  match l with
  | [] => NoOverload
  | _ => match filter (fun x => forallb (fun y => which_eqb (fst x) (fst y) || better x y) l) l with
         | x :: _ => Selected (fst x)
         | [] => Ambiguous
         end
  end.

(** The result of an expression [builder && operand] at compile time. [Inside]: an overload is selected, but its body does not compile. *)
Inductive conjunct : Type := Formed (w : which) (b : bstate) | Failed (r : resolution) | Inside (w : which).

(** The bodies: the policy is initialised by std::forward<Policy>(policy) (78, 106), for which the constructor of the new builder demands
    constructible_from (34-35); everything else is moved, which the concepts guarantee. *)
Definition conjoin (b : bstate) (bc : vcat) (t : otype) (c : vcat) : conjunct :=
  match resolve (candidates b bc t c) with
  | Selected OvFinal => if ot_from t c then Formed OvFinal (mkBState (bs_times b) false) else Inside OvFinal
  | Selected OvPolicy => if ot_from t c then Formed OvPolicy b else Inside OvPolicy
  | Selected OvTimes => Formed OvTimes (mkBState true (bs_init b))
  | Selected OvSeqs => Formed OvSeqs b
  | r => Failed r
  end.

(** A chain of operands; the intermediate builders are temporaries. *)
Fixpoint chain (b : bstate) (l : list (otype * vcat)) : option (list which * bstate) :=
  match l with
  | [] => Some ([], b)
  | (t, c) :: l' =>
      match conjoin b RV t c with
      | Formed w b' => option_map (fun r => (w :: fst r, snd r)) (chain b' l')
      | _ => None
      end
  end.

(** ** The end of the expression *)

(** Return types: void (0 in Signature.v), the others with or without a usable move constructor (references have no need of one). *)
Definition result_converts (movable : nat -> bool) (from_void : bool) (r : nat) : bool :=
  (* std::convertible_to<From, Return>, where From is void or Return itself: is_convertible looks at an xvalue of From. *)
  if from_void then r =? 0 else (r =? 0) || movable r.

(** finalize, ExpectationBuilder.hpp 154-185: the static_assert; for InitFinalize (ExpectationPolicies.hpp 21-28) finalize_call returns void,
    every other finalizer has been accepted by OvFinal. *)
Definition finalize_compiles (movable : nat -> bool) (r : nat) (b : bstate) : bool :=
  if bs_init b then result_converts movable true r else true.

(** The constraint of the constructor of ScopedExpectation, Expectation.hpp 666-670: only the declaration of finalize (a member with the
    ref-qualifier &&, not constrained) is looked at. *)
Definition scoped_from_builder (bc : vcat) : bool := match bc with RV => true | _ => false end.

(** A whole expectation: ScopedExpectation e = mock.expect_call(...) && ... ; *)
Definition expression_compiles (movable : nat -> bool) (r : nat) (l : list (otype * vcat)) : bool :=
  match chain (mkBState false true) l with Some (_, b) => finalize_compiles movable r b | None => false end.

(** ** The types of the library *)

Definition no_members (from : vcat -> bool) : otype := mkOType from true None None None None None None None false.
Definition everywhere (c : vcat) : bool := true.
Definition moves_only (c : vcat) : bool := match c with RV => true | _ => false end.

Inductive lib_operand : Type :=
| LTimes                                   (* detail::TimesConfig, ControlPolicy.hpp 49-86 *)
| LSeqs                                    (* sequence::detail::Config, Sequence.hpp 284-343 *)
| LInit                                    (* InitFinalize, ExpectationPolicies.hpp 21-28 *)
| LResult (copies invocable : bool)        (* ReturnsResultOf, 88-123: is the action copyable, are the constraints 104-108 met? *)
| LThrows                                  (* Throws, 125-150; the exception is copyable by 126-127 *)
| LRequirement (copies fits : bool)        (* Requirement, 152-209: the constraints of matches, 180-183 *)
| LQualifier                               (* Category, Constness, 30-88 *)
| LSideEffect (invocable : bool).          (* SideEffectAction, 211-262: moves only (227-228); the constraint of consume, 253 *)

(** Static member functions can be called for const objects. A noexcept which depends on user supplied types (104-118, 253-257) counts as absent. *)
Definition static_noexcept : member := mkMember true true true.
Definition policy_type (from : vcat -> bool) (matches : option member) (describe_noexcept : bool) (consume : option member) : otype :=
  mkOType from true (Some static_noexcept) matches (Some (mkMember true describe_noexcept true)) consume None None None false.
Definition finalizer_type (from : vcat -> bool) (finalize : member) (init : bool) : otype :=
  mkOType from true None None None None (Some finalize) None None init.
Definition copies_if (b : bool) : vcat -> bool := if b then everywhere else moves_only.

Definition lib_type (movable : nat -> bool) (r : nat) (o : lib_operand) : otype :=
  match o with
  | LTimes => mkOType everywhere true None None None None None (Some SameType) None false
  | LSeqs => mkOType everywhere true None None None None None None (Some SameType) false
  | LInit => finalizer_type everywhere (mkMember true true (result_converts movable true r)) true
  | LResult copies true => finalizer_type (copies_if copies) (mkMember false false (result_converts movable false r)) false
  | LResult copies false => no_members (copies_if copies)
  | LThrows => finalizer_type everywhere (mkMember false false (result_converts movable false r)) false
  | LRequirement copies fits => policy_type (copies_if copies) (if fits then Some (mkMember true false true) else None) false (Some static_noexcept)
  | LQualifier => policy_type everywhere (Some static_noexcept) false (Some static_noexcept)
  | LSideEffect invocable =>
      policy_type moves_only (Some static_noexcept) true (if invocable then Some (mkMember false false true) else None)
  end.

(** The operands of Builder.v: what the factories return, whose constraints are met. *)
Definition clause_operand (cl : clause) : lib_operand :=
  match cl with
  | ClTimes _ => LTimes
  | ClSeq _ => LSeqs
  | ClFinal FInit => LInit
  | ClFinal (FThrows _) => LThrows
  | ClFinal _ => LResult true true
  | ClPolicy (PArg _ _ _) => LRequirement true true
  | ClPolicy (PCategory _) | ClPolicy (PConstness _) => LQualifier
  | ClPolicy _ => LSideEffect true
  end.
Definition clause_kind (cl : clause) : which :=
  match cl with ClTimes _ => OvTimes | ClSeq _ => OvSeqs | ClFinal _ => OvFinal | ClPolicy _ => OvPolicy end.
