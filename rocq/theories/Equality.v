(** * Equality: model of operator== of the reports (Reports.hpp) and of is_same_source_location (Utility.hpp) *)

From Verif Require Import Base Signature Sequence Control Printer Reports Expectation.

(** std::source_location holds pointers to the names. [memory]: the null-terminated string at an address.
    Simplification: the strings are immutable and always valid (they are static data of the implementation). *)
Definition memory : Type := nat -> string.
Record raw_loc : Type := mkRawLoc { rl_file : nat; rl_func : nat; rl_line : nat; rl_col : nat }.

(** is_same_source_location, Utility.hpp 40-50: the names are compared as string_views, not as pointers. *)
Definition is_same_source_location (mem : memory) (a b : raw_loc) : bool :=
  String.eqb (mem (rl_file a)) (mem (rl_file b)) && String.eqb (mem (rl_func a)) (mem (rl_func b)) &&
  (rl_line a =? rl_line b) && (rl_col a =? rl_col b).

(** operator== of std::vector: the sizes, then the elements. *)
Fixpoint vec_eqb {A : Type} (eqb : A -> A -> bool) (a b : list A) : bool :=
  match a, b with
  | [], [] => true
  | x :: a', y :: b' => eqb x y && vec_eqb eqb a' b'
  | _, _ => false
  end.
Definition vector_eqb {A : Type} (eqb : A -> A -> bool) (a b : list A) : bool := (length a =? length b) && vec_eqb eqb a b.

(** operator== of std::optional. *)
Definition optional_eqb {A : Type} (eqb : A -> A -> bool) (a b : option A) : bool :=
  match a, b with
  | None, None => true
  | Some x, Some y => eqb x y
  | _, _ => false
  end.

(** The defaulted operator== of sequence::rating, Fwd.hpp 223-230. *)
Definition rating_eqb (a b : rating) : bool := (r_priority a =? r_priority b)%Z && (r_tag a =? r_tag b).

(** operator== of control_state_t, i.e. of std::variant (the index, then the values) and the defaulted ones of its alternatives,
    Reports.hpp 47-48, 58-59, 69-76. *)
Definition state_eqb (a b : control_state) : bool :=
  match a, b with
  | StInapplicable mi ma c rs ts, StInapplicable mi' ma' c' rs' ts' =>
      (mi =? mi')%Z && (ma =? ma')%Z && (c =? c')%Z && vector_eqb rating_eqb rs rs' && vector_eqb Nat.eqb ts ts'
  | StApplicable mi ma c rs, StApplicable mi' ma' c' rs' =>
      (mi =? mi')%Z && (ma =? ma')%Z && (c =? c')%Z && vector_eqb rating_eqb rs rs'
  | StSaturated mi ma c ts, StSaturated mi' ma' c' ts' =>
      (mi =? mi')%Z && (ma =? ma')%Z && (c =? c')%Z && vector_eqb Nat.eqb ts ts'
  | _, _ => false
  end.

(** The reports as they are in memory: as in Reports.v, but with raw locations. Reports.hpp 204-221, 319-325, 406-438. *)
Record raw_call_report : Type := mkRawCall {
  rc_ret : ty; rc_args : list (ty * string); rc_loc : raw_loc; rc_category : category; rc_constness : constness }.
Record raw_exp_report : Type := mkRawExp {
  re_loc : option raw_loc; re_final : option string; re_times : option string; re_descs : list (option string) }.
Record raw_match_report : Type := mkRawMatch {
  rm_loc : option raw_loc; rm_final : option string; rm_state : control_state; rm_policies : list policy_report }.

(** CallReport::Arg, Reports.hpp 213-214. *)
Definition arg_eqb (a b : ty * string) : bool := (fst a =? fst b) && String.eqb (snd a) (snd b).

(** operator== of CallReport, Reports.hpp 223-231. *)
Definition call_report_eqb (mem : memory) (a b : raw_call_report) : bool :=
  (rc_ret a =? rc_ret b) && vector_eqb arg_eqb (rc_args a) (rc_args b) && is_same_source_location mem (rc_loc a) (rc_loc b) &&
  (category_bits (rc_category a) =? category_bits (rc_category b))%N &&
  (constness_bits (rc_constness a) =? constness_bits (rc_constness b))%N.

(** The comparison of the optional locations: both are empty, or both have a value and these are the same, Reports.hpp 333-335, 446-448.
    operator* of an empty optional is undefined. *)
Definition has_value {A : Type} (o : option A) : bool := match o with Some _ => true | None => false end.
Definition deref {A : Type} (o : option A) : outcome A := match o with Some x => Ret x | None => Undef UbNull end.
Definition locations_eqb (mem : memory) (a b : option raw_loc) : outcome bool :=
  if Bool.eqb (has_value a) (has_value b) then
    if negb (has_value a) then Ret true
    else obind (deref a) (fun x => obind (deref b) (fun y => Ret (is_same_source_location mem x y)))
  else Ret false.

(** operator== of ExpectationReport, Reports.hpp 327-336. *)
Definition exp_report_eqb (mem : memory) (a b : raw_exp_report) : outcome bool :=
  if optional_eqb String.eqb (re_final a) (re_final b) && optional_eqb String.eqb (re_times a) (re_times b) &&
     vector_eqb (optional_eqb String.eqb) (re_descs a) (re_descs b)
  then locations_eqb mem (re_loc a) (re_loc b) else Ret false.

(** MatchReport::Expectation, Reports.hpp 431-432. *)
Definition policy_report_eqb (a b : policy_report) : bool :=
  Bool.eqb (pr_matching a) (pr_matching b) && optional_eqb String.eqb (pr_desc a) (pr_desc b).

(** operator== of MatchReport, Reports.hpp 440-449; MatchReport::Finalize, 417-418. *)
Definition match_report_eqb (mem : memory) (a b : raw_match_report) : outcome bool :=
  if optional_eqb String.eqb (rm_final a) (rm_final b) && state_eqb (rm_state a) (rm_state b) &&
     vector_eqb policy_report_eqb (rm_policies a) (rm_policies b)
  then locations_eqb mem (rm_loc a) (rm_loc b) else Ret false.
