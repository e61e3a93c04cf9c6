(** * Foreign: matchers of Catch2 as requirements (/repo/include/mimic++/adapters/Catch2.hpp 82-100), found by the hooks
    (/repo/include/mimic++/Matcher.hpp 25-124) *)

From Verif Require Import Base Sequence Control Signature Printer Reports Expectation Matcher Strings.

(** A matcher type and one object of it, as far as the library looks at them for a parameter of one type.
    - [ft_generic], [ft_untyped]: publicly derived from MatcherGenericBase, MatcherUntypedBase;
    - [ft_match], [ft_matches]: the accessible members [match] and [matches], callable for a const matcher and a target of this type with a
      result convertible to bool ([None]: there is no such member);
    - [ft_describe]: the accessible member [describe] with a result convertible to StringViewT;
    - [ft_movable]: is_move_constructible_v and destructible;
    - [ft_special]: an explicit specialisation of custom::matcher_traits by the user and the functions it offers. *)
Record foreign : Type := mkForeign {
  ft_generic : bool; ft_untyped : bool;
  ft_match : option (val -> ures bool); ft_matches : option (val -> ures bool); ft_describe : option (ures string);
  ft_movable : bool;
  ft_special : option (option (val -> ures bool) * option (ures string)) }.

(** The specialisation of matcher_traits, Catch2.hpp 86-98. It exists if MIMICPP_CONFIG_EXPERIMENTAL_CATCH2_MATCHER_INTEGRATION is defined
    ([integration]) and its constraint (87-88) holds; it offers [matches], if [match] can be called (94), and no [describe]. *)
Definition catch2_traits (integration : bool) (f : foreign) : option (option (val -> ures bool) * option (ures string)) :=
  if integration && (ft_generic f || ft_untyped f) then Some (ft_match f, None) else None.

(** matcher_traits<Matcher>: an explicit specialisation comes before a partial one; the primary template (Matcher.hpp 27-28) is incomplete. *)
Definition traits_of (integration : bool) (f : foreign) : option (option (val -> ures bool) * option (ures string)) :=
  match ft_special f with Some t => Some t | None => catch2_traits integration f end.
Definition traits_matches (integration : bool) (f : foreign) : option (val -> ures bool) :=
  match traits_of integration f with Some (m, _) => m | None => None end.
Definition traits_describe (integration : bool) (f : foreign) : option (ures string) :=
  match traits_of integration f with Some (_, d) => d | None => None end.

(** matches_hook::matches, Matcher.hpp 64-70, and describe_hook::describe, 105-110. *)
Definition foreign_matches (integration : bool) (f : foreign) : option (val -> ures bool) := hook (traits_matches integration f) (ft_matches f).
Definition foreign_describe (integration : bool) (f : foreign) : option (ures string) := hook (traits_describe integration f) (ft_describe f).

(** matcher_for, Matcher.hpp 115-123, and the matcher a Requirement holds (ExpectationPolicies.hpp 183-204). [None]: not a matcher. *)
Definition foreign_matcher (integration : bool) (f : foreign) : option matcher :=
  if ft_movable f then
    match foreign_matches integration f, foreign_describe integration f with
    | Some m, Some d => Some (mkMatcher m d)
    | _, _ => None
    end
  else None.

(** The traits of an operand of expect_call (ExpectationBuilder.hpp 198-220) which is of such a type; it is neither a string nor comparable
    with the parameter, unless the user says so. *)
Definition foreign_traits (integration comparable : bool) (f : foreign) (param : option char_type) : arg_traits :=
  mkTraits (match foreign_matcher integration f with Some _ => true | None => false end) param None comparable.

(** range::each_element(m) and range::any_element(m) with such a matcher (Matcher.hpp 938-990): the predicate calls the member [matches] (948,
    977; otherwise it does not compile), the description is found by the hook (956, 985). *)
Definition foreign_element (integration : bool) (f : foreign) : option (inner val) :=
  let as_answer := option_map (fun (m : val -> ures bool) v => of_ures (m v)) in
  match element_matches (as_answer (traits_matches integration f)) (as_answer (ft_matches f)),
        element_describe (option_map of_ures (traits_describe integration f)) (option_map of_ures (ft_describe f)) with
  | Some m, Some d => Some (mkInner val m d)
  | _, _ => None
  end.
