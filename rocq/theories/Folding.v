(** * Folding: the string matchers for strings and case folding of the user's own, and for the unicode backend
    (/repo/include/mimic++/Matcher.hpp 505-795, String.hpp 310-540).

    [Strings] models the built-in strings with the built-in folding of char. Here the types of target and pattern and their character type
    are arbitrary (concept string, String.hpp 310-345), as is the converter (string_case_fold_converter, 347-389, which is specialised by the
    user or, with MIMICPP_CONFIG_EXPERIMENTAL_UNICODE_STR_MATCHER, calls una::cases::to_casefold_..., 436-536). Simplification: the elements
    of the converted range are available once the converter has returned. *)

From Verif Require Import Base Signature Printer Matcher.
Local Open Scope string_scope.

Section Folding.
Context {C T P : Type}.
Context (eqc : C -> C -> bool).                (* operator == of the character type *)
Context (view_t : T -> outcome (list C)).      (* string_traits<T>::view, String.hpp 213-301 *)
Context (view_p : P -> outcome (list C)).

(** std::ranges::mismatch, Matcher.hpp 650, 677, 705, 733: the rests of both ranges. *)
Fixpoint mismatch (l r : list C) : list C * list C :=
  match l, r with
  | a :: l', b :: r' => if eqc a b then mismatch l' r' else (l, r)
  | _, _ => (l, r)
  end.
Definition is_end (l : list C) : bool := match l with [] => true | _ => false end.

(** std::ranges::equal, 601-603, 625-627. *)
Fixpoint equal (l r : list C) : bool :=
  match l, r with
  | [], [] => true
  | a :: l', b :: r' => eqc a b && equal l' r'
  | _, _ => false
  end.
(** patternIter == end(pattern), 649-654, 676-681; with std::views::reverse 704-709, 731-737. *)
Definition starts (t p : list C) : bool := is_end (snd (mismatch t p)).
Definition ends (t p : list C) : bool := is_end (snd (mismatch (rev t) (rev p))).
(** Is the range found by std::ranges::search not empty? [p] is not empty. *)
Fixpoint found (t p : list C) : bool := starts t p || match t with [] => false | _ :: t' => found t' p end.
(** 759-764, 786-789. *)
Definition contains (t p : list C) : bool := is_end p || found t p.

(** Both operands of a comparison. The arguments of std::ranges::equal are evaluated in either order; the other matchers make the range of
    the pattern first (649, 676, 704, 731, 759, 786). *)
Definition operands (target_first : bool) (ft : list C -> outcome (list C)) (t : T) (p : P) : outcome (list C * list C) :=
  if target_first then obind (obind (view_t t) ft) (fun tf => obind (obind (view_p p) ft) (fun pf => Ret (tf, pf)))
  else obind (obind (view_p p) ft) (fun pf => obind (obind (view_t t) ft) (fun tf => Ret (tf, pf))).
Definition compare (alg : list C -> list C -> bool) (target_first : bool) (ft : list C -> outcome (list C)) (t : T) (p : P) : outcome bool :=
  obind (operands target_first ft t p) (fun '(tf, pf) => Ret (alg tf pf)).

(** matches::str::eq, starts_with, ends_with, contains: 592-609, 640-660, 694-715, 750-770 (make_view, 507-513). *)
Definition s_eq (order : bool) (p : P) : pmatcher T P := mkPM (binary (compare equal order Ret)) "is equal to {}" "is not equal to {}" [p].
Definition s_starts (p : P) : pmatcher T P := mkPM (binary (compare starts false Ret)) "starts with {}" "starts not with {}" [p].
Definition s_ends (p : P) : pmatcher T P := mkPM (binary (compare ends false Ret)) "ends with {}" "ends not with {}" [p].
Definition s_contains (p : P) : pmatcher T P := mkPM (binary (compare contains false Ret)) "contains {}" "contains not {}" [p].

(** The overloads with case_insensitive: 616-633, 667-687, 722-743, 777-795 (make_case_folded_string, 515-522). *)
Context (conv : list C -> outcome (list C)).
Definition f_eq (order : bool) (p : P) : pmatcher T P :=
  mkPM (binary (compare equal order conv)) "is case-insensitively equal to {}" "is case-insensitively not equal to {}" [p].
Definition f_starts (p : P) : pmatcher T P :=
  mkPM (binary (compare starts false conv)) "case-insensitively starts with {}" "case-insensitively starts not with {}" [p].
Definition f_ends (p : P) : pmatcher T P :=
  mkPM (binary (compare ends false conv)) "case-insensitively ends with {}" "case-insensitively ends not with {}" [p].
Definition f_contains (p : P) : pmatcher T P :=
  mkPM (binary (compare contains false conv)) "case-insensitively contains {}" "case-insensitively contains not {}" [p].
End Folding.
