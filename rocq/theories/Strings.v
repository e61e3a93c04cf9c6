(** * Strings: model of the string abstraction (/repo/include/mimic++/String.hpp), of the string matchers
    (/repo/include/mimic++/Matcher.hpp 505-795) and of the choice of default argument matchers (ExpectationBuilder.hpp 195-250). *)

From Verif Require Import Base Signature Printer Matcher.
Local Open Scope string_scope.

(** ** string_traits, String.hpp 213-301 *)

(** The character types, is_character, String.hpp 96-171. *)
Inductive char_type : Type := CtChar | CtSChar | CtUChar | CtWchar | Ct8 | Ct16 | Ct32.

Definition char_type_eqb (x y : char_type) : bool :=
  match x, y with
  | CtChar, CtChar | CtSChar, CtSChar | CtUChar, CtUChar | CtWchar, CtWchar | Ct8, Ct8 | Ct16, Ct16 | Ct32, Ct32 => true
  | _, _ => false
  end.

(** A string object; the code units as integers. [SPtr None]: the null pointer; [SPtr (Some l)]: a pointer to the first of the elements [l],
    which reach to the end of the array object. Character arrays are handled as pointers (255-263), and std::tuple{...} stores them as such. *)
Inductive str : Type :=
| SString (l : list Z)
| SView (l : list Z)
| SPtr (o : option (list Z)).

(** std::basic_string_view (const Char* ), i.e. Traits::length. *)
Fixpoint until_nul (l : list Z) : outcome (list Z) :=
  match l with
  | [] => Undef UbDangling
  | c :: l' => if (c =? 0)%Z then Ret [] else obind (until_nul l') (fun r => Ret (c :: r))
  end.

(** string_traits<T>::view, 236-300; Matcher.hpp make_view, 507-513. *)
Definition view (s : str) : outcome (list Z) :=
  match s with
  | SString l => Ret l
  | SView l => Ret l
  | SPtr None => Undef UbNull
  | SPtr (Some l) => until_nul l
  end.

(** ** Case folding, string_case_fold_converter<char>, String.hpp 404-424 *)

(** std::toupper in the "C" locale: defined for the values of unsigned char and EOF. *)
Definition toupper (c : Z) : outcome Z :=
  if ((c <? -1) || (255 <? c))%Z then Undef UbDomain
  else Ret (if (97 <=? c) && (c <=? 122) then c - 32 else c)%Z.

(** The values of char; [signed] is a property of the platform. *)
Definition is_char (signed : bool) (c : Z) : Prop := if signed then (-128 <= c <= 127)%Z else (0 <= c <= 255)%Z.
(** Conversion of an unsigned char to char. *)
Definition to_char (signed : bool) (u : Z) : Z := if signed && (127 <? u)%Z then (u - 256)%Z else u.

(** The lambda, 415-421. *)
Definition fold_char (signed : bool) (c : Z) : outcome Z := obind (toupper c) (fun u => Ret (to_char signed (u mod 256)%Z)).

(** ** The algorithms on views. The elements are computed on access (views::transform is lazy), hence lists of outcomes. *)

(** Comparison of two dereferenced iterators (Matcher.hpp 601-603, 650-652 and others). *)
Definition same (a b : outcome Z) : outcome bool := obind a (fun x => obind b (fun y => Ret (x =? y)%Z)).

(** std::ranges::mismatch (650, 677, 705, 733): the remaining ranges. *)
Fixpoint mismatch_ (l r : list (outcome Z)) : outcome (list (outcome Z) * list (outcome Z)) :=
  match l, r with
  | a :: l', b :: r' => obind (same a b) (fun e => if e then mismatch_ l' r' else Ret (l, r))
  | _, _ => Ret (l, r)
  end.

Definition empty_ {A : Type} (l : list A) : bool := match l with [] => true | _ => false end.

(** The inner loop of std::ranges::search in libstdc++, behind a matching first element: found, end of the target reached, or mismatch. *)
Inductive probe : Type := Found | Exhausted | Mismatch.
Fixpoint probe_ (l r : list (outcome Z)) : outcome probe :=
  match r with
  | [] => Ret Found
  | b :: r' =>
      match l with
      | [] => Ret Exhausted
      | a :: l' => obind (same a b) (fun e => if e then probe_ l' r' else Ret Mismatch)
      end
  end.
(** The outer loops of std::ranges::search for the pattern [b :: r]: is the found sub-range not empty? *)
Fixpoint search_loop (l : list (outcome Z)) (b : outcome Z) (r : list (outcome Z)) : outcome bool :=
  match l with
  | [] => Ret false
  | a :: l' =>
      obind (same a b) (fun e =>
        if e then
          obind (probe_ l' r) (fun p =>
            match p with
            | Found => Ret true
            | Exhausted => Ret false
            | Mismatch => search_loop l' b r
            end)
        else search_loop l' b r)
  end.
Definition search_ (l r : list (outcome Z)) : outcome bool :=
  match r with [] => Ret false | b :: r' => search_loop l b r' end.

(** The shapes of the four comparisons: ranges::equal on (sized) views, 597-604; starts_with, 645-655; ends_with, 699-710; contains, 755-765.
    The case-insensitive overloads, 621-628, 672-682, 727-738, 782-790, differ only in the folding of the elements. *)
Definition equal_views (t p : list (outcome Z)) : outcome bool := ranges_equal true same t p.
Definition starts_views (t p : list (outcome Z)) : outcome bool := obind (mismatch_ t p) (fun '(_, rest) => Ret (empty_ rest)).
Definition ends_views (t p : list (outcome Z)) : outcome bool := starts_views (rev t) (rev p).
Definition contains_views (t p : list (outcome Z)) : outcome bool := if empty_ p then Ret true else search_ t p.

(** ** The matchers *)

(** Target and pattern as views with elements [f] (601-603, 625-627, 649-652 and others). *)
Definition on_views (f : Z -> outcome Z) (alg : list (outcome Z) -> list (outcome Z) -> outcome bool) (t p : str) : outcome bool :=
  obind (view t) (fun tv => obind (view p) (fun pv => alg (map f tv) (map f pv))).

(** matches::str::eq, starts_with, ends_with, contains: 592-609, 640-660, 694-715, 750-770. *)
Definition str_eq (p : str) : pmatcher str str := mkPM (binary (on_views Ret equal_views)) "is equal to {}" "is not equal to {}" [p].
Definition str_starts (p : str) : pmatcher str str := mkPM (binary (on_views Ret starts_views)) "starts with {}" "starts not with {}" [p].
Definition str_ends (p : str) : pmatcher str str := mkPM (binary (on_views Ret ends_views)) "ends with {}" "ends not with {}" [p].
Definition str_contains (p : str) : pmatcher str str := mkPM (binary (on_views Ret contains_views)) "contains {}" "contains not {}" [p].

(** The overloads with case_insensitive, for char strings: 616-633, 667-687, 722-743, 777-795. *)
Definition str_eq_ci (signed : bool) (p : str) : pmatcher str str :=
  mkPM (binary (on_views (fold_char signed) equal_views)) "is case-insensitively equal to {}" "is case-insensitively not equal to {}" [p].
Definition str_starts_ci (signed : bool) (p : str) : pmatcher str str :=
  mkPM (binary (on_views (fold_char signed) starts_views)) "case-insensitively starts with {}" "case-insensitively starts not with {}" [p].
Definition str_ends_ci (signed : bool) (p : str) : pmatcher str str :=
  mkPM (binary (on_views (fold_char signed) ends_views)) "case-insensitively ends with {}" "case-insensitively ends not with {}" [p].
Definition str_contains_ci (signed : bool) (p : str) : pmatcher str str :=
  mkPM (binary (on_views (fold_char signed) contains_views)) "case-insensitively contains {}" "case-insensitively contains not {}" [p].

(** ** Printing of strings, Printer.hpp 472-546 *)

(** string_literal_prefix, String.hpp 173-213. *)
Definition literal_prefix (ct : char_type) : string :=
  match ct with CtChar | CtSChar | CtUChar => "" | CtWchar => "L" | Ct8 => "u8" | Ct16 => "u" | Ct32 => "U" end.
(** Bits of the character types (LP64, Linux). *)
Definition char_bits (ct : char_type) : Z := match ct with CtChar | CtSChar | CtUChar | Ct8 => 8 | Ct16 => 16 | CtWchar | Ct32 => 32 end.
(** A code unit as unsigned integer (to_dump, 518-522, or the byte written for char). *)
Definition unit_of (ct : char_type) (c : Z) : N := Z.to_N (c mod 2 ^ char_bits ct).
Definition bytes_of (l : list Z) : string := string_of_list_ascii (map (fun c => ascii_of_N (unit_of CtChar c)) l).

(** Printer<String>::print, Printer.hpp 474-594. *)
Definition print_str (ct : char_type) (s : str) : outcome string :=
  obind (view s) (fun l =>
    Ret (print (match ct with CtChar => VStr (bytes_of l) | _ => VWStr (literal_prefix ct) (map (unit_of ct) l) end))).

(** An argument of a call: a value or a string (character pointers are strings); and the part of make_call_report (Reports.hpp 242-263) which
    prints the arguments. handle_call (Expectation.hpp 296-367) makes a call report on all of its paths. *)
Inductive arg : Type :=
| AVal (v : val)
| AStr (ct : char_type) (s : str).
Definition print_arg (a : arg) : outcome string :=
  match a with AVal v => Ret (print v) | AStr ct s => print_str ct s end.
Definition print_args (l : list arg) : outcome (list string) := omap print_arg l.

(** The description argument of matches::instance, Matcher.hpp 485: the stored pointer is printed as a string if the instance is a single
    character object ([Some (ct, c)]: of value [c]), 455-470 and 472-546 of Printer.hpp. *)
Definition show_instance (object : option (char_type * Z)) (address : N) : outcome string :=
  match object with
  | None => Ret (print (VPtr address))
  | Some (ct, c) => print_str ct (SPtr (Some [c]))
  end.

(** ** What the matchers keep of their arguments *)

(** Objects in memory, by address; a pattern given as lvalue, rvalue, view or array; an expected range as lvalue or rvalue. *)
Definition memory : Type := N -> list Z.
Inductive pattern_expr : Type :=
| EStringLvalue (a : N)      (* lvalue of std::string: copied into the tuple *)
| EStringRvalue (l : list Z) (* std::string: moved into the tuple *)
| EViewOf (a : N)            (* std::string_view on the object: the view is copied *)
| EArray (a : N)             (* character array: decays to a pointer *)
| ERangeLvalue (a : N)       (* range::eq: std::views::all makes a ref_view *)
| ERangeRvalue (l : list Z). (* range::eq: std::views::all makes an owning_view *)
Inductive stored : Type :=
| StValue (l : list Z)
| StReference (a : N).
(** The tuple elements, Matcher.hpp 610, 661, 840 etc. *)
Definition store (m : memory) (e : pattern_expr) : stored :=
  match e with
  | EStringLvalue a => StValue (m a)
  | EStringRvalue l | ERangeRvalue l => StValue l
  | EViewOf a | EArray a | ERangeLvalue a => StReference a
  end.
(** The elements seen later, by the predicates at Matcher.hpp 597-604 and others. *)
Definition load (m : memory) (s : stored) : list Z :=
  match s with StValue l => l | StReference a => m a end.
(** The elements meant when the matcher is created. *)
Definition given (m : memory) (e : pattern_expr) : list Z :=
  match e with
  | EStringRvalue l | ERangeRvalue l => l
  | EStringLvalue a | EViewOf a | EArray a | ERangeLvalue a => m a
  end.

(** ** make_arg_matcher, ExpectationBuilder.hpp 197-221 *)

(** What the overloads look at: is the argument a matcher for the parameter, the character types of parameter and argument if they are strings,
    are parameter and argument equality comparable. *)
Record arg_traits : Type := mkTraits {
  at_matcher_for : bool;
  at_param_string : option char_type;
  at_arg_string : option char_type;
  at_comparable : bool
}.
Inductive arg_rule : Type :=
| UseMatcher          (* priority 2 *)
| UseStrEq            (* priority 1 *)
| UseEq               (* priority 0 *)
| NoOverload          (* requirement_for not satisfied *)
| HardError.          (* static_assert of check_string_compatibility, Matcher.hpp 524-533 *)
Definition make_arg_matcher (t : arg_traits) : arg_rule :=
  if at_matcher_for t then UseMatcher
  else match at_param_string t, at_arg_string t with
       | Some c, Some d => if char_type_eqb c d then UseStrEq else HardError
       | _, _ => if at_comparable t then UseEq else NoOverload
       end.
