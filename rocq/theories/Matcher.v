(** * Matcher: model of the built-in matchers, /repo/include/mimic++/Matcher.hpp, and of the parts of the standard library they use. *)

From Verif Require Import Base Signature Printer.
Local Open Scope string_scope.

(** ** std::vformat *)

(** The value of an automatic or explicit index of a replacement field, [format.string.general]: either all fields of a format string have an
    index or none. [MAuto n]: [n] fields without index so far. *)
Inductive fmode : Type := MNone | MAuto (n : nat) | MManual.
Definition next_auto (m : fmode) : option (nat * fmode) :=
  match m with MNone => Some (0, MAuto 1) | MAuto n => Some (n, MAuto (S n)) | MManual => None end.
Definition use_index (m : fmode) : option fmode := match m with MAuto _ => None | _ => Some MManual end.

Definition digit_value (c : ascii) : option N :=
  let n := N_of_ascii c in if ((48 <=? n) && (n <=? 57))%N then Some (n - 48)%N else None.

(** Where the reader of a format string is: outside of fields, behind an opening brace, inside of an index ([zero]: which starts with 0),
    behind the colon of the field for argument [i], behind a closing brace. *)
Inductive fstate : Type := FText | FOpen | FIndex (zero : bool) (n : N) | FSpec (i : nat) | FClose.

(** format::vformat with arguments which are already strings (Matcher.hpp 222-229: StringT), [format.string]: replacement fields with or without an
    index, escapes, and errors. std::format_error is a std::runtime_error. Simplification: a format specification which is not empty is not
    modelled (no format string of the library has one), except that it is an error if its argument does not exist. *)
Fixpoint vfmt (st : fstate) (m : fmode) (fmt : string) (args : list string) : outcome string :=
  match fmt with
  | "" => match st with FText => Ret "" | _ => Throw ERuntimeError end
  | String c r =>
      match st with
      | FText =>
          if Ascii.eqb c "{" then vfmt FOpen m r args
          else if Ascii.eqb c "}" then vfmt FClose m r args
          else obind (vfmt FText m r args) (fun s => Ret (String c s))
      | FClose => if Ascii.eqb c "}" then obind (vfmt FText m r args) (fun s => Ret (String "}" s)) else Throw ERuntimeError
      | FOpen =>
          if Ascii.eqb c "{" then obind (vfmt FText m r args) (fun s => Ret (String "{" s))
          else if Ascii.eqb c "}" || Ascii.eqb c ":" then
            match next_auto m with
            | None => Throw ERuntimeError
            | Some (i, m') =>
                match nth_error args i with
                | None => Throw ERuntimeError
                | Some a => if Ascii.eqb c ":" then vfmt (FSpec i) m' r args else obind (vfmt FText m' r args) (fun s => Ret (a ++ s))
                end
            end
          else
            match digit_value c with
            | Some d => vfmt (FIndex (d =? 0)%N d) m r args
            | None => Throw ERuntimeError
            end
      | FIndex zero n =>
          if Ascii.eqb c "}" || Ascii.eqb c ":" then
            match use_index m with
            | None => Throw ERuntimeError
            | Some m' =>
                if (n <? N.of_nat (List.length args))%N then
                  match nth_error args (N.to_nat n) with
                  | None => Throw ERuntimeError
                  | Some a => if Ascii.eqb c ":" then vfmt (FSpec (N.to_nat n)) m' r args else obind (vfmt FText m' r args) (fun s => Ret (a ++ s))
                  end
                else Throw ERuntimeError
            end
          else
            match digit_value c with
            | Some d => if zero then Throw ERuntimeError else vfmt (FIndex false (10 * n + d)) m r args
            | None => Throw ERuntimeError
            end
      | FSpec i =>
          if Ascii.eqb c "}" then
            match nth_error args i with
            | Some a => obind (vfmt FText m r args) (fun s => Ret (a ++ s))
            | None => Throw ERuntimeError
            end
          else Undef UbDomain
      end
  end.
Definition vformat (fmt : string) (args : list string) : outcome string := vfmt FText MNone fmt args.

(** ** PredicateMatcher, Matcher.hpp 169-279 *)

Section PredicateMatcher.
  (** [T]: the type of targets; [S]: the stored additional arguments. *)
  Context {T S : Type}.

  (** The data members, 256-259. The predicate gets the target and the stored arguments (arg_storage::as_matches_arg, 134-137, with
      std::identity as projection in all matchers of the library). *)
  Record pmatcher : Type := mkPM {
    pm_predicate : T -> list S -> outcome bool;
    pm_fmt : string;
    pm_inverted : string;
    pm_args : list S
  }.

  (** matches, 197-214. *)
  Definition pm_matches (m : pmatcher) (target : T) : outcome bool := pm_predicate m target (pm_args m).

  (** describe, 216-232; [show]: arg_storage::as_describe_arg, 139-142. *)
  Definition pm_describe (show : S -> outcome string) (m : pmatcher) : outcome string :=
    obind (omap show (pm_args m)) (fun args => vformat (pm_fmt m) args).

  (** std::not_fn. *)
  Definition not_fn (f : T -> list S -> outcome bool) : T -> list S -> outcome bool := fun t l => obind (f t l) (fun b => Ret (negb b)).

  (** make_inverted, 261-278. *)
  Definition make_inverted (f : T -> list S -> outcome bool) (fmt inverted : string) (args : list S) : pmatcher :=
    mkPM (not_fn f) fmt inverted args.

  (** operator !, 234-254 (both overloads). *)
  Definition pm_not (m : pmatcher) : pmatcher := make_inverted (pm_predicate m) (pm_inverted m) (pm_fmt m) (pm_args m).
End PredicateMatcher.
Arguments pmatcher : clear implicits.

(** A predicate with a wrong number of additional arguments does not compile. *)
Definition unary {T S : Type} (f : T -> outcome bool) : T -> list S -> outcome bool :=
  fun t l => match l with [] => f t | _ => Undef UbDomain end.
Definition binary {T S : Type} (f : T -> S -> outcome bool) : T -> list S -> outcome bool :=
  fun t l => match l with [x] => f t x | _ => Undef UbDomain end.

(** ** The hooks, Matcher.hpp 25-111 *)

(** matches_hook::matches, 33-70, and describe_hook::describe, 72-111: a usable specialization of custom::matcher_traits is preferred over the
    member function; [None]: not available. *)
Definition hook {X : Type} (traits member : option X) : option X :=
  match traits with Some f => Some f | None => member end.

(** ** The general matchers, Matcher.hpp 281-487 *)

(** WildcardMatcher, 287-299. *)
Definition wildcard_matches {T : Type} (target : T) : outcome bool := Ret true.
Definition wildcard_describe : outcome string := Ret "has no constraints".

(** The argument of [std::tuple{std::forward<T>(value)}], 356 and others. Class template argument deduction stores a value as
    the only element; but a std::tuple is copied and a std::pair converted, i.e. their elements become the stored arguments. *)
Inductive targ (S : Type) : Type :=
| TValue (v : S)
| TTuple (l : list S).      (* std::tuple or std::pair of these elements *)
Arguments TValue {S} _.
Arguments TTuple {S} _.
Definition std_tuple {S : Type} (x : targ S) : list S := match x with TValue v => [v] | TTuple l => l end.

(** The operators ==, !=, <, <=, > and >= between targets and stored values; they may be unrelated user code. *)
Record operators (T S : Type) : Type := mkOps { op_eq : T -> S -> bool; op_ne : T -> S -> bool; op_lt : T -> S -> bool;
  op_le : T -> S -> bool; op_gt : T -> S -> bool; op_ge : T -> S -> bool }.
Arguments mkOps {T S}.
Arguments op_eq {T S}. Arguments op_ne {T S}. Arguments op_lt {T S}. Arguments op_le {T S}. Arguments op_gt {T S}. Arguments op_ge {T S}.

Section Comparisons.
  Context {T S : Type}.
  Context (ops : operators T S).
  Definition total (f : T -> S -> bool) : T -> list S -> outcome bool := binary (fun t x => Ret (f t x)).

  (** matches::eq, ne, lt, le, gt and ge, 348-443. *)
  Definition m_eq (x : targ S) : pmatcher T S := mkPM (total (op_eq ops)) "== {}" "!= {}" (std_tuple x).
  Definition m_ne (x : targ S) : pmatcher T S := mkPM (total (op_ne ops)) "!= {}" "== {}" (std_tuple x).
  Definition m_lt (x : targ S) : pmatcher T S := mkPM (total (op_lt ops)) "< {}" ">= {}" (std_tuple x).
  Definition m_le (x : targ S) : pmatcher T S := mkPM (total (op_le ops)) "<= {}" "> {}" (std_tuple x).
  Definition m_gt (x : targ S) : pmatcher T S := mkPM (total (op_gt ops)) "> {}" "<= {}" (std_tuple x).
  Definition m_ge (x : targ S) : pmatcher T S := mkPM (total (op_ge ops)) ">= {}" "< {}" (std_tuple x).
End Comparisons.

(** matches::predicate, 453-466; the descriptions are format strings without arguments. *)
Definition m_predicate {T S : Type} (p : T -> outcome bool) (description inverted : string) : pmatcher T S :=
  mkPM (unary p) description inverted [].
Definition predicate_description : string := "passes predicate".
Definition predicate_inverted : string := "fails predicate".

(** matches::instance, 474-487: targets and instances by their address. *)
Definition m_instance (address : N) : pmatcher N N :=
  mkPM (binary (fun t i => Ret (N.eqb t i))) "is instance at {}" "is not instance at {}" [address].

(** ** Range matchers, Matcher.hpp 799-995 *)

Section Ranges.
  Context {A B : Type}.

  (** The loop of std::ranges::equal. *)
  Fixpoint equal_loop (comp : A -> B -> outcome bool) (l : list A) (r : list B) : outcome bool :=
    match l, r with
    | [], [] => Ret true
    | a :: l', b :: r' => obind (comp a b) (fun e => if e then equal_loop comp l' r' else Ret false)
    | _, _ => Ret false
    end.
  (** std::ranges::equal; if both ranges are sized, the sizes are compared first. *)
  Definition ranges_equal (sized : bool) (comp : A -> B -> outcome bool) (l : list A) (r : list B) : outcome bool :=
    if sized && negb (List.length l =? List.length r)%nat then Ret false else equal_loop comp l r.

  (** std::ranges::count_if and the search for an earlier element in std::ranges::is_permutation. *)
  Fixpoint count_if {X : Type} (f : X -> bool) (l : list X) : nat :=
    match l with [] => 0 | x :: l' => (if f x then 1 else 0) + count_if f l' end.

  (** std::ranges::all_of and any_of. *)
  Fixpoint all_of_ (f : A -> outcome bool) (l : list A) : outcome bool :=
    match l with [] => Ret true | a :: l' => obind (f a) (fun b => if b then all_of_ f l' else Ret false) end.
  Fixpoint any_of_ (f : A -> outcome bool) (l : list A) : outcome bool :=
    match l with [] => Ret false | a :: l' => obind (f a) (fun b => if b then Ret true else any_of_ f l') end.

  (** std::ranges::is_sorted: no element may be related to its predecessor. *)
  Fixpoint is_sorted_from (rel : A -> A -> outcome bool) (prev : A) (l : list A) : outcome bool :=
    match l with
    | [] => Ret true
    | a :: l' => obind (rel a prev) (fun b => if b then Ret false else is_sorted_from rel a l')
    end.
  Definition is_sorted_ (rel : A -> A -> outcome bool) (l : list A) : outcome bool :=
    match l with [] => Ret true | a :: l' => is_sorted_from rel a l' end.
End Ranges.

(** std::ranges::is_permutation as implemented in libstdc++, for a comparator without effects: after the common prefix, every element
    which was not seen before must occur equally often in both ranges. *)
Section Permutation.
  Context {A : Type} (comp : A -> A -> bool).
  Fixpoint skip_common (l r : list A) : list A * list A :=
    match l, r with
    | a :: l', b :: r' => if comp a b then skip_common l' r' else (l, r)
    | _, _ => (l, r)
    end.
  (** [seen]: the elements before the current one (in reverse), [rest]: from the current one. *)
  Fixpoint permutation_loop (seen rest other : list A) : bool :=
    match rest with
    | [] => true
    | a :: rest' =>
        if existsb (comp a) seen then permutation_loop (a :: seen) rest' other
        else let n := count_if (comp a) other in
             if (n =? 0)%nat || negb (count_if (comp a) rest =? n)%nat then false
             else permutation_loop (a :: seen) rest' other
    end.
  Definition is_permutation_ (l r : list A) : bool :=
    if negb (List.length l =? List.length r)%nat then false
    else let '(l', r') := skip_common l r in permutation_loop [] l' r'.
End Permutation.

(** range::eq, 820-841. *)
Definition range_eq {A B : Type} (sized : bool) (comp : A -> B -> outcome bool) (expected : list B) : pmatcher (list A) (list B) :=
  mkPM (binary (ranges_equal sized comp)) "elements are {}" "elements are not {}" [expected].

(** range::unordered_eq, 850-871. *)
Definition range_unordered_eq {A : Type} (comp : A -> A -> bool) (expected : list A) : pmatcher (list A) (list A) :=
  mkPM (binary (fun t e => Ret (is_permutation_ comp t e))) "is a permutation of {}" "is not a permutation of {}" [expected].

(** range::is_sorted, 878-896. *)
Definition range_is_sorted {A S : Type} (rel : A -> A -> outcome bool) : pmatcher (list A) S :=
  mkPM (unary (is_sorted_ rel)) "is a sorted range" "is an unsorted range" [].

(** range::is_empty, 901-912. *)
Definition range_is_empty {A S : Type} : pmatcher (list A) S :=
  mkPM (unary (fun t => Ret match t with [] => true | _ => false end)) "is an empty range" "is not an empty range" [].

(** range::has_size, 918-932; std::cmp_equal compares the mathematical values. *)
Definition range_has_size {A : Type} (expected : Z) : pmatcher (list A) Z :=
  mkPM (binary (fun t n => Ret (n =? Z.of_nat (List.length t))%Z)) "has size of {}" "has different size than {}" [expected].

(** range::each_element, 938-961, and range::any_element, 967-990. The stored argument is the inner matcher: its [matches] member (not
    the hook) and its description. *)
Record inner {A : Type} : Type := mkInner { in_matches : A -> outcome bool; in_describe : outcome string }.
Arguments inner : clear implicits.
Definition range_each {A : Type} (m : inner A) : pmatcher (list A) (inner A) :=
  mkPM (binary (fun t m => all_of_ (in_matches m) t)) "each el in range: el {}" "not each el in range: el {}" [m].
Definition range_any {A : Type} (m : inner A) : pmatcher (list A) (inner A) :=
  mkPM (binary (fun t m => any_of_ (in_matches m) t)) "any el in range: el {}" "none el in range: el {}" [m].

(** The inner matcher for a matcher type with the given specialization of matcher_traits and members: [matches] is called as member
    (949, 978), [describe] by the hook (957, 986). *)
Definition element_matches {A : Type} (traits member : option (A -> outcome bool)) : option (A -> outcome bool) := member.
Definition element_describe (traits member : option (outcome string)) : option (outcome string) := hook traits member.

(** A PredicateMatcher as inner matcher. *)
Definition as_inner {T S : Type} (show : S -> outcome string) (m : pmatcher T S) : inner T := mkInner T (pm_matches m) (pm_describe show m).
