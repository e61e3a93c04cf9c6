(** * Dispatch: model of how [mimicpp::print] chooses among its implementations, /repo/include/mimic++/Printer.hpp 224-546.

    Printer.v models the text made of values whose printer is known already. Here the choice itself is modelled: overload resolution
    between the five functions detail::print (236-299), and the choice of the specialisation of detail::Printer (251-546).

    Simplifications: a type is known by the answers to the questions which the constraints ask. The compile errors of element types are not
    part of the text (ranges which are empty at run time). *)

From Verif Require Import Base Signature Printer.
Local Open Scope string_scope.

(** The answer of a constraint; [HardError]: checking it does not compile. *)
Inductive answer : Type := Yes | No | HardError.

(** What the constraints of Printer.hpp 225-300, 366-594 ask about a type [T] without cv and references. *)
Record traits : Type := mkTraits {
  tr_custom : bool;         (* printer_for<custom::Printer<T>>, 236-242 *)
  tr_location : bool;       (* std::source_location, 365 *)
  tr_nullopt : bool;        (* std::nullopt_t, 382 *)
  tr_optional : bool;       (* std::optional<U>, 395 *)
  tr_tuple : bool;          (* std::tuple_size<T>::type converts to std::size_t, 428-434 *)
  tr_pointer : bool;        (* std::is_pointer_v<T> or std::nullptr_t, 455-457 *)
  tr_string : answer;       (* the concept string, String.hpp 334-345 *)
  tr_range : bool;          (* std::ranges::forward_range, 268 *)
  tr_formattable : bool     (* format::detail::formattable<T, CharT>, 276 *)
}.

(** The specialisations of detail::Printer, Printer.hpp 334-594. *)
Inductive special : Type :=
| SpLocation              (* 365-380 *)
| SpNullopt               (* 382-393 *)
| SpOptional              (* 395-412 *)
| SpTuple                 (* 428-453 *)
| SpPointer               (* 459-472 *)
| SpString.               (* 474-546 *)

Definition is_yes (a : answer) : bool := match a with Yes => true | _ => false end.
Definition is_no (a : answer) : bool := match a with No => true | _ => false end.

(** Whether the arguments of a specialisation match. *)
Definition specialises (tr : traits) (s : special) : bool :=
  match s with
  | SpLocation => tr_location tr
  | SpNullopt => tr_nullopt tr
  | SpOptional => tr_optional tr
  | SpTuple => tr_tuple tr
  | SpPointer => tr_pointer tr && is_no (tr_string tr)
  | SpString => is_yes (tr_string tr)
  end.

(** The choice of the specialisation: explicit specialisations need no search. A partial specialisation for std::optional<U> is more
    specialised than those for any T with a constraint, and no two of these constraints subsume each other. All constraints are checked. *)
Inductive chosen_special : Type :=
| OneSpecial (s : special)
| Primary                 (* detail::Printer itself is only declared, 251-252 *)
| BadSpecial.             (* ambiguous, or a constraint with a hard error *)

Definition choose_special (tr : traits) : chosen_special :=
  if specialises tr SpLocation then OneSpecial SpLocation
  else if specialises tr SpNullopt then OneSpecial SpNullopt
  else match tr_string tr with
       | HardError => BadSpecial
       | _ =>
           match filter (specialises tr) [SpOptional; SpTuple; SpPointer; SpString] with
           | [] => Primary
           | SpOptional :: _ => OneSpecial SpOptional
           | [s] => OneSpecial s
           | _ => BadSpecial
           end
       end.

(** The five overloads of detail::print, Printer.hpp 225-300, in order of declaration, with the number of their priority_tag. *)
Inductive overload_id : Type := OvCustom | OvInternal | OvRange | OvFormat | OvFallback.
Definition overloads : list overload_id := [OvCustom; OvInternal; OvRange; OvFormat; OvFallback].
Definition tag_of (o : overload_id) : nat :=
  match o with OvCustom => 4 | OvInternal => 3 | OvRange => 2 | OvFormat => 1 | OvFallback => 0 end.

(** The constraints of the overloads, 237-240, 255-258, 268, 276, 289. *)
Definition viable (tr : traits) (o : overload_id) : answer :=
  match o with
  | OvCustom => if tr_custom tr then Yes else No
  | OvInternal => match choose_special tr with OneSpecial _ => Yes | Primary => No | BadSpecial => HardError end
  | OvRange => if tr_range tr then Yes else No
  | OvFormat => if tr_formattable tr then Yes else No
  | OvFallback => Yes
  end.

(** Overload resolution for the call with a priority_tag<4>, 304-322: priority_tag<N> derives from priority_tag<N-1> (Utility.hpp 27-38) and the
    conversion to a nearer base is better. [None]: does not compile. *)
Definition better (a b : overload_id) : bool := (4 - tag_of a <? 4 - tag_of b)%nat.
Fixpoint best (l : list overload_id) : option overload_id :=
  match l with
  | [] => None
  | o :: l' => match best l' with
               | None => Some o
               | Some o' => if better o' o then Some o' else if better o o' then Some o else None
               end
  end.
Definition resolve (tr : traits) : option overload_id :=
  if existsb (fun o => match viable tr o with HardError => true | _ => false end) overloads then None
  else best (filter (fun o => is_yes (viable tr o)) overloads).

(** ** Printing objects *)

(** Where the characters of a string come from: a view with a size (std::basic_string, std::basic_string_view and others), or a pointer or array of
    characters, whose view ends at the first zero (String.hpp 266-290). [memory]: the units from the address to the end of the array or
    allocation they are in. *)
Inductive characters : Type :=
| ChSized (units : list N)
| ChPointer (memory : list N)
| ChNull.
Fixpoint until_zero (memory : list N) : outcome (list N) :=
  match memory with
  | [] => Undef UbDomain
  | u :: m => if (u =? 0)%N then Ret [] else obind (until_zero m) (fun l => Ret (u :: l))
  end.
Definition units_of (c : characters) : outcome (list N) :=
  match c with
  | ChSized l => Ret l
  | ChPointer m => until_zero m
  | ChNull => Undef UbNull
  end.

(** Character types (is_character, String.hpp 102-175) and string_literal_prefix, String.hpp 192-233. *)
Inductive char_type : Type := ChChar | ChSignedChar | ChUnsignedChar | ChWchar | ChChar8 | ChChar16 | ChChar32 | ChUser (prefix : string).
Definition literal_prefix (c : char_type) : string :=
  match c with
  | ChChar | ChSignedChar | ChUnsignedChar => ""
  | ChWchar => "L"
  | ChChar8 => "u8"
  | ChChar16 => "u"
  | ChChar32 => "U"
  | ChUser p => p
  end.

(** [tx_printer]: custom::Printer of the character type. The units are the unsigned values of the characters (516-520). *)
Record text_data : Type := mkText { tx_type : char_type; tx_printer : option (N -> string); tx_chars : characters }.

(** An object and what can be asked about it; other objects by their number. *)
Record object : Type := mkObject {
  ob_traits : traits;
  ob_custom : string;            (* the text of custom::Printer<T> *)
  ob_location : loc;
  ob_optional : option nat;      (* the contained object *)
  ob_elements : list nat;        (* std::get<0>, std::get<1>, ... *)
  ob_address : N;                (* the value of a pointer *)
  ob_text : text_data;
  ob_range : list nat;           (* the elements of a range *)
  ob_formatted : string          (* format("{}", object) *)
}.

(** All objects, and std::nullopt. *)
Record objects : Type := mkObjects { obj_at : nat -> object; nullopt_object : nat }.

(** Printer<String>::print, 480-544. *)
Definition string_of_units (l : list N) : string := string_of_list_ascii (map ascii_of_N l).
Definition concat_text (l : list string) : string := fold_right append "" l.
Definition print_units (t : text_data) (units : list N) : string :=
  literal_prefix (tx_type t) ++ quote
  ++ match tx_type t, tx_printer t with
     | ChChar, _ => string_of_units units
     | _, Some p => concat_text (map p units)
     | _, None => join (map (fun u => "0x" ++ hex u) units)
     end
  ++ quote.

Fixpoint all_texts (l : list (option (outcome string))) : option (outcome (list string)) :=
  match l with
  | [] => Some (Ret [])
  | None :: _ => None
  | Some x :: l' =>
      match x with
      | Ret s => match all_texts l' with Some r => Some (obind r (fun r => Ret (s :: r))) | None => None end
      | Throw e => Some (Throw e)
      | Terminate => Some Terminate
      | Undef u => Some (Undef u)
      end
  end.

(** PrintFn, 301-333. The depth of the recursion is bounded by [fuel]; [None]: not finished. A type which does not compile has no text
    ([UbDomain]). *)
Fixpoint print_object (fuel : nat) (env : objects) (n : nat) : option (outcome string) :=
  match fuel with
  | 0 => None
  | S f =>
      let o := obj_at env n in
      let listed l := match all_texts (map (print_object f env) l) with
                      | Some r => Some (obind r (fun ts => Ret ("{ " ++ join ts ++ " }")))
                      | None => None
                      end in
      match resolve (ob_traits o) with
      | None => Some (Undef UbDomain)
      | Some OvCustom => Some (Ret (ob_custom o))
      | Some OvInternal =>
          match choose_special (ob_traits o) with
          | OneSpecial SpLocation => Some (Ret (print_loc (ob_location o)))
          | OneSpecial SpNullopt => Some (Ret "nullopt")
          | OneSpecial SpOptional =>
              match ob_optional o with
              | Some m => match print_object f env m with
                          | Some r => Some (obind r (fun t => Ret ("{ value: " ++ t ++ " }")))
                          | None => None
                          end
              | None => print_object f env (nullopt_object env)
              end
          | OneSpecial SpTuple => listed (ob_elements o)
          | OneSpecial SpPointer => Some (Ret ("0x" ++ hex16 (ob_address o)))
          | OneSpecial SpString => Some (obind (units_of (tx_chars (ob_text o))) (fun l => Ret (print_units (ob_text o) l)))
          | Primary | BadSpecial => Some (Undef UbDomain)
          end
      | Some OvRange => listed (ob_range o)
      | Some OvFormat => Some (Ret (ob_formatted o))
      | Some OvFallback => Some (Ret "{?}")
      end
  end.

(** ** Some types of the language and of the standard library (C++20) *)

Inductive cpp_type : Type :=
| TyBool | TyInteger | TyFloating | TyChar          (* char *)
| TyOtherChar                                       (* wchar_t, char8_t, char16_t, char32_t *)
| TyEnum | TyClass                                  (* without anything special *)
| TyNullptr | TyObjectPointer | TyFunctionPointer | TyMemberPointer
| TyCharPointer                                     (* to possibly const character types, also unsigned char *)
| TyCharArray | TyArray                             (* of other elements *)
| TyString | TyStringView                           (* of any character type *)
| TyVector | TyMap | TyStdArray | TySubrange | TyPath | TyInputRange
| TyOptional | TyNullopt | TyTuple | TyPair | TySourceLocation
| TyUniquePtr | TySharedPtr | TyVariant | TyDuration | TyFormattedRange.   (* a range with a std::formatter *)

Definition plain_traits : traits := mkTraits false false false false false false No false false.
Definition traits_of (t : cpp_type) : traits :=
  let '(mkTraits c l n o tu p s r f) := plain_traits in
  match t with
  | TyBool | TyInteger | TyFloating | TyChar | TyDuration => mkTraits c l n o tu p s r true
  | TyOtherChar | TyEnum | TyClass | TyMemberPointer | TyUniquePtr | TySharedPtr | TyVariant | TyInputRange => plain_traits
  | TyNullptr => mkTraits c l n o tu true s r true
  | TyObjectPointer | TyFunctionPointer => mkTraits c l n o tu true s r f
  | TyCharPointer => mkTraits c l n o tu true Yes r true
  | TyCharArray => mkTraits c l n o tu p Yes true true
  | TyArray => mkTraits c l n o tu p HardError true f      (* string_traits<T[N]> derives from the undefined string_traits<T*>, String.hpp 285-290 *)
  | TyString | TyStringView => mkTraits c l n o tu p Yes true true
  | TyVector | TyMap | TyPath => mkTraits c l n o tu p s true f
  | TyStdArray | TySubrange => mkTraits c l n o true p s true f
  | TyOptional => mkTraits c l n true tu p s r f
  | TyNullopt => mkTraits c l true o tu p s r f
  | TyTuple | TyPair => mkTraits c l n o true p s r f
  | TySourceLocation => mkTraits c true n o tu p s r f
  | TyFormattedRange => mkTraits c l n o tu p s true true
  end.
