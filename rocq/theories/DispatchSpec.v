(** * DispatchSpec: what the documentation of [mimicpp::print] promises (Printer.hpp 552-595), and the texts of objects. *)

From Verif Require Import Base Signature Printer Dispatch.
Local Open Scope string_scope.

(** A type for which two internal printers apply, or for which this can not even be asked. *)
Definition clashing (tr : traits) : Prop :=
  tr_location tr = false /\ tr_nullopt tr = false /\
  (tr_string tr = HardError \/
   tr_optional tr = false /\ tr_tuple tr = true /\ (tr_string tr = Yes \/ tr_pointer tr = true)).

(** An internal printer exists. *)
Inductive internally : traits -> special -> Prop :=
| in_location tr : tr_location tr = true -> internally tr SpLocation
| in_nullopt tr : tr_location tr = false -> tr_nullopt tr = true -> internally tr SpNullopt
| in_optional tr : tr_location tr = false -> tr_nullopt tr = false -> tr_optional tr = true -> internally tr SpOptional
| in_tuple tr : tr_location tr = false -> tr_nullopt tr = false -> tr_optional tr = false -> tr_tuple tr = true -> internally tr SpTuple
| in_string tr : tr_location tr = false -> tr_nullopt tr = false -> tr_optional tr = false -> tr_string tr = Yes -> internally tr SpString
| in_pointer tr : tr_location tr = false -> tr_nullopt tr = false -> tr_optional tr = false -> tr_string tr <> Yes -> tr_pointer tr = true ->
    internally tr SpPointer.
Definition no_internal (tr : traits) : Prop := forall s, ~ internally tr s.

(** "That function internally checks for the first available option (in that order)", Printer.hpp 556-562. *)
Inductive documented : traits -> overload_id -> Prop :=
| doc_custom tr : tr_custom tr = true -> documented tr OvCustom
| doc_internal tr s : tr_custom tr = false -> internally tr s -> documented tr OvInternal
| doc_range tr : tr_custom tr = false -> no_internal tr -> tr_range tr = true -> documented tr OvRange
| doc_format tr : tr_custom tr = false -> no_internal tr -> tr_range tr = false -> tr_formattable tr = true -> documented tr OvFormat
| doc_fallback tr : tr_custom tr = false -> no_internal tr -> tr_range tr = false -> tr_formattable tr = false -> documented tr OvFallback.

(** The characters of a string. *)
Inductive has_units : characters -> list N -> Prop :=
| hu_sized l : has_units (ChSized l) l
| hu_pointer l rest : Forall (fun u => u <> 0%N) l -> has_units (ChPointer (l ++ 0%N :: rest)) l.

(** The text of a string between the quotes. *)
Inductive unit_text : text_data -> list N -> string -> Prop :=
| ut_char p c l : unit_text (mkText ChChar p c) l (string_of_list_ascii (map ascii_of_N l))
| ut_printer t p c l : t <> ChChar -> unit_text (mkText t (Some p) c) l (String.concat "" (map p l))
| ut_hex t c l : t <> ChChar -> unit_text (mkText t None c) l (String.concat ", " (map (fun u => "0x" ++ hex u) l)).

(** [shown env n s]: object [n] has the text [s]. *)
Inductive shown (env : objects) : nat -> string -> Prop :=
| sh_custom n : documented (ob_traits (obj_at env n)) OvCustom -> shown env n (ob_custom (obj_at env n))
| sh_location n : documented (ob_traits (obj_at env n)) OvInternal -> internally (ob_traits (obj_at env n)) SpLocation ->
    shown env n (print_loc (ob_location (obj_at env n)))
| sh_nullopt n : documented (ob_traits (obj_at env n)) OvInternal -> internally (ob_traits (obj_at env n)) SpNullopt -> shown env n "nullopt"
| sh_some n m s : documented (ob_traits (obj_at env n)) OvInternal -> internally (ob_traits (obj_at env n)) SpOptional ->
    ob_optional (obj_at env n) = Some m -> shown env m s -> shown env n ("{ value: " ++ s ++ " }")
| sh_none n s : documented (ob_traits (obj_at env n)) OvInternal -> internally (ob_traits (obj_at env n)) SpOptional ->
    ob_optional (obj_at env n) = None -> shown env (nullopt_object env) s -> shown env n s
| sh_tuple n ss : documented (ob_traits (obj_at env n)) OvInternal -> internally (ob_traits (obj_at env n)) SpTuple ->
    shown_all env (ob_elements (obj_at env n)) ss -> shown env n ("{ " ++ String.concat ", " ss ++ " }")
| sh_pointer n : documented (ob_traits (obj_at env n)) OvInternal -> internally (ob_traits (obj_at env n)) SpPointer ->
    shown env n ("0x" ++ hex16 (ob_address (obj_at env n)))
| sh_string n l s : documented (ob_traits (obj_at env n)) OvInternal -> internally (ob_traits (obj_at env n)) SpString ->
    has_units (tx_chars (ob_text (obj_at env n))) l -> unit_text (ob_text (obj_at env n)) l s ->
    shown env n (literal_prefix (tx_type (ob_text (obj_at env n))) ++ quote ++ s ++ quote)
| sh_range n ss : documented (ob_traits (obj_at env n)) OvRange ->
    shown_all env (ob_range (obj_at env n)) ss -> shown env n ("{ " ++ String.concat ", " ss ++ " }")
| sh_format n : documented (ob_traits (obj_at env n)) OvFormat -> shown env n (ob_formatted (obj_at env n))
| sh_fallback n : documented (ob_traits (obj_at env n)) OvFallback -> shown env n "{?}"
with shown_all (env : objects) : list nat -> list string -> Prop :=
| sa_nil : shown_all env [] []
| sa_cons n l s ss : shown env n s -> shown_all env l ss -> shown_all env (n :: l) (s :: ss).

Scheme shown_ind2 := Induction for shown Sort Prop
with shown_all_ind2 := Induction for shown_all Sort Prop.
Combined Scheme shown_mut from shown_ind2, shown_all_ind2.

(** The objects which belong to an object. *)
Definition part_of (env : objects) (m n : nat) : Prop :=
  In m (ob_elements (obj_at env n)) \/ In m (ob_range (obj_at env n)) \/ ob_optional (obj_at env n) = Some m
  \/ m = nullopt_object env /\ tr_optional (ob_traits (obj_at env n)) = true /\ ob_optional (obj_at env n) = None.

(** The finite values of Printer.v as objects. *)
Inductive stands_for (env : objects) : nat -> val -> Prop :=
| sf_int n z : documented (ob_traits (obj_at env n)) OvFormat -> ob_formatted (obj_at env n) = dec_Z z -> stands_for env n (VInt z)
| sf_bool n (b : bool) : documented (ob_traits (obj_at env n)) OvFormat -> ob_formatted (obj_at env n) = (if b then "true" else "false") -> stands_for env n (VBool b)
| sf_str n s p c l : documented (ob_traits (obj_at env n)) OvInternal -> internally (ob_traits (obj_at env n)) SpString ->
    ob_text (obj_at env n) = mkText ChChar p c -> has_units c l -> s = string_of_list_ascii (map ascii_of_N l) -> stands_for env n (VStr s)
| sf_wstr n t c units : documented (ob_traits (obj_at env n)) OvInternal -> internally (ob_traits (obj_at env n)) SpString -> t <> ChChar ->
    ob_text (obj_at env n) = mkText t None c -> has_units c units -> stands_for env n (VWStr (literal_prefix t) units)
| sf_range n l : documented (ob_traits (obj_at env n)) OvRange -> stand_for env (ob_range (obj_at env n)) l -> stands_for env n (VRange l)
| sf_tuple n l : documented (ob_traits (obj_at env n)) OvInternal -> internally (ob_traits (obj_at env n)) SpTuple ->
    stand_for env (ob_elements (obj_at env n)) l -> stands_for env n (VTuple l)
| sf_some n m v : documented (ob_traits (obj_at env n)) OvInternal -> internally (ob_traits (obj_at env n)) SpOptional ->
    ob_optional (obj_at env n) = Some m -> stands_for env m v -> stands_for env n (VOpt (Some v))
| sf_none n : documented (ob_traits (obj_at env n)) OvInternal -> internally (ob_traits (obj_at env n)) SpOptional ->
    ob_optional (obj_at env n) = None -> ob_traits (obj_at env (nullopt_object env)) = traits_of TyNullopt -> stands_for env n (VOpt None)
| sf_pointer n : documented (ob_traits (obj_at env n)) OvInternal -> internally (ob_traits (obj_at env n)) SpPointer ->
    stands_for env n (VPtr (ob_address (obj_at env n)))
| sf_opaque n : documented (ob_traits (obj_at env n)) OvFallback -> stands_for env n VOpaque
| sf_formatted n : documented (ob_traits (obj_at env n)) OvFormat -> stands_for env n (VText (ob_formatted (obj_at env n)))
| sf_custom n : documented (ob_traits (obj_at env n)) OvCustom -> stands_for env n (VText (ob_custom (obj_at env n)))
| sf_units n t p c l : documented (ob_traits (obj_at env n)) OvInternal -> internally (ob_traits (obj_at env n)) SpString -> t <> ChChar ->
    ob_text (obj_at env n) = mkText t (Some p) c -> has_units c l ->
    stands_for env n (VText (literal_prefix t ++ quote ++ String.concat "" (map p l) ++ quote))
| sf_location n : documented (ob_traits (obj_at env n)) OvInternal -> internally (ob_traits (obj_at env n)) SpLocation ->
    stands_for env n (VText (print_loc (ob_location (obj_at env n))))
| sf_nullopt n : documented (ob_traits (obj_at env n)) OvInternal -> internally (ob_traits (obj_at env n)) SpNullopt -> stands_for env n (VOpt None)
with stand_for (env : objects) : list nat -> list val -> Prop :=
| sfa_nil : stand_for env [] []
| sfa_cons n l v vs : stands_for env n v -> stand_for env l vs -> stand_for env (n :: l) (v :: vs).

Scheme stands_ind2 := Induction for stands_for Sort Prop
with stand_ind2 := Induction for stand_for Sort Prop.
Combined Scheme stands_mut from stands_ind2, stand_ind2.

(** How the types of Dispatch.v are printed. *)
Inductive shape : Type := AsText | AsQuoted | AsElements | AsRange | AsOptional | AsAddress | AsNullopt | AsLocation | AsUnknown | NotCompiling.
Definition expected_shape (t : cpp_type) : shape :=
  match t with
  | TyBool | TyInteger | TyFloating | TyChar | TyDuration => AsText
  | TyOtherChar | TyEnum | TyClass | TyMemberPointer | TyUniquePtr | TySharedPtr | TyVariant | TyInputRange => AsUnknown
  | TyNullptr | TyObjectPointer | TyFunctionPointer => AsAddress
  | TyCharPointer | TyCharArray | TyString | TyStringView => AsQuoted
  | TyArray => NotCompiling
  | TyVector | TyMap | TyPath | TyFormattedRange => AsRange
  | TyStdArray | TySubrange | TyTuple | TyPair => AsElements
  | TyOptional => AsOptional
  | TyNullopt => AsNullopt
  | TySourceLocation => AsLocation
  end.
