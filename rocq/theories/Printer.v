(** * Printer: model of /repo/include/mimic++/Printer.hpp (the text produced by [mimicpp::print])
    and of the std::format placeholders the library uses. *)

From Coq Require Import DecimalString HexadecimalString.
From Verif Require Import Base Signature.
Local Open Scope string_scope.

(** The char newline, tab and double quote as written with escapes in the C++ sources. *)
Definition nl : string := String "010"%char "".
Definition tab : string := String "009"%char "".
Definition quote : string := String "034"%char "".

(** [format("{}", n)] for unsigned integers. *)
Definition dec (n : N) : string := DecimalString.NilEmpty.string_of_uint (N.to_uint n).
Definition dec_nat (n : nat) : string := dec (N.of_nat n).
(** [format("{}", z)] for signed integers. *)
Definition dec_Z (z : Z) : string :=
  match z with
  | Z0 => dec 0
  | Zpos p => dec (Npos p)
  | Zneg p => "-" ++ dec (Npos p)
  end.
(** [format("{:x}", n)] for unsigned integers. *)
Definition hex (n : N) : string := HexadecimalString.NilEmpty.string_of_uint (N.to_hex_uint n).

Fixpoint repeat_char (c : ascii) (n : nat) : string :=
  match n with
  | 0 => ""
  | S n' => String c (repeat_char c n')
  end.
(** [format("{:0>16x}", n)]. *)
Definition hex16 (n : N) : string := repeat_char "0"%char (16 - String.length (hex n)) ++ hex n.

(** A value as seen by [mimicpp::print]; one constructor per printer specialisation (Printer.hpp 254-546).
    Simplification: what std::format writes for other types and what custom::Printer specialisations (236-249) write is given as text. *)
Inductive val : Type :=
| VInt (z : Z)                              (* formattable integer, 276-287 *)
| VBool (b : bool)                          (* formattable bool, 276-287 *)
| VStr (s : string)                         (* string with CharT = char, 474-546 *)
| VWStr (prefix : string) (units : list N)  (* string with an other char type, 515-542 *)
| VRange (l : list val)                     (* forward range, 335-363 *)
| VTuple (l : list val)                     (* tuple like, 414-453 *)
| VOpt (o : option val)                     (* std::optional, 395-412 *)
| VPtr (addr : N)                           (* pointer, 459-472 *)
| VOpaque                                   (* anything else, 289-299 *)
| VText (s : string).                       (* written as [s] by a custom::Printer, 236-249, or by std::format, 276-287 *)

(** [", "] separated concatenation, as done by the loops at Printer.hpp 345-358, 414-449, 524-541. *)
Fixpoint join_rest (l : list string) : string :=
  match l with
  | [] => ""
  | s :: l' => ", " ++ s ++ join_rest l'
  end.
Definition join (l : list string) : string :=
  match l with
  | [] => ""
  | s :: l' => s ++ join_rest l'
  end.

(** PrintFn and the printers it dispatches to, Printer.hpp 236-546. *)
Fixpoint print (v : val) : string :=
  match v with
  | VInt z => dec_Z z
  | VBool b => if b then "true" else "false"
  | VStr s => quote ++ s ++ quote
  | VWStr prefix units => prefix ++ quote ++ join (map (fun u => "0x" ++ hex u) units) ++ quote
  | VRange l => "{ " ++ join (map print l) ++ " }"
  | VTuple l => "{ " ++ join (map print l) ++ " }"
  | VOpt None => "nullopt"
  | VOpt (Some x) => "{ value: " ++ print x ++ " }"
  | VPtr a => "0x" ++ hex16 a
  | VOpaque => "{?}"
  | VText s => s
  end.

(** Printer<std::source_location>, Printer.hpp 365-380. *)
Definition print_loc (l : loc) : string :=
  l_file l ++ "[" ++ dec_nat (l_line l) ++ ":" ++ dec_nat (l_col l) ++ "], " ++ l_func l.

(** formatter<ValueCategory>, Printer.hpp 166-193. *)
Definition print_category (c : category) : string :=
  match c with CatL => "lvalue" | CatR => "rvalue" | CatAny => "any" end.

(** formatter<Constness>, Printer.hpp 195-222. *)
Definition print_constness (c : constness) : string :=
  match c with NonConst => "mutable" | AsConst => "const" | ConstAny => "any" end.
