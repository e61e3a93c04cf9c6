(** * FormatSpec: format strings and their results, by grammar. *)

From Verif Require Import Base TextSpec.
Local Open Scope string_scope.

(** The parts of a format string: characters, doubled braces, and replacement fields without or with an index. *)
Inductive ftoken : Type :=
| TkChar (c : ascii)
| TkOpen
| TkClose
| TkField (index : option N).

(** A decimal number without leading zeros. *)
Definition index_text (t : string) (n : N) : Prop :=
  t <> "" /\ read_decimal 0 t = Some n /\ (forall rest, t = String "0" rest -> rest = "").

(** How they are written. *)
Inductive spells : list ftoken -> string -> Prop :=
| sp_nil : spells [] ""
| sp_char c ts f : c <> "{"%char -> c <> "}"%char -> spells ts f -> spells (TkChar c :: ts) (String c f)
| sp_open ts f : spells ts f -> spells (TkOpen :: ts) ("{{" ++ f)
| sp_close ts f : spells ts f -> spells (TkClose :: ts) ("}}" ++ f)
| sp_auto ts f spec : (spec = "" \/ spec = ":") -> spells ts f -> spells (TkField None :: ts) ("{" ++ spec ++ "}" ++ f)
| sp_index ts f t n spec : (spec = "" \/ spec = ":") -> index_text t n -> spells ts f -> spells (TkField (Some n) :: ts) ("{" ++ t ++ spec ++ "}" ++ f).

(** Fields with and without index do not occur together. *)
Definition not_mixed (ts : list ftoken) : Prop := ~ (In (TkField None) ts /\ exists n, In (TkField (Some n)) ts).

(** The text they stand for: fields without an index take the arguments in order, beginning with number [k]. *)
Inductive fills (args : list string) : nat -> list ftoken -> string -> Prop :=
| fi_nil k : fills args k [] ""
| fi_char k c ts s : fills args k ts s -> fills args k (TkChar c :: ts) (String c s)
| fi_open k ts s : fills args k ts s -> fills args k (TkOpen :: ts) ("{" ++ s)
| fi_close k ts s : fills args k ts s -> fills args k (TkClose :: ts) ("}" ++ s)
| fi_auto k ts s a : nth_error args k = Some a -> fills args (S k) ts s -> fills args k (TkField None :: ts) (a ++ s)
| fi_index k n ts s a : nth_error args (N.to_nat n) = Some a -> fills args k ts s -> fills args k (TkField (Some n) :: ts) (a ++ s).

Definition formatted (fmt : string) (args : list string) (s : string) : Prop :=
  exists ts, spells ts fmt /\ not_mixed ts /\ fills args 0 ts s.

(** Format specifications start with a colon. *)
Definition no_colon (s : string) : Prop := ~ In ":"%char (list_ascii_of_string s).
