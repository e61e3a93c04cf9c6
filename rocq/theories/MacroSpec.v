(** * MacroSpec: vocabulary for the macro theorems, independent of the macro definitions and of the expansion. *)

From Verif Require Import Base Macro.
Local Open Scope string_scope.
Local Open Scope list_scope.

(** An ordinary identifier. *)
Definition ident (s : string) : tok := Id s false.

(** [s] is the name of a macro of the library. *)
Definition macro_name (s : string) : Prop := In s (map fst table).

(** Tokens which have no meaning for the macros. *)
Definition plain (l : list tok) : Prop := forall s u, In (Id s u) l -> u = false /\ ~ macro_name s.

(** Parentheses match; [group false]: moreover no comma is outside of parentheses, i.e. the tokens form one macro argument. *)
Inductive group : bool -> list tok -> Prop :=
| group_nil c : group c []
| group_tok c t l : t <> Lp -> t <> Rp -> (t = Comma -> c = true) -> group c l -> group c (t :: l)
| group_paren c a l : group true a -> group c l -> group c (Lp :: a ++ Rp :: l).

(** [b] is [a] without the pair of parentheses in front of it, if there is one. *)
Inductive strips : list tok -> list tok -> Prop :=
| strips_not a : hd_error a <> Some Lp -> strips a a
| strips_paren a b : group true a -> strips (Lp :: a ++ Rp :: b) (a ++ b).

(** [x1 d x2 d ... d xn] *)
Fixpoint separate (d : list tok) (l : list (list tok)) : list tok :=
  match l with
  | [] => []
  | [x] => x
  | x :: l' => x ++ d ++ separate d l'
  end.
Definition commas : list (list tok) -> list tok := separate [Comma].

(** The invocation [name(args)]. *)
Definition invoke (name : string) (args : list tok) : list tok := ident name :: Lp :: args ++ [Rp].

(** A type as written in a parameter list: one nonempty macro argument. *)
Definition type_toks (a : list tok) : Prop := a <> [] /\ plain a /\ group false a.

(** The name of parameter number [k] (counted from 1): [arg_i], [arg_ii], ... *)
Fixpoint is_ (k : nat) : string := match k with 0 => "" | S k' => String "i"%char (is_ k') end.
Definition arg_name (k : nat) : string := String.append "arg_" (is_ k).

(** The parameters and forwards number [k], [k+1], ... for the given types. *)
Fixpoint params (k : nat) (types : list (list tok)) : list (list tok) :=
  match types with
  | [] => []
  | t :: types' => (t ++ [ident (arg_name k)]) :: params (S k) types'
  end.
Definition forward (k : nat) (t : list tok) : list tok :=
  [Sym "::"; ident "std"; Sym "::"; ident "forward"; Sym "<"; Sym "::"; ident "std"; Sym "::"; ident "add_rvalue_reference_t"; Sym "<"]
  ++ t ++ [Sym ">>"; Lp; ident (arg_name k); Rp].
Fixpoint forwards (k : nat) (types : list (list tok)) : list (list tok) :=
  match types with
  | [] => []
  | t :: types' => forward k t :: forwards (S k) types'
  end.

(** An overload as written by the user: return type, parameter types and specifiers, and the same with stripped parentheses. *)
Record overload : Type := mkOverload {
  o_ret : list tok; o_types : list (list tok); o_specs : list tok;
  o_ret' : list tok; o_types' : list (list tok); o_specs' : list tok
}.
Definition overload_ok (o : overload) : Prop :=
  plain (o_ret o) /\ group false (o_ret o) /\ strips (o_ret o) (o_ret' o) /\
  plain (o_specs o) /\ group false (o_specs o) /\ strips (o_specs o) (o_specs' o) /\
  Forall type_toks (o_types o) /\ Forall2 strips (o_types o) (o_types' o) /\ length (o_types o) <= 86.

(** What the user writes for it: [ADD_OVERLOAD(ret, (types), specs)], or [ADD_OVERLOAD(ret, (types))]. *)
Inductive overload_source (o : overload) : list tok -> Prop :=
| source_specs : overload_source o (o_ret o ++ [Comma; Lp] ++ commas (o_types o) ++ [Rp; Comma] ++ o_specs o)
| source_basic : o_specs o = [] -> overload_source o (o_ret o ++ [Comma; Lp] ++ commas (o_types o) ++ [Rp]).

(** The method which overrides [fn]. *)
Definition method_text (fn : string) (o : overload) : list tok :=
  ident "inline" :: o_ret' o ++ ident fn :: Lp :: commas (params 1 (o_types' o)) ++ Rp :: o_specs' o
  ++ [ident "override"; Sym "{"; ident "return"; ident (String.append fn "_"); Lp]
  ++ commas (forwards 1 (o_types' o)) ++ [Rp; Sym ";"; Sym "}"].

(** The signature in the template argument list of the mock, as it should be. *)
Definition signature_text (o : overload) : list tok :=
  o_ret' o ++ Lp :: commas (o_types' o) ++ Rp :: o_specs' o.

(** The signature as it is written: nothing is stripped. *)
Definition raw_signature_text (o : overload) : list tok :=
  o_ret o ++ Lp :: commas (o_types o) ++ Rp :: o_specs o.

(** The declaration of the mock object. *)
Definition mock_text (fn : string) (sigs : list (list tok)) : list tok :=
  [Sym "::"; ident "mimicpp"; Sym "::"; ident "Mock"; Sym "<"] ++ commas sigs
  ++ [Sym ">"; ident (String.append fn "_"); Sym "{"; Sym "}"].
