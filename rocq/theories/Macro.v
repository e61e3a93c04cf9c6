(** * Macro: the interface mock macros of /repo/include/mimic++/InterfaceMock.hpp, as data, and the part of the C++
    preprocessor which is necessary to expand them ([cpp.replace], [cpp.subst], [cpp.rescan] of C++20).

    Simplifications: white space is not modelled (the library neither stringizes nor depends on it); only identifiers can be
    pasted with identifiers (all other pasting is treated as ill-formed, [paste_tok]); every argument is completely expanded
    before substitution, even if the replacement list does not use the expanded form; [None] stands for an ill-formed
    program (wrong number of arguments, unterminated invocation, invalid pasting) or exhausted fuel ([Macro.scan]). Macros
    defined by the user are not modelled: identifiers which are not in [table] are ordinary identifiers. *)

From Verif Require Import Base.
Local Open Scope string_scope.

(** Preprocessing tokens. [Id s true] is an identifier which is no longer available for further replacement
    ([cpp.rescan] paragraph 3). [Sym]: every token other than identifiers, parentheses and commas. *)
Inductive tok : Type :=
| Id (s : string) (unavailable : bool)
| Lp
| Rp
| Comma
| Sym (s : string).

(** The replacement lists. [Arg i] is parameter number [i]; [__VA_ARGS__] is the number after the last named parameter. *)
Inductive operand : Type := OTok (t : tok) | OArg (i : nat).
Inductive item : Type :=
| Tk (t : tok)
| Arg (i : nat)
| Paste (l r : operand)          (* l ## r *)
| VaOpt (l : list item).         (* __VA_OPT__(l) *)

(** Object-like macros and function-like macros with their number of named parameters; [va]: ends with [...]. *)
Inductive macro : Type :=
| Obj (body : list item)
| Fun (named : nat) (va : bool) (body : list item).

(** An available identifier in a replacement list. *)
Definition I_ (s : string) : item := Tk (Id s false).

(** InterfaceMock.hpp 62. *)
Definition STRIP_PARENS : string := "MIMICPP_DETAIL_STRIP_PARENS".
Definition STRIP_INNER : string := "MIMICPP_DETAIL_STRIP_PARENS_INNER".
Definition STRIP_OUTER : string := "MIMICPP_DETAIL_STRIP_PARENS_OUTER".
Definition STRIP_OUTER_ : string := "MIMICPP_DETAIL_STRIP_PARENS_OUTER_".
Definition STRIPPED_ : string := "MIMICPP_DETAIL_STRIP_PARENS_STRIPPED_".
Definition PARENS : string := "MIMICPP_DETAIL_PARENS".
Definition COMMA_DELIMITER : string := "MIMICPP_DETAIL_COMMA_DELIMITER".
Definition NO_DELIMITER : string := "MIMICPP_DETAIL_NO_DELIMITER".
Definition IDENTITY : string := "MIMICPP_DETAIL_IDENTITY".
Definition EXPAND : string := "MIMICPP_DETAIL_EXPAND".
Definition EXPAND3 : string := "MIMICPP_DETAIL_EXPAND3".
Definition EXPAND2 : string := "MIMICPP_DETAIL_EXPAND2".
Definition EXPAND1 : string := "MIMICPP_DETAIL_EXPAND1".
Definition INDIRECT : string := "MIMICPP_DETAIL_FOR_EACH_EXT_INDIRECT".
Definition FOR_EACH_EXT : string := "MIMICPP_DETAIL_FOR_EACH_EXT".
Definition HELPER : string := "MIMICPP_DETAIL_FOR_EACH_EXT_HELPER".
Definition AGAIN : string := "MIMICPP_FOR_EACH_EXT_AGAIN".
Definition MAKE_SIGNATURE : string := "MIMICPP_DETAIL_MAKE_SIGNATURE".
Definition MAKE_SIGNATURE_LIST : string := "MIMICPP_DETAIL_MAKE_SIGNATURE_LIST".
Definition MAKE_OVERLOADED_MOCK : string := "MIMICPP_DETAIL_MAKE_OVERLOADED_MOCK".
Definition MAKE_PARAM : string := "MIMICPP_DETAIL_MAKE_PARAM".
Definition MAKE_PARAM_LIST : string := "MIMICPP_DETAIL_MAKE_PARAM_LIST".
Definition FORWARD_ARG : string := "MIMICPP_DETAIL_FORWARD_ARG".
Definition FORWARD_ARGS : string := "MIMICPP_DETAIL_FORWARD_ARGS".
Definition INFOS_SPECS : string := "MIMICPP_DETAIL_MAKE_OVERLOAD_INFOS_SPECS".
Definition INFOS_BASIC : string := "MIMICPP_DETAIL_MAKE_OVERLOAD_INFOS_BASIC".
Definition SELECT_INFOS : string := "MIMICPP_DETAIL_SELECT_MAKE_OVERLOAD_INFOS".
Definition ADD_OVERLOAD : string := "MIMICPP_ADD_OVERLOAD".
Definition MAKE_METHOD_OVERRIDE : string := "MIMICPP_DETAIL_MAKE_METHOD_OVERRIDE".
Definition MAKE_METHOD_OVERRIDES : string := "MIMICPP_DETAIL_MAKE_METHOD_OVERRIDES".
Definition MOCK_OVERLOADED_METHOD : string := "MIMICPP_MOCK_OVERLOADED_METHOD".
Definition MOCK_METHOD : string := "MIMICPP_MOCK_METHOD".

(** The function call syntax [name(l)]. *)
Definition call_item (name : string) (l : list item) : list item := (I_ name :: Tk Lp :: l ++ [Tk Rp])%list.

Definition C_ : item := Tk Comma.

(** The for-each loops used by the public macros: FOR_EACH_EXT(strategy, token, delimiter, projection, bound, __VA_ARGS__). *)
Definition for_each_item (strategy : string) (token : list item) (delimiter projection : string) (bound : list item) (va : nat) : list item :=
  call_item FOR_EACH_EXT ([I_ strategy; C_] ++ token ++ [C_; I_ delimiter; C_; I_ projection; C_] ++ bound ++ [C_; Arg va])%list.

Local Open Scope list_scope.

(** All macro definitions of InterfaceMock.hpp, 62-433. *)
Definition table : list (string * macro) := [
  (* 62 *)      (STRIP_PARENS, Fun 1 false (call_item STRIP_OUTER [I_ STRIP_INNER; Arg 0]));
  (* 68 *)      (STRIP_INNER, Fun 0 true [I_ STRIP_INNER; Arg 0]);
  (* 74 *)      (STRIP_OUTER, Fun 0 true (call_item STRIP_OUTER_ [Arg 0]));
  (* 80 *)      (STRIP_OUTER_, Fun 0 true [Paste (OTok (Id STRIPPED_ false)) (OArg 0)]);
  (* 86 *)      ("MIMICPP_DETAIL_STRIP_PARENS_STRIPPED_MIMICPP_DETAIL_STRIP_PARENS_INNER"%string, Obj []);
  (* 106 *)     (PARENS, Obj [Tk Lp; Tk Rp]);
  (* 112 *)     (COMMA_DELIMITER, Fun 0 false [Tk Comma]);
  (* 118 *)     (NO_DELIMITER, Fun 0 false []);
  (* 124 *)     (IDENTITY, Fun 0 true [Arg 0]);
  (* 130 *)     (EXPAND, Fun 0 true (call_item EXPAND3 (call_item EXPAND3 (call_item EXPAND3 (call_item EXPAND3 [Arg 0])))));
  (* 136 *)     (EXPAND3, Fun 0 true (call_item EXPAND2 (call_item EXPAND2 (call_item EXPAND2 (call_item EXPAND2 [Arg 0])))));
  (* 142 *)     (EXPAND2, Fun 0 true (call_item EXPAND1 (call_item EXPAND1 (call_item EXPAND1 (call_item EXPAND1 [Arg 0])))));
  (* 148 *)     (EXPAND1, Fun 0 true [Arg 0]);
  (* 157: (macro, sequence, ...) *)
                (INDIRECT, Fun 2 true [Arg 0; Tk Lp; Arg 1; C_; Arg 2; Tk Rp]);
  (* 174-175: (macro, token, delimiter, projection_macro, bound, ...) *)
                (FOR_EACH_EXT, Fun 5 true [VaOpt (call_item EXPAND (call_item HELPER
                  [Arg 0; C_; Arg 1; C_; Arg 1; C_; Arg 2; C_; Arg 3; C_; Arg 4; C_; Arg 5]))]);
  (* 181-183: (macro, token, sequence, delimiter, projection_macro, bound, a1, ...) *)
                (HELPER, Fun 7 true
                  (call_item INDIRECT ([Arg 0; C_; Arg 2; C_] ++ call_item STRIP_PARENS [Arg 5] ++ [C_; Arg 4; Tk Lp; Arg 6; Tk Rp])
                   ++ [VaOpt [Arg 3; Tk Lp; Tk Rp; I_ AGAIN; I_ PARENS;
                              Tk Lp; Arg 0; C_; Arg 1; C_; Paste (OArg 2) (OArg 1); C_; Arg 3; C_; Arg 4; C_; Arg 5; C_; Arg 7; Tk Rp]]));
  (* 189 *)     (AGAIN, Fun 0 false [I_ HELPER]);
  (* 209: (sequence, bound_data, ret, param_type_list, specs, ...) *)
                (MAKE_SIGNATURE, Fun 5 true [Arg 2; Arg 3; Arg 4]);
  (* 215-222 *) (MAKE_SIGNATURE_LIST, Fun 0 true (for_each_item MAKE_SIGNATURE [] COMMA_DELIMITER STRIP_PARENS [] 0));
  (* 230-231: (mock_name, signatures) *)
                (MAKE_OVERLOADED_MOCK, Fun 2 false
                  ([Tk (Sym "::"); I_ "mimicpp"; Tk (Sym "::"); I_ "Mock"; Tk (Sym "<")]
                   ++ call_item STRIP_PARENS [Arg 1] ++ [Tk (Sym ">"); Arg 0; Tk (Sym "{"); Tk (Sym "}")]));
  (* 249: (sequence, bound_data, type) *)
                (MAKE_PARAM, Fun 3 false (call_item STRIP_PARENS [Arg 2] ++ [Paste (OTok (Id "arg_" false)) (OArg 0)]));
  (* 255-262 *) (MAKE_PARAM_LIST, Fun 0 true (for_each_item MAKE_PARAM [I_ "i"] COMMA_DELIMITER IDENTITY [] 0));
  (* 280-281: (sequence, bound_data, type) *)
                (FORWARD_ARG, Fun 3 false
                  ([Tk (Sym "::"); I_ "std"; Tk (Sym "::"); I_ "forward"; Tk (Sym "<");
                    Tk (Sym "::"); I_ "std"; Tk (Sym "::"); I_ "add_rvalue_reference_t"; Tk (Sym "<")]
                   ++ call_item STRIP_PARENS [Arg 2]
                   ++ [Tk (Sym ">>"); Tk Lp; Paste (OTok (Id "arg_" false)) (OArg 0); Tk Rp]));
  (* 287-294 *) (FORWARD_ARGS, Fun 0 true (for_each_item FORWARD_ARG [I_ "i"] COMMA_DELIMITER IDENTITY [] 0));
  (* 312-315: (ret, param_type_list, specs, ...) *)
                (INFOS_SPECS, Fun 3 true
                  ([Tk Lp; Arg 0; C_; Arg 1; C_; Arg 2; C_;
                    Tk Lp] ++ call_item MAKE_PARAM_LIST (call_item STRIP_PARENS [Arg 1]) ++ [Tk Rp; C_;
                    Tk Lp] ++ call_item FORWARD_ARGS (call_item STRIP_PARENS [Arg 1]) ++ [Tk Rp; Tk Rp]));
  (* 323-324: (ret, param_type_list, ...) *)
                (INFOS_BASIC, Fun 2 true (call_item INFOS_SPECS [Arg 0; C_; Arg 1; C_]));
  (* 331: (_1, N, ...) *)
                (SELECT_INFOS, Fun 2 true [Arg 1]);
  (* 340-344: (ret, param_type_list, ...) *)
                (ADD_OVERLOAD, Fun 2 true
                  (call_item SELECT_INFOS [Arg 2; C_; I_ INFOS_SPECS; C_; I_ INFOS_BASIC]
                   ++ [Tk Lp; Arg 0; C_; Arg 1; C_; Arg 2; C_; Tk Rp]));
  (* 367-371: (ignore, mock_name, fn_name, ret, param_type_list, specs, param_list, forward_list, ...) *)
                (MAKE_METHOD_OVERRIDE, Fun 8 true
                  ([I_ "inline"] ++ call_item STRIP_PARENS [Arg 3] ++ [Arg 2; Arg 6] ++ call_item STRIP_PARENS [Arg 5]
                   ++ [I_ "override"; Tk (Sym "{"); I_ "return"; Arg 1; Tk Lp] ++ call_item STRIP_PARENS [Arg 7]
                   ++ [Tk Rp; Tk (Sym ";"); Tk (Sym "}")]));
  (* 379-386: (mock_name, fn_name, ...) *)
                (MAKE_METHOD_OVERRIDES, Fun 2 true
                  (for_each_item MAKE_METHOD_OVERRIDE [] NO_DELIMITER STRIP_PARENS [Tk Lp; Arg 0; C_; Arg 1; Tk Rp] 2));
  (* 398-402: (fn_name, ...) *)
                (MOCK_OVERLOADED_METHOD, Fun 1 true
                  (call_item MAKE_METHOD_OVERRIDES [Paste (OArg 0) (OTok (Id "_" false)); C_; Arg 0; C_; Arg 1]
                   ++ call_item MAKE_OVERLOADED_MOCK
                        ([Paste (OArg 0) (OTok (Id "_" false)); C_; Tk Lp] ++ call_item MAKE_SIGNATURE_LIST [Arg 1] ++ [Tk Rp])));
  (* 414-417: (fn_name, ret, param_type_list, ...) *)
                (MOCK_METHOD, Fun 3 true
                  (call_item MOCK_OVERLOADED_METHOD
                    ([Arg 0; C_] ++ call_item ADD_OVERLOAD [Arg 1; C_; Arg 2; VaOpt [C_]; Arg 3])));
  (* 425 *)     ("MOCK_METHOD"%string, Obj [I_ MOCK_METHOD]);
  (* 431 *)     ("MOCK_OVERLOADED_METHOD"%string, Obj [I_ MOCK_OVERLOADED_METHOD]);
  (* 437 *)     ("ADD_OVERLOAD"%string, Obj [I_ ADD_OVERLOAD])
].

Fixpoint assoc (s : string) (l : list (string * macro)) : option macro :=
  match l with
  | [] => None
  | (s', m) :: l' => if String.eqb s s' then Some m else assoc s l'
  end.
Definition lookup (s : string) : option macro := assoc s table.

(** ** Substitution *)

(** [cpp.concat]: only identifiers are pasted, see the header. *)
Definition paste_tok (a b : tok) : option tok :=
  match a, b with
  | Id s _, Id s' _ => Some (Id (String.append s s') false)
  | _, _ => None
  end.

(** Pasting of two operands; an empty argument is a placemarker. *)
Fixpoint paste (l r : list tok) : option (list tok) :=
  match l with
  | [] => Some r
  | [x] => match r with
           | [] => Some [x]
           | y :: r' => option_map (fun t => t :: r') (paste_tok x y)
           end
  | x :: l' => option_map (cons x) (paste l' r)
  end.

Definition operand_toks (raw : list (list tok)) (o : operand) : list tok :=
  match o with
  | OTok t => [t]
  | OArg i => nth i raw []
  end.

(** [cpp.subst]: [raw] the arguments as written, [exp] completely macro replaced; [opt]: [__VA_OPT__] is kept. *)
Fixpoint subst_item (raw exp : list (list tok)) (opt : bool) (it : item) : option (list tok) :=
  match it with
  | Tk t => Some [t]
  | Arg i => Some (nth i exp [])
  | Paste l r => paste (operand_toks raw l) (operand_toks raw r)
  | VaOpt l =>
      if opt
      then (fix go (l : list item) : option (list tok) :=
              match l with
              | [] => Some []
              | it :: l' => match subst_item raw exp opt it, go l' with
                            | Some a, Some b => Some (a ++ b)
                            | _, _ => None
                            end
              end) l
      else Some []
  end.
Fixpoint subst (raw exp : list (list tok)) (opt : bool) (l : list item) : option (list tok) :=
  match l with
  | [] => Some []
  | it :: l' => match subst_item raw exp opt it, subst raw exp opt l' with
                | Some a, Some b => Some (a ++ b)
                | _, _ => None
                end
  end.

(** ** Scanning *)

(** The tokens still to be scanned. [Pop] marks the end of the replacement list of the innermost macro being replaced. *)
Inductive inp : Type := T (t : tok) | Pop.

Definition mem (s : string) (l : list string) : bool := existsb (String.eqb s) l.

(** [cpp.rescan] paragraph 3: the name of a macro being replaced is no longer available once it is found; [dis] are the macros
    being replaced, innermost first. *)
Definition mark (dis : list string) (t : tok) : tok :=
  match t with
  | Id s false => match lookup s with
                  | Some _ => if mem s dis then Id s true else t
                  | None => t
                  end
  | _ => t
  end.

(** Is the next token an opening parenthesis? The ends of replacement lists are crossed ([cpp.rescan] paragraph 1: the rest of
    the source file takes part). It is unspecified whether a macro whose replacement list was crossed counts as being replaced
    ([cpp.rescan] paragraph 3 and its example); as in GCC, Clang and MSVC it does not. *)
Fixpoint lparen (dis : list string) (l : list inp) : option (list string * list inp) :=
  match l with
  | Pop :: l' => lparen (tl dis) l'
  | T Lp :: l' => Some (dis, l')
  | _ => None
  end.

(** Collecting the arguments of an invocation up to the matching parenthesis. *)
Fixpoint collect (named : nat) (va : bool) (dis : list string) (depth : nat) (cur : list tok) (args : list (list tok))
    (l : list inp) : option (list (list tok) * (list string * list inp)) :=
  match l with
  | [] => None
  | Pop :: l' => collect named va (tl dis) depth cur args l'
  | T t :: l' =>
      match t with
      | Lp => collect named va dis (S depth) (cur ++ [Lp]) args l'
      | Rp => match depth with
              | 0 => Some (args ++ [cur], (dis, l'))
              | Datatypes.S d => collect named va dis d (cur ++ [Rp]) args l'
              end
      | Comma =>
          if (depth =? 0)%nat && negb (va && (List.length args =? named)%nat)
          then collect named va dis 0 [] (args ++ [cur]) l'
          else collect named va dis depth (cur ++ [Comma]) args l'
      | _ => collect named va dis depth (cur ++ [mark dis t]) args l'
      end
  end.

(** [cpp.replace] paragraphs 4 and 5: number of arguments; the variable arguments may be omitted. *)
Definition arity (named : nat) (va : bool) (args : list (list tok)) : option (list (list tok)) :=
  if va
  then if (List.length args =? named)%nat then Some (args ++ [[]])
       else if (List.length args =? S named)%nat then Some args
       else None
  else match named, args with
       | 0, [[]] => Some []
       | _, _ => if (List.length args =? named)%nat then Some args else None
       end.

Definition is_nil {A : Type} (l : list A) : bool := match l with [] => true | _ => false end.

Fixpoint oall {A B : Type} (f : A -> option B) (l : list A) : option (list B) :=
  match l with
  | [] => Some []
  | x :: l' => match f x, oall f l' with
               | Some y, Some ys => Some (y :: ys)
               | _, _ => None
               end
  end.

(** Macro replacement of a token sequence, [cpp.replace] and [cpp.rescan]. *)
Fixpoint scan (fuel : nat) (dis : list string) (l : list inp) : option (list tok) :=
  match fuel with
  | 0 => None
  | Datatypes.S n =>
      match l with
      | [] => Some []
      | Pop :: l' => scan n (tl dis) l'
      | T t :: l' =>
          let keep (t : tok) := option_map (cons t) (scan n dis l') in
          match t with
          | Id s false =>
              match lookup s with
              | None => keep t
              | Some m =>
                  if mem s dis then keep (Id s true)
                  else
                    match m with
                    | Obj body =>
                        match subst [] [] false body with
                        | None => None
                        | Some b => scan n (s :: dis) (map T b ++ Pop :: l')
                        end
                    | Fun named va body =>
                        match lparen dis l' with
                        | None => keep t
                        | Some (dis1, l1) =>
                            match collect named va dis1 0 [] [] l1 with
                            | None => None
                            | Some (args, (dis2, l2)) =>
                                match arity named va args with
                                | None => None
                                | Some raw =>
                                    match oall (fun a => scan n dis2 (map T a)) raw with
                                    | None => None
                                    | Some exp =>
                                        match subst raw exp (va && negb (is_nil (nth named exp []))) body with
                                        | None => None
                                        | Some b => scan n (s :: dis2) (map T b ++ Pop :: l2)
                                        end
                                    end
                                end
                            end
                        end
                    end
              end
          | _ => keep t
          end
      end
  end.

(** The token sequence [l] of a source file is replaced by [out]. *)
Definition expands (l out : list tok) : Prop := exists fuel, scan fuel [] (map T l) = Some out.
