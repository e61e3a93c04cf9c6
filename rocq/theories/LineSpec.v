(** * LineSpec: the texts of reports, line by line. Uses only the data of the reports and the names, words and characters written here;
    none of the printing functions of the model. *)

From Coq Require Import DecimalString.
From Verif Require Import Base Signature Sequence Control Reports Expectation.
Local Open Scope string_scope.

(** Line feed and horizontal tab. *)
Definition LF : ascii := ascii_of_nat 10.
Definition HT : ascii := ascii_of_nat 9.

(** Each line is ended by a line feed. *)
Fixpoint in_lines (l : list string) : string :=
  match l with
  | [] => ""
  | s :: l' => s ++ String LF (in_lines l')
  end.

(** Reads the lines of a text back; characters behind the last line feed are dropped. *)
Fixpoint read_lines (s : string) : list string :=
  match s with
  | "" => []
  | String c s' => if Ascii.eqb c LF then "" :: read_lines s'
                   else match read_lines s' with
                        | [] => []
                        | l :: ls => String c l :: ls
                        end
  end.

(** Has no line feed. *)
Fixpoint one_line (s : string) : bool :=
  match s with
  | "" => true
  | String c s' => negb (Ascii.eqb c LF) && one_line s'
  end.

Definition indent (s : string) : string := String HT s.
Definition number (n : nat) : string := NilEmpty.string_of_uint (N.to_uint (N.of_nat n)).
Definition place (l : loc) : string := l_file l ++ "[" ++ number (l_line l) ++ ":" ++ number (l_col l) ++ "], " ++ l_func l.
Definition category_word (c : category) : string := match c with CatL => "lvalue" | CatR => "rvalue" | CatAny => "any" end.
Definition constness_word (c : constness) : string := match c with NonConst => "mutable" | AsConst => "const" | ConstAny => "any" end.

(** The lines about a call; what is said about it precedes the first. *)
Fixpoint argument_lines (tn : ty -> string) (i : nat) (args : list (ty * string)) : list string :=
  match args with
  | [] => []
  | (t, v) :: args' =>
      app [ indent ("arg[" ++ number i ++ "]: {");
            indent (indent ("type: " ++ tn t ++ ","));
            indent (indent ("value: " ++ v));
            indent "}," ] (argument_lines tn (S i) args')
  end.
Definition call_lines (tn : ty -> string) (verdict : string) (c : call_report) : list string :=
  app [ verdict ++ "call from " ++ place (cr_loc c);
        "constness: " ++ constness_word (cr_constness c);
        "value category: " ++ category_word (cr_category c);
        "return type: " ++ tn (cr_ret c) ]
      match cr_args c with [] => [] | args => "args:" :: argument_lines tn 0 args end.

(** An optional line, and an optional list. *)
Definition maybe (title : string) (o : option string) : list string := match o with Some s => [title ++ s] | None => [] end.
Definition listed (title : string) (l : list string) : list string :=
  match l with [] => [] | _ => title :: map (fun s => indent (s ++ ",")) l end.
Definition given (l : list (option string)) : list string := flat_map (fun o => match o with Some s => [s] | None => [] end) l.

Definition expectation_lines (r : exp_report) : list string :=
  ([ "Expectation report:" ] ++ maybe "from: " (option_map place (er_loc r)) ++ maybe "times: " (er_times r)
   ++ listed "expects:" (given (er_descs r)) ++ maybe "finally: " (er_final r))%list.

(** [reason]: what the report says about the number of matches and the sequences. *)
Definition requirement_lines (verdict : bool) (l : list policy_report) : list string :=
  given (map (fun p => if Bool.eqb (pr_matching p) verdict then pr_desc p else None) l).
Definition match_lines (reason : string) (m : match_report) : list string :=
  ((if existsb (fun p => negb (pr_matching p)) (mr_policies m) then [ "Unmatched expectation: {" ]
    else match mr_state m with
         | StApplicable _ _ _ _ => [ "Matched expectation: {" ]
         | _ => [ "Inapplicable, but otherwise matched expectation: {"; ("reason: " ++ reason)%string ]
         end)
   ++ maybe "from: " (option_map place (mr_loc m))
   ++ listed "failed:" (requirement_lines false (mr_policies m)) ++ listed "passed:" (requirement_lines true (mr_policies m))
   ++ [ "}" ])%list.

(** What the requirements of an expectation contribute to its reports: the kind of the overload and the restricted arguments; side effects
    are not mentioned. *)
Definition requirement_line (p : policy) : list string :=
  match p with
  | PCategory c => [ "expect: from " ++ category_word c ++ " category overload" ]
  | PConstness c => [ "expect: from " ++ constness_word c ++ " qualified overload" ]
  | PArg i m _ => match m_describe m with UOk d => [ "expect: arg[" ++ number i ++ "] " ++ d ] | UThrow _ => [] end
  | PSideEffect _ => []
  end.
