(** * Reports: model of /repo/include/mimic++/Reports.hpp and of the stringify functions of Reporter.hpp *)

From Verif Require Import Base Signature Sequence Control Printer.
Local Open Scope string_scope.

(** The implicit conversion from [int] to [std::size_t] at the calls in Reports.hpp 139-143, 160-164, 178-182. *)
Definition to_size_t (z : Z) : N := Z.to_N (z mod 2 ^ 64).

(** verbalizeValue, Reports.hpp 83-92. *)
Definition verbalize_value (n : N) : string :=
  match n with
  | 0%N => "never"
  | 1%N => "once"
  | 2%N => "twice"
  | _ => dec n ++ " times"
  end.

(** verbalizeInterval, Reports.hpp 112-125. *)
Definition verbalize_interval (start end_ : N) : string :=
  if (start <? end_)%N
  then "between " ++ dec start ++ " and " ++ dec end_ ++ " times"
  else "exactly " ++ verbalize_value end_.

(** print_times_state, Reports.hpp 80-132. *)
Definition print_times_state (current min max : N) : string :=
  if (current =? max)%N then "already saturated (matched " ++ verbalize_value current ++ ")"
  else if (min <=? current)%N
  then "accepts further matches (matched " ++ dec current ++ " out of " ++ dec max ++ " times)"
  else "matched " ++ verbalize_value current ++ " - " ++ verbalize_interval min max ++ " is expected".

(** control_state_printer, Reports.hpp 134-195. *)
Definition print_control_state (st : control_state) : string :=
  match st with
  | StApplicable min max count ratings =>
      print_times_state (to_size_t count) (to_size_t min) (to_size_t max)
      ++ (if Nat.ltb 0 (List.length ratings)
          then "," ++ nl ++ tab ++ "and is the current element of " ++ dec_nat (List.length ratings) ++ " sequence(s)."
          else "")
  | StInapplicable min max count ratings inapplicable =>
      print_times_state (to_size_t count) (to_size_t min) (to_size_t max)
      ++ "," ++ nl ++ tab ++ "but is not the current element of " ++ dec_nat (List.length inapplicable)
      ++ " sequence(s) (" ++ dec_nat (List.length ratings + List.length inapplicable)%nat ++ " total)."
  | StSaturated min max count sequences =>
      print_times_state (to_size_t count) (to_size_t min) (to_size_t max)
      ++ (if Nat.ltb 0 (List.length sequences)
          then "," ++ nl ++ tab ++ "and is part of " ++ dec_nat (List.length sequences) ++ " sequence(s)."
          else "")
  end.

(** CallReport, Reports.hpp 204-232. The type_index is modelled by the type; [typeid(..).name()] is implementation
    defined and therefore a parameter of the printing function. *)
Record call_report : Type := mkCallReport {
  cr_ret : ty;
  cr_args : list (ty * string);
  cr_loc : loc;
  cr_category : category;
  cr_constness : constness
}.

(** The loop over the arguments in Printer<CallReport>, Reports.hpp 296-307. *)
Fixpoint print_args (type_name : ty -> string) (i : nat) (args : list (ty * string)) : string :=
  match args with
  | [] => ""
  | (t, s) :: rest =>
      tab ++ "arg[" ++ dec_nat i ++ "]: {" ++ nl
      ++ tab ++ tab ++ "type: " ++ type_name t ++ "," ++ nl
      ++ tab ++ tab ++ "value: " ++ s ++ nl
      ++ tab ++ "}," ++ nl
      ++ print_args type_name (S i) rest
  end.

(** Printer<CallReport>, Reports.hpp 265-312. *)
Definition print_call_report (type_name : ty -> string) (r : call_report) : string :=
  "call from " ++ print_loc (cr_loc r) ++ nl
  ++ "constness: " ++ print_constness (cr_constness r) ++ nl
  ++ "value category: " ++ print_category (cr_category r) ++ nl
  ++ "return type: " ++ type_name (cr_ret r) ++ nl
  ++ (match cr_args r with [] => "" | _ => "args:" ++ nl ++ print_args type_name 0 (cr_args r) end).

(** ExpectationReport, Reports.hpp 319-337. *)
Record exp_report : Type := mkExpReport {
  er_loc : option loc;
  er_final : option string;
  er_times : option string;
  er_descs : list (option string)
}.

(** The loop at Reports.hpp 378-386. *)
Fixpoint print_desc_lines (l : list string) : string :=
  match l with
  | [] => ""
  | s :: l' => tab ++ s ++ "," ++ nl ++ print_desc_lines l'
  end.

(** std::views::filter([](desc) { return desc.has_value(); }), Reports.hpp 378-380. *)
Fixpoint somes {A : Type} (l : list (option A)) : list A :=
  match l with
  | [] => []
  | Some x :: l' => x :: somes l'
  | None :: l' => somes l'
  end.

(** std::ranges::any_of(.. has_value()), Reports.hpp 371-373. *)
Definition has_some {A : Type} (l : list (option A)) : bool :=
  existsb (fun o => match o with Some _ => true | None => false end) l.

(** Printer<ExpectationReport>, Reports.hpp 339-399. *)
Definition print_exp_report (r : exp_report) : string :=
  "Expectation report:" ++ nl
  ++ (match er_loc r with Some l => "from: " ++ print_loc l ++ nl | None => "" end)
  ++ (match er_times r with Some t => "times: " ++ t ++ nl | None => "" end)
  ++ (if has_some (er_descs r) then "expects:" ++ nl ++ print_desc_lines (somes (er_descs r)) else "")
  ++ (match er_final r with Some f => "finally: " ++ f ++ nl | None => "" end).

(** MatchReport::Expectation, Reports.hpp 425-433. *)
Record policy_report : Type := mkPolicyReport { pr_matching : bool; pr_desc : option string }.

(** MatchReport, Reports.hpp 406-450; [mr_final] is finalizeReport.description. *)
Record match_report : Type := mkMatchReport {
  mr_loc : option loc;
  mr_final : option string;
  mr_state : control_state;
  mr_policies : list policy_report
}.

(** MatchResult, Fwd.hpp 180-185. *)
Inductive match_result : Type := MatchNone | MatchInapplicable | MatchFull.

(** evaluate_match_report, Reports.hpp 457-471. *)
Definition evaluate_match_report (r : match_report) : match_result :=
  if negb (forallb pr_matching (mr_policies r)) then MatchNone
  else match mr_state r with
       | StApplicable _ _ _ _ => MatchFull
       | _ => MatchInapplicable
       end.

(** The collecting loop of Printer<MatchReport>, Reports.hpp 480-496: (matched, unmatched) descriptions. *)
Fixpoint split_descs (l : list policy_report) : list string * list string :=
  match l with
  | [] => ([], [])
  | mkPolicyReport m d :: l' =>
      let '(ms, us) := split_descs l' in
      match d with
      | None => (ms, us)
      | Some s => if m then (s :: ms, us) else (ms, s :: us)
      end
  end.

(** Printer<MatchReport>, Reports.hpp 473-574. *)
Definition print_match_report (r : match_report) : string :=
  let '(matched, unmatched) := split_descs (mr_policies r) in
  (match evaluate_match_report r with
   | MatchFull => "Matched expectation: {" ++ nl
   | MatchInapplicable =>
       "Inapplicable, but otherwise matched expectation: {" ++ nl
       ++ "reason: " ++ print_control_state (mr_state r) ++ nl
   | MatchNone => "Unmatched expectation: {" ++ nl
   end)
  ++ (match mr_loc r with Some l => "from: " ++ print_loc l ++ nl | None => "" end)
  ++ (match unmatched with [] => "" | _ => "failed:" ++ nl ++ print_desc_lines unmatched end)
  ++ (match matched with [] => "" | _ => "passed:" ++ nl ++ print_desc_lines matched end)
  ++ "}" ++ nl.

(** The loops at Reporter.hpp 217-223 and 240-246. *)
Fixpoint print_match_reports (l : list match_report) : string :=
  match l with
  | [] => ""
  | r :: l' => print_match_report r ++ nl ++ print_match_reports l'
  end.

(** stringify_no_match_report, Reporter.hpp 196-227. *)
Definition stringify_no_match (tn : ty -> string) (c : call_report) (l : list match_report) : string :=
  "No match for " ++ print_call_report tn c ++ nl
  ++ (match l with
      | [] => "No expectations available." ++ nl
      | _ => dec_nat (List.length l) ++ " available expectation(s):" ++ nl ++ print_match_reports l
      end).

(** stringify_inapplicable_match_report, Reporter.hpp 229-249. *)
Definition stringify_inapplicable (tn : ty -> string) (c : call_report) (l : list match_report) : string :=
  "No applicable match for " ++ print_call_report tn c ++ nl
  ++ "Tested expectations:" ++ nl ++ print_match_reports l.

(** stringify_report, Reporter.hpp 251-267. *)
Definition stringify_full (tn : ty -> string) (c : call_report) (m : match_report) : string :=
  "Found match for " ++ print_call_report tn c ++ nl ++ print_match_report m ++ nl.

(** stringify_unfulfilled_expectation, Reporter.hpp 269-280. *)
Definition stringify_unfulfilled (r : exp_report) : string :=
  "Unfulfilled expectation:" ++ nl ++ print_exp_report r ++ nl.

(** stringify_unhandled_exception, Reporter.hpp 282-320; [what] is [Some e.what()] for std::exception. *)
Definition stringify_unhandled (tn : ty -> string) (c : call_report) (r : exp_report) (what : option string) : string :=
  "Unhandled exception: "
  ++ (match what with Some w => "what: " ++ w ++ nl | None => "Unknown exception type." ++ nl end)
  ++ "while checking expectation:" ++ nl ++ print_exp_report r ++ nl
  ++ "For " ++ print_call_report tn c ++ nl.

(** The message of ~BasicSequence, Sequence.hpp 103-107. *)
Definition sequence_error_message (k n : nat) : string :=
  "Unfulfilled sequence. " ++ dec_nat k ++ " out of " ++ dec_nat n ++ " expectation(s) are satisfied.".
