(** * PropLines: the texts of all reports line by line (C60). *)

From Verif Require Import Base Signature Sequence Control Printer Reports Expectation Builder World WorldSpec TextSpec PropText LineSpec Scenario.
Local Open Scope string_scope.

Lemma sapp_assoc (a b c : string) : (a ++ b) ++ c = a ++ (b ++ c).
Proof. induction a as [|x a IH]; auto. cbn. congruence. Qed.

Lemma nl_app s : nl ++ s = String LF s.
Proof. reflexivity. Qed.
Lemma tab_app s : tab ++ s = String HT s.
Proof. reflexivity. Qed.

Lemma lines_app l l' : in_lines (l ++ l')%list = in_lines l ++ in_lines l'.
Proof. induction l as [|s l IH]; auto. cbn [app in_lines]. rewrite IH, sapp_assoc. reflexivity. Qed.

Lemma place_spec l : print_loc l = place l.
Proof. reflexivity. Qed.
Lemma number_spec n : dec_nat n = number n.
Proof. reflexivity. Qed.
Lemma constness_spec c : print_constness c = constness_word c.
Proof. destruct c; reflexivity. Qed.
Lemma category_spec c : print_category c = category_word c.
Proof. destruct c; reflexivity. Qed.

Ltac flat := repeat (progress (rewrite ?sapp_assoc, ?nl_app, ?tab_app; cbn [append app in_lines])).

Lemma args_lines tn args : forall i, print_args tn i args = in_lines (argument_lines tn i args).
Proof.
  induction args as [|[t v] args IH]; intros i; auto. cbn [print_args argument_lines]. rewrite IH, number_spec, lines_app.
  cbn [in_lines]. unfold indent. flat; try reflexivity.
Qed.

Lemma call_text tn p c : p ++ print_call_report tn c = in_lines (call_lines tn p c).
Proof.
  unfold print_call_report, call_lines. rewrite lines_app. cbn [in_lines]. rewrite place_spec, constness_spec, category_spec.
  destruct (cr_args c) as [|a args]; [flat; reflexivity|]. cbn [in_lines]. rewrite <- args_lines. flat; try reflexivity.
Qed.

Lemma desc_lines t l : l <> [] -> t ++ nl ++ print_desc_lines l = in_lines (listed t l).
Proof.
  intros H. unfold listed. destruct l as [|s l]; [congruence|]. cbn [in_lines]. rewrite nl_app. f_equal. f_equal. clear H.
  generalize (s :: l). clear. induction l as [|s l IH]; auto. cbn [print_desc_lines map in_lines]. rewrite IH. unfold indent. flat; try reflexivity.
Qed.

Lemma maybe_lines t o : match o with Some s => t ++ s ++ nl | None => "" end = in_lines (maybe t o).
Proof. destruct o as [s|]; auto. cbn [maybe in_lines]. flat; try reflexivity. Qed.
Lemma from_lines o : match o with Some l => "from: " ++ print_loc l ++ nl | None => "" end = in_lines (maybe "from: " (option_map place o)).
Proof. destruct o as [l|]; auto. Qed.

Lemma somes_given (l : list (option string)) : somes l = given l.
Proof. induction l as [|[s|] l IH]; auto. cbn. unfold given in IH. congruence. Qed.
Lemma has_given (l : list (option string)) : has_some l = match given l with [] => false | _ => true end.
Proof. induction l as [|[s|] l IH]; auto. Qed.

Lemma exp_text r : print_exp_report r = in_lines (expectation_lines r).
Proof.
  unfold print_exp_report, expectation_lines. rewrite !lines_app, from_lines, !maybe_lines, has_given, somes_given.
  destruct (given (er_descs r)) as [|s l] eqn:E; [|rewrite desc_lines by discriminate]; cbn [in_lines]; flat; reflexivity.
Qed.

Lemma split_given l : split_descs l = (requirement_lines true l, requirement_lines false l).
Proof.
  induction l as [|[m d] l IH]; auto. cbn [split_descs]. rewrite IH. unfold requirement_lines, given. cbn [map flat_map pr_matching pr_desc].
  destruct d as [s|], m; reflexivity.
Qed.

Lemma not_all l : negb (forallb pr_matching l) = existsb (fun p => negb (pr_matching p)) l.
Proof. induction l as [|p l IH]; auto. cbn. rewrite negb_andb, IH. reflexivity. Qed.

Lemma match_text m : print_match_report m = in_lines (match_lines (print_control_state (mr_state m)) m).
Proof.
  unfold print_match_report, match_lines, evaluate_match_report. rewrite split_given, not_all, !lines_app, from_lines.
  assert (S : forall t l, match l with [] => "" | _ => t ++ nl ++ print_desc_lines l end = in_lines (listed t l)).
  { intros t [|s l]; auto. apply desc_lines. discriminate. }
  pose proof (S "failed:" (requirement_lines false (mr_policies m))) as ->. pose proof (S "passed:" (requirement_lines true (mr_policies m))) as ->.
  destruct (existsb _ _); [|destruct (mr_state m)]; cbn [in_lines]; flat; reflexivity.
Qed.

Definition block (m : match_report) : list string := (match_lines (print_control_state (mr_state m)) m ++ [""])%list.
Lemma matches_text l : print_match_reports l = in_lines (flat_map block l).
Proof.
  induction l as [|m l IH]; auto. cbn [print_match_reports flat_map]. unfold block at 1. rewrite IH, match_text, !lines_app. cbn [in_lines]. flat; try reflexivity.
Qed.

(** Every report as delivered to the reporters which print, line by line. The reason of an inapplicable expectation is the text of C46. *)
Theorem C60_lines tn c r m l what k n :
  let reports := flat_map (fun m => match_lines (print_control_state (mr_state m)) m ++ [""])%list l in
  stringify_no_match tn c l
  = in_lines (call_lines tn "No match for " c ++ [""]
              ++ [match l with [] => "No expectations available." | _ => (number (List.length l) ++ " available expectation(s):")%string end] ++ reports)%list /\
  stringify_inapplicable tn c l = in_lines (call_lines tn "No applicable match for " c ++ [""; "Tested expectations:"] ++ reports)%list /\
  stringify_full tn c m
  = in_lines (call_lines tn "Found match for " c ++ [""] ++ match_lines (print_control_state (mr_state m)) m ++ [""])%list /\
  stringify_unfulfilled r = in_lines (["Unfulfilled expectation:"] ++ expectation_lines r ++ [""])%list /\
  stringify_unhandled tn c r what
  = in_lines ([("Unhandled exception: " ++ match what with Some w => "what: " ++ w | None => "Unknown exception type." end)%string;
               "while checking expectation:"] ++ expectation_lines r ++ [""] ++ call_lines tn "For " c ++ [""])%list /\
  sequence_error_message k n = "Unfulfilled sequence. " ++ number k ++ " out of " ++ number n ++ " expectation(s) are satisfied.".
Proof.
  cbn zeta. repeat apply conj.
  - unfold stringify_no_match. rewrite <- sapp_assoc, call_text, matches_text, lines_app. f_equal.
    destruct l as [|x l]; [reflexivity|]. rewrite number_spec. cbn [app in_lines]. flat; try reflexivity.
  - unfold stringify_inapplicable. rewrite <- sapp_assoc, call_text, matches_text, lines_app. f_equal.
  - unfold stringify_full. rewrite <- sapp_assoc, call_text, match_text, !lines_app. f_equal; cbn [in_lines]; flat; try reflexivity.
  - unfold stringify_unfulfilled. rewrite exp_text, !lines_app. cbn [in_lines]; flat; try reflexivity.
  - unfold stringify_unhandled.
    replace ("For " ++ print_call_report tn c ++ nl) with (("For " ++ print_call_report tn c) ++ nl) by apply sapp_assoc.
    rewrite exp_text, call_text, !lines_app. destruct what; cbn [in_lines]; flat; reflexivity.
  - reflexivity.
Qed.

(** The text about an unfulfilled expectation in a program: where it was created, how often it matched and was to match, and every
    requirement in the order in which it was attached. *)
Theorem C60_expectation_lines w e x r : reachable w -> exp_at w e x -> exp_report_of (w_seqs w) (eo_exp x) = Ret r ->
  exists addendum,
  stringify_unfulfilled r
  = in_lines (["Unfulfilled expectation:"; "Expectation report:"; ("from: " ++ place (e_loc (eo_exp x)))%string;
               ("times: " ++ times_sentence (x_min x) (x_max x) (Z.of_nat (accepted (w_trace w) e)) ++ addendum)%string]
              ++ listed "expects:" (flat_map requirement_line (e_policies (eo_exp x))) ++ [""])%list /\
  (x_seqs x = [] -> addendum = "").
Proof.
  intros Hr Hx H. unfold exp_report_of in H. destruct (control_state_of (w_seqs w) (e_ctl (eo_exp x))) as [st| | |] eqn:Est; try discriminate.
  cbn [obind] in H. destruct (omap policy_describe (e_policies (eo_exp x))) as [ds| | |] eqn:E; try discriminate. cbn [obind] in H. injection H as <-.
  destruct (C46_times_text _ _ _ _ Hr Hx Est) as (ad & Ht & Hn & _). exists ad. split; [|exact Hn].
  unfold stringify_unfulfilled. rewrite exp_text. unfold expectation_lines. cbn [er_loc er_final er_times er_descs option_map maybe]. rewrite Ht.
  assert (D : given ds = flat_map requirement_line (e_policies (eo_exp x))).
  { clear - E. revert ds E. induction (e_policies (eo_exp x)) as [|p ps IH]; intros ds E; cbn [omap] in E; [injection E as <-; reflexivity|].
    destruct (policy_describe p) as [d| | |] eqn:Ed; try discriminate. cbn [obind] in E.
    destruct (omap policy_describe ps) as [ds'| | |]; try discriminate. cbn [obind] in E. injection E as <-.
    unfold given. cbn [flat_map]. fold (given ds'). rewrite (IH ds' eq_refl). f_equal.
    destruct p; cbn [policy_describe] in Ed; unfold requirement_line.
    - injection Ed as <-. rewrite category_spec. reflexivity.
    - injection Ed as <-. rewrite constness_spec. reflexivity.
    - destruct (m_describe m); cbn [of_ures obind] in Ed; [|discriminate]. injection Ed as <-. reflexivity.
    - injection Ed as <-. reflexivity. }
  rewrite D. cbn [app]. rewrite app_nil_r. cbn [in_lines]. rewrite lines_app. cbn [in_lines]. flat; try reflexivity.
Qed.

Lemma one_line_app s t : one_line s = true -> read_lines (s ++ String LF t) = s :: read_lines t.
Proof.
  induction s as [|c s IH]; intros H; cbn [append read_lines]; [reflexivity|]. cbn [one_line] in H. apply andb_prop in H as [Hc H].
  apply negb_true_iff in Hc. rewrite Hc, IH by auto. reflexivity.
Qed.

(** The lines can be read back from a text: names, descriptions and values without line feeds cannot be confused. *)
Theorem C60_lines_read l : forallb one_line l = true -> read_lines (in_lines l) = l.
Proof.
  induction l as [|s l IH]; intros H; auto. cbn [forallb] in H. apply andb_prop in H as [Hs H]. cbn [in_lines].
  rewrite one_line_app, IH; auto.
Qed.

(** With a line feed in a printed value, two different calls may give the same text. *)
Theorem C60_values_read_refuted : exists c c' tn,
  c <> c' /\ List.length (cr_args c) <> List.length (cr_args c') /\
  stringify_no_match tn c [] = stringify_no_match tn c' [].
Proof.
  set (lf := String LF ""). set (ht := String HT "").
  exists (mkCallReport 0 [(1, "1" ++ lf ++ ht ++ "}," ++ lf ++ ht ++ "arg[1]: {" ++ lf ++ ht ++ ht ++ "type: int," ++ lf ++ ht ++ ht ++ "value: 2")] here CatAny NonConst).
  exists (mkCallReport 0 [(1, "1"); (1, "2")] here CatAny NonConst).
  exists (fun t => match t with 0 => "void" | _ => "int" end).
  split; [intros H; discriminate H|]. split; [intros H; discriminate H|]. vm_compute. reflexivity.
Qed.

Example C60_lines_example :
  let c := mkCallReport 1 [(1, "3"); (2, "4")] here CatL AsConst in
  let m := mkMatchReport (Some there) None (StSaturated 1 1 1 []) [mkPolicyReport true (Some "expect: arg[0] == 3"); mkPolicyReport true None] in
  let text := stringify_inapplicable (fun t => match t with 1 => "int" | _ => "long" end) c [m] in
  read_lines text
  = ["No applicable match for call from main.cpp[10:5], main"; "constness: const"; "value category: lvalue"; "return type: int"; "args:";
     indent "arg[0]: {"; indent (indent "type: int,"); indent (indent "value: 3"); indent "},";
     indent "arg[1]: {"; indent (indent "type: long,"); indent (indent "value: 4"); indent "},"; "";
     "Tested expectations:"; "Inapplicable, but otherwise matched expectation: {"; "reason: already saturated (matched once)";
     "from: main.cpp[20:5], main"; "passed:"; indent "expect: arg[0] == 3,"; "}"; ""] /\
  text = in_lines (read_lines text) /\ forallb one_line (read_lines text) = true.
Proof. cbn zeta. split; [vm_compute; reflexivity|]. split; vm_compute; reflexivity. Qed.

(** Created at main.cpp 20:5 with times(2) and one side effect, one matching call. *)
Definition unfulfilled_ops : list op :=
  [ONewMock [sig_unary]; OExpect 0 0 [m_eq 3] [ClPolicy (PSideEffect 7); ClTimes (TxExactly 2); ClFinal (FReturns (VInt 1))] there;
   OCall 0 0 [VInt 3] here; OAction; OFinal; OReturn (UOk (VInt 1))].
Definition unfulfilled_world : world := after unfulfilled_ops.
Example C60_expectation_lines_example :
  reachable unfulfilled_world /\
  exists x r, exp_at unfulfilled_world 0 x /\ exp_report_of (w_seqs unfulfilled_world) (eo_exp x) = Ret r /\
  read_lines (stringify_unfulfilled r)
  = ["Unfulfilled expectation:"; "Expectation report:"; "from: main.cpp[20:5], main"; "times: matched once - exactly twice is expected";
     "expects:"; indent "expect: arg[0] == 3,"; indent "expect: from any category overload,";
     indent "expect: from mutable qualified overload,"; ""].
Proof.
  split; [apply (after_reachable unfulfilled_ops); vm_compute; reflexivity|].
  destruct (nth_error (w_exps unfulfilled_world) 0) as [x|] eqn:Hx; [|vm_compute in Hx; discriminate Hx].
  exists x. destruct (exp_report_of (w_seqs unfulfilled_world) (eo_exp x)) as [r| | |] eqn:Hr;
    [|exfalso; vm_compute in Hx; injection Hx as <-; vm_compute in Hr; discriminate Hr..].
  exists r. split; [exact Hx|]. split; [reflexivity|]. vm_compute in Hx. injection Hx as <-. vm_compute in Hr. injection Hr as <-. vm_compute. reflexivity.
Qed.

Print Assumptions C60_lines.
Print Assumptions C60_expectation_lines.
Print Assumptions C60_lines_read.
Print Assumptions C60_values_read_refuted.
