(** * PropEquality: C75, reports compare equal exactly if they say the same. *)

From Verif Require Import Actions.
From Verif Require Import Base Lib Signature Sequence Control Printer Reports Expectation Equality Scenario.

(** What a report says: its content, the names of locations read as strings. *)
Definition loc_said (mem : memory) (l : raw_loc) : loc := mkLoc (mem (rl_file l)) (mem (rl_func l)) (rl_line l) (rl_col l).
Definition call_said (mem : memory) (r : raw_call_report) : call_report :=
  mkCallReport (rc_ret r) (rc_args r) (loc_said mem (rc_loc r)) (rc_category r) (rc_constness r).
Definition exp_said (mem : memory) (r : raw_exp_report) : exp_report :=
  mkExpReport (option_map (loc_said mem) (re_loc r)) (re_final r) (re_times r) (re_descs r).
Definition match_said (mem : memory) (r : raw_match_report) : match_report :=
  mkMatchReport (option_map (loc_said mem) (rm_loc r)) (rm_final r) (rm_state r) (rm_policies r).

(** [f] decides [P] without undefined behaviour. *)
Definition decides (f : outcome bool) (P : Prop) : Prop := exists b, f = Ret b /\ (b = true <-> P).

(** ** Lemmas *)

Lemma vec_eqb_iff {A} (eqb : A -> A -> bool) : (forall x y, eqb x y = true <-> x = y) -> forall a b, vec_eqb eqb a b = true <-> a = b.
Proof.
  intros H. induction a as [|x a IH]; intros [|y b]; cbn; split; intros E; try discriminate; auto.
  - apply andb_true_iff in E. destruct E as [E1 E2]. apply H in E1. apply IH in E2. congruence.
  - inversion E; subst. apply andb_true_iff. split; [apply H; auto|apply IH; auto].
Qed.
Lemma vector_eqb_iff {A} (eqb : A -> A -> bool) : (forall x y, eqb x y = true <-> x = y) -> forall a b, vector_eqb eqb a b = true <-> a = b.
Proof.
  intros H a b. unfold vector_eqb. rewrite andb_true_iff, Nat.eqb_eq, (vec_eqb_iff _ H). split; [tauto|]. intros ->. auto.
Qed.
Lemma optional_eqb_iff {A} (eqb : A -> A -> bool) : (forall x y, eqb x y = true <-> x = y) -> forall a b, optional_eqb eqb a b = true <-> a = b.
Proof.
  intros H [x|] [y|]; cbn; split; intros E; try discriminate; auto; [apply H in E; congruence|inversion E; subst; apply H; auto].
Qed.
Lemma rating_eqb_iff a b : rating_eqb a b = true <-> a = b.
Proof.
  destruct a as [p t], b as [p' t']. unfold rating_eqb. cbn. rewrite andb_true_iff, Z.eqb_eq, Nat.eqb_eq. split; [intros [-> ->]; auto|].
  intros H. inversion H; auto.
Qed.
Lemma arg_eqb_iff a b : arg_eqb a b = true <-> a = b.
Proof.
  destruct a as [p t], b as [p' t']. unfold arg_eqb. cbn. rewrite andb_true_iff, String.eqb_eq, Nat.eqb_eq. split; [intros [-> ->]; auto|].
  intros H. inversion H; auto.
Qed.
Lemma policy_report_eqb_iff a b : policy_report_eqb a b = true <-> a = b.
Proof.
  destruct a as [p t], b as [p' t']. unfold policy_report_eqb. cbn.
  rewrite andb_true_iff, Bool.eqb_true_iff, (optional_eqb_iff _ String.eqb_eq). split; [intros [-> ->]; auto|]. intros H. inversion H; auto.
Qed.

Theorem C75_location mem a b : is_same_source_location mem a b = true <-> loc_said mem a = loc_said mem b.
Proof.
  unfold is_same_source_location, loc_said. rewrite !andb_true_iff, !String.eqb_eq, !Nat.eqb_eq. split.
  - intros (((-> & ->) & ->) & ->). reflexivity.
  - intros H. inversion H. auto.
Qed.

Theorem C75_control_state a b : state_eqb a b = true <-> a = b.
Proof.
  destruct a, b; cbn [state_eqb]; try (split; discriminate);
    rewrite !andb_true_iff, !Z.eqb_eq, ?(vector_eqb_iff _ rating_eqb_iff), ?(vector_eqb_iff _ Nat.eqb_eq); split; try (intros H; inversion H; tauto).
  - intros ((((-> & ->) & ->) & ->) & ->). reflexivity.
  - intros (((-> & ->) & ->) & ->). reflexivity.
  - intros (((-> & ->) & ->) & ->). reflexivity.
Qed.

Lemma locations_decided mem a b : decides (locations_eqb mem a b) (option_map (loc_said mem) a = option_map (loc_said mem) b).
Proof.
  destruct a as [x|], b as [y|]; cbn; eexists; (split; [reflexivity|]).
  - rewrite C75_location. split; [intros ->; reflexivity|]. intros H. injection H. intros H1 H2 H3 H4. unfold loc_said. congruence.
  - split; discriminate.
  - split; discriminate.
  - tauto.
Qed.

(** ** C75: each operator== decides whether the reports say the same. *)

Theorem C75_call_report mem a b : call_report_eqb mem a b = true <-> call_said mem a = call_said mem b.
Proof.
  unfold call_report_eqb, call_said. rewrite !andb_true_iff, Nat.eqb_eq, !N.eqb_eq, (vector_eqb_iff _ arg_eqb_iff), C75_location. split.
  - intros ((((-> & ->) & ->) & C) & D). f_equal.
    + destruct (rc_category a), (rc_category b); auto; discriminate.
    + destruct (rc_constness a), (rc_constness b); auto; discriminate.
  - intros H. injection H. intros -> -> H1 H2 H3 H4 -> ->. unfold loc_said. rewrite H1, H2, H3, H4. auto 10.
Qed.

Theorem C75_expectation_report mem a b : decides (exp_report_eqb mem a b) (exp_said mem a = exp_said mem b).
Proof.
  unfold exp_report_eqb, exp_said. destruct (locations_decided mem (re_loc a) (re_loc b)) as (l & -> & Hl).
  destruct (_ && _ && _) eqn:E.
  - exists l. split; auto. rewrite Hl. rewrite !andb_true_iff, !(optional_eqb_iff _ String.eqb_eq),
      (vector_eqb_iff _ (optional_eqb_iff _ String.eqb_eq)) in E. destruct E as ((-> & ->) & ->). split; [intros ->; reflexivity|].
    intros H. exact (f_equal er_loc H).
  - exists false. split; auto. split; [discriminate|]. intros H. exfalso. apply not_true_iff_false in E. apply E.
    rewrite !andb_true_iff, !(optional_eqb_iff _ String.eqb_eq), (vector_eqb_iff _ (optional_eqb_iff _ String.eqb_eq)).
    split; [split|]; [exact (f_equal er_final H)|exact (f_equal er_times H)|exact (f_equal er_descs H)].
Qed.

Theorem C75_match_report mem a b : decides (match_report_eqb mem a b) (match_said mem a = match_said mem b).
Proof.
  unfold match_report_eqb, match_said. destruct (locations_decided mem (rm_loc a) (rm_loc b)) as (l & -> & Hl).
  destruct (_ && _ && _) eqn:E.
  - exists l. split; auto. rewrite Hl. rewrite !andb_true_iff, !(optional_eqb_iff _ String.eqb_eq), C75_control_state,
      (vector_eqb_iff _ policy_report_eqb_iff) in E. destruct E as ((-> & ->) & ->). split; [intros ->; reflexivity|].
    intros H. exact (f_equal mr_loc H).
  - exists false. split; auto. split; [discriminate|]. intros H. exfalso. apply not_true_iff_false in E. apply E.
    rewrite !andb_true_iff, !(optional_eqb_iff _ String.eqb_eq), C75_control_state, (vector_eqb_iff _ policy_report_eqb_iff).
    split; [split|]; [exact (f_equal mr_final H)|exact (f_equal mr_state H)|exact (f_equal mr_policies H)].
Qed.

(** Equal reports have equal texts and equal outcomes, in whatever memory the names are. *)
Theorem C75_equal_texts mem tn :
  (forall a b, call_report_eqb mem a b = true -> print_call_report tn (call_said mem a) = print_call_report tn (call_said mem b)) /\
  (forall a b, exp_report_eqb mem a b = Ret true -> print_exp_report (exp_said mem a) = print_exp_report (exp_said mem b)) /\
  (forall a b, match_report_eqb mem a b = Ret true ->
     print_match_report (match_said mem a) = print_match_report (match_said mem b) /\
     evaluate_match_report (match_said mem a) = evaluate_match_report (match_said mem b)).
Proof.
  split; [|split]; intros a b H.
  - apply C75_call_report in H. congruence.
  - destruct (C75_expectation_report mem a b) as (r & E & Hr). rewrite H in E. inversion E; subst. rewrite (proj1 Hr eq_refl). reflexivity.
  - destruct (C75_match_report mem a b) as (r & E & Hr). rewrite H in E. inversion E; subst. rewrite (proj1 Hr eq_refl). auto.
Qed.

(** The calls with equal infos (C66) have equal reports; the calls of equal reports need not have equal infos. [m] holds the argument
    objects. *)
Definition report_of_info (m : list val) (ret : ty) (ps : list ty) (i : minfo) : call_report :=
  make_call_report (mkCall ret ps (map (fun a => nth a m (VInt 0)) (mi_args i)) (mi_cat i) (mi_const i) (mi_loc i)).
Theorem C75_infos m ret ps i j : info_eqb i j = true -> report_of_info m ret ps i = report_of_info m ret ps j.
Proof.
  unfold info_eqb, same_location, report_of_info, make_call_report. rewrite !andb_true_iff, !N.eqb_eq, !String.eqb_eq, !Nat.eqb_eq.
  destruct i as [a1 c1 k1 [f1 g1 n1 m1]], j as [a2 c2 k2 [f2 g2 n2 m2]]. cbn. intros (((A & B) & C) & ((-> & ->) & ->) & ->).
  assert (a1 = a2).
  { clear -C. revert a2 C. induction a1 as [|x a IH]; intros [|y b] C; cbn in C; try discriminate; auto.
    apply andb_true_iff in C. destruct C as [C1 C2]. apply Nat.eqb_eq in C1. f_equal; auto. }
  subst. f_equal; [destruct c1, c2; auto; discriminate|destruct k1, k2; auto; discriminate].
Qed.
Theorem C75_infos_converse_refuted :
  exists m ret ps i j, report_of_info m ret ps i = report_of_info m ret ps j /\ info_eqb i j = false.
Proof. exists [VInt 4; VInt 4], 0, [1], (mkInfo [0] CatAny AsConst here), (mkInfo [1] CatAny AsConst here). split; reflexivity. Qed.

(** The text does not determine the report: an expectation without description is not printed, nor is the state of an applicable one. *)
Theorem C75_text_determines_refuted :
  (exists mem a b, print_exp_report (exp_said mem a) = print_exp_report (exp_said mem b) /\ exp_report_eqb mem a b = Ret false) /\
  (exists mem a b, print_match_report (match_said mem a) = print_match_report (match_said mem b) /\ match_report_eqb mem a b = Ret false).
Proof.
  split.
  - exists (fun _ => ""%string), (mkRawExp None None None [None]), (mkRawExp None None None []). split; reflexivity.
  - exists (fun _ => ""%string), (mkRawMatch None None (StApplicable 0 2 0 []) []), (mkRawMatch None None (StApplicable 0 2 1 []) []).
    split; reflexivity.
Qed.

(** ** Examples: the same names at different addresses; each member matters. *)
Definition names (a : nat) : string := match a with 0 | 1 => "main.cpp" | 2 | 3 => "main" | 4 => "f" | _ => "" end%string.
Definition loc1 : raw_loc := mkRawLoc 0 2 10 5.
Definition loc1' : raw_loc := mkRawLoc 1 3 10 5.
Example C75_location_example :
  is_same_source_location names loc1 loc1' = true /\
  map (is_same_source_location names loc1) [mkRawLoc 4 2 10 5; mkRawLoc 0 4 10 5; mkRawLoc 0 2 11 5; mkRawLoc 0 2 10 6] = [false; false; false; false].
Proof. split; reflexivity. Qed.
Definition call_a : raw_call_report := mkRawCall 1 [(1, "42"%string); (2, "x"%string)] loc1 CatL AsConst.
Example C75_call_example :
  call_report_eqb names call_a (mkRawCall 1 [(1, "42"%string); (2, "x"%string)] loc1' CatL AsConst) = true /\
  map (call_report_eqb names call_a)
    [mkRawCall 0 [(1, "42"%string); (2, "x"%string)] loc1 CatL AsConst; mkRawCall 1 [(1, "42"%string)] loc1 CatL AsConst;
     mkRawCall 1 [(1, "42"%string); (2, "y"%string)] loc1 CatL AsConst; mkRawCall 1 [(3, "42"%string); (2, "x"%string)] loc1 CatL AsConst;
     mkRawCall 1 [(1, "42"%string); (2, "x"%string)] (mkRawLoc 4 2 10 5) CatL AsConst;
     mkRawCall 1 [(1, "42"%string); (2, "x"%string)] loc1 CatAny AsConst; mkRawCall 1 [(1, "42"%string); (2, "x"%string)] loc1 CatL NonConst]
  = repeat false 7.
Proof. split; reflexivity. Qed.
Definition exp_a : raw_exp_report := mkRawExp (Some loc1) (Some "f"%string) (Some "t"%string) [Some "d"%string; None].
Example C75_expectation_example :
  exp_report_eqb names exp_a (mkRawExp (Some loc1') (Some "f"%string) (Some "t"%string) [Some "d"%string; None]) = Ret true /\
  map (exp_report_eqb names exp_a)
    [mkRawExp None (Some "f"%string) (Some "t"%string) [Some "d"%string; None]; mkRawExp (Some loc1) None (Some "t"%string) [Some "d"%string; None];
     mkRawExp (Some loc1) (Some "f"%string) (Some "u"%string) [Some "d"%string; None]; mkRawExp (Some loc1) (Some "f"%string) (Some "t"%string) [None; None]]
  = repeat (Ret false) 4.
Proof. split; reflexivity. Qed.
Definition match_a : raw_match_report :=
  mkRawMatch (Some loc1) None (StInapplicable 1 2 0 [mkRating 3 0] [1]) [mkPolicyReport true (Some "d"%string)].
Example C75_match_example :
  match_report_eqb names match_a (mkRawMatch (Some loc1') None (StInapplicable 1 2 0 [mkRating 3 0] [1]) [mkPolicyReport true (Some "d"%string)]) = Ret true /\
  map (match_report_eqb names match_a)
    [mkRawMatch None None (StInapplicable 1 2 0 [mkRating 3 0] [1]) [mkPolicyReport true (Some "d"%string)];
     mkRawMatch (Some loc1) (Some "f"%string) (StInapplicable 1 2 0 [mkRating 3 0] [1]) [mkPolicyReport true (Some "d"%string)];
     mkRawMatch (Some loc1) None (StInapplicable 1 2 0 [mkRating 4 0] [1]) [mkPolicyReport true (Some "d"%string)];
     mkRawMatch (Some loc1) None (StApplicable 1 2 0 [mkRating 3 0]) [mkPolicyReport true (Some "d"%string)];
     mkRawMatch (Some loc1) None (StInapplicable 1 2 0 [mkRating 3 0] [1]) [mkPolicyReport false (Some "d"%string)]]
  = repeat (Ret false) 5.
Proof. split; reflexivity. Qed.
Example C75_infos_example :
  info_eqb (mkInfo [0] CatAny AsConst here) (mkInfo [0] CatAny AsConst here) = true /\
  report_of_info [VInt 4; VInt 4] 0 [1] (mkInfo [0] CatAny AsConst here) <> report_of_info [VInt 4; VInt 5] 0 [1] (mkInfo [1] CatAny AsConst here).
Proof. split; [reflexivity|]. vm_compute. discriminate. Qed.

Print Assumptions C75_location.
Print Assumptions C75_control_state.
Print Assumptions C75_call_report.
Print Assumptions C75_expectation_report.
Print Assumptions C75_match_report.
Print Assumptions C75_equal_texts.
Print Assumptions C75_infos.
Print Assumptions C75_infos_converse_refuted.
Print Assumptions C75_text_determines_refuted.
