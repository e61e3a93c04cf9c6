(** * PropOverload: C71, which overload of a mock a call and an expect_call select. *)

From Coq Require Import Permutation.
From Verif Require Import Base Lib Sequence Control Signature SigSpec SigProofs Printer Strings Reports Expectation Builder World Scenario
  Overload OverloadSpec OverloadProofs.

(** Types and argument expressions of the examples. Types: 1 int, 2 double, 3 const std::source_location&, 4 std::string, 5 std::any.
    Arguments: 0 an int, 1 a double, 2 a std::source_location, 3 a std::string_view, 4 the wildcard matcher, 5 a wide string literal,
    6 a std::string. *)
Definition ex_converts (a : nat) (p : ty) : bool :=
  match a, p with
  | 0, 1 | 0, 2 | 1, 1 | 1, 2 => true            (* arithmetic conversions *)
  | 2, 3 => true
  | 6, 4 => true
  | (0 | 1 | 2 | 3 | 4 | 6), 5 => true           (* std::any takes every copyable value; a std::string is not made from a string_view *)
  | _, _ => false
  end.
Definition ex_better (a : nat) (p q : ty) : bool :=
  match a, p, q with
  | 0, 1, 2 | 1, 2, 1 => true
  | (0 | 1), (1 | 2), 5 | 2, 3, 5 | 6, 4, 5 => true
  | _, _, _ => false
  end.
Definition ex_traits (a : nat) (p : ty) : arg_traits :=
  mkTraits (a =? 4) (if p =? 4 then Some CtChar else None)
    (match a with 3 | 6 => Some CtChar | 5 => Some CtWchar | _ => None end)
    (match a, p with 0, 1 | 0, 2 | 1, 1 | 1, 2 | 3, 4 | 6, 4 => true | _, _ => false end).
Definition ex : language := mkLanguage ex_converts ex_better ex_traits 3.

Definition lvalue : object_expr := mkObject false false.
Definition const_lvalue : object_expr := mkObject true false.
Definition rvalue : object_expr := mkObject false true.
Definition const_rvalue : object_expr := mkObject true true.

Definition sg (ps : list ty) (c : bool) (r : refq) : signature := mkSig 0 ps false c r false.

(** ** What is selected *)

(** A call selects the function which fits the object and the arguments and is preferred to every other such function. *)
Theorem C71_call la o args sigs :
  (forall i, resolve_call la o args sigs = Chosen i <->
     exists s, nth_error sigs i = Some s /\ object_fits o s /\ call_fits la args s /\
       forall j b, j <> i -> nth_error sigs j = Some b -> object_fits o b -> call_fits la args b -> call_prefers la o args s b) /\
  (resolve_call la o args sigs = NotViable <-> forall s, In s sigs -> object_fits o s -> ~ call_fits la args s) /\
  resolve_call la o args sigs <> IllFormed.
Proof.
  split; [|split].
  - intros i. rewrite call_chosen. unfold best_of, call_V. split; intros (s & H1 & H2 & H3); exists s.
    + destruct H2 as [H2 H4]. split; [exact H1|]. split; [exact H2|]. split; [exact H4|].
      intros j b Hne Hj Ho Hf. apply (H3 j b Hne Hj). split; assumption.
    + destruct H3 as [H3 H4]. split; [exact H1|]. split; [split; assumption|].
      intros j b Hne Hj [Ho Hf]. exact (H4 j b Hne Hj Ho Hf).
  - rewrite call_not_viable. unfold call_V. split; intros H s; specialize (H s); tauto.
  - apply select_not_hard.
Qed.

(** An expect_call looks at the arguments only to find out which functions fit; among them only the object decides. *)
Theorem C71_expect_call la o args sigs :
  (forall i, resolve_expect la o args sigs = Chosen i <->
     (forall s, In s sigs -> ~ expect_error la args s) /\
     exists s, nth_error sigs i = Some s /\ object_fits o s /\ expect_fits la args s /\
       forall j b, j <> i -> nth_error sigs j = Some b -> object_fits o b -> expect_fits la args b -> fits_better o s b) /\
  (resolve_expect la o args sigs = NotViable <->
     (forall s, In s sigs -> ~ expect_error la args s) /\ forall s, In s sigs -> object_fits o s -> ~ expect_fits la args s) /\
  (resolve_expect la o args sigs = IllFormed <-> exists s, In s sigs /\ expect_error la args s).
Proof.
  split; [|split].
  - intros i. rewrite expect_chosen. unfold best_of, expect_V.
    split; intros (H0 & s & H1 & H2 & H3); split; auto; exists s.
    + destruct H2 as [H2 H4]. split; [exact H1|]. split; [exact H2|]. split; [exact H4|].
      intros j b Hne Hj Ho Hf. apply (H3 j b Hne Hj). split; assumption.
    + destruct H3 as [H3 H4]. split; [exact H1|]. split; [split; assumption|].
      intros j b Hne Hj [Ho Hf]. exact (H4 j b Hne Hj Ho Hf).
  - rewrite expect_not_viable. unfold expect_V. split; intros [H0 H]; (split; [exact H0|]); intros s; specialize (H s); tauto.
  - apply expect_ill_formed.
Qed.

(** ** Functions with the same parameters *)

(** If the arguments of a call fit one parameter list only, then the call is never ambiguous: it selects the function with this parameter
    list which comes first in the order of preference of the object. *)
Theorem C71_call_same_parameters la o args sigs ps :
  (forall x p, la_better la x p p = false) ->
  forallb (fun s => negb (sg_variadic s)) sigs = true -> is_overload_set sigs = true ->
  (forall s, In s sigs -> (call_fits la args s <-> sg_params s = ps)) ->
  match first_with (preference o) (filter (fun s => list_ty_eqb (sg_params s) ps) sigs) with
  | Some s => exists i, nth_error sigs i = Some s /\ resolve_call la o args sigs = Chosen i
  | None => resolve_call la o args sigs = NotViable
  end.
Proof.
  intros Hirr Hv Hset Hfit. apply (overload_set_spec sigs Hv) in Hset. destruct Hset as [_ Hpw].
  exact (call_same_params la o args sigs ps Hirr Hpw Hfit).
Qed.

Theorem C71_expect_call_same_parameters la o args sigs ps :
  forallb (fun s => negb (sg_variadic s)) sigs = true -> is_overload_set sigs = true ->
  (forall s, In s sigs -> ~ expect_error la args s) ->
  (forall s, In s sigs -> (expect_fits la args s <-> sg_params s = ps)) ->
  match first_with (preference o) (filter (fun s => list_ty_eqb (sg_params s) ps) sigs) with
  | Some s => exists i, nth_error sigs i = Some s /\ resolve_expect la o args sigs = Chosen i
  | None => resolve_expect la o args sigs = NotViable
  end.
Proof.
  intros Hv Hset Hhard Hfit. apply (overload_set_spec sigs Hv) in Hset. destruct Hset as [_ Hpw].
  exact (expect_same_params la o args sigs ps Hpw Hhard Hfit).
Qed.

(** Hence an expectation and a call through the same kind of object expression go to the same overload, if both sets of arguments fit the
    same single parameter list; the arguments themselves may differ (e.g. matchers and values). *)
Theorem C71_same_overload la o args args' sigs ps :
  (forall x p, la_better la x p p = false) ->
  forallb (fun s => negb (sg_variadic s)) sigs = true -> is_overload_set sigs = true ->
  (forall s, In s sigs -> (call_fits la args s <-> sg_params s = ps)) ->
  (forall s, In s sigs -> ~ expect_error la args' s) ->
  (forall s, In s sigs -> (expect_fits la args' s <-> sg_params s = ps)) ->
  resolve_call la o args sigs = resolve_expect la o args' sigs.
Proof.
  intros Hirr Hv Hset Hfit Hhard Hfit'. pose proof (C71_call_same_parameters la o args sigs ps Hirr Hv Hset Hfit) as H1.
  pose proof (C71_expect_call_same_parameters la o args' sigs ps Hv Hset Hhard Hfit') as H2.
  destruct (first_with _ _) as [s|]; [|congruence].
  destruct H1 as (i & Hi & ->), H2 as (j & Hj & ->). f_equal.
  destruct (Nat.eq_dec i j) as [|Hne]; auto. exfalso. apply (overload_set_spec sigs Hv) in Hset. destruct Hset as [_ Hpw].
  specialize (Hpw i j s s Hne Hi Hj). destruct Hpw as [H|[_ [H|H]]]; congruence.
Qed.

(** All four ref-qualified functions and the two unqualified ones with other parameters; all four kinds of object. *)
Example C71_same_parameters_example :
  let sigs := [sg [1] true RefL; sg [1] false RefR; sg [1] true RefR; sg [1] false RefL; sg [] true RefNone; sg [] false RefNone] in
  is_overload_set sigs = true /\
  map (fun o => resolve_call ex o [0] sigs) [lvalue; const_lvalue; rvalue; const_rvalue] = [Chosen 3; Chosen 0; Chosen 1; Chosen 2] /\
  map (fun o => resolve_expect ex o [4] sigs) [lvalue; const_lvalue; rvalue; const_rvalue] = [Chosen 3; Chosen 0; Chosen 1; Chosen 2] /\
  map (fun o => resolve_call ex o [] sigs) [lvalue; const_lvalue; rvalue; const_rvalue] = [Chosen 5; Chosen 4; Chosen 5; Chosen 4] /\
  map (fun o => resolve_call ex o [0] [sg [1] true RefL]) [lvalue; const_lvalue; rvalue; const_rvalue]
    = [Chosen 0; Chosen 0; Chosen 0; Chosen 0] /\
  map (fun o => resolve_expect ex o [4] [sg [1] false RefL]) [lvalue; const_lvalue; rvalue; const_rvalue]
    = [Chosen 0; NotViable; NotViable; NotViable] /\
  map (fun o => resolve_expect ex o [4] [sg [1] false RefR]) [lvalue; const_lvalue; rvalue; const_rvalue]
    = [NotViable; NotViable; Chosen 0; NotViable] /\
  map (fun o => resolve_call ex o [0] [sg [1] true RefR]) [lvalue; const_lvalue; rvalue; const_rvalue]
    = [NotViable; NotViable; Chosen 0; Chosen 0] /\
  map (fun o => resolve_call ex o [0] [sg [1] false RefNone]) [lvalue; const_lvalue; rvalue; const_rvalue]
    = [Chosen 0; NotViable; Chosen 0; NotViable].
Proof. vm_compute. auto 20. Qed.

(** The hypotheses of [C71_same_overload] hold for the arguments 0 and 4 there. *)
Example C71_same_overload_example :
  let sigs := [sg [1] true RefL; sg [1] false RefR; sg [1] true RefR; sg [1] false RefL; sg [] true RefNone; sg [] false RefNone] in
  (forall x p, la_better ex x p p = false) /\ is_overload_set sigs = true /\
  (forall s, In s sigs -> (call_fits ex [0] s <-> sg_params s = [1])) /\
  (forall s, In s sigs -> ~ expect_error ex [4] s) /\
  (forall s, In s sigs -> (expect_fits ex [4] s <-> sg_params s = [1])) /\
  resolve_call ex rvalue [0] sigs = resolve_expect ex rvalue [4] sigs.
Proof.
  intros sigs. assert (Hcases : forall s, In s sigs -> sg_params s = [1] \/ sg_params s = []).
  { intros s H. simpl in H. repeat (destruct H as [<- | H]; [simpl; auto|]). contradiction. }
  split; [|split; [reflexivity|split; [|split; [|split; [|reflexivity]]]]].
  - intros x p. unfold la_better, ex, ex_better. do 7 (destruct x as [|x]; [do 6 (destruct p as [|p]; [reflexivity|]); reflexivity|]). reflexivity.
  - intros s Hs. unfold call_fits. destruct (Hcases s Hs) as [-> | ->].
    + split; [reflexivity|]. intros _. left. constructor; [reflexivity|constructor].
    + split; [|discriminate]. intros [H|(args' & l & H & H1 & H2)]; [inversion H|]. inversion H1; subst. inversion H; subst. discriminate.
  - intros s Hs (Hl & i & a & p & H1 & H2 & H3). destruct i as [|i]; simpl in H1; [|destruct i; discriminate]. inversion H1; subst a.
    unfold make_arg_matcher in H3. simpl in H3. discriminate.
  - intros s Hs. unfold expect_fits. destruct (Hcases s Hs) as [-> | ->].
    + split; [reflexivity|]. intros _. constructor; [left; reflexivity|constructor].
    + split; [|discriminate]. intros H. inversion H.
Qed.

(** ** The chosen function is usable *)

(** The chosen function fits the object: const objects only reach const functions, lvalues no && functions, and rvalues an & function only
    if it is const; a call and an expect_call obey the same rule. *)
Theorem C71_chosen_fits_the_object la o args sigs i :
  resolve_call la o args sigs = Chosen i \/ resolve_expect la o args sigs = Chosen i ->
  exists s, nth_error sigs i = Some s /\ object_fits o s.
Proof.
  intros [H|H].
  - apply call_chosen in H. destruct H as (s & H1 & [H2 _] & _). eauto.
  - apply expect_chosen in H. destruct H as (_ & s & H1 & [H2 _] & _). eauto.
Qed.

(** The order of the template arguments of the mock does not matter. *)
Theorem C71_order_independent la o args sigs sigs' i :
  forallb (fun s => negb (sg_variadic s)) sigs = true -> is_overload_set sigs = true -> Permutation sigs sigs' ->
  (resolve_call la o args sigs = Chosen i ->
   exists j, resolve_call la o args sigs' = Chosen j /\ nth_error sigs' j = nth_error sigs i) /\
  (resolve_expect la o args sigs = Chosen i ->
   exists j, resolve_expect la o args sigs' = Chosen j /\ nth_error sigs' j = nth_error sigs i).
Proof.
  intros Hv Hset Hp. apply (overload_set_spec sigs Hv) in Hset. destruct Hset as [_ Hpw]. split; intros H.
  - apply call_chosen in H. destruct (best_perm _ _ _ _ _ Hpw Hp H) as (j & Hj & E). exists j. split; auto. apply call_chosen. auto.
  - apply expect_chosen in H. destruct H as [H0 H]. destruct (best_perm _ _ _ _ _ Hpw Hp H) as (j & Hj & E). exists j. split; auto.
    apply expect_chosen. split; auto. intros s Hs. apply H0. eapply Permutation_in; [apply Permutation_sym|]; eauto.
Qed.

Example C71_order_example :
  let sigs := [sg [1] true RefNone; sg [1] false RefNone; sg [2; 2] false RefL] in
  Permutation sigs (rev sigs) /\ resolve_call ex lvalue [0] sigs = Chosen 1 /\ resolve_call ex lvalue [0] (rev sigs) = Chosen 1 /\
  resolve_expect ex const_lvalue [4] sigs = Chosen 0 /\ resolve_expect ex const_lvalue [4] (rev sigs) = Chosen 2.
Proof. split; [apply Permutation_rev|]. vm_compute. auto. Qed.

(** Neither the return types nor noexcept matter. *)
Theorem C71_return_type_and_noexcept_ignored la o args sigs sigs' :
  Forall2 (fun a b => sg_params a = sg_params b /\ sg_const a = sg_const b /\ sg_ref a = sg_ref b) sigs sigs' ->
  resolve_call la o args sigs = resolve_call la o args sigs' /\ resolve_expect la o args sigs = resolve_expect la o args sigs'.
Proof. intros H. split; [apply call_like|apply expect_like]; exact H. Qed.

Example C71_return_type_example :
  resolve_call ex lvalue [1] [mkSig 0 [1] false false RefNone true; mkSig 7 [2] false false RefNone false] = Chosen 1 /\
  resolve_call ex lvalue [1] [mkSig 8 [1] false false RefNone false; mkSig 0 [2] false false RefNone true] = Chosen 1.
Proof. vm_compute. auto. Qed.

(** ** Where expect_call and calls differ *)

(** Ranking the conversions would select an overload for the arguments, but expect_call does not rank them: for Mock<void(int), void(double)> the
    call m(42) selects void(int), but m.expect_call(42) and m.expect_call(_) are ambiguous. *)
Theorem C71_expect_call_like_call_refuted :
  exists sigs args i, is_overload_set sigs = true /\ resolve_call ex lvalue args sigs = Chosen i /\
    resolve_expect ex lvalue args sigs = Ambiguous /\ resolve_expect ex lvalue [4] sigs = Ambiguous.
Proof. exists [sg [1] false RefNone; sg [2] false RefNone], [0], 0. vm_compute. auto. Qed.

(** Even when both are well-formed, they may select different overloads without a diagnostic: for Mock<void(std::string), void(std::any)> and
    a std::string_view the expectation goes to void(std::string), the call to void(std::any). *)
Theorem C71_same_arguments_same_overload_refuted :
  exists sigs args i j, is_overload_set sigs = true /\ resolve_expect ex lvalue args sigs = Chosen i /\
    resolve_call ex lvalue args sigs = Chosen j /\ i <> j.
Proof. exists [sg [4] false RefNone; sg [5] false RefNone], [3], 0, 1. vm_compute. repeat split; auto; discriminate. Qed.

(** The constness of the object outweighs the arguments: for Mock<void(int) const, void(double)> and a non-const mock, m.expect_call(42)
    selects void(double), and m(42) is ambiguous; through a const reference both select void(int) const. *)
Theorem C71_object_outweighs_arguments_refuted :
  exists sigs args, is_overload_set sigs = true /\
    resolve_expect ex lvalue args sigs = Chosen 1 /\ resolve_call ex lvalue args sigs = Ambiguous /\
    resolve_expect ex const_lvalue args sigs = Chosen 0 /\ resolve_call ex const_lvalue args sigs = Chosen 0.
Proof. exists [sg [1] true RefNone; sg [2] false RefNone], [0]. vm_compute. auto. Qed.

(** The defaulted location is a parameter like any other: for Mock<void(), void(const std::source_location&)> a call with a location is
    ambiguous, though the signatures are an overload set and though the same call is fine for the second signature alone. *)
Theorem C71_location_parameter_refuted :
  exists sigs args, is_overload_set sigs = true /\ resolve_call ex lvalue args sigs = Ambiguous /\
    resolve_call ex lvalue args (tl sigs) = Chosen 0 /\ resolve_expect ex lvalue [4] sigs = Chosen 1.
Proof. exists [sg [] false RefNone; sg [3] false RefNone], [2]. vm_compute. auto. Qed.

(** A wide literal for a narrow string parameter is an error even if another overload fits. *)
Example C71_hard_error_example :
  resolve_expect ex lvalue [5] [sg [4] false RefNone; sg [5] false RefNone] = IllFormed /\
  resolve_expect ex lvalue [5] [sg [5] false RefNone] = NotViable.
Proof. vm_compute. auto. Qed.

(** ** Consequence for programs *)

(** The wrongly selected overload from above in a running program: the expectation made with a string_view is not met by the call with the
    same string_view. *)
Example C71_program_example :
  let sigs := [sg [4] false RefNone; sg [5] false RefNone] in
  match resolve_expect ex lvalue [3] sigs, resolve_call ex lvalue [3] sigs with
  | Chosen i, Chosen j => results [ONewMock sigs; OExpect 0 i [m_any] [] here; OCall 0 j [VInt 5] here] = [RUnit; RUnit; RThrow EReporter] /\
                          results [ONewMock sigs; OExpect 0 j [m_any] [] here; OCall 0 j [VInt 5] here] = [RUnit; RUnit; RUnit]
  | _, _ => False
  end.
Proof. vm_compute. auto. Qed.

Print Assumptions C71_call.
Print Assumptions C71_expect_call.
Print Assumptions C71_call_same_parameters.
Print Assumptions C71_expect_call_same_parameters.
Print Assumptions C71_same_overload.
Print Assumptions C71_chosen_fits_the_object.
Print Assumptions C71_order_independent.
Print Assumptions C71_return_type_and_noexcept_ignored.
Print Assumptions C71_expect_call_like_call_refuted.
Print Assumptions C71_same_arguments_same_overload_refuted.
Print Assumptions C71_object_outweighs_arguments_refuted.
Print Assumptions C71_location_parameter_refuted.
