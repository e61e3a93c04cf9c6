(** * OverloadProofs: the model's overload resolution gives the language's answers. *)

From Coq Require Import Permutation.
From Verif Require Import Base Lib Signature SigSpec SigProofs Printer Strings Overload OverloadSpec.

Lemma Forall2_len {A B} (R : A -> B -> Prop) l l' : Forall2 R l l' -> length l = length l'.
Proof. induction 1; simpl; auto. Qed.

Lemma binds_spec o s : binds o s = true <-> object_fits o s.
Proof.
  destruct o as [c r], s as [ret ps v sc sr ne]. unfold binds, object_fits. simpl.
  destruct c, r, sc, sr; simpl; split; intros H; auto; try discriminate; try (repeat split; intros; auto; discriminate);
    destruct H as (H1 & H2 & H3);
    try (specialize (H1 eq_refl); discriminate); try (specialize (H2 eq_refl eq_refl); discriminate); specialize (H3 eq_refl); discriminate.
Qed.

Lemma better_object_spec o a b : object_fits o a -> object_fits o b -> (better_object o a b = true <-> fits_better o a b).
Proof.
  rewrite <- !binds_spec. destruct o as [c r], a as [ra pa va ca fa na], b as [rb pb vb cb fb nb].
  unfold binds, better_object, rvalue_rule, fits_better. simpl.
  destruct c, r, ca, fa, cb, fb; simpl; intros H1 H2; try discriminate; split; intros H; auto; try discriminate;
    destruct H as [[? ?]|(? & ? & ?)]; discriminate.
Qed.

Lemma fits_better_asym o a b : object_fits o a -> object_fits o b -> fits_better o a b -> ~ fits_better o b a.
Proof.
  intros Ha Hb H1 H2. unfold object_fits, fits_better in *.
  destruct H1 as [[? ?]|(? & ? & ?)], H2 as [[? ?]|(? & ? & ?)]; try congruence.
  - destruct Ha as (_ & Ha & _), Hb as (_ & Hb & _). rewrite Ha in *; auto; congruence.
  - destruct Ha as (_ & Ha & _), Hb as (_ & Hb & _). rewrite Hb in *; auto; congruence.
Qed.

Lemma converts_all_app la args ps l : (length ps <= length args)%nat ->
  (converts_all la args (ps ++ [l]) = true <->
   Forall2 (fun a p => la_converts la a p = true) args ps \/
   exists args' x, args = args' ++ [x] /\ Forall2 (fun a p => la_converts la a p = true) args' ps /\ la_converts la x l = true).
Proof.
  revert ps. induction args as [|a args IH]; intros ps Hl.
  - destruct ps; simpl in *; [|lia]. split; auto.
  - destruct ps as [|p ps]; simpl in *.
    + rewrite andb_true_iff. split.
      * intros [H1 H2]. destruct args; [|discriminate]. right. exists [], a. auto.
      * intros [H|(args' & x & H & H1 & H2)]; [inversion H|]. inversion H1; subst. simpl in H. inversion H; subst. auto.
    + rewrite andb_true_iff, IH by lia. split.
      * intros [H1 [H2|(args' & x & -> & H2 & H3)]]; [left; auto|]. right. exists (a :: args'), x. auto.
      * intros [H|(args' & x & H & H1 & H2)]; [inversion H; subst; auto|].
        inversion H1; subst. simpl in H. inversion H; subst. split; auto. right. eauto.
Qed.

Lemma call_viable_spec la o args s : call_viable la o args s = true <-> object_fits o s /\ call_fits la args s.
Proof.
  unfold call_viable, call_params, call_fits. rewrite !andb_true_iff, binds_spec, Nat.leb_le. split.
  - intros [[H1 H2] H3]. split; auto. apply converts_all_app in H3; auto.
  - intros [H1 H2]. assert (H3 : (length (sg_params s) <= length args)%nat).
    { destruct H2 as [H|(args' & x & -> & H & _)]; apply Forall2_len in H; [lia|]. rewrite app_length. simpl. lia. }
    split; [auto|]. apply converts_all_app; auto.
Qed.

Lemma some_better_spec la args : forall ps qs, some_better la args ps qs = true <->
  exists i x p q, nth_error args i = Some x /\ nth_error ps i = Some p /\ nth_error qs i = Some q /\ la_better la x p q = true.
Proof.
  induction args as [|a args IH]; intros ps qs; simpl.
  - split; [discriminate|]. intros (i & x & p & q & H & _). destruct i; discriminate.
  - destruct ps as [|p ps], qs as [|q qs].
    1-3: split; [discriminate|]; intros (i & x & p' & q' & _ & H1 & H2 & _); destruct i; discriminate.
    rewrite orb_true_iff, IH. split.
    + intros [H|(i & x & p' & q' & H1 & H2 & H3 & H4)]; [exists 0, a, p, q; auto|]. exists (S i), x, p', q'. auto.
    + intros ([|i] & x & p' & q' & H1 & H2 & H3 & H4); simpl in *.
      * left. congruence.
      * right. exists i, x, p', q'. auto.
Qed.

Lemma call_better_spec la o args a b : object_fits o a -> object_fits o b ->
  (call_better la o args a b = true <-> call_prefers la o args a b).
Proof.
  intros Ha Hb. unfold call_better, call_prefers. rewrite !andb_true_iff, orb_true_iff, !negb_true_iff, <- !not_true_iff_false.
  rewrite (better_object_spec o a b Ha Hb), (better_object_spec o b a Hb Ha), !some_better_spec.
  unfold converts_better, call_params. tauto.
Qed.

Lemma requirements_ok la args : forall ps, length args = length ps ->
  (forallb rule_ok (requirements la args ps) = true <->
   Forall2 (fun a p => make_arg_matcher (la_traits la a p) = UseMatcher \/ make_arg_matcher (la_traits la a p) = UseStrEq \/
                       make_arg_matcher (la_traits la a p) = UseEq) args ps).
Proof.
  induction args as [|a args IH]; intros [|p ps] Hl; simpl in *; try lia; [split; auto|].
  rewrite andb_true_iff, IH by lia. split.
  - intros [H1 H2]. constructor; auto. destruct (make_arg_matcher _); simpl in H1; auto; discriminate.
  - intros H. inversion H; subst. split; auto. destruct H3 as [-> | [-> | ->]]; reflexivity.
Qed.

Lemma requirements_hard la args : forall ps, length args = length ps ->
  (existsb rule_hard (requirements la args ps) = true <->
   exists i a p, nth_error args i = Some a /\ nth_error ps i = Some p /\ make_arg_matcher (la_traits la a p) = HardError).
Proof.
  induction args as [|a args IH]; intros [|p ps] Hl; simpl in *; try lia.
  - split; [discriminate|]. intros (i & x & y & H & _). destruct i; discriminate.
  - rewrite orb_true_iff, IH by lia. split.
    + intros [H|(i & x & y & H)]; [|exists (S i), x, y; auto]. exists 0, a, p. repeat split; auto.
      destruct (make_arg_matcher _); simpl in H; auto; discriminate.
    + intros ([|i] & x & y & H1 & H2 & H3); simpl in *.
      * left. inversion H1; inversion H2; subst. rewrite H3. reflexivity.
      * right. exists i, x, y. auto.
Qed.

Lemma expect_viable_spec la o args s : expect_viable la o args s = true <-> object_fits o s /\ expect_fits la args s.
Proof.
  unfold expect_viable, expect_fits. rewrite !andb_true_iff, binds_spec, Nat.eqb_eq. split.
  - intros [[H1 H2] H3]. split; auto. apply requirements_ok in H3; auto.
  - intros [H1 H2]. assert (length args = length (sg_params s)) by (apply Forall2_len in H2; auto). split; auto.
    apply requirements_ok; auto.
Qed.

Lemma expect_hard_spec la args s : expect_hard la args s = true <-> expect_error la args s.
Proof.
  unfold expect_hard, expect_error. rewrite andb_true_iff, Nat.eqb_eq. split; intros [H1 H2]; split; auto; apply requirements_hard; auto.
Qed.

(** ** The best viable function *)

Section Select.
  Context (viable : signature -> bool) (better : signature -> signature -> bool).
  Context (V : signature -> Prop) (B : signature -> signature -> Prop).
  Context (HV : forall s, viable s = true <-> V s).
  Context (HB : forall a b, V a -> V b -> (better a b = true <-> B a b)).
  Context (Hasym : forall a b, V a -> V b -> B a b -> ~ B b a).

  Definition best_of (sigs : list signature) (i : nat) : Prop :=
    exists s, nth_error sigs i = Some s /\ V s /\ forall j b, j <> i -> nth_error sigs j = Some b -> V b -> B s b.

  Lemma is_best_spec sigs i : is_best viable better sigs i = true <-> best_of sigs i.
  Proof.
    unfold is_best, best_of. destruct (nth_error sigs i) as [a|] eqn:E.
    - rewrite andb_true_iff, HV, forallb_forall. split.
      + intros [H1 H2]. exists a. split; auto. split; auto. intros j b Hne Hj Hb.
        specialize (H2 j). rewrite Hj in H2. rewrite in_seq in H2.
        assert (Hlt : (j < length sigs)%nat) by (apply nth_error_Some; congruence).
        specialize (H2 ltac:(lia)). apply orb_true_iff in H2. destruct H2 as [H2|H2]; [apply Nat.eqb_eq in H2; congruence|].
        apply orb_true_iff in H2. destruct H2 as [H2|H2]; [apply negb_true_iff in H2; apply HV in Hb; congruence|].
        apply HB; auto.
      + intros (s & Hs & H1 & H2). inversion Hs; subst s. split; auto. intros j _.
        destruct (Nat.eqb_spec j i); auto. simpl. destruct (nth_error sigs j) as [b|] eqn:Ej; auto.
        destruct (viable b) eqn:Eb; auto. simpl. apply HV in Eb. apply HB; auto. eapply H2; eauto.
    - split; [discriminate|]. intros (s & H & _). discriminate.
  Qed.

  Lemma best_unique sigs i j : best_of sigs i -> best_of sigs j -> i = j.
  Proof.
    intros (a & Ha & Va & Ba) (b & Hb & Vb & Bb). destruct (Nat.eq_dec i j); auto. exfalso.
    apply (Hasym a b Va Vb); [apply (Ba j)|apply (Bb i)]; auto.
  Qed.

  Lemma best_lt sigs i : best_of sigs i -> (i < length sigs)%nat.
  Proof. intros (s & H & _). apply nth_error_Some. congruence. Qed.

  Lemma select_chosen sigs i : select viable better sigs = Chosen i <-> best_of sigs i.
  Proof.
    unfold select. split.
    - destruct (existsb viable sigs); [|discriminate]. destruct (find _ _) as [k|] eqn:E; [|discriminate].
      intros H. inversion H; subst k. apply find_some in E. apply is_best_spec, E.
    - intros H. assert (Hv : existsb viable sigs = true).
      { destruct H as (s & Hs & Vs & _). apply existsb_exists. exists s. split; [eapply nth_error_In; eauto|]. apply HV; auto. }
      rewrite Hv. destruct (find _ _) as [k|] eqn:E.
      + apply find_some in E. destruct E as [_ E]. apply is_best_spec in E. f_equal. eapply best_unique; eauto.
      + exfalso. pose proof (find_none _ _ E i) as G. apply is_best_spec in H as H'. rewrite G in H'; [discriminate|].
        apply in_seq. apply best_lt in H. lia.
  Qed.

  Lemma select_not_viable sigs : select viable better sigs = NotViable <-> forall s, In s sigs -> ~ V s.
  Proof.
    unfold select. destruct (existsb viable sigs) eqn:E.
    - split.
      + destruct (find _ _); discriminate.
      + intros H. apply existsb_exists in E. destruct E as (s & Hs & Vs). apply HV in Vs. exfalso. eapply H; eauto.
    - split; auto. intros _ s Hs Vs. apply HV in Vs. assert (existsb viable sigs = true) by (apply existsb_exists; eauto). congruence.
  Qed.

  Lemma select_not_hard sigs : select viable better sigs <> IllFormed.
  Proof. unfold select. destruct (existsb viable sigs); [destruct (find _ _)|]; discriminate. Qed.

  Lemma select_ambiguous sigs : select viable better sigs = Ambiguous <->
    (exists s, In s sigs /\ V s) /\ forall i, ~ best_of sigs i.
  Proof.
    split.
    - intros H. split.
      + unfold select in H. destruct (existsb viable sigs) eqn:E; [|discriminate]. apply existsb_exists in E.
        destruct E as (s & Hs & Vs). exists s. split; auto. apply HV; auto.
      + intros i Hi. apply select_chosen in Hi. congruence.
    - intros [(s & Hs & Vs) H]. destruct (select viable better sigs) eqn:E; auto; exfalso.
      + apply select_chosen in E. eapply H; eauto.
      + eapply (proj1 (select_not_viable sigs)) in E; eauto.
      + eapply select_not_hard; eauto.
  Qed.
End Select.

Lemma call_prefers_asym la o args a b : call_prefers la o args a b -> ~ call_prefers la o args b a.
Proof. unfold call_prefers. tauto. Qed.

Definition call_V la o args s : Prop := object_fits o s /\ call_fits la args s.
Definition expect_V la o args s : Prop := object_fits o s /\ expect_fits la args s.

Lemma call_chosen la o args sigs i : resolve_call la o args sigs = Chosen i <->
  best_of (call_V la o args) (call_prefers la o args) sigs i.
Proof.
  unfold resolve_call. apply select_chosen.
  - intros s. apply call_viable_spec.
  - intros a b [Ha _] [Hb _]. apply call_better_spec; auto.
  - intros a b _ _. apply call_prefers_asym.
Qed.

Lemma call_not_viable la o args sigs : resolve_call la o args sigs = NotViable <-> forall s, In s sigs -> ~ call_V la o args s.
Proof. unfold resolve_call. apply select_not_viable. intros s. apply call_viable_spec. Qed.

Lemma call_ambiguous la o args sigs : resolve_call la o args sigs = Ambiguous <->
  (exists s, In s sigs /\ call_V la o args s) /\ forall i, ~ best_of (call_V la o args) (call_prefers la o args) sigs i.
Proof.
  unfold resolve_call. apply select_ambiguous.
  - intros s. apply call_viable_spec.
  - intros a b [Ha _] [Hb _]. apply call_better_spec; auto.
  - intros a b _ _. apply call_prefers_asym.
Qed.

Lemma some_hard la args sigs : existsb (expect_hard la args) sigs = true <-> exists s, In s sigs /\ expect_error la args s.
Proof.
  rewrite existsb_exists. split; intros (s & H1 & H2); exists s; split; auto; apply expect_hard_spec; auto.
Qed.

Lemma expect_chosen la o args sigs i : resolve_expect la o args sigs = Chosen i <->
  (forall s, In s sigs -> ~ expect_error la args s) /\ best_of (expect_V la o args) (fits_better o) sigs i.
Proof.
  unfold resolve_expect. destruct (existsb (expect_hard la args) sigs) eqn:E.
  - split; [discriminate|]. intros [H _]. apply some_hard in E. destruct E as (s & H1 & H2). exfalso. eapply H; eauto.
  - unfold expect_better. rewrite (select_chosen _ _ (expect_V la o args) (fits_better o)).
    + split; [|tauto]. intros H. split; auto. intros s Hs He.
      assert (existsb (expect_hard la args) sigs = true) by (apply some_hard; eauto). congruence.
    + intros s. apply expect_viable_spec.
    + intros a b [Ha _] [Hb _]. apply better_object_spec; auto.
    + intros a b [Ha _] [Hb _]. apply fits_better_asym; auto.
Qed.

Lemma expect_not_viable la o args sigs : resolve_expect la o args sigs = NotViable <->
  (forall s, In s sigs -> ~ expect_error la args s) /\ forall s, In s sigs -> ~ expect_V la o args s.
Proof.
  unfold resolve_expect. destruct (existsb (expect_hard la args) sigs) eqn:E.
  - split; [discriminate|]. intros [H _]. apply some_hard in E. destruct E as (s & H1 & H2). exfalso. eapply H; eauto.
  - unfold expect_better. rewrite (select_not_viable _ _ (expect_V la o args)).
    + split; [|tauto]. intros H. split; auto. intros s Hs He.
      assert (existsb (expect_hard la args) sigs = true) by (apply some_hard; eauto). congruence.
    + intros s. apply expect_viable_spec.
Qed.

Lemma expect_ill_formed la o args sigs : resolve_expect la o args sigs = IllFormed <-> exists s, In s sigs /\ expect_error la args s.
Proof.
  unfold resolve_expect. rewrite <- some_hard. destruct (existsb (expect_hard la args) sigs); [split; auto|].
  split; [|discriminate]. intros H. exfalso. eapply select_not_hard; eauto.
Qed.

(** ** Functions with the same parameters *)

Lemma first_with_in quals sigs s : first_with quals sigs = Some s -> In s sigs /\ In (qualification s) quals.
Proof.
  induction quals as [|[c r] quals IH]; simpl; [discriminate|].
  destruct (find _ sigs) as [s'|] eqn:E.
  - intros H. inversion H; subst s'. apply find_some in E. destruct E as [E1 E2]. split; auto. left.
    apply andb_true_iff in E2. destruct E2 as [E2 E3]. simpl in *. apply Bool.eqb_prop in E2.
    unfold qualification. rewrite E2. f_equal. destruct (sg_ref s), r; simpl in E3; congruence.
  - intros H. apply IH in H. tauto.
Qed.

Lemma first_with_none quals sigs : first_with quals sigs = None -> forall s, In s sigs -> ~ In (qualification s) quals.
Proof.
  induction quals as [|[c r] quals IH]; simpl; auto. destruct (find _ sigs) as [s'|] eqn:E; [discriminate|].
  intros H s Hs [Hq|Hq]; [|eapply IH; eauto]. eapply find_none in E; eauto. simpl in E.
  unfold qualification in Hq. inversion Hq; subst. rewrite Bool.eqb_reflx in E. destruct (sg_ref s); discriminate.
Qed.

(** Everything before the found qualification does not occur. *)
Lemma first_with_split quals sigs s : first_with quals sigs = Some s ->
  exists before after, quals = before ++ qualification s :: after /\ forall b, In b sigs -> ~ In (qualification b) before.
Proof.
  induction quals as [|[c r] quals IH]; simpl; [discriminate|].
  destruct (find _ sigs) as [s'|] eqn:E.
  - intros H. inversion H; subst s'. apply find_some in E. destruct E as [E1 E2].
    apply andb_true_iff in E2. destruct E2 as [E2 E3]. simpl in *. apply Bool.eqb_prop in E2.
    exists [], quals. split; [|intros b _ []]. simpl. unfold qualification. rewrite E2.
    f_equal. f_equal. destruct (sg_ref s), r; simpl in E3; congruence.
  - intros H. destruct (IH H) as (before & after & -> & Hb). exists ((c, r) :: before), after. split; auto.
    intros b Hin [Hq|Hq]; [|eapply Hb; eauto]. eapply find_none in E; eauto. simpl in E.
    unfold qualification in Hq. inversion Hq; subst. rewrite Bool.eqb_reflx in E. destruct (sg_ref b); discriminate.
Qed.

Lemma preference_fits o s : In (qualification s) (preference o) <-> object_fits o s.
Proof.
  rewrite <- binds_spec. destruct o as [c r], s as [ret ps v sc sr ne]. unfold binds, preference, qualification. simpl.
  destruct c, r, sc, sr; simpl; intuition discriminate.
Qed.

Lemma preference_order o a b before after : preference o = before ++ qualification a :: after ->
  object_fits o b -> ~ In (qualification b) before -> qualification b <> qualification a -> (sg_ref a = RefNone <-> sg_ref b = RefNone) ->
  fits_better o a b.
Proof.
  rewrite <- binds_spec. destruct o as [c r], a as [ra pa va ca fa na], b as [rb pb vb cb fb nb].
  unfold binds, preference, qualification, fits_better. simpl.
  intros Hp Hb Hn Hne Hr.
  assert (Hmem : forall x, In x before \/ x = (ca, fa) \/ In x after <->
                 In x (match c, r with
                       | false, false => [(false, RefNone); (true, RefNone); (false, RefL); (true, RefL)]
                       | true, false => [(true, RefNone); (true, RefL)]
                       | false, true => [(false, RefNone); (true, RefNone); (false, RefR); (true, RefR); (true, RefL)]
                       | true, true => [(true, RefNone); (true, RefR); (true, RefL)]
                       end)).
  { intros x. rewrite Hp, in_app_iff. simpl. split; intros [H|[H|H]]; auto. }
  clear Hmem.
  destruct c, r; repeat (destruct before as [|? before]; simpl in Hp; inversion Hp; subst; clear Hp;
                         try match goal with H : _ = before ++ _ |- _ => rename H into Hp end);
    try (destruct before; discriminate);
    destruct cb, fb; simpl in *; try discriminate; try congruence; auto 10;
    try (exfalso; apply Hn; auto 10; fail);
    try (exfalso; destruct Hr as [Hr1 Hr2]; try (specialize (Hr1 eq_refl); discriminate); specialize (Hr2 eq_refl); discriminate).
Qed.

Lemma same_params_qualification a b : may_overload a b -> sg_params a = sg_params b ->
  (sg_ref a = RefNone <-> sg_ref b = RefNone) /\ qualification b <> qualification a.
Proof.
  intros [H|[H1 H2]] Hp; [congruence|]. split; auto. unfold qualification. intros H. inversion H. destruct H2; congruence.
Qed.

Definition same_params (ps : list ty) (s : signature) : bool := list_ty_eqb (sg_params s) ps.

(** Among the functions with these parameters, the first in the order of preference is better than all others. *)
Lemma preferred_best sigs o ps s : pairwise may_overload sigs -> first_with (preference o) (filter (same_params ps) sigs) = Some s ->
  sg_params s = ps /\ object_fits o s /\
  exists i, nth_error sigs i = Some s /\
    forall j b, j <> i -> nth_error sigs j = Some b -> sg_params b = ps -> object_fits o b -> fits_better o s b.
Proof.
  intros Hpw H. pose proof (first_with_in _ _ _ H) as [Hin Hq]. apply filter_In in Hin. destruct Hin as [Hin Hps].
  apply list_ty_eqb_spec in Hps. split; auto. split; [apply preference_fits; auto|].
  apply In_nth_error in Hin. destruct Hin as [i Hi]. exists i. split; auto. intros j b Hne Hj Hb Hf.
  apply first_with_split in H. destruct H as (before & after & Hsplit & Hbefore).
  destruct (same_params_qualification s b) as [Hr Hd]; [apply (Hpw i j); auto|congruence|].
  eapply preference_order; eauto. apply Hbefore. apply filter_In. split; [eapply nth_error_In; eauto|]. apply list_ty_eqb_spec. auto.
Qed.

Lemma same_conversion la args a b : (forall x p, la_better la x p p = false) -> sg_params a = sg_params b -> ~ converts_better la args a b.
Proof.
  intros Hirr Hp (i & x & p & q & _ & H1 & H2 & H3). rewrite Hp in H1. rewrite H1 in H2. inversion H2; subst. rewrite Hirr in H3. discriminate.
Qed.

Lemma call_same_params la o args sigs ps : (forall x p, la_better la x p p = false) -> pairwise may_overload sigs ->
  (forall s, In s sigs -> (call_fits la args s <-> sg_params s = ps)) ->
  match first_with (preference o) (filter (same_params ps) sigs) with
  | Some s => exists i, nth_error sigs i = Some s /\ resolve_call la o args sigs = Chosen i
  | None => resolve_call la o args sigs = NotViable
  end.
Proof.
  intros Hirr Hpw Hfit. destruct (first_with _ _) as [s|] eqn:E.
  - destruct (preferred_best _ _ _ _ Hpw E) as (Hp & Ho & i & Hi & Hb). exists i. split; auto.
    apply call_chosen. exists s. split; auto. split; [split; auto; apply Hfit; auto; eapply nth_error_In; eauto|].
    intros j b Hne Hj [Hbo Hbf]. assert (Hbp : sg_params b = ps) by (apply Hfit; auto; eapply nth_error_In; eauto).
    specialize (Hb j b Hne Hj Hbp Hbo). unfold call_prefers. split; auto. split; [apply fits_better_asym; auto|].
    apply same_conversion; auto. congruence.
  - apply call_not_viable. intros s Hs [Ho Hf]. apply Hfit in Hf; auto. eapply first_with_none in E.
    + apply E. apply preference_fits; eauto.
    + apply filter_In. split; eauto. apply list_ty_eqb_spec. auto.
Qed.

Lemma expect_same_params la o args sigs ps : pairwise may_overload sigs ->
  (forall s, In s sigs -> ~ expect_error la args s) ->
  (forall s, In s sigs -> (expect_fits la args s <-> sg_params s = ps)) ->
  match first_with (preference o) (filter (same_params ps) sigs) with
  | Some s => exists i, nth_error sigs i = Some s /\ resolve_expect la o args sigs = Chosen i
  | None => resolve_expect la o args sigs = NotViable
  end.
Proof.
  intros Hpw Hhard Hfit. destruct (first_with _ _) as [s|] eqn:E.
  - destruct (preferred_best _ _ _ _ Hpw E) as (Hp & Ho & i & Hi & Hb). exists i. split; auto.
    apply expect_chosen. split; auto. exists s. split; auto. split; [split; auto; apply Hfit; auto; eapply nth_error_In; eauto|].
    intros j b Hne Hj [Hbo Hbf]. assert (Hbp : sg_params b = ps) by (apply Hfit; auto; eapply nth_error_In; eauto).
    apply (Hb j b Hne Hj Hbp Hbo).
  - apply expect_not_viable. split; auto. intros s Hs [Ho Hf]. apply Hfit in Hf; auto. eapply first_with_none in E.
    + apply E. apply preference_fits; eauto.
    + apply filter_In. split; eauto. apply list_ty_eqb_spec. auto.
Qed.

(** ** The order of the signatures does not matter *)

Lemma best_perm (V : signature -> Prop) (B : signature -> signature -> Prop) sigs sigs' i : pairwise may_overload sigs -> Permutation sigs sigs' ->
  best_of V B sigs i -> exists j, best_of V B sigs' j /\ nth_error sigs' j = nth_error sigs i.
Proof.
  intros Hpw Hperm (s & Hs & Vs & Bs).
  assert (Hpw' : pairwise may_overload sigs') by (eapply pairwise_perm; eauto; apply may_overload_sym).
  assert (Hin : In s sigs') by (eapply Permutation_in; eauto; eapply nth_error_In; eauto).
  apply In_nth_error in Hin. destruct Hin as [j Hj]. exists j. split; [|congruence].
  exists s. split; auto. split; auto. intros k b Hne Hk Hb.
  assert (Hbs : b <> s).
  { intros ->. specialize (Hpw' k j s s Hne Hk Hj). destruct Hpw' as [H|[_ [H|H]]]; congruence. }
  assert (Hin : In b sigs) by (eapply Permutation_in; [apply Permutation_sym; eauto|eapply nth_error_In; eauto]).
  apply In_nth_error in Hin. destruct Hin as [m Hm]. apply (Bs m); auto. intros ->. congruence.
Qed.

(** ** Return types and noexcept do not matter *)

Definition like (a b : signature) : Prop := sg_params a = sg_params b /\ sg_const a = sg_const b /\ sg_ref a = sg_ref b.

Lemma Forall2_nth {A B} (R : A -> B -> Prop) l l' i a : Forall2 R l l' -> nth_error l i = Some a -> exists b, nth_error l' i = Some b /\ R a b.
Proof.
  intros H. revert i. induction H; intros [|i]; simpl; try discriminate.
  - intros E. inversion E; subst. eauto.
  - auto.
Qed.

Lemma select_like viable better sigs sigs' : Forall2 like sigs sigs' ->
  (forall a b, like a b -> viable a = viable b) -> (forall a b c d, like a b -> like c d -> better a c = better b d) ->
  select viable better sigs = select viable better sigs'.
Proof.
  intros H Hv Hb. unfold select. assert (Hlen : length sigs = length sigs') by (eapply Forall2_len; eauto).
  assert (E : existsb viable sigs = existsb viable sigs').
  { clear -H Hv. induction H; simpl; auto. rewrite (Hv _ _ H), IHForall2. reflexivity. }
  rewrite E, Hlen. clear E. destruct (existsb viable sigs'); auto.
  assert (G : forall i, is_best viable better sigs i = is_best viable better sigs' i).
  { intros i. unfold is_best. rewrite <- Hlen.
    destruct (nth_error sigs i) as [a|] eqn:Ea.
    - destruct (Forall2_nth _ _ _ _ _ H Ea) as (a' & Ea' & La). rewrite Ea', (Hv _ _ La). f_equal.
      generalize (seq 0 (length sigs)). induction l as [|j l IH]; simpl; auto. rewrite IH. f_equal. f_equal.
      destruct (nth_error sigs j) as [b|] eqn:Eb.
      + destruct (Forall2_nth _ _ _ _ _ H Eb) as (b' & Eb' & Lb). rewrite Eb', (Hv _ _ Lb), (Hb _ _ _ _ La Lb). reflexivity.
      + apply nth_error_None in Eb. rewrite Hlen in Eb. apply nth_error_None in Eb. rewrite Eb. reflexivity.
    - apply nth_error_None in Ea. rewrite Hlen in Ea. apply nth_error_None in Ea. rewrite Ea. reflexivity. }
  generalize (seq 0 (length sigs')). induction l as [|i l IH]; simpl; auto. rewrite G. destruct (is_best viable better sigs' i); auto.
Qed.

Lemma call_like la o args sigs sigs' : Forall2 like sigs sigs' -> resolve_call la o args sigs = resolve_call la o args sigs'.
Proof.
  intros H. apply select_like; auto; unfold call_viable, call_better, better_object, rvalue_rule, binds, call_params.
  - intros a b (-> & -> & ->). reflexivity.
  - intros a b c d (-> & -> & ->) (-> & -> & ->). reflexivity.
Qed.

Lemma expect_like la o args sigs sigs' : Forall2 like sigs sigs' -> resolve_expect la o args sigs = resolve_expect la o args sigs'.
Proof.
  intros H. unfold resolve_expect. assert (E : existsb (expect_hard la args) sigs = existsb (expect_hard la args) sigs').
  { clear o. induction H; simpl; auto. rewrite IHForall2. f_equal. destruct H as (H & _). unfold expect_hard. rewrite H. reflexivity. }
  rewrite E. destruct (existsb _ sigs'); auto. apply select_like; auto; unfold expect_viable, expect_better, better_object, rvalue_rule, binds.
  - intros a b (-> & -> & ->). reflexivity.
  - intros a b c d (_ & -> & ->) (_ & -> & ->). reflexivity.
Qed.
