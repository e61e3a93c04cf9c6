(** * BuilderLemmas: what an expectation expression amounts to. *)

From Verif Require Import Base Lib Sequence Control Signature Printer Reports Expectation Builder BuildSpec.
From Coq Require Import Sorting.Sorted Sorting.Permutation.

(** ** Duplicate check of sequence configurations *)

Lemma insert_perm x l : Permutation (insert_tag x l) (x :: l).
Proof.
  induction l as [|y l IH]; simpl; auto. destruct (x <=? y); auto.
  rewrite IH. apply perm_swap.
Qed.

Lemma sort_perm l : Permutation (sort_tags l) l.
Proof. induction l as [|x l IH]; simpl; auto. rewrite insert_perm. auto. Qed.

Lemma insert_sorted x l : LocallySorted le l -> LocallySorted le (insert_tag x l).
Proof.
  induction 1 as [|a|a b l Hl IH Hab]; simpl.
  - constructor.
  - destruct (Nat.leb_spec x a); repeat constructor; auto; lia.
  - destruct (Nat.leb_spec x a).
    + repeat constructor; auto.
    + simpl in IH. destruct (Nat.leb_spec x b); constructor; auto; lia.
Qed.

Lemma sort_sorted l : LocallySorted le (sort_tags l).
Proof. induction l; simpl; [constructor|]. apply insert_sorted; auto. Qed.

Lemma neighbours_nodup l : LocallySorted le l -> has_equal_neighbours l = false <-> NoDup l.
Proof.
  intros H. assert (S : StronglySorted le l).
  { apply Sorted_StronglySorted; [intros a b c; lia|]. apply Sorted_LocallySorted_iff; auto. }
  clear H. induction S as [|a l S IH Hall]; simpl.
  - split; intros; [constructor|reflexivity].
  - destruct l as [|b l].
    + split; intros; auto. repeat constructor; auto.
    + rewrite orb_false_iff, IH, Nat.eqb_neq. split.
      * intros [Hne Hnd]. constructor; auto. intros Hin.
        inversion S; subst. inversion Hall; subst.
        destruct Hin as [->|Hin]; [congruence|].
        rewrite Forall_forall in H2. specialize (H2 _ Hin). lia.
      * intros Hnd. inversion Hnd; subst. split; auto. intros ->. apply H1. left; auto.
Qed.

Lemma config_make_spec tags :
  (NoDup tags /\ config_make tags = Ret tags) \/ (~ NoDup tags /\ config_make tags = Throw EInvalidArgument).
Proof.
  unfold config_make. destruct (1 <? length tags) eqn:Hl; simpl.
  - destruct (has_equal_neighbours (sort_tags tags)) eqn:He.
    + right. split; auto. intros Hnd. assert (NoDup (sort_tags tags)).
      { eapply Permutation_NoDup; [symmetry; apply sort_perm|auto]. }
      apply (neighbours_nodup _ (sort_sorted tags)) in H. congruence.
    + left. split; auto. apply (neighbours_nodup _ (sort_sorted tags)) in He.
      eapply Permutation_NoDup; [apply sort_perm|auto].
  - left. split; auto. apply Nat.ltb_ge in Hl. destruct tags as [|x [|y tags]]; simpl in Hl; try lia; repeat constructor; auto.
Qed.

Lemma config_concat_spec c1 c2 :
  (NoDup (c1 ++ c2) /\ config_concat c1 c2 = Ret (c1 ++ c2)) \/
  (~ NoDup (c1 ++ c2) /\ config_concat c1 c2 = Throw EInvalidArgument).
Proof. apply config_make_spec. Qed.

(** ** Times *)

Lemma times_config_spec min max :
  ((0 <= min <= max)%Z /\ times_config min max = Ret (mkTimes min max)) \/
  (~ (0 <= min <= max)%Z /\ times_config min max = Throw EInvalidArgument).
Proof.
  unfold times_config.
  destruct (Z.ltb_spec min 0), (Z.ltb_spec max 0), (Z.ltb_spec max min); simpl; (left + right); split; auto; lia.
Qed.

Lemma eval_times_spec t :
  ((0 <= fst (limits_of t) <= snd (limits_of t))%Z /\ eval_times t = Ret (mkTimes (fst (limits_of t)) (snd (limits_of t)))) \/
  (~ (0 <= fst (limits_of t) <= snd (limits_of t))%Z /\ eval_times t = Throw EInvalidArgument).
Proof. destruct t; simpl; apply times_config_spec. Qed.

Lemma limits_int t : times_expr_int t = true -> (snd (limits_of t) <= INT_MAX)%Z.
Proof.
  destruct t; simpl; unfold is_int, INT_MAX; rewrite ?andb_true_iff, ?Z.leb_le; intros; lia.
Qed.

(** ** Clauses *)

Record bvalid (b : builder) : Prop := mkBValid {
  bv_times : (0 <= t_min (b_times b) <= t_max (b_times b))%Z;
  bv_max : (t_max (b_times b) <= INT_MAX)%Z;
  bv_seqs : NoDup (b_seqs b)
}.

Lemma builder_and_ok b cl b' :
  builder_and b cl = BOk b' -> bvalid b -> (match cl with ClTimes t => times_expr_int t = true | _ => True end) ->
  bvalid b' /\ b_policies b' = b_policies b ++ clause_policies [cl] /\ b_seqs b' = b_seqs b ++ clause_seqs [cl].
Proof.
  intros H [Hv Hm Hs] Hok. destruct cl as [t|tags|f|p]; simpl in H.
  - destruct (b_times_configured b); [discriminate|].
    destruct (eval_times_spec t) as [[Hr E]|[Hr E]]; rewrite E in H; simpl in H; [|discriminate].
    inversion H; subst; simpl. rewrite !app_nil_r. split; auto. constructor; simpl; auto. apply limits_int; auto.
  - destruct (config_make_spec tags) as [[Hn E]|[Hn E]]; rewrite E in H; simpl in H; [|discriminate].
    destruct (config_concat_spec (b_seqs b) tags) as [[Hn2 E2]|[Hn2 E2]]; rewrite E2 in H; simpl in H; [|discriminate].
    inversion H; subst; simpl. rewrite !app_nil_r. split; auto. constructor; simpl; auto.
  - assert (H' : b' = mkBuilder (b_times_configured b) true (b_times b) (b_seqs b) f (b_policies b)).
    { destruct f; try discriminate; destruct (b_finalized b); try discriminate; inversion H; auto. }
    subst b'. simpl. rewrite !app_nil_r. split; auto. constructor; simpl; auto.
  - inversion H; subst; simpl. rewrite !app_nil_r. split; auto. constructor; simpl; auto.
Qed.

Lemma builder_ands_ok cls : forall b b',
  builder_ands b cls = BOk b' -> bvalid b ->
  (forall t, In (ClTimes t) cls -> times_expr_int t = true) ->
  bvalid b' /\ b_policies b' = b_policies b ++ clause_policies cls /\ b_seqs b' = b_seqs b ++ clause_seqs cls.
Proof.
  induction cls as [|cl cls IH]; intros b b' H Hv Hok; simpl in H.
  - inversion H; subst. simpl. rewrite !app_nil_r. auto.
  - destruct (builder_and b cl) as [b1|x|] eqn:E; simpl in H; try discriminate.
    destruct (builder_and_ok _ _ _ E Hv) as (Hv1 & Hp1 & Hs1).
    { destruct cl; auto. apply Hok. left; auto. }
    destruct (IH _ _ H Hv1) as (Hv2 & Hp2 & Hs2).
    { intros t Ht. apply Hok. right; auto. }
    split; auto. simpl in *. rewrite Hp2, Hp1, Hs2, Hs1, !app_nil_r, <- !app_assoc. auto.
Qed.

Lemma builder_init_valid : bvalid builder_init.
Proof. constructor; simpl; [lia|unfold INT_MAX; lia|constructor]. Qed.

Fixpoint arg_reqs (i : nat) (ms : list matcher) : list policy :=
  match ms with
  | [] => []
  | m :: ms' => PArg i m (fun v => UOk v) :: arg_reqs (S i) ms'
  end.

Lemma clause_policies_args ms : forall i, clause_policies (arg_policies i ms) = arg_reqs i ms.
Proof. induction ms; intros; simpl; f_equal; auto. Qed.

Lemma clause_seqs_args ms : forall i, clause_seqs (arg_policies i ms) = [].
Proof. induction ms; intros; simpl; auto. Qed.

Lemma no_times_args ms t : forall i, ~ In (ClTimes t) (arg_policies i ms).
Proof. induction ms; intros i; simpl; auto. intros [|H]; [discriminate|]. eapply IHms; eauto. Qed.

Lemma clause_policies_app a b : clause_policies (a ++ b) = clause_policies a ++ clause_policies b.
Proof. apply flat_map_app. Qed.
Lemma clause_seqs_app a b : clause_seqs (a ++ b) = clause_seqs a ++ clause_seqs b.
Proof. apply flat_map_app. Qed.

Lemma build_ok s ms cls b :
  build s ms cls = BOk b ->
  (forall t, In (ClTimes t) cls -> times_expr_int t = true) ->
  bvalid b /\ b_seqs b = clause_seqs cls /\
  b_policies b = arg_reqs 0 ms ++ [PCategory (frontend_category s); PConstness (frontend_constness s)] ++ clause_policies cls.
Proof.
  unfold build, frontend_builder. destruct (viable false false cls); [|discriminate]. intros H Hok.
  destruct (builder_ands builder_init _) as [b1|x|] eqn:E; simpl in H; try discriminate.
  destruct (builder_ands_ok _ _ _ E builder_init_valid) as (Hv1 & Hp1 & Hs1).
  { intros t Ht. apply in_app_iff in Ht. destruct Ht as [Ht|[Ht|[Ht|[]]]]; try discriminate.
    exfalso. eapply no_times_args; eauto. }
  destruct (builder_ands_ok _ _ _ H Hv1 Hok) as (Hv2 & Hp2 & Hs2).
  split; auto. rewrite Hp2, Hp1, Hs2, Hs1. simpl.
  rewrite clause_policies_app, clause_seqs_app, clause_policies_args, clause_seqs_args. simpl.
  rewrite <- app_assoc. auto.
Qed.

Lemma arg_reqs_ok n ms : forall i, i + length ms <= n -> forallb (policy_ok n) (arg_reqs i ms) = true.
Proof.
  induction ms as [|m ms IH]; intros i Hi; simpl in *; auto. rewrite IH by lia.
  rewrite andb_true_r. apply Nat.ltb_lt. lia.
Qed.
