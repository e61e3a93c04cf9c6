(** * BuildProofs: what expectation expressions build. *)

From Coq Require Import Permutation.
From Verif Require Import Base Lib Sequence Control Signature Printer Reports Expectation Builder BuildSpec World WorldSpec
  SeqInv BuilderLemmas StepCases MatchLemmas WorldInv ObjInv.

Definition is_nil {A} (l : list A) : bool := match l with [] => true | _ => false end.
Definition one_if (b : bool) : nat := if b then 1 else 0.

Definition static_ok (b : builder) (cls : list clause) : Prop :=
  length (times_clauses cls) + one_if (b_times_configured b) <= 1 /\
  length (final_clauses cls) + one_if (b_finalized b) <= 1 /\ ~ In FInit (final_clauses cls).
Definition dynamic_ok (b : builder) (cls : list clause) : Prop :=
  Forall valid_limits (times_clauses cls) /\ NoDup (b_seqs b ++ clause_seqs cls).

Definition times_from (b : builder) (cls : list clause) : times :=
  match times_clauses cls with t :: _ => mkTimes (fst (limits_of t)) (snd (limits_of t)) | [] => b_times b end.
Definition final_from (b : builder) (cls : list clause) : finalizer :=
  match final_clauses cls with f :: _ => f | [] => b_final b end.

Definition expected (b : builder) (cls : list clause) : builder :=
  mkBuilder (b_times_configured b || negb (is_nil (times_clauses cls))) (b_finalized b || negb (is_nil (final_clauses cls)))
    (times_from b cls) (b_seqs b ++ clause_seqs cls) (final_from b cls) (b_policies b ++ clause_policies cls).

Lemma nodup_app_l {A} (l l' : list A) : NoDup (l ++ l') -> NoDup l.
Proof. induction l as [|a l IH]; simpl; intros H; [constructor|]. inversion H; subst. constructor; auto. intros Hi. apply H2, in_app_iff; auto. Qed.
Lemma nodup_app_r {A} (l l' : list A) : NoDup (l ++ l') -> NoDup l'.
Proof. induction l as [|a l IH]; simpl; intros H; auto. inversion H; auto. Qed.

Lemma builder_ands_run cls : forall b, static_ok b cls -> dynamic_ok b cls -> builder_ands b cls = BOk (expected b cls).
Proof.
  induction cls as [|cl cls IH]; intros b (S1 & S2 & S3) (D1 & D2); simpl.
  - destruct b as [tc fi tm sq f ps]. unfold expected, times_from, final_from. simpl. rewrite !orb_false_r, !app_nil_r. reflexivity.
  - destruct cl as [t|tags|f|p]; simpl in *.
    + destruct (b_times_configured b) eqn:Hc; simpl in S1; [lia|].
      inversion D1; subst. destruct (eval_times_spec t) as [[_ E]|[Hn _]]; [|contradiction]. rewrite E. simpl.
      assert (Ht : times_clauses cls = []) by (destruct (times_clauses cls); auto; simpl in S1; lia).
      rewrite IH; [|split; [rewrite Ht; simpl; lia|split; auto]|split; auto].
      unfold expected, times_from, final_from. simpl. rewrite Hc, Ht. reflexivity.
    + assert (Hn1 : NoDup tags) by (apply nodup_app_r in D2; apply nodup_app_l in D2; auto).
      assert (Hn2 : NoDup (b_seqs b ++ tags)) by (rewrite app_assoc in D2; apply nodup_app_l in D2; auto).
      destruct (config_make_spec tags) as [[_ E]|[Hn _]]; [|contradiction]. rewrite E. simpl.
      destruct (config_concat_spec (b_seqs b) tags) as [[_ E2]|[Hn _]]; [|contradiction]. rewrite E2. simpl.
      rewrite IH; [|split; [auto|split; auto]|split; auto; simpl; rewrite <- app_assoc; auto].
      unfold expected, times_from, final_from. simpl. rewrite <- app_assoc. reflexivity.
    + destruct (b_finalized b) eqn:Hc; simpl in S2; [lia|].
      assert (Ht : final_clauses cls = []) by (destruct (final_clauses cls); auto; simpl in S2; lia).
      assert (Hb : (match f with
                    | FInit => BIllFormed
                    | _ => BOk (mkBuilder (b_times_configured b) true (b_times b) (b_seqs b) f (b_policies b))
                    end : built builder) = BOk (mkBuilder (b_times_configured b) true (b_times b) (b_seqs b) f (b_policies b))).
      { destruct f; auto. exfalso. apply S3. left; auto. }
      rewrite Hb. simpl. rewrite IH; [|split; [auto|split; [rewrite Ht; simpl; lia|rewrite Ht; auto]]|split; auto].
      unfold expected, times_from, final_from. simpl. rewrite Hc, Ht. reflexivity.
    + rewrite IH; [|split; [auto|split; auto]|split; auto].
      unfold expected, times_from, final_from. simpl. rewrite <- app_assoc. reflexivity.
Qed.

Lemma builder_ands_throw cls : forall b, static_ok b cls -> NoDup (b_seqs b) -> ~ dynamic_ok b cls ->
  builder_ands b cls = BThrow EInvalidArgument.
Proof.
  induction cls as [|cl cls IH]; intros b (S1 & S2 & S3) Hnd Hnot; simpl.
  - exfalso. apply Hnot. split; simpl; [constructor|rewrite app_nil_r; auto].
  - destruct cl as [t|tags|f|p]; simpl in *.
    + destruct (b_times_configured b) eqn:Hc; simpl in S1; [lia|].
      destruct (eval_times_spec t) as [[Hv E]|[Hn E]]; rewrite E; simpl; auto.
      apply IH; simpl; auto.
      * split; [simpl; lia|split; auto].
      * intros [D1 D2]. apply Hnot. split; auto. simpl. constructor; auto.
    + destruct (config_make_spec tags) as [[_ E]|[Hn E]]; rewrite E; simpl; auto.
      destruct (config_concat_spec (b_seqs b) tags) as [[Hn2 E2]|[Hn E2]]; rewrite E2; simpl; auto.
      apply IH; simpl; auto.
      * split; [auto|split; auto].
      * intros [D1 D2]. simpl in D2. apply Hnot. split; auto. simpl. rewrite app_assoc. auto.
    + destruct (b_finalized b) eqn:Hc; simpl in S2; [lia|].
      assert (Hb : (match f with
                    | FInit => BIllFormed
                    | _ => BOk (mkBuilder (b_times_configured b) true (b_times b) (b_seqs b) f (b_policies b))
                    end : built builder) = BOk (mkBuilder (b_times_configured b) true (b_times b) (b_seqs b) f (b_policies b))).
      { destruct f; auto. exfalso. apply S3. left; auto. }
      rewrite Hb. simpl. apply IH; simpl; auto.
      split; [auto|split; [simpl; lia|auto]].
    + apply IH; simpl; auto. split; [auto|split; auto].
Qed.

Lemma viable_spec cls : forall tc fi, viable tc fi cls = true <->
  length (times_clauses cls) + one_if tc <= 1 /\ length (final_clauses cls) + one_if fi <= 1 /\ ~ In FInit (final_clauses cls).
Proof.
  induction cls as [|cl cls IH]; intros tc fi; simpl.
  - destruct tc, fi; simpl; split; auto.
  - destruct cl as [t|tags|f|p]; [|exact (IH tc fi)| |exact (IH tc fi)]; simpl.
    + rewrite andb_true_iff, IH. destruct tc; simpl; [split; [intros [H _]; discriminate|lia]|]. rewrite Nat.add_0_r, Nat.add_1_r. tauto.
    + assert (E : viable tc fi (ClFinal f :: cls) = true <-> f <> FInit /\ negb fi && viable tc true cls = true).
      { destruct f; simpl; split; try (intros [? ?]); auto; try discriminate; try congruence; try (intros H; split; auto; discriminate). }
      simpl in E. rewrite E, andb_true_iff, IH. destruct fi; simpl; [split; [intros (_ & H & _); discriminate|lia]|].
      rewrite Nat.add_0_r, Nat.add_1_r. intuition congruence.
Qed.

Lemma arg_policies_times ms : forall i, times_clauses (arg_policies i ms) = [] /\ final_clauses (arg_policies i ms) = [].
Proof. induction ms as [|m ms IH]; intros i; simpl; auto. Qed.

Lemma arg_reqs_spec ms : forall i, arg_reqs i ms = map (fun im => PArg (fst im) (snd im) (fun v => UOk v)) (combine (seq i (length ms)) ms).
Proof. induction ms as [|m ms IH]; intros i; simpl; auto. f_equal. auto. Qed.

Definition finished (s : signature) (ms : list matcher) (cls : list clause) : builder :=
  mkBuilder (negb (is_nil (times_clauses cls))) (negb (is_nil (final_clauses cls)))
    (mkTimes (fst (declared_limits cls)) (snd (declared_limits cls))) (clause_seqs cls) (declared_finalizer cls)
    (arg_requirements ms ++ overload_requirements s ++ clause_policies cls).

Lemma frontend_builder_spec s ms : frontend_builder s ms =
  BOk (mkBuilder false false times_default [] FInit (arg_requirements ms ++ overload_requirements s)).
Proof.
  unfold frontend_builder. destruct (arg_policies_times ms 0) as [Ht Hf].
  assert (E1 : times_clauses (arg_policies 0 ms ++ [ClPolicy (PCategory (frontend_category s)); ClPolicy (PConstness (frontend_constness s))]) = []).
  { unfold times_clauses in *. rewrite flat_map_app, Ht. reflexivity. }
  assert (E2 : final_clauses (arg_policies 0 ms ++ [ClPolicy (PCategory (frontend_category s)); ClPolicy (PConstness (frontend_constness s))]) = []).
  { unfold final_clauses in *. rewrite flat_map_app, Hf. reflexivity. }
  rewrite builder_ands_run.
  - unfold expected, times_from, final_from. rewrite E1, E2. simpl.
    rewrite clause_policies_app, clause_seqs_app, clause_policies_args, clause_seqs_args, arg_reqs_spec. reflexivity.
  - unfold static_ok. rewrite E1, E2. simpl. auto.
  - unfold dynamic_ok. rewrite E1. simpl. rewrite clause_seqs_app, clause_seqs_args. split; constructor.
Qed.

Theorem build_spec s ms cls :
  (well_formed cls -> valid_setup cls -> build s ms cls = BOk (finished s ms cls)) /\
  (well_formed cls -> ~ valid_setup cls -> build s ms cls = BThrow EInvalidArgument) /\
  (~ well_formed cls -> build s ms cls = BIllFormed).
Proof.
  assert (Hw : viable false false cls = true <-> well_formed cls).
  { rewrite viable_spec. unfold well_formed. simpl. rewrite !Nat.add_0_r. tauto. }
  unfold build. rewrite frontend_builder_spec. simpl.
  set (b0 := mkBuilder false false times_default [] FInit (arg_requirements ms ++ overload_requirements s)).
  assert (Hs : static_ok b0 cls <-> well_formed cls).
  { unfold static_ok, well_formed, b0. simpl. rewrite !Nat.add_0_r. tauto. }
  assert (Hd : dynamic_ok b0 cls <-> valid_setup cls) by (unfold dynamic_ok, valid_setup, b0; simpl; tauto).
  split; [|split].
  - intros H1 H2. rewrite (proj2 Hw H1). rewrite builder_ands_run; [|apply Hs; auto|apply Hd; auto].
    unfold expected, finished, times_from, final_from, declared_limits, declared_finalizer, b0. simpl. rewrite <- app_assoc.
    destruct (times_clauses cls), (final_clauses cls); reflexivity.
  - intros H1 H2. rewrite (proj2 Hw H1). apply builder_ands_throw; [apply Hs; auto|constructor|]. intros H. apply H2, Hd; auto.
  - intros H. destruct (viable false false cls) eqn:E; auto. exfalso. apply H, Hw; auto.
Qed.

Lemma well_formed_dec cls : well_formed cls \/ ~ well_formed cls.
Proof.
  assert (Hw : viable false false cls = true <-> well_formed cls).
  { rewrite viable_spec. unfold well_formed. simpl. rewrite !Nat.add_0_r. tauto. }
  destruct (viable false false cls); [left; apply Hw; auto|right; intros H; apply Hw in H; discriminate].
Qed.

Lemma valid_setup_dec cls : valid_setup cls \/ ~ valid_setup cls.
Proof.
  unfold valid_setup. destruct (Forall_dec valid_limits) with (l := times_clauses cls) as [D|D].
  - intros t. unfold valid_limits. destruct (Z_le_dec 0 (fst (limits_of t))), (Z_le_dec (fst (limits_of t)) (snd (limits_of t))); auto; right; lia.
  - destruct (NoDup_decide (clause_seqs cls)); tauto.
  - tauto.
Qed.

Lemma build_inv s ms cls b : build s ms cls = BOk b -> well_formed cls /\ valid_setup cls /\ b = finished s ms cls.
Proof.
  intros H. destruct (build_spec s ms cls) as (H1 & H2 & H3).
  destruct (well_formed_dec cls) as [W|W]; [|rewrite (H3 W) in H; discriminate].
  destruct (valid_setup_dec cls) as [V|V]; [|rewrite (H2 W V) in H; discriminate].
  rewrite (H1 W V) in H. inversion H; auto.
Qed.

Lemma build_throws s ms cls x : build s ms cls = BThrow x -> well_formed cls /\ ~ valid_setup cls /\ x = EInvalidArgument.
Proof.
  intros H. destruct (build_spec s ms cls) as (H1 & H2 & H3).
  destruct (well_formed_dec cls) as [W|W]; [|rewrite (H3 W) in H; discriminate].
  destruct (valid_setup_dec cls) as [V|V]; [rewrite (H1 W V) in H; discriminate|].
  rewrite (H2 W V) in H. inversion H; auto.
Qed.

(** ** The created expectation *)

Definition as_declared (x : eobj) (s : signature) (ov : nat) (ms : list matcher) (cls : list clause) (l : loc) : Prop :=
  x_min x = fst (declared_limits cls) /\ x_max x = snd (declared_limits cls) /\ x_seqs x = clause_seqs cls /\
  e_policies (eo_exp x) = arg_requirements ms ++ overload_requirements s ++ clause_policies cls /\
  e_final (eo_exp x) = declared_finalizer cls /\ e_loc (eo_exp x) = l /\ eo_sig x = s /\ eo_ov x = ov.

Lemma as_declared_static x x' s ov ms cls l : as_declared x s ov ms cls l -> same_static x x' -> as_declared x' s ov ms cls l.
Proof.
  intros (A1 & A2 & A3 & A4 & A5 & A6 & A7 & A8) (B1 & B2 & B3 & B4 & B5 & B6 & B7 & B8 & B9).
  unfold as_declared, x_seqs in *. rewrite B2, B3, B4, B5, B6, B7, B8, B9. auto 10.
Qed.

Lemma run_static w ops w' : WInv w -> run w ops w' -> forall e x, exp_at w e x -> exists x', exp_at w' e x' /\ same_static x x'.
Proof.
  intros I H. revert I. induction H as [|w o w1 r ops w2 Hs Hr IH]; intros I e x Hx.
  - exists x. split; auto. apply same_static_refl.
  - destruct (step_exps _ _ _ _ I Hs _ _ Hx) as (x1 & Hx1 & Hst & _).
    destruct (IH (winv_step _ _ _ _ I Hs) _ _ Hx1) as (x2 & Hx2 & Hst2). exists x2. split; auto. eapply same_static_trans; eauto.
Qed.

Lemma control_new_parts ss t tags ss' c : control_new ss t tags = Ret (ss', c) ->
  c_min c = t_min t /\ c_max c = t_max t /\ c_count c = 0%Z /\ map fst (c_seqs c) = tags.
Proof.
  unfold control_new, make_sequence_entries. intros H.
  assert (G : forall tags ss ss1 en, add_entries ss tags = Ret (ss1, en) -> map fst en = tags).
  { clear. induction tags as [|s tags IH]; intros ss ss1 en H; simpl in H.
    - inversion H; auto.
    - unfold with_seq in H. destruct (nth_error ss s) as [q|]; [|discriminate].
      destruct (seq_add q) as [[q' id]| | |]; simpl in H; try discriminate.
      destruct (add_entries (upd ss s q') tags) as [[ss2 en2]| | |] eqn:E; simpl in H; try discriminate.
      inversion H; subst. simpl. f_equal. eapply IH; eauto. }
  destruct (add_entries ss tags) as [[ss1 en]| | |] eqn:E; simpl in H; try discriminate.
  destruct (control_update ss1 _) as [ss2| | |] eqn:E2; simpl in H; try discriminate.
  inversion H; subst. simpl. repeat split; auto. eapply G; eauto.
Qed.

Lemma expect_next w m ov ms cls l w' r : step w (OExpect m ov ms cls l) = Next w' r ->
  exists s coll, find_overload w m ov = inr (s, coll) /\ length ms = length (sg_params s) /\ well_formed cls /\
    ((valid_setup cls /\ r = RUnit /\
      exists x, exp_at w' (length (w_exps w)) x /\ as_declared x s ov ms cls l /\ eo_coll x = coll /\ eo_alive x = true /\
        length (w_exps w') = S (length (w_exps w)) /\ w_trace w' = w_trace w /\
        nth_error (w_scoped w') (length (w_scoped w)) = Some (HOwns (length (w_exps w)))) \/
     (~ valid_setup cls /\ r = RThrow EInvalidArgument /\ w' = w)).
Proof.
  intros H. simpl in H. apply do_expect_next in H. destruct H as (s & coll & Hf & Hlen & Hok & H).
  exists s, coll. destruct H as [(x & Hb & -> & ->)|(b & ss & ctl & mem & Hb & Hfin & Hc & Hm & -> & ->)].
  - apply build_throws in Hb. destruct Hb as (W & V & ->). auto 10.
  - apply build_inv in Hb. destruct Hb as (W & V & ->). do 3 (split; auto). left. do 2 (split; auto).
    apply control_new_parts in Hc. destruct Hc as (C1 & C2 & C3 & C4).
    eexists. split; [unfold exp_at, new_world; cbn [w_exps]; apply nth_error_snoc_eq|].
    split; [|simpl; rewrite app_length; simpl; split; auto; split; auto; split; [lia|split; auto; apply nth_error_snoc_eq]].
    unfold as_declared, x_min, x_max, x_seqs. cbn [eo_exp e_ctl e_policies e_final e_loc eo_sig eo_ov]. rewrite C1, C2, C4.
    repeat split; auto.
Qed.

(** Order of clauses. *)
Lemma perm_flat {A B} (f : A -> list B) l l' : Permutation l l' -> Permutation (flat_map f l) (flat_map f l').
Proof.
  intros H. induction H; simpl; auto.
  - apply Permutation_app_head; auto.
  - rewrite !app_assoc. apply Permutation_app_tail, Permutation_app_comm.
  - eapply perm_trans; eauto.
Qed.

Lemma perm_short {A} (l l' : list A) : Permutation l l' -> length l <= 1 -> l = l'.
Proof.
  intros H Hl. destruct l as [|a [|b l]]; simpl in Hl; try lia.
  - symmetry. apply Permutation_nil. auto.
  - symmetry. apply Permutation_length_1_inv. auto.
Qed.

Lemma well_formed_perm cls cls' : Permutation cls cls' -> well_formed cls -> well_formed cls'.
Proof.
  intros H (W1 & W2 & W3).
  pose proof (perm_flat (fun cl => match cl with ClTimes t => [t] | _ => [] end) _ _ H) as P1.
  pose proof (perm_flat (fun cl => match cl with ClFinal f => [f] | _ => [] end) _ _ H) as P2.
  repeat split.
  - unfold times_clauses in *. rewrite <- (Permutation_length P1). auto.
  - unfold final_clauses in *. rewrite <- (Permutation_length P2). auto.
  - unfold final_clauses in *. intros Hi. apply W3. eapply Permutation_in; [apply Permutation_sym|]; eauto.
Qed.

Lemma valid_setup_perm cls cls' : Permutation cls cls' -> valid_setup cls -> valid_setup cls'.
Proof.
  intros H (V1 & V2). split.
  - rewrite Forall_forall in *. intros t Ht. apply V1. eapply Permutation_in; [apply Permutation_sym, perm_flat; eauto|]; auto.
  - eapply Permutation_NoDup; [apply perm_flat; eauto|]. auto.
Qed.

Theorem build_perm s ms cls cls' : Permutation cls cls' -> clause_policies cls = clause_policies cls' -> clause_seqs cls = clause_seqs cls' ->
  build s ms cls = build s ms cls'.
Proof.
  intros H Hp Hs. destruct (build_spec s ms cls) as (A1 & A2 & A3). destruct (build_spec s ms cls') as (B1 & B2 & B3).
  destruct (well_formed_dec cls) as [W|W].
  - assert (W' := well_formed_perm _ _ H W). destruct (valid_setup_dec cls) as [V|V].
    + rewrite A1, B1; auto; [|eapply valid_setup_perm; eauto]. f_equal. unfold finished, declared_limits, declared_finalizer.
      assert (E1 : times_clauses cls = times_clauses cls') by (apply perm_short; [apply perm_flat; auto|apply W]).
      assert (E2 : final_clauses cls = final_clauses cls') by (apply perm_short; [apply perm_flat; auto|apply W]).
      rewrite E1, E2, Hp, Hs. reflexivity.
    + rewrite A2, B2; auto. intros V'. apply V. eapply valid_setup_perm; [apply Permutation_sym|]; eauto.
  - rewrite A3, B3; auto. intros W'. apply W. eapply well_formed_perm; [apply Permutation_sym|]; eauto.
Qed.
