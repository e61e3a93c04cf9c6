(** * UnitProofs: the contracts of BasicSequence and ControlPolicy hold. *)

From Verif Require Import Base Lib Sequence Control SeqInv Signature Printer Reports Expectation Builder World Conc UnitSpec.

(** ** BasicSequence *)

Lemma valid_spec q id : seq_is_valid q id = true <-> exists st, entry q id = Some st.
Proof.
  unfold seq_is_valid, entry. rewrite Nat.ltb_lt. split.
  - intros H. apply nth_error_ex in H. auto.
  - intros [st H]. eapply nth_error_lt; eauto.
Qed.

Lemma consumable_iff q id : seq_is_consumable q id = true <-> consumable q id.
Proof.
  unfold seq_is_consumable, consumable, entry. destruct (nth_error (s_entries q) id) as [st|] eqn:E.
  - rewrite !andb_true_iff, Nat.leb_le, forallb_firstn_skipn. split.
    + intros [[H1 H2] H3]. split; auto. split; [destruct st; auto; discriminate|].
      intros k Hk. assert (Hlt : k < length (s_entries q)) by (apply nth_error_lt in E; lia).
      apply nth_error_ex in Hlt. destruct Hlt as [x Hx]. rewrite Hx.
      specialize (H2 k x ltac:(lia) Hx). destruct x; simpl in H2; auto; discriminate.
    + intros (H1 & H2 & H3). split; [split; auto|destruct H2 as [H2|H2]; inversion H2; auto].
      intros k x Hk Hx. destruct (H3 k ltac:(lia)) as [H|H]; rewrite Hx in H; inversion H; reflexivity.
  - split; [discriminate|]. intros (_ & [H|H] & _); discriminate.
Qed.

Lemma changed_upd q id st old : entry q id = Some old ->
  entry_changed q (mkSeq (s_strategy q) (upd (s_entries q) id st) (s_cursor q)) id st.
Proof.
  unfold entry_changed, entry. simpl. intros H. repeat split; auto.
  - apply length_upd.
  - apply nth_error_upd_eq. eapply nth_error_lt; eauto.
  - intros k Hk. apply nth_error_upd_neq. auto.
Qed.

Lemma changed_unique q q' q'' id st : entry_changed q q' id st -> entry_changed q q'' id st -> q' = q''.
Proof.
  intros (A1 & A2 & A3 & A4 & A5) (B1 & B2 & B3 & B4 & B5). destruct q' as [s1 e1 c1], q'' as [s2 e2 c2]. unfold entry in *. simpl in *. subst.
  f_equal. apply nth_error_ext_eq; [congruence|]. intros i x Hx. destruct (Nat.eq_dec i id) as [-> | Hne]; [congruence|].
  rewrite B5, <- (A5 i Hne); auto.
Qed.

Lemma set_satisfied_spec q id :
  (forall q', seq_set_satisfied q id = Ret q' <-> s_cursor q <= id /\ entry q id = Some Unsatisfied /\ entry_changed q q' id Satisfied) /\
  (~ (s_cursor q <= id /\ entry q id = Some Unsatisfied) -> seq_set_satisfied q id = Undef UbAssert).
Proof.
  unfold seq_set_satisfied, assert_. split.
  - intros q'. split.
    + destruct (seq_is_valid q id); [|discriminate]. destruct (Nat.leb_spec (s_cursor q) id); [|discriminate].
      destruct (nth_error (s_entries q) id) as [[]|] eqn:E; try discriminate. intros H1. inversion H1; subst q'.
      split; auto. split; auto. eapply changed_upd; eauto.
    + intros (H1 & H2 & H3). replace (seq_is_valid q id) with true by (symmetry; apply valid_spec; eauto).
      apply Nat.leb_le in H1. rewrite H1. unfold entry in H2. rewrite H2. f_equal.
      eapply changed_unique; eauto. eapply changed_upd; eauto.
  - intros H. destruct (seq_is_valid q id); auto. destruct (Nat.leb_spec (s_cursor q) id); auto.
    destruct (nth_error (s_entries q) id) as [[]|] eqn:E; auto. exfalso. auto.
Qed.

Lemma set_saturated_spec q id :
  (forall q', seq_set_saturated q id = Ret q' <->
     s_cursor q <= id /\ (entry q id = Some Unsatisfied \/ entry q id = Some Satisfied) /\ entry_changed q q' id Saturated) /\
  (~ (s_cursor q <= id /\ (entry q id = Some Unsatisfied \/ entry q id = Some Satisfied)) -> seq_set_saturated q id = Undef UbAssert).
Proof.
  unfold seq_set_saturated, assert_. split.
  - intros q'. split.
    + destruct (seq_is_valid q id); [|discriminate]. destruct (Nat.leb_spec (s_cursor q) id); [|discriminate].
      destruct (nth_error (s_entries q) id) as [[]|] eqn:E; try discriminate; intros H1; inversion H1; subst q';
        (split; [auto|split; [auto|eapply changed_upd; eauto]]).
    + intros (H1 & H2 & H3). replace (seq_is_valid q id) with true by (symmetry; apply valid_spec; destruct H2; eauto).
      apply Nat.leb_le in H1. rewrite H1. unfold entry in H2.
      destruct H2 as [H2|H2]; rewrite H2; f_equal; eapply changed_unique; eauto; eapply changed_upd; eauto.
  - intros H. destruct (seq_is_valid q id); auto. destruct (Nat.leb_spec (s_cursor q) id); auto.
    destruct (nth_error (s_entries q) id) as [[]|] eqn:E; auto; exfalso; apply H; unfold entry; auto.
Qed.

Lemma consume_spec q id :
  (consumable q id -> seq_consume q id = Ret (mkSeq (s_strategy q) (s_entries q) id)) /\
  (~ consumable q id -> seq_consume q id = Undef UbAssert).
Proof.
  unfold seq_consume, assert_. split.
  - intros H. replace (seq_is_valid q id) with true.
    + apply consumable_iff in H. rewrite H. reflexivity.
    + symmetry. apply valid_spec. destruct H as (_ & [H|H] & _); eauto.
  - intros H. destruct (seq_is_valid q id); auto. destruct (seq_is_consumable q id) eqn:E; auto. apply consumable_iff in E. contradiction.
Qed.

Lemma consume_ret q id q' : seq_consume q id = Ret q' <-> consumable q id /\ q' = mkSeq (s_strategy q) (s_entries q) id.
Proof.
  destruct (consume_spec q id) as [H1 H2]. destruct (seq_is_consumable q id) eqn:E.
  - apply consumable_iff in E. rewrite H1; auto. split; [intros H; inversion H; auto|intros [_ ->]; auto].
  - assert (~ consumable q id) by (rewrite <- consumable_iff; congruence). rewrite H2; auto. split; [discriminate|tauto].
Qed.

Lemma priority_of_spec q id :
  (consumable q id -> seq_priority_of q id = Ret (Some (priority q id))) /\
  (~ consumable q id -> id < length (s_entries q) -> seq_priority_of q id = Ret None) /\
  (length (s_entries q) <= id -> seq_priority_of q id = Undef UbAssert).
Proof.
  unfold seq_priority_of, assert_, priority. split; [|split].
  - intros H. replace (seq_is_valid q id) with true.
    + pose proof H as H'. apply consumable_iff in H. rewrite H. unfold strategy_priority, assert_.
      destruct H' as (H' & _). apply Nat.leb_le in H'. rewrite H'. destruct (s_strategy q); reflexivity.
    + symmetry. apply valid_spec. destruct H as (_ & [H|H] & _); eauto.
  - intros H Hl. unfold seq_is_valid. apply Nat.ltb_lt in Hl. rewrite Hl. destruct (seq_is_consumable q id) eqn:E; auto.
    apply consumable_iff in E. contradiction.
  - intros H. unfold seq_is_valid. apply Nat.ltb_ge in H. rewrite H. reflexivity.
Qed.

Lemma add_spec q :
  ((Z.of_nat (length (s_entries q)) <= INT_MAX)%Z ->
     exists q', seq_add q = Ret (q', length (s_entries q)) /\ s_strategy q' = s_strategy q /\ s_cursor q' = s_cursor q /\
       length (s_entries q') = S (length (s_entries q)) /\ entry q' (length (s_entries q)) = Some Unsatisfied /\
       forall k, k <> length (s_entries q) -> entry q' k = entry q k) /\
  ((INT_MAX < Z.of_nat (length (s_entries q)))%Z -> seq_add q = Throw ERuntimeError).
Proof.
  unfold seq_add. split.
  - intros H. apply Z.leb_le in H. rewrite H. eexists. split; [reflexivity|]. simpl. unfold entry. simpl.
    split; auto. split; auto. split; [rewrite app_length; simpl; lia|]. split; [apply nth_error_app_last|].
    intros k Hk. destruct (Nat.lt_ge_cases k (length (s_entries q))); [apply nth_error_app1; auto|].
    rewrite (proj2 (nth_error_None _ _)) by (rewrite app_length; simpl; lia). symmetry. apply nth_error_None. lia.
  - intros H. apply Z.leb_gt in H. rewrite H. reflexivity.
Qed.

Lemma find_not_done_some l i : find_not_done l = Some i <->
  nth_error l i = Some Unsatisfied /\ forall k, k < i -> nth_error l k = Some Satisfied \/ nth_error l k = Some Saturated.
Proof.
  revert i. induction l as [|a l IH]; intros i; simpl.
  - split; [discriminate|]. intros [H _]. destruct i; discriminate.
  - destruct (state_done a) eqn:E.
    + destruct (find_not_done l) as [j|] eqn:Ej; simpl.
      * split.
        -- intros H. inversion H; subst i. destruct (proj1 (IH j) eq_refl) as [H1 H2]. split; auto.
           intros [|k] Hk; simpl; [destruct a; auto; discriminate|apply H2; lia].
        -- intros [H1 H2]. destruct i as [|i]; [simpl in H1; inversion H1; subst; discriminate|].
           f_equal. assert (Some j = Some i) as G; [|inversion G; auto]. apply IH. split; auto. intros k Hk. apply (H2 (S k)). lia.
      * split; [discriminate|]. intros [H1 H2]. destruct i as [|i]; [simpl in H1; inversion H1; subst; discriminate|].
        assert (G : @None nat = Some i); [|discriminate]. apply IH. split; auto. intros k Hk. apply (H2 (S k)). lia.
    + split.
      * intros H. inversion H; subst i. split; [destruct a; auto; discriminate|]. intros k Hk. lia.
      * intros [H1 H2]. destruct i as [|i]; auto. destruct (H2 0 ltac:(lia)) as [H|H]; simpl in H; inversion H; subst; discriminate.
Qed.

Lemma nth_error_skipn' {A} (l : list A) n i : nth_error (skipn n l) i = nth_error l (n + i).
Proof. revert l. induction n as [|n IH]; intros [|a l]; simpl; auto. destruct i; auto. Qed.

Lemma dtor_error_spec q k n : seq_dtor_error q = Some (k, n) <->
  n = length (s_entries q) /\ s_cursor q <= k /\ entry q k = Some Unsatisfied /\
  forall j, s_cursor q <= j < k -> entry q j = Some Satisfied \/ entry q j = Some Saturated.
Proof.
  unfold seq_dtor_error, entry. destruct (find_not_done _) as [i|] eqn:E.
  - apply find_not_done_some in E. rewrite nth_error_skipn' in E. destruct E as [E1 E2]. split.
    + intros H. inversion H; subst. split; auto. split; [lia|]. split; auto. intros j Hj.
      specialize (E2 (j - s_cursor q) ltac:(lia)). rewrite nth_error_skipn' in E2.
      replace (s_cursor q + (j - s_cursor q)) with j in E2 by lia. auto.
    + intros (-> & H1 & H2 & H3). f_equal. f_equal.
      destruct (Nat.lt_trichotomy (s_cursor q + i) k) as [Hl|[Hl|Hl]]; auto; exfalso.
      * destruct (H3 (s_cursor q + i) ltac:(lia)) as [H|H]; congruence.
      * specialize (E2 (k - s_cursor q) ltac:(lia)). rewrite nth_error_skipn' in E2.
        replace (s_cursor q + (k - s_cursor q)) with k in E2 by lia. destruct E2; congruence.
  - split; [discriminate|]. intros (-> & H1 & H2 & H3). exfalso.
    assert (G : find_not_done (skipn (s_cursor q) (s_entries q)) = Some (k - s_cursor q)).
    { apply find_not_done_some. rewrite nth_error_skipn'. replace (s_cursor q + (k - s_cursor q)) with k by lia. split; auto.
      intros j Hj. rewrite nth_error_skipn'. apply H3. lia. }
    congruence.
Qed.

(** ** Histories *)

Lemma adds_snoc ops op : adds (ops ++ [op]) = adds ops + (if is_add op then 1 else 0).
Proof. unfold adds. rewrite filter_app, app_length. simpl. destruct (is_add op); simpl; lia. Qed.
Lemma last_snoc ops op : last_consumed (ops ++ [op]) = match op with OpConsume id => id | _ => last_consumed ops end.
Proof. unfold last_consumed. rewrite fold_left_app. simpl. destruct op; reflexivity. Qed.

Lemma history_spec st ops q : seq_history st ops q ->
  s_strategy q = st /\ length (s_entries q) = adds ops /\ s_cursor q = last_consumed ops /\
  forall id, id < adds ops ->
    (entry q id = Some Saturated <-> In (OpSaturated id) ops) /\
    (entry q id = Some Satisfied <-> In (OpSatisfied id) ops /\ ~ In (OpSaturated id) ops) /\
    (entry q id = Some Unsatisfied <-> ~ In (OpSatisfied id) ops /\ ~ In (OpSaturated id) ops).
Proof.
  induction 1 as [|ops q op q' H IH Hop].
  - split; auto. split; auto. split; auto. unfold adds. simpl. intros id Hid. lia.
  - destruct IH as (I1 & I2 & I3 & I4). rewrite adds_snoc, last_snoc.
    assert (Hbound : forall id, In (OpSatisfied id) ops \/ In (OpSaturated id) ops -> id < adds ops).
    { clear -H. induction H as [|ops q op q' H IH Hop]; intros id; [simpl; tauto|].
      rewrite !in_app_iff, adds_snoc. simpl. intros Hin.
      assert (Hlen : length (s_entries q) = adds ops).
      { clear -H. induction H as [|ops q op q' H IH Hop]; [reflexivity|]. rewrite adds_snoc, <- IH.
        destruct op; simpl in *.
        - unfold seq_add in Hop. destruct (_ <=? _)%Z; simpl in Hop; inversion Hop; simpl. rewrite app_length. simpl. lia.
        - apply set_satisfied_spec in Hop. destruct Hop as (_ & _ & _ & _ & -> & _). lia.
        - apply set_saturated_spec in Hop. destruct Hop as (_ & _ & _ & _ & -> & _). lia.
        - apply consume_ret in Hop. destruct Hop as [_ ->]. simpl. lia. }
      assert (Hnew : op = OpSatisfied id \/ op = OpSaturated id -> id < adds ops).
      { intros [-> | ->]; simpl in Hop; rewrite <- Hlen.
        - apply set_satisfied_spec in Hop. destruct Hop as (_ & E & _). unfold entry in E. eapply nth_error_lt; eauto.
        - apply set_saturated_spec in Hop. destruct Hop as (_ & [E|E] & _); unfold entry in E; eapply nth_error_lt; eauto. }
      assert (id < adds ops) by (intuition). lia. }
    destruct op as [|j|j|j]; simpl in Hop.
    + destruct (seq_add q) as [[q'' n]| | |] eqn:E; simpl in Hop; inversion Hop; subst q''.
      unfold seq_add in E. destruct (_ <=? _)%Z; inversion E; subst q' n. simpl.
      split; auto. split; [rewrite app_length; simpl; lia|]. split; auto. intros id Hid. unfold entry. simpl.
      destruct (Nat.eq_dec id (length (s_entries q))) as [-> | Hne].
      * rewrite nth_error_app_last.
        assert (N1 : ~ In (OpSatisfied (length (s_entries q))) (ops ++ [OpAdd])).
        { rewrite in_app_iff. simpl. intros [Hin|[Hin|[]]]; [|discriminate]. specialize (Hbound _ (or_introl Hin)). lia. }
        assert (N2 : ~ In (OpSaturated (length (s_entries q))) (ops ++ [OpAdd])).
        { rewrite in_app_iff. simpl. intros [Hin|[Hin|[]]]; [|discriminate]. specialize (Hbound _ (or_intror Hin)). lia. }
        repeat split; intros; try discriminate; try tauto.
      * rewrite nth_error_app1 by lia. specialize (I4 id ltac:(lia)). unfold entry in I4. rewrite !in_app_iff. simpl.
        destruct I4 as (A & B & C). rewrite A, B, C.
        repeat split; intros; intuition discriminate.
    + apply set_satisfied_spec in Hop. destruct Hop as (Hc & He & (E1 & E2 & E3 & E4 & E5)).
      assert (Hj : j < adds ops) by (rewrite <- I2; unfold entry in He; eapply nth_error_lt; eauto).
      split; [congruence|]. split; [rewrite E3; simpl; lia|]. split; [congruence|]. simpl. intros id Hid. rewrite !in_app_iff. simpl.
      destruct (Nat.eq_dec id j) as [-> | Hne].
      * rewrite E4. destruct (I4 j Hj) as (A & B & C). destruct (proj1 C He) as [C1 C2].
        repeat split; intros; try discriminate; try (intuition discriminate).
      * rewrite (E5 id Hne). specialize (I4 id ltac:(lia)). destruct I4 as (A & B & C). rewrite A, B, C.
        repeat split; intros; intuition congruence.
    + apply set_saturated_spec in Hop. destruct Hop as (Hc & He & (E1 & E2 & E3 & E4 & E5)).
      assert (Hj : j < adds ops) by (rewrite <- I2; unfold entry in He; destruct He as [He|He]; eapply nth_error_lt; eauto).
      split; [congruence|]. split; [rewrite E3; simpl; lia|]. split; [congruence|]. simpl. intros id Hid. rewrite !in_app_iff. simpl.
      destruct (Nat.eq_dec id j) as [-> | Hne].
      * rewrite E4. repeat split; intros; try discriminate; try (intuition discriminate); exfalso; intuition.
      * rewrite (E5 id Hne). specialize (I4 id ltac:(lia)). destruct I4 as (A & B & C). rewrite A, B, C.
        repeat split; intros; intuition congruence.
    + apply consume_ret in Hop. destruct Hop as [Hc ->]. simpl. split; auto. split; [lia|]. split; auto.
      intros id Hid. unfold entry. simpl. specialize (I4 id ltac:(lia)). unfold entry in I4. rewrite !in_app_iff. simpl.
      destruct I4 as (A & B & C). rewrite A, B, C. repeat split; intros; intuition discriminate.
Qed.

Lemma history_app st ops1 ops2 q : seq_history st (ops1 ++ ops2) q -> exists q1, seq_history st ops1 q1.
Proof.
  revert q. induction ops2 as [|op ops2 IH] using rev_ind; intros q H.
  - rewrite app_nil_r in H. eauto.
  - rewrite app_assoc in H. inversion H as [E|ops q1 op1 q1' H1 H2 E]; [destruct (ops1 ++ ops2); discriminate|].
    apply app_inj_tail in E. destruct E as [-> ->]. eauto.
Qed.

Lemma history_step st ops op rest q : seq_history st (ops ++ op :: rest) q ->
  exists q1 q2, seq_history st ops q1 /\ seq_apply q1 op = Ret q2 /\ seq_history st (ops ++ [op]) q2.
Proof.
  intros H. replace (ops ++ op :: rest) with ((ops ++ [op]) ++ rest) in H by (rewrite <- app_assoc; reflexivity).
  apply history_app in H. destruct H as [q2 H]. inversion H as [E|ops' q1 op' q2' H1 H2 E]; [destruct ops; discriminate|].
  apply app_inj_tail in E. destruct E as [-> ->]. subst. exists q1, q2. split; auto.
Qed.

Lemma history_allowed st ops q op : seq_history st ops q -> ((exists q', seq_apply q op = Ret q') <-> allowed ops op).
Proof.
  intros H. apply history_spec in H. destruct H as (_ & Hl & Hc & He).
  assert (Hex : forall id, id < adds ops -> exists x, entry q id = Some x).
  { intros id Hid. rewrite <- Hl in Hid. apply nth_error_ex in Hid. exact Hid. }
  assert (Hlt : forall id x, entry q id = Some x -> id < adds ops).
  { intros id x Hx. rewrite <- Hl. eapply nth_error_lt; eauto. }
  destruct op as [|id|id|id]; simpl.
  - unfold seq_add. rewrite Hl. destruct (Z.leb_spec (Z.of_nat (adds ops)) INT_MAX); simpl.
    + split; eauto.
    + split; [intros [q' E]; discriminate|intros; lia].
  - split.
    + intros [q' E]. apply set_satisfied_spec in E. destruct E as (H1 & H2 & _). pose proof (Hlt _ _ H2) as H3.
      split; [lia|]. apply (proj2 (proj2 (He id H3))); auto.
    + intros ([H1 H2] & H3 & H4). assert (E : entry q id = Some Unsatisfied) by (apply (proj2 (proj2 (He id H2))); auto).
      eexists. apply set_satisfied_spec. split; [lia|]. split; auto. eapply changed_upd; eauto.
  - split.
    + intros [q' E]. apply set_saturated_spec in E. destruct E as (H1 & H2 & _).
      assert (H3 : id < adds ops) by (destruct H2; eauto). split; [lia|]. intros Hin.
      apply (proj1 (He id H3)) in Hin. destruct H2; congruence.
    + intros ([H1 H2] & H3). destruct (Hex id H2) as [x Hx].
      assert (E : entry q id = Some Unsatisfied \/ entry q id = Some Satisfied).
      { destruct x; auto. exfalso. apply H3. apply (proj1 (He id H2)); auto. }
      eexists. apply set_saturated_spec. split; [lia|]. split; auto. eapply changed_upd; eauto.
  - split.
    + intros [q' E]. apply consume_ret in E. destruct E as [(H1 & H2 & H3) _].
      assert (H4 : id < adds ops) by (destruct H2; eauto). split; [lia|]. split.
      * intros Hin. apply (proj1 (He id H4)) in Hin. destruct H2; congruence.
      * intros k Hk. assert (Hk' : k < adds ops) by lia. destruct (H3 k ltac:(lia)) as [E|E].
        -- apply (proj1 (proj2 (He k Hk'))) in E. tauto.
        -- apply (proj1 (He k Hk')) in E. tauto.
    + intros ([H1 H2] & H3 & H4). eexists. apply consume_ret. split; [|reflexivity]. split; [lia|]. split.
      * destruct (Hex id H2) as [x Hx]. destruct x; auto. exfalso. apply H3. apply (proj1 (He id H2)); auto.
      * intros k Hk. assert (Hk' : k < adds ops) by lia. destruct (Hex k Hk') as [x Hx]. destruct x; auto. exfalso.
        apply (proj2 (proj2 (He k Hk'))) in Hx. destruct (H4 k ltac:(lia)); tauto.
Qed.

(** Along a history the cursor never goes back. *)
Lemma cursor_mono st ops : forall q rest q', seq_history st ops q -> seq_history st (ops ++ rest) q' -> s_cursor q <= s_cursor q'.
Proof.
  intros q rest. induction rest as [|op rest IH] using rev_ind; intros q' Hq H.
  - rewrite app_nil_r in H. apply history_spec in H, Hq. destruct H as (_ & _ & -> & _), Hq as (_ & _ & -> & _). auto.
  - rewrite app_assoc in H. inversion H as [E|ops' q1 op' q2' H1 H2 E]; [destruct (ops ++ rest); discriminate|].
    apply app_inj_tail in E. destruct E as [-> ->]. subst. specialize (IH _ Hq H1). destruct op; simpl in H2.
    + unfold seq_add in H2. destruct (_ <=? _)%Z; simpl in H2; inversion H2; auto.
    + apply set_satisfied_spec in H2. destruct H2 as (_ & _ & _ & -> & _). auto.
    + apply set_saturated_spec in H2. destruct H2 as (_ & _ & _ & -> & _). auto.
    + apply consume_ret in H2. destruct H2 as [(Hc & _) ->]. simpl. lia.
Qed.

(** ** ControlPolicy *)

Lemma for_each_inv f l : forall ss ss', NoDup (map fst l) -> for_each_seq f ss l = Ret ss' ->
  forall s id, In (s, id) l -> exists q q', nth_error ss s = Some q /\ f q id = Ret q'.
Proof.
  induction l as [|[s id] l IH]; intros ss ss' Hnd H; simpl; [tauto|]. simpl in H. unfold with_seq in H.
  destruct (nth_error ss s) as [q|] eqn:Eq; [|discriminate]. destruct (f q id) as [q'| | |] eqn:Ef; try discriminate. simpl in H.
  inversion Hnd; subst. intros s1 id1 [E|Hin]; [inversion E; subst; eauto|].
  destruct (IH _ _ H3 H s1 id1 Hin) as (q1 & q1' & H4 & H5). exists q1, q1'. split; auto.
  rewrite nth_error_upd_neq in H4; auto. intros ->. apply H2. apply in_map_fst. eauto.
Qed.

Lemma update_next ss c :
  control_update ss (mkControl (c_min c) (c_max c) (c_count c + 1) (c_seqs c)) =
  match next_state c with
  | Some Satisfied => for_each_seq seq_set_satisfied ss (c_seqs c)
  | Some _ => for_each_seq seq_set_saturated ss (c_seqs c)
  | None => Ret ss
  end.
Proof.
  unfold control_update, next_state. cbn [c_count c_min c_max c_seqs].
  destruct (c_count c + 1 =? c_min c)%Z; auto. destruct (c_count c + 1 =? c_max c)%Z; auto.
Qed.

Lemma next_cases c : next_state c = Some Satisfied \/ next_state c = Some Saturated \/ next_state c = None.
Proof. unfold next_state. destruct (_ =? _)%Z; auto. destruct (_ =? _)%Z; auto. Qed.

Lemma accepted_of_changed q q' id st : entry_changed (mkSeq (s_strategy q) (s_entries q) id) q' id st -> seq_accepted q q' id (Some st).
Proof. intros (E1 & E2 & E3 & E4 & E5). unfold seq_accepted. simpl in *. repeat split; auto. Qed.

Lemma consume_accepts ss c : NoDup (map fst (c_seqs c)) -> may_accept ss c ->
  exists ss', control_consume ss c = Ret (ss', mkControl (c_min c) (c_max c) (c_count c + 1) (c_seqs c)) /\ accepted_effect ss ss' c.
Proof.
  intros Hnd (H1 & H2 & H3). unfold control_consume, assert_.
  replace (control_is_applicable ss c) with true.
  2: { symmetry. apply is_applicable_spec. split; auto. intros s id Hin. destruct (H3 _ _ Hin) as (q & Hq & Hc & _).
       exists q. split; auto. apply consumable_iff. auto. }
  destruct (for_each_seq_ok seq_consume (c_seqs c) ss Hnd) as (ss1 & E1 & L1 & In1 & Out1).
  { intros s id Hin. destruct (H3 _ _ Hin) as (q & Hq & Hc & _). exists q. eexists. split; auto. apply consume_ret. split; eauto. }
  rewrite E1. simpl. apply Z.eqb_neq in H2. rewrite H2. rewrite update_next.
  assert (Hin1 : forall s id, In (s, id) (c_seqs c) -> exists q, nth_error ss s = Some q /\ consumable q id /\
            nth_error ss1 s = Some (mkSeq (s_strategy q) (s_entries q) id)).
  { intros s id Hin. destruct (H3 _ _ Hin) as (q & Hq & Hc & _). exists q. split; auto. split; auto.
    destruct (In1 _ _ _ Hin Hq) as (q' & Hq' & Hn). apply consume_ret in Hq'. destruct Hq' as [_ ->]. auto. }
  destruct (next_cases c) as [En|[En|En]]; rewrite En.
  - destruct (for_each_seq_ok seq_set_satisfied (c_seqs c) ss1 Hnd) as (ss2 & E2 & L2 & In2 & Out2).
    { intros s id Hin. destruct (Hin1 _ _ Hin) as (q & Hq & Hc & Hq1). exists (mkSeq (s_strategy q) (s_entries q) id). eexists. split; auto.
      apply set_satisfied_spec. simpl. split; auto. destruct (H3 _ _ Hin) as (q0 & Hq0 & _ & Hu). rewrite Hq in Hq0. inversion Hq0; subst q0.
      specialize (Hu En). split; [exact Hu|]. eapply changed_upd. exact Hu. }
    rewrite E2. simpl. exists ss2. split; auto. split; [congruence|]. split.
    + intros s id q Hin Hq. destruct (Hin1 _ _ Hin) as (q0 & Hq0 & Hc & Hq1). rewrite Hq in Hq0. inversion Hq0; subst q0.
      destruct (In2 _ _ _ Hin Hq1) as (q' & Hq' & Hn). exists q'. split; auto. rewrite En. apply accepted_of_changed.
      apply set_satisfied_spec in Hq'. tauto.
    + intros s Hs. rewrite Out2, Out1; auto.
  - destruct (for_each_seq_ok seq_set_saturated (c_seqs c) ss1 Hnd) as (ss2 & E2 & L2 & In2 & Out2).
    { intros s id Hin. destruct (Hin1 _ _ Hin) as (q & Hq & Hc & Hq1). exists (mkSeq (s_strategy q) (s_entries q) id). eexists. split; auto.
      apply set_saturated_spec. simpl. split; auto. destruct Hc as (_ & Hc & _). split; [exact Hc|].
      destruct Hc as [Hc|Hc]; eapply changed_upd; exact Hc. }
    rewrite E2. simpl. exists ss2. split; auto. split; [congruence|]. split.
    + intros s id q Hin Hq. destruct (Hin1 _ _ Hin) as (q0 & Hq0 & Hc & Hq1). rewrite Hq in Hq0. inversion Hq0; subst q0.
      destruct (In2 _ _ _ Hin Hq1) as (q' & Hq' & Hn). exists q'. split; auto. rewrite En. apply accepted_of_changed.
      apply set_saturated_spec in Hq'. tauto.
    + intros s Hs. rewrite Out2, Out1; auto.
  - simpl. exists ss1. split; auto. split; auto. split; auto.
    intros s id q Hin Hq. destruct (Hin1 _ _ Hin) as (q0 & Hq0 & Hc & Hq1). rewrite Hq in Hq0. inversion Hq0; subst q0.
    eexists. split; [exact Hq1|]. rewrite En. unfold seq_accepted. simpl. repeat split; auto.
Qed.

Lemma consume_needs ss c r : NoDup (map fst (c_seqs c)) -> control_consume ss c = Ret r -> may_accept ss c.
Proof.
  intros Hnd. unfold control_consume, assert_. destruct (control_is_applicable ss c) eqn:Ea; [|discriminate].
  apply is_applicable_spec in Ea. destruct Ea as [H1 H2].
  destruct (for_each_seq seq_consume ss (c_seqs c)) as [ss1| | |] eqn:E1; try discriminate. simpl.
  destruct (Z.eqb_spec (c_count c) INT_MAX) as [|Hm]; [discriminate|]. rewrite update_next. intros H.
  split; auto. split; auto. intros s id Hin. destruct (H2 _ _ Hin) as (q & Hq & Hc). exists q. split; auto.
  apply consumable_iff in Hc. split; auto. intros En. rewrite En in H.
  destruct (for_each_seq seq_set_satisfied ss1 (c_seqs c)) as [ss2| | |] eqn:E2; try discriminate.
  destruct (for_each_inv _ _ _ _ Hnd E2 s id Hin) as (q1 & q1' & Hq1 & Hs). apply set_satisfied_spec in Hs. destruct Hs as (_ & Hs & _).
  destruct (for_each_seq_ok seq_consume (c_seqs c) ss Hnd) as (ss1' & E1' & _ & In1 & _).
  { intros s' id' Hin'. exact (for_each_inv _ _ _ _ Hnd E1 s' id' Hin'). }
  rewrite E1 in E1'. inversion E1'; subst ss1'. destruct (In1 _ _ _ Hin Hq) as (q' & Hq' & Hn).
  apply consume_ret in Hq'. destruct Hq' as [_ ->]. rewrite Hq1 in Hn. inversion Hn; subst q1. exact Hs.
Qed.

(** An unusable policy is never a C++ exception. *)
Lemma for_each_undef f l : (forall q id, (exists q', f q id = Ret q') \/ exists u, f q id = Undef u) ->
  forall ss, (exists ss', for_each_seq f ss l = Ret ss') \/ exists u, for_each_seq f ss l = Undef u.
Proof.
  intros Hf. induction l as [|[s id] l IH]; intros ss; simpl; [eauto|]. unfold with_seq. destruct (nth_error ss s) as [q|]; [|eauto].
  destruct (Hf q id) as [[q' ->]|[u ->]]; simpl; [apply IH|eauto].
Qed.

Lemma consume_undef ss c : (exists r, control_consume ss c = Ret r) \/ exists u, control_consume ss c = Undef u.
Proof.
  assert (F1 : forall q id, (exists q', seq_consume q id = Ret q') \/ exists u, seq_consume q id = Undef u).
  { intros q id. unfold seq_consume, assert_. destruct (seq_is_valid q id); eauto. destruct (seq_is_consumable q id); eauto. }
  assert (F2 : forall q id, (exists q', seq_set_satisfied q id = Ret q') \/ exists u, seq_set_satisfied q id = Undef u).
  { intros q id. unfold seq_set_satisfied, assert_. destruct (seq_is_valid q id); eauto. destruct (s_cursor q <=? id); eauto.
    destruct (nth_error (s_entries q) id) as [[]|]; eauto. }
  assert (F3 : forall q id, (exists q', seq_set_saturated q id = Ret q') \/ exists u, seq_set_saturated q id = Undef u).
  { intros q id. unfold seq_set_saturated, assert_. destruct (seq_is_valid q id); eauto. destruct (s_cursor q <=? id); eauto.
    destruct (nth_error (s_entries q) id) as [[]|]; eauto. }
  unfold control_consume, assert_. destruct (control_is_applicable ss c); [|eauto].
  destruct (for_each_undef _ (c_seqs c) F1 ss) as [[ss1 ->]|[u ->]]; simpl; [|eauto].
  destruct (c_count c =? INT_MAX)%Z; [eauto|]. rewrite update_next. destruct (next_cases c) as [-> |[-> | ->]].
  - destruct (for_each_undef _ (c_seqs c) F2 ss1) as [[ss2 ->]|[u ->]]; simpl; eauto.
  - destruct (for_each_undef _ (c_seqs c) F3 ss1) as [[ss2 ->]|[u ->]]; simpl; eauto.
  - simpl. eauto.
Qed.

(** Without asserts. *)
Lemma consume_nd_accepts ss c : entries_exist ss c -> c_count c <> INT_MAX ->
  exists ss', control_consume_nd ss c = Ret (ss', mkControl (c_min c) (c_max c) (c_count c + 1) (c_seqs c)) /\ accepted_effect ss ss' c.
Proof.
  intros [Hnd Hex] Hm. unfold control_consume_nd.
  destruct (for_each_seq_ok seq_consume_nd (c_seqs c) ss Hnd) as (ss1 & E1 & L1 & In1 & Out1).
  { intros s id Hin. destruct (Hex _ _ Hin) as (q & Hq & Hl). exists q. eexists. split; auto. reflexivity. }
  rewrite E1. simpl. apply Z.eqb_neq in Hm. rewrite Hm.
  replace (control_update_nd ss1 (mkControl (c_min c) (c_max c) (c_count c + 1) (c_seqs c)))
    with (match next_state c with Some st => for_each_seq (seq_set_nd st) ss1 (c_seqs c) | None => Ret ss1 end).
  2: { unfold control_update_nd, next_state. cbn [c_count c_min c_max c_seqs].
       destruct (c_count c + 1 =? c_min c)%Z; auto. destruct (c_count c + 1 =? c_max c)%Z; auto. }
  assert (Hin1 : forall s id, In (s, id) (c_seqs c) -> exists q, nth_error ss s = Some q /\ id < length (s_entries q) /\
            nth_error ss1 s = Some (mkSeq (s_strategy q) (s_entries q) id)).
  { intros s id Hin. destruct (Hex _ _ Hin) as (q & Hq & Hl). exists q. split; auto. split; auto.
    destruct (In1 _ _ _ Hin Hq) as (q' & Hq' & Hn). inversion Hq'; subst. auto. }
  destruct (next_state c) as [st|] eqn:En.
  - destruct (for_each_seq_ok (seq_set_nd st) (c_seqs c) ss1 Hnd) as (ss2 & E2 & L2 & In2 & Out2).
    { intros s id Hin. destruct (Hin1 _ _ Hin) as (q & Hq & Hl & Hq1). exists (mkSeq (s_strategy q) (s_entries q) id). eexists. split; auto.
      unfold seq_set_nd, seq_is_valid. simpl. apply Nat.ltb_lt in Hl. rewrite Hl. reflexivity. }
    rewrite E2. simpl. exists ss2. split; auto. split; [congruence|]. split.
    + intros s id q Hin Hq. destruct (Hin1 _ _ Hin) as (q0 & Hq0 & Hl & Hq1). rewrite Hq in Hq0. inversion Hq0; subst q0.
      destruct (In2 _ _ _ Hin Hq1) as (q' & Hq' & Hn). exists q'. split; auto. rewrite En. apply accepted_of_changed.
      unfold seq_set_nd, seq_is_valid in Hq'. simpl in Hq'. pose proof Hl as Hl'. apply Nat.ltb_lt in Hl. rewrite Hl in Hq'.
      inversion Hq'; subst q'. apply nth_error_ex in Hl'. destruct Hl' as [x Hx].
      apply (changed_upd (mkSeq (s_strategy q) (s_entries q) id) id st x). exact Hx.
    + intros s Hs. rewrite Out2, Out1; auto.
  - simpl. exists ss1. split; auto. split; auto. split; auto.
    intros s id q Hin Hq. destruct (Hin1 _ _ Hin) as (q0 & Hq0 & Hc & Hq1). rewrite Hq in Hq0. inversion Hq0; subst q0.
    eexists. split; [exact Hq1|]. rewrite En. unfold seq_accepted. simpl. repeat split; auto.
Qed.

Lemma effect_unique ss ss1 ss2 c : NoDup (map fst (c_seqs c)) ->
  (forall s id, In (s, id) (c_seqs c) -> exists q, nth_error ss s = Some q) ->
  accepted_effect ss ss1 c -> accepted_effect ss ss2 c -> ss1 = ss2.
Proof.
  intros Hnd Hex (L1 & I1 & O1) (L2 & I2 & O2). apply nth_error_ext_eq; [congruence|]. intros s x Hx.
  destruct (in_dec Nat.eq_dec s (map fst (c_seqs c))) as [Hin|Hout].
  - apply in_map_fst in Hin. destruct Hin as [id Hin]. destruct (Hex _ _ Hin) as [q Hq].
    destruct (I1 _ _ _ Hin Hq) as (q1 & H1 & A1 & A2 & A3 & A4 & A5). destruct (I2 _ _ _ Hin Hq) as (q2 & H2 & B1 & B2 & B3 & B4 & B5).
    rewrite Hx in H1. inversion H1; subst x. rewrite H2. f_equal. destruct q1 as [t1 e1 c1], q2 as [t2 e2 c2]. unfold entry in *. simpl in *.
    f_equal; try congruence. apply nth_error_ext_eq; [congruence|]. intros k y Hy.
    destruct (Nat.eq_dec k id) as [-> | Hk]; [congruence|]. rewrite A5, <- (B5 k Hk); auto.
  - rewrite O2, <- (O1 s Hout); auto.
Qed.

(** The state. *)
Lemma collect_spec ss l : (forall s id, In (s, id) l -> exists q, nth_error ss s = Some q /\ id < length (s_entries q)) ->
  exists rs ts, collect_ratings ss l = Ret (rs, ts) /\
    (forall r, In r rs <-> exists id q, In (r_tag r, id) l /\ nth_error ss (r_tag r) = Some q /\ consumable q id /\ r_priority r = priority q id) /\
    (forall s, In s ts <-> exists id q, In (s, id) l /\ nth_error ss s = Some q /\ ~ consumable q id) /\
    length rs + length ts = length l.
Proof.
  induction l as [|[s id] l IH]; intros Hex; simpl.
  - exists [], []. split; auto. split; [|split; auto].
    + intros r. split; [intros []|intros (? & ? & [] & _)].
    + intros s. split; [intros []|intros (? & ? & [] & _)].
  - destruct (Hex s id (or_introl eq_refl)) as (q & Hq & Hl). unfold with_seq. rewrite Hq.
    destruct (IH (fun s' id' H => Hex s' id' (or_intror H))) as (rs & ts & E & R & T & L). rewrite E. simpl.
    destruct (priority_of_spec q id) as (P1 & P2 & _). destruct (seq_is_consumable q id) eqn:Ec.
    + apply consumable_iff in Ec. rewrite P1; auto. simpl. exists (mkRating (priority q id) s :: rs), ts. split; auto. split; [|split; [|simpl; lia]].
      * intros r. simpl. rewrite R. split.
        -- intros [<- | (id' & q' & H1 & H2)]; [exists id, q; simpl; auto|]. exists id', q'. tauto.
        -- intros (id' & q' & [H1|H1] & H2 & H3 & H4).
           ++ left. inversion H1; subst. rewrite Hq in H2. inversion H2; subst. destruct r; simpl in *. congruence.
           ++ right. exists id', q'. auto.
      * intros s'. rewrite T. split.
        -- intros (id' & q' & H1 & H2). exists id', q'. tauto.
        -- intros (id' & q' & [H1|H1] & H2 & H3); [inversion H1; subst; rewrite Hq in H2; inversion H2; subst; contradiction|].
           exists id', q'. auto.
    + assert (Hn : ~ consumable q id) by (rewrite <- consumable_iff; congruence).
      rewrite P2; auto. simpl. exists rs, (s :: ts). split; auto. split; [|split; [|simpl; lia]].
      * intros r. rewrite R. split.
        -- intros (id' & q' & H1 & H2). exists id', q'. tauto.
        -- intros (id' & q' & [H1|H1] & H2 & H3 & H4); [inversion H1; subst; rewrite Hq in H2; inversion H2; subst; contradiction|].
           exists id', q'. auto.
      * intros s'. simpl. rewrite T. split.
        -- intros [<- | (id' & q' & H1 & H2)]; [exists id, q; auto|]. exists id', q'. tauto.
        -- intros (id' & q' & [H1|H1] & H2 & H3); [inversion H1; subst; auto|]. right. exists id', q'. auto.
Qed.
