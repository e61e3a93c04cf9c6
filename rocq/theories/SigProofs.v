(** * SigProofs: overload sets and shared collections. *)

From Coq Require Import Permutation.
From Verif Require Import Base Lib Sequence Control Signature SigSpec Printer Reports Expectation Builder BuildSpec World WorldSpec
  SeqInv BuilderLemmas BuildProofs StepCases MatchLemmas WorldInv ObjInv CallSpec CallProofs CountProofs.

Lemma list_ty_eqb_spec a b : list_ty_eqb a b = true <-> a = b.
Proof. unfold list_ty_eqb. destruct (list_eq_dec Nat.eq_dec a b); split; auto; discriminate. Qed.

Lemma overloadable_spec a b : sg_variadic a = false -> sg_variadic b = false -> (is_overloadable_with a b = true <-> may_overload a b).
Proof.
  destruct a as [ra pa va ca fa na], b as [rb pb vb cb fb nb]. unfold is_overloadable_with, detail_overloadable, detail_overloadable_reversed,
    overloadable_table_applies, may_overload. simpl. intros -> ->. 
  destruct (list_ty_eqb pa pb) eqn:E; simpl.
  - apply list_ty_eqb_spec in E. subst pb. replace (list_ty_eqb pa pa) with true by (symmetry; apply list_ty_eqb_spec; auto). simpl.
    destruct ca, cb, fa, fb; simpl; split; intros H; auto; try discriminate; try (right; split; [split; auto; discriminate|]; (left; discriminate) || (right; discriminate));
      try (right; split; [split; auto; discriminate|]; auto; fail);
      destruct H as [H|[H1 H2]]; try congruence; exfalso; destruct H1 as [H1 H3]; try (specialize (H1 eq_refl); discriminate);
        try (specialize (H3 eq_refl); discriminate); destruct H2; congruence.
  - split; auto. intros _. left. intros ->. rewrite (proj2 (list_ty_eqb_spec pb pb) eq_refl) in E. discriminate.
Qed.

Lemma may_overload_sym a b : may_overload a b -> may_overload b a.
Proof. unfold may_overload. intros [H|[[H1 H2] [H|H]]]; [left|right|right]; try split; auto. split; auto. split; auto. Qed.

Lemma overload_from_spec rest : forall first, sg_variadic first = false -> forallb (fun s => negb (sg_variadic s)) rest = true ->
  (overload_set_from first rest = true <-> pairwise may_overload (first :: rest)).
Proof.
  induction rest as [|second others IH]; intros first Hv Hr; simpl.
  - split; auto. intros _ i j a b Hne Hi Hj. destruct i as [|[|]], j as [|[|]]; simpl in *; try discriminate; congruence.
  - simpl in Hr. apply andb_true_iff in Hr. destruct Hr as [Hs Hr]. apply negb_true_iff in Hs.
    rewrite !andb_true_iff, (overloadable_spec _ _ Hv Hs), (IH _ Hv Hr), (IH _ Hs Hr). split.
    + intros [[H1 H2] H3] i j a b Hne Hi Hj. destruct i as [|i], j as [|j]; try congruence.
      * simpl in Hi. inversion Hi; subst a. destruct j as [|j]; [simpl in Hj; inversion Hj; subst; auto|].
        apply (H2 0 (S j)); auto.
      * simpl in Hj. inversion Hj; subst b. destruct i as [|i]; [simpl in Hi; inversion Hi; subst; apply may_overload_sym; auto|].
        apply (H2 (S i) 0); auto.
      * apply (H3 i j); auto.
    + intros H. split; [split|].
      * apply (H 0 1); auto.
      * intros i j a b Hne Hi Hj. destruct i as [|i], j as [|j]; try congruence.
        -- apply (H 0 (S (S j))); auto.
        -- apply (H (S (S i)) 0); auto.
        -- apply (H (S (S i)) (S (S j))); auto.
      * intros i j a b Hne Hi Hj. apply (H (S i) (S j)); auto.
Qed.

Lemma overload_set_spec sigs : forallb (fun s => negb (sg_variadic s)) sigs = true ->
  (is_overload_set sigs = true <-> sigs <> [] /\ pairwise may_overload sigs).
Proof.
  destruct sigs as [|s sigs]; simpl; [split; [discriminate|intros [HH _]; congruence]|].
  intros H. apply andb_true_iff in H. destruct H as [H1 H2]. apply negb_true_iff in H1.
  rewrite (overload_from_spec _ _ H1 H2). split; [intros; split; auto; discriminate|intros [_ H3]; auto].
Qed.

Lemma pairwise_perm {A} (R : A -> A -> Prop) l l' : (forall a b, R a b -> R b a) -> Permutation l l' -> pairwise R l -> pairwise R l'.
Proof.
  intros Hs Hp. assert (G : forall l : list A, pairwise R l <-> ForallOrdPairs R l).
  { clear -Hs. induction l as [|a l IH].
    - split; [constructor|]. intros _ i j x y _ Hi. destruct i; discriminate.
    - split.
      + intros H. constructor.
        * apply Forall_forall. intros b Hb. apply In_nth_error in Hb. destruct Hb as [n Hn]. apply (H 0 (S n)); auto.
        * apply IH. intros i j x y Hne Hi Hj. apply (H (S i) (S j)); auto.
      + intros H. inversion H; subst. apply IH in H3. rewrite Forall_forall in H2. intros i j x y Hne Hi Hj.
        destruct i as [|i], j as [|j]; simpl in *; try congruence.
        * inversion Hi; subst. apply H2. eapply nth_error_In; eauto.
        * inversion Hj; subst. apply Hs, H2. eapply nth_error_In; eauto.
        * apply (H3 i j); auto. }
  rewrite !G. clear G. induction Hp; auto.
  - intros H. inversion H; subst. constructor; auto. eapply Permutation_Forall; eauto.
  - intros H. inversion H; subst. inversion H2; subst. inversion H3; subst. constructor; [constructor; auto|]. constructor; auto.
Qed.

Lemma forallb_perm {A} (f : A -> bool) l l' : Permutation l l' -> forallb f l = forallb f l'.
Proof.
  intros H. induction H; simpl; auto; try congruence. destruct (f x), (f y); auto.
Qed.

Lemma overload_set_perm sigs sigs' : forallb (fun s => negb (sg_variadic s)) sigs = true -> Permutation sigs sigs' ->
  is_overload_set sigs = is_overload_set sigs'.
Proof.
  intros Hv Hp. pose proof Hv as Hv'. rewrite (forallb_perm _ _ _ Hp) in Hv'. apply eq_true_iff_eq.
  rewrite (overload_set_spec _ Hv), (overload_set_spec _ Hv').
  assert (Hs : forall a b, may_overload a b -> may_overload b a) by apply may_overload_sym.
  split; intros [Hn H]; split.
  - intros ->. apply Permutation_sym, Permutation_nil in Hp. auto.
  - apply (pairwise_perm _ _ _ Hs Hp H).
  - intros ->. apply Permutation_nil in Hp. auto.
  - apply (pairwise_perm _ _ _ Hs (Permutation_sym Hp) H).
Qed.

(** ** Collections *)

Lemma collections_spec sigs : NoDup (mock_collections sigs) /\ forall d, In d (mock_collections sigs) <-> exists s, In s sigs /\ decay s = d.
Proof.
  unfold mock_collections, unique_list. split.
  - apply unique_onto_nodup. constructor.
  - intros d. rewrite unique_onto_in. simpl. rewrite in_map_iff. split; [intros [[]|(s & H & Hin)]|intros (s & Hin & H)]; eauto.
Qed.

Lemma overload_collection_spec sigs s s' : In s sigs -> In s' sigs ->
  exists i i', overload_collection sigs s = Some i /\ overload_collection sigs s' = Some i' /\
    nth_error (mock_collections sigs) i = Some (decay s) /\ (i = i' <-> decay s = decay s').
Proof.
  intros H H'. destruct (overload_collection_some sigs s H) as [i Hi]. destruct (overload_collection_some sigs s' H') as [i' Hi'].
  exists i, i'. split; [apply Hi|]. split; [apply Hi'|].
  assert (G : forall t l i, index_of t l = Some i -> nth_error l i = Some t).
  { clear. induction l as [|x l IH]; intros i Hi; simpl in Hi; [discriminate|]. unfold signature_eqb in Hi.
    destruct (signature_eq_dec t x); [inversion Hi; subst; auto|]. destruct (index_of t l); inversion Hi; subst. simpl. auto. }
  unfold overload_collection in *. destruct Hi as [Hi _], Hi' as [Hi' _]. split; [apply G; auto|]. split.
  - intros <-. apply G in Hi, Hi'. congruence.
  - intros E. rewrite E in Hi. congruence.
Qed.

(** ** Expectations only match calls through their own overload *)

Lemma same_overload w m ov s coll c n x : reachable w -> find_overload w m ov = inr (s, coll) ->
  ci_category c = frontend_category s -> ci_constness c = frontend_constness s ->
  live_in w coll n x -> accepts (eo_exp x) c -> eo_ov x = ov /\ eo_sig x = s.
Proof.
  intros Hr Hf Hcat Hcon (Hx & Ha & Hc) [_ Hall]. pose proof (oinv_reachable _ Hr) as O.
  destruct (find_overload_inr _ _ _ _ _ Hf) as (mk & cs & Hm & _ & Hs & Hcs & Hn). subst coll.
  destruct (oi_exp _ O _ _ _ _ _ _ Hx Hm Hcs Hn) as [H1 H2].
  assert (Hdec : decay (eo_sig x) = decay s) by (apply (oi_decay _ O _ _ _ _ _ _ _ _ _ Hm Hcs H2 Hn H1 Hs); auto).
  destruct (Nat.eq_dec (eo_ov x) ov) as [E|E]; [subst ov; split; auto; congruence|]. exfalso.
  destruct (oi_policies _ O _ _ Hx) as [P1 P2]. apply Hall in P1, P2. simpl in P1, P2. rewrite Hcat in P1. rewrite Hcon in P2.
  inversion P1 as [Q1]. inversion P2 as [Q2]. clear P1 P2.
  pose proof (oi_set _ O _ _ Hm) as Hset. unfold mock_sigs_ok in Hset. apply andb_true_iff in Hset. destruct Hset as [Hset Hvar].
  apply (overload_set_spec _ Hvar) in Hset. destruct Hset as [_ Hset]. specialize (Hset _ _ _ _ E H1 Hs).
  unfold decay in Hdec. inversion Hdec. unfold may_overload in Hset. unfold frontend_category, frontend_constness in *.
  destruct Hset as [Hset|[[R1 R2] Hd]]; [congruence|].
  destruct (sg_const (eo_sig x)), (sg_const s), (sg_ref (eo_sig x)), (sg_ref s); simpl in *; try discriminate;
    try (specialize (R1 eq_refl); discriminate); try (specialize (R2 eq_refl); discriminate); destruct Hd; congruence.
Qed.

(** The created expectation [e] is only matched through the overload number given at creation. *)
Lemma matched_overload ops0 w0 m ov ms cls l w1 ops w2 m' ov' args l' w3 :
  run init ops0 w0 -> step w0 (OExpect m ov ms cls l) = Next w1 RUnit -> run w1 ops w2 ->
  step w2 (OCall m' ov' args l') = Next w3 RUnit ->
  accepted (w_trace w3) (length (w_exps w0)) <> accepted (w_trace w2) (length (w_exps w0)) ->
  ov' = ov /\ exists s coll coll', find_overload w0 m ov = inr (s, coll) /\ find_overload w2 m' ov' = inr (s, coll').
Proof.
  intros H0 H1 H2 H3 Ha. destruct (declared_expectation _ _ _ _ _ _ _ _ _ _ H0 H1 H2) as (s & coll & x & Hf & Hx & Hd & _).
  assert (R2 : reachable w2).
  { exists (ops0 ++ OExpect m ov ms cls l :: ops). eapply run_app; eauto. econstructor; eauto. }
  destruct (matched_counts _ _ _ _ _ _ R2 H3) as (s' & coll' & n & x' & Hf' & (Hl & Hacc & _) & _ & Hcnt & _).
  rewrite Hcnt in Ha. destruct (Nat.eqb_spec n (length (w_exps w0))) as [En|]; [|lia]. rewrite En in Hl.
  pose proof Hl as (Hx' & _). unfold exp_at in *. rewrite Hx in Hx'. inversion Hx'; subst x'.
  destruct (same_overload w2 m' ov' s' coll' (call_of s' args l') _ _ R2 Hf' eq_refl eq_refl Hl Hacc) as [E1 E2].
  destruct Hd as (_ & _ & _ & _ & _ & _ & E3 & E4). split; [congruence|]. exists s, coll, coll'. split; auto. congruence.
Qed.

(** Which overload's collection: expectations of other mocks or with other parameter lists are not even looked at. *)
Lemma candidate_overload w m ov args l s coll n x : reachable w -> find_overload w m ov = inr (s, coll) ->
  candidate w coll (call_of s args l) n x -> eo_ov x = ov /\ eo_sig x = s.
Proof. intros Hr Hf (Hl & Ha & _). apply (same_overload w m ov s coll (call_of s args l) n x); auto. Qed.

Lemma collections_in_programs w m ov s coll m' ov' s' coll' :
  reachable w -> find_overload w m ov = inr (s, coll) -> find_overload w m' ov' = inr (s', coll') ->
  (coll = coll' <-> m = m' /\ decay s = decay s').
Proof.
  intros Hr Hf Hf'. pose proof (oinv_reachable _ Hr) as O.
  destruct (find_overload_inr _ _ _ _ _ Hf) as (mk & cs & Hm & _ & Hs & Hcs & Hn).
  destruct (find_overload_inr _ _ _ _ _ Hf') as (mk' & cs' & Hm' & _ & Hs' & Hcs' & Hn').
  assert (G : m = m' -> (coll = coll' <-> decay s = decay s')).
  { intros <-. rewrite Hm in Hm'. inversion Hm'; subst mk'. rewrite Hcs in Hcs'. inversion Hcs'; subst cs'.
    apply (oi_decay _ O _ _ _ _ _ _ _ _ _ Hm Hcs Hn Hn' Hs Hs'). }
  split.
  - intros <-. assert (m = m') by (exact (oi_sep _ O _ _ _ _ _ _ _ _ _ Hm Hm' Hcs Hcs' Hn Hn')). split; auto. apply G; auto.
  - intros [E1 E2]. apply G; auto.
Qed.
