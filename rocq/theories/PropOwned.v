(** * PropOwned: C77 continued. Every watcher belongs to exactly one Watched object and exists exactly as long as it does. *)

From Coq Require Import Permutation.
From Verif Require Import Base Lib Sequence Control Signature Printer Reports Expectation Builder World WorldSpec CallSpec
  StepCases ObjInv WorldInv CallProofs CountProofs Scenario FrameSpec Watcher WatchSpec WatchProofs WatchSteps PropWatcher Watched PropWatched.

(** ** What the operations on watchers do to the existence of watchers *)

Inductive change : Type := CSame | CAdd (p : part) | CDel (p : part).
Definition changes (s s' : wworld) (c : change) : Prop :=
  match c with
  | CSame => forall q, present s' q <-> present s q
  | CAdd p => ~ present s p /\ forall q, present s' q <-> present s q \/ q = p
  | CDel p => present s p /\ forall q, present s' q <-> present s q /\ q <> p
  end.

Lemma same_lists s s' : ww_life s' = ww_life s -> ww_reloc s' = ww_reloc s -> changes s s' CSame.
Proof. intros E1 E2 [i|j]; cbn [present]; [rewrite E1|rewrite E2]; reflexivity. Qed.
Lemma same_trans a b c x : changes a b CSame -> changes b c x -> changes a c x.
Proof.
  intros H1 H2. destruct x as [|p|p]; cbn [changes] in *.
  - intros q. rewrite H2. apply H1.
  - destruct H2 as [N H2]. split; [rewrite <- (H1 p); exact N|]. intros q. rewrite H2, H1. reflexivity.
  - destruct H2 as [N H2]. split; [rewrite <- (H1 p); exact N|]. intros q. rewrite H2, H1. reflexivity.
Qed.
Lemma slot_upd {A} (l : list (option A)) i x y k : nth_error l i = Some (Some x) ->
  (exists z, nth_error (upd l i (Some y)) k = Some (Some z)) <-> (exists z, nth_error l k = Some (Some z)).
Proof.
  intros Hi. pose proof (nth_error_lt _ _ _ Hi) as L. destruct (Nat.eq_dec i k) as [->|Hn].
  - rewrite nth_error_upd_eq by auto. rewrite Hi. split; intros _; eauto.
  - rewrite nth_error_upd_neq by auto. reflexivity.
Qed.
Lemma slot_del {A} (l : list (option A)) i x k : nth_error l i = Some (Some x) ->
  (exists z, nth_error (upd l i None) k = Some (Some z)) <-> (exists z, nth_error l k = Some (Some z)) /\ k <> i.
Proof.
  intros Hi. pose proof (nth_error_lt _ _ _ Hi) as L. destruct (Nat.eq_dec i k) as [->|Hn].
  - rewrite nth_error_upd_eq by auto. split; [intros [z Hz]; discriminate|intros [_ F]; congruence].
  - rewrite nth_error_upd_neq by auto. split; [intros H; split; auto|intros [H _]; auto].
Qed.
Lemma slot_add {A} (l : list (option A)) x k :
  (exists z, nth_error (l ++ [Some x]) k = Some (Some z)) <-> (exists z, nth_error l k = Some (Some z)) \/ k = length l.
Proof.
  destruct (Nat.lt_trichotomy k (length l)) as [H|[H|H]].
  - rewrite nth_error_app1 by auto. split; [auto|]. intros [G|G]; [auto|lia].
  - subst. rewrite nth_error_app2, Nat.sub_diag by auto. cbn. split; [auto|eauto].
  - replace (nth_error (l ++ [Some x]) k) with (@None (option A)) by (symmetry; apply nth_error_None; rewrite app_length; cbn; lia).
    replace (nth_error l k) with (@None (option A)) by (symmetry; apply nth_error_None; lia).
    split; [intros [z Hz]; discriminate|intros [[z Hz]|Hz]; [discriminate|lia]].
Qed.
Lemma upd_life_same s s' i lw lw' : nth_error (ww_life s) i = Some (Some lw) -> ww_life s' = upd (ww_life s) i (Some lw') -> ww_reloc s' = ww_reloc s -> changes s s' CSame.
Proof. intros Hi E1 E2 [k|j]; cbn [present]; [rewrite E1; eapply slot_upd; eauto|rewrite E2; reflexivity]. Qed.
Lemma add_life s s' x : ww_life s' = ww_life s ++ [Some x] -> ww_reloc s' = ww_reloc s -> changes s s' (CAdd (PLife (length (ww_life s') - 1))).
Proof.
  intros E1 E2. rewrite E1, app_length. cbn [length]. rewrite Nat.add_sub. split.
  - intros [z Hz]. apply nth_error_lt in Hz. lia.
  - intros [k|j]; cbn [present]; [rewrite E1, slot_add|rewrite E2]; (split; [intros [H|H] || intros H; auto|]); try (right; congruence).
    + intros [H|H]; [auto|right; congruence].
    + intros [H|H]; [auto|discriminate].
Qed.
Lemma add_reloc s s' x : ww_reloc s' = ww_reloc s ++ [Some x] -> ww_life s' = ww_life s -> changes s s' (CAdd (PReloc (length (ww_reloc s') - 1))).
Proof.
  intros E1 E2. rewrite E1, app_length. cbn [length]. rewrite Nat.add_sub. split.
  - intros [z Hz]. apply nth_error_lt in Hz. lia.
  - intros [k|j]; cbn [present]; [rewrite E2|rewrite E1, slot_add]; (split; [intros [H|H] || intros H; auto|]); try (right; congruence).
    + intros [H|H]; [auto|discriminate].
    + intros [H|H]; [auto|right; congruence].
Qed.
Lemma del_life s s' i x : nth_error (ww_life s) i = Some (Some x) -> ww_life s' = upd (ww_life s) i None -> ww_reloc s' = ww_reloc s -> changes s s' (CDel (PLife i)).
Proof.
  intros Hi E1 E2. split; [exists x; exact Hi|]. intros [k|j]; cbn [present]; [rewrite E1, (slot_del _ _ _ k Hi)|rewrite E2].
  - split; intros [H1 H2]; split; auto; congruence.
  - split; [intros H; split; auto; discriminate|intros [H _]; exact H].
Qed.
Lemma del_reloc s s' i x : nth_error (ww_reloc s) i = Some (Some x) -> ww_reloc s' = upd (ww_reloc s) i None -> ww_life s' = ww_life s -> changes s s' (CDel (PReloc i)).
Proof.
  intros Hi E1 E2. split; [exists x; exact Hi|]. intros [k|j]; cbn [present]; [rewrite E2|rewrite E1, (slot_del _ _ _ j Hi)].
  - split; [intros H; split; auto; discriminate|intros [H _]; exact H].
  - split; intros [H1 H2]; split; auto; congruence.
Qed.

(** The end of a special member function of a watcher that had to wait. *)
Definition finished (c : cont) (s' : wworld) (r : result) : change :=
  match c with
  | KMoved _ _ _ => if is_throw r then CSame else CAdd (PReloc (length (ww_reloc s') - 1))
  | _ => CSame
  end.
Lemma finish_changes s c r0 s' r : finish s c r0 = WNext s' r -> ww_conts s' = ww_conts s /\ is_throw r = is_throw r0 /\ changes s s' (finished c s' r).
Proof.
  intros H. destruct c; cbn [finish finished] in *.
  - apply perform_inv in H. destruct H as (w1 & r1 & _ & H). apply leave_next in H. destruct H as [-> E]. split; [reflexivity|]. split; [exact E|apply same_lists; reflexivity].
  - apply perform_inv in H. destruct H as (w1 & r1 & _ & H). destruct (is_throw r0) eqn:E; [inversion H; subst; split; [reflexivity|]; split; [exact E|apply same_lists; reflexivity]|].
    apply refresh_next in H. destruct H as (lw & Hi & -> & Er & Ec & El). split; [rewrite Ec; reflexivity|]. split; [reflexivity|]. eapply upd_life_same; eauto.
  - destruct (is_throw r0) eqn:E.
    + apply perform_inv in H. destruct H as (w1 & r1 & _ & H). apply leave_next in H. destruct H as [-> E']. rewrite E', E. split; [reflexivity|]. split; [reflexivity|apply same_lists; reflexivity].
    + destruct (nth_error (ww_reloc s) i) as [[m|]|]; try discriminate. apply perform_inv in H. destruct H as (w1 & r1 & _ & H). inversion H; subst.
      split; [reflexivity|]. split; [reflexivity|]. cbn [is_throw]. eapply add_reloc; reflexivity.
  - destruct (is_throw r0) eqn:E; [apply leave_next in H; destruct H as [-> E']; rewrite E', E; split; [reflexivity|]; split; [reflexivity|apply same_lists; reflexivity]|].
    destruct (nth_error (ww_reloc s) i) as [[mi|]|]; try discriminate. destruct (nth_error (ww_reloc s) j) as [[mj|]|]; try discriminate.
    apply perform_inv in H. destruct H as (w1 & r1 & _ & H). inversion H; subst. split; [reflexivity|]. split; [reflexivity|apply same_lists; reflexivity].
Qed.
Lemma call_then_changes s m l k s' r : call_then s m l k = WNext s' r ->
  changes s s' CSame /\ ((ww_conts s' = ww_conts s /\ is_throw r = true) \/ exists n, ww_conts s' = (n, k) :: ww_conts s).
Proof.
  intros H. apply call_then_next in H. destruct H as (w1 & r1 & _ & [(Et & H)|(Et & -> & ->)]).
  - apply finish_changes in H. destruct H as (Ec & Er & H). split; [|left; split; [rewrite Ec; reflexivity|congruence]].
    assert (E : finished k s' r = CSame) by (destruct k; cbn [finished]; auto; rewrite Er, Et; reflexivity). rewrite E in H.
    eapply same_trans; [|exact H]. apply same_lists; reflexivity.
  - split; [apply same_lists; reflexivity|]. right. eexists. reflexivity.
Qed.

(** The change an operation makes at once. A move of a relocation watcher ends at once only by an exception. *)
Definition change_by (o : wop) (s' : wworld) : change :=
  match o with
  | LNew | LCopy _ | LMove _ => CAdd (PLife (length (ww_life s') - 1))
  | RNew | RCopy _ => CAdd (PReloc (length (ww_reloc s') - 1))
  | LDestroy i _ _ => CDel (PLife i)
  | RDestroy i => CDel (PReloc i)
  | _ => CSame
  end.
Definition is_rmove (o : wop) : bool := match o with RMove _ _ _ => true | _ => false end.
Definition is_kmoved (c : cont) : bool := match c with KMoved _ _ _ => true | _ => false end.
Definition is_wop (o : wop) : bool := match o with WOp _ => true | _ => false end.

Lemma new_life_changes s s' r : new_life s = WNext s' r -> ww_conts s' = ww_conts s /\ changes s s' (CAdd (PLife (length (ww_life s') - 1))).
Proof. unfold new_life. intros H. apply perform_inv in H. destruct H as (w1 & r1 & _ & H). inversion H; subst. split; [reflexivity|]. eapply add_life; reflexivity. Qed.
Lemma new_reloc_changes s s' r : new_reloc s = WNext s' r -> ww_conts s' = ww_conts s /\ changes s s' (CAdd (PReloc (length (ww_reloc s') - 1))).
Proof. unfold new_reloc. intros H. apply perform_inv in H. destruct H as (w1 & r1 & _ & H). inversion H; subst. split; [reflexivity|]. eapply add_reloc; reflexivity. Qed.

Lemma wstep_changes s o s' r : is_wop o = false -> wstep s o = WNext s' r ->
  changes s s' (change_by o s') /\
  ((ww_conts s' = ww_conts s /\ (is_rmove o = true -> is_throw r = true)) \/ exists n c, ww_conts s' = (n, c) :: ww_conts s /\ is_kmoved c = is_rmove o).
Proof.
  intros Hw H. destruct o as [o| |i|i|i j l|i j|i ne l|i cls l|i| |i|i ne l|i j|i j ne l|i|i cls l]; try discriminate Hw; cbn [wstep change_by is_rmove] in *.
  - apply new_life_changes in H. destruct H. split; auto. left; split; auto; discriminate.
  - destruct (nth_error (ww_life s) i) as [[lw|]|]; try discriminate. apply new_life_changes in H. destruct H. split; auto. left; split; auto; discriminate.
  - destruct (nth_error (ww_life s) i) as [[lw|]|] eqn:Ei; try discriminate. inversion H; subst. split; [|left; split; [reflexivity|discriminate]].
    eapply same_trans; [eapply (upd_life_same s (set_life s (upd (ww_life s) i (Some (mkLW (lw_flag lw) None))))); [exact Ei|reflexivity|reflexivity]|eapply add_life; reflexivity].
  - destruct (nth_error (ww_life s) i) as [[lw|]|] eqn:Ei; try discriminate. destruct (nth_error (ww_life s) j) as [[lj|]|]; try discriminate.
    destruct (lw_mock lw).
    + apply call_then_changes in H. destruct H as (H & C). split.
      * eapply same_trans; [|exact H]. eapply upd_life_same; [exact Ei|reflexivity|reflexivity].
      * destruct C as [[C _]|[n' C]]; [left; split; [exact C|discriminate]|right; eexists; eexists; split; [exact C|reflexivity]].
    + apply refresh_next in H. destruct H as (lw' & Hi & _ & Er & Ec & El). split; [eapply upd_life_same; eauto|left; split; [exact Ec|discriminate]].
  - destruct (nth_error (ww_life s) i) as [[lw|]|] eqn:Ei; try discriminate. destruct (nth_error (ww_life s) j) as [[lj|]|] eqn:Ej; try discriminate.
    destruct (Nat.eqb_spec i j) as [E|E]; [inversion H; subst; split; [apply same_lists; reflexivity|left; split; [reflexivity|discriminate]]|].
    apply drop_next in H. destruct H as (_ & E1 & E2 & E3). cbn [ww_life ww_reloc ww_conts set_life] in *. split; [|left; split; [exact E3|discriminate]].
    eapply same_trans; [eapply (upd_life_same s (set_life s (upd (ww_life s) j (Some (mkLW (lw_flag lj) None))))); [exact Ej|reflexivity|reflexivity]|].
    eapply upd_life_same; [|exact E1|exact E2]. cbn [ww_life set_life]. rewrite nth_error_upd_neq by auto. exact Ei.
  - destruct (nth_error (ww_life s) i) as [[lw|]|] eqn:Ei; try discriminate.
    destruct (lw_mock lw).
    + apply call_then_changes in H. destruct H as (H & C). split.
      * pose proof (del_life s (set_life s (upd (ww_life s) i None)) i lw Ei eq_refl eq_refl) as [D1 D2]. split; [exact D1|]. intros q. rewrite (H q). apply D2.
      * destruct C as [[C _]|[n' C]]; [left; split; [exact C|discriminate]|right; eexists; eexists; split; [exact C|reflexivity]].
    + inversion H; subst. split; [eapply del_life; [exact Ei|reflexivity|reflexivity]|left; split; [reflexivity|discriminate]].
  - unfold expect_destruct in H. destruct (nth_error (ww_life s) i) as [[[[|] [m|]]|]|] eqn:Ei; try discriminate; try (inversion H; subst; split; [apply same_lists; reflexivity|left; split; [reflexivity|discriminate]]).
    apply perform_inv in H. destruct H as (w1 & r1 & _ & H). inversion H; subst. split; [eapply upd_life_same; [exact Ei|reflexivity|reflexivity]|left; split; [reflexivity|discriminate]].
  - unfold expect_destruct in H. destruct (nth_error (ww_life s) i) as [[[[|] [m|]]|]|] eqn:Ei; try discriminate; try (inversion H; subst; split; [apply same_lists; reflexivity|left; split; [reflexivity|discriminate]]).
    inversion H; subst. split; [eapply upd_life_same; [exact Ei|reflexivity|reflexivity]|left; split; [reflexivity|discriminate]].
  - apply new_reloc_changes in H. destruct H. split; auto. left; split; auto; discriminate.
  - destruct (nth_error (ww_reloc s) i) as [[m|]|]; try discriminate. apply new_reloc_changes in H. destruct H. split; auto. left; split; auto; discriminate.
  - destruct (nth_error (ww_reloc s) i) as [[m|]|]; try discriminate. apply perform_inv in H. destruct H as (w1 & r1 & _ & H).
    apply call_then_changes in H. destruct H as (H & C). split; [eapply same_trans; [|exact H]; apply same_lists; reflexivity|].
    destruct C as [[C R]|[n C]]; [left; auto|right; eexists; eexists; split; [exact C|reflexivity]].
  - destruct (nth_error (ww_reloc s) i) as [[m|]|]; try discriminate. destruct (nth_error (ww_reloc s) j) as [[mj|]|]; try discriminate.
    apply perform_inv in H. destruct H as (w1 & r1 & _ & H). apply perform_inv in H. destruct H as (w2 & r2 & _ & H). apply perform_inv in H. destruct H as (w3 & r3 & _ & H).
    inversion H; subst. split; [apply same_lists; reflexivity|left; split; [reflexivity|discriminate]].
  - destruct (nth_error (ww_reloc s) i) as [[m|]|]; try discriminate. destruct (nth_error (ww_reloc s) j) as [[mj|]|]; try discriminate.
    apply call_then_changes in H. destruct H as (H & C). split; [exact H|].
    destruct C as [[C R]|[n C]]; [left; split; [exact C|discriminate]|right; eexists; eexists; split; [exact C|reflexivity]].
  - destruct (nth_error (ww_reloc s) i) as [[m|]|] eqn:Ei; try discriminate. apply perform_inv in H. destruct H as (w1 & r1 & _ & H). inversion H; subst.
    split; [eapply del_reloc; [exact Ei|reflexivity|reflexivity]|left; split; [reflexivity|discriminate]].
  - destruct (nth_error (ww_reloc s) i) as [[m|]|]; try discriminate. apply perform_inv in H. destruct H as (w1 & r1 & _ & H). inversion H; subst.
    split; [apply same_lists; reflexivity|left; split; [reflexivity|discriminate]].
Qed.
Lemma wop_changes s o s' r : wstep s (WOp o) = WNext s' r ->
  (ww_conts s' = ww_conts s /\ changes s s' CSame) \/
  (exists n c ks, ww_conts s = (n, c) :: ks /\ ww_conts s' = ks /\ changes s s' (finished c s' r)).
Proof.
  cbn [wstep]. destruct (existsb (is_private s) (named o)); [discriminate|]. intros H. apply perform_inv in H. destruct H as (w1 & r1 & _ & H).
  unfold resume in H. cbn [ww_conts after_op ww] in H. destruct (ww_conts s) as [|[n c] ks] eqn:Ec.
  - left. inversion H; subst. split; [exact Ec|apply same_lists; reflexivity].
  - destruct (length (w_frames w1) <=? n).
    + right. exists n, c, ks. apply finish_changes in H. destruct H as (E & _ & H). split; [reflexivity|]. split; [exact E|]. eapply same_trans; [|exact H]. apply same_lists; reflexivity.
    + left. inversion H; subst. split; [exact Ec|apply same_lists; reflexivity].
Qed.

(** ** Ownership *)

Definition owned_parts (objs : list (option (members * list part))) : list part :=
  flat_map (fun x => match x with Some (_, ps) => ps | None => [] end) objs.

(** The special member function [p] of a Watched object, which owns the watchers [priv] (these belong to no object), destroys or hands
    over exactly these and the ones it creates. *)
Definition after_change (c : change) (priv next : list part) : Prop :=
  match c with
  | CSame => next = priv
  | CAdd q => next = q :: priv
  | CDel q => Permutation priv (q :: next)
  end.
Definition plan_op (o : wop) : bool := match o with WOp (OUnwind _) => true | WOp _ => false | _ => true end.
Definition moved_change (r : result) (s : wworld) : change := if is_throw r then CSame else CAdd (PReloc (length (ww_reloc s) - 1)).
Fixpoint sound (priv : list part) (p : plan) : Prop :=
  match p with
  | Done _ => priv = []
  | Built _ ps => Permutation priv ps
  | Do o k =>
      plan_op o = true /\
      forall s r, exists next, after_change (if is_rmove o then moved_change r s else change_by o s) priv next /\ sound next (k s r)
  end.
Lemma sound_perm p : forall a b, Permutation a b -> sound a p -> sound b p.
Proof.
  induction p as [r|b0 ps|o k IH]; intros a b Hp H; cbn [sound] in *.
  - subst. apply Permutation_nil in Hp. exact Hp.
  - eapply Permutation_trans; [apply Permutation_sym; exact Hp|exact H].
  - destruct H as [H0 H]. split; [exact H0|]. intros s r. destruct (H s r) as (next & Hn & Hs).
    destruct (if is_rmove o then moved_change r s else change_by o s) as [|q|q]; cbn [after_change] in *.
    + exists b. split; [reflexivity|]. subst. eapply IH; eauto.
    + exists (q :: b). split; [reflexivity|]. subst. eapply IH; [|exact Hs]. apply perm_skip. exact Hp.
    + exists next. split; [|exact Hs]. eapply Permutation_trans; [apply Permutation_sym; exact Hp|exact Hn].
Qed.
Lemma destroy_sound todo ne l : forall p, sound todo (destroy_plan todo ne l p).
Proof.
  induction todo as [|[i|i] t IH]; intros p; cbn.
  - destruct p as [[x n]|]; cbn; auto. split; [reflexivity|]. intros s r. exists []. auto.
  - destruct p as [[x n]|]; cbn; (split; [reflexivity|]); intros s r; exists t; (split; [apply Permutation_refl|]); auto.
    destruct r; auto. cbn. split; [reflexivity|]. intros s' r'. exists t. auto.
  - split; [reflexivity|]. intros s r. exists t. split; [apply Permutation_refl|auto].
Qed.
Lemma snoc_perm {A} (l : list A) x : Permutation (x :: l) (l ++ [x]).
Proof. apply (Permutation_cons_append l x). Qed.
Lemma new_sound b todo : forall built, sound built (new_plan b todo built).
Proof.
  induction todo as [|[|] t IH]; intros built; cbn [new_plan sound]; [apply Permutation_refl| |];
    (split; [reflexivity|]; intros s r; cbn [is_rmove change_by after_change]; eexists; split; [reflexivity|]; eapply sound_perm; [|apply IH]; apply Permutation_sym, snoc_perm).
Qed.
Lemma copy_sound b todo : forall built, sound built (copy_plan b todo built).
Proof.
  induction todo as [|[i|i] t IH]; intros built; cbn [copy_plan sound]; [apply Permutation_refl| |];
    (split; [reflexivity|]; intros s r; cbn [is_rmove change_by after_change]; eexists; split; [reflexivity|]; eapply sound_perm; [|apply IH]; apply Permutation_sym, snoc_perm).
Qed.
Lemma move_sound b l todo : forall built, sound built (move_plan b todo built l).
Proof.
  induction todo as [|[i|i] t IH]; intros built; cbn [move_plan sound]; [apply Permutation_refl| |].
  - split; [reflexivity|]. intros s r. cbn [is_rmove change_by after_change]. eexists. split; [reflexivity|]. eapply sound_perm; [|apply IH]. apply Permutation_sym, snoc_perm.
  - split; [reflexivity|]. intros s r. cbn [is_rmove]. unfold moved_change.
    destruct r; cbn [is_throw after_change]; (eexists; split; [reflexivity|]); try (eapply sound_perm; [|apply IH]; apply Permutation_sym, snoc_perm).
    cbn. split; [reflexivity|]. intros _ _. exists built. split; [reflexivity|]. eapply sound_perm; [|apply destroy_sound]. apply Permutation_sym, Permutation_rev.
Qed.
Lemma copy_assign_sound l todo : sound [] (copy_assign_plan todo l).
Proof.
  induction todo as [|[[i|i] [j|j]] t IH]; cbn; auto; (split; [reflexivity|]); intros s r; exists []; (split; [reflexivity|]); auto. destruct r; cbn; auto.
Qed.
Lemma move_assign_sound b l todo : sound [] (move_assign_plan b todo l).
Proof.
  induction todo as [|[[i|i] [j|j]] t IH]; cbn; auto; (split; [reflexivity|]); intros s r; exists []; (split; [reflexivity|]); auto. destruct r; cbn; auto.
Qed.

Lemma unwinding_sound s ps x l : sound ps (unwinding s ps x l).
Proof.
  cbn [unwinding sound]. split; [reflexivity|]. intros s1 r1. exists ps. split; [reflexivity|]. eapply sound_perm; [|apply destroy_sound]. apply Permutation_sym, Permutation_rev.
Qed.
Lemma throws_sound x l p : forall priv s, sound priv p -> sound priv (base_throws s p x l).
Proof.
  induction p as [r|b ps|o k IH]; intros priv s H; cbn [base_throws].
  - destruct r; exact H.
  - eapply sound_perm; [apply Permutation_sym; exact H|]. apply unwinding_sound.
  - cbn [sound] in *. destruct H as [H0 H]. split; [exact H0|]. intros s1 r. destruct (H s1 r) as (next & Hn & Hs). exists next. split; [exact Hn|]. apply IH. exact Hs.
Qed.

(** The waiting special member functions of objects and of watchers correspond to each other. *)
Definition pending_ok (c : cont) (k : wworld -> result -> plan) (priv : list part) : Prop :=
  forall s r, exists next, after_change (finished c s r) priv next /\ sound next (k s r).
Fixpoint tasks_ok (cs : list (nat * cont)) (ts : list (nat * (wworld -> result -> plan))) (priv : list part) : Prop :=
  match cs, ts with
  | [], [] => priv = []
  | (_, c) :: cs', (n, k) :: ts' => n = length cs' /\ exists p1 p2, priv = p1 ++ p2 /\ pending_ok c k p1 /\ tasks_ok cs' ts' p2
  | _, _ => False
  end.
Definition owns_all (s : wworld) (l : list part) : Prop := NoDup l /\ forall p, present s p <-> In p l.
Definition Owned (d : dworld) : Prop :=
  exists priv, tasks_ok (ww_conts (dw d)) (dw_tasks d) priv /\ owns_all (dw d) (owned_parts (dw_objs d) ++ priv).

Lemma owns_perm s a b : Permutation a b -> owns_all s a -> owns_all s b.
Proof.
  intros Hp [H1 H2]. split; [eapply Permutation_NoDup; eauto|]. intros p. rewrite H2. split; apply Permutation_in; auto. apply Permutation_sym; auto.
Qed.
Lemma owns_change s s' c objs priv next rest : changes s s' c -> after_change c priv next -> owns_all s (objs ++ priv ++ rest) -> owns_all s' (objs ++ next ++ rest).
Proof.
  intros Hc Ha Ho. destruct c as [|q|q]; cbn [changes after_change] in *.
  - subst. destruct Ho as [H1 H2]. split; auto. intros p. rewrite Hc. apply H2.
  - subst. destruct Hc as [N Hc]. destruct Ho as [H1 H2]. apply (owns_perm _ (q :: objs ++ priv ++ rest)); [apply Permutation_middle|].
    split; [constructor; auto; rewrite <- H2; exact N|]. intros p. rewrite Hc, H2. cbn [In]. split; intros [H|H]; auto.
  - destruct Hc as [N Hc]. assert (P : Permutation (objs ++ priv ++ rest) (q :: objs ++ next ++ rest)).
    { eapply Permutation_trans; [apply Permutation_app_head, Permutation_app_tail; exact Ha|]. cbn [app]. apply Permutation_sym, Permutation_middle. }
    apply (owns_perm _ _ _ P) in Ho. destruct Ho as [H1 H2]. inversion H1; subst. split; auto. intros p. rewrite Hc, H2. cbn [In]. split.
    + intros [[E|E] Hn]; [congruence|exact E].
    + intros E. split; [auto|]. intros ->. contradiction.
Qed.

Lemma owned_app a b : owned_parts (a ++ b) = owned_parts a ++ owned_parts b.
Proof. apply flat_map_app. Qed.
Lemma owned_upd objs : forall k b ps, nth_error objs k = Some (Some (b, ps)) -> Permutation (owned_parts objs) (owned_parts (upd objs k None) ++ ps).
Proof.
  induction objs as [|x t IH]; intros [|k] b ps H; cbn in H; try discriminate.
  - inversion H; subst. cbn. apply Permutation_app_comm.
  - cbn [upd owned_parts flat_map]. fold (owned_parts t). fold (owned_parts (upd t k None)). rewrite <- app_assoc. apply Permutation_app_head. eapply IH; eauto.
Qed.

Lemma go_owned p : forall d d' r priv rest, wreachable (dw d) -> sound priv p -> tasks_ok (ww_conts (dw d)) (dw_tasks d) rest ->
  owns_all (dw d) (owned_parts (dw_objs d) ++ priv ++ rest) -> go d p = DNext d' r -> Owned d'.
Proof.
  induction p as [r0|b ps|o k IH]; intros d d' r priv rest W Hs Ht Ho H; cbn [go sound] in *.
  - subst. inversion H; subst. exists rest. auto.
  - inversion H; subst. exists rest. split; [exact Ht|]. cbn [dw dw_objs set_objs]. rewrite owned_app. cbn [owned_parts flat_map]. rewrite app_nil_r, <- app_assoc.
    eapply owns_perm; [|exact Ho]. apply Permutation_app_head, Permutation_app_tail. exact Hs.
  - destruct Hs as [Hop Hs]. destruct (wstep (dw d) o) as [s r1| | |] eqn:E; try discriminate.
    assert (W' : wreachable s) by (eapply wreachable_step; eauto).
    destruct (is_wop o) eqn:Ew.
    + destruct o as [o| | | | | | | | | | | | | | |]; try discriminate. destruct o; try discriminate. rewrite (unwind_step _ _ W) in E. inversion E; subst s r1.
      cbn [ww_conts after_op] in H. rewrite Nat.ltb_irrefl in H. destruct (Hs (after_op (dw d) (set_uncaught (ww (dw d)) n) (OUnwind n)) RUnit) as (next & Ha & Hn).
      cbn [is_rmove change_by after_change] in Ha. subst next. eapply IH; [| | | |exact H]; [exact W'|exact Hn|exact Ht|]. destruct Ho as [H1 H2]. split; [exact H1|exact H2].
    + destruct (wstep_changes _ _ _ _ Ew E) as (Hc & [[Ec Hr]|(n & c & Ec & Ek)]).
      * rewrite Ec, Nat.ltb_irrefl in H. destruct (Hs s r1) as (next & Ha & Hn).
        eapply IH; [| | | |exact H]; [exact W'|exact Hn|cbn [dw dw_tasks set_dw]; rewrite Ec; exact Ht|].
        cbn [dw dw_objs set_dw]. eapply owns_change; [|exact Ha|exact Ho]. destruct (is_rmove o) eqn:Em; [|exact Hc].
        unfold moved_change. rewrite (Hr eq_refl). destruct o; try discriminate. exact Hc.
      * rewrite Ec in H. cbn [length] in H. replace (length (ww_conts (dw d)) <? S (length (ww_conts (dw d)))) with true in H by (symmetry; apply Nat.ltb_lt; lia).
        inversion H; subst.
        assert (N : exists next, after_change (change_by o s) priv next /\ pending_ok c k next).
        { destruct (is_rmove o) eqn:Em.
          - exists priv. split; [destruct o; try discriminate; reflexivity|]. intros s0 r0. destruct (Hs s0 r0) as (next & Ha & Hn). exists next. split; [|exact Hn].
            destruct c; try discriminate. exact Ha.
          - assert (F : forall s0 r0, finished c s0 r0 = CSame) by (destruct c; try discriminate; reflexivity).
            assert (X : change_by o s = CSame \/ exists q, forall s0, change_by o s0 = CDel q).
            { destruct o; try discriminate; cbn; eauto; exfalso; revert E Ec; clear; intros E Ec; cbn [wstep] in E;
              repeat match type of E with context [match ?x with _ => _ end] => destruct x; try discriminate end;
              try (apply new_life_changes in E; destruct E as [E _]; rewrite E in Ec; apply (f_equal (@length _)) in Ec; cbn in Ec; lia);
              try (apply new_reloc_changes in E; destruct E as [E _]; rewrite E in Ec; apply (f_equal (@length _)) in Ec; cbn in Ec; lia);
              inversion E; subst; cbn in Ec; apply (f_equal (@length _)) in Ec; cbn in Ec; lia. }
            destruct X as [X|[q X]].
            + rewrite X. exists priv. split; [reflexivity|]. intros s0 r0. rewrite F. destruct (Hs s0 r0) as (next & Ha & Hn).
              assert (X' : change_by o s0 = CSame) by (destruct o; try discriminate; reflexivity). rewrite X' in Ha. exists next. auto.
            + destruct (Hs s RUnit) as (next & Ha & _). rewrite X in *. exists next. split; [exact Ha|]. intros s0 r0. rewrite F. exists next. split; [reflexivity|].
              destruct (Hs s0 r0) as (next' & Ha' & Hn'). rewrite X in Ha'. eapply sound_perm; [|exact Hn'].
              cbn [after_change] in *. eapply Permutation_cons_inv. eapply Permutation_trans; [apply Permutation_sym; exact Ha'|exact Ha]. }
        destruct N as (next & Ha & Hk). exists (next ++ rest). cbn [dw dw_tasks dw_objs set_tasks set_dw]. rewrite Ec. split.
        -- cbn [tasks_ok]. split; [reflexivity|]. exists next, rest. auto.
        -- eapply owns_change; [exact Hc|exact Ha|exact Ho].
Qed.

Lemma dstep_owned d o d' r : wreachable (dw d) -> Owned d -> dstep d o = DNext d' r -> Owned d'.
Proof.
  intros W (priv & Ht & Ho) H.
  assert (G : forall p, sound [] p -> go d p = DNext d' r -> Owned d') by (intros p Hp; apply (go_owned p d d' r [] priv W Hp Ht Ho)).
  destruct o; cbn [dstep] in H.
  - destruct (negb (usable o)) eqn:Eu; [discriminate|]. destruct (wstep (dw d) o) as [s r1| | |] eqn:E; try discriminate.
    assert (W' : wreachable s) by (eapply wreachable_step; eauto).
    assert (X : (ww_conts s = ww_conts (dw d) /\ changes (dw d) s CSame) \/
      (exists n c ks, ww_conts (dw d) = (n, c) :: ks /\ ww_conts s = ks /\ changes (dw d) s (finished c s r1))).
    { destruct o; try discriminate; [eapply wop_changes; eauto| | |]; left; (pose proof (fun H => wstep_changes _ _ _ _ H E) as Q; specialize (Q eq_refl)); destruct Q as (Hc & [[Ec _]|(n & c & Ec & _)]); auto;
        exfalso; revert E Ec; clear; intros E Ec; cbn [wstep] in E; unfold expect_destruct in E;
        repeat match type of E with context [match ?x with _ => _ end] => destruct x; try discriminate end;
        try (apply perform_inv in E; destruct E as (w1 & r2 & _ & E)); inversion E; subst; cbn in Ec; apply (f_equal (@length _)) in Ec; cbn in Ec; lia. }
    destruct X as [[Ec Hc]|(n & c & ks & E1 & E2 & Hc)].
    + assert (Same : Owned (set_dw d s)).
      { exists priv. cbn [dw dw_tasks dw_objs set_dw]. rewrite Ec. split; [exact Ht|]. destruct Ho as [H1 H2]. split; [exact H1|]. intros p. rewrite (Hc p). apply H2. }
      destruct (dw_tasks d) as [|[n k] ts] eqn:Et; [inversion H; subst; exact Same|].
      rewrite Ec in H. destruct (ww_conts (dw d)) as [|[n' c] cs]; [destruct Ht|]. destruct Ht as [-> Ht]. cbn [length] in H.
      replace (S (length cs) <=? length cs) with false in H by (symmetry; apply Nat.leb_gt; lia). inversion H; subst. exact Same.
    + rewrite E1 in Ht. destruct (dw_tasks d) as [|[n' k] ts] eqn:Et; [destruct Ht|]. cbn [tasks_ok] in Ht. destruct Ht as (-> & p1 & p2 & -> & Hk & Ht).
      rewrite E2, Nat.leb_refl in H. destruct (Hk s r1) as (next & Ha & Hn).
      eapply (go_owned _ _ _ _ next p2); [| | | |exact H]; cbn [dw dw_tasks dw_objs set_dw set_tasks]; auto; [rewrite E2; exact Ht|].
      eapply owns_change; eauto.
  - destruct (distinct ks); [|discriminate]. apply (G _ (new_sound b ks []) H).
  - destruct (dobj d k) as [[b ps]|]; [|discriminate]. destruct (exists_ (m_ctor_copy b)); [|discriminate]. apply (G _ (copy_sound b ps []) H).
  - destruct (dobj d k) as [[b ps]|]; [|discriminate]. destruct (exists_ (m_ctor_move b)); [apply (G _ (move_sound b l ps []) H)|].
    destruct (exists_ (m_ctor_copy b)); [|discriminate]. apply (G _ (copy_sound b ps []) H).
  - destruct (dobj d k) as [[b ps]|]; [|discriminate]. destruct (dobj d j) as [[b' qs]|]; [|discriminate].
    destruct (same_kinds ps qs && exists_ (m_assign_copy b)); [|discriminate]. apply (G _ (copy_assign_sound l _) H).
  - destruct (dobj d k) as [[b ps]|]; [|discriminate]. destruct (dobj d j) as [[b' qs]|]; [|discriminate].
    destruct (same_kinds ps qs); [|discriminate]. destruct (exists_ (m_assign_move b)); [apply (G _ (move_assign_sound b l _) H)|].
    destruct (exists_ (m_assign_copy b)); [|discriminate]. apply (G _ (copy_assign_sound l _) H).
  - destruct (dobj d k) as [[b ps]|] eqn:E; [|discriminate].
    assert (En : nth_error (dw_objs d) k = Some (Some (b, ps))) by (unfold dobj in E; destruct (nth_error (dw_objs d) k); congruence).
    eapply (go_owned _ _ _ _ (rev ps) priv); [| | | |exact H]; [exact W|apply destroy_sound|exact Ht|].
    cbn [dw dw_objs set_objs]. eapply owns_perm; [|exact Ho]. rewrite app_assoc. apply Permutation_app_tail.
    eapply Permutation_trans; [eapply owned_upd; exact En|]. apply Permutation_app_head, Permutation_rev.
  - destruct (distinct ks); [|discriminate]. apply (G _ (throws_sound _ _ _ _ _ (new_sound b ks [])) H).
  - destruct (dobj d k) as [[b ps]|]; [|discriminate]. destruct (throws_ (m_ctor_copy b)); [|discriminate]. apply (G _ (throws_sound _ _ _ _ _ (copy_sound b ps [])) H).
  - destruct (dobj d k) as [[b ps]|]; [|discriminate]. destruct (exists_ (m_ctor_move b)).
    + destruct (throws_ (m_ctor_move b)); [|discriminate]. apply (G _ (throws_sound _ _ _ _ _ (move_sound b l ps [])) H).
    + destruct (throws_ (m_ctor_copy b)); [|discriminate]. apply (G _ (throws_sound _ _ _ _ _ (copy_sound b ps [])) H).
  - destruct (dobj d k) as [[b ps]|]; [|discriminate]. destruct (dobj d j) as [[b' qs]|]; [|discriminate].
    destruct (same_kinds ps qs && throws_ (m_assign_copy b)); [|discriminate]. apply (G _ (throws_sound _ _ _ _ _ (copy_assign_sound l _)) H).
  - destruct (dobj d k) as [[b ps]|]; [|discriminate]. destruct (dobj d j) as [[b' qs]|]; [|discriminate].
    destruct (same_kinds ps qs); [|discriminate]. destruct (exists_ (m_assign_move b)).
    + destruct (throws_ (m_assign_move b)); [|discriminate]. apply (G _ (throws_sound _ _ _ _ _ (move_assign_sound b l _)) H).
    + destruct (throws_ (m_assign_copy b)); [|discriminate]. apply (G _ (throws_sound _ _ _ _ _ (copy_assign_sound l _)) H).
  - destruct (dobj d k) as [[b ps]|] eqn:E; [|discriminate]. destruct (m_dtor b); [discriminate|].
    assert (En : nth_error (dw_objs d) k = Some (Some (b, ps))) by (unfold dobj in E; destruct (nth_error (dw_objs d) k); congruence).
    eapply (go_owned _ _ _ _ ps priv); [| | | |exact H]; [exact W|apply unwinding_sound|exact Ht|].
    cbn [dw dw_objs set_objs]. eapply owns_perm; [|exact Ho]. rewrite app_assoc. apply Permutation_app_tail. eapply owned_upd; exact En.
Qed.
Lemma owned_reachable d : dreachable d -> Owned d.
Proof.
  intros (ops & H). assert (G : forall d0, drun d0 ops d -> wreachable (dw d0) -> Owned d0 -> Owned d).
  { clear. intros d0 H. induction H as [|d0 o d1 r ops d2 Hs Hr IH]; auto. intros W O. apply IH; [|eapply dstep_owned; eauto].
    apply dstep_run in Hs. destruct Hs as [l Hl]. eapply wreachable_run; eauto. }
  apply (G _ H); [exists []; constructor|]. exists []. split; [reflexivity|]. split; [constructor|]. intros [i|i]; cbn; split; try intros []; try (destruct i; discriminate).
Qed.

Lemma dobj_owned d k b ps p : dobj d k = Some (b, ps) -> In p ps -> In p (owned_parts (dw_objs d)).
Proof.
  intros Hk Hp. apply in_flat_map. exists (Some (b, ps)). split; [|exact Hp]. unfold dobj in Hk. destruct (nth_error (dw_objs d) k) eqn:E; [|discriminate]. subst. eapply nth_error_In; eauto.
Qed.
Lemma owned_dobj d p : In p (owned_parts (dw_objs d)) -> exists k b ps, dobj d k = Some (b, ps) /\ In p ps.
Proof.
  intros H. apply in_flat_map in H. destruct H as ([[b ps]|] & H1 & H2); [|destruct H2]. apply In_nth_error in H1. destruct H1 as [k Hk]. exists k, b, ps. unfold dobj. rewrite Hk. auto.
Qed.
Lemma owned_twice objs : forall k k' b b' ps ps' (p : part), NoDup (owned_parts objs) -> nth_error objs k = Some (Some (b, ps)) -> nth_error objs k' = Some (Some (b', ps')) ->
  In p ps -> In p ps' -> k = k'.
Proof.
  induction objs as [|x t IH]; intros [|k] [|k'] b b' ps ps' p Hd Hk Hk' Hp Hp'; cbn in Hk, Hk'; try discriminate; auto.
  - exfalso. injection Hk as ->. cbn [owned_parts flat_map] in Hd. fold (owned_parts t) in Hd. revert Hd Hp. induction ps as [|a l IHl]; [intros _ []|]. intros Hd [->|Hp]; inversion Hd; subst; auto.
    apply H1. apply in_or_app. right. apply in_flat_map. exists (Some (b', ps')). split; [eapply nth_error_In; eauto|auto].
  - exfalso. injection Hk' as ->. cbn [owned_parts flat_map] in Hd. fold (owned_parts t) in Hd. revert Hd Hp'. induction ps' as [|a l IHl]; [intros _ []|]. intros Hd [->|Hq]; inversion Hd; subst; auto.
    apply H1. apply in_or_app. right. apply in_flat_map. exists (Some (b, ps)). split; [eapply nth_error_In; eauto|auto].
  - f_equal. eapply IH; eauto. cbn [owned_parts flat_map] in Hd. fold (owned_parts t) in Hd. destruct x as [[b0 l]|]; [|exact Hd]. clear - Hd. induction l; [exact Hd|]. inversion Hd; auto.
Qed.

(** Every part of an existing object exists, and it is part of no other object. If no special member function of an object is running,
    then there are no other watchers: also a failed construction and a throwing destructor leave none behind. *)
Theorem C77_parts d :
  dreachable d ->
  (forall k b ps p, dobj d k = Some (b, ps) -> In p ps -> present (dw d) p) /\
  (forall k k' b b' ps ps' p, dobj d k = Some (b, ps) -> dobj d k' = Some (b', ps') -> In p ps -> In p ps' -> k = k') /\
  (dw_tasks d = [] -> forall p, present (dw d) p -> exists k b ps, dobj d k = Some (b, ps) /\ In p ps).
Proof.
  intros Hr. destruct (owned_reachable _ Hr) as (priv & Ht & Hd & Hp). split; [|split].
  - intros k b ps p Hk Hin. apply Hp. apply in_or_app. left. eapply dobj_owned; eauto.
  - intros k k' b b' ps ps' p Hk Hk' Hin Hin'.
    assert (X : forall q x, dobj d q = Some x -> nth_error (dw_objs d) q = Some (Some x)) by (unfold dobj; intros q x E; destruct (nth_error (dw_objs d) q); congruence).
    assert (Nd : NoDup (owned_parts (dw_objs d))). { clear - Hd. induction (owned_parts (dw_objs d)) as [|a l IH]; [constructor|]. inversion Hd; subst. constructor; auto. intros F. apply H1. apply in_or_app. auto. }
    eapply owned_twice; eauto.
  - intros E p H. rewrite E in Ht. destruct (ww_conts (dw d)) as [|[n c] cs]; [|destruct Ht]. cbn in Ht. subst. rewrite app_nil_r in Hp. apply owned_dobj. apply Hp. exact H.
Qed.
(** A special member function of an object waits exactly if one of its watchers does. *)
Theorem C77_waits_with_its_watcher d : dreachable d -> map fst (dw_tasks d) = rev (seq 0 (length (ww_conts (dw d)))).
Proof.
  intros Hr. destruct (owned_reachable _ Hr) as (priv & Ht & _). revert priv Ht. generalize (dw_tasks d). induction (ww_conts (dw d)) as [|[n c] cs IH]; intros [|[n' k] ts] priv Ht; cbn [tasks_ok] in Ht; try contradiction; [reflexivity|].
  destruct Ht as (-> & p1 & p2 & _ & _ & Ht). cbn [map fst length]. rewrite (IH _ _ Ht). rewrite seq_S, rev_app_distr. reflexivity.
Qed.

Lemma parts_present d k b ps : dreachable d -> dobj d k = Some (b, ps) -> Forall (present (dw d)) ps.
Proof. intros Hr Hk. apply Forall_forall. intros p Hp. eapply (proj1 (C77_parts _ Hr)); eauto. Qed.

(** ** The parts need not be assumed *)

Theorem C77_any_copy d k b ps :
  dreachable d -> dobj d k = Some (b, ps) -> m_ctor_copy b <> None ->
  exists d' ps', dstep d (DCopy k) = DNext d' RUnit /\ dobj d' (length (dw_objs d)) = Some (b, ps') /\ map kind_of ps' = map kind_of ps /\
    (forall i, In (PLife i) ps' -> exists m, carries (dw d') i m false /\ ~ In m (ww_lmocks (dw d))) /\
    (forall j, In (PReloc j) ps' -> exists c, watches (dw d') j c /\ forall e x, exp_at (ww (dw d')) e x -> eo_coll x <> c) /\
    dobj d' k = Some (b, ps) /\ (forall i m fl, carries (dw d) i m fl -> carries (dw d') i m fl) /\ (forall j c, watches (dw d) j c -> watches (dw d') j c) /\
    w_trace (ww (dw d')) = w_trace (ww (dw d)) /\ w_exps (ww (dw d')) = w_exps (ww (dw d)).
Proof. intros Hr Hk. apply C77_copy; auto. eapply parts_present; eauto. Qed.

Theorem C77_any_unexpected_destruction d k b ps i m l :
  dreachable d -> dobj d k = Some (b, ps) -> In (PLife i) ps -> carries (dw d) i m false ->
  obeys_contract (w_reporter (ww (dw d))) -> throwing (ww (dw d)) ->
  (nothrow_dtor b = true -> dstep d (DDestroy k l) = DStop) /\
  (nothrow_dtor b = false -> exists d', dstep d (DDestroy k l) = DNext d' (RThrow EReporter) /\ dobj d' k = None /\ Forall (gone (dw d')) ps /\
     w_uncaught (ww (dw d')) = w_uncaught (ww (dw d)) /\ dw_tasks d' = dw_tasks d).
Proof. intros Hr Hk Hi Hc. eapply C77_unexpected_destruction; eauto. eapply parts_present; eauto. Qed.

(** ** Copy assignment *)

(** A part without any history: nobody expects its destruction or its relocation. [s]: a former state, in which the identity was not in use. *)
Definition renewed (s s' : wworld) (p : part) : Prop :=
  match p with
  | PLife i => exists m, carries s' i m false /\ ~ In m (ww_lmocks s)
  | PReloc j => exists c, watches s' j c /\ forall e x, exp_at (ww s') e x -> eo_coll x <> c
  end.

Lemma rassign_step s i j : wreachable s -> present s (PReloc i) -> present s (PReloc j) ->
  exists s', wstep s (RCopyAssign i j) = WNext s' RUnit /\ renewed s s' (PReloc i) /\ w_trace (ww s') = w_trace (ww s) /\ w_exps (ww s') = w_exps (ww s) /\
    ww_reloc s' = ww_reloc s /\ ww_life s' = ww_life s /\ ww_conts s' = ww_conts s /\ ww_lmocks s' = ww_lmocks s /\ (forall k d, k <> i -> watches s k d -> watches s' k d).
Proof.
  intros W [m Hi] [mj Hj]. destruct (C52_copy_assign s i j m mj W Hi Hj) as (s' & c & E & Hc & Hn & Ht & He & Hr & Ho). exists s'. split; [exact E|]. split; [exists c; auto|].
  do 3 (split; [auto|]). cbn [wstep] in E. rewrite Hi, Hj in E.
  apply perform_inv in E. destruct E as (w1 & r1 & _ & E). apply perform_inv in E. destruct E as (w2 & r2 & _ & E). apply perform_inv in E. destruct E as (w3 & r3 & _ & E). inversion E; subst. auto.
Qed.
Lemma lassign_step s i j l : wreachable s -> moved_from s i -> present s (PLife j) ->
  exists s', wstep s (LCopyAssign i j l) = WNext s' RUnit /\ renewed s s' (PLife i) /\ w_trace (ww s') = w_trace (ww s) /\ w_exps (ww s') = w_exps (ww s) /\
    ww_reloc s' = ww_reloc s /\ ww_conts s' = ww_conts s /\ (forall k m fl, k <> i -> carries s k m fl -> carries s' k m fl) /\ (forall k d, watches s k d -> watches s' k d).
Proof.
  intros W [fl Hi] [lj Hj]. destruct (C51_copy_assign_moved_from s i j lj l W (ex_intro _ fl Hi) Hj) as (s' & m & E & Hc & (F & _) & Ht). exists s'. split; [exact E|]. split; [exists m; auto|].
  split; [exact Ht|]. cbn [wstep] in E. rewrite Hi, Hj in E. cbn [lw_mock] in E. unfold refresh in E. rewrite Hi in E. cbn [lw_mock] in E.
  apply perform_inv in E. destruct E as (w1 & r1 & Es & E). cbn [drop_mock] in E. inversion E; subst. pose proof (new_mock_step _ _ _ Es) as (_ & _ & He & _).
  cbn [ww ww_reloc ww_conts set_life own_life after_op]. do 3 (split; [auto|]). split.
  - intros k m' f Hk H. unfold carries in *. cbn [ww_life set_life own_life after_op]. rewrite nth_error_upd_neq by auto. exact H.
  - intros k d (q & A & B). exists q. split; [exact A|]. unfold place in *. cbn [ww set_life own_life after_op]. eapply unnamed_mock; eauto.
Qed.

Lemma same_kinds_map : forall ps qs, same_kinds ps qs = true -> map kind_of qs = map kind_of ps.
Proof.
  induction ps as [|p ps IH]; intros [|q qs] H; cbn in H; try discriminate; auto. apply andb_prop in H. destruct H as [H1 H2]. cbn. rewrite (IH _ H2). destruct p, q; cbn in *; congruence.
Qed.
Lemma renewed_life s s1 s' i : incl (ww_lmocks s) (ww_lmocks s1) -> renewed s1 s' (PLife i) -> renewed s s' (PLife i).
Proof. intros H (m & A & B). exists m. auto. Qed.

(** k = j, if nobody watches the lifetime of k any more (it does not have a lifetime watcher or was moved from): k is as new, nothing else
    changes, in particular not j. Also k = k is such an assignment. *)
Theorem C77_copy_assignment d k q b b' ps qs l :
  dreachable d -> dobj d k = Some (b, ps) -> dobj d q = Some (b', qs) -> same_kinds ps qs = true -> m_assign_copy b <> None ->
  (forall i, In (PLife i) ps -> moved_from (dw d) i) ->
  exists d', dstep d (DCopyAssign k q l) = DNext d' RUnit /\ dw_objs d' = dw_objs d /\ dw_tasks d' = dw_tasks d /\ Forall (renewed (dw d) (dw d')) ps /\
    w_trace (ww (dw d')) = w_trace (ww (dw d)) /\ w_exps (ww (dw d')) = w_exps (ww (dw d)) /\
    (forall i m fl, ~ In (PLife i) ps -> carries (dw d) i m fl -> carries (dw d') i m fl) /\
    (forall j c, ~ In (PReloc j) ps -> watches (dw d) j c -> watches (dw d') j c).
Proof.
  intros Hr Hk Hq Hsk Hm Hmf. pose proof (C77_is_a_watcher_program _ Hr) as W. pose proof (parts_present _ _ _ _ Hr Hk) as Pp. pose proof (parts_present _ _ _ _ Hr Hq) as Pq.
  pose proof (same_kinds_map _ _ Hsk) as Em. cbn [dstep]. rewrite Hk, Hq, Hsk. assert (exists_ (m_assign_copy b) = true) as -> by (destruct (m_assign_copy b); [auto|congruence]). cbn [andb].
  destruct (C77_shapes _ _ _ _ Hr Hk) as [->|[[i ->]|[[j ->]|[(i & j & ->)|(i & j & ->)]]]]; cbn [map kind_of] in Em.
  - destruct qs; [|discriminate]. exists d. cbn. auto 12.
  - destruct qs as [|[i'|?] [|? ?]]; try discriminate. apply Forall_inv in Pq. destruct (lassign_step _ i i' l W (Hmf i (or_introl eq_refl)) Pq) as (s1 & E & Rn & T & X & R & C & Hl & Hw).
    cbn [combine copy_assign_plan go]. rewrite E, C, Nat.ltb_irrefl. cbn [copy_assign_plan go]. eexists. split; [reflexivity|]. cbn [dw dw_objs dw_tasks set_dw].
    do 2 (split; [reflexivity|]). split; [auto|]. do 2 (split; [auto|]). split; [intros i0 m fl Hn; apply Hl; intros ->; apply Hn; left; reflexivity|]. auto.
  - destruct qs as [|[?|j'] [|? ?]]; try discriminate. apply Forall_inv in Pq. apply Forall_inv in Pp. destruct (rassign_step _ j j' W Pp Pq) as (s1 & E & Rn & T & X & R & L & C & M & Hw).
    cbn [combine copy_assign_plan go]. rewrite E, C, Nat.ltb_irrefl. cbn [copy_assign_plan go]. eexists. split; [reflexivity|]. cbn [dw dw_objs dw_tasks set_dw].
    do 2 (split; [reflexivity|]). split; [auto|]. do 2 (split; [auto|]). split; [intros i0 m fl _ H; unfold carries in *; rewrite L; exact H|].
    intros j0 c Hn. apply Hw. intros ->. apply Hn. left. reflexivity.
  - destruct qs as [|[i'|?] [|[?|j'] [|? ?]]]; try discriminate. inversion Pq as [|? ? Q1 Pq']; subst. apply Forall_inv in Pq'. inversion Pp as [|? ? _ Pp']; subst. apply Forall_inv in Pp'.
    destruct (lassign_step _ i i' l W (Hmf i (or_introl eq_refl)) Q1) as (s1 & E & Rn & T & X & R & C & Hl & Hw). pose proof (wreachable_step _ _ _ _ W E) as W1.
    assert (P1 : present s1 (PReloc j)) by (cbn [present] in *; rewrite R; exact Pp'). assert (P2 : present s1 (PReloc j')) by (cbn [present] in *; rewrite R; exact Pq').
    destruct (rassign_step _ j j' W1 P1 P2) as (s2 & E2 & Rn2 & T2 & X2 & R2 & L2 & C2 & M2 & Hw2).
    cbn [combine copy_assign_plan go]. rewrite E, C, Nat.ltb_irrefl. cbn [copy_assign_plan go dw set_dw]. rewrite E2, C2, Nat.ltb_irrefl. cbn [copy_assign_plan go]. eexists. split; [reflexivity|]. cbn [dw dw_objs dw_tasks set_dw].
    do 2 (split; [reflexivity|]). split; [constructor; [|constructor; [exact Rn2|constructor]]|].
    { destruct Rn as (m & A & B). exists m. split; [unfold carries in *; rewrite L2; exact A|exact B]. }
    split; [congruence|]. split; [congruence|]. split.
    + intros i0 m fl Hn H. unfold carries in *. rewrite L2. apply Hl; auto. intros ->. apply Hn. left. reflexivity.
    + intros j0 c Hn H. apply Hw2; auto. intros ->. apply Hn. right. left. reflexivity.
  - destruct qs as [|[?|j'] [|[i'|?] [|? ?]]]; try discriminate. inversion Pq as [|? ? Q1 Pq']; subst. apply Forall_inv in Pq'. inversion Pp as [|? ? Q2 _]; subst.
    destruct (rassign_step _ j j' W Q2 Q1) as (s1 & E & Rn & T & X & R & L & C & M & Hw). pose proof (wreachable_step _ _ _ _ W E) as W1.
    assert (P1 : moved_from s1 i). { destruct (Hmf i (or_intror (or_introl eq_refl))) as [fl Hf]. exists fl. rewrite L. exact Hf. }
    assert (P2 : present s1 (PLife i')) by (cbn [present] in *; rewrite L; exact Pq').
    destruct (lassign_step _ i i' l W1 P1 P2) as (s2 & E2 & Rn2 & T2 & X2 & R2 & C2 & Hl2 & Hw2).
    cbn [combine copy_assign_plan go]. rewrite E, C, Nat.ltb_irrefl. cbn [copy_assign_plan go dw set_dw]. rewrite E2, C2, Nat.ltb_irrefl. cbn [copy_assign_plan go]. eexists. split; [reflexivity|]. cbn [dw dw_objs dw_tasks set_dw].
    do 2 (split; [reflexivity|]). split; [constructor; [|constructor; [|constructor]]|].
    { destruct Rn as (c & A & B). exists c. split; [auto|]. unfold exp_at in *. rewrite X2. exact B. }
    { destruct Rn2 as (m & A & B). exists m. rewrite <- M. auto. }
    split; [congruence|]. split; [congruence|]. split.
    + intros i0 m fl Hn H. apply Hl2; [intros ->; apply Hn; right; left; reflexivity|]. unfold carries in *. rewrite L. exact H.
    + intros j0 c Hn H. apply Hw2, Hw; auto. intros ->. apply Hn. left. reflexivity.
Qed.

(** If the lifetime of k is watched, then k = j reports the destruction of k first (C51). If that is expected, the assignment waits for the end of
    the call, [d2]; then the lifetime of k has got a new identity, and its relocation watcher, if it comes later, is as new. *)
Lemma lassign_waits s i j m fl l s' r : wreachable s -> carries s i m fl -> wstep s (LCopyAssign i j l) = WNext s' r -> length (ww_conts s) < length (ww_conts s') ->
  ww_conts s' = (depth s, KReset i m) :: ww_conts s /\ depth s' = S (depth s).
Proof.
  intros W Hi E L. cbn [wstep] in E. unfold carries in Hi. rewrite Hi in E. destruct (nth_error (ww_life s) j) as [[lj|]|]; try discriminate. cbn [lw_mock lw_flag] in E.
  apply call_then_next in E. destruct E as (w1 & r1 & Es & [(Et & E)|(Et & -> & ->)]).
  - apply finish_changes in E. destruct E as (Ec & _). rewrite Ec in L. cbn in L. lia.
  - split; [reflexivity|]. unfold depth. cbn [ww set_conts after_op]. apply op_depth in Es; [|apply (v_reachable _ (inv_wreachable _ W))]. rewrite Et in Es. exact Es.
Qed.
Theorem C77_copy_assignment_completes d k q b b' ps qs i m fl l d1 r d2 u w1 v :
  dreachable d -> dobj d k = Some (b, ps) -> dobj d q = Some (b', qs) -> In (PLife i) ps -> carries (dw d) i m fl ->
  dstep d (DCopyAssign k q l) = DNext d1 r -> dw_tasks d1 <> dw_tasks d ->
  dreachable d2 -> dw_tasks d2 = dw_tasks d1 -> ww_conts (dw d2) = ww_conts (dw d1) -> depth (dw d2) = depth (dw d1) ->
  dobj d2 k = Some (b, ps) -> dobj d2 q = Some (b', qs) -> step (ww (dw d2)) (OReturn u) = Next w1 (RVal v) ->
  r = RUnit /\ dw_objs d1 = dw_objs d /\ exists d3, dstep d2 (DUse (WOp (OReturn u))) = DNext d3 RUnit /\ dw_objs d3 = dw_objs d2 /\ dw_tasks d3 = dw_tasks d /\
    renewed (dw d2) (dw d3) (PLife i) /\ (forall j, ps = [PLife i; PReloc j] -> renewed (dw d2) (dw d3) (PReloc j)) /\
    (forall j, ps = [PReloc j; PLife i] -> renewed (dw d) (dw d1) (PReloc j)) /\ w_trace (ww (dw d3)) = w_trace (ww (dw d2)).
Proof.
  intros Hr Hk Hq Hin Hi H Hw Hr2 T2 C2 D2 Hk2 Hq2 Hs. pose proof (C77_is_a_watcher_program _ Hr) as W. pose proof (C77_is_a_watcher_program _ Hr2) as V2.
  pose proof (parts_present _ _ _ _ Hr Hk) as Pp. pose proof (parts_present _ _ _ _ Hr Hq) as Pq. pose proof (parts_present _ _ _ _ Hr2 Hk2) as Pp2. pose proof (parts_present _ _ _ _ Hr2 Hq2) as Pq2.
  cbn [dstep] in H. rewrite Hk, Hq in H. destruct (same_kinds ps qs) eqn:Hsk; [|discriminate]. cbn [andb] in H. destruct (exists_ (m_assign_copy b)); [|discriminate].
  pose proof (same_kinds_map _ _ Hsk) as Em.
  (* the end of the call *)
  assert (End : forall s0, wreachable s0 -> ww_conts (dw d1) = (depth s0, KReset i m) :: ww_conts s0 -> depth (dw d1) = S (depth s0) ->
     exists s', wstep (dw d2) (WOp (OReturn u)) = WNext s' RUnit /\ renewed (dw d2) s' (PLife i) /\ ww_conts s' = ww_conts s0 /\ w_trace (ww s') = w_trace (ww (dw d2)) /\ ww_reloc s' = ww_reloc (dw d2)).
  { intros s0 W0 Ec Ed. rewrite <- C2 in Ec. rewrite <- D2 in Ed. assert (Pi : present (dw d2) (PLife i)) by (rewrite Forall_forall in Pp2; apply Pp2; exact Hin). destruct Pi as [lw Hlw].
    destruct (C51_copy_assign_ends _ _ _ _ _ _ _ _ _ V2 Ec Ed Hlw Hs) as (s' & m' & E & Hc & (F & _) & Ck & Tr). exists s'. split; [exact E|]. split; [exists m'; auto|]. do 2 (split; [auto|]).
    cbn [wstep] in E. change (existsb (is_private (dw d2)) (named (OReturn u))) with false in E. cbv iota in E. apply perform_inv in E. destruct E as (w1' & r1 & _ & E).
    unfold resume in E. cbn [ww_conts after_op] in E. rewrite Ec in E. destruct (length (w_frames (ww (after_op (dw d2) w1' (OReturn u)))) <=? depth s0); [|inversion E; subst; reflexivity].
    cbn [finish] in E. apply perform_inv in E. destruct E as (w3 & r3 & _ & E). destruct (is_throw r1); [inversion E; subst; reflexivity|].
    apply refresh_next in E. destruct E as (_ & _ & _ & Er & _). exact Er. }
  destruct (C77_shapes _ _ _ _ Hr Hk) as [->|[[i' ->]|[[j ->]|[(i' & j & ->)|(i' & j & ->)]]]]; cbn [map kind_of] in Em.
  - destruct Hin.
  - destruct Hin as [F|[]]. inversion F; subst i'. destruct qs as [|[q1|?] [|? ?]]; try discriminate. cbn [combine copy_assign_plan go] in H.
    destruct (wstep (dw d) (LCopyAssign i q1 l)) as [s1 r1| | |] eqn:E; try discriminate. destruct (Nat.ltb_spec (length (ww_conts (dw d))) (length (ww_conts s1))) as [L|L].
    2: { exfalso. destruct r1; cbn [copy_assign_plan go] in H; inversion H; subst; apply Hw; reflexivity. }
    destruct (lassign_waits _ _ _ _ _ _ _ _ W Hi E L) as [Ec Ed]. inversion H; subst. split; [reflexivity|]. split; [reflexivity|]. cbn [dw dw_tasks set_tasks set_dw] in *.
    destruct (End (dw d) W Ec Ed) as (s' & E' & Rn & Ck & Tr & Rl). cbn [dstep usable negb]. rewrite E', T2, Ck, Nat.leb_refl. cbn [copy_assign_plan go].
    eexists. split; [reflexivity|]. cbn [dw dw_objs dw_tasks set_tasks set_dw]. do 3 (split; [auto|]). split; [intros ? X; discriminate|]. split; [intros ? X; discriminate|exact Tr].
  - destruct Hin as [F|[]]. discriminate.
  - destruct Hin as [F|[F|[]]]; [|discriminate]. inversion F; subst i'. destruct qs as [|[q1|?] [|[?|q2] [|? ?]]]; try discriminate. cbn [combine copy_assign_plan go] in H.
    destruct (wstep (dw d) (LCopyAssign i q1 l)) as [s1 r1| | |] eqn:E; try discriminate. destruct (Nat.ltb_spec (length (ww_conts (dw d))) (length (ww_conts s1))) as [L|L].
    2: { exfalso. destruct r1 as [| | |x]; cbn [copy_assign_plan go dw set_dw] in H; [| | |inversion H; subst; apply Hw; reflexivity].
         all: destruct (wstep s1 (RCopyAssign j q2)) as [s2 r2| | |] eqn:E2; try discriminate; destruct (length (ww_conts s1) <? length (ww_conts s2)) eqn:Lt; [|inversion H; subst; apply Hw; reflexivity].
         all: cbn [wstep] in E2; destruct (nth_error (ww_reloc s1) j) as [[?|]|]; try discriminate; destruct (nth_error (ww_reloc s1) q2) as [[?|]|]; try discriminate.
         all: apply perform_inv in E2; destruct E2 as (? & ? & _ & E2); apply perform_inv in E2; destruct E2 as (? & ? & _ & E2); apply perform_inv in E2; destruct E2 as (? & ? & _ & E2).
         all: inversion E2; subst; apply Nat.ltb_lt in Lt; cbn in Lt; lia. }
    destruct (lassign_waits _ _ _ _ _ _ _ _ W Hi E L) as [Ec Ed]. inversion H; subst. split; [reflexivity|]. split; [reflexivity|]. cbn [dw dw_tasks set_tasks set_dw] in *.
    destruct (End (dw d) W Ec Ed) as (s' & E' & Rn & Ck & Tr & Rl). cbn [dstep usable negb]. rewrite E', T2, Ck, Nat.leb_refl. cbn [copy_assign_plan go dw set_tasks set_dw].
    pose proof (wreachable_step _ _ _ _ V2 E') as W'.
    assert (P1 : present s' (PReloc j)) by (inversion Pp2 as [|? ? _ Z]; subst; apply Forall_inv in Z; cbn [present] in *; rewrite Rl; exact Z).
    assert (P2 : present s' (PReloc q2)) by (inversion Pq2 as [|? ? _ Z]; subst; apply Forall_inv in Z; cbn [present] in *; rewrite Rl; exact Z).
    destruct (rassign_step _ j q2 W' P1 P2) as (s2 & E2 & Rn2 & Tr2 & X2 & R2 & L2 & C2' & M2 & Hw2).
    rewrite E2, C2', Nat.ltb_irrefl. cbn [copy_assign_plan go].
    eexists. split; [reflexivity|]. cbn [dw dw_objs dw_tasks set_tasks set_dw]. do 2 (split; [auto|]). split; [destruct Rn as (m' & A & B); exists m'; split; [unfold carries in *; rewrite L2; exact A|exact B]|].
    split; [intros j0 X; inversion X; subst; exact Rn2|]. split; [intros ? X; discriminate|congruence].
  - destruct Hin as [F|[F|[]]]; [discriminate|]. inversion F; subst i'. destruct qs as [|[?|q2] [|[q1|?] [|? ?]]]; try discriminate. cbn [combine copy_assign_plan go] in H.
    inversion Pp as [|? ? A1 _]; subst. inversion Pq as [|? ? A2 _]; subst.
    destruct (rassign_step _ j q2 W A1 A2) as (s0 & E0 & Rn0 & Tr0 & X0 & R0 & L0 & C0 & M0 & Hw0). rewrite E0, C0, Nat.ltb_irrefl in H. cbn [copy_assign_plan go dw set_dw] in H.
    pose proof (wreachable_step _ _ _ _ W E0) as W0. assert (Hi0 : carries s0 i m fl) by (unfold carries in *; rewrite L0; exact Hi).
    destruct (wstep s0 (LCopyAssign i q1 l)) as [s1 r1| | |] eqn:E; try discriminate. destruct (Nat.ltb_spec (length (ww_conts s0)) (length (ww_conts s1))) as [L|L].
    2: { exfalso. destruct r1; cbn [copy_assign_plan go] in H; inversion H; subst; apply Hw; reflexivity. }
    destruct (lassign_waits _ _ _ _ _ _ _ _ W0 Hi0 E L) as [Ec Ed]. inversion H; subst. split; [reflexivity|]. split; [reflexivity|]. cbn [dw dw_tasks set_tasks set_dw] in *.
    destruct (End s0 W0 Ec Ed) as (s' & E' & Rn & Ck & Tr & Rl). cbn [dstep usable negb]. rewrite E', T2, Ck, Nat.leb_refl. cbn [copy_assign_plan go].
    eexists. split; [reflexivity|]. cbn [dw dw_objs dw_tasks set_tasks set_dw]. do 3 (split; [auto|]). split; [intros ? X; discriminate|]. split; [|exact Tr].
    intros j0 X. inversion X; subst j0. destruct Rn0 as (c & A & B).
    (* the call does not touch the other watcher *)
    cbn [wstep] in E. unfold carries in Hi0. rewrite Hi0 in E. destruct (nth_error (ww_life s0) q1) as [[lj|]|]; try discriminate. cbn [lw_mock lw_flag] in E.
    apply call_then_next in E. destruct E as (w2 & r2 & Es & [(Et & E)|(Et & _ & ->)]); [apply finish_changes in E; destruct E as (Ec' & _); rewrite Ec' in L; cbn in L; lia|].
    exists c. cbn [ww set_life] in Es. split.
    + destruct A as (z & Z1 & Z2). exists z. split; [exact Z1|]. unfold place in *. cbn [ww set_conts after_op]. eapply unmoved_mock; eauto. exact Logic.I.
    + intros e x Hx. cbn [ww set_conts after_op] in Hx.
      pose proof (winv_reachable _ (v_reachable _ (inv_wreachable _ W0))) as WI.
      destruct (call_effect_inv _ _ _ _ _ _ _ WI Es) as [(sg & coll & n & y & mr & unh & _ & _ & _ & ((Hy & _) & _) & _ & _ & Ex & _)|(-> & _)]; [|discriminate].
      unfold exp_at in Hx. rewrite Ex in Hx. apply nth_error_upd in Hx. destruct Hx as [(_ & _ & ->)|[_ Hx]]; [|eapply B; exact Hx]. cbn [eo_coll]. eapply B; exact Hy.
Qed.

(** No assumption about the parts is needed for move assignment either. *)
Theorem C77_any_failed_move_assignment d k q b b' ps qs j j' c l :
  dreachable d -> k <> q -> dobj d k = Some (b, ps) -> dobj d q = Some (b', qs) -> same_kinds ps qs = true -> In (PReloc j) ps -> In (PReloc j') qs ->
  (forall i, In (PLife i) ps \/ In (PLife i) qs -> ~ moved_from (dw d) i) -> watches (dw d) j' c -> refused (dw d) c l ->
  obeys_contract (w_reporter (ww (dw d))) -> throwing (ww (dw d)) -> m_assign_move b <> None ->
  (nothrow_assign b = true -> dstep d (DMoveAssign k q l) = DStop) /\
  (nothrow_assign b = false -> exists d', dstep d (DMoveAssign k q l) = DNext d' (RThrow EReporter) /\ dw_objs d' = dw_objs d /\ ww_reloc (dw d') = ww_reloc (dw d) /\
     (hd KReloc (map kind_of ps) = KReloc -> ww_life (dw d') = ww_life (dw d)) /\
     (hd KReloc (map kind_of ps) = KLife -> exists i i' m fl m' fl', ps = [PLife i; PReloc j] /\ qs = [PLife i'; PReloc j'] /\ carries (dw d) i m fl /\ carries (dw d) i' m' fl' /\
        carries (dw d') i m' fl' /\ moved_from (dw d') i' /\ calls m (ww_log (dw d')) = 0 /\ forall x y, ~ carries (dw d') x m y)).
Proof.
  intros Hr Hkq Hk Hq Hs Hj Hj' Hl Hw Hn Hc Ht Hm.
  assert (P : forall i, In (PLife i) ps \/ In (PLife i) qs -> exists m fl, carries (dw d) i m fl).
  { intros i Hi. assert (Pi : present (dw d) (PLife i)) by (destruct Hi as [Hi|Hi]; [eapply (proj1 (C77_parts _ Hr) k)|eapply (proj1 (C77_parts _ Hr) q)]; eauto).
    destruct Pi as [[fl [m|]] Pi]; [exists m, fl; exact Pi|]. exfalso. apply (Hl i Hi). exists fl. exact Pi. }
  apply (C77_failed_move_assignment d k q b b' ps qs j j' c l); auto.
  - intros i Hi Hi'. apply Hkq. eapply (proj1 (proj2 (C77_parts _ Hr))); eauto.
  - eapply parts_present; eauto.
Qed.

(** ** Nothing that compiles is impossible *)

Lemma handle_valid w c k ne : handle_call w c k ne <> Invalid.
Proof.
  unfold handle_call, thrown. repeat match goal with |- context [match ?x with _ => _ end] => destruct x; try discriminate end.
Qed.
Lemma call_valid s m l : wreachable s -> alive_mock (ww s) m -> step (ww s) (OCall m 0 [] l) <> Invalid.
Proof.
  intros W [cs Hm]. cbn [step]. unfold do_call, find_overload. rewrite Hm. cbn [mk_alive negb mk_sigs nth_error mk_colls]. destruct cs as [cs|]; [|discriminate].
  pose proof (oi_len _ (oinv_reachable _ (v_reachable _ (inv_wreachable _ W))) _ _ _ Hm eq_refl) as L. cbn in L. destruct cs as [|c [|? ?]]; try discriminate L. cbn [nth_error length sg_params sig_watch Nat.eqb negb]. apply handle_valid.
Qed.
Definition cont_mock (k : cont) : option nat := match k with KDestroy m _ | KReset _ m => Some m | KMoved _ d _ => Some d | KAssigned _ _ _ => None end.
Lemma destroy_valid w m : alive_mock w m -> step w (ODestroyMock m) <> Invalid.
Proof. intros [cs Hm]. cbn [step]. rewrite Hm. discriminate. Qed.
Lemma leave_valid ne s r : leave ne s r <> WInvalid.
Proof. destruct r; cbn; try discriminate. destruct ne; discriminate. Qed.
Lemma call_then_valid s m l k : alive_mock (ww s) m -> (forall d, cont_mock k = Some d -> alive_mock (ww s) d) -> step (ww s) (OCall m 0 [] l) <> Invalid -> call_then s m l k <> WInvalid.
Proof.
  intros Hm Hd Hc. unfold call_then, perform. destruct (step (ww s) (OCall m 0 [] l)) as [w1 r1| | |] eqn:E; try discriminate; [|congruence].
  destruct (is_throw r1) eqn:Et; [|discriminate].
  assert (A : forall d, cont_mock k = Some d -> alive_mock w1 d) by (intros d H; eapply alive_step; eauto; discriminate).
  destruct k; cbn [finish cont_mock] in *; try rewrite Et; unfold perform; cbn [ww].
  - destruct (step w1 (ODestroyMock m0)) eqn:E2; try discriminate; [apply leave_valid|]. exfalso. apply (destroy_valid w1 m0); auto.
  - destruct (step w1 (ODestroyMock m0)) eqn:E2; try discriminate. exfalso. apply (destroy_valid w1 m0); auto.
  - destruct (step w1 (ODestroyMock d)) eqn:E2; try discriminate; [apply leave_valid|]. exfalso. apply (destroy_valid w1 d); auto.
  - apply leave_valid.
Qed.

Lemma life_alive s i m fl : wreachable s -> carries s i m fl -> alive_mock (ww s) m.
Proof. intros W H. destruct (v_life _ (inv_wreachable _ W) _ _ _ H) as [_ Hi]. apply fixed_alive. eapply ident_fixed; eauto. Qed.
Lemma reloc_alive s i m : wreachable s -> nth_error (ww_reloc s) i = Some (Some m) -> alive_mock (ww s) m.
Proof. intros W H. apply (v_reloc _ (inv_wreachable _ W) _ _ H). Qed.
Lemma new_valid w : exists w1, step w (ONewMock [sig_watch]) = Next w1 RUnit.
Proof. eexists. reflexivity. Qed.

(** The watchers which an operation names. *)
Definition uses (o : wop) : list part :=
  match o with
  | WOp _ | LNew | RNew => []
  | LCopy i | LMove i | LDestroy i _ _ | LExpect i _ _ | LExpectDropped i => [PLife i]
  | LCopyAssign i j _ | LMoveAssign i j => [PLife i; PLife j]
  | RCopy i | RMove i _ _ | RDestroy i | RExpect i _ _ => [PReloc i]
  | RCopyAssign i j | RMoveAssign i j _ _ => [PReloc i; PReloc j]
  end.
Definition special (o : wop) : bool := match o with WOp _ | LExpect _ _ _ | LExpectDropped _ | RExpect _ _ _ => false | _ => true end.
Lemma special_valid s o : wreachable s -> special o = true -> Forall (present s) (uses o) -> wstep s o <> WInvalid.
Proof.
  intros W Hs Hp. destruct o as [o| |i|i|i j l|i j|i ne l|i cls l|i| |i|i ne l|i j|i j ne l|i|i cls l]; try discriminate Hs; cbn [uses] in Hp;
    repeat match goal with H : Forall _ (_ :: _) |- _ => inversion H; subst; clear H end;
    repeat match goal with H : present _ _ |- _ => destruct H as [? H] end; cbn [wstep];
    repeat match goal with H : nth_error ?l ?i = Some _ |- context [nth_error ?l ?i] => rewrite H end.
  - unfold new_life, perform. destruct (new_valid (ww s)) as [w1 ->]. discriminate.
  - unfold new_life, perform. destruct (new_valid (ww s)) as [w1 ->]. discriminate.
  - discriminate.
  - destruct x0 as [fl [m|]]; cbn [lw_mock lw_flag].
    + pose proof (life_alive _ _ _ _ W H1) as A. apply call_then_valid; cbn [ww set_life cont_mock]; [exact A|intros d E; inversion E; subst; exact A|].
      apply call_valid; auto.
    + unfold refresh. rewrite H1. cbn [lw_mock]. unfold perform. destruct (new_valid (ww s)) as [w1 ->]. discriminate.
  - destruct (i =? j); [discriminate|]. destruct x0 as [fl [m|]]; cbn [lw_mock drop_mock]; [|discriminate]. unfold perform. cbn [ww set_life].
    destruct (step (ww s) (ODestroyMock m)) eqn:E; try discriminate. exfalso. apply (destroy_valid (ww s) m); auto. eapply life_alive; eauto.
  - destruct x as [fl [m|]]; cbn [lw_mock]; [|discriminate]. pose proof (life_alive _ _ _ _ W H1) as A. apply call_then_valid; cbn [ww set_life cont_mock]; [exact A|intros d E; inversion E; subst; exact A|].
    apply call_valid; auto.
  - unfold new_reloc, perform. destruct (new_valid (ww s)) as [w1 ->]. discriminate.
  - unfold new_reloc, perform. destruct (new_valid (ww s)) as [w1 ->]. discriminate.
  - unfold perform. destruct (step (ww s) (ONewMock [sig_watch])) as [w1 r1| | |] eqn:E; try discriminate.
    pose proof (reloc_alive _ _ _ W H1) as A. apply call_then_valid; cbn [ww own_reloc cont_mock].
    + eapply alive_step; eauto. discriminate.
    + intros d Ed. inversion Ed; subst. destruct (new_mock_step _ _ _ E) as (_ & Hm & _). eexists. rewrite Hm. apply nth_error_app_last.
    + assert (A1 : alive_mock w1 x) by (eapply alive_step; eauto; discriminate). destruct A1 as [cs A1]. cbn [step]. unfold do_call, find_overload. rewrite A1. cbn [mk_alive negb mk_sigs nth_error mk_colls]. destruct cs as [cs|]; [|discriminate].
      assert (Rw : reachable w1). { destruct (v_reachable _ (inv_wreachable _ W)) as [ops Ho]. exists (ops ++ [ONewMock [sig_watch]]). eapply run_app; [exact Ho|]. econstructor; [exact E|constructor]. }
      pose proof (oi_len _ (oinv_reachable _ Rw) _ _ _ A1 eq_refl) as L. cbn in L. destruct cs as [|c [|? ?]]; try discriminate L. cbn [nth_error length sg_params sig_watch Nat.eqb negb]. apply handle_valid.
  - destruct (C52_copy_assign s i j x0 x W) as (s' & c & E & _); auto. cbn [wstep] in E. rewrite H1, H3 in E. rewrite E. discriminate.
  - pose proof (reloc_alive _ _ _ W H3) as A. apply call_then_valid; [exact A|intros d E; discriminate|]. apply call_valid; auto.
  - unfold perform. cbn [ww set_reloc]. destruct (step (ww s) (ODestroyMock x)) eqn:E; try discriminate. exfalso. apply (destroy_valid (ww s) x); auto. eapply reloc_alive; eauto.
Qed.

Lemma present_change s s' c p : changes s s' c -> present s p -> c <> CDel p -> present s' p.
Proof.
  intros Hc Hp Hn. destruct c as [|q|q]; cbn [changes] in Hc; [apply Hc; auto|apply Hc; auto|]. apply Hc. split; auto. congruence.
Qed.
Lemma changes_of s o s' r : wstep s o = WNext s' r -> is_wop o = false -> changes s s' (change_by o s') /\
  ((ww_conts s' = ww_conts s /\ (is_rmove o = true -> is_throw r = true)) \/ exists n c, ww_conts s' = (n, c) :: ww_conts s /\ is_kmoved c = is_rmove o).
Proof. intros H1 H2. exact (wstep_changes _ _ _ _ H2 H1). Qed.
Lemma keep_parts s o s' r l : wstep s o = WNext s' r -> is_wop o = false -> Forall (present s) l -> (forall p, In p l -> change_by o s' <> CDel p) -> Forall (present s') l.
Proof.
  intros E Hw Hl Hn. destruct (wstep_changes _ _ _ _ Hw E) as [Hc _]. rewrite Forall_forall in *. intros p Hp. eapply present_change; eauto.
Qed.

Lemma destroy_possible todo ne l : forall d p, wreachable (dw d) -> NoDup todo -> Forall (present (dw d)) todo -> go d (destroy_plan todo ne l p) <> DInvalid.
Proof.
  induction todo as [|q t IH]; intros d p W Hd Hp.
  - cbn. destruct p as [[x n]|]; cbn [go]; [|discriminate]. rewrite (unwind_step _ _ W). cbn [ww_conts after_op]. rewrite Nat.ltb_irrefl. discriminate.
  - inversion Hd as [|? ? N Hd']; subst. inversion Hp as [|? ? P1 P2]; subst.
    assert (K : forall o s' r, wstep (dw d) o = WNext s' r -> is_wop o = false -> change_by o s' = CDel q -> wreachable s' /\ Forall (present s') t).
    { intros o s' r E Ho Hc. split; [eapply wreachable_step; eauto|]. eapply keep_parts; eauto. intros p0 Hin F. rewrite Hc in F. inversion F; subst. contradiction. }
    destruct q as [i|i]; cbn [destroy_plan].
    + destruct p as [[x n]|]; cbn [go].
      * pose proof (special_valid (dw d) (LDestroy i true l) W eq_refl (Forall_cons _ P1 (Forall_nil _))) as V. destruct (wstep (dw d) (LDestroy i true l)) as [s r| | |] eqn:E; try discriminate; [|congruence].
        destruct (K _ _ _ E eq_refl eq_refl) as [W' P']. destruct (_ <? _); [discriminate|]. apply IH; auto.
      * pose proof (special_valid (dw d) (LDestroy i ne l) W eq_refl (Forall_cons _ P1 (Forall_nil _))) as V. destruct (wstep (dw d) (LDestroy i ne l)) as [s r| | |] eqn:E; try discriminate; [|congruence].
        destruct (K _ _ _ E eq_refl eq_refl) as [W' P']. destruct (_ <? _); [discriminate|]. destruct r; try (apply IH; auto).
        cbn [go dw set_dw]. pose proof (unwind_step s (S (w_uncaught (ww s))) W') as Eu. rewrite Eu. cbn [ww_conts after_op]. rewrite Nat.ltb_irrefl. apply IH; [eapply wreachable_step; eauto|auto|exact P'].
    + cbn [go]. pose proof (special_valid (dw d) (RDestroy i) W eq_refl (Forall_cons _ P1 (Forall_nil _))) as V. destruct (wstep (dw d) (RDestroy i)) as [s r| | |] eqn:E; try discriminate; [|congruence].
      destruct (K _ _ _ E eq_refl eq_refl) as [W' P']. destruct (_ <? _); [discriminate|]. apply IH; auto.
Qed.
Lemma copy_possible b todo : forall d built, wreachable (dw d) -> Forall (present (dw d)) todo -> go d (copy_plan b todo built) <> DInvalid.
Proof.
  induction todo as [|[i|i] t IH]; intros d built W Hp; cbn [copy_plan go]; [discriminate| |]; inversion Hp as [|? ? P1 P2]; subst.
  - pose proof (special_valid (dw d) (LCopy i) W eq_refl (Forall_cons _ P1 (Forall_nil _))) as V. destruct (wstep (dw d) (LCopy i)) as [s r| | |] eqn:E; try discriminate; [|congruence].
    destruct (_ <? _); [discriminate|]. apply IH; [eapply wreachable_step; eauto|]. eapply (keep_parts _ _ _ _ _ E eq_refl); auto. discriminate.
  - pose proof (special_valid (dw d) (RCopy i) W eq_refl (Forall_cons _ P1 (Forall_nil _))) as V. destruct (wstep (dw d) (RCopy i)) as [s r| | |] eqn:E; try discriminate; [|congruence].
    destruct (_ <? _); [discriminate|]. apply IH; [eapply wreachable_step; eauto|]. eapply (keep_parts _ _ _ _ _ E eq_refl); auto. discriminate.
Qed.
Lemma move_possible b l todo : forall d built, wreachable (dw d) -> NoDup built -> Forall (present (dw d)) built -> Forall (present (dw d)) todo -> go d (move_plan b todo built l) <> DInvalid.
Proof.
  induction todo as [|[i|i] t IH]; intros d built W Hd Hb Hp; cbn [move_plan go]; [discriminate| |]; inversion Hp as [|? ? P1 P2]; subst.
  - pose proof (special_valid (dw d) (LMove i) W eq_refl (Forall_cons _ P1 (Forall_nil _))) as V. destruct (wstep (dw d) (LMove i)) as [s r| | |] eqn:E; try discriminate; [|congruence].
    destruct (_ <? _); [discriminate|]. destruct (changes_of _ _ _ _ E eq_refl) as [[Nw Hc] _]. cbn [change_by] in *.
    assert (Kp : forall q, Forall (present (dw d)) q -> Forall (present s) q) by (intros q Hq; eapply (keep_parts _ _ _ _ _ E eq_refl); auto; discriminate).
    apply IH; [eapply wreachable_step; eauto| | |apply Kp; auto].
    + eapply Permutation_NoDup; [apply snoc_perm|]. constructor; auto. intros F. apply Nw. rewrite Forall_forall in Hb. auto.
    + apply Forall_app. split; [apply Kp; auto|]. constructor; [|constructor]. apply Hc. right. reflexivity.
  - pose proof (special_valid (dw d) (RMove i (nothrow_move b) l) W eq_refl (Forall_cons _ P1 (Forall_nil _))) as V. destruct (wstep (dw d) (RMove i (nothrow_move b) l)) as [s r| | |] eqn:E; try discriminate; [|congruence].
    destruct (_ <? _) eqn:L; [discriminate|]. destruct (changes_of _ _ _ _ E eq_refl) as [_ [[_ Ht]|(n & c & Ec & _)]].
    2: { rewrite Ec in L. apply Nat.ltb_ge in L. cbn in L. lia. }
    specialize (Ht eq_refl). destruct r; try discriminate. cbn [go dw set_dw]. pose proof (wreachable_step _ _ _ _ W E) as W'.
    pose proof (unwind_step s (S (w_uncaught (ww s))) W') as Eu. rewrite Eu. cbn [ww_conts after_op]. rewrite Nat.ltb_irrefl. apply destroy_possible; [eapply wreachable_step; eauto|apply NoDup_rev; auto|].
    apply Forall_rev. pose proof (keep_parts _ _ _ _ _ E eq_refl Hb (fun _ _ => ltac:(discriminate))) as Kp. exact Kp.
Qed.
Lemma copy_assign_possible l todo : forall d, wreachable (dw d) -> Forall (fun x => present (dw d) (fst x) /\ present (dw d) (snd x)) todo -> go d (copy_assign_plan todo l) <> DInvalid.
Proof.
  assert (K : forall d o s r (t : list (part * part)), wstep (dw d) o = WNext s r -> is_wop o = false -> change_by o s = CSame -> Forall (fun x => present (dw d) (fst x) /\ present (dw d) (snd x)) t ->
    Forall (fun x => present s (fst x) /\ present s (snd x)) t).
  { intros d o s r t E Ho Hc Hf. destruct (wstep_changes _ _ _ _ Ho E) as [Hch _]. rewrite Hc in Hch. rewrite Forall_forall in *. intros x Hx. destruct (Hf x Hx). split; apply Hch; auto. }
  induction todo as [|[[i|i] [j|j]] t IH]; intros d W Hp; cbn [copy_assign_plan go]; try discriminate; inversion Hp as [|? ? [P1 P2] P3]; subst; cbn [fst snd] in *.
  - pose proof (special_valid (dw d) (LCopyAssign i j l) W eq_refl (Forall_cons _ P1 (Forall_cons _ P2 (Forall_nil _)))) as V. destruct (wstep (dw d) (LCopyAssign i j l)) as [s r| | |] eqn:E; try discriminate; [|congruence].
    destruct (_ <? _); [discriminate|]. pose proof (wreachable_step _ _ _ _ W E) as W'. pose proof (K _ _ _ _ _ E eq_refl eq_refl P3) as P'. destruct r; try (apply IH; auto). discriminate.
  - pose proof (special_valid (dw d) (RCopyAssign i j) W eq_refl (Forall_cons _ P1 (Forall_cons _ P2 (Forall_nil _)))) as V. destruct (wstep (dw d) (RCopyAssign i j)) as [s r| | |] eqn:E; try discriminate; [|congruence].
    destruct (_ <? _); [discriminate|]. pose proof (wreachable_step _ _ _ _ W E) as W'. pose proof (K _ _ _ _ _ E eq_refl eq_refl P3) as P'. apply IH; auto.
Qed.
Lemma move_assign_possible b l todo : forall d, wreachable (dw d) -> Forall (fun x => present (dw d) (fst x) /\ present (dw d) (snd x)) todo -> go d (move_assign_plan b todo l) <> DInvalid.
Proof.
  assert (K : forall d o s r (t : list (part * part)), wstep (dw d) o = WNext s r -> is_wop o = false -> change_by o s = CSame -> Forall (fun x => present (dw d) (fst x) /\ present (dw d) (snd x)) t ->
    Forall (fun x => present s (fst x) /\ present s (snd x)) t).
  { intros d o s r t E Ho Hc Hf. destruct (wstep_changes _ _ _ _ Ho E) as [Hch _]. rewrite Hc in Hch. rewrite Forall_forall in *. intros x Hx. destruct (Hf x Hx). split; apply Hch; auto. }
  induction todo as [|[[i|i] [j|j]] t IH]; intros d W Hp; cbn [move_assign_plan go]; try discriminate; inversion Hp as [|? ? [P1 P2] P3]; subst; cbn [fst snd] in *.
  - pose proof (special_valid (dw d) (LMoveAssign i j) W eq_refl (Forall_cons _ P1 (Forall_cons _ P2 (Forall_nil _)))) as V. destruct (wstep (dw d) (LMoveAssign i j)) as [s r| | |] eqn:E; try discriminate; [|congruence].
    destruct (_ <? _); [discriminate|]. pose proof (wreachable_step _ _ _ _ W E) as W'. pose proof (K _ _ _ _ _ E eq_refl eq_refl P3) as P'. apply IH; auto.
  - pose proof (special_valid (dw d) (RMoveAssign i j (nothrow_assign b) l) W eq_refl (Forall_cons _ P1 (Forall_cons _ P2 (Forall_nil _)))) as V. destruct (wstep (dw d) (RMoveAssign i j (nothrow_assign b) l)) as [s r| | |] eqn:E; try discriminate; [|congruence].
    destruct (_ <? _); [discriminate|]. pose proof (wreachable_step _ _ _ _ W E) as W'. pose proof (K _ _ _ _ _ E eq_refl eq_refl P3) as P'. destruct r; try (apply IH; auto). discriminate.
Qed.

(** A special member function that exists can be executed on every existing object, whatever has happened to it and whatever is running:
    it returns, throws, waits, ends the program or is undefined (a moved-from relocation watcher), but it never lacks one of its watchers. *)
Theorem C77_always_possible d k b ps l :
  dreachable d -> dobj d k = Some (b, ps) ->
  dstep d (DDestroy k l) <> DInvalid /\
  (m_ctor_copy b <> None -> dstep d (DCopy k) <> DInvalid) /\
  (m_ctor_move b <> None -> dstep d (DMove k l) <> DInvalid) /\
  forall q b' qs, dobj d q = Some (b', qs) -> same_kinds ps qs = true ->
    (m_assign_copy b <> None -> dstep d (DCopyAssign k q l) <> DInvalid) /\ (m_assign_move b <> None -> dstep d (DMoveAssign k q l) <> DInvalid).
Proof.
  intros Hr Hk. pose proof (C77_is_a_watcher_program _ Hr) as W. pose proof (parts_present _ _ _ _ Hr Hk) as Pp.
  assert (Ex : forall o : option bool, o <> None -> exists_ o = true) by (intros [?|] H; [reflexivity|congruence]).
  assert (Nd : NoDup ps).
  { destruct (C77_shapes _ _ _ _ Hr Hk) as [->|[[i ->]|[[j ->]|[(i & j & ->)|(i & j & ->)]]]]; repeat constructor; cbn; intuition discriminate. }
  split; [|split; [|split]].
  - cbn [dstep]. rewrite Hk. apply destroy_possible; [exact W|apply NoDup_rev; auto|apply Forall_rev; exact Pp].
  - intros H. cbn [dstep]. rewrite Hk, (Ex _ H). apply copy_possible; auto.
  - intros H. cbn [dstep]. rewrite Hk, (Ex _ H). apply move_possible; auto. constructor.
  - intros q b' qs Hq Hs. pose proof (parts_present _ _ _ _ Hr Hq) as Pq.
    assert (F : Forall (fun x => present (dw d) (fst x) /\ present (dw d) (snd x)) (combine ps qs)).
    { apply Forall_forall. intros [x y] Hin. cbn. rewrite Forall_forall in Pp, Pq. split; [apply Pp; eapply in_combine_l; eauto|apply Pq; eapply in_combine_r; eauto]. }
    split; intros H; cbn [dstep]; rewrite Hk, Hq, Hs, (Ex _ H); cbn [andb]; [apply copy_assign_possible|apply move_assign_possible]; auto.
Qed.

(** ** Programs *)

(** Two objects, one of them is being moved: its relocation watcher waits. The new lifetime watcher 2 already exists, but belongs to no object yet. *)
Definition prog_half : list dop :=
  [DNew loose_base [KLife; KReloc]; DNew loose_base [KLife]; DUse (RExpect 0 [] here); DMove 0 there].
Example prog_half_runs :
  let d := dafter prog_half in
  dreachable d /\ dw_objs d = [Some (loose_base, [PLife 0; PReloc 0]); Some (loose_base, [PLife 1])] /\ present (dw d) (PLife 2) /\ map fst (dw_tasks d) = [0] /\
  length (ww_conts (dw d)) = 1 /\ dw_objs (dafter (prog_half ++ [fin; ret])) = [Some (loose_base, [PLife 0; PReloc 0]); Some (loose_base, [PLife 1]); Some (loose_base, [PLife 2; PReloc 1])].
Proof.
  cbv zeta. split; [apply dafter_reachable; vm_compute; reflexivity|]. split; [vm_compute; reflexivity|]. split; [vm_compute; eexists; reflexivity|]. split; [vm_compute; reflexivity|]. split; vm_compute; reflexivity.
Qed.
(** While it waits, everything is possible, also the destruction of the object that is being moved; but then the move can not be completed. *)
Example prog_half_destroyed :
  let p := prog_half ++ [DUse (LExpect 1 [] here); DDestroy 1 here; fin; ret] in
  dresults p = repeat RUnit 8 /\ dw_tasks (dafter p) <> [] /\ dobj (dafter p) 1 = None /\
  dresults (prog_half ++ [DDestroy 0 here; fin]) = repeat RUnit 6 /\ dstep (dafter (prog_half ++ [DDestroy 0 here; fin])) ret = DWrong UbDangling.
Proof. cbv zeta. split; [vm_compute; reflexivity|]. split; [vm_compute; discriminate|]. split; [vm_compute; reflexivity|]. split; vm_compute; reflexivity. Qed.
(** The relocation is refused after the lifetime watcher was moved: no watcher is left behind. *)
Example prog_failed_leaves_nothing :
  let d := dafter prog_failed_move in dw_tasks d = [] /\ dw_objs d = [Some (loose_base, [PLife 0; PReloc 0])] /\ length (ww_life (dw d)) = 2 /\ gone (dw d) (PLife 1).
Proof. cbv zeta. split; [vm_compute; reflexivity|]. split; [vm_compute; reflexivity|]. split; vm_compute; reflexivity. Qed.

(** Copy assignment to a moved-from object and, while its destruction is expected, to an ordinary one. *)
Definition prog_reassign : list dop :=
  [DNew loose_base [KLife; KReloc]; DUse (RExpect 0 [] here); DMove 0 there; fin; ret; DUse (RExpect 1 [] here); DUse (LExpect 1 [] here)].
Example prog_reassign_runs :
  let d := dafter prog_reassign in
  dreachable d /\ dobj d 0 = Some (loose_base, [PLife 0; PReloc 0]) /\ dobj d 1 = Some (loose_base, [PLife 1; PReloc 1]) /\ moved_from (dw d) 0 /\ m_assign_copy loose_base <> None /\
  carries (dw d) 1 0 true /\ watches (dw d) 1 1 /\
  (let d1 := dafter (prog_reassign ++ [DCopyAssign 0 1 here]) in carries (dw d1) 0 3 false /\ watches (dw d1) 0 4 /\ carries (dw d1) 1 0 true /\ watches (dw d1) 1 1) /\
  (let d1 := dafter (prog_reassign ++ [DCopyAssign 1 0 here]) in let d2 := dafter (prog_reassign ++ [DCopyAssign 1 0 here; fin]) in
   dstep d (DCopyAssign 1 0 here) = DNext d1 RUnit /\ dw_tasks d1 <> dw_tasks d /\ dreachable d2 /\ ww_conts (dw d2) = ww_conts (dw d1) /\ depth (dw d2) = depth (dw d1) /\
   dobj d2 1 = Some (loose_base, [PLife 1; PReloc 1]) /\ dobj d2 0 = Some (loose_base, [PLife 0; PReloc 0]) /\ (exists w1, step (ww (dw d2)) (OReturn (UOk (VInt 0))) = Next w1 (RVal None)) /\
   (let d3 := dafter (prog_reassign ++ [DCopyAssign 1 0 here; fin; ret]) in carries (dw d3) 1 3 false /\ watches (dw d3) 1 4)).
Proof.
  cbv zeta. split; [apply dafter_reachable; vm_compute; reflexivity|]. do 2 (split; [vm_compute; reflexivity|]). split; [eexists; vm_compute; reflexivity|]. split; [discriminate|].
  split; [vm_compute; reflexivity|]. split; [exists 2; vm_compute; auto|].
  split; [split; [vm_compute; reflexivity|split; [exists 1; vm_compute; auto|split; [vm_compute; reflexivity|exists 2; vm_compute; auto]]]|].
  split; [vm_compute; reflexivity|]. split; [vm_compute; discriminate|]. split; [apply dafter_reachable; vm_compute; reflexivity|]. do 4 (split; [vm_compute; reflexivity|]).
  split; [eexists; vm_compute; reflexivity|]. split; [vm_compute; reflexivity|exists 2; vm_compute; auto].
Qed.

(** The parts of the definitions which the shapes of C77_shapes never reach, and the watchers as classes. *)
Example unreachable_destroy :
  let d := dafter [DNew loose_base [KLife]; DNew loose_base [KLife]] in
  go d (destroy_plan [PLife 0; PLife 1] false here None) = DStop /\ go d (destroy_plan [PLife 0] false here None) <> DStop /\ go d (destroy_plan [PLife 0] true here None) = DStop /\
  go d (destroy_plan [PLife 0] false here (Some (EReporter, 0))) = DStop.
Proof. cbv zeta. split; [vm_compute; reflexivity|]. split; [vm_compute; discriminate|]. split; vm_compute; reflexivity. Qed.
Example watcher_classes :
  specified true [None] = None /\ specified true [Some false; None] = None /\ specified true [Some false] = Some true /\ specified false [Some true] = Some false /\
  m_dtor lifetime_watcher = false /\ m_dtor (derived [lifetime_watcher; relocation_watcher]) = false /\ m_dtor (derived [relocation_watcher; relocation_watcher]) = true /\
  override_ok plain_base (derived [lifetime_watcher; plain_base]) = false /\ override_ok plain_base (watched plain_base [lifetime_watcher]) = true.
Proof. vm_compute. repeat split. Qed.

Print Assumptions C77_parts.
Print Assumptions C77_waits_with_its_watcher.
Print Assumptions C77_any_copy.
Print Assumptions C77_any_unexpected_destruction.
Print Assumptions C77_copy_assignment.
Print Assumptions C77_copy_assignment_completes.
Print Assumptions C77_any_failed_move_assignment.
Print Assumptions C77_always_possible.
