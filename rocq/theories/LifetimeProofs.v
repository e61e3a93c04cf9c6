(** * LifetimeProofs: what happens before the ends of expectations and sequences. *)

From Verif Require Import Base Lib Sequence Control Signature Printer Reports Expectation Builder World WorldSpec CallSpec
  SeqInv BuildSpec BuilderLemmas StepCases MatchLemmas WorldInv ObjInv CallProofs BuildProofs CountProofs FrameSpec Conc ConcSpec ConcProofs ConcOrder
  Race RaceSpec RaceProofs RaceFree Lifetime LifetimeSpec.

(** ** Invariant of the lifetimes *)

Record LI (w : world) : Prop := mkLI {
  li_coll : forall c l, nth_error (w_colls w) c = Some l -> l = members (w_exps w) c;
  li_collr : forall e x, exp_at w e x -> eo_coll x < length (w_colls w);
  li_len : length (w_iface w) = length (w_sdead w);
  li_dead : forall s, nth s (w_sdead w) true = negb (seq_in_use w s)
}.

Lemma li_colls_change w o r w' : change w o r w' -> is_call o = false ->
  (forall c l, nth_error (w_colls w) c = Some l -> l = members (w_exps w) c) -> (forall e x, exp_at w e x -> eo_coll x < length (w_colls w)) ->
  (forall c l, nth_error (w_colls w') c = Some l -> l = members (w_exps w') c) /\ (forall e x, exp_at w' e x -> eo_coll x < length (w_colls w')).
Proof.
  intros H Ho I1 I2. unfold exp_at in *. destruct H.
  - rewrite H2. destruct H3 as [E|(k & E)]; rewrite E; [auto|]. split.
    + intros c l Hl. destruct (Nat.lt_ge_cases c (length (w_colls w))) as [Hlt|Hge].
      * rewrite nth_error_app1 in Hl by auto. auto.
      * rewrite nth_error_app2 in Hl by auto. apply nth_error_In, repeat_spec in Hl. subst l. symmetry.
        destruct (members (w_exps w) c) as [|e l] eqn:Em; auto. assert (Hin : In e (members (w_exps w) c)) by (rewrite Em; left; auto).
        apply members_in in Hin. destruct Hin as (x & Hx & _ & Hc). apply I2 in Hx. lia.
    + intros e x Hx. apply I2 in Hx. rewrite app_length. lia.
  - subst w'. auto.
  - subst w'. auto.
  - subst w'. cbn [w_colls w_exps new_world set_scoped set_colls set_exps set_seqs]. split.
    + intros c l' Hl. rewrite members_snoc. cbn [eo_alive eo_coll andb]. apply nth_error_upd in Hl. destruct Hl as [(-> & _ & ->)|(Hne & Hl)].
      * rewrite Nat.eqb_refl. rewrite <- (I1 _ _ H6). reflexivity.
      * destruct (Nat.eqb_spec coll c); [congruence|]. rewrite app_nil_r. auto.
    + intros e x Hx. rewrite length_upd. destruct (Nat.lt_ge_cases e (length (w_exps w))) as [Hlt|Hge].
      * rewrite nth_error_app1 in Hx by auto. eauto.
      * rewrite nth_error_app2 in Hx by auto. destruct (e - length (w_exps w)) as [|k]; [|destruct k; discriminate]. injection Hx as <-. cbn [eo_coll].
        eapply nth_error_lt; eauto.
  - subst o. discriminate.
  - destruct H as [sc ->]. subst w'. cbn [w_colls w_exps add_trace set_sdead kill set_colls set_exps set_scoped]. split.
    + intros c l' Hl. rewrite (members_kill _ _ _ _ H0). apply nth_error_upd in Hl. destruct Hl as [(Hq & _ & ->)|(Hne & Hl)].
      * subst c. rewrite Nat.eqb_refl. f_equal. apply I1; auto.
      * destruct (Nat.eqb_spec (eo_coll eo) c); [congruence|]. auto.
    + intros e' x Hx. rewrite length_upd. apply nth_error_upd in Hx. destruct Hx as [(-> & _ & ->)|(Hne & Hx)]; cbn [eo_coll]; eauto.
Qed.

Lemma existsb_eqb k l : existsb (Nat.eqb k) l = true <-> In k l.
Proof.
  rewrite existsb_exists. split.
  - intros (y & Hy & E). apply Nat.eqb_eq in E. subst. auto.
  - intros Hk. exists k. split; auto. apply Nat.eqb_refl.
Qed.

(** A sequence which [e] does not use is in use as before when [e] ends. *)
Lemma in_use_kill w e x k : exp_at w e x -> ~ In k (x_seqs x) ->
  seq_in_use (set_exps w (upd (w_exps w) e (mkEObj (eo_exp x) (eo_coll x) false (eo_ov x) (eo_sig x)))) k = seq_in_use w k.
Proof.
  intros Hx Hk. apply negb_iff. rewrite !in_use_spec. cbn [w_iface set_exps]. unfold exp_at in *. cbn [w_exps set_exps].
  split; intros [H|(j & y & Hj & Hay & Hs)]; auto; right.
  - apply nth_error_upd in Hj. destruct Hj as [(-> & _ & ->)|(Hne & Hj)]; [discriminate|]. eauto.
  - exists j, y. split; auto. rewrite nth_error_upd_neq; auto. intros <-. rewrite Hx in Hj. injection Hj as <-. auto.
Qed.

Lemma li_change w o r w' : change w o r w' -> is_call o = false -> LI w -> LI w'.
Proof.
  intros H Ho I. destruct (li_colls_change _ _ _ _ H Ho (li_coll _ I) (li_collr _ I)) as [I1 I2]. split; [exact I1|exact I2| |]; clear I1 I2.
  - destruct H as [evs Hsq Hif Hsd Hex Hcl Htr Hq|st ->|s evs d' Ho' Hi Hrel ->|m ov ms cls l s coll b ss ctl mem Ho' Hf Hlen Hcls Hb Hfo Hcn Hmem ->
      |m ov args l s coll lst es ml n mr first others eo ss ctl Ho'|e w1 eo l unf evs d' [sc ->] He Hl Hin Hrel -> Hcase].
    + rewrite Hif, Hsd. apply (li_len _ I).
    + cbn [w_iface w_sdead set_sdead set_iface]. rewrite !app_length, (li_len _ I). reflexivity.
    + destruct (released_spec _ _ _ _ _ Hrel) as (R1 & _). cbn [w_iface w_sdead set_sdead_trace add_trace set_sdead set_iface]. rewrite length_upd, R1. apply (li_len _ I).
    + apply (li_len _ I).
    + subst o. discriminate.
    + destruct (released_spec _ _ _ _ _ Hrel) as (R1 & _). cbn [w_iface w_sdead add_trace set_sdead kill set_exps set_colls set_scoped]. rewrite R1. apply (li_len _ I).
  - destruct H as [evs Hsq Hif Hsd Hex Hcl Htr Hq|st ->|s evs d' Ho' Hi Hrel ->|m ov ms cls l s coll b ss ctl mem Ho' Hf Hlen Hcls Hb Hfo Hcn Hmem ->
      |m ov args l s coll lst es ml n mr first others eo ss ctl Ho'|e w1 eo l unf evs d' [sc ->] He Hl Hin Hrel -> Hcase]; intros k.
    + unfold seq_in_use. rewrite Hif, Hsd, Hex. apply (li_dead _ I).
    + cbn [w_sdead set_sdead]. rewrite nth_snoc_bool. unfold seq_in_use. cbn [w_iface w_exps set_sdead set_iface set_seqs]. rewrite nth_snoc_bool, (li_len _ I).
      destruct (k =? length (w_sdead w)); [reflexivity|]. apply (li_dead _ I).
    + destruct (released_spec _ _ _ _ _ Hrel) as (R1 & R2 & _). cbn [w_sdead set_sdead_trace add_trace set_sdead]. rewrite R2. cbn [existsb]. rewrite orb_false_r.
      rewrite (li_dead _ I). change (seq_in_use (set_sdead_trace (set_iface w (upd (w_iface w) s false)) d' evs) k) with (seq_in_use (set_iface w (upd (w_iface w) s false)) k).
      destruct (Nat.eqb_spec k s) as [->|Hne]; cbn [andb].
      * assert (seq_in_use w s = true) as -> by (apply in_use_spec; auto). reflexivity.
      * rewrite orb_false_r. f_equal. unfold seq_in_use. cbn [w_iface w_exps set_iface]. rewrite nth_iface_upd by (apply nth_true_lt; auto).
        destruct (Nat.eqb_spec s k); [congruence|]. reflexivity.
    + cbn [w_sdead new_world]. rewrite (li_dead _ I). f_equal. apply negb_iff. rewrite !in_use_spec. cbn [w_iface new_world]. unfold exp_at. cbn [w_exps new_world].
      destruct (build_ok _ _ _ _ Hb (clauses_times _ _ _ Hcls)) as (_ & Hbs & _). apply control_new_parts in Hcn. destruct Hcn as (_ & _ & _ & Hq).
      split; intros [H|(e & y & He & Ha & Hs)]; auto.
      * right. exists e, y. split; auto. apply nth_error_snoc_old; auto.
      * apply nth_error_snoc in He. destruct He as [[He _]|[-> ->]]; [right; exists e, y; auto|]. left.
        unfold x_seqs in Hs. cbn [eo_exp e_ctl] in Hs. rewrite Hq, Hbs in Hs. eapply clauses_seqs; eauto.
    + subst o. discriminate.
    + destruct (released_spec _ _ _ _ _ Hrel) as (R1 & R2 & _). cbn [w_sdead add_trace set_sdead]. rewrite R2.
      change (seq_in_use (add_trace (set_sdead (kill (set_scoped w sc) e eo l) d') (unf ++ evs)) k)
        with (seq_in_use (set_exps w (upd (w_exps w) e (mkEObj (eo_exp eo) (eo_coll eo) false (eo_ov eo) (eo_sig eo)))) k).
      change (seq_in_use (kill (set_scoped w sc) e eo l) k)
        with (seq_in_use (set_exps w (upd (w_exps w) e (mkEObj (eo_exp eo) (eo_coll eo) false (eo_ov eo) (eo_sig eo)))) k).
      assert (Ha : eo_alive eo = true).
      { rewrite (li_coll _ I _ _ Hl) in Hin. apply members_in in Hin. destruct Hin as (y & Hy & Hay & _). congruence. }
      rewrite (li_dead _ I). destruct (existsb (Nat.eqb k) (map fst (c_seqs (e_ctl (eo_exp eo))))) eqn:E; cbn [andb].
      * assert (seq_in_use w k = true) as ->. { apply in_use_spec. right. exists e, eo. split; auto. split; auto. apply existsb_eqb. exact E. }
        reflexivity.
      * rewrite orb_false_r. f_equal. symmetry. apply in_use_kill; auto. intros Hk. apply existsb_eqb in Hk. unfold x_seqs in Hk. congruence.
Qed.

Lemma li_init : LI init.
Proof.
  split; cbn.
  - intros c l H. destruct c; discriminate.
  - intros e x H. unfold exp_at in H. destruct e; discriminate.
  - reflexivity.
  - intros s. unfold seq_in_use. cbn. destruct s; reflexivity.
Qed.

Lemma li_core w w' : core w = core w' -> LI w -> LI w'.
Proof.
  intros E I. destruct (core_fields _ _ E) as (_ & E2 & E3 & E4 & E5 & _). split; unfold exp_at, seq_in_use; rewrite <- ?E2, <- ?E3, <- ?E4, <- ?E5; apply I.
Qed.

Lemma count_fields release w n ci ne w' r : count_call release w n ci ne = Next w' r ->
  w_colls w' = w_colls w /\ w_iface w' = w_iface w /\ w_sdead w' = w_sdead w /\ w_mocks w' = w_mocks w /\ w_scoped w' = w_scoped w.
Proof.
  unfold count_call, thrown. cbv zeta. intros H. destruct (nth_error (w_exps w) n) as [eo|]; [|discriminate].
  destruct (negb (eo_alive eo)); [discriminate|]. destruct (consume_with release (w_seqs w) (e_ctl (eo_exp eo))) as [[ss ctl]| | |]; try discriminate.
  - destruct (consume_asserts _ _); try discriminate. injection H as <- _. auto.
  - destruct ne; [discriminate|]. injection H as <- _. auto.
Qed.

(** What a counting step does to expectations and lists. *)
Lemma count_lives release c t c' r : cstep release c t ACount = CNext c' r ->
  w_colls (cw c') = w_colls (cw c) /\ w_iface (cw c') = w_iface (cw c) /\ w_sdead (cw c') = w_sdead (cw c) /\
  exists n x x', exp_at (cw c) n x /\ eo_alive x = true /\ w_exps (cw c') = upd (w_exps (cw c)) n x' /\ eo_alive x' = true /\ eo_coll x' = eo_coll x /\ x_seqs x' = x_seqs x.
Proof.
  intros H. apply cstep_count in H. destruct H as (th & n & ci & ne & x & v & ss & ctl & _ & _ & Hx & Ha & Hc & _ & Hv & _ & -> & He).
  apply count_fields in Hv. destruct Hv as (H1 & H2 & H3 & _). cbn [leave cw w_colls w_iface w_sdead w_exps set_uncaught set_frames].
  rewrite H1, H2, H3, He. split; [reflexivity|]. split; [reflexivity|]. split; [reflexivity|].
  exists n, x, (mkEObj (with_ctl (eo_exp x) ctl) (eo_coll x) true (eo_ov x) (eo_sig x)).
  split; auto. split; auto. split; auto. split; auto. split; auto. unfold x_seqs. cbn [eo_exp with_ctl e_ctl]. f_equal. eapply consume_seqs; eauto.
Qed.

Lemma li_count release c t c' r : cstep release c t ACount = CNext c' r -> LI (cw c) -> LI (cw c').
Proof.
  intros H I. destruct (count_lives _ _ _ _ _ H) as (H1 & H2 & H3 & n & x & x' & Hx & Ha & He & Ha' & Hc & Hs). split.
  - rewrite H1, He. intros k l Hl. rewrite (members_upd_same _ _ _ _ _ Hx); [|congruence|auto]. apply (li_coll _ I); auto.
  - rewrite H1. unfold exp_at. rewrite He. intros e y Hy. apply nth_error_upd in Hy. destruct Hy as [(-> & _ & ->)|(Hne & Hy)].
    + rewrite Hc. eapply (li_collr _ I); eauto.
    + eapply (li_collr _ I); eauto.
  - rewrite H2, H3. apply (li_len _ I).
  - intros s. rewrite H3, (li_dead _ I). f_equal. apply negb_iff. rewrite !in_use_spec, H2. unfold exp_at in *. rewrite He.
    split; intros [H0|(e & y & Hy & Hay & Hq)]; auto; right.
    + destruct (Nat.eq_dec e n) as [->|Hne].
      * exists n, x'. rewrite nth_error_upd_eq by (eapply nth_error_lt; eauto). repeat split; auto. rewrite Hx in Hy. injection Hy as <-. rewrite Hs. exact Hq.
      * exists e, y. rewrite nth_error_upd_neq by auto. auto.
    + apply nth_error_upd in Hy. destruct Hy as [(-> & _ & ->)|(Hne & Hy)]; [|eauto]. exists e, x. rewrite <- Hs. auto.
Qed.

Lemma li_step release c t a c' r : cstep release c t a = CNext c' r -> LI (cw c) -> LI (cw c').
Proof.
  intros H I. destruct a as [o|m ov args l|].
  - apply cstep_op in H. destruct H as (th & v & _ & _ & Ho & Hs & ->). apply (li_core v); [reflexivity|].
    apply (li_change _ _ _ _ (step_change _ _ _ _ Hs) Ho). apply (li_core (cw c)); [reflexivity|exact I].
  - apply (li_core (cw c)); [symmetry; eapply match_over_core; eauto|exact I].
  - eapply li_count; eauto.
Qed.

Lemma li_run release c acts c' : cruns release c acts c' -> LI (cw c) -> LI (cw c').
Proof. induction 1; auto. intros I. apply IHcruns. eapply li_step; eauto. Qed.

Lemma li_reach release k acts c : cruns release (cinit k) acts c -> LI (cw c).
Proof. intros H. eapply li_run; [exact H|]. exact li_init. Qed.

(** ** Releasing sequences *)

Lemma seq_end_parts w s y : In y (seq_end w s) -> y = LKill (PlSeq s) \/ exists k, y = LE k /\ In k (deliver KError).
Proof.
  unfold seq_end. intros [H|H]; [left; auto|right]. destruct (nth_error (w_seqs w) s) as [q|]; [|destruct H]. destruct (seq_dtor_error q); [|destruct H].
  apply in_map_iff in H. destruct H as (k & <- & H). eauto.
Qed.

Lemma drop_kill w l : forall p, In (LKill p) (drop_events w l) <-> exists s, p = PlSeq s /\ In s l /\ seq_in_use w s = false.
Proof.
  induction l as [|s l IH]; intros p; cbn [drop_events].
  - split; [intros []|intros (s & _ & [] & _)].
  - split.
    + intros [H|H]; [discriminate|]. apply in_app_or in H. destruct H as [H|H].
      * destruct (seq_in_use w s || existsb (Nat.eqb s) l) eqn:E; [destruct H|]. apply orb_false_iff in E. destruct E as [E _].
        apply seq_end_parts in H. destruct H as [H|(k & H & _)]; [injection H as ->|discriminate]. exists s. cbn. auto.
      * apply IH in H. destruct H as (s' & H1 & H2 & H3). exists s'. split; auto. split; [right|]; auto.
    + intros (s' & -> & Hin & Hu). right. apply in_or_app. destruct (in_dec Nat.eq_dec s' l) as [H|H]; [right; apply IH; eauto|].
      destruct Hin as [->|]; [|contradiction]. left. rewrite Hu. cbn [orb].
      destruct (existsb (Nat.eqb s') l) eqn:E; [apply existsb_eqb in E; contradiction|]. left. reflexivity.
Qed.

Lemma drop_drop w l : forall s, In (LDrop s) (drop_events w l) <-> In s l.
Proof.
  induction l as [|s0 l IH]; intros s; cbn [drop_events]; [tauto|]. cbn [In]. rewrite in_app_iff, IH. split.
  - intros [H|[H|H]]; [left; injection H as ->; reflexivity| |right; exact H]. exfalso.
    destruct (_ || _); [destruct H|]. apply seq_end_parts in H. destruct H as [H|(k & H & _)]; discriminate.
  - intros [->|H]; auto.
Qed.

Lemma drop_plain w l : forall y, In (LE y) (drop_events w l) -> y = MRead PlReporter \/ exists k, y = MUser (UReport k).
Proof.
  induction l as [|s0 l IH]; intros y; cbn [drop_events]; [intros []|]. cbn [In]. rewrite in_app_iff. intros [H|[H|H]]; [discriminate| |eauto].
  destruct (_ || _); [destruct H|]. apply seq_end_parts in H. destruct H as [H|(k & H & D)]; [discriminate|]. injection H as ->. destruct D as [<-|[<-|[]]]; eauto.
Qed.

(** Where a sequence ends: right after its last release. *)
Lemma drop_at w l : forall k s, nth_error (drop_events w l) k = Some (LKill (PlSeq s)) -> exists l1 l2, l = l1 ++ s :: l2 /\ ~ In s l2 /\
  nth_error (drop_events w l) (pred k) = Some (LDrop s) /\ 0 < k /\ skipn (k - 1) (drop_events w l) = LDrop s :: seq_end w s ++ drop_events w l2.
Proof.
  induction l as [|s0 l IH]; intros k s; [destruct k; discriminate|]. cbn [drop_events].
  destruct k as [|k]; [discriminate|]. cbn [nth_error]. set (mid := if seq_in_use w s0 || existsb (Nat.eqb s0) l then [] else seq_end w s0). intros H.
  destruct (Nat.lt_ge_cases k (length mid)) as [Hlt|Hge].
  - rewrite nth_error_app1 in H by auto. unfold mid in H. destruct (seq_in_use w s0 || existsb (Nat.eqb s0) l) eqn:E; [destruct k; discriminate|].
    apply orb_false_iff in E. destruct E as [_ E]. destruct k as [|k]; [cbn in H; injection H as ->|].
    + exists [], l. split; [reflexivity|]. split. { intros Hin. apply existsb_eqb in Hin. congruence. }
      split; [reflexivity|]. split; [lia|reflexivity].
    + exfalso. cbn [nth_error seq_end] in H. apply nth_error_In in H. destruct (nth_error (w_seqs w) s0) as [q|]; [|destruct H]. destruct (seq_dtor_error q); [|destruct H].
      apply in_map_iff in H. destruct H as (z & H & _). discriminate.
  - rewrite nth_error_app2 in H by auto. destruct (IH _ _ H) as (l1 & l2 & -> & Hn & Hp & H0 & Hs). exists (s0 :: l1), l2. split; [reflexivity|]. split; auto.
    cbn [pred]. destruct k as [|k]; [lia|]. split; [|split; [lia|]].
    + cbn [nth_error]. rewrite nth_error_app2 by lia. rewrite <- Hp. f_equal. lia.
    + cbn [Nat.sub]. cbn [skipn]. rewrite skipn_app, (skipn_all2 mid) by lia. cbn [app]. rewrite <- Hs. f_equal. lia.
Qed.

(** A sequence is released right before it ends. *)
Lemma drop_before w l k s : nth_error (drop_events w l) k = Some (LKill (PlSeq s)) -> exists k', k' < k /\ nth_error (drop_events w l) k' = Some (LDrop s).
Proof. intros H. destruct (drop_at _ _ _ _ H) as (_ & _ & _ & _ & Hp & H0 & _). exists (pred k). split; auto. lia. Qed.

Definition same_lives (w w' : world) : Prop :=
  (forall e x, exp_at w e x -> exists x', exp_at w' e x' /\ eo_alive x' = eo_alive x /\ eo_coll x' = eo_coll x /\ x_seqs x' = x_seqs x) /\
  (forall s b, nth_error (w_sdead w) s = Some b -> nth_error (w_sdead w') s = Some b).

(** What an expectation owns. *)
Definition owns (x : eobj) : bool * list nat := (eo_alive x, x_seqs x).
Definition same_owners (w w' : world) : Prop := w_iface w' = w_iface w /\ map owns (w_exps w') = map owns (w_exps w).
Definition creates (a : action) : bool := match a with AOp (ONewSeq _) | AOp (OExpect _ _ _ _ _) => true | _ => false end.

(** The three kinds of steps. *)
Inductive lcase (release : bool) (c : cworld) (t : nat) (a : action) (c' : cworld) : Prop :=
| LcPlain : life_of release c t a = map LE (ev_of release c t a) -> same_lives (cw c) (cw c') -> (creates a = false -> same_owners (cw c) (cw c')) ->
    match a with AOp (OEndScope _) | AOp (OMoveAssignScoped _ _) => forall x, In x (ev_of release c t a) -> False | _ => True end -> lcase release c t a c'
| LcDrop s evs d' : a = AOp (ODropSeq s) -> nth s (w_iface (cw c)) false = true ->
    let w1 := set_iface (cw c) (upd (w_iface (cw c)) s false) in
    released w1 [s] (w_sdead (cw c)) evs d' -> core (cw c') = core (set_sdead w1 d') -> w_trace (cw c') = w_trace (cw c) ++ evs ->
    life_of release c t a = drop_events w1 [s] -> lcase release c t a c'
| LcEnd e x l unf evs d' : (exists h, a = AOp (OEndScope h)) \/ (exists d s, a = AOp (OMoveAssignScoped d s)) ->
    exp_at (cw c) e x -> nth_error (w_colls (cw c)) (eo_coll x) = Some l -> In e l ->
    let w1 := set_exps (cw c) (upd (w_exps (cw c)) e (mkEObj (eo_exp x) (eo_coll x) false (eo_ov x) (eo_sig x))) in
    released w1 (map fst (c_seqs (e_ctl (eo_exp x)))) (w_sdead (cw c)) evs d' ->
    w_exps (cw c') = w_exps w1 -> w_iface (cw c') = w_iface (cw c) -> w_sdead (cw c') = d' -> w_trace (cw c') = w_trace (cw c) ++ unf ++ evs ->
    (forall ev, In ev unf -> exists rid rep who, ev = EvReport rid (RUnfulfilled rep) who) ->
    ev_of release c t a = remove_events (w_seqs (cw c)) (eo_coll x) e (eo_exp x)
      ++ flat_map (fun ev => match ev with EvReport _ (RError _ _) _ => deliver KError | _ => [] end) (unf ++ evs) ->
    life_of release c t a = map LE (remove_events (w_seqs (cw c)) (eo_coll x) e (eo_exp x)) ++ LKill (PlCount e) :: drop_events w1 (map fst (c_seqs (e_ctl (eo_exp x)))) ->
    lcase release c t a c'.

Lemma same_exps w w' : w_exps w' = w_exps w -> (forall s b, nth_error (w_sdead w) s = Some b -> nth_error (w_sdead w') s = Some b) -> same_lives w w'.
Proof. intros He Hs. split; auto. unfold exp_at. rewrite He. intros e x Hx. exists x. auto. Qed.

Lemma core_lives w w' : core w' = core w -> same_lives w w'.
Proof. intros E. destruct (core_fields _ _ E) as (_ & _ & Hs & He & _). apply same_exps; auto. rewrite Hs. auto. Qed.

Definition ends_something (o : op) : bool := match o with ODropSeq _ | OEndScope _ | OMoveAssignScoped _ _ => true | _ => false end.

Lemma op_same_lives w o w' r : step w o = Next w' r -> is_call o = false -> ends_something o = false -> same_lives w w'.
Proof.
  intros H Hc He. destruct (frame_op o) eqn:Ef; [apply core_lives; eapply frame_op_core; eauto|].
  destruct o; try discriminate; cbn [step] in H.
  - injection H as <- _. apply same_exps; [reflexivity|]. cbn [w_sdead set_sdead]. intros s b Hs. apply nth_error_snoc_old; auto.
  - destruct (is_overload_set sigs && _); [|discriminate]. injection H as <- _. apply same_exps; auto.
  - destruct (nth_error (w_mocks w) m) as [mk|]; [|discriminate]. destruct (negb (mk_alive mk)); [discriminate|]. injection H as <- _. apply same_exps; auto.
  - destruct (nth_error (w_mocks w) dst) as [md|]; [|discriminate]. destruct (nth_error (w_mocks w) src) as [ms|]; [|discriminate].
    destruct (negb _); [discriminate|]. destruct (dst =? src); injection H as <- _; apply same_exps; auto.
  - destruct (nth_error (w_mocks w) m) as [mk|]; [|discriminate]. destruct (negb (mk_alive mk)); [discriminate|]. injection H as <- _. apply same_exps; auto.
  - apply do_expect_next in H. destruct H as (s & coll & _ & _ & _ & [(x & _ & -> & _)|(b & ss & ctl & mem & _ & _ & _ & _ & _ & ->)]); [apply same_exps; auto|].
    split; [|auto]. unfold exp_at. cbn [w_exps new_world]. intros e x Hx. exists x. split; auto. apply nth_error_snoc_old; auto.
  - destruct (nth_error (w_scoped w) h) as [[e| |]|]; try discriminate. destruct (nth_error (w_exps w) e) as [eo|]; [|discriminate]. destruct (eo_alive eo); [|discriminate].
    injection H as <- _. apply same_exps; auto.
  - destruct (nth_error (w_scoped w) h) as [[e| |]|]; try discriminate; injection H as <- _; apply same_exps; auto.
  - injection H as <- _. apply same_exps; auto.
  - injection H as <- _. apply same_exps; auto.
Qed.

Lemma core_owners w w' : core w' = core w -> same_owners w w'.
Proof. intros E. destruct (core_fields _ _ E) as (_ & Hi & _ & He & _). split; auto. rewrite He. reflexivity. Qed.

Lemma op_same_owners w o w' r : step w o = Next w' r -> is_call o = false -> ends_something o = false -> creates (AOp o) = false -> same_owners w w'.
Proof.
  intros H Hc He Hn. destruct (frame_op o) eqn:Ef; [apply core_owners; eapply frame_op_core; eauto|].
  destruct o; try discriminate; cbn [step] in H.
  - destruct (is_overload_set sigs && _); [|discriminate]. injection H as <- _. split; reflexivity.
  - destruct (nth_error (w_mocks w) m) as [mk|]; [|discriminate]. destruct (negb (mk_alive mk)); [discriminate|]. injection H as <- _. split; reflexivity.
  - destruct (nth_error (w_mocks w) dst) as [md|]; [|discriminate]. destruct (nth_error (w_mocks w) src) as [ms|]; [|discriminate].
    destruct (negb _); [discriminate|]. destruct (dst =? src); injection H as <- _; split; reflexivity.
  - destruct (nth_error (w_mocks w) m) as [mk|]; [|discriminate]. destruct (negb (mk_alive mk)); [discriminate|]. injection H as <- _. split; reflexivity.
  - destruct (nth_error (w_scoped w) h) as [[e| |]|]; try discriminate. destruct (nth_error (w_exps w) e) as [eo|]; [|discriminate]. destruct (eo_alive eo); [|discriminate].
    injection H as <- _. split; reflexivity.
  - destruct (nth_error (w_scoped w) h) as [[e| |]|]; try discriminate; injection H as <- _; split; reflexivity.
  - injection H as <- _. split; reflexivity.
  - injection H as <- _. split; reflexivity.
Qed.

Lemma skipn_app_all {A} (l l' : list A) : skipn (length l) (l ++ l') = l'.
Proof. rewrite skipn_app, skipn_all, Nat.sub_diag. reflexivity. Qed.

Lemma drop_ext w w' l : (forall s, seq_in_use w s = seq_in_use w' s) -> w_seqs w = w_seqs w' -> drop_events w l = drop_events w' l.
Proof.
  intros Hu Hq. induction l as [|s l IH]; cbn [drop_events]; auto. unfold seq_end. rewrite Hu, Hq, IH. reflexivity.
Qed.

(** The events of the end of expectation [e] by an operation. *)
Lemma end_case release c t a c' r o th v w1 e : a = AOp o -> (exists h, a = AOp (OEndScope h)) \/ (exists d s, a = AOp (OMoveAssignScoped d s)) ->
  nth_error (c_threads c) t = Some th -> t_pending th = None -> is_call o = false -> step (enter (cw c) th) o = Next v r -> c' = leave c t v None (c_log c) ->
  (exists sc, w1 = set_scoped (enter (cw c) th) sc) -> end_expectation w1 e = Next v r ->
  before_endings (enter (cw c) th) o = end_events (enter (cw c) th) e ->
  op_events (enter (cw c) th) o = end_events (enter (cw c) th) e ++ error_events (enter (cw c) th) (step (enter (cw c) th) o) ->
  endings (enter (cw c) th) o = ending (enter (cw c) th) e -> lcase release c t a c'.
Proof.
  intros Ha Hk Hth Hp Hc Hs -> [sc Hw1] He Hb Ho Hen.
  apply end_expectation_next in He. destruct He as (x & l & unf & evs & d' & Hx & Hl & Hin & Hrel & -> & Hcase).
  assert (X : nth_error (w_exps (enter (cw c) th)) e = Some x) by (rewrite Hw1 in Hx; exact Hx).
  eapply (LcEnd release c t a _ e x l unf evs d'); [exact Hk|exact X|rewrite Hw1 in Hl; exact Hl|exact Hin| | | | | | | |].
  - rewrite Hw1 in Hrel. eapply released_ext; [| | |exact Hrel]; reflexivity.
  - rewrite Hw1. reflexivity.
  - rewrite Hw1. reflexivity.
  - reflexivity.
  - rewrite Hw1. reflexivity.
  - intros ev Hev. destruct Hcase as [(_ & -> & _)|[(_ & y & _ & -> & _)|(_ & rep & _ & -> & _)]]; try contradiction. destruct Hev as [<-|[]]. eauto.
  - unfold ev_of. rewrite Hth, Hp, Ha, Hc, Ho. unfold end_events. rewrite X. f_equal. rewrite Hs. unfold error_events.
    rewrite Hw1. cbn [w_trace add_trace set_sdead kill set_exps set_colls set_scoped]. rewrite skipn_app_all. reflexivity.
  - unfold life_of. rewrite Hth, Hp, Ha, Hc, Hb, Hen. unfold end_events, ending. rewrite X. f_equal. f_equal. apply drop_ext; reflexivity.
Qed.

Lemma life_case release c t a c' r : cstep release c t a = CNext c' r -> lcase release c t a c'.
Proof.
  intros H. destruct a as [o|m ov args l|].
  2:{ pose proof (cstep_match _ _ _ _ _ _ _ _ _ H) as (th & s & coll & Hth & Hp & _). apply LcPlain; auto.
      - unfold life_of. rewrite Hth, Hp. reflexivity.
      - apply core_lives. eapply match_over_core; eauto.
      - intros _. apply core_owners. eapply match_over_core; eauto. }
  2:{ pose proof (cstep_count _ _ _ _ _ H) as (th & n & ci & ne & _ & _ & _ & _ & Hth & Hp & _). apply LcPlain; auto.
      - unfold life_of. rewrite Hth, Hp. reflexivity.
      - destruct (count_lives _ _ _ _ _ H) as (_ & _ & Hsd & n' & x & x' & Hx & Ha & He & Ha' & Hcl & Hsq). split; [|rewrite Hsd; auto].
        unfold exp_at in *. rewrite He. intros e y Hy. destruct (Nat.eq_dec e n') as [->|Hne].
        + exists x'. rewrite nth_error_upd_eq by (eapply nth_error_lt; eauto). rewrite Hx in Hy. injection Hy as <-. split; [reflexivity|]. split; [congruence|]. split; congruence.
        + exists y. rewrite nth_error_upd_neq by auto. auto.
      - intros _. destruct (count_lives _ _ _ _ _ H) as (_ & Hi & _ & n' & x & x' & Hx & Ha & He & Ha' & Hcl & Hsq). split; auto. rewrite He, map_upd. apply upd_same.
        rewrite nth_error_map, Hx. cbn. unfold owns. rewrite Ha, Ha', Hsq. reflexivity. }
  apply cstep_op in H. destruct H as (th & v & Hth & Hp & Hc & Hs & ->).
  destruct (ends_something o) eqn:Ee.
  2:{ pose proof (op_same_lives _ _ _ _ Hs Hc Ee) as L. apply LcPlain; [| |intros Hn; exact (op_same_owners _ _ _ _ Hs Hc Ee Hn)|destruct o; try discriminate; exact Logic.I].
      - unfold life_of, ev_of. rewrite Hth, Hp, Hc. unfold endings. rewrite Hs. destruct o; try discriminate; apply app_nil_r.
      - exact L. }
  destruct o; try discriminate; pose proof Hs as Hs0; cbn [step] in Hs.
  - destruct (nth s (w_iface (enter (cw c) th)) false) eqn:Hi; [|discriminate].
    pose proof (step_change _ _ _ _ Hs0) as Hch.
    assert (D : exists evs d', released (set_iface (enter (cw c) th) (upd (w_iface (enter (cw c) th)) s false)) [s] (w_sdead (enter (cw c) th)) evs d' /\
                v = set_sdead_trace (set_iface (enter (cw c) th) (upd (w_iface (enter (cw c) th)) s false)) d' evs).
    { assert (Hr : release_seqs (set_iface (enter (cw c) th) (upd (w_iface (enter (cw c) th)) s false)) [s] = Next v RUnit).
      { cbn [release_seqs]. rewrite Hs. reflexivity. }
      apply release_seqs_next in Hr. destruct Hr as (_ & evs & d' & H1 & H2). exists evs, d'. auto. }
    destruct D as (evs & d' & Hrel & ->).
    eapply (LcDrop release c t _ _ s evs d'); auto.
    + eapply released_ext; [| | |exact Hrel]; reflexivity.
    + unfold life_of. rewrite Hth, Hp. cbn [is_call before_endings]. unfold endings. rewrite Hs0. reflexivity.
  - destruct (nth_error (w_scoped (enter (cw c) th)) h) as [[e| |]|] eqn:Hh; try discriminate.
    + eapply (end_case release c t _ _ r (OEndScope h) th v _ e); eauto; cbn [before_endings op_events].
      * unfold handle_events. rewrite Hh. reflexivity.
      * unfold handle_events. rewrite Hh. reflexivity.
      * unfold endings. rewrite Hs0. unfold handle_ending. rewrite Hh. reflexivity.
    + injection Hs as <- _. apply LcPlain.
      * unfold life_of, ev_of. rewrite Hth, Hp. cbn [is_call before_endings op_events]. unfold endings. rewrite Hs0. unfold handle_ending, handle_events. rewrite Hh.
        unfold error_events. cbn [w_trace set_scoped]. rewrite skipn_all. reflexivity.
      * apply same_exps; auto.
      * intros _. split; reflexivity.
      * unfold ev_of. rewrite Hth, Hp. cbn [is_call op_events]. unfold handle_events. rewrite Hh, Hs0.
        unfold error_events. cbn [w_trace set_scoped]. rewrite skipn_all. auto.
  - assert (H' : (dst = src /\ v = enter (cw c) th) \/ (dst <> src /\
        ((exists e sc, nth_error (w_scoped (enter (cw c) th)) dst = Some (HOwns e) /\ end_expectation (set_scoped (enter (cw c) th) sc) e = Next v r) \/
         ((forall e, nth_error (w_scoped (enter (cw c) th)) dst <> Some (HOwns e)) /\ exists sc, v = set_scoped (enter (cw c) th) sc)))).
    { destruct (nth_error (w_scoped (enter (cw c) th)) dst) as [old|]; [|destruct (nth_error (w_scoped (enter (cw c) th)) src) as [[]|]; discriminate].
      destruct (nth_error (w_scoped (enter (cw c) th)) src) as [x|]; [|destruct old; discriminate].
      assert (H1 : (if dst =? src then Next (enter (cw c) th) RUnit
                  else match old with
                       | HOwns e => match end_expectation (set_scoped (enter (cw c) th) (upd (upd (w_scoped (enter (cw c) th)) src HEmpty) dst x)) e with
                                    | Next w2 (RThrow _) => Stop
                                    | other => other
                                    end
                       | _ => Next (set_scoped (enter (cw c) th) (upd (upd (w_scoped (enter (cw c) th)) src HEmpty) dst x)) RUnit
                       end) = Next v r).
      { destruct old, x; try discriminate; exact Hs. }
      clear Hs. destruct (Nat.eqb_spec dst src) as [->|Hne]; [left; split; auto; congruence|]. right. split; auto. destruct old as [e| |].
      - left. exists e, (upd (upd (w_scoped (enter (cw c) th)) src HEmpty) dst x). split; [reflexivity|].
        destruct (end_expectation (set_scoped (enter (cw c) th) (upd (upd (w_scoped (enter (cw c) th)) src HEmpty) dst x)) e) as [w2 r2| | |]; try discriminate. destruct r2; try discriminate; exact H1.
      - right. split; [congruence|]. eexists. symmetry. injection H1 as H1 _. exact H1.
      - right. split; [congruence|]. eexists. symmetry. injection H1 as H1 _. exact H1. }
    destruct H' as [[E ->]|[Hne [(e & sc & Hd & He)|(Hno & sc & ->)]]].
    + apply LcPlain.
      * unfold life_of, ev_of. rewrite Hth, Hp. cbn [is_call before_endings op_events]. unfold endings. rewrite Hs0. subst src. rewrite Nat.eqb_refl.
        unfold error_events. rewrite skipn_all. reflexivity.
      * apply same_exps; auto.
      * intros _. split; reflexivity.
      * unfold ev_of. rewrite Hth, Hp. cbn [is_call op_events]. rewrite Hs0. subst src. rewrite Nat.eqb_refl. unfold error_events. rewrite skipn_all. auto.
    + assert (Eq : dst =? src = false) by (apply Nat.eqb_neq; auto).
      eapply (end_case release c t _ _ r (OMoveAssignScoped dst src) th v _ e); eauto; cbn [before_endings op_events].
      * rewrite Eq. unfold handle_events. rewrite Hd. reflexivity.
      * rewrite Eq. unfold handle_events. rewrite Hd. reflexivity.
      * unfold endings. rewrite Hs0, Eq. unfold handle_ending. rewrite Hd. reflexivity.
    + assert (Eq : dst =? src = false) by (apply Nat.eqb_neq; auto).
      assert (N : forall (A : Type) (f : nat -> list A), match nth_error (w_scoped (enter (cw c) th)) dst with Some (HOwns e) => f e | _ => [] end = []).
      { intros A f. destruct (nth_error (w_scoped (enter (cw c) th)) dst) as [[e| |]|]; auto. exfalso. eapply Hno; eauto. }
      apply LcPlain.
      * unfold life_of, ev_of. rewrite Hth, Hp. cbn [is_call before_endings op_events]. unfold endings. rewrite Hs0, Eq. unfold handle_ending, handle_events. rewrite !N.
        unfold error_events. cbn [w_trace set_scoped]. rewrite skipn_all. reflexivity.
      * apply same_exps; auto.
      * intros _. split; reflexivity.
      * unfold ev_of. rewrite Hth, Hp. cbn [is_call op_events]. rewrite Hs0, Eq. unfold handle_events. rewrite !N. unfold error_events. cbn [w_trace set_scoped]. rewrite skipn_all. auto.
Qed.

(** ** Lives and ends in one step *)

