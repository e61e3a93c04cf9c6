(** * WatchProofs: the invariant of programs with watchers. *)

From Verif Require Import Base Lib Sequence Control Signature Printer Reports Expectation Builder BuildSpec World WorldSpec CallSpec
  SeqInv BuilderLemmas StepCases MatchLemmas WorldInv ObjInv CallProofs BuildProofs CountProofs History Watcher WatchSpec.

(** ** Counting *)

Definition countb {A} (f : A -> bool) (l : list A) : nat := length (filter f l).
Definition b2n (b : bool) : nat := if b then 1 else 0.

Lemma countb_app {A} (f : A -> bool) l l' : countb f (l ++ l') = countb f l + countb f l'.
Proof. unfold countb. rewrite filter_app, app_length. reflexivity. Qed.
Lemma countb_cons {A} (f : A -> bool) x l : countb f (x :: l) = b2n (f x) + countb f l.
Proof. unfold countb. simpl. destruct (f x); reflexivity. Qed.
Lemma countb_upd {A} (f : A -> bool) l : forall i x y, nth_error l i = Some x -> countb f (upd l i y) + b2n (f x) = countb f l + b2n (f y).
Proof.
  induction l as [|a l IH]; intros [|i] x y H; simpl in H; try discriminate.
  - inversion H; subst. simpl upd. rewrite !countb_cons. lia.
  - simpl upd. rewrite !countb_cons. specialize (IH _ _ y H). lia.
Qed.
Lemma countb_in {A} (f : A -> bool) l x : In x l -> f x = true -> 1 <= countb f l.
Proof. intros H Hf. induction l as [|a l IH]; [contradiction|]. rewrite countb_cons. destruct H as [->|H]; [rewrite Hf; simpl; lia|]. specialize (IH H). lia. Qed.
Lemma countb_zero {A} (f : A -> bool) l : (forall x, In x l -> f x = false) -> countb f l = 0.
Proof. intros H. induction l as [|a l IH]; auto. rewrite countb_cons, (H a (or_introl eq_refl)), IH; auto. intros x Hx. apply H. right; auto. Qed.

Lemma calls_app m a b : calls m (a ++ b) = calls m a + calls m b.
Proof. unfold calls. rewrite filter_app, app_length. reflexivity. Qed.

Lemma perform_next s o k s' r : perform s o k = WNext s' r ->
  exists w1 r1, step (ww s) o = Next w1 r1 /\
    k (mkWW w1 (ww_life s) (ww_reloc s) (ww_lmocks s) (ww_rmocks s) (ww_conts s) (ww_log s ++ [o])) r1 = WNext s' r.
Proof. unfold perform. destruct (step (ww s) o) as [w1 r1| | |]; intros H; try discriminate. eauto. Qed.

(** ** One identity *)

Definition fixed (w : world) (m : nat) : Prop := exists c, place w m c.
Definition alive_mock (w : world) (m : nat) : Prop := exists cs, nth_error (w_mocks w) m = Some (mkMock [sig_watch] cs true).

Definition ident (w : world) (m : nat) (fl : bool) : Prop :=
  exists c, place w m c /\ forall e x, exp_at w e x -> eo_coll x = c ->
    fl = true /\ x_min x = 1%Z /\ x_max x = 1%Z /\ accepted (w_trace w) e = 0 /\
    forall e' x', exp_at w e' x' -> eo_coll x' = c -> e' = e.

Lemma ident_fixed w m fl : ident w m fl -> fixed w m.
Proof. intros (c & H & _). exists c. auto. Qed.
Lemma fixed_alive w m : fixed w m -> alive_mock w m.
Proof. intros (c & H). exists (Some [c]). auto. Qed.
Lemma ident_weaken w m : ident w m false -> ident w m true.
Proof. intros (c & H & G). exists c. split; auto. intros e x Hx Hc. destruct (G e x Hx Hc) as [E _]. discriminate. Qed.

(** Operations leave mocks alone which they do not name. *)
Lemma unnamed_mock w o w' r m mk : step w o = Next w' r -> ~ In m (named o) -> nth_error (w_mocks w) m = Some mk ->
  nth_error (w_mocks w') m = Some mk.
Proof.
  intros Hs Hn Hm. pose proof (nth_error_lt _ _ _ Hm) as Hl. apply step_mocks in Hs.
  destruct Hs as [sigs _ E _|n k _ _ E _|d sr md ms _ _ _ _ _ _ E _|n k _ _ E _|o E _]; rewrite E; cbn [named In] in Hn.
  - apply nth_error_snoc_old; auto.
  - apply nth_error_snoc_old. rewrite nth_error_upd_neq; auto.
  - rewrite !nth_error_upd_neq; auto.
  - rewrite nth_error_upd_neq; auto.
  - auto.
Qed.
Lemma unmoved_mock w o w' r m mk : step w o = Next w' r -> nth_error (w_mocks w) m = Some mk ->
  (match o with OMoveMock n | ODestroyMock n => n <> m | OMoveAssignMock d s => d <> m /\ s <> m | _ => True end) ->
  nth_error (w_mocks w') m = Some mk.
Proof.
  intros Hs Hm Hn. pose proof (nth_error_lt _ _ _ Hm) as Hl. apply step_mocks in Hs.
  destruct Hs as [sigs _ E _|n k _ _ E _|d sr md ms _ _ _ _ _ _ E _|n k _ _ E _|o E _]; rewrite E; auto.
  - apply nth_error_snoc_old; auto.
  - apply nth_error_snoc_old. rewrite nth_error_upd_neq; auto.
  - destruct Hn. rewrite !nth_error_upd_neq; auto.
  - rewrite nth_error_upd_neq; auto.
Qed.

Lemma mocks_grow w o w' r : step w o = Next w' r -> length (w_mocks w) <= length (w_mocks w').
Proof.
  intros Hs. apply step_mocks in Hs.
  destruct Hs as [sigs _ E _|n k _ _ E _|d sr md ms _ _ _ _ _ _ E _|n k _ _ E _|o E _]; rewrite E, ?app_length, ?length_upd; simpl; rewrite ?length_upd; lia.
Qed.

Lemma place_owner w m c m' ov s : reachable w -> place w m c -> find_overload w m' ov = inr (s, c) -> m' = m.
Proof.
  intros Hr Hp Hf. apply find_overload_inr in Hf. destruct Hf as (mk & cs & Hm & _ & _ & Hc & Hn).
  eapply (oi_sep _ (oinv_reachable _ Hr) m' m mk _ cs [c] ov 0 c); eauto.
Qed.

Lemma ident_step w o w' r m fl : reachable w -> ident w m fl -> step w o = Next w' r -> ~ In m (named o) -> ident w' m fl.
Proof.
  intros Hr (c & Hp & H) Hs Hn. pose proof (winv_reachable _ Hr) as I. exists c. split; [exact (unnamed_mock _ _ _ _ _ _ Hs Hn Hp)|].
  assert (Hold : forall e x, exp_at w' e x -> eo_coll x = c -> exists y, exp_at w e y /\ eo_coll y = c /\ same_static y x).
  { intros e x Hx Hc. destruct (Nat.lt_ge_cases e (length (w_exps w))) as [Hl|Hl].
    - destruct (nth_error_ex _ _ Hl) as [y Hy]. destruct (step_exps _ _ _ _ I Hs _ _ Hy) as (x1 & Hx1 & Hst & _).
      unfold exp_at in *. rewrite Hx in Hx1. inversion Hx1; subst x1. exists y. split; auto. split; auto. destruct Hst as (E & _). congruence.
    - exfalso. destruct (step_new_exps _ _ _ _ Hs _ _ Hx Hl) as (m' & ov & ms & cls & l & sg & coll & b & ss & ctl & mem & -> & Hf & _ & _ & _ & _ & _ & _ & _ & -> & _).
      cbn [eo_coll] in Hc. subst coll. apply Hn. left. eapply place_owner; eauto. }
  intros e x Hx Hc. destruct (Hold _ _ Hx Hc) as (y & Hy & Hyc & Hst). destruct (H _ _ Hy Hyc) as (F & E1 & E2 & E3 & E4).
  split; auto. destruct Hst as (_ & _ & _ & _ & _ & _ & S1 & S2 & _). split; [congruence|]. split; [congruence|]. split.
  - destruct (step_accepted _ _ _ _ Hr Hs) as [(evs & -> & Ea)|(m' & ov & args & l & sg & coll & n & z & mr & unh & -> & _ & Hf & Hcand & -> & Ea)].
    + rewrite accepted_app, Ea. lia.
    + rewrite !accepted_app, Ea, accepted_full. destruct (Nat.eqb_spec n e) as [->|]; [|lia]. exfalso. apply Hn. left.
      destruct Hcand as ((Hz & _ & Hzc) & _). unfold exp_at in *. rewrite Hy in Hz. inversion Hz; subst z. rewrite Hyc in Hzc. subst coll.
      eapply place_owner; eauto.
  - intros e' x' Hx' Hc'. destruct (Hold _ _ Hx' Hc') as (y' & Hy' & Hyc' & _). eauto.
Qed.

Lemma new_mock_step w w' r : step w (ONewMock [sig_watch]) = Next w' r ->
  r = RUnit /\ w_mocks w' = w_mocks w ++ [mkMock [sig_watch] (Some [length (w_colls w)]) true] /\ w_exps w' = w_exps w /\
  w_colls w' = w_colls w ++ [[]] /\ w_trace w' = w_trace w /\ w_frames w' = w_frames w.
Proof.
  intros H. change (step w (ONewMock [sig_watch])) with
    (Next (set_mocks (set_colls w (w_colls w ++ [[]])) (w_mocks w ++ [mkMock [sig_watch] (Some [length (w_colls w) + 0]) true])) RUnit) in H.
  rewrite Nat.add_0_r in H. inversion H; subst. repeat split; reflexivity.
Qed.

Lemma ident_new w w' r : reachable w -> step w (ONewMock [sig_watch]) = Next w' r -> ident w' (length (w_mocks w)) false.
Proof.
  intros Hr H. apply new_mock_step in H. destruct H as (_ & Hm & He & _). exists (length (w_colls w)). split.
  - unfold place. rewrite Hm. apply nth_error_app_last.
  - intros e x Hx Hc. exfalso. unfold exp_at in Hx. rewrite He in Hx. pose proof (wi_collr _ (winv_reachable _ Hr) _ _ Hx). lia.
Qed.

Lemma ident_expect w m cls l w' r : reachable w -> ident w m false -> step w (OExpect m 0 [] (ClTimes TxOnce :: cls) l) = Next w' r ->
  ident w' m true.
Proof.
  intros Hr (c & Hp & H) Hs. pose proof (winv_reachable _ Hr) as I.
  destruct (expect_next _ _ _ _ _ _ _ _ Hs) as (sg & coll & Hf & _ & _ & [(_ & _ & x & Hx & Hd & Hc & _ & Hlen & Ht & _)|(_ & _ & ->)]).
  2:{ apply ident_weaken. exists c. auto. }
  exists c. split; [exact (unmoved_mock _ _ _ _ _ _ Hs Hp Logic.I)|].
  assert (Hnew : forall e y, exp_at w' e y -> eo_coll y = c -> e = length (w_exps w)).
  { intros e y Hy Hyc. destruct (Nat.lt_ge_cases e (length (w_exps w))) as [Hl|Hl].
    - exfalso. destruct (nth_error_ex _ _ Hl) as [z Hz]. destruct (step_exps _ _ _ _ I Hs _ _ Hz) as (x1 & Hx1 & (E & _) & _).
      unfold exp_at in *. rewrite Hy in Hx1. inversion Hx1; subst x1. destruct (H e z Hz) as [F _]; [congruence|discriminate].
    - apply nth_error_lt in Hy. lia. }
  intros e y Hy Hyc. pose proof (Hnew _ _ Hy Hyc) as ->. split; auto. unfold exp_at in *. rewrite Hx in Hy. inversion Hy; subst y.
  destruct Hd as (Hmin & Hmax & _). cbn in Hmin, Hmax. split; [auto|]. split; [auto|]. split.
  - rewrite Ht. apply (wi_fresh _ I). lia.
  - intros e' x' Hx' Hc'. eapply Hnew; eauto.
Qed.

(** ** The invariant *)

Definition holds (m : nat) (x : option lwatcher) : bool := match x with Some (mkLW _ (Some n)) => n =? m | _ => false end.
Definition waits (m : nat) (p : nat * cont) : bool := match snd p with KDestroy n _ | KReset _ n => n =? m | _ => false end.
Definition rholds (m : nat) (x : option nat) : bool := match x with Some n => n =? m | _ => false end.
Definition rwaits (m : nat) (p : nat * cont) : bool := match snd p with KMoved _ n _ => n =? m | _ => false end.

Record WatchInv (s : wworld) : Prop := mkWatchInv {
  v_run : run init (ww_log s) (ww s);
  v_lm : forall m, In m (ww_lmocks s) -> m < length (w_mocks (ww s));
  v_rm : forall m, In m (ww_rmocks s) -> m < length (w_mocks (ww s));
  v_disj : forall m, In m (ww_lmocks s) -> In m (ww_rmocks s) -> False;
  v_life : forall i m fl, carries s i m fl -> In m (ww_lmocks s) /\ ident (ww s) m fl;
  v_busy : forall p m, In p (ww_conts s) -> waits m p = true -> In m (ww_lmocks s) /\ fixed (ww s) m;
  v_own : forall m, countb (holds m) (ww_life s) + countb (waits m) (ww_conts s) <= 1;
  v_calls : forall m, In m (ww_lmocks s) -> calls m (ww_log s) + countb (holds m) (ww_life s) <= 1;
  v_reloc : forall i m, nth_error (ww_reloc s) i = Some (Some m) -> In m (ww_rmocks s) /\ alive_mock (ww s) m;
  v_rbusy : forall p m, In p (ww_conts s) -> rwaits m p = true -> In m (ww_rmocks s) /\ alive_mock (ww s) m;
  v_rown : forall m, countb (rholds m) (ww_reloc s) + countb (rwaits m) (ww_conts s) <= 1
}.

Lemma v_reachable s : WatchInv s -> reachable (ww s).
Proof. intros I. exists (ww_log s). apply (v_run _ I). Qed.

Lemma held_carries m l : 1 <= countb (holds m) l -> exists i fl, nth_error l i = Some (Some (mkLW fl (Some m))).
Proof.
  induction l as [|x l IH]; [unfold countb; simpl; lia|]. rewrite countb_cons. intros H. destruct (holds m x) eqn:E.
  - destruct x as [[fl [n|]]|]; simpl in E; try discriminate. apply Nat.eqb_eq in E. subst n. exists 0, fl. auto.
  - destruct IH as (i & fl & Hi); [simpl in H; lia|]. exists (S i), fl. auto.
Qed.
Lemma carries_held s i m fl : carries s i m fl -> 1 <= countb (holds m) (ww_life s).
Proof. intros H. apply nth_error_In in H. eapply countb_in; eauto. simpl. apply Nat.eqb_refl. Qed.
Lemma waits_in m l : 1 <= countb (waits m) l -> exists p, In p l /\ waits m p = true.
Proof.
  induction l as [|x l IH]; [unfold countb; simpl; lia|]. rewrite countb_cons. intros H. destruct (waits m x) eqn:E.
  - exists x. split; auto. left; auto.
  - destruct IH as (p & Hp & Hw); [simpl in H; lia|]. exists p. split; auto. right; auto.
Qed.
Lemma rheld_in m l : 1 <= countb (rholds m) l -> exists i, nth_error l i = Some (Some m).
Proof.
  induction l as [|x l IH]; [unfold countb; simpl; lia|]. rewrite countb_cons. intros H. destruct (rholds m x) eqn:E.
  - destruct x as [n|]; simpl in E; try discriminate. apply Nat.eqb_eq in E. subst n. exists 0. auto.
  - destruct IH as (i & Hi); [simpl in H; lia|]. exists (S i). auto.
Qed.
Lemma reloc_held s i m : nth_error (ww_reloc s) i = Some (Some m) -> 1 <= countb (rholds m) (ww_reloc s).
Proof. intros H. apply nth_error_In in H. eapply countb_in; eauto. simpl. apply Nat.eqb_refl. Qed.
Lemma rwaits_in m l : 1 <= countb (rwaits m) l -> exists p, In p l /\ rwaits m p = true.
Proof.
  induction l as [|x l IH]; [unfold countb; simpl; lia|]. rewrite countb_cons. intros H. destruct (rwaits m x) eqn:E.
  - exists x. split; auto. left; auto.
  - destruct IH as (p & Hp & Hw); [simpl in H; lia|]. exists p. split; auto. right; auto.
Qed.

(** Numbers which no mock has yet. *)
Lemma fresh_owner s m : WatchInv s -> length (w_mocks (ww s)) <= m ->
  countb (holds m) (ww_life s) = 0 /\ countb (waits m) (ww_conts s) = 0 /\
  countb (rholds m) (ww_reloc s) = 0 /\ countb (rwaits m) (ww_conts s) = 0 /\ ~ In m (ww_lmocks s) /\ ~ In m (ww_rmocks s).
Proof.
  intros I Hl.
  assert (A : ~ In m (ww_lmocks s)) by (intros H; apply (v_lm _ I) in H; lia).
  assert (B : ~ In m (ww_rmocks s)) by (intros H; apply (v_rm _ I) in H; lia).
  repeat split; auto; match goal with |- ?t = 0 => destruct t eqn:E; auto; exfalso end.
  - destruct (held_carries m (ww_life s)) as (i & fl & H); [lia|]. apply A, (v_life _ I _ _ _ H).
  - destruct (waits_in m (ww_conts s)) as (p & Hp & H); [lia|]. apply A, (v_busy _ I _ _ Hp H).
  - destruct (rheld_in m (ww_reloc s)) as (i & H); [lia|]. apply B, (v_reloc _ I _ _ H).
  - destruct (rwaits_in m (ww_conts s)) as (p & Hp & H); [lia|]. apply B, (v_rbusy _ I _ _ Hp H).
Qed.

Lemma calls_fresh ops : forall w w' m, run w ops w' -> length (w_mocks w') <= m -> calls m ops = 0.
Proof.
  intros w w' m H. induction H as [|w o w1 r ops w2 Hs Hr IH]; intros Hl; auto.
  change (o :: ops) with ([o] ++ ops). rewrite calls_app, (IH Hl), Nat.add_0_r.
  assert (Hg : length (w_mocks w1) <= length (w_mocks w2)).
  { clear - Hr. induction Hr as [|w o w1 r ops w2 Hs _ IH]; auto. apply mocks_grow in Hs. lia. }
  pose proof (mocks_grow _ _ _ _ Hs) as Hg1. unfold calls. cbn [filter]. destruct (is_call m o) eqn:E; auto. exfalso.
  destruct o; try discriminate. simpl in E. apply Nat.eqb_eq in E. subst m0. cbn [step] in Hs. unfold do_call, find_overload in Hs.
  destruct (nth_error (w_mocks w) m) eqn:Em; [apply nth_error_lt in Em; lia|discriminate].
Qed.

Lemma alive_step w o w' r m : step w o = Next w' r -> alive_mock w m -> o <> ODestroyMock m -> alive_mock w' m.
Proof.
  intros Hs (cs & Hm) Hn. pose proof (nth_error_lt _ _ _ Hm) as Hl. unfold alive_mock. apply step_mocks in Hs.
  destruct Hs as [sigs _ E _|n k Hn1 _ E _|d sr md ms Hd Hsr _ _ _ Hsig E _|n k _ _ E _|o E _]; rewrite E.
  - exists cs. apply nth_error_snoc_old; auto.
  - destruct (Nat.eq_dec n m) as [->|Hne].
    + rewrite Hm in Hn1. inversion Hn1; subst k. exists None. apply nth_error_snoc_old. rewrite nth_error_upd_eq; auto.
    + exists cs. apply nth_error_snoc_old. rewrite nth_error_upd_neq; auto.
  - destruct (Nat.eq_dec d m) as [->|Hne].
    + rewrite Hm in Hd. inversion Hd; subst md. rewrite nth_error_upd_eq by (rewrite length_upd; auto). simpl in Hsig. rewrite <- Hsig. eauto.
    + rewrite nth_error_upd_neq by auto. destruct (Nat.eq_dec sr m) as [->|Hne2].
      * rewrite Hm in Hsr. inversion Hsr; subst ms. rewrite nth_error_upd_eq by auto. simpl. eauto.
      * rewrite nth_error_upd_neq by auto. eauto.
  - exists cs. rewrite nth_error_upd_neq; auto; congruence.
  - eauto.
Qed.

Lemma fixed_step w o w' r m : step w o = Next w' r -> fixed w m -> ~ In m (named o) \/ (exists ov args l, o = OCall m ov args l) -> fixed w' m.
Proof.
  intros Hs (c & Hm) [Hn|(ov & args & l & ->)]; exists c; [eapply unnamed_mock; eauto|]. eapply unmoved_mock; eauto. exact Logic.I.
Qed.

(** After an operation which respects the owners of the mocks. *)
Lemma inv_perform s o w1 r1 : WatchInv s -> step (ww s) o = Next w1 r1 ->
  (forall m, In m (named o) -> countb (holds m) (ww_life s) + countb (waits m) (ww_conts s) = 0) ->
  (forall m, In m (ww_lmocks s) -> calls m [o] + calls m (ww_log s) + countb (holds m) (ww_life s) <= 1) ->
  (forall m, o = ODestroyMock m -> countb (rholds m) (ww_reloc s) + countb (rwaits m) (ww_conts s) = 0) ->
  WatchInv (mkWW w1 (ww_life s) (ww_reloc s) (ww_lmocks s) (ww_rmocks s) (ww_conts s) (ww_log s ++ [o])).
Proof.
  intros I Hs Hn Hc Hd. pose proof (v_reachable _ I) as Hr. pose proof (mocks_grow _ _ _ _ Hs) as Hg.
  constructor; cbn [ww ww_life ww_reloc ww_lmocks ww_rmocks ww_conts ww_log].
  - eapply run_app; [apply (v_run _ I)|]. eapply run_one; eauto.
  - intros m Hm. apply (v_lm _ I) in Hm. lia.
  - intros m Hm. apply (v_rm _ I) in Hm. lia.
  - apply (v_disj _ I).
  - intros i m fl H. destruct (v_life _ I i m fl H) as [A B]. split; auto. eapply ident_step; eauto.
    intros Hin. apply Hn in Hin. pose proof (carries_held s i m fl H). lia.
  - intros p m Hp Hw. destruct (v_busy _ I p m Hp Hw) as [A B]. split; auto. eapply fixed_step; eauto. left.
    intros Hin. apply Hn in Hin. pose proof (countb_in _ _ _ Hp Hw). lia.
  - apply (v_own _ I).
  - intros m Hm. rewrite calls_app. specialize (Hc m Hm). lia.
  - intros i m H. destruct (v_reloc _ I i m H) as [A B]. split; auto. eapply alive_step; eauto. intros ->.
    pose proof (reloc_held s i m H). specialize (Hd m eq_refl). lia.
  - intros p m Hp Hw. destruct (v_rbusy _ I p m Hp Hw) as [A B]. split; auto. eapply alive_step; eauto. intros ->.
    specialize (Hd m eq_refl). pose proof (countb_in _ _ _ Hp Hw). lia.
  - apply (v_rown _ I).
Qed.

Lemma inv_life s l : WatchInv s ->
  (forall i m fl, nth_error l i = Some (Some (mkLW fl (Some m))) -> In m (ww_lmocks s) /\ ident (ww s) m fl) ->
  (forall m, countb (holds m) l + countb (waits m) (ww_conts s) <= 1) ->
  (forall m, In m (ww_lmocks s) -> calls m (ww_log s) + countb (holds m) l <= 1) -> WatchInv (set_life s l).
Proof. intros [] A B C. constructor; cbn [ww ww_life ww_reloc ww_lmocks ww_rmocks ww_conts ww_log set_life]; auto. Qed.

Lemma inv_reloc s l : WatchInv s ->
  (forall i m, nth_error l i = Some (Some m) -> In m (ww_rmocks s) /\ alive_mock (ww s) m) ->
  (forall m, countb (rholds m) l + countb (rwaits m) (ww_conts s) <= 1) -> WatchInv (set_reloc s l).
Proof. intros [] A B. constructor; cbn [ww ww_life ww_reloc ww_lmocks ww_rmocks ww_conts ww_log set_reloc]; auto. Qed.

Lemma inv_conts s l : WatchInv s ->
  (forall p m, In p l -> waits m p = true -> In m (ww_lmocks s) /\ fixed (ww s) m) ->
  (forall p m, In p l -> rwaits m p = true -> In m (ww_rmocks s) /\ alive_mock (ww s) m) ->
  (forall m, countb (holds m) (ww_life s) + countb (waits m) l <= 1) ->
  (forall m, countb (rholds m) (ww_reloc s) + countb (rwaits m) l <= 1) -> WatchInv (set_conts s l).
Proof. intros [] A B C D. constructor; cbn [ww ww_life ww_reloc ww_lmocks ww_rmocks ww_conts ww_log set_conts]; auto. Qed.

Definition after_op (s : wworld) (w1 : world) (o : op) : wworld :=
  mkWW w1 (ww_life s) (ww_reloc s) (ww_lmocks s) (ww_rmocks s) (ww_conts s) (ww_log s ++ [o]).

Lemma named_new_respects s : WatchInv s -> forall w1 r1, step (ww s) (ONewMock [sig_watch]) = Next w1 r1 ->
  WatchInv (after_op s w1 (ONewMock [sig_watch])).
Proof.
  intros I w1 r1 H. eapply inv_perform; eauto; [intros m []| |discriminate].
  intros m Hm. pose proof (v_calls _ I m Hm). unfold calls at 1. simpl. lia.
Qed.

Lemma inv_new_life s w1 r1 : WatchInv s -> step (ww s) (ONewMock [sig_watch]) = Next w1 r1 ->
  WatchInv (own_life (after_op s w1 (ONewMock [sig_watch])) (length (w_mocks (ww s)))) /\ ident w1 (length (w_mocks (ww s))) false /\
  calls (length (w_mocks (ww s))) (ww_log s ++ [ONewMock [sig_watch]]) = 0.
Proof.
  intros I H. pose proof (named_new_respects _ I _ _ H) as I1. destruct (fresh_owner s _ I (le_n _)) as (A & B & C & D & E & F).
  pose proof (v_reachable _ I) as Hr. pose proof (ident_new _ _ _ Hr H) as Hi. apply new_mock_step in H. destruct H as (_ & Hm & _).
  assert (Hl : length (w_mocks (ww s)) < length (w_mocks w1)) by (rewrite Hm, app_length; simpl; lia).
  assert (Hc0 : calls (length (w_mocks (ww s))) (ww_log s ++ [ONewMock [sig_watch]]) = 0).
  { rewrite calls_app, (calls_fresh _ _ _ _ (v_run _ I) (le_n _)). reflexivity. }
  split; [|split; auto]. destruct I1 as [V1 V2 V3 V4 V5 V6 V7 V8 V9 V10 V11]. unfold after_op in *.
  cbn [ww ww_life ww_reloc ww_lmocks ww_rmocks ww_conts ww_log own_life] in *.
  constructor; unfold carries; cbn [ww ww_life ww_reloc ww_lmocks ww_rmocks ww_conts ww_log own_life]; auto.
  - intros m [<-|Hin]; auto.
  - intros m [<-|Hin] H2; eauto.
  - intros i m fl H. destruct (V5 i m fl H). split; auto. right; auto.
  - intros p m Hp Hw. destruct (V6 p m Hp Hw). split; auto. right; auto.
  - intros m [<-|Hin]; auto. rewrite Hc0, A. auto.
Qed.

Lemma inv_new_reloc s w1 r1 : WatchInv s -> step (ww s) (ONewMock [sig_watch]) = Next w1 r1 ->
  WatchInv (own_reloc (after_op s w1 (ONewMock [sig_watch])) (length (w_mocks (ww s)))) /\ alive_mock w1 (length (w_mocks (ww s))).
Proof.
  intros I H. pose proof (named_new_respects _ I _ _ H) as I1. destruct (fresh_owner s _ I (le_n _)) as (A & B & C & D & E & F).
  pose proof (v_reachable _ I) as Hr. pose proof (ident_new _ _ _ Hr H) as Hi. apply new_mock_step in H. destruct H as (_ & Hm & _).
  assert (Hl : length (w_mocks (ww s)) < length (w_mocks w1)) by (rewrite Hm, app_length; simpl; lia).
  split; [|eapply fixed_alive, ident_fixed; eauto]. destruct I1 as [V1 V2 V3 V4 V5 V6 V7 V8 V9 V10 V11]. unfold after_op in *.
  cbn [ww ww_life ww_reloc ww_lmocks ww_rmocks ww_conts ww_log own_reloc] in *.
  constructor; unfold carries; cbn [ww ww_life ww_reloc ww_lmocks ww_rmocks ww_conts ww_log own_reloc]; auto.
  - intros m [<-|Hin]; auto.
  - intros m H2 [<-|Hin]; eauto.
  - intros i m H. destruct (V9 i m H). split; auto. right; auto.
  - intros p m Hp Hw. destruct (V10 p m Hp Hw). split; auto. right; auto.
Qed.

(** ** Preservation *)

Definition good (st : wstepped) : Prop := match st with WNext s' _ => WatchInv s' | _ => True end.

Lemma good_perform s o k : (forall w1 r1, step (ww s) o = Next w1 r1 -> good (k (after_op s w1 o) r1)) -> good (perform s o k).
Proof. unfold perform. intros H. destruct (step (ww s) o); simpl; auto. apply (H _ _ eq_refl). Qed.

Lemma good_leave ne s r : WatchInv s -> good (leave ne s r).
Proof. unfold leave. destruct r; simpl; auto. destruct ne; simpl; auto. Qed.

Lemma life_not_reloc s m : WatchInv s -> In m (ww_lmocks s) -> countb (rholds m) (ww_reloc s) = 0 /\ countb (rwaits m) (ww_conts s) = 0.
Proof.
  intros I Hm. split.
  - destruct (countb (rholds m) (ww_reloc s)) eqn:E; auto. exfalso. destruct (rheld_in m (ww_reloc s)) as (i & H); [lia|].
    eapply (v_disj _ I); eauto. apply (v_reloc _ I _ _ H).
  - destruct (countb (rwaits m) (ww_conts s)) eqn:E; auto. exfalso. destruct (rwaits_in m (ww_conts s)) as (p & Hp & H); [lia|].
    eapply (v_disj _ I); eauto. apply (v_rbusy _ I _ _ Hp H).
Qed.
Lemma reloc_not_life s m : WatchInv s -> In m (ww_rmocks s) -> countb (holds m) (ww_life s) = 0 /\ countb (waits m) (ww_conts s) = 0.
Proof.
  intros I Hm. split.
  - destruct (countb (holds m) (ww_life s)) eqn:E; auto. exfalso. destruct (held_carries m (ww_life s)) as (i & fl & H); [lia|].
    eapply (v_disj _ I); [|exact Hm]. apply (v_life _ I _ _ _ H).
  - destruct (countb (waits m) (ww_conts s)) eqn:E; auto. exfalso. destruct (waits_in m (ww_conts s)) as (p & Hp & H); [lia|].
    eapply (v_disj _ I); [|exact Hm]. apply (v_busy _ I _ _ Hp H).
Qed.

Lemma calls_other m o : (forall ov args l, o <> OCall m ov args l) -> calls m [o] = 0.
Proof. intros H. unfold calls. simpl. destruct o; simpl; auto. destruct (Nat.eqb_spec m0 m); auto. subst. exfalso. eapply H; eauto. Qed.

Lemma inv_destroy_life s m w1 r1 : WatchInv s -> In m (ww_lmocks s) ->
  countb (holds m) (ww_life s) + countb (waits m) (ww_conts s) = 0 -> step (ww s) (ODestroyMock m) = Next w1 r1 ->
  WatchInv (after_op s w1 (ODestroyMock m)).
Proof.
  intros I Hm H0 Hs. eapply inv_perform; eauto.
  - intros n [<-|[]]. auto.
  - intros n Hn. pose proof (v_calls _ I n Hn). rewrite calls_other by discriminate. lia.
  - intros n E. inversion E; subst n. destruct (life_not_reloc _ _ I Hm). lia.
Qed.

Lemma inv_destroy_reloc s m w1 r1 : WatchInv s -> In m (ww_rmocks s) ->
  countb (rholds m) (ww_reloc s) + countb (rwaits m) (ww_conts s) = 0 -> step (ww s) (ODestroyMock m) = Next w1 r1 ->
  WatchInv (after_op s w1 (ODestroyMock m)).
Proof.
  intros I Hm H0 Hs. eapply inv_perform; eauto.
  - intros n [<-|[]]. destruct (reloc_not_life _ _ I Hm). lia.
  - intros n Hn. pose proof (v_calls _ I n Hn). rewrite calls_other by discriminate. lia.
  - intros n E. inversion E; subst n. auto.
Qed.

Lemma inv_move_reloc s d m w1 r1 : WatchInv s -> In m (ww_rmocks s) -> In d (ww_rmocks s) ->
  step (ww s) (OMoveAssignMock d m) = Next w1 r1 -> WatchInv (after_op s w1 (OMoveAssignMock d m)).
Proof.
  intros I Hm Hd Hs. eapply inv_perform; eauto; [| |discriminate].
  - intros n [<-|[<-|[]]]; [destruct (reloc_not_life _ _ I Hd)|destruct (reloc_not_life _ _ I Hm)]; lia.
  - intros n Hn. pose proof (v_calls _ I n Hn). rewrite calls_other by discriminate. lia.
Qed.

(** The watcher [i] gets other contents: [lw'] is moved-from, or carries an identity nobody else carries. *)
Lemma inv_slot s i lw lw' : WatchInv s -> nth_error (ww_life s) i = Some (Some lw) ->
  (forall m fl, lw' = Some (mkLW fl (Some m)) -> In m (ww_lmocks s) /\ ident (ww s) m fl /\
     ((lw_mock lw = Some m) \/ (countb (holds m) (ww_life s) + countb (waits m) (ww_conts s) = 0 /\ calls m (ww_log s) = 0))) ->
  WatchInv (set_life s (upd (ww_life s) i lw')).
Proof.
  intros I Hi H.
  assert (Hc : forall m, countb (holds m) (upd (ww_life s) i lw') <= countb (holds m) (ww_life s) \/
            (countb (holds m) (upd (ww_life s) i lw') = 1 /\ countb (holds m) (ww_life s) + countb (waits m) (ww_conts s) = 0 /\ calls m (ww_log s) = 0)).
  { intros m. pose proof (countb_upd (holds m) _ _ _ lw' Hi) as E. destruct (holds m lw') eqn:Eh; simpl b2n in E; [|left; destruct (holds m (Some lw)); simpl in E; lia].
    destruct lw' as [[fl [n|]]|]; simpl in Eh; try discriminate. apply Nat.eqb_eq in Eh. subst n.
    destruct (H m fl eq_refl) as (_ & _ & [Hlw|[H0 H1]]).
    - left. destruct lw as [fl0 mo]. simpl in Hlw. subst mo. simpl holds in E. rewrite Nat.eqb_refl in E. simpl in E. lia.
    - right. split; auto. pose proof (countb_upd (holds m) _ _ _ (Some (mkLW fl (Some m))) Hi) as E2.
      assert (holds m (Some lw) = false) as E3.
      { destruct (holds m (Some lw)) eqn:E3; auto. exfalso. assert (1 <= countb (holds m) (ww_life s)); [|lia].
        eapply countb_in; [eapply nth_error_In; eauto|auto]. }
      rewrite E3 in E2. simpl in E2. rewrite Nat.eqb_refl in E2. simpl in E2. lia. }
  apply inv_life; auto.
  - intros k m fl Hk. apply nth_upd_inv in Hk. destruct Hk as [[-> Hk]|[Hne Hk]].
    + destruct (H m fl (eq_sym Hk)) as (A & B & _). auto.
    + apply (v_life _ I k m fl Hk).
  - intros m. pose proof (v_own _ I m). destruct (Hc m) as [?|(? & ? & ?)]; lia.
  - intros m Hm. pose proof (v_calls _ I m Hm). destruct (Hc m) as [?|(? & ? & ?)]; lia.
Qed.

Lemma drop_slot s i lw lw' m : WatchInv s -> nth_error (ww_life s) i = Some (Some lw) -> lw_mock lw = Some m -> holds m lw' = false ->
  countb (holds m) (upd (ww_life s) i lw') + countb (waits m) (ww_conts s) = 0.
Proof.
  intros I Hi Hm Hn. pose proof (countb_upd (holds m) _ _ _ lw' Hi) as E. rewrite Hn in E. pose proof (v_own _ I m).
  destruct lw as [fl mo]. simpl in Hm. subst mo. simpl holds in E. rewrite Nat.eqb_refl in E. simpl in E. lia.
Qed.

Lemma good_drop s mo : WatchInv s ->
  (forall m, mo = Some m -> In m (ww_lmocks s) /\ countb (holds m) (ww_life s) + countb (waits m) (ww_conts s) = 0) -> good (drop_mock s mo).
Proof.
  intros I H. unfold drop_mock. destruct mo as [m|]; [|simpl; auto]. destruct (H m eq_refl). apply good_perform. intros w1 r1 Hs.
  simpl. eapply inv_destroy_life; eauto.
Qed.

Lemma good_refresh s i : WatchInv s -> good (refresh s i).
Proof.
  intros I. unfold refresh. destruct (nth_error (ww_life s) i) as [[lw|]|] eqn:Hi; simpl; auto. apply good_perform. intros w1 r1 Hs.
  destruct (inv_new_life _ _ _ I Hs) as (I1 & Hid & Hc0). destruct (fresh_owner s _ I (le_n _)) as (A & B & _ & _ & E & _).
  set (d := length (w_mocks (ww s))) in *. set (s1 := own_life (after_op s w1 (ONewMock [sig_watch])) d) in *.
  assert (Hi1 : nth_error (ww_life s1) i = Some (Some lw)) by auto.
  assert (I2 : WatchInv (set_life s1 (upd (ww_life s1) i (Some (mkLW false (Some d)))))).
  { eapply inv_slot; eauto. intros m fl Em. inversion Em; subst m fl. split; [left; auto|]. split; auto. right.
    change (ww_life s1) with (ww_life s). change (ww_conts s1) with (ww_conts s). rewrite A, B. auto. }
  apply good_drop; auto. intros m Hm.
  assert (Hin : In m (ww_lmocks s)). { destruct lw as [fl mo]. simpl in Hm. subst mo. apply (v_life _ I i m fl). exact Hi. }
  split; [right; auto|]. apply (drop_slot s1 i lw (Some (mkLW false (Some d))) m I1 Hi1 Hm). simpl. apply Nat.eqb_neq. intros E2. subst m. auto.
Qed.

(** What a special member function needs to go on after its call. *)
Definition cont_ok (s : wworld) (k : cont) : Prop :=
  match k with
  | KDestroy m _ | KReset _ m => In m (ww_lmocks s) /\ fixed (ww s) m /\ countb (holds m) (ww_life s) + countb (waits m) (ww_conts s) = 0
  | KMoved _ d _ => In d (ww_rmocks s) /\ alive_mock (ww s) d /\ countb (rholds d) (ww_reloc s) + countb (rwaits d) (ww_conts s) = 0
  | KAssigned _ _ _ => True
  end.

Lemma good_finish s k r : WatchInv s -> cont_ok s k -> good (finish s k r).
Proof.
  intros I Hk. destruct k as [m ne|i m|i d ne|i j ne]; simpl in Hk; cbn [finish].
  - destruct Hk as (A & B & C). apply good_perform. intros w1 r1 Hs. apply good_leave. eapply inv_destroy_life; eauto.
  - destruct Hk as (A & B & C). apply good_perform. intros w1 r1 Hs. pose proof (inv_destroy_life _ _ _ _ I A C Hs) as I1.
    destruct (is_throw r); [simpl; auto|apply good_refresh; auto].
  - destruct Hk as (A & B & C). destruct (is_throw r).
    + apply good_perform. intros w1 r1 Hs. apply good_leave. eapply inv_destroy_reloc; eauto.
    + destruct (nth_error (ww_reloc s) i) as [[m|]|] eqn:Hi; simpl; auto. destruct (v_reloc _ I _ _ Hi) as [D E].
      apply good_perform. intros w1 r1 Hs. pose proof (inv_move_reloc _ _ _ _ _ I D A Hs) as I1. cbn [good].
      apply inv_reloc; auto.
      * intros i0 m0 H0. apply nth_error_snoc in H0. destruct H0 as [[H0 _]|[_ H0]]; [apply (v_reloc _ I1 _ _ H0)|]. inversion H0; subst m0.
        split; auto. eapply alive_step; eauto. discriminate.
      * intros m0. rewrite countb_app, countb_cons. change (ww_reloc (after_op s w1 (OMoveAssignMock d m))) with (ww_reloc s).
        change (ww_conts (after_op s w1 (OMoveAssignMock d m))) with (ww_conts s). pose proof (v_rown _ I m0). simpl rholds.
        destruct (Nat.eqb_spec d m0) as [<-|]; unfold countb in *; simpl; lia.
  - destruct (is_throw r); [apply good_leave; auto|]. destruct (nth_error (ww_reloc s) i) as [[mi|]|] eqn:Hi; simpl; auto.
    destruct (nth_error (ww_reloc s) j) as [[mj|]|] eqn:Hj; simpl; auto. apply good_perform. intros w1 r1 Hs. simpl.
    eapply inv_move_reloc; eauto; [apply (v_reloc _ I _ _ Hj)|apply (v_reloc _ I _ _ Hi)].
Qed.

Lemma good_push s d k : WatchInv s -> cont_ok s k -> WatchInv (set_conts s ((d, k) :: ww_conts s)).
Proof.
  intros I Hk. apply inv_conts; auto.
  - intros p m [<-|Hp] Hw; [|apply (v_busy _ I _ _ Hp Hw)]. destruct k as [n ne|i n|i n ne|i j ne]; simpl in Hw, Hk; try discriminate;
      apply Nat.eqb_eq in Hw; subst n; tauto.
  - intros p m [<-|Hp] Hw; [|apply (v_rbusy _ I _ _ Hp Hw)]. destruct k as [n ne|i n|i n ne|i j ne]; simpl in Hw, Hk; try discriminate;
      apply Nat.eqb_eq in Hw; subst n; tauto.
  - intros m. rewrite countb_cons. pose proof (v_own _ I m). destruct k as [n ne|i n|i n ne|i j ne]; simpl in Hk; unfold waits at 1; simpl; try lia;
      destruct (Nat.eqb_spec n m) as [<-|]; simpl; lia.
  - intros m. rewrite countb_cons. pose proof (v_rown _ I m). destruct k as [n ne|i n|i n ne|i j ne]; simpl in Hk; unfold rwaits at 1; simpl; try lia;
      destruct (Nat.eqb_spec n m) as [<-|]; simpl; lia.
Qed.

Lemma good_pop s d k ks : WatchInv s -> ww_conts s = (d, k) :: ks -> WatchInv (set_conts s ks) /\ cont_ok (set_conts s ks) k.
Proof.
  intros I E. split.
  - apply inv_conts; auto.
    + intros p m Hp. apply (v_busy _ I p m). rewrite E. right; auto.
    + intros p m Hp. apply (v_rbusy _ I p m). rewrite E. right; auto.
    + intros m. pose proof (v_own _ I m) as H. rewrite E, countb_cons in H. lia.
    + intros m. pose proof (v_rown _ I m) as H. rewrite E, countb_cons in H. lia.
  - assert (Hin : In (d, k) (ww_conts s)) by (rewrite E; left; auto).
    destruct k as [n ne|i n|i n ne|i j ne]; cbn [cont_ok ww_lmocks ww_rmocks ww ww_life ww_reloc ww_conts set_conts]; auto.
    + destruct (v_busy _ I _ n Hin) as [A B]; [simpl; apply Nat.eqb_refl|]. split; auto. split; auto.
      pose proof (v_own _ I n) as H. rewrite E, countb_cons in H. unfold waits in H at 1. simpl in H. rewrite Nat.eqb_refl in H. simpl in H. lia.
    + destruct (v_busy _ I _ n Hin) as [A B]; [simpl; apply Nat.eqb_refl|]. split; auto. split; auto.
      pose proof (v_own _ I n) as H. rewrite E, countb_cons in H. unfold waits in H at 1. simpl in H. rewrite Nat.eqb_refl in H. simpl in H. lia.
    + destruct (v_rbusy _ I _ n Hin) as [A B]; [simpl; apply Nat.eqb_refl|]. split; auto. split; auto.
      pose proof (v_rown _ I n) as H. rewrite E, countb_cons in H. unfold rwaits in H at 1. simpl in H. rewrite Nat.eqb_refl in H. simpl in H. lia.
Qed.

Lemma good_resume s r : WatchInv s -> good (resume s r).
Proof.
  intros I. unfold resume. destruct (ww_conts s) as [|[d k] ks] eqn:E; [simpl; auto|].
  destruct (length (w_frames (ww s)) <=? d); [|simpl; auto]. destruct (good_pop _ _ _ _ I E). apply good_finish; auto.
Qed.

Lemma inv_call s m l w1 r1 : WatchInv s -> countb (holds m) (ww_life s) + countb (waits m) (ww_conts s) = 0 ->
  (In m (ww_lmocks s) -> calls m (ww_log s) = 0) -> step (ww s) (OCall m 0 [] l) = Next w1 r1 -> WatchInv (after_op s w1 (OCall m 0 [] l)).
Proof.
  intros I H0 Hc Hs. eapply inv_perform; eauto; [| |discriminate].
  - intros n [<-|[]]. auto.
  - intros n Hn. pose proof (v_calls _ I n Hn). unfold calls at 1. simpl. destruct (Nat.eqb_spec m n) as [<-|]; simpl; [|lia].
    rewrite (Hc Hn). lia.
Qed.

Lemma good_call s m l k : WatchInv s -> countb (holds m) (ww_life s) + countb (waits m) (ww_conts s) = 0 ->
  (In m (ww_lmocks s) -> calls m (ww_log s) = 0) -> cont_ok s k ->
  (match k with KDestroy n _ | KReset _ n => n = m | _ => True end) -> good (call_then s m l k).
Proof.
  intros I H0 Hc Hk Hkm. unfold call_then. apply good_perform. intros w1 r1 Hs.
  pose proof (inv_call _ _ _ _ _ I H0 Hc Hs) as I1.
  assert (Hk1 : cont_ok (after_op s w1 (OCall m 0 [] l)) k).
  { destruct k as [n ne|i n|i n ne|i j ne]; simpl in Hk |- *; auto.
    - destruct Hk as (A & B & C). subst n. split; auto. split; auto. eapply fixed_step; eauto.
    - destruct Hk as (A & B & C). subst n. split; auto. split; auto. eapply fixed_step; eauto.
    - destruct Hk as (A & B & C). split; auto. split; auto. eapply alive_step; eauto. discriminate. }
  destruct (is_throw r1).
  - apply good_finish; auto.
  - cbn [good]. apply good_push; auto.
Qed.

Lemma private_spec s m : is_private s m = false -> ~ In m (ww_lmocks s) /\ ~ In m (ww_rmocks s).
Proof.
  unfold is_private. intros H. apply orb_false_iff in H. destruct H as [A B].
  split; intros Hin; [assert (existsb (Nat.eqb m) (ww_lmocks s) = true)|assert (existsb (Nat.eqb m) (ww_rmocks s) = true)]; try congruence;
    apply existsb_exists; exists m; split; auto; apply Nat.eqb_refl.
Qed.

Lemma inv_op s o w1 r1 : WatchInv s -> existsb (is_private s) (named o) = false -> step (ww s) o = Next w1 r1 -> WatchInv (after_op s w1 o).
Proof.
  intros I Hp Hs.
  assert (Hn : forall m, In m (named o) -> ~ In m (ww_lmocks s) /\ ~ In m (ww_rmocks s)).
  { intros m Hm. apply private_spec. destruct (is_private s m) eqn:E; auto. exfalso. assert (existsb (is_private s) (named o) = true); [|congruence].
    apply existsb_exists. eauto. }
  assert (Hz : forall m, ~ In m (ww_lmocks s) -> countb (holds m) (ww_life s) + countb (waits m) (ww_conts s) = 0).
  { intros m Hm. destruct (countb (holds m) (ww_life s)) eqn:E.
    - destruct (countb (waits m) (ww_conts s)) eqn:E2; auto. exfalso. destruct (waits_in m (ww_conts s)) as (p & Hp' & H); [lia|].
      apply Hm, (v_busy _ I _ _ Hp' H).
    - exfalso. destruct (held_carries m (ww_life s)) as (i & fl & H); [lia|]. apply Hm, (v_life _ I _ _ _ H). }
  eapply inv_perform; eauto.
  - intros m Hm. apply Hz. apply (Hn m Hm).
  - intros m Hm. pose proof (v_calls _ I m Hm). destruct (is_call m o) eqn:E.
    + destruct o; try discriminate. simpl in E. apply Nat.eqb_eq in E. subst m0. exfalso. destruct (Hn m); [left; auto|]. auto.
    + unfold calls at 1. simpl. rewrite E. simpl. lia.
  - intros m ->. destruct (Hn m) as [_ Hm]; [left; auto|]. destruct (countb (rholds m) (ww_reloc s)) eqn:E.
    + destruct (countb (rwaits m) (ww_conts s)) eqn:E2; auto. exfalso. destruct (rwaits_in m (ww_conts s)) as (p & Hp' & H); [lia|].
      apply Hm, (v_rbusy _ I _ _ Hp' H).
    + exfalso. destruct (rheld_in m (ww_reloc s)) as (i & H); [lia|]. apply Hm, (v_reloc _ I _ _ H).
Qed.

Lemma good_new_life s : WatchInv s -> good (new_life s).
Proof.
  intros I. unfold new_life. apply good_perform. intros w1 r1 Hs. destruct (inv_new_life _ _ _ I Hs) as (I1 & Hid & Hc0).
  destruct (fresh_owner s _ I (le_n _)) as (A & B & _). set (d := length (w_mocks (ww s))) in *. cbn [good]. apply inv_life; auto.
  - intros i m fl H. cbn [ww_life after_op] in H. apply nth_error_snoc in H. destruct H as [[H _]|[_ H]].
    + apply (v_life _ I1 i m fl H).
    + inversion H; subst. split; [left; auto|auto].
  - intros m. rewrite countb_app, countb_cons. pose proof (v_own _ I1 m). cbn [ww_life ww_conts own_life after_op] in *. simpl holds.
    destruct (Nat.eqb_spec d m) as [<-|]; [rewrite A, B; unfold countb; simpl; lia|unfold countb in *; simpl; lia].
  - intros m Hm. rewrite countb_app, countb_cons. pose proof (v_calls _ I1 m Hm) as Hc. cbn [ww_life ww_conts ww_log own_life after_op] in *. simpl holds.
    destruct (Nat.eqb_spec d m) as [<-|]; [rewrite A, Hc0; unfold countb; simpl; lia|]. unfold countb in *. simpl. lia.
Qed.

Lemma good_new_reloc s : WatchInv s -> good (new_reloc s).
Proof.
  intros I. unfold new_reloc. apply good_perform. intros w1 r1 Hs. destruct (inv_new_reloc _ _ _ I Hs) as (I1 & Hid).
  destruct (fresh_owner s _ I (le_n _)) as (_ & _ & A & B & _). set (d := length (w_mocks (ww s))) in *. cbn [good]. apply inv_reloc; auto.
  - intros i m H. cbn [ww_reloc after_op] in H. apply nth_error_snoc in H. destruct H as [[H _]|[_ H]].
    + apply (v_reloc _ I1 i m H).
    + inversion H; subst. split; [left; auto|auto].
  - intros m. rewrite countb_app, countb_cons. pose proof (v_rown _ I1 m). cbn [ww_reloc ww_conts own_reloc after_op] in *. simpl rholds.
    destruct (Nat.eqb_spec d m) as [<-|]; [rewrite A, B; unfold countb; simpl; lia|unfold countb in *; simpl; lia].
Qed.

Theorem inv_wstep s o : WatchInv s -> good (wstep s o).
Proof.
  intros I. destruct o as [o| |i|i|i j l|i j|i ne l|i cls l|i| |i|i ne l|i j|i j ne l|i|i cls l]; cbn [wstep].
  - destruct (existsb (is_private s) (named o)) eqn:E; [simpl; auto|]. apply good_perform. intros w1 r1 Hs. apply good_resume. eapply inv_op; eauto.
  - apply good_new_life; auto.
  - destruct (nth_error (ww_life s) i) as [[lw|]|]; simpl; auto. apply good_new_life; auto.
  - destruct (nth_error (ww_life s) i) as [[lw|]|] eqn:Hi; simpl; auto.
    assert (Hc : forall m, countb (holds m) (upd (ww_life s) i (Some (mkLW (lw_flag lw) None)) ++ [Some lw]) = countb (holds m) (ww_life s)).
    { intros m. rewrite countb_app, countb_cons. pose proof (countb_upd (holds m) _ _ _ (Some (mkLW (lw_flag lw) None)) Hi) as H.
      change (b2n (holds m (Some (mkLW (lw_flag lw) None)))) with 0 in H. change (countb (holds m) []) with 0. lia. }
    apply inv_life; auto.
    + intros k m fl Hk. apply nth_error_snoc in Hk. destruct Hk as [[Hk _]|[_ Hk]].
      * apply nth_upd_inv in Hk. destruct Hk as [[_ Hk]|[_ Hk]]; [discriminate|]. apply (v_life _ I k m fl Hk).
      * inversion Hk; subst lw. apply (v_life _ I i m fl Hi).
    + intros m. rewrite Hc. apply (v_own _ I).
    + intros m. rewrite Hc. apply (v_calls _ I).
  - destruct (nth_error (ww_life s) i) as [[lw|]|] eqn:Hi; simpl; auto. destruct (nth_error (ww_life s) j) as [[lj|]|]; simpl; auto.
    destruct (lw_mock lw) as [m|] eqn:Hm; [|apply good_refresh; auto].
    assert (I1 : WatchInv (set_life s (upd (ww_life s) i (Some (mkLW (lw_flag lw) None))))) by (eapply inv_slot; eauto; intros; discriminate).
    assert (H0 := drop_slot s i lw (Some (mkLW (lw_flag lw) None)) m I Hi Hm eq_refl).
    assert (Hcar : carries s i m (lw_flag lw)) by (unfold carries; rewrite Hi; destruct lw; simpl in *; congruence).
    destruct (v_life _ I _ _ _ Hcar) as [Hin Hid].
    apply good_call; auto.
    + intros _. cbn [ww_log set_life]. pose proof (v_calls _ I m Hin). pose proof (carries_held _ _ _ _ Hcar). lia.
    + simpl. split; auto. split; auto. eapply ident_fixed; eauto.
  - destruct (nth_error (ww_life s) i) as [[li|]|] eqn:Hi; simpl; auto. destruct (nth_error (ww_life s) j) as [[lj|]|] eqn:Hj; simpl; auto.
    destruct (Nat.eqb_spec i j) as [->|Hne]; [simpl; auto|].
    assert (Hi2 : nth_error (upd (ww_life s) j (Some (mkLW (lw_flag lj) None))) i = Some (Some li)) by (rewrite nth_error_upd_neq; auto).
    assert (Hc : forall m, countb (holds m) (upd (upd (ww_life s) j (Some (mkLW (lw_flag lj) None))) i (Some lj)) + b2n (holds m (Some li)) = countb (holds m) (ww_life s)).
    { intros m. pose proof (countb_upd (holds m) _ _ _ (Some (mkLW (lw_flag lj) None)) Hj) as H1. 
      pose proof (countb_upd (holds m) _ _ _ (Some lj) Hi2) as H2. change (b2n (holds m (Some (mkLW (lw_flag lj) None)))) with 0 in H1. lia. }
    apply good_drop.
    + apply inv_life; auto.
      * intros k m fl Hk. apply nth_upd_inv in Hk. destruct Hk as [[_ Hk]|[_ Hk]].
        { inversion Hk; subst lj. apply (v_life _ I j m fl Hj). }
        apply nth_upd_inv in Hk. destruct Hk as [[_ Hk]|[_ Hk]]; [discriminate|]. apply (v_life _ I k m fl Hk).
      * intros m. specialize (Hc m). pose proof (v_own _ I m). lia.
      * intros m Hm. specialize (Hc m). pose proof (v_calls _ I m Hm). lia.
    + intros m Hm. destruct li as [fl mo]. simpl in Hm. subst mo. split; [apply (v_life _ I i m fl Hi)|].
      cbn [ww_life ww_conts set_life]. specialize (Hc m). simpl holds in Hc. rewrite Nat.eqb_refl in Hc. simpl in Hc. pose proof (v_own _ I m). lia.
  - destruct (nth_error (ww_life s) i) as [[lw|]|] eqn:Hi; simpl; auto.
    assert (I1 : WatchInv (set_life s (upd (ww_life s) i None))) by (eapply inv_slot; eauto; intros; discriminate).
    destruct (lw_mock lw) as [m|] eqn:Hm; [|simpl; auto].
    assert (H0 := drop_slot s i lw None m I Hi Hm eq_refl).
    assert (Hcar : carries s i m (lw_flag lw)) by (unfold carries; rewrite Hi; destruct lw; simpl in *; congruence).
    destruct (v_life _ I _ _ _ Hcar) as [Hin Hid].
    apply good_call; auto.
    + intros _. cbn [ww_log set_life]. pose proof (v_calls _ I m Hin). pose proof (carries_held _ _ _ _ Hcar). lia.
    + simpl. split; auto. split; auto. eapply ident_fixed; eauto.
  - unfold expect_destruct. destruct (nth_error (ww_life s) i) as [[[fl mo]|]|] eqn:Hi; simpl; auto. destruct fl; [simpl; auto|].
    destruct mo as [m|]; [|simpl; auto]. apply good_perform. intros w1 r1 Hs. cbn [good].
    destruct (v_life _ I i m false Hi) as [Hin Hid]. pose proof (v_reachable _ I) as Hr.
    pose proof (ident_expect _ _ _ _ _ _ Hr Hid Hs) as Hid1. pose proof (mocks_grow _ _ _ _ Hs) as Hg. cbn [ww set_life] in Hs.
    assert (Hc : forall n, countb (holds n) (upd (ww_life s) i (Some (mkLW true (Some m)))) = countb (holds n) (ww_life s)).
    { intros n. pose proof (countb_upd (holds n) _ _ _ (Some (mkLW true (Some m))) Hi) as H. simpl holds in H. lia. }
    constructor; unfold carries; cbn [ww ww_life ww_reloc ww_lmocks ww_rmocks ww_conts ww_log after_op set_life].
    + eapply run_app; [apply (v_run _ I)|]. eapply run_one; eauto.
    + intros n Hn. apply (v_lm _ I) in Hn. cbn [ww set_life] in Hg. lia.
    + intros n Hn. apply (v_rm _ I) in Hn. cbn [ww set_life] in Hg. lia.
    + apply (v_disj _ I).
    + intros k n fl Hk. apply nth_upd_inv in Hk. destruct Hk as [[_ Hk]|[Hne Hk]].
      * inversion Hk; subst. auto.
      * destruct (v_life _ I k n fl Hk) as [A B]. split; auto. eapply ident_step; eauto. intros [->|[]].
        pose proof (countb_upd (holds n) _ _ _ None Hi) as H1. simpl holds in H1. rewrite Nat.eqb_refl in H1. simpl b2n in H1.
        assert (1 <= countb (holds n) (upd (ww_life s) i None)).
        { eapply countb_in; [eapply nth_error_In; rewrite nth_error_upd_neq by exact Hne; exact Hk|simpl; apply Nat.eqb_refl]. }
        pose proof (v_own _ I n). lia.
    + intros p n Hp Hw. destruct (v_busy _ I p n Hp Hw) as [A B]. split; auto. eapply fixed_step; eauto. left. intros [->|[]].
      pose proof (carries_held _ _ _ _ Hi). pose proof (countb_in _ _ _ Hp Hw). pose proof (v_own _ I n). lia.
    + intros n. rewrite Hc. apply (v_own _ I).
    + intros n Hn. rewrite Hc, calls_app, (calls_other n) by discriminate. pose proof (v_calls _ I n Hn). lia.
    + intros k n Hk. destruct (v_reloc _ I k n Hk) as [A B]. split; auto. eapply alive_step; eauto. discriminate.
    + intros p n Hp Hw. destruct (v_rbusy _ I p n Hp Hw) as [A B]. split; auto. eapply alive_step; eauto. discriminate.
    + apply (v_rown _ I).
  - unfold expect_destruct. destruct (nth_error (ww_life s) i) as [[[fl mo]|]|] eqn:Hi; simpl; auto. destruct fl; [simpl; auto|].
    destruct mo as [m|]; [|simpl; auto]. cbn [good]. eapply inv_slot; eauto. intros n fl E. inversion E; subst n fl.
    destruct (v_life _ I i m false Hi) as [Hin Hid]. split; auto. split; [apply ident_weaken; auto|]. left; auto.
  - apply good_new_reloc; auto.
  - destruct (nth_error (ww_reloc s) i) as [[m|]|]; simpl; auto. apply good_new_reloc; auto.
  - destruct (nth_error (ww_reloc s) i) as [[m|]|] eqn:Hi; simpl; auto. apply good_perform. intros w1 r1 Hs.
    destruct (inv_new_reloc _ _ _ I Hs) as (I1 & Hid). destruct (v_reloc _ I _ _ Hi) as [Hin Hal].
    destruct (fresh_owner s _ I (le_n _)) as (_ & _ & A & B & _).
    destruct (reloc_not_life _ m I1) as [C D]; [right; auto|]. apply good_call; auto.
    + unfold own_reloc, after_op in *. cbn [ww_life ww_conts] in *. lia.
    + intros Hl. exfalso. eapply (v_disj _ I); eauto.
    + simpl. split; [left; auto|]. split; auto. lia.
  - destruct (nth_error (ww_reloc s) i) as [[m|]|] eqn:Hi; simpl; auto. destruct (nth_error (ww_reloc s) j) as [[mj|]|]; simpl; auto.
    apply good_perform. intros w1 r1 Hs. destruct (inv_new_reloc _ _ _ I Hs) as (I1 & Hid). destruct (v_reloc _ I _ _ Hi) as [Hin Hal].
    destruct (fresh_owner s _ I (le_n _)) as (_ & _ & A & B & _).
    apply good_perform. intros w2 r2 Hs2. assert (I2 := inv_move_reloc _ _ _ _ _ I1 (or_introl eq_refl) (or_intror Hin) Hs2).
    apply good_perform. intros w3 r3 Hs3. cbn [good]. eapply inv_destroy_reloc; eauto; [left; auto|].
    unfold own_reloc, after_op. cbn [ww_reloc ww_conts]. lia.
  - destruct (nth_error (ww_reloc s) i) as [[m|]|] eqn:Hi; simpl; auto. destruct (nth_error (ww_reloc s) j) as [[mj|]|] eqn:Hj; simpl; auto.
    destruct (v_reloc _ I _ _ Hj) as [Hin Hal]. destruct (reloc_not_life _ mj I Hin) as [C D]. apply good_call; simpl; auto; [lia|].
    intros Hl. exfalso. eapply (v_disj _ I); eauto.
  - destruct (nth_error (ww_reloc s) i) as [[m|]|] eqn:Hi; simpl; auto. destruct (v_reloc _ I _ _ Hi) as [Hin Hal].
    pose proof (fun n => countb_upd (rholds n) _ _ _ None Hi) as Hc. apply good_perform. intros w1 r1 Hs. cbn [good].
    assert (I1 : WatchInv (set_reloc s (upd (ww_reloc s) i None))).
    { apply inv_reloc; auto.
      - intros k n Hk. apply nth_upd_inv in Hk. destruct Hk as [[_ Hk]|[_ Hk]]; [discriminate|]. apply (v_reloc _ I k n Hk).
      - intros n. specialize (Hc n). change (b2n (rholds n None)) with 0 in Hc. pose proof (v_rown _ I n). lia. }
    eapply inv_destroy_reloc; eauto. specialize (Hc m). simpl rholds in Hc. rewrite Nat.eqb_refl in Hc. simpl b2n in Hc. pose proof (v_rown _ I m).
    cbn [ww_reloc ww_conts set_reloc]. lia.
  - destruct (nth_error (ww_reloc s) i) as [[m|]|] eqn:Hi; simpl; auto. destruct (v_reloc _ I _ _ Hi) as [Hin Hal].
    destruct (reloc_not_life _ m I Hin) as [C D]. apply good_perform. intros w1 r1 Hs. cbn [good]. eapply inv_perform; eauto; [| |discriminate].
    + intros n [<-|[]]. lia.
    + intros n Hn. pose proof (v_calls _ I n Hn). rewrite calls_other by discriminate. lia.
Qed.

Lemma inv_winit : WatchInv winit.
Proof.
  constructor; unfold carries; simpl; try tauto; auto; try (intros; lia).
  - constructor.
  - intros i m fl H. destruct i; discriminate.
  - intros i m H. destruct i; discriminate.
Qed.

Lemma inv_wrun s ops s' : WatchInv s -> wrun s ops s' -> WatchInv s'.
Proof.
  intros I H. revert I. induction H as [|s o s1 r ops s2 Hs Hr IH]; auto. intros I. apply IH. pose proof (inv_wstep s o I) as G.
  rewrite Hs in G. exact G.
Qed.

Theorem inv_wreachable s : wreachable s -> WatchInv s.
Proof. intros [ops H]. eapply inv_wrun; eauto. apply inv_winit. Qed.
