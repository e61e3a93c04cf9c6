(** * History: every accepted call of a trace goes back to a state in which its expectation was a candidate. *)

From Verif Require Import Base Lib Sequence Control Signature Printer Reports Expectation Builder World WorldSpec
  SeqInv BuildSpec BuilderLemmas StepCases MatchLemmas WorldInv ObjInv CallSpec CallProofs BuildProofs CountProofs.

(** Induction over the programs, last operation first. *)
Lemma run_snoc w ops o w' : run w (ops ++ [o]) w' -> exists w1 r, run w ops w1 /\ step w1 o = Next w' r.
Proof.
  revert w. induction ops as [|a ops IH]; intros w H; simpl in H; inversion H as [|? ? w1 r ? ? Hs Hr]; subst.
  - inversion Hr; subst. exists w, r. split; auto. constructor.
  - destruct (IH _ Hr) as (w2 & r2 & H2 & H3). exists w2, r2. split; auto. econstructor; eauto.
Qed.

Lemma reachable_steps (P : world -> Prop) : P init ->
  (forall w o w' r, reachable w -> P w -> step w o = Next w' r -> P w') -> forall w, reachable w -> P w.
Proof.
  intros H0 HS w [ops H]. revert w H. induction ops as [|o ops IH] using rev_ind; intros w H.
  - inversion H; subst. auto.
  - apply run_snoc in H. destruct H as (w1 & r & H1 & H2). exact (HS w1 o w r (ex_intro _ ops H1) (IH w1 H1) H2).
Qed.

(** Which operations make an expectation accept a call. *)
Lemma step_accepted_inv w o w' r : WInv w -> step w o = Next w' r ->
  (exists evs, w_trace w' = w_trace w ++ evs /\ forall e, accepted evs e = 0) \/
  (exists m ov args l s coll n x mr unh, o = OCall m ov args l /\ r = RUnit /\ find_overload w m ov = inr (s, coll) /\
     candidate w coll (call_of s args l) n x /\
     w_trace w' = w_trace w ++ unh ++ [EvReport (w_rid w) (RFull (make_call_report (call_of s args l)) mr) [n]] /\
     forall e, accepted unh e = 0).
Proof.
  intros Hr H. pose proof (step_change _ _ _ _ H) as C. destruct C.
  - left. exists evs. split; auto. intros e. apply (quiet_counts _ H6 e).
  - left. exists []. subst w'. simpl. rewrite app_nil_r. auto.
  - left. exists evs. subst w'. simpl. split; auto. intros e. destruct (released_spec _ _ _ _ _ H2) as (_ & _ & R & _). apply R.
  - left. exists []. subst w'. simpl. rewrite app_nil_r. auto.
  - right. subst o. destruct (call_effect_inv _ _ _ _ _ _ _ Hr H) as [(s' & coll' & n' & x & mr' & unh & E & Hf & _ & Hc & Ht & Hq & _)|[E (evs & Hq & E2)]].
    + exists m, ov, args, l, s', coll', n', x, mr', unh. do 5 (split; auto). intros e. apply (quiet_counts _ Hq e).
    + exfalso. assert (A : accepted (w_trace w') n = accepted (w_trace w) n).
      { rewrite E2. simpl. rewrite accepted_app. destruct (quiet_counts _ Hq n) as (-> & _). lia. }
      match goal with EW : w' = accept_world _ _ _ _ _ _ _ |- _ => rewrite EW in A end. simpl in A. rewrite !accepted_app, accepted_full, Nat.eqb_refl in A. lia.
  - left. destruct H0 as [sc ->]. exists (unf ++ evs). subst w'. simpl. split; auto. intros k. rewrite accepted_app.
    destruct (released_spec _ _ _ _ _ H4) as (_ & _ & R & _). destruct (R k) as [-> _].
    destruct H6 as [(_ & ->)|[(_ & y & _ & ->)|(_ & rep & _ & ->)]]; reflexivity.
Qed.

Lemma step_accepted w o w' r : reachable w -> step w o = Next w' r ->
  (exists evs, w_trace w' = w_trace w ++ evs /\ forall e, accepted evs e = 0) \/
  (exists m ov args l s coll n x mr unh, o = OCall m ov args l /\ r = RUnit /\ find_overload w m ov = inr (s, coll) /\
     candidate w coll (call_of s args l) n x /\
     w_trace w' = w_trace w ++ unh ++ [EvReport (w_rid w) (RFull (make_call_report (call_of s args l)) mr) [n]] /\
     forall e, accepted unh e = 0).
Proof. intros Hr. apply step_accepted_inv, winv_reachable; auto. Qed.

Lemma accept_counts ev e : is_accept e ev = true -> accepted [ev] e = 1.
Proof. intros H. unfold accepted. cbn [filter]. rewrite H. reflexivity. Qed.

Lemma accepted_cons ev tr e : accepted (ev :: tr) e = accepted [ev] e + accepted tr e.
Proof. apply (accepted_app [ev] tr e). Qed.

(** Splitting a list at an element of an appended list. *)
Lemma app_split {A} (a b t t' : list A) x : a ++ b = t ++ x :: t' ->
  (exists u, a = t ++ x :: u /\ t' = u ++ b) \/ (exists u, t = a ++ u /\ b = u ++ x :: t').
Proof.
  revert t. induction a as [|y a IH]; intros t H; simpl in H.
  - right. exists t. auto.
  - destruct t as [|z t]; simpl in H; inversion H; subst.
    + left. exists a. auto.
    + destruct (IH _ H2) as [(u & -> & ->)|(u & -> & ->)]; [left|right]; exists u; auto.
Qed.

(** The state before an accepting event of the trace. *)
Lemma accept_event w : reachable w -> forall t ev t' e, w_trace w = t ++ ev :: t' -> is_accept e ev = true ->
  exists wp x c coll ops, reachable wp /\ candidate wp coll c e x /\ run wp ops w /\
    forall k, accepted (w_trace wp) k = accepted t k.
Proof.
  revert w. apply (reachable_steps (fun w => forall t ev t' e, w_trace w = t ++ ev :: t' -> is_accept e ev = true ->
    exists wp x c coll ops, reachable wp /\ candidate wp coll c e x /\ run wp ops w /\
    forall k, accepted (w_trace wp) k = accepted t k)).
  - intros t ev t' e H. destruct t; discriminate.
  - intros w o w' r Hr IH Hs t ev t' e Ht Ha.
    destruct (step_accepted _ _ _ _ Hr Hs) as [(evs & E & H0)|(m & ov & args & l & s & coll & n & x & mr & unh & -> & -> & Hf & Hc & E & H0)];
      rewrite E in Ht; apply app_split in Ht.
    + destruct Ht as [(u & Hu & _)|(u & _ & Hu)].
      * destruct (IH _ _ _ _ Hu Ha) as (wp & y & c & cl & ops & H1 & H2 & H3 & H4). exists wp, y, c, cl, (ops ++ [o]). do 3 (split; auto).
        -- eapply run_app; eauto. eapply run_one; eauto.
      * exfalso. specialize (H0 e). rewrite Hu, accepted_app, accepted_cons, (accept_counts _ _ Ha) in H0. lia.
    + destruct Ht as [(u & Hu & _)|(u & -> & Hu)].
      * destruct (IH _ _ _ _ Hu Ha) as (wp & y & c & cl & ops & H1 & H2 & H3 & H4). exists wp, y, c, cl, (ops ++ [OCall m ov args l]). do 3 (split; auto).
        -- eapply run_app; eauto. eapply run_one; eauto.
      * apply app_split in Hu. destruct Hu as [(v & Hv & _)|(v & -> & Hv)].
        { exfalso. specialize (H0 e). rewrite Hv, accepted_app, accepted_cons, (accept_counts _ _ Ha) in H0. lia. }
        assert (v = [] /\ ev = EvReport (w_rid w) (RFull (make_call_report (call_of s args l)) mr) [n]) as [-> ->].
        { destruct v as [|a v]; simpl in Hv; inversion Hv; auto. destruct v; discriminate. }
        assert (n = e) as ->.
        { pose proof (accept_counts _ _ Ha) as A. rewrite accepted_full in A. destruct (Nat.eqb_spec n e); auto. discriminate. }
        exists w, x, (call_of s args l), coll, [OCall m ov args l]. split; auto. split; auto. split; [eapply run_one; eauto|].
        intros k. rewrite app_nil_r, accepted_app, H0. lia.
Qed.

(** Expectations of a later state with a number that existed before. *)
Lemma run_static_back w ops w' e x' : WInv w -> run w ops w' -> exp_at w' e x' -> e < length (w_exps w) ->
  exists x, exp_at w e x /\ same_static x x'.
Proof.
  intros I H Hx He. destruct (nth_error_ex _ _ He) as [x Hx0]. destruct (run_static _ _ _ I H _ _ Hx0) as (y & Hy & Hst).
  unfold exp_at in *. rewrite Hx in Hy. inversion Hy; subst. eauto.
Qed.

Lemma static_min x x' : same_static x x' -> x_min x' = x_min x.
Proof. unfold same_static. tauto. Qed.
Lemma static_max x x' : same_static x x' -> x_max x' = x_max x.
Proof. unfold same_static. tauto. Qed.
Lemma static_seqs x x' : same_static x x' -> x_seqs x' = x_seqs x.
Proof. unfold same_static, x_seqs. intros H. f_equal. tauto. Qed.

Lemma run_length w ops w' : run w ops w' -> length (w_exps w) <= length (w_exps w').
Proof. intros H. induction H; auto. pose proof (step_exps_length _ _ _ _ H). lia. Qed.

(** C12 *)
Lemma in_order w t1 ev1 t2 ev2 t3 e1 e2 x1 x2 s : reachable w ->
  w_trace w = t1 ++ ev1 :: t2 ++ ev2 :: t3 -> is_accept e1 ev1 = true -> is_accept e2 ev2 = true ->
  exp_at w e1 x1 -> exp_at w e2 x2 -> In s (x_seqs x1) -> In s (x_seqs x2) -> e1 <= e2.
Proof.
  intros Hr Ht Ha1 Ha2 Hx1 Hx2 Hs1 Hs2.
  assert (Ht2 : w_trace w = (t1 ++ ev1 :: t2) ++ ev2 :: t3) by (rewrite <- app_assoc; exact Ht).
  destruct (accept_event _ Hr _ _ _ _ Ht Ha1) as (w1 & y1 & c1 & coll1 & ops1 & R1 & ((L1 & _) & _) & Q1 & _).
  destruct (accept_event _ Hr _ _ _ _ Ht2 Ha2) as (w2 & y2 & c2 & coll2 & ops2 & R2 & ((L2 & _) & _ & _ & Ap) & Q2 & Ek).
  assert (A1 : 1 <= accepted (w_trace w2) e1).
  { rewrite Ek, accepted_app, accepted_cons, (accept_counts _ _ Ha1). lia. }
  destruct (Nat.le_gt_cases e1 e2) as [|Hlt]; auto. exfalso.
  pose proof (winv_reachable _ R2) as I2.
  assert (Hl : e1 < length (w_exps w2)).
  { destruct (Nat.lt_ge_cases e1 (length (w_exps w2))) as [|Hge]; auto. destruct (wi_fresh _ I2 _ Hge). lia. }
  destruct (run_static_back _ _ _ _ _ I2 Q2 Hx1 Hl) as (z1 & Hz1 & S1).
  destruct (run_static_back _ _ _ _ _ I2 Q2 Hx2 (nth_error_lt _ _ _ L2)) as (z2 & Hz2 & S2).
  unfold exp_at in *. rewrite L2 in Hz2. inversion Hz2; subst z2.
  rewrite (static_seqs _ _ S1) in Hs1. rewrite (static_seqs _ _ S2) in Hs2.
  destruct (Ap s Hs2 e1 z1 Hz1 Hs1) as [_ B]. specialize (B Hlt). lia.
Qed.

Lemma mins_reached w t ev t' e x e' x' s : reachable w -> w_trace w = t ++ ev :: t' -> is_accept e ev = true ->
  exp_at w e x -> exp_at w e' x' -> In s (x_seqs x) -> In s (x_seqs x') -> e' < e ->
  (x_min x' <= Z.of_nat (accepted t e'))%Z.
Proof.
  intros Hr Ht Ha Hx Hx' Hs Hs' Hlt.
  destruct (accept_event _ Hr _ _ _ _ Ht Ha) as (w2 & y & c & coll & ops & R2 & ((L & _) & _ & _ & Ap) & Q2 & Ek).
  pose proof (winv_reachable _ R2) as I2. pose proof (nth_error_lt _ _ _ L) as Hl.
  destruct (run_static_back _ _ _ _ _ I2 Q2 Hx Hl) as (z & Hz & S).
  destruct (run_static_back _ _ _ _ _ I2 Q2 Hx' ltac:(lia)) as (z' & Hz' & S').
  unfold exp_at in *. rewrite L in Hz. inversion Hz; subst z.
  rewrite (static_seqs _ _ S) in Hs. rewrite (static_seqs _ _ S') in Hs'.
  destruct (Ap s Hs e' z' Hz' Hs') as [B _]. rewrite (static_min _ _ S'), <- Ek. auto.
Qed.

(** Expectations that cannot accept any more. *)
Lemma step_stuck w o w' r e : reachable w -> step w o = Next w' r ->
  (forall coll c x, ~ candidate w coll c e x) -> accepted (w_trace w') e = accepted (w_trace w) e.
Proof.
  intros Hr Hs Hn. destruct (step_accepted _ _ _ _ Hr Hs) as [(evs & -> & H)|(m & ov & args & l & s & coll & n & x & mr & unh & _ & _ & _ & Hc & -> & H)].
  - rewrite accepted_app, H. lia.
  - rewrite !accepted_app, H, accepted_full. destruct (Nat.eqb_spec n e) as [->|]; [|lia]. exfalso. eapply Hn; eauto.
Qed.

(** Dead expectations stay dead. *)
Lemma dead_run w ops w' e x : WInv w -> run w ops w' -> exp_at w e x -> eo_alive x = false ->
  exists x', exp_at w' e x' /\ same_static x x' /\ eo_alive x' = false.
Proof.
  intros I H. revert I x. induction H as [|w o w1 r ops w2 Hs Hr IH]; intros I x Hx Ha.
  - exists x. split; auto. split; auto. apply same_static_refl.
  - destruct (step_exps _ _ _ _ I Hs _ _ Hx) as (x1 & Hx1 & Hst & Hal). rewrite Ha in Hal. simpl in Hal.
    destruct (IH (winv_step _ _ _ _ I Hs) _ Hx1 Hal) as (x2 & Hx2 & Hst2 & Ha2). exists x2. split; auto. split; auto.
    eapply same_static_trans; eauto.
Qed.

Lemma dead_accepts_nothing w ops w' e x : reachable w -> run w ops w' -> exp_at w e x -> eo_alive x = false ->
  accepted (w_trace w') e = accepted (w_trace w) e.
Proof.
  intros Hr H. revert Hr x. induction H as [|w o w1 r ops w2 Hs Hrun IH]; intros Hr x Hx Ha; auto.
  pose proof (winv_reachable _ Hr) as I.
  destruct (step_exps _ _ _ _ I Hs _ _ Hx) as (x1 & Hx1 & Hst & Hal). rewrite Ha in Hal. simpl in Hal.
  rewrite (IH (reachable_step _ _ _ _ Hr Hs) _ Hx1 Hal). apply (step_stuck _ _ _ _ _ Hr Hs).
  intros coll c y ((L & La & _) & _). unfold exp_at in *. congruence.
Qed.

(** C22 *)
Lemma blocked w ops w' e x e' x' s : reachable w -> exp_at w e x -> eo_alive x = false ->
  (Z.of_nat (accepted (w_trace w) e) < x_min x)%Z -> In s (x_seqs x) ->
  run w ops w' -> exp_at w' e' x' -> In s (x_seqs x') -> e < e' ->
  ~ applicable w' e' x' /\ accepted (w_trace w') e' = accepted (w_trace w) e'.
Proof.
  intros Hr Hx Ha Hm Hs Hrun Hx' Hs' Hlt.
  assert (N : forall v ops1 z', run w ops1 v -> exp_at v e' z' -> In s (x_seqs z') -> ~ applicable v e' z').
  { intros v ops1 z' Q Hz' Hsz [_ Ap].
    destruct (dead_run _ _ _ _ _ (winv_reachable _ Hr) Q Hx Ha) as (y & Hy & Sy & _).
    rewrite <- (static_seqs _ _ Sy) in Hs. destruct (Ap s Hsz e y Hy Hs) as [B _]. specialize (B Hlt).
    rewrite (static_min _ _ Sy), (dead_accepts_nothing _ _ _ _ _ Hr Q Hx Ha) in B. lia. }
  split; [eapply N; eauto|].
  assert (G : forall u ops1 ops2, run w ops1 u -> run u ops2 w' -> accepted (w_trace w') e' = accepted (w_trace u) e').
  { intros u ops1 ops2 Q1 Q2. revert ops1 Q1. induction Q2 as [|u o u1 r ops2 u2 Hst Q2 IH]; intros ops1 Q1; auto.
    rewrite (IH Hrun Hx' (ops1 ++ [o])).
    - apply (step_stuck _ _ _ _ _ (reachable_run _ _ _ Hr Q1) Hst). intros coll c z ((L & _) & _ & Ap).
      apply (N _ _ z Q1 L); auto.
      destruct (run_static_back _ (o :: ops2) _ _ _ (winv_reachable _ (reachable_run _ _ _ Hr Q1)) ltac:(econstructor; eauto) Hx' (nth_error_lt _ _ _ L)) as (z0 & Hz0 & Sz).
      unfold exp_at in *. rewrite L in Hz0. inversion Hz0; subst z0. rewrite <- (static_seqs _ _ Sz). auto.
    - eapply run_app; eauto. eapply run_one; eauto. }
  apply (G w [] ops); auto. constructor.
Qed.

(** Applicability only looks at the static parts and the counts. *)
Lemma applicable_ext w w' e x x' :
  (forall k y, exp_at w k y -> exists y', exp_at w' k y' /\ same_static y y') ->
  (forall k y', exp_at w' k y' -> (exists y, exp_at w k y) \/ (e < k /\ accepted (w_trace w') k = 0)) ->
  (forall k, accepted (w_trace w') k = accepted (w_trace w) k) ->
  same_static x x' -> (applicable w e x <-> applicable w' e x').
Proof.
  intros H1 H2 H3 Hs. unfold applicable. rewrite H3, (static_max _ _ Hs), (static_seqs _ _ Hs). split; intros [A B]; split; auto.
  - intros s Hin k y' Hy' Hin'. destruct (H2 _ _ Hy') as [[y Hy]|[Hlt H0]].
    + destruct (H1 _ _ Hy) as (z & Hz & Sz). unfold exp_at in *. rewrite Hy' in Hz. inversion Hz; subst z.
      rewrite (static_seqs _ _ Sz) in Hin'. rewrite (static_min _ _ Sz), H3. eauto.
    + split; auto. lia.
  - intros s Hin k y Hy Hin'. destruct (H1 _ _ Hy) as (y' & Hy' & Sy). rewrite <- (static_seqs _ _ Sy) in Hin'.
    specialize (B s Hin k y' Hy' Hin'). rewrite (static_min _ _ Sy), H3 in B. auto.
Qed.

(** Operations which accept no call and create no expectation leave every applicability alone. *)
Lemma applicable_step w o w' r e x : reachable w -> step w o = Next w' r -> exp_at w e x ->
  (forall k, accepted (w_trace w') k = accepted (w_trace w) k) ->
  exists x', exp_at w' e x' /\ same_static x x' /\ (applicable w e x <-> applicable w' e x').
Proof.
  intros Hr Hs Hx Hacc. pose proof (winv_reachable _ Hr) as I.
  destruct (step_exps _ _ _ _ I Hs _ _ Hx) as (x' & Hx' & Hst & _). exists x'. split; auto. split; auto.
  apply applicable_ext; auto.
  - intros k y Hy. destruct (step_exps _ _ _ _ I Hs _ _ Hy) as (y' & Hy' & Sy & _). eauto.
  - intros k y' Hy'. destruct (Nat.lt_ge_cases k (length (w_exps w))) as [Hlt|Hge].
    + left. apply nth_error_ex; auto.
    + right. split; [apply nth_error_lt in Hx; lia|]. rewrite Hacc. apply (wi_fresh _ I); auto.
Qed.
