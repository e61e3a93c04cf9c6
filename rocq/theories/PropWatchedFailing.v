(** * PropWatchedFailing: C98. Watched objects whose Base throws. *)

From Coq Require Import Permutation.
From Verif Require Import Base Lib Sequence Control Signature Printer Reports Expectation Builder World WorldSpec CallSpec
  StepCases ObjInv WorldInv CallProofs CountProofs Scenario FrameSpec Watcher WatchSpec WatchProofs WatchSteps PropWatcher Watched PropWatched PropOwned FrameProofs.

(** ** Vocabulary *)

(** [s'] is [s] without the watchers [ps]: nothing else has happened to any watcher, nothing was reported, no expectation has changed. *)
Definition without (s s' : wworld) (ps : list part) : Prop :=
  (forall p, present s' p <-> present s p /\ ~ In p ps) /\
  (forall i m fl, ~ In (PLife i) ps -> carries s i m fl -> carries s' i m fl) /\
  (forall j, ~ In (PReloc j) ps -> (forall c, watches s j c -> watches s' j c) /\ (emptied s j -> emptied s' j)) /\
  w_trace (ww s') = w_trace (ww s) /\ w_exps (ww s') = w_exps (ww s) /\ w_reporter (ww s') = w_reporter (ww s) /\
  ww_conts s' = ww_conts s /\ depth s' = depth s.

(** Nothing takes the call which reports the end of the identity [m]. *)
Definition unwanted (s : wworld) (m : nat) (l : loc) : Prop := forall c, place (ww s) m c -> refused s c l.

(** ** Single watchers *)

Lemma unannounced s i m l : wreachable s -> carries s i m false -> unwanted s m l.
Proof.
  intros W Hc c Hp e x ((Hx & _ & Hxc) & _). destruct (C50_at_most_one s i m false e x W Hc) as [F _]; [exists c; auto|discriminate].
Qed.
Lemma ldestroy_stops s i m fl l : wreachable s -> carries s i m fl -> unwanted s m l -> obeys_contract (w_reporter (ww s)) -> wstep s (LDestroy i true l) = WStop.
Proof.
  intros W Hc Hu Ho. destruct (C50_collection _ _ _ _ W Hc) as [c Hp].
  destruct (C50_destruction s i m fl c true l W Hc Hp Ho) as [(e & x & mr & s' & Hx & _)|(_ & rep & who & s' & Hf & E & _)]; [exfalso; eapply Hu; eauto|].
  rewrite E. destruct Ho as (H1 & H2 & _). destruct (react (ww s) rep) eqn:R; auto. exfalso. unfold react in R.
  destruct Hf as [(_ & _ & ms & -> & _)|(_ & _ & ms & -> & _)]; [eapply H2|eapply H1]; eauto.
Qed.
Lemma rdestroy_without s j : wreachable s -> present s (PReloc j) ->
  exists s', wstep s (RDestroy j) = WNext s' RUnit /\ without s s' [PReloc j] /\ w_uncaught (ww s') = w_uncaught (ww s) /\ ww_life s' = ww_life s.
Proof.
  intros W [m Hj]. destruct (reloc_gone _ _ _ W Hj) as (w1 & Ew & E). eexists. split; [exact E|].
  pose proof (wstep_changes s (RDestroy j) _ _ eq_refl E) as [Hch _]. cbn [change_by changes] in Hch. destruct Hch as [_ Hch].
  pose proof (kept _ _ _ _ (eq_refl : frames_kept (ODestroyMock m) = true) Ew) as (K0 & K1 & K2 & _ & _ & _ & K3 & K4).
  split; [|split; [exact K4|reflexivity]]. split.
  { intros p. rewrite Hch. cbn [In]. split; intros [A B]; (split; [exact A|]); [intros [F|[]]; congruence|intros ->; auto]. }
  split; [intros i n fl _ H; exact H|]. split.
  { intros q Hq. assert (Hqj : q <> j) by (intros ->; apply Hq; left; reflexivity).
    assert (K : forall n mk, nth_error (ww_reloc s) q = Some (Some n) -> nth_error (w_mocks (ww s)) n = Some mk -> nth_error (upd (ww_reloc s) j None) q = Some (Some n) /\ nth_error (w_mocks w1) n = Some mk).
    { intros n mk A B. split; [rewrite nth_error_upd_neq by auto; exact A|]. eapply unnamed_mock; [exact Ew| |exact B]. cbn [named In]. intros [F|[]]. subst n.
      pose proof (inv_wreachable _ W) as I. pose proof (v_rown _ I m) as Ho.
      pose proof (countb_upd (rholds m) (ww_reloc s) j (Some m) None Hj) as U. cbn [rholds] in U. rewrite Nat.eqb_refl in U. cbn [b2n] in U.
      assert (1 <= countb (rholds m) (upd (ww_reloc s) j None)); [|lia].
      apply countb_in with (x := Some m); [|simpl; apply Nat.eqb_refl]. apply nth_error_In with (n := q). rewrite nth_error_upd_neq; auto. }
    split; [intros c (n & A & B)|intros (n & A & B)]; exists n; apply (K _ _ A B). }
  cbn [ww after_op ww_conts set_reloc]. unfold depth. cbn [ww after_op]. rewrite K0. auto 10.
Qed.
Lemma ldestroy_without s i l : wreachable s -> moved_from s i ->
  exists s', wstep s (LDestroy i true l) = WNext s' RUnit /\ without s s' [PLife i] /\ w_uncaught (ww s') = w_uncaught (ww s) /\ ww_life s' = upd (ww_life s) i None.
Proof.
  intros W [fl Hi]. assert (E : wstep s (LDestroy i true l) = WNext (set_life s (upd (ww_life s) i None)) RUnit) by (cbn [wstep]; rewrite Hi; reflexivity).
  eexists. split; [exact E|]. pose proof (wstep_changes s (LDestroy i true l) _ _ eq_refl E) as [Hch _]. cbn [change_by changes] in Hch. destruct Hch as [_ Hch].
  split; [|split; reflexivity]. split.
  { intros p. rewrite Hch. cbn [In]. split; intros [A B]; (split; [exact A|]); [intros [F|[]]; congruence|intros ->; auto]. }
  split. { intros q m f Hq H. unfold carries in *. cbn [ww_life set_life]. rewrite nth_error_upd_neq; [exact H|]. intros ->. apply Hq. left. reflexivity. }
  split; [auto|]. auto 10.
Qed.
Lemma without_trans s s1 s2 ps qs : without s s1 ps -> without s1 s2 qs -> without s s2 (ps ++ qs).
Proof.
  intros (A1 & A2 & A3 & A4 & A5 & A6 & A7 & A8) (B1 & B2 & B3 & B4 & B5 & B6 & B7 & B8). split; [|split; [|split]].
  - intros p. rewrite B1, A1, in_app_iff. tauto.
  - intros i m fl H C. rewrite in_app_iff in H. apply B2; [tauto|]. apply A2; tauto.
  - intros j H. rewrite in_app_iff in H. destruct (A3 j) as [X Y]; [tauto|]. destruct (B3 j) as [X' Y']; [tauto|]. auto.
  - repeat split; congruence.
Qed.
Lemma without_perm s s' ps qs : (forall p, In p ps <-> In p qs) -> without s s' ps -> without s s' qs.
Proof.
  intros H (A1 & A2 & A3 & A4). split; [|split; [|split]]; [| | |exact A4].
  - intros p. rewrite A1, H. reflexivity.
  - intros i m fl. rewrite <- H. apply A2.
  - intros j. rewrite <- H. apply A3.
Qed.
Lemma unwind_without s n : wreachable s -> without s (after_op s (set_uncaught (ww s) n) (OUnwind n)) [].
Proof.
  intros W. split; [intros p; cbn [In]; destruct p; cbn [present ww_life ww_reloc after_op]; tauto|]. split; [auto|]. split; [auto|]. auto 10.
Qed.
Lemma unwanted_without s s' ps m l : without s s' ps -> (forall c, place (ww s') m c -> place (ww s) m c) -> unwanted s m l -> unwanted s' m l.
Proof.
  intros (_ & _ & _ & K1 & K2 & _) Hm H c Hp e x Hx. rewrite (candidate_ext (ww s) (ww s') K2 K1) in Hx. eapply H; eauto.
Qed.

(** ** The destruction of the watchers while an exception is in flight *)

Lemma destroy_silent todo l x n : forall d, wreachable (dw d) -> NoDup todo -> Forall (present (dw d)) todo -> (forall i, In (PLife i) todo -> moved_from (dw d) i) ->
  exists d', go d (destroy_plan todo true l (Some (x, n))) = DNext d' (RThrow x) /\ dw_objs d' = dw_objs d /\ dw_tasks d' = dw_tasks d /\ without (dw d) (dw d') todo /\
    w_uncaught (ww (dw d')) = n /\ (forall i, In (PLife i) todo \/ nth_error (ww_life (dw d')) i = nth_error (ww_life (dw d)) i).
Proof.
  induction todo as [|p t IH]; intros d W Nd Pr Mv.
  - cbn [destroy_plan go]. rewrite (unwind_step _ _ W). cbn [ww_conts after_op]. rewrite Nat.ltb_irrefl. cbn [go]. eexists. split; [reflexivity|]. split; [reflexivity|]. split; [reflexivity|].
    split; [apply unwind_without; exact W|]. split; [reflexivity|]. auto.
  - inversion Nd as [|? ? N1 N2]; subst. inversion Pr as [|? ? P1 P2]; subst.
    assert (G : forall o s', wstep (dw d) o = WNext s' RUnit -> without (dw d) s' [p] -> (forall i, p = PLife i \/ nth_error (ww_life s') i = nth_error (ww_life (dw d)) i) ->
      go d (destroy_plan (p :: t) true l (Some (x, n))) = go (set_dw d s') (destroy_plan t true l (Some (x, n))) ->
      exists d', go d (destroy_plan (p :: t) true l (Some (x, n))) = DNext d' (RThrow x) /\ dw_objs d' = dw_objs d /\ dw_tasks d' = dw_tasks d /\ without (dw d) (dw d') (p :: t) /\
        w_uncaught (ww (dw d')) = n /\ (forall i, In (PLife i) (p :: t) \/ nth_error (ww_life (dw d')) i = nth_error (ww_life (dw d)) i)).
    { intros o s' E Hw Hl Eg. destruct (IH (set_dw d s')) as (d' & Hg & A1 & A2 & A3 & A4 & A5).
      - eapply wreachable_step; eauto.
      - exact N2.
      - rewrite Forall_forall in *. intros q Hq. cbn [dw set_dw]. apply (proj1 Hw). split; [auto|]. intros [->|[]]. contradiction.
      - intros i Hi. cbn [dw set_dw]. destruct (Hl i) as [->|E']; [contradiction|]. destruct (Mv i) as [fl F]; [right; exact Hi|]. exists fl. rewrite E'. exact F.
      - exists d'. rewrite Eg. split; [exact Hg|]. split; [exact A1|]. split; [exact A2|]. split; [apply (without_trans _ s' _ [p] t); auto|]. split; [exact A4|].
        intros i. destruct (A5 i) as [F|F]; [left; right; exact F|]. destruct (Hl i) as [->|F']; [left; left; reflexivity|]. right. rewrite F. exact F'. }
    destruct p as [i|j].
    + destruct (ldestroy_without (dw d) i l W (Mv i (or_introl eq_refl))) as (s' & E & Hw & _ & El). apply (G _ s' E Hw).
      * intros i'. destruct (Nat.eq_dec i' i) as [->|Hne]; [left; reflexivity|right]. rewrite El. apply nth_error_upd_neq. auto.
      * cbn [destroy_plan go]. rewrite E. destruct Hw as (_ & _ & _ & _ & _ & _ & Ec & _). rewrite Ec, Nat.ltb_irrefl. reflexivity.
    + destruct (rdestroy_without (dw d) j W P1) as (s' & E & Hw & _ & El). apply (G _ s' E Hw).
      * intros i'. right. rewrite El. reflexivity.
      * cbn [destroy_plan go]. rewrite E. destruct Hw as (_ & _ & _ & _ & _ & _ & Ec & _). rewrite Ec, Nat.ltb_irrefl. reflexivity.
Qed.

(** At most one lifetime watcher, as in every object: the relocation watchers around it do not matter. *)
Lemma destroy_stops todo l x n i m fl : forall d, wreachable (dw d) -> NoDup todo -> Forall (present (dw d)) todo -> In (PLife i) todo -> (forall q, In (PLife q) todo -> q = i) ->
  carries (dw d) i m fl -> unwanted (dw d) m l -> obeys_contract (w_reporter (ww (dw d))) -> go d (destroy_plan todo true l (Some (x, n))) = DStop.
Proof.
  induction todo as [|p t IH]; intros d W Nd Pr Hin Hone Hc Hu Ho; [destruct Hin|]. inversion Nd as [|? ? N1 N2]; subst. inversion Pr as [|? ? P1 P2]; subst.
  destruct p as [q|j].
  - assert (q = i) by (apply Hone; left; reflexivity). subst q. cbn [destroy_plan go]. rewrite (ldestroy_stops _ _ _ _ _ W Hc Hu Ho). reflexivity.
  - destruct (rdestroy_without (dw d) j W P1) as (s' & E & Hw & _ & El). cbn [destroy_plan go]. rewrite E. pose proof Hw as (W1 & W2 & _ & Kt & Ke & Kr & Ec & _). rewrite Ec, Nat.ltb_irrefl.
    apply IH; cbn [dw set_dw].
    + eapply wreachable_step; eauto.
    + exact N2.
    + rewrite Forall_forall in *. intros p Hp. apply W1. split; [auto|]. intros [<-|[]]. contradiction.
    + destruct Hin as [F|F]; [discriminate|exact F].
    + intros q Hq. apply Hone. right. exact Hq.
    + apply W2; [|exact Hc]. intros [F|[]]. discriminate.
    + destruct (C50_collection _ _ _ _ W Hc) as [c Hp]. eapply unwanted_without; [exact Hw| |exact Hu]. intros c' Hp'.
      destruct P1 as [mj Hj]. destruct (reloc_gone _ _ _ W Hj) as (w1 & Ew & E1). rewrite E1 in E. inversion E; subst s'.
      assert (X : place w1 m c). { unfold place in *. eapply unnamed_mock; [exact Ew| |exact Hp]. cbn [named In]. intros [F|[]]. subst mj.
        pose proof (inv_wreachable _ W) as I. eapply (v_disj _ I); [apply (v_life _ I _ _ _ Hc)|apply (v_reloc _ I _ _ Hj)]. }
      unfold place in *. cbn [ww after_op] in Hp'. rewrite X in Hp'. inversion Hp'; subst. exact Hp.
    + rewrite Kr. exact Ho.
Qed.
(** However it goes on: the identity is called once. *)
Lemma destroy_calls todo l x n i m fl : forall d d' r, wreachable (dw d) -> In (PLife i) todo -> (forall q, In (PLife q) todo -> q = i) ->
  carries (dw d) i m fl -> go d (destroy_plan todo true l (Some (x, n))) = DNext d' r ->
  calls m (ww_log (dw d)) = 0 /\ calls m (ww_log (dw d')) = 1 /\ forall j fl', ~ carries (dw d') j m fl'.
Proof.
  induction todo as [|p t IH]; intros d d' r W Hin Hone Hc H; [destruct Hin|]. destruct p as [q|j].
  - assert (q = i) by (apply Hone; left; reflexivity). subst q. cbn [destroy_plan go] in H. destruct (wstep (dw d) (LDestroy i true l)) as [s1 r1| | |] eqn:E; try discriminate.
    assert (R : exists ops, wrun s1 ops (dw d')). { destruct (_ <? _); [inversion H; subst; exists []; constructor|]. apply go_run in H. exact H. }
    destruct R as [ops R]. destruct (C50_called_once _ _ _ _ _ _ _ _ _ _ W Hc E R) as (A & _ & B & C). auto.
  - cbn [destroy_plan go] in H. destruct (wstep (dw d) (RDestroy j)) as [s1 r1| | |] eqn:E; try discriminate. pose proof (rdestroy_next _ _ _ _ E) as (El & Ec & _ & _). rewrite Ec, Nat.ltb_irrefl in H.
    assert (In (PLife i) t) by (destruct Hin as [F|F]; [discriminate|exact F]).
    assert (Q : calls m (ww_log s1) = calls m (ww_log (dw d))).
    { pose proof (inv_wreachable _ W) as I. destruct (v_life _ I _ _ _ Hc) as [Hi _]. pose proof (adds_step m (dw d) (RDestroy j) (in_or_app _ _ _ (or_introl Hi))) as A. rewrite E in A. cbn [adds calling] in A. lia. }
    rewrite <- Q. apply (IH (set_dw d s1) d' r); auto; cbn [dw set_dw].
    + eapply wreachable_step; eauto.
    + intros q Hq. apply Hone. right. exact Hq.
    + unfold carries. rewrite El. exact Hc.
Qed.

Lemma unwinding_go d ps x l : wreachable (dw d) -> exists d0, go d (unwinding (dw d) ps x l) = go d0 (destroy_plan (rev ps) true l (Some (x, w_uncaught (ww (dw d))))) /\
  wreachable (dw d0) /\ dw_objs d0 = dw_objs d /\ dw_tasks d0 = dw_tasks d /\ without (dw d) (dw d0) [] /\ ww_life (dw d0) = ww_life (dw d) /\ ww_reloc (dw d0) = ww_reloc (dw d) /\
  ww_log (dw d0) = ww_log (dw d) ++ [OUnwind (S (w_uncaught (ww (dw d))))] /\ (forall m c, place (ww (dw d0)) m c -> place (ww (dw d)) m c) /\
  w_uncaught (ww (dw d0)) = S (w_uncaught (ww (dw d))).
Proof.
  intros W. set (n := S (w_uncaught (ww (dw d)))). pose proof (unwind_step (dw d) n W) as E. exists (set_dw d (after_op (dw d) (set_uncaught (ww (dw d)) n) (OUnwind n))).
  split; [unfold unwinding; fold n; cbn [go]; rewrite E; cbn [ww_conts after_op]; rewrite Nat.ltb_irrefl; reflexivity|].
  split; [eapply wreachable_step; [exact W|exact E]|]. split; [reflexivity|]. split; [reflexivity|]. split; [apply (unwind_without (dw d) n W)|].
  repeat split; auto.
Qed.

Lemma distinct_parts ps : distinct (map kind_of ps) = true -> NoDup ps /\ forall i q, In (PLife i) ps -> In (PLife q) ps -> q = i.
Proof.
  intros H. assert (S : ps = [] \/ (exists p, ps = [p]) \/ (exists i j, ps = [PLife i; PReloc j]) \/ exists i j, ps = [PReloc j; PLife i]).
  { destruct ps as [|p [|q ps]]; [auto|eauto|]. right. right.
    destruct ps as [|o ps]; [|destruct p, q, o; cbn in H; try discriminate; destruct (existsb (kind_eqb KLife) (map kind_of ps)), (existsb (kind_eqb KReloc) (map kind_of ps)); cbn in H; discriminate].
    destruct p as [i|i], q as [j|j]; cbn in H; try discriminate; eauto. }
  destruct S as [->|[(p & ->)|[(i & j & ->)|(i & j & ->)]]]; (split; [repeat constructor; cbn; intuition discriminate|]); intros a q Ha Hq; cbn [In] in *; intuition congruence.
Qed.
Lemma unwinding_stops d ps x l i m fl : wreachable (dw d) -> distinct (map kind_of ps) = true -> Forall (present (dw d)) ps -> In (PLife i) ps ->
  carries (dw d) i m fl -> unwanted (dw d) m l -> obeys_contract (w_reporter (ww (dw d))) -> go d (unwinding (dw d) ps x l) = DStop.
Proof.
  intros W Hd Pr Hin Hc Hu Ho. destruct (distinct_parts _ Hd) as [Nd One]. destruct (unwinding_go d ps x l W) as (d0 & E & W0 & _ & _ & Hw & L0 & R0 & _ & Pl & _). rewrite E.
  pose proof Hw as (P0 & C0 & _ & _ & _ & Kr & _). apply (destroy_stops _ l x _ i m fl); auto.
  - apply NoDup_rev. exact Nd.
  - apply Forall_rev. rewrite Forall_forall in *. intros p Hp. apply P0. split; [auto|auto].
  - apply in_rev in Hin. exact Hin.
  - intros q Hq. apply in_rev in Hq. eauto.
  - eapply unwanted_without; eauto.
  - rewrite Kr. exact Ho.
Qed.
Lemma unwinding_calls d ps x l i m fl d' r : wreachable (dw d) -> distinct (map kind_of ps) = true -> In (PLife i) ps -> carries (dw d) i m fl ->
  go d (unwinding (dw d) ps x l) = DNext d' r -> calls m (ww_log (dw d)) = 0 /\ calls m (ww_log (dw d')) = 1 /\ forall j fl', ~ carries (dw d') j m fl'.
Proof.
  intros W Hd Hin Hc H. destruct (distinct_parts _ Hd) as [Nd One]. destruct (unwinding_go d ps x l W) as (d0 & E & W0 & _ & _ & Hw & L0 & R0 & Lg & _). rewrite E in H.
  assert (Q : calls m (ww_log (dw d0)) = calls m (ww_log (dw d))) by (rewrite Lg; unfold calls; rewrite filter_app; cbn; rewrite app_nil_r; reflexivity).
  rewrite <- Q. apply (destroy_calls (rev ps) l x (w_uncaught (ww (dw d))) i m fl d0 d' r); auto.
  - apply in_rev in Hin. exact Hin.
  - intros q Hq. apply in_rev in Hq. eauto.
  - unfold carries. rewrite L0. exact Hc.
Qed.
Lemma unwinding_silent d ps x l : wreachable (dw d) -> NoDup ps -> Forall (present (dw d)) ps -> (forall i, In (PLife i) ps -> moved_from (dw d) i) ->
  exists d', go d (unwinding (dw d) ps x l) = DNext d' (RThrow x) /\ dw_objs d' = dw_objs d /\ dw_tasks d' = dw_tasks d /\ without (dw d) (dw d') ps /\
    w_uncaught (ww (dw d')) = w_uncaught (ww (dw d)).
Proof.
  intros W Nd Pr Mv. destruct (unwinding_go d ps x l W) as (d0 & E & W0 & O0 & T0 & Hw & L0 & R0 & Lg & _). rewrite E.
  destruct (destroy_silent (rev ps) l x (w_uncaught (ww (dw d))) d0 W0) as (d' & G & A1 & A2 & A3 & A4 & _).
  - apply NoDup_rev. exact Nd.
  - apply Forall_rev. rewrite Forall_forall in *. intros p Hp. apply (proj1 Hw). split; [auto|auto].
  - intros i Hi. apply in_rev in Hi. destruct (Mv i Hi) as [fl F]. exists fl. rewrite L0. exact F.
  - exists d'. split; [exact G|]. split; [congruence|]. split; [congruence|]. split; [|exact A4].
    apply (without_perm _ _ ([] ++ rev ps)); [intros p; cbn [app]; symmetry; apply in_rev|]. eapply without_trans; eauto.
Qed.

(** ** A function of Base throws *)

Lemma set_objs_same d : set_objs d (dw_objs d) = d.
Proof. destruct d. reflexivity. Qed.
Lemma throws_cases x l p : forall d,
  match go d p with
  | DNext d' r =>
      (exists y, r = RThrow y /\ dw_objs d' = dw_objs d /\ dw_tasks d' = dw_tasks d /\ go d (base_throws (dw d) p x l) = DNext d' r) \/
      (is_throw r = false /\ dw_objs d' = dw_objs d /\ dw_tasks d' = dw_tasks d /\ go d (base_throws (dw d) p x l) = DNext d' (RThrow x)) \/
      (exists b ps, r = RUnit /\ dw_objs d' = dw_objs d ++ [Some (b, ps)] /\ dw_tasks d' = dw_tasks d /\
         go d (base_throws (dw d) p x l) = go (set_objs d' (dw_objs d)) (unwinding (dw d') ps x l)) \/
      (exists n k, r = RUnit /\ dw_objs d' = dw_objs d /\ dw_tasks d' = (n, k) :: dw_tasks d /\
         go d (base_throws (dw d) p x l) = DNext (set_tasks d' ((n, fun s1 r1 => base_throws s1 (k s1 r1) x l) :: dw_tasks d)) RUnit)
  | st => go d (base_throws (dw d) p x l) = st
  end.
Proof.
  induction p as [r|b ps|o k IH]; intros d.
  - cbn [go base_throws]. destruct r; cbn [go is_throw]; eauto 10.
  - cbn [go]. right. right. left. exists b, ps. split; [reflexivity|]. split; [reflexivity|]. split; [reflexivity|]. cbn [base_throws dw set_objs dw_objs]. change (set_objs (set_objs d (dw_objs d ++ [Some (b, ps)])) (dw_objs d)) with (set_objs d (dw_objs d)).
    rewrite set_objs_same. reflexivity.
  - cbn [go base_throws]. destruct (wstep (dw d) o) as [s r| | |] eqn:E; auto. destruct (length (ww_conts (dw d)) <? length (ww_conts s)).
    + right. right. right. eexists _, _. split; [reflexivity|]. split; [reflexivity|]. split; [reflexivity|]. reflexivity.
    + specialize (IH s r (set_dw d s)). cbn [dw set_dw dw_objs dw_tasks] in IH. exact IH.
Qed.

(** ** Construction *)

Lemma new_life_step s : wreachable s -> exists s' m, wstep s LNew = WNext s' RUnit /\ carries s' (length (ww_life s)) m false /\ length (ww_life s') - 1 = length (ww_life s) /\ 
  (forall p, present s' p <-> present s p \/ p = PLife (length (ww_life s))) /\ (forall i n fl, carries s i n fl -> carries s' i n fl) /\ (forall j, (forall c, watches s j c -> watches s' j c) /\ (emptied s j -> emptied s' j)) /\
  w_trace (ww s') = w_trace (ww s) /\ w_exps (ww s') = w_exps (ww s) /\ w_reporter (ww s') = w_reporter (ww s) /\ ww_conts s' = ww_conts s /\ depth s' = depth s /\ w_uncaught (ww s') = w_uncaught (ww s).
Proof.
  intros W. destruct (C51_copy s LNew W (or_introl eq_refl)) as (s' & m & E & Hc & _ & Ht & He & Ho). exists s', m. split; [exact E|].
  pose proof (wstep_changes s LNew _ _ eq_refl E) as [Hch _]. cbn [change_by changes] in Hch. destruct Hch as [_ Hch].
  cbn [wstep] in E. unfold new_life, perform in E. destruct (step (ww s) (ONewMock [sig_watch])) as [w1 r1| | |] eqn:Es; try discriminate. inversion E; subst s'.
  pose proof (kept _ _ _ _ (eq_refl : frames_kept (ONewMock [sig_watch]) = true) Es) as (K0 & _ & _ & _ & _ & _ & K3 & K4).
  assert (L : length (ww_life s ++ [Some (mkLW false (Some (length (w_mocks (ww s)))))]) - 1 = length (ww_life s)) by (rewrite app_length; cbn; lia).
  cbn [ww ww_life ww_reloc ww_conts set_life own_life] in *. split; [exact Hc|]. split; [exact L|]. split; [intros p; rewrite Hch, L; reflexivity|].
  split. { intros i n fl H. unfold carries in *. cbn [ww_life set_life own_life]. rewrite nth_error_app1; [exact H|]. eapply nth_error_lt; eauto. }
  split. { intros j. split; [intros c (q & A & B)|intros (q & A & B)]; exists q; (split; [exact A|]); unfold place in *; cbn [ww set_life own_life]; eapply unnamed_mock; eauto. }
  do 4 (split; [auto|]). split; [unfold depth; cbn [ww set_life own_life]; rewrite K0; reflexivity|exact K4].
Qed.
Lemma new_reloc_step s : wreachable s -> exists s' c, wstep s RNew = WNext s' RUnit /\ watches s' (length (ww_reloc s)) c /\ length (ww_reloc s') - 1 = length (ww_reloc s) /\
  (forall p, present s' p <-> present s p \/ p = PReloc (length (ww_reloc s))) /\ (forall i n fl, carries s i n fl -> carries s' i n fl) /\ (forall j, (forall c, watches s j c -> watches s' j c) /\ (emptied s j -> emptied s' j)) /\
  w_trace (ww s') = w_trace (ww s) /\ w_exps (ww s') = w_exps (ww s) /\ w_reporter (ww s') = w_reporter (ww s) /\ ww_conts s' = ww_conts s /\ depth s' = depth s /\ w_uncaught (ww s') = w_uncaught (ww s).
Proof.
  intros W. destruct (C52_copy s RNew W (or_introl eq_refl)) as (s' & c & E & Hc & _ & Ht & He & Ho). exists s', c. split; [exact E|].
  pose proof (wstep_changes s RNew _ _ eq_refl E) as [Hch _]. cbn [change_by changes] in Hch. destruct Hch as [_ Hch].
  cbn [wstep] in E. unfold new_reloc, perform in E. destruct (step (ww s) (ONewMock [sig_watch])) as [w1 r1| | |] eqn:Es; try discriminate. inversion E; subst s'.
  pose proof (kept _ _ _ _ (eq_refl : frames_kept (ONewMock [sig_watch]) = true) Es) as (K0 & _ & _ & _ & _ & _ & K3 & K4).
  assert (L : length (ww_reloc s ++ [Some (length (w_mocks (ww s)))]) - 1 = length (ww_reloc s)) by (rewrite app_length; cbn; lia).
  cbn [ww ww_life ww_reloc ww_conts set_reloc own_reloc] in *. split; [exact Hc|]. split; [exact L|]. split; [intros p; rewrite Hch, L; reflexivity|].
  split; [auto|]. split.
  { intros j. split; [apply Ho|]. intros (q & A & B). exists q. cbn [ww_reloc set_reloc own_reloc ww]. split; [rewrite nth_error_app1; [exact A|eapply nth_error_lt; eauto]|]. eapply unnamed_mock; eauto. }
  do 4 (split; [auto|]). split; [unfold depth; cbn [ww set_reloc own_reloc]; rewrite K0; reflexivity|exact K4].
Qed.

(** What a construction has done when Base is reached: the watchers [ps'] are new, everything else is as before. *)
Definition with_new (s s' : wworld) (ps' : list part) : Prop :=
  (forall p, present s' p <-> present s p \/ In p ps') /\ (forall p, In p ps' -> ~ present s p) /\
  (forall i, In (PLife i) ps' -> exists m, carries s' i m false) /\
  (forall i n fl, carries s i n fl -> carries s' i n fl) /\ (forall j, (forall c, watches s j c -> watches s' j c) /\ (emptied s j -> emptied s' j)) /\
  w_trace (ww s') = w_trace (ww s) /\ w_exps (ww s') = w_exps (ww s) /\ w_reporter (ww s') = w_reporter (ww s) /\ ww_conts s' = ww_conts s /\ depth s' = depth s /\ w_uncaught (ww s') = w_uncaught (ww s).
Lemma with_new_trans s s1 s2 p ps : with_new s s1 [p] -> with_new s1 s2 ps -> with_new s s2 (p :: ps).
Proof.
  intros (A1 & A2 & A3 & A4 & A5 & A6 & A7 & A8 & A9 & A10 & A11) (B1 & B2 & B3 & B4 & B5 & B6 & B7 & B8 & B9 & B10 & B11). split; [|split; [|split; [|split; [|split]]]].
  - intros q. rewrite B1, A1. cbn [In]. tauto.
  - intros q [<-|H]; [apply A2; left; reflexivity|]. intros F. apply (B2 q H). apply A1. auto.
  - intros i [->|H]; [|auto]. destruct (A3 i) as [m Hm]; [left; reflexivity|]. eauto.
  - auto.
  - intros j. destruct (A5 j), (B5 j). auto.
  - repeat split; congruence.
Qed.
Lemma new_go b todo : forall d built, wreachable (dw d) -> exists d' ps', go d (new_plan b todo built) = DNext d' RUnit /\ dw_objs d' = dw_objs d ++ [Some (b, built ++ ps')] /\ dw_tasks d' = dw_tasks d /\
  map kind_of ps' = todo /\ with_new (dw d) (dw d') ps' /\ wreachable (dw d').
Proof.
  induction todo as [|[|] t IH]; intros d built W; cbn [new_plan go].
  - eexists _, []. split; [reflexivity|]. rewrite app_nil_r. split; [reflexivity|]. split; [reflexivity|]. split; [reflexivity|]. split; [|exact W]. cbn [dw set_objs]. split; [cbn; tauto|]. split; [intros ? []|]. split; [intros ? []|].
    repeat split; auto.
  - destruct (new_life_step _ W) as (s' & m & E & Hc & L & P & A1 & A2 & A3 & A4 & A5 & A6 & A7 & A8). rewrite E, A6, Nat.ltb_irrefl, L.
    destruct (IH (set_dw d s') (built ++ [PLife (length (ww_life (dw d)))])) as (d' & ps' & G & B1 & B2 & B3 & B4 & B5); [eapply wreachable_step; eauto|].
    exists d', (PLife (length (ww_life (dw d))) :: ps'). split; [exact G|]. rewrite <- app_assoc in B1. split; [exact B1|]. split; [exact B2|]. split; [cbn; rewrite B3; reflexivity|]. split; [|exact B5].
    eapply with_new_trans; [|exact B4]. split; [intros p; rewrite P; cbn [In]; intuition auto|].
    split; [intros p [<-|[]] [lw F]; apply nth_error_lt in F; lia|]. split; [intros i [F|[]]; inversion F; subst; eauto|]. auto 12.
  - destruct (new_reloc_step _ W) as (s' & m & E & Hc & L & P & A1 & A2 & A3 & A4 & A5 & A6 & A7 & A8). rewrite E, A6, Nat.ltb_irrefl, L.
    destruct (IH (set_dw d s') (built ++ [PReloc (length (ww_reloc (dw d)))])) as (d' & ps' & G & B1 & B2 & B3 & B4 & B5); [eapply wreachable_step; eauto|].
    exists d', (PReloc (length (ww_reloc (dw d))) :: ps'). split; [exact G|]. rewrite <- app_assoc in B1. split; [exact B1|]. split; [exact B2|]. split; [cbn; rewrite B3; reflexivity|]. split; [|exact B5].
    eapply with_new_trans; [|exact B4]. split; [intros p; rewrite P; cbn [In]; intuition auto|].
    split; [intros p [<-|[]] [lw F]; apply nth_error_lt in F; lia|]. split; [intros i [F|[]]; discriminate|]. auto 12.
Qed.
(** Copying is constructing. *)
Lemma copy_go b todo : forall d built, wreachable (dw d) -> Forall (present (dw d)) todo -> go d (copy_plan b todo built) = go d (new_plan b (map kind_of todo) built).
Proof.
  induction todo as [|p t IH]; intros d built W Pr; [reflexivity|]. inversion Pr as [|? ? P1 P2]; subst. destruct p as [i|j]; cbn [copy_plan new_plan map kind_of go].
  - destruct P1 as [lw Hi]. assert (wstep (dw d) (LCopy i) = wstep (dw d) LNew) as -> by (cbn [wstep]; rewrite Hi; reflexivity).
    destruct (new_life_step _ W) as (s' & m & E & Hc & L & P & A1 & A2 & A3 & A4 & A5 & A6 & A7 & A8). rewrite E, A6, Nat.ltb_irrefl. apply IH; cbn [dw set_dw]; [eapply wreachable_step; eauto|].
    rewrite Forall_forall in *. intros q Hq. apply P. auto.
  - destruct P1 as [lw Hi]. assert (wstep (dw d) (RCopy j) = wstep (dw d) RNew) as -> by (cbn [wstep]; rewrite Hi; reflexivity).
    destruct (new_reloc_step _ W) as (s' & m & E & Hc & L & P & A1 & A2 & A3 & A4 & A5 & A6 & A7 & A8). rewrite E, A6, Nat.ltb_irrefl. apply IH; cbn [dw set_dw]; [eapply wreachable_step; eauto|].
    rewrite Forall_forall in *. intros q Hq. apply P. auto.
Qed.

Lemma throws_built x l p d d' r b ps : go d p = DNext d' r -> dw_objs d' = dw_objs d ++ [Some (b, ps)] ->
  dw_tasks d' = dw_tasks d /\ go d (base_throws (dw d) p x l) = go (set_objs d' (dw_objs d)) (unwinding (dw d') ps x l).
Proof.
  intros H O. pose proof (throws_cases x l p d) as C. rewrite H in C.
  assert (N : dw_objs d' = dw_objs d -> False) by (rewrite O; intros F; apply (f_equal (@length _)) in F; rewrite app_length in F; cbn in F; lia).
  destruct C as [(y & _ & F & _)|[(_ & F & _)|[(b' & ps' & _ & F & T & E)|(n & k & _ & F & _)]]]; try (exfalso; exact (N F)).
  rewrite O in F. apply app_inv_head in F. inversion F; subst. auto.
Qed.
Lemma with_new_gone s s1 s2 ps : with_new s s1 ps -> without s1 s2 ps -> without s s2 [].
Proof.
  intros (A1 & A2 & A3 & A4 & A5 & A6 & A7 & A8 & A9 & A10 & A11) (B1 & B2 & B3 & B4 & B5 & B6 & B7 & B8). split; [|split; [|split]].
  - intros p. rewrite B1, A1. cbn [In]. split; [intros [[F|F] N]; [auto|contradiction]|intros [F _]]. split; [auto|]. intros G. exact (A2 p G F).
  - intros i m fl _ C. apply B2; [|auto]. intros G. apply (A2 _ G). exists (mkLW fl (Some m)). exact C.
  - intros j _. assert (X : present s (PReloc j) -> ~ In (PReloc j) ps) by (intros P G; exact (A2 _ G P)). split.
    + intros c C. apply B3; [|apply A5; exact C]. apply X. destruct C as (m & C & _). exists m. exact C.
    + intros E. apply B3; [|apply A5; exact E]. apply X. destruct E as (m & C & _). exists m. exact C.
  - repeat split; congruence.
Qed.

(** Base throws in a constructor of a Watched object with a lifetime watcher: the lifetime watcher is destroyed again, and nobody can have
    expected that. The report ends the program, since the exception of Base is in flight; whether the destructor of Base is noexcept does not matter. *)
Theorem C98_failed_construction_terminates d b ks x l :
  dreachable d -> distinct ks = true -> In KLife ks -> obeys_contract (w_reporter (ww (dw d))) -> dstep d (DNewThrows b ks x l) = DStop.
Proof.
  intros Hr Hd Hin Ho. pose proof (C77_is_a_watcher_program _ Hr) as W. cbn [dstep]. rewrite Hd.
  destruct (new_go b ks d [] W) as (d' & ps' & G & O & T & K & N & W'). destruct (throws_built (EUser x) l _ _ _ _ _ _ G O) as [_ ->]. cbn [app] in *.
  rewrite <- K in Hin. apply in_map_iff in Hin. destruct Hin as ([i|j] & F & Hin); [|discriminate].
  pose proof N as (N1 & N2 & N3 & _ & _ & _ & _ & N8 & _). destruct (N3 i Hin) as [m Hm].
  apply (unwinding_stops (set_objs d' (dw_objs d)) ps' (EUser x) l i m false); cbn [dw set_objs]; auto.
  - rewrite K. exact Hd.
  - apply Forall_forall. intros p Hp. apply N1. auto.
  - apply (unannounced _ i); auto.
  - rewrite N8. exact Ho.
Qed.
(** Without a lifetime watcher the exception leaves the constructor, and nothing has changed. *)
Theorem C98_failed_construction d b ks x l :
  dreachable d -> distinct ks = true -> ~ In KLife ks ->
  exists d', dstep d (DNewThrows b ks x l) = DNext d' (RThrow (EUser x)) /\ dw_objs d' = dw_objs d /\ dw_tasks d' = dw_tasks d /\ without (dw d) (dw d') [] /\
    w_uncaught (ww (dw d')) = w_uncaught (ww (dw d)).
Proof.
  intros Hr Hd Hin. pose proof (C77_is_a_watcher_program _ Hr) as W. cbn [dstep]. rewrite Hd.
  destruct (new_go b ks d [] W) as (d' & ps' & G & O & T & K & N & W'). destruct (throws_built (EUser x) l _ _ _ _ _ _ G O) as [_ ->]. cbn [app] in *.
  destruct (unwinding_silent (set_objs d' (dw_objs d)) ps' (EUser x) l) as (d2 & G2 & A1 & A2 & A3 & A4); cbn [dw set_objs]; auto.
  - apply distinct_parts. rewrite K. exact Hd.
  - apply Forall_forall. intros p Hp. apply N. auto.
  - intros i Hi. exfalso. apply Hin. rewrite <- K. apply (in_map kind_of) in Hi. exact Hi.
  - exists d2. split; [exact G2|]. split; [exact A1|]. split; [rewrite A2; exact T|]. split; [eapply with_new_gone; eauto|]. rewrite A4. cbn [dw set_objs]. apply N.
Qed.

(** The same for copies; the object which is copied does not matter. *)
Theorem C98_failed_copy_terminates d k b ps i x l :
  dreachable d -> dobj d k = Some (b, ps) -> In (PLife i) ps -> m_ctor_copy b = Some false -> obeys_contract (w_reporter (ww (dw d))) -> dstep d (DCopyThrows k x l) = DStop.
Proof.
  intros Hr Hk Hin Hm Ho. pose proof (C77_is_a_watcher_program _ Hr) as W. cbn [dstep]. rewrite Hk, Hm. cbn [throws_ negb].
  pose proof (parts_present _ _ _ _ Hr Hk) as Pr. destruct (new_go b (map kind_of ps) d [] W) as (d' & ps' & G & O & T & K & N & W'). rewrite <- copy_go in G by auto.
  destruct (throws_built (EUser x) l _ _ _ _ _ _ G O) as [_ ->]. cbn [app] in *.
  assert (Hd : distinct (map kind_of ps) = true) by (destruct (C77_shapes _ _ _ _ Hr Hk) as [->|[[a ->]|[[a ->]|[(a & c & ->)|(a & c & ->)]]]]; reflexivity).
  apply (in_map kind_of) in Hin. rewrite <- K in Hin. apply in_map_iff in Hin. destruct Hin as ([q|j] & F & Hin); [|discriminate].
  pose proof N as (N1 & N2 & N3 & _ & _ & _ & _ & N8 & _). destruct (N3 q Hin) as [m Hq].
  apply (unwinding_stops (set_objs d' (dw_objs d)) ps' (EUser x) l q m false); cbn [dw set_objs]; auto.
  - rewrite K. exact Hd.
  - apply Forall_forall. intros p Hp. apply N1. auto.
  - apply (unannounced _ q); auto.
  - rewrite N8. exact Ho.
Qed.
Theorem C98_failed_copy d k b ps x l :
  dreachable d -> dobj d k = Some (b, ps) -> (forall i, ~ In (PLife i) ps) -> m_ctor_copy b = Some false ->
  exists d', dstep d (DCopyThrows k x l) = DNext d' (RThrow (EUser x)) /\ dw_objs d' = dw_objs d /\ dw_tasks d' = dw_tasks d /\ without (dw d) (dw d') [] /\
    w_uncaught (ww (dw d')) = w_uncaught (ww (dw d)).
Proof.
  intros Hr Hk Hin Hm. pose proof (C77_is_a_watcher_program _ Hr) as W. cbn [dstep]. rewrite Hk, Hm. cbn [throws_ negb].
  pose proof (parts_present _ _ _ _ Hr Hk) as Pr. destruct (new_go b (map kind_of ps) d [] W) as (d' & ps' & G & O & T & K & N & W'). rewrite <- copy_go in G by auto.
  destruct (throws_built (EUser x) l _ _ _ _ _ _ G O) as [_ ->]. cbn [app] in *.
  assert (Hd : distinct (map kind_of ps) = true) by (destruct (C77_shapes _ _ _ _ Hr Hk) as [->|[[a ->]|[[a ->]|[(a & c & ->)|(a & c & ->)]]]]; reflexivity).
  destruct (unwinding_silent (set_objs d' (dw_objs d)) ps' (EUser x) l) as (d2 & G2 & A1 & A2 & A3 & A4); cbn [dw set_objs]; auto.
  - apply distinct_parts. rewrite K. exact Hd.
  - apply Forall_forall. intros p Hp. apply N. auto.
  - intros i Hi. exfalso. apply (in_map kind_of) in Hi. rewrite K in Hi. apply in_map_iff in Hi. destruct Hi as ([q|j] & F & Hq); [|discriminate]. exact (Hin q Hq).
  - exists d2. split; [exact G2|]. split; [exact A1|]. split; [rewrite A2; exact T|]. split; [eapply with_new_gone; eauto|]. rewrite A4. cbn [dw set_objs]. apply N.
Qed.

(** ** The watchers come before Base *)

(** The operation without the exception of Base, and the number of the exception; the destructor is the other way around, see below. *)
Definition ordinary (o : dop) : option (dop * nat) :=
  match o with
  | DNewThrows b ks x _ => Some (DNew b ks, x)
  | DCopyThrows k x _ => Some (DCopy k, x)
  | DMoveThrows k x l => Some (DMove k l, x)
  | DCopyAssignThrows k j x l => Some (DCopyAssign k j l, x)
  | DMoveAssignThrows k j x l => Some (DMoveAssign k j l, x)
  | _ => None
  end.
Lemma failing_step d o' o x : ordinary o' = Some (o, x) -> dstep d o' <> DInvalid ->
  exists p l, dstep d o = go d p /\ dstep d o' = go d (base_throws (dw d) p (EUser x) l).
Proof.
  assert (Te : forall f, throws_ f = true -> exists_ f = true) by (intros [|]; [reflexivity|discriminate]).
  intros Ho Hv. destruct o'; inversion Ho; subst; cbn [dstep] in *.
  - destruct (distinct ks); [|congruence]. eauto.
  - destruct (dobj d k) as [[b ps]|]; [|congruence]. destruct (throws_ (m_ctor_copy b)) eqn:E; [|congruence]. rewrite (Te _ E). eauto.
  - destruct (dobj d k) as [[b ps]|]; [|congruence]. destruct (exists_ (m_ctor_move b)).
    + destruct (throws_ (m_ctor_move b)); [|congruence]. eauto.
    + destruct (throws_ (m_ctor_copy b)) eqn:E; [|congruence]. rewrite (Te _ E). eauto.
  - destruct (dobj d k) as [[b ps]|]; [|congruence]. destruct (dobj d j) as [[b' qs]|]; [|congruence]. destruct (same_kinds ps qs); [|cbn [andb] in *; congruence]. cbn [andb] in *.
    destruct (throws_ (m_assign_copy b)) eqn:E; [|congruence]. rewrite (Te _ E). eauto.
  - destruct (dobj d k) as [[b ps]|]; [|congruence]. destruct (dobj d j) as [[b' qs]|]; [|congruence]. destruct (same_kinds ps qs); [|congruence]. destruct (exists_ (m_assign_move b)).
    + destruct (throws_ (m_assign_move b)); [|congruence]. eauto.
    + destruct (throws_ (m_assign_copy b)) eqn:E; [|congruence]. rewrite (Te _ E). eauto.
Qed.

(** If a watcher ends the function (by an exception, by ending the program, or because the behaviour is undefined), Base is not reached. *)
Theorem C98_watchers_first d o' o x :
  ordinary o' = Some (o, x) -> dstep d o' <> DInvalid ->
  (dstep d o = DStop -> dstep d o' = DStop) /\ (forall u, dstep d o = DWrong u -> dstep d o' = DWrong u) /\
  (forall d' y, dstep d o = DNext d' (RThrow y) -> dstep d o' = DNext d' (RThrow y)).
Proof.
  intros Ho Hv. destruct (failing_step _ _ _ _ Ho Hv) as (p & l & -> & ->). pose proof (throws_cases (EUser x) l p d) as C.
  split; [|split]; [intros H|intros u H|intros d' y H]; rewrite H in C; auto.
  destruct C as [(z & E & _ & _ & C)|[(F & _)|[(b & ps & F & _)|(n & k & F & _)]]]; [|discriminate|discriminate|discriminate]. exact C.
Qed.

(** ** Which failures exist *)

Lemma throws_possible x l p d : wreachable (dw d) -> Owned d -> sound [] p -> go d p <> DInvalid -> go d (base_throws (dw d) p x l) <> DInvalid.
Proof.
  intros W (priv & Ht & Ho) Hs Hv. pose proof (throws_cases x l p d) as C. destruct (go d p) as [d' r| | |] eqn:E; [|congruence|congruence|congruence].
  destruct C as [(y & _ & _ & _ & ->)|[(_ & _ & _ & ->)|[(b & ps & _ & O & T & ->)|(n & k & _ & _ & _ & ->)]]]; try discriminate.
  destruct (go_owned p d d' r [] priv W Hs Ht Ho E) as (priv' & _ & Nd & Pr). rewrite O, owned_app in Nd, Pr. cbn [owned_parts flat_map] in Nd, Pr. rewrite app_nil_r in Nd, Pr.
  destruct (go_run _ _ _ _ E) as [ops R]. pose proof (wreachable_run _ _ _ W R) as W'.
  destruct (unwinding_go (set_objs d' (dw_objs d)) ps x l W') as (d0 & G & W0 & _ & _ & (P0 & _) & _). cbn [dw set_objs] in *. rewrite G. apply destroy_possible; [exact W0| |].
  - apply NoDup_rev. clear - Nd. rewrite <- app_assoc in Nd. induction (owned_parts (dw_objs d)) as [|a t IH]; [|inversion Nd; auto]. cbn [app] in Nd.
    induction ps as [|a t IH]; [constructor|]. inversion Nd; subst. constructor; auto. rewrite in_app_iff in *. tauto.
  - apply Forall_rev. apply Forall_forall. intros q Hq. apply P0. split; [|auto]. apply Pr. rewrite !in_app_iff. auto.
Qed.

(** Every function of Base which exists and is not noexcept may throw, whatever has happened to the object; no other does. *)
Theorem C98_which_failures_exist d :
  dreachable d ->
  (forall b ks x l, dstep d (DNewThrows b ks x l) = DInvalid <-> distinct ks = false) /\
  forall k b ps x l, dobj d k = Some (b, ps) ->
    (dstep d (DCopyThrows k x l) = DInvalid <-> m_ctor_copy b <> Some false) /\
    (dstep d (DMoveThrows k x l) = DInvalid <-> m_ctor_move b = Some true \/ m_ctor_move b = None /\ m_ctor_copy b <> Some false) /\
    (dstep d (DDestroyThrows k x l) = DInvalid <-> m_dtor b = true) /\
    forall q b' qs, dobj d q = Some (b', qs) -> same_kinds ps qs = true ->
      (dstep d (DCopyAssignThrows k q x l) = DInvalid <-> m_assign_copy b <> Some false) /\
      (dstep d (DMoveAssignThrows k q x l) = DInvalid <-> m_assign_move b = Some true \/ m_assign_move b = None /\ m_assign_copy b <> Some false).
Proof.
  intros Hr. pose proof (C77_is_a_watcher_program _ Hr) as W. pose proof (owned_reachable _ Hr) as Ow.
  assert (P : forall p x l, sound [] p -> go d p <> DInvalid -> go d (base_throws (dw d) p x l) <> DInvalid) by (intros; apply throws_possible; auto).
  assert (X : forall f, throws_ f = true -> f = Some false) by (intros [[|]|]; cbn; congruence).
  assert (Y : forall f, throws_ f = false -> f <> Some false) by (intros [[|]|]; cbn; congruence).
  assert (Z : forall f, exists_ f = true -> f <> None) by (intros [|]; cbn; congruence).
  assert (Z' : forall f, exists_ f = false -> f = None) by (intros [|]; cbn; congruence).
  split.
  - intros b ks x l. cbn [dstep]. destruct (distinct ks); [|tauto]. split; [|discriminate]. intros F. exfalso. revert F. apply P; [apply new_sound|]. destruct (new_go b ks d [] W) as (d' & ps' & -> & _). discriminate.
  - intros k b ps x l Hk. pose proof (parts_present _ _ _ _ Hr Hk) as Pp. cbn [dstep]. rewrite Hk.
    assert (Nd : NoDup ps) by (destruct (C77_shapes _ _ _ _ Hr Hk) as [->|[[a ->]|[[a ->]|[(a & c & ->)|(a & c & ->)]]]]; repeat constructor; cbn; intuition discriminate).
    assert (Cp : forall y, go d (base_throws (dw d) (copy_plan b ps []) y l) <> DInvalid) by (intros y; apply P; [apply copy_sound|apply copy_possible; auto]).
    split; [|split; [|split]].
    + destruct (throws_ (m_ctor_copy b)) eqn:E; [|split; [intros _; auto|auto]]. split; [intros F; exfalso; apply (Cp _ F)|]. rewrite (X _ E). congruence.
    + destruct (exists_ (m_ctor_move b)) eqn:Ee.
      * destruct (throws_ (m_ctor_move b)) eqn:E.
        -- split; [|rewrite (X _ E); intros [F|[F _]]; discriminate]. intros F. exfalso. revert F. apply P; [apply move_sound|apply move_possible; auto; constructor].
        -- split; [|auto]. intros _. apply Y in E. apply Z in Ee. destruct (m_ctor_move b) as [[|]|]; auto; congruence.
      * rewrite (Z' _ Ee). destruct (throws_ (m_ctor_copy b)) eqn:E.
        -- split; [intros F; exfalso; apply (Cp _ F)|]. rewrite (X _ E). intros [F|[_ F]]; congruence.
        -- split; [|auto]. intros _. auto.
    + destruct (m_dtor b); [tauto|]. split; [|discriminate]. intros F. exfalso. revert F.
      assert (W' : wreachable (dw (set_objs d (upd (dw_objs d) k None)))) by exact W.
      destruct (unwinding_go (set_objs d (upd (dw_objs d) k None)) ps (EUser x) l W') as (d0 & G & W0 & _ & _ & (P0 & _) & _). cbn [dw set_objs] in *. rewrite G. apply destroy_possible; [exact W0|apply NoDup_rev; exact Nd|].
      apply Forall_rev. rewrite Forall_forall in *. intros q Hq. apply P0. auto.
    + intros q b' qs Hq Hs. pose proof (parts_present _ _ _ _ Hr Hq) as Pq. rewrite Hq, Hs. cbn [andb].
      assert (F2 : Forall (fun y => present (dw d) (fst y) /\ present (dw d) (snd y)) (combine ps qs)).
      { apply Forall_forall. intros [y z] Hin. cbn. rewrite Forall_forall in Pp, Pq. split; [apply Pp; eapply in_combine_l; eauto|apply Pq; eapply in_combine_r; eauto]. }
      assert (Ca : forall y, go d (base_throws (dw d) (copy_assign_plan (combine ps qs) l) y l) <> DInvalid) by (intros y; apply P; [apply copy_assign_sound|apply copy_assign_possible; auto]).
      split.
      * destruct (throws_ (m_assign_copy b)) eqn:E; [|split; [intros _; auto|auto]]. split; [intros F; exfalso; apply (Ca _ F)|]. rewrite (X _ E). congruence.
      * destruct (exists_ (m_assign_move b)) eqn:Ee.
        -- destruct (throws_ (m_assign_move b)) eqn:E.
           ++ split; [|rewrite (X _ E); intros [F|[F _]]; discriminate]. intros F. exfalso. revert F. apply P; [apply move_assign_sound|apply move_assign_possible; auto].
           ++ split; [|auto]. intros _. apply Y in E. apply Z in Ee. destruct (m_assign_move b) as [[|]|]; auto; congruence.
        -- rewrite (Z' _ Ee). destruct (throws_ (m_assign_copy b)) eqn:E.
           ++ split; [intros F; exfalso; apply (Ca _ F)|]. rewrite (X _ E). intros [F|[_ F]]; congruence.
           ++ split; [|auto]. intros _. auto.
Qed.

(** ** Assignment *)

Definition assigns (o : dop) : bool := match o with DCopyAssignThrows _ _ _ _ | DMoveAssignThrows _ _ _ _ => true | _ => false end.
Fixpoint no_build (p : plan) : Prop := match p with Done _ => True | Built _ _ => False | Do _ k => forall s r, no_build (k s r) end.
Lemma copy_assign_builds l todo : no_build (copy_assign_plan todo l).
Proof. induction todo as [|[[i|i] [j|j]] t IH]; cbn; auto. intros s r. destruct r; cbn; auto. Qed.
Lemma move_assign_builds b l todo : no_build (move_assign_plan b todo l).
Proof. induction todo as [|[[i|i] [j|j]] t IH]; cbn; auto. intros s r. destruct r; cbn; auto. Qed.
Lemma go_no_build p : forall d d' r, no_build p -> go d p = DNext d' r -> dw_objs d' = dw_objs d /\ (dw_tasks d' = dw_tasks d \/ exists n k, dw_tasks d' = (n, k) :: dw_tasks d /\ forall s1 r1, no_build (k s1 r1)).
Proof.
  induction p as [r0|b ps|o k IH]; intros d d' r Hn H; cbn [go no_build] in *.
  - inversion H; auto.
  - destruct Hn.
  - destruct (wstep (dw d) o) as [s r1| | |]; try discriminate. destruct (_ <? _); [inversion H; subst; split; [reflexivity|right; eexists _, _; split; [reflexivity|exact Hn]]|]. apply IH in H; auto.
Qed.
Lemma assigning_step d o' o x : ordinary o' = Some (o, x) -> assigns o' = true -> dstep d o' <> DInvalid ->
  exists p l, dstep d o = go d p /\ dstep d o' = go d (base_throws (dw d) p (EUser x) l) /\ no_build p.
Proof.
  assert (Te : forall f, throws_ f = true -> exists_ f = true) by (intros [|]; [reflexivity|discriminate]).
  intros Ho Ha Hv. destruct o'; inversion Ho; subst; try discriminate; cbn [dstep] in *.
  - destruct (dobj d k) as [[b ps]|]; [|congruence]. destruct (dobj d j) as [[b' qs]|]; [|congruence]. destruct (same_kinds ps qs); [|cbn [andb] in *; congruence]. cbn [andb] in *.
    destruct (throws_ (m_assign_copy b)) eqn:E; [|congruence]. rewrite (Te _ E). eexists _, l. split; [reflexivity|]. split; [reflexivity|]. apply copy_assign_builds.
  - destruct (dobj d k) as [[b ps]|]; [|congruence]. destruct (dobj d j) as [[b' qs]|]; [|congruence]. destruct (same_kinds ps qs); [|congruence]. destruct (exists_ (m_assign_move b)).
    + destruct (throws_ (m_assign_move b)); [|congruence]. eexists _, l. split; [reflexivity|]. split; [reflexivity|]. apply move_assign_builds.
    + destruct (throws_ (m_assign_copy b)) eqn:E; [|congruence]. rewrite (Te _ E). eexists _, l. split; [reflexivity|]. split; [reflexivity|]. apply copy_assign_builds.
Qed.

(** An assignment in which Base throws has done the same to the watchers as one in which Base does not throw: at once ... *)
Theorem C98_failed_assignment d o' o x d' r :
  ordinary o' = Some (o, x) -> assigns o' = true -> dstep d o' <> DInvalid -> dstep d o = DNext d' r -> is_throw r = false -> dw_tasks d' = dw_tasks d ->
  dstep d o' = DNext d' (RThrow (EUser x)).
Proof.
  intros Ho Ha Hv H Hr Ht. destruct (assigning_step _ _ _ _ Ho Ha Hv) as (p & l & E & -> & Hn). rewrite E in H. pose proof (go_no_build _ _ _ _ Hn H) as [Ob _].
  pose proof (throws_cases (EUser x) l p d) as C. rewrite H in C. destruct C as [(y & -> & _)|[(_ & _ & _ & C)|[(b & ps & _ & F & _)|(n & k & _ & _ & F & _)]]]; [discriminate|exact C| |].
  - rewrite Ob in F. apply (f_equal (@length _)) in F. rewrite app_length in F. cbn in F. lia.
  - rewrite Ht in F. apply (f_equal (@length _)) in F. cbn in F. lia.
Qed.
(** ... or after waiting for the end of the call of a watcher. [t], [t']: what is still to do. *)
Theorem C98_failed_assignment_completes d o' o x d1 r :
  ordinary o' = Some (o, x) -> assigns o' = true -> dstep d o' <> DInvalid -> dstep d o = DNext d1 r -> dw_tasks d1 <> dw_tasks d ->
  exists n t t', dw_tasks d1 = (n, t) :: dw_tasks d /\ dstep d o' = DNext (set_tasks d1 ((n, t') :: dw_tasks d)) RUnit /\
    forall d2 u d3 r3, dw_tasks d2 = dw_tasks d1 -> dstep d2 (DUse u) = DNext d3 r3 -> dw_tasks d3 = dw_tasks d ->
      dstep (set_tasks d2 ((n, t') :: dw_tasks d)) (DUse u) = DNext d3 (match r3 with RThrow y => RThrow y | _ => RThrow (EUser x) end).
Proof.
  intros Ho Ha Hv H Ht. destruct (assigning_step _ _ _ _ Ho Ha Hv) as (p & l & E & -> & Hn). rewrite E in H. pose proof (go_no_build _ _ _ _ Hn H) as [Ob Tb].
  destruct Tb as [Tb|(n & t & Tb & Nb)]; [congruence|].
  pose proof (throws_cases (EUser x) l p d) as C. rewrite H in C. destruct C as [(y & _ & _ & F & _)|[(_ & _ & F & _)|[(b & ps & _ & _ & F & _)|(n' & k & _ & _ & F & C)]]]; try congruence.
  rewrite Tb in F. inversion F; subst n' k. exists n, t. eexists. split; [exact Tb|]. split; [exact C|].
  intros d2 u d3 r3 T2 H2 T3. cbn [dstep] in *. destruct (negb (usable u)); [discriminate|]. cbn [dw set_tasks]. destruct (wstep (dw d2) u) as [s r2| | |] eqn:Es; try discriminate.
  rewrite T2, Tb in H2. cbn [dw_tasks set_tasks]. destruct (length (ww_conts s) <=? n).
  - pose proof (throws_cases (EUser x) l (t s r2) (set_tasks (set_dw d2 s) (dw_tasks d))) as D. rewrite H2 in D. cbn [dw set_dw set_tasks dw_objs dw_tasks] in D.
    change (set_tasks (set_dw (set_tasks d2 ((n, fun s1 r1 => base_throws s1 (t s1 r1) (EUser x) l) :: dw_tasks d)) s) (dw_tasks d)) with (set_tasks (set_dw d2 s) (dw_tasks d)).
    pose proof (go_no_build _ _ _ _ (Nb s r2) H2) as [Ob2 _]. cbn [dw_objs set_tasks set_dw] in Ob2.
    destruct D as [(y & -> & _ & _ & D)|[(Hthr & _ & _ & D)|[(b & ps & _ & G & _)|(n' & k & _ & _ & G & _)]]].
    + exact D.
    + rewrite D. destruct r3; try reflexivity. discriminate.
    + rewrite Ob2 in G. apply (f_equal (@length _)) in G. rewrite app_length in G. cbn in G. lia.
    + rewrite T3 in G. apply (f_equal (@length _)) in G. cbn in G. lia.
  - exfalso. inversion H2; subst d3. cbn [dw_tasks set_dw] in T3. rewrite T2, Tb in T3. apply (f_equal (@length _)) in T3. cbn in T3. lia.
Qed.

(** So the watchers of the target have lost what they had, although the value of the target may be the former one: its watchers are renewed ... *)
Theorem C98_failed_copy_assignment d k q b b' ps qs x l :
  dreachable d -> dobj d k = Some (b, ps) -> dobj d q = Some (b', qs) -> same_kinds ps qs = true -> m_assign_copy b = Some false ->
  (forall i, In (PLife i) ps -> moved_from (dw d) i) ->
  exists d', dstep d (DCopyAssignThrows k q x l) = DNext d' (RThrow (EUser x)) /\ dw_objs d' = dw_objs d /\ Forall (renewed (dw d) (dw d')) ps /\ w_trace (ww (dw d')) = w_trace (ww (dw d)).
Proof.
  intros Hr Hk Hq Hs Hm Hmv. destruct (C77_copy_assignment d k q b b' ps qs l Hr Hk Hq Hs) as (d' & E & A1 & A2 & A3 & A4 & _); auto; [congruence|].
  exists d'. split; [|auto]. apply (C98_failed_assignment d _ (DCopyAssign k q l) x d' RUnit); auto.
  intros F. destruct (proj2 (C98_which_failures_exist d Hr) k b ps x l Hk) as (_ & _ & _ & X). destruct (X q b' qs Hq Hs) as [X1 _]. apply X1 in F. congruence.
Qed.
(** ... or they are those of the source. The former identity of the target is lost without report; the source is not watched any more. *)
Theorem C98_failed_move_assignment d k q b b' i i' m fl m' fl' x l :
  dreachable d -> k <> q -> dobj d k = Some (b, [PLife i]) -> dobj d q = Some (b', [PLife i']) -> carries (dw d) i m fl -> carries (dw d) i' m' fl' -> m_assign_move b = Some false ->
  exists d', dstep d (DMoveAssignThrows k q x l) = DNext d' (RThrow (EUser x)) /\ dw_objs d' = dw_objs d /\ carries (dw d') i m' fl' /\ moved_from (dw d') i' /\
    w_trace (ww (dw d')) = w_trace (ww (dw d)) /\ calls m (ww_log (dw d')) = 0 /\ forall j f, ~ carries (dw d') j m f.
Proof.
  intros Hr Hkq Hk Hq Hi Hi' Hm. pose proof (C77_is_a_watcher_program _ Hr) as W.
  assert (Hne : i <> i') by (intros ->; apply Hkq; eapply (proj1 (proj2 (C77_parts _ Hr))); [exact Hk|exact Hq|left; reflexivity|left; reflexivity]).
  destruct (C51_move_assign (dw d) i i' m fl m' fl' W Hne Hi Hi') as (s1 & E1 & B1 & B2 & B3 & _ & _ & B5). destruct (B5 [] s1 ltac:(constructor)) as [B6 B7].
  destruct (changes_of _ _ _ _ E1 eq_refl) as [_ [[Ec _]|(n & c & Ec & F)]].
  - cbn [dstep]. rewrite Hk, Hq. cbn [same_kinds kind_of kind_eqb andb combine]. rewrite Hm. cbn [exists_ throws_ negb move_assign_plan base_throws go]. rewrite E1, Ec, Nat.ltb_irrefl. cbn [base_throws go].
    eexists. split; [reflexivity|]. auto 10.
  - exfalso. pose proof E1 as E2. cbn [wstep] in E2. unfold carries in Hi, Hi'. rewrite Hi, Hi' in E2. apply Nat.eqb_neq in Hne. rewrite Hne in E2. cbn [lw_mock drop_mock] in E2.
    apply perform_inv in E2. destruct E2 as (w1 & r1 & _ & E2). inversion E2; subst s1. cbn [ww_conts after_op set_life] in Ec. apply (f_equal (@length _)) in Ec. cbn in Ec. lia.
Qed.

(** ** Move construction *)

Lemma call_uncaught w m ov args l w' r : step w (OCall m ov args l) = Next w' r -> w_uncaught w' = w_uncaught w.
Proof.
  intros H. cbn [step] in H. apply do_call_next in H. destruct H as (s & coll & _ & _ & H). apply handle_call_next in H. destruct H as (lst & es & ml & _ & _ & _ & Hcr).
  inversion Hcr; reflexivity.
Qed.

(** The new lifetime watcher has already got the identity of the object, when it is destroyed again. If nobody expects the destruction, the
    program ends. *)
Theorem C98_failed_move_terminates d k b i m fl x l :
  dreachable d -> dobj d k = Some (b, [PLife i]) -> carries (dw d) i m fl -> unwanted (dw d) m l -> obeys_contract (w_reporter (ww (dw d))) -> m_ctor_move b = Some false ->
  dstep d (DMoveThrows k x l) = DStop.
Proof.
  intros Hr Hk Hi Hu Ho Hm. pose proof (C77_is_a_watcher_program _ Hr) as W. cbn [dstep]. rewrite Hk, Hm. cbn [exists_ throws_ negb move_plan base_throws go].
  destruct (lmove_step _ _ _ _ Hi) as (s1 & E1 & A1 & A2 & A3 & A4). rewrite E1, A4, Nat.ltb_irrefl. cbn [base_throws app]. rewrite A2, moved_carries.
  pose proof (wreachable_step _ _ _ _ W E1) as W1.
  assert (C1 : carries s1 (length (ww_life (dw d))) m fl) by (unfold carries; rewrite A2; rewrite <- (length_upd (ww_life (dw d)) i (Some (mkLW fl None))) at 1; apply nth_error_app_last).
  apply (unwinding_stops (set_dw d s1) [PLife (length (ww_life (dw d)))] (EUser x) l (length (ww_life (dw d))) m fl); cbn [dw set_dw]; auto.
  - constructor; [eexists; exact C1|constructor].
  - left. reflexivity.
  - intros c Hp. unfold refused. rewrite A1. apply Hu. rewrite <- A1. exact Hp.
  - rewrite A1. exact Ho.
Qed.
(** Otherwise the destruction is reported: the expectation is fulfilled, although the object still exists. Its real destruction is not reported
    any more. While the expectation does its part, the exception of Base is in flight. *)
Theorem C98_failed_move_uses_up d k b i m fl x l d' r :
  dreachable d -> dobj d k = Some (b, [PLife i]) -> carries (dw d) i m fl -> m_ctor_move b = Some false -> obeys_contract (w_reporter (ww (dw d))) ->
  dstep d (DMoveThrows k x l) = DNext d' r ->
  calls m (ww_log (dw d)) = 0 /\ calls m (ww_log (dw d')) = 1 /\ dobj d' k = Some (b, [PLife i]) /\ moved_from (dw d') i /\ (forall q fl', ~ carries (dw d') q m fl') /\
  r = RUnit /\ dw_tasks d' <> dw_tasks d /\ w_uncaught (ww (dw d')) = S (w_uncaught (ww (dw d))).
Proof.
  intros Hr Hk Hi Hm Ho H. pose proof (C77_is_a_watcher_program _ Hr) as W. cbn [dstep] in H. rewrite Hk, Hm in H. cbn [exists_ throws_ negb] in H.
  assert (Lk : k < length (dw_objs d)) by (eapply dobj_lt; eauto). pose proof (go_dobj _ _ _ _ k H Lk) as Dk.
  cbn [move_plan base_throws go] in H.
  destruct (lmove_step _ _ _ _ Hi) as (s1 & E1 & A1 & A2 & A3 & A4). rewrite E1, A4, Nat.ltb_irrefl in H. cbn [base_throws app] in H. rewrite A2, moved_carries in H.
  pose proof (wreachable_step _ _ _ _ W E1) as W1.
  assert (C1 : carries s1 (length (ww_life (dw d))) m fl) by (unfold carries; rewrite A2; rewrite <- (length_upd (ww_life (dw d)) i (Some (mkLW fl None))) at 1; apply nth_error_app_last).
  assert (L1 : ww_log s1 = ww_log (dw d)) by (cbn [wstep] in E1; unfold carries in Hi; rewrite Hi in E1; inversion E1; reflexivity).
  pose proof (unwinding_calls (set_dw d s1) [PLife (length (ww_life (dw d)))] (EUser x) l (length (ww_life (dw d))) m fl d' r W1 eq_refl (or_introl eq_refl) C1 H) as (Q1 & Q2 & Q3).
  cbn [dw set_dw] in Q1. rewrite L1 in Q1. split; [exact Q1|]. split; [exact Q2|]. split; [rewrite Dk; exact Hk|].
  assert (Li : i < length (ww_life (dw d))) by (eapply nth_error_lt; exact Hi).
  destruct (unwinding_go (set_dw d s1) [PLife (length (ww_life (dw d)))] (EUser x) l W1) as (d0 & G & W0 & O0 & T0 & Hw & Lf & Rl & Lg & Pl & Un). cbn [dw set_dw] in *. rewrite G in H. cbn [rev app destroy_plan] in H. cbn [go] in H.
  assert (C0 : carries (dw d0) (length (ww_life (dw d))) m fl) by (unfold carries; rewrite Lf; exact C1).
  destruct (C50_collection _ _ _ _ W0 C0) as [c Hc0]. destruct Hw as (_ & _ & _ & _ & _ & Kr & Kc & _).
  assert (Ho0 : obeys_contract (w_reporter (ww (dw d0)))) by (rewrite Kr, A1; exact Ho).
  pose proof (inv_wreachable _ W0) as I0.
  assert (Es : wstep (dw d0) (LDestroy (length (ww_life (dw d))) true l) = call_then (set_life (dw d0) (upd (ww_life (dw d0)) (length (ww_life (dw d))) None)) m l (KDestroy m true)) by (cbn [wstep]; unfold carries in C0; rewrite C0; reflexivity).
  destruct (call_then_outcome (set_life (dw d0) (upd (ww_life (dw d0)) (length (ww_life (dw d))) None)) m c l (KDestroy m true) (v_reachable _ I0) Hc0 Ho0) as
    [(e & y & mr & s' & _ & _ & Hs & _ & _ & Hl & _ & Hcs & _)|(Hn & _)].
  - rewrite Es, Hs, Hcs in H. cbn [ww_conts set_life length] in H. replace (length (ww_conts (dw d0)) <? S (length (ww_conts (dw d0)))) with true in H by (symmetry; apply Nat.ltb_lt; lia).
    injection H as <- <-. cbn [dw set_dw set_tasks dw_tasks]. split.
    { exists fl. rewrite Hl. cbn [ww_life set_life]. rewrite nth_error_upd_neq by lia. rewrite Lf, A2, nth_error_app1 by (rewrite length_upd; exact Li). apply nth_error_upd_eq. exact Li. }
    split; [exact Q3|]. split; [reflexivity|]. split; [rewrite T0; cbn [dw_tasks set_dw]; intros F; apply (f_equal (@length _)) in F; cbn in F; lia|].
    unfold call_then, perform in Hs. cbn [ww set_life] in Hs. destruct (step (ww (dw d0)) (OCall m 0 [] l)) as [w1 r1| | |] eqn:Ec; try discriminate.
    destruct (is_throw r1) eqn:Et.
    + exfalso. destruct r1 as [| | |z]; try discriminate. apply finish_throw in Hs. destruct Hs as (F & _). discriminate.
    + inversion Hs; subst s'. cbn [ww set_conts after_op]. rewrite A1 in Un. rewrite <- Un.
      exact (call_uncaught _ _ _ _ _ _ _ Ec).
  - exfalso. rewrite (ldestroy_stops (dw d0) (length (ww_life (dw d))) m fl l W0 C0) in H; [discriminate| |exact Ho0].
    intros c' Hp'. unfold place in *. rewrite Hc0 in Hp'. inversion Hp'; subst c'. exact Hn.
Qed.

(** ** Waiting and completing *)

Lemma ldestroy_waits s i m fl l s1 r : wreachable s -> carries s i m fl -> obeys_contract (w_reporter (ww s)) -> wstep s (LDestroy i true l) = WNext s1 r ->
  r = RUnit /\ ww_conts s1 = (depth s, KDestroy m true) :: ww_conts s /\ depth s1 = S (depth s) /\ ww_life s1 = upd (ww_life s) i None /\ ww_reloc s1 = ww_reloc s /\
  w_uncaught (ww s1) = w_uncaught (ww s).
Proof.
  intros W Hc Ho H. destruct (C50_collection _ _ _ _ W Hc) as [c Hc0]. pose proof (inv_wreachable _ W) as I0.
  assert (Es : wstep s (LDestroy i true l) = call_then (set_life s (upd (ww_life s) i None)) m l (KDestroy m true)) by (cbn [wstep]; unfold carries in Hc; rewrite Hc; reflexivity).
  destruct (call_then_outcome (set_life s (upd (ww_life s) i None)) m c l (KDestroy m true) (v_reachable _ I0) Hc0 Ho) as
    [(e & y & mr & s' & _ & _ & Hs & _ & _ & Hl & Hrl & Hcs & Hdp)|(Hn & _)].
  - rewrite Es, Hs in H. inversion H; subst s1 r. split; [reflexivity|]. split; [exact Hcs|]. split; [exact Hdp|]. split; [exact Hl|]. split; [exact Hrl|].
    unfold call_then, perform in Hs. cbn [ww set_life] in Hs. destruct (step (ww s) (OCall m 0 [] l)) as [w1 r1| | |] eqn:Ec; try discriminate.
    destruct (is_throw r1) eqn:Et; [exfalso; destruct r1; try discriminate; apply finish_throw in Hs; destruct Hs as (F & _); discriminate|].
    inversion Hs; subst s'. exact (call_uncaught _ _ _ _ _ _ _ Ec).
  - exfalso. rewrite (ldestroy_stops s i m fl l W Hc) in H; [discriminate| |exact Ho].
    intros c' Hp'. unfold place in *. cbn [ww set_life] in *. rewrite Hc0 in Hp'. inversion Hp'; subst c'. exact Hn.
Qed.
Lemma destroy_waits todo l x n i m fl : forall d d1 r, wreachable (dw d) -> NoDup todo -> Forall (present (dw d)) todo -> In (PLife i) todo -> (forall q, In (PLife q) todo -> q = i) ->
  carries (dw d) i m fl -> obeys_contract (w_reporter (ww (dw d))) -> go d (destroy_plan todo true l (Some (x, n))) = DNext d1 r ->
  exists rest, dw_tasks d1 = (length (ww_conts (dw d)), fun _ _ => destroy_plan rest true l (Some (x, n))) :: dw_tasks d /\
    ww_conts (dw d1) = (depth (dw d), KDestroy m true) :: ww_conts (dw d) /\ depth (dw d1) = S (depth (dw d)) /\ dw_objs d1 = dw_objs d /\ r = RUnit /\
    w_uncaught (ww (dw d1)) = w_uncaught (ww (dw d)) /\ NoDup rest /\ (forall p, In p rest -> (exists j, p = PReloc j) /\ In p todo /\ present (dw d1) p) /\ (forall p, In p todo -> In p rest \/ ~ present (dw d1) p) /\
    (forall p, present (dw d1) p -> present (dw d) p).
Proof.
  induction todo as [|p t IH]; intros d d1 r W Nd Pr Hin Hone Hc Ho H; [destruct Hin|]. inversion Nd as [|? ? N1 N2]; subst. inversion Pr as [|? ? P1 P2]; subst. destruct p as [q|j].
  - assert (q = i) by (apply Hone; left; reflexivity). subst q. cbn [destroy_plan go] in H. destruct (wstep (dw d) (LDestroy i true l)) as [s' r1| | |] eqn:E; try discriminate.
    destruct (ldestroy_waits _ _ _ _ _ _ _ W Hc Ho E) as (_ & Hcs & Hdp & Hl & Hrl & Hun).
    rewrite Hcs in H. cbn [length] in H. replace (length (ww_conts (dw d)) <? S (length (ww_conts (dw d)))) with true in H by (symmetry; apply Nat.ltb_lt; lia).
    injection H as <- <-. exists t. cbn [dw set_dw set_tasks dw_tasks dw_objs]. rewrite Hcs, Hdp. split; [reflexivity|]. split; [reflexivity|]. split; [reflexivity|]. split; [reflexivity|]. split; [reflexivity|].
    split; [exact Hun|]. split; [exact N2|]. split.
    + intros p Hp. destruct p as [q|j].
      { exfalso. assert (q = i) by (apply Hone; right; exact Hp). subst q. contradiction. }
      split; [eauto|]. split; [right; exact Hp|]. rewrite Forall_forall in P2. specialize (P2 _ Hp). unfold present in *. rewrite Hrl. exact P2.
    + split; [intros p [<-|Hp]; [|auto]; right; intros [lw F]; rewrite Hl in F; rewrite nth_error_upd_eq in F by (eapply nth_error_lt; exact Hc); discriminate|].
      intros [q|j] [lw F]; [rewrite Hl in F|rewrite Hrl in F]; [|exists lw; exact F].
      apply nth_upd_inv in F. destruct F as [(_ & F)|(_ & F)]; [discriminate|exists lw; exact F].
  - destruct (rdestroy_without (dw d) j W P1) as (s' & E & Hw & Un & El). cbn [destroy_plan go] in H. rewrite E in H. pose proof Hw as (W1 & W2 & _ & Kt & Ke & Kr & Ec & Kd). rewrite Ec, Nat.ltb_irrefl in H.
    apply IH in H; cbn [dw set_dw] in *.
    + rewrite Ec, Kd, Un in H. cbn [dw_tasks dw_objs set_dw] in H. destruct H as (rest & A1 & A2 & A3 & A4 & A5 & A6 & A7 & A8 & A9 & A10). exists rest.
      repeat (split; [assumption|]). split; [intros p Hp; destruct (A8 p Hp) as (Q1 & Q2 & Q3); split; [exact Q1|split; [right; exact Q2|exact Q3]]|]. split; [|intros p Hp; apply (W1 p); auto]. intros p [<-|Hp]; [|auto].
      right. intros F. apply A10, W1 in F. destruct F as [_ F]. apply F. left. reflexivity.
    + eapply wreachable_step; eauto.
    + exact N2.
    + rewrite Forall_forall in *. intros p Hp. apply W1. split; [auto|]. intros [<-|[]]. contradiction.
    + destruct Hin as [F|F]; [discriminate|exact F].
    + intros q Hq. apply Hone. right. exact Hq.
    + apply W2; [|exact Hc]. intros [F|[]]. discriminate.
    + rewrite Kr. exact Ho.
Qed.
Lemma unwinding_waits d ps x l i m fl d1 r : wreachable (dw d) -> distinct (map kind_of ps) = true -> Forall (present (dw d)) ps -> In (PLife i) ps ->
  carries (dw d) i m fl -> obeys_contract (w_reporter (ww (dw d))) -> go d (unwinding (dw d) ps x l) = DNext d1 r ->
  exists rest, dw_tasks d1 = (length (ww_conts (dw d)), fun _ _ => destroy_plan rest true l (Some (x, w_uncaught (ww (dw d))))) :: dw_tasks d /\
    ww_conts (dw d1) = (depth (dw d), KDestroy m true) :: ww_conts (dw d) /\ depth (dw d1) = S (depth (dw d)) /\ dw_objs d1 = dw_objs d /\ r = RUnit /\
    w_uncaught (ww (dw d1)) = S (w_uncaught (ww (dw d))) /\ NoDup rest /\ (forall p, In p rest -> (exists j, p = PReloc j) /\ In p ps /\ present (dw d1) p) /\ (forall p, In p ps -> In p rest \/ ~ present (dw d1) p) /\
    (forall p, present (dw d1) p -> present (dw d) p).
Proof.
  intros W Hd Pr Hin Hc Ho H. destruct (distinct_parts _ Hd) as [Nd One]. destruct (unwinding_go d ps x l W) as (d0 & E & W0 & O0 & T0 & Hw & L0 & R0 & Lg & Pl & Un). rewrite E in H.
  pose proof Hw as (P0 & C0 & _ & _ & _ & Kr & Kc & Kd). apply (destroy_waits _ l x _ i m fl) in H; auto.
  - rewrite Kc, Kd, Un, O0, T0 in H. destruct H as (rest & A1 & A2 & A3 & A4 & A5 & A6 & A7 & A8 & A9 & A10). exists rest. repeat (split; [assumption|]). split; [|split].
    + intros p Hp. destruct (A8 p Hp) as (Q1 & Q2 & Q3). apply in_rev in Q2. auto.
    + intros p Hp. apply A9. apply in_rev in Hp. exact Hp.
    + intros p Hp. apply A10, P0 in Hp. apply Hp.
  - apply NoDup_rev. exact Nd.
  - apply Forall_rev. rewrite Forall_forall in *. intros p Hp. apply P0. split; [auto|auto].
  - apply in_rev in Hin. exact Hin.
  - intros q Hq. apply in_rev in Hq. eauto.
  - rewrite Kr. exact Ho.
Qed.
Lemma ldestroy_ends s n m ks u w1 v : wreachable s -> ww_conts s = (n, KDestroy m true) :: ks -> depth s = S n -> step (ww s) (OReturn u) = Next w1 v ->
  wstep s (WOp (OReturn u)) = finish (set_conts (after_op s w1 (OReturn u)) ks) (KDestroy m true) v /\ exists c, place w1 m c.
Proof.
  intros W Hk Hd Hs. pose proof (inv_wreachable _ W) as I. destruct (return_step _ _ _ _ Hs) as (Hf & _). unfold depth in Hd.
  assert (I1 : WatchInv (after_op s w1 (OReturn u))) by (eapply inv_op; eauto).
  destruct (good_pop (after_op s w1 (OReturn u)) n (KDestroy m true) ks I1 Hk) as [_ (Hin & (c & Hp) & _)]. cbn [ww set_conts after_op] in Hp. split; [|exists c; exact Hp].
  cbn [wstep]. change (existsb (is_private s) (named (OReturn u))) with false. cbv iota. unfold perform at 1. rewrite Hs. fold (after_op s w1 (OReturn u)). unfold resume. cbn [ww_conts ww after_op]. rewrite Hk. replace (length (w_frames w1)) with n by lia. rewrite Nat.leb_refl.
  reflexivity.
Qed.
Lemma ldestroy_returns s n m ks u w1 v : wreachable s -> ww_conts s = (n, KDestroy m true) :: ks -> depth s = S n -> step (ww s) (OReturn u) = Next w1 (RVal v) ->
  exists s', wstep s (WOp (OReturn u)) = WNext s' RUnit /\ ww_conts s' = ks /\ ww_life s' = ww_life s /\ ww_reloc s' = ww_reloc s /\ w_trace (ww s') = w_trace (ww s).
Proof.
  intros W Hk Hd Hs. destruct (ldestroy_ends _ _ _ _ _ _ _ W Hk Hd Hs) as [E [c Hp]]. destruct (return_step _ _ _ _ Hs) as (_ & Ht & _). rewrite E.
  cbn [finish]. unfold perform. cbn [ww set_conts after_op]. rewrite (destroy_alive _ _ _ Hp eq_refl). cbn [leave].
  eexists. split; [reflexivity|]. repeat split; auto.
Qed.
Lemma ldestroy_throws s n m ks u w1 y : wreachable s -> ww_conts s = (n, KDestroy m true) :: ks -> depth s = S n -> step (ww s) (OReturn u) = Next w1 (RThrow y) -> wstep s (WOp (OReturn u)) = WStop.
Proof.
  intros W Hk Hd Hs. destruct (ldestroy_ends _ _ _ _ _ _ _ W Hk Hd Hs) as [E [c Hp]]. rewrite E.
  cbn [finish]. unfold perform. cbn [ww set_conts after_op]. rewrite (destroy_alive _ _ _ Hp eq_refl). reflexivity.
Qed.

(** The rest of the unwinding, when the call made by the lifetime watcher has ended. [d2]: any state in which it is still waited for. *)
Lemma unwinding_completes d ps x l i m fl d1 r d2 u w1 v : wreachable (dw d) -> distinct (map kind_of ps) = true -> Forall (present (dw d)) ps -> In (PLife i) ps ->
  carries (dw d) i m fl -> obeys_contract (w_reporter (ww (dw d))) -> go d (unwinding (dw d) ps x l) = DNext d1 r ->
  wreachable (dw d2) -> dw_tasks d2 = dw_tasks d1 -> ww_conts (dw d2) = ww_conts (dw d1) -> depth (dw d2) = depth (dw d1) -> (forall p, In p ps -> (present (dw d2) p <-> present (dw d1) p)) ->
  step (ww (dw d2)) (OReturn u) = Next w1 v ->
  match v with
  | RVal _ => exists d3, dstep d2 (DUse (WOp (OReturn u))) = DNext d3 (RThrow x) /\ dw_objs d3 = dw_objs d2 /\ dw_tasks d3 = dw_tasks d /\ ww_conts (dw d3) = ww_conts (dw d) /\
      w_uncaught (ww (dw d3)) = w_uncaught (ww (dw d)) /\ w_trace (ww (dw d3)) = w_trace (ww (dw d2)) /\
      (forall p, present (dw d3) p <-> present (dw d2) p /\ ~ In p ps)
  | RThrow _ => dstep d2 (DUse (WOp (OReturn u))) = DStop
  | _ => True
  end.
Proof.
  intros W Hd Pr Hin Hc Ho H W2 T2 C2 D2 P2 Hs. destruct (unwinding_waits _ _ _ _ _ _ _ _ _ W Hd Pr Hin Hc Ho H) as (rest & A1 & A2 & A3 & A4 & A5 & A6 & A7 & A8 & A9 & A10).
  rewrite A1 in T2. rewrite A2 in C2. rewrite A3 in D2. destruct v as [| | v|y]; auto.
  - destruct (ldestroy_returns _ _ _ _ _ _ _ W2 C2 D2 Hs) as (s' & E & B1 & B2 & B3 & B4). cbn [dstep usable negb]. rewrite E, T2, B1, Nat.leb_refl.
    assert (Pp : forall p, present s' p <-> present (dw d2) p) by (intros [q|q]; unfold present; rewrite ?B2, ?B3; reflexivity).
    destruct (destroy_silent rest l x (w_uncaught (ww (dw d))) (set_tasks (set_dw d2 s') (dw_tasks d))) as (d3 & G & E1 & E2 & E3 & E4 & _); cbn [dw set_dw set_tasks].
    + eapply wreachable_step; [exact W2|exact E].
    + exact A7.
    + rewrite Forall_forall. intros p Hp. destruct (A8 _ Hp) as (_ & Q2 & Q3). apply Pp, P2; auto.
    + intros q Hq. destruct (A8 _ Hq) as [[j F] _]. discriminate.
    + exists d3. rewrite G. split; [reflexivity|]. cbn [dw set_dw set_tasks dw_objs dw_tasks] in *. split; [exact E1|]. split; [exact E2|].
      destruct E3 as (F1 & _ & _ & F4 & _ & _ & F7 & _). split; [congruence|]. split; [exact E4|]. split; [congruence|].
      intros p. rewrite F1, Pp. split; intros [G1 G2]; (split; [exact G1|]).
      * intros Hp. destruct (A9 p Hp) as [K|K]; [contradiction|]. apply K. apply P2; auto.
      * intros Hp. apply G2. apply A8. exact Hp.
  - cbn [dstep usable negb]. rewrite (ldestroy_throws _ _ _ _ _ _ _ W2 C2 D2 Hs). reflexivity.
Qed.

(** ** Destruction *)

Lemma shape_distinct d k b ps : dreachable d -> dobj d k = Some (b, ps) -> distinct (map kind_of ps) = true.
Proof. intros Hr Hk. destruct (C77_shapes _ _ _ _ Hr Hk) as [->|[[a ->]|[[a ->]|[(a & c & ->)|(a & c & ->)]]]]; reflexivity. Qed.
Lemma destroy_throws_step d k b ps x l : dobj d k = Some (b, ps) -> m_dtor b = false ->
  dstep d (DDestroyThrows k x l) = go (set_objs d (upd (dw_objs d) k None)) (unwinding (dw (set_objs d (upd (dw_objs d) k None))) ps (EUser x) l).
Proof. intros Hk Hm. cbn [dstep dw set_objs]. rewrite Hk, Hm. reflexivity. Qed.

(** The destructor of Base throws: the watchers are destroyed while its exception is in flight. The destructor of Watched is not noexcept, but
    an unexpected destruction ends the program. *)
Theorem C98_failed_destruction_terminates d k b ps i m fl x l :
  dreachable d -> dobj d k = Some (b, ps) -> In (PLife i) ps -> carries (dw d) i m fl -> unwanted (dw d) m l -> obeys_contract (w_reporter (ww (dw d))) -> m_dtor b = false ->
  dstep d (DDestroyThrows k x l) = DStop.
Proof.
  intros Hr Hk Hin Hc Hu Ho Hm. pose proof (C77_is_a_watcher_program _ Hr) as W. rewrite (destroy_throws_step _ _ _ _ _ _ Hk Hm).
  apply (unwinding_stops (set_objs d (upd (dw_objs d) k None)) ps (EUser x) l i m fl); cbn [dw set_objs]; auto; [eapply shape_distinct|eapply parts_present]; eauto.
Qed.
(** Every other destruction is reported, exactly once, and the object is gone. While the expectation does its part the exception is in flight;
    when it has done it, the exception leaves the destructor. An exception of the expectation ends the program. *)
Theorem C98_failed_destruction d k b ps i m fl x l d1 r :
  dreachable d -> dobj d k = Some (b, ps) -> In (PLife i) ps -> carries (dw d) i m fl -> obeys_contract (w_reporter (ww (dw d))) -> m_dtor b = false ->
  dstep d (DDestroyThrows k x l) = DNext d1 r ->
  calls m (ww_log (dw d)) = 0 /\ calls m (ww_log (dw d1)) = 1 /\ dobj d1 k = None /\ (forall j fl', ~ carries (dw d1) j m fl') /\ r = RUnit /\
  w_uncaught (ww (dw d1)) = S (w_uncaught (ww (dw d))) /\
  forall d2 u w1 v, wreachable (dw d2) -> dw_tasks d2 = dw_tasks d1 -> ww_conts (dw d2) = ww_conts (dw d1) -> depth (dw d2) = depth (dw d1) ->
    (forall p, In p ps -> (present (dw d2) p <-> present (dw d1) p)) -> step (ww (dw d2)) (OReturn u) = Next w1 v ->
    (forall y, v = RThrow y -> dstep d2 (DUse (WOp (OReturn u))) = DStop) /\
    (forall y, v = RVal y -> exists d3, dstep d2 (DUse (WOp (OReturn u))) = DNext d3 (RThrow (EUser x)) /\ dw_objs d3 = dw_objs d2 /\ dw_tasks d3 = dw_tasks d /\
       w_uncaught (ww (dw d3)) = w_uncaught (ww (dw d)) /\ w_trace (ww (dw d3)) = w_trace (ww (dw d2)) /\ forall p, present (dw d3) p <-> present (dw d2) p /\ ~ In p ps).
Proof.
  intros Hr Hk Hin Hc Ho Hm H. pose proof (C77_is_a_watcher_program _ Hr) as W. rewrite (destroy_throws_step _ _ _ _ _ _ Hk Hm) in H.
  pose proof (shape_distinct _ _ _ _ Hr Hk) as Hd. pose proof (parts_present _ _ _ _ Hr Hk) as Pr. pose proof (dobj_lt _ _ _ Hk) as Lk.
  set (d0 := set_objs d (upd (dw_objs d) k None)) in *. change (dw d) with (dw d0) in W, Hc, Ho, Pr |- *.
  destruct (unwinding_calls d0 ps (EUser x) l i m fl d1 r W Hd Hin Hc H) as (A1 & A2 & A3). split; [exact A1|]. split; [exact A2|]. split.
  { unfold d0 in H. rewrite (go_dobj _ _ _ _ k H); [apply dobj_dead; auto|]. cbn [dw_objs set_objs]. rewrite length_upd. auto. }
  split; [exact A3|]. destruct (unwinding_waits d0 ps (EUser x) l i m fl d1 r W Hd Pr Hin Hc Ho H) as (rest & _ & _ & _ & _ & -> & Un & _). split; [reflexivity|]. split; [exact Un|].
  intros d2 u w1 v W2 T2 C2 D2 P2 Hs. pose proof (unwinding_completes d0 ps (EUser x) l i m fl d1 RUnit d2 u w1 v W Hd Pr Hin Hc Ho H W2 T2 C2 D2 P2 Hs) as Q.
  split; intros y ->; cbv iota beta in Q; [exact Q|]. destruct Q as (d3 & Q1 & Q2 & Q3 & _ & Q5 & Q6 & Q7). exists d3. auto 10.
Qed.
(** The destruction of moved-from objects and of objects without lifetime watcher is not reported: only the exception of Base is seen. *)
Theorem C98_failed_silent_destruction d k b ps x l :
  dreachable d -> dobj d k = Some (b, ps) -> (forall i, In (PLife i) ps -> moved_from (dw d) i) -> m_dtor b = false ->
  exists d', dstep d (DDestroyThrows k x l) = DNext d' (RThrow (EUser x)) /\ dw_objs d' = upd (dw_objs d) k None /\ dw_tasks d' = dw_tasks d /\ without (dw d) (dw d') ps /\
    w_uncaught (ww (dw d')) = w_uncaught (ww (dw d)).
Proof.
  intros Hr Hk Hmv Hm. pose proof (C77_is_a_watcher_program _ Hr) as W. rewrite (destroy_throws_step _ _ _ _ _ _ Hk Hm).
  destruct (unwinding_silent (set_objs d (upd (dw_objs d) k None)) ps (EUser x) l) as (d' & A1 & A2 & A3 & A4 & A5); cbn [dw set_objs]; auto.
  - apply distinct_parts. eapply shape_distinct; eauto.
  - eapply parts_present; eauto.
  - exists d'. auto.
Qed.
(** The order is that of every destruction: a watcher which is declared behind the lifetime watcher is gone before the destruction is reported,
    one which is declared before it is still there. *)
Theorem C98_failed_destruction_order d k b i j m fl x l d1 r ps :
  dreachable d -> dobj d k = Some (b, ps) -> ps = [PLife i; PReloc j] \/ ps = [PReloc j; PLife i] -> carries (dw d) i m fl -> obeys_contract (w_reporter (ww (dw d))) -> m_dtor b = false ->
  dstep d (DDestroyThrows k x l) = DNext d1 r -> (present (dw d1) (PReloc j) <-> ps = [PReloc j; PLife i]).
Proof.
  intros Hr Hk Hps Hc Ho Hm H. pose proof (C77_is_a_watcher_program _ Hr) as W. rewrite (destroy_throws_step _ _ _ _ _ _ Hk Hm) in H.
  pose proof (parts_present _ _ _ _ Hr Hk) as Pr.
  set (d0 := set_objs d (upd (dw_objs d) k None)) in *. change (dw d) with (dw d0) in W, Hc, Ho, Pr |- *. clearbody d0. clear Hk Hr d Hm.
  destruct (unwinding_go d0 ps (EUser x) l W) as (d & E & W0 & O0 & T0 & Hw & L0 & R0 & Lg & Pl & Un). rewrite E in H. destruct Hw as (P0 & _ & _ & _ & _ & Kr & _).
  assert (Pj : present (dw d) (PReloc j)). { apply P0. split; [|auto]. rewrite Forall_forall in Pr. apply Pr. destruct Hps as [->| ->]; cbn; auto. }
  assert (Hc' : carries (dw d) i m fl) by (unfold carries; rewrite L0; exact Hc).
  destruct Hps as [->| ->]; cbn [rev app] in H.
  - cbn [destroy_plan go] in H. destruct (rdestroy_without (dw d) j W0 Pj) as (s' & E1 & Hw & _ & El). rewrite E1 in H. destruct Hw as (Q1 & _ & _ & _ & _ & Kr1 & Ec & _). rewrite Ec, Nat.ltb_irrefl in H.
    split; [|discriminate]. intros F. exfalso.
    destruct (destroy_waits [PLife i] l (EUser x) (w_uncaught (ww (dw d0))) i m fl (set_dw d s') d1 r) as (rest & _ & _ & _ & _ & _ & _ & _ & _ & _ & Sub); cbn [dw set_dw].
    + eapply wreachable_step; eauto.
    + repeat constructor. intros [].
    + constructor; [|constructor]. unfold present. rewrite El. eexists. exact Hc'.
    + left. reflexivity.
    + intros q [G|[]]. congruence.
    + unfold carries. rewrite El. exact Hc'.
    + rewrite Kr1, Kr. exact Ho.
    + exact H.
    + apply Sub, Q1 in F. destruct F as [_ F]. apply F. left. reflexivity.
  - split; [reflexivity|]. intros _.
    cbn [destroy_plan go] in H. destruct (wstep (dw d) (LDestroy i true l)) as [s1 r1| | |] eqn:E1; try discriminate.
    assert (Ho' : obeys_contract (w_reporter (ww (dw d)))) by (rewrite Kr; exact Ho).
    destruct (ldestroy_waits _ _ _ _ _ _ _ W0 Hc' Ho' E1) as (_ & Hcs & _ & _ & Hrl & _).
    rewrite Hcs in H. cbn [length] in H. replace (length (ww_conts (dw d)) <? S (length (ww_conts (dw d)))) with true in H by (symmetry; apply Nat.ltb_lt; lia).
    injection H as <- <-. cbn [dw set_tasks set_dw]. unfold present in *. rewrite Hrl. exact Pj.
Qed.

(** ** Moving, continued *)

(** The new lifetime watcher, which has the identity of the object, is all there is to unwind. *)
Lemma move_life_go d k b i x l : dreachable d -> dobj d k = Some (b, [PLife i]) -> m_ctor_move b = Some false -> exists d0 lw, dstep d (DMoveThrows k x l) = go d0 (unwinding (dw d0) [PLife (length (ww_life (dw d)))] (EUser x) l) /\
  wreachable (dw d0) /\ dw_objs d0 = dw_objs d /\ dw_tasks d0 = dw_tasks d /\ ww (dw d0) = ww (dw d) /\ ww_conts (dw d0) = ww_conts (dw d) /\ ww_log (dw d0) = ww_log (dw d) /\ ww_reloc (dw d0) = ww_reloc (dw d) /\
  nth_error (ww_life (dw d)) i = Some (Some lw) /\ ww_life (dw d0) = upd (ww_life (dw d)) i (Some (mkLW (lw_flag lw) None)) ++ [Some lw].
Proof.
  intros Hr Hk Hm. pose proof (C77_is_a_watcher_program _ Hr) as W. pose proof (parts_present _ _ _ _ Hr Hk) as Pr. rewrite Forall_forall in Pr. destruct (Pr _ (or_introl eq_refl)) as [lw Hi]. clear Pr.
  cbn [dstep]. rewrite Hk, Hm. cbn [exists_ throws_ negb move_plan base_throws go].
  assert (E : wstep (dw d) (LMove i) = WNext (set_life (dw d) (upd (ww_life (dw d)) i (Some (mkLW (lw_flag lw) None)) ++ [Some lw])) RUnit) by (cbn [wstep]; rewrite Hi; reflexivity).
  rewrite E. cbn [ww_conts set_life]. rewrite Nat.ltb_irrefl. cbn [base_throws app ww_life set_life]. rewrite moved_carries.
  exists (set_dw d (set_life (dw d) (upd (ww_life (dw d)) i (Some (mkLW (lw_flag lw) None)) ++ [Some lw]))), lw. split; [reflexivity|].
  split; [eapply wreachable_step; eauto|]. auto 10.
Qed.
(** ... when the expectation has done its part, the exception of Base leaves the constructor. *)
Theorem C98_failed_move_completes d k b i m fl x l d1 r d2 u w1 v :
  dreachable d -> dobj d k = Some (b, [PLife i]) -> carries (dw d) i m fl -> m_ctor_move b = Some false -> obeys_contract (w_reporter (ww (dw d))) ->
  dstep d (DMoveThrows k x l) = DNext d1 r ->
  wreachable (dw d2) -> dw_tasks d2 = dw_tasks d1 -> ww_conts (dw d2) = ww_conts (dw d1) -> depth (dw d2) = depth (dw d1) -> ~ present (dw d2) (PLife (length (ww_life (dw d)))) ->
  step (ww (dw d2)) (OReturn u) = Next w1 v ->
  (forall y, v = RThrow y -> dstep d2 (DUse (WOp (OReturn u))) = DStop) /\
  (forall y, v = RVal y -> exists d3, dstep d2 (DUse (WOp (OReturn u))) = DNext d3 (RThrow (EUser x)) /\ dw_objs d3 = dw_objs d2 /\ dw_tasks d3 = dw_tasks d /\
     w_uncaught (ww (dw d3)) = w_uncaught (ww (dw d)) /\ w_trace (ww (dw d3)) = w_trace (ww (dw d2)) /\ forall p, present (dw d3) p <-> present (dw d2) p).
Proof.
  intros Hr Hk Hc Hm Ho H W2 T2 C2 D2 P2 Hs. destruct (move_life_go _ _ _ _ x l Hr Hk Hm) as (d0 & lw & E & W0 & O0 & T0 & Ew & Ec & El & Er & Hi & Hl). rewrite E in H.
  unfold carries in Hc. rewrite Hc in Hi. injection Hi as <-.
  assert (C0 : carries (dw d0) (length (ww_life (dw d))) m fl) by (unfold carries; rewrite Hl; rewrite <- (length_upd (ww_life (dw d)) i (Some (mkLW fl None))) at 1; apply nth_error_app_last).
  assert (P0 : Forall (present (dw d0)) [PLife (length (ww_life (dw d)))]) by (constructor; [eexists; exact C0|constructor]).
  assert (Ho0 : obeys_contract (w_reporter (ww (dw d0)))) by (rewrite Ew; exact Ho).
  destruct (unwinding_waits d0 [PLife (length (ww_life (dw d)))] (EUser x) l _ m fl d1 r W0 eq_refl P0 (or_introl eq_refl) C0 Ho0 H) as (rest & _ & _ & _ & _ & _ & _ & _ & B1 & B2 & _).
  assert (Q0 : forall p, In p [PLife (length (ww_life (dw d)))] -> (present (dw d2) p <-> present (dw d1) p)).
  { intros p [<-|[]]. split; [intros F; contradiction|]. intros F. destruct (B2 _ (or_introl eq_refl)) as [G|G]; [|contradiction]. destruct (B1 _ G) as [[j F'] _]. discriminate. }
  pose proof (unwinding_completes d0 [PLife (length (ww_life (dw d)))] (EUser x) l _ m fl d1 r d2 u w1 v W0 eq_refl P0 (or_introl eq_refl) C0 Ho0 H W2 T2 C2 D2 Q0 Hs) as Q.
  split; intros y ->; cbv iota beta in Q; [exact Q|]. destruct Q as (d3 & Q1 & Q2 & Q3 & _ & Q5 & Q6 & Q7). exists d3. rewrite T0 in Q3. rewrite Ew in Q5. repeat (split; [assumption|]).
  intros p. rewrite Q7. split; [tauto|]. intros F. split; [exact F|]. intros [<-|[]]. contradiction.
Qed.
(** An object which was moved from before has no identity to lose. *)
Theorem C98_failed_move_of_moved_from d k b i x l :
  dreachable d -> dobj d k = Some (b, [PLife i]) -> moved_from (dw d) i -> m_ctor_move b = Some false ->
  exists d', dstep d (DMoveThrows k x l) = DNext d' (RThrow (EUser x)) /\ dw_objs d' = dw_objs d /\ dw_tasks d' = dw_tasks d /\ w_uncaught (ww (dw d')) = w_uncaught (ww (dw d)) /\
    w_trace (ww (dw d')) = w_trace (ww (dw d)) /\ (forall p, present (dw d') p <-> present (dw d) p) /\ (forall q m fl, carries (dw d) q m fl -> carries (dw d') q m fl) /\
    forall j c, watches (dw d) j c -> watches (dw d') j c.
Proof.
  intros Hr Hk [fl Hmv] Hm. destruct (move_life_go _ _ _ _ x l Hr Hk Hm) as (d0 & lw & E & W0 & O0 & T0 & Ew & Ec & El & Er & Hi & Hl). rewrite E.
  rewrite Hmv in Hi. injection Hi as <-. cbn [lw_flag] in Hl.
  assert (U : upd (ww_life (dw d)) i (Some (mkLW fl None)) = ww_life (dw d)).
  { apply nth_ext with (d := None) (d' := None); [apply length_upd|]. intros q Hq. rewrite length_upd in Hq. destruct (Nat.eq_dec q i) as [->|Hne].
    - erewrite nth_error_nth by (apply nth_error_upd_eq; exact Hq). erewrite nth_error_nth by exact Hmv. reflexivity.
    - destruct (nth_error (ww_life (dw d)) q) as [y|] eqn:Y; [|apply nth_error_None in Y; lia]. erewrite !nth_error_nth; [reflexivity|exact Y|]. rewrite nth_error_upd_neq by auto. exact Y. }
  rewrite U in Hl.
  assert (N0 : nth_error (ww_life (dw d0)) (length (ww_life (dw d))) = Some (Some (mkLW fl None))) by (rewrite Hl; apply nth_error_app_last).
  destruct (unwinding_silent d0 [PLife (length (ww_life (dw d)))] (EUser x) l W0) as (d' & A1 & A2 & A3 & A4 & A5).
  - repeat constructor. intros [].
  - constructor; [eexists; exact N0|constructor].
  - intros q [F|[]]. injection F as <-. exists fl. exact N0.
  - exists d'. split; [exact A1|]. split; [congruence|]. split; [congruence|]. split; [congruence|]. destruct A4 as (F1 & F2 & F3 & F4 & _). split; [congruence|]. split; [|split].
    + intros p. rewrite F1. destruct p as [q|j]; cbn [present In]; rewrite ?Hl, ?Er.
      * split; [intros [[y Y] N]; exists y|intros [y Y]; split; [exists y; apply nth_error_snoc_old; exact Y|intros [F|[]]; injection F as F; apply nth_error_lt in Y; lia]].
        destruct (Nat.eq_dec q (length (ww_life (dw d)))) as [->|Hne]; [exfalso; apply N; left; reflexivity|].
        assert (q < length (ww_life (dw d))) by (apply nth_error_lt in Y; rewrite app_length in Y; cbn in Y; lia). rewrite nth_error_app1 in Y by auto. exact Y.
      * split; [tauto|]. intros F. split; [exact F|]. intros [G|[]]. discriminate.
    + intros q m f C. apply F2.
      * intros [F|[]]. injection F as F. apply nth_error_lt in C. lia.
      * unfold carries. rewrite Hl. apply nth_error_snoc_old. exact C.
    + intros j c (mj & B1 & B2). apply F3; [intros [F|[]]; discriminate|]. exists mj. rewrite Er, Ew. auto.
Qed.
(** If Base has no move constructor, the watchers are copied and the exception of Base's copy constructor is like that of a copy; so for
    assignment. *)
Theorem C98_failed_move_by_copy d k b ps x l : dobj d k = Some (b, ps) ->
  (m_ctor_move b = None -> dstep d (DMoveThrows k x l) = dstep d (DCopyThrows k x l)) /\
  (m_assign_move b = None -> forall q, dstep d (DMoveAssignThrows k q x l) = dstep d (DCopyAssignThrows k q x l)).
Proof.
  intros Hk. split; [intros Hm|intros Hm q]; cbn [dstep]; rewrite Hk; [rewrite Hm; reflexivity|].
  destruct (dobj d q) as [[b' qs]|]; [|reflexivity]. rewrite Hm. destruct (same_kinds ps qs), (throws_ (m_assign_copy b)); reflexivity.
Qed.

(** ** Relocation *)

Definition keeps_reporter (rp : reporter) (st : wstepped) : Prop := match st with WNext s' _ => w_reporter (ww s') = rp | _ => True end.
Definition installs (o : wop) : bool := match o with WOp (OInstall _) => true | _ => false end.
Lemma perform_keeps s o k : match o with OInstall _ => False | _ => True end -> (forall s1 r, w_reporter (ww s1) = w_reporter (ww s) -> keeps_reporter (w_reporter (ww s)) (k s1 r)) ->
  keeps_reporter (w_reporter (ww s)) (perform s o k).
Proof.
  intros Ho Hk. unfold perform. destruct (step (ww s) o) as [w1 r1| | |] eqn:E; cbn [keeps_reporter]; auto. apply Hk. cbn [ww after_op]. rewrite (step_reporter _ _ _ _ E). destruct o; auto. destruct Ho.
Qed.
Lemma leave_keeps ne s r : keeps_reporter (w_reporter (ww s)) (leave ne s r).
Proof. destruct r; cbn; auto. destruct ne; cbn; auto. Qed.
Lemma drop_keeps s mo : keeps_reporter (w_reporter (ww s)) (drop_mock s mo).
Proof. destruct mo; cbn [drop_mock]; [|reflexivity]. apply perform_keeps; [exact Logic.I|]. intros s1 r H. exact H. Qed.
Lemma refresh_keeps s i : keeps_reporter (w_reporter (ww s)) (refresh s i).
Proof.
  unfold refresh. destruct (nth_error (ww_life s) i) as [[lw|]|]; try exact Logic.I. apply perform_keeps; [exact Logic.I|]. intros s1 r H. cbv zeta. rewrite <- H.
  match goal with |- keeps_reporter _ (drop_mock ?a ?b) => exact (drop_keeps a b) end.
Qed.
Lemma finish_keeps s k r : keeps_reporter (w_reporter (ww s)) (finish s k r).
Proof.
  destruct k as [m ne|i m|i d ne|i j ne]; cbn [finish].
  - apply perform_keeps; [exact Logic.I|]. intros s1 r1 H. rewrite <- H. apply leave_keeps.
  - apply perform_keeps; [exact Logic.I|]. intros s1 r1 H. rewrite <- H. destruct (is_throw r); [reflexivity|apply refresh_keeps].
  - destruct (is_throw r); [apply perform_keeps; [exact Logic.I|]; intros s1 r1 H; rewrite <- H; apply leave_keeps|].
    destruct (nth_error (ww_reloc s) i) as [[m|]|]; try exact Logic.I. apply perform_keeps; [exact Logic.I|]. intros s1 r1 H. exact H.
  - destruct (is_throw r); [apply leave_keeps|]. destruct (nth_error (ww_reloc s) i) as [[m|]|]; try exact Logic.I. destruct (nth_error (ww_reloc s) j) as [[m'|]|]; try exact Logic.I.
    apply perform_keeps; [exact Logic.I|]. intros s1 r1 H. exact H.
Qed.
Lemma call_then_keeps s m l k : keeps_reporter (w_reporter (ww s)) (call_then s m l k).
Proof. unfold call_then. apply perform_keeps; [exact Logic.I|]. intros s1 r H. destruct (is_throw r); [rewrite <- H; apply finish_keeps|exact H]. Qed.
Lemma new_life_keeps s : keeps_reporter (w_reporter (ww s)) (new_life s).
Proof. unfold new_life. cbv zeta. apply perform_keeps; [exact Logic.I|]. intros s1 r H. exact H. Qed.
Lemma new_reloc_keeps s : keeps_reporter (w_reporter (ww s)) (new_reloc s).
Proof. unfold new_reloc. cbv zeta. apply perform_keeps; [exact Logic.I|]. intros s1 r H. exact H. Qed.
Lemma wstep_keeps s o s' r : installs o = false -> wstep s o = WNext s' r -> w_reporter (ww s') = w_reporter (ww s).
Proof.
  intros Ho E. enough (keeps_reporter (w_reporter (ww s)) (wstep s o)) as K by (rewrite E in K; exact K). clear E.
  destruct o; cbn [wstep].
  - destruct (existsb _ _); [exact Logic.I|]. apply perform_keeps; [destruct o; try exact Logic.I; discriminate|]. intros s1 r1 H. unfold resume.
    destruct (ww_conts s1) as [|[n k] ks]; [exact H|]. destruct (_ <=? _); [|exact H]. rewrite <- H. apply (finish_keeps (set_conts s1 ks)).
  - apply new_life_keeps.
  - destruct (nth_error (ww_life s) i) as [[lw|]|]; try exact Logic.I. apply new_life_keeps.
  - destruct (nth_error (ww_life s) i) as [[lw|]|]; exact Logic.I || reflexivity.
  - destruct (nth_error (ww_life s) i) as [[lw|]|]; try exact Logic.I. destruct (nth_error (ww_life s) j) as [[lj|]|]; try exact Logic.I. destruct (lw_mock lw); [|apply refresh_keeps].
    match goal with |- keeps_reporter _ (call_then ?a ?b ?c ?e) => exact (call_then_keeps a b c e) end.
  - destruct (nth_error (ww_life s) i) as [[lw|]|]; try exact Logic.I. destruct (nth_error (ww_life s) j) as [[lj|]|]; try exact Logic.I. destruct (i =? j); [reflexivity|].
    match goal with |- keeps_reporter _ (drop_mock ?a ?b) => exact (drop_keeps a b) end.
  - destruct (nth_error (ww_life s) i) as [[lw|]|]; try exact Logic.I. cbv zeta. destruct (lw_mock lw); [|reflexivity].
    match goal with |- keeps_reporter _ (call_then ?a ?b ?c ?e) => exact (call_then_keeps a b c e) end.
  - unfold expect_destruct. destruct (nth_error (ww_life s) i) as [[[fl [m|]]|]|]; try exact Logic.I; destruct fl; try reflexivity; try exact Logic.I.
    match goal with |- keeps_reporter _ (perform ?a ?b ?c) => apply (perform_keeps a b c) end; [exact Logic.I|]. intros s1 r1 H. exact H.
  - unfold expect_destruct. destruct (nth_error (ww_life s) i) as [[[fl [m|]]|]|]; try exact Logic.I; destruct fl; try reflexivity; try exact Logic.I.
  - apply new_reloc_keeps.
  - destruct (nth_error (ww_reloc s) i) as [[m|]|]; try exact Logic.I. apply new_reloc_keeps.
  - destruct (nth_error (ww_reloc s) i) as [[m|]|]; try exact Logic.I. cbv zeta. apply perform_keeps; [exact Logic.I|]. intros s1 r1 H. rewrite <- H. apply (call_then_keeps (own_reloc s1 _)).
  - destruct (nth_error (ww_reloc s) i) as [[m|]|]; try exact Logic.I. destruct (nth_error (ww_reloc s) j) as [[m'|]|]; try exact Logic.I. cbv zeta.
    apply perform_keeps; [exact Logic.I|]. intros s1 r1 H. rewrite <- H. apply (perform_keeps (own_reloc s1 _)); [exact Logic.I|]. intros s2 r2 H2. rewrite <- H2. apply perform_keeps; [exact Logic.I|]. intros s3 r3 H3. exact H3.
  - destruct (nth_error (ww_reloc s) i) as [[m|]|]; try exact Logic.I. destruct (nth_error (ww_reloc s) j) as [[m'|]|]; try exact Logic.I. apply call_then_keeps.
  - destruct (nth_error (ww_reloc s) i) as [[m|]|]; try exact Logic.I. apply (perform_keeps (set_reloc s _)); [exact Logic.I|]. intros s1 r1 H. exact H.
  - destruct (nth_error (ww_reloc s) i) as [[m|]|]; try exact Logic.I. apply perform_keeps; [exact Logic.I|]. intros s1 r1 H. exact H.
Qed.
Fixpoint no_install (p : plan) : Prop := match p with Done _ => True | Built _ _ => True | Do o k => installs o = false /\ forall s r, no_install (k s r) end.
Lemma destroy_no_install ne l todo : forall p, no_install (destroy_plan todo ne l p).
Proof.
  induction todo as [|[i|i] t IH]; intros p; cbn [destroy_plan].
  - destruct p as [[x n]|]; cbn; auto.
  - destruct p as [[x n]|]; cbn [no_install installs]; (split; [reflexivity|]); intros s r; [apply IH|]. destruct r; try apply IH. cbn [no_install installs]. split; [reflexivity|]. intros _ _. apply IH.
  - cbn [no_install installs]. split; [reflexivity|]. intros s r. apply IH.
Qed.
Lemma move_no_install b l todo : forall built, no_install (move_plan b todo built l).
Proof.
  induction todo as [|[i|i] t IH]; intros built; cbn [move_plan no_install installs]; [exact Logic.I| |]; (split; [reflexivity|]); intros s r; [apply IH|].
  destruct r; try apply IH. cbn [no_install installs]. split; [reflexivity|]. intros _ _. apply destroy_no_install.
Qed.
Lemma go_no_install p : forall d d' r, no_install p -> go d p = DNext d' r -> w_reporter (ww (dw d')) = w_reporter (ww (dw d)) /\
  (dw_tasks d' = dw_tasks d \/ exists n k, dw_tasks d' = (n, k) :: dw_tasks d /\ forall s1 r1, no_install (k s1 r1)).
Proof.
  induction p as [r0|b ps|o k IH]; intros d d' r Hn H; cbn [go] in H.
  - inversion H; subst. auto.
  - inversion H; subst. auto.
  - destruct Hn as [Ho Hk]. destruct (wstep (dw d) o) as [s r0| | |] eqn:E; try discriminate. pose proof (wstep_keeps _ _ _ _ Ho E) as K. destruct (_ <? _).
    + inversion H; subst. cbn [dw set_tasks set_dw dw_tasks]. split; [exact K|]. right. eexists _, _. split; [reflexivity|exact (Hk)].
    + destruct (IH s r0 (set_dw d s) d' r (Hk _ _) H) as [A B]. cbn [dw set_dw dw_tasks] in *. split; [congruence|exact B].
Qed.

(** A relocation watcher either has its expectations or is empty; nothing that takes watchers away gives it others. *)
Lemma reloc_either s j : wreachable s -> present s (PReloc j) -> (exists c, watches s j c) \/ emptied s j.
Proof.
  intros W [m Hj]. pose proof (inv_wreachable _ W) as I. destruct (v_reloc _ I _ _ Hj) as [_ [cs Hm]]. destruct cs as [cs|]; [left|right; exists m; auto].
  pose proof (oi_len _ (oinv_reachable _ (v_reachable _ I)) _ _ _ Hm eq_refl) as L. cbn in L. destruct cs as [|c [|? ?]]; try discriminate L. exists c, m. auto.
Qed.
Lemma without_back s s' ps q c : wreachable s -> without s s' ps -> watches s' q c -> watches s q c /\ ~ In (PReloc q) ps.
Proof.
  intros W (W1 & _ & W3 & _) Hq. assert (P : present s' (PReloc q)) by (destruct Hq as (m & A & _); exists m; exact A). apply W1 in P. destruct P as [P N]. split; [|exact N].
  destruct (W3 q N) as [K1 K2]. destruct Hq as (m & A & B). destruct (reloc_either s q W P) as [[c0 Hc]|He].
  - destruct (K1 _ Hc) as (m' & A' & B'). rewrite A in A'. injection A' as <-. unfold place in *. rewrite B in B'. injection B' as <-. exact Hc.
  - destruct (K2 He) as (m' & A' & B'). rewrite A in A'. injection A' as <-. unfold place in *. rewrite B in B'. discriminate.
Qed.

(** Base throws after an expected relocation: the exception is seen, the object is still there, but its relocation watcher is empty, and
    the expectations of its relocation belong to nobody any more. [d2]: any state in which the move still waits for the call. *)
Theorem C98_failed_relocation d k b j c x l d1 r d2 c' u w1 v :
  dreachable d -> dobj d k = Some (b, [PReloc j]) -> watches (dw d) j c -> ~ refused (dw d) c l -> obeys_contract (w_reporter (ww (dw d))) -> m_ctor_move b = Some false ->
  dstep d (DMoveThrows k x l) = DNext d1 r ->
  wreachable (dw d2) -> dw_tasks d2 = dw_tasks d1 -> ww_conts (dw d2) = ww_conts (dw d1) -> depth (dw d2) = depth (dw d1) -> watches (dw d2) j c' ->
  step (ww (dw d2)) (OReturn u) = Next w1 (RVal v) ->
  r = RUnit /\ dw_objs d1 = dw_objs d /\ exists d3, dstep d2 (DUse (WOp (OReturn u))) = DNext d3 (RThrow (EUser x)) /\ dw_objs d3 = dw_objs d2 /\ dw_tasks d3 = dw_tasks d /\
    w_trace (ww (dw d3)) = w_trace (ww (dw d2)) /\ emptied (dw d3) j /\ (forall q, ~ watches (dw d3) q c').
Proof.
  intros Hr Hk Hw Hn Ho Hm H W2 T2 C2 D2 Wj Hs. pose proof (C77_is_a_watcher_program _ Hr) as W.
  cbn [dstep] in H. rewrite Hk, Hm in H. cbn [exists_ throws_ negb move_plan base_throws go] in H.
  destruct (C52_relocation (dw d) j c (RMove j (nothrow_move b) l) (nothrow_move b) l W Hw (or_introl eq_refl) Ho) as [(e0 & x0 & mr & s3 & kk & _ & _ & E3 & _ & _ & _ & _ & Cs3 & Dp3 & Kk)|(F & _)];
    [|exfalso; apply Hn; exact F].
  rewrite E3, Cs3 in H. cbn [length] in H. replace (length (ww_conts (dw d)) <? S (length (ww_conts (dw d)))) with true in H by (symmetry; apply Nat.ltb_lt; lia).
  injection H as <- <-. split; [reflexivity|]. split; [reflexivity|]. cbn [dw set_tasks set_dw dw_tasks dw_objs] in *. rewrite Cs3 in C2.
  rewrite Dp3 in D2. destruct Kk as [[_ ->]|(q & F & _)]; [|discriminate].
  destruct (C52_move_ends (dw d2) (depth (dw d)) j (length (w_mocks (ww (dw d)))) (nothrow_move b) (ww_conts (dw d)) c' u w1 v W2 C2 D2 Wj Hs) as (s' & E & Tr & Ck & Wn & Em & _).
  destruct (return_moved _ _ _ _ _ _ _ _ _ _ C2 D2 Hs E) as [Rl Ll]. pose proof (wreachable_step _ _ _ _ W2 E) as W'.
  cbn [dstep usable negb]. rewrite E, T2. cbv iota beta. rewrite Ck, Nat.leb_refl. cbn [move_plan base_throws app].
  replace (length (ww_reloc s') - 1) with (length (ww_reloc (dw d2))) by (rewrite Rl, app_length; cbn; lia).
  destruct (unwinding_silent (set_tasks (set_dw d2 s') (dw_tasks d)) [PReloc (length (ww_reloc (dw d2)))] (EUser x) l) as (d3 & A1 & A2 & A3 & A4 & A5); cbn [dw set_dw set_tasks].
  - exact W'.
  - repeat constructor. intros [].
  - constructor; [|constructor]. destruct Wn as (m & B & _). exists m. exact B.
  - intros i [F|[]]. discriminate.
  - exists d3. cbn [dw set_dw set_tasks dw_objs dw_tasks] in *. split; [exact A1|]. split; [exact A2|]. split; [exact A3|].
    assert (j <> length (ww_reloc (dw d2))) as Hne by (intros ->; destruct Wj as (m & B & _); apply nth_error_lt in B; lia).
    pose proof A4 as (F1 & _ & F3 & F4 & _). split; [congruence|]. split; [apply (F3 j); [intros [F|[]]; congruence|exact Em]|].
    intros q Hq. destruct (without_back _ _ _ _ _ W' A4 Hq) as [Q1 Q2]. apply Q2. left. f_equal. eapply C52_unique; [exact W'|exact Wn|exact Q1].
Qed.
(** With a lifetime watcher in the object: its identity is already that of the new object, and dies with it. If the destruction was not announced the
    program ends; otherwise the expectation of the destruction is fulfilled, although the object lives on. *)
Theorem C98_failed_relocation_of_watched d k b ps i j m fl c x l d1 r d2 c' u w1 v :
  dreachable d -> dobj d k = Some (b, ps) -> In (PLife i) ps -> In (PReloc j) ps -> carries (dw d) i m fl ->
  watches (dw d) j c -> ~ refused (dw d) c l -> obeys_contract (w_reporter (ww (dw d))) -> m_ctor_move b = Some false ->
  dstep d (DMoveThrows k x l) = DNext d1 r ->
  wreachable (dw d2) -> dw_tasks d2 = dw_tasks d1 -> ww_conts (dw d2) = ww_conts (dw d1) -> depth (dw d2) = depth (dw d1) -> watches (dw d2) j c' ->
  carries (dw d2) (match ps with PLife _ :: _ => length (ww_life (dw d)) | _ => i end) m fl -> obeys_contract (w_reporter (ww (dw d2))) ->
  step (ww (dw d2)) (OReturn u) = Next w1 (RVal v) ->
  (fl = false -> dstep d2 (DUse (WOp (OReturn u))) = DStop) /\
  (forall d3 r3, dstep d2 (DUse (WOp (OReturn u))) = DNext d3 r3 -> r3 = RUnit /\ dw_objs d3 = dw_objs d2 /\ calls m (ww_log (dw d3)) = 1 /\ (forall q fl', ~ carries (dw d3) q m fl')).
Proof.
  intros Hr Hk Hini Hinj Hi Hw Hn Ho Hm H W2 T2 C2 D2 Wj Hi2 Ho2 Hs. pose proof (C77_is_a_watcher_program _ Hr) as W.
  assert (Hmv : m_ctor_move b <> None) by (rewrite Hm; discriminate).
  set (p := move_plan b ps [] l).
  assert (Eo : dstep d (DMove k l) = go d p) by (cbn [dstep]; rewrite Hk, Hm; reflexivity).
  assert (Et : dstep d (DMoveThrows k x l) = go d (base_throws (dw d) p (EUser x) l)) by (cbn [dstep]; rewrite Hk, Hm; reflexivity).
  rewrite Et in H. pose proof (throws_cases (EUser x) l p d) as C. destruct (go d p) as [d1' r'| | |] eqn:G; try (rewrite C in H; discriminate).
  assert (Ho' : dstep d (DMove k l) = DNext d1' r') by (rewrite Eo; reflexivity).
  destruct (C77_move_waits d k b ps j c l d1' r' Hr Hk Hinj) as (e & f & t & -> & _ & Cs & Ts & Os & Dp); auto.
  { intros i' Hi'. assert (i' = i) as -> by (eapply (proj2 (distinct_parts _ (shape_distinct _ _ _ _ Hr Hk))); eauto). eauto. }
  assert (N : dw_tasks d1' = dw_tasks d -> False) by (rewrite Ts; intros F; apply (f_equal (@length _)) in F; cbn in F; lia).
  destruct C as [(y & _ & _ & F & _)|[(_ & _ & F & _)|[(b' & ps' & _ & _ & F & _)|(n & k0 & _ & _ & F & E1)]]]; try (exfalso; exact (N F)). clear N.
  rewrite E1 in H. injection H as <- <-. cbn [dw set_tasks dw_tasks] in T2, C2, D2.
  destruct (go_no_install p d d1' RUnit (move_no_install b l ps []) G) as [_ [N|(n0 & k1 & Et1 & Ni)]]; [rewrite F in N; apply (f_equal (@length _)) in N; cbn in N; lia|].
  rewrite F in Et1. injection Et1 as <- <-.
  destruct (move_completes d k b ps i j m fl c l d1' RUnit (set_tasks d2 ((n, k0) :: dw_tasks d)) c' u w1 v Hr Hk Hini Hinj Hi Hw Hn Ho Hmv Ho') as (d3 & ps' & q & q' & Est & Ob & Ks & Iq & Iq' & Cq & Wq' & Ej & T3);
    cbn [dw set_tasks dw_tasks]; auto.
  cbn [dw_objs set_tasks] in Ob. cbn [dstep usable negb] in *. cbn [dw set_tasks dw_tasks] in Est. rewrite T2.
  destruct (wstep (dw d2) (WOp (OReturn u))) as [s rr| | |] eqn:Es; try discriminate. pose proof (wreachable_step _ _ _ _ W2 Es) as Ws.
  pose proof (wstep_keeps _ _ _ _ (eq_refl : installs (WOp (OReturn u)) = false) Es) as Kr.
  destruct (length (ww_conts s) <=? n).
  2: { exfalso. injection Est as <- _. unfold dobj in Ob. cbn [dw_objs set_dw set_tasks] in Ob. rewrite (proj2 (nth_error_None (dw_objs d2) (length (dw_objs d2))) (le_n _)) in Ob. discriminate. }
  set (dd := set_tasks (set_dw d2 s) (dw_tasks d)). change (go dd (k0 s rr) = DNext d3 RUnit) in Est.
  assert (Od : dw_objs d3 = dw_objs dd ++ [Some (b, ps')]).
  { pose proof (throws_cases (EUser x) l (k0 s rr) dd) as C. rewrite Est in C.
    assert (N : dw_objs d3 = dw_objs dd -> False).
    { intros Z. unfold dobj in Ob. rewrite Z in Ob. cbn [dd dw_objs set_dw set_tasks] in Ob. rewrite (proj2 (nth_error_None (dw_objs d2) (length (dw_objs d2))) (le_n _)) in Ob. discriminate. }
    destruct C as [(y & _ & Z & _)|[(_ & Z & _)|[(b1 & ps1 & _ & Z & _)|(n1 & k1 & _ & Z & _)]]]; try (exfalso; exact (N Z)).
    unfold dobj in Ob. rewrite Z in Ob. change (dw_objs dd) with (dw_objs d2) in *. rewrite nth_error_app_last in Ob. injection Ob as -> ->. exact Z. }
  destruct (throws_built (EUser x) l _ _ _ _ _ _ Est Od) as [Td Eb]. change (dw dd) with s in Eb. cbv iota beta. fold dd. rewrite Eb.
  destruct (go_run _ _ _ _ Est) as [ops Rn]. assert (W3 : wreachable (dw d3)) by (eapply wreachable_run; [exact Ws|exact Rn]).
  destruct (go_no_install _ _ _ _ (Ni s rr) Est) as [Kr3 _]. change (dw dd) with s in Kr3.
  assert (Ho3 : obeys_contract (w_reporter (ww (dw d3)))) by (rewrite Kr3, Kr; exact Ho2).
  assert (Ds : distinct (map kind_of ps') = true) by (rewrite Ks; eapply shape_distinct; eauto).
  assert (Pq : present (dw d3) (PLife q)) by (eexists; exact Cq). assert (Pq' : present (dw d3) (PReloc q')) by (destruct Wq' as (mm & B & _); exists mm; exact B).
  assert (Pr : Forall (present (dw d3)) ps').
  { destruct (C77_shapes _ _ _ _ Hr Hk) as [->|[[a ->]|[[a ->]|[(a & a' & ->)|(a & a' & ->)]]]]; cbn [map] in Ks;
      destruct ps' as [|[z|z] [|[z'|z'] [|? ?]]]; cbn [map kind_of] in Ks; try discriminate Ks; cbn [In] in Iq, Iq', Hini, Hinj;
      repeat match goal with Z : _ \/ _ |- _ => destruct Z | Z : False |- _ => destruct Z end; try discriminate;
      repeat match goal with Z : PLife _ = PLife _ |- _ => injection Z as Z; subst | Z : PReloc _ = PReloc _ |- _ => injection Z as Z; subst end; auto. }
  split.
  - intros ->. apply (unwinding_stops (set_objs d3 (dw_objs dd)) ps' (EUser x) l q m false); cbn [dw set_objs]; auto. apply (unannounced _ q); auto.
  - intros d4 r4 H4. destruct (unwinding_calls (set_objs d3 (dw_objs dd)) ps' (EUser x) l q m fl d4 r4 W3 Ds Iq Cq H4) as (_ & A2 & A3).
    destruct (unwinding_waits (set_objs d3 (dw_objs dd)) ps' (EUser x) l q m fl d4 r4 W3 Ds Pr Iq Cq Ho3 H4) as (rest & _ & _ & _ & A4 & A5 & _). auto.
Qed.

(** ** Programs *)

(** A failed move does not leave the object as it was: the expectation of its destruction is fulfilled, and its destruction is not noticed. *)
Definition prog_broken_move : list dop := [DNew loose_base [KLife]; DUse (LExpect 0 [] here); DMoveThrows 0 7 there; fin; ret].
Theorem C98_failed_move_keeps_object_refuted :
  exists ops k x l d d', drun dinit ops d /\ dexec d [DMoveThrows k x l; fin; ret] = Some (d', [RUnit; RUnit; RThrow (EUser x)]) /\
    dobj d' k = dobj d k /\ dobj d k = Some (loose_base, [PLife 0]) /\ carries (dw d) 0 0 true /\ moved_from (dw d') 0 /\ calls 0 (ww_log (dw d')) = 1 /\
    dexec d' [DUse (WOp (OEndScope 0)); DDestroy k l] <> None /\ w_trace (ww (dw (match dexec d' [DDestroy k l] with Some (y, _) => y | None => dinit end))) = w_trace (ww (dw d')).
Proof.
  exists (firstn 2 prog_broken_move), 0, 7, there, (dafter (firstn 2 prog_broken_move)), (dafter prog_broken_move).
  split; [eapply dexec_run; vm_compute; reflexivity|]. split; [vm_compute; reflexivity|]. split; [vm_compute; reflexivity|]. split; [vm_compute; reflexivity|].
  split; [vm_compute; reflexivity|]. split; [exists true; vm_compute; reflexivity|]. split; [vm_compute; reflexivity|]. split; [vm_compute; discriminate|vm_compute; reflexivity].
Qed.
(** Nor does a failed move assignment: the target has the identity of the source, and its own expectation can never be fulfilled. *)
Theorem C98_failed_move_assignment_keeps_objects_refuted :
  exists ops k q x l d d', drun dinit ops d /\ dstep d (DMoveAssignThrows k q x l) = DNext d' (RThrow (EUser x)) /\ carries (dw d) 0 0 true /\ carries (dw d) 1 1 false /\
    carries (dw d') 0 1 false /\ moved_from (dw d') 1 /\ forall j f, ~ carries (dw d') j 0 f.
Proof.
  exists (prog_assign2 loose_base [KLife]), 0, 1, 7, there, (dafter (prog_assign2 loose_base [KLife])), (dafter (prog_assign2 loose_base [KLife] ++ [DMoveAssignThrows 0 1 7 there])).
  split; [eapply dexec_run; vm_compute; reflexivity|]. split; [vm_compute; reflexivity|]. split; [vm_compute; reflexivity|]. split; [vm_compute; reflexivity|]. split; [vm_compute; reflexivity|].
  split; [exists false; vm_compute; reflexivity|]. intros [|[|j]] f H; vm_compute in H; try discriminate. destruct j; discriminate.
Qed.
(** After a failed relocation the object can not be moved again: its relocation watcher is empty, and calling it is undefined. *)
Definition prog_broken_relocation : list dop := [DNew loose_base [KReloc]; DUse (RExpect 0 [ClTimes (TxAtLeast 0)] here); DMoveThrows 0 7 there; fin; ret].
Theorem C98_failed_relocation_keeps_object_refuted :
  exists ops k x l d d' u, drun dinit ops d /\ dexec d [DMoveThrows k x l; fin; ret] = Some (d', [RUnit; RUnit; RThrow (EUser x)]) /\ dobj d' k = dobj d k /\ dobj d k <> None /\
    (exists d1, dstep d (DMove k l) = DNext d1 RUnit) /\ dstep d' (DMove k l) = DWrong u.
Proof.
  exists (firstn 2 prog_broken_relocation), 0, 7, there, (dafter (firstn 2 prog_broken_relocation)), (dafter prog_broken_relocation). eexists.
  split; [eapply dexec_run; vm_compute; reflexivity|]. split; [vm_compute; reflexivity|]. split; [vm_compute; reflexivity|]. split; [vm_compute; discriminate|].
  split; [exists (dafter (firstn 2 prog_broken_relocation ++ [DMove 0 there])); vm_compute; reflexivity|vm_compute; reflexivity].
Qed.
(** The exception of a constructor of Base can not always be caught. *)
Theorem C98_failed_construction_is_seen_refuted :
  exists b ks x l, distinct ks = true /\ obeys_contract (w_reporter (ww (dw dinit))) /\ dstep dinit (DNew b ks) <> DStop /\ dstep dinit (DNewThrows b ks x l) = DStop.
Proof.
  exists loose_base, [KLife], 7, there. split; [reflexivity|]. split; [repeat split; discriminate|]. split; [vm_compute; discriminate|vm_compute; reflexivity].
Qed.

(** The cases of the theorems. *)
Example prog_constructions :
  dresults [DNewThrows loose_base [KReloc] 3 here; DNewThrows plain_base [] 4 here; DNew loose_base [KReloc]; DUse (RExpect 1 [] here); DCopyThrows 0 5 here] =
    [RThrow (EUser 3); RThrow (EUser 4); RUnit; RUnit; RThrow (EUser 5)] /\
  dexec dinit [DNewThrows loose_base [KLife; KReloc] 3 here] = None /\ dexec dinit [DNew loose_base [KLife]; DUse (LExpect 0 [] here); DCopyThrows 0 3 here] = None /\
  dresults [DNew loose_base [KLife]; DUse (LExpect 0 [] here); DCopy 0] = [RUnit; RUnit; RUnit] /\ m_ctor_copy loose_base = Some false /\ m_ctor_move loose_base = Some false /\
  m_assign_copy loose_base = Some false /\ m_assign_move loose_base = Some false /\ m_dtor loose_base = false.
Proof. do 4 (split; [vm_compute; reflexivity|]). repeat split. Qed.
(** The relocation watcher of the object is one of its two watchers; nobody has announced its destruction, or somebody has. *)
Definition prog_watched_relocation (ks : list kind) (announced : bool) : list dop :=
  [DNew loose_base ks; DUse (RExpect 0 [] here)] ++ (if announced then [DUse (LExpect 0 [] here)] else []) ++ [DMoveThrows 0 7 there; fin].
Example prog_watched_relocation_runs :
  forall ks, ks = [KLife; KReloc] \/ ks = [KReloc; KLife] ->
  dstep (dafter (prog_watched_relocation ks false)) ret = DStop /\
  dresults (prog_watched_relocation ks true ++ [ret; fin; ret; DDestroy 0 there]) = repeat RUnit 7 ++ [RThrow (EUser 7); RUnit] /\
  let d := dafter (firstn 3 (prog_watched_relocation ks true)) in let d1 := dafter (firstn 4 (prog_watched_relocation ks true)) in let d2 := dafter (prog_watched_relocation ks true) in
  dreachable d /\ dreachable d2 /\ (exists ps, dobj d 0 = Some (loose_base, ps) /\ In (PLife 0) ps /\ In (PReloc 0) ps) /\ carries (dw d) 0 (match ks with KLife :: _ => 0 | _ => 1 end) true /\ (exists c, watches (dw d) 0 c) /\
  dstep d (DMoveThrows 0 7 there) = DNext d1 RUnit /\ ww_conts (dw d2) = ww_conts (dw d1) /\ depth (dw d2) = depth (dw d1) /\ (exists c, watches (dw d2) 0 c) /\
  carries (dw d2) (match ks with KLife :: _ => 1 | _ => 0 end) (match ks with KLife :: _ => 0 | _ => 1 end) true /\ exists w1, step (ww (dw d2)) (OReturn (UOk (VInt 0))) = Next w1 (RVal None).
Proof.
  intros ks [->| ->]; (split; [vm_compute; reflexivity|]); (split; [vm_compute; reflexivity|]); cbv zeta.
  - do 2 (split; [apply dafter_reachable; vm_compute; reflexivity|]). split; [exists [PLife 0; PReloc 0]; split; [vm_compute; reflexivity|cbn; auto]|].
    split; [vm_compute; reflexivity|]. split; [exists 1, 1; vm_compute; auto|]. split; [vm_compute; reflexivity|]. split; [vm_compute; reflexivity|]. split; [vm_compute; reflexivity|].
    split; [exists 1, 1; vm_compute; auto|]. split; [vm_compute; reflexivity|]. eexists. vm_compute. reflexivity.
  - do 2 (split; [apply dafter_reachable; vm_compute; reflexivity|]). split; [exists [PReloc 0; PLife 0]; split; [vm_compute; reflexivity|cbn; auto]|].
    split; [vm_compute; reflexivity|]. split; [exists 0, 0; vm_compute; auto|]. split; [vm_compute; reflexivity|]. split; [vm_compute; reflexivity|]. split; [vm_compute; reflexivity|].
    split; [exists 0, 0; vm_compute; auto|]. split; [vm_compute; reflexivity|]. eexists. vm_compute. reflexivity.
Qed.
Example prog_broken_relocation_hypotheses :
  let d := dafter (firstn 2 prog_broken_relocation) in let d1 := dafter (firstn 3 prog_broken_relocation) in let d2 := dafter (firstn 4 prog_broken_relocation) in
  dreachable d /\ dreachable d2 /\ dobj d 0 = Some (loose_base, [PReloc 0]) /\ watches (dw d) 0 0 /\ ~ refused (dw d) 0 there /\ obeys_contract (w_reporter (ww (dw d))) /\
  dstep d (DMoveThrows 0 7 there) = DNext d1 RUnit /\ ww_conts (dw d2) = ww_conts (dw d1) /\ depth (dw d2) = depth (dw d1) /\ watches (dw d2) 0 0 /\
  exists w1, step (ww (dw d2)) (OReturn (UOk (VInt 0))) = Next w1 (RVal None).
Proof.
  cbv zeta. do 2 (split; [apply dafter_reachable; vm_compute; reflexivity|]). split; [vm_compute; reflexivity|]. split; [exists 0; vm_compute; auto|].
  split. { intros F. assert (W : wreachable (dw (dafter (firstn 2 prog_broken_relocation)))) by (apply C77_is_a_watcher_program, dafter_reachable; vm_compute; reflexivity).
    assert (N : match wstep (dw (dafter (firstn 2 prog_broken_relocation))) (RMove 0 false there) with WNext _ RUnit => true | _ => false end = true) by (vm_compute; reflexivity).
    destruct (C52_relocation _ 0 0 (RMove 0 false there) false there W) as [(e & y & mr & s' & kk & Hc & _)|(_ & rep & who & s' & _ & E & _)].
    - exists 0; vm_compute; auto.
    - left. reflexivity.
    - repeat split; discriminate.
    - exact (F e y Hc).
    - rewrite E in N. destruct (react _ rep); discriminate N. }
  split; [repeat split; discriminate|]. split; [vm_compute; reflexivity|]. split; [vm_compute; reflexivity|]. split; [vm_compute; reflexivity|]. split; [exists 0; vm_compute; auto|].
  eexists. vm_compute. reflexivity.
Qed.
Example prog_broken_move_hypotheses :
  let d0 := dafter (firstn 1 prog_broken_move) in let d := dafter (firstn 2 prog_broken_move) in let d1 := dafter (firstn 3 prog_broken_move) in let d2 := dafter (firstn 4 prog_broken_move) in
  dreachable d0 /\ dreachable d /\ dreachable d2 /\ dobj d 0 = Some (loose_base, [PLife 0]) /\ carries (dw d) 0 0 true /\ carries (dw d0) 0 0 false /\ dstep d0 (DMoveThrows 0 7 there) = DStop /\
  dstep d (DMoveThrows 0 7 there) = DNext d1 RUnit /\ w_uncaught (ww (dw d)) = 0 /\ w_uncaught (ww (dw d1)) = 1 /\ w_uncaught (ww (dw (dafter prog_broken_move))) = 0 /\
  ww_conts (dw d2) = ww_conts (dw d1) /\ depth (dw d2) = depth (dw d1) /\ ~ present (dw d2) (PLife 1) /\ obeys_contract (w_reporter (ww (dw d))) /\
  (exists w1, step (ww (dw d2)) (OReturn (UOk (VInt 0))) = Next w1 (RVal None)) /\
  dresults (prog_broken_move ++ [DMoveThrows 0 8 here; DMoveThrows 0 9 here]) = repeat RUnit 4 ++ [RThrow (EUser 7); RThrow (EUser 8); RThrow (EUser 9)].
Proof.
  cbv zeta. do 3 (split; [apply dafter_reachable; vm_compute; reflexivity|]). do 10 (split; [vm_compute; reflexivity|]).
  split; [intros [lw F]; vm_compute in F; discriminate|]. split; [repeat split; discriminate|]. split; [eexists; vm_compute; reflexivity|vm_compute; reflexivity].
Qed.
Definition prog_broken_destruction (ks : list kind) : list dop := [DNew loose_base ks; DUse (LExpect 0 [] here); DDestroyThrows 0 7 there; fin].
Example prog_broken_destruction_hypotheses :
  forall ks, ks = [KLife; KReloc] \/ ks = [KReloc; KLife] ->
  let d := dafter (firstn 2 (prog_broken_destruction ks)) in let d1 := dafter (firstn 3 (prog_broken_destruction ks)) in let d2 := dafter (prog_broken_destruction ks) in
  dreachable d /\ dreachable d2 /\ (exists ps, dobj d 0 = Some (loose_base, ps) /\ In (PLife 0) ps /\ (forall p, In p ps -> (present (dw d2) p <-> present (dw d1) p)) /\ (ps = [PLife 0; PReloc 0] \/ ps = [PReloc 0; PLife 0])) /\
  carries (dw d) 0 (match ks with KLife :: _ => 0 | _ => 1 end) true /\ dstep d (DDestroyThrows 0 7 there) = DNext d1 RUnit /\ w_uncaught (ww (dw d1)) = 1 /\
  ww_conts (dw d2) = ww_conts (dw d1) /\ depth (dw d2) = depth (dw d1) /\ obeys_contract (w_reporter (ww (dw d))) /\
  (exists w1, step (ww (dw d2)) (OReturn (UOk (VInt 0))) = Next w1 (RVal None)) /\
  dresults (prog_broken_destruction ks ++ [ret; DUse (WOp (OEndScope 0))]) = repeat RUnit 4 ++ [RThrow (EUser 7); RUnit] /\
  dstep (dafter (firstn 1 (prog_broken_destruction ks))) (DDestroyThrows 0 7 there) = DStop /\ dstep (dafter (firstn 1 (prog_broken_destruction ks))) (DDestroy 0 there) <> DStop.
Proof.
  intros ks [->| ->]; cbv zeta; (do 2 (split; [apply dafter_reachable; vm_compute; reflexivity|])).
  - split. { exists [PLife 0; PReloc 0]. split; [vm_compute; reflexivity|]. split; [cbn; auto|]. split; [|auto]. intros p [<-|[<-|[]]]; vm_compute; tauto. }
    do 5 (split; [vm_compute; reflexivity|]). split; [repeat split; discriminate|]. split; [eexists; vm_compute; reflexivity|]. do 2 (split; [vm_compute; reflexivity|]). vm_compute. discriminate.
  - split. { exists [PReloc 0; PLife 0]. split; [vm_compute; reflexivity|]. split; [cbn; auto|]. split; [|auto]. intros p [<-|[<-|[]]]; vm_compute; tauto. }
    do 5 (split; [vm_compute; reflexivity|]). split; [repeat split; discriminate|]. split; [eexists; vm_compute; reflexivity|]. do 2 (split; [vm_compute; reflexivity|]). vm_compute. discriminate.
Qed.
Example prog_silent_destruction :
  dresults [DNew loose_base [KLife]; DMove 0 here; DDestroyThrows 0 7 there; DNew loose_base [KReloc]; DDestroyThrows 2 8 there] = [RUnit; RUnit; RThrow (EUser 7); RUnit; RThrow (EUser 8)] /\
  moved_from (dw (dafter [DNew loose_base [KLife]; DMove 0 here])) 0.
Proof. split; [vm_compute; reflexivity|exists false; vm_compute; reflexivity]. Qed.
(** Assignments: to a moved-from object; by moving; with an expectation of the destruction of the target. *)
Example prog_broken_assignments :
  let p := [DNew loose_base [KLife]; DNew loose_base [KLife]; DMove 0 here] in
  dresults (p ++ [DCopyAssignThrows 0 1 7 there]) = [RUnit; RUnit; RUnit; RThrow (EUser 7)] /\ dreachable (dafter p) /\ moved_from (dw (dafter p)) 0 /\
  dresults (prog_assign2 loose_base [KLife] ++ [DMoveAssignThrows 0 1 7 there]) = [RUnit; RUnit; RUnit; RThrow (EUser 7)] /\ dreachable (dafter (prog_assign2 loose_base [KLife])) /\
  dresults (prog_assign2 loose_base [KLife] ++ [DCopyAssign 0 1 there; fin; ret]) = repeat RUnit 6 /\
  dresults (prog_assign2 loose_base [KLife] ++ [DCopyAssignThrows 0 1 7 there; fin; ret]) = repeat RUnit 5 ++ [RThrow (EUser 7)].
Proof.
  cbv zeta. split; [vm_compute; reflexivity|]. split; [apply dafter_reachable; vm_compute; reflexivity|]. split; [exists false; vm_compute; reflexivity|]. split; [vm_compute; reflexivity|].
  split; [apply dafter_reachable; vm_compute; reflexivity|]. split; vm_compute; reflexivity.
Qed.
(** A Base which can not be moved. *)
Example prog_broken_move_by_copy :
  let b := mkMembers (Some false) None (Some false) None true true in
  dresults [DNew b [KReloc]; DMoveThrows 0 7 here; DNew b [KReloc]; DMoveAssignThrows 0 1 8 here] = [RUnit; RThrow (EUser 7); RUnit; RThrow (EUser 8)].
Proof. vm_compute. reflexivity. Qed.

Print Assumptions C98_failed_construction_terminates.
Print Assumptions C98_failed_construction.
Print Assumptions C98_failed_copy_terminates.
Print Assumptions C98_failed_copy.
Print Assumptions C98_watchers_first.
Print Assumptions C98_which_failures_exist.
Print Assumptions C98_failed_assignment.
Print Assumptions C98_failed_assignment_completes.
Print Assumptions C98_failed_copy_assignment.
Print Assumptions C98_failed_move_assignment.
Print Assumptions C98_failed_move_terminates.
Print Assumptions C98_failed_move_uses_up.
Print Assumptions C98_failed_destruction_terminates.
Print Assumptions C98_failed_destruction.
Print Assumptions C98_failed_silent_destruction.
Print Assumptions C98_failed_destruction_order.
Print Assumptions C98_failed_move_completes.
Print Assumptions C98_failed_move_of_moved_from.
Print Assumptions C98_failed_move_by_copy.
Print Assumptions C98_failed_relocation.
Print Assumptions C98_failed_relocation_of_watched.
Print Assumptions C98_failed_move_keeps_object_refuted.
Print Assumptions C98_failed_move_assignment_keeps_objects_refuted.
Print Assumptions C98_failed_relocation_keeps_object_refuted.
Print Assumptions C98_failed_construction_is_seen_refuted.
