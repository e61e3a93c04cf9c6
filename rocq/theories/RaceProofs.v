(** * RaceProofs: mutexes, happens-before and races of the executions of Conc.v. *)

From Verif Require Import Base Lib Sequence Control Signature Printer Reports Expectation Builder World WorldSpec
  StepCases MatchLemmas Conc ConcSpec ConcProofs Race RaceSpec.

(** ** The mutexes of one operation *)

(** Outside of the lock: no vector is accessed and no user code runs which needs the lock. *)
Definition outside (x : mev) : Prop :=
  match x with
  | MLock _ | MUnlock _ => False
  | MRead (PlVector _) | MWrite (PlVector _) => False
  | MUser u => runs_locked u = false
  | _ => True
  end.
Definition inside (m : nat) (x : mev) : Prop :=
  match x with
  | MLock _ | MUnlock _ => False
  | MRead (PlVector c) | MWrite (PlVector c) => c = m
  | MUser u => runs_locked u = true
  | _ => True
  end.

Inductive guarded : list mev -> Prop :=
| gd_nil : guarded []
| gd_free x l : outside x -> guarded l -> guarded (x :: l)
| gd_lock m body l : Forall (inside m) body -> guarded l -> guarded (MLock m :: body ++ MUnlock m :: l).

Lemma guarded_app a b : guarded a -> guarded b -> guarded (a ++ b).
Proof.
  intros H Hb. induction H as [|x l Hx H IH|m body l Hbody H IH]; cbn [app]; auto.
  - constructor; auto.
  - rewrite <- app_assoc. cbn [app]. apply gd_lock; auto.
Qed.

Lemma guarded_outside l : Forall outside l -> guarded l.
Proof. induction 1; constructor; auto. Qed.

Lemma inside_lockless m x : inside m x -> lockless x.
Proof. destruct x; cbn; auto. Qed.
Lemma outside_lockless x : outside x -> lockless x.
Proof. destruct x; cbn; auto. Qed.

Lemma guarded_plain l : guarded l -> plain l.
Proof.
  induction 1 as [|x l Hx H IH|m body l Hbody H IH]; [constructor|constructor; auto; eapply outside_lockless; eauto|].
  apply pl_lock; auto. eapply Forall_impl; [|exact Hbody]. intros. eapply inside_lockless; eauto.
Qed.

Lemma plain_app a b : plain a -> plain b -> plain (a ++ b).
Proof.
  intros H Hb. induction H as [|x l Hx H IH|m body l Hbody H IH]; cbn [app]; auto.
  - constructor; auto.
  - rewrite <- app_assoc. cbn [app]. apply pl_lock; auto.
Qed.

(** A single critical section with something before and after it. *)
Lemma guarded_section m pre body post :
  Forall outside pre -> Forall (inside m) body -> Forall outside post -> guarded (pre ++ MLock m :: body ++ MUnlock m :: post).
Proof. intros H1 H2 H3. apply guarded_app; [apply guarded_outside; auto|]. apply gd_lock; auto. apply guarded_outside; auto. Qed.

Ltac forall_list := repeat first [apply Forall_app; split | apply Forall_cons | apply Forall_nil].

Lemma reads_inside m ctl : Forall (inside m) (reads_seqs ctl).
Proof. unfold reads_seqs. apply Forall_forall. intros x H. apply in_map_iff in H. destruct H as ([q id] & <- & _). exact Logic.I. Qed.
Lemma reads_outside ctl : Forall outside (reads_seqs ctl).
Proof. unfold reads_seqs. apply Forall_forall. intros x H. apply in_map_iff in H. destruct H as ([q id] & <- & _). exact Logic.I. Qed.
Lemma writes_outside ctl : Forall outside (writes_seqs ctl).
Proof. unfold writes_seqs. apply Forall_forall. intros x H. apply in_map_iff in H. destruct H as ([q id] & <- & _). exact Logic.I. Qed.

Lemma state_inside m e ctl : Forall (inside m) (state_events e ctl).
Proof. unfold state_events. constructor; [exact Logic.I|]. destruct (_ =? _)%Z; [constructor|apply reads_inside]. Qed.

Lemma describe_inside m e ps : forall i, Forall (inside m) (describe_events e i ps).
Proof.
  induction ps as [|p ps IH]; intros i; cbn [describe_events]; [constructor|]. apply Forall_app. split.
  - destruct (is_arg p); forall_list; reflexivity.
  - destruct (policy_describe p); forall_list; auto.
Qed.

Lemma report_inside m e x : Forall (inside m) (report_events e x).
Proof. unfold report_events. apply Forall_app. split; [apply state_inside|apply describe_inside]. Qed.

Lemma policy_inside m e c ps : forall i, Forall (inside m) (policy_events e i ps c).
Proof.
  induction ps as [|p ps IH]; intros i; cbn [policy_events]; [constructor|]. apply Forall_app. split.
  - destruct (is_arg p); forall_list; reflexivity.
  - destruct (policy_matches p c); [|constructor|constructor|constructor]. apply Forall_app. split.
    + destruct (is_arg p); forall_list; reflexivity.
    + destruct (policy_describe p); forall_list; auto.
Qed.

Lemma visit_inside m ss c ex : Forall (inside m) (visit_events ss c ex).
Proof.
  destruct ex as [e x]. unfold visit_events. apply Forall_app; split; [apply state_inside|]. apply Forall_app; split; [apply policy_inside|].
  destruct (exp_matches ss x c); [constructor| |constructor|constructor]. apply Forall_app. split; [apply report_inside|].
  destruct (exp_report_of ss x); unfold deliver; forall_list; cbn; auto.
Qed.

Lemma visits_inside m ss c es : Forall (inside m) (flat_map (visit_events ss c) es).
Proof. induction es; cbn [flat_map]; [constructor|]. apply Forall_app. split; auto. apply visit_inside. Qed.

Lemma deliver_outside k : runs_locked (UReport k) = false -> Forall outside (deliver k).
Proof. intros H. unfold deliver. forall_list; [exact Logic.I|exact H]. Qed.

Lemma outcome_outside w c es : match outcome_of w c es with Some k => Forall outside (deliver k) | None => True end.
Proof.
  unfold outcome_of. destruct (match_loop _ _ _ _ _ _); auto. apply deliver_outside.
  destruct (ml_full a); [|reflexivity]. destruct (ml_inapplicable a); reflexivity.
Qed.

Lemma match_guarded w coll c es : guarded (match_events (w_seqs w) coll c es (outcome_of w c es)).
Proof.
  unfold match_events. cbn [app]. change (guarded ([] ++ MLock coll :: (MRead (PlVector coll) :: flat_map (visit_events (w_seqs w) c) es) ++
    MUnlock coll :: match outcome_of w c es with Some k => deliver k | None => [] end)).
  apply guarded_section; [constructor| |].
  - constructor; [reflexivity|]. apply visits_inside.
  - pose proof (outcome_outside w c es). destruct (outcome_of w c es); auto.
Qed.

Lemma count_outside release n ctl : Forall outside (count_events release n ctl).
Proof.
  unfold count_events. forall_list; try exact Logic.I.
  - destruct release; [constructor|]. constructor; [exact Logic.I|apply reads_outside].
  - apply writes_outside.
  - destruct (_ || _); [apply writes_outside|constructor].
Qed.

Lemma expect_guarded coll b : guarded (expect_events coll b).
Proof.
  unfold expect_events. rewrite app_assoc. apply guarded_app.
  - apply guarded_outside. apply Forall_app. split.
    + apply Forall_forall. intros x H. apply in_flat_map in H. destruct H as (q & _ & [<-|[<-|[]]]); exact Logic.I.
    + destruct (_ || _); [|constructor]. apply Forall_forall. intros x H. apply in_map_iff in H. destruct H as (q & <- & _). exact Logic.I.
  - apply (gd_lock coll [MRead (PlVector coll); MWrite (PlVector coll)] []); [repeat (constructor; [reflexivity|]); constructor|constructor].
Qed.

Lemma remove_guarded ss coll e x : guarded (remove_events ss coll e x).
Proof.
  unfold remove_events. cbn [app].
  apply (gd_lock coll (MRead (PlVector coll) :: MWrite (PlVector coll) :: MRead (PlCount e) :: 
    (if exp_is_satisfied x then [] else report_events e x ++ match exp_report_of ss x with Ret _ => deliver KUnfulfilled | _ => [] end)) []); [|constructor].
  repeat (constructor; [cbn; auto|]). destruct (exp_is_satisfied x); [constructor|]. apply Forall_app. split; [apply report_inside|].
  destruct (exp_report_of ss x); unfold deliver; forall_list; cbn; auto.
Qed.

Lemma error_outside w s : Forall outside (error_events w s).
Proof.
  destruct s; try constructor. unfold error_events. apply Forall_forall. intros x H. apply in_flat_map in H. destruct H as (ev & _ & H).
  destruct ev as [rid [] who| | |]; cbn in H; try contradiction. destruct H as [<-|[<-|[]]]; cbn; auto.
Qed.

Lemma handle_guarded w h : guarded (handle_events w h).
Proof.
  unfold handle_events, end_events. destruct (nth_error (w_scoped w) h) as [[e| |]|]; try constructor.
  destruct (nth_error (w_exps w) e); [apply remove_guarded|constructor].
Qed.

Lemma op_guarded w o : guarded (op_events w o).
Proof.
  destruct o as [| s | | | | |m ov ms cls l| | | | | |h|h| |dst src| | ]; cbn [op_events]; try (constructor; fail); try (constructor; [reflexivity|constructor]).
  - apply guarded_outside. apply error_outside.
  - destruct (find_overload w m ov) as [?|[s coll]]; [constructor|]. destruct (build s ms cls); try constructor. apply expect_guarded.
  - destruct (nth_error (w_scoped w) h) as [[e| |]|]; try constructor; try exact Logic.I. constructor.
  - apply guarded_app; [apply handle_guarded|apply guarded_outside, error_outside].
  - apply guarded_app; [destruct (dst =? src); [constructor|apply handle_guarded]|apply guarded_outside, error_outside].
Qed.

Lemma ev_guarded release c t a : guarded (ev_of release c t a).
Proof.
  unfold ev_of. destruct (nth_error (c_threads c) t) as [th|]; [|constructor].
  destruct (t_pending th) as [[[n ci] ne]|], a as [o|m ov args l|]; try constructor.
  - destruct (nth_error _ n); [apply guarded_outside, count_outside|constructor].
  - destruct (is_call o); [constructor|apply op_guarded].
  - destruct (find_overload _ m ov) as [?|[s coll]]; [constructor|]. cbv zeta. destruct (nth_error _ coll); [|constructor].
    destruct (lookup_exps _ _); [|constructor]. apply match_guarded.
Qed.

(** ** Vectors *)

Lemma guarded_vector l : guarded l -> forall k m x, nth_error l k = Some x -> (x = MRead (PlVector m) \/ x = MWrite (PlVector m)) ->
  (exists a, a < k /\ nth_error l a = Some (MLock m)) /\ (exists u, k < u /\ nth_error l u = Some (MUnlock m)).
Proof.
  induction 1 as [|y l Hy H IH|m' body l Hbody H IH]; intros k m x Hk Hx.
  - destruct k; discriminate.
  - destruct k as [|k]; cbn [nth_error] in Hk.
    + injection Hk as ->. destruct Hx as [-> | ->]; contradiction.
    + destruct (IH k m x Hk Hx) as [(a & Ha & Ha') (u & Hu & Hu')]. split; [exists (S a)|exists (S u)]; split; auto; lia.
  - destruct k as [|k]; cbn [nth_error] in Hk; [injection Hk as <-; destruct Hx; discriminate|].
    destruct (Nat.lt_ge_cases k (length body)) as [Hlt|Hge].
    + rewrite nth_error_app1 in Hk by auto. pose proof (nth_error_In _ _ Hk) as Hin. rewrite Forall_forall in Hbody. specialize (Hbody _ Hin).
      assert (m = m') as -> by (destruct Hx as [-> | ->]; exact Hbody). split.
      * exists 0. split; [lia|reflexivity].
      * exists (S (length body)). split; [lia|]. cbn [nth_error]. rewrite nth_error_app2, Nat.sub_diag by lia. reflexivity.
    + rewrite nth_error_app2 in Hk by auto. remember (k - length body) as d eqn:Hd. destruct d as [|d]; cbn [nth_error] in Hk.
      * injection Hk as <-. destruct Hx; discriminate.
      * destruct (IH d m x Hk Hx) as [(a & Ha & Ha') (u & Hu & Hu')]. split.
        -- exists (S (length body + S a)). split; [lia|]. cbn [nth_error]. rewrite nth_error_app2 by lia.
           replace (length body + S a - length body) with (S a) by lia. exact Ha'.
        -- exists (S (length body + S u)). split; [lia|]. cbn [nth_error]. rewrite nth_error_app2 by lia.
           replace (length body + S u - length body) with (S u) by lia. exact Hu'.
Qed.

Definition touches_vector (m : nat) (x : mev) : Prop := x = MRead (PlVector m) \/ x = MWrite (PlVector m).

Lemma nth_map_pair {A B} (t : A) (l : list B) k t' x : nth_error (map (pair t) l) k = Some (t', x) -> t' = t /\ nth_error l k = Some x.
Proof. intros H. apply nth_error_map_some in H. destruct H as (y & Hy & E). injection E as -> ->. auto. Qed.

Lemma nth_pair_map {A B} (t : A) (l : list B) k x : nth_error l k = Some x -> nth_error (map (pair t) l) k = Some (t, x).
Proof. intros H. rewrite nth_error_map, H. reflexivity. Qed.

Lemma events_locked release acts : forall c j t m x, nth_error (events release c acts) j = Some (t, x) -> touches_vector m x ->
  exists a, a < j /\ nth_error (events release c acts) a = Some (t, MLock m).
Proof.
  induction acts as [|[t0 a0] acts IH]; intros c j t m x Hj Hx; cbn [events] in *; [destruct j; discriminate|].
  destruct (Nat.lt_ge_cases j (length (map (pair t0) (ev_of release c t0 a0)))) as [Hlt|Hge].
  - rewrite nth_error_app1 in Hj by auto. apply nth_map_pair in Hj. destruct Hj as [-> Hj].
    destruct (guarded_vector _ (ev_guarded release c t0 a0) _ _ _ Hj Hx) as [(a & Ha & Ha') _]. exists a. split; auto.
    rewrite nth_error_app1 by lia. apply nth_pair_map; auto.
  - rewrite nth_error_app2 in Hj by auto. destruct (cstep release c t0 a0) as [c1 r| | |]; try (destruct (j - _); discriminate).
    destruct (IH c1 _ t m x Hj Hx) as (a & Ha & Ha'). exists (length (map (pair t0) (ev_of release c t0 a0)) + a). split; [lia|].
    rewrite nth_error_app2 by lia. replace (_ + a - _) with a by lia. exact Ha'.
Qed.

Lemma events_vectors release acts : forall c i j t t' m x y, i < j ->
  nth_error (events release c acts) i = Some (t, x) -> nth_error (events release c acts) j = Some (t', y) -> t <> t' ->
  touches_vector m x -> touches_vector m y ->
  exists u a, i < u /\ u < a /\ a < j /\ nth_error (events release c acts) u = Some (t, MUnlock m) /\ nth_error (events release c acts) a = Some (t', MLock m).
Proof.
  induction acts as [|[t0 a0] acts IH]; intros c i j t t' m x y Hij Hi Hj Hne Hx Hy; cbn [events] in *; [destruct i; discriminate|].
  set (blk := map (pair t0) (ev_of release c t0 a0)) in *.
  destruct (Nat.lt_ge_cases j (length blk)) as [Hlt|Hge].
  { rewrite nth_error_app1 in Hi by lia. rewrite nth_error_app1 in Hj by auto. apply nth_map_pair in Hi. apply nth_map_pair in Hj.
    destruct Hi as [-> _], Hj as [-> _]. congruence. }
  rewrite nth_error_app2 in Hj by auto. destruct (cstep release c t0 a0) as [c1 r| | |]; try (destruct (j - _); discriminate).
  destruct (Nat.lt_ge_cases i (length blk)) as [Hilt|Hige].
  - rewrite nth_error_app1 in Hi by lia. unfold blk in Hi. apply nth_map_pair in Hi. destruct Hi as [-> Hi].
    destruct (guarded_vector _ (ev_guarded release c t0 a0) _ _ _ Hi Hx) as [_ (u & Hu & Hu')].
    destruct (events_locked _ _ _ _ _ _ _ Hj Hy) as (a & Ha & Ha').
    assert (Hul : u < length blk) by (unfold blk; rewrite map_length; eapply nth_error_lt; eauto).
    exists u, (length blk + a). repeat split; try lia.
    + rewrite nth_error_app1 by auto. apply nth_pair_map; auto.
    + rewrite nth_error_app2 by lia. replace (length blk + a - length blk) with a by lia. exact Ha'.
  - rewrite nth_error_app2 in Hi by auto.
    destruct (IH c1 (i - length blk) (j - length blk) t t' m x y) as (u & a & H1 & H2 & H3 & H4 & H5); auto; [lia|].
    exists (length blk + u), (length blk + a). repeat split; try lia.
    + rewrite nth_error_app2 by lia. replace (length blk + u - length blk) with u by lia. exact H4.
    + rewrite nth_error_app2 by lia. replace (length blk + a - length blk) with a by lia. exact H5.
Qed.

Lemma hb_forward tr i j : hb tr i j -> i < j.
Proof. induction 1; lia. Qed.

Theorem vectors_no_race release c acts m : ~ race_on (events release c acts) (PlVector m).
Proof.
  intros (i & j & t & t' & x & y & Hi & Hj & Hne & Hc & H1 & H2).
  assert (Hx : touches_vector m x /\ touches_vector m y).
  { unfold touches_vector. destruct Hc as [[-> [-> | ->]]|[-> ->]]; auto. }
  destruct Hx as [Hx Hy]. destruct (lt_eq_lt_dec i j) as [[Hij| <-]|Hij].
  - destruct (events_vectors _ _ _ _ _ _ _ _ _ _ Hij Hi Hj Hne Hx Hy) as (u & a & Hiu & Hua & Haj & Hu & Ha). apply H1.
    eapply hb_trans; [eapply hb_program; [exact Hiu|exact Hi|exact Hu]|]. eapply hb_trans; [eapply hb_mutex; [exact Hua|exact Hu|exact Ha]|].
    eapply hb_program; [exact Haj|exact Ha|exact Hj].
  - congruence.
  - destruct (events_vectors _ _ _ _ _ _ _ _ _ _ Hij Hj Hi (not_eq_sym Hne) Hy Hx) as (u & a & Hiu & Hua & Haj & Hu & Ha). apply H2.
    eapply hb_trans; [eapply hb_program; [exact Hiu|exact Hj|exact Hu]|]. eapply hb_trans; [eapply hb_mutex; [exact Hua|exact Hu|exact Ha]|].
    eapply hb_program; [exact Haj|exact Ha|exact Hi].
Qed.

(** ** Absence of happens-before *)

Lemma hb_threads tr i j : hb tr i j -> exists t x t' y, nth_error tr i = Some (t, x) /\ nth_error tr j = Some (t', y).
Proof.
  induction 1 as [i j t x y Hij Hi Hj|i j t t' m Hij Hi Hj|i j k H1 IH1 H2 IH2]; eauto 8.
  destruct IH1 as (t1 & x1 & _ & _ & H1' & _), IH2 as (_ & _ & t2 & x2 & _ & H2'). eauto 8.
Qed.

(** Happening before another thread needs an unlock by the first thread and a lock by the second. *)
Lemma hb_needs tr i j : hb tr i j -> forall t x t' y, nth_error tr i = Some (t, x) -> nth_error tr j = Some (t', y) -> t <> t' ->
  (exists u m, i <= u < j /\ nth_error tr u = Some (t, MUnlock m)) /\ (exists a m, i < a <= j /\ nth_error tr a = Some (t', MLock m)).
Proof.
  induction 1 as [i j t0 x0 y0 Hij Hi Hj|i j t0 t1 m Hij Hi Hj|i j k H1 IH1 H2 IH2]; intros t x t' y Ht Ht' Hne.
  - congruence.
  - rewrite Hi in Ht. rewrite Hj in Ht'. injection Ht as <- <-. injection Ht' as <- <-. split; [exists i, m|exists j, m]; repeat split; auto; lia.
  - pose proof (hb_forward _ _ _ H1) as L1. pose proof (hb_forward _ _ _ H2) as L2.
    destruct (hb_threads _ _ _ H2) as (t2 & z & _ & _ & Hz & _). split.
    + destruct (Nat.eq_dec t t2) as [->|Hn].
      * destruct (IH2 _ _ _ _ Hz Ht' Hne) as [(u & m & Hu & Hu') _]. exists u, m. split; auto; lia.
      * destruct (IH1 _ _ _ _ Ht Hz Hn) as [(u & m & Hu & Hu') _]. exists u, m. split; auto; lia.
    + destruct (Nat.eq_dec t' t2) as [->|Hn].
      * destruct (IH1 _ _ _ _ Ht Hz Hne) as [_ (a & m & Ha & Ha')]. exists a, m. split; auto; lia.
      * destruct (IH2 _ _ _ _ Hz Ht' (not_eq_sym Hn)) as [_ (a & m & Ha & Ha')]. exists a, m. split; auto; lia.
Qed.

(** Two blocks of events of different threads in a trace. *)
Lemma block_race p tr1 b1 tr2 b2 tr3 t t' x y :
  In x b1 -> In y b2 -> t <> t' -> conflict p x y ->
  (Forall lockless b1 /\ (forall z, In (t, z) tr2 -> lockless z)) \/ (Forall lockless b2 /\ (forall z, In (t', z) tr2 -> lockless z)) ->
  race_on (tr1 ++ map (pair t) b1 ++ tr2 ++ map (pair t') b2 ++ tr3) p.
Proof.
  intros Hx Hy Hne Hc Hl. apply In_nth_error in Hx. apply In_nth_error in Hy. destruct Hx as [i Hi], Hy as [j Hj].
  set (tr := tr1 ++ map (pair t) b1 ++ tr2 ++ map (pair t') b2 ++ tr3).
  pose proof (nth_error_lt _ _ _ Hi) as Li. pose proof (nth_error_lt _ _ _ Hj) as Lj.
  set (I := length tr1 + i). set (J := length tr1 + (length b1 + (length tr2 + j))).
  assert (HI : nth_error tr I = Some (t, x)).
  { unfold tr, I. rewrite nth_error_app2 by lia. replace (_ + i - _) with i by lia.
    rewrite nth_error_app1 by (rewrite map_length; auto). apply nth_pair_map; auto. }
  assert (HJ : nth_error tr J = Some (t', y)).
  { unfold tr, J. rewrite nth_error_app2 by lia. replace (_ + _ - length tr1) with (length b1 + (length tr2 + j)) by lia.
    rewrite nth_error_app2; rewrite map_length; [|lia]. replace (_ + _ - length b1) with (length tr2 + j) by lia.
    rewrite nth_error_app2 by lia. replace (_ + j - _) with j by lia.
    rewrite nth_error_app1 by (rewrite map_length; auto). apply nth_pair_map; auto. }
  (* events of position between the two *)
  assert (Hmid : forall u t0 z, I <= u <= J -> nth_error tr u = Some (t0, z) ->
            (t0 = t /\ In z b1) \/ In (t0, z) tr2 \/ (t0 = t' /\ In z b2)).
  { intros u t0 z Hu Hz. unfold tr, I, J in *. rewrite nth_error_app2 in Hz by lia.
    destruct (Nat.lt_ge_cases (u - length tr1) (length b1)) as [H1|H1].
    - rewrite nth_error_app1 in Hz by (rewrite map_length; auto). apply nth_map_pair in Hz. destruct Hz as [-> Hz]. left. split; auto. eapply nth_error_In; eauto.
    - rewrite nth_error_app2 in Hz; rewrite map_length in *; auto. right.
      destruct (Nat.lt_ge_cases (u - length tr1 - length b1) (length tr2)) as [H2|H2].
      + rewrite nth_error_app1 in Hz by auto. left. eapply nth_error_In; eauto.
      + rewrite nth_error_app2 in Hz by auto. rewrite nth_error_app1 in Hz by (rewrite map_length; lia).
        apply nth_map_pair in Hz. destruct Hz as [-> Hz]. right. split; auto. eapply nth_error_In; eauto. }
  exists I, J, t, t', x, y. repeat split; auto.
  - intros Hhb. destruct (hb_needs _ _ _ Hhb _ _ _ _ HI HJ Hne) as [(u & m & Hu & Hu') (a & m' & Ha & Ha')].
    destruct Hl as [[Hb Hl]|[Hb Hl]].
    + destruct (Hmid u t _ ltac:(lia) Hu') as [[_ Hin]|[Hin|[E _]]]; [|exact (Hl _ Hin)|congruence].
      rewrite Forall_forall in Hb. exact (Hb _ Hin).
    + destruct (Hmid a t' _ ltac:(lia) Ha') as [[E _]|[Hin|[_ Hin]]]; [congruence|exact (Hl _ Hin)|].
      rewrite Forall_forall in Hb. exact (Hb _ Hin).
  - intros Hhb. apply hb_forward in Hhb. unfold I, J in Hhb. lia.
Qed.

(** ** The events of an execution *)

Lemma events_app release acts1 : forall c c1 acts2, cruns release c acts1 c1 ->
  events release c (acts1 ++ acts2) = events release c acts1 ++ events release c1 acts2.
Proof.
  induction acts1 as [|[t a] acts1 IH]; intros c c1 acts2 H; inversion H; subst; auto.
  cbn [app events]. match goal with E : cstep _ _ _ _ = CNext _ _ |- _ => rewrite E end. rewrite <- app_assoc. f_equal. apply IH; auto.
Qed.

Lemma cruns_split release acts1 : forall c acts2 c2, cruns release c (acts1 ++ acts2) c2 -> exists c1, cruns release c acts1 c1 /\ cruns release c1 acts2 c2.
Proof.
  induction acts1 as [|[t a] acts1 IH]; intros c acts2 c2 H; cbn [app] in H.
  - exists c. split; auto. constructor.
  - inversion H; subst. edestruct IH as (c3 & H1 & H2); eauto. exists c3. split; auto. econstructor; eauto.
Qed.

(** Operations which use no mutex. *)
Definition takes_lock (a : action) : bool :=
  match a with
  | AMatch _ _ _ _ => true
  | AOp (OExpect _ _ _ _ _) | AOp (OEndScope _) | AOp (OMoveAssignScoped _ _) => true
  | _ => false
  end.

Lemma outside_lockless_all l : Forall outside l -> Forall lockless l.
Proof. apply Forall_impl. intros. eapply outside_lockless; eauto. Qed.

Lemma ev_lockless release c t a : takes_lock a = false -> Forall lockless (ev_of release c t a).
Proof.
  intros H. unfold ev_of. destruct (nth_error (c_threads c) t) as [th|]; [|constructor].
  destruct (t_pending th) as [[[n ci] ne]|], a as [o|m ov args l|]; try discriminate; try constructor.
  - destruct (nth_error _ n); [apply outside_lockless_all, count_outside|constructor].
  - destruct (is_call o); [constructor|]. destruct o; try discriminate; cbn [op_events]; try constructor; try exact Logic.I; try constructor.
    + apply outside_lockless_all, error_outside.
    + destruct (nth_error _ h) as [[e| |]|]; repeat constructor.
Qed.

Lemma events_lockless release acts t : (forall a, In (t, a) acts -> takes_lock a = false) ->
  forall c z, In (t, z) (events release c acts) -> lockless z.
Proof.
  induction acts as [|[t0 a0] acts IH]; intros H c z Hz; cbn [events] in Hz; [contradiction|]. apply in_app_or in Hz. destruct Hz as [Hz|Hz].
  - apply in_map_iff in Hz. destruct Hz as (y & E & Hy). injection E as -> ->.
    pose proof (ev_lockless release c t a0 (H a0 (or_introl eq_refl))) as HF. rewrite Forall_forall in HF. auto.
  - destruct (cstep release c t0 a0); try contradiction. eapply IH; eauto. intros a Ha. apply H. right. auto.
Qed.

(** Two steps of an execution. *)
Lemma steps_race release c acts1 c1 t a c1' r acts2 c2 t' a' acts3 p x y :
  cruns release c acts1 c1 -> cstep release c1 t a = CNext c1' r -> cruns release c1' acts2 c2 ->
  In x (ev_of release c1 t a) -> In y (ev_of release c2 t' a') -> t <> t' -> conflict p x y ->
  ((takes_lock a = false /\ forall b, In (t, b) acts2 -> takes_lock b = false) \/
   (takes_lock a' = false /\ forall b, In (t', b) acts2 -> takes_lock b = false)) ->
  race_on (events release c (acts1 ++ (t, a) :: acts2 ++ (t', a') :: acts3)) p.
Proof.
  intros H1 Hs H2 Hx Hy Hne Hc Hl. rewrite (events_app _ _ _ _ _ H1). cbn [events]. rewrite Hs, (events_app _ _ _ _ _ H2). cbn [events].
  eapply block_race; eauto.
  destruct Hl as [[Hl1 Hl2]|[Hl1 Hl2]]; [left|right]; (split; [apply ev_lockless; auto|]); intros z Hz; eapply events_lockless; eauto.
Qed.

(** ** What the steps of calls access *)

Definition pending_exp (c : cworld) (t e : nat) : Prop :=
  exists th ci ne, nth_error (c_threads c) t = Some th /\ t_pending th = Some (e, ci, ne).

Lemma count_accesses release c t e x : pending_exp c t e -> exp_at (cw c) e x ->
  In (MWrite (PlCount e)) (ev_of release c t ACount) /\
  forall q, In q (map fst (c_seqs (e_ctl (eo_exp x)))) -> In (MWrite (PlSeq q)) (ev_of release c t ACount).
Proof.
  intros (th & ci & ne & Hth & Hp) Hx. unfold ev_of. rewrite Hth, Hp. cbn [w_exps enter set_uncaught set_frames]. unfold exp_at in Hx. rewrite Hx.
  unfold count_events. split.
  - apply in_or_app. right. apply in_or_app. right. apply in_or_app. left. right. left. reflexivity.
  - intros q Hq. apply in_map_iff in Hq. destruct Hq as ([q' id] & E & Hq). cbn [fst] in E. subst q'.
    apply in_or_app. right. apply in_or_app. left. unfold writes_seqs. apply in_map_iff. exists (q, id). auto.
Qed.

Lemma lookup_exps_in w l es e : lookup_exps w l = Some es -> In e l -> exists eo, nth_error (w_exps w) e = Some eo /\ In (e, eo_exp eo) es.
Proof.
  revert es. induction l as [|n l IH]; intros es H Hin; [contradiction|]. cbn [lookup_exps] in H.
  destruct (nth_error (w_exps w) n) as [eo|] eqn:Hn; [|discriminate]. destruct (lookup_exps w l) as [es'|]; [|discriminate]. injection H as <-.
  destruct Hin as [-> |Hin]; [exists eo; split; auto; left; auto|]. destruct (IH _ eq_refl Hin) as (eo' & H1 & H2). exists eo'. split; auto. right. auto.
Qed.

(** The mock expression [m], overload [ov] uses collection [coll]. *)
Definition uses_coll (c : cworld) (m ov coll : nat) : Prop := exists s, find_overload (cw c) m ov = inr (s, coll).
Definition listed (c : cworld) (coll e : nat) : Prop := exists l, nth_error (w_colls (cw c)) coll = Some l /\ In e l.

Lemma match_accesses release c t m ov args l c1 r coll e : cstep release c t (AMatch m ov args l) = CNext c1 r ->
  uses_coll c m ov coll -> listed c coll e -> In (MRead (PlCount e)) (ev_of release c t (AMatch m ov args l)).
Proof.
  intros Hs (s & Hf) (lst & Hlst & Hin). pose proof (cstep_match _ _ _ _ _ _ _ _ _ Hs) as (th & s' & coll' & Hth & Hp & Hf' & Hlen & D).
  unfold ev_of. rewrite Hth, Hp. change (find_overload (enter (cw c) th) m ov) with (find_overload (cw c) m ov) in *. rewrite Hf in *.
  injection Hf' as <- <-. cbv zeta.
  assert (Hlst' : nth_error (w_colls (enter (cw c) th)) coll = Some lst) by exact Hlst. rewrite Hlst'.
  assert (Hlk : exists es, lookup_exps (enter (cw c) th) (rev lst) = Some es).
  { destruct (lookup_exps (enter (cw c) th) (rev lst)) as [es|] eqn:E; [eauto|].
    destruct D as [(w' & n & Hm & _)|(w' & Hm & _)]; unfold match_call in Hm; rewrite Hlst', E in Hm; discriminate. }
  destruct Hlk as [es Hes]. rewrite Hes. destruct (lookup_exps_in _ _ _ e Hes) as (eo & He & Hine).
  { apply in_rev in Hin. exact Hin. }
  unfold match_events. cbn [app]. right. right. apply in_or_app. left. apply in_flat_map. exists (e, eo_exp eo). split; auto.
  unfold visit_events. left. reflexivity.
Qed.
