(** * LifetimeOrder: accesses and ends in the traces of Lifetime.v. *)

From Verif Require Import Base Lib Sequence Control Signature Printer Reports Expectation Builder World WorldSpec CallSpec
  SeqInv BuildSpec BuilderLemmas StepCases MatchLemmas WorldInv ObjInv CallProofs BuildProofs CountProofs FrameSpec Conc ConcSpec ConcProofs ConcOrder
  Race RaceSpec RaceProofs RaceFree PropRace Lifetime LifetimeSpec LifetimeProofs.

(** ** Places which end *)

Definition mortal (p : place) : Prop := match p with PlCount _ | PlSeq _ => True | _ => False end.
Definition alive_place (w : world) (p : place) : Prop :=
  match p with PlCount e => exists x, exp_at w e x /\ eo_alive x = true | PlSeq q => nth q (w_sdead w) true = false | _ => True end.
Definition ended_place (w : world) (p : place) : Prop :=
  match p with PlCount e => exists x, exp_at w e x /\ eo_alive x = false | PlSeq q => nth_error (w_sdead w) q = Some true | _ => False end.
(** Expectation [e] uses [p]. *)
Definition reach (p : place) (e : nat) (x : eobj) : Prop := p = PlCount e \/ exists q, p = PlSeq q /\ In q (x_seqs x).

Lemma alive_not_ended w p : alive_place w p -> ended_place w p -> False.
Proof.
  destruct p; cbn; auto.
  - intros (x & Hx & A) (y & Hy & B). unfold exp_at in *. congruence.
  - intros A B. rewrite (nth_error_nth _ _ true B) in A. discriminate.
Qed.

Lemma seq_alive w e x q : LI w -> exp_at w e x -> eo_alive x = true -> In q (x_seqs x) -> nth q (w_sdead w) true = false.
Proof. intros L Hx A Hq. rewrite (li_dead w L). apply negb_false_iff. apply in_use_spec. right. exists e, x. auto. Qed.

Lemma reach_alive w e x p : LI w -> exp_at w e x -> eo_alive x = true -> reach p e x -> alive_place w p.
Proof. intros L Hx A [->|(q & -> & Hq)]; cbn; eauto using seq_alive. Qed.

Definition touches (p : place) (y : mev) : Prop := y = MRead p \/ y = MWrite p.

Definition within (e : nat) (x : expectation) (y : mev) : Prop :=
  forall p, touches p y -> mortal p -> p = PlCount e \/ exists q, p = PlSeq q /\ In q (map fst (c_seqs (e_ctl x))).

Lemma within_user e x u : within e x (MUser u).
Proof. intros p [H|H]; discriminate. Qed.

Lemma reads_within e x : Forall (within e x) (reads_seqs (e_ctl x)).
Proof.
  apply Forall_forall. intros y H. unfold reads_seqs in H. apply in_map_iff in H. destruct H as ([q i] & <- & H). intros p [E|E] _; [|discriminate].
  injection E as <-. right. exists q. split; auto. apply in_map_iff. exists (q, i). auto.
Qed.

Lemma state_within e x : Forall (within e x) (state_events e (e_ctl x)).
Proof.
  constructor; [intros p [E|E] _; [injection E as <-; auto|discriminate]|]. destruct (_ =? _)%Z; [constructor|apply reads_within].
Qed.

Lemma describe_within e x ps : forall i, Forall (within e x) (describe_events e i ps).
Proof.
  induction ps as [|p ps IH]; intros i; cbn [describe_events]; [constructor|]. apply Forall_app. split.
  - destruct (is_arg p); constructor; [apply within_user|constructor].
  - destruct (policy_describe p); auto.
Qed.

Lemma deliver_within e x k : Forall (within e x) (deliver k).
Proof. constructor; [|constructor; [apply within_user|constructor]]. intros p [E|E] M; [|discriminate]. injection E as <-. destruct M. Qed.

Lemma remove_within ss coll e x : Forall (within e x) (remove_events ss coll e x).
Proof.
  unfold remove_events. apply Forall_app. split; [|apply Forall_app; split].
  - apply Forall_forall. intros y [<-|[<-|[<-|[<-|[]]]]] p [E|E] M; try discriminate; injection E as <-; try destruct M. auto.
  - destruct (exp_is_satisfied x); [constructor|]. unfold report_events. rewrite <- app_assoc. apply Forall_app. split; [apply state_within|].
    apply Forall_app. split; [apply describe_within|]. destruct (exp_report_of ss x); [apply deliver_within|constructor..].
  - constructor; [intros p [E|E]; discriminate|constructor].
Qed.

Lemma errors_within w s y p : In y (error_events w s) -> touches p y -> mortal p -> False.
Proof.
  unfold error_events. destruct s; try (intros []). intros H T M. apply in_flat_map in H. destruct H as (ev & _ & H).
  assert (D : In y (deliver KError)) by (destruct ev as [rid rep who| | |]; try destruct rep; first [exact H|destruct H]). clear H.
  destruct D as [<-|[<-|[]]]; destruct T as [E|E]; try discriminate. injection E as <-. destruct M.
Qed.

Lemma drop_touches w l y p : In (LE y) (drop_events w l) -> touches p y -> mortal p -> False.
Proof.
  intros H T M. apply drop_plain in H. destruct H as [->|[k ->]]; destruct T as [E|E]; try discriminate. injection E as <-. destruct M.
Qed.

(** ** Accesses of one step *)

Definition held (release : bool) (c : cworld) (t : nat) (a : action) (c' : cworld) (k : nat) (p : place) : Prop :=
  (unguarded a /\ exists e x, exp_at (cw c) e x /\ eo_alive x = true /\ reach p e x) \/
  (alive_place (cw c) p /\ exists e x u, exp_at (cw c') e x /\ eo_alive x = true /\ reach p e x /\ k < u /\ nth_error (life_of release c t a) u = Some (LE (MUnlock (eo_coll x)))) \/
  (exists e x u, exp_at (cw c) e x /\ eo_alive x = true /\ reach p e x /\ k < u /\ nth_error (life_of release c t a) u = Some (LKill (PlCount e)) /\
     forall q, In q (x_seqs x) -> exists u', k < u' /\ nth_error (life_of release c t a) u' = Some (LDrop q)).

Lemma nth_map_le l k y : nth_error (map LE l) k = Some (LE y) -> nth_error l k = Some y.
Proof. rewrite nth_error_map. destruct (nth_error l k); cbn; [|discriminate]. intros H. injection H as <-. reflexivity. Qed.

Lemma nth_le_map l k y : nth_error l k = Some y -> nth_error (map LE l) k = Some (LE y).
Proof. intros H. rewrite nth_error_map, H. reflexivity. Qed.

Lemma life_pending release c t a c' r o : cstep release c t a = CNext c' r -> a = AOp o -> exists th, nth_error (c_threads c) t = Some th /\ t_pending th = None /\ is_call o = false.
Proof. intros H ->. apply cstep_op in H. destruct H as (th & v & H1 & H2 & H3 & _). eauto. Qed.

Lemma step_access release c t a c' r k y p : LI (cw c) -> cstep release c t a = CNext c' r -> nth_error (life_of release c t a) k = Some (LE y) ->
  touches p y -> mortal p -> held release c t a c' k p.
Proof.
  intros L Hs Hk T M. pose proof (li_step _ _ _ _ _ _ Hs L) as L'. destruct (life_case _ _ _ _ _ _ Hs) as
    [Hl Hsame Hown Hno|s evs d' -> Hi w1 Hr Hc Ht Hl|e x l unf evs d' Ha Hx Hcl Hin w1 Hr He Hi Hd Ht Hu Hev Hl].
  - pose proof Hk as Hk'. rewrite Hl in Hk'. apply nth_map_le in Hk'. pose proof (nth_error_In _ _ Hk') as Hi. destruct a as [o|m ov args l|].
    + pose proof (cstep_op _ _ _ _ _ _ Hs) as (th & v & Hth & Hp & Hcl & Ho & Ec).
      destruct o; try (exfalso; eapply Hno; eassumption); try discriminate; unfold ev_of in Hi; rewrite Hth, Hp in Hi; cbn [is_call op_events] in Hi; try destruct Hi;
        try (subst y; destruct T as [E|E]; discriminate).
      all: try (match goal with H : In _ [] |- _ => destruct H end).
      all: try (exfalso; eapply errors_within; eassumption).
      * right. left. cbn [step] in Ho. apply do_expect_next in Ho. destruct Ho as (s & coll & Hf & _ & _ & [(z & Hb & _)|(b & ss & ctl & mem & Hb & _ & Hcn & _ & _ & Hv)]).
        { rewrite Hf, Hb in Hi. destruct Hi. }
        subst v. rewrite Hf, Hb in Hi. set (x := mkEObj (mkExp l ctl (b_policies b) (b_final b)) coll true ov s) in *.
        assert (Hx : exp_at (cw c') (length (w_exps (cw c))) x).
        { subst c'. unfold exp_at. cbn [cw leave set_uncaught set_frames w_exps new_world]. apply nth_error_app_last. }
        pose proof Hcn as Hcn'. apply control_new_parts in Hcn'. destruct Hcn' as (_ & _ & _ & C4).
        assert (Hq : exists q, p = PlSeq q /\ In q (b_seqs b)).
        { unfold expect_events in Hi. apply in_app_or in Hi. destruct Hi as [Hi|Hi]; [|apply in_app_or in Hi; destruct Hi as [Hi|Hi]].
          - apply in_flat_map in Hi. destruct Hi as (q & Hq & [<-|[<-|[]]]); destruct T as [E|E]; try discriminate; injection E as <-; eauto.
          - destruct (_ || _); [|destruct Hi]. apply in_map_iff in Hi. destruct Hi as (q & <- & Hq). destruct T as [E|E]; try discriminate; injection E as <-; eauto.
          - destruct Hi as [<-|[<-|[<-|[<-|[]]]]]; destruct T as [E|E]; try discriminate; injection E as <-; destruct M. }
        destruct Hq as (q & -> & Hq).
        assert (Hqx : In q (x_seqs x)) by (unfold x_seqs, x; cbn [eo_exp e_ctl]; rewrite C4; exact Hq).
        split. { cbn [alive_place]. pose proof (seq_alive _ _ _ _ L' Hx eq_refl Hqx) as D. subst c'. exact D. }
        exists (length (w_exps (cw c))), x. rewrite Hl. unfold ev_of in Hk' |- *. rewrite Hth, Hp in Hk' |- *. cbn [is_call op_events] in Hk' |- *. rewrite Hf, Hb in Hk' |- *.
        unfold expect_events in Hk' |- *. set (pre := flat_map _ (b_seqs b) ++ _) in *.
        set (A := flat_map (fun q0 => [MRead (PlSeq q0); MWrite (PlSeq q0)]) (b_seqs b)) in *.
        set (B := if (0 =? t_min (b_times b))%Z || (0 =? t_max (b_times b))%Z then map (fun q0 => MWrite (PlSeq q0)) (b_seqs b) else []) in *.
        subst pre. rewrite app_assoc in Hk' |- *. exists (length (A ++ B) + 3). split; [exact Hx|]. split; [reflexivity|]. split; [right; eauto|]. split.
        { destruct (Nat.lt_ge_cases k (length (A ++ B) + 3)) as [|Hge]; auto. exfalso. rewrite nth_error_app2 in Hk' by lia.
          remember (k - length (A ++ B)) as n eqn:En. destruct n as [|[|[|[|n]]]]; try lia; cbn in Hk'; [|destruct n; discriminate].
          injection Hk' as <-. destruct T; discriminate. }
        apply nth_le_map. rewrite nth_error_app2 by lia. replace (length (A ++ B) + 3 - length (A ++ B)) with 3 by lia. reflexivity.
      * left. split; [right; eauto|]. cbn [step] in Ho. destruct (nth_error (w_scoped (enter (cw c) th)) h) as [[e| |]|] eqn:Hh; try destruct Hi as [Hi|[]]; try destruct Hi.
        destruct (nth_error (w_exps (enter (cw c) th)) e) as [x|] eqn:Hx; [|discriminate]. destruct (eo_alive x) eqn:A; [|discriminate].
        exists e, x. split; [exact Hx|]. split; auto. destruct T as [E|E]; try discriminate. injection E as <-. left. auto.
      * subst y. destruct T as [E|E]; try discriminate. injection E as <-. destruct M.
    + right. left. pose proof (cstep_match _ _ _ _ _ _ _ _ _ Hs) as (th & s & coll & Hth & Hp & Hf & _).
      destruct (C67_accesses_of_matching _ _ _ _ _ _ _ _ _ coll Hs (ex_intro _ s Hf)) as (Hw & Hr & (body & kd & Eev & Hlk & _) & _). cbv zeta in *.
      destruct T as [-> | ->]; [|exfalso; eapply Hw; eauto]. apply Hr in Hi. destruct Hi as [->|[->|(e & x & (lst & Hlst & Hin) & Hx & Hp')]]; try (destruct M; fail).
      pose proof (li_coll _ L _ _ Hlst) as El. rewrite El in Hin. apply members_in in Hin. destruct Hin as (x' & Hx' & Ha' & Hc').
      assert (x' = x) by (unfold exp_at in *; congruence). subst x'.
      assert (Rp : reach p e x) by (destruct Hp' as [->|(q & -> & Hq & _)]; [left; auto|right; eauto]).
      split; [eapply reach_alive; eauto|].
      pose proof (match_over_core _ _ _ _ _ _ _ _ _ Hs) as Hco. destruct (core_fields _ _ Hco) as (_ & _ & _ & Hex & _).
      exists e, x, (S (length body)). split; [unfold exp_at; rewrite Hex; exact Hx|]. split; auto. split; auto. rewrite Hl, Eev, Hc'. split.
      { destruct (Nat.lt_ge_cases k (S (length body))) as [|Hge]; auto. exfalso. rewrite Eev in Hk'. destruct k as [|k]; [lia|]. cbn [nth_error] in Hk'.
        rewrite nth_error_app2 in Hk' by lia. destruct (k - length body) as [|[|[|n]]]; cbn in Hk'; try discriminate; [|destruct n; discriminate].
        injection Hk' as <-. destruct M. }
      apply nth_le_map. cbn [nth_error]. rewrite nth_error_app2 by lia. rewrite Nat.sub_diag. reflexivity.
    + left. split; [left; auto|]. pose proof (cstep_count _ _ _ _ _ Hs) as (th & n & ci & ne & x & v & ss & ctl & Hth & Hp & Hx & Ha & _).
      exists n, x. split; [exact Hx|]. split; auto.
      destruct (C67_accesses_of_accepted_calls release c t n x) as (Hw & Hr & _). { exists th, ci, ne. auto. } { exact Hx. }
      cbv zeta in *. destruct T as [-> | ->].
      * apply Hr in Hi. destruct Hi as [->|(q & -> & Hq & _)]; [left; auto|right; eauto].
      * apply Hw in Hi. destruct Hi as [->|(q & -> & Hq)]; [left; auto|right; eauto].
  - exfalso. rewrite Hl in Hk. apply nth_error_In in Hk. eapply drop_touches; eauto.
  - right. right. rewrite Hl in Hk. set (pre := map LE (remove_events (w_seqs (cw c)) (eo_coll x) e (eo_exp x))) in *.
    assert (Hlt : k < length pre).
    { destruct (Nat.lt_ge_cases k (length pre)) as [|Hge]; auto. exfalso. rewrite nth_error_app2 in Hk by auto. destruct (k - length pre) as [|n]; [discriminate|].
      cbn [nth_error] in Hk. apply nth_error_In in Hk. eapply drop_touches; eauto. }
    rewrite nth_error_app1 in Hk by auto. apply nth_map_le in Hk. apply nth_error_In in Hk.
    pose proof (proj1 (Forall_forall _ _) (remove_within (w_seqs (cw c)) (eo_coll x) e (eo_exp x)) _ Hk _ T M) as Rp.
    assert (A : eo_alive x = true).
    { rewrite (li_coll _ L _ _ Hcl) in Hin. apply members_in in Hin. destruct Hin as (x' & Hx' & A & _). unfold exp_at in *. congruence. }
    exists e, x, (length pre). split; auto. split; auto. split; [exact Rp|]. split; auto. rewrite Hl. split.
    { rewrite nth_error_app2 by auto. rewrite Nat.sub_diag. reflexivity. }
    intros q Hq. pose proof (proj2 (drop_drop w1 (map fst (c_seqs (e_ctl (eo_exp x)))) q) Hq) as HD. apply In_nth_error in HD. destruct HD as [n Hn].
    exists (length pre + S n). split; [lia|]. rewrite nth_error_app2 by lia. replace (length pre + S n - length pre) with (S n) by lia. exact Hn.
Qed.

(** ** Ends in one step *)

Lemma in_use_ext w w' s : w_exps w' = w_exps w -> w_iface w' = w_iface w -> seq_in_use w' s = seq_in_use w s.
Proof. intros H1 H2. unfold seq_in_use. rewrite H1, H2. reflexivity. Qed.

Lemma nth_some_true l q : nth q l true = true -> q < length l -> nth_error l q = Some true.
Proof.
  intros H Hlt. destruct (nth_error l q) as [b|] eqn:E; [|apply nth_error_None in E; lia]. rewrite (nth_error_nth _ _ true E) in H. congruence.
Qed.

Lemma nth_false_some l q : nth q l true = false -> nth_error l q = Some false.
Proof.
  revert q. induction l as [|b l IH]; intros [|q] H; cbn in *; try discriminate; auto. congruence.
Qed.

Lemma nth_skipn {A} (l : list A) n i : nth_error (skipn n l) i = nth_error l (n + i).
Proof. revert l. induction n as [|n IH]; intros [|x l]; cbn; auto. destruct i; reflexivity. Qed.

Lemma drop_kill_once w l : forall k k' p, nth_error (drop_events w l) k = Some (LKill p) -> nth_error (drop_events w l) k' = Some (LKill p) -> k = k'.
Proof.
  assert (W : forall k k' p, k < k' -> nth_error (drop_events w l) k = Some (LKill p) -> nth_error (drop_events w l) k' = Some (LKill p) -> False).
  { intros k k' p Hlt H H'. assert (Hs : exists s, p = PlSeq s).
    { apply nth_error_In in H. apply drop_kill in H. destruct H as (s & -> & _). eauto. }
    destruct Hs as [s ->]. destruct (drop_at _ _ _ _ H) as (l1 & l2 & _ & Hn & _ & H0 & Hsk).
    assert (G : nth_error (LDrop s :: seq_end w s ++ drop_events w l2) (k' - (k - 1)) = Some (LKill (PlSeq s))).
    { rewrite <- Hsk, nth_skipn. rewrite <- H'. f_equal. lia. }
    destruct (k' - (k - 1)) as [|[|n]] eqn:En; try lia. cbn [nth_error seq_end app] in G. apply nth_error_In in G. apply in_app_or in G. destruct G as [G|G].
    - destruct (nth_error (w_seqs w) s) as [q|]; [|destruct G]. destruct (seq_dtor_error q); [|destruct G]. apply in_map_iff in G. destruct G as (z & G & _). discriminate.
    - apply drop_kill in G. destruct G as (s' & E & Hin & _). injection E as <-. contradiction. }
  intros k k' p H H'. destruct (Nat.lt_trichotomy k k') as [Hlt|[|Hlt]]; auto; exfalso; eapply W; eauto.
Qed.

Lemma step_end release c t a c' r j p : LI (cw c) -> cstep release c t a = CNext c' r -> nth_error (life_of release c t a) j = Some (LKill p) ->
  mortal p /\ alive_place (cw c) p /\ ended_place (cw c') p /\
  (forall e, p = PlCount e -> exists x, exp_at (cw c) e x /\ eo_alive x = true /\ 0 < j /\ nth_error (life_of release c t a) 0 = Some (LE (MLock (eo_coll x)))) /\
  (forall q, p = PlSeq q -> exists u, u < j /\ nth_error (life_of release c t a) u = Some (LDrop q)) /\
  (forall k y p', nth_error (life_of release c t a) k = Some (LE y) -> touches p' y -> mortal p' -> k < j) /\
  (forall j', nth_error (life_of release c t a) j' = Some (LKill p) -> j' = j).
Proof.
  intros L Hs Hj. pose proof (li_step _ _ _ _ _ _ Hs L) as L'. destruct (life_case _ _ _ _ _ _ Hs) as
    [Hl Hsame Hown Hno|s evs d' Ha Hi w1 Hr Hc Ht Hl|e x l unf evs d' Ha Hx Hcl Hin w1 Hr He Hi Hd Ht Hu Hev Hl]; rewrite Hl in *.
  - exfalso. apply nth_error_In in Hj. apply in_map_iff in Hj. destruct Hj as (z & E & _). discriminate.
  - pose proof (nth_error_In _ _ Hj) as Hj'. apply drop_kill in Hj'. destruct Hj' as (s' & -> & [<-|[]] & Hu).
    assert (Hdd : nth s (w_sdead (cw c)) true = false) by (rewrite (li_dead _ L); apply negb_false_iff, in_use_spec; auto).
    destruct (core_fields _ _ Hc) as (_ & Hif & _ & Hex & _).
    assert (Hlen : length (w_sdead (cw c')) = length (w_sdead (cw c))).
    { rewrite <- (li_len _ L'), <- (li_len _ L), Hif. cbn [w_iface set_sdead]. unfold w1. cbn [w_iface set_iface]. apply length_upd. }
    split; [exact Logic.I|]. split; [exact Hdd|]. split.
    { cbn. apply nth_some_true.
      - rewrite (li_dead _ L'). rewrite (in_use_ext w1 (cw c')) by (rewrite ?Hex, ?Hif; reflexivity). rewrite Hu. reflexivity.
      - rewrite Hlen. eapply nth_error_lt. apply nth_false_some. exact Hdd. }
    split; [discriminate|]. split. { intros q E. injection E as <-. eapply drop_before; eauto. }
    split; [|intros j' H; eapply drop_kill_once; eauto]. intros k y p' Hk T M. exfalso. apply nth_error_In in Hk. eapply drop_touches; eauto.
  - set (pre := map LE (remove_events (w_seqs (cw c)) (eo_coll x) e (eo_exp x))) in *.
    assert (Hpre : forall n z, nth_error pre n = Some z -> exists z', z = LE z').
    { intros n z Hn. apply nth_error_In in Hn. apply in_map_iff in Hn. destruct Hn as (z' & <- & _). eauto. }
    assert (A : eo_alive x = true).
    { rewrite (li_coll _ L _ _ Hcl) in Hin. apply members_in in Hin. destruct Hin as (x' & Hx' & A & _). unfold exp_at in *. congruence. }
    assert (H0 : nth_error (pre ++ LKill (PlCount e) :: drop_events w1 (map fst (c_seqs (e_ctl (eo_exp x))))) 0 = Some (LE (MLock (eo_coll x)))) by reflexivity.
    assert (Hp0 : 0 < length pre) by (cbn; lia).
    assert (Acc : forall k y p', nth_error (pre ++ LKill (PlCount e) :: drop_events w1 (map fst (c_seqs (e_ctl (eo_exp x))))) k = Some (LE y) -> touches p' y -> mortal p' -> k < length pre).
    { intros k y p' Hk T M. destruct (Nat.lt_ge_cases k (length pre)) as [|Hge]; auto. exfalso. rewrite nth_error_app2 in Hk by auto.
      destruct (k - length pre) as [|n]; [discriminate|]. cbn [nth_error] in Hk. apply nth_error_In in Hk. eapply drop_touches; eauto. }
    assert (Pos : forall n p', nth_error (pre ++ LKill (PlCount e) :: drop_events w1 (map fst (c_seqs (e_ctl (eo_exp x))))) n = Some (LKill p') ->
      (n = length pre /\ p' = PlCount e) \/ (exists m, n = length pre + S m /\ nth_error (drop_events w1 (map fst (c_seqs (e_ctl (eo_exp x))))) m = Some (LKill p'))).
    { intros n p' Hn. destruct (Nat.lt_ge_cases n (length pre)) as [Hlt|Hge].
      - rewrite nth_error_app1 in Hn by auto. apply Hpre in Hn. destruct Hn; discriminate.
      - rewrite nth_error_app2 in Hn by auto. destruct (n - length pre) as [|m] eqn:Em; cbn [nth_error] in Hn.
        + left. injection Hn as <-. split; auto; lia.
        + right. exists m. split; auto; lia. }
    assert (Drk : forall m p', nth_error (drop_events w1 (map fst (c_seqs (e_ctl (eo_exp x))))) m = Some (LKill p') -> exists s, p' = PlSeq s /\ seq_in_use w1 s = false /\ nth s (w_sdead (cw c)) true = false).
    { intros m p' Hm. apply nth_error_In in Hm. apply drop_kill in Hm. destruct Hm as (s & -> & Hin1 & H1). exists s. split; auto. split; auto. eapply seq_alive; eauto. }
    destruct (Pos _ _ Hj) as [[-> ->]|(m & -> & Hm)].
    + split; [exact Logic.I|]. split; [cbn; eauto|]. split.
      { cbn. unfold exp_at. rewrite He. unfold w1. cbn [w_exps set_exps]. eexists. split; [apply nth_error_upd_eq; eapply nth_error_lt; eauto|reflexivity]. }
      split. { intros e' E. injection E as <-. exists x. auto. }
      split; [discriminate|]. split; [exact Acc|].
      intros j' Hj'. destruct (Pos _ _ Hj') as [[-> _]|(m & _ & Hm)]; auto. apply Drk in Hm. destruct Hm as (s & E & _). discriminate.
    + destruct (Drk _ _ Hm) as (s & -> & Hu1 & Hd1).
      assert (Hlen : length (w_sdead (cw c')) = length (w_sdead (cw c))) by (rewrite <- (li_len _ L'), <- (li_len _ L), Hi; reflexivity).
      split; [exact Logic.I|]. split; [exact Hd1|]. split.
      { cbn. apply nth_some_true.
        - rewrite (li_dead _ L'). rewrite (in_use_ext w1 (cw c')) by (rewrite ?He, ?Hi; reflexivity). rewrite Hu1. reflexivity.
        - rewrite Hlen. eapply nth_error_lt. apply nth_false_some. exact Hd1. }
      split; [discriminate|]. split.
      { intros q E. injection E as <-. destruct (drop_before _ _ _ _ Hm) as (k' & Hk & Hk'). exists (length pre + S k'). split; [lia|].
        rewrite nth_error_app2 by lia. replace (length pre + S k' - length pre) with (S k') by lia. exact Hk'. }
      split. { intros k y p' Hk T M. pose proof (Acc _ _ _ Hk T M). lia. }
      intros j' Hj'. destruct (Pos _ _ Hj') as [[_ E]|(m' & -> & Hm')]; [discriminate|]. rewrite (drop_kill_once _ _ _ _ _ Hm Hm'). reflexivity.
Qed.

Lemma held_alive release c t a c' k p : LI (cw c) -> held release c t a c' k p -> alive_place (cw c) p.
Proof.
  intros L [(_ & e & x & Hx & A & Rp)|[(H & _)|(e & x & u & Hx & A & Rp & _)]]; auto; eapply reach_alive; eauto.
Qed.

Lemma step_ended release c t a c' r p : LI (cw c) -> cstep release c t a = CNext c' r -> ended_place (cw c) p -> ended_place (cw c') p.
Proof.
  intros L Hs. pose proof (li_step _ _ _ _ _ _ Hs L) as L'. destruct (life_case _ _ _ _ _ _ Hs) as
    [Hl Hsame Hown Hno|s evs d' Ha Hi w1 Hr Hc Ht Hl|e x l unf evs d' Ha Hx Hcl Hin w1 Hr He Hi Hd Ht Hu Hev Hl]; destruct p as [v|e0|q|]; cbn [ended_place]; auto.
  - intros (y & Hy & A). destruct Hsame as [H1 _]. destruct (H1 _ _ Hy) as (y' & Hy' & A' & _). exists y'. split; auto. congruence.
  - intros H. apply (proj2 Hsame). exact H.
  - destruct (core_fields _ _ Hc) as (_ & _ & _ & Hex & _). unfold exp_at. rewrite Hex. auto.
  - destruct (core_fields _ _ Hc) as (_ & Hif & _ & Hex & _). intros H. apply nth_some_true.
    + rewrite (li_dead _ L'). rewrite (in_use_ext w1 (cw c')) by (rewrite ?Hex, ?Hif; reflexivity). apply negb_true_iff.
      destruct (seq_in_use w1 q) eqn:U; auto. exfalso. pose proof (li_dead _ L q) as D. rewrite (nth_error_nth _ _ true H) in D.
      symmetry in D. apply negb_true_iff in D. assert (X : seq_in_use (cw c) q = true); [|congruence].
      apply in_use_spec. apply in_use_spec in U. destruct U as [U|U]; [|auto]. left. unfold w1 in U. cbn [w_iface set_iface] in U.
      assert (Hlt : s < length (w_iface (cw c))) by (destruct (Nat.lt_ge_cases s (length (w_iface (cw c)))) as [|G]; auto; rewrite nth_overflow in Hi by auto; discriminate).
      rewrite nth_iface_upd in U by exact Hlt. destruct (s =? q) eqn:E; [discriminate|exact U].
    + rewrite <- (li_len _ L'), Hif. cbn [w_iface set_sdead]. unfold w1. cbn [w_iface set_iface]. rewrite length_upd, (li_len _ L). eapply nth_error_lt; eauto.
  - intros (y & Hy & A). unfold exp_at in *. rewrite He. unfold w1. cbn [w_exps set_exps]. destruct (Nat.eq_dec e0 e) as [->|Hne].
    + eexists. split; [apply nth_error_upd_eq; eapply nth_error_lt; eauto|reflexivity].
    + exists y. rewrite nth_error_upd_neq by auto. auto.
  - intros H. apply nth_some_true.
    + rewrite (li_dead _ L'). rewrite (in_use_ext w1 (cw c')) by (rewrite ?He, ?Hi; reflexivity). apply negb_true_iff.
      destruct (seq_in_use w1 q) eqn:U; auto. exfalso. pose proof (li_dead _ L q) as D. rewrite (nth_error_nth _ _ true H) in D.
      symmetry in D. apply negb_true_iff in D. assert (X : seq_in_use (cw c) q = true); [|congruence].
      apply in_use_spec. apply in_use_spec in U. destruct U as [U|(e1 & x1 & Hx1 & A1 & Hq1)]; [auto|]. right. unfold exp_at, w1 in Hx1. cbn [w_exps set_exps] in Hx1.
      apply nth_error_upd in Hx1. destruct Hx1 as [(-> & _ & ->)|(Hne & Hx1)]; [discriminate|]. exists e1, x1. auto.
    + rewrite <- (li_len _ L'), Hi, (li_len _ L). eapply nth_error_lt; eauto.
Qed.

Lemma run_ended release c acts c' p : cruns release c acts c' -> LI (cw c) -> ended_place (cw c) p -> ended_place (cw c') p.
Proof. induction 1; auto. intros L E. apply IHcruns; [eapply li_step; eauto|eapply step_ended; eauto]. Qed.

(** An expectation stays, or it ends under its mutex and releases its sequences. *)
Lemma step_stays release c t a c' r e x : LI (cw c) -> cstep release c t a = CNext c' r -> exp_at (cw c) e x -> eo_alive x = true ->
  (exists x', exp_at (cw c') e x' /\ eo_alive x' = true /\ eo_coll x' = eo_coll x /\ x_seqs x' = x_seqs x) \/
  (nth_error (life_of release c t a) 0 = Some (LE (MLock (eo_coll x))) /\
   (exists x', exp_at (cw c') e x' /\ eo_alive x' = false) /\ In (LKill (PlCount e)) (life_of release c t a) /\
   forall q, In q (x_seqs x) -> exists u, 0 < u /\ nth_error (life_of release c t a) u = Some (LDrop q)).
Proof.
  intros L Hs Hx A. destruct (life_case _ _ _ _ _ _ Hs) as
    [Hl Hsame Hown Hno|s evs d' Ha Hi w1 Hr Hc Ht Hl|e0 x0 l unf evs d' Ha Hx0 Hcl Hin w1 Hr He Hi Hd Ht Hu Hev Hl].
  - left. destruct (proj1 Hsame _ _ Hx) as (x' & H1 & H2 & H3). exists x'. split; auto. split; [congruence|auto].
  - left. destruct (core_fields _ _ Hc) as (_ & _ & _ & Hex & _). exists x. unfold exp_at. rewrite Hex. auto.
  - unfold exp_at in *. rewrite He. unfold w1. cbn [w_exps set_exps]. destruct (Nat.eq_dec e e0) as [->|Hne].
    + right. assert (x0 = x) by congruence. subst x0. rewrite Hl. split; [reflexivity|]. split.
      { eexists. split; [apply nth_error_upd_eq; eapply nth_error_lt; eauto|reflexivity]. }
      split. { apply in_or_app. right. left. reflexivity. }
      intros q Hq. pose proof (proj2 (drop_drop w1 (map fst (c_seqs (e_ctl (eo_exp x)))) q) Hq) as HD. apply In_nth_error in HD. destruct HD as [n Hn].
      set (pre := map LE (remove_events (w_seqs (cw c)) (eo_coll x) e0 (eo_exp x))).
      exists (length pre + S n). split; [lia|]. rewrite nth_error_app2 by lia. replace (length pre + S n - length pre) with (S n) by lia. exact Hn.
    + left. exists x. rewrite nth_error_upd_neq by auto. auto.
Qed.

(** ** Positions in traces *)

Lemma life_app release acts1 : forall c c1 acts2, cruns release c acts1 c1 -> life release c (acts1 ++ acts2) = life release c acts1 ++ life release c1 acts2.
Proof.
  induction acts1 as [|[t a] acts1 IH]; intros c c1 acts2 H; inversion H; subst; auto.
  cbn [app life]. match goal with E : cstep _ _ _ _ = CNext _ _ |- _ => rewrite E end. rewrite <- app_assoc. f_equal. apply IH; auto.
Qed.

Lemma life_cons release c t a c1 r acts : cstep release c t a = CNext c1 r -> life release c ((t, a) :: acts) = map (pair (t, a)) (life_of release c t a) ++ life release c1 acts.
Proof. intros H. cbn [life]. rewrite H. reflexivity. Qed.

Lemma life_at release acts : forall c cN i t a y, cruns release c acts cN -> nth_error (life release c acts) i = Some (t, a, y) ->
  exists A B c1 c1' r k, acts = A ++ (t, a) :: B /\ cruns release c A c1 /\ cstep release c1 t a = CNext c1' r /\ cruns release c1' B cN /\
    i = length (life release c A) + k /\ nth_error (life_of release c1 t a) k = Some y.
Proof.
  induction acts as [|[t0 a0] acts IH]; intros c cN i t a y H Hi; [destruct i; discriminate|]. inversion H; subst.
  match goal with E : cstep _ _ _ _ = CNext ?q ?r0 |- _ => rename E into Hs; rename q into c1; rename r0 into r end. rewrite (life_cons _ _ _ _ _ _ _ Hs) in Hi.
  destruct (Nat.lt_ge_cases i (length (map (pair (t0, a0)) (life_of release c t0 a0)))) as [Hlt|Hge].
  - rewrite nth_error_app1 in Hi by auto. apply nth_map_pair in Hi. destruct Hi as [E Hi]. injection E as -> ->.
    exists [], acts, c, c1, r, i. cbn [app life length]. repeat split; auto. constructor.
  - rewrite nth_error_app2 in Hi by auto. destruct (IH _ _ _ _ _ _ ltac:(eassumption) Hi) as (A & B & c2 & c2' & r' & k & -> & H1 & H2 & H3 & H4 & H5).
    exists ((t0, a0) :: A), B, c2, c2', r', k. split; [reflexivity|]. split; [econstructor; eauto|]. split; auto. split; auto. split; auto.
    rewrite (life_cons _ _ _ _ _ _ _ Hs), app_length. lia.
Qed.

(** Two events of a trace: in one step, or in two. *)
Lemma life_two release acts : forall c cN i j t a y t' b z, cruns release c acts cN -> i < j ->
  nth_error (life release c acts) i = Some (t, a, y) -> nth_error (life release c acts) j = Some (t', b, z) ->
  exists A c1 c1' r k, cruns release c A c1 /\ cstep release c1 t a = CNext c1' r /\ nth_error (life_of release c1 t a) k = Some y /\
    i = length (life release c A) + k /\
    ((t' = t /\ b = a /\ exists k', k < k' /\ nth_error (life_of release c1 t a) k' = Some z) \/
     (exists B C c2 c2' r' k', acts = A ++ (t, a) :: B ++ (t', b) :: C /\ cruns release c1' B c2 /\ cstep release c2 t' b = CNext c2' r' /\
        nth_error (life_of release c2 t' b) k' = Some z /\
        j = length (life release c A) + (length (life_of release c1 t a) + (length (life release c1' B) + k')))).
Proof.
  induction acts as [|[t0 a0] acts IH]; intros c cN i j t a y t' b z H Hij Hi Hj; [destruct i; discriminate|]. inversion H; subst.
  match goal with E : cstep _ _ _ _ = CNext ?q ?r0 |- _ => rename E into Hs; rename q into c1; rename r0 into r end. rewrite (life_cons _ _ _ _ _ _ _ Hs) in Hi, Hj.
  destruct (Nat.lt_ge_cases i (length (map (pair (t0, a0)) (life_of release c t0 a0)))) as [Hlt|Hge].
  - rewrite nth_error_app1 in Hi by auto. apply nth_map_pair in Hi. destruct Hi as [E Hi]. injection E as -> ->.
    exists [], c, c1, r, i. split; [constructor|]. split; auto. split; auto. split; [reflexivity|].
    destruct (Nat.lt_ge_cases j (length (map (pair (t0, a0)) (life_of release c t0 a0)))) as [Hlt'|Hge'].
    + left. rewrite nth_error_app1 in Hj by auto. apply nth_map_pair in Hj. destruct Hj as [E Hj]. injection E as -> ->. split; auto. split; auto. eauto.
    + right. rewrite nth_error_app2 in Hj by auto. destruct (life_at _ _ _ _ _ _ _ _ ltac:(eassumption) Hj) as (B & C & c2 & c2' & r' & k & -> & H1 & H2 & H3 & H4 & H5).
      exists B, C, c2, c2', r', k. split; [reflexivity|]. split; auto. split; auto. split; auto. cbn [life length]. rewrite map_length in *. lia.
  - rewrite nth_error_app2 in Hi by auto. rewrite nth_error_app2 in Hj by lia.
    set (n := length (map (pair (t0, a0)) (life_of release c t0 a0))) in *. assert (Hij' : i - n < j - n) by lia.
    destruct (IH _ _ _ _ _ _ _ _ _ _ ltac:(eassumption) Hij' Hi Hj) as (A & c2 & c2' & r' & k & H1 & H2 & H3 & H4 & Hd). unfold n in *.
    exists ((t0, a0) :: A), c2, c2', r', k. split; [econstructor; eauto|]. split; auto. split; auto.
    split. { rewrite (life_cons _ _ _ _ _ _ _ Hs), app_length. lia. }
    destruct Hd as [Hd|(B & C & c3 & c3' & r'' & k' & -> & G1 & G2 & G3 & G4)]; [left; exact Hd|]. right. exists B, C, c3, c3', r'', k'.
    split; [reflexivity|]. split; auto. split; auto. split; auto. rewrite (life_cons _ _ _ _ _ _ _ Hs), app_length. lia.
Qed.

(** During a run an expectation stays, or a step ends it. *)
Lemma run_stays release B : forall c c2 e x, LI (cw c) -> cruns release c B c2 -> exp_at (cw c) e x -> eo_alive x = true ->
  (exists x', exp_at (cw c2) e x' /\ eo_alive x' = true /\ eo_coll x' = eo_coll x /\ x_seqs x' = x_seqs x) \/
  (ended_place (cw c2) (PlCount e) /\
   forall q, In q (x_seqs x) -> exists m1 m2 t b, m1 < m2 /\ nth_error (life release c B) m1 = Some (t, b, LE (MLock (eo_coll x))) /\ nth_error (life release c B) m2 = Some (t, b, LDrop q)).
Proof.
  induction B as [|[t b] B IH]; intros c c2 e x L H Hx A; inversion H; subst. { left. eauto. }
  match goal with E : cstep _ _ _ _ = CNext ?q ?r0 |- _ => rename E into Hs; rename q into c1; rename r0 into r end.
  pose proof (li_step _ _ _ _ _ _ Hs L) as L1. rewrite (life_cons _ _ _ _ _ _ _ Hs).
  destruct (step_stays _ _ _ _ _ _ _ _ L Hs Hx A) as [(x' & Hx' & A' & Hc' & Hq')|(H0 & (x' & Hx' & A') & _ & HD)].
  - destruct (IH _ _ _ _ L1 ltac:(eassumption) Hx' A') as [(x'' & G1 & G2 & G3 & G4)|(G1 & G2)].
    + left. exists x''. split; auto. split; auto. split; congruence.
    + right. split; auto. intros q Hq. rewrite <- Hq' in Hq. destruct (G2 _ Hq) as (m1 & m2 & t1 & b1 & Hm & E1 & E2).
      set (n := length (map (pair (t, b)) (life_of release c t b))). exists (n + m1), (n + m2), t1, b1. split; [lia|].
      rewrite !nth_error_app2 by (unfold n; lia). fold n. replace (n + m1 - n) with m1 by lia. replace (n + m2 - n) with m2 by lia. rewrite <- Hc'. auto.
  - right. split. { eapply run_ended; eauto. cbn. eauto. }
    intros q Hq. destruct (HD _ Hq) as (u & Hu & Hn). exists 0, u, t, b. split; auto. pose proof (nth_error_lt _ _ _ H0). pose proof (nth_error_lt _ _ _ Hn).
    rewrite !nth_error_app1 by (rewrite map_length; auto). split; apply nth_pair_map; auto.
Qed.

(** ** The order of an access and the end *)

Theorem ends_after_access release c acts cN i j t a t' p : LI (cw c) -> cruns release c acts cN ->
  access_at (life release c acts) i t a p -> end_at (life release c acts) j t' p -> i < j.
Proof.
  intros L H Ha (b & Hj). assert (Hi : exists y, nth_error (life release c acts) i = Some (t, a, LE y) /\ touches p y).
  { destruct Ha as [Ha|Ha]; eexists; (split; [exact Ha|]); [left|right]; auto. }
  destruct Hi as (y & Hi & T). destruct (Nat.lt_trichotomy i j) as [|[->|Hlt]]; auto; exfalso; [congruence|].
  destruct (life_two _ _ _ _ _ _ _ _ _ _ _ _ H Hlt Hj Hi) as (A & c1 & c1' & r & k & R1 & Hs & Hk & _ & D).
  pose proof (li_run _ _ _ _ R1 L) as L1. destruct (step_end _ _ _ _ _ _ _ _ L1 Hs Hk) as (M & _ & E & _ & _ & Acc & _).
  destruct D as [(-> & -> & k' & Hkk & Hk')|(B & C & c2 & c2' & r' & k' & _ & R2 & Hs' & Hk' & _)].
  - pose proof (Acc _ _ _ Hk' T M). lia.
  - pose proof (li_run _ _ _ _ R2 (li_step _ _ _ _ _ _ Hs L1)) as L2. pose proof (step_access _ _ _ _ _ _ _ _ _ L2 Hs' Hk' T M) as Hh.
    apply held_alive in Hh; auto. eapply alive_not_ended; [exact Hh|]. eapply run_ended; eauto. eapply li_step; eauto.
Qed.

Theorem ends_once release c acts cN i j t t' p : LI (cw c) -> cruns release c acts cN ->
  end_at (life release c acts) i t p -> end_at (life release c acts) j t' p -> i = j.
Proof.
  intros L H. assert (W : forall i j t t' a b, i < j -> nth_error (life release c acts) i = Some (t, a, LKill p) -> nth_error (life release c acts) j = Some (t', b, LKill p) -> False).
  { clear i j t t'. intros i j t t' a b Hlt Hi Hj.
    destruct (life_two _ _ _ _ _ _ _ _ _ _ _ _ H Hlt Hi Hj) as (A & c1 & c1' & r & k & R1 & Hs & Hk & _ & D).
    pose proof (li_run _ _ _ _ R1 L) as L1. destruct (step_end _ _ _ _ _ _ _ _ L1 Hs Hk) as (M & _ & E & _ & _ & _ & U).
    destruct D as [(-> & -> & k' & Hkk & Hk')|(B & C & c2 & c2' & r' & k' & _ & R2 & Hs' & Hk' & _)].
    - rewrite (U _ Hk') in Hkk. lia.
    - pose proof (li_run _ _ _ _ R2 (li_step _ _ _ _ _ _ Hs L1)) as L2. destruct (step_end _ _ _ _ _ _ _ _ L2 Hs' Hk') as (_ & Al & _).
      eapply alive_not_ended; [exact Al|]. eapply run_ended; eauto. eapply li_step; eauto. }
  intros (a & Hi) (b & Hj). destruct (Nat.lt_trichotomy i j) as [Hlt|[|Hlt]]; auto; exfalso; eapply W; eauto.
Qed.

(** The trace around two steps. *)
Lemma life_parts release c A c1 t a c1' r B c2 t' b c2' r' C : cruns release c A c1 -> cstep release c1 t a = CNext c1' r -> cruns release c1' B c2 -> cstep release c2 t' b = CNext c2' r' ->
  life release c (A ++ (t, a) :: B ++ (t', b) :: C) =
  life release c A ++ map (pair (t, a)) (life_of release c1 t a) ++ life release c1' B ++ map (pair (t', b)) (life_of release c2 t' b) ++ life release c2' C.
Proof.
  intros H1 H2 H3 H4. rewrite (life_app _ _ _ _ _ H1), (life_cons _ _ _ _ _ _ _ H2), (life_app _ _ _ _ _ H3), (life_cons _ _ _ _ _ _ _ H4). reflexivity.
Qed.

Lemma nth_in_second {A} (l0 l1 l2 : list A) k y : nth_error l1 k = Some y -> nth_error (l0 ++ l1 ++ l2) (length l0 + k) = Some y.
Proof. intros H. rewrite nth_error_app2 by lia. replace (length l0 + k - length l0) with k by lia. rewrite nth_error_app1; auto. eapply nth_error_lt; eauto. Qed.

Theorem access_before_end release c acts cN i j t a t' p : LI (cw c) -> cruns release c acts cN ->
  access_at (life release c acts) i t a p -> end_at (life release c acts) j t' p -> ~ unguarded a -> lhb (life release c acts) i j.
Proof.
  intros L H Ha He Hg. pose proof (ends_after_access _ _ _ _ _ _ _ _ _ _ L H Ha He) as Hij. destruct He as (b & Hj).
  assert (Hi : exists y, nth_error (life release c acts) i = Some (t, a, LE y) /\ touches p y).
  { destruct Ha as [Ha|Ha]; eexists; (split; [exact Ha|]); [left|right]; auto. }
  clear Ha. destruct Hi as (y & Hi & T). 
  destruct (life_two _ _ _ _ _ _ _ _ _ _ _ _ H Hij Hi Hj) as (A & c1 & c1' & r & k & R1 & Hs & Hk & Ei & D).
  destruct D as [(-> & -> & _)|(B & C & c2 & c2' & r' & k' & Eacts & R2 & Hs' & Hk' & Ej)]; [eapply lhb_program; eauto|].
  pose proof (li_run _ _ _ _ R1 L) as L1. pose proof (li_step _ _ _ _ _ _ Hs L1) as L1'. pose proof (li_run _ _ _ _ R2 L1') as L2.
  destruct (step_end _ _ _ _ _ _ _ _ L2 Hs' Hk') as (M & Al & En & Hcnt & Hseq & _ & _).
  pose proof (step_access _ _ _ _ _ _ _ _ _ L1 Hs Hk T M) as Hh.
  set (tr := life release c acts) in *.
  assert (P1 : forall u z, nth_error (life_of release c1 t a) u = Some z -> nth_error tr (length (life release c A) + u) = Some (t, a, z)).
  { intros u z Hu. unfold tr. rewrite Eacts, (life_parts _ _ _ _ _ _ _ _ _ _ _ _ _ _ _ R1 Hs R2 Hs'). apply nth_in_second. apply nth_pair_map. exact Hu. }
  assert (P2 : forall u z, nth_error (life release c1' B) u = Some z -> nth_error tr (length (life release c A) + (length (life_of release c1 t a) + u)) = Some z).
  { intros u z Hu. unfold tr. rewrite Eacts, (life_parts _ _ _ _ _ _ _ _ _ _ _ _ _ _ _ R1 Hs R2 Hs'). rewrite nth_error_app2 by lia.
    replace (_ - length (life release c A)) with (length (map (pair (t, a)) (life_of release c1 t a)) + u) by (rewrite map_length; lia). apply nth_in_second. exact Hu. }
  assert (P3 : forall u z, nth_error (life_of release c2 t' b) u = Some z ->
    nth_error tr (length (life release c A) + (length (life_of release c1 t a) + (length (life release c1' B) + u))) = Some (t', b, z)).
  { intros u z Hu. unfold tr. rewrite Eacts, (life_parts _ _ _ _ _ _ _ _ _ _ _ _ _ _ _ R1 Hs R2 Hs'). rewrite nth_error_app2 by lia.
    replace (_ - length (life release c A)) with (length (map (pair (t, a)) (life_of release c1 t a)) + (length (life release c1' B) + u)) by (rewrite map_length; lia).
    rewrite nth_error_app2 by lia. replace (_ + _ - _) with (length (life release c1' B) + u) by lia. apply nth_in_second. apply nth_pair_map. exact Hu. }
  pose proof (nth_error_lt _ _ _ Hk) as Hkl.
  (* from a release of the sequence in the first step or later to the end *)
  assert (Last : forall q n t0 b0, p = PlSeq q -> n < length (life release c A) + (length (life_of release c1 t a) + length (life release c1' B)) ->
    nth_error tr n = Some (t0, b0, LDrop q) -> lhb tr n j).
  { intros q n t0 b0 Ep Hn Hd. destruct (Hseq _ Ep) as (u & Hu & Hud). subst j. eapply lhb_trans.
    - eapply lhb_count; [|exact Hd|apply P3; exact Hud]. lia.
    - eapply lhb_program; [|apply P3; exact Hud|exact Hj]. lia. }
  destruct Hh as [(Hun & _)|[(_ & e & x & u & Hx & Ax & Rp & Hu & Hlk)|(e & x & u & Hx & Ax & Rp & Hu & Hkill & HD)]]; [contradiction| |].
  - assert (Iu : lhb tr i (length (life release c A) + u)) by (eapply lhb_program; [|exact Hi|apply P1; exact Hlk]; lia).
    pose proof (nth_error_lt _ _ _ Hlk) as Hul. eapply lhb_trans; [exact Iu|].
    destruct (run_stays _ _ _ _ _ _ L1' R2 Hx Ax) as [(x' & Hx' & Ax' & Hc' & Hq')|(Hend & HB)].
    + (* still there: the step with the end takes the mutex *)
      assert (St : nth_error (life_of release c2 t' b) 0 = Some (LE (MLock (eo_coll x))) /\ 0 < k').
      { destruct Rp as [->|(q & -> & Hq)].
        - destruct (Hcnt _ eq_refl) as (x2 & Hx2 & _ & H0 & Hl2). assert (x2 = x') by (unfold exp_at in *; congruence). subst x2. rewrite <- Hc'. auto.
        - destruct (step_stays _ _ _ _ _ _ _ _ L2 Hs' Hx' Ax') as [(x3 & Hx3 & Ax3 & Hc3 & Hq3)|(H0 & _ & _ & _)].
          + exfalso. pose proof (li_step _ _ _ _ _ _ Hs' L2) as L3. rewrite <- Hq', <- Hq3 in Hq. pose proof (seq_alive _ _ _ _ L3 Hx3 Ax3 Hq) as G.
            eapply (alive_not_ended _ (PlSeq q)); [exact G|exact En].
          + rewrite <- Hc'. split; auto. destruct k' as [|k']; [|lia]. rewrite H0 in Hk'. discriminate. }
      destruct St as [H0 Hk0]. apply P3 in H0. eapply lhb_trans.
      * eapply lhb_mutex; [|apply P1; exact Hlk|exact H0]. lia.
      * subst j. eapply lhb_program; [|exact H0|exact Hj]. lia.
    + destruct Rp as [->|(q & -> & Hq)]. { exfalso. eapply alive_not_ended; eauto. }
      destruct (HB _ Hq) as (m1 & m2 & t1 & b1 & Hm & E1 & E2). pose proof (nth_error_lt _ _ _ E2). apply P2 in E1. apply P2 in E2. eapply lhb_trans.
      * eapply lhb_mutex; [|apply P1; exact Hlk|exact E1]. lia.
      * eapply lhb_trans; [eapply lhb_program; [|exact E1|exact E2]; lia|]. eapply Last; [reflexivity| |exact E2]. lia.
  - destruct Rp as [->|(q & -> & Hq)].
    + exfalso. destruct (step_end _ _ _ _ _ _ _ _ L1 Hs Hkill) as (_ & _ & En1 & _). eapply alive_not_ended; [exact Al|]. eapply run_ended; eauto.
    + destruct (HD _ Hq) as (u' & Hu' & Hn). pose proof (nth_error_lt _ _ _ Hn). apply P1 in Hn. eapply lhb_trans; [eapply lhb_program; [|exact Hi|exact Hn]; lia|].
      eapply Last; [reflexivity| |exact Hn]. lia.
Qed.
