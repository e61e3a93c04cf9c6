(** * RaceFree: calls of several threads which do or do not race, and deadlocks. *)

From Verif Require Import Base Lib Sequence Control Signature Printer Reports Expectation Builder World WorldSpec
  StepCases MatchLemmas WorldInv Conc ConcSpec ConcProofs Race RaceSpec RaceProofs.

(** ** Steps of calls change no collection *)

(** The steps of calls, including those of their side effects and finalizers. *)
Definition call_step (a : action) : bool :=
  match a with
  | AMatch _ _ _ _ | ACount => true
  | AOp OAction | AOp (OActionThrows _) | AOp OFinal | AOp (OReturn _) => true
  | AOp _ => false
  end.

(** The same collections, mocks, and expectations with their collections and sequences. *)
Definition static (c c' : cworld) : Prop :=
  w_colls (cw c') = w_colls (cw c) /\ w_mocks (cw c') = w_mocks (cw c) /\ 
  (forall e x', exp_at (cw c') e x' -> exists x, exp_at (cw c) e x /\ eo_coll x = eo_coll x' /\ c_seqs (ctl_of x) = c_seqs (ctl_of x')).

Lemma static_refl c : static c c.
Proof. repeat split; auto. intros e x H. exists x. auto. Qed.
Lemma static_trans a b c : static a b -> static b c -> static a c.
Proof.
  intros (H1 & H2 & H3) (H4 & H5 & H6). split; [congruence|]. split; [congruence|]. intros e x Hx.
  destruct (H6 e x Hx) as (y & Hy & E1 & E2). destruct (H3 e y Hy) as (z & Hz & E3 & E4). exists z. split; auto. split; congruence.
Qed.

Lemma core_static c c' : core (cw c') = core (cw c) -> static c c'.
Proof.
  intros H. destruct (core_fields _ _ H) as (_ & _ & _ & He & Hc & Hm & _). split; auto. split; auto. unfold exp_at. rewrite He. intros e x Hx. exists x. auto.
Qed.

Lemma cstep_other release c t a c' r t' : cstep release c t a = CNext c' r -> t' <> t -> nth_error (c_threads c') t' = nth_error (c_threads c) t'.
Proof.
  intros H Hne.
  assert (HL : forall w p log, nth_error (c_threads (leave c t w p log)) t' = nth_error (c_threads c) t').
  { intros. cbn [c_threads leave]. apply nth_error_upd_neq; auto. }
  assert (HE : forall log s, embed c t log s = CNext c' r -> nth_error (c_threads c') t' = nth_error (c_threads c) t').
  { intros log s E. destruct s; cbn [embed] in E; try discriminate. injection E as <- _. apply HL. }
  unfold cstep in H. destruct (nth_error (c_threads c) t) as [th|]; [|discriminate].
  destruct (t_pending th) as [[[n ci] ne]|], a as [o|m ov args l|]; try discriminate; eauto.
  - destruct (is_call o); [discriminate|]. eauto.
  - destruct (find_overload _ m ov) as [s|[s coll]]; eauto. destruct (negb _); [discriminate|]. cbv zeta in H.
    destruct (match_call _ _ _ _); eauto. injection H as <- _. apply HL.
Qed.

Lemma match_listed w coll c ne w' n : match_call w coll c ne = MChosen w' n -> exists l, nth_error (w_colls w) coll = Some l /\ In n l.
Proof.
  unfold match_call. intros H.
  destruct (nth_error (w_colls w) coll) as [l|] eqn:Hl; [|discriminate].
  destruct (lookup_exps w (rev l)) as [es|] eqn:Hes; [|discriminate].
  destruct (match_loop _ _ _ _ _ _) as [ml|x| |u] eqn:Hml; try discriminate.
  destruct (ml_full ml) as [|first others] eqn:Hf; [destruct (react _ _); discriminate|].
  destruct (pick_best first others) as [[k m]|x| |u] eqn:Hp; try discriminate.
  destruct (react _ _); try discriminate. injection H as <- <-.
  apply pick_best_in in Hp. rewrite <- Hf in Hp. destruct (match_loop_ret _ _ _ _ _ _ _ Hml) as (_ & Hfull & _).
  cbn [ml_full app] in Hfull. rewrite Hfull in Hp. apply sel_in in Hp. destruct Hp as (e & Hin & _).
  destruct (lookup_exps_spec _ _ _ Hes) as [Hfst _]. exists l. split; auto. apply in_rev. rewrite <- Hfst. apply in_map_iff. exists (k, e). auto.
Qed.

Lemma match_over_core release c t m ov args l c' r : cstep release c t (AMatch m ov args l) = CNext c' r -> core (cw c') = core (cw c).
Proof.
  intros H. apply cstep_match in H. destruct H as (th & s & coll & Hth & _ & Hf & Hl & [(w1 & n & Hm & -> & ->)|(w1 & Hm & ->)]).
  - destruct (match_chosen _ _ _ _ _ _ Hm) as (Hc & _). rewrite core_leave, Hc. apply core_enter.
  - rewrite core_leave.
    assert (Hs : step (enter (cw c) th) (OCall m ov args l) = Next w1 r).
    { rewrite (step_call _ _ _ _ _ _ _ Hf Hl), handle_call_split, Hm. reflexivity. }
    destruct (over_throws _ _ _ _ _ _ Hm) as [y ->]. rewrite <- (core_enter (cw c) th).
    rewrite (step_call _ _ _ _ _ _ _ Hf Hl) in Hs. apply handle_call_next in Hs. destruct Hs as (lst & es & ml & _ & _ & _ & Hcr).
    inversion Hcr. subst. reflexivity.
Qed.

(** A matched call: its expectation is in the collection. *)
Lemma match_pending release c t m ov args l c' r e coll : cstep release c t (AMatch m ov args l) = CNext c' r -> pending_exp c' t e ->
  uses_coll c m ov coll -> listed c coll e.
Proof.
  intros H (th' & ci & ne & Hth' & Hp) (s & Hf). apply cstep_match in H.
  destruct H as (th & s' & coll' & Hth & _ & Hf' & Hl & [(w1 & n & Hm & -> & ->)|(w1 & Hm & ->)]);
    rewrite (leave_thread _ _ _ _ _ _ Hth) in Hth'; injection Hth' as <-; cbn [t_pending] in Hp; [|discriminate].
  injection Hp as <- _ _. change (find_overload (enter (cw c) th) m ov) with (find_overload (cw c) m ov) in Hf'. rewrite Hf in Hf'. injection Hf' as <- <-.
  exact (match_listed _ _ _ _ _ _ Hm).
Qed.

Lemma consume_seqs release ss c ss' c' : consume_with release ss c = Ret (ss', c') -> c_seqs c' = c_seqs c.
Proof.
  destruct release; cbn [consume_with]; intros H.
  - unfold control_consume_nd in H. destruct (for_each_seq seq_consume_nd ss (c_seqs c)) as [ss1| | |]; cbn [obind] in H; try discriminate.
    destruct (c_count c =? INT_MAX)%Z; [discriminate|]. destruct (control_update_nd ss1 _); cbn [obind] in H; try discriminate. injection H as _ <-. reflexivity.
  - unfold control_consume in H. unfold assert_ in H at 1. destruct (control_is_applicable ss c); [|discriminate].
    destruct (for_each_seq seq_consume ss (c_seqs c)) as [ss1| | |]; cbn [obind] in H; try discriminate.
    destruct (c_count c =? INT_MAX)%Z; [discriminate|]. destruct (control_update ss1 _); cbn [obind] in H; try discriminate. injection H as _ <-. reflexivity.
Qed.

Lemma count_pending release c t c' r : cstep release c t ACount = CNext c' r -> exists e x, pending_exp c t e /\ exp_at (cw c) e x.
Proof.
  unfold cstep. intros H. destruct (nth_error (c_threads c) t) as [th|] eqn:Hth; [|discriminate].
  destruct (t_pending th) as [[[n ci] ne]|] eqn:Hp; [|discriminate].
  unfold count_call in H. cbn [w_exps enter set_uncaught set_frames] in H. destruct (nth_error (w_exps (cw c)) n) as [x|] eqn:Hx; [|discriminate].
  exists n, x. split; auto. exists th, ci, ne. auto.
Qed.

Lemma call_step_static release c t a c' r : call_step a = true -> cstep release c t a = CNext c' r -> static c c'.
Proof.
  intros Ha H. destruct a as [o|m ov args l|].
  - unfold cstep in H. destruct (nth_error (c_threads c) t) as [th|] eqn:Hth; [|discriminate].
    destruct (t_pending th) as [[[n ci] ne]|]; [discriminate|]. destruct (is_call o); [discriminate|].
    destruct (step (enter (cw c) th) o) as [v r0| | |] eqn:Hs; cbn [embed] in H; try discriminate. injection H as <- <-.
    apply core_static. rewrite core_leave, <- (core_enter (cw c) th). assert (Ho : frame_op o = true) by (destruct o; try discriminate; reflexivity).
    apply (frame_op_core _ _ _ _ Ho Hs).
  - apply core_static. eapply match_over_core; eauto.
  - unfold cstep in H. destruct (nth_error (c_threads c) t) as [th|] eqn:Hth; [|discriminate].
    destruct (t_pending th) as [[[n ci] ne]|] eqn:Hp; [|discriminate].
    destruct (count_call release (enter (cw c) th) n ci ne) as [v r0| | |] eqn:Hcc; cbn [embed] in H; try discriminate. injection H as <- <-.
    unfold count_call in Hcc. cbn [w_exps w_seqs enter set_uncaught set_frames] in Hcc.
    destruct (nth_error (w_exps (cw c)) n) as [x|] eqn:Hx; [|discriminate].
    destruct (eo_alive x); [|discriminate]. cbn [negb] in Hcc.
    destruct (consume_with release (w_seqs (cw c)) (e_ctl (eo_exp x))) as [[ss ctl]|y| |u] eqn:Hcons; try discriminate.
    2:{ unfold thrown in Hcc. destruct ne; [discriminate|]. injection Hcc as <- _. apply core_static; reflexivity. }
    destruct (consume_asserts (e_policies (eo_exp x)) ci) as [[]| | |]; try discriminate. injection Hcc as <- <-.
    split; [reflexivity|]. split; [reflexivity|]. unfold exp_at. cbn [cw leave w_exps set_uncaught set_frames set_exps set_seqs].
    intros e x' Hx'. apply nth_error_upd in Hx'. destruct Hx' as [(<- & _ & ->)|[Hne Hx']]; [|exists x'; auto].
    exists x. split; auto. split; auto. unfold ctl_of. cbn [eo_exp e_ctl with_ctl]. symmetry. eapply consume_seqs; eauto.
Qed.

(** ** Two calls on one mock *)

Lemma match_match_race release c t1 m1 ov1 a1 l1 t2 m2 ov2 a2 l2 coll rest c' acts :
  t1 <> t2 -> uses_coll c m1 ov1 coll -> uses_coll c m2 ov2 coll ->
  acts = (t1, AMatch m1 ov1 a1 l1) :: rest -> interleaved [(t1, ACount)] [(t2, AMatch m2 ov2 a2 l2); (t2, ACount)] rest ->
  cruns release c acts c' -> exists e, race_on (events release c acts) (PlCount e).
Proof.
  intros Hne U1 U2 -> Hil Hr. inversion Hr as [|? ? ? c1 r1 ? ? Hs1 Hr1]; subst.
  pose proof (match_over_core _ _ _ _ _ _ _ _ _ Hs1) as Hc1. destruct (core_fields _ _ Hc1) as (_ & _ & _ & _ & Hcl & Hmk & _).
  assert (Hpre : cruns release c [(t1, AMatch m1 ov1 a1 l1)] c1) by (econstructor; [eauto|constructor]).
  assert (U2' : uses_coll c1 m2 ov2 coll). { destruct U2 as [s U2]. exists s. unfold find_overload in *. rewrite Hmk. exact U2. }
  assert (Hli : forall c2 e, w_colls (cw c2) = w_colls (cw c1) -> listed c coll e -> listed c2 coll e).
  { intros c2 e E (lst & H1 & H2). exists lst. rewrite E, Hcl. auto. }
  inversion Hil as [|? ? ? s Hil1|? ? ? s Hil1]; subst.
  - (* count, then the other thread matches *)
    inversion Hil1; subst. inversion Hr1 as [|? ? ? c2 r2 ? ? Hs2 Hr2]; subst. inversion Hr2 as [|? ? ? c3 r3 ? ? Hs3 Hr3]; subst.
    destruct (count_pending _ _ _ _ _ Hs2) as (e & x & Hp & Hx). exists e.
    destruct (call_step_static _ _ _ _ _ _ (eq_refl : call_step ACount = true) Hs2) as (Hcl2 & Hmk2 & _).
    refine (steps_race release c [(t1, AMatch m1 ov1 a1 l1)] c1 t1 ACount c2 r2 [] c2 t2 (AMatch m2 ov2 a2 l2) _ (PlCount e) _ _ Hpre Hs2
      (cr_nil _ _) (proj1 (count_accesses release _ _ _ _ Hp Hx)) _ Hne _ _).
    + eapply match_accesses; [exact Hs3| |].
      * destruct U2' as [s' U2']. exists s'. unfold find_overload in *. rewrite Hmk2. exact U2'.
      * apply Hli; auto. eapply match_pending; eauto.
    + left. auto.
    + left. split; [reflexivity|]. intros b [].
  - (* the other thread matches before the count *)
    inversion Hr1 as [|? ? ? c2 r2 ? ? Hs2 Hr2]; subst.
    assert (Hsame : forall c3, nth_error (c_threads c3) t1 = nth_error (c_threads c1) t1 -> forall e, pending_exp c3 t1 e -> pending_exp c1 t1 e).
    { intros c3 E e (th & ci & ne & H1 & H2). exists th, ci, ne. rewrite <- E. auto. }
    assert (Ht2 : nth_error (c_threads c2) t1 = nth_error (c_threads c1) t1) by (eapply cstep_other; eauto).
    inversion Hil1 as [|? ? ? s' Hil2|? ? ? s' Hil2]; subst.
    + inversion Hr2 as [|? ? ? c3 r3 ? ? Hs3 Hr3]; subst. destruct (count_pending _ _ _ _ _ Hs3) as (e & x & Hp & Hx). exists e.
      refine (steps_race release c [(t1, AMatch m1 ov1 a1 l1)] c1 t2 (AMatch m2 ov2 a2 l2) c2 r2 [] c2 t1 ACount _ (PlCount e) _ _ Hpre Hs2
        (cr_nil _ _) _ (proj1 (count_accesses release _ _ _ _ Hp Hx)) (not_eq_sym Hne) _ _).
      * eapply match_accesses; [exact Hs2|exact U2'|]. apply Hli; auto. eapply match_pending; eauto.
      * right. auto.
      * right. split; [reflexivity|]. intros b [].
    + inversion Hil2 as [|? ? ? s2 Hil3|]; subst. inversion Hil3; subst.
      inversion Hr2 as [|? ? ? c3 r3 ? ? Hs3 Hr3]; subst. inversion Hr3 as [|? ? ? c4 r4 ? ? Hs4 Hr4]; subst.
      destruct (count_pending _ _ _ _ _ Hs4) as (e & x & Hp & Hx). exists e.
      assert (Hp1 : pending_exp c1 t1 e). { apply (Hsame c3); auto. rewrite <- Ht2. eapply cstep_other; eauto. }
      refine (steps_race release c [(t1, AMatch m1 ov1 a1 l1)] c1 t2 (AMatch m2 ov2 a2 l2) c2 r2 [(t2, ACount)] c3 t1 ACount _ (PlCount e) _ _ Hpre Hs2
        (cr_cons _ _ _ _ _ _ _ _ Hs3 (cr_nil _ _)) _ (proj1 (count_accesses release _ _ _ _ Hp Hx)) (not_eq_sym Hne) _ _).
      * eapply match_accesses; [exact Hs2|exact U2'|]. apply Hli; auto. eapply match_pending; eauto.
      * right. auto.
      * right. split; [reflexivity|]. intros b [E|[]]. congruence.
Qed.

Lemma interleaved_sym {A} (l r s : list A) : interleaved l r s -> interleaved r l s.
Proof. induction 1; constructor; auto. Qed.

Theorem two_calls_race release c t1 m1 ov1 a1 l1 t2 m2 ov2 a2 l2 coll c' acts :
  t1 <> t2 -> uses_coll c m1 ov1 coll -> uses_coll c m2 ov2 coll ->
  interleaved [(t1, AMatch m1 ov1 a1 l1); (t1, ACount)] [(t2, AMatch m2 ov2 a2 l2); (t2, ACount)] acts ->
  cruns release c acts c' -> exists e, race_on (events release c acts) (PlCount e).
Proof.
  intros Hne U1 U2 Hil Hr. inversion Hil as [|? ? ? s Hil1|? ? ? s Hil1]; subst.
  - eapply (match_match_race release c t1 m1 ov1 a1 l1 t2 m2 ov2 a2 l2); eauto.
  - eapply (match_match_race release c t2 m2 ov2 a2 l2 t1 m1 ov1 a1 l1); eauto using interleaved_sym.
Qed.

(** ** Calls with nothing in common *)

Section Disjoint.
Context (owner : nat -> nat) (c0 : cworld).
Context (members_ok : forall coll e x, listed c0 coll e -> exp_at (cw c0) e x -> eo_coll x = coll).
Context (seqs_ok : forall coll e x coll' e' x' q, listed c0 coll e -> exp_at (cw c0) e x -> listed c0 coll' e' -> exp_at (cw c0) e' x' ->
  In q (map fst (c_seqs (ctl_of x))) -> In q (map fst (c_seqs (ctl_of x'))) -> owner coll = owner coll').

Definition owned (t : nat) (p : place) : Prop :=
  match p with
  | PlVector coll => owner coll = t
  | PlCount e => exists coll x, listed c0 coll e /\ exp_at (cw c0) e x /\ owner coll = t
  | PlSeq q => exists coll e x, listed c0 coll e /\ exp_at (cw c0) e x /\ In q (map fst (c_seqs (ctl_of x))) /\ owner coll = t
  | PlReporter => False
  end.

Lemma owned_once t t' p : owned t p -> owned t' p -> t = t'.
Proof.
  destruct p as [coll|e|q|]; cbn [owned].
  - congruence.
  - intros (coll & x & H1 & H2 & <-) (coll' & x' & H1' & H2' & <-). unfold exp_at in *. rewrite H2 in H2'. injection H2' as <-.
    rewrite <- (members_ok _ _ _ H1 H2), <- (members_ok _ _ _ H1' H2). reflexivity.
  - intros (coll & e & x & H1 & H2 & H3 & <-) (coll' & e' & x' & H1' & H2' & H3' & <-). eapply seqs_ok; eauto.
  - contradiction.
Qed.

Definition acc_ok (t : nat) (x : mev) : Prop :=
  match x with
  | MRead PlReporter => True
  | MRead p | MWrite p => owned t p
  | _ => True
  end.

Context (c : cworld) (c_static : static c0 c).

Lemma static_owned_seq t coll e x q : listed c0 coll e -> exp_at (cw c) e x -> owner coll = t -> In q (map fst (c_seqs (ctl_of x))) -> owned t (PlSeq q).
Proof.
  intros Hl Hx Ho Hq. destruct c_static as (_ & _ & H). destruct (H e x Hx) as (x0 & Hx0 & _ & E). exists coll, e, x0. rewrite E. auto.
Qed.
Lemma static_owned_count t coll e x : listed c0 coll e -> exp_at (cw c) e x -> owner coll = t -> owned t (PlCount e).
Proof. intros Hl Hx Ho. destruct c_static as (_ & _ & H). destruct (H e x Hx) as (x0 & Hx0 & _ & E). exists coll, x0. auto. Qed.

Lemma reads_ok t coll e x : listed c0 coll e -> exp_at (cw c) e x -> owner coll = t -> Forall (acc_ok t) (reads_seqs (ctl_of x)).
Proof.
  intros. apply Forall_forall. intros y Hy. unfold reads_seqs in Hy. apply in_map_iff in Hy. destruct Hy as ([q id] & <- & Hq).
  eapply static_owned_seq; eauto. apply in_map_iff. exists (q, id). auto.
Qed.
Lemma writes_ok t coll e x : listed c0 coll e -> exp_at (cw c) e x -> owner coll = t -> Forall (acc_ok t) (writes_seqs (ctl_of x)).
Proof.
  intros. apply Forall_forall. intros y Hy. unfold writes_seqs in Hy. apply in_map_iff in Hy. destruct Hy as ([q id] & <- & Hq).
  eapply static_owned_seq; eauto. apply in_map_iff. exists (q, id). auto.
Qed.
Lemma state_ok t coll e x : listed c0 coll e -> exp_at (cw c) e x -> owner coll = t -> Forall (acc_ok t) (state_events e (ctl_of x)).
Proof.
  intros H1 H2 H3. unfold state_events. constructor; [cbn [acc_ok]; eapply static_owned_count; eauto|].
  destruct (_ =? _)%Z; [constructor|eapply reads_ok; eauto].
Qed.
Lemma describe_ok t e ps : forall i, Forall (acc_ok t) (describe_events e i ps).
Proof.
  induction ps as [|p ps IH]; intros i; cbn [describe_events]; [constructor|]. apply Forall_app. split.
  - destruct (is_arg p); forall_list; exact Logic.I.
  - destruct (policy_describe p); forall_list; auto.
Qed.
Lemma policies_ok t e ci ps : forall i, Forall (acc_ok t) (policy_events e i ps ci).
Proof.
  induction ps as [|p ps IH]; intros i; cbn [policy_events]; [constructor|]. apply Forall_app. split.
  - destruct (is_arg p); forall_list; exact Logic.I.
  - destruct (policy_matches p ci); [|constructor|constructor|constructor]. apply Forall_app. split.
    + destruct (is_arg p); forall_list; exact Logic.I.
    + destruct (policy_describe p); forall_list; auto.
Qed.
Lemma deliver_ok t k : Forall (acc_ok t) (deliver k).
Proof. unfold deliver. forall_list; exact Logic.I. Qed.

Lemma visit_ok t coll e x ss ci : listed c0 coll e -> exp_at (cw c) e x -> owner coll = t -> Forall (acc_ok t) (visit_events ss ci (e, eo_exp x)).
Proof.
  intros H1 H2 H3. unfold visit_events. apply Forall_app; split; [eapply (state_ok t coll e x); eauto|]. apply Forall_app; split; [apply policies_ok|].
  destruct (exp_matches _ _ _); [constructor| |constructor|constructor]. apply Forall_app. split.
  - unfold report_events. apply Forall_app; split; [eapply (state_ok t coll e x); eauto|apply describe_ok].
  - destruct (exp_report_of _ _); [apply deliver_ok|constructor|constructor|constructor].
Qed.

Lemma call_events_ok release t a :
  call_step a = true ->
  (forall m ov args l coll, a = AMatch m ov args l -> uses_coll c0 m ov coll -> owner coll = t) ->
  (forall e, pending_exp c t e -> exists coll, listed c0 coll e /\ owner coll = t) ->
  Forall (acc_ok t) (ev_of release c t a).
Proof.
  intros Ha Hm Hp. destruct c_static as (Hcl & Hmk & Hex). unfold ev_of. destruct (nth_error (c_threads c) t) as [th|] eqn:Hth; [|constructor].
  destruct (t_pending th) as [[[n ci] ne]|] eqn:Hpe, a as [o|m ov args l|]; try constructor.
  - cbn [w_exps enter set_uncaught set_frames]. destruct (nth_error (w_exps (cw c)) n) as [x|] eqn:Hx; [|constructor].
    destruct (Hp n) as (coll & Hl & Ho); [exists th, ci, ne; auto|]. unfold count_events.
    apply Forall_app; split; [|apply Forall_app; split; [|apply Forall_app; split]].
    + destruct release; [constructor|]. constructor; [eapply static_owned_count; eauto|]. eapply (reads_ok t coll n x); eauto.
    + eapply (writes_ok t coll n x); eauto.
    + repeat (constructor; [eapply static_owned_count; eauto|]). constructor.
    + destruct (_ || _); [|constructor]. eapply (writes_ok t coll n x); eauto.
  - destruct (is_call o); [constructor|]. destruct o; try discriminate; cbn [op_events]; forall_list; exact Logic.I.
  - destruct (find_overload (enter (cw c) th) m ov) as [?|[s coll]] eqn:Hf; [constructor|]. cbv zeta. cbn [w_colls enter set_uncaught set_frames].
    destruct (nth_error (w_colls (cw c)) coll) as [lst|] eqn:Hlst; [|constructor].
    assert (Ho : owner coll = t).
    { apply (Hm m ov args l coll eq_refl). exists s. unfold find_overload in *. cbn [enter w_mocks set_uncaught set_frames] in Hf. rewrite Hmk in Hf. exact Hf. }
    destruct (lookup_exps _ (rev lst)) as [es|] eqn:Hes; [|constructor].
    unfold match_events. apply Forall_app; split; [|apply Forall_app; split; [|apply Forall_app; split]].
    + forall_list; [exact Logic.I|exact Ho].
    + apply Forall_forall. intros y Hy. apply in_flat_map in Hy. destruct Hy as ([e ex] & Hin & Hy).
      destruct (lookup_exps_spec _ _ _ Hes) as [Hfst Hlk]. destruct (Hlk _ _ Hin) as (eo & He & ->).
      assert (Hli : listed c0 coll e).
      { exists lst. rewrite <- Hcl. split; auto. apply in_rev. rewrite <- Hfst. apply in_map_iff. exists (e, eo_exp eo). auto. }
      pose proof (visit_ok t coll e eo (w_seqs (set_uncaught (set_frames (cw c) (t_frames th)) (t_uncaught th)))
        (mkCall (sg_ret s) (sg_params s) args (frontend_category s) (frontend_constness s) l) Hli He Ho) as HF. rewrite Forall_forall in HF. apply HF. exact Hy.
    + forall_list; exact Logic.I.
    + destruct (outcome_of _ _ _); [apply deliver_ok|constructor].
Qed.
End Disjoint.

Lemma events_acc_ok owner c0 release acts : 
  (forall t a, In (t, a) acts -> call_step a = true) ->
  (forall t m ov args l coll, In (t, AMatch m ov args l) acts -> uses_coll c0 m ov coll -> owner coll = t) ->
  forall c, static c0 c -> (forall t e, pending_exp c t e -> exists coll, listed c0 coll e /\ owner coll = t) ->
  Forall (fun '(t, x) => acc_ok owner c0 t x) (events release c acts).
Proof.
  induction acts as [|[t a] acts IH]; intros Ha Hm c Hst Hp; cbn [events]; [constructor|]. apply Forall_app. split.
  - apply Forall_forall. intros y Hy. apply in_map_iff in Hy. destruct Hy as (x & <- & Hx).
    assert (HF : Forall (acc_ok owner c0 t) (ev_of release c t a)).
    { apply call_events_ok; auto.
      - apply (Ha t). left. reflexivity.
      - intros m ov args l coll -> Hu. eapply (Hm t m ov args l); eauto. left. reflexivity. }
    rewrite Forall_forall in HF. auto.
  - destruct (cstep release c t a) as [c1 r| | |] eqn:Hs; try constructor. apply IH.
    + intros t' a' Hin. apply (Ha t'). right. auto.
    + intros t' m ov args l coll Hin. apply (Hm t' m ov args l coll). right. auto.
    + eapply static_trans; [exact Hst|]. eapply call_step_static; eauto. apply (Ha t). left. reflexivity.
    + intros t' e Hpe. destruct (Nat.eq_dec t' t) as [->|Hne].
      * (* the thread which made the step *)
        destruct a as [o|m ov args l|].
        -- exfalso. destruct Hpe as (th' & ci & ne & Hth' & Hp'). unfold cstep in Hs. destruct (nth_error (c_threads c) t) as [th|] eqn:Hth; [|discriminate].
           destruct (t_pending th); [destruct p as [[? ?] ?]; discriminate|]. destruct (is_call o); [discriminate|].
           destruct (step _ o); cbn [embed] in Hs; try discriminate. injection Hs as <- _. rewrite (leave_thread _ _ _ _ _ _ Hth) in Hth'.
           injection Hth' as <-. discriminate.
        -- pose proof (cstep_match _ _ _ _ _ _ _ _ _ Hs) as (th & s & coll & _ & _ & Hf & _). destruct Hst as (Hcl & Hmk & _).
           assert (Hu0 : uses_coll c0 m ov coll).
           { exists s. unfold find_overload in *. cbn [enter w_mocks set_uncaught set_frames] in Hf. rewrite Hmk in Hf. exact Hf. }
           exists coll. split.
           ++ destruct (match_pending _ _ _ _ _ _ _ _ _ e coll Hs Hpe) as (lst & H1 & H2).
              { exists s. unfold find_overload in *. exact Hf. }
              exists lst. rewrite <- Hcl. auto.
           ++ eapply (Hm t m ov args l); eauto. left. reflexivity.
        -- exfalso. destruct Hpe as (th' & ci & ne & Hth' & Hp'). unfold cstep in Hs. destruct (nth_error (c_threads c) t) as [th|] eqn:Hth; [|discriminate].
           destruct (t_pending th) as [[[n ci'] ne']|]; [|discriminate]. destruct (count_call _ _ _ _ _); cbn [embed] in Hs; try discriminate.
           injection Hs as <- _. rewrite (leave_thread _ _ _ _ _ _ Hth) in Hth'. injection Hth' as <-. discriminate.
      * apply Hp. destruct Hpe as (th' & ci & ne & Hth' & Hp'). exists th', ci, ne. split; auto. rewrite <- Hth'. symmetry. eapply cstep_other; eauto.
Qed.

(** Membership in collections. *)
Definition Members (c : cworld) : Prop := forall coll e, listed c coll e -> exists x, exp_at (cw c) e x /\ eo_coll x = coll.

Lemma members_init k : Members (cinit k).
Proof. intros coll e (l & Hl & _). destruct coll; discriminate. Qed.

Lemma members_op c t w p log o r th : Members c -> nth_error (c_threads c) t = Some th -> step (enter (cw c) th) o = Next w r -> is_call o = false ->
  Members (leave c t w p log).
Proof.
  intros M Hth Hs Ho. apply step_change in Hs. 
  assert (M' : forall coll e, (exists l, nth_error (w_colls (enter (cw c) th)) coll = Some l /\ In e l) -> exists x, exp_at (enter (cw c) th) e x /\ eo_coll x = coll).
  { exact M. }
  clear M. remember (enter (cw c) th) as v eqn:Hv. clear Hv.
  intros coll e (l & Hl & Hin). change (w_colls (cw (leave c t w p log))) with (w_colls w) in Hl. change (exists x, exp_at w e x /\ eo_coll x = coll).
  unfold exp_at in *. destruct Hs as [evs Hsq Hif Hsd Hex Hcl Htr Hq|st ->|s evs d' Ho' Hi Hrel ->|m ov ms cls l0 s coll0 b ss ctl members Ho' Hf Hlen Hcls Hb Hfo Hcn Hmem ->
    |m ov args l0 s coll0 lst es ml n mr first others eo ss ctl Ho'|e0 w1 eo l0 unf evs d' [sc ->] He Hl0 Hin0 Hrel -> Hcase].
  - rewrite Hex. destruct Hcl as [E|[k E]]; rewrite E in Hl; [apply M'; eauto|].
    destruct (Nat.lt_ge_cases coll (length (w_colls v))) as [Hlt|Hge].
    + rewrite nth_error_app1 in Hl by auto. apply M'; eauto.
    + rewrite nth_error_app2 in Hl by auto. apply nth_error_In in Hl. apply repeat_spec in Hl. subst. contradiction.
  - apply M'. eauto.
  - apply M'. exists l. split; auto.
  - cbn [new_world w_colls w_exps set_scoped set_colls set_exps set_seqs] in *. unfold new_world in *. cbn [w_colls w_exps set_scoped set_colls set_exps set_seqs] in *.
    apply nth_error_upd in Hl. destruct Hl as [(<- & _ & ->)|[Hne Hl]].
    + apply in_app_or in Hin. destruct Hin as [Hin|[<-|[]]].
      * destruct (M' coll0 e) as (x & Hx & E); [eauto|]. exists x. split; auto. apply nth_error_snoc_old; auto.
      * eexists. split; [apply nth_error_app_last|]. reflexivity.
    + destruct (M' coll e) as (x & Hx & E); [eauto|]. exists x. split; auto. apply nth_error_snoc_old; auto.
  - subst o. discriminate.
  - unfold kill in *. cbn [w_colls w_exps add_trace set_sdead set_scoped set_colls set_exps] in *.
    assert (Hsub : forall y l', In y (erase_first e0 l') -> In y l').
    { intros y l'. induction l' as [|z l' IH]; cbn [erase_first]; auto. destruct (e0 =? z); cbn; [auto|]. intros [->|H]; auto. }
    assert (Hold : exists x, nth_error (w_exps v) e = Some x /\ eo_coll x = coll).
    { apply nth_error_upd in Hl. destruct Hl as [(<- & _ & ->)|[Hne Hl]]; apply M'; eauto. }
    destruct Hold as (x & Hx & E). destruct (Nat.eq_dec e e0) as [->|Hne].
    + rewrite He in Hx. injection Hx as <-. eexists. split; [apply nth_error_upd_eq; eapply nth_error_lt; eauto|]. exact E.
    + exists x. rewrite nth_error_upd_neq by auto. auto.
Qed.

Lemma members_static c c' : (forall e x, exp_at (cw c) e x -> exists x', exp_at (cw c') e x' /\ eo_coll x' = eo_coll x) -> w_colls (cw c') = w_colls (cw c) ->
  Members c -> Members c'.
Proof.
  intros He Hc M coll e (l & Hl & Hin). rewrite Hc in Hl. destruct (M coll e) as (x & Hx & E); [exists l; auto|].
  destruct (He _ _ Hx) as (x' & Hx' & E'). exists x'. split; auto. congruence.
Qed.

Lemma members_step release c t a c' r : Members c -> cstep release c t a = CNext c' r -> Members c'.
Proof.
  intros M H. destruct a as [o|m ov args l|].
  - unfold cstep in H. destruct (nth_error (c_threads c) t) as [th|] eqn:Hth; [|discriminate].
    destruct (t_pending th) as [[[n ci] ne]|]; [discriminate|]. destruct (is_call o) eqn:Ho; [discriminate|].
    destruct (step (enter (cw c) th) o) as [v r0| | |] eqn:Hs; cbn [embed] in H; try discriminate. injection H as <- <-.
    eapply members_op; eauto.
  - apply match_over_core in H. destruct (core_fields _ _ H) as (_ & _ & _ & He & Hc & _). apply (members_static c c'); [|exact Hc|exact M].
    unfold exp_at. rewrite He. eauto.
  - pose proof (call_step_static _ _ _ _ _ _ (eq_refl : call_step ACount = true) H) as (Hcl & _ & Hback). apply (members_static c c'); [|exact Hcl|exact M].
    intros e x Hx. destruct (nth_error (w_exps (cw c')) e) as [x'|] eqn:Hx'.
    + destruct (Hback e x' Hx') as (y & Hy & E & _). unfold exp_at in *. rewrite Hx in Hy. injection Hy as <-. exists x'. auto.
    + exfalso. unfold cstep in H. destruct (nth_error (c_threads c) t) as [th|] eqn:Hth; [|discriminate].
      destruct (t_pending th) as [[[n ci] ne]|] eqn:Hp; [|discriminate].
      destruct (count_call release (enter (cw c) th) n ci ne) as [v r0| | |] eqn:Hcc; cbn [embed] in H; try discriminate. injection H as <- <-.
      change (w_exps (cw (leave c t v None (c_log c ++ [(t, n, ci)])))) with (w_exps v) in Hx'.
      unfold count_call in Hcc. cbn [w_exps w_seqs enter set_uncaught set_frames] in Hcc.
      destruct (nth_error (w_exps (cw c)) n) as [y|] eqn:Hy; [|discriminate].
      destruct (eo_alive y); [|discriminate]. cbn [negb] in Hcc.
      destruct (consume_with release (w_seqs (cw c)) (e_ctl (eo_exp y))) as [[ss ctl]|z| |u] eqn:Hcons; try discriminate.
      2:{ unfold thrown in Hcc. destruct ne; [discriminate|]. injection Hcc as <- _. unfold exp_at in Hx. cbn [w_exps enter set_uncaught set_frames] in Hx'. congruence. }
      destruct (consume_asserts (e_policies (eo_exp y)) ci) as [[]| | |]; try discriminate. injection Hcc as <- <-.
      cbn [w_exps set_uncaught set_frames set_exps set_seqs] in Hx'. apply nth_error_None in Hx'. rewrite length_upd in Hx'.
      apply nth_error_lt in Hx. cbn [w_exps enter set_uncaught set_frames] in Hx'. lia.
Qed.

Lemma members_run release c acts c' : cruns release c acts c' -> Members c -> Members c'.
Proof. induction 1; auto. intros M. apply IHcruns. eapply members_step; eauto. Qed.

Theorem disjoint_no_race release threads acts0 c owner acts :
  cruns release (cinit threads) acts0 c ->
  (forall t e, ~ pending_exp c t e) ->
  (forall t a, In (t, a) acts -> call_step a = true) ->
  (forall t m ov args l coll, In (t, AMatch m ov args l) acts -> uses_coll c m ov coll -> owner coll = t) ->
  (forall coll e x coll' e' x' q, listed c coll e -> exp_at (cw c) e x -> listed c coll' e' -> exp_at (cw c) e' x' ->
     In q (map fst (c_seqs (ctl_of x))) -> In q (map fst (c_seqs (ctl_of x'))) -> owner coll = owner coll') ->
  forall p, ~ race_on (events release c acts) p.
Proof.
  intros H0 Hnp Ha Hm Hq p (i & j & t & t' & x & y & Hi & Hj & Hne & Hc & _).
  pose proof (members_run _ _ _ _ H0 (members_init threads)) as M.
  assert (HF : Forall (fun '(t, x) => acc_ok owner c t x) (events release c acts)).
  { apply events_acc_ok; auto; [apply static_refl|]. intros t0 e0 Hp. exfalso. eapply Hnp; eauto. }
  rewrite Forall_forall in HF. pose proof (HF _ (nth_error_In _ _ Hi)) as Hx. pose proof (HF _ (nth_error_In _ _ Hj)) as Hy. cbn beta iota in Hx, Hy.
  assert (Hok : owned owner c t p /\ owned owner c t' p).
  { destruct Hc as [[-> [-> | ->]]|[-> ->]]; destruct p; cbn [acc_ok owned] in *; tauto. }
  destruct Hok as [O1 O2]. apply Hne. eapply owned_once; [| |exact O1|exact O2].
  - intros coll e x0 Hl Hx0. destruct (M coll e Hl) as (x1 & Hx1 & E). unfold exp_at in *. rewrite Hx0 in Hx1. injection Hx1 as <-. exact E.
  - exact Hq.
Qed.

(** ** Two calls on different mocks *)

Lemma static_run release acts : forall c c', (forall t a, In (t, a) acts -> call_step a = true) -> cruns release c acts c' -> static c c'.
Proof.
  induction acts as [|[t a] acts IH]; intros c c' Ha H; inversion H; subst; [apply static_refl|].
  eapply static_trans; [eapply call_step_static; eauto; apply (Ha t); left; reflexivity|]. apply IH; auto. intros t' a' Hin. apply (Ha t'). right. auto.
Qed.

Lemma step_pending release c t a c1 r t' e : cstep release c t a = CNext c1 r -> pending_exp c1 t' e ->
  pending_exp c t' e \/ (t' = t /\ exists m ov args l coll, a = AMatch m ov args l /\ uses_coll c m ov coll /\ listed c coll e).
Proof.
  intros Hs Hpe. destruct (Nat.eq_dec t' t) as [->|Hne].
  - right. split; auto. destruct a as [o|m ov args l|].
    + exfalso. destruct Hpe as (th' & ci & ne & Hth' & Hp'). unfold cstep in Hs. destruct (nth_error (c_threads c) t) as [th|] eqn:Hth; [|discriminate].
      destruct (t_pending th); [destruct p as [[? ?] ?]; discriminate|]. destruct (is_call o); [discriminate|].
      destruct (step _ o); cbn [embed] in Hs; try discriminate. injection Hs as <- _. rewrite (leave_thread _ _ _ _ _ _ Hth) in Hth'.
      injection Hth' as <-. discriminate.
    + pose proof (cstep_match _ _ _ _ _ _ _ _ _ Hs) as (th & s & coll & _ & _ & Hf & _).
      assert (Hu : uses_coll c m ov coll) by (exists s; exact Hf). exists m, ov, args, l, coll. split; auto. split; auto. eapply match_pending; eauto.
    + exfalso. destruct Hpe as (th' & ci & ne & Hth' & Hp'). unfold cstep in Hs. destruct (nth_error (c_threads c) t) as [th|] eqn:Hth; [|discriminate].
      destruct (t_pending th) as [[[n ci'] ne']|]; [|discriminate]. destruct (count_call _ _ _ _ _); cbn [embed] in Hs; try discriminate.
      injection Hs as <- _. rewrite (leave_thread _ _ _ _ _ _ Hth) in Hth'. injection Hth' as <-. discriminate.
  - left. destruct Hpe as (th' & ci & ne & Hth' & Hp'). exists th', ci, ne. split; auto. rewrite <- Hth'. symmetry. eapply cstep_other; eauto.
Qed.

Lemma pend_run release c0 acts : forall c c', static c0 c -> (forall t a, In (t, a) acts -> call_step a = true) -> cruns release c acts c' ->
  forall t e, pending_exp c' t e ->
  pending_exp c t e \/ exists m ov args l coll, In (t, AMatch m ov args l) acts /\ uses_coll c0 m ov coll /\ listed c0 coll e.
Proof.
  induction acts as [|[t0 a] acts IH]; intros c c' Hst Ha H t e Hp; inversion H as [|? ? ? c1 r ? ? Hs Hr]; subst; auto.
  assert (Hst1 : static c0 c1) by (eapply static_trans; [exact Hst|]; eapply call_step_static; eauto; apply (Ha t0); left; reflexivity).
  destruct (IH c1 c' Hst1 (fun t' a' Hin => Ha t' a' (or_intror Hin)) Hr t e Hp) as [Hp1|(m & ov & args & l & coll & Hin & Hu & Hl)].
  - destruct (step_pending _ _ _ _ _ _ _ _ Hs Hp1) as [?|(-> & m & ov & args & l & coll & -> & Hu & Hl)]; auto.
    right. destruct Hst as (Hcl & Hmk & _). exists m, ov, args, l, coll. split; [left; reflexivity|]. split.
    + destruct Hu as [s Hu]. exists s. unfold find_overload in *. rewrite <- Hmk. exact Hu.
    + destruct Hl as (lst & H1 & H2). exists lst. rewrite <- Hcl. auto.
  - right. exists m, ov, args, l, coll. split; [right; auto|auto].
Qed.

Theorem shared_sequence_race release c acts1 c1 t e x c1' r acts2 c2 t' e' x' acts3 q :
  cruns release c acts1 c1 -> pending_exp c1 t e -> exp_at (cw c1) e x -> cstep release c1 t ACount = CNext c1' r ->
  cruns release c1' acts2 c2 -> pending_exp c2 t' e' -> exp_at (cw c2) e' x' -> t <> t' ->
  In q (map fst (c_seqs (ctl_of x))) -> In q (map fst (c_seqs (ctl_of x'))) ->
  (forall b, In (t, b) acts2 -> takes_lock b = false) \/ (forall b, In (t', b) acts2 -> takes_lock b = false) ->
  race_on (events release c (acts1 ++ (t, ACount) :: acts2 ++ (t', ACount) :: acts3)) (PlSeq q).
Proof.
  intros H1 Hp Hx Hs H2 Hp' Hx' Hne Hq Hq' Hl.
  eapply steps_race; [exact H1|exact Hs|exact H2|exact (proj2 (count_accesses release _ _ _ _ Hp Hx) q Hq)|
    exact (proj2 (count_accesses release _ _ _ _ Hp' Hx') q Hq')|exact Hne|left; auto|].
  destruct Hl as [Hl|Hl]; [left|right]; auto.
Qed.

Lemma interleaved_counts {A} (t1 t2 : nat) (x y c : A) acts : interleaved [(t1, x); (t1, c)] [(t2, y); (t2, c)] acts ->
  exists a b t t', acts = a ++ (t, c) :: b ++ [(t', c)] /\ ((t = t1 /\ t' = t2) \/ (t = t2 /\ t' = t1)) /\
    (forall z, In (t, z) b -> t1 = t2) /\ (forall z, In z a -> z = (t1, x) \/ z = (t2, y)) /\ (forall z, In z b -> z = (t1, x) \/ z = (t2, y)).
Proof.
  intros H.
  repeat match goal with H : interleaved _ _ _ |- _ => inversion H; clear H; subst end;
  match goal with
  | |- exists a b t t', [?m1; (?u, ?n1); ?m2; (?v, ?n2)] = _ /\ _ =>
      first [exists [m1], [m2], u, v; split; [reflexivity|]
            |exists [m1; (u, n1)], [], (fst m2), v; split; [reflexivity|]]
  end;
  (split; [auto|]); (split; [cbn; intuition congruence|]); split; cbn; intuition.
Qed.

Lemma in_interleaved {A} (l r s : list A) : interleaved l r s -> forall x, In x s <-> In x l \/ In x r.
Proof. induction 1 as [|y l r s H IH|y l r s H IH]; intros x; cbn [In]; [tauto| |]; rewrite IH; tauto. Qed.

Theorem two_mocks_race release c t1 m1 ov1 a1 l1 t2 m2 ov2 a2 l2 q c' acts :
  t1 <> t2 -> (forall t e, ~ pending_exp c t e) ->
  (forall coll e x, uses_coll c m1 ov1 coll \/ uses_coll c m2 ov2 coll -> listed c coll e -> exp_at (cw c) e x -> In q (map fst (c_seqs (ctl_of x)))) ->
  interleaved [(t1, AMatch m1 ov1 a1 l1); (t1, ACount)] [(t2, AMatch m2 ov2 a2 l2); (t2, ACount)] acts ->
  cruns release c acts c' -> race_on (events release c acts) (PlSeq q).
Proof.
  intros Hne Hnp Hq Hil Hr.
  assert (Hcalls : forall t a, In (t, a) acts -> call_step a = true).
  { intros t a Hin. apply (in_interleaved _ _ _ Hil) in Hin. destruct Hin as [[E|[E|[]]]|[E|[E|[]]]]; injection E as <- <-; reflexivity. }
  assert (Hm : forall t m ov args l, In (t, AMatch m ov args l) acts -> (m = m1 /\ ov = ov1) \/ (m = m2 /\ ov = ov2)).
  { intros t m ov args l Hin. apply (in_interleaved _ _ _ Hil) in Hin. destruct Hin as [[E|[E|[]]]|[E|[E|[]]]]; inversion E; auto. }
  destruct (interleaved_counts _ _ _ _ _ _ Hil) as (a & b & t & t' & E & Ht & Hb & Ha & Hbm). rewrite E in Hr, Hcalls, Hm.
  assert (Htt : t <> t') by (destruct Ht as [[-> ->]|[-> ->]]; auto).
  (* the expectation of a counting step *)
  assert (Hseq : forall pre ck tk e x, (forall z, In z pre -> In z (a ++ (t, ACount) :: b ++ [(t', ACount)])) -> cruns release c pre ck ->
            pending_exp ck tk e -> exp_at (cw ck) e x -> In q (map fst (c_seqs (ctl_of x)))).
  { intros pre ck tk e x Hpre Hrk Hp Hx.
    destruct (pend_run release c pre c ck (static_refl c) (fun t0 a0 Hin => Hcalls t0 a0 (Hpre _ Hin)) Hrk tk e Hp) as [Hp0|(m & ov & args & l & coll & Hin & Hu & Hl)].
    - exfalso. eapply Hnp; eauto.
    - destruct (static_run _ _ _ _ (fun t0 a0 Hin => Hcalls t0 a0 (Hpre _ Hin)) Hrk) as (_ & _ & Hback). destruct (Hback e x Hx) as (x0 & Hx0 & _ & Es). rewrite <- Es.
      eapply (Hq coll e x0); eauto. destruct (Hm _ _ _ _ _ (Hpre _ Hin)) as [[-> ->]|[-> ->]]; auto. }
  apply cruns_split in Hr. destruct Hr as (c1 & Hra & Hr). inversion Hr as [|? ? ? c1' r ? ? Hs Hr']; subst. apply cruns_split in Hr'.
  destruct Hr' as (c2 & Hrb & Hr''). inversion Hr'' as [|? ? ? c3 r3 ? ? Hs' Hr3]; subst.
  destruct (count_pending _ _ _ _ _ Hs) as (e & x & Hp & Hx). destruct (count_pending _ _ _ _ _ Hs') as (e' & x' & Hp' & Hx').
  eapply (shared_sequence_race release c a c1 t e x c1' r b c2 t' e' x' []); eauto.
  - eapply (Hseq a c1 t e); eauto. intros z Hz. apply in_or_app. auto.
  - eapply (Hseq (a ++ (t, ACount) :: b) c2 t' e'); eauto.
    + intros z Hz. apply in_app_or in Hz. apply in_or_app. destruct Hz as [Hz|[Hz|Hz]]; [left; auto|right; left; auto|right; right; apply in_or_app; auto].
    + clear - Hra Hs Hrb. revert Hra. generalize a. intros a0 Hra. induction Hra; cbn [app]; econstructor; eauto.
  - left. intros z Hz. exfalso. apply Hne. eapply Hb; eauto.
Qed.
