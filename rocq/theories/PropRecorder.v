(** * PropRecorder: C88, reporters with a state of their own. *)

From Verif Require Import Base Lib Sequence Control Signature Printer Reports Expectation Builder World WorldSpec StepCases MatchLemmas WorldInv CountProofs Scenario PropCounts
  Recorder RecorderProofs.

(** ** Specification *)

(** What the installed reporter is told by an operation, the number of exceptions in flight, and how it reacts. *)
Inductive conversation {R} (rp : recorder R) (i : nat) : R -> list (report * nat * reaction) -> R -> Prop :=
| conv_nil z : conversation rp i z [] z
| conv_cons z r n a z1 qs z2 : rp i r n z = (a, z1) -> conversation rp i z1 qs z2 -> conversation rp i z ((r, n, a) :: qs) z2.

(** The reports of a history. *)
Definition told (t : list event) : list (nat * report) := flat_map (fun ev => match ev with EvReport i r _ => [(i, r)] | _ => [] end) t.

(** A history without the identities and installations of reporters. *)
Definition forget (t : list event) : list event :=
  flat_map (fun ev => match ev with EvReport _ r who => [EvReport 0 r who] | EvInstall _ => [] | _ => [ev] end) t.

(** The same sequences, expectations, mocks, handles, running calls and events; perhaps another reporter. *)
Definition alike (w w' : world) : Prop :=
  w_seqs w = w_seqs w' /\ w_iface w = w_iface w' /\ w_sdead w = w_sdead w' /\ w_exps w = w_exps w' /\ w_colls w = w_colls w' /\ w_mocks w = w_mocks w' /\
  w_scoped w = w_scoped w' /\ w_frames w = w_frames w' /\ w_uncaught w = w_uncaught w' /\ forget (w_trace w) = forget (w_trace w').

Definition installs (o : op) : bool := match o with OInstall _ => true | _ => false end.

(** ** Reporters without a state *)

Section Conservative.
Context {R : Type}.

Lemma attempt_plain (f : reporter) un ss e c (z : R) : r_make_match_report (fun r z => (f r un, z)) ss e c z = (make_match_report f un ss e c, z).
Proof.
  unfold r_make_match_report, make_match_report. destruct (exp_matches ss e c) as [m|x| |b]; auto. destruct (exp_report_of ss e) as [r|y| |b]; cbn [obind noexcept_of]; auto.
  destruct (f _ un); reflexivity.
Qed.
Lemma loop_plain (f : reporter) un ss c es (z : R) : forall acc, r_match_loop (fun r z => (f r un, z)) ss c es acc z = (match_loop f un ss c es acc, z).
Proof.
  induction es as [|[n e] es IH]; intros acc; cbn [r_match_loop match_loop]; [reflexivity|]. rewrite attempt_plain. destruct (make_match_report f un ss e c) as [[m|r x]|y| |b]; cbn [obind]; auto.
Qed.
Lemma release_plain (rp : recorder R) (f : reporter) w s z : (forall i r n z, rp i r n z = (f r n, z)) -> w_reporter w = f ->
  r_release_seq rp w s z = (release_seq w s, z) /\ (forall w1 r, release_seq w s = Next w1 r -> w_reporter w1 = f).
Proof.
  intros Hrp Hf. unfold r_release_seq, release_seq. destruct (seq_in_use w s || nth s (w_sdead w) true); [split; [reflexivity|]; intros w1 r [= <- _]; auto|].
  destruct (nth_error (w_seqs w) s) as [q|]; [|split; [reflexivity|discriminate]]. destruct (seq_dtor_error q) as [[k n]|]; [|split; [reflexivity|]; intros w1 r [= <- _]; auto].
  unfold r_react, react. cbn [set_sdead w_uncaught w_reporter]. rewrite Hrp, Hf. destruct (f (RError k n) (w_uncaught w)); (split; [reflexivity|]); try discriminate.
  intros w1 r [= <- _]; auto.
Qed.
Lemma releases_plain (rp : recorder R) (f : reporter) l : (forall i r n z, rp i r n z = (f r n, z)) -> forall w z, w_reporter w = f ->
  r_release_seqs rp w l z = (release_seqs w l, z).
Proof.
  intros Hrp. induction l as [|s l IH]; intros w z Hf; cbn [r_release_seqs release_seqs]; [reflexivity|]. destruct (release_plain rp f w s z Hrp Hf) as [-> Hn].
  destruct (release_seq w s) as [w1 r| |b|]; auto. apply IH. eapply Hn; eauto.
Qed.
Lemma end_plain (rp : recorder R) (f : reporter) w e z : (forall i r n z, rp i r n z = (f r n, z)) -> w_reporter w = f ->
  r_end_expectation rp w e z = (end_expectation w e, z).
Proof.
  intros Hrp Hf. unfold r_end_expectation, end_expectation. destruct (nth_error (w_exps w) e) as [eo|]; [|reflexivity]. destruct (nth_error (w_colls w) (eo_coll eo)) as [l|]; [|reflexivity].
  destruct (negb _); [reflexivity|]. cbv zeta. destruct (exp_is_satisfied (eo_exp eo)); [apply (releases_plain rp f); auto|].
  destruct (exp_report_of (w_seqs w) (eo_exp eo)) as [r|x| |b]; try reflexivity.
  - unfold r_react, react. cbn [set_colls w_uncaught w_reporter]. rewrite Hrp, Hf. destruct (f (RUnfulfilled r) (w_uncaught w)); [|rewrite (releases_plain rp f) by auto|reflexivity].
    + apply (releases_plain rp f); auto.
    + destruct (release_seqs _ _); reflexivity.
  - rewrite (releases_plain rp f) by auto. destruct (release_seqs _ _); reflexivity.
Qed.

Theorem C88_conservative (rp : recorder R) w z o : (forall i r n z, rp i r n z = (w_reporter w r n, z)) -> r_step rp w z o = (step w o, z).
Proof.
  intros Hrp. destruct o; try reflexivity; cbn [r_step step].
  - destruct (nth s (w_iface w) false); [|reflexivity]. destruct (release_plain rp (w_reporter w) (set_iface w (upd (w_iface w) s false)) s z Hrp eq_refl) as [-> _]. reflexivity.
  - unfold r_do_call, do_call. destruct (find_overload w m ov) as [r|[s coll]]; [reflexivity|]. destruct (negb _); [reflexivity|].
    unfold r_handle_call, handle_call. destruct (nth_error (w_colls w) coll) as [lst|]; [|reflexivity]. destruct (lookup_exps w (rev lst)) as [es|]; [|reflexivity].
    assert (E : forall c acc z, r_match_loop (r_react rp w) (w_seqs w) c es acc z = (match_loop (w_reporter w) (w_uncaught w) (w_seqs w) c es acc, z)).
    { intros c acc z0. rewrite <- loop_plain. revert acc z0. unfold r_react. induction es as [|[n e] es IH]; intros acc z0; cbn [r_match_loop]; [reflexivity|].
      assert (A : r_make_match_report (fun r z => rp (w_rid w) r (w_uncaught w) z) (w_seqs w) e c z0 = r_make_match_report (fun r z => (w_reporter w r (w_uncaught w), z)) (w_seqs w) e c z0).
      { unfold r_make_match_report. destruct (exp_matches (w_seqs w) e c); auto. destruct (exp_report_of (w_seqs w) e); auto. rewrite Hrp. reflexivity. }
      rewrite A. clear A. destruct (r_make_match_report _ (w_seqs w) e c z0) as [[[m0|r x]|y| |b] z1]; auto. }
    rewrite E. destruct (match_loop _ _ _ _ _ _) as [ml|x| |b]; try reflexivity. cbv zeta. rewrite emit_unhandled_add. unfold react.
    destruct (ml_full ml) as [|first others].
    + unfold r_react. rewrite Hrp. cbn [add_trace w_reporter w_uncaught]. destruct (w_reporter w _ _); reflexivity.
    + destruct (pick_best first others) as [[n mr]|x| |b]; try reflexivity. unfold r_react. rewrite Hrp. cbn [add_trace w_reporter w_uncaught].
      destruct (w_reporter w _ _); try reflexivity. destruct (nth_error _ n) as [eo|]; [|reflexivity]. destruct (control_consume _ _) as [[ss ctl]|x| |b]; try reflexivity.
      destruct (consume_asserts _ _); reflexivity.
  - destruct (nth_error (w_scoped w) h) as [[e| |]|]; try reflexivity. apply (end_plain rp (w_reporter w)); auto.
  - destruct (nth_error (w_scoped w) dst) as [old|], (nth_error (w_scoped w) src) as [x|]; try (destruct old; reflexivity); [|destruct x; reflexivity|reflexivity].
    destruct old as [e| |], x; try reflexivity; destruct (dst =? src); try reflexivity; rewrite (end_plain rp (w_reporter w)) by auto; destruct (end_expectation _ e) as [w2 []| | |]; reflexivity.
Qed.
End Conservative.
Print Assumptions C88_conservative.

(** ** Every operation is one of a reporter without a state *)

Definition with_reporter (f : reporter) (w : world) : world :=
  mkWorld (w_seqs w) (w_iface w) (w_sdead w) (w_exps w) (w_colls w) (w_mocks w) (w_scoped w) (w_frames w) (w_rid w) f (w_uncaught w) (w_trace w).
Definition same_step (s s' : stepped) : Prop :=
  match s, s' with
  | Next w r, Next w' r' => (exists f, w' = with_reporter f w) /\ r = r'
  | _, _ => s = s'
  end.

Theorem C88_as_if_frozen {R} (rp : recorder R) w z o : exists f, same_step (fst (r_step rp w z o)) (step (with_reporter f w) o).
Proof.
  destruct (step_frozen rp eq eq (fun i i' t t' r who (H : i = i') (H1 : t = t') => f_equal2 (fun t i => t ++ [EvReport i r who]) H1 H)
    (fun t t' e n (H : t = t') => f_equal (fun t => t ++ [EvAction e n]) H) (fun t t' e (H : t = t') => f_equal (fun t => t ++ [EvFinal e]) H)
    (fun i i' t t' (H : i = i') (H1 : t = t') => conj (f_equal S H) (f_equal2 (fun t i => t ++ [EvInstall (S i)]) H1 H)) w z o) as [f H].
  exists f. specialize (H (w_rid w) (w_trace w) eq_refl eq_refl). change (dress w (w_rid w) f (w_trace w)) with (with_reporter f w) in H.
  unfold ssim, same_step in *. destruct (fst (r_step rp w z o)) as [w1 r1| |b|], (step (with_reporter f w) o) as [w2 r2| |b2|]; try contradiction; auto.
  - destruct H as [(i & g & t & -> & <- & <-) ->]. split; auto. exists g. reflexivity.
  - congruence.
Qed.
Print Assumptions C88_as_if_frozen.

(** ** Every program is one with other installations of reporters *)

Lemma forget_app t t' : forget (t ++ t') = forget t ++ forget t'.
Proof. apply flat_map_app. Qed.

Lemma rrun_run {R} (rp : recorder R) w z ops w2 z2 : rrun rp w z ops w2 z2 -> forall ops0 w', run init ops0 w' -> alike w w' ->
  exists ops' w2', run init (ops0 ++ ops') w2' /\ alike w2 w2' /\ filter (fun o => negb (installs o)) ops' = filter (fun o => negb (installs o)) ops.
Proof.
  induction 1 as [w z|w z o w1 r z1 ops w2 z2 Hs H IH|w z z1 ops w2 z2 H IH]; intros ops0 w' Hrun Ha.
  { exists [], w'. rewrite app_nil_r. auto. }
  2:{ eapply IH; eauto. }
  destruct (step_frozen rp (fun _ _ => True) (fun t t' => forget t = forget t')) with (w := w) (z := z) (o := o) as [f Hf].
  { intros i i' t t' r0 who _ E. rewrite !forget_app, E. reflexivity. }
  { intros t t' e n E. rewrite !forget_app, E. reflexivity. }
  { intros t t' e E. rewrite !forget_app, E. reflexivity. }
  { intros i i' t t' _ E. split; auto. rewrite !forget_app, E. reflexivity. }
  set (t' := w_trace w' ++ [EvInstall (S (w_rid w'))]).
  assert (Hi : step w' (OInstall f) = Next (dress w (S (w_rid w')) f t') RUnit).
  { destruct Ha as (A1 & A2 & A3 & A4 & A5 & A6 & A7 & A8 & A9 & A10). cbn [step]. unfold dress, t'. rewrite A1, A2, A3, A4, A5, A6, A7, A8, A9. reflexivity. }
  assert (Ht : forget (w_trace w) = forget t').
  { destruct Ha as (_ & _ & _ & _ & _ & _ & _ & _ & _ & E). unfold t'. rewrite forget_app, E. cbn. rewrite app_nil_r. reflexivity. }
  specialize (Hf (S (w_rid w')) t' Logic.I Ht). rewrite Hs in Hf. cbn [fst] in Hf.
  destruct (step (dress w (S (w_rid w')) f t') o) as [w1' r1'| | |] eqn:Es; cbn [ssim] in Hf; try contradiction.
  destruct Hf as [(i & g & t & -> & _ & Ht1) ->].
  destruct (IH (ops0 ++ [OInstall f; o]) (dress w1 i g t)) as (ops' & w2' & R1 & R2 & R3).
  - eapply run_app; eauto. econstructor; eauto. econstructor; eauto. constructor.
  - repeat (split; [reflexivity|]). exact Ht1.
  - exists (OInstall f :: o :: ops'), w2'. rewrite <- app_assoc in R1. split; auto. split; auto. cbn [filter installs negb]. destruct (negb (installs o)); congruence.
Qed.

Theorem C88_as_another_program {R} (rp : recorder R) z ops w z' : rrun rp init z ops w z' ->
  exists ops' w', run init ops' w' /\ alike w w' /\ filter (fun o => negb (installs o)) ops' = filter (fun o => negb (installs o)) ops.
Proof. intros H. apply (rrun_run rp _ _ _ _ _ H [] init); [constructor|]. repeat (split; [reflexivity|]). reflexivity. Qed.
Print Assumptions C88_as_another_program.

(** Whatever holds in all reachable states and does not mention the reporter, holds here. *)
Theorem C88_transfer {R} (P : world -> Prop) : (forall w w', alike w w' -> P w' -> P w) -> (forall w, reachable w -> P w) ->
  forall (rp : recorder R) z ops w z', rrun rp init z ops w z' -> P w.
Proof. intros Ha Hp rp z ops w z' H. destruct (C88_as_another_program rp z ops w z' H) as (ops' & w' & R1 & R2 & _). apply (Ha w w' R2), Hp. exists ops'. exact R1. Qed.
Print Assumptions C88_transfer.

Lemma accepted_forget e t : accepted (forget t) e = accepted t e.
Proof.
  unfold accepted. induction t as [|ev t IH]; [reflexivity|]. change (ev :: t) with ([ev] ++ t). rewrite forget_app, !filter_app, !app_length, IH. f_equal.
  destruct ev as [i r who| | |]; try reflexivity. cbn. destruct r; try reflexivity. destruct (list_eq_dec Nat.eq_dec who [e]); reflexivity.
Qed.
Lemma accepted_alike w w' e : alike w w' -> accepted (w_trace w) e = accepted (w_trace w') e.
Proof. intros (_ & _ & _ & _ & _ & _ & _ & _ & _ & E). rewrite <- accepted_forget, E, accepted_forget. reflexivity. Qed.

Theorem C88_limits {R} (rp : recorder R) z ops w z' e x : rrun rp init z ops w z' -> exp_at w e x -> (Z.of_nat (accepted (w_trace w) e) <= x_max x)%Z.
Proof.
  intros H Hx. revert e x Hx. pattern w. revert rp z ops w z' H. apply C88_transfer.
  - intros w w' Ha Hw e x Hx. rewrite (accepted_alike w w' e Ha). apply Hw. destruct Ha as (_ & _ & _ & E & _). unfold exp_at in *. congruence.
  - intros w Hw e x Hx. apply C01_max_never_exceeded; auto.
Qed.
Print Assumptions C88_limits.

(** ** What the reporter is told *)

Section Told.
Context {R : Type} (rp : recorder R).

Lemma conv_app i z qs z1 qs' z2 : conversation rp i z qs z1 -> conversation rp i z1 qs' z2 -> conversation rp i z (qs ++ qs') z2.
Proof. induction 1; cbn [app]; auto. intros H2. econstructor; eauto. Qed.
Lemma conv_one i z r n a z1 : rp i r n z = (a, z1) -> conversation rp i z [(r, n, a)] z1.
Proof. intros H. econstructor; eauto. constructor. Qed.
Lemma told_app t t' : told (t ++ t') = told t ++ told t'.
Proof. apply flat_map_app. Qed.

(** The questions of the matching loop. *)
Definition question (un : nat) (c : call_info) (q : nat * (exp_report * exn)) : report * nat * reaction :=
  (RUnhandled (make_call_report c) (fst (snd q)) (snd (snd q)), un, Returns).

Lemma loop_conv w ss c es : forall acc z,
  let '(o, z1) := r_match_loop (r_react rp w) ss c es acc z in
  (forall x, o <> Throw x) /\
  exists qs, conversation rp (w_rid w) z qs z1 /\
    match o with Ret ml => exists unh, ml_unhandled ml = ml_unhandled acc ++ unh /\ qs = map (question (w_uncaught w) c) unh | _ => True end.
Proof.
  induction es as [|[n e] es IH]; intros acc z; cbn [r_match_loop].
  { split; [discriminate|]. exists []. split; [constructor|]. exists []. rewrite app_nil_r. auto. }
  pose proof (attempt_frozen (r_react rp w) ss e c z (w_reporter w) (w_uncaught w)) as H.
  destruct (r_make_match_report (r_react rp w) ss e c z) as [[[m|r x]|y| |b] z1].
  - destruct H as [_ ->].
    match goal with |- context [r_match_loop (r_react rp w) ss c es ?acc1 z] => specialize (IH acc1 z); destruct (r_match_loop (r_react rp w) ss c es acc1 z) as [o z2] end.
    destruct IH as (Ht & qs & H1 & H2). split; auto. exists qs. split; auto. destruct o; auto. destruct H2 as (unh & E1 & E2). exists unh. split; auto. rewrite E1. destruct (evaluate_match_report m); reflexivity.
  - destruct H as [H _].
    match goal with |- context [r_match_loop (r_react rp w) ss c es ?acc1 z1] => specialize (IH acc1 z1); destruct (r_match_loop (r_react rp w) ss c es acc1 z1) as [o z2] end.
    destruct IH as (Ht & qs & H1 & H2). split; auto. exists (question (w_uncaught w) c (n, (r, x)) :: qs). split; [econstructor; eauto|]. destruct o; auto.
    destruct H2 as (unh & E1 & ->). exists ((n, (r, x)) :: unh). split; auto. rewrite E1. cbn [ml_unhandled]. rewrite <- app_assoc. reflexivity.
  - exfalso. destruct H as [H _]. unfold make_match_report in H. eapply noexcept_nothrow; eauto.
  - split; [discriminate|]. destruct H as [[_ ->]|(r & x & a & E & _ & _)]; [exists []; split; auto; constructor|]. exists [(RUnhandled (make_call_report c) r x, w_uncaught w, a)].
    split; auto. apply conv_one. exact E.
  - split; [discriminate|]. destruct H as [_ ->]. exists []. split; auto. constructor.
Qed.

(** Reports of an operation: every one delivered once, in this order, to the installed reporter. *)
Definition heard_by (w : world) (z : R) (s : stepped) (z' : R) : Prop :=
  exists qs, conversation rp (w_rid w) z qs z' /\
    match s with
    | Next w' r => exists evs, w_trace w' = w_trace w ++ evs /\ told evs = map (fun q => (w_rid w, fst (fst q))) qs /\
        (forall q n a, In (q, n, a) qs -> a = Returns \/ a = Throws /\ r = RThrow EReporter) /\
        (forall q n a, In (q, n, a) qs -> n = w_uncaught w \/ n = S (w_uncaught w) /\ (exists x, r = RThrow x) /\ exists k m, q = RError k m)
    | _ => True
    end.

Lemma heard_none w z w' r : w_trace w' = w_trace w -> heard_by w z (Next w' r) z.
Proof. intros E. exists []. split; [constructor|]. exists []. rewrite app_nil_r. split; auto. split; auto. split; intros ? ? ? []. Qed.
Lemma heard_not w z s : (forall w' r, s <> Next w' r) -> heard_by w z s z.
Proof. intros H. exists []. split; [constructor|]. destruct s; auto. exfalso. eapply H; eauto. Qed.

Lemma told_unhandled i c un unh : told (map (unhandled_event i c) unh) = map (fun q => (i, fst (fst q))) (map (question un c) unh).
Proof. induction unh as [|[n [r x]] unh IH]; [reflexivity|]. cbn. f_equal. exact IH. Qed.

Lemma call_heard w coll c ne z : let '(s, z') := r_handle_call rp w coll c ne z in heard_by w z s z'.
Proof.
  unfold r_handle_call. destruct (nth_error (w_colls w) coll) as [l|]; [|apply heard_not; discriminate]. destruct (lookup_exps w (rev l)) as [es|]; [|apply heard_not; discriminate].
  pose proof (loop_conv w (w_seqs w) c es lists0 z) as H. fold lists0. destruct (r_match_loop (r_react rp w) (w_seqs w) c es lists0 z) as [[ml|x| |b] z1]; destruct H as (Ht & qs & H1 & H2).
  2: exfalso; eapply Ht; eauto.
  2-3: exists qs; auto.
  destruct H2 as (unh & E1 & ->). cbn [lists0 ml_unhandled app] in E1. rewrite emit_unhandled_add, E1.
  assert (Q1 : forall q n a, In (q, n, a) (map (question (w_uncaught w) c) unh) -> a = Returns /\ n = w_uncaught w).
  { intros q n a Hq. apply in_map_iff in Hq. destruct Hq as (u & E & _). unfold question in E. inversion E; auto. }
  assert (One : forall rep a z2 w' r who, rp (w_rid w) rep (w_uncaught w) z1 = (a, z2) -> w_trace w' = w_trace w ++ map (unhandled_event (w_rid w) c) unh ++ [EvReport (w_rid w) rep who] ->
    (a = Returns \/ a = Throws /\ r = RThrow EReporter) -> heard_by w z (Next w' r) z2).
  { intros rep a z2 w' r who Hr Et Ha. exists (map (question (w_uncaught w) c) unh ++ [(rep, w_uncaught w, a)]). split; [eapply conv_app; eauto; apply conv_one; auto|].
    eexists. split; [exact Et|]. split; [rewrite told_app, map_app, <- told_unhandled; reflexivity|].
    split; intros q n a0 Hq; apply in_app_iff in Hq; destruct Hq as [Hq|[Hq|[]]]; [left; eapply Q1; eauto|inversion Hq; subst; auto|left; eapply Q1; eauto|inversion Hq; subst; auto]. }
  assert (Non : forall rep a z2 s, rp (w_rid w) rep (w_uncaught w) z1 = (a, z2) -> (forall w' r, s <> Next w' r) -> heard_by w z s z2).
  { intros rep a z2 s Hr Hs. exists (map (question (w_uncaught w) c) unh ++ [(rep, w_uncaught w, a)]). split; [eapply conv_app; eauto; apply conv_one; auto|]. destruct s; auto. exfalso. eapply Hs; eauto. }
  assert (Zero : forall s, (forall w' r, s = Next w' r -> w_trace w' = w_trace w ++ map (unhandled_event (w_rid w) c) unh) -> heard_by w z s z1).
  { intros s Hs. eexists. split; [exact H1|]. destruct s as [w' r| | |]; auto. eexists. split; [apply (Hs w' r); auto|]. split; [apply told_unhandled|].
    split; intros q n a Hq; left; eapply Q1; eauto. }
  unfold r_react. cbn [add_trace w_rid w_uncaught]. destruct (ml_full ml) as [|first others].
  - set (rep := match ml_inapplicable ml with [] => _ | _ => _ end). set (who := match ml_inapplicable ml with [] => _ | _ => _ end). destruct (rp (w_rid w) rep (w_uncaught w) z1) as [[] z2] eqn:Er.
    + eapply Non; eauto. discriminate.
    + unfold thrown. destruct ne; [eapply Non; eauto; discriminate|]. eapply One; eauto. cbn. rewrite <- app_assoc. reflexivity.
    + eapply Non; eauto. discriminate.
  - destruct (pick_best first others) as [[n mr]|x| |b].
    2:{ apply Zero. unfold thrown. destruct ne; [discriminate|]. intros w' r [= <- <-]. reflexivity. }
    2-3: apply Zero; discriminate.
    destruct (rp (w_rid w) (RFull (make_call_report c) mr) (w_uncaught w) z1) as [[] z2] eqn:Er; [|eapply Non; eauto; discriminate..].
    destruct (nth_error _ n) as [eo|]; [|eapply Non; eauto; discriminate]. destruct (control_consume _ _) as [[ss ctl]|x| |b]; [|unfold thrown; destruct ne|eapply Non; eauto; discriminate..].
    + destruct (consume_asserts _ _); [|eapply Non; eauto; discriminate..]. eapply One; eauto. cbn. rewrite <- app_assoc. reflexivity.
    + eapply Non; eauto. discriminate.
    + eapply One; eauto. cbn. rewrite <- app_assoc. reflexivity.
Qed.

(** Ends of sequences: all reports return. *)
Definition quietly (w : world) (z : R) (s : stepped) (z' : R) : Prop :=
  exists qs, conversation rp (w_rid w) z qs z' /\
    match s with
    | Next w' r => exists evs, w_trace w' = w_trace w ++ evs /\ w_rid w' = w_rid w /\ w_uncaught w' = w_uncaught w /\ told evs = map (fun q => (w_rid w, fst (fst q))) qs /\
        (forall q n a, In (q, n, a) qs -> a = Returns /\ n = w_uncaught w /\ exists k m, q = RError k m)
    | _ => True
    end.
Lemma release_heard w s z : let '(s1, z') := r_release_seq rp w s z in quietly w z s1 z'.
Proof.
  unfold r_release_seq. destruct (_ || _).
  { exists []. split; [constructor|]. exists []. rewrite app_nil_r. repeat (split; auto). all: destruct H. }
  destruct (nth_error (w_seqs w) s) as [q|]; [|exists []; split; auto; constructor]. destruct (seq_dtor_error q) as [[k n]|].
  2:{ exists []. split; [constructor|]. exists []. rewrite app_nil_r. repeat (split; auto). all: destruct H. }
  unfold r_react. cbn [set_sdead w_rid w_uncaught]. destruct (rp _ _ _ z) as [[] z1] eqn:E; [|exists [(RError k n, w_uncaught w, Throws)]; split; auto; apply conv_one; auto|exists [(RError k n, w_uncaught w, Terminates)]; split; auto; apply conv_one; auto].
  exists [(RError k n, w_uncaught w, Returns)]. split; [apply conv_one; auto|]. exists [EvReport (w_rid w) (RError k n) [s]]. split; [reflexivity|]. split; [reflexivity|]. split; [reflexivity|]. split; [reflexivity|].
  intros q0 n0 a [H|[]]. inversion H; subst. eauto.
Qed.
Lemma releases_heard l : forall w z, let '(s1, z') := r_release_seqs rp w l z in quietly w z s1 z'.
Proof.
  induction l as [|s l IH]; intros w z; cbn [r_release_seqs].
  { exists []. split; [constructor|]. exists []. rewrite app_nil_r. repeat (split; auto). all: destruct H. }
  pose proof (release_heard w s z) as H. destruct (r_release_seq rp w s z) as [[w1 r1| |b|] z1]; auto. destruct H as (qs & H1 & evs & E1 & E2 & E3 & E4 & E5).
  specialize (IH w1 z1). destruct (r_release_seqs rp w1 l z1) as [s2 z2]. destruct IH as (qs2 & I1 & I2). exists (qs ++ qs2). rewrite E2 in I1. split; [eapply conv_app; eauto|].
  destruct s2 as [w2 r2| |b|]; auto. destruct I2 as (evs2 & F1 & F2 & F3 & F4 & F5). exists (evs ++ evs2). rewrite F1, E1, F2, F3, <- app_assoc. split; auto. split; auto. split; auto.
  rewrite told_app, map_app, E4, F4, E2. split; auto. intros q n a Hq. apply in_app_iff in Hq. destruct Hq as [Hq|Hq]; [eapply E5; eauto|]. rewrite <- E3. eapply F5; eauto.
Qed.

Lemma end_heard w e z : let '(s, z') := r_end_expectation rp w e z in heard_by w z s z'.
Proof.
  unfold r_end_expectation. destruct (nth_error (w_exps w) e) as [eo|]; [|apply heard_not; discriminate]. destruct (nth_error (w_colls w) (eo_coll eo)) as [l|]; [|apply heard_not; discriminate].
  destruct (negb _); [apply heard_not; discriminate|]. cbv zeta. set (w1 := set_colls w _). set (x0 := mkEObj _ _ _ _ _). set (seqs := map fst _).
  destruct (exp_is_satisfied (eo_exp eo)).
  { pose proof (releases_heard seqs (set_exps w1 (upd (w_exps w1) e x0)) z) as H. destruct (r_release_seqs _ _ seqs z) as [s2 z2]. destruct H as (qs & H1 & H2). exists qs. split; auto.
    destruct s2 as [w2 r2| | |]; auto. destruct H2 as (evs & E1 & _ & _ & E4 & E5). exists evs. split; auto. split; auto. split; intros q n a Hq; destruct (E5 _ _ _ Hq) as (-> & -> & _); auto. }
  destruct (exp_report_of (w_seqs w) (eo_exp eo)) as [r|x| |b]; [| |apply heard_not; discriminate..].
  2:{ pose proof (releases_heard seqs (set_uncaught (set_exps w1 (upd (w_exps w1) e x0)) (S (w_uncaught w))) z) as H. destruct (r_release_seqs _ _ seqs z) as [s2 z2]. destruct H as (qs & H1 & H2).
      destruct s2 as [w2 r2| | |]; [|exists qs; auto..]. exists qs. split; auto. destruct H2 as (evs & E1 & _ & _ & E4 & E5). exists evs. split; auto. split; auto.
      split; intros q n a Hq; destruct (E5 _ _ _ Hq) as (-> & -> & Hk); auto. right. split; auto. split; eauto. }
  unfold r_react. change (w_rid w1) with (w_rid w). change (w_uncaught w1) with (w_uncaught w). destruct (rp (w_rid w) (RUnfulfilled r) (w_uncaught w) z) as [[] z1] eqn:Er.
  - set (w2 := emit_report w1 (RUnfulfilled r) [e]). pose proof (releases_heard seqs (set_exps w2 (upd (w_exps w2) e x0)) z1) as H. destruct (r_release_seqs _ _ seqs z1) as [s2 z2].
    destruct H as (qs & H1 & H2). exists ((RUnfulfilled r, w_uncaught w, Returns) :: qs). split; [econstructor; eauto|].
    destruct s2 as [w3 r3| | |]; auto. destruct H2 as (evs & E1 & _ & _ & E4 & E5). exists (EvReport (w_rid w) (RUnfulfilled r) [e] :: evs). rewrite E1. cbn. rewrite <- app_assoc. split; auto.
    split; [f_equal; exact E4|]. split; intros q n a [Hq|Hq]; try (inversion Hq; subst; auto); destruct (E5 _ _ _ Hq) as (-> & -> & _); auto.
  - set (w2 := emit_report w1 (RUnfulfilled r) [e]). pose proof (releases_heard seqs (set_uncaught (set_exps w2 (upd (w_exps w2) e x0)) (S (w_uncaught w))) z1) as H. destruct (r_release_seqs _ _ seqs z1) as [s2 z2].
    destruct H as (qs & H1 & H2). destruct s2 as [w3 r3| | |]; [|exists ((RUnfulfilled r, w_uncaught w, Throws) :: qs); split; [econstructor; eauto|auto]..].
    exists ((RUnfulfilled r, w_uncaught w, Throws) :: qs). split; [econstructor; eauto|].
    destruct H2 as (evs & E1 & _ & _ & E4 & E5). exists (EvReport (w_rid w) (RUnfulfilled r) [e] :: evs). cbn [set_uncaught w_trace]. rewrite E1. cbn. rewrite <- app_assoc. split; auto.
    split; [f_equal; exact E4|]. split; intros q n a [Hq|Hq]; try (inversion Hq; subst; auto); destruct (E5 _ _ _ Hq) as (-> & -> & Hk); auto. right. split; auto. split; eauto.
  - exists [(RUnfulfilled r, w_uncaught w, Terminates)]. split; auto. apply conv_one; auto.
Qed.

Lemma plain_heard w z o : match o with ODropSeq _ | OCall _ _ _ _ | OEndScope _ | OMoveAssignScoped _ _ => True | _ => heard_by w z (step w o) z end.
Proof.
  assert (N : forall w' r evs, w_trace w' = w_trace w ++ evs -> told evs = [] -> heard_by w z (Next w' r) z).
  { intros w' r evs E Ht. exists []. split; [constructor|]. exists evs. split; auto. split; auto. split; intros ? ? ? []. }
  destruct o; auto; cbn [step]; unfold do_expect, do_action, do_final, do_return, thrown;
  repeat match goal with
    | |- context [match find_overload w ?m ?v with _ => _ end] => let E := fresh "E" in destruct (find_overload w m v) as [?|[? ?]] eqn:E
    | |- context [if ?b then _ else _] => destruct b
    | |- context [match ?x with _ => _ end] => destruct x
    end; try (apply heard_not; discriminate); try (apply heard_none; reflexivity).
  - unfold find_overload in E. apply heard_not. intros w' r ->.
    repeat match type of E with context [match ?x with _ => _ end] => destruct x end; discriminate.
  - eapply N; [cbn; reflexivity|reflexivity].
  - eapply N; [cbn; reflexivity|reflexivity].
  - eapply N; [cbn; reflexivity|reflexivity].
Qed.

Theorem C88_told w z o s z' : r_step rp w z o = (s, z') ->
  exists qs, conversation rp (w_rid w) z qs z' /\
    match s with
    | Next w' r => exists evs, w_trace w' = w_trace w ++ evs /\ told evs = map (fun q => (w_rid w, fst (fst q))) qs /\
        (forall q n a, In (q, n, a) qs -> a = Returns \/ a = Throws /\ r = RThrow EReporter) /\
        (forall q n a, In (q, n, a) qs -> n = w_uncaught w \/ n = S (w_uncaught w) /\ (exists x, r = RThrow x) /\ exists k m, q = RError k m)
    | _ => True
    end.
Proof.
  change (r_step rp w z o = (s, z') -> heard_by w z s z'). intros H.
  destruct o; try (match type of H with r_step rp w z ?o = _ => pose proof (plain_heard w z o) as P end; injection H as <- <-; exact P).
  - cbn [r_step] in H. destruct (nth s0 (w_iface w) false); [|injection H as <- <-; apply heard_not; discriminate].
    pose proof (release_heard (set_iface w (upd (w_iface w) s0 false)) s0 z) as P. rewrite H in P. destruct P as (qs & P1 & P2). exists qs. split; auto.
    destruct s as [w2 r2| | |]; auto. destruct P2 as (evs & E1 & _ & _ & E4 & E5). exists evs. split; auto. split; auto. split; intros q n a Hq; destruct (E5 _ _ _ Hq) as (-> & -> & _); auto.
  - cbn [r_step] in H. unfold r_do_call in H. destruct (find_overload w m ov) as [s0|[sg coll]] eqn:E.
    { injection H as <- <-. unfold find_overload in E. apply heard_not. intros w' r ->.
      repeat match type of E with context [match ?x with _ => _ end] => destruct x end; discriminate. }
    destruct (negb _); [injection H as <- <-; apply heard_not; discriminate|]. match type of H with r_handle_call rp w coll ?c ?ne z = _ => pose proof (call_heard w coll c ne z) as P end. rewrite H in P. exact P.
  - cbn [r_step] in H. destruct (nth_error (w_scoped w) h) as [[e| |]|]; try (injection H as <- <-; first [apply heard_not; discriminate|apply heard_none; reflexivity]).
    pose proof (end_heard (set_scoped w (upd (w_scoped w) h HDead)) e z) as P. rewrite H in P. exact P.
  - cbn [r_step] in H. destruct (nth_error (w_scoped w) dst) as [old|], (nth_error (w_scoped w) src) as [x|]; try (destruct old as [e| |]); try (destruct x as [e2| |]);
      try (injection H as <- <-; apply heard_not; discriminate);
      (destruct (dst =? src); [injection H as <- <-; apply heard_none; reflexivity|]); try (injection H as <- <-; apply heard_none; reflexivity);
      match type of H with context [r_end_expectation rp ?w1 ?e0 z] => pose proof (end_heard w1 e0 z) as P; destruct (r_end_expectation rp w1 e0 z) as [s2 z2] end;
      destruct s2 as [w2 []| | |]; injection H as <- <-; auto; destruct P as (qs & P1 & _); exists qs; auto.
Qed.
End Told.
Print Assumptions C88_told.

(** ** Example *)

(** A reporter which throws once only: at its first report, whatever it is; afterwards it ends the program where it has to leave. *)
Definition throws_once : recorder bool := fun _ r _ fresh =>
  match r with
  | RFull _ _ => (Returns, fresh)
  | RUnhandled _ _ _ => (Returns, fresh)
  | RNoMatch _ _ | RInapplicable _ _ => (if fresh then Throws else Terminates, false)
  | RUnfulfilled _ | RError _ _ => (if fresh then Throws else Returns, false)
  end.
Definition two_unwanted : list op := [ONewMock [sig_unary]; OExpect 0 0 [m_eq 1] [] here].
Definition unwanted : op := OCall 0 0 [VInt 2] here.
(** The same call, the same report, another reaction; afterwards the unfulfilled expectation is reported silently. *)
Example C88_example : let w := after two_unwanted in
  exists w1, r_step throws_once w true unwanted = (Next w1 (RThrow EReporter), false) /\
    r_step throws_once w1 false unwanted = (Stop, false) /\
    exists w2, r_step throws_once w1 false (OEndScope 0) = (Next w2 RUnit, false) /\ length (told (w_trace w2)) = 2.
Proof.
  eexists. split; [vm_compute; reflexivity|]. split; [vm_compute; reflexivity|]. eexists. split; vm_compute; reflexivity.
Qed.

(** One might think that a call which was answered in one way is answered in this way again as long as nothing was accepted or ended. *)
Theorem C88_same_again_refuted : exists (rp : recorder bool) z ops w z1 o w1 x,
  rrun rp init z ops w z1 /\ r_step rp w z1 o = (Next w1 (RThrow x), false) /\ w_exps w1 = w_exps w /\ w_seqs w1 = w_seqs w /\ w_rid w1 = w_rid w /\
  w_uncaught w1 = w_uncaught w /\ r_step rp w1 false o = (Stop, false).
Proof.
  set (w1 := match fst (r_step throws_once (after two_unwanted) true unwanted) with Next w _ => w | _ => init end).
  exists throws_once, true, two_unwanted, (after two_unwanted), true, unwanted, w1, EReporter.
  split. { eapply rrun_step; [vm_compute; reflexivity|]. eapply rrun_step; [vm_compute; reflexivity|]. apply rrun_nil. }
  split; [vm_compute; reflexivity|]. split; [vm_compute; reflexivity|]. split; [vm_compute; reflexivity|]. split; [vm_compute; reflexivity|]. split; vm_compute; reflexivity.
Qed.
Print Assumptions C88_same_again_refuted.
