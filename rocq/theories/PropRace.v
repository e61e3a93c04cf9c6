(** * PropRace: data races (C67) and mutexes (C68) of programs with several threads. *)

From Verif Require Import Base Lib Sequence Control Signature Printer Reports Expectation Builder World WorldSpec StepCases WorldInv
  MatchLemmas BuildProofs Scenario Conc ConcSpec ConcProofs PropConc Race RaceSpec RaceProofs RaceFree LockProofs.

(** ** Programs for the examples *)

(** The state after a program of two threads. *)
Definition after2 (acts : list (nat * action)) : cworld := match cexec true (cinit 2) acts with Some c => c | None => cinit 0 end.

Lemma after2_runs acts : (match cexec true (cinit 2) acts with Some _ => true | None => false end) = true -> cruns true (cinit 2) acts (after2 acts).
Proof. unfold after2. destruct (cexec true (cinit 2) acts) as [c|] eqn:E; [|discriminate]. intros _. apply cexec_runs; auto. Qed.

(** Two mocks; expectations 0 (once at least, attached to sequence 0) and 1 (its matcher throws) of mock 0, expectation 2 of mock 1
    (optional, attached to sequence 0 as well). *)
Definition duo : list (nat * action) :=
  [(0, AOp (ONewMock [sig_unary])); (0, AOp (ONewMock [sig_unary])); (0, AOp (ONewSeq Lazy));
   (0, AOp (OExpect 0 0 [m_any] [ClSeq [0]; ClTimes (TxRange 1 3)] here)); (0, AOp (OExpect 0 0 [m_throws 1] [] here));
   (0, AOp (OExpect 1 0 [m_eq 1] [ClSeq [0]; ClTimes (TxRange 0 3)] here))].

(** Two independent mocks. *)
Definition apart : list (nat * action) :=
  [(0, AOp (ONewMock [sig_unary])); (0, AOp (ONewMock [sig_unary]));
   (0, AOp (OExpect 0 0 [m_any] [ClTimes (TxAtLeast 0)] here)); (0, AOp (OExpect 1 0 [m_any] [ClTimes (TxAtLeast 0)] here))].

(** What the operations access. *)
Example C67_events_of_calls :
  (* the matcher of expectation 1 throws *)
  ev_of false (after2 duo) 0 (AMatch 0 0 [VInt 1] there) =
    [MLock 0; MRead (PlVector 0); MRead (PlCount 1); MUser (UMatches 1 0); MRead (PlCount 1); MUser (UDescribe 1 0);
     MRead PlReporter; MUser (UReport KUnhandled); MRead (PlCount 0); MRead (PlSeq 0); MUser (UMatches 0 0);
     MUser (UDescribe 0 0); MUnlock 0; MRead PlReporter; MUser (UReport KFull)] /\
  (* matched, but not the turn of expectation 2 *)
  ev_of false (after2 duo) 1 (AMatch 1 0 [VInt 1] there) =
    [MLock 1; MRead (PlVector 1); MRead (PlCount 2); MRead (PlSeq 0); MUser (UMatches 2 0); MUser (UDescribe 2 0);
     MUnlock 1; MRead PlReporter; MUser (UReport KInapplicable)] /\
  ev_of false (after2 duo) 1 (AMatch 1 0 [VInt 2] there) =
    [MLock 1; MRead (PlVector 1); MRead (PlCount 2); MRead (PlSeq 0); MUser (UMatches 2 0); MUser (UDescribe 2 0);
     MUnlock 1; MRead PlReporter; MUser (UReport KNoMatch)] /\
  (* the count becomes the minimum *)
  ev_of false (after2 (duo ++ [(0, AMatch 0 0 [VInt 1] there)])) 0 ACount =
    [MRead (PlCount 0); MRead (PlSeq 0); MWrite (PlSeq 0); MRead (PlCount 0); MWrite (PlCount 0); MWrite (PlSeq 0)] /\
  ev_of true (after2 (duo ++ [(0, AMatch 0 0 [VInt 1] there)])) 0 ACount =
    [MWrite (PlSeq 0); MRead (PlCount 0); MWrite (PlCount 0); MWrite (PlSeq 0)] /\
  (* the second accepted call: neither the minimum nor the maximum *)
  ev_of true (after2 (duo ++ [(0, AMatch 0 0 [VInt 1] there); (0, ACount)] ++ [(1, AMatch 0 0 [VInt 1] there)])) 1 ACount =
    [MWrite (PlSeq 0); MRead (PlCount 0); MWrite (PlCount 0)] /\
  (* a saturated expectation does not look at its sequences *)
  ev_of true (after2 (setup ++ [(0, AMatch 0 0 [] here); (0, ACount)] ++ finish 0)) 1 (AMatch 0 0 [] here) =
    [MLock 0; MRead (PlVector 0); MRead (PlCount 0); MUnlock 0; MRead PlReporter; MUser (UReport KInapplicable)] /\
  ev_of true (after2 duo) 7 (AMatch 0 0 [VInt 1] there) = [].
Proof. vm_compute. repeat split. Qed.

Example C67_events_of_scopes :
  (* unfulfilled, fulfilled *)
  ev_of true (after2 duo) 0 (AOp (OEndScope 0)) =
    [MLock 0; MRead (PlVector 0); MWrite (PlVector 0); MRead (PlCount 0); MRead (PlCount 0); MRead (PlSeq 0);
     MUser (UDescribe 0 0); MRead PlReporter; MUser (UReport KUnfulfilled); MUnlock 0] /\
  ev_of true (after2 duo) 0 (AOp (OEndScope 2)) = [MLock 1; MRead (PlVector 1); MWrite (PlVector 1); MRead (PlCount 2); MUnlock 1] /\
  ev_of true (after2 duo) 0 (AOp (OMoveAssignScoped 2 0)) = [MLock 1; MRead (PlVector 1); MWrite (PlVector 1); MRead (PlCount 2); MUnlock 1] /\
  ev_of true (after2 duo) 0 (AOp (OMoveAssignScoped 0 0)) = [] /\
  (* the last owner of an unfulfilled sequence reports an error; the reporter returns while an exception is in flight *)
  ev_of true (after2 (duo ++ [(0, AOp (ODropSeq 0)); (0, AOp (OEndScope 2)); (0, AOp (OUnwind 1))])) 0 (AOp (OEndScope 0)) =
    [MLock 0; MRead (PlVector 0); MWrite (PlVector 0); MRead (PlCount 0); MRead (PlCount 0); MRead (PlSeq 0);
     MUser (UDescribe 0 0); MRead PlReporter; MUser (UReport KUnfulfilled); MUnlock 0; MRead PlReporter; MUser (UReport KError)] /\
  ev_of true (after2 (duo ++ [(0, AOp (OUnwind 1)); (0, AOp (OEndScope 0)); (0, AOp (OEndScope 2))])) 0 (AOp (ODropSeq 0)) =
    [MRead PlReporter; MUser (UReport KError)] /\
  (* satisfied from the start: the sequence is told so *)
  ev_of true (after2 duo) 0 (AOp (OExpect 0 0 [m_any] [ClSeq [0]; ClTimes (TxRange 0 3)] here)) =
    [MRead (PlSeq 0); MWrite (PlSeq 0); MWrite (PlSeq 0); MLock 0; MRead (PlVector 0); MWrite (PlVector 0); MUnlock 0] /\
  ev_of true (after2 duo) 0 (AOp (OExpect 1 0 [m_any] [ClSeq [0]] here)) =
    [MRead (PlSeq 0); MWrite (PlSeq 0); MLock 1; MRead (PlVector 1); MWrite (PlVector 1); MUnlock 1] /\
  ev_of true (after2 duo) 0 (AOp (OSatisfied 2)) = [MRead (PlCount 2)] /\
  ev_of true (after2 duo) 0 (AOp (OInstall default_reporter)) = [MWrite PlReporter] /\
  ev_of true (after2 duo) 0 (AOp OAction) = [MUser USideEffect] /\ ev_of true (after2 duo) 0 (AOp OFinal) = [MUser UFinalizer].
Proof. vm_compute. repeat split. Qed.

(** ** C67: what exactly is accessed *)

Fixpoint times_in {A} (f : A -> bool) (l : list A) : nat :=
  match l with
  | [] => 0
  | x :: l' => (if f x then 1 else 0) + times_in f l'
  end.
Definition tells (q : nat) (x : mev) : bool := match x with MWrite (PlSeq q') => q' =? q | _ => false end.

Lemma times_in_app {A} (f : A -> bool) l1 l2 : times_in f (l1 ++ l2) = times_in f l1 + times_in f l2.
Proof. induction l1 as [|x l1 IH]; cbn; auto. rewrite IH. lia. Qed.

Lemma tells_reads q ctl : times_in (tells q) (reads_seqs ctl) = 0.
Proof. unfold reads_seqs. induction (c_seqs ctl) as [|[q' i] l IH]; cbn; auto. Qed.
Lemma tells_writes q ctl : times_in (tells q) (writes_seqs ctl) = times_in (Nat.eqb q) (map fst (c_seqs ctl)).
Proof. unfold writes_seqs. induction (c_seqs ctl) as [|[q' i] l IH]; cbn; auto. rewrite IH, Nat.eqb_sym. reflexivity. Qed.

(** An accepted call writes the counter of its expectation and the sequences it is attached to, and nothing else; each sequence is told of the
    acceptance, and once more if that satisfies or saturates the expectation. No mutex is used and no user code is run. *)
Theorem C67_accesses_of_accepted_calls release c t e x :
  pending_exp c t e -> exp_at (cw c) e x ->
  let ctl := e_ctl (eo_exp x) in
  let ev := ev_of release c t ACount in
  (forall p, In (MWrite p) ev <-> p = PlCount e \/ exists q, p = PlSeq q /\ In q (map fst (c_seqs ctl))) /\
  (forall p, In (MRead p) ev -> p = PlCount e \/ exists q, p = PlSeq q /\ In q (map fst (c_seqs ctl)) /\ release = false) /\
  (forall q, (c_count ctl + 1 = c_min ctl \/ c_count ctl + 1 = c_max ctl)%Z ->
     times_in (tells q) ev = times_in (Nat.eqb q) (map fst (c_seqs ctl)) + times_in (Nat.eqb q) (map fst (c_seqs ctl))) /\
  (forall q, (c_count ctl + 1 <> c_min ctl /\ c_count ctl + 1 <> c_max ctl)%Z ->
     times_in (tells q) ev = times_in (Nat.eqb q) (map fst (c_seqs ctl))) /\
  (forall m, ~ In (MLock m) ev /\ ~ In (MUnlock m) ev) /\ (forall u, ~ In (MUser u) ev).
Proof.
  intros (th & ci & ne & Hth & Hp) Hx ctl ev. 
  assert (E : ev = count_events release e ctl).
  { unfold ev, ev_of. rewrite Hth, Hp. cbn [w_exps enter set_uncaught set_frames]. unfold exp_at in Hx. rewrite Hx. reflexivity. }
  rewrite E. clearbody ctl. clear -ctl. unfold count_events.
  assert (R : forall y, In y (reads_seqs ctl) <-> exists q, y = MRead (PlSeq q) /\ In q (map fst (c_seqs ctl))).
  { intros y. unfold reads_seqs. rewrite in_map_iff. split.
    - intros ([q i] & <- & H). exists q. split; auto. apply in_map_iff. exists (q, i). auto.
    - intros (q & -> & H). apply in_map_iff in H. destruct H as ([q' i] & <- & H). exists (q', i). auto. }
  assert (W : forall y, In y (writes_seqs ctl) <-> exists q, y = MWrite (PlSeq q) /\ In q (map fst (c_seqs ctl))).
  { intros y. unfold writes_seqs. rewrite in_map_iff. split.
    - intros ([q i] & <- & H). exists q. split; auto. apply in_map_iff. exists (q, i). auto.
    - intros (q & -> & H). apply in_map_iff in H. destruct H as ([q' i] & <- & H). exists (q', i). auto. }
  set (again := if (c_count ctl + 1 =? c_min ctl)%Z || (c_count ctl + 1 =? c_max ctl)%Z then writes_seqs ctl else []).
  set (asserted := if release then [] else MRead (PlCount e) :: reads_seqs ctl).
  assert (A : forall y, In y again -> In y (writes_seqs ctl)) by (intros y; unfold again; destruct (_ || _); cbn; tauto).
  assert (B : forall y, In y asserted -> y = MRead (PlCount e) \/ (In y (reads_seqs ctl) /\ release = false)).
  { intros y. unfold asserted. destruct release; cbn; intuition. }
  assert (All : forall y, In y (asserted ++ writes_seqs ctl ++ [MRead (PlCount e); MWrite (PlCount e)] ++ again) ->
    y = MRead (PlCount e) \/ y = MWrite (PlCount e) \/ (In y (reads_seqs ctl) /\ release = false) \/ In y (writes_seqs ctl)).
  { intros y H. repeat (apply in_app_or in H; destruct H as [H|H]); auto.
    - apply B in H. tauto.
    - cbn in H. destruct H as [<-|[<-|[]]]; auto. }
  split.
  { intros p. split.
    - intros H. apply All in H. destruct H as [H|[H|[[H _]|H]]]; try discriminate; [injection H as ->; auto| |].
      + apply R in H. destruct H as (q & H & _). discriminate.
      + apply W in H. destruct H as (q & H & Hq). injection H as ->. eauto.
    - intros [->|(q & -> & Hq)]; rewrite !in_app_iff; [right; right; left; cbn; auto|]. right. left. apply W. eauto. }
  split.
  { intros p H. apply All in H. destruct H as [H|[H|[[H Er]|H]]]; try discriminate; [injection H as ->; auto| |].
    - apply R in H. destruct H as (q & H & Hq). injection H as ->. eauto.
    - apply W in H. destruct H as (q & H & _). discriminate. }
  assert (C : forall q, times_in (tells q) asserted = 0) by (intros q; unfold asserted; destruct release; cbn; auto using tells_reads).
  split.
  { intros q H. rewrite !times_in_app, C, tells_writes. cbn. unfold again.
    assert ((c_count ctl + 1 =? c_min ctl)%Z || (c_count ctl + 1 =? c_max ctl)%Z = true) as -> by (apply orb_true_iff; destruct H as [H|H]; apply Z.eqb_eq in H; auto).
    rewrite tells_writes. reflexivity. }
  split.
  { intros q [H1 H2]. rewrite !times_in_app, C, tells_writes. cbn. unfold again. apply Z.eqb_neq in H1, H2. rewrite H1, H2. cbn. lia. }
  split.
  - intros m. split; intros H; apply All in H; destruct H as [H|[H|[[H _]|H]]]; try discriminate; (apply R in H || apply W in H); destruct H as (q & H & _); discriminate.
  - intros u H; apply All in H; destruct H as [H|[H|[[H _]|H]]]; try discriminate; (apply R in H || apply W in H); destruct H as (q & H & _); discriminate.
Qed.

(** The condition is not vacuous: see the cases of [C67_events_of_calls]. *)
Example C67_accesses_example : exists c x,
  c = after2 (duo ++ [(0, AMatch 0 0 [VInt 1] there)]) /\ pending_exp c 0 0 /\ exp_at (cw c) 0 x /\ map fst (c_seqs (e_ctl (eo_exp x))) = [0] /\
  (c_count (e_ctl (eo_exp x)) + 1 = c_min (e_ctl (eo_exp x)))%Z.
Proof. do 2 eexists. split; [reflexivity|]. split; [do 3 eexists; vm_compute; split; reflexivity|]. split; [vm_compute; reflexivity|]. split; vm_compute; reflexivity. Qed.

(** A new expectation enters its sequences (each is told once more if the expectation is satisfied or saturated from the start), then the list of
    the mock, which alone happens under the mutex. *)
Theorem C67_accesses_of_new_expectations release c t m ov ms cls l c' :
  cstep release c t (AOp (OExpect m ov ms cls l)) = CNext c' RUnit ->
  exists x, exp_at (cw c') (length (w_exps (cw c))) x /\
  let ev := ev_of release c t (AOp (OExpect m ov ms cls l)) in
  (forall p, In (MWrite p) ev <-> p = PlVector (eo_coll x) \/ exists q, p = PlSeq q /\ In q (x_seqs x)) /\
  (forall q, x_min x = 0%Z \/ x_max x = 0%Z -> times_in (tells q) ev = times_in (Nat.eqb q) (x_seqs x) + times_in (Nat.eqb q) (x_seqs x)) /\
  (forall q, x_min x <> 0%Z /\ x_max x <> 0%Z -> times_in (tells q) ev = times_in (Nat.eqb q) (x_seqs x)) /\
  exists before, ev = before ++ [MLock (eo_coll x); MRead (PlVector (eo_coll x)); MWrite (PlVector (eo_coll x)); MUnlock (eo_coll x)] /\ Forall lockless before.
Proof.
  unfold cstep, ev_of. destruct (nth_error (c_threads c) t) as [th|]; [|discriminate]. destruct (t_pending th) as [[[n ci] ne]|]; [discriminate|].
  cbn [is_call]. intros H. destruct (step (enter (cw c) th) (OExpect m ov ms cls l)) as [w r| | |] eqn:Hs; try discriminate. cbn [embed] in H. injection H as <- ->.
  cbn [step] in Hs. apply do_expect_next in Hs. destruct Hs as (s & coll & Hf & Hlen & Hok & [(y & _ & _ & X)|(b & ss & ctl & mem & Hb & Hfin & Hc & Hm & _ & ->)]); [discriminate|].
  apply control_new_parts in Hc. destruct Hc as (C1 & C2 & _ & C4).
  exists (mkEObj (mkExp l ctl (b_policies b) (b_final b)) coll true ov s). split.
  { unfold exp_at. cbn [cw leave set_uncaught set_frames w_exps new_world enter]. apply nth_error_app_last. }
  cbn [op_events]. rewrite Hf, Hb. cbn [eo_coll]. unfold x_seqs, x_min, x_max. cbn [eo_exp e_ctl]. rewrite C1, C2, C4. clear. unfold expect_events.
  set (enters := flat_map (fun q => [MRead (PlSeq q); MWrite (PlSeq q)]) (b_seqs b)).
  set (again := if (0 =? t_min (b_times b))%Z || (0 =? t_max (b_times b))%Z then map (fun q => MWrite (PlSeq q)) (b_seqs b) else []).
  assert (A : forall y, In y enters <-> exists q, In q (b_seqs b) /\ (y = MRead (PlSeq q) \/ y = MWrite (PlSeq q))).
  { intros y. unfold enters. rewrite in_flat_map. split; intros (q & Hq & H); exists q; (split; [exact Hq|]).
    - destruct H as [H|[H|[]]]; auto.
    - destruct H as [H|H]; [left|right; left]; auto. }
  assert (B : forall y, In y again -> exists q, In q (b_seqs b) /\ y = MWrite (PlSeq q)).
  { intros y. unfold again. destruct (_ || _); [|intros []]. rewrite in_map_iff. intros (q & <- & Hq). eauto. }
  assert (T1 : forall q, times_in (tells q) enters = times_in (Nat.eqb q) (b_seqs b)).
  { intros q. unfold enters. clear. induction (b_seqs b) as [|q' qs IH]; cbn; auto. rewrite IH, Nat.eqb_sym. reflexivity. }
  assert (T2 : forall q, times_in (tells q) (map (fun q => MWrite (PlSeq q)) (b_seqs b)) = times_in (Nat.eqb q) (b_seqs b)).
  { intros q. clear. induction (b_seqs b) as [|q' qs IH]; cbn; auto. rewrite IH, Nat.eqb_sym. reflexivity. }
  split; [|split; [|split]].
  - intros p. rewrite !in_app_iff. split.
    + intros [H|[H|H]].
      * apply A in H. destruct H as (q & Hq & [H|H]); [discriminate|]. injection H as ->. eauto.
      * apply B in H. destruct H as (q & Hq & H). injection H as ->. eauto.
      * cbn in H. destruct H as [H|[H|[H|[H|[]]]]]; try discriminate. injection H as <-. auto.
    + intros [->|(q & -> & Hq)]; [right; right; cbn; auto|]. left. apply A. eauto.
  - intros q H. rewrite !times_in_app, T1. cbn. unfold again.
    assert ((0 =? t_min (b_times b))%Z || (0 =? t_max (b_times b))%Z = true) as -> by (apply orb_true_iff; destruct H as [-> | ->]; auto).
    rewrite T2. lia.
  - intros q [H1 H2]. rewrite !times_in_app, T1. cbn. unfold again.
    assert ((0 =? t_min (b_times b))%Z || (0 =? t_max (b_times b))%Z = false) as -> by (apply orb_false_iff; split; apply Z.eqb_neq; congruence).
    cbn. lia.
  - exists (enters ++ again). split; [rewrite <- app_assoc; reflexivity|]. apply Forall_forall. intros y H. apply in_app_or in H.
    destruct H as [H|H]; [apply A in H; destruct H as (q & _ & [-> | ->])|apply B in H; destruct H as (q & _ & ->)]; exact Logic.I.
Qed.

Example C67_new_expectation_example : exists c1 c2,
  cstep true (after2 duo) 0 (AOp (OExpect 0 0 [m_any] [ClSeq [0]; ClTimes (TxRange 0 3)] here)) = CNext c1 RUnit /\
  cstep true (after2 duo) 0 (AOp (OExpect 1 0 [m_any] [ClSeq [0]] here)) = CNext c2 RUnit.
Proof. do 2 eexists. split; vm_compute; reflexivity. Qed.

(** The reports delivered by a step, and the reports an execution notes. *)
Definition delivered (ev : list mev) : list report_kind := flat_map (fun x => match x with MUser (UReport k) => [k] | _ => [] end) ev.
Definition kind_of (r : report) : report_kind :=
  match r with
  | RNoMatch _ _ => KNoMatch
  | RInapplicable _ _ => KInapplicable
  | RFull _ _ => KFull
  | RUnfulfilled _ => KUnfulfilled
  | RError _ _ => KError
  | RUnhandled _ _ _ => KUnhandled
  end.
Definition kinds (l : list event) : list report_kind := flat_map (fun ev => match ev with EvReport _ r _ => [kind_of r] | _ => [] end) l.

Lemma delivered_app a b : delivered (a ++ b) = delivered a ++ delivered b.
Proof. apply flat_map_app. Qed.
Lemma delivered_reads ctl : delivered (reads_seqs ctl) = [].
Proof. unfold reads_seqs. induction (c_seqs ctl) as [|[q i] l IH]; auto. Qed.
Lemma delivered_state e ctl : delivered (state_events e ctl) = [].
Proof. unfold state_events. destruct (_ =? _)%Z; [reflexivity|apply (delivered_reads ctl)]. Qed.
Lemma delivered_describe e ps : forall i, delivered (describe_events e i ps) = [].
Proof.
  induction ps as [|p ps IH]; intros i; cbn [describe_events]; auto. rewrite delivered_app. destruct (is_arg p), (policy_describe p); cbn; auto.
Qed.
Lemma delivered_policy e c ps : forall i, delivered (policy_events e i ps c) = [].
Proof.
  induction ps as [|p ps IH]; intros i; cbn [policy_events]; auto. rewrite delivered_app.
  destruct (is_arg p), (policy_matches p c); cbn; auto; destruct (policy_describe p); cbn; auto.
Qed.

Lemma delivered_visits rp u ss c es : (forall p, In p es -> exists a, att rp u ss c (snd p) = Ret a) ->
  delivered (flat_map (visit_events ss c) es) = map (fun _ => KUnhandled) (flat_map (sel_unhandled rp u ss c) es).
Proof.
  induction es as [|[e x] es IH]; intros H; auto. cbn [flat_map]. rewrite delivered_app, map_app, IH by (intros p Hp; apply H; right; auto). f_equal.
  unfold visit_events. rewrite !delivered_app, delivered_state, delivered_policy. cbn [app]. destruct (H _ (or_introl eq_refl)) as [a Ha].
  unfold sel_unhandled. rewrite Ha. unfold att, make_match_report in Ha. cbn [snd fst] in *. destruct (exp_matches ss x c) as [m|y| |v]; cbn [noexcept_of] in Ha; try discriminate.
  - injection Ha as <-. reflexivity.
  - unfold report_events. rewrite !delivered_app, delivered_state, delivered_describe. cbn [app].
    destruct (exp_report_of ss x) as [r|z| |v]; cbn in Ha; try discriminate. destruct (rp _ u); cbn in Ha; try discriminate. injection Ha as <-. reflexivity.
Qed.

Lemma kinds_emit w c l : exists news, w_trace (emit_unhandled w c l) = w_trace w ++ news /\ kinds news = map (fun _ => KUnhandled) l.
Proof.
  revert w. induction l as [|[n [r x]] l IH]; intros w; cbn [emit_unhandled]; [exists []; rewrite app_nil_r; auto|].
  destruct (IH (emit_report w (RUnhandled (make_call_report c) r x) [n])) as (news & -> & E). eexists. split.
  - unfold emit_report, emit. cbn [w_trace]. rewrite <- app_assoc. reflexivity.
  - cbn. f_equal. exact E.
Qed.

(** Matching writes nothing. Under the mutex it reads the list, the counters of all expectations listed and the sequences of those which are not
    saturated; the reporter is used for the exceptions of matchers there, and for the outcome afterwards. *)
Theorem C67_accesses_of_matching release c t m ov args l c' r coll :
  cstep release c t (AMatch m ov args l) = CNext c' r -> uses_coll c m ov coll ->
  let ev := ev_of release c t (AMatch m ov args l) in
  (forall p, ~ In (MWrite p) ev) /\
  (forall p, In (MRead p) ev <->
     p = PlVector coll \/ p = PlReporter \/
     exists e x, listed c coll e /\ exp_at (cw c) e x /\
       (p = PlCount e \/ exists q, p = PlSeq q /\ In q (x_seqs x) /\ c_count (e_ctl (eo_exp x)) <> x_max x)) /\
  (exists body k, ev = MLock coll :: body ++ [MUnlock coll; MRead PlReporter; MUser (UReport k)] /\ Forall lockless body /\
     (k = KFull <-> r = RUnit)) /\
  (exists news, w_trace (cw c') = w_trace (cw c) ++ news /\ delivered ev = kinds news).
Proof.
  intros Hs (s & Hf) ev. pose proof (cstep_match _ _ _ _ _ _ _ _ _ Hs) as (th & s' & coll' & Hth & Hp & Hf' & Hlen & D).
  change (find_overload (enter (cw c) th) m ov) with (find_overload (cw c) m ov) in Hf'. rewrite Hf in Hf'. injection Hf' as <- <-.
  set (w := enter (cw c) th) in *. set (ci := call_of s args l) in *.
  assert (Hl : exists lst, nth_error (w_colls w) coll = Some lst).
  { destruct (nth_error (w_colls w) coll) as [lst|] eqn:E; [eauto|]. destruct D as [(w' & n & Hm & _)|(w' & Hm & _)]; unfold match_call in Hm; rewrite E in Hm; discriminate. }
  destruct Hl as [lst Hl].
  assert (Hk : exists es, lookup_exps w (rev lst) = Some es).
  { destruct (lookup_exps w (rev lst)) as [es|] eqn:E; [eauto|]. destruct D as [(w' & n & Hm & _)|(w' & Hm & _)]; unfold match_call in Hm; rewrite Hl, E in Hm; discriminate. }
  destruct Hk as [es Hes]. destruct (lookup_exps_spec _ _ _ Hes) as [Hmap Hin].
  assert (Hml : exists ml, match_loop (w_reporter w) (w_uncaught w) (w_seqs w) ci es (mkLists [] [] [] []) = Ret ml).
  { destruct (match_loop (w_reporter w) (w_uncaught w) (w_seqs w) ci es (mkLists [] [] [] [])) as [ml|x| |u] eqn:E; [eauto| | |]; exfalso.
    - eapply match_loop_nothrow; eauto.
    - destruct D as [(w' & n & Hm & _)|(w' & Hm & _)]; unfold match_call in Hm; rewrite Hl, Hes, E in Hm; discriminate.
    - destruct D as [(w' & n & Hm & _)|(w' & Hm & _)]; unfold match_call in Hm; rewrite Hl, Hes, E in Hm; discriminate. }
  destruct Hml as [ml Hml]. destruct (match_loop_ret _ _ _ _ _ _ _ Hml) as (Hatt & Hfull & Hina & Hnone & Hunh). cbn [ml_full ml_inapplicable ml_none ml_unhandled app] in *.
  set (k := match ml_full ml with _ :: _ => KFull | [] => match ml_inapplicable ml with [] => KNoMatch | _ => KInapplicable end end).
  assert (Eo : outcome_of w ci es = Some k) by (unfold outcome_of; rewrite Hml; reflexivity).
  assert (Ev : ev = MLock coll :: (MRead (PlVector coll) :: flat_map (visit_events (w_seqs w) ci) es) ++ [MUnlock coll; MRead PlReporter; MUser (UReport k)]).
  { unfold ev, ev_of. rewrite Hth, Hp. fold w. change (find_overload w m ov) with (find_overload (cw c) m ov). rewrite Hf. cbv zeta. rewrite Hl, Hes.
    change (mkCall (sg_ret s) (sg_params s) args (frontend_category s) (frontend_constness s) l) with ci. rewrite Eo. unfold match_events. cbn [app deliver]. reflexivity. }
  (* members of the list *)
  assert (Li : forall e x, In (e, x) es <-> listed c coll e /\ exists eo, exp_at (cw c) e eo /\ x = eo_exp eo).
  { intros e x. split.
    - intros H. split; [|destruct (Hin _ _ H) as (eo & Ho & ->); exists eo; split; [exact Ho|auto]].
      exists lst. split; [exact Hl|]. apply in_rev. rewrite <- Hmap. apply in_map_iff. exists (e, x). auto.
    - intros [(lst' & Hl' & He) (eo & Ho & ->)]. change (w_colls (cw c)) with (w_colls w) in Hl'. rewrite Hl in Hl'. injection Hl' as <-.
      destruct (lookup_exps_in _ _ _ e Hes) as (eo' & Ho' & H); [apply in_rev in He; exact He|]. unfold exp_at in Ho. change (w_exps (cw c)) with (w_exps w) in Ho.
      rewrite Ho in Ho'. injection Ho' as <-. exact H. }
  (* the events of one expectation *)
  assert (St : forall e ctl y, In y (state_events e ctl) <-> y = MRead (PlCount e) \/ exists q, y = MRead (PlSeq q) /\ In q (map fst (c_seqs ctl)) /\ c_count ctl <> c_max ctl).
  { intros e ctl y. unfold state_events. split.
    - intros [<-|H]; auto. destruct (Z.eqb_spec (c_count ctl) (c_max ctl)) as [|Hne]; [destruct H|]. right. unfold reads_seqs in H. apply in_map_iff in H.
      destruct H as ([q i] & <- & H). exists q. split; auto. split; auto. apply in_map_iff. exists (q, i). auto.
    - intros [->|(q & -> & H & Hne)]; [left; auto|]. right. apply Z.eqb_neq in Hne. rewrite Hne. apply in_map_iff in H. destruct H as ([q' i] & <- & H).
      unfold reads_seqs. apply in_map_iff. exists (q', i). auto. }
  assert (De : forall e ps i y, In y (describe_events e i ps) -> exists u, y = MUser u).
  { clear. intros e. induction ps as [|p ps IH]; intros i y H; cbn [describe_events] in H; [destruct H|]. apply in_app_or in H. destruct H as [H|H].
    - destruct (is_arg p); [|destruct H]. destruct H as [<-|[]]. eauto.
    - destruct (policy_describe p); try contradiction. eauto. }
  assert (Po : forall e ps i y, In y (policy_events e i ps ci) -> exists u, y = MUser u).
  { clear. intros e. induction ps as [|p ps IH]; intros i y H; cbn [policy_events] in H; [destruct H|]. apply in_app_or in H. destruct H as [H|H].
    - destruct (is_arg p); [|destruct H]. destruct H as [<-|[]]. eauto.
    - destruct (policy_matches p ci); try contradiction. apply in_app_or in H. destruct H as [H|H].
      + destruct (is_arg p); [|destruct H]. destruct H as [<-|[]]. eauto.
      + destruct (policy_describe p); try contradiction. eauto. }
  assert (Vi : forall e x y, In y (visit_events (w_seqs w) ci (e, x)) -> (exists u, y = MUser u) \/ y = MRead PlReporter \/ In y (state_events e (e_ctl x))).
  { intros e x y H. unfold visit_events in H. rewrite !in_app_iff in H. destruct H as [H|[H|H]]; [auto|left; eauto|].
    destruct (exp_matches _ x ci); try contradiction. unfold report_events in H. rewrite !in_app_iff in H. destruct H as [[H|H]|H]; [auto|left; eauto|].
    destruct (exp_report_of _ x); try contradiction. destruct H as [<-|[<-|[]]]; eauto. }
  split; [|split; [|split]].
  - intros p H. rewrite Ev in H. destruct H as [H|H]; [discriminate|]. rewrite in_app_iff in H. destruct H as [[H|H]|[H|[H|[H|[]]]]]; try discriminate.
    apply in_flat_map in H. destruct H as ([e x] & _ & H). apply Vi in H. destruct H as [[u H]|[H|H]]; try discriminate. apply St in H.
    destruct H as [H|(q & H & _)]; discriminate.
  - intros p. rewrite Ev. cbn [In]. rewrite in_app_iff. cbn [In]. rewrite in_flat_map. split.
    + intros [H|[[H|([e x] & Hex & H)]|[H|[H|[H|[]]]]]]; try discriminate.
      * injection H as <-. auto.
      * apply Vi in H. destruct H as [[u H]|[H|H]]; try discriminate; [injection H as <-; auto|]. right. right. apply Li in Hex. destruct Hex as [Hli (eo & Ho & ->)].
        exists e, eo. split; auto. split; auto. apply St in H. destruct H as [H|(q & H & Hq & Hne)]; injection H as ->; auto. right. exists q. auto.
      * injection H as <-. auto.
    + intros [->|[->|(e & x & Hli & Ho & H)]]; auto. right. left. right. exists (e, eo_exp x). split; [apply Li; eauto|].
      unfold visit_events. rewrite in_app_iff. left. apply St. destruct H as [->|(q & -> & Hq & Hne)]; auto. right. exists q. auto.
  - exists (MRead (PlVector coll) :: flat_map (visit_events (w_seqs w) ci) es), k. split; [exact Ev|]. split.
    + constructor; [exact Logic.I|]. apply Forall_forall. intros y H. apply in_flat_map in H. destruct H as ([e x] & _ & H). apply Vi in H.
      destruct H as [[u ->]|[->|H]]; try exact Logic.I. apply St in H. destruct H as [->|(q & -> & _)]; exact Logic.I.
    + unfold k. destruct D as [(w' & n & Hm & -> & _)|(w' & Hm & _)].
      * unfold match_call in Hm. rewrite Hl, Hes, Hml in Hm. destruct (ml_full ml); [destruct (react _ _); discriminate|]. tauto.
      * destruct (over_throws _ _ _ _ _ _ Hm) as [x ->]. unfold match_call in Hm. rewrite Hl, Hes, Hml in Hm. destruct (ml_full ml) as [|first others].
        -- destruct (ml_inapplicable ml); split; discriminate.
        -- exfalso. destruct (pick_best first others) as [[n' mr]|y| |u] eqn:Ep; try discriminate; [destruct (react _ _); discriminate|eapply pick_best_nothrow; eauto].
  - rewrite Ev. change (MLock coll :: ?b ++ ?z) with ((MLock coll :: b) ++ z). rewrite delivered_app. 
    change (delivered (MLock coll :: MRead (PlVector coll) :: ?b)) with (delivered b). rewrite (delivered_visits (w_reporter w) (w_uncaught w)) by exact Hatt.
    rewrite <- Hunh. change (delivered [MUnlock coll; MRead PlReporter; MUser (UReport k)]) with [k].
    destruct (kinds_emit w ci (ml_unhandled ml)) as (news & En & Kn).
    assert (G : exists rep who, w_trace (cw c') = w_trace (emit_unhandled w ci (ml_unhandled ml)) ++ [EvReport (w_rid (emit_unhandled w ci (ml_unhandled ml))) rep who] /\ kind_of rep = k).
    { unfold k. destruct D as [(w' & n & Hm & _ & ->)|(w' & Hm & ->)].
      - unfold match_call in Hm. rewrite Hl, Hes, Hml in Hm. destruct (ml_full ml) as [|first others]; [destruct (react _ _); discriminate|].
        destruct (pick_best first others) as [[n' mr]|y| |u]; try discriminate. destruct (react _ _); try discriminate. injection Hm as <- <-.
        do 2 eexists. split; [reflexivity|]. reflexivity.
      - unfold match_call in Hm. rewrite Hl, Hes, Hml in Hm. destruct (ml_full ml) as [|first others].
        + destruct (ml_inapplicable ml); (destruct (react _ _); try discriminate; unfold thrown in Hm; destruct (frontend_noexcept s); try discriminate;
            injection Hm as <- _; do 2 eexists; split; [reflexivity|reflexivity]).
        + exfalso. destruct (pick_best first others) as [[n' mr]|y| |u] eqn:Ep; try discriminate; [destruct (react _ _); discriminate|eapply pick_best_nothrow; eauto]. }
    destruct G as (rep & who & Et & Ek). eexists. split; [rewrite Et, En, <- app_assoc; reflexivity|]. unfold kinds in *. rewrite flat_map_app, Kn. cbn. rewrite Ek. reflexivity.
Qed.

Example C67_matching_example : exists c1 c2,
  cstep true (after2 duo) 0 (AMatch 0 0 [VInt 1] there) = CNext c1 RUnit /\ uses_coll (after2 duo) 0 0 0 /\
  cstep true (after2 duo) 1 (AMatch 1 0 [VInt 2] there) = CNext c2 (RThrow EReporter) /\ uses_coll (after2 duo) 1 0 1.
Proof. do 2 eexists. split; [vm_compute; reflexivity|]. split; [eexists; vm_compute; reflexivity|]. split; [vm_compute; reflexivity|eexists; vm_compute; reflexivity]. Qed.

(** The errors noted by destroyed sequences. *)
Lemma released_kinds w l d evs d' : released w l d evs d' ->
  delivered (flat_map (fun ev => match ev with EvReport _ (RError _ _) _ => deliver KError | _ => [] end) evs) = kinds evs.
Proof.
  induction 1 as [| |s q l d evs d' _ _ _ _ IH]; auto. rewrite flat_map_app, delivered_app, IH. unfold kinds. rewrite flat_map_app. f_equal.
  unfold dtor_events. destruct (seq_dtor_error q) as [[k n]|]; reflexivity.
Qed.

Lemma skipn_all_app {A} (a b : list A) : skipn (length a) (a ++ b) = b.
Proof. induction a; auto. Qed.

Lemma delivered_handle w0 w h e w' r : nth_error (w_scoped w) h = Some (HOwns e) -> end_expectation w0 e = Next w' r ->
  w_exps w0 = w_exps w -> w_seqs w0 = w_seqs w -> w_trace w0 = w_trace w -> forall r',
  exists news, w_trace w' = w_trace w ++ news /\ delivered (handle_events w h ++ error_events w (Next w' r')) = kinds news.
Proof.
  intros Hh He Ex Es Et r'. apply end_expectation_next in He. destruct He as (eo & l & unf & evs & d' & Hx & _ & _ & Hrel & -> & Hc).
  exists (unf ++ evs). split; [cbn; rewrite Et; reflexivity|].
  unfold error_events. cbn [w_trace add_trace set_sdead kill set_exps set_colls]. rewrite Et, skipn_all_app. rewrite delivered_app, flat_map_app, delivered_app.
  rewrite (released_kinds _ _ _ _ _ Hrel). unfold kinds at 2. rewrite flat_map_app. fold (kinds unf). fold (kinds evs). rewrite app_assoc. f_equal.
  unfold handle_events, end_events. rewrite Hh. rewrite Ex in Hx. rewrite Hx. unfold remove_events. rewrite !delivered_app. cbn [delivered flat_map app].
  rewrite Es in Hc. destruct Hc as [(-> & -> & _)|[(-> & y & Er & -> & _)|(-> & rep & Er & -> & _)]]; [reflexivity| |].
  all: unfold report_events; rewrite Er, !delivered_app, delivered_state, delivered_describe; reflexivity.
Qed.

(** In every step of every thread, the installed reporter gets exactly the reports noted in the trace, in the same order. *)
Theorem C67_reports_are_delivered release c t a c' r :
  cstep release c t a = CNext c' r ->
  exists news, w_trace (cw c') = w_trace (cw c) ++ news /\ delivered (ev_of release c t a) = kinds news.
Proof.
  intros Hs. destruct a as [o|m ov args l|].
  2:{ destruct (cstep_match _ _ _ _ _ _ _ _ _ Hs) as (th & s & coll & _ & _ & Hf & _).
      apply (C67_accesses_of_matching _ _ _ _ _ _ _ _ _ coll Hs). exists s. exact Hf. }
  - unfold cstep in Hs. unfold ev_of. destruct (nth_error (c_threads c) t) as [th|]; [|discriminate]. destruct (t_pending th) as [[[n ci] ne]|]; [discriminate|].
    destruct (is_call o) eqn:Ec; [discriminate|]. destruct (step (enter (cw c) th) o) as [w' r'| | |] eqn:Ho; try discriminate. cbn [embed] in Hs. injection Hs as <- <-.
    change (w_trace (cw (leave c t w' None (c_log c)))) with (w_trace w'). change (w_trace (cw c)) with (w_trace (enter (cw c) th)). set (w := enter (cw c) th) in *. clearbody w.
    assert (Q : w_trace w' = w_trace w -> exists news, w_trace w' = w_trace w ++ news /\ [] = kinds news) by (intros ->; exists []; rewrite app_nil_r; auto).
    assert (Z : error_events w (Next w' r') = [] -> w_trace w' = w_trace w ->
      exists news, w_trace w' = w_trace w ++ news /\ delivered (error_events w (Next w' r')) = kinds news).
    { intros -> E. apply (Q E). }
    assert (N : w_trace w' = w_trace w -> error_events w (Next w' r') = []).
    { intros E. unfold error_events. rewrite E, skipn_all. reflexivity. }
    destruct o; try discriminate Ec; cbn [op_events]; rewrite ?Ho; cbn [step] in Ho.
    + apply Q. injection Ho as <- _. reflexivity.
    + destruct (nth s (w_iface w) false); [|discriminate]. apply release_seq_next in Ho. destruct Ho as [-> [[-> _]|(_ & _ & q & _ & -> & _)]]; [apply Z; auto|].
      eexists. split; [reflexivity|]. unfold error_events. cbn [w_trace set_sdead_trace add_trace set_sdead set_iface]. rewrite skipn_all_app.
      unfold dtor_events. destruct (seq_dtor_error q) as [[k n]|]; reflexivity.
    + destruct (is_overload_set sigs && _); [|discriminate]. apply Q. injection Ho as <- _. reflexivity.
    + destruct (nth_error (w_mocks w) m) as [mk|]; [|discriminate]. destruct (mk_alive mk); [|discriminate]. apply Q. injection Ho as <- _. reflexivity.
    + destruct (nth_error (w_mocks w) dst) as [md|]; [|discriminate]. destruct (nth_error (w_mocks w) src) as [msr|]; [|discriminate].
      destruct (negb _); [discriminate|]. apply Q. destruct (dst =? src); injection Ho as <- _; reflexivity.
    + destruct (nth_error (w_mocks w) m) as [mk|]; [|discriminate]. destruct (mk_alive mk); [|discriminate]. apply Q. injection Ho as <- _. reflexivity.
    + apply do_expect_next in Ho. destruct Ho as (s & coll & Hf & _ & _ & D). rewrite Hf. destruct D as [(x & Hb & -> & _)|(b & ss & ctl & mem & Hb & _ & _ & _ & _ & ->)]; rewrite Hb.
      * apply Q. reflexivity.
      * exists []. rewrite app_nil_r. split; [reflexivity|]. unfold expect_events. rewrite !delivered_app. 
        assert (forall qs, delivered (flat_map (fun q => [MRead (PlSeq q); MWrite (PlSeq q)]) qs) = []) as -> by (induction qs; auto).
        assert (forall qs, delivered (map (fun q => MWrite (PlSeq q)) qs) = []) as Dm by (induction qs; auto).
        destruct (_ || _); rewrite ?Dm; reflexivity.
    + unfold do_action in Ho. destruct (w_frames w) as [|f fs]; [discriminate|]. destruct (f_todo f); [discriminate|]. destruct (negb _); [discriminate|].
      injection Ho as <- _. eexists. split; reflexivity.
    + destruct (w_frames w); [discriminate|]. destruct (_ && _); discriminate.
    + unfold do_final in Ho. destruct (w_frames w) as [|f fs]; [discriminate|]. destruct (f_todo f); [|discriminate]. destruct (f_final f); [discriminate|].
      destruct (negb _); [discriminate|]. injection Ho as <- _. eexists. split; reflexivity.
    + unfold do_return in Ho. destruct (w_frames w) as [|f fs]; [discriminate|]. destruct (negb _); [discriminate|]. destruct (nth_error _ _); [|discriminate].
      apply Q. destruct (finalizer_result _ _); [|unfold thrown in Ho; destruct (f_noexcept f); [discriminate|]]; injection Ho as <- _; reflexivity.
    + destruct (nth_error (w_scoped w) h) as [[e| |]|]; try discriminate. destruct (nth_error (w_exps w) e) as [eo|]; [|discriminate].
      destruct (eo_alive eo); [|discriminate]. injection Ho as <- _. exists []. rewrite app_nil_r. auto.
    + destruct (nth_error (w_scoped w) h) as [[e| |]|] eqn:Hh; try discriminate.
      * eapply delivered_handle; eauto.
      * injection Ho as <- <-. unfold handle_events. rewrite Hh. apply Z; auto.
    + destruct (nth_error (w_scoped w) h) as [[e| |]|]; try discriminate; injection Ho as <- _; apply Q; reflexivity.
    + destruct (nth_error (w_scoped w) dst) as [old|] eqn:Hd; [|destruct (nth_error (w_scoped w) src) as [[]|]; discriminate].
      destruct (nth_error (w_scoped w) src) as [x|]; [|destruct old; discriminate].
      assert (H' : (if dst =? src then Next w RUnit
                    else match old with
                         | HOwns e => match end_expectation (set_scoped w (upd (upd (w_scoped w) src HEmpty) dst x)) e with
                                      | Next w2 (RThrow _) => Stop
                                      | other => other
                                      end
                         | _ => Next (set_scoped w (upd (upd (w_scoped w) src HEmpty) dst x)) RUnit
                         end) = Next w' r') by (destruct old, x; try discriminate; exact Ho).
      clear Ho. destruct (dst =? src); [injection H' as <- <-; apply Z; auto|]. destruct old as [e| |].
      * destruct (end_expectation _ e) as [w2 r2| | |] eqn:He in H'; try discriminate.
        assert (w2 = w' /\ r2 = r') as [-> ->] by (destruct r2; inversion H'; auto). eapply delivered_handle; eauto.
      * injection H' as <- <-. unfold handle_events. rewrite Hd. apply Z; auto.
      * injection H' as <- <-. unfold handle_events. rewrite Hd. apply Z; auto.
    + injection Ho as <- _. eexists. split; reflexivity.
    + injection Ho as <- _. apply Q. reflexivity.
  - unfold cstep in Hs. unfold ev_of. destruct (nth_error (c_threads c) t) as [th|]; [|discriminate]. destruct (t_pending th) as [[[n ci] ne]|]; [|discriminate].
    set (w := enter (cw c) th) in *. change (w_trace (cw c)) with (w_trace w).
    destruct (count_call release w n ci ne) as [w' r'| | |] eqn:Hc; try discriminate. cbn [embed] in Hs. injection Hs as <- <-.
    change (w_trace (cw (leave c t w' None (c_log c ++ [(t, n, ci)])))) with (w_trace w'). clearbody w.
    unfold count_call in Hc. destruct (nth_error (w_exps w) n) as [eo|]; [|discriminate]. destruct (negb (eo_alive eo)); [discriminate|].
    exists []. rewrite app_nil_r. split.
    + destruct (consume_with _ _ _) as [[ss ctl]|x| |u]; try discriminate.
      * destruct (consume_asserts _ _); try discriminate. injection Hc as <- _. reflexivity.
      * unfold thrown in Hc. destruct ne; [discriminate|]. injection Hc as <- _. reflexivity.
    + unfold count_events. rewrite !delivered_app. assert (forall ctl, delivered (writes_seqs ctl) = []) as W.
      { intros ctl. unfold writes_seqs. induction (c_seqs ctl) as [|[q i] l IH]; auto. }
      rewrite W. destruct release, (_ || _); cbn; rewrite ?W; try reflexivity; apply (f_equal (fun x => x ++ _)) with (1 := delivered_reads (e_ctl (eo_exp eo))).
Qed.

(** The end of a scope: the list is changed under the mutex; the sequences of the expectation are read only for the report that it is not fulfilled
    (and not even then, if it is saturated). *)
Theorem C67_accesses_of_scope_ends release c t h e x c' r :
  cstep release c t (AOp (OEndScope h)) = CNext c' r -> nth_error (w_scoped (cw c)) h = Some (HOwns e) -> exp_at (cw c) e x ->
  let ev := ev_of release c t (AOp (OEndScope h)) in
  (forall p, In (MWrite p) ev <-> p = PlVector (eo_coll x)) /\
  (forall p, In (MRead p) ev <->
     p = PlVector (eo_coll x) \/ p = PlCount e \/ (p = PlReporter /\ delivered ev <> []) \/
     (exp_is_satisfied (eo_exp x) = false /\ exists q, p = PlSeq q /\ In q (x_seqs x) /\ c_count (e_ctl (eo_exp x)) <> x_max x)) /\
  exists body rest, ev = MLock (eo_coll x) :: body ++ MUnlock (eo_coll x) :: rest /\ Forall lockless body /\ Forall lockless rest.
Proof.
  intros Hs Hh Hx ev. unfold cstep in Hs. destruct (nth_error (c_threads c) t) as [th|] eqn:Hth; [|discriminate].
  destruct (t_pending th) as [[[n ci] ne]|] eqn:Hp; [discriminate|]. cbn [is_call] in Hs.
  set (w := enter (cw c) th) in *. destruct (step w (OEndScope h)) as [w' r'| | |] eqn:Ho; try discriminate.
  set (errs := error_events w (Next w' r')).
  set (reps := if exp_is_satisfied (eo_exp x) then [] else report_events e (eo_exp x) ++ match exp_report_of (w_seqs w) (eo_exp x) with Ret _ => deliver KUnfulfilled | _ => [] end).
  assert (Ev : ev = MLock (eo_coll x) :: (MRead (PlVector (eo_coll x)) :: MWrite (PlVector (eo_coll x)) :: MRead (PlCount e) :: reps) ++ MUnlock (eo_coll x) :: errs).
  { unfold ev, ev_of. rewrite Hth, Hp. cbn [is_call op_events]. fold w. rewrite Ho. unfold handle_events. change (w_scoped w) with (w_scoped (cw c)). rewrite Hh.
    unfold end_events. change (w_exps w) with (w_exps (cw c)). unfold exp_at in Hx. rewrite Hx. unfold remove_events. cbn [app]. rewrite <- !app_assoc. reflexivity. }
  assert (De : forall ps i y, In y (describe_events e i ps) -> exists u, y = MUser u).
  { clear. induction ps as [|p ps IH]; intros i y H; cbn [describe_events] in H; [destruct H|]. apply in_app_or in H. destruct H as [H|H].
    - destruct (is_arg p); [|destruct H]. destruct H as [<-|[]]. eauto.
    - destruct (policy_describe p); try contradiction. eauto. }
  assert (St : forall y, In y (state_events e (e_ctl (eo_exp x))) <->
    y = MRead (PlCount e) \/ exists q, y = MRead (PlSeq q) /\ In q (x_seqs x) /\ c_count (e_ctl (eo_exp x)) <> x_max x).
  { intros y. unfold state_events, x_seqs, x_max. set (ctl := e_ctl (eo_exp x)). split.
    - intros [<-|H]; auto. destruct (Z.eqb_spec (c_count ctl) (c_max ctl)) as [|Hne]; [destruct H|]. right. unfold reads_seqs in H. apply in_map_iff in H.
      destruct H as ([q i] & <- & H). exists q. split; auto. split; auto. apply in_map_iff. exists (q, i). auto.
    - intros [->|(q & -> & H & Hne)]; [left; auto|]. right. apply Z.eqb_neq in Hne. rewrite Hne. apply in_map_iff in H. destruct H as ([q' i] & <- & H).
      unfold reads_seqs. apply in_map_iff. exists (q', i). auto. }
  assert (Er : forall y, In y errs -> exists k, In y (deliver k) /\ delivered errs <> []).
  { intros y H. unfold errs, error_events in *. apply in_flat_map in H. destruct H as (v & Hv & H). destruct v as [? [] ?| | |]; try contradiction. exists KError. split; auto.
    apply in_split in Hv. destruct Hv as (l1 & l2 & ->). rewrite flat_map_app, delivered_app. cbn [flat_map]. rewrite delivered_app. cbn [delivered deliver flat_map app].
    intros E. apply app_eq_nil in E. destruct E as [_ E]. discriminate. }
  assert (Re : forall y, In y reps -> exp_is_satisfied (eo_exp x) = false /\
    ((exists u, y = MUser u) \/ In y (state_events e (e_ctl (eo_exp x))) \/ (y = MRead PlReporter /\ delivered reps <> []))).
  { intros y H. unfold reps in *. destruct (exp_is_satisfied (eo_exp x)); [destruct H|]. split; auto. unfold report_events in *. rewrite !in_app_iff in H. destruct H as [[H|H]|H].
    - auto.
    - left. eauto.
    - destruct (exp_report_of _ _); try contradiction. destruct H as [<-|[<-|[]]]; [|left; eauto]. right. right. split; auto.
      rewrite !delivered_app. intros E. apply app_eq_nil in E. destruct E as [_ E]. discriminate. }
  assert (Dd : delivered ev = delivered reps ++ delivered errs).
  { rewrite Ev. change (MLock (eo_coll x) :: ?b ++ ?z) with ((MLock (eo_coll x) :: b) ++ z). rewrite delivered_app. reflexivity. }
  split; [|split].
  - intros p. rewrite Ev. cbn [In]. rewrite in_app_iff. cbn [In]. split.
    + intros [H|[[H|[H|[H|H]]]|[H|H]]]; try discriminate.
      * injection H as <-. auto.
      * apply Re in H. destruct H as [_ [[u H]|[H|[H _]]]]; try discriminate. apply St in H. destruct H as [H|(q & H & _)]; discriminate.
      * apply Er in H. destruct H as (k & [H|[H|[]]] & _); discriminate.
    + intros ->. auto.
  - intros p. rewrite Dd. rewrite Ev. cbn [In]. rewrite in_app_iff. cbn [In]. split.
    + intros [H|[[H|[H|[H|H]]]|[H|H]]]; try discriminate.
      * injection H as <-. auto.
      * injection H as <-. auto.
      * apply Re in H. destruct H as [Hu [[u H]|[H|[H Hn]]]]; try discriminate.
        -- apply St in H. destruct H as [H|(q & H & Hq & Hne)]; injection H as ->; auto. right. right. right. split; auto. exists q. auto.
        -- injection H as ->. right. right. left. split; auto. intros E. apply app_eq_nil in E. tauto.
      * apply Er in H. destruct H as (k & [H|[H|[]]] & Hn); try discriminate. injection H as <-. right. right. left. split; auto.
        intros E. apply app_eq_nil in E. tauto.
    + intros [->|[->|[[-> H]|(Hu & q & -> & Hq & Hne)]]]; auto 10.
      * destruct reps eqn:Er0.
        -- right. right. right. unfold errs, error_events in *. cbn [delivered flat_map app] in H. apply in_flat_map.
           destruct (existsb (fun ev => match ev with EvReport _ (RError _ _) _ => true | _ => false end) (skipn (length (w_trace w)) (w_trace w'))) eqn:Eb.
           ++ apply existsb_exists in Eb. destruct Eb as (v & Hv & Ev'). exists v. split; auto. destruct v as [? [] ?| | |]; try discriminate. left. reflexivity.
           ++ exfalso. apply H. clear -Eb. induction (skipn _ _) as [|v l IH]; auto. cbn [existsb] in Eb. apply orb_false_iff in Eb. destruct Eb as [E1 E2].
              cbn [flat_map]. rewrite delivered_app, (IH E2). destruct v as [? [] ?| | |]; try discriminate; reflexivity.
        -- destruct (delivered (m :: l)) eqn:Ed.
           ++ right. right. right. cbn [app] in H. unfold errs, error_events in *. apply in_flat_map.
              destruct (existsb (fun ev => match ev with EvReport _ (RError _ _) _ => true | _ => false end) (skipn (length (w_trace w)) (w_trace w'))) eqn:Eb.
              ** apply existsb_exists in Eb. destruct Eb as (v & Hv & Ev'). exists v. split; auto. destruct v as [? [] ?| | |]; try discriminate. left. reflexivity.
              ** exfalso. apply H. clear -Eb. induction (skipn _ _) as [|v l' IH]; auto. cbn [existsb] in Eb. apply orb_false_iff in Eb. destruct Eb as [E1 E2].
                 cbn [flat_map]. rewrite delivered_app, (IH E2). destruct v as [? [] ?| | |]; try discriminate; reflexivity.
           ++ right. left. right. right. right. rewrite <- Er0. rewrite <- Er0 in Ed. clear -Ed. unfold reps in *. destruct (exp_is_satisfied (eo_exp x)); [discriminate|].
              rewrite !in_app_iff. right. unfold report_events in Ed. rewrite !delivered_app, delivered_state, delivered_describe in Ed.
              destruct (exp_report_of _ _); try discriminate. left. reflexivity.
      * right. left. right. right. right. unfold reps. rewrite Hu. rewrite in_app_iff. left. unfold report_events. rewrite in_app_iff. left. apply St. right. exists q. auto.
  - exists (MRead (PlVector (eo_coll x)) :: MWrite (PlVector (eo_coll x)) :: MRead (PlCount e) :: reps), errs. split; [exact Ev|]. split.
    + repeat (constructor; [exact Logic.I|]). apply Forall_forall. intros y H. apply Re in H. destruct H as [_ [[u ->]|[H|[-> _]]]]; try exact Logic.I.
      apply St in H. destruct H as [->|(q & -> & _)]; exact Logic.I.
    + apply Forall_forall. intros y H. apply Er in H. destruct H as (k & [<-|[<-|[]]] & _); exact Logic.I.
Qed.

Example C67_scope_end_example : exists c1 x r,
  let c := after2 (duo ++ [(0, AOp (ODropSeq 0)); (0, AOp (OEndScope 2)); (0, AOp (OUnwind 1))]) in
  cstep true c 0 (AOp (OEndScope 0)) = CNext c1 r /\ nth_error (w_scoped (cw c)) 0 = Some (HOwns 0) /\ exp_at (cw c) 0 x /\
  exp_is_satisfied (eo_exp x) = false /\ x_seqs x = [0] /\ delivered (ev_of true c 0 (AOp (OEndScope 0))) = [KUnfulfilled; KError].
Proof. do 3 eexists. cbv zeta. split; [vm_compute; reflexivity|]. split; [vm_compute; reflexivity|]. split; [vm_compute; reflexivity|]. split; [vm_compute; reflexivity|]. split; vm_compute; reflexivity. Qed.

Lemma describe_sound e ps u : forall i, In (MUser u) (describe_events e i ps) ->
  exists k j m p, u = UDescribe e (i + k) /\ nth_error ps k = Some (PArg j m p).
Proof.
  induction ps as [|p ps IH]; intros i H; cbn [describe_events] in H; [destruct H|]. apply in_app_or in H. destruct H as [H|H].
  - destruct p; cbn in H; try contradiction. destruct H as [H|[]]. injection H as <-. exists 0. do 3 eexists. rewrite Nat.add_0_r. split; reflexivity.
  - destruct (policy_describe p); try contradiction. apply IH in H. destruct H as (k & j & m & q & -> & Hn). exists (S k), j, m, q. split; [f_equal; lia|auto].
Qed.

Lemma policy_sound e c ps u : forall i, In (MUser u) (policy_events e i ps c) ->
  exists k j m p, (u = UMatches e (i + k) \/ u = UDescribe e (i + k)) /\ nth_error ps k = Some (PArg j m p).
Proof.
  induction ps as [|p ps IH]; intros i H; cbn [policy_events] in H; [destruct H|]. apply in_app_or in H. destruct H as [H|H].
  - destruct p; cbn in H; try contradiction. destruct H as [H|[]]. injection H as <-. exists 0. do 3 eexists. rewrite Nat.add_0_r. split; [left|]; reflexivity.
  - destruct (policy_matches p c); try contradiction. apply in_app_or in H. destruct H as [H|H].
    + destruct p; cbn in H; try contradiction. destruct H as [H|[]]. injection H as <-. exists 0. do 3 eexists. rewrite Nat.add_0_r. split; [right|]; reflexivity.
    + destruct (policy_describe p); try contradiction. apply IH in H. destruct H as (k & j & m & q & Hu & Hn). exists (S k), j, m, q.
      split; [rewrite <- plus_n_Sm; exact Hu|auto].
Qed.

Lemma no_user_reads ctl u : ~ In (MUser u) (reads_seqs ctl).
Proof. unfold reads_seqs. intros H. apply in_map_iff in H. destruct H as ([q i] & H & _). discriminate. Qed.
Lemma no_user_state e ctl u : ~ In (MUser u) (state_events e ctl).
Proof. unfold state_events. intros [H|H]; [discriminate|]. destruct (_ =? _)%Z; [destruct H|exact (no_user_reads _ _ H)]. Qed.

Definition is_report (u : user_code) : Prop := exists k, u = UReport k.
Lemma deliver_sound k u : In (MUser u) (deliver k) -> is_report u.
Proof. cbn. intros [H|[H|[]]]; [discriminate|]. injection H as <-. exists k. reflexivity. Qed.

(** The user code run for expectation [e] belongs to one of its requirements on arguments. *)
Definition belongs_to (e : nat) (x : expectation) (u : user_code) : Prop :=
  exists i j m p, (u = UMatches e i \/ u = UDescribe e i) /\ nth_error (e_policies x) i = Some (PArg j m p).

Lemma report_sound e x u : In (MUser u) (report_events e x) -> belongs_to e x u.
Proof.
  unfold report_events. intros H. apply in_app_or in H. destruct H as [H|H]; [destruct (no_user_state _ _ _ H)|].
  apply describe_sound in H. destruct H as (k & j & m & p & -> & Hn). exists k, j, m, p. auto.
Qed.
Lemma visit_sound ss c e x u : In (MUser u) (visit_events ss c (e, x)) -> belongs_to e x u \/ is_report u.
Proof.
  unfold visit_events. intros H. repeat (apply in_app_or in H; destruct H as [H|H]).
  - destruct (no_user_state _ _ _ H).
  - apply policy_sound in H. destruct H as (k & j & m & p & Hu & Hn). left. exists k, j, m, p. auto.
  - destruct (exp_matches ss x c); try contradiction. apply in_app_or in H. destruct H as [H|H]; [left; apply report_sound; auto|].
    destruct (exp_report_of ss x); try contradiction. right. eapply deliver_sound; eauto.
Qed.

Lemma error_sound w s u : In (MUser u) (error_events w s) -> is_report u.
Proof.
  unfold error_events. destruct s; try contradiction. intros H. apply in_flat_map in H. destruct H as (ev & _ & H).
  destruct ev as [? [] ?| | |]; try contradiction. eapply deliver_sound; eauto.
Qed.

Lemma handle_sound w h u : In (MUser u) (handle_events w h) ->
  is_report u \/ exists e x, nth_error (w_scoped w) h = Some (HOwns e) /\ nth_error (w_exps w) e = Some x /\ exp_is_satisfied (eo_exp x) = false /\
    exists i j m p, u = UDescribe e i /\ nth_error (e_policies (eo_exp x)) i = Some (PArg j m p).
Proof.
  unfold handle_events, end_events. destruct (nth_error (w_scoped w) h) as [[e| |]|]; try contradiction.
  destruct (nth_error (w_exps w) e) as [x|] eqn:Hx; [|contradiction]. unfold remove_events. intros H.
  apply in_app_or in H. destruct H as [H|H]; [cbn in H; repeat (destruct H as [H|H]; [discriminate|]); destruct H|].
  apply in_app_or in H. destruct H as [H|H]; [|cbn in H; destruct H as [H|[]]; discriminate].
  destruct (exp_is_satisfied (eo_exp x)) eqn:Es; [destruct H|]. apply in_app_or in H. destruct H as [H|H].
  - right. exists e, x. do 3 (split; auto). unfold report_events in H. apply in_app_or in H. destruct H as [H|H]; [destruct (no_user_state _ _ _ H)|].
    apply describe_sound in H. destruct H as (k & j & m & p & -> & Hn). exists k, j, m, p. auto.
  - left. destruct (exp_report_of (w_seqs w) (eo_exp x)); try contradiction. eapply deliver_sound; eauto.
Qed.

Definition code_of (u : user_code) (a : action) (c : cworld) : Prop :=
  match u with
  | UMatches e i => exists m ov args l coll x j mt p, a = AMatch m ov args l /\ uses_coll c m ov coll /\ listed c coll e /\ exp_at (cw c) e x /\
      nth_error (e_policies (eo_exp x)) i = Some (PArg j mt p)
  | UDescribe e i => exists x j mt p, exp_at (cw c) e x /\ nth_error (e_policies (eo_exp x)) i = Some (PArg j mt p) /\
      ((exists m ov args l coll, a = AMatch m ov args l /\ uses_coll c m ov coll /\ listed c coll e) \/
       (exists h, nth_error (w_scoped (cw c)) h = Some (HOwns e) /\ exp_is_satisfied (eo_exp x) = false /\
          (a = AOp (OEndScope h) \/ exists h', a = AOp (OMoveAssignScoped h h') /\ h <> h')))
  | UReport _ => True
  | USideEffect => a = AOp OAction
  | UFinalizer => a = AOp OFinal
  end.

(** The user code a step runs: matchers of the expectations listed for the call, descriptions of the same ones or of the unfulfilled expectation
    whose scope ends; each for a requirement on an argument. *)
Theorem C67_user_code release c t a u : In (MUser u) (ev_of release c t a) -> code_of u a c.
Proof.
  unfold ev_of. destruct (nth_error (c_threads c) t) as [th|]; [|intros []].
  set (w := enter (cw c) th). intros H. destruct (t_pending th) as [[[n ci] ne]|].
  - destruct a; try contradiction. destruct (nth_error (w_exps w) n) as [eo|]; [|contradiction]. exfalso. revert H. clear. unfold count_events.
    assert (W : forall ctl, ~ In (MUser u) (writes_seqs ctl)).
    { intros ctl H. unfold writes_seqs in H. apply in_map_iff in H. destruct H as ([q i] & H & _). discriminate. }
    rewrite !in_app_iff. intros [H|[H|[H|H]]]; [| |cbn in H; destruct H as [H|[H|[]]]; discriminate|].
    + destruct release; [destruct H|]. destruct H as [H|H]; [discriminate|]. exact (no_user_reads _ _ H).
    + exact (W _ H).
    + destruct (_ || _); [exact (W _ H)|destruct H].
  - destruct a as [o|m ov args l|]; try contradiction.
    + assert (Hh : forall h, In (MUser u) (handle_events w h) ->
        (AOp o = AOp (OEndScope h) \/ exists h', AOp o = AOp (OMoveAssignScoped h h') /\ h <> h') -> code_of u (AOp o) c).
      { intros h Hin Ho. apply handle_sound in Hin. destruct Hin as [[k ->]|(e & x & Hs & Hx & Es & i & j & mt & p & -> & Hn)]; cbn [code_of]; auto.
        exists x, j, mt, p. split; [exact Hx|]. split; auto. right. exists h. split; [exact Hs|]. auto. }
      assert (He : forall s, In (MUser u) (error_events w s) -> code_of u (AOp o) c).
      { intros s Hin. apply error_sound in Hin. destruct Hin as [k ->]. exact Logic.I. }
      destruct o; cbn [is_call op_events] in H; try contradiction.
      * eapply He; eauto.
      * exfalso. destruct (find_overload w m ov) as [|[s coll]]; [contradiction|]. destruct (build s ms cls) as [b| |]; try contradiction. unfold expect_events in H.
        rewrite !in_app_iff in H. destruct H as [H|[H|H]].
        -- apply in_flat_map in H. destruct H as (q & _ & [H|[H|[]]]); discriminate.
        -- destruct (_ || _); [|contradiction]. apply in_map_iff in H. destruct H as (q & H & _). discriminate.
        -- cbn in H. repeat (destruct H as [H|H]; [discriminate|]). destruct H.
      * destruct H as [H|[]]. injection H as <-. reflexivity.
      * destruct H as [H|[]]. injection H as <-. reflexivity.
      * destruct (nth_error (w_scoped w) h) as [[e| |]|]; try contradiction. destruct H as [H|[]]. discriminate.
      * apply in_app_or in H. destruct H as [H|H]; [eapply Hh; eauto|eapply He; eauto].
      * apply in_app_or in H. destruct H as [H|H]; [|eapply He; eauto]. destruct (Nat.eqb_spec dst src) as [|Hne]; [contradiction|]. eapply Hh; eauto.
      * destruct H as [H|[]]. discriminate.
    + destruct (find_overload w m ov) as [|[s coll]] eqn:Hf; [contradiction|]. cbv zeta in H.
      destruct (nth_error (w_colls w) coll) as [lst|] eqn:Hl; [|contradiction]. destruct (lookup_exps w (rev lst)) as [es|] eqn:Hes; [|contradiction].
      unfold match_events in H. rewrite !in_app_iff in H. destruct H as [H|[H|[H|H]]].
      * cbn in H. destruct H as [H|[H|[]]]; discriminate.
      * apply in_flat_map in H. destruct H as ([e x] & Hin & H). destruct (lookup_exps_spec _ _ _ Hes) as [Hm Hx]. destruct (Hx _ _ Hin) as (eo & Hx' & ->).
        assert (Hli : listed c coll e). { exists lst. split; [exact Hl|]. apply in_rev. rewrite <- Hm. apply in_map_iff. exists (e, eo_exp eo). auto. }
        assert (Hu : uses_coll c m ov coll) by (exists s; exact Hf).
        apply visit_sound in H. destruct H as [(i & j & mt & p & [-> | ->] & Hn)|[k ->]]; cbn [code_of]; auto.
        -- exists m, ov, args, l, coll, eo, j, mt, p. auto.
        -- exists eo, j, mt, p. split; auto. split; auto. left. exists m, ov, args, l, coll. auto.
      * cbn in H. destruct H as [H|[]]. discriminate.
      * destruct (outcome_of w _ es); [|contradiction]. apply deliver_sound in H. destruct H as [k ->]. exact Logic.I.
Qed.

(** Conversely, a call asks every requirement of every expectation of its mock, satisfied or not, up to the first one that throws. *)
Theorem C67_every_requirement_is_asked release c t m ov args l c1 r s coll e x i j mt p :
  cstep release c t (AMatch m ov args l) = CNext c1 r ->
  find_overload (cw c) m ov = inr (s, coll) -> listed c coll e -> exp_at (cw c) e x -> nth_error (e_policies (eo_exp x)) i = Some (PArg j mt p) ->
  (forall k q, k < i -> nth_error (e_policies (eo_exp x)) k = Some q ->
     (exists b, policy_matches q (mkCall (sg_ret s) (sg_params s) args (frontend_category s) (frontend_constness s) l) = Ret b) /\
     exists d, policy_describe q = Ret d) ->
  In (MUser (UMatches e i)) (ev_of release c t (AMatch m ov args l)).
Proof.
  intros Hs Hf (lst & Hlst & Hin) Hx Hi Hq. pose proof (cstep_match _ _ _ _ _ _ _ _ _ Hs) as (th & s' & coll' & Hth & Hp & Hf' & Hlen & D).
  unfold ev_of. rewrite Hth, Hp. change (find_overload (enter (cw c) th) m ov) with (find_overload (cw c) m ov) in *. rewrite Hf in *.
  injection Hf' as <- <-. cbv zeta.
  assert (Hlst' : nth_error (w_colls (enter (cw c) th)) coll = Some lst) by exact Hlst. rewrite Hlst'.
  assert (Hlk : exists es, lookup_exps (enter (cw c) th) (rev lst) = Some es).
  { destruct (lookup_exps (enter (cw c) th) (rev lst)) as [es|] eqn:E; [eauto|].
    destruct D as [(w' & n & Hm & _)|(w' & Hm & _)]; unfold match_call in Hm; rewrite Hlst', E in Hm; discriminate. }
  destruct Hlk as [es Hes]. rewrite Hes. destruct (lookup_exps_in _ _ _ e Hes) as (eo & He & Hine); [apply in_rev in Hin; exact Hin|].
  assert (eo = x) as -> by (unfold exp_at in Hx; cbn [enter set_uncaught set_frames w_exps] in He; congruence).
  unfold match_events. rewrite !in_app_iff. right. left. apply in_flat_map. exists (e, eo_exp x). split; auto.
  unfold visit_events. rewrite !in_app_iff. right. left.
  set (ci := mkCall (sg_ret s) (sg_params s) args (frontend_category s) (frontend_constness s) l) in *. clearbody ci.
  assert (G : forall ps i0 k, nth_error ps k = Some (PArg j mt p) ->
    (forall k' q, k' < k -> nth_error ps k' = Some q -> (exists b, policy_matches q ci = Ret b) /\ exists d, policy_describe q = Ret d) ->
    In (MUser (UMatches e (i0 + k))) (policy_events e i0 ps ci)).
  { clear. induction ps as [|q ps IH]; intros i0 [|k] Hk Hp; try discriminate; cbn [policy_events].
    - injection Hk as ->. rewrite Nat.add_0_r. left. reflexivity.
    - destruct (Hp 0 q (Nat.lt_0_succ k) eq_refl) as [(b & ->) (d & ->)]. rewrite !in_app_iff. right. right. rewrite <- plus_n_Sm. apply (IH (S i0)); auto.
      intros k' q' Hk' Hq'. apply (Hp (S k') q'); auto. lia. }
  apply (G _ 0 i); auto.
Qed.

Example C67_every_requirement_example : exists c c1 r x s mt p,
  c = after2 duo /\ cstep true c 1 (AMatch 1 0 [VInt 1] there) = CNext c1 r /\ find_overload (cw c) 1 0 = inr (s, 1) /\ listed c 1 2 /\ exp_at (cw c) 2 x /\
  nth_error (e_policies (eo_exp x)) 0 = Some (PArg 0 mt p).
Proof.
  do 7 eexists. split; [reflexivity|]. split; [vm_compute; reflexivity|]. split; [vm_compute; reflexivity|].
  split; [eexists; split; [vm_compute; reflexivity|left; reflexivity]|]. split; vm_compute; reflexivity.
Qed.

(** ** C67: what is protected *)

(** In every execution of any number of threads, with and without asserts, all accesses to the list of expectations of a mock are
    ordered by its mutex. *)
Theorem C67_lists_never_race release threads acts coll : ~ race_on (events release (cinit threads) acts) (PlVector coll).
Proof. apply vectors_no_race. Qed.

(** Calls made by different threads on different mocks, whose expectations have no sequence in common, do not race at all. [owner] assigns
    the lists of expectations to the threads. Nothing but calls (with their side effects and finalizers) is allowed to run concurrently. *)
Theorem C67_separate_calls_never_race release threads acts0 c owner acts :
  cruns release (cinit threads) acts0 c ->
  (forall t e, ~ pending_exp c t e) ->
  (forall t a, In (t, a) acts -> call_step a = true) ->
  (forall t m ov args l coll, In (t, AMatch m ov args l) acts -> uses_coll c m ov coll -> owner coll = t) ->
  (forall coll e x coll' e' x' q, listed c coll e -> exp_at (cw c) e x -> listed c coll' e' -> exp_at (cw c) e' x' ->
     In q (map fst (c_seqs (e_ctl (eo_exp x)))) -> In q (map fst (c_seqs (e_ctl (eo_exp x')))) -> owner coll = owner coll') ->
  forall p, ~ race_on (events release c acts) p.
Proof. apply disjoint_no_race. Qed.

Definition both_calls : list (nat * action) :=
  [(0, AMatch 0 0 [VInt 1] here); (1, AMatch 1 0 [VInt 1] there); (1, ACount); (0, ACount)] ++ finish 0 ++ finish 1.

Lemma no_pending_after2 acts : forallb (fun th => match t_pending th with None => true | Some _ => false end) (c_threads (after2 acts)) = true ->
  forall t e, ~ pending_exp (after2 acts) t e.
Proof.
  intros H t e (th & ci & ne & Hth & Hp). rewrite forallb_forall in H. specialize (H th (nth_error_In _ _ Hth)). rewrite Hp in H. discriminate.
Qed.

Example C67_separate_calls_example :
  (exists c, cruns true (after2 apart) both_calls c) /\
  forall p, ~ race_on (events true (after2 apart) both_calls) p.
Proof.
  split.
  - eexists. apply cexec_runs. vm_compute. reflexivity.
  - apply (C67_separate_calls_never_race true 2 apart (after2 apart) (fun coll => coll) both_calls).
    + apply after2_runs. vm_compute. reflexivity.
    + apply no_pending_after2. vm_compute. reflexivity.
    + intros t a H. cbn in H. repeat (destruct H as [H|H]; [injection H as <- <-; reflexivity|]). destruct H.
    + intros t m ov args l coll H (s & Hf). cbn in H.
      repeat (destruct H as [H|H]; [try discriminate H; injection H as <- <- <- <- <-; vm_compute in Hf; injection Hf as _ <-; reflexivity|]). destruct H.
    + intros coll e x coll' e' x' q _ Hx _ _ Hq _. exfalso.
      assert (E : c_seqs (e_ctl (eo_exp x)) = []).
      { destruct e as [|[|e]]; vm_compute in Hx; [injection Hx as <-; reflexivity|injection Hx as <-; reflexivity|destruct e; discriminate]. }
      rewrite E in Hq. exact Hq.
Qed.

(** ** C67: what races *)

(** Two accepted calls of two threads on one mock race on the counter of an expectation, whatever the interleaving, with and without
    asserts. *)
Theorem C67_calls_on_one_mock_race release c t1 m1 ov1 a1 l1 t2 m2 ov2 a2 l2 coll c' acts :
  t1 <> t2 -> uses_coll c m1 ov1 coll -> uses_coll c m2 ov2 coll ->
  interleaved [(t1, AMatch m1 ov1 a1 l1); (t1, ACount)] [(t2, AMatch m2 ov2 a2 l2); (t2, ACount)] acts ->
  cruns release c acts c' ->
  exists e, race_on (events release c acts) (PlCount e).
Proof. apply two_calls_race. Qed.

Example C67_calls_on_one_mock_example : exists c',
  let c := after2 apart in
  let acts := [(0, AMatch 0 0 [VInt 1] here); (0, ACount); (1, AMatch 0 0 [VInt 2] there); (1, ACount)] in
  uses_coll c 0 0 0 /\
  interleaved [(0, AMatch 0 0 [VInt 1] here); (0, ACount)] [(1, AMatch 0 0 [VInt 2] there); (1, ACount)] acts /\
  cruns true c acts c'.
Proof.
  eexists. cbv zeta. split; [eexists; vm_compute; reflexivity|]. split; [repeat constructor|]. apply cexec_runs. vm_compute. reflexivity.
Qed.

(** So the calls of mocks are not safe to use from several threads without further synchronisation. *)
Theorem C67_calls_never_race_refuted : exists acts c p, cruns false (cinit 2) acts c /\ race_on (events false (cinit 2) acts) p.
Proof.
  set (tail := [(0, AMatch 0 0 [VInt 1] here); (0, ACount); (1, AMatch 0 0 [VInt 2] there); (1, ACount)]).
  assert (H1 : exists c1, cexec false (cinit 2) apart = Some c1) by (eexists; vm_compute; reflexivity). destruct H1 as [c1 H1].
  exists (apart ++ tail), (match cexec false c1 tail with Some c => c | None => c1 end), (PlCount 0).
  assert (E1 : c1 = match cexec false (cinit 2) apart with Some c => c | None => cinit 0 end) by (rewrite H1; reflexivity).
  pose proof (cexec_runs _ _ _ _ H1) as R1. split.
  - eapply cruns_app; [exact R1|]. apply cexec_runs. rewrite E1. vm_compute. reflexivity.
  - unfold tail. 
    assert (S1 : exists c2, cexec false c1 [(0, AMatch 0 0 [VInt 1] here)] = Some c2) by (rewrite E1; eexists; vm_compute; reflexivity). destruct S1 as [c2 S1].
    assert (E2 : c2 = match cexec false c1 [(0, AMatch 0 0 [VInt 1] here)] with Some c => c | None => c1 end) by (rewrite S1; reflexivity).
    assert (S2 : exists c3 r, cstep false c2 0 ACount = CNext c3 r) by (rewrite E2, E1; do 2 eexists; vm_compute; reflexivity). destruct S2 as (c3 & r & S2).
    assert (E3 : c3 = match cstep false c2 0 ACount with CNext c _ => c | _ => c2 end) by (rewrite S2; reflexivity).
    change (apart ++ [(0, AMatch 0 0 [VInt 1] here); (0, ACount); (1, AMatch 0 0 [VInt 2] there); (1, ACount)])
      with ((apart ++ [(0, AMatch 0 0 [VInt 1] here)]) ++ (0, ACount) :: [] ++ (1, AMatch 0 0 [VInt 2] there) :: [(1, ACount)]).
    eapply (steps_race false (cinit 2) _ c2 0 ACount c3 r [] c3 1 _ _ (PlCount 0) (MWrite (PlCount 0)) (MRead (PlCount 0))); auto.
    + eapply cruns_app; [exact R1|]. apply cexec_runs. exact S1.
    + constructor.
    + rewrite E2, E1. vm_compute. auto.
    + rewrite E3, E2, E1. vm_compute. auto 10.
    + left. auto.
    + left. split; [reflexivity|intros a []].
Qed.

(** More generally: whenever thread [t] counts a call for expectation [e], and another thread matches a call against the list which contains
    [e], the two accesses to the counter race: if the other thread matches between the two steps of the call of [t] ... *)
Theorem C67_match_races_with_pending_call release c acts1 c1 t e t' m ov args l c1' r acts2 c2 x acts3 coll :
  cruns release c acts1 c1 -> pending_exp c1 t e -> t <> t' ->
  uses_coll c1 m ov coll -> listed c1 coll e -> cstep release c1 t' (AMatch m ov args l) = CNext c1' r ->
  cruns release c1' acts2 c2 -> (forall a, ~ In (t, a) acts2) -> exp_at (cw c2) e x ->
  race_on (events release c (acts1 ++ (t', AMatch m ov args l) :: acts2 ++ (t, ACount) :: acts3)) (PlCount e).
Proof.
  intros H1 Hp Hne Hu Hl Hs H2 Ht Hx.
  assert (Hsame : forall acts c3 c4, cruns release c3 acts c4 -> (forall a, ~ In (t, a) acts) -> pending_exp c3 t e -> pending_exp c4 t e).
  { clear. induction 1 as [|c3 t0 a c4 r acts c5 Hs H IH]; auto. intros Ht (th & ci & ne & Hth & Hp). apply IH.
    - intros b Hb. apply (Ht b). right. auto.
    - exists th, ci, ne. split; auto. rewrite <- Hth. eapply cstep_other; eauto. intros ->. apply (Ht a). left. reflexivity. }
  assert (Hp2 : pending_exp c2 t e).
  { apply (Hsame ((t', AMatch m ov args l) :: acts2) c1 c2); auto.
    - econstructor; eauto.
    - intros a [E|Hin]; [congruence|eapply Ht; eauto]. }
  eapply (steps_race release c acts1 c1 t' _ c1' r acts2 c2 t ACount acts3); [exact H1|exact Hs|exact H2| | |auto| |].
  - eapply match_accesses; eauto.
  - exact (proj1 (count_accesses release c2 t e x Hp2 Hx)).
  - right. auto.
  - right. split; auto. intros b Hb. exfalso. eapply Ht; eauto.
Qed.

Example C67_pending_call_example : exists c1 c1' x,
  cruns true (cinit 2) (apart ++ [(0, AMatch 0 0 [VInt 1] here)]) c1 /\ pending_exp c1 0 0 /\ uses_coll c1 0 0 0 /\ listed c1 0 0 /\
  cstep true c1 1 (AMatch 0 0 [VInt 2] there) = CNext c1' RUnit /\ exp_at (cw c1') 0 x /\
  race_on (events true (cinit 2) ((apart ++ [(0, AMatch 0 0 [VInt 1] here)]) ++ (1, AMatch 0 0 [VInt 2] there) :: [] ++ (0, ACount) :: [(1, ACount)])) (PlCount 0).
Proof.
  assert (H : exists c1 c1' x, cruns true (cinit 2) (apart ++ [(0, AMatch 0 0 [VInt 1] here)]) c1 /\ pending_exp c1 0 0 /\ uses_coll c1 0 0 0 /\ listed c1 0 0 /\
    cstep true c1 1 (AMatch 0 0 [VInt 2] there) = CNext c1' RUnit /\ exp_at (cw c1') 0 x).
  { do 3 eexists. split; [apply cexec_runs; vm_compute; reflexivity|]. split; [do 3 eexists; vm_compute; split; reflexivity|].
    split; [eexists; vm_compute; reflexivity|]. split; [eexists; split; [vm_compute; reflexivity|left; reflexivity]|].
    split; [vm_compute; reflexivity|]. vm_compute. reflexivity. }
  destruct H as (c1 & c1' & x & H1 & H2 & H3 & H4 & H5 & H6). exists c1, c1', x. repeat (split; [assumption|]).
  apply (C67_match_races_with_pending_call true (cinit 2) _ c1 0 0 1 0 0 _ _ c1' RUnit [] c1' x _ 0); auto. constructor.
Qed.

(** ... or afterwards, as long as [t] does nothing which uses a mutex. *)
Theorem C67_match_races_with_counted_call release c acts1 c1 t e x c1' r acts2 c2 t' m ov args l c3 r' acts3 coll :
  cruns release c acts1 c1 -> pending_exp c1 t e -> exp_at (cw c1) e x -> t <> t' ->
  cstep release c1 t ACount = CNext c1' r ->
  cruns release c1' acts2 c2 -> (forall a, In (t, a) acts2 -> takes_lock a = false) ->
  uses_coll c2 m ov coll -> listed c2 coll e -> cstep release c2 t' (AMatch m ov args l) = CNext c3 r' ->
  race_on (events release c (acts1 ++ (t, ACount) :: acts2 ++ (t', AMatch m ov args l) :: acts3)) (PlCount e).
Proof.
  intros H1 Hp Hx Hne Hs H2 Ht Hu Hl Hs'.
  eapply (steps_race release c acts1 c1 t _ c1' r acts2 c2 t' _ acts3); [exact H1|exact Hs|exact H2| | |auto| |].
  - exact (proj1 (count_accesses release c1 t e x Hp Hx)).
  - eapply match_accesses; eauto.
  - left. auto.
  - left. auto.
Qed.

Example C67_counted_call_example : exists c1 c1' c2 x,
  let acts1 := apart ++ [(0, AMatch 0 0 [VInt 1] here)] in
  let acts2 := (0, ACount) :: finish 0 in
  cruns true (cinit 2) acts1 c1 /\ pending_exp c1 0 0 /\ exp_at (cw c1) 0 x /\ cruns true c1 acts2 c1' /\ uses_coll c1' 0 0 0 /\ listed c1' 0 0 /\
  cstep true c1' 1 (AMatch 0 0 [VInt 2] there) = CNext c2 RUnit /\
  race_on (events true (cinit 2) (acts1 ++ acts2 ++ [(1, AMatch 0 0 [VInt 2] there)])) (PlCount 0).
Proof.
  assert (H : exists c1 ca c1' c2 x, cruns true (cinit 2) (apart ++ [(0, AMatch 0 0 [VInt 1] here)]) c1 /\ pending_exp c1 0 0 /\ exp_at (cw c1) 0 x /\
    cstep true c1 0 ACount = CNext ca RUnit /\ cruns true ca (finish 0) c1' /\ uses_coll c1' 0 0 0 /\ listed c1' 0 0 /\
    cstep true c1' 1 (AMatch 0 0 [VInt 2] there) = CNext c2 RUnit).
  { do 5 eexists. split; [apply cexec_runs; vm_compute; reflexivity|]. split; [do 3 eexists; vm_compute; split; reflexivity|].
    split; [vm_compute; reflexivity|]. split; [vm_compute; reflexivity|]. split; [apply cexec_runs; vm_compute; reflexivity|].
    split; [eexists; vm_compute; reflexivity|]. split; [eexists; split; [vm_compute; reflexivity|left; reflexivity]|].
    vm_compute; reflexivity. }
  destruct H as (c1 & ca & c1' & c2 & x & H1 & H2 & H3 & H4 & H5 & H6 & H7 & H8). exists c1, c1', c2, x. cbv zeta. 
  repeat (split; [first [assumption|econstructor; eassumption]|]).
  change (((0, ACount) :: finish 0) ++ [(1, AMatch 0 0 [VInt 2] there)]) with ((0, ACount) :: finish 0 ++ (1, AMatch 0 0 [VInt 2] there) :: []).
  apply (C67_match_races_with_counted_call true (cinit 2) _ c1 0 0 x ca RUnit (finish 0) c1' 1 0 0 _ _ c2 RUnit [] 0); auto.
  intros a Ha. cbn in Ha. destruct Ha as [Ha|[Ha|[]]]; injection Ha as <-; reflexivity.
Qed.

(** Two accepted calls on mocks whose expectations are all attached to one sequence race on that sequence, whatever the interleaving; the
    mocks may be different. *)
Theorem C67_shared_sequence_races release c t1 m1 ov1 a1 l1 t2 m2 ov2 a2 l2 q c' acts :
  t1 <> t2 -> (forall t e, ~ pending_exp c t e) ->
  (forall coll e x, uses_coll c m1 ov1 coll \/ uses_coll c m2 ov2 coll -> listed c coll e -> exp_at (cw c) e x ->
     In q (map fst (c_seqs (e_ctl (eo_exp x))))) ->
  interleaved [(t1, AMatch m1 ov1 a1 l1); (t1, ACount)] [(t2, AMatch m2 ov2 a2 l2); (t2, ACount)] acts ->
  cruns release c acts c' -> race_on (events release c acts) (PlSeq q).
Proof. apply two_mocks_race. Qed.

(** Two mocks whose only expectations are in one sequence. *)
Definition shared : list (nat * action) :=
  [(0, AOp (ONewMock [sig_unary])); (0, AOp (ONewMock [sig_unary])); (0, AOp (ONewSeq Greedy));
   (0, AOp (OExpect 0 0 [m_any] [ClSeq [0]] here)); (0, AOp (OExpect 1 0 [m_any] [ClSeq [0]] here))].

Example C67_shared_sequence_example : 
  let acts := [(0, AMatch 0 0 [VInt 1] here); (0, ACount); (1, AMatch 1 0 [VInt 2] there); (1, ACount)] in
  exists c', cruns false (after2 shared) acts c' /\ race_on (events false (after2 shared) acts) (PlSeq 0).
Proof.
  cbv zeta.
  assert (H : exists c', cexec false (after2 shared) [(0, AMatch 0 0 [VInt 1] here); (0, ACount); (1, AMatch 1 0 [VInt 2] there); (1, ACount)] = Some c')
    by (eexists; vm_compute; reflexivity).
  destruct H as [c' H]. apply cexec_runs in H. exists c'. split; auto.
  eapply (C67_shared_sequence_races false (after2 shared) 0 0 0 _ _ 1 1 0); [auto| | | |exact H].
  - apply no_pending_after2. vm_compute. reflexivity.
  - intros coll e x _ _ Hx. destruct e as [|[|e]]; vm_compute in Hx; [injection Hx as <-; left; reflexivity|injection Hx as <-; left; reflexivity|destruct e; discriminate].
  - repeat constructor.
Qed.

(** [is_satisfied] reads the counter without a mutex: it races with every counted call of another thread that is not separated from it by
    a use of the mutexes. *)
Theorem C67_is_satisfied_races release c acts1 c1 t e x c1' r acts2 c2 t' th h acts3 :
  cruns release c acts1 c1 -> pending_exp c1 t e -> exp_at (cw c1) e x -> t <> t' ->
  cstep release c1 t ACount = CNext c1' r -> cruns release c1' acts2 c2 ->
  (forall a, In (t, a) acts2 -> takes_lock a = false) \/ (forall a, In (t', a) acts2 -> takes_lock a = false) ->
  nth_error (c_threads c2) t' = Some th -> t_pending th = None -> nth_error (w_scoped (cw c2)) h = Some (HOwns e) ->
  race_on (events release c (acts1 ++ (t, ACount) :: acts2 ++ (t', AOp (OSatisfied h)) :: acts3)) (PlCount e).
Proof.
  intros H1 Hp Hx Hne Hs H2 Ht Hth Hpe Hh.
  eapply (steps_race release c acts1 c1 t _ c1' r acts2 c2 t' _ acts3 (PlCount e) (MWrite (PlCount e)) (MRead (PlCount e)));
    [exact H1|exact Hs|exact H2| | |auto| |].
  - exact (proj1 (count_accesses release c1 t e x Hp Hx)).
  - unfold ev_of. rewrite Hth, Hpe. cbn [is_call op_events]. change (w_scoped (enter (cw c2) th)) with (w_scoped (cw c2)). rewrite Hh. left. reflexivity.
  - left. auto.
  - destruct Ht as [Ht|Ht]; [left|right]; auto.
Qed.

Example C67_is_satisfied_example : exists c1 c1' x th,
  cruns true (cinit 2) (setup ++ [(0, AMatch 0 0 [] here)]) c1 /\ pending_exp c1 0 0 /\ exp_at (cw c1) 0 x /\
  cstep true c1 0 ACount = CNext c1' RUnit /\ nth_error (c_threads c1') 1 = Some th /\ t_pending th = None /\ nth_error (w_scoped (cw c1')) 0 = Some (HOwns 0).
Proof.
  do 4 eexists. split; [apply cexec_runs; vm_compute; reflexivity|]. split; [do 3 eexists; vm_compute; split; reflexivity|].
  split; [vm_compute; reflexivity|]. split; [vm_compute; reflexivity|]. vm_compute. repeat split.
Qed.

(** Installing a reporter races with every call of another thread not separated from it by a use of the mutexes. *)
Theorem C67_install_races release c acts1 c1 t rp c1' r acts2 c2 t' m ov args l c3 r' acts3 :
  cruns release c acts1 c1 -> t <> t' -> cstep release c1 t (AOp (OInstall rp)) = CNext c1' r -> cruns release c1' acts2 c2 ->
  (forall a, In (t, a) acts2 -> takes_lock a = false) -> cstep release c2 t' (AMatch m ov args l) = CNext c3 r' ->
  race_on (events release c (acts1 ++ (t, AOp (OInstall rp)) :: acts2 ++ (t', AMatch m ov args l) :: acts3)) PlReporter.
Proof.
  intros H1 Hne Hs H2 Ht Hs'.
  eapply (steps_race release c acts1 c1 t _ c1' r acts2 c2 t' _ acts3 PlReporter (MWrite PlReporter) (MRead PlReporter));
    [exact H1|exact Hs|exact H2| | |auto| |].
  - unfold cstep in Hs. unfold ev_of. destruct (nth_error (c_threads c1) t) as [th|]; [|discriminate].
    destruct (t_pending th) as [[[? ?] ?]|]; [discriminate|]. left. reflexivity.
  - pose proof (cstep_match _ _ _ _ _ _ _ _ _ Hs') as (th & s & coll & Hth & Hp & Hf & Hlen & D). unfold ev_of. rewrite Hth, Hp, Hf. cbv zeta.
    fold (call_of s args l) in *. unfold match_call in D. destruct (nth_error (w_colls (enter (cw c2) th)) coll) as [lst|].
    2:{ destruct D as [(? & ? & D & _)|(? & D & _)]; discriminate. }
    destruct (lookup_exps _ (rev lst)) as [es|]; [|destruct D as [(? & ? & D & _)|(? & D & _)]; discriminate].
    unfold match_events. apply in_or_app. right. apply in_or_app. right. apply in_or_app. right. unfold outcome_of.
    destruct (match_loop _ _ _ _ _ _) as [ml|y| |u] eqn:Hml.
    + unfold deliver. left. reflexivity.
    + exfalso. eapply match_loop_nothrow; eauto.
    + destruct D as [(? & ? & D & _)|(? & D & _)]; discriminate.
    + destruct D as [(? & ? & D & _)|(? & D & _)]; discriminate.
  - left. auto.
  - left. auto.
Qed.

Example C67_install_example : exists c1 c1' c3,
  cruns true (cinit 2) apart c1 /\ cstep true c1 0 (AOp (OInstall default_reporter)) = CNext c1' RUnit /\
  cstep true c1' 1 (AMatch 0 0 [VInt 2] there) = CNext c3 RUnit /\
  race_on (events true (cinit 2) (apart ++ (0, AOp (OInstall default_reporter)) :: [] ++ (1, AMatch 0 0 [VInt 2] there) :: [(1, ACount)])) PlReporter.
Proof.
  assert (H : exists c1 c1' c3, cruns true (cinit 2) apart c1 /\ cstep true c1 0 (AOp (OInstall default_reporter)) = CNext c1' RUnit /\
    cstep true c1' 1 (AMatch 0 0 [VInt 2] there) = CNext c3 RUnit).
  { do 3 eexists. split; [apply cexec_runs; vm_compute; reflexivity|]. split; [vm_compute; reflexivity|]. vm_compute. reflexivity. }
  destruct H as (c1 & c1' & c3 & H1 & H2 & H3). exists c1, c1', c3. repeat (split; [assumption|]).
  apply (C67_install_races true (cinit 2) _ c1 0 _ c1' RUnit [] c1' 1 0 0 _ _ c3 RUnit); auto; [constructor|intros a []].
Qed.

(** ** C68: user code and mutexes *)

(** Matchers, their descriptions and the reporter, when it is told about an unhandled exception or an unfulfilled expectation, are executed
    while exactly one mutex is held. All other user code (other reports, side effects, finalizers) is executed without any. *)
Theorem C68_user_code_under_mutex release c t a pre u post :
  ev_of release c t a = pre ++ MUser u :: post ->
  (runs_locked u = true <-> exists coll, held pre [] = [coll]) /\ (runs_locked u = false <-> held pre [] = []).
Proof.
  intros H. destruct (guarded_user _ (ev_guarded release c t a) pre u post H) as [[H1 [m H2]]|[H1 H2]]; rewrite H1, H2.
  - split; split; try discriminate; eauto.
  - split; split; try discriminate; auto. intros [m E]. discriminate.
Qed.

(** No thread ever holds two mutexes, and none at the end of an operation. *)
Theorem C68_one_mutex_at_a_time release c acts t : plain (by_thread t (events release c acts)).
Proof. apply guarded_plain, by_thread_guarded. Qed.

(** If the user code which is executed under a mutex uses no mutex, and all other user code only uses mocks in the same way, then the threads
    neither misuse a mutex nor wait for each other forever, whatever the schedule. *)
Theorem C68_no_deadlock release c acts user threads s :
  (forall u, runs_locked u = true -> Forall lockless (user u)) ->
  (forall u, runs_locked u = false -> plain (user u)) ->
  lsteps (lstart (map (fun t => with_user user (by_thread t (events release c acts))) (seq 0 threads))) s ->
  ~ broken s /\ (all_done s \/ exists s', lstep s s').
Proof.
  intros H1 H2. apply (ascending_no_deadlock (fun _ => 0)). intros p Hp. apply in_map_iff in Hp. destruct Hp as (t & <- & _).
  apply plain_ascending. apply with_user_plain; auto. apply by_thread_guarded.
Qed.

(** Matchers may even use further mocks, if there is an order of the mocks in which the mutexes are always locked. *)
Theorem C68_ordered_use_no_deadlock rank ps s :
  (forall p, In p ps -> ascending rank [] p) -> lsteps (lstart ps) s -> ~ broken s /\ (all_done s \/ exists s', lstep s s').
Proof. apply ascending_no_deadlock. Qed.

(** Two threads with calls whose finalizers call mock 0; at one point the second thread waits for the first one. *)
Definition final_calls (u : user_code) : list mev :=
  match u with UFinalizer => ev_of true (after2 apart) 0 (AMatch 0 0 [VInt 1] here) | _ => [] end.
Definition final_programs : list (list mev) :=
  let c := after2 (apart ++ [(0, AMatch 0 0 [VInt 1] here); (1, AMatch 1 0 [VInt 1] there)]) in
  map (fun t => with_user final_calls (by_thread t (events true c [(0, ACount); (1, ACount); (0, AOp OFinal); (1, AOp OFinal)]))) (seq 0 2).

Example C68_no_deadlock_example :
  (forall u, runs_locked u = true -> Forall lockless (final_calls u)) /\ (forall u, runs_locked u = false -> plain (final_calls u)) /\
  (exists s rest0 rest1, lsteps (lstart final_programs) s /\ snd s = [MRead (PlVector 0) :: rest0; MLock 0 :: rest1] /\ attempt (fst s) 1 (MLock 0) = Blocked).
Proof.
  split; [|split].
  - intros u H. destruct u as [| |[]| |]; try discriminate; constructor.
  - intros u _. destruct u; [apply pl_nil|apply pl_nil|apply pl_nil|apply pl_nil|]. apply guarded_plain, ev_guarded.
  - do 3 eexists. split; [apply (lrun_steps [0; 0; 0; 1; 1]); vm_compute; reflexivity|]. split; vm_compute; reflexivity.
Qed.

(** A matcher of mock 0 (rank 0) calls mock 1 (rank 1): the mutexes are locked in order. *)
Example C68_ordered_use_example :
  let matcher_calls u := match u with UMatches 0 _ => ev_of true (after2 apart) 0 (AMatch 1 0 [VInt 1] here) | _ => [] end in
  let p := with_user matcher_calls (ev_of true (after2 apart) 0 (AMatch 0 0 [VInt 1] here)) in
  ascending (fun m => m) [] p /\ held (firstn 5 p) [] = [1; 0].
Proof. cbv zeta. split; vm_compute; [intuition lia|reflexivity]. Qed.

(** But a matcher which calls a method of its own mock locks a mutex which its thread already owns: undefined behaviour, even with one thread. *)
Theorem C68_matcher_calls_own_mock_refuted : exists c user s,
  (forall u, user u = [] \/ user u = ev_of true c 0 (AMatch 0 0 [VInt 2] there)) /\
  lsteps (lstart [with_user user (ev_of true c 0 (AMatch 0 0 [VInt 1] here))]) s /\ broken s.
Proof.
  exists (after2 apart), (fun u => match u with UMatches 0 0 => ev_of true (after2 apart) 0 (AMatch 0 0 [VInt 2] there) | _ => [] end).
  eexists. split; [|split].
  - intros u. destruct u as [[|e] [|i]| | | |]; auto.
  - apply (lrun_steps [0; 0; 0]). vm_compute. reflexivity.
  - exists 0, (MLock 0). eexists. split; vm_compute; reflexivity.
Qed.

(** So does a reporter which, told about an unfulfilled expectation, calls the mock. *)
Theorem C68_reporter_calls_mock_refuted : exists c user s,
  (forall u, user u = [] \/ user u = ev_of true c 0 (AMatch 0 0 [VInt 2] there)) /\
  lsteps (lstart [with_user user (ev_of true c 0 (AOp (OEndScope 0)))]) s /\ broken s.
Proof.
  exists (after2 duo), (fun u => match u with UReport KUnfulfilled => ev_of true (after2 duo) 0 (AMatch 0 0 [VInt 2] there) | _ => [] end).
  eexists. split; [|split].
  - intros u. destruct u as [| |[]| |]; auto.
  - apply (lrun_steps [0; 0; 0; 0; 0; 0; 0]). vm_compute. reflexivity.
  - exists 0, (MLock 0). eexists. split; vm_compute; reflexivity.
Qed.

(** And two threads deadlock if matchers of two mocks call each other's mock. *)
Theorem C68_matchers_deadlock_refuted : exists c user0 user1 s,
  (forall u, user0 u = [] \/ user0 u = ev_of true c 0 (AMatch 1 0 [VInt 2] there)) /\
  (forall u, user1 u = [] \/ user1 u = ev_of true c 1 (AMatch 0 0 [VInt 2] there)) /\
  lsteps (lstart [with_user user0 (ev_of true c 0 (AMatch 0 0 [VInt 1] here)); with_user user1 (ev_of true c 1 (AMatch 1 0 [VInt 1] here))]) s /\
  deadlocked s.
Proof.
  exists (after2 apart), (fun u => match u with UMatches 0 0 => ev_of true (after2 apart) 0 (AMatch 1 0 [VInt 2] there) | _ => [] end),
    (fun u => match u with UMatches 1 0 => ev_of true (after2 apart) 1 (AMatch 0 0 [VInt 2] there) | _ => [] end).
  eexists. split; [|split; [|split]].
  - intros u. destruct u as [[|e] [|i]| | | |]; auto.
  - intros u. destruct u as [[|[|e]] [|i]| | | |]; auto.
  - apply (lrun_steps [0; 0; 0; 1; 1; 1]). vm_compute. reflexivity.
  - split; [|split].
    + intros H. specialize (H 0 _ eq_refl). discriminate.
    + intros (t & x & rest & Hp & Ha). destruct t as [|[|t]]; cbn [snd nth_error] in Hp; [| |destruct t; discriminate];
        injection Hp as <- <-; vm_compute in Ha; discriminate.
    + intros s' H. inversion H as [o ps t x rest o' Hp Ha]; subst. destruct t as [|[|t]]; cbn [nth_error] in Hp; [| |destruct t; discriminate];
        injection Hp as <- <-; vm_compute in Ha; discriminate.
Qed.

Print Assumptions C67_accesses_of_accepted_calls.
Print Assumptions C67_accesses_of_new_expectations.
Print Assumptions C67_accesses_of_matching.
Print Assumptions C67_reports_are_delivered.
Print Assumptions C67_accesses_of_scope_ends.
Print Assumptions C67_user_code.
Print Assumptions C67_every_requirement_is_asked.
Print Assumptions C67_lists_never_race.
Print Assumptions C67_separate_calls_never_race.
Print Assumptions C67_calls_on_one_mock_race.
Print Assumptions C67_calls_never_race_refuted.
Print Assumptions C67_match_races_with_pending_call.
Print Assumptions C67_match_races_with_counted_call.
Print Assumptions C67_shared_sequence_races.
Print Assumptions C67_is_satisfied_races.
Print Assumptions C67_install_races.
Print Assumptions C68_user_code_under_mutex.
Print Assumptions C68_one_mutex_at_a_time.
Print Assumptions C68_no_deadlock.
Print Assumptions C68_ordered_use_no_deadlock.
Print Assumptions C68_matcher_calls_own_mock_refuted.
Print Assumptions C68_reporter_calls_mock_refuted.
Print Assumptions C68_matchers_deadlock_refuted.
