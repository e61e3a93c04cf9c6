(** * C103: the calls of threads with separate mocks do not depend on the schedule.

    Calls of several threads, where no two threads call the same mock (or ask for its expectations, or end them) and no sequence joins expectations called by different
    threads, do not influence each other: each thread gets the results and causes the reports which it would get alone, every
    interleaving is possible, and all interleavings end with the same objects. Without the condition this is false. *)

From Coq Require Import Permutation.
From Verif Require Import Base Lib Sequence Control Matcher Signature Printer Reports Expectation Builder World WorldSpec
  Scenario IsolateProofs Conc ConcSpec ConcProofs Race RaceSpec RaceProofs RaceFree Lifetime LifetimeSpec Colls CollsSpec PropConc PropRace ScheduleSpec
  ScheduleProofs ScheduleAfter ScheduleRaces.

(** Each thread gets what it would get alone: the results of its steps, the reports, side effects and finalizers, in order; and the
    expectations, sequences, lists and handles it owns, the thread itself and the list of its counted calls end the same. *)
Theorem C103_each_thread_as_alone release threads acts0 c owner acts c' t :
  cruns release (cinit threads) acts0 c -> apart_from owner c acts -> cruns release c acts c' ->
  exists ct, cruns release c (of_thread t acts) ct /\
    of_thread t (seen release c acts) = seen release c (of_thread t acts) /\
    nth_error (c_threads c') t = nth_error (c_threads ct) t /\ counted_for t c' = counted_for t ct /\
    (forall coll e, listed c coll e -> owner coll = t -> nth_error (w_exps (cw c')) e = nth_error (w_exps (cw ct)) e) /\
    (forall coll e x q, listed c coll e -> owner coll = t -> exp_at (cw c) e x -> In q (map fst (c_seqs (e_ctl (eo_exp x)))) ->
       nth_error (w_seqs (cw c')) q = nth_error (w_seqs (cw ct)) q /\ nth_error (w_sdead (cw c')) q = nth_error (w_sdead (cw ct)) q) /\
    (forall coll, owner coll = t -> nth_error (w_colls (cw c')) coll = nth_error (w_colls (cw ct)) coll) /\
    (forall h coll e, nth_error (w_scoped (cw c)) h = Some (HOwns e) -> listed c coll e -> owner coll = t ->
       nth_error (w_scoped (cw c')) h = nth_error (w_scoped (cw ct)) h).
Proof.
  intros R0 A R. pose proof (members_run _ _ _ _ R0 (members_init threads)) as M.
  destruct (lanes_run owner c release M (ap_seqs _ _ _ A) t acts c c c' (apart_allowed _ _ _ A) (start_during _ _ _ _ _ _ R0 A) (start_during _ _ _ _ _ _ R0 A) (lane_refl _ _ _ _) R)
    as (ct & Rt & [L1 L2 L3] & S).
  exists ct. split; auto. split; auto. split; auto. split; auto.
  assert (O : forall coll e, listed c coll e -> owner coll = t -> own_e owner c t e) by (intros coll e Hl Ho; apply mine_own; [exact M|exists coll; auto]).
  split; [|split; [|split]].
  - intros coll e Hl Ho. symmetry. apply (al_exps _ _ _ L1). exact (O _ _ Hl Ho).
  - intros coll e x q Hl Ho Hx Hq.
    assert (Q : own_q owner c t q) by (eapply (mine_seq owner c (ap_seqs _ _ _ A)); [exists coll; split; [exact Hl|exact Ho]|exact Hx|exact Hq]).
    split; symmetry; [apply (al_seqs _ _ _ L1)|apply (al_sdead _ _ _ L1)]; exact Q.
  - intros coll Ho. symmetry. apply (al_colls _ _ _ L1). exact Ho.
  - intros h coll e Hh Hl Ho. symmetry. apply (al_scoped _ _ _ L1). intros e' He'. assert (e' = e) by congruence. subst e'. exact (O _ _ Hl Ho).
Qed.

(** Every interleaving of executions of the threads is an execution: the calls of the others never prevent a call. *)
Theorem C103_every_interleaving_possible release threads acts0 c owner acts :
  cruns release (cinit threads) acts0 c -> apart_from owner c acts ->
  (forall t, exists ct, cruns release c (of_thread t acts) ct) -> exists c', cruns release c acts c'.
Proof.
  intros R0 A H. pose proof (members_run _ _ _ _ R0 (members_init threads)) as M.
  exact (together owner c release M (ap_seqs _ _ _ A) acts c (apart_allowed _ _ _ A) (start_during _ _ _ _ _ _ R0 A) H).
Qed.

(** Steps which do not return (std::terminate, undefined behaviour), or are not possible, are the same too. *)
Theorem C103_next_step_as_alone release threads acts0 c owner acts t a c' ct :
  cruns release (cinit threads) acts0 c -> apart_from owner c (acts ++ [(t, a)]) ->
  cruns release c acts c' -> cruns release c (of_thread t acts) ct -> ending_of release c' t a = ending_of release ct t a.
Proof.
  intros R0 A R Rt. pose proof (members_run _ _ _ _ R0 (members_init threads)) as M.
  pose proof (apart_allowed _ _ _ A) as Al. assert (Al' : all_allowed owner c acts) by (intros t1 a1 Hin; apply Al, in_or_app; auto).
  pose proof (start_during _ _ _ _ _ _ R0 A) as D.
  destruct (lanes_run owner c release M (ap_seqs _ _ _ A) t acts c c c' Al' D D (lane_refl _ _ _ _) R) as (d & Rd & L & _).
  rewrite (cruns_same release _ _ _ _ Rt Rd). symmetry. apply (ending_own owner c release M (ap_seqs _ _ _ A) t c' d a); auto.
  - eapply during_run; eauto.
  - eapply during_run; [exact M| |exact D|exact Rd]. intros t1 a1 Hin. apply Al'. unfold of_thread in Hin. apply filter_In in Hin. apply Hin.
  - apply Al, in_or_app. right. left. reflexivity.
Qed.

(** The schedule does not matter: a second interleaving of the same threads is possible as well, each thread sees the same, and
    everything ends the same, up to the order of the reports of different threads. *)
Theorem C103_schedule_does_not_matter release threads acts0 c owner acts acts' c1 :
  cruns release (cinit threads) acts0 c -> apart_from owner c acts -> (forall t, of_thread t acts' = of_thread t acts) -> cruns release c acts c1 ->
  exists c2, cruns release c acts' c2 /\ same_objects c1 c2 /\ (forall t, counted_for t c2 = counted_for t c1) /\
    (forall t, of_thread t (seen release c acts') = of_thread t (seen release c acts)) /\ Permutation (w_trace (cw c2)) (w_trace (cw c1)).
Proof.
  intros R0 A E R. pose proof (members_run _ _ _ _ R0 (members_init threads)) as M. pose proof (apart_same _ _ _ _ E A) as A'.
  destruct (C103_every_interleaving_possible release threads acts0 c owner acts' R0 A') as [c2 R2].
  { intros t. rewrite E. destruct (C103_each_thread_as_alone _ _ _ _ _ _ _ t R0 A R) as (ct & Rt & _). eauto. }
  exists c2. split; auto.
  exact (schedules owner c release M (ap_seqs _ _ _ A) acts acts' c c1 c2 (apart_allowed _ _ _ A) (apart_allowed _ _ _ A') (start_during _ _ _ _ _ _ R0 A) E R R2).
Qed.

(** In particular the threads may run one after another. *)
Definition one_after_another (threads : nat) (acts : list (nat * action)) : list (nat * action) := flat_map (fun t => of_thread t acts) (seq 0 threads).

Lemma thread_of_thread {A} t t' (l : list (nat * A)) : of_thread t (of_thread t' l) = if t' =? t then of_thread t l else [].
Proof.
  unfold of_thread. induction l as [|[k x] l IH]; cbn [filter fst]; [destruct (t' =? t); auto|].
  destruct (Nat.eqb_spec k t') as [->|Hne]; cbn [filter fst].
  - destruct (Nat.eqb_spec t' t) as [->|Hne']; [rewrite IH; reflexivity|exact IH].
  - rewrite IH. destruct (Nat.eqb_spec t' t) as [->|]; auto. destruct (Nat.eqb_spec k t); [congruence|]. reflexivity.
Qed.

Lemma one_after_another_threads n acts t : (forall t' a, In (t', a) acts -> t' < n) -> of_thread t (one_after_another n acts) = of_thread t acts.
Proof.
  intros Hn. unfold one_after_another.
  assert (G : forall l, NoDup l -> of_thread t (flat_map (fun t' => of_thread t' acts) l) = if in_dec Nat.eq_dec t l then of_thread t acts else []).
  { induction l as [|k l IH]; intros ND; cbn [flat_map]; [reflexivity|]. inversion ND; subst. rewrite of_thread_app, thread_of_thread, IH by auto.
    destruct (Nat.eqb_spec k t) as [->|Hne].
    - destruct (in_dec Nat.eq_dec t l); [contradiction|]. destruct (in_dec Nat.eq_dec t (t :: l)) as [|N]; [apply app_nil_r|]. exfalso. apply N. left. reflexivity.
    - cbn [app]. destruct (in_dec Nat.eq_dec t l) as [I|N], (in_dec Nat.eq_dec t (k :: l)) as [I'|N']; auto.
      + exfalso. apply N'. right. auto.
      + destruct I' as [->|I']; contradiction. }
  rewrite G by apply seq_NoDup. destruct (in_dec Nat.eq_dec t (seq 0 n)) as [|N]; auto.
  symmetry. unfold of_thread. assert (F : forall l, (forall t' a, In (t', a) l -> t' < n) -> filter (fun p : nat * action => fst p =? t) l = []).
  { induction l as [|[k a] l IH]; intros H; cbn [filter fst]; auto. destruct (Nat.eqb_spec k t) as [->|]; [|apply IH; intros; eapply H; right; eauto].
    exfalso. apply N. apply in_seq. pose proof (H t a (or_introl eq_refl)). lia. }
  apply F. exact Hn.
Qed.

Theorem C103_same_as_one_after_another release threads acts0 c owner acts n c1 :
  cruns release (cinit threads) acts0 c -> apart_from owner c acts -> (forall t a, In (t, a) acts -> t < n) -> cruns release c acts c1 ->
  exists c2, cruns release c (one_after_another n acts) c2 /\ same_objects c1 c2 /\ (forall t, counted_for t c2 = counted_for t c1) /\
    (forall t, of_thread t (seen release c (one_after_another n acts)) = of_thread t (seen release c acts)) /\
    Permutation (w_trace (cw c2)) (w_trace (cw c1)).
Proof.
  intros R0 A Hn R. apply (C103_schedule_does_not_matter release threads acts0 c owner acts); auto. intros t. apply one_after_another_threads. exact Hn.
Qed.

(** ** What happens later *)

(** What happened before is not visible to what happens later: with the same objects, any further program (destructors, new
    expectations, calls on common mocks) has the same results and reports, whatever was reported and counted before. *)
Theorem C103_history_does_not_matter release threads acts1 acts2 c1 c2 later :
  cruns release (cinit threads) acts1 c1 -> cruns release (cinit threads) acts2 c2 -> same_objects c1 c2 ->
  seen release c2 later = seen release c1 later /\
  (forall c1', cruns release c1 later c1' ->
     exists c2' evs log, cruns release c2 later c2' /\ same_objects c1' c2' /\
       w_trace (cw c1') = w_trace (cw c1) ++ evs /\ w_trace (cw c2') = w_trace (cw c2) ++ evs /\
       c_log c1' = c_log c1 ++ log /\ c_log c2' = c_log c2 ++ log).
Proof.
  intros R1 R2 Hs. pose proof (fresh_same _ _ (flat_run _ _ _ _ R1 (conj eq_refl eq_refl)) (flat_run _ _ _ _ R2 (conj eq_refl eq_refl)) Hs) as F.
  split.
  - rewrite (fresh_pre c1), (fresh_pre c2), !seen_pre, F. reflexivity.
  - intros c1' R. rewrite (fresh_pre c1) in R. apply runs_pre in R as (x & Rx & ->).
    exists (cpre (w_trace (cw c2)) (c_log c2) x), (w_trace (cw x)), (c_log x).
    split; [rewrite (fresh_pre c2) at 1; apply runs_pre_back; rewrite F; exact Rx|]. split; [apply pre_same|]. repeat split.
Qed.

(** So the rest of the program, with the reports at the ends of the scopes, does not depend on the schedule of the threads. *)
Theorem C103_whole_program release threads acts0 c owner acts acts' later c1 :
  cruns release (cinit threads) acts0 c -> apart_from owner c acts -> (forall t, of_thread t acts' = of_thread t acts) ->
  cruns release c (acts ++ later) c1 ->
  exists c2, cruns release c (acts' ++ later) c2 /\ same_objects c1 c2 /\ (forall t, counted_for t c2 = counted_for t c1) /\
    (forall t, of_thread t (seen release c (acts' ++ later)) = of_thread t (seen release c (acts ++ later))) /\
    skipn (length acts') (seen release c (acts' ++ later)) = skipn (length acts) (seen release c (acts ++ later)) /\
    Permutation (w_trace (cw c2)) (w_trace (cw c1)).
Proof.
  intros R0 A E R. apply cruns_split in R as (m1 & Ra & Rl).
  destruct (C103_schedule_does_not_matter release threads acts0 c owner acts acts' m1 R0 A E Ra) as (m2 & R2 & So & Co & Se & Pe).
  destruct (C103_history_does_not_matter release threads (acts0 ++ acts) (acts0 ++ acts') m1 m2 later
    (cruns_app _ _ _ _ _ _ R0 Ra) (cruns_app _ _ _ _ _ _ R0 R2) So) as [Sl H].
  destruct (H _ Rl) as (c2 & evs & log & Rc & So' & T1 & T2 & L1 & L2). exists c2.
  split; [eapply cruns_app; eauto|]. split; auto. split; [intros t; unfold counted_for; rewrite L1, L2, !filter_app, !map_app; f_equal; exact (Co t)|].
  split; [intros t; rewrite (seen_app _ _ _ _ _ R2), (seen_app _ _ _ _ _ Ra), !of_thread_app, Se, Sl; reflexivity|].
  split; [|rewrite T1, T2; apply Permutation_app_tail; exact Pe].
  rewrite (seen_app _ _ _ _ _ R2), (seen_app _ _ _ _ _ Ra), Sl.
  rewrite <- (seen_length _ _ _ _ R2), <- (seen_length _ _ _ _ Ra). rewrite !skipn_app, !skipn_all, !Nat.sub_diag. reflexivity.
Qed.

(** ** Memory *)

(** The threads have no memory in common but the reporter, which they only read. Hence the interleavings of steps are all executions. *)
Theorem C103_nothing_in_common release threads acts0 c owner acts i j t a y t' a' y' p :
  cruns release (cinit threads) acts0 c -> apart_from owner c acts ->
  nth_error (full release c acts) i = Some (t, a, y) -> nth_error (full release c acts) j = Some (t', a', y') -> t <> t' ->
  touched y p -> touched y' p -> y = HL (LE (MRead PlReporter)) /\ y' = HL (LE (MRead PlReporter)).
Proof.
  intros R0 A Hi Hj Hne H H'. pose proof (members_run _ _ _ _ R0 (members_init threads)) as M.
  destruct (all_ok owner c release M acts c (apart_allowed _ _ _ A) (start_during _ _ _ _ _ _ R0 A)) as (_ & _ & F). rewrite Forall_forall in F.
  pose proof (F _ (nth_error_In _ _ Hi)) as O. pose proof (F _ (nth_error_In _ _ Hj)) as O'. cbn beta iota in O, O'.
  destruct (O p H) as [P| ->], (O' p H') as [P'| ->].
  - exfalso. apply Hne. exact (owned_one owner c M (ap_seqs _ _ _ A) _ _ _ P P').
  - inversion H'; subst. destruct P.
  - inversion H; subst. destruct P'.
  - auto.
Qed.

(** So there are no data races, and no object ends while another thread may use it. *)
Theorem C103_no_races release threads acts0 c owner acts :
  cruns release (cinit threads) acts0 c -> apart_from owner c acts ->
  (forall p, ~ race_on (events release c acts) p) /\ (forall p, ~ end_race (life release c acts) p) /\ (forall k, ~ coll_race (full release c acts) k).
Proof.
  intros R0 A. pose proof (members_run _ _ _ _ R0 (members_init threads)) as M.
  destruct (all_ok owner c release M acts c (apart_allowed _ _ _ A) (start_during _ _ _ _ _ _ R0 A)) as (F1 & F2 & F3). rewrite Forall_forall in F1, F2, F3.
  pose proof (owned_one owner c M (ap_seqs _ _ _ A)) as One.
  split; [|split].
  - intros p (i & j & t & t' & x & y & Hi & Hj & Hne & Hc & _).
    pose proof (F1 _ (nth_error_In _ _ Hi)) as O. pose proof (F1 _ (nth_error_In _ _ Hj)) as O'. cbn beta iota in O, O'. apply Hne.
    destruct Hc as [[-> [-> | ->]]|[-> ->]]; destruct (O p) as [P|P]; try constructor; destruct (O' p) as [P'|P']; try constructor; try discriminate; eauto.
    + injection P' as ->. destruct P.
    + injection P as ->. destruct P'.
  - intros p (i & j & t & t' & a & Hi & (b & Hj) & Hne & _). pose proof (F2 _ (nth_error_In _ _ Hj)) as O'. cbn beta iota in O'.
    destruct (O' p (to_end p)) as [P'|P']; [|discriminate]. apply Hne.
    destruct Hi as [Hi|Hi]; pose proof (F2 _ (nth_error_In _ _ Hi)) as O; cbn beta iota in O.
    + destruct (O p (to_read p)) as [P|P]; [eauto|]. injection P as ->. destruct P'.
    + destruct (O p (to_write p)) as [P|P]; [eauto|discriminate].
  - intros k (i & j & t & t' & a & (x & Hx & Hi) & (b & Hj) & Hne & _). apply Hne.
    assert (T : touched (HL (LE x)) (PlVector k)) by (destruct Hx; constructor).
    pose proof (F3 _ (nth_error_In _ _ Hj) _ (to_end_list k)) as [P'|P']; [|discriminate].
    pose proof (F3 _ (nth_error_In _ _ Hi) _ T) as [P|P]; [eauto|]. injection P as ->. inversion T.
Qed.

(** ** When the condition holds *)

(** Threads without running calls which call different mocks and only ask for, or end, expectations of the mocks they call, where
    every sequence serves the expectations of one list only, are apart. *)
Theorem C103_threads_with_their_own_mocks release threads acts0 c acts :
  cruns release (cinit threads) acts0 c -> (forall t e, ~ pending_exp c t e) -> (forall t th, nth_error (c_threads c) t = Some th -> t_frames th = []) ->
  (forall t a, In (t, a) acts -> of_call a) ->
  (forall t t' m ov ov' args args' l l', In (t, AMatch m ov args l) acts -> In (t', AMatch m ov' args' l') acts -> t = t') ->
  (forall coll e x coll' e' x' q, listed c coll e -> exp_at (cw c) e x -> listed c coll' e' -> exp_at (cw c) e' x' ->
     In q (map fst (c_seqs (e_ctl (eo_exp x)))) -> In q (map fst (c_seqs (e_ctl (eo_exp x')))) -> coll = coll') ->
  (forall t h, In (t, AOp (OSatisfied h)) acts \/ In (t, AOp (OEndScope h)) acts ->
     exists e coll m ov args l, nth_error (w_scoped (cw c)) h = Some (HOwns e) /\ listed c coll e /\ In (t, AMatch m ov args l) acts /\ uses_coll c m ov coll) ->
  exists owner, apart_from owner c acts.
Proof.
  intros R Hp Hf Ha Hm Hq Hs. exists (caller c acts). constructor; auto.
  - intros t e H. destruct (Hp _ _ H).
  - intros t m ov args l coll Hin Hu. eapply caller_uses; eauto.
  - intros t th f coll Hth Hin. rewrite (Hf _ _ Hth) in Hin. destruct Hin.
  - intros t h e Hin Hh. destruct (Hs t h (or_introl Hin)) as (e' & coll & m & ov & args & l & Hh' & Hl & Hin' & Hu). assert (e' = e) by congruence. subst e'.
    exists coll. split; auto. exact (caller_uses _ _ _ _ _ _ _ _ _ _ _ R Hm Hin' Hu).
  - intros t h Hin. destruct (Hs t h (or_intror Hin)) as (e & coll & m & ov & args & l & Hh & Hl & Hin' & Hu). exists e, coll. split; auto. split; auto. exact (caller_uses _ _ _ _ _ _ _ _ _ _ _ R Hm Hin' Hu).
  - intros coll e x coll' e' x' q H1 H2 H3 H4 H5 H6. f_equal. eapply Hq; eauto.
Qed.

(** ** What is compared *)

(** The ending of a step is its result with the events it adds to the trace. *)
Theorem C103_endings release threads acts0 c owner acts c1 t a :
  cruns release (cinit threads) acts0 c -> apart_from owner c (acts ++ [(t, a)]) -> cruns release c acts c1 ->
  match cstep release c1 t a with
  | CNext c2 r => exists evs, ending_of release c1 t a = Went r evs /\ w_trace (cw c2) = w_trace (cw c1) ++ evs
  | CStop => ending_of release c1 t a = Died
  | CWrong u => ending_of release c1 t a = Undefined u
  | CInvalid => ending_of release c1 t a = Impossible
  end.
Proof.
  intros R0 A R. pose proof (members_run _ _ _ _ R0 (members_init threads)) as M. pose proof (apart_allowed _ _ _ A) as Al.
  assert (Al' : all_allowed owner c acts) by (intros t1 a1 Hin; apply Al, in_or_app; auto).
  assert (D : during owner c c1) by (eapply during_run; [exact M|exact Al'|exact (start_during _ _ _ _ _ _ R0 A)|exact R]).
  assert (Ha : allowed owner c t a) by (apply Al, in_or_app; right; left; reflexivity).
  pose proof (lane_own owner c release M (ap_seqs _ _ _ A) t c1 c1 a D D Ha (lane_refl _ _ _ _)) as G.
  unfold ending_of. destruct (cstep release c1 t a) as [c2 r| | |]; auto. destruct G as (_ & _ & evs & T & _). exists evs. split; auto.
  rewrite T, skipn_app, skipn_all, Nat.sub_diag. reflexivity.
Qed.

(** [seen] lists the endings of all steps. *)
Theorem C103_seen release c acts c1 t a rest : cruns release c acts c1 ->
  length (seen release c acts) = length acts /\ nth_error (seen release c (acts ++ (t, a) :: rest)) (length acts) = Some (t, ending_of release c1 t a).
Proof.
  induction 1 as [c|c t0 a0 c2 r acts c3 Hs Hr IH]; [split; reflexivity|]. cbn [app seen length nth_error]. rewrite Hs. destruct IH as [IH1 IH2]. split; [f_equal; exact IH1|exact IH2].
Qed.

(** The calls counted for a thread. *)
Theorem C103_counted_calls release c t t' a c' r : cstep release c t' a = CNext c' r ->
  counted_for t c' = counted_for t c ++
    match a, nth_error (c_threads c) t with
    | ACount, Some th => match t_pending th with Some (n, ci, _) => if t' =? t then [(n, ci)] else [] | None => [] end
    | _, _ => []
    end.
Proof.
  intros H. unfold cstep in H. destruct (nth_error (c_threads c) t') as [th'|] eqn:Hth; [|discriminate].
  assert (E0 : forall log s, embed c t' log s = CNext c' r -> c_log c' = log) by (intros log s E; destruct s; cbn in E; try discriminate; injection E as <- _; reflexivity).
  destruct (t_pending th') as [[[n ci] ne]|] eqn:Hp, a as [o|m ov args l|]; try discriminate.
  - apply E0 in H. unfold counted_for. rewrite H, filter_app, map_app. f_equal. cbn [filter]. destruct (Nat.eqb_spec t' t) as [->|Hne].
    + rewrite Hth, Hp. reflexivity.
    + cbn [map]. destruct (nth_error (c_threads c) t) as [th|]; auto. destruct (t_pending th) as [[[? ?] ?]|]; auto.
  - rewrite app_nil_r. destruct (is_call o); [discriminate|]. unfold counted_for. rewrite (E0 _ _ H). reflexivity.
  - rewrite app_nil_r. unfold counted_for. destruct (find_overload _ _ _) as [s|[s coll]]; [rewrite (E0 _ _ H); reflexivity|]. destruct (negb _); [discriminate|]. cbv zeta in H.
    destruct (match_call _ _ _ _); [|rewrite (E0 _ _ H); reflexivity]. injection H as <- _. reflexivity.
Qed.

(** Everything but the trace and the list of counted calls is the same. *)
Theorem C103_same_objects release threads acts acts' c c' : cruns release (cinit threads) acts c -> cruns release (cinit threads) acts' c' ->
  same_objects c c' <-> c' = mkC (set_trace (cw c) (w_trace (cw c'))) (c_threads c) (c_log c').
Proof.
  intros R R'. destruct (flat_run _ _ _ _ R (conj eq_refl eq_refl)) as [F1 F2], (flat_run _ _ _ _ R' (conj eq_refl eq_refl)) as [F3 F4]. split.
  - intros (H1 & H2 & H3 & H4 & H5 & H6 & H7 & H8 & H9 & H10). destruct c' as [[] ? ?], c as [[] ? ?]. cbn in *. subst. reflexivity.
  - intros E. unfold same_objects. rewrite E. cbn. repeat split.
Qed.

(** ** Examples *)

(** Two mocks with two expectations each; those of mock 1 are in a sequence. *)
Definition lanes_setup : list (nat * action) :=
  [(0, AOp (ONewMock [sig_unary])); (0, AOp (ONewMock [sig_unary])); (0, AOp (ONewSeq Lazy));
   (0, AOp (OExpect 0 0 [m_any] [ClTimes (TxAtLeast 0)] here)); (0, AOp (OExpect 0 0 [m_eq 1] [] here));
   (0, AOp (OExpect 1 0 [m_any] [ClSeq [0]] here)); (0, AOp (OExpect 1 0 [m_any] [ClSeq [0]] here))].
Definition call_on (t m : nat) (n : Z) : list (nat * action) := [(t, AMatch m 0 [VInt n] here); (t, ACount)] ++ finish t.
(** Mixed; thread 1 asks for the first of its expectations and ends it; its last call is rejected. *)
Definition mixed : list (nat * action) :=
  [(0, AMatch 0 0 [VInt 1] here); (1, AMatch 1 0 [VInt 7] there); (1, ACount)] ++ finish 1 ++ [(0, ACount)] ++ finish 0 ++ [(1, AOp (OSatisfied 2)); (0, AOp (OUnwind 1)); (1, AOp (OEndScope 2))] ++
  [(1, AMatch 1 0 [VInt 7] there); (0, AMatch 0 0 [VInt 1] here); (1, ACount); (0, ACount)] ++ finish 1 ++ finish 0 ++ [(1, AMatch 1 0 [VInt 7] there)].

Example C103_example : let c := after2 lanes_setup in
  cruns true (cinit 2) lanes_setup c /\ (exists c1, cruns true c mixed c1) /\ (exists owner, apart_from owner c mixed) /\
  (exists c2, cruns true c (one_after_another 2 mixed) c2) /\
  (exists i j a a', nth_error (full true c mixed) i = Some (1, a, HL (LE (MWrite (PlSeq 0)))) /\ nth_error (full true c mixed) j = Some (1, a', HL (LKill (PlCount 2)))) /\
  map (fun p => match snd p with Went r _ => Some r | _ => None end) (of_thread 1 (seen true c mixed)) =
    [Some RUnit; Some RUnit; Some RUnit; Some (RVal None); Some (RBool true); Some RUnit; Some RUnit; Some RUnit; Some RUnit; Some (RVal None); Some (RThrow EReporter)].
Proof.
  cbv zeta. assert (R0 : cruns true (cinit 2) lanes_setup (after2 lanes_setup)) by (apply after2_runs; vm_compute; reflexivity).
  assert (R1 : exists c1, cruns true (after2 lanes_setup) mixed c1) by (eexists; apply cexec_runs; vm_compute; reflexivity).
  split; [exact R0|]. split; [exact R1|]. split; [|split; [eexists; apply cexec_runs; vm_compute; reflexivity|split; [exists 24, 38; do 2 eexists; split; vm_compute; reflexivity|vm_compute; reflexivity]]].
  apply (C103_threads_with_their_own_mocks true 2 lanes_setup).
  - exact R0.
  - apply no_pending_after2. vm_compute. reflexivity.
  - intros [|[|t]] th Hth; vm_compute in Hth; [| |destruct t; discriminate]; injection Hth as <-; reflexivity.
  - intros t a H. cbn in H. repeat (destruct H as [H|H]; [injection H as <- <-; exact Logic.I|]). destruct H.
  - assert (F : forall t m ov args l, In (t, AMatch m ov args l) mixed -> t = m).
    { intros t m ov args l H. cbn in H. repeat (destruct H as [H|H]; [try discriminate H; injection H as <- <- _ _ _; reflexivity|]). destruct H. }
    intros t t' m ov ov' args args' l l' H H'. apply F in H. apply F in H'. congruence.
  - assert (F : forall coll e x q, listed (after2 lanes_setup) coll e -> exp_at (cw (after2 lanes_setup)) e x -> In q (map fst (c_seqs (e_ctl (eo_exp x)))) -> coll = 1).
    { intros coll e x q (l & Hl & Hin) Hx Hq. destruct coll as [|[|coll]]; [|reflexivity|vm_compute in Hl; destruct coll; discriminate].
      vm_compute in Hl. injection Hl as <-. destruct Hin as [<-|[<-|[]]]; vm_compute in Hx; injection Hx as <-; destruct Hq. }
    intros coll e x coll' e' x' q H1 H2 H3 H4 H5 H6. rewrite (F _ _ _ _ H1 H2 H5), (F _ _ _ _ H3 H4 H6). reflexivity.
  - intros t h H. assert (E : t = 1 /\ h = 2).
    { destruct H as [H|H]; cbn in H; (repeat (destruct H as [H|H]; [try discriminate H; injection H as <- <-; auto|])); destruct H. }
    destruct E as [-> ->]. exists 2, 1, 1, 0, [VInt 7], there. split; [vm_compute; reflexivity|]. split; [exists [2; 3]; split; [vm_compute; reflexivity|left; reflexivity]|].
    split; [right; left; reflexivity|]. eexists. vm_compute. reflexivity.
Qed.

(** The expectations end afterwards: the second call which mock 1 did not get is reported, whatever the schedule. *)
Definition scope_ends : list (nat * action) := map (fun h => (0, AOp (OEndScope h))) [0; 1; 2; 3].
Example C103_example_ends : let c := after2 lanes_setup in
  let acts := call_on 0 0 1 ++ call_on 1 1 7 in let acts' := call_on 1 1 7 ++ call_on 0 0 1 in
  (exists c1, cruns true c (acts ++ scope_ends) c1) /\ (forall t, of_thread t acts' = of_thread t acts) /\
  map (fun p => match snd p with Went r evs => Some (r, map (fun v => match v with EvReport _ _ who => who | _ => [] end) evs) | _ => None end)
    (skipn (length acts') (seen true c (acts' ++ scope_ends))) =
    [Some (RUnit, []); Some (RUnit, []); Some (RUnit, []); Some (RThrow EReporter, [[3]])].
Proof.
  cbv zeta. split; [eexists; apply cexec_runs; vm_compute; reflexivity|]. split; [intros [|[|t]]; reflexivity|]. vm_compute. reflexivity.
Qed.

(** Calls may be under way at the start: thread 0 has matched a call, thread 1 is before its finalizer. *)
Definition under_way : list (nat * action) := lanes_setup ++ [(0, AMatch 0 0 [VInt 1] here); (1, AMatch 1 0 [VInt 7] there); (1, ACount)].
Example C103_example_under_way : let c := after2 under_way in let acts := [(0, ACount)] ++ finish 1 ++ finish 0 in
  cruns true (cinit 2) under_way c /\ apart_from (fun k => k) c acts /\ (exists e, pending_exp c 0 e) /\
  (exists th f, nth_error (c_threads c) 1 = Some th /\ In f (t_frames th)) /\ (exists c1, cruns true c acts c1).
Proof.
  cbv zeta. split; [apply after2_runs; vm_compute; reflexivity|]. split; [|split; [|split; [|eexists; apply cexec_runs; vm_compute; reflexivity]]].
  - constructor.
    + intros t e (th & ci & ne & Hth & Hp). destruct t as [|[|t]]; vm_compute in Hth; [| |destruct t; discriminate]; injection Hth as <-; [|discriminate].
      vm_compute in Hp. injection Hp as <- _ _. exists 0. split; auto. exists [0; 1]. split; [vm_compute; reflexivity|right; left; reflexivity].
    + intros t a H. cbn in H. repeat (destruct H as [H|H]; [injection H as <- <-; exact Logic.I|]). destruct H.
    + intros t m ov args l coll H. cbn in H. repeat (destruct H as [H|H]; [discriminate H|]). destruct H.
    + intros t th f coll Hth Hf (l & Hl & Hin). destruct t as [|[|t]]; vm_compute in Hth; [| |destruct t; discriminate]; injection Hth as <-; cbn in Hf; [destruct Hf|].
      destruct Hf as [<-|[]]. cbn [f_exp] in Hin. destruct coll as [|[|coll]]; [|reflexivity|vm_compute in Hl; destruct coll; discriminate].
      vm_compute in Hl. injection Hl as <-. destruct Hin as [E|[E|[]]]; discriminate E.
    + intros t h e H. cbn in H. repeat (destruct H as [H|H]; [discriminate H|]). destruct H.
    + intros t h H. cbn in H. repeat (destruct H as [H|H]; [discriminate H|]). destruct H.
    + assert (F : forall coll e x q, listed (after2 under_way) coll e -> exp_at (cw (after2 under_way)) e x -> In q (map fst (c_seqs (e_ctl (eo_exp x)))) -> coll = 1).
      { intros coll e x q (l & Hl & Hin) Hx Hq. destruct coll as [|[|coll]]; [|reflexivity|vm_compute in Hl; destruct coll; discriminate].
        vm_compute in Hl. injection Hl as <-. destruct Hin as [<-|[<-|[]]]; vm_compute in Hx; injection Hx as <-; destruct Hq. }
      intros coll e x coll' e' x' q H1 H2 H3 H4 H5 H6. rewrite (F _ _ _ _ H1 H2 H5), (F _ _ _ _ H3 H4 H6). reflexivity.
  - exists 1. do 3 eexists. split; vm_compute; reflexivity.
  - do 2 eexists. split; [vm_compute; reflexivity|left; reflexivity].
Qed.

(** ** The condition is needed *)

(** On one mock, the schedule decides which expectation gets which call. *)
Theorem C103_one_mock_refuted : exists acts0 c acts acts' c1 c2,
  cruns true (cinit 2) acts0 c /\ (forall t e, ~ pending_exp c t e) /\ (forall t a, In (t, a) acts -> of_call a) /\ (forall t, of_thread t acts' = of_thread t acts) /\
  cruns true c acts c1 /\ cruns true c acts' c2 /\ of_thread 0 (seen true c acts') <> of_thread 0 (seen true c acts).
Proof.
  exists lanes_setup, (after2 lanes_setup), (call_on 0 0 1 ++ call_on 1 0 1), (call_on 1 0 1 ++ call_on 0 0 1). do 2 eexists.
  split; [apply after2_runs; vm_compute; reflexivity|]. split; [apply no_pending_after2; vm_compute; reflexivity|].
  split; [intros t a H; cbn in H; repeat (destruct H as [H|H]; [injection H as <- <-; exact Logic.I|]); destruct H|].
  split; [intros [|[|t]]; reflexivity|]. split; [apply cexec_runs; vm_compute; reflexivity|]. split; [apply cexec_runs; vm_compute; reflexivity|].
  intros E. assert (G : map (fun p => flat_map (fun v => match v with EvReport _ _ who => who | _ => [] end) (match snd p with Went _ evs => evs | _ => [] end))
      (of_thread 0 (seen true (after2 lanes_setup) (call_on 1 0 1 ++ call_on 0 0 1))) =
    map (fun p => flat_map (fun v => match v with EvReport _ _ who => who | _ => [] end) (match snd p with Went _ evs => evs | _ => [] end))
      (of_thread 0 (seen true (after2 lanes_setup) (call_on 0 0 1 ++ call_on 1 0 1)))) by (rewrite E; reflexivity).
  vm_compute in G. discriminate.
Qed.

(** The answers about the expectations of other threads depend on the schedule. *)
Theorem C103_asking_others_refuted : exists acts0 c owner acts acts' c1 c2,
  cruns true (cinit 2) acts0 c /\ (forall t e, ~ pending_exp c t e) /\ (forall t a, In (t, a) acts -> of_call a) /\
  (forall t m ov args l coll, In (t, AMatch m ov args l) acts -> uses_coll c m ov coll -> owner coll = t) /\
  (forall e x, exp_at (cw c) e x -> c_seqs (e_ctl (eo_exp x)) = []) /\ (forall t, of_thread t acts' = of_thread t acts) /\
  cruns true c acts c1 /\ cruns true c acts' c2 /\ of_thread 1 (seen true c acts') <> of_thread 1 (seen true c acts).
Proof.
  set (setup := [(0, AOp (ONewMock [sig_unary])); (0, AOp (OExpect 0 0 [m_any] [] here))]).
  exists setup, (after2 setup), (fun _ => 0), (call_on 0 0 1 ++ [(1, AOp (OSatisfied 0))]), ([(1, AOp (OSatisfied 0))] ++ call_on 0 0 1). do 2 eexists.
  split; [apply after2_runs; vm_compute; reflexivity|]. split; [apply no_pending_after2; vm_compute; reflexivity|].
  split; [intros t a H; cbn in H; repeat (destruct H as [H|H]; [injection H as <- <-; exact Logic.I|]); destruct H|].
  split; [intros t m ov args l coll H _; cbn in H; repeat (destruct H as [H|H]; [try discriminate H; injection H as <- <- <- <- <-; reflexivity|]); destruct H|].
  split; [intros [|e] x Hx; vm_compute in Hx; [injection Hx as <-; reflexivity|destruct e; discriminate]|].
  split; [intros [|[|t]]; reflexivity|]. split; [apply cexec_runs; vm_compute; reflexivity|]. split; [apply cexec_runs; vm_compute; reflexivity|].
  vm_compute. discriminate.
Qed.

Lemma runs_exec release acts : forall c c', cruns release c acts c' -> cexec release c acts = Some c'.
Proof. induction 1 as [|c t a c1 r acts c2 Hs Hr IH]; cbn [cexec]; auto. rewrite Hs. exact IH. Qed.

(** A call may be rejected because another thread ended the expectation. *)
Theorem C103_ending_others_refuted : exists acts0 c owner acts acts' c1,
  cruns true (cinit 2) acts0 c /\ (forall t e, ~ pending_exp c t e) /\ (forall t a, In (t, a) acts -> of_call a) /\
  (forall t m ov args l coll, In (t, AMatch m ov args l) acts -> uses_coll c m ov coll -> owner coll = t) /\
  (forall e x, exp_at (cw c) e x -> c_seqs (e_ctl (eo_exp x)) = []) /\ (forall t, of_thread t acts' = of_thread t acts) /\
  cruns true c acts c1 /\ (forall t, exists ct, cruns true c (of_thread t acts') ct) /\ ~ exists c2, cruns true c acts' c2.
Proof.
  set (setup := [(0, AOp (ONewMock [sig_unary])); (0, AOp (OExpect 0 0 [m_any] [] here))]).
  exists setup, (after2 setup), (fun _ => 0), (call_on 0 0 1 ++ [(1, AOp (OEndScope 0))]), ([(1, AOp (OEndScope 0))] ++ call_on 0 0 1). eexists.
  split; [apply after2_runs; vm_compute; reflexivity|]. split; [apply no_pending_after2; vm_compute; reflexivity|].
  split; [intros t a H; cbn in H; repeat (destruct H as [H|H]; [injection H as <- <-; exact Logic.I|]); destruct H|].
  split; [intros t m ov args l coll H _; cbn in H; repeat (destruct H as [H|H]; [try discriminate H; injection H as <- <- <- <- <-; reflexivity|]); destruct H|].
  split; [intros [|e] x Hx; vm_compute in Hx; [injection Hx as <-; reflexivity|destruct e; discriminate]|].
  split; [intros [|[|t]]; reflexivity|]. split; [apply cexec_runs; vm_compute; reflexivity|].
  split; [intros [|[|t]]; eexists; apply cexec_runs; vm_compute; reflexivity|].
  intros (c' & H). apply runs_exec in H.
  assert (N : match cexec true (after2 setup) ([(1, AOp (OEndScope 0))] ++ call_on 0 0 1) with Some _ => true | None => false end = false) by (vm_compute; reflexivity).
  rewrite H in N. discriminate.
Qed.

(** With separate mocks but a common sequence, a call may be rejected because of the calls of another thread. *)
Theorem C103_common_sequence_refuted : exists acts0 c owner acts,
  cruns true (cinit 2) acts0 c /\ (forall t e, ~ pending_exp c t e) /\ (forall t a, In (t, a) acts -> of_call a) /\
  (forall t m ov args l coll, In (t, AMatch m ov args l) acts -> uses_coll c m ov coll -> owner coll = t) /\
  (forall t, exists ct, cruns true c (of_thread t acts) ct) /\ ~ exists c', cruns true c acts c'.
Proof.
  set (setup := [(0, AOp (ONewMock [sig_unary])); (0, AOp (ONewMock [sig_unary])); (0, AOp (ONewSeq Lazy));
    (0, AOp (OExpect 0 0 [m_any] [ClSeq [0]; ClTimes (TxRange 0 1)] here)); (0, AOp (OExpect 1 0 [m_any] [ClSeq [0]] here))]).
  exists setup, (after2 setup), (fun coll => coll), (call_on 1 1 1 ++ call_on 0 0 1).
  split; [apply after2_runs; vm_compute; reflexivity|]. split; [apply no_pending_after2; vm_compute; reflexivity|].
  split; [intros t a H; cbn in H; repeat (destruct H as [H|H]; [injection H as <- <-; exact Logic.I|]); destruct H|].
  split.
  { intros t m ov args l coll H (s & Hf). cbn in H.
    repeat (destruct H as [H|H]; [try discriminate H; injection H as <- <- <- <- <-; vm_compute in Hf; injection Hf as _ <-; reflexivity|]). destruct H. }
  split.
  - intros [|[|t]]; eexists; apply cexec_runs; vm_compute; reflexivity.
  - intros (c' & H). apply runs_exec in H. assert (N : match cexec true (after2 setup) (call_on 1 1 1 ++ call_on 0 0 1) with Some _ => true | None => false end = false) by (vm_compute; reflexivity).
    rewrite H in N. discriminate.
Qed.

Print Assumptions C103_each_thread_as_alone.
Print Assumptions C103_every_interleaving_possible.
Print Assumptions C103_next_step_as_alone.
Print Assumptions C103_schedule_does_not_matter.
Print Assumptions C103_same_as_one_after_another.
Print Assumptions C103_history_does_not_matter.
Print Assumptions C103_whole_program.
Print Assumptions C103_nothing_in_common.
Print Assumptions C103_no_races.
Print Assumptions C103_threads_with_their_own_mocks.
Print Assumptions C103_endings.
Print Assumptions C103_seen.
Print Assumptions C103_counted_calls.
Print Assumptions C103_same_objects.
Print Assumptions C103_one_mock_refuted.
Print Assumptions C103_asking_others_refuted.
Print Assumptions C103_ending_others_refuted.
Print Assumptions C103_common_sequence_refuted.
