(** * PropSelect: C07, C14, C15, C16. *)

From Verif Require Import Base Sequence Control Signature Printer Reports Expectation Builder BuildSpec World WorldSpec CallSpec
  WorldInv CountProofs SelectSpec SelectProofs Scenario.

(** [matches w m ov args l n]: the call is matched by expectation [n], one of the candidates (the live applicable expectations
    accepting the arguments). *)
Definition matches (w : world) (m ov : nat) (args : list val) (l : loc) (n : nat) : Prop :=
  exists w', step w (OCall m ov args l) = Next w' RUnit /\ accepted (w_trace w') n = S (accepted (w_trace w) n).

Definition cand (w : world) (m ov : nat) (args : list val) (l : loc) (e : nat) (x : eobj) : Prop :=
  exists s coll, find_overload w m ov = inr (s, coll) /\ candidate w coll (call_of s args l) e x.

Lemma matches_selected w m ov args l n : reachable w -> matches w m ov args l n -> selected w (cand w m ov args l) n.
Proof.
  intros Hr (w' & Hs & Ha). destruct (call_selects _ _ _ _ _ _ Hr Hs) as (s & coll & k & Hf & Hsel & Hcnt).
  rewrite Hcnt in Ha. destruct (Nat.eqb_spec k n) as [E|]; [|lia]. rewrite <- E.
  destruct Hsel as (first & others & [Hso Hin] & T). exists first, others. split; auto. split; auto.
  intros e. rewrite Hin. split; intros (x & Hx & H); exists x; split; auto.
  - exists s, coll. auto.
  - destruct H as (s' & coll' & Hf' & H). rewrite Hf in Hf'. inversion Hf'; subst. auto.
Qed.

(** The complete rule, from which everything below follows. *)
Theorem C16_selection_rule w m ov args l n :
  reachable w -> matches w m ov args l n ->
  exists first others, newest_first w (cand w m ov args l) (first :: others) /\ tournament w first others n.
Proof. intros Hr H. exact (matches_selected _ _ _ _ _ _ Hr H). Qed.

(** Whenever a call is matched at all, it is by exactly one expectation. *)
Theorem C16_one_match w m ov args l w' :
  reachable w -> step w (OCall m ov args l) = Next w' RUnit ->
  exists n, matches w m ov args l n /\ (exists x, cand w m ov args l n x) /\ forall n', matches w m ov args l n' -> n' = n.
Proof.
  intros Hr Hs. destruct (call_selects _ _ _ _ _ _ Hr Hs) as (s & coll & k & Hf & Hsel & Hcnt). exists k.
  assert (M : matches w m ov args l k).
  { exists w'. split; auto. rewrite Hcnt, Nat.eqb_refl. lia. }
  split; auto. split.
  - destruct (selected_in _ _ _ Hsel) as (x & _ & Hx). exists x, s, coll. auto.
  - intros n' (w2 & Hs2 & Ha). rewrite Hs in Hs2. inversion Hs2; subst w2. rewrite Hcnt in Ha. destruct (Nat.eqb_spec k n'); [auto|lia].
Qed.

(** ** C07: without sequences the newest candidate wins. *)

Theorem C07_newest_without_sequence_wins w m ov args l n e x :
  reachable w -> matches w m ov args l n ->
  exp_at w e x -> cand w m ov args l e x -> x_seqs x = [] ->
  (forall e' x', exp_at w e' x' -> cand w m ov args l e' x' -> e' <= e) ->
  n = e.
Proof. intros Hr M. eapply selected_newest. exact (matches_selected _ _ _ _ _ _ Hr M). Qed.

(** In particular if no candidate is attached to a sequence. *)
Theorem C07_newest_wins w m ov args l n :
  reachable w -> matches w m ov args l n ->
  (forall e x, exp_at w e x -> cand w m ov args l e x -> x_seqs x = []) ->
  forall e x, exp_at w e x -> cand w m ov args l e x -> e <= n.
Proof.
  intros Hr M Hnil e x Hx Hc. pose proof (matches_selected _ _ _ _ _ _ Hr M) as S.
  destruct S as (first & others & Hn & T). destruct (newest_first_head _ _ _ _ Hn) as [(y & Hy & Hcy) Hle].
  replace n with first; [eapply Hle; eauto|]. symmetry.
  eapply (selected_newest w (cand w m ov args l)); eauto. exists first, others. auto.
Qed.

(** Three overlapping expectations: 5 is taken by the newest accepting one. *)
Definition prog_three : list op :=
  [ONewMock [sig_unary]; OExpect 0 0 [m_any] [] here; OExpect 0 0 [m_eq 5] [] here; OExpect 0 0 [m_eq 4] [] here].
Example C07_example : forall l,
  exists w', step (after prog_three) (OCall 0 0 [VInt 5] l) = Next w' RUnit /\ accepted (w_trace w') 1 = 1 /\ accepted (w_trace w') 0 = 0.
Proof. intros l. eexists. split; [vm_compute; reflexivity|]. vm_compute. auto. Qed.
Example C07_example_hypotheses : forall l, reachable (after prog_three) /\ matches (after prog_three) 0 0 [VInt 5] l 1 /\
  forall e x, exp_at (after prog_three) e x -> x_seqs x = [].
Proof.
  intros l. split; [apply after_reachable; reflexivity|]. split.
  - eexists. split; [vm_compute; reflexivity|]. vm_compute. reflexivity.
  - intros e x H. unfold exp_at in H. destruct e as [|[|[|e]]]; vm_compute in H; try (inversion H; subst; reflexivity).
    destruct e; discriminate.
Qed.

(** ** C14: one sequence. *)

Theorem C14_lazy_matches_earliest_greedy_latest w m ov args l n s :
  reachable w -> matches w m ov args l n ->
  (forall e x, exp_at w e x -> cand w m ov args l e x -> x_seqs x = [s]) ->
  (is_lazy w s = true -> forall e x, exp_at w e x -> cand w m ov args l e x -> n <= e) /\
  (is_lazy w s = false -> forall e x, exp_at w e x -> cand w m ov args l e x -> e <= n).
Proof.
  intros Hr M Hone. pose proof (matches_selected _ _ _ _ _ _ Hr M) as S. destruct (selected_in _ _ _ S) as (x0 & H0 & HP0).
  pose proof (Hone _ _ H0 HP0) as E0.
  destruct (selected_votes w _ n n x0 (winv_reachable _ Hr) S H0 HP0) as [V1 V2].
  { intros e x Hx Hc k. rewrite (Hone _ _ Hx Hc), E0. tauto. }
  unfold lazy_votes in *. rewrite E0 in *. simpl in V1, V2. split; intros El; rewrite El in *; simpl in *.
  - apply V2. lia.
  - apply V1. lia.
Qed.

Definition prog_one (st : strategy) : list op :=
  [ONewSeq st; ONewMock [sig_void]; OExpect 0 0 [] [ClSeq [0]; ClTimes (TxAtMost 1)] here;
   OExpect 0 0 [] [ClSeq [0]; ClTimes (TxAtMost 2)] here; OExpect 0 0 [] [ClTimes (TxAtMost 3); ClSeq [0]] here].
Example C14_example :
  (exists w', step (after (prog_one Lazy)) (OCall 0 0 [] here) = Next w' RUnit /\ accepted (w_trace w') 0 = 1) /\
  (exists w', step (after (prog_one Greedy)) (OCall 0 0 [] here) = Next w' RUnit /\ accepted (w_trace w') 2 = 1).
Proof. split; eexists; (split; [vm_compute; reflexivity|]); vm_compute; reflexivity. Qed.

(** ** C15: several sequences. *)

Theorem C15_unanimous w m ov args l n p xp :
  reachable w -> matches w m ov args l n ->
  exp_at w p xp -> cand w m ov args l p xp -> x_seqs xp <> [] ->
  (forall e x, exp_at w e x -> cand w m ov args l e x -> same_seqs x xp) ->
  (forall e x s, exp_at w e x -> cand w m ov args l e x -> e <> p -> In s (x_seqs xp) -> worse_in w s e p = true) ->
  n = p.
Proof. intros Hr M. eapply selected_unanimous. exact (matches_selected _ _ _ _ _ _ Hr M). Qed.

Theorem C15_selected_has_sequences_of_newest w m ov args l n xn e x :
  reachable w -> matches w m ov args l n -> exp_at w n xn ->
  exp_at w e x -> cand w m ov args l e x -> (forall e' x', exp_at w e' x' -> cand w m ov args l e' x' -> e' <= e) ->
  forall s, In s (x_seqs x) -> In s (x_seqs xn).
Proof. intros Hr M. eapply selected_sub. exact (matches_selected _ _ _ _ _ _ Hr M). Qed.

(** If the sequences disagree they vote; lazy sequences vote for the earliest attached, greedy ones for the latest attached
    candidate, which also wins if the vote is a draw. *)
Theorem C15_vote w m ov args l n e0 x0 :
  reachable w -> matches w m ov args l n -> exp_at w e0 x0 -> cand w m ov args l e0 x0 ->
  (forall e x, exp_at w e x -> cand w m ov args l e x -> same_seqs x x0) ->
  (2 * length (filter (is_lazy w) (x_seqs x0)) <= length (x_seqs x0) -> forall e x, exp_at w e x -> cand w m ov args l e x -> e <= n) /\
  (length (x_seqs x0) < 2 * length (filter (is_lazy w) (x_seqs x0)) -> forall e x, exp_at w e x -> cand w m ov args l e x -> n <= e).
Proof.
  intros Hr M H0 HP0 Hs. exact (selected_votes w _ n e0 x0 (winv_reachable _ Hr) (matches_selected _ _ _ _ _ _ Hr M) H0 HP0 Hs).
Qed.

(** Two lazy and one greedy sequence: the earliest; one lazy and one greedy: the latest. *)
Example C15_example :
  let prog tags := [ONewSeq Lazy; ONewSeq Greedy; ONewSeq Lazy; ONewMock [sig_void];
     OExpect 0 0 [] [ClSeq tags; ClTimes (TxAtMost 1)] here; OExpect 0 0 [] [ClSeq tags; ClTimes (TxAtMost 2)] here] in
  (exists w', step (after (prog [0; 1; 2])) (OCall 0 0 [] here) = Next w' RUnit /\ accepted (w_trace w') 0 = 1) /\
  (exists w', step (after (prog [2; 1])) (OCall 0 0 [] here) = Next w' RUnit /\ accepted (w_trace w') 1 = 1).
Proof. split; eexists; (split; [vm_compute; reflexivity|]); vm_compute; reflexivity. Qed.

(** ** C16: least progress is not always preferred. *)

(** Both expectations are candidates and attached to the LazySequence 0; matching expectation 0 makes no progress in any sequence,
    matching expectation 1 skips it in sequence 0, and still expectation 1 is matched, because it is also attached to sequence 1. *)
Definition prog_skip : list op :=
  [ONewSeq Lazy; ONewSeq Lazy; ONewMock [sig_void];
   OExpect 0 0 [] [ClSeq [0]; ClTimes (TxAtMost 1)] here; OExpect 0 0 [] [ClSeq [0]; ClSeq [1]; ClTimes (TxAtMost 1)] there].

Theorem C16_least_progress_refuted : exists w m ov args l s a xa b xb,
  reachable w /\ is_lazy w s = true /\ exp_at w a xa /\ exp_at w b xb /\ In s (x_seqs xa) /\ In s (x_seqs xb) /\ a < b /\
  cand w m ov args l a xa /\ cand w m ov args l b xb /\ (forall s', In s' (x_seqs xb) -> is_lazy w s' = true) /\
  matches w m ov args l b.
Proof.
  exists (after prog_skip), 0, 0, [], here, 0, 0.
  set (w := after prog_skip). assert (R : reachable w) by (apply after_reachable; reflexivity).
  assert (X : forall e x, exp_at w e x -> e = 0 \/ e = 1).
  { intros e x H. unfold exp_at in H. destruct e as [|[|e]]; auto. destruct e; discriminate. }
  destruct (nth_error (w_exps w) 0) as [xa|] eqn:Ha; [|discriminate].
  destruct (nth_error (w_exps w) 1) as [xb|] eqn:Hb; [|discriminate].
  pose proof Ha as Ea. pose proof Hb as Eb. vm_compute in Ea, Eb. inversion Ea as [Ea']. inversion Eb as [Eb'].
  exists xa, 1, xb.
  assert (C : forall e x, exp_at w e x -> cand w 0 0 [] here e x).
  { intros e x He. exists sig_void, 0. split; [reflexivity|].
    assert (Hw : exp_at w e x) by exact He.
    destruct (X e x He) as [->| ->]; unfold exp_at in He; [rewrite Ha in He|rewrite Hb in He]; inversion He; subst x;
      (split; [split; [exact Hw|split; [rewrite <- ?Ea', <- ?Eb'; reflexivity|rewrite <- ?Ea', <- ?Eb'; reflexivity]]|]);
      (split; [|apply (applicable_iff _ _ _ (winv_reachable _ R) Hw); rewrite <- ?Ea', <- ?Eb'; vm_compute; reflexivity]);
      rewrite <- ?Ea', <- ?Eb'; (split; [intros p Hp; simpl in Hp; destruct Hp as [<-|[<-|[]]]; simpl; split; eexists; reflexivity
                                        |intros p Hp; simpl in Hp; destruct Hp as [<-|[<-|[]]]; reflexivity]). }
  split; auto. split; [reflexivity|]. split; auto. split; auto.
  split; [rewrite <- Ea'; vm_compute; auto|]. split; [rewrite <- Eb'; vm_compute; auto|]. split; auto.
  split; [apply C; auto|]. split; [apply C; auto|].
  split; [intros s' Hs'; rewrite <- Eb' in Hs'; vm_compute in Hs'; destruct Hs' as [<-|[<-|[]]]; reflexivity|].
  eexists. split; [vm_compute; reflexivity|]. vm_compute. reflexivity.
Qed.

(** The preference is no order: each of two candidates attached to different sequences keeps its place against the other one. *)
Theorem C16_preference_is_no_order_refuted : exists w a xa b xb,
  reachable w /\ exp_at w a xa /\ exp_at w b xb /\ a <> b /\ keeps w a b /\ keeps w b a.
Proof.
  set (p := [ONewSeq Lazy; ONewSeq Lazy; ONewMock [sig_void]; OExpect 0 0 [] [ClSeq [0]] here; OExpect 0 0 [] [ClSeq [1]] there]).
  exists (after p), 0. destruct (nth_error (w_exps (after p)) 0) as [xa|] eqn:Ha; [|discriminate].
  destruct (nth_error (w_exps (after p)) 1) as [xb|] eqn:Hb; [|discriminate].
  exists xa, 1, xb. split; [apply after_reachable; reflexivity|]. split; auto. split; auto. split; auto.
  pose proof Ha as Ea. pose proof Hb as Eb. vm_compute in Ea, Eb. inversion Ea as [Ea']. inversion Eb as [Eb'].
  split.
  - exists xa, xb. split; auto. split; auto. left. exists 0. rewrite <- Ea', <- Eb'. vm_compute. split; [auto|]. intros [|[]]; discriminate.
  - exists xb, xa. split; auto. split; auto. left. exists 1. rewrite <- Ea', <- Eb'. vm_compute. split; [auto|]. intros [|[]]; discriminate.
Qed.

Print Assumptions C16_selection_rule.
Print Assumptions C16_one_match.
Print Assumptions C07_newest_without_sequence_wins.
Print Assumptions C07_newest_wins.
Print Assumptions C14_lazy_matches_earliest_greedy_latest.
Print Assumptions C15_unanimous.
Print Assumptions C15_selected_has_sequences_of_newest.
Print Assumptions C15_vote.
Print Assumptions C16_least_progress_refuted.
Print Assumptions C16_preference_is_no_order_refuted.
