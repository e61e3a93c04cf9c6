(** * ScheduleProofs: proofs for ScheduleSpec. *)

From Coq Require Import Permutation.
From Verif Require Import Base Lib Sequence Control Signature Printer Reports Expectation Builder World WorldSpec
  StepCases MatchLemmas WorldInv ObjInv Conc ConcSpec ConcProofs ConcOrder Race RaceSpec RaceProofs RaceFree LifetimeProofs IsolateProofs ScheduleSpec.

(** ** Worlds which agree on some objects *)

(** An expectation without the number of calls and its end. *)
Definition frozen (x : eobj) : eobj :=
  let e := eo_exp x in
  mkEObj (with_ctl e (mkControl (c_min (e_ctl e)) (c_max (e_ctl e)) 0 (c_seqs (e_ctl e)))) (eo_coll x) true (eo_ov x) (eo_sig x).

(** Expectations, sequences, lists of expectations and handles. *)
Record region : Type := mkRegion { g_exp : nat -> Prop; g_seq : nat -> Prop; g_list : nat -> Prop; g_handle : nat -> Prop }.
Definition nowhere : region := mkRegion (fun _ => False) (fun _ => False) (fun _ => False) (fun _ => False).

Record alike (G : region) (w w' : world) : Prop := mkAlike {
  al_iface : w_iface w' = w_iface w; al_mocks : w_mocks w' = w_mocks w; al_frames : w_frames w' = w_frames w;
  al_rid : w_rid w' = w_rid w; al_reporter : w_reporter w' = w_reporter w; al_uncaught : w_uncaught w' = w_uncaught w;
  al_frozen : map frozen (w_exps w') = map frozen (w_exps w);
  al_length : length (w_seqs w') = length (w_seqs w); al_sdead_length : length (w_sdead w') = length (w_sdead w);
  al_colls_length : length (w_colls w') = length (w_colls w); al_scoped_length : length (w_scoped w') = length (w_scoped w);
  al_exps : forall e, g_exp G e -> nth_error (w_exps w') e = nth_error (w_exps w) e;
  al_seqs : forall q, g_seq G q -> nth_error (w_seqs w') q = nth_error (w_seqs w) q;
  al_sdead : forall q, g_seq G q -> nth_error (w_sdead w') q = nth_error (w_sdead w) q;
  al_colls : forall k, g_list G k -> nth_error (w_colls w') k = nth_error (w_colls w) k;
  al_scoped : forall h, g_handle G h -> nth_error (w_scoped w') h = nth_error (w_scoped w) h
}.

Lemma alike_refl G w : alike G w w.
Proof. constructor; auto. Qed.
Lemma alike_sym G w w' : alike G w w' -> alike G w' w.
Proof. intros []. constructor; auto; intros; symmetry; auto. Qed.
Lemma alike_trans G a b c : alike G a b -> alike G b c -> alike G a c.
Proof.
  intros A B. destruct A as [A1 A2 A3 A4 A5 A6 A7 A8 A9 A10 A11 A12 A13 A14 A15 A16], B as [B1 B2 B3 B4 B5 B6 B7 B8 B9 B10 B11 B12 B13 B14 B15 B16].
  constructor; try congruence.
  - intros e He. rewrite B12, A12; auto.
  - intros e He. rewrite B13, A13; auto.
  - intros e He. rewrite B14, A14; auto.
  - intros e He. rewrite B15, A15; auto.
  - intros e He. rewrite B16, A16; auto.
Qed.
Lemma alike_nowhere G w w' : alike G w w' -> alike nowhere w w'.
Proof. intros []. constructor; auto; contradiction. Qed.
Lemma alike_trace G w w' evs evs' : alike G w w' -> alike G (add_trace w evs) (add_trace w' evs').
Proof. intros []. constructor; auto. Qed.
Lemma alike_frames G w w' fs : alike G w w' -> alike G (set_frames w fs) (set_frames w' fs).
Proof. intros []. constructor; auto. Qed.
Lemma alike_uncaught G w w' u : alike G w w' -> alike G (set_uncaught w u) (set_uncaught w' u).
Proof. intros []. constructor; auto. Qed.
Lemma alike_enter G w w' th : alike G w w' -> alike G (enter w th) (enter w' th).
Proof. intros H. apply alike_uncaught, alike_frames, H. Qed.

Lemma frozen_at G w w' e : alike G w w' -> option_map frozen (nth_error (w_exps w') e) = option_map frozen (nth_error (w_exps w) e).
Proof. intros A. rewrite <- !nth_error_map. rewrite (al_frozen _ _ _ A). reflexivity. Qed.
Lemma frozen_other G w w' e x : alike G w w' -> nth_error (w_exps w) e = Some x -> exists x', nth_error (w_exps w') e = Some x' /\ frozen x' = frozen x.
Proof.
  intros A H. pose proof (frozen_at _ _ _ e A) as F. rewrite H in F. destruct (nth_error (w_exps w') e) as [x'|]; [|discriminate].
  exists x'. split; auto. exact (f_equal (fun o => match o with Some y => y | None => frozen x end) F).
Qed.
Lemma alike_exps_length G w w' : alike G w w' -> length (w_exps w') = length (w_exps w).
Proof. intros A. rewrite <- (map_length frozen), (al_frozen _ _ _ A), map_length. reflexivity. Qed.

(** Changing the same place on both sides. *)
Lemma upd_agree {A} (l l' : list A) (P : nat -> Prop) i y : length l' = length l -> (forall k, P k -> nth_error l' k = nth_error l k) ->
  forall k, P k -> nth_error (upd l' i y) k = nth_error (upd l i y) k.
Proof.
  intros L H k Hk. destruct (Nat.eq_dec k i) as [->|Hne]; [|rewrite !nth_error_upd_neq by auto; auto].
  destruct (Nat.lt_ge_cases i (length l)) as [Hlt|Hge].
  - rewrite !nth_error_upd_eq by lia. reflexivity.
  - rewrite !(proj2 (nth_error_None _ _)); auto; rewrite length_upd; lia.
Qed.
Lemma alike_exp G w w' e y : alike G w w' -> alike G (set_exps w (upd (w_exps w) e y)) (set_exps w' (upd (w_exps w') e y)).
Proof.
  intros A. pose proof (alike_exps_length _ _ _ A) as L. destruct A. constructor; auto; cbn [w_exps set_exps].
  - rewrite !map_upd, al_frozen0. reflexivity.
  - apply upd_agree; auto.
Qed.
Lemma alike_coll G w w' k l : alike G w w' -> alike G (set_colls w (upd (w_colls w) k l)) (set_colls w' (upd (w_colls w') k l)).
Proof. intros []. constructor; auto; cbn [w_colls set_colls]; [rewrite !length_upd; auto|apply upd_agree; auto]. Qed.
Lemma alike_handle G w w' h x : alike G w w' -> alike G (set_scoped w (upd (w_scoped w) h x)) (set_scoped w' (upd (w_scoped w') h x)).
Proof. intros []. constructor; auto; cbn [w_scoped set_scoped]; [rewrite !length_upd; auto|apply upd_agree; auto]. Qed.
Lemma alike_dead G w w' q b : alike G w w' -> alike G (set_sdead w (upd (w_sdead w) q b)) (set_sdead w' (upd (w_sdead w') q b)).
Proof. intros []. constructor; auto; cbn [w_sdead set_sdead]; [rewrite !length_upd; auto|apply upd_agree; auto]. Qed.

(** ** Matching reads the members of the list and their sequences *)

Lemma control_state_agree ss ss' c : (forall q, In q (map fst (c_seqs c)) -> nth_error ss' q = nth_error ss q) -> control_state_of ss' c = control_state_of ss c.
Proof.
  intros H. unfold control_state_of. destruct (_ =? _)%Z; auto. f_equal.
  revert H. induction (c_seqs c) as [|[s id] l IH]; intros H; cbn [collect_ratings]; auto. unfold with_seq.
  rewrite (H s) by (left; reflexivity). destruct (nth_error ss s); auto. destruct (seq_priority_of b id); cbn [obind]; auto.
  rewrite IH; auto. intros q Hq. apply H. right. auto.
Qed.

Lemma match_loop_agree rp u ss ss' c es : (forall n e q, In (n, e) es -> In q (map fst (c_seqs (e_ctl e))) -> nth_error ss' q = nth_error ss q) ->
  forall acc, match_loop rp u ss' c es acc = match_loop rp u ss c es acc.
Proof.
  induction es as [|[n e] es IH]; intros H acc; cbn [match_loop]; auto.
  assert (E : make_match_report rp u ss' e c = make_match_report rp u ss e c).
  { unfold make_match_report, exp_matches, exp_report_of. rewrite (control_state_agree ss ss'); auto. intros q Hq. apply (H n e); auto. left. auto. }
  rewrite E. destruct (make_match_report rp u ss e c); cbn [obind]; auto. apply IH. intros n' e' q Hin. apply (H n'). right. auto.
Qed.

Lemma lookup_agree w w' l : (forall e, In e l -> nth_error (w_exps w') e = nth_error (w_exps w) e) -> lookup_exps w' l = lookup_exps w l.
Proof.
  induction l as [|n l IH]; intros H; cbn [lookup_exps]; auto. rewrite (H n) by (left; auto). rewrite IH; auto. intros e He. apply H. right. auto.
Qed.

(** Steps which correspond. *)
Definition follows (G : region) (w w' : world) (s s' : stepped) : Prop :=
  match s, s' with
  | Next v r, Next v' r' => r' = r /\ alike G v v' /\ exists evs, w_trace v = w_trace w ++ evs /\ w_trace v' = w_trace w' ++ evs
  | Stop, Stop => True
  | Wrong u, Wrong u' => u' = u
  | Invalid, Invalid => True
  | _, _ => False
  end.

Lemma follows_thrown G w w' ne evs x : alike G w w' -> follows G w w' (thrown ne (add_trace w evs) x) (thrown ne (add_trace w' evs) x).
Proof. intros A. unfold thrown. destruct ne; cbn; auto. split; auto. split; [apply alike_trace; auto|]. exists evs. auto. Qed.

Definition match_follows (G : region) (w w' : world) (m m' : matching) : Prop :=
  match m, m' with
  | MChosen v n, MChosen v' n' => n' = n /\ exists evs, v = add_trace w evs /\ v' = add_trace w' evs
  | MOver s, MOver s' => follows G w w' s s'
  | _, _ => False
  end.

Lemma match_call_follows G w w' coll ci ne : alike G w w' ->
  (forall l e, nth_error (w_colls w) coll = Some l -> In e l -> nth_error (w_exps w') e = nth_error (w_exps w) e) ->
  (forall l e x q, nth_error (w_colls w) coll = Some l -> In e l -> nth_error (w_exps w) e = Some x -> In q (map fst (c_seqs (e_ctl (eo_exp x)))) -> g_seq G q) -> g_list G coll ->
  match_follows G w w' (match_call w coll ci ne) (match_call w' coll ci ne).
Proof.
  intros A He Hq Hk. unfold match_call. rewrite (al_colls _ _ _ A coll Hk). destruct (nth_error (w_colls w) coll) as [l|] eqn:Hl; [|reflexivity].
  rewrite (lookup_agree w w') by (intros e Hin; apply (He l); auto; apply in_rev; auto).
  destruct (lookup_exps w (rev l)) as [es|] eqn:Hes; [|reflexivity].
  rewrite (al_reporter _ _ _ A), (al_uncaught _ _ _ A).
  rewrite (match_loop_agree (w_reporter w) (w_uncaught w) (w_seqs w) (w_seqs w')).
  2:{ intros n e q Hin Hin'. apply (al_seqs _ _ _ A). destruct (lookup_exps_spec _ _ _ Hes) as [Hfst Hlk]. destruct (Hlk _ _ Hin) as (x & Hx & ->).
      apply (Hq l n x q); auto. apply in_rev. rewrite <- Hfst. apply in_map_iff. exists (n, eo_exp x). auto. }
  assert (A0 : forall x, follows G w w' (thrown ne w x) (thrown ne w' x)).
  { intros x. rewrite <- (add_trace_nil w), <- (add_trace_nil w') at 2. apply (follows_thrown G w w' ne []). exact A. }
  destruct (match_loop _ _ _ _ _ _) as [ml|x| |u]; [|apply A0|exact Logic.I|reflexivity]. cbv zeta.
  rewrite !emit_unhandled_add, (al_rid _ _ _ A). set (evs := map _ (ml_unhandled ml)).
  assert (R : forall r, react (add_trace w' evs) r = react (add_trace w evs) r).
  { intros r. unfold react. cbn [w_reporter w_uncaught add_trace]. rewrite (al_reporter _ _ _ A), (al_uncaught _ _ _ A). reflexivity. }
  assert (EM : forall v r who, emit_report (add_trace v evs) r who = add_trace v (evs ++ [EvReport (w_rid v) r who])).
  { intros. unfold emit_report. rewrite emit_add, add_trace_app. reflexivity. }
  destruct (ml_full ml) as [|first others].
  - rewrite R. destruct (react _ _); [reflexivity| |exact Logic.I]. cbn [match_follows]. rewrite !EM, (al_rid _ _ _ A). apply follows_thrown. exact A.
  - destruct (pick_best first others) as [[n m]|x| |u]; [|apply follows_thrown; exact A|exact Logic.I|reflexivity].
    rewrite R. destruct (react _ _); [|exact Logic.I|exact Logic.I]. cbn [match_follows]. split; auto. rewrite !EM, (al_rid _ _ _ A). eauto.
Qed.

(** ** Counting reads and writes the expectation and its sequences *)

Definition stores (Q : nat -> Prop) (l : list (nat * nat)) (ss ss' : seq_store) (o o' : outcome seq_store) : Prop :=
  match o, o' with
  | Ret r, Ret r' => length r = length ss /\ length r' = length ss' /\ (forall q, Q q -> nth_error r' q = nth_error r q)
  | Throw x, Throw x' => x' = x
  | Terminate, Terminate => True
  | Undef u, Undef u' => u' = u
  | _, _ => False
  end.

Lemma for_each_stores (Q : nat -> Prop) f l : (forall q, In q (map fst l) -> Q q) -> forall ss ss', (forall q, Q q -> nth_error ss' q = nth_error ss q) ->
  length ss' = length ss -> stores Q l ss ss' (for_each_seq f ss l) (for_each_seq f ss' l).
Proof.
  induction l as [|[s id] l IH]; intros HQ ss ss' H Hlen; cbn [for_each_seq]; [cbn; auto|]. unfold with_seq.
  rewrite (H s) by (apply HQ; left; reflexivity). destruct (nth_error ss s) as [q|] eqn:Hs; [|reflexivity].
  destruct (f q id) as [q'|x| |u]; cbn [obind]; [|reflexivity|exact Logic.I|reflexivity].
  assert (Hlt : s < length ss) by (eapply nth_error_lt; eauto).
  assert (IH' : stores Q l (upd ss s q') (upd ss' s q') (for_each_seq f (upd ss s q') l) (for_each_seq f (upd ss' s q') l)).
  { apply IH; [intros; apply HQ; right; auto| |rewrite !length_upd; auto]. intros k Hk. destruct (Nat.eq_dec k s) as [->|Hne].
    - rewrite !nth_error_upd_eq by lia. reflexivity.
    - rewrite !nth_error_upd_neq by auto. auto. }
  unfold stores in *. rewrite !length_upd in IH'. exact IH'.
Qed.

Lemma for_each_keeps f l : forall ss r, for_each_seq f ss l = Ret r -> length r = length ss /\ forall q, ~ In q (map fst l) -> nth_error r q = nth_error ss q.
Proof.
  induction l as [|[s id] l IH]; intros ss r H; cbn [for_each_seq] in H; [injection H as <-; auto|]. unfold with_seq in H.
  destruct (nth_error ss s) as [q|] eqn:Hs; [|discriminate]. destruct (f q id) as [q'|x| |u]; cbn [obind] in H; try discriminate.
  destruct (IH _ _ H) as [H1 H2]. rewrite length_upd in H1. split; auto. intros k Hk. rewrite H2 by (intros Hin; apply Hk; right; auto).
  apply nth_error_upd_neq. intros ->. apply Hk. left. reflexivity.
Qed.

Definition consumes (Q : nat -> Prop) (o o' : outcome (seq_store * control)) (ss ss' : seq_store) : Prop :=
  match o, o' with
  | Ret (r, c), Ret (r', c') => c' = c /\ length r = length ss /\ length r' = length ss' /\ (forall q, Q q -> nth_error r' q = nth_error r q)
  | Throw x, Throw x' => x' = x
  | Terminate, Terminate => True
  | Undef u, Undef u' => u' = u
  | _, _ => False
  end.

Lemma applicable_agree ss ss' c : (forall q, In q (map fst (c_seqs c)) -> nth_error ss' q = nth_error ss q) -> control_is_applicable ss' c = control_is_applicable ss c.
Proof.
  intros H. unfold control_is_applicable. f_equal. revert H. induction (c_seqs c) as [|[s id] l IH]; intros H; cbn [forallb]; auto.
  rewrite (H s) by (left; auto). f_equal. apply IH. intros q Hq. apply H. right. auto.
Qed.

Lemma consume_agree (Q : nat -> Prop) release c ss ss' : (forall q, In q (map fst (c_seqs c)) -> Q q) -> (forall q, Q q -> nth_error ss' q = nth_error ss q) ->
  length ss' = length ss -> consumes Q (consume_with release ss c) (consume_with release ss' c) ss ss'.
Proof.
  intros HQ H Hlen.
  assert (G : forall f g,
    consumes Q
      (obind (for_each_seq f ss (c_seqs c)) (fun ss1 => if (c_count c =? INT_MAX)%Z then Undef UbOverflow else
        obind (match g with Some g => for_each_seq g ss1 (c_seqs c) | None => Ret ss1 end) (fun ss2 => Ret (ss2, mkControl (c_min c) (c_max c) (c_count c + 1) (c_seqs c)))))
      (obind (for_each_seq f ss' (c_seqs c)) (fun ss1 => if (c_count c =? INT_MAX)%Z then Undef UbOverflow else
        obind (match g with Some g => for_each_seq g ss1 (c_seqs c) | None => Ret ss1 end) (fun ss2 => Ret (ss2, mkControl (c_min c) (c_max c) (c_count c + 1) (c_seqs c))))) ss ss').
  { intros f g. pose proof (for_each_stores Q f (c_seqs c) HQ ss ss' H Hlen) as S1.
    destruct (for_each_seq f ss (c_seqs c)) as [r|x| |u], (for_each_seq f ss' (c_seqs c)) as [r'|x'| |u']; cbn [stores] in S1; try contradiction; cbn [obind]; try exact S1.
    destruct S1 as (L1 & L2 & S1). destruct (_ =? INT_MAX)%Z; [reflexivity|]. destruct g as [g|]; cbn [obind]; [|cbn; auto].
    assert (Hlr : length r' = length r) by congruence. pose proof (for_each_stores Q g (c_seqs c) HQ r r' S1 Hlr) as S2.
    destruct (for_each_seq g r (c_seqs c)) as [v|x| |u], (for_each_seq g r' (c_seqs c)) as [v'|x'| |u']; cbn [stores] in S2; try contradiction; cbn [obind]; try exact S2.
    destruct S2 as (L3 & L4 & S2). cbn. repeat (split; try congruence; auto). }
  unfold consume_with. destruct release.
  - unfold control_consume_nd, control_update_nd. cbn [c_count c_min c_max c_seqs].
    pose proof (G seq_consume_nd (if (c_count c + 1 =? c_min c)%Z then Some (seq_set_nd Satisfied) else if (c_count c + 1 =? c_max c)%Z then Some (seq_set_nd Saturated) else None)) as G1.
    destruct (c_count c + 1 =? c_min c)%Z; [exact G1|]. destruct (c_count c + 1 =? c_max c)%Z; exact G1.
  - unfold control_consume, control_update, assert_. rewrite (applicable_agree ss ss') by auto. destruct (control_is_applicable ss c); [|reflexivity].
    cbn [c_count c_min c_max c_seqs].
    pose proof (G seq_consume (if (c_count c + 1 =? c_min c)%Z then Some seq_set_satisfied else if (c_count c + 1 =? c_max c)%Z then Some seq_set_saturated else None)) as G1.
    destruct (c_count c + 1 =? c_min c)%Z; [exact G1|]. destruct (c_count c + 1 =? c_max c)%Z; exact G1.
Qed.

Lemma consume_keeps release c ss r c' : consume_with release ss c = Ret (r, c') ->
  length r = length ss /\ (forall q, ~ In q (map fst (c_seqs c)) -> nth_error r q = nth_error ss q) /\
  c_min c' = c_min c /\ c_max c' = c_max c /\ c_seqs c' = c_seqs c.
Proof.
  assert (G : forall f g ss r c',
      (obind (for_each_seq f ss (c_seqs c)) (fun ss1 => if (c_count c =? INT_MAX)%Z then Undef UbOverflow else
        obind (match g with Some g => for_each_seq g ss1 (c_seqs c) | None => Ret ss1 end) (fun ss2 => Ret (ss2, mkControl (c_min c) (c_max c) (c_count c + 1) (c_seqs c))))) = Ret (r, c') ->
      length r = length ss /\ (forall q, ~ In q (map fst (c_seqs c)) -> nth_error r q = nth_error ss q) /\
      c_min c' = c_min c /\ c_max c' = c_max c /\ c_seqs c' = c_seqs c).
  { clear. intros f g ss r c' H. destruct (for_each_seq f ss (c_seqs c)) as [r1|x| |u] eqn:E1; cbn [obind] in H; try discriminate.
    destruct (for_each_keeps _ _ _ _ E1) as [L1 K1]. destruct (_ =? INT_MAX)%Z; [discriminate|]. destruct g as [g|].
    - destruct (for_each_seq g r1 (c_seqs c)) as [r2|x| |u] eqn:E2; cbn [obind] in H; try discriminate. injection H as <- <-.
      destruct (for_each_keeps _ _ _ _ E2) as [L2 K2]. split; [congruence|]. split; [|auto]. intros q Hq. rewrite K2, K1; auto.
    - cbn [obind] in H. injection H as <- <-. auto. }
  unfold consume_with. destruct release; intros H.
  - unfold control_consume_nd, control_update_nd in H. cbn [c_count c_min c_max c_seqs] in H.
    apply (G seq_consume_nd (if (c_count c + 1 =? c_min c)%Z then Some (seq_set_nd Satisfied) else if (c_count c + 1 =? c_max c)%Z then Some (seq_set_nd Saturated) else None)).
    destruct (c_count c + 1 =? c_min c)%Z; [exact H|]. destruct (c_count c + 1 =? c_max c)%Z; exact H.
  - unfold control_consume, control_update, assert_ in H. destruct (control_is_applicable ss c); [|discriminate].
    cbn [c_count c_min c_max c_seqs] in H.
    apply (G seq_consume (if (c_count c + 1 =? c_min c)%Z then Some seq_set_satisfied else if (c_count c + 1 =? c_max c)%Z then Some seq_set_saturated else None)).
    destruct (c_count c + 1 =? c_min c)%Z; [exact H|]. destruct (c_count c + 1 =? c_max c)%Z; exact H.
Qed.

Lemma count_follows G release w w' n ci ne : alike G w w' -> g_exp G n ->
  (forall x q, nth_error (w_exps w) n = Some x -> In q (map fst (c_seqs (e_ctl (eo_exp x)))) -> g_seq G q) ->
  follows G w w' (count_call release w n ci ne) (count_call release w' n ci ne).
Proof.
  intros A Hn HQ. unfold count_call. rewrite (al_exps _ _ _ A n Hn). destruct (nth_error (w_exps w) n) as [x|] eqn:Hx; [|reflexivity].
  destruct (eo_alive x); cbn [negb]; [|reflexivity]. cbv zeta.
  pose proof (consume_agree (g_seq G) release (e_ctl (eo_exp x)) (w_seqs w) (w_seqs w') (fun q => HQ x q eq_refl) (al_seqs _ _ _ A) (al_length _ _ _ A)) as C.
  destruct (consume_with release (w_seqs w) (e_ctl (eo_exp x))) as [[ss ctl]|y| |u] eqn:E1,
    (consume_with release (w_seqs w') (e_ctl (eo_exp x))) as [[ss' ctl']|y'| |u'] eqn:E2; cbn [consumes] in C; try contradiction.
  - destruct C as (-> & L1 & L2 & C). destruct (consume_asserts _ _) as [[]| | |]; [|exact Logic.I|exact Logic.I|reflexivity]. cbn [follows]. split; auto. split.
    + pose proof (alike_exp _ _ _ n (mkEObj (with_ctl (eo_exp x) ctl) (eo_coll x) true (eo_ov x) (eo_sig x)) A) as B. destruct B. constructor; cbn in *; auto; congruence.
    + exists []. rewrite !app_nil_r. auto.
  - subst. rewrite <- (add_trace_nil w), <- (add_trace_nil w') at 2. apply follows_thrown. exact A.
  - exact Logic.I.
  - exact C.
Qed.

(** ** Side effects, finalizers and questions *)

Lemma alive_agree G w w' e : alike G w w' -> g_exp G e -> exp_alive w' e = exp_alive w e.
Proof. intros A He. unfold exp_alive. rewrite (al_exps _ _ _ A e He). reflexivity. Qed.

Lemma frame_follows G w w' o : of_call (AOp o) -> alike G w w' ->
  (forall h, o <> OEndScope h) -> (forall f, In f (w_frames w) -> g_exp G (f_exp f)) ->
  (forall h, o = OSatisfied h -> g_handle G h) -> (forall h e, o = OSatisfied h -> nth_error (w_scoped w) h = Some (HOwns e) -> g_exp G e) -> follows G w w' (step w o) (step w' o).
Proof.
  intros Ho A HE HF HH HP. destruct o; try contradiction; cbn [step]; try (exfalso; eapply HE; reflexivity).
  - unfold do_action. rewrite (al_frames _ _ _ A). destruct (w_frames w) as [|f fs]; [exact Logic.I|]. destruct (f_todo f) as [|n todo]; [exact Logic.I|].
    rewrite (alive_agree _ _ _ _ A (HF f (or_introl eq_refl))). destruct (exp_alive w (f_exp f)); cbn [negb follows]; [|reflexivity]. split; auto.
    rewrite !emit_add. split; [apply alike_frames, alike_trace, A|]. eexists. split; reflexivity.
  - rewrite (al_frames _ _ _ A). destruct (w_frames w) as [|f fs]; [exact Logic.I|]. destruct (f_started f && negb (f_final f)); exact Logic.I.
  - unfold do_final. rewrite (al_frames _ _ _ A). destruct (w_frames w) as [|f fs]; [exact Logic.I|]. destruct (f_todo f) as [|n todo]; [|exact Logic.I].
    destruct (f_final f); [exact Logic.I|].
    rewrite (alive_agree _ _ _ _ A (HF f (or_introl eq_refl))). destruct (exp_alive w (f_exp f)); cbn [negb follows]; [|reflexivity]. split; auto.
    rewrite !emit_add. split; [apply alike_frames, alike_trace, A|]. eexists. split; reflexivity.
  - unfold do_return. rewrite (al_frames _ _ _ A). destruct (w_frames w) as [|f fs]; [exact Logic.I|]. destruct (f_final f); cbn [negb]; [|exact Logic.I].
    pose proof (frozen_at _ _ _ (f_exp f) A) as F.
    destruct (nth_error (w_exps w') (f_exp f)) as [x'|], (nth_error (w_exps w) (f_exp f)) as [x|]; try discriminate; [|exact Logic.I].
    assert (E : e_final (eo_exp x') = e_final (eo_exp x)) by exact (f_equal (fun o => match o with Some y => e_final (eo_exp y) | None => FInit end) F).
    cbv zeta. rewrite E. destruct (finalizer_result _ _); cbn [follows].
    + split; auto. split; [apply alike_frames, A|]. exists []. cbn [w_trace set_frames]. rewrite !app_nil_r. auto.
    + unfold thrown. destruct (f_noexcept f); cbn [follows]; auto. split; auto. split; [apply alike_frames, A|]. exists []. cbn [w_trace set_frames]. rewrite !app_nil_r. auto.
  - rewrite (al_scoped _ _ _ A h (HH h eq_refl)). destruct (nth_error (w_scoped w) h) as [[e| |]|] eqn:Hh; try exact Logic.I; [|reflexivity].
    rewrite (al_exps _ _ _ A e (HP h e eq_refl Hh)). destruct (nth_error (w_exps w) e) as [x|]; [|reflexivity]. destruct (eo_alive x); [|reflexivity].
    cbn [follows]. split; auto. split; auto. exists []. rewrite !app_nil_r. auto.
  - cbn [follows]. split; auto. split; [apply alike_uncaught, A|]. exists []. cbn [w_trace set_uncaught]. rewrite !app_nil_r. auto.
Qed.

(** ** The end of an expectation *)

Lemma release_seqs_follows G l : forall w w' u, alike G w w' -> (forall q, In q l -> g_seq G q /\ seq_in_use w' q = seq_in_use w q) ->
  w_uncaught w = u -> follows G w w' (release_seqs w l) (release_seqs w' l).
Proof.
  assert (Same : forall v v', alike G v v' -> follows G v v' (Next v RUnit) (Next v' RUnit)).
  { intros v v' A. cbn [follows]. split; auto. split; auto. exists []. rewrite !app_nil_r. auto. }
  induction l as [|s l IH]; intros w w' u A H Hu; cbn [release_seqs]; [auto|].
  destruct (H s (or_introl eq_refl)) as [Hs Hin].
  assert (Hrel : forall v v' evs, alike G v v' -> w_trace v = w_trace w ++ evs -> w_trace v' = w_trace w' ++ evs ->
    (forall q, seq_in_use v q = seq_in_use w q) -> (forall q, seq_in_use v' q = seq_in_use w' q) -> w_uncaught v = u ->
    follows G w w' (release_seqs v l) (release_seqs v' l)).
  { intros v v' evs B T T' U U' Hu'. pose proof (IH v v' u B) as F. assert (F' : follows G v v' (release_seqs v l) (release_seqs v' l)).
    { apply F; auto. intros q Hq. destruct (H q (or_intror Hq)) as [H1 H2]. split; auto. rewrite U, U'. auto. }
    destruct (release_seqs v l) as [z r| |x|], (release_seqs v' l) as [z' r'| |x'|]; cbn [follows] in *; auto.
    destruct F' as (-> & Az & evs' & E1 & E2). split; auto. split; auto. exists (evs ++ evs'). rewrite E1, E2, T, T', !app_assoc. auto. }
  assert (D : nth s (w_sdead w') true = nth s (w_sdead w) true).
  { pose proof (al_sdead _ _ _ A s Hs) as E. pose proof (nth_error_nth' (w_sdead w) true (n := s)) as N1. pose proof (nth_error_nth' (w_sdead w') true (n := s)) as N2.
    pose proof (al_sdead_length _ _ _ A) as L. destruct (Nat.lt_ge_cases s (length (w_sdead w))) as [Hlt|Hge].
    - rewrite N1, N2 in E by lia. congruence.
    - rewrite !nth_overflow by lia. reflexivity. }
  unfold release_seq. rewrite Hin, D, (al_seqs _ _ _ A s Hs). destruct (seq_in_use w s || nth s (w_sdead w) true).
  { apply (Hrel w w' []); auto; rewrite app_nil_r; auto. }
  cbv zeta. destruct (nth_error (w_seqs w) s) as [q|]; [|reflexivity]. destruct (seq_dtor_error q) as [[k n]|].
  - unfold react. cbn [w_reporter w_uncaught set_sdead]. rewrite (al_reporter _ _ _ A), (al_uncaught _ _ _ A).
    destruct (w_reporter w (RError k n) (w_uncaught w)); [|exact Logic.I|exact Logic.I].
    unfold emit_report. rewrite !emit_add. cbn [w_rid set_sdead]. rewrite (al_rid _ _ _ A).
    eapply Hrel; [apply alike_trace, alike_dead, A|reflexivity|reflexivity|reflexivity|reflexivity|exact Hu].
  - apply (Hrel _ _ []); auto; try (cbn [w_trace set_sdead]; rewrite app_nil_r; auto). apply alike_dead. exact A.
Qed.

Lemma existsb_at {A} (f : A -> bool) l : existsb f l = true <-> exists i x, nth_error l i = Some x /\ f x = true.
Proof.
  rewrite existsb_exists. split.
  - intros (x & Hin & Hf). apply In_nth_error in Hin. destruct Hin as [i Hi]. eauto.
  - intros (i & x & Hi & Hf). exists x. split; auto. eapply nth_error_In; eauto.
Qed.

(** The expectations which use a sequence decide whether it ends. *)
Lemma in_use_agree G w w' q : alike G w w' ->
  (forall e x, nth_error (w_exps w) e = Some x -> eo_alive x = true -> In q (map fst (c_seqs (e_ctl (eo_exp x)))) -> g_exp G e) ->
  (forall e x, nth_error (w_exps w') e = Some x -> eo_alive x = true -> In q (map fst (c_seqs (e_ctl (eo_exp x)))) -> g_exp G e) ->
  seq_in_use w' q = seq_in_use w q.
Proof.
  intros A H H'. unfold seq_in_use. rewrite (al_iface _ _ _ A). f_equal.
  assert (At : forall x, eo_alive x && attached_to q (e_ctl (eo_exp x)) = true -> eo_alive x = true /\ In q (map fst (c_seqs (e_ctl (eo_exp x))))).
  { intros x E. apply andb_true_iff in E. destruct E as [E1 E2]. split; auto. unfold attached_to in E2. apply existsb_exists in E2.
    destruct E2 as ([s id] & Hin & E). apply Nat.eqb_eq in E. subst s. apply in_map_iff. exists (q, id). auto. }
  apply eq_true_iff_eq. rewrite !existsb_at. split; intros (e & x & He & Hf); destruct (At x Hf) as [Ha Hq]; exists e, x; split; auto.
  - rewrite <- (al_exps _ _ _ A e); auto. eapply H'; eauto.
  - rewrite (al_exps _ _ _ A e); auto. eapply H; eauto.
Qed.

Lemma end_follows G w w' e : alike G w w' -> g_exp G e ->
  (forall x, nth_error (w_exps w) e = Some x -> g_list G (eo_coll x) /\ forall q, In q (map fst (c_seqs (e_ctl (eo_exp x)))) -> g_seq G q /\
    (forall e' x', nth_error (w_exps w) e' = Some x' -> eo_alive x' = true -> In q (map fst (c_seqs (e_ctl (eo_exp x')))) -> g_exp G e') /\
    (forall e' x', nth_error (w_exps w') e' = Some x' -> eo_alive x' = true -> In q (map fst (c_seqs (e_ctl (eo_exp x')))) -> g_exp G e')) ->
  follows G w w' (end_expectation w e) (end_expectation w' e).
Proof.
  intros A He HX. unfold end_expectation. rewrite (al_exps _ _ _ A e He). destruct (nth_error (w_exps w) e) as [x|] eqn:Hx; [|reflexivity].
  destruct (HX x eq_refl) as [Hk HQ]. cbv zeta. rewrite (al_colls _ _ _ A _ Hk). destruct (nth_error (w_colls w) (eo_coll x)) as [l|]; [|reflexivity].
  destruct (negb (existsb (Nat.eqb e) l)); [reflexivity|].
  set (y := mkEObj (eo_exp x) (eo_coll x) false (eo_ov x) (eo_sig x)). set (l' := erase_first e l).
  set (seqs := map fst (c_seqs (e_ctl (eo_exp x)))) in *.
  (* releasing the sequences of the destroyed expectation *)
  assert (Rel : forall evs u, follows G w w'
    (release_seqs (set_uncaught (set_exps (add_trace (set_colls w (upd (w_colls w) (eo_coll x) l')) evs) (upd (w_exps w) e y)) u) seqs)
    (release_seqs (set_uncaught (set_exps (add_trace (set_colls w' (upd (w_colls w') (eo_coll x) l')) evs) (upd (w_exps w') e y)) u) seqs)).
  { intros evs u.
    set (v := set_uncaught (set_exps (add_trace (set_colls w (upd (w_colls w) (eo_coll x) l')) evs) (upd (w_exps w) e y)) u).
    set (v' := set_uncaught (set_exps (add_trace (set_colls w' (upd (w_colls w') (eo_coll x) l')) evs) (upd (w_exps w') e y)) u).
    assert (B : alike G v v') by (apply alike_uncaught, (alike_exp G (add_trace (set_colls w _) evs) (add_trace (set_colls w' _) evs)), alike_trace, alike_coll, A).
    assert (F : follows G v v' (release_seqs v seqs) (release_seqs v' seqs)).
    { apply (release_seqs_follows G seqs v v' u B); [|reflexivity]. intros q Hq. destruct (HQ q Hq) as (Hg & H1 & H2). split; auto.
      apply (in_use_agree G v v' q B).
      - intros e' x' He' Ha' Hq'. unfold v in He'. cbn [w_exps set_uncaught set_exps] in He'. apply nth_error_upd in He'.
        destruct He' as [(<- & _ & ->)|(Hne & He')]; [discriminate|]. eapply H1; eauto.
      - intros e' x' He' Ha' Hq'. unfold v' in He'. cbn [w_exps set_uncaught set_exps] in He'. apply nth_error_upd in He'.
        destruct He' as [(<- & _ & ->)|(Hne & He')]; [discriminate|]. eapply H2; eauto. }
    destruct (release_seqs v seqs) as [z r| |b|], (release_seqs v' seqs) as [z' r'| |b'|]; cbn [follows] in F |- *; auto.
    destruct F as (-> & Az & evs' & E1 & E2). split; auto. split; auto. exists (evs ++ evs').
    rewrite E1, E2. unfold v, v'. cbn [w_trace set_uncaught set_exps add_trace set_colls]. rewrite !app_assoc. auto. }
  (* the exception is over afterwards *)
  assert (Over : forall evs z (u : nat), follows G w w'
    (match release_seqs (set_uncaught (set_exps (add_trace (set_colls w (upd (w_colls w) (eo_coll x) l')) evs) (upd (w_exps w) e y)) (S u)) seqs with
     | Next w2 _ => Next (set_uncaught w2 u) (RThrow z) | other => other end)
    (match release_seqs (set_uncaught (set_exps (add_trace (set_colls w' (upd (w_colls w') (eo_coll x) l')) evs) (upd (w_exps w') e y)) (S u)) seqs with
     | Next w2 _ => Next (set_uncaught w2 u) (RThrow z) | other => other end)).
  { intros evs z u. pose proof (Rel evs (S u)) as F.
    destruct (release_seqs (set_uncaught (set_exps (add_trace (set_colls w _) evs) _) (S u)) seqs) as [v r| |b|],
      (release_seqs (set_uncaught (set_exps (add_trace (set_colls w' _) evs) _) (S u)) seqs) as [v' r'| |b'|]; cbn [follows] in F |- *; auto.
    destruct F as (-> & Av & evs' & E1 & E2). split; auto. split; [apply alike_uncaught; auto|]. exists evs'. auto. }
  destruct (exp_is_satisfied (eo_exp x)).
  - pose proof (Rel [] (w_uncaught w)) as F. rewrite !add_trace_nil in F. rewrite <- (al_uncaught _ _ _ A) in F at 2.
    exact F.
  - assert (ER : exp_report_of (w_seqs w') (eo_exp x) = exp_report_of (w_seqs w) (eo_exp x)).
    { unfold exp_report_of. rewrite (control_state_agree (w_seqs w) (w_seqs w')); auto. intros q Hq. apply (al_seqs _ _ _ A). apply HQ. exact Hq. }
    rewrite ER. destruct (exp_report_of (w_seqs w) (eo_exp x)) as [rep|z| |b]; [| |exact Logic.I|reflexivity].
    + unfold react. cbn [w_reporter w_uncaught set_colls]. rewrite (al_reporter _ _ _ A), (al_uncaught _ _ _ A).
      unfold emit_report. rewrite !emit_add. cbn [w_rid set_colls]. rewrite (al_rid _ _ _ A).
      set (evs := [EvReport (w_rid w) (RUnfulfilled rep) [e]]).
      destruct (w_reporter w (RUnfulfilled rep) (w_uncaught w)); [|exact (Over evs EReporter (w_uncaught w))|exact Logic.I].
      pose proof (Rel evs (w_uncaught w)) as F. rewrite <- (al_uncaught _ _ _ A) in F at 2. exact F.
    + rewrite (al_uncaught _ _ _ A). pose proof (Over [] z (w_uncaught w)) as F. rewrite !add_trace_nil in F. exact F.
Qed.

Lemma release_keeps l : forall w v r, release_seqs w l = Next v r ->
  exists evs sd, v = set_sdead (add_trace w evs) sd /\ length sd = length (w_sdead w) /\ forall q, ~ In q l -> nth_error sd q = nth_error (w_sdead w) q.
Proof.
  induction l as [|s l IH]; intros w v r H; cbn [release_seqs] in H.
  - injection H as <- _. exists [], (w_sdead w). rewrite add_trace_nil. split; [destruct w; reflexivity|]. auto.
  - assert (G : forall w1 evs1 sd1, w1 = set_sdead (add_trace w evs1) sd1 -> length sd1 = length (w_sdead w) ->
      (forall q, q <> s -> nth_error sd1 q = nth_error (w_sdead w) q) -> release_seqs w1 l = Next v r ->
      exists evs sd, v = set_sdead (add_trace w evs) sd /\ length sd = length (w_sdead w) /\ forall q, ~ In q (s :: l) -> nth_error sd q = nth_error (w_sdead w) q).
    { intros w1 evs1 sd1 -> L1 K1 H1. destruct (IH _ _ _ H1) as (evs & sd & -> & L & K). exists (evs1 ++ evs), sd.
      split; [apply world_ext; try reflexivity; cbn [w_trace set_sdead add_trace]; symmetry; apply app_assoc|]. split; [cbn in L; congruence|].
      intros q Hq. rewrite K by (intros Hin; apply Hq; right; auto). cbn. apply K1. intros ->. apply Hq. left. reflexivity. }
    unfold release_seq in H. destruct (_ || _).
    + apply (G w [] (w_sdead w)); auto. rewrite add_trace_nil. destruct w; reflexivity.
    + cbv zeta in H. destruct (nth_error (w_seqs w) s) as [q|]; [|discriminate]. destruct (seq_dtor_error q) as [[k n]|].
      * destruct (react _ _); try discriminate. unfold emit_report in H. rewrite emit_add in H.
        eapply (G _ [EvReport (w_rid w) (RError k n) [s]] (upd (w_sdead w) s true)); [| | |exact H]; [reflexivity|apply length_upd|].
        intros q' Hne. apply nth_error_upd_neq. auto.
      * apply (G (set_sdead w (upd (w_sdead w) s true)) [] (upd (w_sdead w) s true)); auto; [rewrite add_trace_nil; reflexivity|apply length_upd|].
        intros q' Hne. apply nth_error_upd_neq. auto.
Qed.

Lemma ended_world w evs1 evs xs u sd :
  set_uncaught (set_sdead (add_trace (set_uncaught (set_exps (add_trace w evs1) xs) u) evs) sd) (w_uncaught w) = set_sdead (set_exps (add_trace w (evs1 ++ evs)) xs) sd.
Proof. apply world_ext; try reflexivity. cbn [w_trace set_uncaught set_sdead set_exps add_trace]. symmetry. apply app_assoc. Qed.

Lemma end_keeps w e v r : end_expectation w e = Next v r ->
  exists x l evs sd, nth_error (w_exps w) e = Some x /\ nth_error (w_colls w) (eo_coll x) = Some l /\
    v = set_sdead (set_exps (add_trace (set_colls w (upd (w_colls w) (eo_coll x) (erase_first e l))) evs)
          (upd (w_exps w) e (mkEObj (eo_exp x) (eo_coll x) false (eo_ov x) (eo_sig x)))) sd /\
    length sd = length (w_sdead w) /\ forall q, ~ In q (map fst (c_seqs (e_ctl (eo_exp x)))) -> nth_error sd q = nth_error (w_sdead w) q.
Proof.
  unfold end_expectation. intros H. destruct (nth_error (w_exps w) e) as [x|]; [|discriminate]. cbv zeta in H.
  destruct (nth_error (w_colls w) (eo_coll x)) as [l|] eqn:Hl; [|discriminate]. destruct (negb _); [discriminate|].
  exists x, l. set (y := mkEObj (eo_exp x) (eo_coll x) false (eo_ov x) (eo_sig x)) in *. set (seqs := map fst (c_seqs (e_ctl (eo_exp x)))) in *.
  assert (G : forall evs1 u v1 r1,
    release_seqs (set_uncaught (set_exps (add_trace (set_colls w (upd (w_colls w) (eo_coll x) (erase_first e l))) evs1) (upd (w_exps w) e y)) u) seqs = Next v1 r1 ->
    v = set_uncaught v1 (w_uncaught w) ->
    exists evs sd, Some x = Some x /\ nth_error (w_colls w) (eo_coll x) = Some l /\ v = set_sdead (set_exps (add_trace (set_colls w (upd (w_colls w) (eo_coll x) (erase_first e l))) evs) (upd (w_exps w) e y)) sd /\
      length sd = length (w_sdead w) /\ forall q, ~ In q seqs -> nth_error sd q = nth_error (w_sdead w) q).
  { intros evs1 u v1 r1 H1 ->. destruct (release_keeps _ _ _ _ H1) as (evs & sd & -> & L & K). exists (evs1 ++ evs), sd.
    split; auto. split; auto. split; [|auto]. exact (ended_world (set_colls w (upd (w_colls w) (eo_coll x) (erase_first e l))) evs1 evs (upd (w_exps w) e y) u sd). }
  destruct (exp_is_satisfied (eo_exp x)).
  - eapply (G [] (w_uncaught w) v); [|]. 
    + rewrite add_trace_nil. exact H.
    + destruct (release_keeps _ _ _ _ H) as (evs & sd & -> & _). reflexivity.
  - destruct (exp_report_of (w_seqs w) (eo_exp x)) as [rep|z| |b]; try discriminate.
    + unfold emit_report in H. rewrite !emit_add in H. destruct (react _ _); try discriminate.
      * eapply (G _ (w_uncaught w) v); [exact H|]. destruct (release_keeps _ _ _ _ H) as (evs & sd & -> & _). reflexivity.
      * destruct (release_seqs _ seqs) as [v1 r1| | |] eqn:E; try discriminate. injection H as <- _. eapply G; [exact E|reflexivity].
    + destruct (release_seqs _ seqs) as [v1 r1| | |] eqn:E; try discriminate. injection H as <- _. eapply (G [] (S (w_uncaught w)) v1); [|reflexivity].
      rewrite add_trace_nil. exact E.
Qed.

(** ** The steps of calls *)

(** Between the steps no thread's stack is in the shared world. *)
Definition flat (c : cworld) : Prop := w_frames (cw c) = [] /\ w_uncaught (cw c) = 0.

Lemma flat_step release c t a c1 r : cstep release c t a = CNext c1 r -> flat c1.
Proof.
  intros H. unfold cstep in H. destruct (nth_error (c_threads c) t) as [th|]; [|discriminate].
  assert (G : forall log s, embed c t log s = CNext c1 r -> flat c1).
  { intros log s E. destruct s; cbn [embed] in E; try discriminate. injection E as <- <-. split; reflexivity. }
  destruct (t_pending th) as [[[n ci] ne]|], a as [o|m ov args l|]; try discriminate.
  - eauto.
  - destruct (is_call o); [discriminate|]. eauto.
  - destruct (find_overload _ _ _) as [s|[s coll]]; [eauto|]. destruct (negb _); [discriminate|]. cbv zeta in H.
    destruct (match_call _ _ _ _); [|eauto]. injection H as <- <-. split; reflexivity.
Qed.
Lemma flat_run release c acts c' : cruns release c acts c' -> flat c -> flat c'.
Proof. induction 1; auto. intros _. apply IHcruns. eapply flat_step; eauto. Qed.


Lemma core_alike G c c1 : flat c -> flat c1 -> core (cw c1) = core (cw c) -> alike G (cw c) (cw c1).
Proof.
  intros [F1 F2] [F3 F4] H. destruct (core_fields _ _ H) as (H1 & H2 & H3 & H4 & H5 & H6 & H7 & H8 & H9).
  constructor; intros; congruence.
Qed.

Lemma alike_weaken (G G' : region) w w' : (forall e, g_exp G' e -> g_exp G e) -> (forall q, g_seq G' q -> g_seq G q) ->
  (forall k, g_list G' k -> g_list G k) -> (forall h, g_handle G' h -> g_handle G h) -> alike G w w' -> alike G' w w'.
Proof. intros H1 H2 H3 H4 []. constructor; auto. Qed.

(** What a step leaves alone. *)
Definition untouched (c : cworld) (t : nat) (a : action) : region := mkRegion
  (fun e => ~ pending_exp c t e /\ forall h, a = AOp (OEndScope h) -> nth_error (w_scoped (cw c)) h <> Some (HOwns e))
  (fun q => (~ exists e x, pending_exp c t e /\ exp_at (cw c) e x /\ In q (map fst (c_seqs (e_ctl (eo_exp x))))) /\
    forall h e x, a = AOp (OEndScope h) -> nth_error (w_scoped (cw c)) h = Some (HOwns e) -> exp_at (cw c) e x -> ~ In q (map fst (c_seqs (e_ctl (eo_exp x)))))
  (fun k => forall h e x, a = AOp (OEndScope h) -> nth_error (w_scoped (cw c)) h = Some (HOwns e) -> exp_at (cw c) e x -> eo_coll x <> k)
  (fun h => forall h', a = AOp (OEndScope h') -> nth_error (w_scoped (cw c)) h' <> Some HDead -> h' <> h).

Lemma erase_in x e l : In e (erase_first x l) -> In e l.
Proof. induction l as [|y l IH]; cbn [erase_first]; auto. destruct (x =? y); [right; auto|]. intros [->|H]; [left; auto|right; auto]. Qed.

Definition shrinks (c c1 : cworld) : Prop :=
  (forall coll e, listed c1 coll e -> listed c coll e) /\
  (forall h e, nth_error (w_scoped (cw c1)) h = Some (HOwns e) -> nth_error (w_scoped (cw c)) h = Some (HOwns e)).
Lemma core_shrinks c c1 : core (cw c1) = core (cw c) -> shrinks c c1.
Proof.
  intros H. destruct (core_fields _ _ H) as (H1 & H2 & H3 & H4 & H5 & H6 & H7 & H8 & H9). split.
  - intros coll e (l & Hl & Hin). exists l. rewrite <- H5. auto.
  - intros h e. rewrite H7. auto.
Qed.

Lemma call_step_keeps release c t a c1 r : of_call a -> flat c -> cstep release c t a = CNext c1 r ->
  alike (untouched c t a) (cw c) (cw c1) /\ shrinks c c1 /\
  (c_log c1 = c_log c \/ exists n ci, c_log c1 = c_log c ++ [(t, n, ci)]).
Proof.
  intros Ha F H. pose proof (flat_step _ _ _ _ _ _ H) as F1. destruct a as [o|m ov args l|].
  - unfold cstep in H. destruct (nth_error (c_threads c) t) as [th|] eqn:Hth; [|discriminate].
    destruct (t_pending th) as [[[n ci] ne]|]; [discriminate|]. destruct (is_call o); [discriminate|].
    destruct (step (enter (cw c) th) o) as [v r0| | |] eqn:Hs; cbn [embed] in H; try discriminate. injection H as <- <-.
    assert (Core : core v = core (enter (cw c) th) -> alike (untouched c t (AOp o)) (cw c) (cw (leave c t v None (c_log c))) /\ shrinks c (leave c t v None (c_log c)) /\
      (c_log (leave c t v None (c_log c)) = c_log c \/ exists n ci, c_log (leave c t v None (c_log c)) = c_log c ++ [(t, n, ci)])).
    { intros E. assert (E' : core (cw (leave c t v None (c_log c))) = core (cw c)) by (rewrite core_leave, E; apply core_enter).
      split; [apply core_alike; auto|]. split; [apply core_shrinks; auto|left; reflexivity]. }
    destruct (frame_op o) eqn:Ho; [exact (Core (proj1 (frame_op_core _ _ _ _ Ho Hs)))|].
    destruct o; try contradiction; try discriminate; cbn [step] in Hs.
    + apply Core. destruct (nth_error _ h) as [[e| |]|]; try discriminate. destruct (nth_error _ e) as [x|]; [|discriminate]. destruct (eo_alive x); [|discriminate].
      injection Hs as <- _. reflexivity.
    + clear Core. destruct F as [F2 F3]. destruct (nth_error (w_scoped (enter (cw c) th)) h) as [[e| |]|] eqn:Hh; try discriminate; cbn [w_scoped enter set_uncaught set_frames] in Hh.
      * destruct (end_keeps _ _ _ _ Hs) as (x & l & evs & sd & Hx & Hl & -> & L & K).
        cbn [w_exps w_colls w_sdead w_scoped set_scoped enter set_uncaught set_frames] in Hx, Hl, L, K. split; [|split; [split|left; reflexivity]].
        -- constructor; try reflexivity; cbn [cw leave w_frames w_uncaught w_exps w_seqs w_sdead w_colls w_scoped set_uncaught set_frames set_sdead set_exps add_trace set_colls set_scoped enter];
             try (rewrite ?length_upd; solve [auto]).
           ++ rewrite map_upd. apply upd_same. rewrite nth_error_map, Hx. reflexivity.
           ++ intros e' [_ He']. apply nth_error_upd_neq. intros ->. exact (He' h eq_refl Hh).
           ++ intros q [_ Hq]. apply K. exact (Hq h e x eq_refl Hh Hx).
           ++ intros k Hk. apply nth_error_upd_neq. intros E. apply (Hk h e x eq_refl Hh Hx). congruence.
           ++ intros h' Hh'. apply nth_error_upd_neq. intros E. apply (Hh' h eq_refl); [rewrite Hh; discriminate|congruence].
        -- intros coll e' (l1 & H1 & H2). unfold listed. cbn [cw leave w_colls set_uncaught set_frames set_sdead set_exps add_trace set_colls set_scoped enter] in H1.
           apply nth_error_upd in H1. destruct H1 as [(<- & _ & ->)|(Hne & H1)]; [|exists l1; auto]. exists l. split; auto. eapply erase_in; eauto.
        -- intros h' e' H1. cbn [cw leave w_scoped set_uncaught set_frames set_sdead set_exps add_trace set_colls set_scoped enter] in H1.
           apply nth_error_upd in H1. destruct H1 as [(_ & _ & H1)|(_ & H1)]; [discriminate|auto].
      * injection Hs as <- _. split; [|split; [split|left; reflexivity]].
        -- constructor; try reflexivity; cbn [cw leave w_frames w_uncaught w_scoped set_uncaught set_frames set_scoped enter]; auto.
           ++ apply length_upd.
           ++ intros h' Hh'. apply nth_error_upd_neq. intros E. apply (Hh' h eq_refl); [rewrite Hh; discriminate|congruence].
        -- auto.
        -- intros h' e' H1. cbn [cw leave w_scoped set_uncaught set_frames set_scoped enter] in H1.
           apply nth_error_upd in H1. destruct H1 as [(_ & _ & H1)|(_ & H1)]; [discriminate|auto].
    + apply Core. injection Hs as <- _. reflexivity.
  - pose proof (match_over_core _ _ _ _ _ _ _ _ _ H) as E. split; [apply core_alike; auto|]. split; [apply core_shrinks; auto|]. left.
    apply cstep_match in H. destruct H as (th & s & coll & _ & _ & _ & _ & [(w1 & n & _ & _ & ->)|(w1 & _ & ->)]); reflexivity.
  - unfold cstep in H. destruct (nth_error (c_threads c) t) as [th|] eqn:Hth; [|discriminate].
    destruct (t_pending th) as [[[n ci] ne]|] eqn:Hp; [|discriminate].
    destruct (count_call release (enter (cw c) th) n ci ne) as [v r0| | |] eqn:Hcc; cbn [embed] in H; try discriminate. injection H as <- <-.
    assert (Pn : pending_exp c t n) by (exists th, ci, ne; auto).
    unfold count_call in Hcc. cbn [w_exps w_seqs enter set_uncaught set_frames] in Hcc.
    destruct (nth_error (w_exps (cw c)) n) as [x|] eqn:Hx; [|discriminate].
    destruct (eo_alive x) eqn:Hal; [|discriminate]. cbn [negb] in Hcc.
    destruct (consume_with release (w_seqs (cw c)) (e_ctl (eo_exp x))) as [[ss ctl]|y| |u] eqn:Hcons; try discriminate.
    2:{ unfold thrown in Hcc. destruct ne; [discriminate|]. injection Hcc as <- _. split; [apply core_alike; auto|]. split; [apply core_shrinks; reflexivity|].
        right. exists n, ci. reflexivity. }
    destruct (consume_asserts (e_policies (eo_exp x)) ci) as [[]| | |]; try discriminate. injection Hcc as <- <-.
    split; [|split; [split; auto|right; exists n, ci; reflexivity]].
    destruct (consume_keeps _ _ _ _ _ Hcons) as (L & K & C1 & C2 & C3). destruct F as [F2 F3].
    constructor; try reflexivity; cbn [cw leave w_frames w_uncaught w_exps w_seqs set_uncaught set_frames set_exps set_seqs]; auto.
    + cbn [w_exps enter set_uncaught set_frames]. rewrite map_upd. apply upd_same. rewrite nth_error_map, Hx. cbn [option_map]. f_equal.
      unfold frozen. cbn [eo_exp e_ctl with_ctl eo_coll eo_alive eo_ov eo_sig e_loc e_policies e_final]. unfold with_ctl. cbn [e_loc e_policies e_final].
      rewrite C1, C2, C3. reflexivity.
    + intros e [He _]. apply nth_error_upd_neq. intros ->. auto.
    + intros q [Hq _]. apply K. intros Hin. apply Hq. exists n, x. auto.
Qed.

Lemma match_frames w coll ci ne : match match_call w coll ci ne with MChosen v _ | MOver (Next v _) => w_frames v = w_frames w | _ => True end.
Proof.
  assert (T : forall v x, w_frames v = w_frames w -> match MOver (thrown ne v x) with MChosen v _ | MOver (Next v _) => w_frames v = w_frames w | _ => True end).
  { intros v x E. unfold thrown. destruct ne; auto. }
  unfold match_call. destruct (nth_error (w_colls w) coll) as [l|]; auto. destruct (lookup_exps w (rev l)) as [es|]; auto.
  destruct (match_loop _ _ _ _ _ _) as [ml|x| |u]; auto; [|apply T; reflexivity]. cbv zeta. rewrite emit_unhandled_add. set (evs := map _ (ml_unhandled ml)).
  destruct (ml_full ml) as [|first others].
  - destruct (react _ _); auto. apply T. unfold emit_report. rewrite emit_add. reflexivity.
  - destruct (pick_best first others) as [[n m]|x| |u]; auto; [|apply T; reflexivity]. destruct (react _ _); auto.
Qed.

(** Calls in progress. *)
Lemma frames_step release c t a c1 r t' th1 f : of_call a -> cstep release c t a = CNext c1 r -> nth_error (c_threads c1) t' = Some th1 -> In f (t_frames th1) ->
  (exists th f0, nth_error (c_threads c) t' = Some th /\ In f0 (t_frames th) /\ f_exp f0 = f_exp f) \/ pending_exp c t' (f_exp f).
Proof.
  intros Ha H H1 Hf. destruct (Nat.eq_dec t' t) as [->|Hne].
  2:{ left. exists th1, f. split; auto. rewrite <- H1. symmetry. eapply cstep_other; eauto. }
  unfold cstep in H. destruct (nth_error (c_threads c) t) as [th|] eqn:Hth; [|discriminate].
  assert (Lv : forall v p log, c1 = leave c t v p log -> In f (w_frames v)).
  { intros v p log ->. rewrite (leave_thread _ _ _ _ _ _ Hth) in H1. injection H1 as <-. exact Hf. }
  assert (Old : (exists f0, In f0 (t_frames th) /\ f_exp f0 = f_exp f) ->
    (exists th0 f0, Some th = Some th0 /\ In f0 (t_frames th0) /\ f_exp f0 = f_exp f) \/ pending_exp c t (f_exp f)).
  { intros (f0 & A & B). left. exists th, f0. auto. }
  destruct (t_pending th) as [[[n ci] ne]|] eqn:Hp, a as [o|m ov args l|]; try discriminate.
  - destruct (count_call release (enter (cw c) th) n ci ne) as [v r0| | |] eqn:Hcc; cbn [embed] in H; try discriminate. injection H as <- <-.
    pose proof (Lv _ _ _ eq_refl) as Hv. unfold count_call in Hcc. destruct (nth_error _ n) as [x|]; [|discriminate]. destruct (negb _); [discriminate|]. cbv zeta in Hcc.
    destruct (consume_with _ _ _) as [[ss ctl]|y| |u]; try discriminate.
    + destruct (consume_asserts _ _) as [[]| | |]; try discriminate. injection Hcc as <- _. destruct Hv as [<-|Hv]; [right; exists th, ci, ne; auto|apply Old; eauto].
    + unfold thrown in Hcc. destruct ne; [discriminate|]. injection Hcc as <- _. apply Old. eauto.
  - destruct (is_call o); [discriminate|]. destruct (step (enter (cw c) th) o) as [v r0| | |] eqn:Hs; cbn [embed] in H; try discriminate. injection H as <- <-.
    pose proof (Lv _ _ _ eq_refl) as Hv. apply Old. destruct o; try contradiction; cbn [step] in Hs.
    + unfold do_action in Hs. cbn [w_frames enter set_uncaught set_frames] in Hs. destruct (t_frames th) as [|g gs]; [discriminate|]. destruct (f_todo g); [discriminate|].
      destruct (negb _); [discriminate|]. injection Hs as <- _. cbn [w_frames set_frames] in Hv. destruct Hv as [<-|Hv]; [exists g; split; [left; auto|reflexivity]|exists f; split; [right|]; auto].
    + destruct (w_frames _) as [|g gs]; [discriminate|]. destruct (_ && _); discriminate.
    + unfold do_final in Hs. cbn [w_frames enter set_uncaught set_frames] in Hs. destruct (t_frames th) as [|g gs]; [discriminate|]. destruct (f_todo g); [|discriminate].
      destruct (f_final g); [discriminate|].
      destruct (negb _); [discriminate|]. injection Hs as <- _. cbn [w_frames set_frames] in Hv. destruct Hv as [<-|Hv]; [exists g; split; [left; auto|reflexivity]|exists f; split; [right|]; auto].
    + unfold do_return in Hs. cbn [w_frames enter set_uncaught set_frames] in Hs. destruct (t_frames th) as [|g gs]; [discriminate|].
      destruct (negb _); [discriminate|]. match type of Hs with context [nth_error ?xs ?i] => destruct (nth_error xs i) as [x|] end; [|discriminate]. cbv zeta in Hs.
      assert (Hv' : v = set_frames (enter (cw c) th) gs).
      { destruct (finalizer_result (e_final (eo_exp x)) user); [injection Hs as <- _; reflexivity|]. unfold thrown in Hs. destruct (f_noexcept g); [discriminate|]. injection Hs as <- _. reflexivity. }
      subst v. exists f. split; [right; exact Hv|reflexivity].
    + destruct (nth_error _ h) as [[e| |]|]; try discriminate. destruct (nth_error _ e) as [x|]; [|discriminate]. destruct (eo_alive x); [|discriminate].
      injection Hs as <- _. eauto.
    + destruct (nth_error _ h) as [[e| |]|]; try discriminate.
      * destruct (end_keeps _ _ _ _ Hs) as (x & l & evs & sd & _ & _ & -> & _). eauto.
      * injection Hs as <- _. eauto.
    + injection Hs as <- _. eauto.
  - destruct (find_overload _ _ _) as [s|[s coll]] eqn:Hfo.
    + exfalso. clear - Hfo H. unfold find_overload in Hfo. destruct (nth_error _ m) as [mk|]; [|injection Hfo as <-; discriminate].
      destruct (negb _); [injection Hfo as <-; discriminate|]. destruct (nth_error _ ov); [|injection Hfo as <-; discriminate].
      destruct (mk_colls mk) as [cs|]; [|injection Hfo as <-; discriminate]. destruct (nth_error cs ov); [discriminate|injection Hfo as <-; discriminate].
    + destruct (negb _); [discriminate|]. cbv zeta in H.
      match type of H with context [match_call ?w ?k ?ci ?ne] => pose proof (match_frames w k ci ne) as M; destruct (match_call w k ci ne) as [v n|[v r0| | |]] end;
        cbn [embed] in H; try discriminate; injection H as <- <-; pose proof (Lv _ _ _ eq_refl) as Hv; rewrite M in Hv; apply Old; eauto.
Qed.

Lemma pending_here c t e th : nth_error (c_threads c) t = Some th -> pending_exp c t e -> exists ci ne, t_pending th = Some (e, ci, ne).
Proof. intros H (th' & ci & ne & H1 & H2). rewrite H in H1. injection H1 as <-. eauto. Qed.

(** ** Lists *)

Lemma list_same {A} (l l' : list A) : (forall i, nth_error l i = nth_error l' i) -> l = l'.
Proof.
  revert l'. induction l as [|x l IH]; intros [|y l'] H; auto; try (specialize (H 0); discriminate).
  pose proof (H 0) as H0. injection H0 as ->. f_equal. apply IH. intros i. exact (H (S i)).
Qed.

Lemma search (P : nat -> Prop) : (forall n, P n \/ ~ P n) -> forall k, (exists n, n < k /\ P n) \/ forall n, n < k -> ~ P n.
Proof.
  intros D. induction k as [|k IH]; [right; intros; lia|]. destruct IH as [(n & Hn & H)|N]; [left; exists n; split; auto; lia|].
  destruct (D k) as [H|H]; [left; exists k; auto|]. right. intros n Hn. destruct (Nat.eq_dec n k) as [->|]; auto. apply N. lia.
Qed.

Lemma of_thread_first {A} t (x : A) l rest : of_thread t l = (t, x) :: rest ->
  exists p s, l = p ++ (t, x) :: s /\ of_thread t p = [] /\ of_thread t s = rest.
Proof.
  unfold of_thread. induction l as [|[t' y] l IH]; cbn [filter fst]; intros H; [discriminate|]. destruct (Nat.eqb_spec t' t) as [->|Hne].
  - injection H as -> H. exists [], l. auto.
  - destruct (IH H) as (p & s & -> & Hp & Hs). exists ((t', y) :: p), s. cbn [filter fst app]. destruct (Nat.eqb_spec t' t); [congruence|]. auto.
Qed.

Lemma threads_permute {A} (l : list (nat * A)) : forall l', (forall t, of_thread t l' = of_thread t l) -> Permutation l' l.
Proof.
  induction l as [|[t x] l IH]; intros l' H.
  - destruct l' as [|[t y] l']; auto. specialize (H t). unfold of_thread in H. cbn [filter fst] in H. rewrite Nat.eqb_refl in H. discriminate.
  - pose proof (H t) as Ht. unfold of_thread at 2 in Ht. cbn [filter fst] in Ht. rewrite Nat.eqb_refl in Ht.
    destruct (of_thread_first t x l' _ Ht) as (p & s & -> & Hp & Hs). etransitivity; [symmetry; apply Permutation_middle|]. constructor. apply IH.
    intros k. specialize (H k). unfold of_thread in *. rewrite filter_app in H. rewrite filter_app. cbn [filter fst] in H. destruct (Nat.eqb_spec t k) as [E|Hne]; auto.
    subst k. rewrite Hp. cbn [app]. exact Hs.
Qed.

(** ** One thread among others, and alone *)

Section Lanes.
Context (owner : nat -> nat) (c0 : cworld) (release : bool).
Context (members : Members c0).
Context (seqs_ok : forall coll e x coll' e' x' q, listed c0 coll e -> exp_at (cw c0) e x -> listed c0 coll' e' -> exp_at (cw c0) e' x' ->
  In q (map fst (c_seqs (e_ctl (eo_exp x)))) -> In q (map fst (c_seqs (e_ctl (eo_exp x')))) -> owner coll = owner coll').

(** The expectations of a thread, and all objects which do not belong to other threads. *)
Definition mine (t e : nat) : Prop := exists coll, listed c0 coll e /\ owner coll = t.
Definition own_e (t e : nat) : Prop := forall coll, listed c0 coll e -> owner coll = t.
Definition own_q (t q : nat) : Prop :=
  forall coll e x, listed c0 coll e -> exp_at (cw c0) e x -> In q (map fst (c_seqs (e_ctl (eo_exp x)))) -> owner coll = t.
Definition own_h (t h : nat) : Prop := forall e, nth_error (w_scoped (cw c0)) h = Some (HOwns e) -> own_e t e.
Definition own (t : nat) : region := mkRegion (own_e t) (own_q t) (fun k => owner k = t) (own_h t).

Lemma mine_coll e coll x : listed c0 coll e -> exp_at (cw c0) e x -> eo_coll x = coll.
Proof. intros H Hx. destruct (members _ _ H) as (y & Hy & E). unfold exp_at in *. congruence. Qed.
Lemma mine_own t e : mine t e -> own_e t e.
Proof.
  intros (coll & H & <-) coll' H'. destruct (members _ _ H) as (x & Hx & _). rewrite <- (mine_coll _ _ _ H Hx), <- (mine_coll _ _ _ H' Hx). reflexivity.
Qed.
Lemma mine_other t t' e : mine t' e -> own_e t e -> t' = t.
Proof. intros (coll & H & <-) O. apply O. exact H. Qed.
Lemma mine_seq t e x q : mine t e -> exp_at (cw c0) e x -> In q (map fst (c_seqs (e_ctl (eo_exp x)))) -> own_q t q.
Proof. intros (coll & H & <-) Hx Hq coll' e' x' H' Hx' Hq'. eapply seqs_ok; eauto. Qed.
Lemma mine_seq_other t t' e x q : mine t' e -> exp_at (cw c0) e x -> In q (map fst (c_seqs (e_ctl (eo_exp x)))) -> own_q t q -> t' = t.
Proof. intros (coll & H & <-) Hx Hq O. eapply O; eauto. Qed.

(** The state during the calls. *)
Record during (c : cworld) : Prop := mkDuring {
  du_static : alike nowhere (cw c0) (cw c);
  du_flat : flat c;
  du_life : LI (cw c);
  du_pending : forall t e, pending_exp c t e -> mine t e;
  du_running : forall t th f, nth_error (c_threads c) t = Some th -> In f (t_frames th) -> own_e t (f_exp f);
  du_listed : forall coll e, listed c coll e -> listed c0 coll e;
  du_scoped : forall h e, nth_error (w_scoped (cw c)) h = Some (HOwns e) -> nth_error (w_scoped (cw c0)) h = Some (HOwns e)
}.

(** The same thread, its counted calls and its objects. *)
Record lane (t : nat) (c d : cworld) : Prop := mkLane {
  la_world : alike (own t) (cw c) (cw d);
  la_thread : nth_error (c_threads d) t = nth_error (c_threads c) t;
  la_counted : counted_for t d = counted_for t c
}.
Lemma lane_refl t c : lane t c c.
Proof. constructor; auto. apply alike_refl. Qed.
Lemma lane_sym t c d : lane t c d -> lane t d c.
Proof. intros []. constructor; auto. apply alike_sym; auto. Qed.
Lemma lane_trans t c d e : lane t c d -> lane t d e -> lane t c e.
Proof. intros [] []. constructor; try congruence. eapply alike_trans; eauto. Qed.

Definition allowed (t : nat) (a : action) : Prop :=
  of_call a /\ (forall m ov args l coll, a = AMatch m ov args l -> uses_coll c0 m ov coll -> owner coll = t) /\
  (forall h e, a = AOp (OSatisfied h) -> nth_error (w_scoped (cw c0)) h = Some (HOwns e) -> mine t e) /\
  (forall h, a = AOp (OEndScope h) -> exists e, nth_error (w_scoped (cw c0)) h = Some (HOwns e) /\ mine t e).

Lemma at_start c e x : during c -> exp_at (cw c) e x ->
  exists x0, exp_at (cw c0) e x0 /\ c_seqs (e_ctl (eo_exp x0)) = c_seqs (e_ctl (eo_exp x)) /\ eo_coll x0 = eo_coll x.
Proof.
  intros D Hx. destruct (frozen_other _ _ _ e x (alike_sym _ _ _ (du_static c D)) Hx) as (x0 & H0 & F). exists x0. split; auto.
  split; [exact (f_equal (fun y => c_seqs (e_ctl (eo_exp y))) F)|exact (f_equal eo_coll F)].
Qed.

Lemma mine_seq_now c t e x q : during c -> mine t e -> exp_at (cw c) e x -> In q (map fst (c_seqs (e_ctl (eo_exp x)))) -> own_q t q.
Proof. intros D H Hx Hq. destruct (at_start c e x D Hx) as (x0 & H0 & E & _). rewrite <- E in Hq. eapply mine_seq; eauto. Qed.
Lemma mine_seq_now_other c t t' e x q : during c -> mine t' e -> exp_at (cw c) e x -> In q (map fst (c_seqs (e_ctl (eo_exp x)))) -> own_q t q -> t' = t.
Proof. intros D H Hx Hq O. destruct (at_start c e x D Hx) as (x0 & H0 & E & _). rewrite <- E in Hq. eapply mine_seq_other; eauto. Qed.
Lemma mine_coll_now c t e x : during c -> mine t e -> exp_at (cw c) e x -> owner (eo_coll x) = t.
Proof. intros D (coll & H & Ho) Hx. destruct (at_start c e x D Hx) as (x0 & H0 & _ & E). rewrite <- E, (mine_coll _ _ _ H H0). exact Ho. Qed.
Lemma users_mine c t e x q e' x' : during c -> mine t e -> exp_at (cw c) e x -> In q (map fst (c_seqs (e_ctl (eo_exp x)))) ->
  exp_at (cw c) e' x' -> eo_alive x' = true -> In q (map fst (c_seqs (e_ctl (eo_exp x')))) -> own_e t e'.
Proof.
  intros D H Hx Hq Hx' Ha Hq'. pose proof (du_life c D) as I.
  assert (Hli : listed c (eo_coll x') e').
  { destruct (nth_error (w_colls (cw c)) (eo_coll x')) as [l|] eqn:Hl.
    - exists l. split; auto. rewrite (li_coll _ I _ _ Hl). apply members_in. exists x'. auto.
    - exfalso. apply nth_error_None in Hl. pose proof (li_collr _ I _ _ Hx'). lia. }
  apply (du_listed c D) in Hli. apply mine_own. exists (eo_coll x'). split; auto.
  destruct (at_start c e' x' D Hx') as (y & Hy & E & _). rewrite <- E in Hq'. exact (mine_seq_now c t e x q D H Hx Hq _ _ _ Hli Hy Hq').
Qed.

Lemma uses_start c m ov coll : during c -> uses_coll c m ov coll <-> uses_coll c0 m ov coll.
Proof. intros D. unfold uses_coll, find_overload. rewrite (al_mocks _ _ _ (du_static c D)). reflexivity. Qed.

Lemma during_step c t a c1 r : during c -> allowed t a -> cstep release c t a = CNext c1 r -> during c1.
Proof.
  intros D (Ha & Ho & _ & _) H. destruct (call_step_keeps _ _ _ _ _ _ Ha (du_flat c D) H) as (K & (S1 & S2) & _). constructor.
  - eapply alike_trans; [exact (du_static c D)|]. exact (alike_nowhere _ _ _ K).
  - eapply flat_step; eauto.
  - eapply li_step; [exact H|exact (du_life c D)].
  - intros t' e Hp. destruct (step_pending _ _ _ _ _ _ _ _ H Hp) as [Hp'|(-> & m & ov & args & l & coll & -> & Hu & Hl)].
    + exact (du_pending c D t' e Hp').
    + exists coll. split; [apply (du_listed c D); auto|]. apply (Ho m ov args l); auto. apply (uses_start c); auto.
  - intros t' th f Hth Hf. destruct (frames_step _ _ _ _ _ _ _ _ _ Ha H Hth Hf) as [(th0 & f0 & H1 & H2 & <-)|Hp]; [exact (du_running c D _ _ _ H1 H2)|].
    apply mine_own. exact (du_pending c D _ _ Hp).
  - intros coll e Hl. apply (du_listed c D). auto.
  - intros h e Hh. apply (du_scoped c D). auto.
Qed.

(** The steps of the others. *)
Lemma lane_other t c d t' a c1 r : during c -> allowed t' a -> t' <> t -> lane t c d -> cstep release c t' a = CNext c1 r -> lane t c1 d.
Proof.
  intros D (Ha & Ho & _ & Hend) Hne L H. destruct (call_step_keeps _ _ _ _ _ _ Ha (du_flat c D) H) as (K & _ & G). destruct L as [L1 L2 L3]. constructor.
  - eapply alike_trans; [|exact L1]. apply alike_sym.
    assert (Me : forall h e, a = AOp (OEndScope h) -> nth_error (w_scoped (cw c)) h = Some (HOwns e) -> mine t' e).
    { intros h e E Hh. destruct (Hend h E) as (e0 & H0 & M). apply (du_scoped c D) in Hh. assert (e = e0) by congruence. subst. exact M. }
    eapply alike_weaken; [| | | |exact K].
    + intros e He. split.
      * intros Hp. apply Hne. exact (mine_other t t' e (du_pending c D _ _ Hp) He).
      * intros h E Hh. apply Hne. exact (mine_other t t' e (Me h e E Hh) He).
    + intros q Hq. split.
      * intros (e & x & Hp & Hx & Hin). apply Hne. eapply mine_seq_now_other; eauto using du_pending.
      * intros h e x E Hh Hx Hin. apply Hne. eapply mine_seq_now_other; eauto.
    + intros k Hk h e x E Hh Hx <-. apply Hne. rewrite <- Hk. symmetry. eapply mine_coll_now; eauto.
    + intros h Hh h' E _ ->. destruct (Hend h E) as (e & H0 & M). apply Hne. exact (mine_other t t' e M (Hh e H0)).
  - rewrite L2. symmetry. eapply cstep_other; eauto.
  - rewrite L3. unfold counted_for. destruct G as [->|(n & ci & ->)]; auto. rewrite filter_app. cbn [filter].
    destruct (Nat.eqb_spec t' t); [congruence|]. rewrite app_nil_r. reflexivity.
Qed.

Definition goes (t : nat) (c d : cworld) (s s' : cstepped) : Prop :=
  match s, s' with
  | CNext c1 r, CNext d1 r' => r' = r /\ lane t c1 d1 /\ exists evs, w_trace (cw c1) = w_trace (cw c) ++ evs /\ w_trace (cw d1) = w_trace (cw d) ++ evs
  | CStop, CStop => True
  | CWrong u, CWrong u' => u' = u
  | CInvalid, CInvalid => True
  | _, _ => False
  end.

Lemma leave_goes t c d th v v' p log log' evs r : lane t c d -> nth_error (c_threads c) t = Some th ->
  alike (own t) v v' -> w_trace v = w_trace (cw c) ++ evs -> w_trace v' = w_trace (cw d) ++ evs ->
  (exists l, log = c_log c ++ l /\ log' = c_log d ++ l) ->
  goes t c d (CNext (leave c t v p log) r) (CNext (leave d t v' p log') r).
Proof.
  intros [L1 L2 L3] Hth A T1 T2 (l & -> & ->). cbn [goes]. split; auto. split; [constructor|].
  - cbn [cw leave]. apply alike_uncaught, alike_frames, A.
  - rewrite (leave_thread _ _ _ _ _ _ Hth). rewrite Hth in L2. rewrite (leave_thread _ _ _ _ _ _ L2).
    rewrite (al_frames _ _ _ A), (al_uncaught _ _ _ A). reflexivity.
  - unfold counted_for in *. cbn [c_log leave]. rewrite !filter_app, !map_app, L3. reflexivity.
  - exists evs. auto.
Qed.

Lemma embed_goes t c d th s s' log log' : lane t c d -> nth_error (c_threads c) t = Some th ->
  follows (own t) (enter (cw c) th) (enter (cw d) th) s s' -> (exists l, log = c_log c ++ l /\ log' = c_log d ++ l) ->
  goes t c d (embed c t log s) (embed d t log' s').
Proof.
  intros L Hth H Hlog. destruct s, s'; cbn [follows] in H; try contradiction; cbn [embed]; auto.
  destruct H as (-> & A & evs & T1 & T2). eapply leave_goes; eauto.
Qed.

(** Its own steps. *)
Lemma lane_own t c d a : during c -> during d -> allowed t a -> lane t c d -> goes t c d (cstep release c t a) (cstep release d t a).
Proof.
  intros D D' (Ha & Ho & Has & Hend) L. unfold cstep. rewrite (la_thread _ _ _ L). destruct (nth_error (c_threads c) t) as [th|] eqn:Hth; [|exact Logic.I].
  pose proof (alike_enter _ _ _ th (la_world _ _ _ L)) as A.
  assert (N : exists l : list (nat * nat * call_info), c_log c = c_log c ++ l /\ c_log d = c_log d ++ l) by (exists []; rewrite !app_nil_r; auto).
  destruct (t_pending th) as [[[n ci] ne]|] eqn:Hp, a as [o|m ov args l|]; try exact Logic.I.
  - assert (Pn : mine t n) by (apply (du_pending c D); exists th, ci, ne; auto). apply (embed_goes t c d th); auto; [|eauto].
    apply count_follows; [exact A|apply mine_own; exact Pn|]. intros x q Hx Hq. eapply (mine_seq_now c); eauto.
  - destruct (is_call o); [exact Logic.I|]. apply (embed_goes t c d th); auto.
    assert (Dec : (exists h, o = OEndScope h) \/ forall h, o <> OEndScope h) by (destruct o; try (right; discriminate); left; eauto).
    destruct Dec as [[h ->]|NE].
    + destruct (Hend h eq_refl) as (e & H0 & M). cbn [step].
      assert (Hh : own_h t h) by (intros e' He'; assert (e' = e) by congruence; subst; apply mine_own; exact M).
      rewrite (al_scoped _ _ _ A h Hh). destruct (nth_error (w_scoped (enter (cw c) th)) h) as [[e'| |]|] eqn:Hc; try exact Logic.I.
      * cbn [w_scoped enter set_uncaught set_frames] in Hc. pose proof (du_scoped c D h e' Hc) as E. assert (e' = e) by congruence. subst e'.
        assert (F : follows (own t) (set_scoped (enter (cw c) th) (upd (w_scoped (enter (cw c) th)) h HDead)) (set_scoped (enter (cw d) th) (upd (w_scoped (enter (cw d) th)) h HDead))
          (end_expectation (set_scoped (enter (cw c) th) (upd (w_scoped (enter (cw c) th)) h HDead)) e)
          (end_expectation (set_scoped (enter (cw d) th) (upd (w_scoped (enter (cw d) th)) h HDead)) e)); [|exact F].
        apply end_follows; [apply alike_handle; exact A|apply mine_own; exact M|].
        intros x Hx. change (exp_at (cw c) e x) in Hx. split; [eapply (mine_coll_now c); eauto|]. intros q Hq. split; [eapply (mine_seq_now c); eauto|]. split.
        -- intros e1 x1 Hx1 Ha1 Hq1. eapply (users_mine c); eauto.
        -- intros e1 x1 Hx1 Ha1 Hq1. eapply (users_mine d t e x q); eauto. unfold exp_at.
           rewrite (al_exps _ _ _ (la_world _ _ _ L) e (mine_own _ _ M)). exact Hx.
      * cbn [follows]. split; auto. split; [apply alike_handle; exact A|]. exists []. cbn [w_trace set_scoped]. rewrite !app_nil_r. auto.
    + apply frame_follows; auto.
      * intros f Hf. exact (du_running c D _ _ _ Hth Hf).
      * intros h -> e Hh. apply mine_own. exact (Has h e eq_refl Hh).
      * intros h e -> Hh. apply mine_own. apply (Has h e eq_refl). apply (du_scoped c D). exact Hh.
  - assert (E : find_overload (enter (cw d) th) m ov = find_overload (enter (cw c) th) m ov).
    { unfold find_overload. rewrite (al_mocks _ _ _ A). reflexivity. }
    rewrite E. destruct (find_overload (enter (cw c) th) m ov) as [s|[s coll]] eqn:Hf.
    + apply (embed_goes t c d th); auto.
      assert (Hs : s = Invalid \/ exists u, s = Wrong u).
      { clear - Hf. unfold find_overload in Hf. destruct (nth_error _ m) as [mk|]; [|injection Hf as <-; auto].
        destruct (negb _); [injection Hf as <-; auto|]. destruct (nth_error _ ov); [|injection Hf as <-; auto].
        destruct (mk_colls mk) as [cs|]; [|injection Hf as <-; eauto]. destruct (nth_error cs ov); [discriminate|injection Hf as <-; eauto]. }
      destruct Hs as [->|[u ->]]; [exact Logic.I|reflexivity].
    + destruct (negb _); [exact Logic.I|]. cbv zeta.
      assert (Hu : uses_coll c0 m ov coll) by (apply (uses_start c); auto; exists s; exact Hf).
      pose proof (Ho m ov args l coll eq_refl Hu) as Hown.
      assert (M : match_follows (own t) (enter (cw c) th) (enter (cw d) th)
        (match_call (enter (cw c) th) coll (mkCall (sg_ret s) (sg_params s) args (frontend_category s) (frontend_constness s) l) (frontend_noexcept s))
        (match_call (enter (cw d) th) coll (mkCall (sg_ret s) (sg_params s) args (frontend_category s) (frontend_constness s) l) (frontend_noexcept s))).
      { assert (Mi : forall lst e, nth_error (w_colls (enter (cw c) th)) coll = Some lst -> In e lst -> mine t e).
        { intros lst e Hl Hin. exists coll. split; auto. apply (du_listed c D). exists lst. auto. }
        apply match_call_follows; [exact A| | |exact Hown].
        - intros lst e Hl Hin. apply (al_exps _ _ _ A). apply mine_own. eauto.
        - intros lst e x q Hl Hin Hx Hq. eapply (mine_seq_now c); eauto. }
      set (ci := mkCall _ _ _ _ _ _) in *.
      destruct (match_call (enter (cw c) th) coll ci (frontend_noexcept s)) as [v n|s1], (match_call (enter (cw d) th) coll ci (frontend_noexcept s)) as [v' n'|s1'];
        cbn [match_follows] in M; try contradiction.
      * destruct M as (-> & evs & -> & ->). apply (leave_goes t c d th _ _ _ _ _ evs); auto. apply alike_trace. exact A.
      * apply (embed_goes t c d th); auto.
Qed.

Lemma ending_own t c d a : during c -> during d -> allowed t a -> lane t c d -> ending_of release d t a = ending_of release c t a.
Proof.
  intros D D' Ha L. pose proof (lane_own t c d a D D' Ha L) as G. unfold ending_of.
  destruct (cstep release c t a), (cstep release d t a); cbn [goes] in G; try contradiction; auto.
  - destruct G as (-> & _ & evs & -> & ->). rewrite !skipn_app, !skipn_all, !Nat.sub_diag. reflexivity.
  - congruence.
Qed.

Definition all_allowed (acts : list (nat * action)) : Prop := forall t a, In (t, a) acts -> allowed t a.

Lemma during_run acts : forall c c', all_allowed acts -> during c -> cruns release c acts c' -> during c'.
Proof.
  induction acts as [|[t a] acts IH]; intros c c' Ha D H; inversion H; subst; auto. eapply IH; [intros t' a' Hin; apply Ha; right; exact Hin| |eauto].
  eapply during_step; eauto. apply Ha. left. reflexivity.
Qed.

Lemma lanes_run t acts : forall c d c', all_allowed acts -> during c -> during d -> lane t c d -> cruns release c acts c' ->
  exists d', cruns release d (of_thread t acts) d' /\ lane t c' d' /\ of_thread t (seen release c acts) = seen release d (of_thread t acts).
Proof.
  induction acts as [|[t' a] acts IH]; intros c d c' Ha D D' L H; inversion H as [|? ? ? c1 r ? ? Hs Hr]; subst.
  - exists d. split; [constructor|]. auto.
  - assert (Hal : allowed t' a) by (apply Ha; left; reflexivity).
    assert (Ha' : all_allowed acts) by (intros t1 a1 Hin; apply Ha; right; exact Hin).
    pose proof (during_step _ _ _ _ _ D Hal Hs) as D1. cbn [of_thread filter fst seen]. rewrite Hs.
    destruct (Nat.eqb_spec t' t) as [->|Hne].
    + pose proof (lane_own t c d a D D' Hal L) as G. pose proof (ending_own t c d a D D' Hal L) as En. rewrite Hs in G.
      destruct (cstep release d t a) as [d1 r'| | |] eqn:Hs'; cbn [goes] in G; try contradiction. destruct G as (-> & L1 & _).
      destruct (IH c1 d1 c' Ha' D1 (during_step _ _ _ _ _ D' Hal Hs') L1 Hr) as (d' & R & L' & S). exists d'. split; [econstructor; eauto|]. split; auto.
      cbn [seen]. rewrite Hs', En. unfold of_thread in *. cbn [filter fst]. rewrite ?Nat.eqb_refl, S. reflexivity.
    + assert (L1 : lane t c1 d) by exact (lane_other t c d t' a c1 r D Hal Hne L Hs).
      destruct (IH c1 d c' Ha' D1 D' L1 Hr) as (d' & R & L' & S). exists d'. auto.
Qed.

Lemma cruns_same acts : forall c a b, cruns release c acts a -> cruns release c acts b -> a = b.
Proof. induction acts as [|[t x] acts IH]; intros c a b H1 H2; inversion H1; inversion H2; subst; auto. eapply IH; eauto. congruence. Qed.
Lemma of_thread_app {A} t (l r : list (nat * A)) : of_thread t (l ++ r) = of_thread t l ++ of_thread t r.
Proof. apply filter_app. Qed.

Lemma runs_app c a c1 b c2 : cruns release c a c1 -> cruns release c1 b c2 -> cruns release c (a ++ b) c2.
Proof. induction 1; cbn; auto. econstructor; eauto. Qed.

(** Whatever the threads can do alone, they can do together. *)
Lemma together acts : forall c, all_allowed acts -> during c -> (forall t, exists d, cruns release c (of_thread t acts) d) -> exists c', cruns release c acts c'.
Proof.
  induction acts as [|[t a] acts IH] using rev_ind; intros c Ha D H; [exists c; constructor|].
  assert (Ha' : all_allowed acts) by (intros t1 a1 Hin; apply Ha, in_or_app; auto).
  assert (H' : forall t', exists d, cruns release c (of_thread t' acts) d).
  { intros t'. destruct (H t') as [d Hd]. rewrite of_thread_app in Hd. apply cruns_split in Hd. destruct Hd as (d1 & Hd & _). eauto. }
  destruct (IH c Ha' D H') as [c1 Hc1]. destruct (lanes_run t acts c c c1 Ha' D D (lane_refl t c) Hc1) as (d & R & L & _).
  destruct (H t) as [d2 Hd2]. rewrite of_thread_app in Hd2. apply cruns_split in Hd2. destruct Hd2 as (d1 & Hd1 & Hd2).
  rewrite (cruns_same _ _ _ _ Hd1 R) in Hd2. unfold of_thread in Hd2. cbn [filter fst] in Hd2. rewrite Nat.eqb_refl in Hd2.
  inversion Hd2 as [|? ? ? d3 r ? ? Hs _]; subst.
  assert (Hal : allowed t a) by (apply Ha, in_or_app; right; left; reflexivity).
  assert (Dd : during d).
  { eapply during_run; [|exact D|exact R]. intros t1 a1 Hin. apply Ha'. unfold of_thread in Hin. apply filter_In in Hin. apply Hin. }
  pose proof (lane_own t c1 d a (during_run _ _ _ Ha' D Hc1) Dd Hal L) as G. rewrite Hs in G.
  destruct (cstep release c1 t a) as [c2 r'| | |] eqn:Hs'; cbn [goes] in G; try contradiction. exists c2. eapply runs_app; eauto.
  econstructor; [eauto|constructor].
Qed.

(** ** All threads *)

Lemma mine_dec e : (exists t, mine t e) \/ forall coll, ~ listed c0 coll e.
Proof.
  destruct (nth_error (w_exps (cw c0)) e) as [x|] eqn:Hx.
  - destruct (nth_error (w_colls (cw c0)) (eo_coll x)) as [l|] eqn:Hl.
    + destruct (in_dec Nat.eq_dec e l) as [Hin|Hout].
      * left. exists (owner (eo_coll x)), (eo_coll x). split; auto. exists l. auto.
      * right. intros coll Hli. pose proof (mine_coll _ _ _ Hli Hx) as <-. destruct Hli as (l' & H1 & H2). rewrite Hl in H1. injection H1 as <-. auto.
    + right. intros coll Hli. pose proof (mine_coll _ _ _ Hli Hx) as <-. destruct Hli as (l' & H1 & H2). congruence.
  - right. intros coll Hli. destruct (members _ _ Hli) as (x & Hx' & _). unfold exp_at in Hx'. congruence.
Qed.
Lemma own_e_some e : exists t, own_e t e.
Proof. destruct (mine_dec e) as [[t H]|N]; [exists t; apply mine_own; auto|]. exists 0. intros coll H. destruct (N coll H). Qed.
Lemma own_h_some h : exists t, own_h t h.
Proof.
  destruct (nth_error (w_scoped (cw c0)) h) as [[e| |]|] eqn:Hh; try (exists 0; intros e He; congruence).
  destruct (own_e_some e) as [t Ht]. exists t. intros e' He'. assert (e' = e) by congruence. subst. exact Ht.
Qed.
Lemma own_q_some q : exists t, own_q t q.
Proof.
  destruct (search (fun e => exists t x, mine t e /\ exp_at (cw c0) e x /\ In q (map fst (c_seqs (e_ctl (eo_exp x)))))) with (k := length (w_exps (cw c0)))
    as [(e & _ & t & x & M & Hx & Hq)|N].
  - intros e. destruct (mine_dec e) as [[t Ht]|N]; [|right; intros (t & x & (coll & H & _) & _); exact (N coll H)].
    pose proof Ht as (coll & Hl & _). destruct (members _ _ Hl) as (x & Hx & _).
    destruct (in_dec Nat.eq_dec q (map fst (c_seqs (e_ctl (eo_exp x))))) as [Hin|Hout]; [left; eauto|].
    right. intros (t' & y & _ & Hy & Hin). unfold exp_at in *. rewrite Hx in Hy. injection Hy as <-. auto.
  - exists t. eapply mine_seq; eauto.
  - exists 0. intros coll e x Hl Hx Hq. exfalso. apply (N e); [eapply nth_error_lt; exact Hx|]. exists (owner coll), x. split; [exists coll; auto|auto].
Qed.

Definition caused (p : nat * ending) : list event := match snd p with Went _ evs => evs | _ => [] end.

Lemma trace_run acts : forall c c', all_allowed acts -> during c -> cruns release c acts c' ->
  w_trace (cw c') = w_trace (cw c) ++ flat_map caused (seen release c acts).
Proof.
  induction acts as [|[t a] acts IH]; intros c c' Ha D H; inversion H as [|? ? ? c1 r ? ? Hs Hr]; subst; [symmetry; apply app_nil_r|].
  assert (Hal : allowed t a) by (apply Ha; left; reflexivity). pose proof (lane_own t c c a D D Hal (lane_refl t c)) as G. rewrite Hs in G.
  destruct G as (_ & _ & evs & T & _). rewrite (IH c1 c'); auto; [|intros t1 a1 Hin; apply Ha; right; exact Hin|exact (during_step _ _ _ _ _ D Hal Hs)].
  cbn [seen flat_map]. rewrite Hs. unfold ending_of. rewrite Hs, T. unfold caused at 2. cbn [snd].
  rewrite skipn_app, skipn_all, Nat.sub_diag. cbn [app skipn]. rewrite <- app_assoc. reflexivity.
Qed.

Lemma schedules acts1 acts2 c c1 c2 : all_allowed acts1 -> all_allowed acts2 -> during c -> (forall t, of_thread t acts2 = of_thread t acts1) ->
  cruns release c acts1 c1 -> cruns release c acts2 c2 ->
  same_objects c1 c2 /\ (forall t, counted_for t c2 = counted_for t c1) /\
  (forall t, of_thread t (seen release c acts2) = of_thread t (seen release c acts1)) /\
  Permutation (w_trace (cw c2)) (w_trace (cw c1)).
Proof.
  intros A1 A2 D Ht R1 R2.
  assert (L : forall t, lane t c1 c2 /\ of_thread t (seen release c acts2) = of_thread t (seen release c acts1)).
  { intros t. destruct (lanes_run t acts1 c c c1 A1 D D (lane_refl t c) R1) as (d1 & Q1 & L1 & S1).
    destruct (lanes_run t acts2 c c c2 A2 D D (lane_refl t c) R2) as (d2 & Q2 & L2 & S2). rewrite Ht in Q2, S2.
    rewrite (cruns_same _ _ _ _ Q2 Q1) in L2. split; [eapply lane_trans; [exact L1|]; apply lane_sym; exact L2|congruence]. }
  destruct (L 0) as [[W _ _] _]. pose proof (fun t => la_world _ _ _ (proj1 (L t))) as WL.
  split; [|split; [|split]].
  - unfold same_objects.
    split; [|split; [exact (al_iface _ _ _ W)|split; [|split; [|split; [|split; [exact (al_mocks _ _ _ W)|split; [|split; [exact (al_rid _ _ _ W)|split; [exact (al_reporter _ _ _ W)|]]]]]]]]].
    + apply list_same. intros q. destruct (own_q_some q) as [t H]. exact (al_seqs _ _ _ (WL t) q H).
    + apply list_same. intros q. destruct (own_q_some q) as [t H]. exact (al_sdead _ _ _ (WL t) q H).
    + apply list_same. intros e. destruct (own_e_some e) as [t H]. exact (al_exps _ _ _ (WL t) e H).
    + apply list_same. intros k. exact (al_colls _ _ _ (WL (owner k)) k eq_refl).
    + apply list_same. intros h. destruct (own_h_some h) as [t H]. exact (al_scoped _ _ _ (WL t) h H).
    + apply list_same. intros t. exact (la_thread _ _ _ (proj1 (L t))).
  - intros t. exact (la_counted _ _ _ (proj1 (L t))).
  - intros t. exact (proj2 (L t)).
  - rewrite (trace_run _ _ _ A1 D R1), (trace_run _ _ _ A2 D R2). apply Permutation_app_head. apply Permutation_flat_map. apply threads_permute.
    intros t. exact (proj2 (L t)).
Qed.
End Lanes.

(** ** Programs *)

Lemma apart_allowed owner c acts : apart_from owner c acts -> all_allowed owner c acts.
Proof.
  intros [H1 H2 H3 H4 H5 H6 H7] t a Hin. split; [eapply H2; eauto|]. split; [intros m ov args l coll -> Hu; eapply H3; eauto|]. split.
  - intros h e -> Hh. destruct (H5 _ _ _ Hin Hh) as (coll & Hl & Ho). exists coll. auto.
  - intros h ->. destruct (H6 _ _ Hin) as (e & coll & Hh & Hl & Ho). exists e. split; auto. exists coll. auto.
Qed.

Lemma start_during release threads acts0 c owner acts : cruns release (cinit threads) acts0 c -> apart_from owner c acts -> during owner c c.
Proof.
  intros R [H1 H2 H3 H4 H5 H6 H7]. constructor; auto.
  - apply alike_refl.
  - eapply flat_run; [exact R|]. split; reflexivity.
  - eapply li_reach; eauto.
  - intros t th f Hth Hf coll Hl. eapply H4; eauto.
Qed.

Lemma of_thread_in {A} t (x : A) l : In (t, x) (of_thread t l) <-> In (t, x) l.
Proof. unfold of_thread. rewrite filter_In. cbn [fst]. rewrite Nat.eqb_refl. intuition. Qed.

Lemma apart_same owner c acts acts' : (forall t, of_thread t acts' = of_thread t acts) -> apart_from owner c acts -> apart_from owner c acts'.
Proof.
  intros E [H1 H2 H3 H4 H5 H6 H7]. assert (I : forall t a, In (t, a) acts' -> In (t, a) acts).
  { intros t a H. apply of_thread_in. rewrite <- E. apply of_thread_in. exact H. }
  constructor; eauto.
Qed.

(** ** Mocks do not share their lists *)

Definition has (w : world) (m k : nat) : Prop := exists mk cs, nth_error (w_mocks w) m = Some mk /\ mk_colls mk = Some cs /\ In k cs.
Record parted (w : world) : Prop := mkParted {
  pa_range : forall m k, has w m k -> k < length (w_colls w);
  pa_once : forall m m' k, has w m k -> has w m' k -> m = m'
}.

Lemma parted_back w w' f : parted w -> length (w_colls w) <= length (w_colls w') ->
  (forall m k, has w' m k -> has w (f m) k) -> (forall m m' k, has w' m k -> has w' m' k -> f m = f m' -> m = m') -> parted w'.
Proof.
  intros [P1 P2] L B I. constructor.
  - intros m k H. apply B, P1 in H. lia.
  - intros m m' k H H'. exact (I m m' k H H' (P2 _ _ k (B _ _ H) (B _ _ H'))).
Qed.

Lemma parted_step w w' o r : step w o = Next w' r -> parted w -> parted w'.
Proof.
  intros H P. apply step_mocks in H. pose proof (colls_mono _ _ _ H) as L. destruct H as [sigs Ho E1 E2|m mk Hmk Ha E1 E2|dst src md ms Hd Hs Ha1 Ha2 Hne Hsig E1 E2|m mk Hmk Ha E1 E2|o E1 E2].
  - assert (B : forall m k, has w' m k -> has w m k \/ (m = length (w_mocks w) /\ length (w_colls w) <= k < length (w_colls w'))).
    { intros m k (mk & cs & Hm & Hc & Hk). rewrite E1 in Hm. apply nth_error_snoc in Hm. destruct Hm as [[Hm _]|[-> ->]]; [left; exists mk, cs; auto|].
      right. split; auto. cbn [mk_colls] in Hc. injection Hc as <-. apply In_nth_error in Hk. destruct Hk as [ov Hk]. apply new_ids_nth in Hk.
      destruct Hk as (s & i & _ & _ & -> & Hi). rewrite E2, app_length, map_length. lia. }
    destruct P as [P1 P2]. constructor.
    + intros m k Hm. destruct (B _ _ Hm) as [Hm'|[_ ?]]; [apply P1 in Hm'; lia|lia].
    + intros m m' k Hm Hm'. destruct (B _ _ Hm) as [B1|[-> B1]], (B _ _ Hm') as [B2|[-> B2]]; eauto.
      * apply P1 in B1. lia.
      * apply P1 in B2. lia.
  - assert (B : forall m' k, has w' m' k -> (m' <> m /\ m' <> length (w_mocks w) /\ has w m' k) \/ (m' = length (w_mocks w) /\ has w m k)).
    { intros m' k (mk' & cs & Hm & Hc & Hk). rewrite E1 in Hm. apply nth_error_snoc in Hm. rewrite length_upd in Hm. destruct Hm as [[Hm Hl]|[-> ->]].
      - apply nth_upd_inv in Hm. destruct Hm as [[<- ->]|[Hne Hm]]; [discriminate|]. left. split; auto. split; [apply nth_error_lt in Hm; lia|]. exists mk', cs. auto.
      - right. split; auto. exists mk, cs. auto. }
    apply (parted_back w w' (fun m' => if m' =? length (w_mocks w) then m else m')); auto.
    + intros m' k Hm. destruct (B _ _ Hm) as [(N1 & N2 & Hh)|[-> Hh]]; [destruct (Nat.eqb_spec m' (length (w_mocks w))); [congruence|auto]|rewrite Nat.eqb_refl; auto].
    + intros a b k Ha' Hb'. destruct (B _ _ Ha') as [(A1 & A2 & _)|[-> _]], (B _ _ Hb') as [(B1 & B2 & _)|[-> _]]; rewrite ?Nat.eqb_refl;
        repeat match goal with |- context [?x =? ?y] => destruct (Nat.eqb_spec x y); try congruence end; congruence.
  - assert (B : forall m' k, has w' m' k -> (m' <> dst /\ m' <> src /\ has w m' k) \/ (m' = dst /\ has w src k)).
    { intros m' k (mk' & cs & Hm & Hc & Hk). rewrite E1 in Hm. apply nth_upd_inv in Hm. destruct Hm as [[<- ->]|[N1 Hm]]; [right; split; auto; exists ms, cs; auto|].
      apply nth_upd_inv in Hm. destruct Hm as [[<- ->]|[N2 Hm]]; [discriminate|]. left. split; auto. split; auto. exists mk', cs. auto. }
    apply (parted_back w w' (fun m' => if m' =? dst then src else m')); auto.
    + intros m' k Hm. destruct (B _ _ Hm) as [(N1 & N2 & Hh)|[-> Hh]]; [destruct (Nat.eqb_spec m' dst); [congruence|auto]|rewrite Nat.eqb_refl; auto].
    + intros a b k Ha' Hb'. destruct (B _ _ Ha') as [(A1 & A2 & _)|[-> _]], (B _ _ Hb') as [(B1 & B2 & _)|[-> _]]; rewrite ?Nat.eqb_refl;
        repeat match goal with |- context [?x =? ?y] => destruct (Nat.eqb_spec x y); try congruence end; congruence.
  - apply (parted_back w w' (fun m' => m')); auto. intros m' k (mk' & cs & Hm & Hc & Hk). rewrite E1 in Hm. apply nth_upd_inv in Hm.
    destruct Hm as [[<- ->]|[N1 Hm]]; [discriminate|]. exists mk', cs. auto.
  - apply (parted_back w w' (fun m' => m')); auto. intros m' k (mk' & cs & Hm & Hc & Hk). rewrite E1 in Hm. exists mk', cs. auto.
Qed.

Lemma parted_same w w' : w_mocks w' = w_mocks w -> w_colls w' = w_colls w -> parted w -> parted w'.
Proof. intros E1 E2 P. apply (parted_back w w' (fun m => m)); auto; [rewrite E2; auto|]. unfold has. rewrite E1. auto. Qed.

Lemma parted_run release c acts c' : cruns release c acts c' -> parted (cw c) -> parted (cw c').
Proof.
  induction 1 as [|c t a c1 r acts c2 Hs Hr IH]; auto. intros P. apply IH. destruct a as [o|m ov args l|].
  - pose proof (cstep_op _ _ _ _ _ _ Hs) as (th & v & _ & _ & _ & Hst & ->). apply (parted_same v); try reflexivity. eapply parted_step; [exact Hst|].
    apply (parted_same (cw c)); auto.
  - apply match_over_core in Hs. destruct (core_fields _ _ Hs) as (_ & _ & _ & _ & E1 & E2 & _). apply (parted_same (cw c)); auto.
  - destruct (call_step_static _ _ _ _ _ _ (eq_refl : call_step ACount = true) Hs) as (E1 & E2 & _). apply (parted_same (cw c)); auto.
Qed.
Lemma parted_init k : parted (cw (cinit k)).
Proof. constructor; intros m; intros; destruct H as (mk & cs & Hm & _); destruct m; discriminate. Qed.

Lemma uses_once release threads acts c m ov m' ov' coll : cruns release (cinit threads) acts c ->
  uses_coll c m ov coll -> uses_coll c m' ov' coll -> m = m'.
Proof.
  intros R (s & H) (s' & H'). pose proof (parted_run _ _ _ _ R (parted_init threads)) as P. apply find_overload_inr in H. apply find_overload_inr in H'.
  destruct H as (mk & cs & Hm & _ & _ & Hc & Hk), H' as (mk' & cs' & Hm' & _ & _ & Hc' & Hk').
  apply (pa_once _ P m m' coll); [exists mk, cs|exists mk', cs']; eauto using nth_error_In.
Qed.

(** The thread which calls a list first. *)
Definition caller (c : cworld) (acts : list (nat * action)) (coll : nat) : nat :=
  match find (fun '(_, a) => match a with
                             | AMatch m ov _ _ => match find_overload (cw c) m ov with inr (_, k) => k =? coll | inl _ => false end
                             | _ => false
                             end) acts with
  | Some (t, _) => t
  | None => 0
  end.

Lemma caller_uses release threads acts0 c acts t m ov args l coll : cruns release (cinit threads) acts0 c ->
  (forall t t' m ov ov' args args' l l', In (t, AMatch m ov args l) acts -> In (t', AMatch m ov' args' l') acts -> t = t') ->
  In (t, AMatch m ov args l) acts -> uses_coll c m ov coll -> caller c acts coll = t.
Proof.
  intros R Hs Hin Hu. unfold caller. set (f := fun p : nat * action => _).
  destruct (find f acts) as [[t' a]|] eqn:F.
  - apply find_some in F. destruct F as [Hin' F]. cbn in F. destruct a as [o|m' ov' args' l'|]; try discriminate.
    destruct (find_overload (cw c) m' ov') as [?|[s k]] eqn:Hf; [discriminate|]. apply Nat.eqb_eq in F. subst k.
    assert (E : m' = m) by (apply (uses_once _ _ _ _ m' ov' m ov coll R); [exists s; exact Hf|exact Hu]). subst m'. eapply Hs; eauto.
  - exfalso. pose proof (find_none _ _ F _ Hin) as N. cbn in N. destruct Hu as [s Hf]. rewrite Hf, Nat.eqb_refl in N. discriminate.
Qed.
