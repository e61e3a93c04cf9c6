(** * ReentrantProofs: nested callbacks are threads of which only the last one runs. *)

From Verif Require Import Base Lib Sequence Control Signature Printer Reports Expectation Builder World WorldSpec CallSpec
  SeqInv StepCases MatchLemmas WorldInv CallProofs CountProofs IsolateProofs FrameSpec Conc ConcSpec ConcProofs ConcOrder PropConc Reentrant ReentrantSpec.

(** One thread for each call which is being reported, outermost first, then the running one, then some which have nothing to do. *)
Definition waiting (p : reported) : thread := mkThread (p_frames p) (p_uncaught p) (Some (p_call p)).
Definition idle (th : thread) : Prop := t_frames th = [] /\ t_pending th = None.

Definition strip := without_threads.

Record sim (q : qworld) (c : cworld) (spare : nat) : Prop := mkSim {
  sm_world : cw c = set_uncaught (set_frames (qw q) []) 0;
  sm_threads : exists rest, c_threads c = map waiting (rev (q_stack q)) ++ mkThread (w_frames (qw q)) (w_uncaught (qw q)) None :: rest /\
    Forall idle rest /\ spare <= length rest;
  sm_log : strip (c_log c) = q_log q
}.

Lemma enter_again (w : world) th : t_frames th = w_frames w -> t_uncaught th = w_uncaught w -> enter (set_uncaught (set_frames w []) 0) th = w.
Proof. intros H1 H2. unfold enter. rewrite H1, H2. apply world_ext; reflexivity. Qed.

Lemma nth_error_mid {A} (a : list A) x b : nth_error (a ++ x :: b) (length a) = Some x.
Proof. rewrite nth_error_app2 by auto. rewrite Nat.sub_diag. reflexivity. Qed.

Lemma upd_mid {A} (a : list A) x y b : upd (a ++ x :: b) (length a) y = a ++ y :: b.
Proof. induction a as [|z a IH]; cbn [app length upd]; [reflexivity|]. rewrite IH. reflexivity. Qed.

Lemma strip_app a b : strip (a ++ b) = strip a ++ strip b.
Proof. apply map_app. Qed.

(** The thread of the running code. *)
Definition level (q : qworld) : nat := length (q_stack q).

Lemma level_map q : length (map waiting (rev (q_stack q))) = level q.
Proof. rewrite map_length, rev_length. reflexivity. Qed.

Lemma embed_sim release q c spare s o q1 r : sim q c spare -> cstep release c (level q) o = embed c (level q) (c_log c) s ->
  qembed (q_stack q) (q_log q) s = QNext q1 r -> exists c1, cstep release c (level q) o = CNext c1 r /\ sim q1 c1 spare.
Proof.
  intros [Hw (rest & Ht & Hi & Hn) Hl] Hs H. destruct s as [v r0| | |]; cbn [qembed] in H; try discriminate. injection H as <- <-.
  rewrite Hs. cbn [embed]. eexists. split; [reflexivity|]. split; [reflexivity| |exact Hl].
  exists rest. cbn [qw q_stack c_threads leave]. rewrite Ht, <- level_map, upd_mid. auto.
Qed.

(** A call which is reported is the first half of the call by the running thread; the callback is run by the next one. *)
Lemma sim_match release q c spare m ov args l q1 r p : sim q c (S spare) -> qstep release q (QCall m ov args l) = QNext q1 r ->
  q_stack q1 = p :: q_stack q ->
  exists c1 c2 th, cstep release c (level q) (AMatch m ov args l) = CNext c1 RUnit /\ 
    nth_error (c_threads c1) (level q) = Some th /\ t_pending th = Some (p_call p) /\ w_exps (cw c1) = w_exps (qw q) /\ c_log c1 = c_log c /\ q_log q1 = q_log q /\
    cruns release c1 [(S (level q), AOp (OUnwind (p_uncaught p)))] c2 /\ sim q1 c2 spare.
Proof.
  intros Hsim H Hstk. pose proof Hsim as [Hw (rest & Ht & Hi & Hn) Hl].
  assert (Hth : nth_error (c_threads c) (level q) = Some (mkThread (w_frames (qw q)) (w_uncaught (qw q)) None)).
  { rewrite Ht, <- level_map. apply nth_error_mid. }
  assert (Hen : enter (cw c) (mkThread (w_frames (qw q)) (w_uncaught (qw q)) None) = qw q) by (rewrite Hw; apply enter_again; reflexivity).
  assert (Hno : forall s, qembed (q_stack q) (q_log q) s = QNext q1 r -> False).
  { intros s E. destruct s; cbn [qembed] in E; try discriminate. injection E as <- _. cbn [q_stack] in Hstk. 
    apply (f_equal (@length _)) in Hstk. cbn in Hstk. lia. }
  cbn [qstep] in H. destruct (find_overload (qw q) m ov) as [s|[s coll]] eqn:Hf; [destruct (Hno _ H)|].
  destruct (length args =? length (sg_params s)) eqn:Hlen; cbn [negb] in H; [|discriminate].
  set (ci := mkCall (sg_ret s) (sg_params s) args (frontend_category s) (frontend_constness s) l) in *.
  destruct (match_call (qw q) coll ci (frontend_noexcept s)) as [w' n|s'] eqn:Hm; [|destruct (Hno _ H)].
  injection H as <- <-. cbn [q_stack] in Hstk. injection Hstk as <-. cbn [p_uncaught p_call].
  assert (Hc1 : cstep release c (level q) (AMatch m ov args l) = CNext (leave c (level q) w' (Some (n, ci, frontend_noexcept s)) (c_log c)) RUnit).
  { unfold cstep. rewrite Hth. cbn [t_pending]. rewrite Hen, Hf, Hlen. cbn [negb]. fold ci. rewrite Hm. reflexivity. }
  destruct rest as [|th rest]; [cbn in Hn; lia|]. inversion Hi as [|? ? [Hf0 Hp0] Hi']; subst.
  set (c1 := leave c (level q) w' (Some (n, ci, frontend_noexcept s)) (c_log c)) in *.
  assert (Ht1 : c_threads c1 = map waiting (rev (mkReported (w_frames w') (w_uncaught w') (n, ci, frontend_noexcept s) :: q_stack q)) ++ th :: rest).
  { unfold c1. cbn [c_threads leave]. rewrite Ht, <- level_map, upd_mid. cbn [rev]. rewrite map_app, <- app_assoc. reflexivity. }
  assert (Hth1 : nth_error (c_threads c1) (S (level q)) = Some th).
  { rewrite Ht1. replace (S (level q)) with (length (map waiting (rev (mkReported (w_frames w') (w_uncaught w') (n, ci, frontend_noexcept s) :: q_stack q)))).
    - apply nth_error_mid.
    - rewrite map_length, rev_length. reflexivity. }
  exists c1. eexists _, (mkThread (w_frames w') (w_uncaught w') (Some (n, ci, frontend_noexcept s))). split; [exact Hc1|].
  split; [apply (leave_thread _ _ _ _ _ _ Hth)|]. split; [reflexivity|].
  split; [destruct (match_chosen _ _ _ _ _ _ Hm) as (Hc & _); apply (core_fields _ _ Hc)|]. split; [reflexivity|]. split; [reflexivity|]. split.
  { eapply cr_cons; [|constructor]. unfold cstep. rewrite Hth1, Hp0. reflexivity. }
  split.
  - reflexivity.
  - exists rest. cbn [qw q_stack c_threads leave set_frames w_frames w_uncaught].
    split; [|split; [auto|cbn in Hn; lia]]. rewrite Ht1.
    replace (S (level q)) with (length (map waiting (rev (mkReported (w_frames w') (w_uncaught w') (n, ci, frontend_noexcept s) :: q_stack q)))) by
      (rewrite map_length, rev_length; reflexivity).
    rewrite upd_mid. cbn [enter set_uncaught set_frames w_frames w_uncaught]. rewrite Hf0. reflexivity.
  - exact Hl.
Qed.

(** The end of a callback is the second half of the reported call. *)
Lemma sim_return release q c spare p st : sim q c spare -> q_stack q = p :: st -> w_frames (qw q) = [] -> w_uncaught (qw q) = p_uncaught p ->
  exists n ci ne th s, p_call p = (n, ci, ne) /\ nth_error (c_threads c) (length st) = Some th /\ t_pending th = Some (n, ci, ne) /\
    cstep release c (length st) ACount = embed c (length st) (c_log c ++ [(length st, n, ci)]) s /\
    qstep release q QReturn = qembed st (q_log q ++ [(n, ci)]) s.
Proof.
  intros [Hw (rest & Ht & Hi & Hn) Hl] Hst Hfr Hu. destruct (p_call p) as [[n ci] ne] eqn:Hp.
  rewrite Hst in Ht. cbn [rev] in Ht. rewrite map_app, <- app_assoc in Ht. cbn [map app] in Ht.
  assert (Hlen : length (map waiting (rev st)) = length st) by (rewrite map_length, rev_length; reflexivity).
  assert (Hthp : nth_error (c_threads c) (length st) = Some (waiting p)) by (rewrite Ht, <- Hlen; apply nth_error_mid).
  exists n, ci, ne, (waiting p), (count_call release (set_frames (qw q) (p_frames p)) n ci ne).
  split; auto. split; auto. split; [cbn; congruence|]. split.
  - unfold cstep. rewrite Hthp. cbn [waiting t_pending]. rewrite Hp.
    replace (enter (cw c) (waiting p)) with (set_frames (qw q) (p_frames p)); [reflexivity|].
    rewrite Hw. unfold enter, waiting. cbn [t_frames t_uncaught]. rewrite <- Hu. apply world_ext; reflexivity.
  - cbn [qstep]. rewrite Hst, Hfr, Hu, Nat.eqb_refl, Hp. reflexivity.
Qed.

Theorem sim_step release q c spare o q1 r : sim q c (S spare) -> qstep release q o = QNext q1 r ->
  exists acts c1, cruns release c acts c1 /\ sim q1 c1 spare.
Proof.
  intros Hsim H. pose proof Hsim as [Hw (rest & Ht & Hi & Hn) Hl].
  assert (Hweak : forall q c, sim q c (S spare) -> sim q c spare).
  { intros q' c' [W (rest' & T & I' & N) L]. split; auto. exists rest'. repeat split; auto. lia. }
  assert (Hth : nth_error (c_threads c) (level q) = Some (mkThread (w_frames (qw q)) (w_uncaught (qw q)) None)).
  { rewrite Ht, <- level_map. apply nth_error_mid. }
  assert (Hen : enter (cw c) (mkThread (w_frames (qw q)) (w_uncaught (qw q)) None) = qw q) by (rewrite Hw; apply enter_again; reflexivity).
  destruct o as [o|m ov args l| |]; cbn [qstep] in H.
  - destruct (is_call o) eqn:Ho; [discriminate|].
    destruct (embed_sim release q c (S spare) (step (qw q) o) (AOp o) q1 r Hsim) as (c1 & Hc1 & Hs1); auto.
    { unfold cstep. rewrite Hth. cbn [t_pending]. rewrite Ho, Hen. reflexivity. }
    exists [(level q, AOp o)], c1. split; auto. econstructor; [exact Hc1|constructor].
  - destruct (find_overload (qw q) m ov) as [s|[s coll]] eqn:Hf.
    + destruct (embed_sim release q c (S spare) s (AMatch m ov args l) q1 r Hsim) as (c1 & Hc1 & Hs1); auto.
      { unfold cstep. rewrite Hth. cbn [t_pending]. rewrite Hen, Hf. reflexivity. }
      exists [(level q, AMatch m ov args l)], c1. split; auto. econstructor; [exact Hc1|constructor].
    + destruct (length args =? length (sg_params s)) eqn:Hlen; cbn [negb] in H; [|discriminate].
      set (ci := mkCall (sg_ret s) (sg_params s) args (frontend_category s) (frontend_constness s) l) in *.
      destruct (match_call (qw q) coll ci (frontend_noexcept s)) as [w' n|s'] eqn:Hm.
      * destruct (sim_match release q c spare m ov args l q1 r (mkReported (w_frames w') (w_uncaught w') (n, ci, frontend_noexcept s)) Hsim) as
          (c1 & c2 & th & Hc1 & _ & _ & _ & _ & _ & Hr2 & Hs2).
        { cbn [qstep]. rewrite Hf, Hlen. cbn [negb]. fold ci. rewrite Hm. exact H. }
        { injection H as <- _. reflexivity. }
        eexists _, c2. split; [eapply cr_cons; [exact Hc1|exact Hr2]|exact Hs2].
      * destruct (embed_sim release q c (S spare) s' (AMatch m ov args l) q1 r Hsim) as (c1 & Hc1 & Hs1); auto.
        { unfold cstep. rewrite Hth. cbn [t_pending]. rewrite Hen, Hf, Hlen. cbn [negb]. fold ci. rewrite Hm. reflexivity. }
        exists [(level q, AMatch m ov args l)], c1. split; auto. econstructor; [exact Hc1|constructor].
  - destruct (q_stack q) as [|p st] eqn:Hst; [discriminate|].
    destruct (w_frames (qw q)) as [|f fs] eqn:Hfr; [|discriminate].
    destruct (w_uncaught (qw q) =? p_uncaught p) eqn:Hu; cbn [negb andb] in H; [|discriminate]. apply Nat.eqb_eq in Hu.
    destruct (sim_return release q c (S spare) p st Hsim Hst Hfr Hu) as (n & ci & ne & th & s & Hp & Hthp & Hpe & Hc1 & Hq1).
    assert (Hq : qembed st (q_log q ++ [(n, ci)]) s = QNext q1 r).
    { rewrite <- Hq1. cbn [qstep]. rewrite Hst, Hfr, Hu, Nat.eqb_refl. exact H. }
    destruct s as [v r0| | |]; cbn [qembed] in Hq; try discriminate. injection Hq as <- <-. cbn [embed] in Hc1.
    cbn [rev] in Ht. rewrite map_app, <- app_assoc in Ht. cbn [map app] in Ht.
    assert (Hlen : length (map waiting (rev st)) = length st) by (rewrite map_length, rev_length; reflexivity).
    exists [(length st, ACount)]. eexists. split; [eapply cr_cons; [exact Hc1|constructor]|].
    split.
    + reflexivity.
    + exists (mkThread [] (w_uncaught (qw q)) None :: rest). cbn [qw q_stack c_threads leave]. rewrite Ht, <- Hlen, upd_mid.
      split; [reflexivity|]. split; [constructor; auto; split; reflexivity|]. cbn [length]. lia.
    + cbn [c_log leave q_log]. rewrite strip_app, Hl. reflexivity.
  - destruct (q_stack q); discriminate.
Qed.

Theorem sim_run release ops : forall q c q1 spare, sim q c (length ops + spare) -> qruns release q ops q1 ->
  exists acts c1, cruns release c acts c1 /\ sim q1 c1 spare.
Proof.
  induction ops as [|o ops IH]; intros q c q1 spare Hs H; inversion H; subst.
  - exists [], c. split; [constructor|]. auto.
  - cbn [length Nat.add] in Hs. destruct (sim_step _ _ _ _ _ _ _ Hs H3) as (a1 & c1 & Hr1 & Hs1).
    destruct (IH _ _ _ _ Hs1 H5) as (a2 & c2 & Hr2 & Hs2). exists (a1 ++ a2), c2. split; auto. eapply cruns_app; eauto.
Qed.

Lemma sim_init k : sim qinit (cinit (S k)) k.
Proof.
  split; [reflexivity| |reflexivity]. exists (repeat (mkThread [] 0 None) k). split; [reflexivity|]. split; [|rewrite repeat_length; auto].
  apply Forall_forall. intros th Hin. apply repeat_spec in Hin. subst. split; reflexivity.
Qed.

(** ** Programs whose reporters do not use mocks *)

Lemma qstep_call q m ov args l w' r : reachable (qw q) -> step (qw q) (OCall m ov args l) = Next w' r ->
  (exists x, r = RThrow x /\ qstep false q (QCall m ov args l) = QNext (mkQ w' (q_stack q) (q_log q)) r) \/
  (exists q1 n ci, r = RUnit /\ qstep false q (QCall m ov args l) = QNext q1 RUnit /\
     qstep false q1 QReturn = QNext (mkQ w' (q_stack q) (q_log q ++ [(n, ci)])) RUnit).
Proof.
  intros Hr Hs. pose proof Hs as Hs0. cbn [step] in Hs. apply do_call_next in Hs. destruct Hs as (s & coll & Hf & Hlen & Hh).
  rewrite handle_call_split in Hh. cbn [qstep]. rewrite Hf, Hlen, Nat.eqb_refl. cbn [negb]. fold (call_of s args l).
  destruct (match_call (qw q) coll (call_of s args l) (frontend_noexcept s)) as [w1 n|s'] eqn:Hm.
  - right. destruct (match_chosen _ _ _ _ _ _ Hm) as (Hc & x & Hx & _). destruct (core_fields _ _ Hc) as (_ & _ & _ & E4 & _).
    unfold exp_at in Hx. rewrite E4, Hx in Hh.
    assert (Hal : eo_alive x = true).
    { clear Hh. pose proof (winv_reachable _ Hr) as I. unfold match_call in Hm. destruct (nth_error (w_colls (qw q)) coll) as [lst|] eqn:Hlst; [|discriminate].
      destruct (lookup_exps (qw q) (rev lst)) as [es|] eqn:Hes; [|discriminate].
      destruct (match_loop _ _ _ _ _ _) as [ml|y| |u] eqn:Hml; try discriminate.
      destruct (ml_full ml) as [|first others] eqn:Hfu; [destruct (react _ _); discriminate|].
      destruct (pick_best first others) as [[k mr]|y| |u] eqn:Hp; try discriminate.
      destruct (react _ _); try discriminate. injection Hm as _ ->.
      destruct (chosen_alive _ _ _ _ _ _ _ _ _ _ I Hlst Hes Hml Hfu Hp) as (y & (Hy & Hay & _) & _).
      unfold exp_at in Hy. rewrite Hx in Hy. injection Hy as <-. auto. }
    rewrite Hal in Hh.
    assert (Er : r = RUnit).
    { unfold count_call in Hh. rewrite E4, Hx, Hal in Hh. cbn [negb] in Hh.
      destruct (consume_with false (w_seqs w1) (e_ctl (eo_exp x))) as [[ss ctl]|y| |u] eqn:Hcons; try discriminate.
      - destruct (consume_asserts _ _) as [[]| | |]; try discriminate. congruence.
      - exfalso. eapply control_consume_nothrow. exact Hcons. }
    subst r. eexists _, n, (call_of s args l). split; auto. split; [reflexivity|].
    cbn [qstep q_stack qw set_frames w_frames w_uncaught p_uncaught p_call p_frames q_log]. rewrite Nat.eqb_refl. cbn [andb negb].
    replace (set_frames (set_frames w1 []) (w_frames w1)) with w1 by (apply world_ext; reflexivity). rewrite Hh. reflexivity.
  - left. subst s'. destruct (over_throws _ _ _ _ _ _ Hm) as [x ->]. exists x. split; reflexivity.
Qed.
