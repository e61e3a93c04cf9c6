(** * PropConc: calls from several threads (C27, C28). *)

From Verif Require Import Base Lib Sequence Control Signature Printer Reports Expectation Builder World WorldSpec
  SeqInv WorldInv CountProofs FrameSpec Scenario Conc ConcSpec ConcProofs.

Lemma cruns_app release c a c1 b c2 : cruns release c a c1 -> cruns release c1 b c2 -> cruns release c (a ++ b) c2.
Proof. intros H. induction H; cbn [app]; auto. intros. econstructor; eauto. Qed.

(** Run a program of several threads, for witnesses. *)
Fixpoint cexec (release : bool) (c : cworld) (acts : list (nat * action)) : option cworld :=
  match acts with
  | [] => Some c
  | (t, a) :: rest => match cstep release c t a with CNext c1 _ => cexec release c1 rest | _ => None end
  end.
Lemma cexec_runs release acts : forall c c', cexec release c acts = Some c' -> cruns release c acts c'.
Proof.
  induction acts as [|[t a] acts IH]; intros c c' H; cbn [cexec] in H; [injection H as <-; constructor|].
  destruct (cstep release c t a) as [c1 r| | |] eqn:E; try discriminate. econstructor; eauto.
Qed.

(** ** C28: what does hold *)

(** In every interleaving, with and without asserts, a call is counted only for an expectation which accepts it. *)
Theorem C28_counted_calls_were_accepted release threads acts c t n ci :
  cruns release (cinit threads) acts c -> In (t, n, ci) (c_log c) ->
  exists x, exp_at (cw c) n x /\ accepts (eo_exp x) ci.
Proof. intros H. apply (ci_log _ _ (cinv_run _ _ _ _ H)). Qed.

(** In every interleaving the stored count is the number of counted calls: no increment is lost or invented. *)
Theorem C28_count_is_exact release threads acts c e x :
  cruns release (cinit threads) acts c -> exp_at (cw c) e x -> c_count (e_ctl (eo_exp x)) = Z.of_nat (counted c e).
Proof. intros H. apply (ci_count _ _ (cinv_run _ _ _ _ H)). Qed.

(** Serialised executions are single-threaded executions: there is a program with one thread which has all objects in the same
    state and delivered the same reports, so that everything proved about reachable states holds. *)
Theorem C28_serialised release threads c :
  serialised release (cinit threads) c ->
  exists w, reachable w /\ agrees w c /\ forall e, counted c e = accepted (w_trace w) e.
Proof. apply serialised_sim. Qed.

(** Each call of a serialised execution has the same outcome as in that single-threaded program. *)
Theorem C28_serialised_calls release threads c t m ov args l c1 r :
  serialised release (cinit threads) c -> cstep release c t (AMatch m ov args l) = CNext c1 r ->
  exists w, reachable w /\ agrees w c /\
    ((exists x w', r = RThrow x /\ step w (OCall m ov args l) = Next w' (RThrow x) /\ agrees w' c1) \/
     (exists c2 w', r = RUnit /\ cstep release c1 t ACount = CNext c2 RUnit /\ step w (OCall m ov args l) = Next w' RUnit /\ agrees w' c2)).
Proof.
  intros H Hs. destruct (serialised_sim _ _ _ H) as (w & Hr & Ha & _).
  pose proof (cstep_match _ _ _ _ _ _ _ _ _ Hs) as (th & s & coll & Hth & _ & _ & _ & D).
  exists (set_uncaught w (t_uncaught th)). split; [apply unwind_reachable; auto|]. split; [exact Ha|].
  destruct D as [(w1 & n & Hm & -> & _)|(w1 & Hm & _)].
  - right. destruct (serialised_counts _ _ _ _ _ _ _ _ _ Hr Ha Hs) as [c2 Hc2].
    destruct (sim_call _ _ _ _ _ _ _ _ _ _ _ _ Hr Ha Hs Hc2) as (th' & w' & Hth' & Ha' & Hst & _).
    rewrite Hth in Hth'. injection Hth' as <-. exists c2, w'. auto.
  - left. destruct (over_throws _ _ _ _ _ _ Hm) as [x ->].
    destruct (sim_failed _ _ _ _ _ _ _ _ _ _ Ha Hs) as (th' & w' & Hth' & Ha' & _ & Hst).
    rewrite Hth in Hth'. injection Hth' as <-. exists x, w'. auto.
Qed.

(** So does each other operation; starting or ending side effects and finalizers changes no object and delivers no report. *)
Theorem C28_serialised_operations release threads c t o c1 r :
  serialised release (cinit threads) c -> cstep release c t (AOp o) = CNext c1 r ->
  exists w, reachable w /\ agrees w c /\
    ((exists w', step w o = Next w' r /\ agrees w' c1) \/
     ((o = OAction \/ o = OFinal \/ exists u, o = OReturn u) /\ agrees w c1)).
Proof.
  intros H Hs. destruct (serialised_sim _ _ _ H) as (w & Hr & Ha & _).
  destruct (sim_op _ _ _ _ _ _ _ Ha Hs) as [(th & w' & _ & Ha' & _ & [[Hf ->]|Hst]) _].
  - exists w. split; auto. split; auto. right. split; auto. destruct o; try discriminate; eauto.
    unfold cstep in Hs. destruct (nth_error (c_threads c) t) as [th'|]; [|discriminate]. destruct (t_pending th') as [[[? ?] ?]|]; [discriminate|].
    cbn [is_call step] in Hs. destruct (w_frames (enter (cw c) th')); [discriminate|]. destruct (_ && _); discriminate.
  - exists (set_uncaught w (t_uncaught th)). split; [apply unwind_reachable; auto|]. split; [exact Ha|]. left. exists w'. auto.
Qed.

(** Among others: the upper limit. *)
Theorem C28_serialised_limit release threads c e x :
  serialised release (cinit threads) c -> exp_at (cw c) e x -> (Z.of_nat (counted c e) <= x_max x)%Z.
Proof.
  intros H Hx. destruct (serialised_sim _ _ _ H) as (w & Hr & Ha & ->). destruct Ha as (_ & _ & _ & E & _).
  apply max_bound; auto. unfold exp_at in *. rewrite E. exact Hx.
Qed.

(** ** C27: what does not hold *)

(** With asserts the limit is never exceeded by a program that goes on, whatever the interleaving ... *)
Theorem C27_limit_with_asserts threads acts c e x :
  cruns false (cinit threads) acts c -> exp_at (cw c) e x -> (Z.of_nat (counted c e) <= x_max x)%Z.
Proof.
  intros H Hx. pose proof (cinv_run _ _ _ _ H) as I. rewrite <- (ci_count _ _ I _ _ Hx). apply (ci_max _ _ I eq_refl _ _ Hx).
Qed.

Definition setup : list (nat * action) :=
  [(0, AOp (ONewMock [sig_void])); (0, AOp (OExpect 0 0 [] [ClTimes TxOnce] here))].
Definition both_match : list (nat * action) :=
  [(0, AMatch 0 0 [] here); (1, AMatch 0 0 [] there)].

(** ... but two threads calling a mock with one expectation may hit an assert ... *)
Theorem C27_asserts_hit_refuted : exists c c1,
  cruns false (cinit 2) (setup ++ both_match) c /\ cstep false c 0 ACount = CNext c1 RUnit /\ cstep false c1 1 ACount = CWrong UbAssert.
Proof.
  eexists _, _. split; [apply cexec_runs; vm_compute; reflexivity|]. split; vm_compute; reflexivity.
Qed.

(** ... and without asserts the limit is exceeded. *)
Theorem C27_limit_refuted : exists acts c x,
  cruns true (cinit 2) acts c /\ exp_at (cw c) 0 x /\ x_max x = 1%Z /\ counted c 0 = 2.
Proof.
  eexists (setup ++ both_match ++ [(0, ACount); (1, ACount)]), _, _. split; [apply cexec_runs; vm_compute; reflexivity|].
  repeat split; vm_compute; reflexivity.
Qed.

(** Both threads were told that their call matched. *)
Example C27_both_reported : exists c, cruns true (cinit 2) (setup ++ both_match ++ [(0, ACount); (1, ACount)]) c /\
  accepted (w_trace (cw c)) 0 = 2.
Proof. eexists. split; [apply cexec_runs; vm_compute; reflexivity|]. vm_compute. reflexivity. Qed.

(** The state after that: the expectation [times (1)] has been called [k] times, no calls are running. *)
Definition over_limit (k : Z) (tr : list event) (log : list (nat * nat * call_info)) : cworld :=
  mkC (mkWorld [] [] []
         [mkEObj (mkExp here (mkControl 1 1 k []) [PCategory CatAny; PConstness NonConst] FInit) 0 true 0 sig_void]
         [[0]] [mkMock [sig_void] (Some [0]) true] [HOwns 0] [] 0 default_reporter 0 tr)
    [mkThread [] 0 None; mkThread [] 0 None] log.

Definition finish (t : nat) : list (nat * action) := [(t, AOp OFinal); (t, AOp (OReturn (UOk (VInt 0))))].

Lemma over_limit_start : exists tr log, cruns true (cinit 2) (setup ++ both_match ++ [(0, ACount); (1, ACount)] ++ finish 0 ++ finish 1) (over_limit 2 tr log) /\
  counted (over_limit 2 tr log) 0 = 2.
Proof. eexists _, _. split; [apply cexec_runs; vm_compute; reflexivity|]. vm_compute. reflexivity. Qed.

Lemma over_limit_match k tr log : (2 <= k)%Z -> exists w ci,
  cstep true (over_limit k tr log) 1 (AMatch 0 0 [] there) = CNext (leave (over_limit k tr log) 1 w (Some (0, ci, false)) log) RUnit /\
  exists ev, w = mkWorld [] [] [] (w_exps (cw (over_limit k tr log))) [[0]] [mkMock [sig_void] (Some [0]) true] [HOwns 0] [] 0 default_reporter 0 (tr ++ [ev]) /\
  ci = call_of sig_void [] there.
Proof.
  intros Hk. assert (E : (k =? 1)%Z = false) by (apply Z.eqb_neq; lia).
  eexists _, _. split.
  - unfold cstep, over_limit. cbn [nth_error c_threads t_pending]. unfold find_overload. cbn [enter cw w_mocks set_uncaught set_frames nth_error].
    cbn -[match_call]. unfold match_call. cbn -[match_loop make_match_report].
    cbn [match_loop]. unfold make_match_report, exp_matches, control_state_of. cbn [e_ctl c_count c_max]. rewrite E. cbn. reflexivity.
  - eexists. split; [|reflexivity]. cbn. reflexivity.
Qed.

Definition counting (k : Z) (tr : list event) (fs : list frame) (log : list (nat * nat * call_info)) : cworld :=
  mkC (cw (over_limit k tr log)) [mkThread [] 0 None; mkThread fs 0 None] log.

Lemma over_limit_count k tr log ev : (2 <= k < INT_MAX)%Z ->
  cstep true (leave (over_limit k tr log) 1
     (mkWorld [] [] [] (w_exps (cw (over_limit k tr log))) [[0]] [mkMock [sig_void] (Some [0]) true] [HOwns 0] [] 0 default_reporter 0 (tr ++ [ev]))
     (Some (0, call_of sig_void [] there, false)) log) 1 ACount
  = CNext (counting (k + 1) (tr ++ [ev]) [mkFrame 0 [] false false false] (log ++ [(1, 0, call_of sig_void [] there)])) RUnit.
Proof.
  intros Hk. assert (E1 : (k =? INT_MAX)%Z = false) by (apply Z.eqb_neq; lia).
  assert (E2 : (k + 1 =? 1)%Z = false) by (apply Z.eqb_neq; lia).
  unfold cstep. cbn [c_threads leave over_limit upd nth_error t_pending]. unfold count_call. cbn -[control_consume_nd].
  unfold control_consume_nd, control_update_nd. cbn [for_each_seq c_seqs obind c_count c_min c_max]. rewrite E1, E2. reflexivity.
Qed.

Lemma over_limit_final k tr log :
  cstep true (counting k tr [mkFrame 0 [] false false false] log) 1 (AOp OFinal) = CNext (counting k (tr ++ [EvFinal 0]) [mkFrame 0 [] false true false] log) RUnit.
Proof. reflexivity. Qed.
Lemma over_limit_return k tr log :
  cstep true (counting k tr [mkFrame 0 [] false true false] log) 1 (AOp (OReturn (UOk (VInt 0)))) = CNext (over_limit k tr log) (RVal None).
Proof. reflexivity. Qed.

Lemma over_limit_again k tr log : (2 <= k < INT_MAX)%Z -> exists tr' ci,
  cruns true (over_limit k tr log) ([(1, AMatch 0 0 [] there); (1, ACount)] ++ finish 1) (over_limit (k + 1) tr' (log ++ [(1, 0, ci)])).
Proof.
  intros Hk. destruct (over_limit_match k tr log) as (w & ci & Hs & ev & -> & ->); [lia|].
  exists ((tr ++ [ev]) ++ [EvFinal 0]), (call_of sig_void [] there). cbn [app]. eapply cr_cons; [exact Hs|].
  eapply cr_cons; [apply over_limit_count; auto|]. eapply cr_cons; [apply over_limit_final|]. eapply cr_cons; [apply over_limit_return|]. apply cr_nil.
Qed.

(** Nothing bounds the number of calls (but the range of int): afterwards the expectation is never saturated again. It can also no
    longer be satisfied. *)
Theorem C27_unbounded_refuted calls : (2 <= calls <= INT_MAX)%Z -> exists acts c x,
  cruns true (cinit 2) acts c /\ exp_at (cw c) 0 x /\ x_min x = 1%Z /\ x_max x = 1%Z /\ Z.of_nat (counted c 0) = calls /\
  step (cw c) (OSatisfied 0) = Next (cw c) (RBool false) /\
  exists c1, cstep true c 1 (AMatch 0 0 [] there) = CNext c1 RUnit.
Proof.
  intros H. remember (Z.to_nat (calls - 2)) as n eqn:En. 
  assert (G : exists acts tr log, cruns true (cinit 2) acts (over_limit calls tr log) /\ Z.of_nat (counted (over_limit calls tr log) 0) = calls).
  { revert calls H En. induction n as [|n IH]; intros calls H En.
    - replace calls with 2%Z by lia. destruct over_limit_start as (tr & log & Hr & Hc). exists (setup ++ both_match ++ [(0, ACount); (1, ACount)] ++ finish 0 ++ finish 1), tr, log. split; auto. rewrite Hc. reflexivity.
    - destruct (IH (calls - 1)%Z) as (acts & tr & log & Hr & Hc); [lia|lia|].
      destruct (over_limit_again (calls - 1) tr log) as (tr' & ci & Hr'); [lia|]. replace (calls - 1 + 1)%Z with calls in Hr' by lia.
      eexists _, tr', _. split; [eapply cruns_app; eauto|].
      erewrite (counted_snoc _ 1 0 ci log 0) by reflexivity. unfold counted in Hc. cbn [c_log over_limit] in Hc. cbn [Nat.eqb]. lia. }
  destruct G as (acts & tr & log & Hr & Hc).
  eexists acts, (over_limit calls tr log), _. split; [exact Hr|]. split; [reflexivity|]. split; [reflexivity|]. split; [reflexivity|]. split; [exact Hc|].
  split.
  - cbn -[control_is_satisfied]. unfold exp_is_satisfied, control_is_satisfied. cbn [eo_exp e_ctl c_min c_count c_max].
    replace (calls <=? 1)%Z with false by (symmetry; apply Z.leb_gt; lia). rewrite andb_false_r. reflexivity.
  - destruct (over_limit_match calls tr log) as (w & ci & Hs & _); [lia|]. eauto.
Qed.

(** If another thread ends the scope of the chosen expectation between the two steps of a call, the call continues with a dangling
    reference, with and without asserts. *)
Theorem C27_scope_ended_refuted : forall release, exists c c1,
  cruns release (cinit 2) (setup ++ [(1, AMatch 0 0 [] there); (1, ACount)] ++ finish 1 ++
    [(0, AOp (OExpect 0 0 [] [ClTimes (TxAtMost 1)] here)); (1, AMatch 0 0 [] there)]) c /\
  cstep release c 0 (AOp (OEndScope 1)) = CNext c1 RUnit /\ cstep release c1 1 ACount = CWrong UbDangling.
Proof. intros []; eexists _, _; (split; [apply cexec_runs; vm_compute; reflexivity|]; split; vm_compute; reflexivity). Qed.

(** Run a serialised program, for examples. *)
Fixpoint sexec (release : bool) (c : cworld) (acts : list (nat * op)) : option cworld :=
  match acts with
  | [] => Some c
  | (t, OCall m ov args l) :: rest =>
      match cstep release c t (AMatch m ov args l) with
      | CNext c1 (RThrow _) => sexec release c1 rest
      | CNext c1 _ => match cstep release c1 t ACount with CNext c2 _ => sexec release c2 rest | _ => None end
      | _ => None
      end
  | (t, o) :: rest => match cstep release c t (AOp o) with CNext c1 _ => sexec release c1 rest | _ => None end
  end.
Lemma sexec_serialised release acts : forall c0 c c', serialised release c0 c -> sexec release c acts = Some c' -> serialised release c0 c'.
Proof.
  induction acts as [|[t o] acts IH]; intros c0 c c' H Hs; cbn [sexec] in Hs; [injection Hs as <-; auto|].
  destruct o;
    try (match type of Hs with context [cstep release c t (AOp ?o)] => destruct (cstep release c t (AOp o)) eqn:E; try discriminate end;
         eapply IH; [eapply se_op; eauto|exact Hs]).
  destruct (cstep release c t (AMatch m ov args l)) as [c1 r| | |] eqn:E; try discriminate.
  destruct r; try (eapply IH; [eapply se_failed; eauto|exact Hs]);
    destruct (cstep release c1 t ACount) as [c2 r2| | |] eqn:E2; try discriminate; apply (IH c0 c2 c'); auto; eapply se_call; eauto.
Qed.

(** A serialised execution of two threads: calls interleave with the finalizers of the other thread's calls, and one call fails. *)
Example C28_example : exists c, serialised true (cinit 2) c /\ counted c 0 = 2 /\
  exists x, exp_at (cw c) 0 x /\ x_max x = 2%Z /\ length (filter (fun ev => match ev with EvReport _ (RInapplicable _ _) _ => true | _ => false end) (w_trace (cw c))) = 1.
Proof.
  eexists. split.
  - eapply (sexec_serialised true [(1, ONewMock [sig_void]); (0, OExpect 0 0 [] [ClTimes (TxAtMost 2)] here); (0, OCall 0 0 [] here);
      (1, OCall 0 0 [] there); (0, OFinal); (1, OCall 0 0 [] there)]); [apply se_refl|]. vm_compute. reflexivity.
  - vm_compute. split; [reflexivity|]. eexists. split; [reflexivity|]. split; reflexivity.
Qed.

Print Assumptions C27_limit_with_asserts.
Print Assumptions C27_asserts_hit_refuted.
Print Assumptions C27_limit_refuted.
Print Assumptions C27_unbounded_refuted.
Print Assumptions C27_scope_ended_refuted.
Print Assumptions C28_counted_calls_were_accepted.
Print Assumptions C28_count_is_exact.
Print Assumptions C28_serialised.
Print Assumptions C28_serialised_calls.
Print Assumptions C28_serialised_operations.
Print Assumptions C28_serialised_limit.
