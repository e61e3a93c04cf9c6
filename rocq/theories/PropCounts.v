(** * PropCounts: C01, C02, C06, C24. *)

From Verif Require Import Base Sequence Control Signature Printer Reports Expectation Builder BuildSpec World WorldSpec CallSpec
  CountProofs Scenario.

(** ** C01: the upper limit is never exceeded. *)

(** For every expectation ever created, at every point of every history. *)
Theorem C01_max_never_exceeded w e x :
  reachable w -> exp_at w e x -> (Z.of_nat (accepted (w_trace w) e) <= x_max x)%Z.
Proof. exact (max_bound w e x). Qed.

(** The same in terms of the source text of the program: the limit the user wrote. *)
Theorem C01_declared_max_never_exceeded ops0 w0 m ov ms cls l w1 ops w2 :
  run init ops0 w0 -> step w0 (OExpect m ov ms cls l) = Next w1 RUnit -> run w1 ops w2 ->
  (Z.of_nat (accepted (w_trace w2) (length (w_exps w0))) <= snd (declared_limits cls))%Z.
Proof. exact (declared_bound ops0 w0 m ov ms cls l w1 ops w2). Qed.

(** A program in which an expectation with the limits [1,2] accepts two calls, the second from inside of the first, while the
    third one is rejected. *)
Definition prog_twice : list op :=
  [ONewMock [sig_void]; OExpect 0 0 [] [ClTimes (TxRange 1 2); ClPolicy (PSideEffect 7)] here;
   OSatisfied 0;
   OCall 0 0 [] here; OAction;
     OSatisfied 0;
     OCall 0 0 [] there; OAction; OFinal; OReturn (UOk (VInt 0));
   OFinal; OReturn (UOk (VInt 0));
   OCall 0 0 [] there; OSatisfied 0].
Example C01_example :
  results prog_twice = [RUnit; RUnit; RBool false; RUnit; RUnit; RBool true; RUnit; RUnit; RUnit; RVal None; RUnit; RVal None;
                        RThrow EReporter; RBool true] /\
  accepted (w_trace (after prog_twice)) 0 = 2.
Proof. vm_compute. auto. Qed.

(** ** C02: satisfaction is exactly the accepted count. *)

Theorem C02_satisfied_iff_in_limits w h e x :
  reachable w -> nth_error (w_scoped w) h = Some (HOwns e) -> exp_at w e x ->
  exists b, step w (OSatisfied h) = Next w (RBool b) /\
    (b = true <-> (x_min x <= Z.of_nat (accepted (w_trace w) e) <= x_max x)%Z).
Proof.
  intros Hr Hh Hx. exists (in_limits w e x). split; [apply satisfied_observed; auto|].
  unfold in_limits. rewrite Bool.andb_true_iff, !Z.leb_le. tauto.
Qed.

(** Whoever owns the expectation later. *)
Theorem C02_satisfied_stays w h e ops w' h' :
  reachable w -> nth_error (w_scoped w) h = Some (HOwns e) -> step w (OSatisfied h) = Next w (RBool true) ->
  run w ops w' -> nth_error (w_scoped w') h' = Some (HOwns e) -> step w' (OSatisfied h') = Next w' (RBool true).
Proof. exact (satisfied_stays w h e ops w' h'). Qed.

(** In [prog_twice] the answers are false, true, true (above); here with a handle that is moved. *)
Example C02_example : results
  [ONewMock [sig_void]; OExpect 0 0 [] [ClTimes (TxAtLeast 1)] here; OSatisfied 0; OMoveScoped 0; OSatisfied 1;
   OCall 0 0 [] here; OFinal; OReturn (UOk (VInt 0)); OSatisfied 1; OCall 0 0 [] here; OFinal; OReturn (UOk (VInt 0)); OSatisfied 1]
  = [RUnit; RUnit; RBool false; RUnit; RBool false; RUnit; RUnit; RVal None; RBool true; RUnit; RUnit; RVal None; RBool true].
Proof. vm_compute. reflexivity. Qed.

(** ** C06: a matched call touches exactly one expectation. *)

Theorem C06_matched_call_touches_one w m ov args l w' :
  reachable w -> step w (OCall m ov args l) = Next w' RUnit ->
  exists n,
    (exists pre c mr, w_trace w' = w_trace w ++ pre ++ [EvReport (w_rid w) (RFull c mr) [n]] /\ forall e, accepted pre e = 0) /\
    (forall e, accepted (w_trace w') e = accepted (w_trace w) e + (if n =? e then 1 else 0)) /\
    (forall e, e <> n -> nth_error (w_exps w') e = nth_error (w_exps w) e) /\
    (forall h e b, nth_error (w_scoped w) h = Some (HOwns e) -> e <> n ->
       (step w (OSatisfied h) = Next w (RBool b) <-> step w' (OSatisfied h) = Next w' (RBool b))).
Proof.
  intros Hr H. destruct (matched_counts _ _ _ _ _ _ Hr H) as (s & coll & n & x & _ & _ & (mr & unh & Ht & Hu) & Hc & _ & Hx).
  exists n. split; [eauto|]. split; auto. split; auto. intros h e b Hh Hne.
  apply (matched_others _ _ _ _ _ _ _ _ _ Hr H Hh). rewrite Hc. destruct (Nat.eqb_spec n e); [congruence|lia].
Qed.

(** And a call which is left by an exception of the reporter touches none. *)
Theorem C06_failed_call_touches_none w m ov args l w' y :
  reachable w -> step w (OCall m ov args l) = Next w' (RThrow y) ->
  (forall e, accepted (w_trace w') e = accepted (w_trace w) e) /\ w_exps w' = w_exps w /\ w_seqs w' = w_seqs w.
Proof.
  intros Hr H. destruct (failed_counts _ _ _ _ _ _ _ Hr H) as (evs & -> & Hc). split; auto.
Qed.

Example C06_example : let w := after
  [ONewMock [sig_int]; OExpect 0 0 [m_any] [ClFinal (FReturns (VInt 1))] here; OExpect 0 0 [m_eq 5] [ClFinal (FReturns (VInt 2))] there;
   OCall 0 0 [VInt 5] here; OFinal; OReturn (UOk (VInt 0)); OCall 0 0 [VInt 4] here; OFinal; OReturn (UOk (VInt 0))] in
  accepted (w_trace w) 0 = 1 /\ accepted (w_trace w) 1 = 1 /\ length (w_trace w) = 4.
Proof. vm_compute. auto. Qed.

(** ** C24: nested calls. *)

Theorem C24_exhausted_never_rematched w e x ops w' :
  reachable w -> exp_at w e x -> Z.of_nat (accepted (w_trace w) e) = x_max x -> run w ops w' ->
  accepted (w_trace w') e = accepted (w_trace w) e.
Proof. exact (exhausted_stays w e x ops w'). Qed.

(** The call in [w] takes the last accepted call of [n]; whatever happens inside of it (and later) does not match [n]. *)
Theorem C24_nested_call_never_rematches w m ov args l w1 n x ops w2 :
  reachable w -> step w (OCall m ov args l) = Next w1 RUnit -> accepted (w_trace w1) n = S (accepted (w_trace w) n) ->
  exp_at w n x -> Z.of_nat (S (accepted (w_trace w) n)) = x_max x -> run w1 ops w2 ->
  accepted (w_trace w2) n = accepted (w_trace w1) n.
Proof. exact (nested_no_rematch w m ov args l w1 n x ops w2). Qed.

(** The calls in progress have no influence on a call: it has the same outcome, reports and effects as the same call made with any
    other list [fs] of calls in progress (e.g. none); [in_frames fs] only replaces the list of calls in progress. *)
Theorem C24_nesting_is_irrelevant w fs m ov args l :
  step (set_frames w fs) (OCall m ov args l) = in_frames fs (step w (OCall m ov args l)).
Proof. exact (call_frames w fs m ov args l). Qed.

Example C24_example : let prog :=
  [ONewMock [sig_void]; OExpect 0 0 [] [ClPolicy (PSideEffect 1)] here; OCall 0 0 [] here; OAction; OCall 0 0 [] there] in
  results prog = [RUnit; RUnit; RUnit; RUnit; RThrow EReporter] /\ accepted (w_trace (after prog)) 0 = 1.
Proof. vm_compute. auto. Qed.

Print Assumptions C01_max_never_exceeded.
Print Assumptions C01_declared_max_never_exceeded.
Print Assumptions C02_satisfied_iff_in_limits.
Print Assumptions C02_satisfied_stays.
Print Assumptions C06_matched_call_touches_one.
Print Assumptions C06_failed_call_touches_none.
Print Assumptions C24_exhausted_never_rematched.
Print Assumptions C24_nested_call_never_rematches.
Print Assumptions C24_nesting_is_irrelevant.
