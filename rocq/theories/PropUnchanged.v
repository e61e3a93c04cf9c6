(** * PropUnchanged: C05, a failed call changes nothing. *)

From Verif Require Import Base Sequence Control Signature Printer Reports Expectation Builder World WorldSpec CallSpec CountProofs
  PlayProofs Scenario.

(** Every later observation (result, reports, side effects and finalizers of every later operation, and the end of the program) is
    the same as without the call. *)
Theorem C05_failed_call_changes_nothing w m ov args l w' y ops :
  reachable w -> step w (OCall m ov args l) = Next w' (RThrow y) -> play w' ops = play w ops.
Proof.
  intros Hr Hs. destruct (failed_counts _ _ _ _ _ _ _ Hr Hs) as (evs & -> & _). apply play_only_reports.
Qed.

(** In particular counts and applicability. *)
Theorem C05_counts_and_applicability w m ov args l w' y :
  reachable w -> step w (OCall m ov args l) = Next w' (RThrow y) ->
  (forall e, accepted (w_trace w') e = accepted (w_trace w) e) /\
  (forall e x, exp_at w' e x <-> exp_at w e x) /\
  (forall e x, applicable w' e x <-> applicable w e x) /\
  w_seqs w' = w_seqs w.
Proof.
  intros Hr Hs. destruct (failed_counts _ _ _ _ _ _ _ Hr Hs) as (evs & -> & Hc). split; auto. split; [reflexivity|]. split; [|reflexivity].
  intros e x. unfold applicable. rewrite Hc. change (exp_at (only_reports w evs)) with (exp_at w).
  split; intros [H1 H2]; split; auto; intros s Hs' e' x' He' Hs''; specialize (H2 s Hs' e' x' He' Hs''); rewrite Hc in *; auto.
Qed.

(** Two sequenced expectations: a call out of order fails and afterwards everything goes on as if nothing happened. *)
Definition prog_sequenced : list op :=
  [ONewSeq (Lazy); ONewMock [sig_unary]; OExpect 0 0 [m_eq 1] [ClSeq [0]] here; OExpect 0 0 [m_eq 2] [ClSeq [0]] there].
Definition rest : list op :=
  [OCall 0 0 [VInt 1] here; OFinal; OReturn (UOk (VInt 0)); OSatisfied 0; OCall 0 0 [VInt 2] here; OFinal; OReturn (UOk (VInt 0));
   OEndScope 0; OEndScope 1; ODropSeq 0].
Example C05_example :
  results (prog_sequenced ++ [OCall 0 0 [VInt 2] there]) = [RUnit; RUnit; RUnit; RUnit; RThrow EReporter] /\
  map fst (fst (play (after prog_sequenced) rest)) =
    [RUnit; RUnit; RVal None; RBool true; RUnit; RUnit; RVal None; RUnit; RUnit; RUnit] /\
  play (after (prog_sequenced ++ [OCall 0 0 [VInt 2] there])) rest = play (after prog_sequenced) rest.
Proof. vm_compute. auto. Qed.

Print Assumptions C05_failed_call_changes_nothing.
Print Assumptions C05_counts_and_applicability.
