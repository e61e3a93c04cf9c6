(** * ScheduleAfter: reports delivered and calls counted before have no influence on programs with several threads. *)

From Coq Require Import Permutation.
From Verif Require Import Base Lib Sequence Control Signature Printer Reports Expectation Builder World WorldSpec
  StepCases IsolateProofs PlayProofs Conc ConcSpec ConcProofs ScheduleSpec ScheduleProofs.

Definition liftm (d : list event) (m : matching) : matching :=
  match m with MChosen w n => MChosen (pre d w) n | MOver s => MOver (lift d s) end.

Lemma match_call_pre d w coll c ne : match_call (pre d w) coll c ne = liftm d (match_call w coll c ne).
Proof.
  unfold match_call. change (w_colls (pre d w)) with (w_colls w). change (w_reporter (pre d w)) with (w_reporter w).
  change (w_uncaught (pre d w)) with (w_uncaught w). change (w_seqs (pre d w)) with (w_seqs w).
  destruct (nth_error (w_colls w) coll) as [l|]; auto. rewrite lookup_exps_pre. destruct (lookup_exps w (rev l)) as [es|]; auto.
  destruct (match_loop _ _ _ _ _ _) as [ml|x| |u]; auto; [|unfold thrown; destruct ne; reflexivity].
  rewrite emit_unhandled_pre. set (w1 := emit_unhandled w c (ml_unhandled ml)).
  destruct (ml_full ml) as [|first others].
  - unfold react. cbn [w_reporter w_uncaught pre set_trace].
    set (rep := match ml_inapplicable ml with [] => _ | _ => _ end). set (who := match ml_inapplicable ml with [] => map fst (ml_none ml) | _ => _ end).
    destruct (w_reporter w1 rep (w_uncaught w1)); auto. unfold thrown. destruct ne; auto. cbn [lift liftm]. do 2 f_equal. same_world.
  - destruct (pick_best first others) as [[n m]|x| |u]; auto; [|unfold thrown; destruct ne; reflexivity].
    unfold react. cbn [w_reporter w_uncaught pre set_trace].
    destruct (w_reporter w1 (RFull (make_call_report c) m) (w_uncaught w1)); auto. cbn [liftm]. f_equal. same_world.
Qed.

Lemma count_call_pre d release w n ci ne : count_call release (pre d w) n ci ne = lift d (count_call release w n ci ne).
Proof.
  unfold count_call. change (w_exps (pre d w)) with (w_exps w). change (w_seqs (pre d w)) with (w_seqs w).
  destruct (nth_error (w_exps w) n) as [x|]; auto. destruct (negb (eo_alive x)); auto. cbv zeta.
  destruct (consume_with release (w_seqs w) (e_ctl (eo_exp x))) as [[ss ctl]|y| |u]; auto; [|unfold thrown; destruct ne; reflexivity].
  destruct (consume_asserts (e_policies (eo_exp x)) ci) as [[]|y| |u]; auto.
Qed.

Definition cpre (d : list event) (log : list (nat * nat * call_info)) (c : cworld) : cworld := mkC (pre d (cw c)) (c_threads c) (log ++ c_log c).
Definition clift (d : list event) (log : list (nat * nat * call_info)) (s : cstepped) : cstepped :=
  match s with CNext c r => CNext (cpre d log c) r | other => other end.

Lemma cstep_pre d log release c t a : cstep release (cpre d log c) t a = clift d log (cstep release c t a).
Proof.
  assert (E : forall l s, embed (cpre d log c) t (log ++ l) (lift d s) = clift d log (embed c t l s)) by (intros l s; destruct s; reflexivity).
  unfold cstep. cbn [c_threads cw cpre c_log]. destruct (nth_error (c_threads c) t) as [th|]; auto.
  change (enter (pre d (cw c)) th) with (pre d (enter (cw c) th)).
  destruct (t_pending th) as [[[n ci] ne]|], a as [o|m ov args l|]; auto.
  - rewrite count_call_pre, <- app_assoc. apply E.
  - destruct (is_call o); auto. rewrite step_pre. apply E.
  - rewrite find_overload_pre. destruct (find_overload (enter (cw c) th) m ov) as [s|[s coll]] eqn:Hf.
    + assert (Hs : s = lift d s).
      { clear - Hf. unfold find_overload in Hf. destruct (nth_error _ m) as [mk|]; [|injection Hf as <-; auto].
        destruct (negb _); [injection Hf as <-; auto|]. destruct (nth_error _ ov); [|injection Hf as <-; auto].
        destruct (mk_colls mk) as [cs|]; [|injection Hf as <-; auto]. destruct (nth_error cs ov); [discriminate|injection Hf as <-; auto]. }
      rewrite Hs at 1. apply E.
    + destruct (negb _); auto. cbv zeta. rewrite match_call_pre. destruct (match_call _ _ _ _) as [v n|s']; cbn [liftm]; [reflexivity|apply E].
Qed.

Lemma ending_pre d log release c t a : ending_of release (cpre d log c) t a = ending_of release c t a.
Proof.
  unfold ending_of. rewrite cstep_pre. destruct (cstep release c t a) as [c1 r| | |]; auto. cbn [clift]. f_equal. cbn [cw cpre w_trace pre set_trace].
  rewrite app_length, skipn_app, skipn_all2 by lia. cbn [app]. f_equal. lia.
Qed.

Lemma seen_pre d log release acts : forall c, seen release (cpre d log c) acts = seen release c acts.
Proof.
  induction acts as [|[t a] acts IH]; intros c; cbn [seen]; auto. rewrite ending_pre, cstep_pre. f_equal. destruct (cstep release c t a); cbn [clift]; auto.
Qed.

Lemma runs_pre d log release acts : forall c c', cruns release (cpre d log c) acts c' -> exists x, cruns release c acts x /\ c' = cpre d log x.
Proof.
  induction acts as [|[t a] acts IH]; intros c c' H; inversion H as [|? ? ? c1 r ? ? Hs Hr]; subst; [exists c; split; [constructor|reflexivity]|].
  rewrite cstep_pre in Hs. destruct (cstep release c t a) as [c2 r2| | |] eqn:E; cbn [clift] in Hs; try discriminate. injection Hs as <- <-.
  destruct (IH _ _ Hr) as (x & Hx & ->). exists x. split; auto. econstructor; eauto.
Qed.
Lemma runs_pre_back d log release c acts x : cruns release c acts x -> cruns release (cpre d log c) acts (cpre d log x).
Proof.
  induction 1 as [|c t a c1 r acts c2 Hs Hr IH]; [constructor|]. econstructor; [|exact IH]. rewrite cstep_pre, Hs. reflexivity.
Qed.

(** The same objects, without what happened. *)
Definition fresh (c : cworld) : cworld := mkC (set_trace (cw c) []) (c_threads c) [].
Lemma fresh_pre c : c = cpre (w_trace (cw c)) (c_log c) (fresh c).
Proof. destruct c as [[] ths log]. unfold cpre, fresh, pre. cbn. rewrite !app_nil_r. reflexivity. Qed.
Lemma fresh_same c c' : flat c -> flat c' -> same_objects c c' -> fresh c' = fresh c.
Proof.
  intros [F1 F2] [F3 F4] (H1 & H2 & H3 & H4 & H5 & H6 & H7 & H8 & H9 & H10). destruct c as [[] ? ?], c' as [[] ? ?]. unfold fresh. cbn in *. subst. reflexivity.
Qed.
Lemma pre_same d log d' log' x : same_objects (cpre d log x) (cpre d' log' x).
Proof. repeat split. Qed.

Lemma seen_app release c acts c1 later : cruns release c acts c1 -> seen release c (acts ++ later) = seen release c acts ++ seen release c1 later.
Proof. induction 1 as [c|c t a c2 r acts c3 Hs Hr IH]; auto. cbn [app seen]. rewrite Hs, IH. reflexivity. Qed.
Lemma seen_length release c acts c1 : cruns release c acts c1 -> length (seen release c acts) = length acts.
Proof. induction 1 as [c|c t a c2 r acts c3 Hs Hr IH]; auto. cbn [seen length]. rewrite Hs. f_equal. exact IH. Qed.
