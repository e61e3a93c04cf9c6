(** * PropHandle: ScopedExpectation::from (property C85). *)

From Verif Require Import Base Lib Sequence Control Signature Printer Reports Expectation Builder World WorldSpec
  SeqInv BuilderLemmas StepCases MatchLemmas WorldInv ObjInv BuildProofs CountProofs Scenario Handle.

(** Whatever happens after the declaration: a handle which owns the expectation gives the place of the declaration. *)
Theorem C85_from_is_the_declaration w0 m ov ms cls l w1 ops w2 h :
  reachable w0 -> step w0 (OExpect m ov ms cls l) = Next w1 RUnit -> run w1 ops w2 ->
  nth_error (w_scoped w2) h = Some (HOwns (length (w_exps w0))) -> scoped_from w2 h = Ret l.
Proof.
  intros Hr Hs R Hh. assert (Hr1 : reachable w1) by (eapply reachable_step; eauto).
  assert (O : OInv w2) by (apply oinv_reachable; eapply reachable_run; eauto).
  destruct (expect_next _ _ _ _ _ _ _ _ Hs) as (s & coll & _ & _ & _ & [(_ & _ & x & Hx & Hd & _)|(_ & H & _)]); [|discriminate].
  destruct (run_static _ _ _ (winv_reachable _ Hr1) R _ _ Hx) as (x' & Hx' & Hst).
  pose proof (as_declared_static _ _ _ _ _ _ _ Hd Hst) as (_ & _ & _ & _ & _ & El & _).
  destruct (oi_own _ O _ _ Hh) as (y & Hy & Ha). unfold scoped_from. rewrite Hh. unfold exp_at in *. rewrite Hx' in Hy. injection Hy as <-.
  rewrite Hx', Ha, El. reflexivity.
Qed.

(** It gives a place exactly for handles which own an expectation; a moved-from handle is a null pointer. *)
Theorem C85_when w h : reachable w ->
  ((exists l, scoped_from w h = Ret l) <-> exists e, nth_error (w_scoped w) h = Some (HOwns e)) /\
  (scoped_from w h = Undef UbNull <-> nth_error (w_scoped w) h = Some HEmpty).
Proof.
  intros Hr. pose proof (oinv_reachable _ Hr) as O. unfold scoped_from. destruct (nth_error (w_scoped w) h) as [[e| |]|] eqn:E.
  - destruct (oi_own _ O _ _ E) as (y & Hy & Ha). unfold exp_at in Hy. rewrite Hy, Ha. split; split; intros H; try discriminate; eauto.
  - split; split; intros H; auto; destruct H; discriminate.
  - split; split; intros H; try discriminate; destruct H; discriminate.
  - split; split; intros H; try discriminate; destruct H; discriminate.
Qed.

(** The place moves together with the expectation: the new handle has it, the old one is null. *)
Theorem C85_moves w h w' r l : step w (OMoveScoped h) = Next w' r -> scoped_from w h = Ret l ->
  scoped_from w' (length (w_scoped w)) = Ret l /\ scoped_from w' h = Undef UbNull.
Proof.
  intros H Hl. cbn [step] in H. unfold scoped_from in Hl. destruct (nth_error (w_scoped w) h) as [[e| |]|] eqn:E; try discriminate.
  injection H as <- _. pose proof (nth_error_lt _ _ _ E) as Hlt. unfold scoped_from, set_scoped. cbn [w_scoped w_exps]. split.
  - rewrite nth_error_app2, length_upd, Nat.sub_diag by (rewrite length_upd; lia). cbn [nth_error]. exact Hl.
  - rewrite nth_error_app1 by (rewrite length_upd; lia). rewrite nth_error_upd_eq by auto. reflexivity.
Qed.

(** A program: the declaration at [here], calls, and a move. *)
Definition moved : list op :=
  [OInstall (fun _ _ => Returns); ONewMock [sig_void]; OExpect 0 0 [] [] here; OExpect 0 0 [] [] there; OCall 0 0 [] there; OFinal; OReturn (UOk (VInt 0)); OMoveScoped 0].
Example moved_places : map (scoped_from (after moved)) [0; 1; 2; 3] = [Undef UbNull; Ret there; Ret here; Undef UbDangling] /\ here <> there.
Proof. split; [vm_compute; reflexivity|discriminate]. Qed.
Example moved_case : reachable (after (firstn 2 moved)) /\ step (after (firstn 2 moved)) (OExpect 0 0 [] [] here) = Next (after (firstn 3 moved)) RUnit /\
  run (after (firstn 3 moved)) (skipn 3 moved) (after moved) /\ nth_error (w_scoped (after moved)) 2 = Some (HOwns (length (w_exps (after (firstn 2 moved))))).
Proof.
  split; [apply after_reachable; vm_compute; reflexivity|]. split; [vm_compute; reflexivity|]. split; [|vm_compute; reflexivity].
  eapply (exec_run _ _ _ (skipn 3 (results moved))). vm_compute. reflexivity.
Qed.

Print Assumptions C85_from_is_the_declaration.
Print Assumptions C85_when.
Print Assumptions C85_moves.
