(** * PlayProofs: later observations of a program; reports already delivered have no influence on them. *)

From Verif Require Import Base Lib Sequence Control Signature Printer Reports Expectation Builder World WorldSpec CallSpec StepCases
  CountProofs IsolateProofs.

(** How a program ends that tries to execute a list of operations. *)
Inductive ending : Type :=
| Running               (* all operations executed *)
| Stopped               (* std::terminate *)
| Broken (u : ub)
| NoProgram.

(** Everything that can be observed from state [w] on: the result and the new events of each operation, and the ending. *)
Fixpoint play (w : world) (ops : list op) : list (result * list event) * ending :=
  match ops with
  | [] => ([], Running)
  | o :: ops' =>
      match step w o with
      | Next w' r =>
          let '(obs, e) := play w' ops' in ((r, skipn (length (w_trace w)) (w_trace w')) :: obs, e)
      | Stop => ([], Stopped)
      | Wrong u => ([], Broken u)
      | Invalid => ([], NoProgram)
      end
  end.

(** The world [w] with the events [d] before its history. *)
Definition pre (d : list event) (w : world) : world := set_trace w (d ++ w_trace w).
Definition lift (d : list event) (s : stepped) : stepped :=
  match s with
  | Next w r => Next (pre d w) r
  | other => other
  end.

Ltac same_world := apply world_ext; try reflexivity; 
  cbn [w_trace pre set_trace emit emit_report add_trace set_exps set_colls set_seqs set_frames set_sdead set_uncaught set_scoped];
  rewrite ?app_assoc; reflexivity.

Lemma pre_emit d w e : emit (pre d w) e = pre d (emit w e).
Proof. same_world. Qed.

Lemma release_seq_pre d w s : release_seq (pre d w) s = lift d (release_seq w s).
Proof.
  unfold release_seq. change (seq_in_use (pre d w) s) with (seq_in_use w s). change (w_sdead (pre d w)) with (w_sdead w).
  change (w_seqs (pre d w)) with (w_seqs w).
  destruct (seq_in_use w s || nth s (w_sdead w) true); auto. destruct (nth_error (w_seqs w) s) as [q|]; auto.
  destruct (seq_dtor_error q) as [[k n]|]; auto. unfold react. cbn [w_reporter w_uncaught set_sdead pre set_trace].
  destruct (w_reporter w (RError k n) (w_uncaught w)); auto. cbn [lift]. f_equal. same_world.
Qed.

Lemma release_seqs_pre d l : forall w, release_seqs (pre d w) l = lift d (release_seqs w l).
Proof.
  induction l as [|s l IH]; intros w; auto. cbn [release_seqs]. rewrite release_seq_pre.
  destruct (release_seq w s) as [w' r| |u|]; auto. cbn [lift]. apply IH.
Qed.

Lemma end_expectation_pre d w e : end_expectation (pre d w) e = lift d (end_expectation w e).
Proof.
  unfold end_expectation. change (w_exps (pre d w)) with (w_exps w). change (w_colls (pre d w)) with (w_colls w).
  change (w_seqs (pre d w)) with (w_seqs w).
  destruct (nth_error (w_exps w) e) as [eo|]; auto. destruct (nth_error (w_colls w) (eo_coll eo)) as [l|]; auto.
  destruct (existsb (Nat.eqb e) l); auto. cbn [negb].
  destruct (exp_is_satisfied (eo_exp eo)).
  - rewrite <- release_seqs_pre. reflexivity.
  - destruct (exp_report_of (w_seqs w) (eo_exp eo)) as [r|x| |u]; auto.
    + unfold react. cbn [w_reporter w_uncaught set_colls pre set_trace].
      destruct (w_reporter w (RUnfulfilled r) (w_uncaught w)); auto.
      * rewrite <- release_seqs_pre. f_equal. same_world.
      * match goal with |- match release_seqs ?a ?l0 with _ => _ end = lift d (match release_seqs ?b _ with _ => _ end) =>
          replace (release_seqs a l0) with (lift d (release_seqs b l0)) by (rewrite <- release_seqs_pre; f_equal; same_world);
          destruct (release_seqs b l0) as [w' r'| |u|] end; auto.
    + match goal with |- match release_seqs ?a ?l0 with _ => _ end = lift d (match release_seqs ?b _ with _ => _ end) =>
          replace (release_seqs a l0) with (lift d (release_seqs b l0)) by (rewrite <- release_seqs_pre; f_equal; same_world);
          destruct (release_seqs b l0) as [w' r'| |u|] end; auto.
Qed.

Lemma lookup_exps_pre d w l : lookup_exps (pre d w) l = lookup_exps w l.
Proof. apply lookup_exps_ext. reflexivity. Qed.

Lemma emit_unhandled_pre d c l : forall w, emit_unhandled (pre d w) c l = pre d (emit_unhandled w c l).
Proof.
  induction l as [|[n [r x]] l IH]; intros w; auto. cbn [emit_unhandled]. rewrite <- IH. f_equal. same_world.
Qed.

Lemma handle_call_pre d w coll c ne : handle_call (pre d w) coll c ne = lift d (handle_call w coll c ne).
Proof.
  unfold handle_call. change (w_colls (pre d w)) with (w_colls w). change (w_reporter (pre d w)) with (w_reporter w).
  change (w_uncaught (pre d w)) with (w_uncaught w). change (w_seqs (pre d w)) with (w_seqs w).
  destruct (nth_error (w_colls w) coll) as [l|]; auto. rewrite lookup_exps_pre. destruct (lookup_exps w (rev l)) as [es|]; auto.
  destruct (match_loop _ _ _ _ _ _) as [ml|x| |u]; auto; [|unfold thrown; destruct ne; reflexivity].
  rewrite emit_unhandled_pre. set (w1 := emit_unhandled w c (ml_unhandled ml)).
  destruct (ml_full ml) as [|first others].
  - unfold react. cbn [w_reporter w_uncaught pre set_trace].
    set (rep := match ml_inapplicable ml with [] => _ | _ => _ end). set (who := match ml_inapplicable ml with [] => map fst (ml_none ml) | _ => _ end).
    destruct (w_reporter w1 rep (w_uncaught w1)); auto. unfold thrown. destruct ne; auto. cbn [lift]. f_equal. same_world.
  - destruct (pick_best first others) as [[n m]|x| |u]; auto; [|unfold thrown; destruct ne; reflexivity].
    unfold react. cbn [w_reporter w_uncaught pre set_trace].
    destruct (w_reporter w1 (RFull (make_call_report c) m) (w_uncaught w1)); auto. cbn [w_exps w_seqs emit_report emit].
    change (w_exps (pre d w1)) with (w_exps w1). destruct (nth_error (w_exps w1) n) as [eo|]; auto.
    change (w_seqs (pre d w1)) with (w_seqs w1).
    destruct (control_consume (w_seqs w1) (e_ctl (eo_exp eo))) as [[ss ctl]|x| |u]; auto.
    + destruct (consume_asserts (e_policies (eo_exp eo)) c) as [[]|x| |u]; auto. cbn [lift]. f_equal. same_world.
    + unfold thrown. destruct ne; auto. cbn [lift]. f_equal. same_world.
Qed.

Lemma find_overload_pre d w m ov : find_overload (pre d w) m ov = find_overload w m ov.
Proof. reflexivity. Qed.

Lemma find_overload_inl w m ov s : find_overload w m ov = inl s -> s = Invalid \/ s = Wrong UbNull.
Proof.
  unfold find_overload. destruct (nth_error (w_mocks w) m) as [mk|]; [|intros H; inversion H; auto].
  destruct (negb (mk_alive mk)); [intros H; inversion H; auto|]. destruct (nth_error (mk_sigs mk) ov); [|intros H; inversion H; auto].
  destruct (mk_colls mk) as [cs|]; [|intros H; inversion H; auto]. destruct (nth_error cs ov); intros H; inversion H; auto.
Qed.

Lemma do_expect_pre d w m ov ms cls l : do_expect (pre d w) m ov ms cls l = lift d (do_expect w m ov ms cls l).
Proof.
  unfold do_expect. rewrite find_overload_pre. destruct (find_overload w m ov) as [s|[s coll]] eqn:Hf.
  - destruct (find_overload_inl _ _ _ _ Hf); subst; auto.
  - change (clause_ok (pre d w)) with (clause_ok w). destruct (negb _); auto.
    destruct (build s ms cls) as [b|x|]; auto; [|destruct (finalizable s cls); auto].
    destruct (negb (finalize_ok s b)); auto. change (w_seqs (pre d w)) with (w_seqs w).
    destruct (control_new (w_seqs w) (b_times b) (b_seqs b)) as [[ss ctl]|x| |u]; auto.
    change (w_colls (pre d w)) with (w_colls w). destruct (nth_error (w_colls w) coll); auto.
Qed.

Theorem step_pre d w o : step (pre d w) o = lift d (step w o).
Proof.
  destruct o; cbn [step].
  - reflexivity.
  - change (w_iface (pre d w)) with (w_iface w). destruct (nth s (w_iface w) false); auto. rewrite <- release_seq_pre. reflexivity.
  - destruct (_ && _); auto.
  - change (w_mocks (pre d w)) with (w_mocks w). destruct (nth_error (w_mocks w) m) as [mk|]; auto. destruct (mk_alive mk); auto.
  - change (w_mocks (pre d w)) with (w_mocks w).
    destruct (nth_error (w_mocks w) dst) as [md|]; auto. destruct (nth_error (w_mocks w) src) as [mk|]; auto.
    destruct (mk_alive md && mk_alive mk && _); auto. cbn [negb]. destruct (dst =? src); auto.
  - change (w_mocks (pre d w)) with (w_mocks w). destruct (nth_error (w_mocks w) m) as [mk|]; auto. destruct (mk_alive mk); auto.
  - apply do_expect_pre.
  - unfold do_call. rewrite find_overload_pre. destruct (find_overload w m ov) as [s|[s coll]] eqn:Hf.
    + destruct (find_overload_inl _ _ _ _ Hf); subst; auto.
    + destruct (negb _); auto. apply handle_call_pre.
  - unfold do_action. change (w_frames (pre d w)) with (w_frames w). destruct (w_frames w) as [|f fs]; auto. destruct (f_todo f); auto.
    change (exp_alive (pre d w)) with (exp_alive w). destruct (exp_alive w (f_exp f)); auto. cbn [negb lift]. f_equal. same_world.
  - change (w_frames (pre d w)) with (w_frames w). destruct (w_frames w) as [|f fs]; auto. destruct (f_started f && negb (f_final f)); auto.
  - unfold do_final. change (w_frames (pre d w)) with (w_frames w). destruct (w_frames w) as [|f fs]; auto. destruct (f_todo f); auto.
    destruct (f_final f); auto.
    change (exp_alive (pre d w)) with (exp_alive w). destruct (exp_alive w (f_exp f)); auto. cbn [negb lift]. f_equal. same_world.
  - unfold do_return. change (w_frames (pre d w)) with (w_frames w). destruct (w_frames w) as [|f fs]; auto. destruct (negb (f_final f)); auto.
    change (w_exps (pre d w)) with (w_exps w). destruct (nth_error (w_exps w) (f_exp f)) as [eo|]; auto.
    destruct (finalizer_result _ _); auto. unfold thrown. destruct (f_noexcept f); auto.
  - change (w_scoped (pre d w)) with (w_scoped w). change (w_exps (pre d w)) with (w_exps w).
    destruct (nth_error (w_scoped w) h) as [[e| |]|]; auto. destruct (nth_error (w_exps w) e) as [eo|]; auto. destruct (eo_alive eo); auto.
  - change (w_scoped (pre d w)) with (w_scoped w). destruct (nth_error (w_scoped w) h) as [[e| |]|]; auto.
    rewrite <- end_expectation_pre. reflexivity.
  - change (w_scoped (pre d w)) with (w_scoped w). destruct (nth_error (w_scoped w) h) as [[e| |]|]; auto.
  - change (w_scoped (pre d w)) with (w_scoped w).
    destruct (nth_error (w_scoped w) dst) as [[e| |]|]; destruct (nth_error (w_scoped w) src) as [[e'| |]|]; auto;
      destruct (dst =? src); auto;
      match goal with |- match end_expectation (set_scoped (pre d w) ?l) e with _ => _ end = _ =>
        change (set_scoped (pre d w) l) with (pre d (set_scoped w l)) end;
      rewrite end_expectation_pre; destruct (end_expectation _ e) as [w' [| | |]| | |]; auto.
  - cbn [lift]. f_equal. same_world.
  - reflexivity.
Qed.

Lemma skipn_app_add {A} (d l l' : list A) : skipn (length (d ++ l)) (d ++ l') = skipn (length l) l'.
Proof. rewrite app_length. induction d as [|a d IH]; auto. Qed.

Theorem play_pre d ops : forall w, play (pre d w) ops = play w ops.
Proof.
  induction ops as [|o ops IH]; intros w; auto. cbn [play]. rewrite step_pre. destruct (step w o) as [w' r| |u|]; auto.
  cbn [lift]. rewrite IH. destruct (play w' ops) as [obs e]. unfold pre, set_trace. cbn [w_trace]. rewrite skipn_app_add. reflexivity.
Qed.

Lemma play_only_reports w evs ops : play (only_reports w evs) ops = play w ops.
Proof.
  replace (only_reports w evs) with (pre (w_trace w ++ evs) (set_trace w [])).
  - rewrite play_pre. replace w with (pre (w_trace w) (set_trace w [])) at 2; [rewrite play_pre; auto|].
    apply world_ext; try reflexivity. cbn. apply app_nil_r.
  - apply world_ext; try reflexivity. cbn. apply app_nil_r.
Qed.
