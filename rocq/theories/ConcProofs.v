(** * ConcProofs: threads and single-threaded programs. *)

From Verif Require Import Base Lib Sequence Control Signature Printer Reports Expectation Builder World WorldSpec CallSpec
  SeqInv BuildSpec BuilderLemmas StepCases MatchLemmas WorldInv ObjInv CallProofs BuildProofs CountProofs IsolateProofs PlayProofs History FrameSpec Conc ConcSpec.

(** ** A call is its two steps *)

Lemma handle_call_split w coll c ne :
  handle_call w coll c ne = 
  match match_call w coll c ne with
  | MOver s => s
  | MChosen w' n => 
      match nth_error (w_exps w') n with
      | Some eo => if eo_alive eo then count_call false w' n c ne else handle_call w coll c ne
      | None => Wrong UbDangling
      end
  end.
Proof.
  unfold match_call. destruct (nth_error (w_colls w) coll) as [l|] eqn:Hl; [|unfold handle_call; rewrite Hl; reflexivity].
  destruct (lookup_exps w (rev l)) as [es|] eqn:Hes; [|unfold handle_call; rewrite Hl, Hes; reflexivity].
  destruct (match_loop _ _ _ _ _ _) as [ml|x| |u] eqn:Hml; try (unfold handle_call; rewrite Hl, Hes, Hml; reflexivity).
  destruct (ml_full ml) as [|first others] eqn:Hf.
  - unfold handle_call. rewrite Hl, Hes, Hml, Hf. destruct (react _ _); reflexivity.
  - destruct (pick_best first others) as [[n m]|x| |u] eqn:Hp; try (unfold handle_call; rewrite Hl, Hes, Hml, Hf, Hp; reflexivity).
    destruct (react (emit_unhandled w c (ml_unhandled ml)) (RFull (make_call_report c) m)) eqn:Hre;
      try (unfold handle_call; rewrite Hl, Hes, Hml, Hf, Hp, Hre; reflexivity).
    destruct (nth_error (w_exps (emit_report (emit_unhandled w c (ml_unhandled ml)) (RFull (make_call_report c) m) [n])) n) as [eo|] eqn:He;
      [|unfold handle_call; rewrite Hl, Hes, Hml, Hf, Hp, Hre, He; reflexivity].
    destruct (eo_alive eo) eqn:Ha; [|reflexivity].
    unfold handle_call. rewrite Hl, Hes, Hml, Hf, Hp, Hre, He. unfold count_call. rewrite He, Ha. reflexivity.
Qed.

(** ** The stack of calls below has no influence *)

Definition und (fs : list frame) (w : world) : world := set_frames w (w_frames w ++ fs).
Definition liftf (fs : list frame) (s : stepped) : stepped :=
  match s with
  | Next w r => Next (und fs w) r
  | other => other
  end.

Ltac same_world_f := apply world_ext; try reflexivity;
  cbn [w_frames und emit emit_report add_trace set_exps set_colls set_seqs set_frames set_sdead set_uncaught set_scoped];
  rewrite ?app_assoc; reflexivity.

Lemma release_seq_und fs w s : release_seq (und fs w) s = liftf fs (release_seq w s).
Proof.
  unfold release_seq. change (seq_in_use (und fs w) s) with (seq_in_use w s). change (w_sdead (und fs w)) with (w_sdead w).
  change (w_seqs (und fs w)) with (w_seqs w).
  destruct (seq_in_use w s || nth s (w_sdead w) true); auto. destruct (nth_error (w_seqs w) s) as [q|]; auto.
  destruct (seq_dtor_error q) as [[k n]|]; auto. unfold react. cbn [w_reporter w_uncaught set_sdead und set_frames].
  destruct (w_reporter w (RError k n) (w_uncaught w)); auto; first [reflexivity | cbn [liftf]; f_equal; same_world_f].
Qed.

Lemma release_seqs_und fs l : forall w, release_seqs (und fs w) l = liftf fs (release_seqs w l).
Proof.
  induction l as [|s l IH]; intros w; auto. cbn [release_seqs]. rewrite release_seq_und.
  destruct (release_seq w s) as [w' r| |u|]; auto. cbn [liftf]. apply IH.
Qed.

Lemma end_expectation_und fs w e : end_expectation (und fs w) e = liftf fs (end_expectation w e).
Proof.
  unfold end_expectation. change (w_exps (und fs w)) with (w_exps w). change (w_colls (und fs w)) with (w_colls w).
  change (w_seqs (und fs w)) with (w_seqs w).
  destruct (nth_error (w_exps w) e) as [eo|]; auto. destruct (nth_error (w_colls w) (eo_coll eo)) as [l|]; auto.
  destruct (existsb (Nat.eqb e) l); auto. cbn [negb].
  destruct (exp_is_satisfied (eo_exp eo)).
  - rewrite <- release_seqs_und. reflexivity.
  - destruct (exp_report_of (w_seqs w) (eo_exp eo)) as [r|x| |u]; auto.
    + unfold react. cbn [w_reporter w_uncaught set_colls und set_frames].
      destruct (w_reporter w (RUnfulfilled r) (w_uncaught w)); auto.
      * rewrite <- release_seqs_und. first [reflexivity | f_equal; same_world_f].
      * match goal with |- match release_seqs ?a ?l0 with _ => _ end = liftf fs (match release_seqs ?b _ with _ => _ end) =>
          replace (release_seqs a l0) with (liftf fs (release_seqs b l0)) by (rewrite <- release_seqs_und; first [reflexivity | f_equal; same_world_f]);
          destruct (release_seqs b l0) as [w' r'| |u|] end; auto.
    + match goal with |- match release_seqs ?a ?l0 with _ => _ end = liftf fs (match release_seqs ?b _ with _ => _ end) =>
          replace (release_seqs a l0) with (liftf fs (release_seqs b l0)) by (rewrite <- release_seqs_und; first [reflexivity | f_equal; same_world_f]);
          destruct (release_seqs b l0) as [w' r'| |u|] end; auto.
Qed.

Lemma lookup_exps_und fs w l : lookup_exps (und fs w) l = lookup_exps w l.
Proof. apply lookup_exps_ext. reflexivity. Qed.

Lemma emit_unhandled_und fs c l : forall w, emit_unhandled (und fs w) c l = und fs (emit_unhandled w c l).
Proof.
  induction l as [|[n [r x]] l IH]; intros w; auto. cbn [emit_unhandled]. rewrite <- IH. first [reflexivity | f_equal; same_world_f].
Qed.

Lemma handle_call_und fs w coll c ne : handle_call (und fs w) coll c ne = liftf fs (handle_call w coll c ne).
Proof.
  unfold handle_call. change (w_colls (und fs w)) with (w_colls w). change (w_reporter (und fs w)) with (w_reporter w).
  change (w_uncaught (und fs w)) with (w_uncaught w). change (w_seqs (und fs w)) with (w_seqs w).
  destruct (nth_error (w_colls w) coll) as [l|]; auto. rewrite lookup_exps_und. destruct (lookup_exps w (rev l)) as [es|]; auto.
  destruct (match_loop _ _ _ _ _ _) as [ml|x| |u]; auto; [|unfold thrown; destruct ne; reflexivity].
  rewrite emit_unhandled_und. set (w1 := emit_unhandled w c (ml_unhandled ml)).
  destruct (ml_full ml) as [|first others].
  - unfold react. cbn [w_reporter w_uncaught und set_frames].
    set (rep := match ml_inapplicable ml with [] => _ | _ => _ end). set (who := match ml_inapplicable ml with [] => map fst (ml_none ml) | _ => _ end).
    destruct (w_reporter w1 rep (w_uncaught w1)); auto. unfold thrown. destruct ne; auto; first [reflexivity | cbn [liftf]; f_equal; same_world_f].
  - destruct (pick_best first others) as [[n m]|x| |u]; auto; [|unfold thrown; destruct ne; reflexivity].
    unfold react. cbn [w_reporter w_uncaught und set_frames].
    destruct (w_reporter w1 (RFull (make_call_report c) m) (w_uncaught w1)); auto. cbn [w_exps w_seqs emit_report emit].
    change (w_exps (und fs w1)) with (w_exps w1). destruct (nth_error (w_exps w1) n) as [eo|]; auto.
    change (w_seqs (und fs w1)) with (w_seqs w1).
    destruct (control_consume (w_seqs w1) (e_ctl (eo_exp eo))) as [[ss ctl]|x| |u]; auto.
    + destruct (consume_asserts (e_policies (eo_exp eo)) c) as [[]|x| |u]; auto; first [reflexivity | cbn [liftf]; f_equal; same_world_f].
    + unfold thrown. destruct ne; auto; first [reflexivity | cbn [liftf]; f_equal; same_world_f].
Qed.

Lemma find_overload_und fs w m ov : find_overload (und fs w) m ov = find_overload w m ov.
Proof. reflexivity. Qed.

Lemma do_expect_und fs w m ov ms cls l : do_expect (und fs w) m ov ms cls l = liftf fs (do_expect w m ov ms cls l).
Proof.
  unfold do_expect. rewrite find_overload_und. destruct (find_overload w m ov) as [s|[s coll]] eqn:Hf.
  - destruct (find_overload_inl _ _ _ _ Hf); subst; auto.
  - change (clause_ok (und fs w)) with (clause_ok w). destruct (negb _); auto.
    destruct (build s ms cls) as [b|x|]; auto; [|destruct (finalizable s cls); auto].
    destruct (negb (finalize_ok s b)); auto. change (w_seqs (und fs w)) with (w_seqs w).
    destruct (control_new (w_seqs w) (b_times b) (b_seqs b)) as [[ss ctl]|x| |u]; auto.
    change (w_colls (und fs w)) with (w_colls w). destruct (nth_error (w_colls w) coll); auto.
Qed.

Definition frame_op (o : op) : bool := match o with OAction | OActionThrows _ | OFinal | OReturn _ => true | _ => false end.

Theorem step_und fs w o : frame_op o = false -> step (und fs w) o = liftf fs (step w o).
Proof.
  intros Ho. destruct o; cbn [step]; try discriminate.
  - reflexivity.
  - change (w_iface (und fs w)) with (w_iface w). destruct (nth s (w_iface w) false); auto. rewrite <- release_seq_und. reflexivity.
  - destruct (_ && _); auto.
  - change (w_mocks (und fs w)) with (w_mocks w). destruct (nth_error (w_mocks w) m) as [mk|]; auto. destruct (mk_alive mk); auto.
  - change (w_mocks (und fs w)) with (w_mocks w).
    destruct (nth_error (w_mocks w) dst) as [md|]; auto. destruct (nth_error (w_mocks w) src) as [mk|]; auto.
    destruct (mk_alive md && mk_alive mk && _); auto. cbn [negb]. destruct (dst =? src); auto.
  - change (w_mocks (und fs w)) with (w_mocks w). destruct (nth_error (w_mocks w) m) as [mk|]; auto. destruct (mk_alive mk); auto.
  - apply do_expect_und.
  - unfold do_call. rewrite find_overload_und. destruct (find_overload w m ov) as [s|[s coll]] eqn:Hf.
    + destruct (find_overload_inl _ _ _ _ Hf); subst; auto.
    + destruct (negb _); auto. apply handle_call_und.
  - change (w_scoped (und fs w)) with (w_scoped w). change (w_exps (und fs w)) with (w_exps w).
    destruct (nth_error (w_scoped w) h) as [[e| |]|]; auto. destruct (nth_error (w_exps w) e) as [eo|]; auto. destruct (eo_alive eo); auto.
  - change (w_scoped (und fs w)) with (w_scoped w). destruct (nth_error (w_scoped w) h) as [[e| |]|]; auto.
    rewrite <- end_expectation_und. reflexivity.
  - change (w_scoped (und fs w)) with (w_scoped w). destruct (nth_error (w_scoped w) h) as [[e| |]|]; auto.
  - change (w_scoped (und fs w)) with (w_scoped w).
    destruct (nth_error (w_scoped w) dst) as [[e| |]|]; destruct (nth_error (w_scoped w) src) as [[e'| |]|]; auto;
      destruct (dst =? src); auto;
      match goal with |- match end_expectation (set_scoped (und fs w) ?l) e with _ => _ end = _ =>
        change (set_scoped (und fs w) l) with (und fs (set_scoped w l)) end;
      rewrite end_expectation_und; destruct (end_expectation _ e) as [w' [| | |]| | |]; auto.
  - reflexivity.
  - reflexivity.
Qed.

(** ** Worlds that differ in running calls and history only *)

Definition core (w : world) : world := set_trace (set_uncaught (set_frames w []) 0) [].

Lemma as_view w : w = pre (w_trace w) (und (w_frames w) (set_uncaught (core w) (w_uncaught w))).
Proof.
  apply world_ext; try reflexivity. cbn [w_trace pre set_trace und set_frames set_uncaught core]. rewrite app_nil_r. reflexivity.
Qed.

Lemma core_pre d w : core (pre d w) = core w.
Proof. reflexivity. Qed.
Lemma core_und fs w : core (und fs w) = core w.
Proof. reflexivity. Qed.

Lemma core_step w w' o w1 r : core w = core w' -> w_uncaught w = w_uncaught w' -> frame_op o = false -> step w o = Next w1 r ->
  exists w1' evs, step w' o = Next w1' r /\ core w1' = core w1 /\ w_trace w1 = w_trace w ++ evs /\ w_trace w1' = w_trace w' ++ evs /\
    w_uncaught w1' = w_uncaught w1.
Proof.
  intros Hc Hu Ho H.
  assert (Hv : forall w, step w o = lift (w_trace w) (liftf (w_frames w) (step (set_uncaught (core w) (w_uncaught w)) o))).
  { intros v. rewrite (as_view v) at 1. rewrite step_pre, step_und by auto. reflexivity. }
  rewrite (Hv w) in H. rewrite (Hv w'), <- Hc, <- Hu.
  destruct (step (set_uncaught (core w) (w_uncaught w)) o) as [v r0| | |]; cbn [lift liftf] in *; try discriminate.
  injection H as <- <-. exists (pre (w_trace w') (und (w_frames w') v)), (w_trace v).
  split; [reflexivity|]. split; [reflexivity|]. split; [reflexivity|]. split; reflexivity.
Qed.

Lemma frame_op_core w o w' r : frame_op o = true -> step w o = Next w' r ->
  core w' = core w /\ reports_in (w_trace w') = reports_in (w_trace w).
Proof.
  intros Ho H. destruct o; try discriminate; cbn [step] in H.
  - unfold do_action in H. destruct (w_frames w) as [|f fs]; [discriminate|]. destruct (f_todo f) as [|a todo]; [discriminate|].
    destruct (negb _); [discriminate|]. injection H as <- <-. split; [reflexivity|].
    cbn [w_trace set_frames emit]. unfold reports_in. rewrite filter_app. cbn. apply app_nil_r.
  - destruct (w_frames w) as [|f fs]; [discriminate|]. destruct (_ && _); discriminate.
  - unfold do_final in H. destruct (w_frames w) as [|f fs]; [discriminate|]. destruct (f_todo f) as [|a todo]; [|discriminate].
    destruct (f_final f); [discriminate|]. destruct (negb _); [discriminate|]. injection H as <- <-. split; [reflexivity|].
    cbn [w_trace set_frames emit]. unfold reports_in. rewrite filter_app. cbn. apply app_nil_r.
  - unfold do_return in H. destruct (w_frames w) as [|f fs]; [discriminate|]. destruct (negb _); [discriminate|].
    destruct (nth_error (w_exps w) (f_exp f)) as [eo|]; [|discriminate].
    destruct (finalizer_result _ _) as [v|x]; [injection H as <- <-; split; reflexivity|].
    unfold thrown in H. destruct (f_noexcept f); [discriminate|]. injection H as <- <-. split; reflexivity.
Qed.

(** ** Without asserts *)

Lemma for_each_seq_weaken f g : (forall q id q', f q id = Ret q' -> g q id = Ret q') ->
  forall entries ss ss', for_each_seq f ss entries = Ret ss' -> for_each_seq g ss entries = Ret ss'.
Proof.
  intros Hfg. induction entries as [|[s id] rest IH]; intros ss ss' H; cbn [for_each_seq] in *; auto.
  unfold with_seq in *. destruct (nth_error ss s) as [q|]; [|discriminate].
  destruct (f q id) as [q'| | |] eqn:Hf; cbn [obind] in H; try discriminate. rewrite (Hfg _ _ _ Hf). cbn [obind]. auto.
Qed.

Lemma consume_nd_same ss c r : control_consume ss c = Ret r -> control_consume_nd ss c = Ret r.
Proof.
  unfold control_consume, control_consume_nd. unfold assert_ at 1. destruct (control_is_applicable ss c); [|discriminate]. intros H.
  destruct (for_each_seq seq_consume ss (c_seqs c)) as [ss1| | |] eqn:H1; cbn [obind] in H; try discriminate.
  rewrite (for_each_seq_weaken seq_consume seq_consume_nd) with (ss' := ss1); auto.
  2:{ intros q id q'. unfold seq_consume, assert_. destruct (seq_is_valid q id), (seq_is_consumable q id); try discriminate. auto. }
  cbn [obind]. destruct (c_count c =? INT_MAX)%Z; [discriminate|].
  unfold control_update, control_update_nd in *. cbn [c_count c_min c_max c_seqs] in *.
  destruct (c_count c + 1 =? c_min c)%Z.
  - destruct (for_each_seq seq_set_satisfied ss1 (c_seqs c)) as [ss2| | |] eqn:H2; cbn [obind] in H; try discriminate.
    rewrite (for_each_seq_weaken seq_set_satisfied (seq_set_nd Satisfied)) with (ss' := ss2); auto.
    intros q id q'. unfold seq_set_satisfied, seq_set_nd, assert_. destruct (seq_is_valid q id), (s_cursor q <=? id); try discriminate.
    destruct (nth_error (s_entries q) id) as [[]|]; try discriminate; auto.
  - destruct (c_count c + 1 =? c_max c)%Z; auto.
    destruct (for_each_seq seq_set_saturated ss1 (c_seqs c)) as [ss2| | |] eqn:H2; cbn [obind] in H; try discriminate.
    rewrite (for_each_seq_weaken seq_set_saturated (seq_set_nd Saturated)) with (ss' := ss2); auto.
    intros q id q'. unfold seq_set_saturated, seq_set_nd, assert_. destruct (seq_is_valid q id), (s_cursor q <=? id); try discriminate.
    destruct (nth_error (s_entries q) id) as [[]|]; try discriminate; auto.
Qed.

(** ** The chosen expectation *)

Lemma emit_unhandled_core c l : forall w, core (emit_unhandled w c l) = core w /\ w_uncaught (emit_unhandled w c l) = w_uncaught w.
Proof. induction l as [|[n [r x]] l IH]; intros w; auto. cbn [emit_unhandled]. rewrite !(proj1 (IH _)), (proj2 (IH _)). split; reflexivity. Qed.

Lemma match_chosen w coll c ne w' n : match_call w coll c ne = MChosen w' n ->
  core w' = core w /\ exists x, exp_at w n x /\ accepts (eo_exp x) c /\ 
    exists st, control_state_of (w_seqs w) (ctl_of x) = Ret st /\ match st with StApplicable _ _ _ _ => True | _ => False end.
Proof.
  unfold match_call. intros H.
  destruct (nth_error (w_colls w) coll) as [l|]; [|discriminate].
  destruct (lookup_exps w (rev l)) as [es|] eqn:Hes; [|discriminate].
  destruct (match_loop _ _ _ _ _ _) as [ml|x| |u] eqn:Hml; try discriminate.
  destruct (ml_full ml) as [|first others] eqn:Hf; [destruct (react _ _); discriminate|].
  destruct (pick_best first others) as [[k m]|x| |u] eqn:Hp; try discriminate.
  destruct (react _ _); try discriminate. injection H as <- <-.
  split.
  { destruct (emit_unhandled_core c (ml_unhandled ml) w) as [E _]. rewrite <- E. reflexivity. }
  apply pick_best_in in Hp. rewrite <- Hf in Hp. destruct (match_loop_ret _ _ _ _ _ _ _ Hml) as (_ & Hfull & _).
  cbn [ml_full app] in Hfull. rewrite Hfull in Hp. apply sel_in in Hp. destruct Hp as (e & Hin & Ha & Hev).
  destruct (lookup_exps_spec _ _ _ Hes) as [_ Hes']. destruct (Hes' _ _ Hin) as (x & Hx & ->).
  exists x. split; auto. unfold att, make_match_report in Ha. destruct (exp_matches (w_seqs w) (eo_exp x) c) as [m'|y| |u] eqn:Hm.
  2:{ destruct (exp_report_of _ _) as [rr| | |]; cbn in Ha; try discriminate. destruct (w_reporter w _ _); cbn in Ha; discriminate. }
  2,3: cbn in Ha; discriminate.
  cbn [noexcept_of] in Ha. injection Ha as ->. unfold exp_matches in Hm.
  destruct (control_state_of (w_seqs w) (e_ctl (eo_exp x))) as [st| | |] eqn:Hst; cbn [obind] in Hm; try discriminate.
  destruct (omap (policy_report_of c) (e_policies (eo_exp x))) as [rs| | |] eqn:Hr; cbn [obind] in Hm; try discriminate.
  injection Hm as <-. unfold evaluate_match_report in Hev. cbn [mr_policies mr_state] in Hev.
  destruct (forallb pr_matching rs) eqn:Hall; cbn [negb] in Hev; [|discriminate]. split.
  - split; [apply clean_reports; eauto|]. apply (reports_matching c _ rs); auto. apply omap_ret_inv; auto.
  - exists st. split; auto. destruct st; auto; discriminate.
Qed.

Lemma core_fields w w' : core w = core w' ->
  w_seqs w = w_seqs w' /\ w_iface w = w_iface w' /\ w_sdead w = w_sdead w' /\ w_exps w = w_exps w' /\ w_colls w = w_colls w' /\
  w_mocks w = w_mocks w' /\ w_scoped w = w_scoped w' /\ w_rid w = w_rid w' /\ w_reporter w = w_reporter w'.
Proof. intros H. injection H. intros. repeat split; auto. Qed.

Lemma fields_core w w' : 
  w_seqs w = w_seqs w' -> w_iface w = w_iface w' -> w_sdead w = w_sdead w' -> w_exps w = w_exps w' -> w_colls w = w_colls w' ->
  w_mocks w = w_mocks w' -> w_scoped w = w_scoped w' -> w_rid w = w_rid w' -> w_reporter w = w_reporter w' -> core w = core w'.
Proof. intros. apply world_ext; auto. Qed.

Lemma agrees_core w c : agrees w c <-> core w = core (cw c) /\ reports_in (w_trace w) = reports_in (w_trace (cw c)).
Proof.
  unfold agrees. split.
  - intros (H1 & H2 & H3 & H4 & H5 & H6 & H7 & H8 & H9 & H10). split; auto. apply fields_core; auto.
  - intros [H1 H2]. destruct (core_fields _ _ H1) as (H1' & H2' & H3' & H4' & H5' & H6' & H7' & H8' & H9'). repeat split; auto.
Qed.

Lemma reenter w : enter (set_uncaught (set_frames w []) 0) (mkThread (w_frames w) (w_uncaught w) None) = w.
Proof. apply world_ext; reflexivity. Qed.

Lemma count_release w n c ne coll c0 w0 ne0 release : SInv (w_seqs w0) (ctls w0) -> match_call w0 coll c0 ne0 = MChosen w n ->
  count_call release w n c ne = count_call false w n c ne.
Proof.
  intros I H. destruct release; auto. destruct (match_chosen _ _ _ _ _ _ H) as (Hc & x & Hx & _ & st & Hst & Hs).
  destruct (core_fields _ _ Hc) as (Hss & _ & _ & Hex & _). unfold count_call, consume_with. rewrite Hex, Hss.
  unfold exp_at in Hx. rewrite Hx. destruct (eo_alive x); auto. cbn [negb].
  assert (Hcx : nth_error (ctls w0) n = Some (ctl_of x)) by (unfold ctls; erewrite map_nth_error; eauto).
  rewrite (control_state_ok _ _ _ _ I Hcx) in Hst. injection Hst as <-.
  destruct (c_count (ctl_of x) =? c_max (ctl_of x))%Z; [contradiction|].
  destruct (control_is_applicable (w_seqs w0) (ctl_of x)) eqn:Happ; [|contradiction].
  destruct (control_consume_ok _ _ _ _ I Hcx Happ) as (ss' & Hss' & _). fold (ctl_of x). rewrite Hss', (consume_nd_same _ _ _ Hss').
  reflexivity.
Qed.

(** ** Serialised executions *)

Lemma core_enter w th : core (enter w th) = core w.
Proof. reflexivity. Qed.
Lemma core_leave c t w p log : core (cw (leave c t w p log)) = core w.
Proof. reflexivity. Qed.

Lemma leave_thread c t w p log th : nth_error (c_threads c) t = Some th ->
  nth_error (c_threads (leave c t w p log)) t = Some (mkThread (w_frames w) (w_uncaught w) p).
Proof. intros H. cbn [c_threads leave]. rewrite nth_error_upd_eq; auto. eapply nth_error_lt; eauto. Qed.

Lemma accepted_reports tr e : accepted (reports_in tr) e = accepted tr e.
Proof.
  unfold accepted, reports_in. induction tr as [|ev tr IH]; auto. cbn [filter]. destruct ev as [rid [] who| | |]; cbn [is_effect negb filter is_accept]; auto.
  destruct (list_eq_dec Nat.eq_dec who [e]); cbn [length]; auto.
Qed.

Lemma reports_in_app a b : reports_in (a ++ b) = reports_in a ++ reports_in b.
Proof. apply filter_app. Qed.

Lemma sim_op release w c t o c' r : agrees w c -> cstep release c t (AOp o) = CNext c' r ->
  (exists th w', nth_error (c_threads c) t = Some th /\ agrees w' c' /\ c_log c' = c_log c /\
     ((frame_op o = true /\ w' = w) \/ step (set_uncaught w (t_uncaught th)) o = Next w' r)) /\ is_call o = false.
Proof.
  intros Ha H. apply agrees_core in Ha. destruct Ha as [Hc Ht]. unfold cstep in H.
  destruct (nth_error (c_threads c) t) as [th|]; [|discriminate]. destruct (t_pending th) as [[[n ci] ne]|]; [discriminate|].
  destruct (is_call o) eqn:Ho; [discriminate|]. split; auto. exists th.
  destruct (step (enter (cw c) th) o) as [v r0| | |] eqn:Hs; cbn [embed] in H; try discriminate. injection H as <- <-.
  destruct (frame_op o) eqn:Hfo.
  - exists w. split; auto. destruct (frame_op_core _ _ _ _ Hfo Hs) as [Hcv Htv]. split; [|auto].
    apply agrees_core. rewrite core_leave, Hcv. split; auto. cbn [cw leave w_trace set_uncaught set_frames]. rewrite Htv. exact Ht.
  - destruct (core_step (enter (cw c) th) (set_uncaught w (t_uncaught th)) o v r0) as (v' & evs & Hs' & Hc' & Htv & Htv' & _); auto.
    exists v'. split; auto. split; [|split; auto].
    apply agrees_core. rewrite core_leave. split; auto. cbn [cw leave w_trace set_uncaught set_frames]. rewrite Htv, Htv', !reports_in_app.
    cbn [w_trace enter set_uncaught set_frames]. rewrite Ht. reflexivity.
Qed.

(** The first step of a call, as seen by its thread. *)
Lemma cstep_match release c t m ov args l c' r : cstep release c t (AMatch m ov args l) = CNext c' r ->
  exists th s coll, nth_error (c_threads c) t = Some th /\ t_pending th = None /\ find_overload (enter (cw c) th) m ov = inr (s, coll) /\
    length args = length (sg_params s) /\
    ((exists w' n, match_call (enter (cw c) th) coll (call_of s args l) (frontend_noexcept s) = MChosen w' n /\ r = RUnit /\
        c' = leave c t w' (Some (n, call_of s args l, frontend_noexcept s)) (c_log c)) \/
     (exists w', match_call (enter (cw c) th) coll (call_of s args l) (frontend_noexcept s) = MOver (Next w' r) /\
        c' = leave c t w' None (c_log c))).
Proof.
  unfold cstep. intros H. destruct (nth_error (c_threads c) t) as [th|] eqn:Hth; [|discriminate].
  destruct (t_pending th) as [[[n ci] ne]|] eqn:Hp; [discriminate|]. destruct (find_overload _ m ov) as [s|[s coll]] eqn:Hf.
  - destruct (find_overload_inl _ _ _ _ Hf); subst s; discriminate.
  - destruct (length args =? length (sg_params s)) eqn:Hl; cbn [negb] in H; [|discriminate]. apply Nat.eqb_eq in Hl.
    exists th, s, coll. repeat split; auto. fold (call_of s args l) in H.
    destruct (match_call _ coll (call_of s args l) (frontend_noexcept s)) as [w' n|sm] eqn:Hm.
    + left. injection H as <- <-. exists w', n. auto.
    + right. destruct sm as [w' r0| | |]; cbn [embed] in H; try discriminate. injection H as <- <-. exists w'. auto.
Qed.

Lemma over_throws w coll c ne w' r : match_call w coll c ne = MOver (Next w' r) -> exists x, r = RThrow x.
Proof.
  unfold match_call. intros H.
  destruct (nth_error (w_colls w) coll) as [l|]; [|discriminate].
  destruct (lookup_exps w (rev l)) as [es|]; [|discriminate].
  destruct (match_loop _ _ _ _ _ _) as [ml|x| |u]; try discriminate.
  - destruct (ml_full ml) as [|first others].
    + destruct (react _ _); try discriminate. unfold thrown in H. destruct ne; [discriminate|]. injection H as <- <-. eauto.
    + destruct (pick_best first others) as [[k m]|x| |u]; try discriminate.
      * destruct (react _ _); discriminate.
      * unfold thrown in H. destruct ne; [discriminate|]. injection H as <- <-. eauto.
  - unfold thrown in H. destruct ne; [discriminate|]. injection H as <- <-. eauto.
Qed.

Lemma step_call w m ov args l s coll : find_overload w m ov = inr (s, coll) -> length args = length (sg_params s) ->
  step w (OCall m ov args l) = handle_call w coll (call_of s args l) (frontend_noexcept s).
Proof. intros Hf Hl. cbn [step]. unfold do_call. rewrite Hf, Hl, Nat.eqb_refl. reflexivity. Qed.

Lemma sim_failed release w c t m ov args l c' x : agrees w c -> cstep release c t (AMatch m ov args l) = CNext c' (RThrow x) ->
  exists th w', nth_error (c_threads c) t = Some th /\ agrees w' c' /\ c_log c' = c_log c /\
    step (set_uncaught w (t_uncaught th)) (OCall m ov args l) = Next w' (RThrow x).
Proof.
  intros Ha H. apply agrees_core in Ha. destruct Ha as [Hc Ht]. apply cstep_match in H.
  destruct H as (th & s & coll & Hth & _ & Hf & Hl & [(w1 & n & _ & E & _)|(w1 & Hm & ->)]); [discriminate|].
  assert (Hs : step (enter (cw c) th) (OCall m ov args l) = Next w1 (RThrow x)).
  { rewrite (step_call _ _ _ _ _ _ _ Hf Hl), handle_call_split, Hm. reflexivity. }
  destruct (core_step (enter (cw c) th) (set_uncaught w (t_uncaught th)) (OCall m ov args l) w1 (RThrow x)) as (v' & evs & Hs' & Hc' & Htv & Htv' & _); auto.
  exists th, v'. split; auto. split; [|split; auto].
  apply agrees_core. rewrite core_leave. split; auto. cbn [cw leave w_trace set_uncaught set_frames]. rewrite Htv, Htv', !reports_in_app.
  cbn [w_trace enter set_uncaught set_frames]. rewrite Ht. reflexivity.
Qed.

Lemma find_overload_core w w' m ov : core w = core w' -> find_overload w m ov = find_overload w' m ov.
Proof. intros H. destruct (core_fields _ _ H) as (_ & _ & _ & _ & _ & Hm & _). unfold find_overload. rewrite Hm. reflexivity. Qed.

Lemma sim_call release w c t m ov args l c1 r c2 r' : reachable w -> agrees w c ->
  cstep release c t (AMatch m ov args l) = CNext c1 r -> cstep release c1 t ACount = CNext c2 r' ->
  exists th w', nth_error (c_threads c) t = Some th /\ agrees w' c2 /\
    step (set_uncaught w (t_uncaught th)) (OCall m ov args l) = Next w' RUnit /\ r' = RUnit /\
    exists n ci, c_log c2 = c_log c ++ [(t, n, ci)] /\ forall e, accepted (w_trace w') e = accepted (w_trace w) e + (if n =? e then 1 else 0).
Proof.
  intros Hr Ha H1 H2. apply agrees_core in Ha. destruct Ha as [Hc Ht]. apply cstep_match in H1.
  destruct H1 as (th & s & coll & Hth & _ & Hf & Hl & [(w1 & n & Hm & -> & ->)|(w1 & Hm & ->)]).
  2:{ unfold cstep in H2. rewrite (leave_thread _ _ _ _ _ _ Hth) in H2. discriminate. }
  unfold cstep in H2. rewrite (leave_thread _ _ _ _ _ _ Hth) in H2. cbn [t_pending] in H2.
  assert (Hw1 : enter (cw (leave c t w1 (Some (n, call_of s args l, frontend_noexcept s)) (c_log c)))
                  (mkThread (w_frames w1) (w_uncaught w1) (Some (n, call_of s args l, frontend_noexcept s))) = w1) by (apply world_ext; reflexivity).
  rewrite Hw1 in H2. clear Hw1.
  pose proof (winv_reachable _ Hr) as I.
  assert (IS : SInv (w_seqs (enter (cw c) th)) (ctls (enter (cw c) th))).
  { destruct (core_fields _ _ Hc) as (E1 & _ & _ & E4 & _). unfold ctls. cbn [w_seqs w_exps enter set_uncaught set_frames].
    rewrite <- E1, <- E4. apply (wi_s _ I). }
  rewrite (count_release _ _ _ _ _ _ _ _ release IS Hm) in H2.
  destruct (count_call false w1 n (call_of s args l) (frontend_noexcept s)) as [v r0| | |] eqn:Hcc; cbn [embed] in H2; try discriminate.
  injection H2 as <- <-.
  assert (Hs : step (enter (cw c) th) (OCall m ov args l) = Next v r0).
  { rewrite (step_call _ _ _ _ _ _ _ Hf Hl), handle_call_split, Hm. pose proof Hcc as Hcc'. unfold count_call in Hcc'.
    destruct (nth_error (w_exps w1) n) as [eo|]; [|discriminate]. destruct (eo_alive eo); [|discriminate]. exact Hcc. }
  destruct (core_step (enter (cw c) th) (set_uncaught w (t_uncaught th)) (OCall m ov args l) v r0) as (v' & evs & Hs' & Hc' & Htv & Htv' & _); auto.
  assert (Hr0 : r0 = RUnit).
  { unfold count_call in Hcc. destruct (nth_error (w_exps w1) n) as [eo|]; [|discriminate]. destruct (eo_alive eo); [|discriminate]. cbn [negb] in Hcc.
    destruct (consume_with false (w_seqs w1) (e_ctl (eo_exp eo))) as [[ss ctl]|x| |u] eqn:Hcons; try discriminate.
    - destruct (consume_asserts _ _) as [[]| | |]; try discriminate. congruence.
    - exfalso. eapply control_consume_nothrow. exact Hcons. }
  subst r0. exists th, v'. split; auto. split; [|split; [auto|split; auto]].
  - apply agrees_core. rewrite core_leave. split; auto. cbn [cw leave w_trace set_uncaught set_frames]. rewrite Htv, Htv', !reports_in_app.
    cbn [w_trace enter set_uncaught set_frames]. rewrite Ht. reflexivity.
  - exists n, (call_of s args l). split; [reflexivity|].
    destruct (matched_counts (set_uncaught w (t_uncaught th)) m ov args l v') as (s' & coll' & n' & x' & Hf' & Hcand & _ & Hacc & _ & Hex); auto.
    { eapply (reachable_step w (OUnwind (t_uncaught th))); [auto|reflexivity]. }
    replace n with n'; [exact Hacc|].
    rewrite <- (find_overload_core (enter (cw c) th) (set_uncaught w (t_uncaught th)) m ov) in Hf' by (rewrite core_enter; auto).
    rewrite Hf in Hf'. injection Hf' as <- <-.
    (* the same expectation changes its count *)
    destruct (Nat.eq_dec n' n) as [|Hne]; auto. exfalso.
    destruct (match_chosen _ _ _ _ _ _ Hm) as (Hcw1 & x & Hx & _). 
    destruct (core_fields _ _ Hcw1) as (Hss1 & _ & _ & Hex1 & _).
    specialize (Hex n). assert (n <> n') by auto. specialize (Hex H). cbn [w_exps set_uncaught] in Hex.
    destruct (core_fields _ _ Hc') as (_ & _ & _ & E4 & _). rewrite E4 in Hex.
    destruct (core_fields _ _ Hc) as (_ & _ & _ & F4 & _). rewrite F4 in Hex.
    unfold exp_at in Hx. cbn [w_exps enter set_uncaught set_frames] in Hx. rewrite Hx in Hex.
    unfold count_call in Hcc. rewrite Hex1 in Hcc. cbn [w_exps enter set_uncaught set_frames] in Hcc. rewrite Hx in Hcc.
    destruct (eo_alive x); [|discriminate]. cbn [negb consume_with] in Hcc.
    destruct (control_consume (w_seqs w1) (e_ctl (eo_exp x))) as [[ss ctl]| | |] eqn:Hcons; try discriminate.
    + destruct (consume_asserts _ _) as [[]| | |]; try discriminate. injection Hcc as <-. cbn [w_exps set_frames set_exps] in Hex.
      rewrite nth_error_upd_eq in Hex by (eapply nth_error_lt; eauto). injection Hex as Hex.
      apply (f_equal (fun x => c_count (ctl_of x))) in Hex. cbn [ctl_of eo_exp e_ctl with_ctl] in Hex.
      rewrite Hss1 in Hcons.
      assert (Hcx : nth_error (ctls (enter (cw c) th)) n = Some (ctl_of x)) by (unfold ctls; erewrite map_nth_error; eauto).
      pose proof (consume_applicable _ _ _ Hcons) as Happ. 
      destruct (control_consume_ok _ _ _ _ IS Hcx Happ) as (ss' & Hss' & _). fold (ctl_of x) in Hcons. rewrite Hss' in Hcons.
      injection Hcons as _ <-. cbn [bump c_count] in Hex. unfold ctl_of in Hex. lia.
    + exfalso. eapply control_consume_nothrow. exact Hcons.
Qed.

Lemma counted_snoc c t n ci log e : c_log c = log ++ [(t, n, ci)] ->
  counted c e = length (filter (fun '(_, k, _) => k =? e) log) + (if n =? e then 1 else 0).
Proof. intros H. unfold counted. rewrite H, filter_app, app_length. cbn [filter]. destruct (n =? e); reflexivity. Qed.

Lemma step_uncounted w o w' r e : is_call o = false -> reachable w -> step w o = Next w' r -> accepted (w_trace w') e = accepted (w_trace w) e.
Proof.
  intros Ho Hr H. destruct (step_accepted _ _ _ _ Hr H) as [(evs & -> & Hz)|(m & ov & args & l & s & coll & n & x & mr & unh & -> & _)].
  - rewrite accepted_app, Hz. lia.
  - discriminate.
Qed.

Lemma unwind_reachable w u : reachable w -> reachable (set_uncaught w u).
Proof. intros H. eapply (reachable_step w (OUnwind u)); eauto. reflexivity. Qed.

Theorem serialised_sim release k c : serialised release (cinit k) c ->
  exists w, reachable w /\ agrees w c /\ forall e, counted c e = accepted (w_trace w) e.
Proof.
  intros H. remember (cinit k) as c0 eqn:E. induction H as [c|c c1 t o c2 r H IH Hs|c c1 t m ov args l c2 x H IH Hs|c c1 t m ov args l c2 r c3 r' H IH Hs1 Hs2]; subst.
  - exists init. split; [apply reachable_init|]. split; [repeat split|]. reflexivity.
  - destruct (IH eq_refl) as (w & Hr & Ha & Hn). destruct (sim_op _ _ _ _ _ _ _ Ha Hs) as [(th & w' & _ & Ha' & Hlog & [[_ ->]|Hst]) Hcall].
    + exists w. split; auto. split; auto. intros e. unfold counted. rewrite Hlog. apply Hn.
    + exists w'. pose proof (unwind_reachable w (t_uncaught th) Hr) as Hr'. split; [eapply reachable_step; eauto|]. split; auto.
      intros e. rewrite (step_uncounted _ _ _ _ e Hcall Hr' Hst). unfold counted. rewrite Hlog. apply Hn.
  - destruct (IH eq_refl) as (w & Hr & Ha & Hn). destruct (sim_failed _ _ _ _ _ _ _ _ _ _ Ha Hs) as (th & w' & _ & Ha' & Hlog & Hst).
    exists w'. pose proof (unwind_reachable w (t_uncaught th) Hr) as Hr'. split; [eapply reachable_step; eauto|]. split; auto.
    intros e. transitivity (counted c1 e); [unfold counted; rewrite Hlog; reflexivity|]. rewrite Hn.
    destruct (step_accepted _ _ _ _ Hr' Hst) as [(evs & -> & Hz)|(m' & ov' & args' & l' & s & coll & n & y & mr & unh & _ & E & _)]; [|discriminate].
    rewrite accepted_app, Hz. cbn [w_trace set_uncaught]. lia.
  - destruct (IH eq_refl) as (w & Hr & Ha & Hn).
    destruct (sim_call _ _ _ _ _ _ _ _ _ _ _ _ Hr Ha Hs1 Hs2) as (th & w' & _ & Ha' & Hst & _ & n & ci & Hlog & Hacc).
    exists w'. split; [eapply reachable_step; [apply (unwind_reachable w (t_uncaught th) Hr)|eauto]|]. split; auto.
    intros e. rewrite (counted_snoc _ _ _ _ _ _ Hlog), Hacc. f_equal. apply Hn.
Qed.

(** A matched call of a serialised execution can be counted. *)
Lemma serialised_counts release w c t m ov args l c1 : reachable w -> agrees w c ->
  cstep release c t (AMatch m ov args l) = CNext c1 RUnit -> exists c2, cstep release c1 t ACount = CNext c2 RUnit.
Proof.
  intros Hr Ha H1. apply agrees_core in Ha. destruct Ha as [Hc Ht]. apply cstep_match in H1.
  destruct H1 as (th & s & coll & Hth & _ & Hf & Hl & [(w1 & n & Hm & _ & ->)|(w1 & Hm & ->)]).
  2:{ destruct (over_throws _ _ _ _ _ _ Hm). discriminate. }
  unfold cstep. rewrite (leave_thread _ _ _ _ _ _ Hth). cbn [t_pending].
  assert (Hw1 : enter (cw (leave c t w1 (Some (n, call_of s args l, frontend_noexcept s)) (c_log c)))
                  (mkThread (w_frames w1) (w_uncaught w1) (Some (n, call_of s args l, frontend_noexcept s))) = w1) by (apply world_ext; reflexivity).
  rewrite Hw1. clear Hw1. pose proof (winv_reachable _ Hr) as I. destruct (core_fields _ _ Hc) as (E1 & _ & _ & E4 & E5 & _).
  assert (IS : SInv (w_seqs (enter (cw c) th)) (ctls (enter (cw c) th))).
  { unfold ctls. cbn [w_seqs w_exps enter set_uncaught set_frames]. rewrite <- E1, <- E4. apply (wi_s _ I). }
  rewrite (count_release _ _ _ _ _ _ _ _ release IS Hm).
  destruct (match_chosen _ _ _ _ _ _ Hm) as (Hcw1 & x & Hx & [_ Hall] & st & Hst & Hap). destruct (core_fields _ _ Hcw1) as (Hss1 & _ & _ & Hex1 & _).
  assert (Hal : eo_alive x = true).
  { unfold match_call in Hm. destruct (nth_error (w_colls (enter (cw c) th)) coll) as [lst|] eqn:Hlst; [|discriminate].
    destruct (lookup_exps (enter (cw c) th) (rev lst)) as [es|] eqn:Hes; [|discriminate].
    destruct (match_loop _ _ _ _ _ _) as [ml|y| |u] eqn:Hml; try discriminate.
    destruct (ml_full ml) as [|first others] eqn:Hfu; [destruct (react _ _); discriminate|].
    destruct (pick_best first others) as [[k mr]|y| |u] eqn:Hp; try discriminate.
    destruct (react _ _); try discriminate. injection Hm as _ ->.
    apply pick_best_in in Hp. rewrite <- Hfu in Hp. destruct (match_loop_ret _ _ _ _ _ _ _ Hml) as (_ & Hfull & _).
    cbn [ml_full app] in Hfull. rewrite Hfull in Hp. apply sel_in in Hp. destruct Hp as (e & Hin & _).
    destruct (lookup_exps_spec _ _ _ Hes) as [Hmap _].
    assert (Hn : In n lst). { rewrite in_rev, <- Hmap. apply in_map_iff. exists (n, e). auto. }
    cbn [w_colls enter set_uncaught set_frames] in Hlst. rewrite <- E5 in Hlst. rewrite (wi_coll _ I _ _ Hlst) in Hn. apply members_in in Hn.
    destruct Hn as (y & Hy & Hay & _). unfold exp_at in Hx. cbn [w_exps enter set_uncaught set_frames] in Hx.
    rewrite E4 in Hy. rewrite Hy in Hx. injection Hx as <-. auto. }
  unfold count_call. unfold exp_at in Hx. rewrite Hex1, Hx, Hal. cbn [negb consume_with]. rewrite Hss1.
  assert (Hcx : nth_error (ctls (enter (cw c) th)) n = Some (ctl_of x)) by (unfold ctls; erewrite map_nth_error; eauto).
  rewrite (control_state_ok _ _ _ _ IS Hcx) in Hst. injection Hst as <-.
  destruct (c_count (ctl_of x) =? c_max (ctl_of x))%Z; [contradiction|].
  change (w_seqs (enter (cw c) th)) with (w_seqs (cw c)) in *. destruct (control_is_applicable (w_seqs (cw c)) (ctl_of x)) eqn:Happ; [|contradiction].
  destruct (control_consume_ok _ _ _ _ IS Hcx Happ) as (ss' & Hss' & _). fold (ctl_of x). rewrite Hss', (consume_asserts_ok _ _ Hall).
  cbn [embed]. eauto.
Qed.

(** ** All interleavings *)

Lemma step_keeps w o w' r : step w o = Next w' r -> is_call o = false ->
  (forall e x, exp_at w e x -> exists x', exp_at w' e x' /\ e_policies (eo_exp x') = e_policies (eo_exp x) /\ e_ctl (eo_exp x') = e_ctl (eo_exp x)) /\
  (forall e x', exp_at w' e x' -> length (w_exps w) <= e -> c_count (ctl_of x') = 0%Z /\ (0 <= c_max (ctl_of x'))%Z).
Proof.
  intros H Ho. apply step_change in H. unfold exp_at. destruct H.
  - rewrite H2. split; [eauto|]. intros e x' Hx Hle. apply nth_error_lt in Hx. lia.
  - subst w'. cbn. split; [eauto|]. intros e x' Hx Hle. apply nth_error_lt in Hx. lia.
  - subst w'. cbn. split; [eauto|]. intros e x' Hx Hle. apply nth_error_lt in Hx. lia.
  - subst w'. cbn [w_exps new_world set_scoped set_colls set_exps set_seqs]. split.
    + intros e x Hx. exists x. rewrite nth_error_app1; auto. eapply nth_error_lt; eauto.
    + intros e x' Hx Hle. rewrite nth_error_app2 in Hx by auto.
      destruct (e - length (w_exps w)) as [|k]; [|destruct k; discriminate]. cbn in Hx. injection Hx as <-. cbn [ctl_of eo_exp e_ctl].
      destruct (build_ok _ _ _ _ H3 (clauses_times _ _ _ H2)) as (Hv & _). pose proof (bv_times _ Hv).
      destruct (control_new_parts _ _ _ _ _ H5) as (_ & Hmx & Hc & _). unfold ctl_of. cbn [eo_exp e_ctl]. rewrite Hmx. split; auto. lia.
  - subst o. discriminate.
  - destruct H as [sc ->]. subst w'. cbn [w_exps add_trace set_sdead kill set_colls set_exps set_scoped].
    assert (Hlt := nth_error_lt _ _ _ H0). split.
    + intros k x Hx. destruct (Nat.eq_dec k e) as [->|Hne].
      * rewrite nth_error_upd_eq by auto. rewrite H0 in Hx. injection Hx as <-. eexists; split; [reflexivity|]. auto.
      * rewrite nth_error_upd_neq by auto. eauto.
    + intros k x' Hx Hle. apply nth_error_lt in Hx. rewrite length_upd in Hx. lia.
Qed.

Lemma consume_nd_nothrow ss c x : control_consume_nd ss c <> Throw x.
Proof.
  unfold control_consume_nd. destruct (for_each_seq seq_consume_nd ss (c_seqs c)) as [ss1|y| |u] eqn:H1; cbn [obind]; try discriminate.
  - destruct (c_count c =? INT_MAX)%Z; [discriminate|].
    destruct (control_update_nd ss1 _) as [ss2|y| |u] eqn:H2; cbn [obind]; try discriminate. exfalso.
    unfold control_update_nd in H2. cbn [c_count c_min c_max c_seqs] in H2.
    destruct (_ =? c_min c)%Z; [|destruct (_ =? c_max c)%Z; [|discriminate]];
      apply for_each_nothrow in H2; auto; intros q id z; unfold seq_set_nd; destruct (seq_is_valid q id); discriminate.
  - exfalso. apply for_each_nothrow in H1; auto. discriminate.
Qed.

Lemma consume_with_counts release ss c ss' c' : consume_with release ss c = Ret (ss', c') ->
  c_count c' = (c_count c + 1)%Z /\ c_max c' = c_max c /\ (release = false -> (c_count c < c_max c)%Z).
Proof.
  destruct release; cbn [consume_with]; intros H.
  - unfold control_consume_nd in H. destruct (for_each_seq seq_consume_nd ss (c_seqs c)) as [ss1| | |]; cbn [obind] in H; try discriminate.
    destruct (c_count c =? INT_MAX)%Z; [discriminate|]. destruct (control_update_nd ss1 _) as [ss2| | |]; cbn [obind] in H; try discriminate.
    injection H as _ <-. repeat split; auto. discriminate.
  - pose proof (consume_applicable _ _ _ H) as Ha. unfold control_is_applicable in Ha. apply andb_true_iff in Ha. destruct Ha as [Hlt _]. apply Z.ltb_lt in Hlt.
    unfold control_consume in H. unfold assert_ in H at 1. destruct (control_is_applicable ss c); [|discriminate].
    destruct (for_each_seq seq_consume ss (c_seqs c)) as [ss1| | |]; cbn [obind] in H; try discriminate.
    destruct (c_count c =? INT_MAX)%Z; [discriminate|]. destruct (control_update ss1 _) as [ss2| | |]; cbn [obind] in H; try discriminate.
    injection H as _ <-. repeat split; auto.
Qed.

(** Every pending and every counted call was accepted; the stored counts are the counting steps. *)
Record CInv (release : bool) (c : cworld) : Prop := mkCInv {
  ci_log : forall t n ci, In (t, n, ci) (c_log c) -> exists x, exp_at (cw c) n x /\ accepts (eo_exp x) ci;
  ci_pending : forall t th n ci ne, nth_error (c_threads c) t = Some th -> t_pending th = Some (n, ci, ne) ->
    exists x, exp_at (cw c) n x /\ accepts (eo_exp x) ci;
  ci_count : forall e x, exp_at (cw c) e x -> c_count (ctl_of x) = Z.of_nat (counted c e);
  ci_max : release = false -> forall e x, exp_at (cw c) e x -> (c_count (ctl_of x) <= c_max (ctl_of x))%Z
}.

Lemma cinv_init release k : CInv release (cinit k).
Proof.
  split; unfold exp_at; cbn.
  - intros ? ? ? [].
  - intros t th n ci ne H Hp. apply nth_error_In in H. apply repeat_spec in H. subst. discriminate.
  - intros e x H. destruct e; discriminate.
  - intros _ e x H. destruct e; discriminate.
Qed.

Lemma accepts_policies x x' c : e_policies x' = e_policies x -> accepts x c -> accepts x' c.
Proof. intros E [H1 H2]. unfold accepts, clean. rewrite E. auto. Qed.

Lemma filter_none {A} (f : A -> bool) l : (forall x, In x l -> f x = false) -> filter f l = [].
Proof. induction l as [|x l IH]; intros H; auto. cbn [filter]. rewrite (H x (or_introl eq_refl)). apply IH. intros; apply H; right; auto. Qed.

Lemma counted_fresh release c e : CInv release c -> length (w_exps (cw c)) <= e -> counted c e = 0.
Proof.
  intros I He. unfold counted. apply length_zero_iff_nil. apply filter_none. intros [[t n] ci] Hin.
  destruct (ci_log _ _ I _ _ _ Hin) as (x & Hx & _). apply nth_error_lt in Hx. apply Nat.eqb_neq. lia.
Qed.

Lemma upd_threads (c : cworld) t w p log t' th : nth_error (c_threads (leave c t w p log)) t' = Some th ->
  (t' = t /\ t_pending th = p) \/ nth_error (c_threads c) t' = Some th.
Proof.
  cbn [c_threads leave]. intros H. destruct (Nat.eq_dec t' t) as [->|Hne].
  - left. split; auto. pose proof (nth_error_lt _ _ _ H) as Hlt. rewrite length_upd in Hlt. rewrite nth_error_upd_eq in H by auto. injection H as <-. auto.
  - right. rewrite nth_error_upd_neq in H; auto.
Qed.

Lemma cinv_step release c t a c' r : CInv release c -> cstep release c t a = CNext c' r -> CInv release c'.
Proof.
  intros I H. destruct a as [o|m ov args l|].
  - unfold cstep in H. destruct (nth_error (c_threads c) t) as [th|] eqn:Hth; [|discriminate].
    destruct (t_pending th) as [[[n ci] ne]|]; [discriminate|]. destruct (is_call o) eqn:Ho; [discriminate|].
    destruct (step (enter (cw c) th) o) as [v r0| | |] eqn:Hs; cbn [embed] in H; try discriminate. injection H as <- <-.
    destruct (step_keeps _ _ _ _ Hs Ho) as [Hk Hn].
    assert (Hold : forall e x', exp_at v e x' -> (exists x, exp_at (cw c) e x /\ ctl_of x' = ctl_of x) \/
              (counted c e = 0 /\ c_count (ctl_of x') = 0%Z /\ (0 <= c_max (ctl_of x'))%Z)).
    { intros e x' Hx'. destruct (Nat.lt_ge_cases e (length (w_exps (cw c)))) as [Hlt|Hge].
      - left. destruct (nth_error_ex _ _ Hlt) as [x Hx]. exists x. split; auto.
        destruct (Hk e x Hx) as (x2 & Hx2 & _ & Hctl). unfold exp_at in *. rewrite Hx' in Hx2. injection Hx2 as <-. exact Hctl.
      - right. split; [eapply counted_fresh; eauto|]. apply (Hn e x'); auto. }
    split.
    + intros t' n ci Hin. destruct (ci_log _ _ I _ _ _ Hin) as (x & Hx & Ha). destruct (Hk n x Hx) as (x' & Hx' & Hp & _).
      exists x'. split; auto. eapply accepts_policies; eauto.
    + intros t' th' n ci ne Ht' Hp. destruct (upd_threads _ _ _ _ _ _ _ Ht') as [[_ E]|Hold'].
      * congruence.
      * destruct (ci_pending _ _ I _ _ _ _ _ Hold' Hp) as (x & Hx & Ha). destruct (Hk n x Hx) as (x' & Hx' & Hpo & _).
        exists x'. split; auto. eapply accepts_policies; eauto.
    + intros e x' Hx'. change (counted (leave c t v None (c_log c)) e) with (counted c e).
      destruct (Hold e x' Hx') as [(x & Hx & ->)|(-> & -> & _)]; [apply (ci_count _ _ I); auto|reflexivity].
    + intros Hrel e x' Hx'. destruct (Hold e x' Hx') as [(x & Hx & ->)|(_ & -> & ?)]; [apply (ci_max _ _ I Hrel _ _ Hx)|auto].
  - apply cstep_match in H. destruct H as (th & s & coll & Hth & _ & Hf & Hl & H).
    assert (Hsame : exists w1 p, c' = leave c t w1 p (c_log c) /\ core w1 = core (cw c) /\
              forall n ci ne, p = Some (n, ci, ne) -> exists x, exp_at (cw c) n x /\ accepts (eo_exp x) ci).
    { destruct H as [(w1 & n & Hm & -> & ->)|(w1 & Hm & ->)].
      - destruct (match_chosen _ _ _ _ _ _ Hm) as (Hc & x & Hx & Ha & _). do 2 eexists. split; [reflexivity|]. split; [exact Hc|].
        intros n' ci' ne' E. injection E as <- <- <-. exists x. auto.
      - do 2 eexists. split; [reflexivity|]. split; [|discriminate].
        assert (Hs : step (enter (cw c) th) (OCall m ov args l) = Next w1 r).
        { rewrite (step_call _ _ _ _ _ _ _ Hf Hl), handle_call_split, Hm. reflexivity. }
        destruct (over_throws _ _ _ _ _ _ Hm) as [y ->]. rewrite <- (core_enter (cw c) th).
        rewrite (step_call _ _ _ _ _ _ _ Hf Hl) in Hs. apply handle_call_next in Hs. destruct Hs as (lst & es & ml & _ & _ & _ & Hcr).
        inversion Hcr. subst. reflexivity. }
    destruct Hsame as (w1 & p & -> & Hc & Hp). destruct (core_fields _ _ Hc) as (_ & _ & _ & E & _). split; unfold exp_at; cbn [cw leave w_exps set_uncaught set_frames]; rewrite E.
    + apply (ci_log _ _ I).
    + intros t' th' n ci ne Ht' Hpe. destruct (upd_threads _ _ _ _ _ _ _ Ht') as [[_ E']|Hold'].
      * apply (Hp n ci ne). congruence.
      * eapply (ci_pending _ _ I); eauto.
    + apply (ci_count _ _ I).
    + apply (ci_max _ _ I).
  - unfold cstep in H. destruct (nth_error (c_threads c) t) as [th|] eqn:Hth; [|discriminate].
    destruct (t_pending th) as [[[n ci] ne]|] eqn:Hp; [|discriminate].
    destruct (count_call release (enter (cw c) th) n ci ne) as [v r0| | |] eqn:Hcc; cbn [embed] in H; try discriminate. injection H as <- <-.
    destruct (ci_pending _ _ I _ _ _ _ _ Hth Hp) as (x & Hx & Ha).
    unfold count_call in Hcc. cbn [w_exps w_seqs enter set_uncaught set_frames] in Hcc. unfold exp_at in Hx. rewrite Hx in Hcc.
    destruct (eo_alive x); [|discriminate]. cbn [negb] in Hcc.
    destruct (consume_with release (w_seqs (cw c)) (e_ctl (eo_exp x))) as [[ss ctl]|y| |u] eqn:Hcons; try discriminate.
    2:{ exfalso. destruct release; cbn [consume_with] in Hcons.
        - eapply consume_nd_nothrow; eauto.
        - eapply control_consume_nothrow; eauto. }
    destruct (consume_asserts (e_policies (eo_exp x)) ci) as [[]| | |]; try discriminate. injection Hcc as <- <-.
    destruct (consume_with_counts _ _ _ _ _ Hcons) as (Hcnt & Hmx & Hlt).
    pose proof (nth_error_lt _ _ _ Hx) as Hlen.
    set (x' := mkEObj (with_ctl (eo_exp x) ctl) (eo_coll x) true (eo_ov x) (eo_sig x)).
    assert (Hk : forall k y, exp_at (cw c) k y -> exists y', nth_error (upd (w_exps (cw c)) n x') k = Some y' /\ e_policies (eo_exp y') = e_policies (eo_exp y)).
    { intros k y Hy. destruct (Nat.eq_dec k n) as [->|Hne].
      - rewrite nth_error_upd_eq by auto. exists x'. split; auto. unfold exp_at in Hy. rewrite Hx in Hy. injection Hy as <-. reflexivity.
      - rewrite nth_error_upd_neq by auto. eauto. }
    split; unfold exp_at; cbn [cw leave w_exps set_uncaught set_frames set_exps set_seqs c_log c_threads].
    + intros t' k ci' Hin. apply in_app_or in Hin. destruct Hin as [Hin|[E|[]]].
      * destruct (ci_log _ _ I _ _ _ Hin) as (y & Hy & Hay). destruct (Hk k y Hy) as (y' & Hy' & Hpo). exists y'. split; auto. eapply accepts_policies; eauto.
      * injection E as <- <- <-. destruct (Hk n x Hx) as (y' & Hy' & Hpo). exists y'. split; auto. eapply accepts_policies; eauto.
    + intros t' th' k ci' ne' Ht' Hpe. destruct (upd_threads _ _ _ _ [] _ _ Ht') as [[_ E']|Hold']; [congruence|].
      destruct (ci_pending _ _ I _ _ _ _ _ Hold' Hpe) as (y & Hy & Hay). destruct (Hk k y Hy) as (y' & Hy' & Hpo). exists y'. split; auto. eapply accepts_policies; eauto.
    + intros e y Hy. erewrite (counted_snoc _ t n ci (c_log c) e) by reflexivity. fold (counted c e).
      destruct (Nat.eq_dec e n) as [->|Hne].
      * rewrite nth_error_upd_eq in Hy by auto. injection Hy as <-. unfold ctl_of. cbn [x' eo_exp e_ctl with_ctl]. rewrite Hcnt, Nat.eqb_refl.
        pose proof (ci_count _ _ I _ _ Hx) as Hc0. unfold ctl_of in Hc0. lia.
      * rewrite nth_error_upd_neq in Hy by auto. assert (n =? e = false) as -> by (apply Nat.eqb_neq; auto). rewrite Nat.add_0_r. apply (ci_count _ _ I); auto.
    + intros Hrel e y Hy. destruct (Nat.eq_dec e n) as [->|Hne].
      * rewrite nth_error_upd_eq in Hy by auto. injection Hy as <-. unfold ctl_of. cbn [x' eo_exp e_ctl with_ctl]. specialize (Hlt Hrel). lia.
      * rewrite nth_error_upd_neq in Hy by auto. apply (ci_max _ _ I Hrel _ _ Hy).
Qed.

Theorem cinv_run release k acts c : cruns release (cinit k) acts c -> CInv release c.
Proof.
  intros H. assert (I := cinv_init release k). revert I. induction H as [|c t a c1 r acts c2 Hs Hr IH]; auto.
  intros I. apply IH. eapply cinv_step; eauto.
Qed.
