(** * PropVisits: matching visits one expectation after the other (C99). *)

From Coq Require Import Sorting.Sorted.
From Verif Require Import Base Lib Sequence Control Signature Printer Reports Expectation Builder World WorldSpec CallSpec
  SeqInv BuildSpec BuilderLemmas StepCases MatchLemmas WorldInv ObjInv CallProofs BuildProofs CountProofs FrameSpec FrameProofs Scenario
  Conc ConcSpec ConcProofs ConcOrder PropConc PropConcOrder Visits.

(** ** Vocabulary *)

(** The chosen call of a thread, as in Conc.v. *)
Definition pending_of (ph : phase) : option (nat * call_info * bool) :=
  match ph with Picked n c ne => Some (n, c, ne) | _ => None end.

(** The state in the terms of Conc.v: a thread which is visiting has not begun its call yet. *)
Definition flat_thread (th : vthread) : thread := mkThread (vt_frames th) (vt_uncaught th) (pending_of (vt_phase th)).
Definition flat (v : vworld) : cworld := mkC (vw v) (map flat_thread (v_threads v)) (v_log v).

(** Thread [t] is visiting expectations of [coll] for the call [c]; [todo] are left. *)
Definition is_visiting (v : vworld) (t coll : nat) (c : call_info) (todo : list nat) : Prop :=
  exists th ne ml, nth_error (v_threads v) t = Some th /\ vt_phase th = Visiting coll c ne todo ml.

(** Run a program, for witnesses. *)
Fixpoint vexec (release : bool) (v : vworld) (acts : list (nat * vaction)) : option vworld :=
  match acts with
  | [] => Some v
  | (t, a) :: rest => match vstep release v t a with VNext v1 _ => vexec release v1 rest | _ => None end
  end.
Lemma vexec_runs release acts : forall v v', vexec release v acts = Some v' <-> vruns release v acts v'.
Proof.
  induction acts as [|[t a] acts IH]; intros v v'; cbn [vexec].
  - split; intros H; [injection H as <-; constructor|]. inversion H. reflexivity.
  - split; intros H.
    + destruct (vstep release v t a) as [v1 r| | | |] eqn:E; try discriminate. econstructor; eauto. apply IH. auto.
    + inversion H as [|x1 x2 x3 y r x5 x6 Hs Hr]; subst. rewrite Hs. apply IH. auto.
Qed.
Lemma vruns_det release v acts v1 v2 : vruns release v acts v1 -> vruns release v acts v2 -> v1 = v2.
Proof. intros H1 H2. apply vexec_runs in H1. apply vexec_runs in H2. congruence. Qed.
Lemma vruns_app release v a v1 b v2 : vruns release v a v1 -> vruns release v1 b v2 -> vruns release v (a ++ b) v2.
Proof. intros H. induction H; cbn [app]; auto. intros. econstructor; eauto. Qed.
Lemma vruns_split release a b : forall v v2, vruns release v (a ++ b) v2 -> exists v1, vruns release v a v1 /\ vruns release v1 b v2.
Proof.
  induction a as [|[t x] a IH]; intros v v2 H; cbn [app] in H; [exists v; split; auto; constructor|].
  inversion H as [|x1 x2 x3 y r x5 x6 Hs Hr]; subst. apply IH in Hr. destruct Hr as (v1 & H1 & H2). exists v1. split; auto. econstructor; eauto.
Qed.
Lemma vruns_one release v t a v' r : vstep release v t a = VNext v' r -> vruns release v [(t, a)] v'.
Proof. intros. econstructor; [eauto|constructor]. Qed.

(** ** One step *)

Lemma flat_leave v t w ph log : flat (vleave v t w ph log) = leave (flat v) t w (pending_of ph) log.
Proof. unfold flat, vleave, leave. cbn [vw v_threads v_log c_threads]. rewrite map_upd. reflexivity. Qed.

Lemma flat_nth v t th : nth_error (v_threads v) t = Some th -> nth_error (c_threads (flat v)) t = Some (flat_thread th).
Proof. intros H. cbn [flat c_threads]. apply map_nth_error. exact H. Qed.

Lemma venter_flat w th : venter w th = enter w (flat_thread th).
Proof. reflexivity. Qed.

Lemma pick_nothing_thrown best rest x : pick_best best rest <> Throw x.
Proof. apply pick_best_nothrow. Qed.

Lemma choose_core w c ne ml : 
  match choose w c ne ml with
  | MChosen w' n => core w' = core w /\ In n (map fst (ml_full ml))
  | MOver (Next w' r) => core w' = core w /\ r = RThrow EReporter /\ ml_full ml = []
  | _ => True
  end.
Proof.
  unfold choose. destruct (ml_full ml) as [|first others] eqn:Hf.
  - destruct (react w _); auto. unfold thrown. destruct ne; auto.
  - destruct (pick_best first others) as [[n m]|x| |u] eqn:Hp; auto; [|exfalso; eapply pick_best_nothrow; eauto].
    destruct (react w _); auto. split; [reflexivity|]. apply pick_best_in in Hp. apply in_map_iff. exists (n, m). auto.
Qed.

Lemma visit_ret w c n ml w' ml' : visit w c n ml = Ret (w', ml') ->
  exists x, exp_at w n x /\ core w' = core w /\ w_frames w' = w_frames w /\ w_uncaught w' = w_uncaught w /\
    (exists a, att (w_reporter w) (w_uncaught w) (w_seqs w) c (eo_exp x) = Ret a) /\
    ml_full ml' = ml_full ml ++ sel (w_reporter w) (w_uncaught w) (w_seqs w) c MatchFull (n, eo_exp x) /\
    ml_inapplicable ml' = ml_inapplicable ml ++ sel (w_reporter w) (w_uncaught w) (w_seqs w) c MatchInapplicable (n, eo_exp x) /\
    ml_none ml' = ml_none ml ++ sel (w_reporter w) (w_uncaught w) (w_seqs w) c MatchNone (n, eo_exp x) /\
    ml_unhandled ml' = [] /\ w' = emit_unhandled w c (ml_unhandled ml ++ sel_unhandled (w_reporter w) (w_uncaught w) (w_seqs w) c (n, eo_exp x)).
Proof.
  unfold visit. intros H. destruct (nth_error (w_exps w) n) as [x|] eqn:Hx; [|discriminate].
  destruct (match_loop _ _ _ _ _ _) as [ml1|y| |u] eqn:Hml; cbn [obind] in H; try discriminate. injection H as <- <-.
  destruct (match_loop_ret _ _ _ _ _ _ _ Hml) as (Hall & Hf & Hi & Hn & Hu). cbn [flat_map] in *. rewrite app_nil_r in *.
  exists x. split; [exact Hx|]. destruct (emit_unhandled_core c (ml_unhandled ml1) w) as [E1 E2]. split; [exact E1|].
  split. { clear. generalize (ml_unhandled ml1). intros l. revert w. induction l as [|[n [r x]] l IH]; intros w; auto. cbn [emit_unhandled]. rewrite IH. reflexivity. }
  split; [exact E2|]. split; [apply (Hall (n, eo_exp x)); left; auto|]. cbn [ml_full ml_inapplicable ml_none ml_unhandled]. rewrite <- Hu. auto.
Qed.

Lemma visit_nothrow w c n ml x : visit w c n ml <> Throw x.
Proof.
  unfold visit. destruct (nth_error (w_exps w) n); [|discriminate].
  destruct (match_loop _ _ _ _ _ _) eqn:E; cbn [obind]; try discriminate. exfalso. eapply match_loop_nothrow; eauto.
Qed.

(** What a step does, in the terms of Conc.v. *)
Inductive vcase (release : bool) (v : vworld) (t : nat) (a : vaction) (v' : vworld) (r : result) (th : vthread) : Prop :=
| VcOp o : a = VOp o -> vt_phase th = Idle -> is_call o = false -> existsb (locked v) (wants (venter (vw v) th) o) = false ->
    cstep release (flat v) t (AOp o) = CNext (flat v') r ->
    (exists w, step (venter (vw v) th) o = Next w r /\ v' = vleave v t w Idle (v_log v)) -> vcase release v t a v' r th
| VcCall m ov args l s coll lst ne : a = VCall m ov args l -> vt_phase th = Idle ->
    find_overload (venter (vw v) th) m ov = inr (s, coll) -> length args = length (sg_params s) -> locked v coll = false ->
    nth_error (w_colls (vw v)) coll = Some lst -> ne = frontend_noexcept s -> r = RUnit ->
    v' = vleave v t (venter (vw v) th) (Visiting coll (call_of s args l) ne (rev lst) (mkLists [] [] [] [])) (v_log v) ->
    vcase release v t a v' r th
| VcVisit coll c ne n todo ml w' ml' : a = VVisit -> vt_phase th = Visiting coll c ne (n :: todo) ml ->
    visit (venter (vw v) th) c n ml = Ret (w', ml') -> r = RUnit ->
    v' = vleave v t w' (Visiting coll c ne todo ml') (v_log v) -> vcase release v t a v' r th
| VcChosen coll c ne ml w' n : a = VChoose -> vt_phase th = Visiting coll c ne [] ml ->
    choose (venter (vw v) th) c ne ml = MChosen w' n -> r = RUnit -> v' = vleave v t w' (Picked n c ne) (v_log v) -> vcase release v t a v' r th
| VcFailed coll c ne ml w' : a = VChoose -> vt_phase th = Visiting coll c ne [] ml ->
    choose (venter (vw v) th) c ne ml = MOver (Next w' r) -> v' = vleave v t w' Idle (v_log v) -> vcase release v t a v' r th
| VcCount n c ne w' : a = VCount -> vt_phase th = Picked n c ne ->
    cstep release (flat v) t ACount = CNext (flat v') r ->
    count_call release (venter (vw v) th) n c ne = Next w' r -> v' = vleave v t w' Idle (v_log v ++ [(t, n, c)]) -> vcase release v t a v' r th.

Lemma find_overload_nonext w m ov s w' r : find_overload w m ov = inl s -> s <> Next w' r.
Proof.
  unfold find_overload. destruct (nth_error (w_mocks w) m) as [mk|]; [|intros E; injection E as <-; discriminate].
  repeat match goal with |- context [if ?b then _ else _] => destruct b end; try (intros E; injection E as <-; discriminate).
  all: repeat match goal with |- context [match ?b with _ => _ end] => destruct b end; intros E; try discriminate; injection E as <-; discriminate.
Qed.

Lemma vstep_case release v t a v' r : vstep release v t a = VNext v' r -> exists th, nth_error (v_threads v) t = Some th /\ vcase release v t a v' r th.
Proof.
  unfold vstep. intros H. destruct (nth_error (v_threads v) t) as [th|] eqn:Hth; [|discriminate]. exists th. split; auto.
  pose proof (flat_nth _ _ _ Hth) as Hft.
  destruct (vt_phase th) as [|coll c ne todo ml|n c ne] eqn:Hp.
  - destruct a as [o|m ov args l| | |]; try discriminate.
    + destruct (is_call o) eqn:Ho; [discriminate|]. destruct (existsb _ _) eqn:Hb; [discriminate|].
      destruct (step (venter (vw v) th) o) as [w0 r0| | |] eqn:Hs; cbn [vembed] in H; try discriminate. injection H as <- <-.
      eapply VcOp; eauto.
      unfold cstep. rewrite Hft. cbn [flat_thread t_pending]. rewrite Hp. cbn [pending_of]. rewrite Ho. fold (flat_thread th).
      replace (enter (cw (flat v)) _) with (venter (vw v) th) by reflexivity. rewrite Hs. cbn [embed]. rewrite flat_leave. reflexivity.
    + destruct (find_overload (venter (vw v) th) m ov) as [s|[s coll]] eqn:Hf.
      { destruct s as [w0 r0| | |]; cbn [vembed] in H; try discriminate. exfalso. eapply find_overload_nonext; eauto. }
      destruct (length args =? length (sg_params s)) eqn:Hl; cbn [negb] in H; [|discriminate]. apply Nat.eqb_eq in Hl.
      destruct (locked v coll) eqn:Hk; [discriminate|].
      destruct (nth_error (w_colls (venter (vw v) th)) coll) as [lst|] eqn:Hc; [|discriminate]. injection H as <- <-.
      eapply VcCall; eauto.
  - destruct a as [o|m ov args l| | |]; try (destruct todo; discriminate).
    + destruct todo as [|n todo]; [discriminate|]. destruct (visit (venter (vw v) th) c n ml) as [[w' ml']|x| |u] eqn:Hv; try discriminate.
      * injection H as <- <-. eapply VcVisit; eauto.
      * exfalso. eapply visit_nothrow; eauto.
    + destruct todo as [|n todo]; [|discriminate]. destruct (choose (venter (vw v) th) c ne ml) as [w' n|s] eqn:Hc.
      * injection H as <- <-. eapply VcChosen; eauto.
      * destruct s as [w' r'| | |]; cbn [vembed] in H; try discriminate. injection H as <- <-. eapply VcFailed; eauto.
  - destruct a as [o|m ov args l| | |]; try discriminate.
    destruct (count_call release (venter (vw v) th) n c ne) as [w' r'| | |] eqn:Hcc; cbn [vembed] in H; try discriminate. injection H as <- <-.
    eapply VcCount; eauto. unfold cstep. rewrite Hft. cbn [flat_thread t_pending]. rewrite Hp. cbn [pending_of].
    replace (enter (cw (flat v)) _) with (venter (vw v) th) by reflexivity. rewrite Hcc. cbn [embed]. rewrite flat_leave. reflexivity.
Qed.

(** Steps which are not those of Conc.v change no object. *)
Lemma vcase_core release v t a v' r th : vcase release v t a v' r th ->
  (exists o, a = VOp o /\ cstep release (flat v) t (AOp o) = CNext (flat v') r) \/
  (a = VCount /\ cstep release (flat v) t ACount = CNext (flat v') r) \/
  (core (vw v') = core (vw v) /\ v_log v' = v_log v).
Proof.
  intros H. destruct H; subst; eauto; right; right.
  - destruct (visit_ret _ _ _ _ _ _ H1) as (x & _ & E & _). split; [transitivity (core w'); [reflexivity|exact E]|reflexivity].
  - pose proof (choose_core (venter (vw v) th) c ne ml) as E. rewrite H1 in E. destruct E as [E _]. split; [transitivity (core w'); [reflexivity|exact E]|reflexivity].
  - pose proof (choose_core (venter (vw v) th) c ne ml) as E. rewrite H1 in E. destruct E as [E _]. split; [transitivity (core w'); [reflexivity|exact E]|reflexivity].
Qed.

Lemma other_threads v t w ph log t' th : nth_error (v_threads (vleave v t w ph log)) t' = Some th ->
  (t' = t /\ th = mkVT (w_frames w) (w_uncaught w) ph) \/ (t' <> t /\ nth_error (v_threads v) t' = Some th).
Proof.
  cbn [vleave v_threads]. intros H. apply nth_error_upd in H. destruct H as [(-> & _ & ->)|(Hne & H)]; auto.
Qed.

(** ** What all interleavings keep *)

Lemma consume_shape release ss c ss' c' : consume_with release ss c = Ret (ss', c') ->
  c' = mkControl (c_min c) (c_max c) (c_count c + 1) (c_seqs c).
Proof.
  destruct release; cbn [consume_with]; intros H.
  - unfold control_consume_nd in H. destruct (for_each_seq seq_consume_nd ss (c_seqs c)) as [ss1| | |]; cbn [obind] in H; try discriminate.
    destruct (c_count c =? INT_MAX)%Z; [discriminate|]. destruct (control_update_nd ss1 _) as [ss2| | |]; cbn [obind] in H; try discriminate.
    injection H as _ <-. reflexivity.
  - unfold control_consume in H. unfold assert_ in H at 1. destruct (control_is_applicable ss c); [|discriminate].
    destruct (for_each_seq seq_consume ss (c_seqs c)) as [ss1| | |]; cbn [obind] in H; try discriminate.
    destruct (c_count c =? INT_MAX)%Z; [discriminate|]. destruct (control_update ss1 _) as [ss2| | |]; cbn [obind] in H; try discriminate.
    injection H as _ <-. reflexivity.
Qed.

(** Requirements, limits and sequences of an expectation never change. *)
Definition same_terms (x x' : eobj) : Prop :=
  e_policies (eo_exp x') = e_policies (eo_exp x) /\ x_min x' = x_min x /\ x_max x' = x_max x /\ c_seqs (ctl_of x') = c_seqs (ctl_of x) /\
  eo_coll x' = eo_coll x.

Lemma same_terms_refl x : same_terms x x.
Proof. repeat split. Qed.
Lemma same_terms_trans x y z : same_terms x y -> same_terms y z -> same_terms x z.
Proof. intros (A1 & A2 & A3 & A4 & A5) (B1 & B2 & B3 & B4 & B5). repeat split; congruence. Qed.
Lemma same_terms_seqs x x' : same_terms x x' -> x_seqs x' = x_seqs x.
Proof. intros (_ & _ & _ & E & _). unfold x_seqs. unfold ctl_of in E. rewrite E. reflexivity. Qed.

Lemma step_terms w o w' r : step w o = Next w' r -> is_call o = false ->
  forall e x, exp_at w e x -> exists x', exp_at w' e x' /\ same_terms x x'.
Proof.
  intros H Ho e x Hx. apply step_change in H. unfold exp_at in *. destruct H.
  - rewrite H2. exists x. split; auto. apply same_terms_refl.
  - subst w'. exists x. split; auto. apply same_terms_refl.
  - subst w'. exists x. split; auto. apply same_terms_refl.
  - subst w'. cbn [w_exps new_world set_scoped set_colls set_exps set_seqs]. exists x. rewrite nth_error_app1; [|eapply nth_error_lt; eauto].
    split; auto. apply same_terms_refl.
  - subst o. discriminate.
  - destruct H as [sc ->]. subst w'. cbn [w_exps add_trace set_sdead kill set_colls set_exps set_scoped].
    assert (Hlt := nth_error_lt _ _ _ H0). destruct (Nat.eq_dec e e0) as [->|Hne].
    + rewrite nth_error_upd_eq by auto. rewrite H0 in Hx. injection Hx as <-. eexists; split; [reflexivity|]. repeat split.
    + rewrite nth_error_upd_neq by auto. exists x. split; auto. apply same_terms_refl.
Qed.

Lemma core_exps w w' : core w = core w' -> w_exps w = w_exps w' /\ w_seqs w = w_seqs w' /\ w_colls w = w_colls w'.
Proof. intros H. destruct (core_fields _ _ H) as (E1 & _ & _ & E2 & E3 & _). auto. Qed.

Lemma vstep_terms release v t a v' r : vstep release v t a = VNext v' r ->
  forall e x, exp_at (vw v) e x -> exists x', exp_at (vw v') e x' /\ same_terms x x'.
Proof.
  intros H e x Hx. destruct (vstep_case _ _ _ _ _ _ H) as (th & Hth & Hc).
  destruct (vcase_core _ _ _ _ _ _ _ Hc) as [(o & -> & Hs)|[(-> & Hs)|(E & _)]].
  - apply cstep_op in Hs. destruct Hs as (th' & w & _ & _ & Ho & Hs & E).
    destruct (step_terms _ _ _ _ Hs Ho e x Hx) as (x' & Hx' & T). exists x'. split; auto.
    change (vw v') with (cw (flat v')). rewrite E. exact Hx'.
  - apply cstep_count in Hs. destruct Hs as (th' & n & ci & ne & y & w & ss & ctl & _ & _ & Hy & Ha & Hcons & _ & _ & _ & E & Ee).
    change (vw v') with (cw (flat v')). rewrite E. unfold exp_at in *. cbn [cw leave w_exps set_uncaught set_frames]. rewrite Ee.
    cbn [flat cw] in Hy. destruct (Nat.eq_dec e n) as [->|Hne].
    + rewrite nth_error_upd_eq by (eapply nth_error_lt; eauto). eexists. split; [reflexivity|]. rewrite Hx in Hy. injection Hy as <-.
      apply consume_shape in Hcons. subst ctl. repeat split.
    + rewrite nth_error_upd_neq by auto. exists x. split; auto. apply same_terms_refl.
  - destruct (core_exps _ _ E) as (Ee & _). exists x. unfold exp_at in *. rewrite Ee. split; auto. apply same_terms_refl.
Qed.

Lemma vruns_terms release v acts v' : vruns release v acts v' ->
  forall e x, exp_at (vw v) e x -> exists x', exp_at (vw v') e x' /\ same_terms x x'.
Proof.
  intros H. induction H as [v|v t a v1 r acts v2 Hs Hr IH]; intros e x Hx; [exists x; split; auto; apply same_terms_refl|].
  destruct (vstep_terms _ _ _ _ _ _ Hs _ _ Hx) as (y & Hy & T1). destruct (IH _ _ Hy) as (z & Hz & T2). exists z. split; auto. eapply same_terms_trans; eauto.
Qed.

Lemma same_terms_accepts x x' c : same_terms x x' -> accepts (eo_exp x) c <-> accepts (eo_exp x') c.
Proof. intros (E & _). split; apply accepts_policies; auto. Qed.

Lemma vstep_log release v t a v' r : vstep release v t a = VNext v' r -> exists added, v_log v' = v_log v ++ added.
Proof.
  intros H. destruct (vstep_case _ _ _ _ _ _ H) as (th & Hth & Hc). destruct Hc; subst; cbn [v_log vleave]; try (exists []; rewrite app_nil_r; reflexivity); eauto.
  destruct H5 as (w & _ & ->). exists []. rewrite app_nil_r. reflexivity.
Qed.

Lemma vruns_log release v acts v' : vruns release v acts v' -> exists added, v_log v' = v_log v ++ added.
Proof.
  intros H. induction H as [v|v t a v1 r acts v2 Hs Hr (added & IH)]; [exists []; rewrite app_nil_r; reflexivity|].
  destruct (vstep_log _ _ _ _ _ _ Hs) as (a1 & E). exists (a1 ++ added). rewrite IH, E, app_assoc. reflexivity.
Qed.

Lemma vruns_counted release v acts v' e : vruns release v acts v' -> counted (flat v) e <= counted (flat v') e.
Proof.
  intros H. destruct (vruns_log _ _ _ _ H) as (added & E). unfold counted. cbn [flat c_log]. rewrite E, filter_app, app_length. lia.
Qed.

(** ** Safety *)

Lemma cinv_quiet release c c' : CInv release c -> core (cw c') = core (cw c) -> c_log c' = c_log c ->
  (forall t th n ci ne, nth_error (c_threads c') t = Some th -> t_pending th = Some (n, ci, ne) -> exists x, exp_at (cw c) n x /\ accepts (eo_exp x) ci) ->
  CInv release c'.
Proof.
  intros I E El Hp. destruct (core_exps _ _ E) as (Ee & _). split; unfold exp_at, counted in *; rewrite ?Ee, ?El.
  - apply (ci_log _ _ I).
  - exact Hp.
  - apply (ci_count _ _ I).
  - apply (ci_max _ _ I).
Qed.

Record VI (release : bool) (v : vworld) : Prop := mkVI {
  vi_c : CInv release (flat v);
  vi_full : forall t th coll c ne todo ml n, nth_error (v_threads v) t = Some th -> vt_phase th = Visiting coll c ne todo ml ->
    In n (map fst (ml_full ml)) -> exists x, exp_at (vw v) n x /\ accepts (eo_exp x) c
}.

Lemma sel_full rp u ss c n x k : In k (map fst (sel rp u ss c MatchFull (n, x))) ->
  k = n /\ accepts x c /\ exists st, control_state_of ss (e_ctl x) = Ret st /\ match st with StApplicable _ _ _ _ => True | _ => False end.
Proof.
  intros H. apply in_map_iff in H. destruct H as ([k' m] & <- & H).
  assert (Hin : In (k', m) (flat_map (sel rp u ss c MatchFull) [(n, x)])) by (cbn [flat_map]; rewrite app_nil_r; exact H).
  apply sel_in in Hin. destruct Hin as (e & [E|[]] & Ha & Hev). injection E as <- <-. cbn [fst]. split; [auto|].
  unfold att, make_match_report in Ha. destruct (exp_matches ss x c) as [m'|y| |u'] eqn:Hm.
  2:{ destruct (exp_report_of _ _) as [rr| | |]; cbn in Ha; try discriminate. destruct (rp _ _); cbn in Ha; discriminate. }
  2,3: cbn in Ha; discriminate.
  cbn [noexcept_of] in Ha. injection Ha as ->. unfold exp_matches in Hm.
  destruct (control_state_of ss (e_ctl x)) as [st| | |] eqn:Hst; cbn [obind] in Hm; try discriminate.
  destruct (omap (policy_report_of c) (e_policies x)) as [rs| | |] eqn:Hr; cbn [obind] in Hm; try discriminate.
  injection Hm as <-. unfold evaluate_match_report in Hev. cbn [mr_policies mr_state] in Hev.
  destruct (forallb pr_matching rs) eqn:Hall; cbn [negb] in Hev; [|discriminate]. split.
  - split; [apply clean_reports; eauto|]. apply (reports_matching c _ rs); auto. apply omap_ret_inv; auto.
  - exists st. split; auto. destruct st; auto; discriminate.
Qed.

Lemma vi_init release k : VI release (vinit k).
Proof.
  split.
  - replace (flat (vinit k)) with (cinit k); [apply cinv_init|]. unfold flat, vinit, cinit. cbn [vw v_threads v_log]. f_equal.
    induction k; auto. cbn [repeat map]. f_equal. auto.
  - intros t th coll c ne todo ml n H Hp. apply nth_error_In in H. cbn [vinit v_threads] in H. apply repeat_spec in H. subst. discriminate.
Qed.

Lemma vi_step release v t a v' r : VI release v -> vstep release v t a = VNext v' r -> VI release v'.
Proof.
  intros I H. pose proof (vstep_terms _ _ _ _ _ _ H) as Ht. destruct (vstep_case _ _ _ _ _ _ H) as (th & Hth & Hc).
  assert (Hkeep : forall n c, (exists x, exp_at (vw v) n x /\ accepts (eo_exp x) c) -> exists x, exp_at (vw v') n x /\ accepts (eo_exp x) c).
  { intros n c (x & Hx & Ha). destruct (Ht _ _ Hx) as (x' & Hx' & T). exists x'. split; auto. apply (same_terms_accepts _ _ c T); auto. }
  assert (Hold : forall t' th', nth_error (v_threads v) t' = Some th' -> forall coll c ne todo ml n, vt_phase th' = Visiting coll c ne todo ml ->
    In n (map fst (ml_full ml)) -> exists x, exp_at (vw v') n x /\ accepts (eo_exp x) c).
  { intros. apply Hkeep. eapply (vi_full _ _ I); eauto. }
  assert (Hpold : forall t' th' n ci ne, nth_error (v_threads v) t' = Some th' -> pending_of (vt_phase th') = Some (n, ci, ne) ->
    exists x, exp_at (vw v) n x /\ accepts (eo_exp x) ci).
  { intros t' th' n ci ne Ht' Hp. eapply (ci_pending _ _ (vi_c _ _ I) t' (flat_thread th')); [apply flat_nth; eauto|exact Hp]. }
  assert (Q : forall w ph, core w = core (vw v) -> (forall n ci ne, pending_of ph = Some (n, ci, ne) -> exists x, exp_at (vw v) n x /\ accepts (eo_exp x) ci) ->
    v' = vleave v t w ph (v_log v) -> CInv release (flat v')).
  { intros w ph E Hn ->. apply (cinv_quiet release (flat v)); [apply (vi_c _ _ I)|exact E|reflexivity|].
    intros t' th' n ci ne Ht' Hp. cbn [flat c_threads] in Ht'. rewrite nth_error_map in Ht'.
    destruct (nth_error (v_threads (vleave v t w ph (v_log v))) t') as [th2|] eqn:E2; [|discriminate]. injection Ht' as <-.
    destruct (other_threads _ _ _ _ _ _ _ E2) as [[-> ->]|[_ E3]]; [eapply Hn; exact Hp|eapply Hpold; eauto; exact Hp]. }
  split.
  - destruct Hc; subst.
    + eapply cinv_step; [apply (vi_c _ _ I)|eauto].
    + eapply Q; [| |reflexivity]; [reflexivity|discriminate].
    + destruct (visit_ret _ _ _ _ _ _ H2) as (x & _ & E & _). eapply Q; [| |reflexivity]; [exact E|discriminate].
    + pose proof (choose_core (venter (vw v) th) c ne ml) as E. rewrite H2 in E. destruct E as [E Hin]. eapply Q; [| |reflexivity]; [exact E|].
      intros n' ci' ne' E'. injection E' as <- <- <-. eapply (vi_full _ _ I); eauto.
    + pose proof (choose_core (venter (vw v) th) c ne ml) as E. rewrite H2 in E. destruct E as [E _]. eapply Q; [| |reflexivity]; [exact E|discriminate].
    + eapply cinv_step; [apply (vi_c _ _ I)|eauto].
  - intros t' th' coll c ne todo ml n Ht' Hp Hin.
    destruct Hc; subst.
    + destruct H5 as (w & Hs & ->). destruct (other_threads _ _ _ _ _ _ _ Ht') as [[_ ->]|[_ Ho]]; [discriminate|eauto].
    + destruct (other_threads _ _ _ _ _ _ _ Ht') as [[_ ->]|[_ Ho]]; [|eauto]. injection Hp as <- <- <- <- <-. destruct Hin.
    + destruct (other_threads _ _ _ _ _ _ _ Ht') as [[_ ->]|[_ Ho]]; [|eauto]. injection Hp as <- <- <- <- <-.
      destruct (visit_ret _ _ _ _ _ _ H2) as (x & Hx & _ & _ & _ & _ & Ef & _). rewrite Ef, map_app in Hin. apply in_app_or in Hin. destruct Hin as [Hin|Hin].
      * apply Hkeep. eapply (vi_full _ _ I); eauto.
      * apply sel_full in Hin. destruct Hin as (-> & Ha & _). apply Hkeep. exists x. auto.
    + destruct (other_threads _ _ _ _ _ _ _ Ht') as [[_ ->]|[_ Ho]]; [discriminate|eauto].
    + destruct (other_threads _ _ _ _ _ _ _ Ht') as [[_ ->]|[_ Ho]]; [discriminate|eauto].
    + destruct (other_threads _ _ _ _ _ _ _ Ht') as [[_ ->]|[_ Ho]]; [discriminate|eauto].
Qed.

Lemma vi_run release k acts v : vruns release (vinit k) acts v -> VI release v.
Proof.
  intros H. pose proof (vi_init release k) as I. revert I. induction H as [|v t a v1 r acts v2 Hs Hr IH]; auto.
  intros I. apply IH. eapply vi_step; eauto.
Qed.

Lemma si_vstep v t a v' r : SI (vw v) -> vstep false v t a = VNext v' r -> SI (vw v').
Proof.
  intros I H. destruct (vstep_case _ _ _ _ _ _ H) as (th & Hth & Hc). destruct (vcase_core _ _ _ _ _ _ _ Hc) as [(o & -> & Hs)|[(-> & Hs)|(E & _)]].
  - exact (si_cstep (flat v) _ _ (flat v') _ I Hs).
  - exact (si_cstep (flat v) _ _ (flat v') _ I Hs).
  - eapply si_core; [symmetry; exact E|]. auto.
Qed.
Lemma si_vruns_from v acts v' : SI (vw v) -> vruns false v acts v' -> SI (vw v').
Proof. intros I H. induction H as [|v t a v1 r acts v2 Hs Hr IH]; auto. apply IH. eapply si_vstep; eauto. Qed.
Lemma si_vruns k acts v : vruns false (vinit k) acts v -> SI (vw v).
Proof. apply si_vruns_from. apply (si_init k). Qed.

Lemma ordered_core c c' : ordered c -> core (cw c') = core (cw c) -> c_log c' = c_log c -> ordered c'.
Proof. intros O E El. destruct (core_exps _ _ E) as (Ee & _). unfold ordered, exp_at in *. rewrite Ee, El. exact O. Qed.

Lemma ordered_vruns k acts v : vruns false (vinit k) acts v -> ordered (flat v).
Proof.
  assert (G : forall v acts v', vruns false v acts v' -> VI false v -> SI (vw v) -> ordered (flat v) -> ordered (flat v')).
  { intros v0 acts0 v' H. induction H as [|v0 t a v1 r acts0 v2 Hs Hr IH]; auto. intros I J O. apply IH.
    - eapply vi_step; eauto.
    - eapply si_vstep; eauto.
    - destruct (vstep_case _ _ _ _ _ _ Hs) as (th & Hth & Hc). destruct (vcase_core _ _ _ _ _ _ _ Hc) as [(o & -> & Hs')|[(-> & Hs')|(E & El)]].
      + eapply (ordered_step (flat v0)); eauto. apply (vi_c _ _ I).
      + eapply (ordered_step (flat v0)); eauto. apply (vi_c _ _ I).
      + eapply ordered_core; eauto. }
  intros H. apply (G _ _ _ H); [apply vi_init|apply (si_init k)|]. unfold ordered. cbn [flat vinit c_log v_log]. intros ? ? ? ? ? a ? ? ? ? ? ? ? ? E. destruct a; discriminate.
Qed.

(** In every interleaving of visits, with and without asserts, a call is counted only for an expectation which accepts it ... *)
Theorem C99_counted_calls_were_accepted release threads acts v t n c :
  vruns release (vinit threads) acts v -> In (t, n, c) (v_log v) -> exists x, exp_at (vw v) n x /\ accepts (eo_exp x) c.
Proof. intros H. apply (ci_log _ _ (vi_c _ _ (vi_run _ _ _ _ H))). Qed.

(** ... and the stored count is the number of counted calls. *)
Theorem C99_count_is_exact release threads acts v e x :
  vruns release (vinit threads) acts v -> exp_at (vw v) e x -> c_count (e_ctl (eo_exp x)) = Z.of_nat (times_in (v_log v) e).
Proof. intros H. apply (ci_count _ _ (vi_c _ _ (vi_run _ _ _ _ H))). Qed.

(** With asserts limits and the order of sequences are respected by programs which go on. *)
Theorem C99_limit_with_asserts threads acts v e x :
  vruns false (vinit threads) acts v -> exp_at (vw v) e x -> (Z.of_nat (times_in (v_log v) e) <= x_max x)%Z.
Proof.
  intros H Hx. pose proof (vi_c _ _ (vi_run _ _ _ _ H)) as I. change (times_in (v_log v) e) with (counted (flat v) e). rewrite <- (ci_count _ _ I _ _ Hx). apply (ci_max _ _ I eq_refl _ _ Hx).
Qed.

Theorem C99_sequences_in_order threads acts v e1 x1 e2 x2 s before t c behind :
  vruns false (vinit threads) acts v ->
  exp_at (vw v) e1 x1 -> exp_at (vw v) e2 x2 -> In s (x_seqs x1) -> In s (x_seqs x2) -> e1 < e2 ->
  v_log v = before ++ (t, e2, c) :: behind ->
  (x_min x1 <= Z.of_nat (times_in before e1))%Z /\ times_in behind e1 = 0.
Proof. intros H. apply (ordered_vruns _ _ _ H). Qed.

(** ** The mutex *)

(** A step changes only the collections whose mutex it takes. *)
Lemma step_colls w o w' r : step w o = Next w' r -> is_call o = false -> forall c l, nth_error (w_colls w) c = Some l ->
  In c (wants w o) \/ nth_error (w_colls w') c = Some l.
Proof.
  intros H Ho c l Hc.
  assert (End : forall sc e w1 r1, end_expectation (set_scoped w sc) e = Next w1 r1 ->
    (exists eo, nth_error (w_exps w) e = Some eo /\ c = eo_coll eo) \/ nth_error (w_colls w1) c = Some l).
  { intros sc e w1 r1 He. apply end_expectation_next in He. destruct He as (eo & l' & unf & evs & d' & He & Hl & Hin & Hrel & -> & _).
    cbn [w_exps w_colls set_scoped] in He, Hl. destruct (Nat.eq_dec c (eo_coll eo)) as [E|E]; [left; eauto|right].
    cbn [w_colls add_trace set_sdead kill set_colls set_exps set_scoped]. rewrite nth_error_upd_neq by auto. auto. }
  destruct o; try discriminate; cbn [step] in H.
  all: try (right; injection H as <- _; exact Hc).
  - destruct (nth s (w_iface w) false); [|discriminate]. right. apply release_seq_next in H. destruct H as [_ [[-> _]|(_ & _ & q & _ & -> & _)]]; exact Hc.
  - destruct (is_overload_set sigs && _); [|discriminate]. right. injection H as <- _. cbn [w_colls set_mocks set_colls].
    rewrite nth_error_app1; [exact Hc|eapply nth_error_lt; eauto].
  - right. repeat match type of H with context [match ?b with _ => _ end] => destruct b end; try discriminate; injection H as <- _; exact Hc.
  - right. repeat match type of H with context [match ?b with _ => _ end] => destruct b end; try discriminate; injection H as <- _; exact Hc.
  - right. repeat match type of H with context [match ?b with _ => _ end] => destruct b end; try discriminate; injection H as <- _; exact Hc.
  - apply do_expect_next in H. destruct H as (s & coll & Hf & Hlen & Hok & [(x & Hb & -> & ->)|(b & ss & ctl & ms' & Hb & Hfin & Hn & Hm & -> & ->)]); [right; exact Hc|].
    cbn [wants]. rewrite Hf, Hb. destruct (Nat.eq_dec coll c) as [E|E]; [left; left; exact E|right].
    cbn [w_colls new_world set_scoped set_colls set_exps set_seqs]. rewrite nth_error_upd_neq by auto. exact Hc.
  - right. unfold do_action in H. repeat match type of H with context [match ?b with _ => _ end] => destruct b end; try discriminate; injection H as <- _; exact Hc.
  - repeat match type of H with context [match ?b with _ => _ end] => destruct b end; discriminate.
  - right. unfold do_final in H. repeat match type of H with context [match ?b with _ => _ end] => destruct b end; try discriminate; injection H as <- _; exact Hc.
  - right. unfold do_return, thrown in H. repeat match type of H with context [match ?b with _ => _ end] => destruct b end; try discriminate; injection H as <- _; exact Hc.
  - right. repeat match type of H with context [match ?b with _ => _ end] => destruct b end; try discriminate; injection H as <- _; exact Hc.
  - cbn [wants]. unfold wants_handle. destruct (nth_error (w_scoped w) h) as [[e| |]|]; try discriminate.
    + destruct (End _ _ _ _ H) as [(eo & He & ->)|E]; [left; rewrite He; left; reflexivity|right; exact E].
    + right. injection H as <- _. exact Hc.
  - right. repeat match type of H with context [match ?b with _ => _ end] => destruct b end; try discriminate; injection H as <- _; exact Hc.
  - cbn [wants]. unfold wants_handle. destruct (nth_error (w_scoped w) dst) as [[e| |]|]; [| |destruct (nth_error (w_scoped w) src) as [[]|]; discriminate
      |destruct (nth_error (w_scoped w) src) as [[]|]; discriminate].
    + destruct (nth_error (w_scoped w) src) as [[e'| |]|]; try discriminate.
      all: destruct (dst =? src); [right; injection H as <- _; exact Hc|].
      all: destruct (end_expectation _ e) as [w2 r2| | |] eqn:He; try discriminate.
      all: assert (w2 = w') by (destruct r2; congruence); subst w2.
      all: destruct (End _ _ _ _ He) as [(eo & Hx & ->)|E]; [left; rewrite Hx; left; reflexivity|right; exact E].
    + right. destruct (nth_error (w_scoped w) src) as [[e'| |]|]; try discriminate.
      all: destruct (dst =? src); injection H as <- _; exact Hc.
Qed.

Lemma locked_spec v coll : locked v coll = true <-> exists t c todo, is_visiting v t coll c todo.
Proof.
  unfold locked, is_visiting. rewrite existsb_exists. split.
  - intros (th & Hin & Hv). apply In_nth_error in Hin. destruct Hin as (t & Ht). unfold visits in Hv.
    destruct (vt_phase th) as [|k c ne todo ml|] eqn:Hp; try discriminate. apply Nat.eqb_eq in Hv. subst k. exists t, c, todo, th, ne, ml. auto.
  - intros (t & c & todo & th & ne & ml & Ht & Hp). exists th. split; [eapply nth_error_In; eauto|]. unfold visits. rewrite Hp. apply Nat.eqb_refl.
Qed.

Record MI (v : vworld) : Prop := mkMI {
  mi_coll : forall c l, nth_error (w_colls (vw v)) c = Some l -> l = members (w_exps (vw v)) c;
  mi_collr : forall e x, exp_at (vw v) e x -> eo_coll x < length (w_colls (vw v));
  mi_vis : forall t coll c todo, is_visiting v t coll c todo -> exists lst visited, nth_error (w_colls (vw v)) coll = Some lst /\ rev lst = visited ++ todo;
  mi_one : forall t1 t2 coll c1 todo1 c2 todo2, is_visiting v t1 coll c1 todo1 -> is_visiting v t2 coll c2 todo2 -> t1 = t2
}.

Lemma mi_change w o r w' : change w o r w' -> is_call o = false ->
  (forall c l, nth_error (w_colls w) c = Some l -> l = members (w_exps w) c) -> (forall e x, exp_at w e x -> eo_coll x < length (w_colls w)) ->
  (forall c l, nth_error (w_colls w') c = Some l -> l = members (w_exps w') c) /\ (forall e x, exp_at w' e x -> eo_coll x < length (w_colls w')).
Proof.
  intros H Ho I1 I2. unfold exp_at in *. destruct H.
  - rewrite H2. destruct H3 as [E|(k & E)]; rewrite E; [auto|]. split.
    + intros c l Hl. destruct (Nat.lt_ge_cases c (length (w_colls w))) as [Hlt|Hge].
      * rewrite nth_error_app1 in Hl by auto. auto.
      * rewrite nth_error_app2 in Hl by auto. apply nth_error_In, repeat_spec in Hl. subst l. symmetry.
        destruct (members (w_exps w) c) as [|e l] eqn:Em; auto. assert (Hin : In e (members (w_exps w) c)) by (rewrite Em; left; auto).
        apply members_in in Hin. destruct Hin as (x & Hx & _ & Hc). apply I2 in Hx. lia.
    + intros e x Hx. apply I2 in Hx. rewrite app_length. lia.
  - subst w'. auto.
  - subst w'. auto.
  - subst w'. cbn [w_colls w_exps new_world set_scoped set_colls set_exps set_seqs]. split.
    + intros c l' Hl. rewrite members_snoc. cbn [eo_alive eo_coll andb]. apply nth_error_upd in Hl. destruct Hl as [(-> & _ & ->)|(Hne & Hl)].
      * rewrite Nat.eqb_refl. rewrite <- (I1 _ _ H6). reflexivity.
      * destruct (Nat.eqb_spec coll c); [congruence|]. rewrite app_nil_r. auto.
    + intros e x Hx. rewrite length_upd. destruct (Nat.lt_ge_cases e (length (w_exps w))) as [Hlt|Hge].
      * rewrite nth_error_app1 in Hx by auto. eauto.
      * rewrite nth_error_app2 in Hx by auto. destruct (e - length (w_exps w)) as [|k]; [|destruct k; discriminate]. injection Hx as <-. cbn [eo_coll].
        eapply nth_error_lt; eauto.
  - subst o. discriminate.
  - destruct H as [sc ->]. subst w'. cbn [w_colls w_exps add_trace set_sdead kill set_colls set_exps set_scoped]. split.
    + intros c l' Hl. rewrite (members_kill _ _ _ _ H0). apply nth_error_upd in Hl. destruct Hl as [(Hq & _ & ->)|(Hne & Hl)].
      * subst c. rewrite Nat.eqb_refl. f_equal. apply I1; auto.
      * destruct (Nat.eqb_spec (eo_coll eo) c); [congruence|]. auto.
    + intros e' x Hx. rewrite length_upd. apply nth_error_upd in Hx. destruct Hx as [(-> & _ & ->)|(Hne & Hx)]; cbn [eo_coll]; eauto.
Qed.

Lemma count_colls release w n ci ne w' r : count_call release w n ci ne = Next w' r -> w_colls w' = w_colls w.
Proof.
  unfold count_call, thrown. cbv zeta. intros H. destruct (nth_error (w_exps w) n) as [eo|]; [|discriminate].
  destruct (negb (eo_alive eo)); [discriminate|]. destruct (consume_with release (w_seqs w) (e_ctl (eo_exp eo))) as [[ss ctl]| | |]; try discriminate.
  - destruct (consume_asserts _ _); try discriminate. injection H as <- _. reflexivity.
  - destruct ne; [discriminate|]. injection H as <- _. reflexivity.
Qed.

Lemma is_visiting_leave v t w ph log t' coll c todo : is_visiting (vleave v t w ph log) t' coll c todo ->
  (t' = t /\ exists ne ml, ph = Visiting coll c ne todo ml) \/ (t' <> t /\ is_visiting v t' coll c todo).
Proof.
  intros (th & ne & ml & Ht & Hp). destruct (other_threads _ _ _ _ _ _ _ Ht) as [[-> ->]|[Hne Ho]].
  - left. split; auto. cbn [vt_phase] in Hp. eauto.
  - right. split; auto. exists th, ne, ml. auto.
Qed.

Lemma mi_init k : MI (vinit k).
Proof.
  assert (N : forall t coll c todo, ~ is_visiting (vinit k) t coll c todo).
  { intros t coll c todo (th & ne & ml & H & Hp). apply nth_error_In in H. cbn [vinit v_threads] in H. apply repeat_spec in H. subst. discriminate. }
  split; cbn [vinit vw].
  - intros c l H. destruct c; discriminate.
  - intros e x H. unfold exp_at in H. destruct e; discriminate.
  - intros t coll c todo H. exfalso. eapply N; eauto.
  - intros t1 t2 coll c1 todo1 c2 todo2 H. exfalso. eapply N; eauto.
Qed.

Lemma mi_step release v t a v' r : MI v -> vstep release v t a = VNext v' r -> MI v'.
Proof.
  intros I H. destruct (vstep_case _ _ _ _ _ _ H) as (th & Hth & Hc).
  assert (Colls : (forall c l, nth_error (w_colls (vw v')) c = Some l -> l = members (w_exps (vw v')) c) /\
    (forall e x, exp_at (vw v') e x -> eo_coll x < length (w_colls (vw v')))).
  { destruct (vcase_core _ _ _ _ _ _ _ Hc) as [(o & -> & Hs)|[(-> & Hs)|(E & _)]].
    - apply cstep_op in Hs. destruct Hs as (th' & w & _ & _ & Ho & Hs & E). change (vw v') with (cw (flat v')). rewrite E.
      apply (mi_change _ _ _ _ (step_change _ _ _ _ Hs) Ho); [apply (mi_coll _ I)|apply (mi_collr _ I)].
    - destruct Hc; try discriminate. pose proof (count_colls _ _ _ _ _ _ _ H3) as Ec. subst v'. cbn [vleave vw w_colls w_exps set_uncaught set_frames].
      rewrite Ec. apply cstep_count in Hs. destruct Hs as (th' & n' & ci & ne' & y & w & ss & ctl & _ & _ & Hy & Ha & Hcons & _ & _ & _ & E & Ee).
      apply (f_equal cw) in E. cbn [flat cw vleave vw leave] in E. apply (f_equal w_exps) in E. cbn [w_exps set_uncaught set_frames] in E. unfold exp_at.
      cbn [vleave vw w_colls w_exps set_uncaught set_frames]. rewrite E, Ee. cbn [flat cw] in *. split.
      + intros c' l Hl. rewrite (members_upd_same _ _ _ _ _ Hy); auto. apply (mi_coll _ I); auto.
      + intros e x Hx. apply nth_error_upd in Hx. destruct Hx as [(-> & _ & ->)|(Hne & Hx)]; cbn [eo_coll]; eapply (mi_collr _ I); eauto.
    - destruct (core_exps _ _ E) as (Ee & _ & Ec). unfold exp_at. rewrite Ee, Ec. split; [apply (mi_coll _ I)|apply (mi_collr _ I)]. }
  split; [apply Colls|apply Colls| |].
  - intros t' coll c todo Hv.
    assert (Keep : is_visiting v t' coll c todo -> w_colls (vw v') = w_colls (vw v) -> exists lst visited, nth_error (w_colls (vw v')) coll = Some lst /\ rev lst = visited ++ todo).
    { intros Hv' ->. apply (mi_vis _ I t' coll c todo Hv'). }
    destruct Hc.
    + destruct H5 as (w & Hs & ->). apply is_visiting_leave in Hv. destruct Hv as [(_ & ne & ml & E)|(Hne & Hv)]; [discriminate|].
      destruct (mi_vis _ I _ _ _ _ Hv) as (lst & visited & Hl & Hr). exists lst, visited. split; auto.
      destruct (step_colls _ _ _ _ Hs H2 _ _ Hl) as [Hin|E]; [|exact E]. exfalso.
      assert (Hk : existsb (locked v) (wants (venter (vw v) th) o) = true); [|congruence].
      apply existsb_exists. exists coll. split; auto. apply locked_spec. eauto.
    + subst v'. apply is_visiting_leave in Hv. destruct Hv as [(-> & ne' & ml & E)|(Hne & Hv)]; [|apply Keep; auto].
      injection E as <- <- <- <- <-. exists lst, []. auto.
    + subst v'. assert (Ec : w_colls w' = w_colls (vw v)). { destruct (visit_ret _ _ _ _ _ _ H2) as (x & _ & E & _). apply core_exps in E. apply E. }
      apply is_visiting_leave in Hv. destruct Hv as [(-> & ne' & ml0 & E)|(Hne & Hv)]; [|apply Keep; auto].
      injection E as <- <- <- <- <-. destruct (mi_vis _ I t coll0 c0 (n :: todo0)) as (lst & visited & Hl & Hr); [exists th, ne, ml; auto|].
      exists lst, (visited ++ [n]). split; [cbn [vleave vw w_colls set_uncaught set_frames]; rewrite Ec; exact Hl|]. rewrite <- app_assoc. exact Hr.
    + subst v'. pose proof (choose_core (venter (vw v) th) c0 ne ml) as E. rewrite H2 in E. destruct E as [E _]. apply core_exps in E.
      apply is_visiting_leave in Hv. destruct Hv as [(-> & ne' & ml0 & E')|(Hne & Hv)]; [discriminate|]. apply Keep; auto. apply E.
    + subst v'. pose proof (choose_core (venter (vw v) th) c0 ne ml) as E. rewrite H2 in E. destruct E as [E _]. apply core_exps in E.
      apply is_visiting_leave in Hv. destruct Hv as [(-> & ne' & ml0 & E')|(Hne & Hv)]; [discriminate|]. apply Keep; auto. apply E.
    + pose proof (count_colls _ _ _ _ _ _ _ H3) as Ec. subst v'.
      apply is_visiting_leave in Hv. destruct Hv as [(-> & ne' & ml0 & E')|(Hne & Hv)]; [discriminate|]. apply Keep; auto.
  - assert (One : forall t1 coll c1 todo1, is_visiting v' t1 coll c1 todo1 ->
      (exists c0 todo0, is_visiting v t1 coll c0 todo0) \/ (t1 = t /\ locked v coll = false)).
    { intros t1 coll c1 todo1 Hv. destruct Hc.
      - destruct H5 as (w & Hs & ->). apply is_visiting_leave in Hv. destruct Hv as [(_ & ne & ml & E)|(Hne & Hv)]; [discriminate|eauto].
      - subst v'. apply is_visiting_leave in Hv. destruct Hv as [(-> & ne' & ml & E)|(Hne & Hv)]; [|eauto]. injection E as <- <- <- <- <-. auto.
      - subst v'. apply is_visiting_leave in Hv. destruct Hv as [(-> & ne' & ml0 & E)|(Hne & Hv)]; [|eauto]. injection E as <- <- <- <- <-. left.
        exists c, (n :: todo), th, ne, ml. auto.
      - subst v'. apply is_visiting_leave in Hv. destruct Hv as [(-> & ne' & ml0 & E)|(Hne & Hv)]; [discriminate|eauto].
      - subst v'. apply is_visiting_leave in Hv. destruct Hv as [(-> & ne' & ml0 & E)|(Hne & Hv)]; [discriminate|eauto].
      - subst v'. apply is_visiting_leave in Hv. destruct Hv as [(-> & ne' & ml0 & E)|(Hne & Hv)]; [discriminate|eauto]. }
    intros t1 t2 coll c1 todo1 c2 todo2 H1 H2. apply One in H1. apply One in H2.
    destruct H1 as [(a1 & b1 & H1)|[-> K]], H2 as [(a2 & b2 & H2)|[-> K2]]; auto.
    + eapply (mi_one _ I); eauto.
    + assert (locked v coll = true) by (apply locked_spec; eauto). congruence.
    + assert (locked v coll = true) by (apply locked_spec; eauto). congruence.
Qed.

Lemma mi_run release k acts v : vruns release (vinit k) acts v -> MI v.
Proof.
  intros H. pose proof (mi_init k) as I. revert I. induction H as [|v t a v1 r acts v2 Hs Hr IH]; auto.
  intros I. apply IH. eapply mi_step; eauto.
Qed.

(** Two threads never visit the expectations of one overload at the same time, and no thread ever visits an expectation which is
    destroyed or belongs to another overload. *)
Theorem C99_one_thread_at_a_time release threads acts v t1 t2 coll c1 todo1 c2 todo2 :
  vruns release (vinit threads) acts v -> is_visiting v t1 coll c1 todo1 -> is_visiting v t2 coll c2 todo2 -> t1 = t2.
Proof. intros H. apply (mi_one _ (mi_run _ _ _ _ H)). Qed.

Theorem C99_visited_are_alive release threads acts v t coll c todo n :
  vruns release (vinit threads) acts v -> is_visiting v t coll c todo -> In n todo -> exists x, live_in (vw v) coll n x.
Proof.
  intros H Hv Hn. pose proof (mi_run _ _ _ _ H) as I. destruct (mi_vis _ I _ _ _ _ Hv) as (lst & visited & Hl & Hr).
  assert (Hin : In n lst) by (apply in_rev; rewrite Hr; apply in_or_app; auto). rewrite (mi_coll _ I _ _ Hl) in Hin. apply members_in in Hin.
  destruct Hin as (x & Hx & Ha & Hc). exists x. repeat split; auto.
Qed.

(** An action which waits for a mutex waits for a thread which can go on. *)
Theorem C99_blocked_waits_for_a_visit release v t a :
  vstep release v t a = VBlocked ->
  exists t' coll c todo, is_visiting v t' coll c todo /\ t' <> t /\
    let next := match todo with [] => VChoose | _ :: _ => VVisit end in
    vstep release v t' next <> VBlocked /\ vstep release v t' next <> VInvalid.
Proof.
  intros H.
  assert (K : exists th coll, nth_error (v_threads v) t = Some th /\ vt_phase th = Idle /\ locked v coll = true).
  { unfold vstep in H. destruct (nth_error (v_threads v) t) as [th|] eqn:Hth; [|discriminate]. exists th.
    destruct (vt_phase th) as [|coll c ne todo ml|n c ne] eqn:Hp.
    - destruct a as [o|m ov args l| | |]; try discriminate.
      + destruct (is_call o); [discriminate|]. destruct (existsb _ _) eqn:Hb.
        * apply existsb_exists in Hb. destruct Hb as (coll & _ & Hb). eauto.
        * destruct (step _ o); discriminate.
      + destruct (find_overload _ m ov) as [s|[s coll]]; [destruct s; discriminate|]. destruct (negb _); [discriminate|].
        destruct (locked v coll) eqn:Hk; [eauto|]. destruct (nth_error _ coll); discriminate.
    - destruct a, todo; try discriminate; [destruct (visit _ c n ml) as [[? ?]| | |]|destruct (choose _ c ne ml) as [? ?|[]]]; try discriminate.
      unfold thrown in H. destruct ne; discriminate.
    - destruct a; try discriminate. destruct (count_call _ _ n c ne); discriminate. }
  destruct K as (th & coll & Hth & Hp & Hk). apply locked_spec in Hk. destruct Hk as (t' & c & todo & th' & ne & ml & Ht' & Hp').
  exists t', coll, c, todo. split; [exists th', ne, ml; auto|]. split; [intros ->; congruence|]. cbv zeta.
  unfold vstep. rewrite Ht'. destruct todo as [|n todo]; rewrite Hp'.
  - pose proof (choose_core (venter (vw v) th') c ne ml) as _. destruct (choose _ c ne ml) as [? ?|s] eqn:Hc; [split; discriminate|].
    destruct s; cbn [vembed]; try (split; discriminate). exfalso. unfold choose, thrown in Hc.
    repeat match type of Hc with context [match ?b with _ => _ end] => destruct b end; discriminate.
  - destruct (visit _ c n ml) as [[? ?]| | |] eqn:Hv; try (split; discriminate). exfalso. eapply visit_nothrow; eauto.
Qed.

(** It does not wait longer than needed: a call waits only while its own overload is visited, another operation only if it would
    change a collection which is visited. *)
Lemma wants_changed w o w' r coll : step w o = Next w' r -> In coll (wants w o) ->
  exists l, nth_error (w_colls w) coll = Some l /\ nth_error (w_colls w') coll <> Some l.
Proof.
  intros H Hin.
  assert (End : forall sc h w1 r1, (exists e, nth_error (w_scoped w) h = Some (HOwns e) /\ end_expectation (set_scoped w sc) e = Next w1 r1) -> In coll (wants_handle w h) ->
    exists l, nth_error (w_colls w) coll = Some l /\ nth_error (w_colls w1) coll <> Some l).
  { intros sc h w1 r1 (e & Hh & He) Hw. unfold wants_handle in Hw. rewrite Hh in Hw. apply end_expectation_next in He.
    destruct He as (eo & l & unf & evs & d' & He & Hl & Hi & _ & -> & _). cbn [w_exps w_colls set_scoped] in He, Hl. rewrite He in Hw. destruct Hw as [<-|[]].
    exists l. split; auto. cbn [w_colls add_trace set_sdead kill set_colls set_exps set_scoped]. rewrite nth_error_upd_eq by (eapply nth_error_lt; eauto).
    intros E. injection E as E. apply (f_equal (@length _)) in E. revert Hi E. clear. induction l as [|y l IH]; cbn [In erase_first]; [tauto|].
    destruct (Nat.eqb_spec e y) as [->|Hne]; [cbn [length]; lia|]. intros [Hy|Hi] E; [congruence|]. cbn [length] in E. apply IH; auto. }
  destruct o; try (destruct Hin; fail).
  - cbn [step] in H. cbn [wants] in Hin. apply do_expect_next in H. destruct H as (s & c & Hf & _ & _ & [(x & Hb & _)|(b & ss & ctl & ms' & Hb & _ & _ & Hm & -> & ->)]).
    + rewrite Hf, Hb in Hin. destruct Hin.
    + rewrite Hf, Hb in Hin. destruct Hin as [<-|[]]. exists ms'. split; auto. cbn [w_colls new_world set_scoped set_colls set_exps set_seqs].
      rewrite nth_error_upd_eq by (eapply nth_error_lt; eauto). intros E. injection E as E. apply (f_equal (@length _)) in E. rewrite app_length in E. cbn in E. lia.
  - cbn [step] in H. cbn [wants] in Hin. assert (Hh := Hin). unfold wants_handle in Hh. destruct (nth_error (w_scoped w) h) as [[e| |]|] eqn:Hs; try (destruct Hh; fail).
    eapply End; eauto.
  - cbn [step] in H. cbn [wants] in Hin. destruct (dst =? src) eqn:Hds; [destruct Hin|]. assert (Hh := Hin). unfold wants_handle in Hh.
    destruct (nth_error (w_scoped w) dst) as [[e| |]|] eqn:Hs; try (destruct Hh; fail).
    destruct (nth_error (w_scoped w) src) as [[e'| |]|]; try discriminate.
    all: destruct (end_expectation _ e) as [w2 r2| | |] eqn:He; try discriminate.
    all: assert (w2 = w') by (destruct r2; congruence); subst w2; eapply End; eauto.
Qed.

Theorem C99_waits_only_if_needed release v t a : vstep release v t a = VBlocked ->
  exists th coll t' c todo, nth_error (v_threads v) t = Some th /\ vt_phase th = Idle /\ is_visiting v t' coll c todo /\
    match a with
    | VCall m ov args l => exists s, find_overload (venter (vw v) th) m ov = inr (s, coll)
    | VOp o => forall w r, step (venter (vw v) th) o = Next w r -> exists lst, nth_error (w_colls (vw v)) coll = Some lst /\ nth_error (w_colls w) coll <> Some lst
    | _ => False
    end.
Proof.
  unfold vstep. intros H. destruct (nth_error (v_threads v) t) as [th|] eqn:Hth; [|discriminate].
  destruct (vt_phase th) as [|coll c ne todo ml|n c ne] eqn:Hp.
  - destruct a as [o|m ov args l| | |]; try discriminate.
    + destruct (is_call o); [discriminate|]. destruct (existsb _ _) eqn:Hb; [|destruct (step _ o); discriminate].
      apply existsb_exists in Hb. destruct Hb as (coll & Hin & Hb). apply locked_spec in Hb. destruct Hb as (t' & c & todo & Hv).
      exists th, coll, t', c, todo. split; auto. split; auto. split; auto. intros w r Hs. eapply (wants_changed (venter (vw v) th)); eauto.
    + destruct (find_overload _ m ov) as [s|[s coll]] eqn:Hf; [destruct s; discriminate|]. destruct (negb _); [discriminate|].
      destruct (locked v coll) eqn:Hk; [|destruct (nth_error _ coll); discriminate]. apply locked_spec in Hk. destruct Hk as (t' & c & todo & Hv).
      exists th, coll, t', c, todo. split; auto. split; auto. split; auto. exists s. exact Hf.
  - exfalso. destruct a, todo; try discriminate; [destruct (visit _ c n ml) as [[? ?]| | |]|destruct (choose _ c ne ml) as [? ?|[]]]; try discriminate.
    unfold thrown in H. destruct ne; discriminate.
  - destruct a; try discriminate. destruct (count_call _ _ n c ne); discriminate.
Qed.

(** ** In one go *)

Lemma loop_cons rp u ss c n e es acc : match_loop rp u ss c ((n, e) :: es) acc = obind (match_loop rp u ss c [(n, e)] acc) (match_loop rp u ss c es).
Proof. cbn [match_loop]. destruct (make_match_report rp u ss e c); reflexivity. Qed.

Lemma loop_unhandled rp u ss c es : forall f i nn un, match_loop rp u ss c es (mkLists f i nn un) =
  obind (match_loop rp u ss c es (mkLists f i nn [])) (fun ml => Ret (mkLists (ml_full ml) (ml_inapplicable ml) (ml_none ml) (un ++ ml_unhandled ml))).
Proof.
  induction es as [|[n e] es IH]; intros f i nn un; cbn [match_loop obind ml_full ml_inapplicable ml_none ml_unhandled]; [rewrite app_nil_r; reflexivity|].
  destruct (make_match_report rp u ss e c) as [a| | |]; cbn [obind]; auto.
  destruct a as [m|r x]; [|rewrite (IH f i nn (un ++ _)), (IH f i nn ([] ++ _)); destruct (match_loop rp u ss c es _); cbn [obind]; auto;
    cbn [app ml_full ml_inapplicable ml_none ml_unhandled]; rewrite <- app_assoc; reflexivity].
  destruct (evaluate_match_report m); apply IH.
Qed.

Lemma emit_app c a : forall b w, emit_unhandled w c (a ++ b) = emit_unhandled (emit_unhandled w c a) c b.
Proof. induction a as [|[n [r x]] a IH]; intros b w; cbn [app emit_unhandled]; auto. Qed.

Lemma emit_fields c l : forall w, w_reporter (emit_unhandled w c l) = w_reporter w /\ w_uncaught (emit_unhandled w c l) = w_uncaught w /\
  w_seqs (emit_unhandled w c l) = w_seqs w /\ w_exps (emit_unhandled w c l) = w_exps w /\ w_colls (emit_unhandled w c l) = w_colls w.
Proof. induction l as [|[n [r x]] l IH]; intros w; cbn [emit_unhandled]; auto 6. destruct (IH (emit_report w (RUnhandled (make_call_report c) r x) [n])) as (-> & -> & -> & -> & ->). auto 6. Qed.

Definition quiet_lists (ml : match_lists) : match_lists := mkLists (ml_full ml) (ml_inapplicable ml) (ml_none ml) [].

Lemma venter_vleave w : set_uncaught (set_frames (set_uncaught (set_frames w []) 0) (w_frames w)) (w_uncaught w) = w.
Proof. destruct w. reflexivity. Qed.
Lemma vleave_vleave v t w ph log w' ph' log' : vleave (vleave v t w ph log) t w' ph' log' = vleave v t w' ph' log'.
Proof. unfold vleave. cbn [v_threads]. rewrite upd_upd. reflexivity. Qed.
Lemma vleave_thread v t w ph log : t < length (v_threads v) -> nth_error (v_threads (vleave v t w ph log)) t = Some (mkVT (w_frames w) (w_uncaught w) ph).
Proof. intros H. cbn [vleave v_threads]. apply nth_error_upd_eq. exact H. Qed.

Lemma vstep_visit release v t w coll c ne n todo ml log : t < length (v_threads v) ->
  vstep release (vleave v t w (Visiting coll c ne (n :: todo) ml) log) t VVisit =
  match visit w c n ml with
  | Throw x => vembed v t log (thrown ne w x)
  | Terminate => VStop
  | Undef u => VWrong u
  | Ret (w', ml') => VNext (vleave v t w' (Visiting coll c ne todo ml') log) RUnit
  end.
Proof.
  intros Ht. unfold vstep. rewrite vleave_thread by auto. cbn [vt_phase]. unfold venter. cbn [vleave vw vt_frames vt_uncaught]. rewrite venter_vleave.
  destruct (visit w c n ml) as [[w' ml']|x| |u]; auto.
  - f_equal. apply vleave_vleave.
  - unfold thrown. destruct ne; auto. cbn [vembed]. f_equal. apply vleave_vleave.
Qed.

Lemma vstep_choose release v t w coll c ne ml log : t < length (v_threads v) ->
  vstep release (vleave v t w (Visiting coll c ne [] ml) log) t VChoose =
  match choose w c ne ml with
  | MOver s => vembed v t log s
  | MChosen w' n => VNext (vleave v t w' (Picked n c ne) log) RUnit
  end.
Proof.
  intros Ht. unfold vstep. rewrite vleave_thread by auto. cbn [vt_phase]. unfold venter. cbn [vleave vw vt_frames vt_uncaught]. rewrite venter_vleave.
  destruct (choose w c ne ml) as [w' n|s].
  - f_equal. apply vleave_vleave.
  - cbn [v_log vleave]. destruct s; cbn [vembed]; auto. f_equal. apply vleave_vleave.
Qed.

(** Visiting all expectations without interruption is the loop of handle_call. *)
Lemma visits_run release v t coll c ne log : t < length (v_threads v) -> forall todo w ml v2, ml_unhandled ml = [] ->
  (vruns release (vleave v t w (Visiting coll c ne todo ml) log) (repeat (t, VVisit) (length todo)) v2 <->
   exists es ml', lookup_exps w todo = Some es /\ match_loop (w_reporter w) (w_uncaught w) (w_seqs w) c es ml = Ret ml' /\
     v2 = vleave v t (emit_unhandled w c (ml_unhandled ml')) (Visiting coll c ne [] (quiet_lists ml')) log).
Proof.
  intros Ht. induction todo as [|n todo IH]; intros w ml v2 Hu.
  - cbn [length repeat lookup_exps]. split.
    + intros H. inversion H; subst. exists [], ml. split; auto. cbn [match_loop]. split; auto. rewrite Hu. cbn [emit_unhandled]. f_equal. f_equal.
      destruct ml. cbn in *. subst. reflexivity.
    + intros (es & ml' & E & H & ->). injection E as <-. cbn [match_loop] in H. injection H as <-. rewrite Hu. cbn [emit_unhandled].
      replace (quiet_lists ml) with ml; [constructor|]. destruct ml. cbn in *. subst. reflexivity.
  - cbn [length repeat lookup_exps].
    assert (L : forall x es ml', nth_error (w_exps w) n = Some x ->
      (match_loop (w_reporter w) (w_uncaught w) (w_seqs w) c ((n, eo_exp x) :: es) ml = Ret ml' <->
       exists w1 ml1 ml2, visit w c n ml = Ret (w1, ml1) /\ ml_unhandled ml1 = [] /\
         match_loop (w_reporter w) (w_uncaught w) (w_seqs w) c es ml1 = Ret ml2 /\ quiet_lists ml' = quiet_lists ml2 /\
         emit_unhandled w c (ml_unhandled ml') = emit_unhandled w1 c (ml_unhandled ml2) /\ 
         exists un, ml_unhandled ml' = un ++ ml_unhandled ml2 /\ w1 = emit_unhandled w c un /\
           match_loop (w_reporter w) (w_uncaught w) (w_seqs w) c [(n, eo_exp x)] ml = Ret (mkLists (ml_full ml1) (ml_inapplicable ml1) (ml_none ml1) un))).
    { intros x es ml' Hx. rewrite loop_cons. unfold visit. rewrite Hx. destruct (match_loop _ _ _ _ [(n, eo_exp x)] ml) as [m0|y| |u] eqn:E0; cbn [obind].
      - destruct m0 as [f i nn un]. rewrite loop_unhandled. cbn [ml_full ml_inapplicable ml_none ml_unhandled]. split.
        + intros H. destruct (match_loop _ _ _ _ es _) as [m1| | |] eqn:E1; cbn [obind] in H; try discriminate. injection H as <-.
          eexists _, _, m1. split; [reflexivity|]. split; [reflexivity|]. split; [exact E1|]. split; [reflexivity|]. cbn [ml_unhandled]. split; [apply emit_app|].
          exists un. auto.
        + intros (w1 & ml1 & ml2 & E & _ & E1 & Eq & Ee & un' & Eu & Ew & Em). injection E as <- <-. rewrite E1. cbn [obind]. injection Em as <-.
          f_equal. destruct ml' as [a1 a2 a3 a4], ml2 as [b1 b2 b3 b4]. cbn in *. unfold quiet_lists in Eq. cbn in Eq. injection Eq as -> -> ->. subst a4. reflexivity.
      - split; [discriminate|]. intros (w1 & ml1 & ml2 & E & _). discriminate.
      - split; [discriminate|]. intros (w1 & ml1 & ml2 & E & _). discriminate.
      - split; [discriminate|]. intros (w1 & ml1 & ml2 & E & _). discriminate. }
    split.
    + intros H. inversion H as [|x1 x2 x3 y r x5 x6 Hs Hr]; subst. rewrite vstep_visit in Hs by auto.
      destruct (visit w c n ml) as [[w1 ml1]|x| |u] eqn:Hv; try discriminate; [|exfalso; eapply visit_nothrow; eauto]. injection Hs as <- <-.
      destruct (visit_ret _ _ _ _ _ _ Hv) as (x & Hx & _ & _ & _ & _ & _ & _ & _ & Hu1 & Ew). apply IH in Hr; auto.
      destruct Hr as (es & ml2 & Hes & Hml & ->). rewrite Hx.
      assert (Efields : w_reporter w1 = w_reporter w /\ w_uncaught w1 = w_uncaught w /\ w_seqs w1 = w_seqs w /\ w_exps w1 = w_exps w /\ w_colls w1 = w_colls w)
        by (rewrite Ew; apply emit_fields).
      destruct Efields as (F1 & F2 & F3 & F4 & _). rewrite F1, F2, F3 in Hml.
      assert (Hes' : lookup_exps w todo = Some es) by (rewrite <- Hes; apply lookup_exps_ext; auto). rewrite Hes'.
      pose proof Hv as Hv'. unfold visit in Hv. rewrite Hx in Hv. destruct (match_loop _ _ _ _ [(n, eo_exp x)] ml) as [m0| | |] eqn:E0; cbn [obind] in Hv; try discriminate.
      injection Hv as <- <-.
      exists ((n, eo_exp x) :: es), (mkLists (ml_full ml2) (ml_inapplicable ml2) (ml_none ml2) (ml_unhandled m0 ++ ml_unhandled ml2)). split; [reflexivity|]. split.
      * apply (L x es _ Hx). eexists _, _, ml2. split; [reflexivity|]. split; [reflexivity|]. split; [exact Hml|]. split; [reflexivity|]. cbn [ml_unhandled].
        split; [apply emit_app|]. exists (ml_unhandled m0). split; auto. split; auto. cbn [ml_full ml_inapplicable ml_none]. rewrite E0. destruct m0. reflexivity.
      * cbn [ml_unhandled]. rewrite emit_app. reflexivity.
    + intros (es & ml' & Hes & Hml & ->). destruct (nth_error (w_exps w) n) as [x|] eqn:Hx; [|discriminate].
      destruct (lookup_exps w todo) as [es'|] eqn:Hes'; [|discriminate]. injection Hes as <-. apply (L x es' _ eq_refl) in Hml.
      destruct Hml as (w1 & ml1 & ml2 & Hv & Hu1 & Hml & Eq & Ee & un & Eun & Ew & _).
      econstructor; [rewrite vstep_visit by auto; rewrite Hv; reflexivity|]. apply IH; auto. exists es', ml2.
      assert (Efields : w_reporter w1 = w_reporter w /\ w_uncaught w1 = w_uncaught w /\ w_seqs w1 = w_seqs w /\ w_exps w1 = w_exps w /\ w_colls w1 = w_colls w)
        by (rewrite Ew; apply emit_fields).
      destruct Efields as (F1 & F2 & F3 & F4 & _). rewrite F1, F2, F3. split; [rewrite <- Hes'; apply lookup_exps_ext; auto|]. split; auto. rewrite Eq, Ee. reflexivity.
Qed.

Lemma choose_match w coll c ne lst es ml : nth_error (w_colls w) coll = Some lst -> lookup_exps w (rev lst) = Some es ->
  match_loop (w_reporter w) (w_uncaught w) (w_seqs w) c es (mkLists [] [] [] []) = Ret ml ->
  match_call w coll c ne = choose (emit_unhandled w c (ml_unhandled ml)) c ne (quiet_lists ml).
Proof. intros H1 H2 H3. unfold match_call. rewrite H1, H2, H3. reflexivity. Qed.

(** A call whose visits are not interrupted is the one step of Conc.v, and every such step can be done by visits if no other thread
    visits expectations of the overload. *)
Theorem C99_uninterrupted_visits_are_one_step release v t m ov args l v1 r1 coll c todo v2 v3 r :
  vstep release v t (VCall m ov args l) = VNext v1 r1 -> is_visiting v1 t coll c todo ->
  vruns release v1 (repeat (t, VVisit) (length todo)) v2 -> vstep release v2 t VChoose = VNext v3 r ->
  cstep release (flat v) t (AMatch m ov args l) = CNext (flat v3) r.
Proof.
  intros H1 Hv Hr H3. destruct (vstep_case _ _ _ _ _ _ H1) as (th & Hth & Hc). destruct Hc; try discriminate.
  injection H as <- <- <- <-. subst v1 ne r1. assert (Ht : t < length (v_threads v)) by (eapply nth_error_lt; eauto).
  apply is_visiting_leave in Hv. destruct Hv as [(_ & ne' & ml & E)|(Hne & _)]; [|congruence]. injection E as <- <- <- <- <-.
  apply visits_run in Hr; auto. destruct Hr as (es & ml' & Hes & Hml & ->). rewrite vstep_choose in H3 by auto.
  rewrite <- (choose_match _ coll0 _ _ lst es ml') in H3; auto.
  unfold cstep. rewrite (flat_nth _ _ _ Hth). cbn [flat_thread t_pending]. rewrite H0. cbn [pending_of]. fold (flat_thread th).
  replace (enter (cw (flat v)) _) with (venter (vw v) th) by reflexivity. rewrite H2. rewrite H4, Nat.eqb_refl. cbn [negb]. fold (call_of s args l).
  destruct (match_call _ coll0 _ _) as [w' n|sm].
  - injection H3 as <- <-. rewrite flat_leave. reflexivity.
  - destruct sm; cbn [vembed embed] in *; try discriminate. injection H3 as <- <-. rewrite flat_leave. reflexivity.
Qed.

Theorem C99_one_step_by_visits release v t m ov args l c' r th :
  cstep release (flat v) t (AMatch m ov args l) = CNext c' r -> nth_error (v_threads v) t = Some th -> vt_phase th = Idle ->
  (forall s coll, find_overload (venter (vw v) th) m ov = inr (s, coll) -> forall t' c todo, ~ is_visiting v t' coll c todo) ->
  exists k v1, vruns release v ((t, VCall m ov args l) :: repeat (t, VVisit) k ++ [(t, VChoose)]) v1 /\ flat v1 = c'.
Proof.
  intros H Hth Hp Hfree. assert (Ht : t < length (v_threads v)) by (eapply nth_error_lt; eauto). apply cstep_match in H.
  destruct H as (fth & s & coll & Hft & _ & Hf & Hl & Hm). rewrite (flat_nth _ _ _ Hth) in Hft. injection Hft as <-.
  replace (enter (cw (flat v)) (flat_thread th)) with (venter (vw v) th) in * by reflexivity. set (w := venter (vw v) th) in *.
  assert (Hk : locked v coll = false). { destruct (locked v coll) eqn:Hk; auto. apply locked_spec in Hk. destruct Hk as (t' & c & todo & Hk). exfalso. eapply Hfree; eauto. }
  assert (K : exists lst es ml, nth_error (w_colls w) coll = Some lst /\ lookup_exps w (rev lst) = Some es /\
    match_loop (w_reporter w) (w_uncaught w) (w_seqs w) (call_of s args l) es (mkLists [] [] [] []) = Ret ml).
  { assert (Hm' : (exists w' n, match_call w coll (call_of s args l) (frontend_noexcept s) = MChosen w' n) \/
                  exists w', match_call w coll (call_of s args l) (frontend_noexcept s) = MOver (Next w' r)).
    { destruct Hm as [(w' & n & E & _)|(w' & E & _)]; eauto. }
    clear Hm. unfold match_call in Hm'. destruct (nth_error (w_colls w) coll) as [lst|]; [|destruct Hm' as [(? & ? & E)|(? & E)]; discriminate].
    destruct (lookup_exps w (rev lst)) as [es|] eqn:Hes; [|destruct Hm' as [(? & ? & E)|(? & E)]; discriminate].
    destruct (match_loop _ _ _ _ _ _) as [ml|x| |u] eqn:Hml; [eauto 8| | |].
    - exfalso. eapply match_loop_nothrow; eauto.
    - destruct Hm' as [(? & ? & E)|(? & E)]; discriminate.
    - destruct Hm' as [(? & ? & E)|(? & E)]; discriminate. }
  destruct K as (lst & es & ml & Hlst & Hes & Hml). rewrite (choose_match _ _ _ _ _ _ _ Hlst Hes Hml) in Hm.
  set (ne := frontend_noexcept s) in *. set (c := call_of s args l) in *.
  assert (H1 : vstep release v t (VCall m ov args l) = VNext (vleave v t w (Visiting coll c ne (rev lst) (mkLists [] [] [] [])) (v_log v)) RUnit).
  { unfold vstep. rewrite Hth, Hp. fold w. rewrite Hf, Hl, Nat.eqb_refl. cbn [negb]. rewrite Hk, Hlst. reflexivity. }
  exists (length (rev lst)).
  assert (H2 : vruns release (vleave v t w (Visiting coll c ne (rev lst) (mkLists [] [] [] [])) (v_log v)) (repeat (t, VVisit) (length (rev lst)))
    (vleave v t (emit_unhandled w c (ml_unhandled ml)) (Visiting coll c ne [] (quiet_lists ml)) (v_log v))).
  { apply visits_run; auto. exists es, ml. auto. }
  destruct Hm as [(w' & n & E & -> & ->)|(w' & E & ->)].
  - exists (vleave v t w' (Picked n c ne) (v_log v)). split; [|rewrite flat_leave; reflexivity]. econstructor; [exact H1|]. eapply vruns_app; [exact H2|].
    eapply vruns_one. rewrite vstep_choose by auto. rewrite E. reflexivity.
  - exists (vleave v t w' Idle (v_log v)). split; [|rewrite flat_leave; reflexivity]. econstructor; [exact H1|]. eapply vruns_app; [exact H2|].
    eapply vruns_one. rewrite vstep_choose by auto. rewrite E. reflexivity.
Qed.

(** So every execution of Conc.v is one of Visits.v. *)
Theorem C99_all_coarse_executions release threads acts c :
  cruns release (cinit threads) acts c -> exists vacts v, vruns release (vinit threads) vacts v /\ flat v = c /\ forall t coll ci todo, ~ is_visiting v t coll ci todo.
Proof.
  assert (G : forall c acts c', cruns release c acts c' -> forall v, flat v = c -> (forall t coll ci todo, ~ is_visiting v t coll ci todo) ->
    exists vacts v', vruns release v vacts v' /\ flat v' = c' /\ forall t coll ci todo, ~ is_visiting v' t coll ci todo).
  { intros c0 acts0 c' H. induction H as [c0|c0 t a c1 r acts0 c2 Hs Hr IH]; intros v Ev Hv; [exists [], v; split; [constructor|auto]|]. subst c0.
    assert (Hnth : exists th, nth_error (v_threads v) t = Some th).
    { unfold cstep in Hs. cbn [flat c_threads] in Hs. rewrite nth_error_map in Hs. destruct (nth_error (v_threads v) t) as [th|]; [eauto|discriminate]. }
    destruct Hnth as (th & Hth). pose proof (flat_nth _ _ _ Hth) as Hft. assert (Ht : t < length (v_threads v)) by (eapply nth_error_lt; eauto).
    assert (Hnl : forall coll, locked v coll = false).
    { intros coll. destruct (locked v coll) eqn:Hk; auto. apply locked_spec in Hk. destruct Hk as (t' & ci & todo & Hk). exfalso. eapply Hv; eauto. }
    assert (Hph : vt_phase th = Idle \/ exists n ci ne, vt_phase th = Picked n ci ne).
    { destruct (vt_phase th) as [|coll ci ne todo ml|n ci ne] eqn:Hp; eauto. exfalso. apply (Hv t coll ci todo). exists th, ne, ml. auto. }
    assert (S : exists vacts v1, vruns release v vacts v1 /\ flat v1 = c1 /\ forall t coll ci todo, ~ is_visiting v1 t coll ci todo).
    { destruct a as [o|m ov args l|].
      - unfold cstep in Hs. rewrite Hft in Hs. cbn [flat_thread t_pending] in Hs. destruct Hph as [Hp|(n & ci & ne & Hp)]; rewrite Hp in Hs; cbn [pending_of] in Hs; [|discriminate].
        destruct (is_call o) eqn:Ho; [discriminate|]. fold (flat_thread th) in Hs.
        destruct (step (enter (cw (flat v)) _) o) as [w r0| | |] eqn:Hst in Hs; cbn [embed] in Hs; try discriminate. injection Hs as <- <-.
        exists [(t, VOp o)], (vleave v t w Idle (v_log v)). split; [|split; [rewrite flat_leave; reflexivity|]].
        + apply (vruns_one _ _ _ _ _ r0). unfold vstep. rewrite Hth, Hp, Ho.
          replace (existsb (locked v) _) with false; [|symmetry; clear -Hnl; induction (wants (venter (vw v) th) o) as [|q qs IHq]; auto; cbn [existsb]; rewrite Hnl; exact IHq].
          replace (step (venter (vw v) th) o) with (Next w r0) by (symmetry; exact Hst). reflexivity.
        + intros t' coll ci todo Hx. apply is_visiting_leave in Hx. destruct Hx as [(_ & ne & ml & E)|(_ & Hx)]; [discriminate|eapply Hv; eauto].
      - destruct Hph as [Hp|(n & ci & ne & Hp)].
        + destruct (C99_one_step_by_visits _ _ _ _ _ _ _ _ _ _ Hs Hth Hp) as (k & v1 & Hr1 & E1); [intros; apply Hv|].
          eexists _, v1. split; [exact Hr1|]. split; [exact E1|].
          inversion Hr1 as [|x1 x2 x3 y r' x5 x6 Hs1 Hr2]; subst. apply vruns_split in Hr2. destruct Hr2 as (v2 & Ha & Hb).
          inversion Hb as [|x1 x2 x3 y2 r2 x5 x6 Hs2 Hr3]; subst. inversion Hr3; subst. 
          intros t' coll ci todo Hx. destruct (Nat.eq_dec t' t) as [->|Hne].
          * destruct (vstep_case _ _ _ _ _ _ Hs2) as (th2 & Hth2 & Hc2). destruct Hc2; try discriminate; subst v1.
            -- apply is_visiting_leave in Hx. destruct Hx as [(_ & ne' & ml' & E)|(Hne & Hx)]; [discriminate|congruence].
            -- apply is_visiting_leave in Hx. destruct Hx as [(_ & ne' & ml' & E)|(Hne & Hx)]; [discriminate|congruence].
          * apply (Hv t' coll ci todo). destruct Hx as (th' & ne' & ml' & Ht' & Hp'). exists th', ne', ml'. split; auto.
            assert (O : forall va acts vb, vruns release va acts vb -> (forall p, In p acts -> fst p = t) -> nth_error (v_threads vb) t' = nth_error (v_threads va) t').
            { intros va acts1 vb Hab. induction Hab as [|va t1 a1 vm r1 acts1 vb Hs' Hr' IH']; auto. intros Hall. rewrite IH' by (intros; apply Hall; right; auto).
              assert (t1 = t) by (apply (Hall (t1, a1)); left; auto). subst t1. destruct (vstep_case _ _ _ _ _ _ Hs') as (th1 & _ & Hc1).
              destruct Hc1; subst vm || (destruct H4 as (w4 & _ & ->)) || idtac; try (cbn [vleave v_threads]; apply nth_error_upd_neq; auto).
              }
            rewrite <- Ht'. symmetry. eapply O; [exact Hr1|]. intros p [<-|Hp0]; auto. apply in_app_or in Hp0. destruct Hp0 as [Hp0|[<-|[]]]; auto.
            apply repeat_spec in Hp0. subst. auto.
        + exfalso. unfold cstep in Hs. rewrite Hft in Hs. cbn [flat_thread t_pending] in Hs. rewrite Hp in Hs. discriminate.
      - unfold cstep in Hs. rewrite Hft in Hs. cbn [flat_thread t_pending] in Hs. destruct Hph as [Hp|(n & ci & ne & Hp)]; rewrite Hp in Hs; cbn [pending_of] in Hs; [discriminate|].
        destruct (count_call release _ n ci ne) as [w r0| | |] eqn:Hcc in Hs; cbn [embed] in Hs; try discriminate. injection Hs as <- <-.
        exists [(t, VCount)], (vleave v t w Idle (v_log v ++ [(t, n, ci)])). split; [|split; [rewrite flat_leave; reflexivity|]].
        + apply (vruns_one _ _ _ _ _ r0). unfold vstep. rewrite Hth, Hp.
          replace (count_call release (venter (vw v) th) n ci ne) with (Next w r0) by (symmetry; exact Hcc). reflexivity.
        + intros t' coll ci' todo Hx. apply is_visiting_leave in Hx. destruct Hx as [(_ & ne' & ml & E)|(_ & Hx)]; [discriminate|eapply Hv; eauto]. }
    destruct S as (vacts & v1 & Hr1 & E1 & Hv1). destruct (IH v1 E1 Hv1) as (vacts2 & v2 & Hr2 & E2 & Hv2).
    exists (vacts ++ vacts2), v2. split; auto. eapply vruns_app; eauto. }
  intros H. apply (G _ _ _ H).
  - unfold flat, vinit, cinit. cbn [vw v_threads v_log]. f_equal. clear. induction threads; auto. cbn [repeat map]. f_equal. auto.
  - intros t coll ci todo (th & ne & ml & Hn & Hp). apply nth_error_In in Hn. cbn [vinit v_threads] in Hn. apply repeat_spec in Hn. subst. discriminate.
Qed.

(** ** Moments of a call *)

(** [va] is a state on the way of [acts] from [v0] to [v1]. *)
Definition moment (release : bool) (v0 : vworld) (acts : list (nat * vaction)) (v1 va : vworld) : Prop :=
  exists a b, acts = a ++ b /\ vruns release v0 a va /\ vruns release va b v1.

Lemma moment_more release v0 acts v1 va t a v2 r : moment release v0 acts v1 va -> vstep release v1 t a = VNext v2 r -> moment release v0 (acts ++ [(t, a)]) v2 va.
Proof.
  intros (x & y & -> & H1 & H2) Hs. exists x, (y ++ [(t, a)]). rewrite app_assoc. split; auto. split; auto. eapply vruns_app; eauto. eapply vruns_one; eauto.
Qed.
Lemma moment_last release v0 acts v1 t a v2 r : vruns release v0 acts v1 -> vstep release v1 t a = VNext v2 r -> moment release v0 (acts ++ [(t, a)]) v2 v1.
Proof. intros H Hs. exists acts, [(t, a)]. split; auto. split; auto. eapply vruns_one; eauto. Qed.

(** Only visits of thread [t]: its call is still looking for an expectation. *)
Definition only_visits (t : nat) (acts : list (nat * vaction)) : Prop := forall a, In (t, a) acts -> a = VVisit.

Lemma during release t v0 coll c ne todo0 ml0 th0 (P : list (nat * vaction) -> vworld -> list nat -> list nat -> match_lists -> Prop) :
  nth_error (v_threads v0) t = Some th0 -> vt_phase th0 = Visiting coll c ne todo0 ml0 ->
  P [] v0 [] todo0 ml0 ->
  (forall mid v visited n todo ml w' ml' th v', vruns release v0 mid v -> P mid v visited (n :: todo) ml -> nth_error (v_threads v) t = Some th ->
     vt_phase th = Visiting coll c ne (n :: todo) ml ->
     visit (venter (vw v) th) c n ml = Ret (w', ml') -> v' = vleave v t w' (Visiting coll c ne todo ml') (v_log v) -> vstep release v t VVisit = VNext v' RUnit ->
     todo0 = visited ++ n :: todo ->
     P (mid ++ [(t, VVisit)]) v' (visited ++ [n]) todo ml') ->
  (forall mid v t' a v' r visited todo ml th, t' <> t -> vruns release v0 mid v -> P mid v visited todo ml -> vstep release v t' a = VNext v' r ->
     nth_error (v_threads v) t = Some th -> vt_phase th = Visiting coll c ne todo ml ->
     P (mid ++ [(t', a)]) v' visited todo ml) ->
  forall mid v1, vruns release v0 mid v1 -> only_visits t mid ->
  exists th visited todo ml, nth_error (v_threads v1) t = Some th /\ vt_phase th = Visiting coll c ne todo ml /\ todo0 = visited ++ todo /\
    vt_uncaught th = vt_uncaught th0 /\ P mid v1 visited todo ml.
Proof.
  intros Hth0 Hp0 H0 Hvisit Hother mid. induction mid as [|[t' a] mid IH] using rev_ind; intros v1 Hr Ho.
  - inversion Hr; subst. exists th0, [], todo0, ml0. auto 6.
  - apply vruns_split in Hr. destruct Hr as (v & Hr & Hl). inversion Hl as [|x1 x2 x3 y r x5 x6 Hs Hn]; subst. inversion Hn; subst. clear Hl Hn.
    destruct (IH v Hr) as (th & visited & todo & ml & Hth & Hp & Et & Hun & HP); [intros a' Ha; apply Ho; apply in_or_app; auto|].
    destruct (vstep_case _ _ _ _ _ _ Hs) as (th' & Hth' & Hc). destruct (Nat.eq_dec t' t) as [->|Hne].
    + assert (a = VVisit) by (apply Ho; apply in_or_app; right; left; auto). subst a. rewrite Hth in Hth'. injection Hth' as <-.
      destruct Hc; try discriminate. rewrite Hp in H1. injection H1 as <- <- <- -> <-. subst v1 r.
      destruct (visit_ret _ _ _ _ _ _ H2) as (x & _ & _ & _ & Hun' & _).
      exists (mkVT (w_frames w') (w_uncaught w') (Visiting coll c ne todo1 ml')), (visited ++ [n]), todo1, ml'.
      rewrite vleave_thread by (eapply nth_error_lt; eauto). cbn [vt_phase vt_uncaught]. split; auto. split; auto. rewrite <- app_assoc. split; [exact Et|].
      split; [rewrite Hun'; exact Hun|]. eapply Hvisit; eauto.
    + exists th, visited, todo, ml. split; [|split; auto; split; auto; split; auto; eapply Hother; eauto]. clear -Hc Hne Hth.
      destruct Hc; subst; try (cbn [vleave v_threads]; rewrite nth_error_upd_neq by auto; exact Hth). destruct H4 as (w & _ & ->).
      cbn [vleave v_threads]; rewrite nth_error_upd_neq by auto; exact Hth.
Qed.

(** ** A visit, in terms of counts *)

Lemma state_open release v n x : CInv release (flat v) -> SI (vw v) -> exp_at (vw v) n x ->
  control_state_of (w_seqs (vw v)) (e_ctl (eo_exp x)) =
  Ret (if (c_count (ctl_of x) =? c_max (ctl_of x))%Z then StSaturated (c_min (ctl_of x)) (c_max (ctl_of x)) (c_count (ctl_of x)) (map fst (c_seqs (ctl_of x)))
       else if control_is_applicable (w_seqs (vw v)) (ctl_of x)
       then StApplicable (c_min (ctl_of x)) (c_max (ctl_of x)) (c_count (ctl_of x)) (map (rating_in (w_seqs (vw v))) (c_seqs (ctl_of x)))
       else StInapplicable (c_min (ctl_of x)) (c_max (ctl_of x)) (c_count (ctl_of x))
                (map (rating_in (w_seqs (vw v))) (filter (consumable_in (w_seqs (vw v))) (c_seqs (ctl_of x))))
                (map fst (filter (fun p => negb (consumable_in (w_seqs (vw v)) p)) (c_seqs (ctl_of x))))).
Proof. intros C [I _] Hx. apply (control_state_ok _ _ _ _ I (ctls_nth _ _ _ Hx)). Qed.

Lemma visit_spec release v th c n ml w' ml' : CInv release (flat v) -> SI (vw v) -> visit (venter (vw v) th) c n ml = Ret (w', ml') ->
  exists x, exp_at (vw v) n x /\
    ((accepts (eo_exp x) c /\ open_for (flat v) n x /\ exists m, ml_full ml' = ml_full ml ++ [(n, m)] /\
        exists a b d, mr_state m = StApplicable a b d (map (rating_in (w_seqs (vw v))) (c_seqs (ctl_of x)))) \/
     (~ (accepts (eo_exp x) c /\ open_for (flat v) n x) /\ ml_full ml' = ml_full ml)).
Proof.
  intros C I H. destruct (visit_ret _ _ _ _ _ _ H) as (x & Hx & _ & _ & _ & (a & Ha) & Ef & _). cbn [venter w_exps w_seqs w_reporter w_uncaught set_uncaught set_frames] in *.
  exists x. split; [exact Hx|]. pose proof (state_open _ _ _ _ C I Hx) as Hst. pose proof (open_iff _ _ _ _ C I Hx) as Hop. cbn [flat cw] in Hop.
  unfold sel in Ef. cbn [snd fst] in Ef. rewrite Ha in Ef. unfold att, make_match_report, exp_matches in Ha. rewrite Hst in Ha. cbn [obind] in Ha.
  destruct (omap (policy_report_of c) (e_policies (eo_exp x))) as [rs|y| |u] eqn:Hr; cbn [obind noexcept_of] in Ha; try discriminate.
  - injection Ha as <-. cbn [obind] in Ef. unfold evaluate_match_report in Ef. cbn [mr_policies mr_state] in Ef.
    assert (Hacc : accepts (eo_exp x) c <-> forallb pr_matching rs = true).
    { pose proof (omap_ret_inv _ _ _ Hr) as F. pose proof (reports_matching c _ rs F) as M. unfold accepts. rewrite (clean_reports (eo_exp x) c). split.
      - intros [_ E]. apply M; auto.
      - intros E. split; [eauto|]. apply M; auto. }
    destruct (forallb pr_matching rs) eqn:Hall; cbn [negb] in Ef.
    + destruct (c_count (ctl_of x) =? c_max (ctl_of x))%Z eqn:Hsat.
      * right. rewrite app_nil_r in Ef. split; [|exact Ef]. intros [_ [Hlt _]]. apply Z.eqb_eq in Hsat. unfold x_max in Hlt. rewrite <- (ci_count _ _ C _ _ Hx) in Hlt.
        unfold ctl_of in Hsat, Hlt. lia.
      * destruct (control_is_applicable (w_seqs (vw v)) (ctl_of x)) eqn:Hap.
        -- left. split; [apply Hacc; auto|]. split; [apply Hop; auto|]. eexists. split; [exact Ef|]. cbn [mr_state]. eauto.
        -- right. rewrite app_nil_r in Ef. split; [|exact Ef]. intros [_ Ho]. apply Hop in Ho. discriminate.
    + right. rewrite app_nil_r in Ef. split; [|exact Ef]. intros [Ha' _]. apply Hacc in Ha'. discriminate.
  - destruct (exp_report_of _ _) as [rr| | |]; cbn [obind noexcept_of] in Ha; try discriminate.
    destruct (w_reporter (vw v) _); cbn [obind noexcept_of] in Ha; try discriminate. injection Ha as <-. right. rewrite app_nil_r in Ef. split; [|exact Ef].
    intros [[Hcl _] _]. apply clean_reports in Hcl. destruct Hcl as (rs & E). congruence.
Qed.

(** ** What a call finds while others go on *)

(** The collection stays as it is while a thread visits it. *)
Lemma visited_kept release v t coll c todo t' a v' r lst : is_visiting v t coll c todo -> vstep release v t' a = VNext v' r ->
  nth_error (w_colls (vw v)) coll = Some lst -> nth_error (w_colls (vw v')) coll = Some lst.
Proof.
  intros Hv H Hl. destruct (vstep_case _ _ _ _ _ _ H) as (th & Hth & Hc).
  destruct (vcase_core _ _ _ _ _ _ _ Hc) as [(o & -> & _)|[(-> & _)|(E & _)]].
  - destruct Hc; try discriminate. injection H0 as <-. destruct H5 as (w & Hs & ->).
    destruct (step_colls _ _ _ _ Hs H2 _ _ Hl) as [Hin|E]; [|exact E]. exfalso.
    assert (Hk : existsb (locked v) (wants (venter (vw v) th) o) = true); [|congruence].
    apply existsb_exists. exists coll. split; auto. apply locked_spec. eauto.
  - destruct Hc; try discriminate. pose proof (count_colls _ _ _ _ _ _ _ H3) as Ec. subst v'. cbn [vleave vw w_colls set_uncaught set_frames]. rewrite Ec. exact Hl.
  - destruct (core_exps _ _ E) as (_ & _ & ->). exact Hl.
Qed.

(** The start of a call. *)
Lemma vcall_start release v t m ov args l v0 r0 coll c todo0 : vstep release v t (VCall m ov args l) = VNext v0 r0 -> is_visiting v0 t coll c todo0 ->
  exists th ne lst, nth_error (v_threads v0) t = Some th /\ vt_phase th = Visiting coll c ne todo0 (mkLists [] [] [] []) /\
    nth_error (w_colls (vw v0)) coll = Some lst /\ todo0 = rev lst.
Proof.
  intros H Hv. destruct (vstep_case _ _ _ _ _ _ H) as (th & Hth & Hc). destruct Hc; try discriminate. injection H0 as <- <- <- <-. subst v0.
  apply is_visiting_leave in Hv. destruct Hv as [(_ & ne' & ml & E)|(Hne & _)]; [|congruence]. injection E as <- <- <- <- <-.
  eexists _, ne, lst. rewrite vleave_thread by (eapply nth_error_lt; eauto). split; [reflexivity|]. cbn [vt_phase]. auto.
Qed.

Lemma choose_case release v t v2 r : vstep release v t VChoose = VNext v2 r -> exists th coll c ne ml, nth_error (v_threads v) t = Some th /\
  vt_phase th = Visiting coll c ne [] ml /\
  ((exists w n, choose (venter (vw v) th) c ne ml = MChosen w n /\ v2 = vleave v t w (Picked n c ne) (v_log v)) \/
   (exists w, ml_full ml = [] /\ r = RThrow EReporter /\ v2 = vleave v t w Idle (v_log v))).
Proof.
  intros H. destruct (vstep_case _ _ _ _ _ _ H) as (th & Hth & Hc). destruct Hc; try discriminate; subst.
  - exists th, coll, c, ne, ml. split; auto. split; auto. left. eauto.
  - exists th, coll, c, ne, ml. split; auto. split; auto. right. exists w'. pose proof (choose_core (venter (vw v) th) c ne ml) as E. rewrite H2 in E. tauto.
Qed.

(** The chosen expectation took calls like this at the moment of its visit. If none is found, each one which accepts the call
    was closed at the moment of its visit. *)
Lemma visits_found threads acts v t m ov args l v0 r0 coll c todo0 mid v1 :
  vruns false (vinit threads) acts v -> vstep false v t (VCall m ov args l) = VNext v0 r0 -> is_visiting v0 t coll c todo0 ->
  vruns false v0 mid v1 -> only_visits t mid ->
  exists th visited todo ml ne lst, nth_error (v_threads v1) t = Some th /\ vt_phase th = Visiting coll c ne todo ml /\ todo0 = visited ++ todo /\
    nth_error (w_colls (vw v1)) coll = Some lst /\ todo0 = rev lst /\
    (forall n, In n (map fst (ml_full ml)) -> exists va x, moment false v0 mid v1 va /\ live_in (vw va) coll n x /\ accepts (eo_exp x) c /\ open_for (flat va) n x) /\
    (forall n, In n visited -> ~ In n (map fst (ml_full ml)) -> exists va x, moment false v0 mid v1 va /\ live_in (vw va) coll n x /\ ~ (accepts (eo_exp x) c /\ open_for (flat va) n x)).
Proof.
  intros Hr H0 Hv Hmid Ho. destruct (vcall_start _ _ _ _ _ _ _ _ _ _ _ _ H0 Hv) as (th & ne & lst & Hth & Hp & Hl & Et).
  assert (Hr0 : vruns false (vinit threads) (acts ++ [(t, VCall m ov args l)]) v0) by (eapply vruns_app; [exact Hr|eapply vruns_one; eauto]).
  destruct (during false t v0 coll c ne todo0 _ th (fun mid v visited todo ml =>
      nth_error (w_colls (vw v)) coll = Some lst /\
      (forall n, In n (map fst (ml_full ml)) -> exists va x, moment false v0 mid v va /\ live_in (vw va) coll n x /\ accepts (eo_exp x) c /\ open_for (flat va) n x) /\
      (forall n, In n visited -> ~ In n (map fst (ml_full ml)) -> exists va x, moment false v0 mid v va /\ live_in (vw va) coll n x /\ ~ (accepts (eo_exp x) c /\ open_for (flat va) n x)))
    Hth Hp) with (mid := mid) (v1 := v1) as (th1 & visited & todo & ml & Hth1 & Hp1 & E1 & _ & HP); auto.
  - split; auto. split; [intros n []|intros n []].
  - intros mid0 v' visited n todo ml w' ml' th' v'' Hr' (Hc & HA & HB) Hth' Hp' Hvis -> Hs Etodo.
    assert (Hrv : vruns false (vinit threads) ((acts ++ [(t, VCall m ov args l)]) ++ mid0) v') by (eapply vruns_app; eauto).
    pose proof (vi_run _ _ _ _ Hrv) as VIv. pose proof (si_vruns _ _ _ Hrv) as SIv.
    assert (Hlive : exists x, live_in (vw v') coll n x).
    { eapply C99_visited_are_alive; [exact Hrv|exists th', ne, ml; split; [exact Hth'|exact Hp']|left; reflexivity]. }
    destruct Hlive as (x & Hx). destruct (visit_spec _ _ _ _ _ _ _ _ (vi_c _ _ VIv) SIv Hvis) as (x' & Hx' & Hcase).
    assert (x' = x) by (destruct Hx as [Hx _]; unfold exp_at in *; congruence). subst x'.
    split; [eapply visited_kept; [exists th', ne, ml; eauto|exact Hs|exact Hc]|]. destruct Hcase as [(Ha & Hop & mm & Ef & _)|(Hno & Ef)]; rewrite Ef.
    + rewrite map_app. cbn [map fst]. split.
      * intros k Hk. apply in_app_or in Hk. destruct Hk as [Hk|[<-|[]]].
        -- destruct (HA k Hk) as (va & y & Hm & R). exists va, y. split; auto. eapply moment_more; eauto.
        -- exists v', x. split; auto. eapply moment_last; eauto.
      * intros k Hk Hnk. apply in_app_or in Hk. destruct Hk as [Hk|[<-|[]]]; [|exfalso; apply Hnk, in_or_app; right; left; auto].
        destruct (HB k Hk) as (va & y & Hm & R); [intros Hq; apply Hnk, in_or_app; auto|]. exists va, y. split; auto. eapply moment_more; eauto.
    + split.
      * intros k Hk. destruct (HA k Hk) as (va & y & Hm & R). exists va, y. split; auto. eapply moment_more; eauto.
      * intros k Hk Hnk. apply in_app_or in Hk. destruct Hk as [Hk|[<-|[]]].
        -- destruct (HB k Hk Hnk) as (va & y & Hm & R). exists va, y. split; auto. eapply moment_more; eauto.
        -- exists v', x. split; [eapply moment_last; eauto|]. auto.
  - intros mid0 v' t' a v'' r visited todo ml th' Hne Hr' (Hc & HA & HB) Hs Hth' Hp'.
    split; [eapply visited_kept; [exists th', ne, ml; eauto|exact Hs|exact Hc]|]. split.
    + intros k Hk. destruct (HA k Hk) as (va & y & Hm & R). exists va, y. split; auto. eapply moment_more; eauto.
    + intros k Hk Hnk. destruct (HB k Hk Hnk) as (va & y & Hm & R). exists va, y. split; auto. eapply moment_more; eauto.
  - destruct HP as (Hc & HA & HB). exists th1, visited, todo, ml, ne, lst. auto 10.
Qed.

Theorem C99_chosen_was_open threads acts v t m ov args l v0 r0 coll c todo0 mid v1 v2 r th n ci ne :
  vruns false (vinit threads) acts v -> vstep false v t (VCall m ov args l) = VNext v0 r0 -> is_visiting v0 t coll c todo0 ->
  vruns false v0 mid v1 -> only_visits t mid -> vstep false v1 t VChoose = VNext v2 r ->
  nth_error (v_threads v2) t = Some th -> vt_phase th = Picked n ci ne ->
  ci = c /\ exists va x, moment false v0 mid v1 va /\ live_in (vw va) coll n x /\ accepts (eo_exp x) c /\ open_for (flat va) n x.
Proof.
  intros Hr H0 Hv Hmid Ho Hch Hth Hp. destruct (visits_found _ _ _ _ _ _ _ _ _ _ _ _ _ _ _ Hr H0 Hv Hmid Ho) as (th1 & visited & todo & ml & ne1 & lst & Hth1 & Hp1 & _ & _ & _ & HA & _).
  destruct (choose_case _ _ _ _ _ Hch) as (th1' & coll' & c' & ne' & ml' & Hth1' & Hp1' & Hcase). rewrite Hth1 in Hth1'. injection Hth1' as <-.
  rewrite Hp1 in Hp1'. injection Hp1' as <- <- <- -> <-. assert (Ht : t < length (v_threads v1)) by (eapply nth_error_lt; eauto).
  destruct Hcase as [(w & n' & Hc & ->)|(w & _ & _ & ->)]; rewrite vleave_thread in Hth by auto; injection Hth as <-; cbn [vt_phase] in Hp; [|discriminate].
  injection Hp as -> <- <-. split; auto. apply HA. pose proof (choose_core (venter (vw v1) th1) c ne1 ml) as E. rewrite Hc in E. apply E.
Qed.

Theorem C99_failed_were_closed threads acts v t m ov args l v0 r0 coll c todo0 mid v1 v2 y n x :
  vruns false (vinit threads) acts v -> vstep false v t (VCall m ov args l) = VNext v0 r0 -> is_visiting v0 t coll c todo0 ->
  vruns false v0 mid v1 -> only_visits t mid -> vstep false v1 t VChoose = VNext v2 (RThrow y) ->
  live_in (vw v1) coll n x -> accepts (eo_exp x) c ->
  exists va xa, moment false v0 mid v1 va /\ exp_at (vw va) n xa /\ ~ open_for (flat va) n xa.
Proof.
  intros Hr H0 Hv Hmid Ho Hch Hx Ha. destruct (visits_found _ _ _ _ _ _ _ _ _ _ _ _ _ _ _ Hr H0 Hv Hmid Ho) as (th1 & visited & todo & ml & ne1 & lst & Hth1 & Hp1 & Et & Hl & El & _ & HB).
  destruct (choose_case _ _ _ _ _ Hch) as (th1' & coll' & c' & ne' & ml' & Hth1' & Hp1' & Hcase). rewrite Hth1 in Hth1'. injection Hth1' as <-.
  rewrite Hp1 in Hp1'. injection Hp1' as <- <- <- -> <-. destruct Hcase as [(w & n' & Hc & ->)|(w & Ef & _ & _)].
  - exfalso. unfold vstep in Hch. rewrite Hth1, Hp1, Hc in Hch. discriminate.
  - assert (Hr1 : vruns false (vinit threads) ((acts ++ [(t, VCall m ov args l)]) ++ mid) v1).
    { eapply vruns_app; [eapply vruns_app; [exact Hr|eapply vruns_one; eauto]|exact Hmid]. }
    assert (Hin : In n visited).
    { rewrite app_nil_r in Et. subst visited. rewrite El. apply -> in_rev. rewrite (mi_coll _ (mi_run _ _ _ _ Hr1) _ _ Hl). apply members_in.
      destruct Hx as (H1 & H2 & H3). exists x. auto. }
    destruct (HB n Hin) as (va & xa & Hm & (Hxa & _) & Hno); [rewrite Ef; auto|]. exists va, xa. split; auto. split; auto. intros Hop. apply Hno. split; auto.
    destruct Hm as (a & b & -> & Hma & Hmb). destruct (vruns_terms _ _ _ _ Hmb _ _ Hxa) as (x1 & Hx1 & T). destruct Hx as (Hx & _).
    assert (x1 = x) by (unfold exp_at in *; congruence). subst x1. apply (same_terms_accepts _ _ c T). auto.
Qed.

(** ** Without sequences a call takes effect at one moment *)

Lemma pick_first rest : forall best, (forall p, In p (best :: rest) -> exists a b d, mr_state (snd p) = StApplicable a b d []) -> pick_best best rest = Ret best.
Proof.
  induction rest as [|x rest IH]; intros best H; auto. cbn [pick_best]. unfold ratings_of.
  destruct (H best) as (a & b & d & E); [left; auto|]. destruct (H x) as (a' & b' & d' & E'); [right; left; auto|]. rewrite E, E'. cbn [obind].
  change (has_better_rating [] []) with true. cbn [obind]. apply IH. intros p [<-|Hp]; apply H; [left|right; right]; auto.
Qed.

(** At [va] the newest expectation of the overload which accepts [c] and is not saturated is [n]. *)
Definition first_choice (va : vworld) (coll n : nat) (c : call_info) : Prop :=
  exists x, live_in (vw va) coll n x /\ accepts (eo_exp x) c /\ (Z.of_nat (times_in (v_log va) n) < x_max x)%Z /\
    forall n' x', live_in (vw va) coll n' x' -> n < n' -> accepts (eo_exp x') c -> (x_max x' <= Z.of_nat (times_in (v_log va) n'))%Z.

Lemma sorted_before (l : list nat) : StronglySorted (fun a b => b < a) l -> forall a n b k, l = a ++ n :: b -> In k l -> n < k -> In k a.
Proof.
  intros Hs a. revert l Hs. induction a as [|y a IH]; intros l Hs n b k -> Hk Hlt; cbn [app] in *.
  - apply StronglySorted_inv in Hs. destruct Hs as [_ Hf]. destruct Hk as [->|Hk]; [lia|]. rewrite Forall_forall in Hf. apply Hf in Hk. lia.
  - apply StronglySorted_inv in Hs. destruct Hs as [Hs _]. destruct Hk as [->|Hk]; [left; auto|right]. eapply IH; eauto.
Qed.

Lemma visits_linear threads acts v t m ov args l v0 r0 coll c todo0 mid v1 :
  vruns false (vinit threads) acts v -> vstep false v t (VCall m ov args l) = VNext v0 r0 -> is_visiting v0 t coll c todo0 ->
  (forall n x, live_in (vw v0) coll n x -> x_seqs x = []) ->
  vruns false v0 mid v1 -> only_visits t mid ->
  exists th visited todo ml ne lst, nth_error (v_threads v1) t = Some th /\ vt_phase th = Visiting coll c ne todo ml /\ todo0 = visited ++ todo /\
    nth_error (w_colls (vw v1)) coll = Some lst /\ todo0 = rev lst /\
    (forall p, In p (ml_full ml) -> exists a b d, mr_state (snd p) = StApplicable a b d []) /\
    match ml_full ml with
    | [] => forall n x, In n visited -> exp_at (vw v1) n x -> accepts (eo_exp x) c -> (x_max x <= Z.of_nat (times_in (v_log v1) n))%Z
    | p :: _ => exists va, moment false v0 mid v1 va /\ first_choice va coll (fst p) c
    end.
Proof.
  intros Hr H0 Hv Hns Hmid Ho. destruct (vcall_start _ _ _ _ _ _ _ _ _ _ _ _ H0 Hv) as (th & ne & lst & Hth & Hp & Hl & Et).
  assert (Hr0 : vruns false (vinit threads) (acts ++ [(t, VCall m ov args l)]) v0) by (eapply vruns_app; [exact Hr|eapply vruns_one; eauto]).
  assert (Sat : forall va vb acts' visited, vruns false va acts' vb -> (forall n, In n visited -> exists x, exp_at (vw va) n x) ->
    (forall n x, In n visited -> exp_at (vw va) n x -> accepts (eo_exp x) c -> (x_max x <= Z.of_nat (times_in (v_log va) n))%Z) ->
    forall n x, In n visited -> exp_at (vw vb) n x -> accepts (eo_exp x) c -> (x_max x <= Z.of_nat (times_in (v_log vb) n))%Z).
  { intros va vb acts' visited Hab Hex Hsat n x Hn Hx Ha. destruct (Hex n Hn) as (xa & Hxa). destruct (vruns_terms _ _ _ _ Hab _ _ Hxa) as (x1 & Hx1 & T).
    assert (x1 = x) by (unfold exp_at in *; congruence). subst x1. pose proof (Hsat n xa Hn Hxa) as E. apply (same_terms_accepts _ _ c T) in Ha. specialize (E Ha).
    destruct T as (_ & _ & -> & _). pose proof (vruns_counted _ _ _ _ n Hab) as Hc. change (counted (flat va) n) with (times_in (v_log va) n) in Hc.
    change (counted (flat vb) n) with (times_in (v_log vb) n) in Hc. lia. }
  destruct (during false t v0 coll c ne todo0 _ th (fun mid v visited todo ml =>
      nth_error (w_colls (vw v)) coll = Some lst /\
      (forall n, In n visited -> exists x, exp_at (vw v) n x) /\
      (forall p, In p (ml_full ml) -> exists a b d, mr_state (snd p) = StApplicable a b d []) /\
      match ml_full ml with
      | [] => forall n x, In n visited -> exp_at (vw v) n x -> accepts (eo_exp x) c -> (x_max x <= Z.of_nat (times_in (v_log v) n))%Z
      | p :: _ => exists va, moment false v0 mid v va /\ first_choice va coll (fst p) c
      end)
    Hth Hp) with (mid := mid) (v1 := v1) as (th1 & visited & todo & ml & Hth1 & Hp1 & E1 & _ & HP); auto.
  - split; auto. split; [intros n []|]. split; [intros p []|]. intros n x [].
  - intros mid0 v' visited n todo ml w' ml' th' v'' Hr' (Hc & Hex & HA & HB) Hth' Hp' Hvis Ev'' Hs Etodo.
    assert (Hrv : vruns false (vinit threads) ((acts ++ [(t, VCall m ov args l)]) ++ mid0) v') by (eapply vruns_app; eauto).
    pose proof (vi_run _ _ _ _ Hrv) as VIv. pose proof (si_vruns _ _ _ Hrv) as SIv.
    assert (Hlive : exists x, live_in (vw v') coll n x).
    { eapply C99_visited_are_alive; [exact Hrv|exists th', ne, ml; split; [exact Hth'|exact Hp']|left; reflexivity]. }
    destruct Hlive as (x & Hx). destruct (visit_spec _ _ _ _ _ _ _ _ (vi_c _ _ VIv) SIv Hvis) as (x' & Hx' & Hcase).
    assert (x' = x) by (destruct Hx as [Hx _]; unfold exp_at in *; congruence). subst x'.
    assert (Hseqs : c_seqs (ctl_of x) = []).
    { assert (Hl0 : exists y, live_in (vw v0) coll n y).
      { assert (Hin : In n lst) by (apply in_rev; rewrite <- Et, Etodo; apply in_or_app; right; left; auto).
        rewrite (mi_coll _ (mi_run _ _ _ _ Hr0) _ _ Hl) in Hin. apply members_in in Hin. destruct Hin as (y & Hy & Ha & Hcc). exists y. repeat split; auto. }
      destruct Hl0 as (y & Hy). pose proof (Hns _ _ Hy) as E. destruct Hy as (Hy & _). destruct (vruns_terms _ _ _ _ Hr' _ _ Hy) as (y' & Hy' & T).
      assert (y' = x) by (unfold exp_at in *; congruence). subst y'. destruct T as (_ & _ & _ & -> & _). unfold x_seqs in E. apply map_eq_nil in E. exact E. }
    split; [eapply visited_kept; [exists th', ne, ml; eauto|exact Hs|exact Hc]|]. split.
    { intros k Hk. assert (Hkx : exists y, exp_at (vw v') k y) by (apply in_app_or in Hk; destruct Hk as [Hk|[<-|[]]]; eauto).
      destruct Hkx as (y & Hy). destruct (vstep_terms _ _ _ _ _ _ Hs _ _ Hy) as (y' & Hy' & _). eauto. }
    destruct Hcase as [(Ha & Hop & mm & Ef & a & b & d & Em)|(Hno & Ef)]; rewrite Ef.
    + split.
      { intros p Hpin. apply in_app_or in Hpin. destruct Hpin as [Hpin|[<-|[]]]; auto. cbn [snd]. rewrite Hseqs in Em. cbn [map] in Em. eauto. }
      destruct (ml_full ml) as [|p rest]; cbn [app].
      * exists v'. split; [eapply moment_last; eauto|]. cbn [fst]. exists x. split; auto. split; auto. split; [apply Hop|].
        intros n' x' Hl' Hlt Ha'. apply HB; auto; [|apply Hl']. destruct Hl' as (Hx'' & Hal & Hcc).
        apply (sorted_before (rev lst)) with (n := n) (b := todo); auto.
        -- rewrite (mi_coll _ (mi_run _ _ _ _ Hrv) _ _ Hc). apply sorted_rev_members.
        -- congruence.
        -- apply -> in_rev. rewrite (mi_coll _ (mi_run _ _ _ _ Hrv) _ _ Hc). apply members_in. exists x'. auto.
      * destruct HB as (va & Hm & R). exists va. split; auto. eapply moment_more; eauto.
    + split; auto. destruct (ml_full ml) as [|p rest].
      * apply (Sat v' v'' [(t, VVisit)] (visited ++ [n])); [eapply vruns_one; eauto| |].
        -- intros k Hk. apply in_app_or in Hk. destruct Hk as [Hk|[<-|[]]]; eauto.
        -- intros k y Hk Hy Hay. apply in_app_or in Hk. destruct Hk as [Hk|[<-|[]]]; [apply HB; auto|].
           assert (y = x) by (unfold exp_at in *; congruence). subst y. destruct (Z_lt_le_dec (Z.of_nat (times_in (v_log v') n)) (x_max x)) as [Hlt|]; [|assumption].
           exfalso. apply Hno. split; auto. split; [exact Hlt|]. intros s Hs'. unfold x_seqs in Hs'. fold (ctl_of x) in Hs'. rewrite Hseqs in Hs'. destruct Hs'.
      * destruct HB as (va & Hm & R). exists va. split; auto. eapply moment_more; eauto.
  - intros mid0 v' t' a v'' r visited todo ml th' Hne Hr' (Hc & Hex & HA & HB) Hs Hth' Hp'.
    split; [eapply visited_kept; [exists th', ne, ml; eauto|exact Hs|exact Hc]|]. split.
    { intros k Hk. destruct (Hex k Hk) as (y & Hy). destruct (vstep_terms _ _ _ _ _ _ Hs _ _ Hy) as (y' & Hy' & _). eauto. }
    split; auto. destruct (ml_full ml) as [|p rest].
    + apply (Sat v' v'' [(t', a)] visited); auto. eapply vruns_one; eauto.
    + destruct HB as (va & Hm & R). exists va. split; auto. eapply moment_more; eauto.
  - destruct HP as (Hc & Hex & HA & HB). exists th1, visited, todo, ml, ne, lst. auto 10.
Qed.

(** If no expectation of the overload is in a sequence, the chosen expectation is the one which the call would have found if it had
    happened at a single moment between its begin and its end ... *)
Theorem C99_without_sequences_one_moment threads acts v t m ov args l v0 r0 coll c todo0 mid v1 v2 r th n ci ne :
  vruns false (vinit threads) acts v -> vstep false v t (VCall m ov args l) = VNext v0 r0 -> is_visiting v0 t coll c todo0 ->
  (forall e x, live_in (vw v0) coll e x -> x_seqs x = []) ->
  vruns false v0 mid v1 -> only_visits t mid -> vstep false v1 t VChoose = VNext v2 r ->
  nth_error (v_threads v2) t = Some th -> vt_phase th = Picked n ci ne ->
  exists va, moment false v0 mid v1 va /\ first_choice va coll n c.
Proof.
  intros Hr H0 Hv Hns Hmid Ho Hch Hth Hp.
  destruct (visits_linear _ _ _ _ _ _ _ _ _ _ _ _ _ _ _ Hr H0 Hv Hns Hmid Ho) as (th1 & visited & todo & ml & ne1 & lst & Hth1 & Hp1 & _ & _ & _ & HA & HB).
  destruct (choose_case _ _ _ _ _ Hch) as (th1' & coll' & c' & ne' & ml' & Hth1' & Hp1' & Hcase). rewrite Hth1 in Hth1'. injection Hth1' as <-.
  rewrite Hp1 in Hp1'. injection Hp1' as <- <- <- -> <-. assert (Ht : t < length (v_threads v1)) by (eapply nth_error_lt; eauto).
  destruct Hcase as [(w & n' & Hc & ->)|(w & _ & _ & ->)]; rewrite vleave_thread in Hth by auto; injection Hth as <-; cbn [vt_phase] in Hp; [|discriminate].
  injection Hp as -> <- <-. unfold choose in Hc. destruct (ml_full ml) as [|p rest] eqn:Ef.
  - exfalso. unfold thrown in Hc. repeat match type of Hc with context [match ?b with _ => _ end] => destruct b end; discriminate.
  - rewrite (pick_first rest p) in Hc by (intros; apply HA; auto). destruct p as [k mm]. destruct (react _ _); try discriminate. injection Hc as _ ->. exact HB.
Qed.

(** ... and if it fails, at its end no expectation of the overload which accepts the call is open. *)
Theorem C99_without_sequences_failure threads acts v t m ov args l v0 r0 coll c todo0 mid v1 v2 y :
  vruns false (vinit threads) acts v -> vstep false v t (VCall m ov args l) = VNext v0 r0 -> is_visiting v0 t coll c todo0 ->
  (forall e x, live_in (vw v0) coll e x -> x_seqs x = []) ->
  vruns false v0 mid v1 -> only_visits t mid -> vstep false v1 t VChoose = VNext v2 (RThrow y) ->
  forall n x, live_in (vw v1) coll n x -> accepts (eo_exp x) c -> (x_max x <= Z.of_nat (times_in (v_log v1) n))%Z.
Proof.
  intros Hr H0 Hv Hns Hmid Ho Hch n x Hx Ha.
  destruct (visits_linear _ _ _ _ _ _ _ _ _ _ _ _ _ _ _ Hr H0 Hv Hns Hmid Ho) as (th1 & visited & todo & ml & ne1 & lst & Hth1 & Hp1 & Et & Hl & El & _ & HB).
  destruct (choose_case _ _ _ _ _ Hch) as (th1' & coll' & c' & ne' & ml' & Hth1' & Hp1' & Hcase). rewrite Hth1 in Hth1'. injection Hth1' as <-.
  rewrite Hp1 in Hp1'. injection Hp1' as <- <- <- -> <-. destruct Hcase as [(w & n' & Hc & ->)|(w & Ef & _ & _)].
  - exfalso. unfold vstep in Hch. rewrite Hth1, Hp1, Hc in Hch. discriminate.
  - rewrite Ef in HB. assert (Hr1 : vruns false (vinit threads) ((acts ++ [(t, VCall m ov args l)]) ++ mid) v1).
    { eapply vruns_app; [eapply vruns_app; [exact Hr|eapply vruns_one; eauto]|exact Hmid]. }
    apply HB; auto; [|apply Hx]. rewrite app_nil_r in Et. subst visited. rewrite El. apply -> in_rev. rewrite (mi_coll _ (mi_run _ _ _ _ Hr1) _ _ Hl). apply members_in.
    destruct Hx as (H1 & H2 & H3). exists x. auto.
Qed.

(** A call is counted only for an expectation which is open at that moment. *)
Theorem C99_counted_only_if_open threads acts v t v' r th n c ne :
  vruns false (vinit threads) acts v -> nth_error (v_threads v) t = Some th -> vt_phase th = Picked n c ne -> vstep false v t VCount = VNext v' r ->
  exists x, exp_at (vw v) n x /\ eo_alive x = true /\ accepts (eo_exp x) c /\ open_for (flat v) n x /\ v_log v' = v_log v ++ [(t, n, c)].
Proof.
  intros Hr Hth Hp Hs. pose proof (vi_c _ _ (vi_run _ _ _ _ Hr)) as C. pose proof (si_vruns _ _ _ Hr) as I.
  destruct (vstep_case _ _ _ _ _ _ Hs) as (th' & Hth' & Hc). destruct Hc; try discriminate. rewrite Hth in Hth'. injection Hth' as <-.
  rewrite Hp in H0. injection H0 as <- <- <-. pose proof H1 as Hk. apply cstep_count in Hk.
  destruct Hk as (th2 & n2 & ci & ne2 & y & w & ss & ctl & Hth2 & Hp2 & Hy & Ha & Hcons & _ & _ & _ & _ & _).
  rewrite (flat_nth _ _ _ Hth) in Hth2. injection Hth2 as <-. cbn [flat_thread t_pending] in Hp2. rewrite Hp in Hp2. injection Hp2 as <- <- <-.
  exists y. split; [exact Hy|]. split; [exact Ha|]. split.
  - destruct (ci_pending _ _ C t _ n c ne (flat_nth _ _ _ Hth)) as (x & Hx & Hac); [cbn [flat_thread t_pending]; rewrite Hp; reflexivity|].
    assert (x = y) by (unfold exp_at in *; congruence). subst x. exact Hac.
  - split; [|subst v'; reflexivity]. apply (open_iff false (flat v) n y C I Hy). eapply consume_applicable; exact Hcons.
Qed.

(** ** Undisturbed calls *)

(** Actions of other threads which do not affect a matching: no counted call, no new expectation or sequence, no new reporter. *)
Definition harmless (a : vaction) : bool :=
  match a with
  | VCount | VOp (OExpect _ _ _ _ _) | VOp (ONewSeq _) | VOp (OInstall _) => false
  | _ => true
  end.

Lemma step_seqs w o w' r : step w o = Next w' r -> is_call o = false -> harmless (VOp o) = true -> w_seqs w' = w_seqs w /\
  forall e x, exp_at w e x -> exists x', exp_at w' e x' /\ eo_exp x' = eo_exp x.
Proof.
  intros H Ho Hh. pose proof (step_change _ _ _ _ H) as C.
  assert (E : w_seqs w' = w_seqs w).
  { clear C. assert (End : forall sc e w1 r1, end_expectation (set_scoped w sc) e = Next w1 r1 -> w_seqs w1 = w_seqs w).
    { intros sc e w1 r1 He. apply end_expectation_next in He. destruct He as (eo & l & unf & evs & d' & _ & _ & _ & _ & -> & _). reflexivity. }
    destruct o; try discriminate; cbn [step] in H.
    all: try (injection H as <- _; reflexivity).
    - destruct (nth s (w_iface w) false); [|discriminate]. apply release_seq_next in H. destruct H as [_ [[-> _]|(_ & _ & q & _ & -> & _)]]; reflexivity.
    - destruct (is_overload_set sigs && _); [|discriminate]. injection H as <- _. reflexivity.
    - repeat match type of H with context [match ?b with _ => _ end] => destruct b end; try discriminate; injection H as <- _; reflexivity.
    - repeat match type of H with context [match ?b with _ => _ end] => destruct b end; try discriminate; injection H as <- _; reflexivity.
    - repeat match type of H with context [match ?b with _ => _ end] => destruct b end; try discriminate; injection H as <- _; reflexivity.
    - unfold do_action in H. repeat match type of H with context [match ?b with _ => _ end] => destruct b end; try discriminate; injection H as <- _; reflexivity.
    - repeat match type of H with context [match ?b with _ => _ end] => destruct b end; discriminate.
    - unfold do_final in H. repeat match type of H with context [match ?b with _ => _ end] => destruct b end; try discriminate; injection H as <- _; reflexivity.
    - unfold do_return, thrown in H. repeat match type of H with context [match ?b with _ => _ end] => destruct b end; try discriminate; injection H as <- _; reflexivity.
    - repeat match type of H with context [match ?b with _ => _ end] => destruct b end; try discriminate; injection H as <- _; reflexivity.
    - destruct (nth_error (w_scoped w) h) as [[e| |]|]; try discriminate; [eapply End; eauto|]. injection H as <- _. reflexivity.
    - repeat match type of H with context [match ?b with _ => _ end] => destruct b end; try discriminate; injection H as <- _; reflexivity.
    - destruct (nth_error (w_scoped w) dst) as [[e| |]|]; [| |destruct (nth_error (w_scoped w) src) as [[]|]; discriminate
        |destruct (nth_error (w_scoped w) src) as [[]|]; discriminate].
      + destruct (nth_error (w_scoped w) src) as [[e'| |]|]; try discriminate.
        all: destruct (dst =? src); [injection H as <- _; reflexivity|].
        all: destruct (end_expectation _ e) as [w2 r2| | |] eqn:He; try discriminate.
        all: assert (w2 = w') by (destruct r2; congruence); subst w2; eapply End; eauto.
      + destruct (nth_error (w_scoped w) src) as [[e'| |]|]; try discriminate.
        all: destruct (dst =? src); injection H as <- _; reflexivity. }
  split; [exact E|].
  destruct C; subst.
  - intros e x Hx. exists x. unfold exp_at in *. rewrite H3. auto.
  - exfalso. apply (f_equal (@length _)) in E. cbn in E. rewrite app_length in E. cbn in E. lia.
  - intros e x Hx. exists x. auto.
  - discriminate.
  - discriminate.
  - destruct H0 as (sc & ->). intros k x Hx. unfold exp_at in *. cbn [w_exps add_trace set_sdead kill set_colls set_exps set_scoped].
    destruct (Nat.eq_dec k e) as [->|Hne].
    + rewrite nth_error_upd_eq by (eapply nth_error_lt; eauto). eexists. split; [reflexivity|]. cbn [eo_exp]. cbn [w_exps set_scoped] in *. congruence.
    + rewrite nth_error_upd_neq by auto. eauto.
Qed.

Lemma harmless_step release v t a v' r : harmless a = true -> vstep release v t a = VNext v' r ->
  w_seqs (vw v') = w_seqs (vw v) /\ w_reporter (vw v') = w_reporter (vw v) /\ forall e x, exp_at (vw v) e x -> exists x', exp_at (vw v') e x' /\ eo_exp x' = eo_exp x.
Proof.
  intros Hh H. destruct (vstep_case _ _ _ _ _ _ H) as (th & Hth & Hc). destruct Hc; subst; try discriminate.
  - destruct H5 as (w & Hs & ->). destruct (step_seqs _ _ _ _ Hs H2 Hh) as [E1 E2]. split; [exact E1|]. split; [|exact E2].
    cbn [vleave vw w_reporter set_uncaught set_frames]. rewrite (step_reporter _ _ _ _ Hs). destruct o; try reflexivity; discriminate.
  - split; [reflexivity|]. split; [reflexivity|]. intros e x Hx. exists x. auto.
  - destruct (visit_ret _ _ _ _ _ _ H2) as (x & _ & E & _ & _ & _ & _ & _ & _ & _ & Ew).
    match type of Ew with _ = emit_unhandled _ _ ?l => destruct (emit_fields c l (venter (vw v) th)) as (F1 & _ & F3 & F4 & _) end. rewrite <- Ew in F1, F3, F4.
    split; [exact F3|]. split; [exact F1|]. intros e y Hy. exists y. unfold exp_at in *. cbn [vleave vw w_exps set_uncaught set_frames]. rewrite F4. auto.
  - pose proof (choose_core (venter (vw v) th) c ne ml) as E. rewrite H2 in E. destruct E as [E _]. destruct (core_exps _ _ E) as (Ee & Es & _).
    split; [exact Es|]. split; [|intros e y Hy; exists y; unfold exp_at in *; cbn [vleave vw w_exps set_uncaught set_frames]; rewrite Ee; auto].
    unfold choose, thrown in H2. repeat match type of H2 with context [match ?b with _ => _ end] => destruct b end; try discriminate; injection H2 as <- _; reflexivity.
  - pose proof (choose_core (venter (vw v) th) c ne ml) as E. rewrite H2 in E. destruct E as [E _]. destruct (core_exps _ _ E) as (Ee & Es & _).
    split; [exact Es|]. split; [|intros e y Hy; exists y; unfold exp_at in *; cbn [vleave vw w_exps set_uncaught set_frames]; rewrite Ee; auto].
    unfold choose, thrown in H2. repeat match type of H2 with context [match ?b with _ => _ end] => destruct b end; try discriminate; injection H2 as <- _; reflexivity.
Qed.

Lemma lookup_same w w' l : (forall e x, exp_at w e x -> exists x', exp_at w' e x' /\ eo_exp x' = eo_exp x) -> forall es, lookup_exps w l = Some es -> lookup_exps w' l = Some es.
Proof.
  intros H. induction l as [|n l IH]; intros es E; cbn [lookup_exps] in *; auto.
  destruct (nth_error (w_exps w) n) as [x|] eqn:Hx; [|discriminate]. destruct (lookup_exps w l) as [es'|]; [|discriminate]. injection E as <-.
  destruct (H n x Hx) as (x' & Hx' & Ex). unfold exp_at in Hx'. rewrite Hx', (IH _ eq_refl), Ex. reflexivity.
Qed.

Lemma lookup_snoc w l n x : forall es, lookup_exps w l = Some es -> exp_at w n x -> lookup_exps w (l ++ [n]) = Some (es ++ [(n, eo_exp x)]).
Proof.
  unfold exp_at. induction l as [|k l IH]; intros es E Hx; cbn [app lookup_exps] in *; [injection E as <-; rewrite Hx; reflexivity|].
  destruct (nth_error (w_exps w) k) as [y|]; [|discriminate]. destruct (lookup_exps w l) as [es'|]; [|discriminate]. injection E as <-.
  rewrite (IH _ eq_refl Hx). reflexivity.
Qed.

Lemma loop_app rp u ss c es2 es1 : forall acc, match_loop rp u ss c (es1 ++ es2) acc = obind (match_loop rp u ss c es1 acc) (match_loop rp u ss c es2).
Proof. induction es1 as [|[n e] es1 IH]; intros acc; cbn [app match_loop obind]; auto. destruct (make_match_report rp u ss e c); cbn [obind]; auto. Qed.

(** What a matching comes to: the chosen expectation, or none. *)
Definition decision (m : matching) : option (option nat) :=
  match m with
  | MChosen _ n => Some (Some n)
  | MOver (Next _ (RThrow EReporter)) => Some None
  | _ => None
  end.
Definition picked (th : vthread) : option nat := match vt_phase th with Picked n _ _ => Some n | _ => None end.

Lemma choose_decision w c ne ml un : decision (choose (emit_unhandled w c un) c ne ml) = decision (choose w c ne ml).
Proof.
  destruct (emit_fields c un w) as (E1 & E2 & _). unfold choose, react, decision, thrown. rewrite E1, E2.
  destruct (ml_full ml) as [|p rest].
  - destruct (w_reporter w _ _); auto. destruct ne; auto.
  - destruct (pick_best p rest) as [[n m]|x| |u]; auto; [destruct (w_reporter w _ _); auto|destruct ne; auto].
Qed.

(** If the other threads do nothing which affects the matching, the visits come to what a matching in one go at the end would have. *)
Theorem C99_undisturbed release threads acts v t m ov args l v0 r0 coll c todo0 mid v1 v2 r :
  vruns release (vinit threads) acts v -> vstep release v t (VCall m ov args l) = VNext v0 r0 -> is_visiting v0 t coll c todo0 ->
  vruns release v0 mid v1 -> only_visits t mid -> (forall t' a, In (t', a) mid -> harmless a = true) ->
  vstep release v1 t VChoose = VNext v2 r ->
  exists th1 th2 ne, nth_error (v_threads v1) t = Some th1 /\ nth_error (v_threads v2) t = Some th2 /\
    decision (match_call (venter (vw v1) th1) coll c ne) = Some (picked th2).
Proof.
  intros Hr H0 Hv Hmid Ho Hh Hch. destruct (vcall_start _ _ _ _ _ _ _ _ _ _ _ _ H0 Hv) as (th & ne & lst & Hth & Hp & Hl & Et).
  assert (Hr0 : vruns release (vinit threads) (acts ++ [(t, VCall m ov args l)]) v0) by (eapply vruns_app; [exact Hr|eapply vruns_one; eauto]).
  destruct (during release t v0 coll c ne todo0 _ th (fun mid v visited todo ml =>
      (forall t' a, In (t', a) mid -> harmless a = true) ->
      nth_error (w_colls (vw v)) coll = Some lst /\ w_seqs (vw v) = w_seqs (vw v0) /\ w_reporter (vw v) = w_reporter (vw v0) /\
      (forall e x, exp_at (vw v0) e x -> exists x', exp_at (vw v) e x' /\ eo_exp x' = eo_exp x) /\
      (exists th', nth_error (v_threads v) t = Some th' /\ vt_uncaught th' = vt_uncaught th) /\
      exists es ml', lookup_exps (vw v0) visited = Some es /\
        match_loop (w_reporter (vw v0)) (vt_uncaught th) (w_seqs (vw v0)) c es (mkLists [] [] [] []) = Ret ml' /\ ml = quiet_lists ml')
    Hth Hp) with (mid := mid) (v1 := v1) as (th1 & visited & todo & ml & Hth1 & Hp1 & E1 & Hun & HP); auto.
  - intros _. split; auto. split; auto. split; auto. split; [intros e x Hx; exists x; auto|]. split; [exists th; auto|]. exists [], (mkLists [] [] [] []). auto.
  - intros mid0 v' visited n todo ml w' ml' th' v'' Hr' HP Hth' Hp' Hvis Ev'' Hs Etodo Hh'.
    destruct HP as (Hc & HS & HR & HE & (thx & Hthx & Hux) & es & ml0 & Hes & Hml & Eml); [intros; apply (Hh' t'); apply in_or_app; auto|].
    rewrite Hth' in Hthx. injection Hthx as <-.
    destruct (harmless_step _ _ _ _ _ _ (eq_refl : harmless VVisit = true) Hs) as (HS' & HR' & HE').
    split; [eapply visited_kept; [exists th', ne, ml; eauto|exact Hs|exact Hc]|]. split; [congruence|]. split; [congruence|].
    split. { intros e x Hx. destruct (HE e x Hx) as (x1 & Hx1 & Q1). destruct (HE' e x1 Hx1) as (x2 & Hx2 & Q2). exists x2. split; auto. congruence. }
    destruct (visit_ret _ _ _ _ _ _ Hvis) as (x & Hx & _ & _ & Hu & _). split.
    { eexists. rewrite Ev''. rewrite vleave_thread by (eapply nth_error_lt; eauto). split; [reflexivity|]. cbn [vt_uncaught]. rewrite Hu. exact Hux. }
    assert (Hin : In n lst) by (apply in_rev; rewrite <- Et, Etodo; apply in_or_app; right; left; auto).
    rewrite (mi_coll _ (mi_run _ _ _ _ Hr0) _ _ Hl) in Hin. apply members_in in Hin. destruct Hin as (y & Hy & _).
    destruct (HE n y Hy) as (x1 & Hx1 & Q). assert (x1 = x) by (unfold exp_at in *; cbn [venter w_exps set_uncaught set_frames] in Hx; congruence). subst x1.
    unfold visit in Hvis. unfold exp_at in Hx. rewrite Hx in Hvis. cbn [venter w_reporter w_uncaught w_seqs set_uncaught set_frames] in Hvis.
    rewrite HS, HR, Hux in Hvis. destruct (match_loop _ _ _ _ [(n, eo_exp x)] ml) as [m1| | |] eqn:Em1; cbn [obind] in Hvis; try discriminate. injection Hvis as _ <-.
    exists (es ++ [(n, eo_exp y)]), (mkLists (ml_full m1) (ml_inapplicable m1) (ml_none m1) (ml_unhandled ml0 ++ ml_unhandled m1)).
    split; [apply lookup_snoc; auto|]. split; [|reflexivity]. rewrite loop_app, Hml. cbn [obind]. rewrite <- Q. rewrite Eml in Em1. unfold quiet_lists in Em1.
    rewrite (loop_unhandled _ _ _ _ [(n, eo_exp x)] (ml_full ml0)  (ml_inapplicable ml0) (ml_none ml0) (ml_unhandled ml0)) || idtac.
    destruct ml0 as [f i nn un]. cbn [ml_full ml_inapplicable ml_none ml_unhandled] in *. rewrite loop_unhandled, Em1. reflexivity.
  - intros mid0 v' t' a v'' r' visited todo ml th' Hne Hr' HP Hs Hth' Hp' Hh'.
    destruct HP as (Hc & HS & HR & HE & (thx & Hthx & Hux) & Hlists); [intros; apply (Hh' t'0); apply in_or_app; auto|].
    assert (Hha : harmless a = true) by (apply (Hh' t'); apply in_or_app; right; left; reflexivity).
    destruct (harmless_step _ _ _ _ _ _ Hha Hs) as (HS' & HR' & HE').
    split; [eapply visited_kept; [exists th', ne, ml; eauto|exact Hs|exact Hc]|]. split; [congruence|]. split; [congruence|].
    split. { intros e x Hx. destruct (HE e x Hx) as (x1 & Hx1 & Q1). destruct (HE' e x1 Hx1) as (x2 & Hx2 & Q2). exists x2. split; auto. congruence. }
    split; [|exact Hlists]. exists thx. split; auto. rewrite <- Hthx. destruct (vstep_case _ _ _ _ _ _ Hs) as (th2 & _ & Hc2). clear -Hc2 Hne.
    destruct Hc2; subst; try (cbn [vleave v_threads]; apply nth_error_upd_neq; auto). destruct H4 as (w & _ & ->). cbn [vleave v_threads]. apply nth_error_upd_neq; auto.
  - destruct (HP Hh) as (Hc & HS & HR & HE & _ & es & ml' & Hes & Hml & Eml). clear HP.
    destruct (choose_case _ _ _ _ _ Hch) as (th1' & coll' & c' & ne' & ml1 & Hth1' & Hp1' & Hcase). rewrite Hth1 in Hth1'. injection Hth1' as <-.
    rewrite Hp1 in Hp1'. injection Hp1' as <- <- <- -> <-. rewrite app_nil_r in E1. subst visited. rewrite Et in Hes.
    assert (Ht : t < length (v_threads v1)) by (eapply nth_error_lt; eauto).
    assert (Hmc : match_call (venter (vw v1) th1) coll c ne = choose (emit_unhandled (venter (vw v1) th1) c (ml_unhandled ml')) c ne (quiet_lists ml')).
    { apply (choose_match _ _ _ _ lst es); [exact Hc|eapply (lookup_same (vw v0)); [exact HE|exact Hes]|].
      cbn [venter w_reporter w_uncaught w_seqs set_uncaught set_frames]. rewrite HS, HR, Hun. exact Hml. }
    rewrite <- Eml in Hmc. destruct Hcase as [(w & n & Hcc & ->)|(w & Ef & Er & ->)].
    + eexists th1, _, ne. split; auto. rewrite vleave_thread by auto. split; [reflexivity|]. rewrite Hmc, choose_decision, Hcc. reflexivity.
    + eexists th1, _, ne. split; auto. rewrite vleave_thread by auto. split; [reflexivity|]. rewrite Hmc, choose_decision.
      destruct (vstep_case _ _ _ _ _ _ Hch) as (th3 & Hth3 & Hc3). rewrite Hth1 in Hth3. injection Hth3 as <-. 
      unfold vstep in Hch. rewrite Hth1, Hp1 in Hch. destruct (choose (venter (vw v1) th1) c ne ml) as [w3 n3|s3] eqn:Hcc; [subst r; discriminate|].
      destruct s3 as [w3 r3| | |]; cbn [vembed] in Hch; try discriminate.
      apply (f_equal (fun q => match q with VNext _ z => z | _ => RUnit end)) in Hch. cbn beta iota in Hch. subst r3 r. reflexivity.
Qed.

(** ** A call may fail although it would have succeeded at every moment *)

(** One sequence: mock 0 at most once, then mock 1 once, then mock 0 at most once again. *)
Definition in_turns : list (nat * vaction) :=
  [(0, VOp (ONewSeq Lazy)); (0, VOp (ONewMock [sig_unary])); (0, VOp (ONewMock [sig_unary]));
   (0, VOp (OExpect 0 0 [m_eq 1] [ClTimes (TxAtMost 1); ClSeq [0]; ClFinal (FReturns (VInt 0))] here));
   (0, VOp (OExpect 1 0 [m_eq 1] [ClTimes TxOnce; ClSeq [0]; ClFinal (FReturns (VInt 0))] here));
   (0, VOp (OExpect 0 0 [m_eq 1] [ClTimes (TxAtMost 1); ClSeq [0]; ClFinal (FReturns (VInt 0))] here))].
(** Thread 0 has visited the third expectation when thread 1 calls mock 1. *)
Definition meanwhile : list (nat * vaction) :=
  [(0, VVisit); (1, VCall 1 0 [VInt 1] here); (1, VVisit); (1, VChoose); (1, VCount); (0, VVisit)].

Lemma moment_firstn release v0 acts v1 va : moment release v0 acts v1 va -> exists k, k <= length acts /\ vruns release v0 (firstn k acts) va.
Proof.
  intros (a & b & -> & H & _). exists (length a). rewrite app_length. split; [lia|]. rewrite firstn_app, Nat.sub_diag, firstn_all. cbn [firstn]. rewrite app_nil_r. exact H.
Qed.

Definition would_succeed (v0 : vworld) (acts : list (nat * vaction)) (t : nat) (a : action) : bool :=
  forallb (fun k => match vexec false v0 (firstn k acts) with
                    | Some va => match cstep false (flat va) t a with CNext _ RUnit => true | _ => false end
                    | None => false
                    end) (seq 0 (S (length acts))).

Definition spurious (v0 : vworld) : bool :=
  would_succeed v0 meanwhile 0 (AMatch 0 0 [VInt 1] here) &&
  match vexec false v0 meanwhile with
  | Some v1 => match vstep false v1 0 VChoose with VNext _ (RThrow EReporter) => true | _ => false end
  | None => false
  end.

Lemma spurious_here : match vexec false (vinit 2) (in_turns ++ [(0, VCall 0 0 [VInt 1] here)]) with Some v0 => spurious v0 | None => false end = true.
Proof. vm_compute. reflexivity. Qed.

Theorem C99_one_moment_refuted : exists acts v r0 v0 v1 v2,
  vruns false (vinit 2) acts v /\ vstep false v 0 (VCall 0 0 [VInt 1] here) = VNext v0 r0 /\
  vruns false v0 meanwhile v1 /\ only_visits 0 meanwhile /\ vstep false v1 0 VChoose = VNext v2 (RThrow EReporter) /\
  forall va, moment false v0 meanwhile v1 va -> exists c', cstep false (flat va) 0 (AMatch 0 0 [VInt 1] here) = CNext c' RUnit.
Proof.
  pose proof spurious_here as H. destruct (vexec false (vinit 2) (in_turns ++ [(0, VCall 0 0 [VInt 1] here)])) as [v0|] eqn:E0; [|discriminate].
  apply vexec_runs in E0. apply vruns_split in E0. destruct E0 as (v & Hr & Hc). inversion Hc as [|x1 x2 x3 y r x5 x6 Hs Hn]; subst. inversion Hn; subst. clear Hc Hn.
  unfold spurious in H. apply andb_true_iff in H. destruct H as [Hw H]. destruct (vexec false v0 meanwhile) as [v1|] eqn:E1; [|discriminate].
  apply vexec_runs in E1. destruct (vstep false v1 0 VChoose) as [v2 r2| | | |] eqn:E2; try discriminate. destruct r2 as [| | |y]; try discriminate. destruct y; try discriminate.
  exists in_turns, v, r, v0, v1, v2. split; auto. split; auto. split; auto. split.
  { intros a Ha. cbn [In meanwhile] in Ha. repeat (destruct Ha as [Ha|Ha]; [congruence || (injection Ha as <-; reflexivity)|]). destruct Ha. }
  split; [exact E2|]. intros va Hm. apply moment_firstn in Hm. destruct Hm as (k & Hk & Hm). unfold would_succeed in Hw. rewrite forallb_forall in Hw.
  specialize (Hw k). rewrite in_seq in Hw. assert (Hin : 0 <= k < 0 + S (length meanwhile)) by lia. apply Hw in Hin. clear Hw.
  apply vexec_runs in Hm. rewrite Hm in Hin. destruct (cstep false (flat va) 0 _) as [c' r'| | |]; try discriminate. destruct r'; try discriminate. eauto.
Qed.

(** ** Examples *)

(** One overload with two expectations; thread 0 has visited the second one when thread 1 counts a call of another mock for it to be blocked on. *)
Definition two_mocks : list (nat * vaction) :=
  [(0, VOp (ONewMock [sig_unary])); (0, VOp (ONewMock [sig_unary]));
   (0, VOp (OExpect 0 0 [m_eq 1] [ClTimes (TxAtMost 2); ClFinal (FReturns (VInt 0))] here));
   (0, VOp (OExpect 0 0 [m_eq 1] [ClTimes (TxAtMost 1); ClFinal (FReturns (VInt 0))] here));
   (0, VOp (OExpect 1 0 [m_eq 1] [ClTimes (TxAtMost 5); ClFinal (FReturns (VInt 0))] here))].

Definition look (v : vworld) : list (option nat) * list nat * list bool :=
  (map picked (v_threads v), map (fun '(_, n, _) => n) (v_log v), map (fun k => locked v k) [0; 1]).
Definition look_after (acts : list (nat * vaction)) : option (list (option nat) * list nat * list bool) :=
  option_map look (vexec false (vinit 2) (two_mocks ++ acts)).

(** While thread 0 visits mock 0, thread 1 completes a call of mock 1, ... *)
Example C99_interleaved_example :
  look_after [(0, VCall 0 0 [VInt 1] here); (0, VVisit); (1, VCall 1 0 [VInt 1] here); (1, VVisit); (1, VChoose)] = Some ([None; Some 2], [], [true; false]) /\
  look_after [(0, VCall 0 0 [VInt 1] here); (0, VVisit); (1, VCall 1 0 [VInt 1] here); (1, VVisit); (1, VChoose); (1, VCount); (0, VVisit); (0, VChoose); (0, VCount)]
    = Some ([None; None], [2; 1], [false; false]).
Proof. split; vm_compute; reflexivity. Qed.

(** ... but has to wait for mock 0, to call it, to add an expectation or to destroy one. *)
Definition answer (s : vstepped) : nat := match s with VNext _ _ => 0 | VStop => 1 | VWrong _ => 2 | VInvalid => 3 | VBlocked => 4 end.
Definition answers_after (acts : list (nat * vaction)) (asked : list vaction) : option (list nat) :=
  option_map (fun v => map (fun a => answer (vstep false v 1 a)) asked) (vexec false (vinit 2) (two_mocks ++ acts)).
Definition asked : list vaction :=
  [VCall 0 0 [VInt 1] here; VOp (OEndScope 0); VOp (OExpect 0 0 [m_eq 3] [ClFinal (FReturns (VInt 0))] here);
   VCall 1 0 [VInt 1] here; VOp (OEndScope 2); VOp (OMoveScoped 0); VVisit; VChoose].
Example C99_blocked_example :
  answers_after [(0, VCall 0 0 [VInt 1] here); (0, VVisit)] asked = Some [4; 4; 4; 0; 0; 0; 3; 3] /\
  answers_after [(0, VCall 0 0 [VInt 1] here); (0, VVisit); (0, VVisit); (0, VChoose)] asked = Some [0; 0; 0; 0; 0; 0; 3; 3].
Proof. split; vm_compute; reflexivity. Qed.

(** The hypotheses of the theorems about interrupted calls. *)
Example C99_one_moment_example : exists v v0 r0 c todo v1 v2 r th ci ne,
  vruns false (vinit 2) two_mocks v /\ vstep false v 0 (VCall 0 0 [VInt 1] here) = VNext v0 r0 /\ is_visiting v0 0 0 c todo /\ todo = [1; 0] /\
  (forall e x, live_in (vw v0) 0 e x -> x_seqs x = []) /\
  vruns false v0 [(0, VVisit); (1, VCall 1 0 [VInt 1] here); (1, VVisit); (0, VVisit)] v1 /\
  only_visits 0 [(0, VVisit); (1, VCall 1 0 [VInt 1] here); (1, VVisit); (0, VVisit)] /\
  vstep false v1 0 VChoose = VNext v2 r /\ nth_error (v_threads v2) 0 = Some th /\ vt_phase th = Picked 1 ci ne.
Proof.
  eexists _, _, _, _, _, _, _, _, _, _, _.
  split; [apply vexec_runs; vm_compute; reflexivity|]. split; [vm_compute; reflexivity|].
  split; [eexists _, _, _; split; vm_compute; reflexivity|]. split; [reflexivity|]. split.
  { intros e x (Hx & _). unfold exp_at in Hx. apply nth_error_In in Hx. cbn [vw w_exps In] in Hx. repeat (destruct Hx as [<-|Hx]; [reflexivity|]). destruct Hx. }
  split; [apply vexec_runs; vm_compute; reflexivity|]. split.
  { intros a Ha. cbn [In] in Ha. repeat (destruct Ha as [Ha|Ha]; [congruence || (injection Ha as <-; reflexivity)|]). destruct Ha. }
  split; [vm_compute; reflexivity|]. split; [reflexivity|]. vm_compute. reflexivity.
Qed.

(** Thread 1 does harmless things meanwhile. *)
Example C99_undisturbed_example : forallb (fun '(_, a) => harmless a)
    [(0, VVisit); (1, VOp (OMoveScoped 2)); (1, VCall 1 0 [VInt 1] here); (1, VVisit); (0, VVisit)] = true /\
  look_after [(0, VCall 0 0 [VInt 1] here); (0, VVisit); (1, VOp (OMoveScoped 2)); (1, VCall 1 0 [VInt 1] here); (1, VVisit); (0, VVisit); (0, VChoose)]
    = Some ([Some 1; None], [], [false; true]).
Proof. split; vm_compute; reflexivity. Qed.

Print Assumptions C99_counted_calls_were_accepted.
Print Assumptions C99_count_is_exact.
Print Assumptions C99_limit_with_asserts.
Print Assumptions C99_sequences_in_order.
Print Assumptions C99_one_thread_at_a_time.
Print Assumptions C99_visited_are_alive.
Print Assumptions C99_blocked_waits_for_a_visit.
Print Assumptions C99_waits_only_if_needed.
Print Assumptions C99_uninterrupted_visits_are_one_step.
Print Assumptions C99_one_step_by_visits.
Print Assumptions C99_all_coarse_executions.
Print Assumptions C99_chosen_was_open.
Print Assumptions C99_failed_were_closed.
Print Assumptions C99_without_sequences_one_moment.
Print Assumptions C99_without_sequences_failure.
Print Assumptions C99_counted_only_if_open.
Print Assumptions C99_undisturbed.
Print Assumptions C99_one_moment_refuted.
