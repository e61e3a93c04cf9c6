(** * FailBuildProofs: programs with stored builders in which things may fail, and the programs of [Failing] they correspond to. *)

From Verif Require Import Base Lib Sequence Control Signature Printer Reports Expectation Builder BuildSpec BuilderLemmas BuildProofs World WorldSpec
  StepCases WorldInv ObjInv CountProofs PlayProofs MoveProofs Failing FailProofs Builders StoredProofs FailingBuilders.

(** ** Failing operations under other names *)

Definition frename (rho : nat -> nat) (o : fop) : fop :=
  match o with
  | FExpect m ov ms cls l st x => FExpect (rho m) ov ms cls l st x
  | FCall m ov args l i x => FCall (rho m) ov args l i x
  | other => other
  end.

Lemma find_put rho ms hs w m ov : rel rho (fun _ => true) (w_mocks w) ms -> find_overload (put ms hs w) (rho m) ov = find_overload w m ov.
Proof. intros R. unfold find_overload. cbn [w_mocks put]. rewrite (r_nth _ _ _ _ R m eq_refl). reflexivity. Qed.

Lemma half_built_put ms hs w l ss ctl x : half_built (put ms hs w) l ss ctl x = put ms hs (half_built w l ss ctl x).
Proof. unfold half_built. destruct (c_seqs ctl); reflexivity. Qed.
Lemma bury_put ms hs w e x : bury (put ms hs w) e x = put ms hs (bury w e x).
Proof. unfold bury. change (w_exps (put ms hs w)) with (w_exps w). destruct (nth_error (w_exps w) e); reflexivity. Qed.
Lemma bury_mocks w e x : w_mocks (bury w e x) = w_mocks w.
Proof. unfold bury. destruct (nth_error (w_exps w) e); reflexivity. Qed.
Lemma bury_colls w e x : w_colls (bury w e x) = w_colls w.
Proof. unfold bury. destruct (nth_error (w_exps w) e); reflexivity. Qed.
Lemma bury_iface w e x : w_iface (bury w e x) = w_iface w.
Proof. unfold bury. destruct (nth_error (w_exps w) e); reflexivity. Qed.
Lemma half_built_mocks w l ss ctl x : w_mocks (half_built w l ss ctl x) = w_mocks w.
Proof. unfold half_built. destruct (c_seqs ctl); reflexivity. Qed.
Lemma half_built_scoped w l ss ctl x : w_scoped (half_built w l ss ctl x) = w_scoped w.
Proof. unfold half_built. destruct (c_seqs ctl); reflexivity. Qed.
Lemma half_built_iface w l ss ctl x : w_iface (half_built w l ss ctl x) = w_iface w.
Proof. unfold half_built. destruct (c_seqs ctl); reflexivity. Qed.

Lemma emit_unhandled_mocks c l : forall w, w_mocks (emit_unhandled w c l) = w_mocks w /\ w_scoped (emit_unhandled w c l) = w_scoped w.
Proof. induction l as [|[n [r x]] l IH]; intros w; auto. cbn [emit_unhandled]. rewrite !(proj1 (IH _)), !(proj2 (IH _)). auto. Qed.

Lemma fsim rho w w1 o w' r : (forall o', o <> FDone o') -> named rho w w1 -> fstep w o = Next w' r ->
  exists w1', fstep w1 (frename rho o) = Next w1' r /\ named rho w' w1' /\ keeps w1 w1'.
Proof.
  intros Nd S H.
  assert (End : forall h e x o', nth_error (w_scoped w) h = Some (HOwns e) -> (forall y y' rr, step y o' = Next y' rr -> w_mocks y' = w_mocks y) ->
            rename rho (fun i => i) o' = o' -> do_end_fails w h o' x = Next w' r ->
            exists w1', do_end_fails w1 h o' x = Next w1' r /\ named rho w' w1' /\ keeps w1 w1').
  { intros h e x o' Hh Km Kr E. destruct S as (ms & hs & -> & Rm & Rh). unfold do_end_fails in *. cbn [w_scoped put w_exps].
    pose proof (r_nth _ _ _ _ Rh h eq_refl) as Ehs. cbn beta in Ehs. rewrite Ehs, Hh in *.
    destruct (nth_error (w_exps w) e) as [eo|]; [|discriminate]. destruct (eo_alive eo && _); [|discriminate].
    assert (S' : named rho (bury w e x) (put ms hs (bury w e x))).
    { exists ms, hs. split; auto. rewrite bury_mocks, bury_scoped. auto. }
    destruct (rename_sim _ _ _ _ _ _ S' E) as (w1' & H1 & S1). rewrite Kr in H1. rewrite bury_put. exists w1'. split; auto. split; auto.
    apply Km in H1. apply keeps_same. rewrite H1. reflexivity. }
  destruct o as [o|x|m ov ms0 cls l st x|m ov args l i x|h x|dst src x]; cbn [frename].
  - exfalso. eapply Nd; eauto.
  - cbn [fstep] in *. injection H as <- <-. exists w1. split; auto. split; auto. apply keeps_refl.
  - destruct S as (ms & hs & -> & Rm & Rh). cbn [fstep] in *. unfold do_expect_fails in *. rewrite (find_put _ _ _ _ _ _ Rm).
    destruct (find_overload w m ov) as [s|[s coll]] eqn:Hf; [destruct (find_overload_inl _ _ _ _ Hf); subst; discriminate|].
    change (clause_ok (put ms hs w)) with (clause_ok w). change (w_seqs (put ms hs w)) with (w_seqs w). change (w_colls (put ms hs w)) with (w_colls w).
    destruct (negb (_ && forallb _ _)); [discriminate|]. destruct (negb _); [discriminate|].
    destruct st.
    + injection H as <- <-. eexists. split; [reflexivity|]. split; [exists ms, hs; auto|apply keeps_refl].
    + destruct (build s ms0 cls) as [b| |]; try discriminate. destruct (user_made b); discriminate.
    + destruct (build s ms0 cls) as [b| |]; try discriminate. destruct (control_new _ _ _) as [[ss ctl]| | |]; try discriminate.
      destruct (nth_error (w_colls w) coll); [|discriminate]. destruct (_ =? 0); discriminate.
    + destruct (build s ms0 cls) as [b| |]; try discriminate. destruct (control_new _ _ _) as [[ss ctl]| | |]; try discriminate.
      destruct (nth_error (w_colls w) coll); [|discriminate]. injection H as <- <-. rewrite half_built_put. eexists. split; [reflexivity|].
      split; [|apply keeps_same; reflexivity]. exists ms, hs. split; auto. rewrite half_built_mocks, half_built_scoped. auto.
    + destruct (build s ms0 cls) as [b| |]; try discriminate. destruct (control_new _ _ _) as [[ss ctl]| | |]; try discriminate.
      destruct (nth_error (w_colls w) coll); discriminate.
  - destruct S as (ms & hs & -> & Rm & Rh). cbn [fstep] in *. unfold do_call_fails in *. rewrite (find_put _ _ _ _ _ _ Rm).
    destruct (find_overload w m ov) as [s|[s coll]] eqn:Hf; [destruct (find_overload_inl _ _ _ _ Hf); subst; discriminate|].
    change (w_colls (put ms hs w)) with (w_colls w). change (w_reporter (put ms hs w)) with (w_reporter w).
    change (w_uncaught (put ms hs w)) with (w_uncaught w). change (w_seqs (put ms hs w)) with (w_seqs w).
    destruct (negb _); [discriminate|]. destruct (nth_error (w_colls w) coll) as [mem|]; [|discriminate]. rewrite lookup_exps_put.
    destruct (lookup_exps w _) as [es|]; [|discriminate].
    destruct (match_loop _ _ _ _ _ _) as [ml|y| |u]; try discriminate; unfold thrown in *; destruct (frontend_noexcept s); try discriminate; injection H as <- <-.
    + rewrite emit_unhandled_put. eexists. split; [reflexivity|]. split; [|apply keeps_same; reflexivity]. exists ms, hs. split; auto.
      destruct (emit_unhandled_mocks (mkCall (sg_ret s) (sg_params s) args (frontend_category s) (frontend_constness s) l) (ml_unhandled ml) w) as [-> ->]. auto.
    + eexists. split; [reflexivity|]. split; [exists ms, hs; auto|apply keeps_refl].
  - cbn [fstep] in *. pose proof H as H'. unfold do_end_fails in H'. destruct (nth_error (w_scoped w) h) as [[e| |]|] eqn:Hh; try discriminate. clear H'.
    eapply End; eauto. intros y y' rr Hy. apply step_mocks in Hy. inversion Hy; subst; auto.
  - cbn [fstep] in *. destruct (dst =? src); [discriminate|]. pose proof H as H'. unfold do_end_fails in H'.
    destruct (nth_error (w_scoped w) dst) as [[e| |]|] eqn:Hh; try discriminate. clear H'.
    eapply End; eauto. intros y y' rr Hy. apply step_mocks in Hy. inversion Hy; subst; auto.
Qed.

Lemma run_frun w ops w' : run w ops w' -> frun w (map FDone ops) w'.
Proof. induction 1; simpl; econstructor; eauto. Qed.

Lemma freachable_run w ops w' : freachable w -> frun w ops w' -> freachable w'.
Proof. intros [ops0 H] R. exists (ops0 ++ ops). eapply frun_app; eauto. Qed.

(** ** The collections of mocks exist *)

Definition ranged (w : world) : Prop := forall mk cs c, In mk (w_mocks w) -> mk_colls mk = Some cs -> In c cs -> c < length (w_colls w).

Lemma ranged_change w w' o : ranged w -> mocks_change w w' o -> ranged w'.
Proof.
  intros R C mk cs c Hin Hcs Hc. pose proof (colls_mono _ _ _ C) as M.
  assert (Old : forall mk0, In mk0 (w_mocks w) -> mk_colls mk0 = Some cs -> c < length (w_colls w')).
  { intros mk0 H1 H2. specialize (R _ _ _ H1 H2 Hc). lia. }
  destruct C as [sigs Ho E1 E2|m mk0 Hmk Ha E1 E2|dst src md ms Hd Hs Ha1 Ha2 Hne Hsig E1 E2|m mk0 Hmk Ha E1 E2|o E1 E2]; rewrite E1 in Hin.
  - apply in_app_or in Hin. destruct Hin as [Hin|[<-|[]]]; [eapply Old; eauto|]. cbn in Hcs. injection Hcs as <-.
    apply In_nth_error in Hc. destruct Hc as [ov Hn]. destruct (new_ids_nth _ _ _ _ Hn) as (s & i & _ & _ & -> & Hi).
    rewrite E2, app_length, map_length. lia.
  - apply in_app_or in Hin. destruct Hin as [Hin|[<-|[]]]; [|cbn in Hcs; eapply Old; eauto; eapply nth_error_In; eauto].
    apply in_upd in Hin. destruct Hin as [Hin| ->]; [eapply Old; eauto|discriminate].
  - apply in_upd in Hin. destruct Hin as [Hin| ->]; [|cbn in Hcs; apply (Old ms); auto; eapply nth_error_In; eauto].
    apply in_upd in Hin. destruct Hin as [Hin| ->]; [eapply Old; eauto|discriminate].
  - apply in_upd in Hin. destruct Hin as [Hin| ->]; [eapply Old; eauto|discriminate].
  - eapply Old; eauto.
Qed.

Lemma franged w : freachable w -> ranged w.
Proof.
  intros [ops H]. assert (R0 : ranged init) by (intros mk cs c []). assert (I0 : WInv init) by apply winv_init. revert R0 I0.
  induction H as [|w o w1 r ops w2 Hs Hr IH]; auto. intros R I. apply IH; [|eapply finv_step; eauto].
  pose proof (fstep_change _ _ _ _ I Hs) as C.
  destruct C as [o' E H1|evs y _ E Q|m ov ms cls l y s coll b ss ctl mem E _ Hf Hl Hok Hb Hc Hm Hs' Ew|h k eo y E Hh He Ha Hsat (o' & Ho & Hst)].
  - eapply ranged_change; eauto. eapply step_mocks; eauto.
  - subst w1. exact R.
  - subst w1. exact R.
  - eapply ranged_change; [|eapply step_mocks; eauto]. intros mk cs c. rewrite bury_mocks, bury_colls. apply R.
Qed.

Lemma place_range w g ov s coll : freachable w -> find_overload w g ov = inr (s, coll) -> exists mem, nth_error (w_colls w) coll = Some mem.
Proof.
  intros R H. apply find_overload_mock in H. destruct H as (sigs & cs & H & _ & H2). apply nth_error_ex.
  eapply (franged _ R); [eapply nth_error_In; exact H|reflexivity|eapply nth_error_In; exact H2].
Qed.

(** ** Mixed builders are builders *)

Definition mix {A} (j : nat) (a b : list A) : list A := firstn j a ++ skipn j b.
Lemma mix_app {A} j (a a' b b' : list A) : length a = length b -> mix j (a ++ a') (b ++ b') = mix j a b ++ mix (j - length a) a' b'.
Proof.
  intros L. unfold mix. rewrite firstn_app, skipn_app, <- L. destruct (Nat.le_gt_cases j (length a)) as [Hj|Hj].
  - replace (j - length a) with 0 by lia. cbn [firstn skipn]. rewrite app_nil_r, app_assoc. auto.
  - rewrite (skipn_all2 b) by lia. rewrite !app_nil_l, !app_nil_r, app_assoc. auto.
Qed.
Lemma mix_same {A} j (a : list A) : mix j a a = a.
Proof. apply firstn_skipn. Qed.
Lemma mix_length {A} j (a b : list A) : length a = length b -> length (mix j a b) = length a.
Proof. intros L. unfold mix. rewrite app_length, firstn_length, skipn_length. lia. Qed.
Lemma mix_forallb {A} (f : A -> bool) j a b : forallb f a = true -> forallb f b = true -> forallb f (mix j a b) = true.
Proof.
  intros Ha Hb. rewrite forallb_forall in *. intros x Hx. apply in_app_or in Hx. destruct Hx as [Hx|Hx].
  - apply Ha. rewrite <- (firstn_skipn j a). apply in_or_app. auto.
  - apply Hb. rewrite <- (firstn_skipn j b). apply in_or_app. auto.
Qed.

Lemma args_mix j : forall k (m1 m2 : list matcher), length m1 = length m2 ->
  map (fun im => PArg (fst im) (snd im) (fun v => UOk v)) (combine (seq k (length (mix j m1 m2))) (mix j m1 m2)) =
  mix j (map (fun im => PArg (fst im) (snd im) (fun v => UOk v)) (combine (seq k (length m1)) m1))
        (map (fun im => PArg (fst im) (snd im) (fun v => UOk v)) (combine (seq k (length m2)) m2)).
Proof.
  induction j as [|j IH]; intros k m1 m2 L; [reflexivity|].
  destruct m1 as [|a m1], m2 as [|b m2]; try discriminate; [reflexivity|]. cbn [length] in L. injection L as L.
  specialize (IH (S k) m1 m2 L). unfold mix in *. cbn [firstn skipn app length combine seq map]. f_equal. exact IH.
Qed.

Definition limits_and_seqs (cl : clause) : bool := match cl with ClTimes _ | ClSeq _ => true | _ => false end.

Lemma filter_parts cls : times_clauses (filter limits_and_seqs cls) = times_clauses cls /\ clause_seqs (filter limits_and_seqs cls) = clause_seqs cls /\
  final_clauses (filter limits_and_seqs cls) = [] /\ clause_policies (filter limits_and_seqs cls) = [].
Proof.
  unfold times_clauses, clause_seqs, final_clauses, clause_policies.
  induction cls as [|[t|tags|f|p] cls (A & B & C & D)]; cbn [filter limits_and_seqs flat_map app]; auto; rewrite ?A, ?B, ?C, ?D; auto.
Qed.
Lemma finals_parts fs : times_clauses (map ClFinal fs) = [] /\ clause_seqs (map ClFinal fs) = [] /\
  final_clauses (map ClFinal fs) = fs /\ clause_policies (map ClFinal fs) = [].
Proof.
  unfold times_clauses, clause_seqs, final_clauses, clause_policies.
  induction fs as [|f fs (A & B & C & D)]; cbn [map flat_map app]; auto; rewrite ?A, ?B, ?C, ?D; auto.
Qed.
Lemma policies_parts ps : times_clauses (map ClPolicy ps) = [] /\ clause_seqs (map ClPolicy ps) = [] /\
  final_clauses (map ClPolicy ps) = [] /\ clause_policies (map ClPolicy ps) = ps.
Proof.
  unfold times_clauses, clause_seqs, final_clauses, clause_policies.
  induction ps as [|f ps (A & B & C & D)]; cbn [map flat_map app]; auto; rewrite ?A, ?B, ?C, ?D; auto.
Qed.

Lemma policies_static n cls : forallb (clause_static n) cls = true -> forallb (policy_ok n) (clause_policies cls) = true.
Proof.
  unfold clause_policies. induction cls as [|[t|tags|f|p] cls IH]; cbn; auto; intros H; apply andb_true_iff in H; destruct H as [H1 H2]; auto.
  rewrite H1. cbn. auto.
Qed.

Lemma build_mixed sg msd clsd bd mss clss bs n :
  length msd = length (sg_params sg) -> forallb (clause_static (length (sg_params sg))) clsd = true -> build sg msd clsd = BOk bd ->
  length mss = length (sg_params sg) -> forallb (clause_static (length (sg_params sg))) clss = true -> build sg mss clss = BOk bs ->
  b_finalized bd = b_finalized bs ->
  exists ms cls, length ms = length (sg_params sg) /\ forallb (clause_static (length (sg_params sg))) cls = true /\ build sg ms cls = BOk (mixed bd bs n).
Proof.
  intros Ld Cd Bd Ls Cs Bs Fe.
  destruct (build_inv _ _ _ _ Bd) as (Wd & Vd & Ed). destruct (build_inv _ _ _ _ Bs) as (Ws & Vs & Es).
  set (np := length (sg_params sg)) in *.
  set (ms := match n with None => msd | Some j => mix j mss msd end).
  set (fs := match n with None => final_clauses clsd | Some _ => final_clauses clss end).
  set (ps := match n with None => clause_policies clsd | Some j => mix (j - np - 2) (clause_policies clss) (clause_policies clsd) end).
  set (cls := filter limits_and_seqs clss ++ map ClFinal fs ++ map ClPolicy ps).
  assert (P : times_clauses cls = times_clauses clss /\ clause_seqs cls = clause_seqs clss /\ final_clauses cls = fs /\ clause_policies cls = ps).
  { destruct (filter_parts clss) as (A1 & A2 & A3 & A4). destruct (finals_parts fs) as (B1 & B2 & B3 & B4). destruct (policies_parts ps) as (D1 & D2 & D3 & D4).
    unfold cls. unfold times_clauses, clause_seqs, final_clauses, clause_policies in *. rewrite !flat_map_app.
    rewrite A1, A2, A3, A4, B1, B2, B3, B4, D1, D2, D3, D4, !app_nil_r. auto. }
  destruct P as (Pt & Pq & Pf & Pp).
  exists ms, cls. split; [|split].
  - unfold ms. destruct n; auto. rewrite mix_length; congruence.
  - unfold cls. rewrite !forallb_app. apply andb_true_iff. split; [|apply andb_true_iff; split].
    + rewrite forallb_forall in *. intros cl H. apply filter_In in H. apply Cs; tauto.
    + apply forallb_forall. intros cl H. apply in_map_iff in H. destruct H as (f & <- & _). reflexivity.
    + assert (X : forallb (policy_ok np) ps = true).
      { unfold ps. destruct n; [apply mix_forallb|]; apply policies_static; auto. }
      rewrite forallb_forall in *. intros cl H. apply in_map_iff in H. destruct H as (p & <- & Hp). cbn. apply X; auto.
  - assert (W : well_formed cls).
    { unfold well_formed in *. rewrite Pt, Pf. destruct Ws as (W1 & W2 & W3), Wd as (W4 & W5 & W6). split; auto. unfold fs. destruct n; auto. }
    assert (V : valid_setup cls) by (unfold valid_setup in *; rewrite Pt, Pq; auto).
    destruct (build_spec sg ms cls) as (H1 & _). rewrite (H1 W V). f_equal. unfold finished, mixed.
    assert (Fn : negb (is_nil fs) = b_finalized bs).
    { unfold fs. destruct n; [rewrite Es|rewrite <- Fe, Ed]; reflexivity. }
    unfold declared_limits, declared_finalizer in *. rewrite Pt, Pq, Pf, Pp, Fn. f_equal.
    + rewrite Es. reflexivity.
    + rewrite Es. reflexivity.
    + rewrite Es. reflexivity.
    + unfold fs. destruct n; [rewrite Es|rewrite Ed]; reflexivity.
    + unfold ms, ps. destruct n as [j|]; [|rewrite Ed; reflexivity]. rewrite Ed, Es. unfold finished. cbn [b_policies].
      fold (mix j (arg_requirements mss ++ overload_requirements sg ++ clause_policies clss) (arg_requirements msd ++ overload_requirements sg ++ clause_policies clsd)).
      assert (La : forall m, length (arg_requirements m) = length m).
      { intros m. unfold arg_requirements. rewrite map_length, combine_length, seq_length. lia. }
      rewrite mix_app by (rewrite !La; congruence). rewrite mix_app by reflexivity. rewrite mix_same, La, Ls.
      unfold arg_requirements. rewrite (args_mix j 0 mss msd) by congruence. reflexivity.
Qed.

Lemma same_type_inv d s : same_type d s = true -> bo_sig d = bo_sig s /\ b_finalized (bo_members d) = b_finalized (bo_members s).
Proof.
  unfold same_type. destruct (signature_eq_dec (bo_sig d) (bo_sig s)); [|discriminate]. rewrite !andb_true_iff, !Bool.eqb_true_iff. tauto.
Qed.

Lemma half_assigned_ok d s n : bobj_ok d -> bobj_ok s -> bo_alive d = true -> same_type d s = true -> bobj_ok (half_assigned d s n).
Proof.
  intros Od Os A T. apply same_type_inv in T. destruct T as [Eg Ef]. constructor.
  - apply (ok_nodup _ Os).
  - intros coll E. cbn in *. destruct (ok_full _ Os _ E). auto.
  - destruct (ok_built _ Od) as (msd & clsd & Ld & Cd & Bd). destruct (ok_built _ Os) as (mss & clss & Ls & Cs & Bs). rewrite Eg in Ld, Cd, Bd.
    cbn [half_assigned bo_sig bo_members]. apply (build_mixed _ msd clsd _ mss clss); auto.
Qed.

(** ** The simulation *)

Lemma winv_twin b w1 : twin b w1 -> WInv w1 -> WInv (bw b).
Proof. intros ((rho & ms & hs & -> & _) & _) I. destruct I. constructor; auto. Qed.

Lemma fstep_iface w o w' r : WInv w -> (forall o', o <> FDone o') -> fstep w o = Next w' r -> w_iface w' = w_iface w.
Proof.
  intros I Nd H. pose proof (fstep_change _ _ _ _ I H) as C.
  destruct C as [o' E H1|evs y _ E Q|m ov ms cls l y s coll b ss ctl mem E _ Hf Hl Hok Hb Hc Hm Hs Ew|h k eo y E Hh He Ha Hsat (o' & Ho & Hst)].
  - exfalso. eapply Nd; eauto.
  - subst. reflexivity.
  - subst. reflexivity.
  - pose proof (step_iface _ _ _ _ Hst) as Ei. rewrite bury_iface in Ei. destruct o'; auto; discriminate.
Qed.

Definition fimitates (w1 : world) (b' : bworld) : Prop := BInv b' [] /\ exists ops w2, frun w1 ops w2 /\ twin b' w2.

Lemma imitates_f w1 b r : imitates w1 (BNext b r) -> fimitates w1 b.
Proof. intros (I & ops & w2 & R & T). split; auto. exists (map FDone ops), w2. split; auto. apply run_frun; auto. Qed.

Lemma twin_lift b w1 o w' r : BInv b [] -> twin b w1 -> WInv (bw b) -> (forall o', o <> FDone o') -> fstep (bw b) o = Next w' r ->
  fimitates w1 (set_bw b w').
Proof.
  intros I T W Nd H. pose proof (fstep_iface _ _ _ _ W Nd H) as Ei. destruct T as ((rho & S) & P).
  destruct (fsim _ _ _ _ _ _ Nd S H) as (w1' & H1 & S1 & K). split.
  - constructor; [cbn; rewrite Ei; apply I| |apply I]. intros s. cbn [set_bw bw bw_user]. rewrite Ei. apply (bi_iface _ _ I).
  - exists [frename rho o], w1'. split; [econstructor; [exact H1|constructor]|]. split; [exists rho; exact S1|]. intros ob Hin. eapply places_keep; eauto.
Qed.

(** A failed finalization is a failed declaration. *)
Lemma twin_half b w1 k l x ob ss ctl : BInv b [] -> twin b w1 -> freachable w1 -> nth_error (bw_builders b) k = Some ob -> bo_alive ob = true ->
  finalize_ok (bo_sig ob) (bo_members ob) = true -> bo_null ob && negb (length (b_seqs (bo_members ob)) =? 0) = false ->
  control_new (w_seqs (bw b)) (b_times (bo_members ob)) (b_seqs (bo_members ob)) = Ret (ss, ctl) ->
  let b' := set_bw (set_builders b (upd (bw_builders b) k (used_up ob))) (half_built (bw b) l ss ctl x) in
  BInv b' [] /\ exists g ms cls w2, fstep w1 (FExpect g (bo_ov ob) ms cls l AfterControl x) = Next w2 (RThrow x) /\ twin b' w2 /\
    declared_limits cls = (t_min (b_times (bo_members ob)), t_max (b_times (bo_members ob))) /\ clause_seqs cls = b_seqs (bo_members ob).
Proof.
  intros I T Fr Hk A F N Hc b'. assert (Hin : In ob (bw_builders b)) by (eapply nth_error_In; eauto). pose proof (bi_objs _ _ I _ Hin) as Ok.
  assert (N' : bo_null ob = false \/ b_seqs (bo_members ob) = []).
  { apply andb_false_iff in N. destruct N as [N|N]; auto. right. apply negb_false_iff, Nat.eqb_eq in N. destruct (b_seqs (bo_members ob)); auto. discriminate. }
  destruct (inv_expect_ok _ _ I Hin A N') as (ms & cls & L & C & B).
  destruct (build_inv _ _ _ _ B) as (_ & _ & Eb).
  split.
  - constructor; [cbn; rewrite half_built_iface; apply I| |].
    + intros s. cbn [b' set_bw set_builders bw bw_user]. rewrite half_built_iface, (bi_iface _ _ I). f_equal. f_equal. unfold held. cbn [set_builders set_bw bw_builders].
      change (existsb (holding s) (bw_builders b) = existsb (holding s) (upd (bw_builders b) k (used_up ob))).
      pose proof (existsb_upd_or (holding s) _ _ _ (used_up ob) Hk) as X. rewrite used_holds in X.
      destruct (holding s ob) eqn:Hh; [|rewrite !orb_false_r in X; auto].
      transitivity true; [apply existsb_exists; eauto|]. symmetry. apply existsb_exists. exists (used_up ob). split; auto.
      eapply nth_error_In. apply nth_error_upd_eq. eapply nth_error_lt; eauto.
    + intros y Hy. cbn [b' set_bw set_builders bw_builders] in Hy. apply in_upd in Hy. destruct Hy as [Hy| ->]; [apply I; auto|].
      eapply bobj_spent_ok; eauto.
  - destruct T as ((rho & S) & P). destruct (P _ Hin) as (g & coll & Hg & _). destruct (place_range _ _ _ _ _ Fr Hg) as [mem Hm].
    destruct S as (xs & hs & -> & Rm & Rh).
    assert (Hv : viable false false cls = true).
    { unfold build in B. destruct (viable false false cls); auto. discriminate. }
    assert (Fi : finalizable (bo_sig ob) cls = true).
    { unfold finalize_ok in F. unfold finalizable. apply orb_true_iff in F. apply orb_true_iff.
      destruct F as [E|E]; auto. right. rewrite Eb in E. unfold finished in E. cbn [b_finalized] in E. unfold final_clauses in E.
      clear - E. induction cls as [|cl cls IH]; [discriminate|]. simpl in *. destruct cl; auto. }
    exists g, ms, cls. eexists. split.
    + cbn [fstep]. unfold do_expect_fails. rewrite Hg. change (clause_ok (put xs hs (bw b))) with (clause_ok (bw b)).
      rewrite L, Nat.eqb_refl, C, Hv, Fi. cbn [andb negb]. rewrite B. change (w_seqs (put xs hs (bw b))) with (w_seqs (bw b)). rewrite Hc.
      rewrite Hm. reflexivity.
    + rewrite half_built_put. split; [|split].
      * split; [exists rho, xs, hs; split; [reflexivity|]; cbn [b' set_bw bw]; rewrite half_built_mocks, half_built_scoped; auto|].
        intros y Hy. cbn [b' set_bw set_builders bw_builders] in Hy.
        assert (K : keeps (put xs hs (bw b)) (put xs hs (half_built (bw b) l ss ctl x))) by (apply keeps_same; reflexivity).
        apply in_upd in Hy. destruct Hy as [Hy| ->]; [eapply places_keep; eauto|].
        destruct (K _ _ _ _ Hg) as [g' Hg']. exists g', coll. split; [exact Hg'|discriminate].
      * rewrite Eb. unfold finished. cbn [b_times t_min t_max]. destruct (declared_limits cls); reflexivity.
      * rewrite Eb. reflexivity.
Qed.

Lemma twin_fbstep b w1 o b' r : BInv b [] -> twin b w1 -> freachable w1 -> fbstep b o = BNext b' r -> fimitates w1 b'.
Proof.
  intros I T Fr H. assert (W : WInv (bw b)) by (eapply winv_twin; eauto; apply finv; auto).
  assert (Done : forall o', bstep b o' = BNext b' r -> fimitates w1 b').
  { intros o' E. destruct (twin_bstep _ _ o' I T) as [Im|[_ N]]; [|exfalso; eapply N; eauto]. rewrite E in Im. eapply imitates_f; eauto. }
  destruct o as [o|o|m ov ms|k cl|k x|dst src n x|k l st x].
  - eapply Done; eauto.
  - assert (Lift : (forall o', o <> FDone o') -> blift b (fstep (bw b) o) = BNext b' r -> fimitates w1 b').
    { intros Nd E. destruct (fstep (bw b) o) as [w' r'| |u|] eqn:Ef; try discriminate. cbn [blift] in E. injection E as <- <-. eapply twin_lift; eauto. }
    destruct o as [o|x|m ov ms cls l st x|m ov args l i x|h x|dst src x]; cbn [fbstep] in H; try (apply Lift; [discriminate|auto]).
    + eapply Done; eauto.
    + destruct (forallb (names_ok b) cls); [auto|discriminate].
  - cbn [fbstep] in H. unfold do_bexpect_fails in H. destruct (find_overload (bw b) m ov) as [s|[s coll]] eqn:Hf.
    + destruct (find_overload_inl _ _ _ _ Hf); subst; discriminate.
    + destruct (negb _); [discriminate|]. destruct (_ =? 0); discriminate.
  - cbn [fbstep] in H. unfold do_band_fails in H. destruct (nth_error (bw_builders b) k); [|discriminate]. destruct (negb _); [discriminate|].
    destruct (match cl with ClSeq _ => _ | _ => _ end); [discriminate|]. destruct (builder_and _ _) as [bd| |]; try discriminate. destruct (user_made bd); discriminate.
  - cbn [fbstep] in H. unfold do_bmove_fails in H. destruct (nth_error (bw_builders b) k) as [ob|] eqn:Hk; [|discriminate].
    destruct (bo_alive ob && user_made (bo_members ob)) eqn:A; [|discriminate]. apply andb_true_iff in A. destruct A as [A _].
    assert (Hin : In ob (bw_builders b)) by (eapply nth_error_In; eauto).
    set (b1 := set_builders b (upd (bw_builders b) k (moved_from ob))) in *.
    assert (T1 : twin b1 w1).
    { destruct T as (S & P). split; auto. intros y Hy. cbn [b1 set_builders bw_builders] in Hy.
      apply in_upd in Hy. destruct Hy as [Hy| ->]; [apply P; auto|apply (places_like b w1 ob); auto]. }
    destruct (twin_next b1 w1 (OUnwind (S (w_uncaught (bw b)))) _ _ T1 eq_refl) as (ops1 & w2 & R1 & T2).
    set (b2 := set_bw b1 (set_uncaught (bw b1) (S (w_uncaught (bw b))))) in *.
    assert (I2 : BInv b2 (holds ob)).
    { constructor; [apply I| |].
      - intros s. cbn [b2 b1 set_bw set_builders bw bw_user w_iface set_uncaught]. rewrite (bi_iface _ _ I). cbn [existsb]. rewrite orb_false_r. rewrite <- orb_assoc. f_equal.
        unfold held. cbn [b2 b1 set_bw set_builders bw_builders]. change (existsb (holding s) (bw_builders b) = existsb (holding s) (upd (bw_builders b) k (moved_from ob)) || holding s ob).
        rewrite (existsb_upd_or (holding s) _ _ _ (moved_from ob) Hk), moved_holds, orb_false_r. auto.
      - intros y Hy. cbn [b2 b1 set_bw set_builders bw_builders] in Hy. apply in_upd in Hy. destruct Hy as [Hy| ->]; [apply I; auto|].
        eapply bobj_spent_ok; [apply (bi_objs _ _ I); eauto| | |]; reflexivity. }
    assert (Nd : NoDup (holds ob)) by (unfold holds; destruct (_ && _); [apply (bi_objs _ _ I); auto|constructor]).
    pose proof (release_shares_ok _ _ _ I2 Nd T2) as Im. destruct (release_shares b2 (holds ob)) as [b3 r3| |u|]; try discriminate.
    injection H as <- <-. destruct Im as (I3 & ops2 & w3 & R2 & T3).
    destruct (twin_next b3 w3 (OUnwind (w_uncaught (bw b))) _ _ T3 eq_refl) as (ops3 & w4 & R3 & T4). split.
    + constructor; [apply I3|apply I3|apply I3].
    + exists (map FDone (ops1 ++ ops2 ++ ops3)), w4. split; [|exact T4]. apply run_frun. eapply run_app; eauto. eapply run_app; eauto.
  - cbn [fbstep] in H. unfold do_bassign_fails in H. destruct (nth_error (bw_builders b) dst) as [d|] eqn:Hd; [|discriminate].
    destruct (nth_error (bw_builders b) src) as [s|] eqn:Hs; [|discriminate].
    destruct (bo_alive d && bo_alive s && same_type d s && fails_at (bo_members s) n) eqn:C; [|discriminate]. cbn [negb] in H.
    rewrite !andb_true_iff in C. destruct C as (((Ad & As) & St) & _).
    destruct (Nat.eqb_spec dst src) as [->|Hne].
    { injection H as <- <-. split; auto. exists [], w1. split; [constructor|auto]. }
    assert (Hind : In d (bw_builders b)) by (eapply nth_error_In; eauto). assert (Hins : In s (bw_builders b)) by (eapply nth_error_In; eauto).
    set (b1 := set_builders b (upd (upd (bw_builders b) src (moved_from s)) dst (half_assigned d s n))) in *.
    assert (I1 : BInv b1 (holds d)).
    { constructor; [apply I| |].
      - intros k. cbn [b1 set_builders bw bw_user]. rewrite (bi_iface _ _ I). cbn [existsb]. rewrite orb_false_r. rewrite <- orb_assoc. f_equal.
        unfold held. cbn [b1 set_builders bw_builders]. change (existsb (holding k) (bw_builders b) =
          existsb (holding k) (upd (upd (bw_builders b) src (moved_from s)) dst (half_assigned d s n)) || holding k d).
        rewrite (existsb_upd_or (holding k) _ _ d (half_assigned d s n)) by (rewrite nth_error_upd_neq; auto).
        replace (holding k (half_assigned d s n)) with (holding k s).
        2:{ unfold holding, holds, half_assigned. cbn [bo_alive bo_null bo_members mixed b_seqs]. rewrite Ad, As. reflexivity. }
        rewrite (existsb_upd_or (holding k) _ _ _ (moved_from s) Hs), moved_holds, orb_false_r. auto.
      - intros y Hy. cbn [b1 set_builders bw_builders] in Hy. apply in_upd in Hy. destruct Hy as [Hy| ->].
        + apply in_upd in Hy. destruct Hy as [Hy| ->]; [apply I; auto|]. eapply bobj_spent_ok; [apply (bi_objs _ _ I _ Hins)| | |]; reflexivity.
        + apply half_assigned_ok; auto; apply I; auto. }
    assert (T1 : twin b1 w1).
    { destruct T as (S & P). split; auto. intros y Hy. cbn [b1 set_builders bw_builders] in Hy.
      apply in_upd in Hy. destruct Hy as [Hy| ->]; [|apply (places_like b w1 s); auto].
      apply in_upd in Hy. destruct Hy as [Hy| ->]; [apply P; auto|apply (places_like b w1 s); auto]. }
    assert (Nd : NoDup (holds d)) by (unfold holds; destruct (_ && _); [apply (bi_objs _ _ I); auto|constructor]).
    pose proof (release_shares_ok _ _ _ I1 Nd T1) as Im. destruct (release_shares b1 (holds d)) as [b3 r3| |u|]; try discriminate.
    injection H as <- <-. eapply imitates_f; eauto.
  - cbn [fbstep] in H. unfold do_bfinalize_fails in H. destruct (nth_error (bw_builders b) k) as [ob|] eqn:Hk; [|discriminate].
    destruct (bo_alive ob) eqn:A; [|discriminate]. destruct (finalize_ok (bo_sig ob) (bo_members ob)) eqn:F; [|discriminate]. cbn [andb negb] in H.
    destruct (bo_null ob && _) eqn:N; [discriminate|].
    destruct (control_new _ _ _) as [[ss ctl]| | |] eqn:Hc; try discriminate. destruct st; try discriminate.
    { destruct (_ =? 0); discriminate. }
    injection H as <- <-. destruct (twin_half _ _ _ l x _ _ _ I T Fr Hk A F N Hc) as (I' & g & ms & cls & w2 & H2 & T2 & _).
    split; auto. exists [FExpect g (bo_ov ob) ms cls l AfterControl x], w2. split; auto. econstructor; eauto. constructor.
Qed.

Lemma twin_fbrun b ops b' : fbrun b ops b' -> forall w1, BInv b [] -> twin b w1 -> freachable w1 ->
  BInv b' [] /\ exists ops1 w2, frun w1 ops1 w2 /\ twin b' w2.
Proof.
  induction 1 as [b|b o b1 r ops b2 H R IH]; intros w1 I T Fr.
  - split; auto. exists [], w1. split; [constructor|auto].
  - destruct (twin_fbstep _ _ _ _ _ I T Fr H) as (I1 & ops1 & w2 & R1 & T1).
    destruct (IH _ I1 T1 (freachable_run _ _ _ Fr R1)) as (I2 & ops2 & w3 & R2 & T2). split; auto. exists (ops1 ++ ops2), w3. split; auto. eapply frun_app; eauto.
Qed.

Lemma fbinv_reachable b : fbreachable b -> BInv b [] /\ exists w1, freachable w1 /\ twin b w1.
Proof.
  intros [ops H]. destruct binv_init as [I T]. assert (Fr : freachable init) by (exists []; constructor).
  destruct (twin_fbrun _ _ _ H _ I T Fr) as (I1 & ops1 & w2 & R & T2). split; auto. exists w2. split; auto. eapply freachable_run; eauto.
Qed.
