(** * PropStateful: C79, user code with a state of its own in matching. *)

From Coq Require Import Sorted.
From Verif Require Import Base Lib Sequence Control Signature Printer Reports Expectation Builder World WorldSpec
  SeqInv StepCases MatchLemmas WorldInv ObjInv CountProofs CallProofs History ScopeProofs SeqEnd Scenario RefProofs Stateful StatefulProofs.

(** ** Programs *)

(** An execution with stateful user code: [pols e] is the code of the policies of expectation number [e]. Calls run it; it may also be run
    (and answer differently) in other operations, e.g. to describe an unfulfilled expectation, and change its state at any time in between. *)
Inductive stateful {U} (pols : nat -> list (spolicy U)) : world -> U -> list op -> world -> U -> Prop :=
| sf_nil w u : stateful pols w u [] w u
| sf_call w u m ov args l w1 r u1 ops w2 u2 : agree w pols -> s_do_call w pols m ov args l u = (Next w1 r, u1) ->
    stateful pols w1 u1 ops w2 u2 -> stateful pols w u (OCall m ov args l :: ops) w2 u2
| sf_other w u w' o w1 r u1 ops w2 u2 : (forall m ov args l, o <> OCall m ov args l) -> restate w w' -> step w' o = Next w1 r ->
    stateful pols w1 u1 ops w2 u2 -> stateful pols w u (o :: ops) w2 u2
| sf_think w u u1 ops w2 u2 : stateful pols w u1 ops w2 u2 -> stateful pols w u ops w2 u2.

Lemma winv_init : WInv init.
Proof. apply winv_reachable. exists []. constructor. Qed.
Lemma oinv_init : OInv init.
Proof. apply oinv_reachable. exists []. constructor. Qed.

Lemma find_restate w w' m ov : restate w w' -> find_overload w' m ov = find_overload w m ov.
Proof. intros (xs & -> & _). reflexivity. Qed.

Lemma moody_restate w0 w ops w' : restate w0 w -> moody w ops w' -> exists w'', moody w0 ops w'' /\ restate w' w''.
Proof.
  intros H0 H. destruct H as [w|w w1 o w2 r ops w3 Hre Hs H].
  - exists w0. split; [constructor|apply restate_sym; auto].
  - exists w3. split; [econstructor; [eapply restate_trans; eauto|eauto|auto]|apply restate_refl].
Qed.

Lemma find_wrong w m ov r : find_overload w m ov = inl r -> forall w1 x, r <> Next w1 x.
Proof.
  unfold find_overload. repeat match goal with |- context [match ?t with _ => _ end] => destruct t end; intros H; inversion H; subst; discriminate.
Qed.

Lemma do_call_frozen {U} w (pols : nat -> list (spolicy U)) m ov args l u : WInv w -> agree w pols ->
  exists w1, restate w w1 /\ restated (fst (s_do_call w pols m ov args l u)) (step w1 (OCall m ov args l)).
Proof.
  intros I A. cbn [step]. unfold s_do_call, do_call. destruct (find_overload w m ov) as [r|[s coll]] eqn:Ef.
  - exists w. split; [apply restate_refl|]. rewrite Ef. cbn [fst]. destruct r as [w1 x| | |]; try reflexivity. split; [auto|apply restate_refl].
  - destruct (length args =? length (sg_params s)) eqn:El; cbn [negb].
    + destruct (call_frozen w pols coll (mkCall (sg_ret s) (sg_params s) args (frontend_category s) (frontend_constness s) l) (frontend_noexcept s) u I A) as (w1 & Hre & H).
      exists w1. split; auto. rewrite (find_restate _ _ _ _ Hre), Ef, El. exact H.
    + exists w. split; [apply restate_refl|]. rewrite Ef, El. reflexivity.
Qed.

(** A single call with stateful user code is a call of the model of [World] in which every matcher and description is the constant that was answered:
    same outcome, same reports, same state of the library up to the user code. *)
Theorem C79_call_as_if_constant {U} w (pols : nat -> list (spolicy U)) m ov args l u : reachable w -> agree w pols ->
  exists w1, restate w w1 /\ restated (fst (s_do_call w pols m ov args l u)) (step w1 (OCall m ov args l)).
Proof. intros Hr. apply do_call_frozen, winv_reachable; auto. Qed.

Lemma stateful_moody {U} (pols : nat -> list (spolicy U)) w u ops w' u' : stateful pols w u ops w' u' -> WInv w -> OInv w ->
  exists w'', moody w ops w'' /\ restate w' w''.
Proof.
  induction 1 as [w u|w u m ov args l w1 r u1 ops w2 u2 A Hs H IH|w u w0 o w1 r u1 ops w2 u2 Hn Hre Hs H IH|w u u1 ops w2 u2 H IH]; intros I O; auto.
  - exists w. split; [constructor|apply restate_refl].
  - destruct (do_call_frozen w pols m ov args l u I A) as (v & Hre & Hv). rewrite Hs in Hv. cbn [fst] in Hv.
    destruct (step v (OCall m ov args l)) as [v1 r1| | |] eqn:Ev; cbn [restated] in Hv; try discriminate. destruct Hv as [<- Hv1].
    pose proof (winv_step _ _ _ _ (winv_restate _ _ Hre I) Ev) as I1. pose proof (oinv_step _ _ _ _ (winv_restate _ _ Hre I) (oinv_restate _ _ Hre O) Ev) as O1.
    apply restate_sym in Hv1. destruct (IH (winv_restate _ _ Hv1 I1) (oinv_restate _ _ Hv1 O1)) as (w'' & Hm & Hw).
    destruct (moody_restate _ _ _ _ Hv1 Hm) as (w3 & Hm3 & Hw3). exists w3. split; [econstructor; eauto|eapply restate_trans; eauto].
  - pose proof (winv_restate _ _ Hre I) as I0. pose proof (oinv_restate _ _ Hre O) as O0.
    destruct (IH (winv_step _ _ _ _ I0 Hs) (oinv_step _ _ _ _ I0 O0 Hs)) as (w'' & Hm & Hw). exists w''. split; auto. econstructor; eauto.
Qed.

(** The same for whole programs: the answers of each operation are constants, but other ones each time. *)
Theorem C79_program_as_if_constant {U} (pols : nat -> list (spolicy U)) u ops w u' : stateful pols init u ops w u' ->
  exists w1, moody init ops w1 /\ restate w w1.
Proof. intros H. eapply stateful_moody; eauto; [apply winv_init|apply oinv_init]. Qed.

Lemma stateful_inv {U} (pols : nat -> list (spolicy U)) u ops w u' : stateful pols init u ops w u' -> WInv w /\ OInv w.
Proof.
  intros H. destruct (C79_program_as_if_constant _ _ _ _ _ H) as (w1 & Hm & Hre). apply restate_sym in Hre.
  destruct (moody_inv _ _ _ Hm winv_init oinv_init) as [I O]. split; [eapply winv_restate; eauto|eapply oinv_restate; eauto].
Qed.

(** ** User code without state *)

Lemma lift_matches {U} p c (u : U) : s_matches (lift_policy p) c u = (policy_matches p c, u).
Proof.
  destruct p as [x|x|i m f|n]; try reflexivity. cbn [lift_policy s_matches policy_matches]. destruct (nth_error (ci_args c) i) as [v|]; [|reflexivity].
  unfold sbind, scall, lift. cbn [fst snd sm_matches]. destruct (f v) as [y|y]; reflexivity.
Qed.
Lemma lift_describe {U} p (u : U) : s_describe (lift_policy p) u = (policy_describe p, u).
Proof. destruct p as [x|x|i m f|n]; try reflexivity. cbn. unfold sbind, scall, lift. cbn [fst snd sm_describe]. destruct (m_describe m); reflexivity. Qed.
Lemma lift_omap {U A B} (f : A -> sact U B) g (l : list A) (u : U) : (forall a, f a u = (g a, u)) -> somap f l u = (omap g l, u).
Proof.
  intros H. induction l as [|a l IH]; [reflexivity|]. cbn [somap omap]. unfold sbind, sret. rewrite H. destruct (g a); try reflexivity. cbn [obind].
  rewrite IH. destruct (omap g l); reflexivity.
Qed.
Lemma omap_lift {B} (g : policy -> outcome B) {U} (f : spolicy U -> sact U B) ps (u : U) :
  (forall p, f (lift_policy p) u = (g p, u)) -> somap f (map lift_policy ps) u = (omap g ps, u).
Proof.
  intros H. induction ps as [|a l IH]; [reflexivity|]. cbn [map somap omap]. unfold sbind, sret. rewrite H. destruct (g a); try reflexivity. cbn [obind].
  rewrite IH. destruct (omap g l); reflexivity.
Qed.
Lemma lift_attempt {U} rp n ss e c (u : U) : s_make_match_report rp n ss e (map lift_policy (e_policies e)) c u = (make_match_report rp n ss e c, u).
Proof.
  unfold s_make_match_report, make_match_report, s_exp_matches, exp_matches, s_exp_report, exp_report_of. unfold sbind, sret.
  destruct (control_state_of ss (e_ctl e)) as [st|y| |v]; cbn [obind]; try reflexivity.
  rewrite (omap_lift (policy_report_of c)).
  2:{ intros p. unfold s_report_of, policy_report_of, sbind, sret. rewrite lift_matches. destruct (policy_matches p c); try reflexivity. cbn [obind].
      rewrite lift_describe. destruct (policy_describe p); reflexivity. }
  destruct (omap (policy_report_of c) (e_policies e)) as [rs|y| |v]; cbn [obind]; try reflexivity.
  rewrite (omap_lift policy_describe) by (intros; apply lift_describe).
  destruct (omap policy_describe (e_policies e)) as [ds|z| |v]; try reflexivity.
Qed.

(** Stateless user code: the model of this file is the one of [World]. *)
Theorem C79_stateless {U} w (pols : nat -> list (spolicy U)) m ov args l u :
  (forall e x, exp_at w e x -> pols e = map lift_policy (e_policies (eo_exp x))) ->
  s_do_call w pols m ov args l u = (step w (OCall m ov args l), u).
Proof.
  intros Hp. cbn [step]. unfold s_do_call, do_call. destruct (find_overload w m ov) as [r|[s coll]]; [reflexivity|].
  destruct (negb _); [reflexivity|]. set (c := mkCall _ _ _ _ _ _). rewrite handle_call_settle. unfold s_handle_call.
  destruct (nth_error (w_colls w) coll) as [lst|]; [|reflexivity]. destruct (lookup_exps w (rev lst)) as [es|] eqn:Ees; [|reflexivity].
  destruct (lookup_exps_spec _ _ _ Ees) as [_ Hin].
  assert (L : forall es acc, (forall n e, In (n, e) es -> pols n = map lift_policy (e_policies e)) ->
    s_match_loop (w_reporter w) (w_uncaught w) (w_seqs w) c (map (fun p => (fst p, (snd p, pols (fst p)))) es) acc u =
    (match_loop (w_reporter w) (w_uncaught w) (w_seqs w) c es acc, u)).
  { clear. induction es as [|[n e] es IH]; intros acc H; [reflexivity|]. cbn [map s_match_loop match_loop fst snd]. unfold sbind.
    rewrite (H n e) by (left; reflexivity). rewrite lift_attempt. destruct (make_match_report _ _ _ e c); cbn [obind]; try reflexivity.
    apply IH. intros; apply H; right; auto. }
  rewrite L by (intros n e Hne; destruct (Hin _ _ Hne) as (x & Hx & ->); apply Hp; exact Hx).
  destruct (match_loop _ _ _ _ _ _) as [ml|y| |v]; try reflexivity. f_equal.
  unfold settle. rewrite !emit_unhandled_add. destruct (ml_full ml) as [|first others]; [reflexivity|]. destruct (pick_best first others) as [[n mr]|y| |v]; try reflexivity.
  destruct (react _ _); try reflexivity. change (w_exps (emit_report (add_trace w _) _ _)) with (w_exps w).
  destruct (nth_error (w_exps w) n) as [x|] eqn:Ex; [|reflexivity]. unfold s_consume_asserts, s_side_effects.
  assert (K : map kind (map skind (pols n)) = map kind (e_policies (eo_exp x))).
  { rewrite (Hp n x Ex), !map_map. apply map_ext. intros p; destruct p; reflexivity. }
  rewrite (kind_asserts _ _ c K), (kind_effects _ _ K). reflexivity.
Qed.

(** ** What is asked, and in which order *)

Lemma rev_sorted l : StronglySorted lt l -> StronglySorted gt (rev l).
Proof.
  induction l as [|a l IH]; intros H; [constructor|]. inversion H as [|? ? Hl Ha]; subst. simpl. specialize (IH Hl).
  clear Hl H. rewrite Forall_forall in Ha. assert (Hr : forall x, In x (rev l) -> x > a) by (intros x Hx; apply in_rev in Hx; apply Ha; auto).
  clear Ha. induction (rev l) as [|b r IHr]; simpl; [repeat constructor|]. inversion IH as [|? ? Hr' Hb]; subst. constructor; auto.
  - apply IHr; auto. intros x Hx. apply Hr. right; auto.
  - rewrite Forall_forall in *. intros x Hx. apply in_app_iff in Hx. destruct Hx as [Hx|[<-|[]]]; auto. apply Hr. left; auto.
Qed.

(** The expectations in scope which belong to the collection, newest first. *)
Definition newest_first (w : world) (coll : nat) (es : list nat) : Prop :=
  StronglySorted gt es /\ forall e, In e es <-> exists x, exp_at w e x /\ eo_alive x = true /\ eo_coll x = coll.

(** The expectations of which this call reported an unhandled exception. *)
Definition threw_now (w w' : world) (us : list nat) : Prop :=
  exists evs, w_trace w' = w_trace w ++ evs /\
    us = flat_map (fun ev => match ev with EvReport _ (RUnhandled _ _ _) who => who | _ => [] end) evs.

Lemma unhandled_who rid c (l : list (nat * (exp_report * exn))) :
  flat_map (fun ev => match ev with EvReport _ (RUnhandled _ _ _) who => who | _ => [] end)
    (map (fun p => EvReport rid (RUnhandled (make_call_report c) (fst (snd p)) (snd (snd p))) [fst p]) l) = map fst l.
Proof. induction l; simpl; auto. rewrite IHl. reflexivity. Qed.

Lemma settle_threw w c ne f g ml w' r : settle w c ne f g ml = Next w' r -> threw_now w w' (map fst (ml_unhandled ml)).
Proof.
  unfold settle. rewrite emit_unhandled_add. set (evs := map _ (ml_unhandled ml)).
  assert (E : flat_map (fun ev => match ev with EvReport _ (RUnhandled _ _ _) who => who | _ => [] end) evs = map fst (ml_unhandled ml)) by apply unhandled_who.
  assert (T : forall w1 x, thrown ne w1 x = Next w' r -> w' = w1) by (intros w1 x; unfold thrown; destruct ne; congruence).
  destruct (ml_full ml) as [|first others].
  - destruct (react _ _); try discriminate. intros H. apply T in H. subst w'. exists (evs ++ [EvReport (w_rid w)
      (match ml_inapplicable ml with [] => RNoMatch (make_call_report c) (map snd (ml_none ml)) | l => RInapplicable (make_call_report c) (map snd l) end)
      (match ml_inapplicable ml with [] => map fst (ml_none ml) | l => map fst l end)]).
    split; [cbn [emit_report emit add_trace w_trace]; rewrite <- app_assoc; reflexivity|]. rewrite flat_map_app, E.
    destruct (ml_inapplicable ml); cbn; rewrite app_nil_r; reflexivity.
  - destruct (pick_best first others) as [[n m]|x| |v]; try discriminate.
    2:{ intros H. apply T in H. subst w'. exists evs. split; auto. }
    destruct (react _ _); try discriminate. destruct (nth_error _ n) as [eo|]; [|discriminate].
    assert (G : threw_now w (emit_report (add_trace w evs) (RFull (make_call_report c) m) [n]) (map fst (ml_unhandled ml))).
    { exists (evs ++ [EvReport (w_rid w) (RFull (make_call_report c) m) [n]]). split; [cbn [emit_report emit add_trace w_trace]; rewrite <- app_assoc; reflexivity|].
      rewrite flat_map_app, E. cbn. rewrite app_nil_r. reflexivity. }
    destruct (control_consume _ _) as [[ss ctl]|x| |v]; try discriminate.
    + destruct (f n); try discriminate. intros H. inversion H; subst. exact G.
    + intros H. apply T in H. subst w'. exact G.
Qed.

(** The loop is left by no exception. *)
Lemma loop_noexcept {U} rp n ss c (es : list (nat * (expectation * list (spolicy U)))) : forall acc u x u', s_match_loop rp n ss c es acc u <> (Throw x, u').
Proof.
  induction es as [|[k [e ps]] es IH]; intros acc u x u'; cbn [s_match_loop]; [discriminate|]. unfold sbind.
  unfold s_make_match_report at 1. destruct (match s_exp_matches ss e ps c u with (Ret m, u1) => _ | _ => _ end) as [o u1].
  destruct o as [a|y| |v]; cbn [noexcept_of]; try discriminate. apply IH.
Qed.

(** A call which does not end the program asks all expectations in scope of its collection, newest first and one after the other:
    every requirement in order, its projection, its matcher and its description, whether or not earlier ones (or other expectations)
    match, and whether or not the expectation may still be called. Only an exception stops the questions to an expectation; it is asked for
    all of its descriptions then. (Writing down the questions does not change anything.) *)
Theorem C79_questions {U} (pols : nat -> list (spolicy U)) u0 ops w u m ov args l lg w' r u' : stateful pols init u0 ops w u ->
  s_do_call w pols m ov args l u = (Next w' r, u') ->
  exists s coll qs es us, find_overload w m ov = inr (s, coll) /\
    s_do_call w (fun e => logged_from e 0 (pols e)) m ov args l (u, lg) = (Next w' r, (u', lg ++ qs)) /\
    newest_first w coll es /\ threw_now w w' us /\ consultation pols es qs us.
Proof.
  intros Hst H. destruct (stateful_inv _ _ _ _ _ Hst) as [I _]. unfold s_do_call in *.
  destruct (find_overload w m ov) as [x|[s coll]] eqn:Ef; [inversion H; subst; exfalso; eapply find_wrong; eauto|].
  destruct (negb _); [discriminate|]. set (c := mkCall _ _ _ _ _ _) in *. exists s, coll.
  unfold s_handle_call in *.
  destruct (nth_error (w_colls w) coll) as [lst|] eqn:El; [|discriminate]. destruct (lookup_exps w (rev lst)) as [es|] eqn:Ees; [|discriminate].
  destruct (lookup_exps_spec _ _ _ Ees) as [Hf _].
  destruct (loop_logged (w_reporter w) (w_uncaught w) (w_seqs w) c pols es (mkLists [] [] [] []) u lg) as (lo & Elo & Hlo).
  exists lo, (map fst es).
  assert (Hn : newest_first w coll (map fst es)).
  { rewrite Hf, (wi_coll _ I _ _ El). split.
    - apply rev_sorted. unfold members. apply filter_sorted, seq_sorted.
    - intros e. rewrite <- in_rev. apply members_in. }
  rewrite Elo. destruct (s_match_loop (w_reporter w) (w_uncaught w) (w_seqs w) c (map (fun p => (fst p, (snd p, pols (fst p)))) es) (mkLists [] [] [] []) u) as [[ml|x| |v] u1] eqn:Eml;
    cbn [fst snd] in *; try discriminate.
  - destruct (Hlo ml eq_refl) as (us & Hu & Hc). exists us. cbn [map app ml_unhandled] in Hu. subst us.
    assert (Es : settle w c (frontend_noexcept s) (fun n => s_consume_asserts (logged_from n 0 (pols n)) c) (fun n => s_side_effects (logged_from n 0 (pols n))) ml =
                 settle w c (frontend_noexcept s) (fun n => s_consume_asserts (pols n) c) (fun n => s_side_effects (pols n)) ml).
    { assert (K : forall n, map skind (logged_from n 0 (pols n)) = map skind (pols n)).
      { intros n. generalize 0. induction (pols n) as [|p ps IH]; intros j; cbn [logged_from map]; auto. rewrite IH. f_equal. destruct p; reflexivity. }
      unfold settle. destruct (ml_full ml) as [|first others]; auto. destruct (pick_best first others) as [[n mr]|x| |v]; auto.
      unfold s_consume_asserts, s_side_effects. rewrite K. reflexivity. }
    rewrite Es. inversion H as [[Hs Hu]]. split; auto. split; auto. split; auto. split; auto. eapply settle_threw; eauto.
  - exfalso. eapply loop_noexcept; eauto.
Qed.

(** If no exception is reported: every requirement of every expectation in scope once, in this order. *)
Theorem C79_quiet_call_asks_everything {U} (pols : nat -> list (spolicy U)) u0 ops w u m ov args l w' r u' : stateful pols init u0 ops w u ->
  s_do_call w pols m ov args l u = (Next w' r, u') -> threw_now w w' [] ->
  exists s coll es, find_overload w m ov = inr (s, coll) /\ newest_first w coll es /\
    s_do_call w (fun e => logged_from e 0 (pols e)) m ov args l (u, []) = (Next w' r, (u', flat_map (fun e => questions e 0 (pols e)) es)).
Proof.
  intros Hst H (evs & E & Hevs). destruct (C79_questions _ _ _ _ _ _ _ _ _ [] _ _ _ Hst H) as (s & coll & qs & es & us & Hf & Hs & Hn & (evs' & E' & Hus) & Hc).
  exists s, coll, es. split; auto. split; auto. rewrite E in E'. apply app_inv_head in E'. subst evs'. rewrite <- Hevs in Hus. subst us.
  rewrite Hs. cbn [app]. apply consultation_quiet in Hc. rewrite Hc. reflexivity.
Qed.

(** ** Limits and sequences do not depend on the user code being functions *)

(** The accepted calls of a trace respect the limits and the sequences of the expectations of a state. *)
Definition respected (w : world) : Prop :=
  forall t ev t' e x, w_trace w = t ++ ev :: t' -> is_accept e ev = true -> exp_at w e x ->
    (Z.of_nat (accepted t e) < x_max x)%Z /\
    forall s e' x', In s (x_seqs x) -> exp_at w e' x' -> In s (x_seqs x') ->
      (e' < e -> (x_min x' <= Z.of_nat (accepted t e'))%Z) /\ (e < e' -> accepted t e' = 0).

Lemma relike_parts x x' : relike x x' -> x_min x' = x_min x /\ x_max x' = x_max x /\ x_seqs x' = x_seqs x.
Proof. intros (ps & -> & _). repeat split. Qed.

Lemma respected_restate w w' : restate w w' -> respected w -> respected w'.
Proof.
  intros (xs & -> & Hx) H t ev t' e x' Ht Ha Hx'. cbn [set_exps w_trace] in Ht. unfold exp_at in *. cbn [set_exps w_exps] in *.
  destruct (relike_nth' _ _ Hx _ _ Hx') as (x & Ex & R). destruct (relike_parts _ _ R) as (_ & -> & ->).
  destruct (H t ev t' e x Ht Ha Ex) as [A B]. split; auto. intros s e' y' Hs Hy' Hs'.
  destruct (relike_nth' _ _ Hx _ _ Hy') as (y & Ey & R'). destruct (relike_parts _ _ R') as (-> & _ & E3). rewrite E3 in Hs'. eauto.
Qed.

Lemma respected_step w o w' r : WInv w -> step w o = Next w' r -> respected w -> respected w'.
Proof.
  intros I Hs H t ev t' e x' Ht Ha Hx'.
  assert (Back : forall k y', exp_at w' k y' -> k < length (w_exps w) -> exists y, exp_at w k y /\ same_static y y').
  { intros k y' Hy' Hk. destruct (nth_error_ex _ _ Hk) as [y Hy]. destruct (step_exps _ _ _ _ I Hs _ _ Hy) as (z & Hz & S & _).
    unfold exp_at in *. rewrite Hy' in Hz. inversion Hz; subst z. eauto. }
  assert (Old : forall t0 u, w_trace w = t0 ++ u -> forall k, length (w_exps w) <= k -> accepted t0 k = 0).
  { intros t0 v E k Hk. destruct (wi_fresh _ I _ Hk) as [A _]. rewrite E, accepted_app in A. lia. }
  assert (P1 : forall v, w_trace w = t ++ ev :: v -> 
    (Z.of_nat (accepted t e) < x_max x')%Z /\
    forall s e' y', In s (x_seqs x') -> exp_at w' e' y' -> In s (x_seqs y') ->
      (e' < e -> (x_min y' <= Z.of_nat (accepted t e'))%Z) /\ (e < e' -> accepted t e' = 0)).
  { intros v E. assert (He : e < length (w_exps w)).
    { destruct (Nat.lt_ge_cases e (length (w_exps w))) as [|Hge]; auto. exfalso. destruct (wi_fresh _ I _ Hge) as [A _].
      rewrite E, accepted_app, accepted_cons, (accept_counts _ _ Ha) in A. lia. }
    destruct (Back _ _ Hx' He) as (x & Hx & S). rewrite (static_max _ _ S), (static_seqs _ _ S).
    destruct (H t ev v e x E Ha Hx) as [A B]. split; auto. intros s e' y' Hs1 Hy' Hs2.
    destruct (Nat.lt_ge_cases e' (length (w_exps w))) as [Hl|Hge].
    - destruct (Back _ _ Hy' Hl) as (y & Hy & Sy). rewrite (static_min _ _ Sy). rewrite (static_seqs _ _ Sy) in Hs2. eauto.
    - split; [lia|]. intros _. eapply Old; eauto. }
  destruct (step_accepted_inv _ _ _ _ I Hs) as [(evs & E & H0)|(m & ov & args & l & s0 & coll & n & x & mr & unh & _ & _ & Hf & Hc & E & H0)];
    rewrite E in Ht; apply app_split in Ht.
  - destruct Ht as [(v & Hv & _)|(v & _ & Hv)]; [eauto|].
    exfalso. specialize (H0 e). rewrite Hv, accepted_app, accepted_cons, (accept_counts _ _ Ha) in H0. lia.
  - destruct Ht as [(v & Hv & _)|(v & -> & Hv)]; [eauto|]. apply app_split in Hv. destruct Hv as [(v1 & Hv & _)|(v1 & -> & Hv)].
    { exfalso. specialize (H0 e). rewrite Hv, accepted_app, accepted_cons, (accept_counts _ _ Ha) in H0. lia. }
    assert (v1 = [] /\ ev = EvReport (w_rid w) (RFull (make_call_report (call_of s0 args l)) mr) [n]) as [-> ->].
    { destruct v1 as [|a v1]; simpl in Hv; inversion Hv; auto. destruct v1; discriminate. }
    assert (n = e) as ->.
    { pose proof (accept_counts _ _ Ha) as A. rewrite accepted_full in A. destruct (Nat.eqb_spec n e); auto. discriminate. }
    assert (Ek : forall k, accepted (w_trace w ++ unh ++ []) k = accepted (w_trace w) k) by (intros k; rewrite app_nil_r, accepted_app, H0; lia).
    destruct Hc as ((Hx & _) & _ & A & B). pose proof (nth_error_lt _ _ _ Hx) as He.
    destruct (Back _ _ Hx' He) as (x2 & Hx2 & S). unfold exp_at in *. rewrite Hx in Hx2. inversion Hx2; subst x2.
    rewrite (static_max _ _ S), (static_seqs _ _ S). rewrite Ek. split; auto. intros s e' y' Hs1 Hy' Hs2. rewrite Ek.
    destruct (Nat.lt_ge_cases e' (length (w_exps w))) as [Hl|Hge].
    + destruct (Back _ _ Hy' Hl) as (y & Hy & Sy). rewrite (static_min _ _ Sy). rewrite (static_seqs _ _ Sy) in Hs2. eauto.
    + split; [lia|]. intros _. destruct (wi_fresh _ I _ Hge); auto.
Qed.

Lemma moody_respected w ops w' : moody w ops w' -> WInv w -> OInv w -> respected w -> respected w'.
Proof.
  induction 1 as [|w w1 o w2 r ops w3 Hre Hs H IH]; intros I O R; auto.
  pose proof (winv_restate _ _ Hre I) as I1. pose proof (oinv_restate _ _ Hre O) as O1.
  apply IH; [eapply winv_step; eauto|eapply oinv_step; eauto|]. eapply respected_step; eauto. eapply respected_restate; eauto.
Qed.

(** Whatever the matchers answer each time: an accepted call is within the maximum of its expectation, and when it is accepted all
    earlier members of its sequences have reached their minimum and no later one has been called. *)
Theorem C79_limits_and_sequences {U} (pols : nat -> list (spolicy U)) u ops w u' : stateful pols init u ops w u' -> respected w.
Proof.
  intros H. destruct (C79_program_as_if_constant _ _ _ _ _ H) as (w1 & Hm & Hre). apply restate_sym in Hre. eapply respected_restate; eauto.
  eapply moody_respected; eauto; [apply winv_init|apply oinv_init|]. intros t ev t' e x Ht. destruct t; discriminate.
Qed.

(** The end of the scope still reports exactly the expectations with too few accepted calls. *)
Theorem C79_unfulfilled {U} (pols : nat -> list (spolicy U)) u ops w u' e x : stateful pols init u ops w u' -> exp_at w e x ->
  (eo_alive x = true -> unfulfilled_reports (w_trace w) e = 0) /\
  (unfulfilled_reports (w_trace w) e <> 0 -> unfulfilled_reports (w_trace w) e = 1 /\ (Z.of_nat (accepted (w_trace w) e) < x_min x)%Z) /\
  (eo_alive x = false -> (Z.of_nat (accepted (w_trace w) e) < x_min x)%Z -> describable (eo_exp x) = true -> unfulfilled_reports (w_trace w) e = 1).
Proof.
  intros H Hx. destruct (stateful_inv _ _ _ _ _ H) as [I _]. rewrite (wi_unf _ I _ _ Hx). 
  pose proof (unmet_count _ _ _ I Hx) as M.
  destruct (eo_alive x), (unmet x), (describable (eo_exp x)); cbn; repeat split; intros; try discriminate; try tauto.
  all: exfalso; destruct M as [M1 M2]; intuition (try discriminate).
Qed.

(** ** Examples and refuted expectations *)

(** A matcher which accepts every other time it is asked, whatever the argument; all requirements share the counter. *)
Definition fickle (i : nat) : spolicy nat :=
  SArg i (mkSMatcher (fun _ u => (UOk (Nat.even u), S u)) (fun u => (UOk ("asked " ++ dec_nat u)%string, u))) (fun v u => (UOk v, u)).
Definition make_fickle (p : policy) : spolicy nat := match p with PArg i _ _ => fickle i | _ => lift_policy p end.
Definition two : list op := [ONewMock [sig_unary]; OExpect 0 0 [m_any] [] here; OExpect 0 0 [m_any] [] there].
Definition w_two : world := after two.
Definition fickle_pols (e : nat) : list (spolicy nat) :=
  match nth_error (w_exps w_two) e with Some x => map make_fickle (e_policies (eo_exp x)) | None => [] end.
Definition fickle_call (w : world) (u : nat) : stepped * nat := s_do_call w fickle_pols 0 0 [VInt 7] here u.
Definition state_of (x : stepped * nat) : world := match fst x with Next w _ => w | _ => init end.
Definition fate (x : stepped * nat) : option (result * list (list nat)) * nat :=
  (match fst x with
   | Next w r => Some (r, map (fun ev => match ev with EvReport _ _ who => who | _ => [] end) (w_trace w))
   | _ => None
   end, snd x).

Lemma agree_two : agree w_two fickle_pols.
Proof.
  intros e x Hx _. unfold fickle_pols. unfold exp_at in Hx. rewrite Hx, map_map. apply map_ext. intros p; destruct p; reflexivity.
Qed.
Lemma stateful_others {U} (pols : nat -> list (spolicy U)) u ops : (forall m ov args l, ~ In (OCall m ov args l) ops) -> forall w w', run w ops w' -> stateful pols w u ops w' u.
Proof.
  intros Hn w w' H. induction H as [|w o w1 r ops w2 Hs H IH]; [constructor|]. eapply sf_other; [|apply restate_refl|eauto|].
  - intros m ov args l ->. eapply Hn. left; reflexivity.
  - apply IH. intros m ov args l Hi. eapply Hn. right; eauto.
Qed.
Lemma two_stateful : stateful fickle_pols init 0 two w_two 0.
Proof.
  apply stateful_others.
  - intros m ov args l [H|[H|[H|[]]]]; discriminate.
  - apply after_run. vm_compute. reflexivity.
Qed.

(** The newer expectation 1 is asked first and accepts, so that the older one rejects; the next call is rejected by the older one again,
    and expectation 1 - exhausted - has used up the acceptance. If anything else asks in between, the older one accepts. *)
Example C79_example :
  let first := fickle_call w_two 0 in
  let second := fickle_call (state_of first) (snd first) in
  let third := fickle_call (state_of second) (S (snd second)) in
  fate first = (Some (RUnit, [[1]]), 2) /\ fate second = (Some (RThrow EReporter, [[1]; [1]]), 4) /\ fate third = (Some (RUnit, [[1]; [1]; [0]]), 7).
Proof. vm_compute. auto. Qed.

(** The programs these calls belong to are executions in the sense of the theorems. *)
Example C79_example_stateful : let first := fickle_call w_two 0 in
  stateful fickle_pols init 0 (two ++ [OCall 0 0 [VInt 7] here]) (state_of first) (snd first) /\
  agree (state_of first) fickle_pols /\ respected (state_of first).
Proof.
  cbv zeta.
  assert (H : stateful fickle_pols init 0 (two ++ [OCall 0 0 [VInt 7] here]) (state_of (fickle_call w_two 0)) (snd (fickle_call w_two 0))).
  { assert (App : forall w u ops w' u', stateful fickle_pols w u ops w' u' -> forall ops2 w2 u2, stateful fickle_pols w' u' ops2 w2 u2 -> stateful fickle_pols w u (ops ++ ops2) w2 u2).
    { induction 1; intros ops3 w3 u3 H3; cbn [app]; auto; [eapply sf_call|eapply sf_other|eapply sf_think]; eauto. }
    eapply App; [apply two_stateful|].
    eapply sf_call with (r := RUnit); [apply agree_two| |apply sf_nil]. vm_compute. reflexivity. }
  split; auto. split; [|eapply C79_limits_and_sequences; eauto].
  intros e x Hx _. assert (E : map (fun x => e_policies (eo_exp x)) (w_exps (state_of (fickle_call w_two 0))) = map (fun x => e_policies (eo_exp x)) (w_exps w_two)) by (vm_compute; reflexivity).
  unfold exp_at in Hx. assert (G : nth_error (map (fun x => e_policies (eo_exp x)) (w_exps (state_of (fickle_call w_two 0)))) e = Some (e_policies (eo_exp x))) by (rewrite nth_error_map, Hx; reflexivity).
  rewrite E, nth_error_map in G. unfold fickle_pols. destruct (nth_error (w_exps w_two) e) as [y|]; [|discriminate]. cbn in G. inversion G as [G1].
  rewrite map_map. rewrite ?G1, <- ?G1. apply map_ext. intros p; destruct p; reflexivity.
Qed.

Definition log_of (x : stepped * (nat * list asked)) : list asked := snd (snd x).
Definition logged_call (w : world) (u : nat) : stepped * (nat * list asked) :=
  s_do_call w (fun e => logged_from e 0 (fickle_pols e)) 0 0 [VInt 7] here (u, []).
(** The questions of the first call. Policy 0 is the requirement on the argument. *)
Example C79_questions_example : log_of (logged_call w_two 0) =
  [(1, 0, QProject); (1, 0, QMatch); (1, 0, QDescribe); (0, 0, QProject); (0, 0, QMatch); (0, 0, QDescribe)].
Proof. vm_compute. reflexivity. Qed.

(** One might think that the search ends at the expectation which gets the call. *)
Theorem C79_search_stops_refuted : exists (pols : nat -> list (spolicy nat)) u ops w u1 w' u2,
  stateful pols init u ops w u1 /\ agree w pols /\ s_do_call w pols 0 0 [VInt 7] here u1 = (Next w' RUnit, u2) /\
  (accepted (w_trace w) 1 = 0 /\ accepted (w_trace w') 1 = 1) /\
  exists j, In (0, j, QMatch) (log_of (s_do_call w (fun e => logged_from e 0 (pols e)) 0 0 [VInt 7] here (u1, []))).
Proof.
  exists fickle_pols, 0, two, w_two, 0, (state_of (fickle_call w_two 0)), 2. split; [apply two_stateful|]. split; [apply agree_two|].
  split; [vm_compute; reflexivity|]. split; [split; vm_compute; reflexivity|]. exists 0. vm_compute. tauto.
Qed.

(** One might think that an exhausted expectation is left alone. *)
Theorem C79_exhausted_left_alone_refuted : exists (pols : nat -> list (spolicy nat)) u ops w u1 x,
  stateful pols init u ops w u1 /\ agree w pols /\ exp_at w 1 x /\ Z.of_nat (accepted (w_trace w) 1) = x_max x /\
  exists j, In (1, j, QMatch) (log_of (s_do_call w (fun e => logged_from e 0 (pols e)) 0 0 [VInt 7] here (u1, []))).
Proof.
  destruct C79_example_stateful as (H & A & _).
  set (w1 := state_of (fickle_call w_two 0)) in *.
  assert (G : exists x, exp_at w1 1 x /\ Z.of_nat (accepted (w_trace w1) 1) = x_max x).
  { unfold exp_at. destruct (nth_error (w_exps w1) 1) as [x|] eqn:E; [|vm_compute in E; discriminate]. exists x. split; auto.
    assert (X : option_map x_max (nth_error (w_exps w1) 1) = Some 1%Z) by (vm_compute; reflexivity). rewrite E in X. inversion X as [X1].
    cbn [option_map] in X. inversion X as [X2]. rewrite X2. vm_compute. reflexivity. }
  destruct G as (x & Hx & Hm). exists fickle_pols, 0, (two ++ [OCall 0 0 [VInt 7] here]), w1, (snd (fickle_call w_two 0)), x.
  split; [exact H|]. split; [exact A|]. split; [exact Hx|]. split; [exact Hm|]. exists 0. vm_compute. tauto.
Qed.

(** A matcher which throws in its second question: the rest of its expectation is not asked, except for the descriptions. *)
Definition moody_pols (e : nat) : list (spolicy nat) :=
  match e with
  | 1 => [SArg 0 (mkSMatcher (fun _ u => (UThrow (EUser u), S u)) (lift (UOk "throws"%string))) (fun v => lift (UOk v)); fickle 0; SSideEffect 4]
  | _ => [fickle 0]
  end.
Example C79_throwing_example :
  let x := s_do_call w_two (fun e => logged_from e 0 (moody_pols e)) 0 0 [VInt 7] here (5, []) in
  log_of x = [(1, 0, QProject); (1, 0, QMatch); (1, 0, QDescribe); (1, 1, QDescribe); (0, 0, QProject); (0, 0, QMatch); (0, 0, QDescribe)] /\
  (match fst x with Next w _ => map (fun ev => match ev with EvReport _ (RUnhandled _ _ y) who => Some (who, y) | _ => None end) (w_trace w) | _ => [] end) =
    [Some ([1], EUser 5); None] /\
  (match fst x with Next w r => (accepted (w_trace w) 0, accepted (w_trace w) 1, r) | _ => (0, 0, RThrow EReporter) end) = (1, 0, RUnit).
Proof. vm_compute. auto. Qed.

Print Assumptions C79_call_as_if_constant.
Print Assumptions C79_program_as_if_constant.
Print Assumptions C79_stateless.
Print Assumptions C79_questions.
Print Assumptions C79_quiet_call_asks_everything.
Print Assumptions C79_limits_and_sequences.
Print Assumptions C79_unfulfilled.
Print Assumptions C79_search_stops_refuted.
Print Assumptions C79_exhausted_left_alone_refuted.
