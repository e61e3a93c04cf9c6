(** * StatefulProofs: stateful user code in matching, and programs whose matchers change their minds. *)

From Verif Require Import Base Lib Sequence Control Signature Printer Reports Expectation Builder World WorldSpec
  SeqInv StepCases MatchLemmas WorldInv ObjInv CallProofs Stateful.

(** ** Fixing the answers of one call *)

Definition kind (p : policy) : policy :=
  match p with
  | PArg i _ _ => PArg i (mkMatcher (fun _ => UOk true) (UOk ""%string)) (fun v => UOk v)
  | other => other
  end.
Definition with_policies (e : expectation) (ps : list policy) : expectation := mkExp (e_loc e) (e_ctl e) ps (e_final e).

Section Freeze.
Context {U : Type}.
Implicit Types (p : spolicy U) (ps : list (spolicy U)) (u : U).

Lemma kind_answering p b d : kind (answering p b d) = skind p.
Proof. destruct p; reflexivity. Qed.

(** One policy. *)
Lemma matches_frozen p c u : exists b, forall d,
  (forall x, fst (s_matches p c u) <> Throw x) -> policy_matches (answering p b d) c = fst (s_matches p c u).
Proof.
  destruct p as [x|x|i m pr|n]; cbn [s_matches answering policy_matches sret fst]; try (exists (UOk true); reflexivity).
  destruct (nth_error (ci_args c) i) as [v|]; [|exists (UOk true); reflexivity].
  unfold sbind, scall. destruct (pr v u) as [[x|y] u1]; cbn [of_ures fst snd obind].
  - destruct (sm_matches m x u1) as [[b|y] u2]; cbn [of_ures fst].
    + exists (UOk b). reflexivity.
    + exists (UOk true). intros d H. exfalso. apply (H y). reflexivity.
  - exists (UOk true). intros d H. exfalso. apply (H y). reflexivity.
Qed.

Lemma describe_frozen p u : exists d, forall b, policy_describe (answering p b d) = fst (s_describe p u).
Proof.
  destruct p as [x|x|i m pr|n]; cbn [s_describe answering policy_describe sret fst]; try (exists (UOk ""%string); reflexivity).
  unfold sbind, scall. destruct (sm_describe m u) as [[d|y] u1]; cbn [of_ures fst snd obind m_describe]; [exists (UOk d)|exists (UThrow y)]; reflexivity.
Qed.

Lemma report_frozen p c u : (forall x, fst (s_report_of c p u) <> Throw x) ->
  exists q, kind q = skind p /\ policy_report_of c q = fst (s_report_of c p u).
Proof.
  intros H. destruct (matches_frozen p c u) as [b Hb].
  destruct (describe_frozen p (snd (s_matches p c u))) as [d Hd]. exists (answering p b d). split; [apply kind_answering|].
  unfold policy_report_of. rewrite Hb.
  - unfold s_report_of, sbind in *. destruct (s_matches p c u) as [[a|y| |v] u1]; cbn [obind fst snd] in *; auto.
    rewrite Hd. destruct (s_describe p u1) as [[a'|y'| |v'] u2]; cbn [obind fst sret]; reflexivity.
  - intros x E. unfold s_report_of, sbind in H. destruct (s_matches p c u) as [[a|y| |v] u1]; cbn [fst] in E; try discriminate.
    apply (H y). reflexivity.
Qed.

Lemma reports_frozen c ps : forall u, (forall x, fst (somap (s_report_of c) ps u) <> Throw x) ->
  exists qs, map kind qs = map skind ps /\ omap (policy_report_of c) qs = fst (somap (s_report_of c) ps u).
Proof.
  induction ps as [|p ps IH]; intros u H.
  - exists []. split; reflexivity.
  - cbn [somap] in *. unfold sbind in *. destruct (report_frozen p c u) as (q & Hk & Hq).
    { intros x E. destruct (s_report_of c p u) as [[a|y| |v] u1]; cbn [fst] in *; try discriminate. eapply H. reflexivity. }
    destruct (s_report_of c p u) as [[a|y| |v] u1] eqn:E1; cbn [fst] in *.
    + destruct (IH u1) as (qs & Hks & Hqs).
      { intros x E. destruct (somap (s_report_of c) ps u1) as [[a'|y'| |v'] u2]; cbn [fst] in *; try discriminate. eapply H. reflexivity. }
      exists (q :: qs). cbn [map omap]. rewrite Hk, Hks, Hq, Hqs. split; auto. cbn [obind].
      destruct (somap (s_report_of c) ps u1) as [[a'|y'| |v'] u2]; reflexivity.
    + exfalso. eapply H. reflexivity.
    + exists (q :: map skind ps). cbn [map omap]. rewrite Hk, Hq, map_map. split; [f_equal; apply map_ext; intros a; destruct a; reflexivity|reflexivity].
    + exists (q :: map skind ps). cbn [map omap]. rewrite Hk, Hq, map_map. split; [f_equal; apply map_ext; intros a; destruct a; reflexivity|reflexivity].
Qed.

(** If something throws, all requirements may be taken to throw the same. *)
Definition throwing_as x p (q : policy) : Prop := exists d, q = answering p (UThrow x) d.

Lemma throws_frozen c ps x : forall u u1, somap (s_report_of c) ps u = (Throw x, u1) ->
  forall qs, Forall2 (throwing_as x) ps qs -> omap (policy_report_of c) qs = Throw x.
Proof.
  induction ps as [|p ps IH]; intros u u1 H qs Hq; [discriminate|]. inversion Hq as [|? q ? qs' [d ->] Hqs]; subst. cbn [omap somap] in *.
  unfold sbind in H. destruct p as [y|y|i m pr|n].
  - cbn in H. cbn [policy_report_of answering policy_matches policy_describe obind].
    destruct (somap (s_report_of c) ps u) as [[a'|y'| |v'] u2] eqn:E; try discriminate. inversion H; subst. rewrite (IH _ _ E _ Hqs). reflexivity.
  - cbn in H. cbn [policy_report_of answering policy_matches policy_describe obind].
    destruct (somap (s_report_of c) ps u) as [[a'|y'| |v'] u2] eqn:E; try discriminate. inversion H; subst. rewrite (IH _ _ E _ Hqs). reflexivity.
  - unfold policy_report_of. cbn [answering policy_matches]. destruct (nth_error (ci_args c) i) as [v|] eqn:Ei; [reflexivity|].
    exfalso. unfold s_report_of, s_matches, sbind in H. rewrite Ei in H. discriminate.
  - cbn in H. cbn [policy_report_of answering policy_matches policy_describe obind].
    destruct (somap (s_report_of c) ps u) as [[a'|y'| |v'] u2] eqn:E; try discriminate. inversion H; subst. rewrite (IH _ _ E _ Hqs). reflexivity.
Qed.

Lemma descriptions_frozen x ps : forall u, exists qs, Forall2 (throwing_as x) ps qs /\ omap policy_describe qs = fst (somap s_describe ps u).
Proof.
  induction ps as [|p ps IH]; intros u; [exists []; split; [constructor|reflexivity]|]. cbn [somap]. unfold sbind.
  destruct (describe_frozen p u) as [d Hd]. destruct (IH (snd (s_describe p u))) as (qs & Hqs & E).
  exists (answering p (UThrow x) d :: qs). split; [constructor; auto; exists d; reflexivity|]. cbn [omap]. rewrite Hd, E.
  destruct (s_describe p u) as [[a|y| |v] u1]; cbn [fst snd obind]; auto.
  destruct (somap s_describe ps u1) as [[a'|y'| |v'] u2]; reflexivity.
Qed.

Lemma throwing_kinds x ps qs : Forall2 (throwing_as x) ps qs -> map kind qs = map skind ps.
Proof. induction 1 as [|p q ps qs [d ->] H IH]; auto. cbn [map]. rewrite kind_answering, IH. reflexivity. Qed.

Lemma attempt_frozen rp n ss e ps c u : exists qs, map kind qs = map skind ps /\
  fst (s_make_match_report rp n ss e ps c u) = make_match_report rp n ss (with_policies e qs) c.
Proof.
  unfold s_make_match_report, make_match_report, s_exp_matches, exp_matches, s_exp_report, exp_report_of. unfold sbind at 1. cbn [sret with_policies e_ctl e_policies e_loc].
  assert (Hkk : map kind (map skind ps) = map skind ps) by (rewrite map_map; apply map_ext; intros a; destruct a; reflexivity).
  destruct (control_state_of ss (e_ctl e)) as [st|y| |v] eqn:Est; cbn [obind].
  - unfold sbind at 1. destruct (somap (s_report_of c) ps u) as [[rs|x| |v] u1] eqn:E.
    + destruct (reports_frozen c ps u) as (qs & Hk & Hq); [rewrite E; discriminate|]. exists qs. split; auto. rewrite Hq, E. reflexivity.
    + destruct (descriptions_frozen x ps u1) as (qs & Hqs & Hd). exists qs. split; [eapply throwing_kinds; eauto|].
      rewrite (throws_frozen _ _ _ _ _ E _ Hqs). cbn [obind]. rewrite Hd. unfold sbind. cbn [sret].
      destruct (somap s_describe ps u1) as [[ds|y| |v] u2]; cbn [fst obind]; auto; destruct (rp _ n); reflexivity.
    + destruct (reports_frozen c ps u) as (qs & Hk & Hq); [rewrite E; discriminate|]. exists qs. split; auto. rewrite Hq, E. reflexivity.
    + destruct (reports_frozen c ps u) as (qs & Hk & Hq); [rewrite E; discriminate|]. exists qs. split; auto. rewrite Hq, E. reflexivity.
  - exists (map skind ps). split; auto.
  - exists (map skind ps). split; auto.
  - exists (map skind ps). split; auto.
Qed.

Lemma loop_frozen rp n ss c (pols : nat -> list (spolicy U)) es : forall acc u,
  exists fs, Forall2 (fun (p q : nat * expectation) => exists qs, q = (fst p, with_policies (snd p) qs) /\ map kind qs = map skind (pols (fst p))) es fs /\
    fst (s_match_loop rp n ss c (map (fun pe : nat * expectation => (fst pe, (snd pe, pols (fst pe)))) es) acc u) = match_loop rp n ss c fs acc.
Proof.
  induction es as [|[k e] es IH]; intros acc u; [exists []; split; [constructor|reflexivity]|].
  cbn [map s_match_loop fst snd]. unfold sbind. destruct (attempt_frozen rp n ss e (pols k) c u) as (qs & Hk & Hq).
  destruct (s_make_match_report rp n ss e (pols k) c u) as [[a|y| |v] u1]; cbn [fst] in Hq.
  - match goal with |- context [s_match_loop rp n ss c _ ?acc1 u1] => destruct (IH acc1 u1) as (fs & Hf & E) end.
    exists ((k, with_policies e qs) :: fs). split; [constructor; auto; exists qs; auto|]. cbn [match_loop]. rewrite <- Hq. cbn [obind]. exact E.
  - destruct (IH acc u1) as (fs & Hf & _). exists ((k, with_policies e qs) :: fs). split; [constructor; auto; exists qs; auto|].
    cbn [match_loop]. rewrite <- Hq. reflexivity.
  - destruct (IH acc u1) as (fs & Hf & _). exists ((k, with_policies e qs) :: fs). split; [constructor; auto; exists qs; auto|].
    cbn [match_loop]. rewrite <- Hq. reflexivity.
  - destruct (IH acc u1) as (fs & Hf & _). exists ((k, with_policies e qs) :: fs). split; [constructor; auto; exists qs; auto|].
    cbn [match_loop]. rewrite <- Hq. reflexivity.
Qed.

End Freeze.

(** ** Worlds which differ in the user code of live expectations *)

Definition relike (x x' : eobj) : Prop :=
  exists ps, x' = mkEObj (with_policies (eo_exp x) ps) (eo_coll x) (eo_alive x) (eo_ov x) (eo_sig x) /\
    map kind ps = map kind (e_policies (eo_exp x)) /\ (eo_alive x = false -> ps = e_policies (eo_exp x)).
Definition restate (w w' : world) : Prop := exists xs, w' = set_exps w xs /\ Forall2 relike (w_exps w) xs.

Lemma relike_refl x : relike x x.
Proof. exists (e_policies (eo_exp x)). split; auto. destruct x as [[] ]; reflexivity. Qed.
Lemma relike_sym x x' : relike x x' -> relike x' x.
Proof.
  intros (ps & -> & Hk & Hd). exists (e_policies (eo_exp x)). destruct x as [[] ]. cbn in *. split; auto. split; auto. intros H. symmetry; auto.
Qed.
Lemma relike_trans x y z : relike x y -> relike y z -> relike x z.
Proof.
  intros (ps & -> & Hk & Hd) (qs & -> & Hk' & Hd'). cbn in *. exists qs. split; auto. split; [congruence|]. intros H. rewrite Hd', Hd; auto.
Qed.

Lemma restate_refl w : restate w w.
Proof.
  exists (w_exps w). split; [destruct w; reflexivity|]. induction (w_exps w); constructor; auto using relike_refl.
Qed.
Lemma restate_sym w w' : restate w w' -> restate w' w.
Proof.
  intros (xs & -> & H). exists (w_exps w). split; [destruct w; reflexivity|]. cbn [set_exps w_exps].
  induction H; constructor; auto using relike_sym.
Qed.
Lemma restate_trans w1 w2 w3 : restate w1 w2 -> restate w2 w3 -> restate w1 w3.
Proof.
  intros (xs & -> & H) (ys & -> & H'). exists ys. split; [reflexivity|]. cbn [set_exps w_exps] in H'. revert ys H'.
  induction H as [|x x' l l' Hx H IH]; intros ys H'; inversion H'; subst; constructor; eauto using relike_trans.
Qed.

Lemma relike_nth l l' : Forall2 relike l l' -> forall e x, nth_error l e = Some x -> exists x', nth_error l' e = Some x' /\ relike x x'.
Proof. induction 1 as [|a b l l' Hab H IH]; intros [|e] x Hx; simpl in *; try discriminate; [inversion Hx; subst; eauto|auto]. Qed.
Lemma relike_nth' l l' : Forall2 relike l l' -> forall e x', nth_error l' e = Some x' -> exists x, nth_error l e = Some x /\ relike x x'.
Proof. induction 1 as [|a b l l' Hab H IH]; intros [|e] x Hx; simpl in *; try discriminate; [inversion Hx; subst; eauto|auto]. Qed.
Lemma relike_len l l' : Forall2 relike l l' -> length l' = length l.
Proof. induction 1; simpl; auto. Qed.
Lemma relike_map {A} (f : eobj -> A) l l' : (forall x x', relike x x' -> f x' = f x) -> Forall2 relike l l' -> map f l' = map f l.
Proof. intros Hf. induction 1; simpl; auto. rewrite (Hf _ _ H), IHForall2. reflexivity. Qed.

Lemma relike_lives l l' c e : Forall2 relike l l' -> lives l' c e = lives l c e.
Proof.
  intros H. unfold lives. destruct (nth_error l e) as [x|] eqn:E.
  - destruct (relike_nth _ _ H _ _ E) as (x' & -> & ps & -> & _). reflexivity.
  - apply nth_error_None in E. rewrite <- (relike_len _ _ H) in E. apply nth_error_None in E. rewrite E. reflexivity.
Qed.

Lemma kind_eq p q : kind p = kind q ->
  (p = q /\ (forall i m f, p <> PArg i m f)) \/ exists i m f m' f', p = PArg i m f /\ q = PArg i m' f'.
Proof.
  destruct p as [c|c|i m f|n], q as [c'|c'|i' m' f'|n']; intros H; try discriminate H; try (left; split; [exact H|discriminate]).
  right. injection H as ->. exists i', m, f, m', f'. split; reflexivity.
Qed.
Lemma kinds_cons p ps q qs : map kind (p :: ps) = map kind (q :: qs) -> kind p = kind q /\ map kind ps = map kind qs.
Proof. intros H. cbn [map] in H. injection H. auto. Qed.
Lemma kind_ok n ps qs : map kind ps = map kind qs -> forallb (policy_ok n) ps = forallb (policy_ok n) qs.
Proof.
  revert qs. induction ps as [|p ps IH]; intros [|q qs] H; try discriminate; auto. apply kinds_cons in H. destruct H as [E H].
  cbn [forallb]. rewrite (IH qs) by auto. f_equal. destruct (kind_eq _ _ E) as [[-> _]|(i & m & f & m' & f' & -> & ->)]; reflexivity.
Qed.
Lemma kind_in ps qs p : map kind ps = map kind qs -> kind p = p -> (forall i m f, p <> PArg i m f) -> In p ps -> In p qs.
Proof.
  intros H Hp Hn Hin. assert (H0 : In p (map kind qs)) by (rewrite <- H; rewrite <- Hp; apply in_map; auto).
  apply in_map_iff in H0. destruct H0 as (q & E & Hq). rewrite <- Hp in E.
  destruct (kind_eq _ _ E) as [[-> _]|(i & m & f & m' & f' & -> & ->)]; auto. exfalso. eapply Hn. reflexivity.
Qed.
Lemma kind_asserts ps qs c : map kind ps = map kind qs -> consume_asserts ps c = consume_asserts qs c.
Proof.
  revert qs. induction ps as [|p ps IH]; intros [|q qs] H; try discriminate; auto. apply kinds_cons in H. destruct H as [E H].
  cbn [consume_asserts]. rewrite (IH qs) by auto. f_equal. destruct (kind_eq _ _ E) as [[-> _]|(i & m & f & m' & f' & -> & ->)]; reflexivity.
Qed.
Lemma kind_effects ps qs : map kind ps = map kind qs -> side_effects ps = side_effects qs.
Proof.
  revert qs. induction ps as [|p ps IH]; intros [|q qs] H; try discriminate; auto. apply kinds_cons in H. destruct H as [E H].
  specialize (IH _ H). destruct (kind_eq _ _ E) as [[-> _]|(i & m & f & m' & f' & -> & ->)]; cbn [side_effects]; [|exact IH]. rewrite IH. reflexivity.
Qed.

Lemma winv_restate w w' : restate w w' -> WInv w -> WInv w'.
Proof.
  intros (xs & -> & H) I.
  assert (Hc : map ctl_of xs = map ctl_of (w_exps w)) by (apply relike_map; auto; intros x x' (ps & -> & _); reflexivity).
  assert (Hu : forall s, seq_in_use (set_exps w xs) s = seq_in_use w s).
  { intros s. unfold seq_in_use. cbn [set_exps w_iface w_exps]. f_equal. clear -H. induction H as [|x x' l l' (ps & -> & _) H IH]; auto.
    cbn [existsb]. rewrite IH. reflexivity. }
  constructor; unfold ctls, exp_at; cbn [set_exps w_seqs w_iface w_sdead w_exps w_colls w_trace].
  - rewrite Hc. apply (wi_s _ I).
  - intros e x' Hx. destruct (relike_nth' _ _ H _ _ Hx) as (x & Hx0 & ps & -> & _). exact (wi_count _ I _ _ Hx0).
  - intros e He. rewrite (relike_len _ _ H) in He. apply (wi_fresh _ I); auto.
  - apply (wi_len _ I).
  - apply (wi_fresh_seq _ I).
  - intros c l Hl. rewrite (wi_coll _ I _ _ Hl). unfold members. rewrite (relike_len _ _ H). apply filter_ext. intros e. symmetry. apply relike_lives; auto.
  - intros e x' Hx. destruct (relike_nth' _ _ H _ _ Hx) as (x & Hx0 & ps & -> & _). exact (wi_collr _ I _ _ Hx0).
  - intros s Hs. rewrite Hu. apply (wi_dead _ I); auto.
  - intros e x' Hx. destruct (relike_nth' _ _ H _ _ Hx) as (x & Hx0 & ps & -> & Hk & _). cbn [eo_sig eo_exp with_policies e_policies].
    rewrite (kind_ok _ _ _ Hk). exact (wi_pol _ I _ _ Hx0).
  - intros e x' Hx. destruct (relike_nth' _ _ H _ _ Hx) as (x & Hx0 & ps & -> & Hk & Hd). rewrite (wi_unf _ I _ _ Hx0).
    cbn [eo_alive]. destruct (eo_alive x); cbn [negb andb]; auto. unfold unmet, describable, ctl_of. cbn [eo_exp with_policies e_ctl e_policies]. rewrite Hd by auto. reflexivity.
  - intros s Hs. rewrite (wi_err _ I _ Hs). unfold ctls. rewrite Hc. reflexivity.
Qed.

Lemma oinv_restate w w' : restate w w' -> OInv w -> OInv w'.
Proof.
  intros (xs & -> & H) O. constructor; unfold exp_at; cbn [set_exps w_scoped w_mocks w_exps w_colls].
  - intros h e Hh. destruct (oi_own _ O _ _ Hh) as (x & Hx & Ha). destruct (relike_nth _ _ H _ _ Hx) as (x' & Hx' & ps & -> & _). eauto.
  - intros e x' Hx Ha. destruct (relike_nth' _ _ H _ _ Hx) as (x & Hx0 & ps & -> & _). exact (oi_owned _ O _ _ Hx0 Ha).
  - exact (oi_uniq _ O).
  - exact (oi_len _ O).
  - exact (oi_set _ O).
  - exact (oi_range _ O).
  - exact (oi_sep _ O).
  - exact (oi_decay _ O).
  - intros e x' m mk cs ov Hx. destruct (relike_nth' _ _ H _ _ Hx) as (x & Hx0 & ps & -> & _). exact (oi_exp _ O _ _ _ _ _ _ Hx0).
  - intros e x' Hx. destruct (relike_nth' _ _ H _ _ Hx) as (x & Hx0 & ps & -> & Hk & _). destruct (oi_policies _ O _ _ Hx0) as [A B].
    cbn [eo_exp eo_sig with_policies e_policies]. split; (eapply kind_in; [symmetry; exact Hk|reflexivity|discriminate|assumption]).
Qed.

(** ** The rest of a call *)

Lemma handle_call_settle w coll c ne : handle_call w coll c ne =
  match nth_error (w_colls w) coll with
  | None => Wrong UbDangling
  | Some l =>
      match lookup_exps w (rev l) with
      | None => Wrong UbDangling
      | Some es =>
          match match_loop (w_reporter w) (w_uncaught w) (w_seqs w) c es (mkLists [] [] [] []) with
          | Throw x => thrown ne w x
          | Terminate => Stop
          | Undef u => Wrong u
          | Ret ml =>
              settle w c ne (fun n => match nth_error (w_exps w) n with Some x => consume_asserts (e_policies (eo_exp x)) c | None => Ret tt end)
                (fun n => match nth_error (w_exps w) n with Some x => side_effects (e_policies (eo_exp x)) | None => [] end) ml
          end
      end
  end.
Proof.
  unfold handle_call, settle. destruct (nth_error (w_colls w) coll) as [l|]; auto. destruct (lookup_exps w (rev l)) as [es|]; auto.
  destruct (match_loop _ _ _ _ _ _) as [ml|x| |v]; auto. rewrite !emit_unhandled_add.
  destruct (ml_full ml) as [|first others]; auto. destruct (pick_best first others) as [[n m]|x| |v]; auto.
  destruct (react _ _); auto.
  change (w_exps (emit_report (add_trace w _) _ _)) with (w_exps w). destruct (nth_error (w_exps w) n) as [x|]; reflexivity.
Qed.

Definition restated (a b : stepped) : Prop :=
  match a, b with
  | Next w r, Next w' r' => r = r' /\ restate w w'
  | _, _ => a = b
  end.

Lemma restated_same w w' r : restate w w' -> restated (Next w r) (Next w' r).
Proof. split; auto. Qed.

Lemma restate_trace w xs evs : Forall2 relike (w_exps w) xs -> restate (add_trace w evs) (add_trace (set_exps w xs) evs).
Proof. intros H. exists xs. split; auto. Qed.

Lemma thrown_restated ne w w' x : restate w w' -> restated (thrown ne w x) (thrown ne w' x).
Proof. intros H. unfold thrown. destruct ne; [reflexivity|]. split; auto. Qed.

Lemma settle_restated w xs c ne f g f' g' ml : Forall2 relike (w_exps w) xs ->
  (forall n, n < length (w_exps w) -> In n (map fst (ml_full ml)) -> f' n = f n /\ g' n = g n) ->
  restated (settle w c ne f g ml) (settle (set_exps w xs) c ne f' g' ml).
Proof.
  intros H Hfg. unfold settle. rewrite !emit_unhandled_add. set (evs := map _ (ml_unhandled ml)).
  change (w_rid (set_exps w xs)) with (w_rid w). fold evs. change (add_trace (set_exps w xs) evs) with (set_exps (add_trace w evs) xs).
  set (w1 := add_trace w evs). assert (H1 : Forall2 relike (w_exps w1) xs) by exact H.
  assert (Hr : forall rep, react (set_exps w1 xs) rep = react w1 rep) by reflexivity.
  destruct (ml_full ml) as [|first others].
  - rewrite Hr. destruct (react w1 _); try reflexivity. apply thrown_restated. exists xs. split; auto.
  - destruct (pick_best first others) as [[n m]|x| |v] eqn:Hpick; try reflexivity; [|apply thrown_restated; exists xs; split; auto].
    rewrite Hr. destruct (react w1 _); try reflexivity.
    change (w_exps (emit_report (set_exps w1 xs) (RFull (make_call_report c) m) [n])) with xs.
    change (w_exps (emit_report w1 (RFull (make_call_report c) m) [n])) with (w_exps w).
    destruct (nth_error (w_exps w) n) as [x|] eqn:Ex.
    2:{ apply nth_error_None in Ex. rewrite <- (relike_len _ _ H) in Ex. apply nth_error_None in Ex. rewrite Ex. reflexivity. }
    destruct (relike_nth _ _ H _ _ Ex) as (x' & Ex' & ps & -> & Hk & Hd). rewrite Ex'. cbn [eo_exp with_policies e_ctl].
    change (w_seqs (emit_report (set_exps w1 xs) (RFull (make_call_report c) m) [n])) with (w_seqs w1).
    change (w_seqs (emit_report w1 (RFull (make_call_report c) m) [n])) with (w_seqs w1).
    assert (Hn : In n (map fst (first :: others))) by (apply pick_best_in in Hpick; apply (in_map fst) in Hpick; exact Hpick).
    destruct (Hfg n (nth_error_lt _ _ _ Ex) Hn) as [-> ->].
    destruct (control_consume (w_seqs w1) (e_ctl (eo_exp x))) as [[ss ctl]|y| |v]; try reflexivity; [|apply thrown_restated; exists xs; split; auto].
    destruct (f n); try reflexivity. apply restated_same. 
    exists (upd xs n (mkEObj (with_ctl (with_policies (eo_exp x) ps) ctl) (eo_coll x) (eo_alive x) (eo_ov x) (eo_sig x))). split; [reflexivity|].
    cbn [set_frames set_exps set_seqs w_exps].
    set (y := mkEObj (with_ctl (eo_exp x) ctl) (eo_coll x) (eo_alive x) (eo_ov x) (eo_sig x)).
    assert (Hy : relike y (mkEObj (with_ctl (with_policies (eo_exp x) ps) ctl) (eo_coll x) (eo_alive x) (eo_ov x) (eo_sig x))).
    { exists ps. split; [reflexivity|]. split; auto. }
    clear -H Hy. revert n. induction H as [|a b l l' Hab H IH]; intros [|n]; simpl; constructor; auto.
Qed.

(** ** A whole call *)

Definition reexp (fs : list (nat * expectation)) (n : nat) (x : eobj) : eobj :=
  match find (fun q => fst q =? n) fs with
  | Some q => mkEObj (snd q) (eo_coll x) (eo_alive x) (eo_ov x) (eo_sig x)
  | None => x
  end.
Definition reexps (fs : list (nat * expectation)) (l : list eobj) : list eobj :=
  map (fun p => reexp fs (fst p) (snd p)) (combine (seq 0 (length l)) l).

Lemma combine_seq_nth {A} (l : list A) k n : nth_error (combine (seq k (length l)) l) n = option_map (fun x => (k + n, x)) (nth_error l n).
Proof.
  revert k n. induction l as [|a l IH]; intros k [|n]; simpl; auto; [rewrite Nat.add_0_r; reflexivity|].
  rewrite IH. destruct (nth_error l n); simpl; auto. f_equal. f_equal. lia.
Qed.
Lemma reexps_nth fs l n : nth_error (reexps fs l) n = option_map (reexp fs n) (nth_error l n).
Proof. unfold reexps. rewrite nth_error_map, combine_seq_nth. destruct (nth_error l n); reflexivity. Qed.
Lemma reexps_len fs l : length (reexps fs l) = length l.
Proof. unfold reexps. rewrite map_length, combine_length, seq_length. apply Nat.min_id. Qed.

Lemma forall2_by_nth {A B} (R : A -> B -> Prop) l l' : length l' = length l ->
  (forall n a, nth_error l n = Some a -> exists b, nth_error l' n = Some b /\ R a b) -> Forall2 R l l'.
Proof.
  revert l'. induction l as [|a l IH]; intros [|b l'] Hl H; try discriminate; constructor.
  - destruct (H 0 a eq_refl) as (b' & E & Hr). inversion E; subst. auto.
  - apply IH; [simpl in Hl; lia|]. intros n x Hx. apply (H (S n) x Hx).
Qed.

Lemma find_index fs n (e : expectation) : NoDup (map fst fs) -> In (n, e) fs -> find (fun q => fst q =? n) fs = Some (n, e).
Proof.
  induction fs as [|[k f] fs IH]; intros Hn Hin; [destruct Hin|]. inversion Hn as [|? ? Hk Hn']; subst. simpl.
  destruct Hin as [E|Hin].
  - inversion E; subst. rewrite Nat.eqb_refl. reflexivity.
  - destruct (Nat.eqb_spec k n) as [->|]; auto. exfalso. apply Hk. apply (in_map fst) in Hin. exact Hin.
Qed.

Lemma lookup_reexps w l' : forall es fs, lookup_exps w l' = Some es -> map fst fs = map fst es ->
  (forall n e, In (n, e) fs -> exists x, nth_error (w_exps w) n = Some x /\ eo_exp x = e) -> lookup_exps w l' = Some fs.
Proof.
  induction l' as [|n l' IH]; intros es fs H Hm Hin; simpl in H.
  - inversion H; subst. destruct fs; [reflexivity|discriminate].
  - destruct (nth_error (w_exps w) n) as [x|] eqn:Ex; [|discriminate]. destruct (lookup_exps w l') as [es'|] eqn:El; [|discriminate].
    inversion H; subst. destruct fs as [|[k e] fs]; [discriminate|]. inversion Hm; subst. simpl. rewrite Ex.
    destruct (Hin n e (or_introl eq_refl)) as (x' & Ex' & <-). rewrite Ex in Ex'. inversion Ex'; subst x'.
    rewrite El. assert (G : Some es' = Some fs) by (apply (IH es'); auto; intros; apply Hin; right; auto). inversion G; subst. reflexivity.
Qed.

Definition agree {U} (w : world) (pols : nat -> list (spolicy U)) : Prop :=
  forall e x, exp_at w e x -> eo_alive x = true -> map skind (pols e) = map kind (e_policies (eo_exp x)).

Theorem call_frozen {U} w (pols : nat -> list (spolicy U)) coll c ne u : WInv w -> agree w pols ->
  exists w1, restate w w1 /\ restated (fst (s_handle_call w pols coll c ne u)) (handle_call w1 coll c ne).
Proof.
  intros I Hag. unfold s_handle_call. destruct (nth_error (w_colls w) coll) as [l|] eqn:El.
  2:{ exists w. split; [apply restate_refl|]. unfold handle_call. rewrite El. reflexivity. }
  destruct (lookup_exps w (rev l)) as [es|] eqn:Ees.
  2:{ exists w. split; [apply restate_refl|]. unfold handle_call. rewrite El, Ees. reflexivity. }
  destruct (lookup_exps_spec _ _ _ Ees) as [Hfst Hin].
  destruct (loop_frozen (w_reporter w) (w_uncaught w) (w_seqs w) c pols es (mkLists [] [] [] []) u) as (fs & Hfs & Hloop).
  assert (Hfm : map fst fs = map fst es).
  { clear -Hfs. induction Hfs as [|p q es fs (qs & -> & _) H IH]; simpl; auto. rewrite IH. reflexivity. }
  assert (Hnd : NoDup (map fst fs)).
  { rewrite Hfm, Hfst. apply NoDup_rev. rewrite (wi_coll _ I _ _ El). apply members_nodup. }
  assert (Hf : forall n e', In (n, e') fs -> exists x qs, exp_at w n x /\ eo_alive x = true /\ e' = with_policies (eo_exp x) qs /\ map kind qs = map skind (pols n)).
  { intros n e' Hn. assert (G : exists e, In (n, e) es /\ exists qs, e' = with_policies e qs /\ map kind qs = map skind (pols n)).
    { clear -Hfs Hn. induction Hfs as [|p q es fs (qs & -> & Hk) H IH]; [destruct Hn|]. destruct Hn as [E|Hn].
      - inversion E; subst. exists (snd p). split; [left; destruct p; reflexivity|]. exists qs. auto.
      - destruct (IH Hn) as (e & He & R). exists e. split; [right|]; auto. }
    destruct G as (e & He & qs & -> & Hk). destruct (Hin _ _ He) as (x & Hx & ->).
    assert (Hl : In n l) by (apply in_rev; rewrite <- Hfst; apply (in_map fst) in He; exact He).
    rewrite (wi_coll _ I _ _ El) in Hl. apply members_in in Hl. destruct Hl as (x' & Hx' & Ha & _). unfold exp_at in *. rewrite Hx in Hx'. inversion Hx'; subst x'.
    exists x, qs. auto. }
  set (xs := reexps fs (w_exps w)).
  assert (Hrel : Forall2 relike (w_exps w) xs).
  { apply forall2_by_nth; [apply reexps_len|]. intros n x Hx. exists (reexp fs n x). split; [unfold xs; rewrite reexps_nth, Hx; reflexivity|].
    unfold reexp. destruct (find (fun q => fst q =? n) fs) as [[k e']|] eqn:Ef; [|apply relike_refl].
    apply find_some in Ef. destruct Ef as [Hq Hk]. apply Nat.eqb_eq in Hk. cbn [fst] in Hk. subst k.
    destruct (Hf _ _ Hq) as (x' & qs & Hx' & Ha & -> & Hk). unfold exp_at in Hx'. rewrite Hx in Hx'. inversion Hx'; subst x'.
    exists qs. split; [reflexivity|]. split; [rewrite Hk; apply Hag with (e := n); auto|congruence]. }
  exists (set_exps w xs). assert (Hre : restate w (set_exps w xs)) by (exists xs; auto). split; auto.
  rewrite handle_call_settle. cbn [set_exps w_colls]. rewrite El.
  assert (Hlook : lookup_exps (set_exps w xs) (rev l) = Some fs).
  { destruct (lookup_exps_some (set_exps w xs) (rev l)) as [es1 E1].
    { intros n Hn. cbn [set_exps w_exps]. unfold xs. rewrite reexps_len. apply in_rev in Hn. rewrite (wi_coll _ I _ _ El) in Hn. apply members_in in Hn.
      destruct Hn as (x & Hx & _). eapply nth_error_lt; eauto. }
    apply (lookup_reexps _ _ es1); auto.
    - destruct (lookup_exps_spec _ _ _ E1) as [-> _]. rewrite Hfm, Hfst. reflexivity.
    - intros n e' Hn. destruct (Hf _ _ Hn) as (x & qs & Hx & Ha & -> & Hk). cbn [set_exps w_exps]. unfold xs. rewrite reexps_nth. unfold exp_at in Hx. rewrite Hx.
      cbn [option_map]. eexists. split; [reflexivity|]. unfold reexp. rewrite (find_index _ _ _ Hnd Hn). reflexivity. }
  rewrite Hlook. cbn [set_exps w_reporter w_uncaught w_seqs w_exps]. rewrite <- Hloop.
  destruct (s_match_loop _ _ _ _ _ _ u) as [[ml|x| |v] u']; cbn [fst] in *; try reflexivity; [|apply thrown_restated; auto].
  apply (settle_restated w xs); auto. intros n Hn Hfull.
  symmetry in Hloop. apply match_loop_ret in Hloop. destruct Hloop as (_ & Hml & _). cbn [ml_full app] in Hml. rewrite Hml in Hfull.
  apply in_map_iff in Hfull. destruct Hfull as ([k m] & E & Hk). cbn [fst] in E. subst k. apply sel_in in Hk. destruct Hk as (e' & Hn' & _).
  destruct (Hf _ _ Hn') as (x & qs & Hx & Ha & -> & Hk). unfold xs. rewrite reexps_nth. unfold exp_at in Hx. rewrite Hx. cbn [option_map].
  unfold reexp. rewrite (find_index _ _ _ Hnd Hn'). cbn [snd eo_exp with_policies e_policies].
  unfold s_consume_asserts, s_side_effects. assert (Hkk : map kind (map skind (pols n)) = map skind (pols n)) by (rewrite map_map; apply map_ext; intros a; destruct a; reflexivity).
  rewrite <- Hkk in Hk. split; [apply kind_asserts; auto|apply kind_effects; auto].
Qed.

(** ** The order of the questions *)

(** What an expectation is asked if nothing throws, and when it is asked to describe itself. *)
Fixpoint questions {U} (e j : nat) (ps : list (spolicy U)) : list asked :=
  match ps with
  | [] => []
  | SArg _ _ _ :: ps' => (e, j, QProject) :: (e, j, QMatch) :: (e, j, QDescribe) :: questions e (S j) ps'
  | _ :: ps' => questions e (S j) ps'
  end.
Fixpoint describing {U} (e j : nat) (ps : list (spolicy U)) : list asked :=
  match ps with
  | [] => []
  | SArg _ _ _ :: ps' => (e, j, QDescribe) :: describing e (S j) ps'
  | _ :: ps' => describing e (S j) ps'
  end.

(** The logging code does the same, and asks a beginning of [full]; all of it if it returns. *)
Definition tracks {U A} (m : sact U A) (m' : sact (U * list asked) A) (full : list asked) : Prop :=
  forall u lg, exists l rest, m' (u, lg) = (fst (m u), (snd (m u), lg ++ l)) /\ full = l ++ rest /\
    forall a, fst (m u) = Ret a -> rest = [].

Lemma tracks_sret {U A} (o : outcome A) : tracks (U := U) (sret o) (sret o) [].
Proof. intros u lg. exists [], []. cbn. rewrite app_nil_r. auto. Qed.

Lemma tracks_logged {U A} q (m : scode U A) : tracks (scall m) (scall (logged q m)) [q].
Proof.
  intros u lg. exists [q], []. unfold scall, logged. cbn [fst snd]. destruct (m u) as [r u1]. cbn [fst snd]. auto.
Qed.

Lemma tracks_bind {U A B} (m : sact U A) m' f1 (k : A -> sact U B) k' f2 :
  tracks m m' f1 -> (forall a, tracks (k a) (k' a) f2) -> tracks (sbind m k) (sbind m' k') (f1 ++ f2).
Proof.
  intros Hm Hk u lg. destruct (Hm u lg) as (l & rest & E & Hf & Hr). unfold sbind. rewrite E. destruct (m u) as [[a|y| |v] u1]; cbn [fst snd] in *.
  - destruct (Hk a u1 (lg ++ l)) as (l2 & rest2 & E2 & Hf2 & Hr2). exists (l ++ l2), rest2. rewrite E2, <- app_assoc. split; auto.
    rewrite (Hr a eq_refl), app_nil_r in Hf. subst f1 f2. rewrite <- app_assoc. auto.
  - exists l, (rest ++ f2). split; auto. split; [subst f1; rewrite <- app_assoc; auto|discriminate].
  - exists l, (rest ++ f2). split; auto. split; [subst f1; rewrite <- app_assoc; auto|discriminate].
  - exists l, (rest ++ f2). split; auto. split; [subst f1; rewrite <- app_assoc; auto|discriminate].
Qed.

Lemma tracks_matches {U} (e j : nat) (p : spolicy U) c :
  tracks (s_matches p c) (s_matches (logged_policy e j p) c) (match p with SArg i _ _ => match nth_error (ci_args c) i with Some _ => [(e, j, QProject); (e, j, QMatch)] | None => [] end | _ => [] end).
Proof.
  destruct p as [x|x|i m pr|n]; cbn [s_matches logged_policy]; try apply tracks_sret. destruct (nth_error (ci_args c) i) as [v|]; [|apply tracks_sret].
  apply (tracks_bind _ _ [(e, j, QProject)] _ _ [(e, j, QMatch)]); [apply tracks_logged|]. intros a. cbn [sm_matches]. apply tracks_logged.
Qed.
Lemma tracks_describe {U} (e j : nat) (p : spolicy U) :
  tracks (s_describe p) (s_describe (logged_policy e j p)) (match p with SArg _ _ _ => [(e, j, QDescribe)] | _ => [] end).
Proof.
  destruct p as [x|x|i m pr|n]; cbn [s_describe logged_policy]; try apply tracks_sret.
  apply (tracks_bind _ _ [(e, j, QDescribe)] _ _ []); [apply tracks_logged|]. intros a. apply tracks_sret.
Qed.

Lemma tracks_report {U} (e j : nat) (p : spolicy U) c :
  tracks (s_report_of c p) (s_report_of c (logged_policy e j p)) (match p with SArg _ _ _ => [(e, j, QProject); (e, j, QMatch); (e, j, QDescribe)] | _ => [] end).
Proof.
  assert (H : tracks (s_report_of c p) (s_report_of c (logged_policy e j p))
    ((match p with SArg i _ _ => match nth_error (ci_args c) i with Some _ => [(e, j, QProject); (e, j, QMatch)] | None => [] end | _ => [] end) ++
     (match p with SArg _ _ _ => [(e, j, QDescribe)] | _ => [] end) ++ [])).
  { unfold s_report_of. apply tracks_bind; [apply tracks_matches|]. intros b. apply tracks_bind; [apply tracks_describe|]. intros d. apply tracks_sret. }
  destruct p as [x|x|i m pr|n]; auto. destruct (nth_error (ci_args c) i) as [v|] eqn:Ei; [exact H|].
  (* does not compile: nothing is asked *)
  intros u lg. exists [], [(e, j, QProject); (e, j, QMatch); (e, j, QDescribe)].
  cbn [logged_policy]. unfold s_report_of, s_matches, sbind. rewrite Ei. cbn. rewrite app_nil_r. split; auto. split; auto. discriminate.
Qed.

Lemma tracks_reports {U} c e (ps : list (spolicy U)) : forall j, tracks (somap (s_report_of c) ps) (somap (s_report_of c) (logged_from e j ps)) (questions e j ps).
Proof.
  induction ps as [|p ps IH]; intros j; cbn [somap logged_from questions]; [apply tracks_sret|].
  assert (H := tracks_bind _ _ _ _ _ _ (tracks_report e j p c)
    (fun b => tracks_bind _ _ _ _ _ _ (IH (S j)) (fun bs => tracks_sret (Ret (b :: bs))))).
  rewrite app_nil_r in H. destruct p; exact H.
Qed.
Lemma tracks_descriptions {U} e (ps : list (spolicy U)) : forall j, tracks (somap s_describe ps) (somap s_describe (logged_from e j ps)) (describing e j ps).
Proof.
  induction ps as [|p ps IH]; intros j; cbn [somap logged_from describing]; [apply tracks_sret|].
  assert (H := tracks_bind _ _ _ _ _ _ (tracks_describe e j p)
    (fun b => tracks_bind _ _ _ _ _ _ (IH (S j)) (fun bs => tracks_sret (Ret (b :: bs))))).
  rewrite app_nil_r in H. destruct p; exact H.
Qed.

(** One expectation: it is asked everything; or a beginning, up to the exception, and then to describe itself. *)
Definition consulted {U} (e : nat) (ps : list (spolicy U)) (a : match_attempt) (l : list asked) : Prop :=
  match a with
  | AttemptReport _ => l = questions e 0 ps
  | AttemptUnhandled _ _ => exists l1 rest, questions e 0 ps = l1 ++ rest /\ l = l1 ++ describing e 0 ps
  end.

Lemma attempt_logged {U} rp n ss e k (ps : list (spolicy U)) c u lg :
  exists l, s_make_match_report rp n ss e (logged_from k 0 ps) c (u, lg) =
      (fst (s_make_match_report rp n ss e ps c u), (snd (s_make_match_report rp n ss e ps c u), lg ++ l)) /\
    forall a, fst (s_make_match_report rp n ss e ps c u) = Ret a -> consulted k ps a l.
Proof.
  unfold s_make_match_report, s_exp_matches, s_exp_report, sbind, sret.
  destruct (control_state_of ss (e_ctl e)) as [st|y| |v].
  - destruct (tracks_reports c k ps 0 u lg) as (l & rest & E & Hf & Hr). rewrite E.
    destruct (somap (s_report_of c) ps u) as [[rs|x| |v] u1]; cbn [fst snd] in *.
    + exists l. split; [reflexivity|]. intros a Ha. cbn in Ha. inversion Ha; subst. cbn. rewrite Hf, (Hr rs eq_refl), app_nil_r. reflexivity.
    + destruct (tracks_descriptions k ps 0 u1 (lg ++ l)) as (l2 & rest2 & E2 & Hf2 & Hr2).
      rewrite E2. exists (l ++ l2). rewrite app_assoc.
      destruct (somap s_describe ps u1) as [[ds|y| |v] u2]; cbn [fst snd] in *; cbn; try (split; [reflexivity|discriminate]).
      destruct (rp _ n); cbn; (split; [reflexivity|]); try discriminate. intros a Ha. inversion Ha; subst. cbn.
      exists l, rest. split; auto. rewrite Hf2, (Hr2 ds eq_refl), app_nil_r. reflexivity.
    + exists l. split; [reflexivity|discriminate].
    + exists l. split; [reflexivity|discriminate].
  - exists []. cbn. rewrite app_nil_r. split; [reflexivity|discriminate].
  - exists []. cbn. rewrite app_nil_r. split; [reflexivity|discriminate].
  - exists []. cbn. rewrite app_nil_r. split; [reflexivity|discriminate].
Qed.

(** The loop: newest first, one after the other. *)
Inductive consultation {U} (pols : nat -> list (spolicy U)) : list nat -> list asked -> list nat -> Prop :=
| cons_nil : consultation pols [] [] []
| cons_asked e es l ls us : consultation pols es ls us -> l = questions e 0 (pols e) -> consultation pols (e :: es) (l ++ ls) us
| cons_threw e es l1 rest ls us : consultation pols es ls us -> questions e 0 (pols e) = l1 ++ rest ->
    consultation pols (e :: es) (l1 ++ describing e 0 (pols e) ++ ls) (e :: us).

Lemma loop_logged {U} rp n ss c (pols : nat -> list (spolicy U)) (es : list (nat * expectation)) : forall acc u lg,
  let plain := s_match_loop rp n ss c (map (fun p => (fst p, (snd p, pols (fst p)))) es) acc u in
  exists l, s_match_loop rp n ss c (map (fun p => (fst p, (snd p, logged_from (fst p) 0 (pols (fst p))))) es) acc (u, lg) =
      (fst plain, (snd plain, lg ++ l)) /\
    forall ml, fst plain = Ret ml -> exists us, map fst (ml_unhandled ml) = map fst (ml_unhandled acc) ++ us /\ consultation pols (map fst es) l us.
Proof.
  cbv zeta. induction es as [|[k e] es IH]; intros acc u lg; cbn [map s_match_loop fst snd].
  - exists []. unfold sret. cbn. rewrite app_nil_r. split; auto. intros ml E. inversion E; subst. exists []. rewrite app_nil_r. split; auto. constructor.
  - destruct (attempt_logged rp n ss e k (pols k) c u lg) as (l & E & Hl). unfold sbind. rewrite E.
    destruct (s_make_match_report rp n ss e (pols k) c u) as [[a|y| |v] u1]; cbn [fst snd] in *.
    + match goal with |- context [s_match_loop rp n ss c (map (fun p => (fst p, (snd p, pols (fst p)))) es) ?acc1 u1] =>
        destruct (IH acc1 u1 (lg ++ l)) as (l2 & E2 & H2) end.
      rewrite E2. exists (l ++ l2). rewrite app_assoc. split; auto. intros ml Hml. destruct (H2 ml Hml) as (us & Hu & Hc).
      specialize (Hl a eq_refl). destruct a as [m|r x]; cbn in Hl.
      * exists us. split; [destruct (evaluate_match_report m); exact Hu|]. constructor; auto.
      * cbn [ml_unhandled] in Hu. rewrite map_app in Hu. cbn [map fst] in Hu. destruct Hl as (l1 & rest & Hq & ->).
        exists (k :: us). split; [rewrite Hu, <- app_assoc; reflexivity|]. rewrite <- app_assoc. apply (cons_threw pols k (map fst es) l1 rest); auto.
    + exists l. split; auto. discriminate.
    + exists l. split; auto. discriminate.
    + exists l. split; auto. discriminate.
Qed.

(** If nothing threw, every requirement of every expectation was asked once, newest expectation first. *)
Lemma consultation_quiet {U} (pols : nat -> list (spolicy U)) es l : consultation pols es l [] -> l = flat_map (fun e => questions e 0 (pols e)) es.
Proof.
  intros H. remember [] as us. induction H; subst; auto; [|discriminate]. cbn [flat_map]. rewrite IHconsultation; auto.
Qed.

(** ** Programs whose matchers change their minds *)

Inductive moody : world -> list op -> world -> Prop :=
| moody_nil w : moody w [] w
| moody_cons w w1 o w2 r ops w3 : restate w w1 -> step w1 o = Next w2 r -> moody w2 ops w3 -> moody w (o :: ops) w3.

Lemma moody_inv w ops w' : moody w ops w' -> WInv w -> OInv w -> WInv w' /\ OInv w'.
Proof.
  induction 1 as [|w w1 o w2 r ops w3 Hre Hs H IH]; intros I O; auto.
  pose proof (winv_restate _ _ Hre I) as I1. pose proof (oinv_restate _ _ Hre O) as O1.
  apply IH; [eapply winv_step; eauto|eapply oinv_step; eauto].
Qed.

Lemma moody_run w ops w' : run w ops w' -> moody w ops w'.
Proof. induction 1; econstructor; eauto. apply restate_refl. Qed.
