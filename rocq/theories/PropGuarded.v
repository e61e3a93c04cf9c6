(** * PropGuarded: programs which synchronise their threads by mutexes of their own (C102). *)

From Verif Require Import Base Lib Sequence Control Signature Printer Reports Expectation Builder World WorldSpec WorldInv CountProofs PlayProofs FrameSpec Scenario
  Conc ConcSpec ConcProofs PropConc ConcOrder Race RaceSpec RaceProofs Lifetime LifetimeSpec LifetimeOrder Colls CollsSpec CollsOrder Guarded GuardedSpec GuardedProofs.

(** ** The mutexes *)

Theorem C102_lock release n acts g t m : gruns release (ginit n) acts g ->
  match gstep release g t (GLock m) with
  | GNext g' r => r = RUnit /\ gc g' = gc g /\ (forall u, ~ has g m u) /\ forall k u, has g' k u <-> has g k u \/ (k = m /\ u = t)
  | GBlocked => exists u, u <> t /\ has g m u
  | GBroken => has g m t
  | _ => False
  end.
Proof.
  intros R. pose proof (gruns_hu _ _ _ _ R (hu_init n)) as N. destruct (gstep release g t (GLock m)) as [g' r| | | | |] eqn:E; pose proof E as Hs; cbn [gstep] in Hs;
    destruct (holder g m) as [t'|] eqn:Hh; try discriminate; try (destruct (Nat.eqb_spec t' t) as [->|Hne]; discriminate).
  - injection Hs as <- <-. split; auto. split; auto. split; [apply holder_none; auto|]. intros k u. rewrite (gstep_has _ _ _ _ _ _ k u N E). split.
    + intros [[H _]|[H ->]]; auto. injection H as ->. auto.
    + intros [H|[-> ->]]; auto. left. split; auto. intros [Q _]. discriminate.
  - destruct (Nat.eqb_spec t' t) as [->|Hne]; [discriminate|]. exists t'. split; auto. apply holder_has; auto.
  - destruct (Nat.eqb_spec t' t) as [->|Hne]; [|discriminate]. apply holder_has; auto.
Qed.

Theorem C102_unlock release n acts g t m : gruns release (ginit n) acts g ->
  match gstep release g t (GUnlock m) with
  | GNext g' r => r = RUnit /\ gc g' = gc g /\ has g m t /\ forall k u, has g' k u <-> has g k u /\ k <> m
  | GBroken => ~ has g m t
  | _ => False
  end.
Proof.
  intros R. pose proof (gruns_hu _ _ _ _ R (hu_init n)) as N. destruct (gstep release g t (GUnlock m)) as [g' r| | | | |] eqn:E; pose proof E as Hs; cbn [gstep] in Hs;
    destruct (holder g m) as [t'|] eqn:Hh; try discriminate; try (destruct (Nat.eqb_spec t' t) as [->|Hne]; discriminate).
  - destruct (Nat.eqb_spec t' t) as [->|Hne]; [|discriminate]. assert (Hm : has g m t) by (apply holder_has; auto). injection Hs as <- <-. split; auto. split; auto. split; auto.
    intros k u. rewrite (gstep_has _ _ _ _ _ _ k u N E). split.
    + intros [[H Hn]|[H _]]; [|discriminate]. split; auto. intros ->. apply Hn. split; auto. eapply has_one; eauto.
    + intros [H Hn]. left. split; auto. intros [Q _]. injection Q as Q. congruence.
  - destruct (Nat.eqb_spec t' t) as [->|Hne]; [discriminate|]. intros H. apply (holder_has g m t N) in H. congruence.
  - intros H. apply (holder_has g m t N) in H. congruence.
Qed.

Theorem C102_mutual_exclusion release n acts g m t t' : gruns release (ginit n) acts g -> has g m t -> has g m t' -> t = t'.
Proof. intros R. apply has_one. exact (gruns_hu _ _ _ _ R (hu_init n)). Qed.

(** ** The library does not know of these mutexes *)

Definition steps_of (acts : list (nat * gaction)) : list (nat * action) := flat_map (fun p => match snd p with GDo a => [(fst p, a)] | _ => [] end) acts.
Definition locks_of (acts : list (nat * gaction)) : list (nat * gaction) := filter (fun p => match snd p with GDo _ => false | _ => true end) acts.

(** Every execution is one of Conc.v with the same events, so that C27, C28, C67, C68, C82, C100 and C101 hold. *)
Theorem C102_executions release n acts g : gruns release (ginit n) acts g ->
  cruns release (cinit n) (steps_of acts) (gc g) /\
  flat_map (fun q => match snd q with GE y => [(fst (fst q), y)] | _ => [] end) (gevents release (ginit n) acts) =
    map (fun q => (fst (fst q), snd q)) (full release (cinit n) (steps_of acts)) /\
  flat_map (fun q => match snd q with GE _ => [] | GLocked m => [(fst (fst q), GLock m)] | GUnlocked m => [(fst (fst q), GUnlock m)] end) (gevents release (ginit n) acts) = locks_of acts.
Proof.
  change (cinit n) with (gc (ginit n)). generalize (ginit n). intros g0 R. induction R as [g0|g0 t x g1 r acts g2 Hs R (IH1 & IH2 & IH3)]; [repeat split; constructor|].
  rewrite (gevents_cons _ _ _ _ _ _ _ Hs), !flat_map_app. destruct x as [m|m|a].
  - assert (E : gc g1 = gc g0) by (cbn [gstep] in Hs; destruct (holder g0 m) as [t'|]; [destruct (t' =? t); discriminate|]; injection Hs as <- _; reflexivity).
    rewrite E in *. cbn [gev_of map flat_map app fst snd locks_of filter]. split; [exact IH1|]. split; [exact IH2|]. f_equal. exact IH3.
  - assert (E : gc g1 = gc g0) by (cbn [gstep] in Hs; destruct (holder g0 m) as [t'|]; [|discriminate]; destruct (t' =? t); [|discriminate]; injection Hs as <- _; reflexivity).
    rewrite E in *. cbn [gev_of map flat_map app fst snd locks_of filter]. split; [exact IH1|]. split; [exact IH2|]. f_equal. exact IH3.
  - cbn [gstep] in Hs. destruct (cstep release (gc g0) t a) as [c' r0| | |] eqn:Hc; try discriminate. injection Hs as <- <-. cbn [gc] in *.
    change (steps_of ((t, GDo a) :: acts)) with ((t, a) :: steps_of acts). split; [econstructor; eauto|]. split.
    + rewrite (full_cons _ _ _ _ _ _ _ Hc), map_app. f_equal; [|exact IH2]. cbn [gev_of]. rewrite !map_map. induction (full_of release (gc g0) t a) as [|y l IH]; cbn; auto. f_equal. exact IH.
    + change (locks_of ((t, GDo a) :: acts)) with (locks_of acts). rewrite <- IH3 at 1. replace (flat_map _ (map (pair (t, GDo a)) _)) with (@nil (nat * gaction)); [reflexivity|].
      cbn [gev_of]. rewrite map_map. induction (full_of release (gc g0) t a) as [|y l IH]; cbn; auto.
Qed.

(** ** Guarded programs behave like programs with one thread *)

Lemma jj_reach release n m acts g : gruns release (ginit n) acts g -> guarded release m (ginit n) acts -> JJ release n m g.
Proof. intros R G. exact (jj_run _ _ _ _ _ _ (hu_init n) (jj_init _ _ _) R G). Qed.

Lemma jj_settled release n m g : JJ release n m g -> (forall t, settled g t) -> serialised release (cinit n) (gc g).
Proof.
  intros [[J _]|(g0 & t & mo & ov & args & l & _ & _ & J & _)] H; auto. exfalso.
  pose proof (cstep_match _ _ _ _ _ _ _ _ _ J) as (th & s & coll & Hth & _ & _ & _ & [(w' & k & _ & _ & Ec)|(w' & Hm & _)]).
  - specialize (H t (mkThread (w_frames w') (w_uncaught w') (Some (k, call_of s args l, frontend_noexcept s)))). rewrite Ec in H. cbn [leave c_threads] in H.
    rewrite nth_error_upd_eq in H by (eapply nth_error_lt; eauto). specialize (H eq_refl). discriminate.
  - destruct (over_throws _ _ _ _ _ _ Hm) as [q Hq]. discriminate.
Qed.

(** While nobody holds the mutex, no call is half done. *)
Theorem C102_free_means_settled release n m acts g t : gruns release (ginit n) acts g -> guarded release m (ginit n) acts -> (forall u, ~ has g m u) -> settled g t.
Proof.
  intros R G F. destruct (jj_reach _ _ _ _ _ R G) as [[_ J]|(g0 & u & _ & _ & _ & _ & _ & _ & _ & J)]; [apply J|]. exfalso. exact (F _ J).
Qed.

(** Then a program with one thread has all objects in the same state and has delivered the same reports. *)
Theorem C102_like_one_thread release n m acts g : gruns release (ginit n) acts g -> guarded release m (ginit n) acts -> (forall t, settled g t) ->
  exists w, reachable w /\ agrees w (gc g) /\ forall e, counted (gc g) e = accepted (w_trace w) e.
Proof. intros R G H. apply (C28_serialised release n). exact (jj_settled _ _ _ _ (jj_reach _ _ _ _ _ R G) H). Qed.

(** Calls have the outcome they have there. *)
Theorem C102_calls release n m acts g t mo ov args l g1 r : gruns release (ginit n) acts g -> guarded release m (ginit n) acts -> (forall u, settled g u) ->
  gstep release g t (GDo (AMatch mo ov args l)) = GNext g1 r ->
  exists w, reachable w /\ agrees w (gc g) /\
    ((exists x w', r = RThrow x /\ step w (OCall mo ov args l) = Next w' (RThrow x) /\ agrees w' (gc g1)) \/
     (exists g2 w', r = RUnit /\ gstep release g1 t (GDo ACount) = GNext g2 RUnit /\ step w (OCall mo ov args l) = Next w' RUnit /\ agrees w' (gc g2))).
Proof.
  intros R G H Hs. pose proof (jj_settled _ _ _ _ (jj_reach _ _ _ _ _ R G) H) as S. cbn [gstep] in Hs. destruct (cstep release (gc g) t (AMatch mo ov args l)) as [c1 r0| | |] eqn:Hc; try discriminate.
  injection Hs as <- <-. destruct (C28_serialised_calls _ _ _ _ _ _ _ _ _ _ S Hc) as (w & Hw & Ha & D). exists w. split; auto. split; auto. destruct D as [D|(c2 & w' & -> & Hc2 & D)]; [left; exact D|].
  right. exists (mkG c2 (g_held g)), w'. split; auto. split; [|exact D]. cbn [gstep gc g_held]. rewrite Hc2. reflexivity.
Qed.

(** An accepted call is counted, whatever the other threads do in between: no assert fails, with or without NDEBUG. *)
Theorem C102_counting_succeeds release n m acts g t th p : gruns release (ginit n) acts g -> guarded release m (ginit n) acts ->
  nth_error (c_threads (gc g)) t = Some th -> t_pending th = Some p -> has g m t /\ exists g', gstep release g t (GDo ACount) = GNext g' RUnit.
Proof.
  intros R G Hth Hp. destruct (jj_reach _ _ _ _ _ R G) as [[_ J]|(g0 & u & mo & ov & args & l & J1 & J2 & J3 & J4)]; [specialize (J t th Hth); congruence|].
  assert (u = t).
  { pose proof (cstep_match _ _ _ _ _ _ _ _ _ J3) as (th0 & s & coll & Hth0 & _ & _ & _ & [(w' & k & _ & _ & Ec)|(w' & Hm & _)]).
    - destruct (Nat.eq_dec t u) as [|Hn]; auto. exfalso. rewrite Ec in Hth. cbn [leave c_threads] in Hth. rewrite nth_error_upd_neq in Hth by auto. specialize (J2 t th Hth). congruence.
    - destruct (over_throws _ _ _ _ _ _ Hm) as [q Hq]. discriminate. }
  subst u. split; auto. destruct (C28_serialised _ _ _ J1) as (w & Hw & Ha & _). destruct (serialised_counts _ _ _ _ _ _ _ _ _ Hw Ha J3) as [c2 Hc2].
  exists (mkG c2 (g_held g)). cbn [gstep]. rewrite Hc2. reflexivity.
Qed.

(** The upper limit is never exceeded, with or without NDEBUG. *)
Theorem C102_limit release n m acts g e x : gruns release (ginit n) acts g -> guarded release m (ginit n) acts -> exp_at (cw (gc g)) e x ->
  (Z.of_nat (counted (gc g) e) <= x_max x)%Z.
Proof.
  intros R G Hx. destruct (jj_reach _ _ _ _ _ R G) as [[J _]|(g0 & u & mo & ov & args & l & J1 & J2 & J3 & J4)]; [eapply C28_serialised_limit; eauto|].
  destruct (cstep_match_core _ _ _ _ _ _ _ _ _ J3) as [Hc Hl]. replace (counted (gc g) e) with (counted (gc g0) e) by (unfold counted; rewrite Hl; reflexivity).
  eapply C28_serialised_limit; eauto. unfold exp_at in *. destruct (core_fields _ _ Hc) as (_ & _ & _ & E & _). rewrite <- E. exact Hx.
Qed.

(** All other operations have the result they have there. *)
Theorem C102_operations release n m acts g t o g1 r : gruns release (ginit n) acts g -> guarded release m (ginit n) acts -> (forall u, settled g u) ->
  gstep release g t (GDo (AOp o)) = GNext g1 r ->
  exists w, reachable w /\ agrees w (gc g) /\
    ((exists w', step w o = Next w' r /\ agrees w' (gc g1)) \/ ((o = OAction \/ o = OFinal \/ exists u, o = OReturn u) /\ agrees w (gc g1))).
Proof.
  intros R G H Hs. pose proof (jj_settled _ _ _ _ (jj_reach _ _ _ _ _ R G) H) as S. cbn [gstep] in Hs. destruct (cstep release (gc g) t (AOp o)) as [c1 r0| | |] eqn:Hc; try discriminate.
  injection Hs as <- <-. exact (C28_serialised_operations _ _ _ _ _ _ _ S Hc).
Qed.

Lemma core_step_wrong w w' o u : core w = core w' -> w_uncaught w = w_uncaught w' -> frame_op o = false -> step w o = Wrong u -> step w' o = Wrong u.
Proof.
  intros Hc Hu Ho H.
  assert (Hv : forall w, step w o = lift (w_trace w) (liftf (w_frames w) (step (set_uncaught (core w) (w_uncaught w)) o))).
  { intros v. rewrite (as_view v) at 1. rewrite step_pre, step_und by auto. reflexivity. }
  rewrite (Hv w) in H. rewrite (Hv w'), <- Hc, <- Hu. destruct (step (set_uncaught (core w) (w_uncaught w)) o); cbn [lift liftf] in *; congruence.
Qed.

(** Undefined behaviour of the library (among others a failing assert) occurs only where a program with one thread has it, too. *)
Theorem C102_faults release n m acts g t a u : gruns release (ginit n) acts g -> guarded release m (ginit n) acts -> has g m t ->
  gstep release g t (GDo a) = GWrong u ->
  exists w, reachable w /\ agrees w (gc g) /\
    match a with
    | AOp o => o = OAction \/ o = OFinal \/ (exists y, o = OReturn y) \/ step w o = Wrong u
    | AMatch mo ov args l => step w (OCall mo ov args l) = Wrong u
    | ACount => False
    end.
Proof.
  intros R G Hh Hs. cbn [gstep] in Hs. destruct (cstep release (gc g) t a) as [| |u0|] eqn:Hc; try discriminate. injection Hs as ->.
  assert (S : (forall v, settled g v) \/ exists th p, nth_error (c_threads (gc g)) t = Some th /\ t_pending th = Some p).
  { destruct (jj_reach _ _ _ _ _ R G) as [[_ J]|(g0 & v & mo & ov & args & l & J1 & J2 & J3 & J4)]; [left; exact J|]. right.
    assert (v = t) by (eapply C102_mutual_exclusion; eauto). subst v.
    pose proof (cstep_match _ _ _ _ _ _ _ _ _ J3) as (th & s & coll & Hth & _ & _ & _ & [(w' & k & _ & _ & Ec)|(w' & Hm & _)]).
    - eexists _, _. rewrite Ec. cbn [leave c_threads]. rewrite nth_error_upd_eq by (eapply nth_error_lt; eauto). split; reflexivity.
    - destruct (over_throws _ _ _ _ _ _ Hm) as [q Hq]. discriminate. }
  destruct S as [S|(th & p & Hth & Hp)].
  2:{ exfalso. destruct a as [o|mo ov args l|]; try (unfold cstep in Hc; rewrite Hth, Hp in Hc; destruct p as [[? ?] ?]; discriminate).
      destruct (C102_counting_succeeds _ _ _ _ _ _ _ _ R G Hth Hp) as (_ & g' & Hg). cbn [gstep] in Hg. rewrite Hc in Hg. discriminate. }
  destruct (C102_like_one_thread _ _ _ _ _ R G S) as (w & Hw & Ha & _). unfold cstep in Hc. destruct (nth_error (c_threads (gc g)) t) as [th|] eqn:Hth; [|discriminate].
  rewrite (S t th Hth) in Hc. exists (set_uncaught w (t_uncaught th)). split; [apply unwind_reachable; auto|]. split; [exact Ha|]. apply agrees_core in Ha. destruct Ha as [Hcore _].
  destruct a as [o|mo ov args l|]; [|
    destruct (find_overload (enter (cw (gc g)) th) mo ov) as [s'|[s coll]] eqn:Hf|discriminate].
  - destruct (is_call o) eqn:Ho; [discriminate|]. destruct (step (enter (cw (gc g)) th) o) as [| |u1|] eqn:E; cbn [embed] in Hc; try discriminate. injection Hc as ->.
    destruct (frame_op o) eqn:Hfo; [destruct o; try discriminate; eauto 10; exfalso; cbn [step] in E; destruct (w_frames _); [discriminate|]; destruct (_ && _); discriminate|]. right. right. right. apply (core_step_wrong (enter (cw (gc g)) th)); auto.
  - assert (E : step (enter (cw (gc g)) th) (OCall mo ov args l) = Wrong u).
    { cbn [step]. unfold do_call. rewrite Hf. destruct s'; cbn [embed] in Hc; try discriminate. injection Hc as ->. reflexivity. }
    apply (core_step_wrong (enter (cw (gc g)) th)); auto.
  - destruct (length args =? length (sg_params s)) eqn:Hl; cbn [negb] in Hc; [|discriminate]. apply Nat.eqb_eq in Hl.
    assert (E : step (enter (cw (gc g)) th) (OCall mo ov args l) = Wrong u).
    { rewrite (step_call _ _ _ _ _ _ _ Hf Hl), handle_call_split. change (mkCall _ _ args _ _ l) with (call_of s args l) in Hc.
      destruct (match_call (enter (cw (gc g)) th) coll (call_of s args l) (frontend_noexcept s)) as [w1 k|s1]; [discriminate|]. destruct s1; cbn [embed] in Hc; try discriminate. injection Hc as ->. reflexivity. }
    apply (core_step_wrong (enter (cw (gc g)) th)); auto.
Qed.

(** ** Races *)

(** Two steps of different threads which hold the same mutex are ordered, whatever they do. *)
Theorem C102_mutex_orders release n A g1 t x g1' r B g2 t' x' g2' r' C i j y z m :
  gruns release (ginit n) A g1 -> gstep release g1 t x = GNext g1' r -> gruns release g1' B g2 -> gstep release g2 t' x' = GNext g2' r' ->
  t <> t' -> has g1' m t -> has g2 m t' -> nth_error (gev_of release g1 t x) i = Some y -> nth_error (gev_of release g2 t' x') j = Some z ->
  ghb (gevents release (ginit n) (A ++ (t, x) :: B ++ (t', x') :: C)) (length (gevents release (ginit n) A) + i)
    (length (gevents release (ginit n) A) + (length (gev_of release g1 t x) + (length (gevents release g1' B) + j))).
Proof. intros. eapply held_orders; eauto. apply hu_init. Qed.

Lemma gstep_do_has release g t a g' r m u : HU g -> gstep release g t (GDo a) = GNext g' r -> has g m u -> has g' m u.
Proof. intros N Hs H. apply (gstep_has _ _ _ _ _ _ m u N Hs). left. split; auto. intros [Q _]. discriminate. Qed.

Lemma gev_lib release g t x i y : nth_error (gev_of release g t x) i = Some (GE y) -> exists a, x = GDo a.
Proof. destruct x as [m|m|a]; cbn [gev_of]; [destruct i as [|[|]]; discriminate|destruct i as [|[|]]; discriminate|eauto]. Qed.

Lemma pair_ordered release n acts g i j t t' a b x y m :
  gruns release (ginit n) acts g -> nth_error (gevents release (ginit n) acts) i = Some (t, a, GE x) -> nth_error (gevents release (ginit n) acts) j = Some (t', b, GE y) ->
  t <> t' -> i < j ->
  (forall A B g1 k s c z, acts = A ++ (s, c) :: B -> gruns release (ginit n) A g1 -> nth_error (gev_of release g1 s c) k = Some z -> (z = GE x /\ s = t) \/ (z = GE y /\ s = t') -> has g1 m s) ->
  ghb (gevents release (ginit n) acts) i j.
Proof.
  intros R Hi Hj Hne Hij K. destruct (gevents_two _ _ _ _ _ _ _ _ _ _ _ _ R Hij Hi Hj) as (A & g1 & g1' & r & k & RA & Hs & Hk & -> & D).
  destruct D as [(E & _)|(B & C & g2 & g2' & r' & k' & -> & RB & Hs' & Hk' & ->)]; [congruence|].
  assert (N1 : HU g1) by exact (gruns_hu _ _ _ _ RA (hu_init n)).
  destruct (gev_lib _ _ _ _ _ _ Hk) as [a0 ->]. destruct (gev_lib _ _ _ _ _ _ Hk') as [b0 ->].
  eapply (C102_mutex_orders release n A g1 t (GDo a0) g1' r B g2 t' (GDo b0) g2' r' C k k' (GE x) (GE y) m); auto.
  - eapply gstep_do_has; [exact N1|exact Hs|]. eapply K; [reflexivity|exact RA|exact Hk|auto].
  - eapply (K (A ++ (t, GDo a0) :: B)); [rewrite <- app_assoc; reflexivity| |exact Hk'|auto].
    clear -RA Hs RB. induction RA; cbn [app]; [econstructor; eauto|econstructor; eauto].
Qed.

(** A place which is only accessed by threads holding the mutex is not part of any data race, nor is its end. *)
Theorem C102_protected_places_never_race release n m p acts g : gruns release (ginit n) acts g -> protected release m p (ginit n) acts ->
  ~ any_race (gevents release (ginit n) acts) p.
Proof.
  intros R P (i & j & t & t' & a & b & x & y & Hi & Hj & Hne & T1 & T2 & _ & N1 & N2).
  assert (K : forall A B g1 k s c z, acts = A ++ (s, c) :: B -> gruns release (ginit n) A g1 -> nth_error (gev_of release g1 s c) k = Some (GE z) -> touches p z -> has g1 m s).
  { intros A B g1 k s c z -> RA Hk Hz. pose proof (protected_app _ _ _ _ _ _ _ P RA) as P'. inversion P' as [|g0 t0 x0 g0' r0 acts0 Hs0 Hp0 Hr0]; subst. apply Hp0. exists z. split; auto. eapply nth_error_In; eauto. }
  destruct (Nat.lt_trichotomy i j) as [L|[L|L]].
  - apply N1. eapply pair_ordered; eauto. intros A B g1 k s c z E RA Hk [[-> _]|[-> _]]; eauto.
  - subst. rewrite Hi in Hj. congruence.
  - apply N2. eapply (pair_ordered release n acts g j i t' t b a y x); eauto. intros A B g1 k s c z E RA Hk [[-> _]|[-> _]]; eauto.
Qed.

(** A guarded program has no data race at all, and everything is destroyed after its last use. *)
Theorem C102_guarded_never_race release n m acts g p : gruns release (ginit n) acts g -> guarded release m (ginit n) acts -> ~ any_race (gevents release (ginit n) acts) p.
Proof.
  intros R G. apply (C102_protected_places_never_race release n m p acts g R). clear R. revert G. generalize (ginit n). induction acts as [|[t x] acts IH]; intros g0 G; [constructor|].
  inversion G as [|g1 t1 x1 g1' r1 acts1 Hs Hok Hg]; subst. econstructor; [exact Hs| |apply IH; exact Hg]. intros (y & Hy & _). destruct x as [m0|m0|a]; [destruct Hy as [Hy|[]]; discriminate|destruct Hy as [Hy|[]]; discriminate|exact Hok].
Qed.

Theorem C102_guarded_lists_never_race release n m acts g k : gruns release (ginit n) acts g -> guarded release m (ginit n) acts -> ~ list_race (gevents release (ginit n) acts) k.
Proof.
  intros R G (i & j & t & t' & a & b & x & Hi & Hj & Hne & _ & N1 & N2).
  assert (K : forall A B g1 q s c z, acts = A ++ (s, c) :: B -> gruns release (ginit n) A g1 -> nth_error (gev_of release g1 s c) q = Some (GE z) -> has g1 m s).
  { intros A B g1 q s c z -> RA Hk. destruct (gev_lib _ _ _ _ _ _ Hk) as [a0 ->]. pose proof (guarded_app _ _ _ _ _ _ G RA) as P'. inversion P' as [|g0 t0 x0 g0' r0 acts0 Hs0 Hp0 Hr0]; subst. exact Hp0. }
  destruct (Nat.lt_trichotomy i j) as [L|[L|L]].
  - apply N1. eapply pair_ordered; eauto. intros A B g1 q s c z E RA Hk [[-> _]|[-> _]]; eauto.
  - subst. rewrite Hi in Hj. congruence.
  - apply N2. eapply (pair_ordered release n acts g j i t' t b a _ _); eauto. intros A B g1 q s c z E RA Hk [[-> _]|[-> _]]; eauto.
Qed.

(** ** Examples *)

Definition hasb (g : gworld) (m t : nat) : bool := existsb (fun p => (fst p =? m) && (snd p =? t)) (g_held g).
Lemma hasb_has g m t : hasb g m t = true -> has g m t.
Proof.
  unfold hasb, has. intros H. apply existsb_exists in H. destruct H as ([m0 t0] & Hi & E). apply andb_prop in E. destruct E as [E1 E2]. cbn in *. apply Nat.eqb_eq in E1, E2. subst. auto.
Qed.
Definition settledb (g : gworld) (t : nat) : bool := match nth_error (c_threads (gc g)) t with Some th => match t_pending th with None => true | _ => false end | None => true end.
Lemma settledb_settled g t : settledb g t = true -> settled g t.
Proof. unfold settledb, settled. intros H th E. rewrite E in H. destruct (t_pending th); [discriminate|reflexivity]. Qed.

Fixpoint guardedb (release : bool) (m : nat) (g : gworld) (acts : list (nat * gaction)) : bool :=
  match acts with
  | [] => true
  | (t, x) :: rest =>
      match gstep release g t x with
      | GNext g1 _ => (match x with GDo _ => hasb g m t | GUnlock m' => negb (m' =? m) || settledb g t | GLock _ => true end) && guardedb release m g1 rest
      | _ => false
      end
  end.
Lemma guardedb_guarded release m acts : forall g, guardedb release m g acts = true -> guarded release m g acts.
Proof.
  induction acts as [|[t x] acts IH]; intros g H; [constructor|]. cbn [guardedb] in H. destruct (gstep release g t x) as [g1 r| | | | |] eqn:Hs; try discriminate. apply andb_prop in H.
  destruct H as [H1 H2]. econstructor; [exact Hs| |apply IH; exact H2]. destruct x as [m0|m0|a]; auto; [|apply hasb_has; auto].
  intros ->. rewrite Nat.eqb_refl in H1. apply settledb_settled. exact H1.
Qed.
Lemma guarded_runs release m acts : forall g, guarded release m g acts -> exists g', gruns release g acts g'.
Proof. induction acts as [|[t x] acts IH]; intros g H; inversion H; subst; [eexists; constructor|]. edestruct IH as [g' Hg]; [eassumption|]. exists g'. econstructor; eauto. Qed.

Fixpoint gexec (release : bool) (g : gworld) (acts : list (nat * gaction)) : option gworld :=
  match acts with
  | [] => Some g
  | (t, x) :: rest => match gstep release g t x with GNext g1 _ => gexec release g1 rest | _ => None end
  end.
Lemma gexec_runs release acts : forall g g', gexec release g acts = Some g' -> gruns release g acts g'.
Proof.
  induction acts as [|[t x] acts IH]; intros g g' H; cbn [gexec] in H; [injection H as <-; constructor|]. destruct (gstep release g t x) as [g1 r| | | | |] eqn:E; try discriminate. econstructor; eauto.
Qed.

(** Two threads call a mock with an expectation for one call; the second call is reported; then the first thread destroys everything. *)
Definition under (m t : nat) (l : list action) : list (nat * gaction) := (t, GLock m) :: map (fun a => (t, GDo a)) l ++ [(t, GUnlock m)].
Definition careful : list (nat * gaction) :=
  under 5 0 [AOp (ONewMock [sig_void]); AOp (OExpect 0 0 [] [ClTimes TxOnce] here)] ++ under 5 1 (AMatch 0 0 [] there :: ACount :: map snd (finish 1)) ++
  under 5 0 [AMatch 0 0 [] here] ++ under 5 1 [AMatch 0 0 [] there] ++ under 5 0 [AOp (OEndScope 0); AOp (ODestroyMock 0)].

Example C102_guarded_example : guarded true 5 (ginit 2) careful /\
  (exists g, gruns true (ginit 2) careful g) /\
  (match gexec true (ginit 2) careful with Some g => counted (gc g) 0 = 1 /\ g_held g = [] /\ map t_pending (c_threads (gc g)) = [None; None] | None => False end) /\
  (exists i j k, nth_error (gevents true (ginit 2) careful) i = Some (1, GDo (AMatch 0 0 [] there), GE (HL (LE (MRead (PlVector 0))))) /\
     nth_error (gevents true (ginit 2) careful) j = Some (1, GDo ACount, GE (HL (LE (MWrite (PlCount 0))))) /\
     nth_error (gevents true (ginit 2) careful) k = Some (0, GDo (AOp (ODestroyMock 0)), GE (HKill 0))).
Proof.
  assert (G : guarded true 5 (ginit 2) careful) by (apply guardedb_guarded; vm_compute; reflexivity).
  split; [exact G|]. split; [exact (guarded_runs _ _ _ _ G)|]. split; [vm_compute; repeat split|].
  exists 8, 14, 42. vm_compute. repeat split.
Qed.

(** Every thread holds a mutex while it does something: thread [t] the mutex [f t]. *)
Inductive each_holds (release : bool) (f : nat -> nat) : gworld -> list (nat * gaction) -> Prop :=
| eh_nil g : each_holds release f g []
| eh_cons g t x g1 r acts : gstep release g t x = GNext g1 r -> match x with GDo _ => has g (f t) t | _ => True end ->
    each_holds release f g1 acts -> each_holds release f g ((t, x) :: acts).
Fixpoint eachb (release : bool) (f : nat -> nat) (g : gworld) (acts : list (nat * gaction)) : bool :=
  match acts with
  | [] => true
  | (t, x) :: rest =>
      match gstep release g t x with
      | GNext g1 _ => (match x with GDo _ => hasb g (f t) t | _ => true end) && eachb release f g1 rest
      | _ => false
      end
  end.
Lemma eachb_each release f acts : forall g, eachb release f g acts = true -> each_holds release f g acts.
Proof.
  induction acts as [|[t x] acts IH]; intros g H; [constructor|]. cbn [eachb] in H. destruct (gstep release g t x) as [g1 r| | | | |] eqn:Hs; try discriminate. apply andb_prop in H.
  destruct H as [H1 H2]. econstructor; [exact Hs| |apply IH; exact H2]. destruct x as [m0|m0|a]; auto. apply hasb_has; auto.
Qed.

(** What orders events of different threads: the first thread unlocks something or releases a std::shared_ptr, and another thread
    locks the same, or releases another std::shared_ptr to the same, later. *)
Definition synchronises (u v : gev) : Prop :=
  (exists m, u = GUnlocked m /\ v = GLocked m) \/ (exists m, u = GE (HL (LE (MUnlock m))) /\ v = GE (HL (LE (MLock m)))) \/
  (exists q, u = GE (HL (LDrop q)) /\ v = GE (HL (LDrop q))) \/ (exists k, u = GE (HDrop k) /\ v = GE (HDrop k)).

Lemma ghb_events tr i j : ghb tr i j -> (exists p, nth_error tr i = Some p) /\ exists p, nth_error tr j = Some p.
Proof. induction 1; try (split; eexists; eassumption). tauto. Qed.

Theorem C102_order tr i j : ghb tr i j -> i < j /\
  forall t a x t' b y, nth_error tr i = Some (t, a, x) -> nth_error tr j = Some (t', b, y) -> t <> t' ->
  exists k k' t2 a1 a2 u v, i <= k /\ k < k' /\ k' <= j /\ nth_error tr k = Some (t, a1, u) /\ nth_error tr k' = Some (t2, a2, v) /\ t2 <> t /\ synchronises u v.
Proof.
  assert (D : forall i j t t' a b x y, i < j -> nth_error tr i = Some (t, a, x) -> nth_error tr j = Some (t', b, y) -> synchronises x y ->
    i < j /\ forall t a x t' b y, nth_error tr i = Some (t, a, x) -> nth_error tr j = Some (t', b, y) -> t <> t' ->
    exists k k' t2 a1 a2 u v, i <= k /\ k < k' /\ k' <= j /\ nth_error tr k = Some (t, a1, u) /\ nth_error tr k' = Some (t2, a2, v) /\ t2 <> t /\ synchronises u v).
  { intros i0 j0 t t' a b x y Hlt Hi Hj Hs. split; auto. intros t1 a1 x1 t1' b1 y1 Hi' Hj' Hne.
    rewrite Hi in Hi'. rewrite Hj in Hj'. injection Hi' as -> -> ->. injection Hj' as -> -> ->. exists i0, j0, t1', a1, b1, x1, y1. repeat split; auto. }
  induction 1 as [i j t a b x y Hlt Hi Hj|i j t t' a b m Hlt Hi Hj|i j t t' a b q Hlt Hi Hj|i j t t' a b k Hlt Hi Hj|i j t t' a b m Hlt Hi Hj|i j k H1 [L1 IH1] H2 [L2 IH2]].
  - split; auto. intros t1 a1 x1 t1' b1 y1 Hi' Hj' Hne. exfalso. congruence.
  - eapply D; eauto. right. left. eauto.
  - eapply D; eauto. right. right. left. eauto.
  - eapply D; eauto. right. right. right. eauto.
  - eapply D; eauto. left. eauto.
  - split; [lia|]. intros t a x t' b y Hi Hk Hne. destruct (ghb_events _ _ _ H2) as [([[t1 a1] x1] & Hj) _].
    destruct (Nat.eq_dec t1 t) as [->|Hne1].
    + destruct (IH2 _ _ _ _ _ _ Hj Hk Hne) as (p & p' & t2 & c1 & c2 & u & v & ? & ? & ? & ?). exists p, p', t2, c1, c2, u, v. repeat split; try lia; tauto.
    + destruct (IH1 _ _ _ _ _ _ Hi Hj (fun E => Hne1 (eq_sym E))) as (p & p' & t2 & c1 & c2 & u & v & ? & ? & ? & ?). exists p, p', t2, c1, c2, u, v. repeat split; try lia; tauto.
Qed.

(** Conversely these are ordered. *)
Theorem C102_order_of_synchronising tr i j t t' a b u v : i < j -> nth_error tr i = Some (t, a, u) -> nth_error tr j = Some (t', b, v) ->
  t = t' \/ synchronises u v -> ghb tr i j.
Proof.
  intros Hlt Hi Hj [->|[(m & -> & ->)|[(m & -> & ->)|[(q & -> & ->)|(k & -> & ->)]]]].
  - eapply ghb_program; eauto.
  - eapply ghb_user; eauto.
  - eapply ghb_mutex; eauto.
  - eapply ghb_count; eauto.
  - eapply ghb_coll; eauto.
Qed.

(** One mutex per thread does not help: the counting of a call races with the matching of another one. *)
Theorem C102_own_mutexes_race_refuted : exists acts g, gruns true (ginit 2) acts g /\ each_holds true (fun t => t) (ginit 2) acts /\
  any_race (gevents true (ginit 2) acts) (PlCount 0).
Proof.
  set (acts := under 0 0 (map snd setup ++ [AMatch 0 0 [] here; ACount]) ++ under 1 1 [AMatch 0 0 [] there]).
  exists acts. eexists. split; [apply gexec_runs; vm_compute; reflexivity|]. split; [apply eachb_each; vm_compute; reflexivity|].
  exists 12, 17, 0, 1. do 4 eexists. split; [vm_compute; reflexivity|]. split; [vm_compute; reflexivity|]. split; [discriminate|].
  split; [right; left; reflexivity|]. split; [left; reflexivity|]. split; [left; left; reflexivity|]. split.
  - intros H. destruct (C102_order _ _ _ H) as [_ O]. edestruct O as (k & k' & t2 & a1 & a2 & u & v & L1 & L2 & L3 & Hk & Hk' & Ht & Hs); [vm_compute; reflexivity|vm_compute; reflexivity|discriminate|].
    assert (Ek : k = 12 \/ k = 13 \/ (14 <= k <= 16)) by lia. destruct Ek as [->|[->|Ek]].
    + vm_compute in Hk. injection Hk as <- <-. destruct Hs as [(m & E & _)|[(m & E & _)|[(q & E & _)|(q & E & _)]]]; discriminate E.
    + vm_compute in Hk. injection Hk as <- <-. destruct Hs as [(m & E & ->)|[(m & E & _)|[(q & E & _)|(q & E & _)]]]; try discriminate E. injection E as <-.
      assert (Ek : k' = 14 \/ k' = 15 \/ k' = 16 \/ k' = 17) by lia. destruct Ek as [->|[->|[->| ->]]]; vm_compute in Hk'; discriminate Hk'.
    + assert (Ek' : k = 14 \/ k = 15 \/ k = 16) by lia. destruct Ek' as [->|[->| ->]]; vm_compute in Hk; discriminate Hk.
  - intros H. apply C102_order in H. lia.
Qed.

(** One mutex per thread does not help: the limit is exceeded. *)
Theorem C102_own_mutexes_refuted : exists acts g x, gruns true (ginit 2) acts g /\ each_holds true (fun t => t) (ginit 2) acts /\
  exp_at (cw (gc g)) 0 x /\ x_max x = 1%Z /\ counted (gc g) 0 = 2.
Proof.
  eexists ((0, GLock 0) :: (1, GLock 1) :: map (fun p => (fst p, GDo (snd p))) (setup ++ both_match ++ [(0, ACount); (1, ACount)])), _, _.
  split; [apply gexec_runs; vm_compute; reflexivity|]. split; [apply eachb_each; vm_compute; reflexivity|]. repeat split; vm_compute; reflexivity.
Qed.

(** Nor does one mutex which is given away between the matching of a call and its counting, e.g. by the reporter of the match. *)
Theorem C102_released_between_refuted : exists acts g x, gruns true (ginit 2) acts g /\ each_holds true (fun _ => 5) (ginit 2) acts /\
  exp_at (cw (gc g)) 0 x /\ x_max x = 1%Z /\ counted (gc g) 0 = 2.
Proof.
  eexists (under 5 0 (map snd setup) ++ under 5 0 [AMatch 0 0 [] here] ++ under 5 1 [AMatch 0 0 [] there] ++ under 5 0 [ACount] ++ under 5 1 [ACount]), _, _.
  split; [apply gexec_runs; vm_compute; reflexivity|]. split; [apply eachb_each; vm_compute; reflexivity|]. repeat split; vm_compute; reflexivity.
Qed.

(** A thread which holds the mutex of the program lets others wait; locking twice is undefined. *)
Example C102_mutex_example :
  match gexec true (ginit 2) [(0, GLock 5); (1, GLock 6)] with
  | Some g => (match gstep true g 1 (GLock 5) with GBlocked => True | _ => False end) /\ (match gstep true g 0 (GLock 5) with GBroken => True | _ => False end) /\
      (match gstep true g 1 (GUnlock 5) with GBroken => True | _ => False end) /\ (match gstep true g 0 (GUnlock 5) with GNext g' _ => g_held g' = [(6, 1)] | _ => False end)
  | None => False
  end.
Proof. vm_compute. repeat split. Qed.

Print Assumptions C102_lock.
Print Assumptions C102_unlock.
Print Assumptions C102_mutual_exclusion.
Print Assumptions C102_executions.
Print Assumptions C102_free_means_settled.
Print Assumptions C102_like_one_thread.
Print Assumptions C102_calls.
Print Assumptions C102_counting_succeeds.
Print Assumptions C102_limit.
Print Assumptions C102_operations.
Print Assumptions C102_faults.
Print Assumptions C102_mutex_orders.
Print Assumptions C102_protected_places_never_race.
Print Assumptions C102_guarded_never_race.
Print Assumptions C102_guarded_lists_never_race.
Print Assumptions C102_order.
Print Assumptions C102_order_of_synchronising.
Print Assumptions C102_own_mutexes_race_refuted.
Print Assumptions C102_own_mutexes_refuted.
Print Assumptions C102_released_between_refuted.
