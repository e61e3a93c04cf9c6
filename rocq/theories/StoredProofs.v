(** * StoredProofs: programs with stored builders and the programs of [World] they correspond to. *)

From Verif Require Import Base Lib Sequence Control Signature Printer Reports Expectation Builder BuildSpec BuilderLemmas World WorldSpec StepCases
  WorldInv ObjInv CountProofs MoveProofs Builders.

(** ** Mocks under other names *)

Notation named rho := (sim rho (fun i => i) (fun _ => true) (fun _ => true)).

Definition keeps (w w' : world) : Prop :=
  forall g ov s coll, find_overload w g ov = inr (s, coll) -> exists g', find_overload w' g' ov = inr (s, coll).

Lemma keeps_refl w : keeps w w.
Proof. intros g ov s coll H. eauto. Qed.
Lemma keeps_trans w w1 w2 : keeps w w1 -> keeps w1 w2 -> keeps w w2.
Proof. intros A B g ov s coll H. destruct (A _ _ _ _ H) as [g' H']. eapply B; eauto. Qed.
Lemma keeps_same w w' : w_mocks w' = w_mocks w -> keeps w w'.
Proof. intros E g ov s coll H. exists g. unfold find_overload in *. rewrite E. auto. Qed.

Lemma find_overload_mock w g ov s coll :
  find_overload w g ov = inr (s, coll) <->
  exists sigs cs, nth_error (w_mocks w) g = Some (mkMock sigs (Some cs) true) /\ nth_error sigs ov = Some s /\ nth_error cs ov = Some coll.
Proof.
  unfold find_overload. split.
  - destruct (nth_error (w_mocks w) g) as [[sigs cs al]|]; [|discriminate]. cbn. destruct al; [|discriminate]. cbn.
    destruct (nth_error sigs ov) as [s'|] eqn:E1; [|discriminate]. destruct cs as [cs|]; [|discriminate].
    destruct (nth_error cs ov) as [c|] eqn:E2; [|discriminate]. intros H. inversion H; subst. eauto.
  - intros (sigs & cs & E & E1 & E2). rewrite E. cbn. rewrite E1, E2. auto.
Qed.

Lemma keeps_app w w' l : w_mocks w' = w_mocks w ++ l -> keeps w w'.
Proof.
  intros E g ov s coll H. exists g. apply find_overload_mock in H. destruct H as (sigs & cs & H & H1 & H2). apply find_overload_mock.
  exists sigs, cs. rewrite E. rewrite nth_error_app1; auto. eapply nth_error_lt; eauto.
Qed.

(** Mock [m] is emptied (or worse) after its contents were moved to a new mock. *)
Lemma keeps_moved w w' m mk y : nth_error (w_mocks w) m = Some mk -> w_mocks w' = upd (w_mocks w) m y ++ [mkMock (mk_sigs mk) (mk_colls mk) true] -> keeps w w'.
Proof.
  intros Hm E g ov s coll H. apply find_overload_mock in H. destruct H as (sigs & cs & H & H1 & H2).
  destruct (Nat.eq_dec m g) as [->|Hne].
  - exists (length (w_mocks w)). apply find_overload_mock. exists sigs, cs. rewrite E, H in *. injection Hm as <-. cbn.
    rewrite nth_error_app2 by (rewrite length_upd; auto). rewrite length_upd, Nat.sub_diag. auto.
  - exists g. apply find_overload_mock. exists sigs, cs. rewrite E. rewrite nth_error_app1 by (rewrite length_upd; eapply nth_error_lt; eauto).
    rewrite nth_error_upd_neq by auto. auto.
Qed.

Lemma keeps_moved_onto w w' d s md ms y z : nth_error (w_mocks w) d = Some md -> nth_error (w_mocks w) s = Some ms -> d <> s ->
  mk_alive ms = true ->
  w_mocks w' = upd (upd (upd (w_mocks w) d y ++ [mkMock (mk_sigs md) (mk_colls md) true]) s z) d (mkMock (mk_sigs ms) (mk_colls ms) true) -> keeps w w'.
Proof.
  intros Hd Hs Hne Ha E g ov sg coll H. pose proof (nth_error_lt _ _ _ Hd) as Ld. pose proof (nth_error_lt _ _ _ Hs) as Ls.
  apply find_overload_mock in H. destruct H as (sigs & cs & H & H1 & H2).
  pose proof (nth_error_lt _ _ _ H) as Lg.
  destruct (Nat.eq_dec d g) as [->|Hdg]; [|destruct (Nat.eq_dec s g) as [->|Hsg]].
  - exists (length (w_mocks w)). apply find_overload_mock. exists sigs, cs. rewrite E. rewrite !nth_error_upd_neq by lia.
    rewrite nth_error_app2 by (rewrite length_upd; auto). rewrite length_upd, Nat.sub_diag. rewrite Hd in H. injection H as ->. auto.
  - exists d. apply find_overload_mock. exists sigs, cs. rewrite E. rewrite nth_error_upd_eq by (rewrite length_upd, app_length, length_upd; simpl; lia).
    rewrite Hs in H. injection H as ->. auto.
  - exists g. apply find_overload_mock. exists sigs, cs. rewrite E. rewrite !nth_error_upd_neq by auto.
    rewrite nth_error_app1 by (rewrite length_upd; auto). rewrite nth_error_upd_neq by auto. auto.
Qed.

Definition skip (rho : nat -> nat) (n n1 : nat) (i : nat) : nat := if i <? n then rho i else S n1 + (i - n).
Lemma rel_ghost {A} rho (l l1 : list A) g : rel rho (fun _ => true) l l1 -> rel (skip rho (length l) (length l1)) (fun _ => true) l (l1 ++ [g]).
Proof.
  intros R. unfold skip.
  assert (B : forall i, i < length l -> rho i < length l1).
  { intros i Hi. destruct (nth_error_ex _ _ Hi) as [x Hx]. rewrite <- (r_nth _ _ _ _ R _ eq_refl) in Hx. eapply nth_error_lt; eauto. }
  constructor.
  - intros i _. destruct (Nat.ltb_spec i (length l)) as [Hi|Hi].
    + rewrite nth_error_app1 by auto. apply (r_nth _ _ _ _ R); auto.
    + rewrite (proj2 (nth_error_None l i)) by auto. apply nth_error_None. rewrite app_length. simpl. lia.
  - intros i j _ _. destruct (Nat.ltb_spec i (length l)) as [Hi|Hi], (Nat.ltb_spec j (length l)) as [Hj|Hj]; intros E.
    + apply (r_inj _ _ _ _ R); auto.
    + apply B in Hi. lia.
    + apply B in Hj. lia.
    + lia.
  - intros i Hi. split; auto. destruct (Nat.ltb_spec i (length l)); [lia|]. rewrite app_length. simpl. lia.
Qed.

Lemma rename_sim rho w w1 o w' r : named rho w w1 -> step w o = Next w' r ->
  exists w1', step w1 (rename rho (fun i => i) o) = Next w1' r /\ named rho w' w1'.
Proof.
  intros S H. pose proof (sim_step _ _ _ _ _ _ o S) as SS. rewrite H in SS.
  assert (T : forall l : list nat, forallb (fun _ => true) l = true) by (induction l; auto).
  specialize (SS (T _) (T _)). destruct (step w1 _) as [w1' r1| |u|]; simpl in SS; try contradiction. destruct SS as [S' <-]. eauto.
Qed.

Lemma upd_app_l {A} (l l' : list A) i x : i < length l -> upd (l ++ l') i x = upd l i x ++ l'.
Proof. revert i. induction l as [|a l IH]; intros [|i] H; simpl in *; try lia; auto. f_equal. apply IH. lia. Qed.

Lemma named_lt rho w w1 m mk : named rho w w1 -> nth_error (w_mocks w) m = Some mk ->
  nth_error (w_mocks w1) (rho m) = Some mk /\ m < length (w_mocks w) /\ rho m < length (w_mocks w1).
Proof.
  intros (ms & hs & -> & Rm & _) H. cbn [w_mocks put]. rewrite (r_nth _ _ _ _ Rm _ eq_refl). split; auto.
  split; [eapply nth_error_lt; eauto|]. rewrite <- (r_nth _ _ _ _ Rm m eq_refl) in H. eapply nth_error_lt; eauto.
Qed.

(** Every operation of a program can be imitated by one in which no place for expectations gets lost. *)
Lemma twin_step rho w w1 o w' r : named rho w w1 -> step w o = Next w' r ->
  exists rho' ops w1', run w1 ops w1' /\ named rho' w' w1' /\ keeps w1 w1'.
Proof.
  intros S H.
  assert (Plain : (exists m, o = ODestroyMock m) \/ (exists d s, o = OMoveAssignMock d s /\ d <> s) \/
                  (forall y y' rr, step y (rename rho (fun i => i) o) = Next y' rr -> keeps y y')).
  { destruct o; try (right; right; intros y y' rr Hx; apply step_mocks in Hx; inversion Hx; subst;
      solve [apply keeps_same; auto | eapply keeps_app; eauto | eapply keeps_moved; eauto]).
    - destruct (Nat.eq_dec dst src) as [->|]; [|eauto 6]. right; right. intros y y' rr Hx. apply step_mocks in Hx; inversion Hx; subst; [lia|].
      apply keeps_same; auto.
    - eauto. }
  destruct Plain as [[m ->]|[(d & s & -> & Hne)|Pl]].
  - cbn [step] in H. destruct (nth_error (w_mocks w) m) as [mk|] eqn:Hm; [|discriminate].
    destruct (mk_alive mk) eqn:Ha; [|discriminate]. injection H as <- <-.
    destruct (named_lt _ _ _ _ _ S Hm) as (Hm1 & L & L1).
    exists (skip rho (length (w_mocks w)) (length (w_mocks w1))), [OMoveMock (rho m); ODestroyMock (rho m)]. eexists. split; [|split].
    + econstructor; [cbn [step]; rewrite Hm1, Ha; reflexivity|]. econstructor; [|constructor]. cbn [step w_mocks set_mocks].
      rewrite nth_error_app1 by (rewrite length_upd; auto). rewrite nth_error_upd_eq by auto. reflexivity.
    + destruct S as (ms & hs & -> & Rm & Rh). eexists. eexists. split; [reflexivity|]. cbn [w_mocks put set_mocks mk_sigs w_scoped] in *.
      split; auto. rewrite upd_app_l by (rewrite length_upd; auto). rewrite upd_upd.
      pose proof (rel_upd _ _ _ _ m (mkMock (mk_sigs mk) None false) Rm eq_refl L) as R2.
      apply (rel_ghost _ _ _ (mkMock (mk_sigs mk) (mk_colls mk) true)) in R2. rewrite !length_upd in R2. exact R2.
    + cbn [w_mocks set_mocks]. eapply keeps_moved; [exact Hm1|]. cbn [w_mocks set_mocks]. rewrite upd_app_l by (rewrite length_upd; auto). rewrite upd_upd. reflexivity.
  - cbn [step] in H. destruct (nth_error (w_mocks w) d) as [md|] eqn:Hd; [|discriminate]. destruct (nth_error (w_mocks w) s) as [mss|] eqn:Hs; [|discriminate].
    destruct (mk_alive md) eqn:Ha1; [|discriminate]. destruct (mk_alive mss) eqn:Ha2; [|discriminate].
    destruct (list_eq_dec signature_eq_dec (mk_sigs md) (mk_sigs mss)) as [Hsig|]; [|discriminate]. cbn [andb negb] in H.
    rewrite (proj2 (Nat.eqb_neq _ _) Hne) in H. injection H as <- <-.
    destruct (named_lt _ _ _ _ _ S Hd) as (Hd1 & L & L1). destruct (named_lt _ _ _ _ _ S Hs) as (Hs1 & K & K1).
    assert (Hne1 : rho d <> rho s).
    { intros E. apply Hne. destruct S as (ms & hs & _ & Rm & _). apply (r_inj _ _ _ _ Rm); auto. }
    exists (skip rho (length (w_mocks w)) (length (w_mocks w1))), [OMoveMock (rho d); OMoveAssignMock (rho d) (rho s)]. eexists. split; [|split].
    + econstructor; [cbn [step]; rewrite Hd1, Ha1; reflexivity|]. econstructor; [|constructor]. cbn [step w_mocks set_mocks].
      rewrite !nth_error_app1 by (rewrite length_upd; auto). rewrite nth_error_upd_eq by auto. rewrite nth_error_upd_neq by auto. rewrite Hs1.
      cbn [mk_alive mk_sigs]. rewrite Ha2. destruct (list_eq_dec signature_eq_dec (mk_sigs md) (mk_sigs mss)) as [_|]; [|contradiction].
      cbn [andb negb]. rewrite (proj2 (Nat.eqb_neq _ _) Hne1). reflexivity.
    + destruct S as (ms & hs & -> & Rm & Rh). eexists. eexists. split; [reflexivity|]. cbn [w_mocks put set_mocks mk_sigs w_scoped] in *.
      split; auto. rewrite upd_app_l by (rewrite length_upd; auto). rewrite upd_app_l by (rewrite !length_upd; auto).
      assert (Sw : upd (upd (upd ms (rho d) (mkMock (mk_sigs md) None true)) (rho s) (mkMock (mk_sigs mss) None true)) (rho d) (mkMock (mk_sigs mss) (mk_colls mss) true)
                   = upd (upd ms (rho s) (mkMock (mk_sigs mss) None true)) (rho d) (mkMock (mk_sigs mss) (mk_colls mss) true)).
      { apply nth_error_ext_eq; [rewrite !length_upd; auto|]. intros i. destruct (Nat.eq_dec (rho d) i) as [<-|N1].
        - rewrite !nth_error_upd_eq; auto; rewrite !length_upd; auto.
        - rewrite !(nth_error_upd_neq _ (rho d)) by auto. destruct (Nat.eq_dec (rho s) i) as [<-|N2].
          + rewrite !nth_error_upd_eq; auto; rewrite !length_upd; auto.
          + rewrite !nth_error_upd_neq; auto. }
      rewrite Sw. pose proof (rel_upd _ _ _ _ s (mkMock (mk_sigs mss) None true) Rm eq_refl K) as R2.
      eapply rel_upd with (i := d) in R2; [|reflexivity|rewrite length_upd; exact L].
      apply (rel_ghost _ _ _ (mkMock (mk_sigs md) (mk_colls md) true)) in R2. rewrite !length_upd in R2. exact R2.
    + cbn [w_mocks set_mocks]. eapply keeps_moved_onto; [exact Hd1|exact Hs1| | |]; auto. cbn [w_mocks set_mocks]. reflexivity.
  - destruct (rename_sim _ _ _ _ _ _ S H) as (w1' & H1 & S1). exists rho, [rename rho (fun i => i) o], w1'.
    split; [eapply run_one; eauto|]. split; eauto.
Qed.

(** ** Builders and expressions *)

Definition clause_static (n : nat) (cl : clause) : bool :=
  match cl with
  | ClSeq tags => negb (length tags =? 0)
  | ClPolicy p => policy_ok n p
  | ClTimes t => times_expr_int t
  | ClFinal _ => true
  end.

Lemma clause_ok_split w n cl : clause_ok w n cl = clause_static n cl && forallb (fun s => nth s (w_iface w) false) (clause_seqs [cl]).
Proof.
  destruct cl; cbn; rewrite ?andb_true_r, ?app_nil_r; auto. apply andb_comm.
Qed.

Lemma builder_ands_app cls : forall b cls', builder_ands b (cls ++ cls') = bbind (builder_ands b cls) (fun b' => builder_ands b' cls').
Proof.
  induction cls as [|cl cls IH]; intros b cls'; auto. cbn [app builder_ands]. destruct (builder_and b cl); cbn [bbind]; auto.
Qed.

Lemma builder_and_viable b cl b' : builder_and b cl = BOk b' ->
  viable (b_times_configured b) (b_finalized b) [cl] = true /\
  forall cls, viable (b_times_configured b) (b_finalized b) (cl :: cls) = viable (b_times_configured b') (b_finalized b') cls.
Proof.
  destruct cl as [t|tags|f|p]; cbn [builder_and viable].
  - destruct (b_times_configured b); [discriminate|]. destruct (of_outcome (eval_times t)); cbn [bbind]; try discriminate. intros H. injection H as <-. auto.
  - destruct (of_outcome (config_make tags)); cbn [bbind]; try discriminate. destruct (of_outcome _); cbn [bbind]; try discriminate.
    intros H. injection H as <-. auto.
  - destruct f; try discriminate; destruct (b_finalized b); try discriminate; intros H; injection H as <-; auto.
  - intros H. injection H as <-. auto.
Qed.

Lemma builder_ands_viable cls : forall b b', builder_ands b cls = BOk b' ->
  forall cls', viable (b_times_configured b) (b_finalized b) (cls ++ cls') = viable (b_times_configured b') (b_finalized b') cls'.
Proof.
  induction cls as [|cl cls IH]; intros b b' H cls'; cbn [builder_ands app] in *; [injection H as <-; auto|].
  destruct (builder_and b cl) as [b1|x|] eqn:E; cbn [bbind] in H; try discriminate.
  destruct (builder_and_viable _ _ _ E) as [_ V]. rewrite V. apply IH; auto.
Qed.

Lemma ands_policies_flags cls : forall b b', builder_ands b cls = BOk b' -> forallb (fun cl => match cl with ClPolicy _ => true | _ => false end) cls = true ->
  b_times_configured b' = b_times_configured b /\ b_finalized b' = b_finalized b.
Proof.
  induction cls as [|cl cls IH]; intros b b' H P; cbn [builder_ands] in H; [injection H as <-; auto|].
  cbn [forallb] in P. apply andb_true_iff in P. destruct P as [P1 P2]. destruct cl; try discriminate. cbn [builder_and bbind] in H.
  apply IH in H; auto.
Qed.

Lemma args_are_policies ms : forall i, forallb (fun cl => match cl with ClPolicy _ => true | _ => false end) (arg_policies i ms) = true.
Proof. induction ms; intros i; cbn; auto. Qed.

Lemma frontend_flags s ms b : frontend_builder s ms = BOk b -> b_times_configured b = false /\ b_finalized b = false.
Proof.
  intros H. unfold frontend_builder in H. apply ands_policies_flags in H; [cbn in H; auto|]. rewrite forallb_app, args_are_policies. auto.
Qed.

Lemma ands_policies_ok cls : forall b, forallb (fun cl => match cl with ClPolicy _ => true | _ => false end) cls = true -> exists b', builder_ands b cls = BOk b'.
Proof.
  induction cls as [|cl cls IH]; intros b H; [eexists; reflexivity|]. cbn [forallb] in H. apply andb_true_iff in H. destruct H as [H1 H2].
  destruct cl; try discriminate. cbn [builder_ands builder_and bbind]. apply IH; auto.
Qed.
Lemma frontend_ok s ms : exists b, frontend_builder s ms = BOk b.
Proof. apply ands_policies_ok. rewrite forallb_app, args_are_policies. auto. Qed.

Lemma build_nil s ms b : frontend_builder s ms = BOk b -> build s ms [] = BOk b.
Proof. intros H. unfold build. cbn [viable]. rewrite H. reflexivity. Qed.

Lemma build_snoc s ms cls cl b b' : build s ms cls = BOk b -> builder_and b cl = BOk b' -> build s ms (cls ++ [cl]) = BOk b'.
Proof.
  unfold build. intros H H'. destruct (viable false false cls) eqn:V; [|discriminate].
  destruct (frontend_builder s ms) as [b0|x|] eqn:E; cbn [bbind] in *; try discriminate.
  destruct (frontend_flags _ _ _ E) as [F1 F2]. pose proof (builder_ands_viable _ _ _ H [cl]) as W. rewrite F1, F2 in W. rewrite W.
  rewrite (proj1 (builder_and_viable _ _ _ H')). rewrite builder_ands_app, H. cbn [bbind builder_ands]. rewrite H'. reflexivity.
Qed.

(** Finalizing a builder is the rest of the evaluation of its expression. *)
Definition attach (w : world) (s : signature) (ov coll : nat) (bd : builder) (l : loc) : stepped :=
  match control_new (w_seqs w) (b_times bd) (b_seqs bd) with
  | Throw x => Next w (RThrow x)
  | Terminate => Stop
  | Undef u => Wrong u
  | Ret (ss, ctl) =>
      match nth_error (w_colls w) coll with
      | None => Wrong UbDangling
      | Some members => Next (new_world w coll members ss (mkEObj (mkExp l ctl (b_policies bd) (b_final bd)) coll true ov s)) RUnit
      end
  end.

Lemma expect_attach w g ov s coll ms cls bd l :
  find_overload w g ov = inr (s, coll) -> length ms = length (sg_params s) -> forallb (clause_ok w (length (sg_params s))) cls = true ->
  build s ms cls = BOk bd -> finalize_ok s bd = true -> step w (OExpect g ov ms cls l) = attach w s ov coll bd l.
Proof.
  intros F L C B Fi. cbn [step]. unfold do_expect, attach. rewrite F, L, Nat.eqb_refl, C. cbn [andb negb]. rewrite B, Fi. cbn [negb].
  destruct (control_new (w_seqs w) (b_times bd) (b_seqs bd)) as [[ss ctl]|x| |u]; auto.
Qed.

Lemma finalize_attach b k l o coll : nth_error (bw_builders b) k = Some o -> bo_alive o = true -> finalize_ok (bo_sig o) (bo_members o) = true ->
  bo_null o = false -> bo_storage o = Some coll ->
  bstep b (BFinalize k l) = blift (set_builders b (upd (bw_builders b) k (used_up o))) (attach (bw b) (bo_sig o) (bo_ov o) coll (bo_members o) l).
Proof.
  intros H A F N St. cbn [bstep]. unfold do_bfinalize, attach. rewrite H, A, F, N, St. cbn [andb negb].
  destruct (control_new _ _ _) as [[ss ctl]|x| |u]; auto. destruct (nth_error (w_colls (bw b)) coll); auto.
Qed.

(** ** The invariant *)

Record bobj_ok (o : bobj) : Prop := mkBObjOk {
  ok_nodup : NoDup (b_seqs (bo_members o));
  ok_full : forall coll, bo_storage o = Some coll -> bo_alive o = true /\ bo_null o = false;
  ok_built : exists ms cls, length ms = length (sg_params (bo_sig o)) /\ forallb (clause_static (length (sg_params (bo_sig o)))) cls = true /\
      build (bo_sig o) ms cls = BOk (bo_members o)
}.

Record BInv (b : bworld) (extra : list nat) : Prop := mkBInv {
  bi_len : length (bw_user b) = length (w_iface (bw b));
  bi_iface : forall s, nth s (w_iface (bw b)) false = nth s (bw_user b) false || held b s || existsb (Nat.eqb s) extra;
  bi_objs : forall o, In o (bw_builders b) -> bobj_ok o
}.

Definition places (b : bworld) (w1 : world) : Prop :=
  forall o, In o (bw_builders b) -> exists g coll, find_overload w1 g (bo_ov o) = inr (bo_sig o, coll) /\ forall c, bo_storage o = Some c -> c = coll.
Definition twin (b : bworld) (w1 : world) : Prop :=
  (exists rho, named rho (bw b) w1) /\ places b w1.

Lemma place_of b w1 o coll : places b w1 -> In o (bw_builders b) -> bo_storage o = Some coll -> exists g, find_overload w1 g (bo_ov o) = inr (bo_sig o, coll).
Proof. intros P Hin St. destruct (P o Hin) as (g & c & Hg & E). rewrite (E _ St). eauto. Qed.

(** A place for a builder which got its overload, and at most its storage, from another one. *)
Lemma places_like b w1 o y : places b w1 -> In o (bw_builders b) -> bo_ov y = bo_ov o -> bo_sig y = bo_sig o ->
  (bo_storage y = None \/ bo_storage y = bo_storage o) ->
  exists g coll, find_overload w1 g (bo_ov y) = inr (bo_sig y, coll) /\ forall c, bo_storage y = Some c -> c = coll.
Proof.
  intros P Hin Eo Es St. destruct (P o Hin) as (g & c & Hg & E). exists g, c. rewrite Eo, Es. split; auto. destruct St as [->| ->]; auto. discriminate.
Qed.
Lemma places_keep b w1 w2 : places b w1 -> keeps w1 w2 -> forall o, In o (bw_builders b) ->
  exists g coll, find_overload w2 g (bo_ov o) = inr (bo_sig o, coll) /\ forall c, bo_storage o = Some c -> c = coll.
Proof. intros P K o Hin. destruct (P o Hin) as (g & c & Hg & E). destruct (K _ _ _ _ Hg) as [g' Hg']. eauto. Qed.

Lemma step_iface w o w' r : step w o = Next w' r ->
  w_iface w' = match o with ONewSeq _ => w_iface w ++ [true] | ODropSeq s => upd (w_iface w) s false | _ => w_iface w end.
Proof.
  intros H. assert (End : forall x e x' r', end_expectation x e = Next x' r' -> w_iface x' = w_iface x).
  { intros x e x' r' E. apply end_expectation_next in E. destruct E as (eo & l & unf & evs & d' & _ & _ & _ & _ & -> & _). auto. }
  destruct o; cbn [step] in H.
  - injection H as <- <-. auto.
  - destruct (nth s (w_iface w) false); [|discriminate]. apply release_seq_next in H. destruct H as [-> [[-> _]|(_ & _ & q & _ & -> & _)]]; auto.
  - destruct (_ && _); [|discriminate]. injection H as <- <-. auto.
  - destruct (nth_error (w_mocks w) m) as [mk|]; [|discriminate]. destruct (negb _); [discriminate|]. injection H as <- <-. auto.
  - destruct (nth_error (w_mocks w) dst) as [md|]; [|discriminate]. destruct (nth_error (w_mocks w) src) as [mss|]; [|discriminate].
    destruct (negb _); [discriminate|]. destruct (dst =? src); injection H as <- <-; auto.
  - destruct (nth_error (w_mocks w) m) as [mk|]; [|discriminate]. destruct (negb _); [discriminate|]. injection H as <- <-. auto.
  - apply do_expect_next in H. destruct H as (s & coll & Hf & Hlen & Hok & [(x & Hb & -> & ->)|(b & ss & ctl & mem & Hb & Hfin & Hc & Hm & -> & ->)]); auto.
  - apply do_call_next in H. destruct H as (s & coll & Hf & Hlen & H). apply handle_call_next in H. destruct H as (lst & es & ml & Hl & Hes & Hml & Hcr).
    inversion Hcr; subst; auto.
  - unfold do_action in H. destruct (w_frames w) as [|f fs]; [discriminate|]. destruct (f_todo f); [discriminate|]. destruct (negb _); [discriminate|].
    injection H as <- <-. auto.
  - destruct (w_frames w); [discriminate|]. destruct (_ && _); discriminate.
  - unfold do_final in H. destruct (w_frames w) as [|f fs]; [discriminate|]. destruct (f_todo f); [|discriminate]. destruct (f_final f); [discriminate|].
    destruct (negb _); [discriminate|]. injection H as <- <-. auto.
  - unfold do_return in H. destruct (w_frames w) as [|f fs]; [discriminate|]. destruct (negb _); [discriminate|]. destruct (nth_error _ _); [|discriminate].
    destruct (finalizer_result _ _); [|unfold thrown in H; destruct (f_noexcept f); [discriminate|]]; injection H as <- <-; auto.
  - destruct (nth_error (w_scoped w) h) as [[e| |]|]; try discriminate. destruct (nth_error (w_exps w) e) as [eo|]; [|discriminate].
    destruct (eo_alive eo); [|discriminate]. injection H as <- <-. auto.
  - destruct (nth_error (w_scoped w) h) as [[e| |]|]; try discriminate; [apply End in H; auto|injection H as <- <-; auto].
  - destruct (nth_error (w_scoped w) h) as [[e| |]|]; try discriminate; injection H as <- <-; auto.
  - destruct (nth_error (w_scoped w) dst) as [[e| |]|], (nth_error (w_scoped w) src) as [[e'| |]|]; try discriminate; destruct (dst =? src);
      try (injection H as <- <-; auto; fail);
      destruct (end_expectation _ e) as [w2 r2| | |] eqn:He in H; try discriminate; (assert (w2 = w') by (destruct r2; inversion H; auto)); subst; apply End in He; auto.
  - injection H as <- <-. auto.
  - injection H as <- <-. auto.
Qed.

Lemma run_reachable w1 ops w2 : reachable w1 -> run w1 ops w2 -> reachable w2.
Proof. apply reachable_run. Qed.

Lemma twin_next b w1 o w' r : twin b w1 -> step (bw b) o = Next w' r -> exists ops w2, run w1 ops w2 /\ twin (set_bw b w') w2.
Proof.
  intros ((rho & S) & Hp) H. destruct (twin_step _ _ _ _ _ _ S H) as (rho' & ops & w2 & R & S2 & K). exists ops, w2. split; auto.
  split; [exists rho'; exact S2|]. intros ob Hin. eapply places_keep; eauto.
Qed.

Lemma twin_fails b w1 o : twin b w1 -> (step (bw b) o = Stop -> exists o1, step w1 o1 = Stop) /\ (forall u, step (bw b) o = Wrong u -> exists o1, step w1 o1 = Wrong u).
Proof.
  intros ((rho & S) & Hp). pose proof (sim_step _ _ _ _ _ _ o S) as SS.
  assert (T : forall l : list nat, forallb (fun _ => true) l = true) by (induction l; auto).
  specialize (SS (T _) (T _)). split.
  - intros E. rewrite E in SS. exists (rename rho (fun i => i) o). destruct (step w1 _); simpl in SS; try contradiction; auto.
  - intros u E. rewrite E in SS. exists (rename rho (fun i => i) o). destruct (step w1 _); simpl in SS; try contradiction; subst; auto.
Qed.

(** What the twin does while the program with builders executes an operation with the given outcome. *)
Definition imitates (w1 : world) (res : bstepped) : Prop :=
  match res with
  | BNext b' _ => BInv b' [] /\ exists ops w2, run w1 ops w2 /\ twin b' w2
  | BStop => exists ops w2 o, run w1 ops w2 /\ step w2 o = Stop
  | BWrong u => exists ops w2 o, run w1 ops w2 /\ step w2 o = Wrong u
  | BInvalid => True
  end.

Lemma nth_upd_false k l s : nth k (upd l s false) false = if k =? s then false else nth k l false.
Proof.
  revert k s. induction l as [|a l IH]; intros [|k] [|s]; cbn; auto. destruct (k =? s); auto.
Qed.

Lemma release_share_ok b w1 s l : BInv b (s :: l) -> NoDup (s :: l) -> twin b w1 ->
  match release_share b s with
  | BNext b' _ => BInv b' l /\ bw_user b' = bw_user b /\ bw_builders b' = bw_builders b /\ exists ops w2, run w1 ops w2 /\ twin b' w2
  | BStop => exists o, step w1 o = Stop
  | BWrong u => exists o, step w1 o = Wrong u
  | BInvalid => False
  end.
Proof.
  intros I N T. unfold release_share. destruct (nth s (bw_user b) false || held b s) eqn:E.
  - split; [|split; [auto|split; [auto|exists [], w1; split; [constructor|auto]]]].
    constructor; [apply I| |apply I]. intros k. rewrite (bi_iface _ _ I). cbn [existsb]. destruct (Nat.eqb_spec k s) as [->|]; auto.
    rewrite E. auto.
  - destruct (step (bw b) (ODropSeq s)) as [w' r| |u|] eqn:Hs; cbn [blift].
    + split; [|split; [auto|split; [auto|eapply twin_next; eauto]]]. pose proof (step_iface _ _ _ _ Hs) as Ei. cbn in Ei.
      constructor; [cbn; rewrite Ei, length_upd; apply I| |apply I]. intros k. cbn [set_bw bw bw_user]. rewrite Ei, nth_upd_false.
      change (held (set_bw b w') k) with (held b k). destruct (Nat.eqb_spec k s) as [->|Hne].
      * inversion N; subst. rewrite E. cbn. symmetry. apply not_true_is_false. intros X. apply existsb_exists in X. destruct X as (y & Y1 & Y2).
        apply Nat.eqb_eq in Y2. subst. auto.
      * rewrite (bi_iface _ _ I). cbn [existsb]. rewrite (proj2 (Nat.eqb_neq _ _) Hne). auto.
    + eapply twin_fails; eauto.
    + eapply twin_fails; eauto.
    + cbn [step] in Hs. rewrite (bi_iface _ _ I) in Hs. cbn [existsb] in Hs. rewrite Nat.eqb_refl, orb_true_r in Hs.
      unfold release_seq in Hs. destruct (_ || _) in Hs; [discriminate|]. destruct (nth_error _ _) in Hs; [|discriminate].
      destruct (seq_dtor_error _) as [[]|] in Hs; [|discriminate]. destruct (react _ _) in Hs; discriminate.
Qed.

Lemma release_shares_valid l : forall b w1, BInv b l -> NoDup l -> twin b w1 -> release_shares b l <> BInvalid.
Proof.
  induction l as [|s l IH]; intros b w1 I N T; cbn [release_shares]; [discriminate|].
  pose proof (release_share_ok _ _ _ _ I N T) as H. destruct (release_share b s) as [b' r| |u|]; try discriminate; [|contradiction].
  destruct H as (I' & _ & _ & ops & w2 & _ & T2). inversion N; subst. eapply IH; eauto.
Qed.

Lemma release_shares_ok l : forall b w1, BInv b l -> NoDup l -> twin b w1 -> imitates w1 (release_shares b l).
Proof.
  induction l as [|s l IH]; intros b w1 I N T; cbn [release_shares].
  - split; auto. exists [], w1. split; [constructor|auto].
  - pose proof (release_share_ok _ _ _ _ I N T) as H. destruct (release_share b s) as [b' r| |u|]; cbn [imitates].
    + destruct H as (I' & _ & _ & ops & w2 & R & T2). inversion N; subst. specialize (IH b' w2 I' H2 T2).
      destruct (release_shares b' l) as [b2 r2| |u|]; cbn [imitates] in *; auto.
      * destruct IH as (I2 & ops2 & w3 & R2 & T3). split; auto. exists (ops ++ ops2), w3. split; auto. eapply run_app; eauto.
      * destruct IH as (ops2 & w3 & o & R2 & T3). exists (ops ++ ops2), w3, o. split; auto. eapply run_app; eauto.
      * destruct IH as (ops2 & w3 & o & R2 & T3). exists (ops ++ ops2), w3, o. split; auto. eapply run_app; eauto.
    + destruct H as [o H]. exists [], w1, o. split; [constructor|auto].
    + destruct H as [o H]. exists [], w1, o. split; [constructor|auto].
    + contradiction.
Qed.

(** A builder without storage is extended or finalized. *)
Definition spent (b : bworld) (o : bop) : Prop :=
  exists k ob, ((exists cl, o = BAnd k cl) \/ exists l, o = BFinalize k l) /\ nth_error (bw_builders b) k = Some ob /\ bo_alive ob = true /\
    bo_storage ob = None.

Lemma existsb_upd_or {A} (f : A -> bool) l k x x' : nth_error l k = Some x -> existsb f (upd l k x') || f x = existsb f l || f x'.
Proof.
  revert k. induction l as [|a l IH]; intros [|k] H; cbn in *; try discriminate.
  - injection H as ->. destruct (f x), (f x'), (existsb f l); auto.
  - specialize (IH k H). destruct (f a); auto.
Qed.

Lemma in_upd {A} (l : list A) k x y : In y (upd l k x) -> In y l \/ y = x.
Proof.
  revert k. induction l as [|a l IH]; intros [|k] H; cbn in *; auto; destruct H as [H|H]; auto. destruct (IH _ H); auto.
Qed.

Definition holding (s : nat) (o : bobj) : bool := existsb (Nat.eqb s) (holds o).

Lemma moved_holds o s : holding s (moved_from o) = false.
Proof. unfold holding, holds, moved_from. cbn. rewrite andb_false_r. auto. Qed.
Lemma used_holds o s : holding s (used_up o) = holding s o.
Proof. reflexivity. Qed.

Lemma bobj_spent_ok o o' : bobj_ok o -> bo_members o' = bo_members o -> bo_sig o' = bo_sig o -> bo_storage o' = None -> bobj_ok o'.
Proof. intros [N _ B] Em Eg Es. constructor; [rewrite Em; auto| |rewrite Em, Eg; auto]. intros coll E. congruence. Qed.

Lemma inv_expect_ok b o : BInv b [] -> In o (bw_builders b) -> bo_alive o = true -> bo_null o = false \/ b_seqs (bo_members o) = [] ->
  exists ms cls, length ms = length (sg_params (bo_sig o)) /\ forallb (clause_ok (bw b) (length (sg_params (bo_sig o)))) cls = true /\
    build (bo_sig o) ms cls = BOk (bo_members o).
Proof.
  intros I Hin A N. destruct (ok_built _ (bi_objs _ _ I _ Hin)) as (ms & cls & L & C & B). exists ms, cls. split; auto. split; auto.
  assert (Ti : forall t, In (ClTimes t) cls -> times_expr_int t = true).
  { intros t Ht. rewrite forallb_forall in C. apply (C _ Ht). }
  pose proof (build_ok _ _ _ _ B Ti) as (_ & Es & _).
  apply forallb_forall. intros cl Hcl. rewrite clause_ok_split. rewrite forallb_forall in C. rewrite (C _ Hcl). cbn [andb].
  apply forallb_forall. intros s Hs. rewrite (bi_iface _ _ I).
  assert (Hh : held b s = true); [|rewrite Hh, orb_true_r; auto].
  assert (Hcs : In s (clause_seqs cls)).
  { unfold clause_seqs in *. apply in_flat_map. exists cl. split; auto. cbn [flat_map] in Hs. rewrite app_nil_r in Hs. auto. }
  destruct N as [N|N]; [|exfalso; rewrite Es in N; rewrite N in Hcs; destruct Hcs].
  unfold held. apply existsb_exists. exists o. split; auto. unfold holds. rewrite A, N. cbn [andb negb]. rewrite Es.
  apply existsb_exists. exists s. split; [auto|apply Nat.eqb_refl].
Qed.

Lemma named_attach rho w w1 s ov coll bd l g : named rho w w1 -> find_overload w1 g ov = inr (s, coll) ->
  match attach w s ov coll bd l with
  | Next w' r => exists w1', attach w1 s ov coll bd l = Next w1' r /\ named rho w' w1' /\ keeps w1 w1'
  | other => attach w1 s ov coll bd l = other
  end.
Proof.
  intros (ms & hs & -> & Rm & Rh) F. unfold attach. change (w_seqs (put ms hs w)) with (w_seqs w). change (w_colls (put ms hs w)) with (w_colls w).
  destruct (control_new (w_seqs w) (b_times bd) (b_seqs bd)) as [[ss ctl]|x| |u]; auto.
  - destruct (nth_error (w_colls w) coll); auto. eexists. split; [reflexivity|]. split; [|apply keeps_same; reflexivity].
    eexists. eexists. split; [reflexivity|]. split; auto. apply rel_snoc; auto.
  - eexists. split; [reflexivity|]. split; [exists ms, hs; auto|apply keeps_refl].
Qed.

Lemma twin_bstep b w1 o : BInv b [] -> twin b w1 ->
  imitates w1 (bstep b o) \/ (spent b o /\ forall b' r, bstep b o <> BNext b' r).
Proof.
  intros I T.
  assert (Stay : forall r, imitates w1 (BNext b r)) by (intros r; split; auto; exists [], w1; split; [constructor|auto]).
  assert (Lift : forall o', (forall st, o' <> ONewSeq st) -> (forall s, o' <> ODropSeq s) -> imitates w1 (blift b (step (bw b) o'))).
  { intros o' N1 N2. destruct (step (bw b) o') as [w' r| |u|] eqn:E; cbn [blift imitates]; auto.
    - split; [|eapply twin_next; eauto]. pose proof (step_iface _ _ _ _ E) as Ei. assert (Ei' : w_iface w' = w_iface (bw b)).
      { destruct o'; auto; [exfalso; eapply N1|exfalso; eapply N2]; eauto. }
      constructor; [cbn; rewrite Ei'; apply I| |apply I]. intros s. cbn [set_bw bw bw_user]. rewrite Ei'. apply (bi_iface _ _ I).
    - destruct (proj1 (twin_fails _ _ o' T) E) as [o1 H1]. exists [], w1, o1. split; [constructor|auto].
    - destruct (proj2 (twin_fails _ _ o' T) _ E) as [o1 H1]. exists [], w1, o1. split; [constructor|auto]. }
  destruct o as [o|m ov ms|k cl|k|dst src|k|k l].
  - left. destruct o; try (apply Lift; discriminate).
    + cbn [bstep]. pose proof (step_iface (bw b) (ONewSeq st) _ _ eq_refl) as Ei.
      destruct (twin_next b w1 (ONewSeq st) _ _ T eq_refl) as (ops & w2 & R & T2).
      cbn [step blift imitates]. cbn [step] in T2. split; [|exists ops, w2; split; auto].
      constructor; [cbn; rewrite !app_length; f_equal; apply I| |apply I]. intros s. cbn [set_bw set_user bw bw_user w_iface set_sdead set_iface].
      change (held (set_user (set_bw b _) _) s) with (held b s). pose proof (bi_len _ _ I) as L.
      destruct (Nat.lt_ge_cases s (length (bw_user b))) as [Hs|Hs].
      * rewrite !app_nth1 by lia. apply (bi_iface _ _ I).
      * rewrite !app_nth2 by lia. rewrite L. pose proof (bi_iface _ _ I s) as Es. rewrite !nth_overflow in Es by lia. cbn in Es. rewrite orb_false_r in Es.
        rewrite <- Es. cbn [existsb]. rewrite !orb_false_r. auto.
    + cbn [bstep]. destruct (nth s (bw_user b) false) eqn:Hu; [|exact Logic.I].
      set (b1 := set_user b (upd (bw_user b) s false)).
      assert (I1 : BInv b1 [s]).
      { constructor; [cbn; rewrite length_upd; apply I| |apply I]. intros k. cbn [b1 set_user bw bw_user existsb]. rewrite nth_upd_false, (bi_iface _ _ I).
        change (held (set_user b (upd (bw_user b) s false)) k) with (held b k). cbn [existsb]. rewrite !orb_false_r. destruct (Nat.eqb_spec k s) as [->|]; cbn.
        - rewrite Hu, orb_true_r. auto.
        - rewrite orb_false_r. auto. }
      pose proof (release_shares_ok [s] b1 w1 I1) as H. cbn [release_shares] in H. specialize (H ltac:(constructor; [intros []|constructor]) T).
      destruct (release_share b1 s) as [b' r| |u|]; cbn [imitates] in *; auto.
    + cbn [bstep]. destruct (forallb (names_ok b) cls); [|exact Logic.I]. apply Lift; discriminate.
  - left. cbn [bstep]. unfold do_bexpect. destruct (find_overload (bw b) m ov) as [r|[s coll]] eqn:F.
    + assert (E : step (bw b) (OExpect m ov ms [] (mkLoc ""%string ""%string 0 0)) = r).
      { cbn [step]. unfold do_expect. rewrite F. auto. }
      rewrite <- E. apply Lift; discriminate.
    + destruct (negb (length ms =? length (sg_params s))) eqn:L; [exact Logic.I|]. apply negb_false_iff, Nat.eqb_eq in L.
      destruct (frontend_ok s ms) as [bd Hb]. rewrite Hb. cbn [imitates].
      assert (Es : b_seqs bd = []).
      { pose proof (build_ok _ _ _ _ (build_nil _ _ _ Hb)) as (_ & E & _); [intros t []|]. exact E. }
      split; [|exists [], w1; split; [constructor|]].
      * constructor; [apply I| |].
        -- intros k. cbn [set_builders bw bw_user]. rewrite (bi_iface _ _ I). f_equal. f_equal. unfold held. cbn [set_builders bw_builders].
           rewrite existsb_app. cbn [existsb]. unfold holds. cbn. rewrite Es. cbn. rewrite orb_false_r. auto.
        -- intros o Ho. cbn [set_builders bw_builders] in Ho. apply in_app_or in Ho. destruct Ho as [Ho|[<-|[]]]; [apply I; auto|].
           constructor; cbn; [rewrite Es; constructor|auto|]. exists ms, []. split; auto. split; auto. apply build_nil; auto.
      * destruct T as ((rho & S) & Hp). split; [exists rho; auto|]. intros o Ho. cbn [set_builders bw_builders] in Ho.
        apply in_app_or in Ho. destruct Ho as [Ho|[<-|[]]]; [apply Hp; auto|]. cbn.
        exists (rho m), coll. split; [|intros c Ec; injection Ec as <-; auto].
        apply find_overload_mock in F. destruct F as (sigs & cs & F & F1 & F2). apply find_overload_mock. exists sigs, cs.
        split; auto. destruct (named_lt _ _ _ _ _ S F). auto.
  - cbn [bstep]. unfold do_band. destruct (nth_error (bw_builders b) k) as [o|] eqn:Hk; [|left; exact Logic.I].
    destruct (bo_alive o && names_ok b cl && clause_ok (bw b) (length (sg_params (bo_sig o))) cl) eqn:C; cbn [negb]; [|left; exact Logic.I].
    apply andb_true_iff in C. destruct C as [C C3]. apply andb_true_iff in C. destruct C as [C1 C2].
    assert (Hin : In o (bw_builders b)) by (eapply nth_error_In; eauto). pose proof (bi_objs _ _ I _ Hin) as Ok.
    destruct (match cl with ClSeq tags => _ | _ => false end) eqn:D.
    { right. split; [|discriminate]. exists k, o. split; [left; eauto|]. split; auto. split; auto.
      destruct (bo_storage o) as [coll|] eqn:St; auto. destruct (ok_full _ Ok _ St) as (_ & N). rewrite N in D. destruct cl; discriminate. }
    destruct (builder_and (bo_members o) cl) as [bd|x|] eqn:Ba; [|left; apply Stay|left; exact Logic.I].
    destruct (bo_storage o) as [coll|] eqn:St; [|right; split; [|discriminate]; exists k, o; split; [left; eauto|auto]].
    left. destruct (ok_full _ Ok _ St) as (_ & N). destruct (ok_built _ Ok) as (ms & cls & L & Cs & B).
    rewrite clause_ok_split in C3. apply andb_true_iff in C3. destruct C3 as [C3 C4].
    assert (Ti : forall t, In (ClTimes t) cls -> times_expr_int t = true) by (intros t Ht; rewrite forallb_forall in Cs; apply (Cs _ Ht)).
    pose proof (build_ok _ _ _ _ B Ti) as (V & _ & _).
    destruct (builder_and_ok _ _ _ Ba V) as (V' & _ & Es); [destruct cl; auto|].
    set (o' := mkBObj (bo_sig o) (bo_ov o) (Some coll) bd false true).
    assert (Hheld : forall s, held (set_builders b (upd (bw_builders b) k (after_and cl o) ++ [o'])) s = held b s || existsb (Nat.eqb s) (clause_seqs [cl])).
    { intros s. unfold held. cbn [set_builders bw_builders]. rewrite existsb_app. cbn [existsb]. rewrite orb_false_r.
      fold (holding s). replace (existsb (Nat.eqb s) (holds o')) with (holding s o || existsb (Nat.eqb s) (clause_seqs [cl])).
      2:{ unfold holding, holds, o'. cbn [bo_alive bo_null bo_members andb negb]. rewrite C1, N, Es. cbn [andb negb]. rewrite existsb_app. reflexivity. }
      pose proof (existsb_upd_or (holding s) _ _ _ (after_and cl o) Hk) as X.
      change (existsb (fun o0 => existsb (Nat.eqb s) (holds o0)) (upd (bw_builders b) k (after_and cl o))) with (existsb (holding s) (upd (bw_builders b) k (after_and cl o))).
      change (existsb (fun o0 => existsb (Nat.eqb s) (holds o0)) (bw_builders b)) with (existsb (holding s) (bw_builders b)).
      rewrite orb_assoc, X. f_equal. assert (Y : holding s o = true -> existsb (holding s) (bw_builders b) = true) by (intros; apply existsb_exists; eauto).
      destruct cl; cbn [after_and]; rewrite ?moved_holds, ?used_holds, ?orb_false_r; auto. destruct (holding s o); [rewrite Y|rewrite orb_false_r]; auto. }
    cbn [imitates]. split; [|exists [], w1; split; [constructor|]].
    + constructor; [apply I| |].
      * intros s. cbn [set_builders bw bw_user] in *. rewrite Hheld, (bi_iface _ _ I). cbn [existsb]. rewrite !orb_false_r.
        destruct (existsb (Nat.eqb s) (clause_seqs [cl])) eqn:X; [|rewrite orb_false_r; auto].
        apply existsb_exists in X. destruct X as (y & Y1 & Y2). apply Nat.eqb_eq in Y2. subst y.
        rewrite forallb_forall in C4. specialize (C4 _ Y1). rewrite (bi_iface _ _ I) in C4. cbn [existsb] in C4. rewrite orb_false_r in C4. rewrite C4.
        rewrite !orb_true_r. auto.
      * intros y Hy. cbn [set_builders bw_builders] in Hy. apply in_app_or in Hy. destruct Hy as [Hy|[<-|[]]].
        -- apply in_upd in Hy. destruct Hy as [Hy| ->]; [apply I; auto|]. eapply bobj_spent_ok; eauto; destruct cl; reflexivity.
        -- constructor; cbn; [apply V'|auto|]. exists ms, (cls ++ [cl]). split; auto. split; [|eapply build_snoc; eauto].
           rewrite forallb_app, Cs. cbn. rewrite C3. auto.
    + destruct T as (S & Hp). split; auto. intros y Hy. cbn [set_builders bw_builders] in Hy. apply in_app_or in Hy.
      destruct Hy as [Hy|[<-|[]]].
      * apply in_upd in Hy. destruct Hy as [Hy| ->]; [apply Hp; auto|]. apply (places_like b w1 o); auto; destruct cl; auto.
      * apply (places_like b w1 o); auto.
  - left. cbn [bstep]. unfold do_bmove. destruct (nth_error (bw_builders b) k) as [o|] eqn:Hk; [|exact Logic.I]. destruct (bo_alive o) eqn:A; [|exact Logic.I].
    assert (Hin : In o (bw_builders b)) by (eapply nth_error_In; eauto). cbn [imitates].
    split; [|exists [], w1; split; [constructor|]].
    + constructor; [apply I| |].
      * intros s. cbn [set_builders bw bw_user]. rewrite (bi_iface _ _ I). f_equal. f_equal. unfold held. cbn [set_builders bw_builders]. rewrite existsb_app. cbn [existsb].
        rewrite orb_false_r. change (existsb (holding s) (bw_builders b) = existsb (holding s) (upd (bw_builders b) k (moved_from o)) || holding s o).
        rewrite (existsb_upd_or (holding s) _ _ _ (moved_from o) Hk), moved_holds, orb_false_r. auto.
      * intros y Hy. cbn [set_builders bw_builders] in Hy. apply in_app_or in Hy. destruct Hy as [Hy|[<-|[]]]; [|apply I; auto].
        apply in_upd in Hy. destruct Hy as [Hy| ->]; [apply I; auto|]. eapply bobj_spent_ok; [apply (bi_objs _ _ I _ Hin)| | |]; reflexivity.
    + destruct T as (S & Hp). split; auto. intros y Hy. cbn [set_builders bw_builders] in Hy. apply in_app_or in Hy.
      destruct Hy as [Hy|[<-|[]]]; [|apply Hp; auto]. apply in_upd in Hy. destruct Hy as [Hy| ->]; [apply Hp; auto|apply (places_like b w1 o); auto].
  - left. cbn [bstep]. unfold do_bassign. destruct (nth_error (bw_builders b) dst) as [d|] eqn:Hd; [|exact Logic.I].
    destruct (nth_error (bw_builders b) src) as [s|] eqn:Hs; [|exact Logic.I]. destruct (negb _); [exact Logic.I|].
    destruct (Nat.eqb_spec dst src) as [->|Hne]; [apply Stay|].
    assert (Hind : In d (bw_builders b)) by (eapply nth_error_In; eauto). assert (Hins : In s (bw_builders b)) by (eapply nth_error_In; eauto).
    apply release_shares_ok.
    + constructor; [apply I| |].
      * intros k. cbn [set_builders bw bw_user]. rewrite (bi_iface _ _ I). cbn [existsb]. rewrite orb_false_r. rewrite <- orb_assoc. f_equal.
        unfold held. cbn [set_builders bw_builders]. change (existsb (holding k) (bw_builders b) =
          existsb (holding k) (upd (upd (bw_builders b) src (moved_from s)) dst s) || holding k d).
        rewrite (existsb_upd_or (holding k) _ _ d s) by (rewrite nth_error_upd_neq; auto).
        rewrite (existsb_upd_or (holding k) _ _ _ (moved_from s) Hs), moved_holds, orb_false_r. auto.
      * intros y Hy. cbn [set_builders bw_builders] in Hy. apply in_upd in Hy. destruct Hy as [Hy| ->]; [|apply I; auto].
        apply in_upd in Hy. destruct Hy as [Hy| ->]; [apply I; auto|]. eapply bobj_spent_ok; [apply (bi_objs _ _ I _ Hins)| | |]; reflexivity.
    + unfold holds. destruct (_ && _); [apply (bi_objs _ _ I); auto|constructor].
    + destruct T as (S & Hp). split; auto. intros y Hy. cbn [set_builders bw_builders] in Hy.
      apply in_upd in Hy. destruct Hy as [Hy| ->]; [|apply Hp; auto]. apply in_upd in Hy. destruct Hy as [Hy| ->]; [apply Hp; auto|apply (places_like b w1 s); auto].
  - left. cbn [bstep]. unfold do_bdrop. destruct (nth_error (bw_builders b) k) as [o|] eqn:Hk; [|exact Logic.I]. destruct (bo_alive o) eqn:A; [|exact Logic.I].
    assert (Hin : In o (bw_builders b)) by (eapply nth_error_In; eauto). set (o' := mkBObj _ _ None _ true false).
    apply release_shares_ok.
    + constructor; [apply I| |].
      * intros s. cbn [set_builders bw bw_user]. rewrite (bi_iface _ _ I). cbn [existsb]. rewrite orb_false_r. rewrite <- orb_assoc. f_equal.
        unfold held. cbn [set_builders bw_builders]. change (existsb (holding s) (bw_builders b) = existsb (holding s) (upd (bw_builders b) k o') || holding s o).
        rewrite (existsb_upd_or (holding s) _ _ _ o' Hk). unfold holding at 3. cbn. rewrite orb_false_r. auto.
      * intros y Hy. cbn [set_builders bw_builders] in Hy. apply in_upd in Hy. destruct Hy as [Hy| ->]; [apply I; auto|].
        eapply bobj_spent_ok; [apply (bi_objs _ _ I); eauto| | |]; reflexivity.
    + unfold holds. destruct (_ && _); [apply (bi_objs _ _ I); auto|constructor].
    + destruct T as (S & Hp). split; auto. intros y Hy. cbn [set_builders bw_builders] in Hy.
      apply in_upd in Hy. destruct Hy as [Hy| ->]; [apply Hp; auto|apply (places_like b w1 o); auto].
  - destruct (nth_error (bw_builders b) k) as [o|] eqn:Hk; [|left; cbn [bstep]; unfold do_bfinalize; rewrite Hk; exact Logic.I].
    destruct (bo_alive o) eqn:A; [|left; cbn [bstep]; unfold do_bfinalize; rewrite Hk, A; exact Logic.I].
    destruct (finalize_ok (bo_sig o) (bo_members o)) eqn:F; [|left; cbn [bstep]; unfold do_bfinalize; rewrite Hk, A, F; exact Logic.I].
    assert (Hin : In o (bw_builders b)) by (eapply nth_error_In; eauto). pose proof (bi_objs _ _ I _ Hin) as Ok.
    destruct (bo_storage o) as [coll|] eqn:St.
    2:{ right. split; [exists k, o; split; [right; eauto|auto]|]. intros b' r. cbn [bstep]. unfold do_bfinalize. rewrite Hk, A, F, St. cbn [andb negb].
        destruct (bo_null o && _); [discriminate|]. destruct (control_new _ _ _) as [[ss ctl]|x| |u] eqn:Hc; try discriminate.
        exfalso. eapply control_new_nothrow; eauto. }
    left. destruct (ok_full _ Ok _ St) as (_ & N). rewrite (finalize_attach _ _ _ _ _ Hk A F N St).
    destruct (inv_expect_ok _ _ I Hin A (or_introl N)) as (ms & cls & L & C & B).
    destruct T as ((rho & S) & Hp). destruct (place_of _ _ _ _ Hp Hin St) as [g Hg].
    assert (C1 : forallb (clause_ok w1 (length (sg_params (bo_sig o)))) cls = true) by (destruct S as (xs & hs & -> & _); exact C).
    pose proof (expect_attach _ _ _ _ _ _ _ _ l Hg L C1 B F) as E1. pose proof (named_attach _ _ _ _ _ _ (bo_members o) l _ S Hg) as NA.
    destruct (attach (bw b) (bo_sig o) (bo_ov o) coll (bo_members o) l) as [w' r| |u|] eqn:Ea; cbn [blift imitates]; auto.
    + destruct NA as (w1' & Ea1 & S' & K). rewrite Ea1 in E1. split.
      * assert (Ei : w_iface w' = w_iface (bw b)).
        { unfold attach in Ea. destruct (control_new _ _ _) as [[ss ctl]|x| |u] in Ea; try discriminate; [destruct (nth_error _ _) in Ea; [|discriminate]|];
            injection Ea as <- <-; reflexivity. }
        constructor; [cbn; rewrite Ei; apply I| |].
        -- intros s. cbn [set_bw set_builders bw bw_user]. rewrite Ei, (bi_iface _ _ I). f_equal. f_equal. unfold held. cbn [set_builders set_bw bw_builders].
           change (existsb (holding s) (bw_builders b) = existsb (holding s) (upd (bw_builders b) k (used_up o))).
           pose proof (existsb_upd_or (holding s) _ _ _ (used_up o) Hk) as X. rewrite used_holds in X.
           destruct (holding s o) eqn:Hh; [|rewrite !orb_false_r in X; auto].
           transitivity true; [apply existsb_exists; eauto|]. symmetry. apply existsb_exists. exists (used_up o). split; auto.
           eapply nth_error_In. apply nth_error_upd_eq. eapply nth_error_lt; eauto.
        -- intros y Hy. cbn [set_bw set_builders bw_builders] in Hy. apply in_upd in Hy. destruct Hy as [Hy| ->]; [apply I; auto|].
           eapply bobj_spent_ok; eauto.
      * exists [OExpect g (bo_ov o) ms cls l], w1'. split; [eapply run_one; eauto|]. split; [exists rho; auto|].
        intros y Hy. cbn [set_bw set_builders bw_builders] in Hy. apply in_upd in Hy. destruct Hy as [Hy| ->]; [eapply places_keep; eauto|].
        destruct (K _ _ _ _ Hg) as [g' Hg']. exists g', coll. split; [exact Hg'|discriminate].
    + exists [], w1, (OExpect g (bo_ov o) ms cls l). split; [constructor|]. congruence.
    + exists [], w1, (OExpect g (bo_ov o) ms cls l). split; [constructor|]. congruence.
Qed.

Lemma binv_init : BInv binit [] /\ twin binit init.
Proof.
  split.
  - constructor; auto; [intros [|s]; reflexivity|intros o []].
  - split; [exists (fun i => i); exists [], []; split; [reflexivity|split; apply rel_refl]|]. intros o [].
Qed.

Lemma binv_run b ops b' : brun b ops b' -> forall w1, BInv b [] -> twin b w1 -> BInv b' [] /\ exists ops1 w2, run w1 ops1 w2 /\ twin b' w2.
Proof.
  induction 1 as [b|b o b1 r ops b2 H R IH]; intros w1 I T.
  - split; auto. exists [], w1. split; [constructor|auto].
  - destruct (twin_bstep _ _ o I T) as [Im|[_ N]]; [|exfalso; eapply N; eauto]. rewrite H in Im. destruct Im as (I1 & ops1 & w2 & R1 & T1).
    destruct (IH _ I1 T1) as (I2 & ops2 & w3 & R2 & T2). split; auto. exists (ops1 ++ ops2), w3. split; auto. eapply run_app; eauto.
Qed.

Lemma binv_reachable b : breachable b -> BInv b [] /\ exists w1, reachable w1 /\ twin b w1.
Proof.
  intros [ops H]. destruct binv_init as [I T]. destruct (binv_run _ _ _ H _ I T) as (I1 & ops1 & w2 & R & T2). split; auto. exists w2. split; auto. exists ops1; auto.
Qed.
