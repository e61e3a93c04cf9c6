(** * PropStored: expectation builders as objects. Property C80. *)

From Verif Require Import Base Lib Sequence Control Signature Printer Reports Expectation Builder BuildSpec BuilderLemmas World WorldSpec StepCases
  WorldInv ObjInv CountProofs MoveProofs Scenario Builders StoredProofs.

(** ** Statements *)

(** A program with builders and a program without look the same: they only differ in their mocks and in who keeps sequences alive. *)
Record looks_like (b : bworld) (w : world) : Prop := mkLooks {
  ll_exps : w_exps w = w_exps (bw b);
  ll_seqs : w_seqs w = w_seqs (bw b);
  ll_sdead : w_sdead w = w_sdead (bw b);
  ll_colls : w_colls w = w_colls (bw b);
  ll_scoped : w_scoped w = w_scoped (bw b);
  ll_frames : w_frames w = w_frames (bw b);
  ll_reporter : w_reporter w = w_reporter (bw b) /\ w_rid w = w_rid (bw b);
  ll_uncaught : w_uncaught w = w_uncaught (bw b);
  ll_trace : w_trace w = w_trace (bw b);
  ll_iface : forall s, nth s (w_iface w) false = nth s (bw_user b) false || held b s
}.

(** Operations one after the other; an exception ends the expression. *)
Fixpoint perform (b : bworld) (ops : list bop) : bstepped :=
  match ops with
  | [] => BNext b RUnit
  | o :: t =>
      match bstep b o with
      | BNext b' (RThrow x) => BNext b' (RThrow x)
      | BNext b' r => match t with [] => BNext b' r | _ => perform b' t end
      | other => other
      end
  end.

(** auto b1 = std::move(b0) && cl1; auto b2 = std::move(b1) && cl2; ... *)
Fixpoint ands (k : nat) (cls : list clause) : list bop :=
  match cls with
  | [] => []
  | cl :: t => BAnd k cl :: ands (S k) t
  end.

(** The builder number [k] is an operand of the operation. *)
Definition touches (k : nat) (o : bop) : bool :=
  match o with
  | BAnd j _ | BMove j | BDrop j | BFinalize j _ => j =? k
  | BMoveAssign d s => (d =? k) || (s =? k)
  | _ => false
  end.

(** ** Every program *)

Lemma named_fields rho w w1 : named rho w w1 -> exists ms, w1 = put ms (w_scoped w) w.
Proof.
  intros (ms & hs & -> & _ & Rh). exists ms. f_equal.
  assert (E : forall i, nth_error hs i = nth_error (w_scoped w) i) by (intros i; apply (r_nth _ _ _ _ Rh i eq_refl)).
  assert (L : length hs = length (w_scoped w)).
  { destruct (Nat.lt_trichotomy (length hs) (length (w_scoped w))) as [Hl|[Hl|Hl]]; auto.
    - destruct (nth_error_ex _ _ Hl) as [x Hx]. rewrite <- E in Hx. apply nth_error_lt in Hx. lia.
    - destruct (nth_error_ex _ _ Hl) as [x Hx]. rewrite E in Hx. apply nth_error_lt in Hx. lia. }
  apply nth_error_ext_eq; auto. intros i x Hx. rewrite <- E. auto.
Qed.

Lemma twin_looks b w : BInv b [] -> twin b w -> looks_like b w.
Proof.
  intros I ((rho & S) & _). destruct (named_fields _ _ _ S) as [ms ->]. constructor; auto. intros s. cbn [w_iface put].
  rewrite (bi_iface _ _ I). cbn [existsb]. rewrite orb_false_r. auto.
Qed.

Theorem C80_every_program b : breachable b -> exists w, reachable w /\ looks_like b w.
Proof.
  intros H. destruct (binv_reachable _ H) as (I & w & Rw & T). exists w. split; [exact Rw|apply twin_looks; auto].
Qed.

(** No failures of their own: apart from using a builder whose contents are gone, operations of a program with builders only end the program or are
    undefined if this also happens in a program without. *)
Theorem C80_failures b o : breachable b ->
  (forall k ob, nth_error (bw_builders b) k = Some ob -> bo_storage ob = None -> touches k o = false) ->
  exists w, reachable w /\ looks_like b w /\
    (bstep b o = BStop -> exists ops w' o', run w ops w' /\ step w' o' = Stop) /\
    (forall u, bstep b o = BWrong u -> exists ops w' o', run w ops w' /\ step w' o' = Wrong u).
Proof.
  intros H Hs. destruct (binv_reachable _ H) as (I & w & Rw & T). exists w. split; [exact Rw|]. split; [apply twin_looks; auto|].
  destruct (twin_bstep _ _ o I T) as [Im|[(k & ob & Ho & Hk & Ha & Hst) _]].
  - split; [intros E|intros u E]; rewrite E in Im; exact Im.
  - exfalso. specialize (Hs _ _ Hk Hst). destruct Ho as [[cl ->]|[l ->]]; cbn in Hs; rewrite Nat.eqb_refl in Hs; discriminate.
Qed.

(** In particular: limits and sequences. *)
Theorem C80_limits b e x : breachable b -> exp_at (bw b) e x -> (Z.of_nat (accepted (w_trace (bw b)) e) <= x_max x)%Z.
Proof.
  intros H Hx. destruct (C80_every_program _ H) as (w & Hr & L). rewrite <- (ll_trace _ _ L). apply (max_bound w); auto.
  unfold exp_at in *. rewrite (ll_exps _ _ L). auto.
Qed.

(** A sequence lives exactly as long as the user, a builder, or an expectation in scope holds it. *)
Theorem C80_sequence_lifetime b s : breachable b -> s < length (w_seqs (bw b)) ->
  nth s (w_sdead (bw b)) true =
  negb (nth s (bw_user b) false || held b s || existsb (fun eo => eo_alive eo && attached_to s (e_ctl (eo_exp eo))) (w_exps (bw b))).
Proof.
  intros H Hs. destruct (C80_every_program _ H) as (w & Hr & L). pose proof (winv_reachable _ Hr) as I.
  rewrite <- (ll_sdead _ _ L), <- (ll_exps _ _ L), <- (ll_iface _ _ L). rewrite (wi_dead _ I) by (rewrite (ll_seqs _ _ L); auto). reflexivity.
Qed.

(** Programs without builders are those of [World]. *)
Theorem C80_conservative b o b' r : bw_builders b = [] -> bw_user b = w_iface (bw b) ->
  bstep b (BOp o) = BNext b' r <-> exists w', step (bw b) o = Next w' r /\ b' = mkBW w' (w_iface w') [].
Proof.
  intros Eb Eu. destruct b as [w us bs]. cbn in Eb, Eu. subst.
  assert (G : forall o', (forall st, o' <> ONewSeq st) -> (forall s, o' <> ODropSeq s) ->
     blift (mkBW w (w_iface w) []) (step w o') = BNext b' r <-> exists w', step w o' = Next w' r /\ b' = mkBW w' (w_iface w') []).
  { intros o' N1 N2. destruct (step w o') as [w' r'| |u|] eqn:E; cbn [blift]; try (split; [discriminate|intros (w' & H & _); discriminate]).
    assert (Ei : w_iface w' = w_iface w).
    { rewrite (step_iface _ _ _ _ E). destruct o'; auto; [exfalso; eapply N1|exfalso; eapply N2]; eauto. }
    unfold set_bw. cbn. split.
    - intros H. injection H as <- <-. exists w'. rewrite Ei. auto.
    - intros (w2 & H & ->). injection H as <- <-. rewrite Ei. auto. }
  destruct o; try (apply G; discriminate).
  - cbn [bstep step bw]. unfold blift, set_user, set_bw. cbn. split; [intros H; injection H as <- <-|intros (w2 & H & ->); injection H as <- <-; auto].
    eexists. split; reflexivity.
  - cbn [bstep bw_user]. destruct (nth s (w_iface w) false) eqn:Hs; [|cbn [step bw]; rewrite Hs; split; [discriminate|intros (w' & H & _); discriminate]].
    unfold release_share. cbn [set_user bw_user]. change (held _ s) with false. rewrite nth_upd_false, Nat.eqb_refl. cbn [orb].
    cbn [bw set_user]. destruct (step w (ODropSeq s)) as [w' r'| |u|] eqn:E; cbn [blift]; try (split; [discriminate|intros (w' & H & _); discriminate]).
    assert (Ei := step_iface _ _ _ _ E). cbn in Ei. unfold set_bw, set_user. cbn. split.
    + intros H. injection H as <- <-. exists w'. rewrite Ei. auto.
    + intros (w2 & H & ->). injection H as <- <-. rewrite Ei. auto.
  - cbn [bstep bw]. destruct (forallb (names_ok (mkBW w (w_iface w) [])) cls) eqn:N; [apply G; discriminate|].
    split; [discriminate|]. intros (w' & H & _). exfalso. cbn [step] in H. apply do_expect_next in H.
    assert (C : forall n, forallb (clause_ok w n) cls = false).
    { intros n. destruct (forallb (clause_ok w n) cls) eqn:C; auto. exfalso. enough (X : forallb (names_ok (mkBW w (w_iface w) [])) cls = true) by congruence.
      rewrite forallb_forall in *. intros cl Hin. specialize (C _ Hin). destruct cl; auto. cbn in *. apply andb_true_iff in C. tauto. }
    destruct H as (s & coll & _ & _ & C' & _). rewrite C in C'. discriminate.
Qed.

(** ** Expressions and their parts *)

Lemma ands_perform cls : forall b k s ov coll bd tail, nth_error (bw_builders b) k = Some (mkBObj s ov (Some coll) bd false true) ->
  length (bw_builders b) = S k -> forallb (names_ok b) cls = true -> forallb (clause_ok (bw b) (length (sg_params s))) cls = true -> tail <> [] ->
  match builder_ands bd cls with
  | BOk bd' => exists b', bw b' = bw b /\ bw_user b' = bw_user b /\
                 nth_error (bw_builders b') (k + length cls) = Some (mkBObj s ov (Some coll) bd' false true) /\
                 length (bw_builders b') = S (k + length cls) /\ perform b (ands k cls ++ tail) = perform b' tail
  | BThrow x => exists b', bw b' = bw b /\ bw_user b' = bw_user b /\ perform b (ands k cls ++ tail) = BNext b' (RThrow x)
  | BIllFormed => True
  end.
Proof.
  induction cls as [|cl cls IH]; intros b k s ov coll bd tail Hk Hl N C Ht; cbn [builder_ands ands app length].
  - exists b. rewrite Nat.add_0_r. auto.
  - cbn [forallb] in N, C. apply andb_true_iff in N, C. destruct N as [N1 N2], C as [C1 C2].
    assert (St : bstep b (BAnd k cl) = match builder_and bd cl with
       | BIllFormed => BInvalid | BThrow x => BNext b (RThrow x)
       | BOk bd' => BNext (set_builders b (upd (bw_builders b) k (after_and cl (mkBObj s ov (Some coll) bd false true)) ++ [mkBObj s ov (Some coll) bd' false true])) RUnit end).
    { cbn [bstep]. unfold do_band. rewrite Hk. cbn [bo_alive bo_sig bo_members bo_null bo_storage bo_ov]. rewrite N1, C1. cbn [andb negb].
      destruct cl; reflexivity. }
    cbn [perform]. rewrite St. destruct (builder_and bd cl) as [bd1|x|] eqn:Eb; cbn [bbind]; auto.
    + set (b1 := set_builders b _).
      assert (NT : ands (S k) cls ++ tail <> []) by (destruct (ands (S k) cls); cbn; auto; discriminate).
      assert (Hk1 : nth_error (bw_builders b1) (S k) = Some (mkBObj s ov (Some coll) bd1 false true)).
      { unfold b1. cbn [bw_builders set_builders]. rewrite nth_error_app2 by (rewrite length_upd; lia). rewrite length_upd, Hl, Nat.sub_diag. reflexivity. }
      assert (Hl1 : length (bw_builders b1) = S (S k)) by (unfold b1; cbn [bw_builders set_builders]; rewrite app_length, length_upd, Hl; cbn; lia).
      specialize (IH b1 (S k) s ov coll bd1 tail Hk1 Hl1 N2 C2 Ht). destruct (ands (S k) cls ++ tail) as [|o1 t1] eqn:Et; [congruence|].
      destruct (builder_ands bd1 cls) as [bd2|x|]; auto.
      destruct IH as (b2 & E1 & E2 & E3 & E4 & E5). exists b2. rewrite Nat.add_succ_r. auto.
    + exists b. auto.
Qed.

(** An expression has the same effect as storing the builder of each of its parts in a variable. *)
Definition in_parts (b : bworld) (m ov : nat) (ms : list matcher) (cls : list clause) (l : loc) : list bop :=
  let k := length (bw_builders b) in BExpect m ov ms :: ands k cls ++ [BFinalize (k + length cls) l].

Theorem C80_expression b m ov ms cls l :
  match bstep b (BOp (OExpect m ov ms cls l)) with
  | BNext b1 r => exists b2, perform b (in_parts b m ov ms cls l) = BNext b2 r /\ bw b2 = bw b1 /\ bw_user b2 = bw_user b1
  | BStop => perform b (in_parts b m ov ms cls l) = BStop
  | BWrong u => perform b (in_parts b m ov ms cls l) = BWrong u
  | BInvalid => True
  end.
Proof.
  unfold in_parts. cbn [bstep]. destruct (forallb (names_ok b) cls) eqn:N; auto. cbn [step]. unfold do_expect.
  destruct (find_overload (bw b) m ov) as [r|[s coll]] eqn:F.
  { cbn [perform bstep]. unfold do_bexpect. rewrite F. unfold find_overload in F.
    destruct (nth_error (w_mocks (bw b)) m) as [mk|]; [|injection F as <-; cbn; auto].
    destruct (mk_alive mk); cbn in F; [|injection F as <-; cbn; auto].
    destruct (nth_error (mk_sigs mk) ov); [|injection F as <-; cbn; auto]. destruct (mk_colls mk) as [cs|]; [|injection F as <-; cbn; auto].
    destruct (nth_error cs ov); [discriminate|injection F as <-; cbn; auto]. }
  destruct (length ms =? length (sg_params s)) eqn:L; [|cbn; auto].
  destruct (forallb (clause_ok (bw b) (length (sg_params s))) cls) eqn:C; [|cbn; auto]. cbn [andb negb].
  destruct (frontend_ok s ms) as [bd0 E0]. unfold build. destruct (viable false false cls) eqn:V; [|cbn; auto]. rewrite E0. cbn [bbind].
  set (k := length (bw_builders b)).
  assert (First : bstep b (BExpect m ov ms) = BNext (set_builders b (bw_builders b ++ [mkBObj s ov (Some coll) bd0 false true])) RUnit).
  { cbn [bstep]. unfold do_bexpect. rewrite F, L, E0. reflexivity. }
  set (b0 := set_builders b _) in First.
  assert (P : perform b (BExpect m ov ms :: ands k cls ++ [BFinalize (k + length cls) l]) = perform b0 (ands k cls ++ [BFinalize (k + length cls) l])).
  { cbn [perform]. rewrite First. destruct (ands k cls ++ [BFinalize (k + length cls) l]) eqn:En; auto. }
  pose proof (ands_perform cls b0 k s ov coll bd0 [BFinalize (k + length cls) l]) as A.
  assert (Hk0 : nth_error (bw_builders b0) k = Some (mkBObj s ov (Some coll) bd0 false true)) by apply nth_error_app_last.
  assert (Hl0 : length (bw_builders b0) = S k) by (unfold b0; cbn [bw_builders set_builders]; rewrite app_length; cbn; unfold k; lia).
  specialize (A Hk0 Hl0 N C ltac:(discriminate)).
  destruct (builder_ands bd0 cls) as [bd|x|] eqn:E; [| |cbn; auto].
  - destruct (finalize_ok s bd) eqn:Fi; [|cbn; auto]. cbn [negb]. destruct A as (b' & A1 & A2 & A3 & _ & A5).
    change (w_seqs (bw b)) with (w_seqs (bw b0)). fold (attach (bw b) s ov coll bd l).
    assert (Q : perform b (BExpect m ov ms :: ands k cls ++ [BFinalize (k + length cls) l]) =
                blift (set_builders b' (upd (bw_builders b') (k + length cls) (used_up (mkBObj s ov (Some coll) bd false true)))) (attach (bw b) s ov coll bd l)).
    { rewrite P, A5. cbn [perform]. rewrite (finalize_attach _ _ l _ coll A3) by auto. cbn [bo_sig bo_ov bo_members]. rewrite A1.
      change (bw b0) with (bw b). destruct (attach (bw b) s ov coll bd l) as [w' r| |u|]; cbn [blift]; auto. destruct r; auto. }
    rewrite Q. change (w_seqs (bw b0)) with (w_seqs (bw b)).
    change (match blift b (attach (bw b) s ov coll bd l) with
      | BNext b1 r => exists b2, blift (set_builders b' (upd (bw_builders b') (k + length cls) (used_up (mkBObj s ov (Some coll) bd false true)))) (attach (bw b) s ov coll bd l) = BNext b2 r /\ bw b2 = bw b1 /\ bw_user b2 = bw_user b1
      | BStop => blift (set_builders b' (upd (bw_builders b') (k + length cls) (used_up (mkBObj s ov (Some coll) bd false true)))) (attach (bw b) s ov coll bd l) = BStop
      | BWrong u => blift (set_builders b' (upd (bw_builders b') (k + length cls) (used_up (mkBObj s ov (Some coll) bd false true)))) (attach (bw b) s ov coll bd l) = BWrong u
      | BInvalid => True end).
    destruct (attach (bw b) s ov coll bd l) as [w' r| |u|]; cbn [blift]; auto. eexists. split; [reflexivity|]. cbn. auto.
  - destruct (finalizable s cls); [|cbn; auto]. cbn [blift]. destruct A as (b' & A1 & A2 & A3). exists b'. rewrite P, A3. split; auto.
Qed.

(** ** Finalizing later *)

Lemma ands_inv cls : forall b k s ov coll bd b1, nth_error (bw_builders b) k = Some (mkBObj s ov (Some coll) bd false true) ->
  length (bw_builders b) = S k -> perform b (ands k cls) = BNext b1 RUnit ->
  exists bd', builder_ands bd cls = BOk bd' /\ nth_error (bw_builders b1) (k + length cls) = Some (mkBObj s ov (Some coll) bd' false true) /\
    forallb (clause_static (length (sg_params s))) cls = true.
Proof.
  induction cls as [|cl cls IH]; intros b k s ov coll bd b1 Hk Hl H; cbn [ands perform] in H.
  - injection H as <-. exists bd. rewrite Nat.add_0_r. auto.
  - cbn [bstep] in H. unfold do_band in H. rewrite Hk in H. cbn [bo_alive bo_sig bo_members bo_null bo_storage bo_ov andb] in H.
    destruct (names_ok b cl && clause_ok (bw b) (length (sg_params s)) cl) eqn:C; cbn [negb] in H; [|discriminate].
    apply andb_true_iff in C. destruct C as [_ C]. rewrite clause_ok_split in C. apply andb_true_iff in C. destruct C as [C _].
    assert (H' : match builder_and bd cl with
       | BIllFormed => BInvalid | BThrow x => BNext b (RThrow x)
       | BOk bd' => perform (set_builders b (upd (bw_builders b) k (after_and cl (mkBObj s ov (Some coll) bd false true)) ++ [mkBObj s ov (Some coll) bd' false true])) (ands (S k) cls) end = BNext b1 RUnit).
    { destruct cl; destruct (builder_and bd _); auto; destruct (ands (S k) cls); auto. }
    destruct (builder_and bd cl) as [bd1|x|] eqn:Eb; try discriminate.
    assert (Hk1 : nth_error (upd (bw_builders b) k (after_and cl (mkBObj s ov (Some coll) bd false true)) ++ [mkBObj s ov (Some coll) bd1 false true]) (S k) =
      Some (mkBObj s ov (Some coll) bd1 false true)).
    { rewrite nth_error_app2 by (rewrite length_upd; lia). rewrite length_upd, Hl, Nat.sub_diag. reflexivity. }
    assert (Hl1 : length (upd (bw_builders b) k (after_and cl (mkBObj s ov (Some coll) bd false true)) ++ [mkBObj s ov (Some coll) bd1 false true]) = S (S k))
      by (rewrite app_length, length_upd, Hl; cbn; lia).
    destruct (IH (set_builders b _) (S k) s ov coll bd1 b1 Hk1 Hl1 H') as (bd2 & E1 & E2 & E3).
    exists bd2. cbn [builder_ands]. rewrite Eb. cbn [bbind length forallb]. rewrite C, E3. rewrite Nat.add_succ_r. auto.
Qed.

Lemma perform_brun ops : forall b b' r, perform b ops = BNext b' r -> exists ops', brun b ops' b'.
Proof.
  induction ops as [|o ops IH]; intros b b' r H; cbn [perform] in H; [injection H as <- _; exists []; constructor|].
  destruct (bstep b o) as [b1 r1| |u|] eqn:E; try discriminate.
  assert (C : b1 = b' \/ perform b1 ops = BNext b' r) by (destruct r1; destruct ops; try (injection H as <- _); auto).
  destruct C as [<-|H']; [exists [o]; econstructor; eauto; constructor|].
  destruct (IH _ _ _ H') as [ops' R]. exists (o :: ops'). econstructor; eauto.
Qed.

Lemma brun_app b ops1 b1 ops2 b2 : brun b ops1 b1 -> brun b1 ops2 b2 -> brun b (ops1 ++ ops2) b2.
Proof. induction 1; intros R; cbn; auto. econstructor; eauto. Qed.
Lemma breachable_run b ops b' : breachable b -> brun b ops b' -> breachable b'.
Proof. intros [ops0 R0] R. exists (ops0 ++ ops). eapply brun_app; eauto. Qed.

Lemma release_share_parts b s b' r : release_share b s = BNext b' r -> bw_user b' = bw_user b /\ bw_builders b' = bw_builders b.
Proof.
  unfold release_share. destruct (_ || _); [intros H; injection H as <- _; auto|]. destruct (step _ _); cbn [blift]; intros H; try discriminate.
  injection H as <- _. auto.
Qed.
Lemma release_shares_parts l : forall b b' r, release_shares b l = BNext b' r -> bw_user b' = bw_user b /\ bw_builders b' = bw_builders b.
Proof.
  induction l as [|s l IH]; intros b b' r H; cbn [release_shares] in H; [injection H as <- _; auto|].
  destruct (release_share b s) as [b1 r1| |u|] eqn:E; try discriminate. apply release_share_parts in E. destruct E as [E1 E2].
  apply IH in H. rewrite E1, E2 in H. auto.
Qed.

(** A builder which is no operand stays as it is. *)
Theorem C80_untouched b o b' r k ob : bstep b o = BNext b' r -> nth_error (bw_builders b) k = Some ob -> touches k o = false ->
  nth_error (bw_builders b') k = Some ob.
Proof.
  intros H Hk Ht. pose proof (nth_error_lt _ _ _ Hk) as Lk.
  assert (Lift : forall b0 st, blift b0 st = BNext b' r -> bw_builders b' = bw_builders b0).
  { intros b0 st E. destruct st; cbn in E; try discriminate. injection E as <- _. auto. }
  destruct o as [o|m ov ms|j cl|j|d sr|j|j l]; cbn [bstep touches] in *.
  - assert (E : bw_builders b' = bw_builders b); [|rewrite E; auto].
    destruct o; try (apply Lift in H; exact H).
    + cbn [step blift] in H. injection H as <- _. reflexivity.
    + destruct (nth s (bw_user b) false); [|discriminate]. apply release_share_parts in H. apply H.
    + destruct (forallb (names_ok b) cls); [|discriminate]. apply Lift in H; exact H.
  - unfold do_bexpect in H. destruct (find_overload (bw b) m ov) as [st|[s coll]].
    + apply Lift in H. rewrite H. auto.
    + destruct (negb _); [discriminate|]. destruct (frontend_builder s ms); try discriminate; injection H as <- _; auto.
      cbn [bw_builders set_builders]. rewrite nth_error_app1; auto.
  - apply Nat.eqb_neq in Ht. unfold do_band in H. destruct (nth_error (bw_builders b) j) as [o|] eqn:Hj; [|discriminate].
    destruct (negb _); [discriminate|]. destruct (match cl with ClSeq _ => _ | _ => false end); [discriminate|].
    destruct (builder_and _ _); [|injection H as <- _; auto|discriminate]. destruct (bo_storage o); [|discriminate]. injection H as <- _.
    cbn [bw_builders set_builders]. rewrite nth_error_app1 by (rewrite length_upd; auto). rewrite nth_error_upd_neq; auto.
  - apply Nat.eqb_neq in Ht. unfold do_bmove in H. destruct (nth_error (bw_builders b) j) as [o|]; [|discriminate]. destruct (bo_alive o); [|discriminate].
    injection H as <- _. cbn [bw_builders set_builders]. rewrite nth_error_app1 by (rewrite length_upd; auto). rewrite nth_error_upd_neq; auto.
  - apply orb_false_iff in Ht. destruct Ht as [T1 T2]. apply Nat.eqb_neq in T1, T2. unfold do_bassign in H.
    destruct (nth_error (bw_builders b) d) as [od|]; [|discriminate]. destruct (nth_error (bw_builders b) sr) as [os|]; [|discriminate].
    destruct (negb _); [discriminate|]. destruct (d =? sr); [injection H as <- _; auto|]. apply release_shares_parts in H. destruct H as [_ ->].
    cbn [bw_builders set_builders]. rewrite !nth_error_upd_neq; auto.
  - apply Nat.eqb_neq in Ht. unfold do_bdrop in H. destruct (nth_error (bw_builders b) j) as [o|]; [|discriminate]. destruct (bo_alive o); [|discriminate].
    apply release_shares_parts in H. destruct H as [_ ->]. cbn [bw_builders set_builders]. rewrite nth_error_upd_neq; auto.
  - apply Nat.eqb_neq in Ht. unfold do_bfinalize in H. destruct (nth_error (bw_builders b) j) as [o|]; [|discriminate]. destruct (negb _); [discriminate|].
    destruct (bo_null o && _); [discriminate|]. destruct (control_new _ _ _) as [[ss ctl]|x| |u]; try discriminate.
    + destruct (bo_storage o); [|discriminate]. destruct (nth_error (w_colls (bw b)) n); [|discriminate]. injection H as <- _.
      cbn [bw_builders set_builders set_bw]. rewrite nth_error_upd_neq; auto.
    + injection H as <- _. cbn [bw_builders set_builders]. rewrite nth_error_upd_neq; auto.
Qed.

Lemma untouched_run b ops b' : brun b ops b' -> forall k ob, nth_error (bw_builders b) k = Some ob ->
  forallb (fun o => negb (touches k o)) ops = true -> nth_error (bw_builders b') k = Some ob.
Proof.
  induction 1 as [b|b o b1 r ops b2 H R IH]; intros k ob Hk T; auto. cbn [forallb] in T. apply andb_true_iff in T. destruct T as [T1 T2].
  apply negb_true_iff in T1. apply IH; auto. eapply C80_untouched; eauto.
Qed.

(** Whatever happens between creating a builder and finalizing it, including moving the mock or dropping the sequences: finalizing it does what the
    whole expression would do now, written for any mock which has the contents the original mock had then. *)
Theorem C80_deferred b0 m ov ms cls b1 ops b2 s coll m' l :
  breachable b0 -> find_overload (bw b0) m ov = inr (s, coll) ->
  perform b0 (BExpect m ov ms :: ands (length (bw_builders b0)) cls) = BNext b1 RUnit ->
  brun b1 ops b2 -> forallb (fun o => negb (touches (length (bw_builders b0) + length cls) o)) ops = true ->
  find_overload (bw b2) m' ov = inr (s, coll) ->
  exists ob, bstep b2 (BFinalize (length (bw_builders b0) + length cls) l) =
    blift (set_builders b2 (upd (bw_builders b2) (length (bw_builders b0) + length cls) ob)) (step (bw b2) (OExpect m' ov ms cls l)).
Proof.
  intros Hr F P R T F'. set (k := length (bw_builders b0)) in *.
  assert (Hr1 : breachable b1) by (destruct (perform_brun _ _ _ _ P) as [ops' R']; eapply breachable_run; eauto).
  assert (Hr2 : breachable b2) by (eapply breachable_run; eauto).
  destruct (frontend_ok s ms) as [bd0 E0].
  assert (P' : length ms = length (sg_params s) /\
     perform (set_builders b0 (bw_builders b0 ++ [mkBObj s ov (Some coll) bd0 false true])) (ands k cls) = BNext b1 RUnit).
  { cbn [perform bstep] in P. unfold do_bexpect in P. rewrite F, E0 in P. destruct (length ms =? length (sg_params s)) eqn:L; cbn [negb] in P; [|discriminate].
    apply Nat.eqb_eq in L. split; auto. destruct (ands k cls); auto. }
  clear P. destruct P' as [L P].
  assert (Hk0 : nth_error (bw_builders (set_builders b0 (bw_builders b0 ++ [mkBObj s ov (Some coll) bd0 false true]))) k = Some (mkBObj s ov (Some coll) bd0 false true)) by apply nth_error_app_last.
  assert (Hl0 : length (bw_builders (set_builders b0 (bw_builders b0 ++ [mkBObj s ov (Some coll) bd0 false true]))) = S k)
    by (cbn [bw_builders set_builders]; rewrite app_length; cbn; unfold k; lia).
  destruct (ands_inv _ _ _ _ _ _ _ _ Hk0 Hl0 P) as (bd & E & Hk & C).
  pose proof (untouched_run _ _ _ R _ _ Hk T) as Hk2.
  assert (B : build s ms cls = BOk bd).
  { unfold build. destruct (frontend_flags _ _ _ E0) as [F1 F2]. pose proof (builder_ands_viable _ _ _ E []) as V. rewrite app_nil_r, F1, F2 in V.
    rewrite V. cbn [viable]. rewrite E0. cbn [bbind]. auto. }
  destruct (binv_reachable _ Hr2) as (I2 & _).
  assert (Ck : forallb (clause_ok (bw b2) (length (sg_params s))) cls = true).
  { assert (Ti : forall t, In (ClTimes t) cls -> times_expr_int t = true) by (intros t Ht; rewrite forallb_forall in C; apply (C _ Ht)).
    assert (Sq : b_seqs bd = clause_seqs cls) by (apply (build_ok s ms cls bd B Ti)).
    rewrite forallb_forall in *. intros cl Hin. rewrite clause_ok_split. rewrite (C _ Hin). cbn [andb]. apply forallb_forall. intros q Hq.
    rewrite (bi_iface _ _ I2). apply orb_true_iff. left. apply orb_true_iff. right. unfold held. apply existsb_exists.
    eexists. split; [eapply nth_error_In; exact Hk2|]. unfold holds. cbn. rewrite Sq. apply existsb_exists. exists q. split; [|apply Nat.eqb_refl].
    clear -Hin Hq. induction cls as [|c cls IH]; [contradiction|]. cbn [clause_seqs flat_map] in *. apply in_or_app. destruct Hin as [->|Hin].
    - left. rewrite app_nil_r in Hq. auto.
    - right. apply IH; auto. }
  exists (used_up (mkBObj s ov (Some coll) bd false true)). destruct (finalize_ok s bd) eqn:Fi.
  - rewrite (expect_attach _ _ _ _ _ _ _ bd l F' L Ck B Fi). rewrite (finalize_attach _ _ l _ coll Hk2) by auto. reflexivity.
  - cbn [bstep step]. unfold do_bfinalize, do_expect. rewrite Hk2, F', L, Nat.eqb_refl, Ck, B. cbn [bo_alive bo_sig bo_members andb negb]. rewrite Fi. reflexivity.
Qed.

(** ** Failures *)

(** Strong guarantee: an operand which throws leaves everything as it was; this happens for limits out of order and for a sequence named twice. *)
Theorem C80_throwing_operand b k cl b' x : bstep b (BAnd k cl) = BNext b' (RThrow x) ->
  b' = b /\ x = EInvalidArgument /\
  ((exists t, cl = ClTimes t /\ ~ (0 <= fst (limits_of t) <= snd (limits_of t))%Z) \/
   (exists tags o, cl = ClSeq tags /\ nth_error (bw_builders b) k = Some o /\ ~ NoDup (b_seqs (bo_members o) ++ tags))).
Proof.
  intros H. cbn [bstep] in H. unfold do_band in H. destruct (nth_error (bw_builders b) k) as [o|]; [|discriminate].
  destruct (negb _); [discriminate|]. destruct (match cl with ClSeq _ => _ | _ => false end); [discriminate|].
  destruct (builder_and (bo_members o) cl) as [bd|y|] eqn:E; try discriminate; [destruct (bo_storage o); discriminate|].
  injection H as <- <-. split; auto. destruct cl as [t|tags|f|p]; cbn [builder_and] in E; try discriminate.
  - destruct (b_times_configured (bo_members o)); [discriminate|].
    destruct (eval_times_spec t) as [[_ Et]|[Ht Et]]; rewrite Et in E; cbn [of_outcome bbind] in E; [discriminate|]. injection E as <-.
    split; auto. left. eauto.
  - destruct (config_make_spec tags) as [[_ Et]|[Ht Et]]; rewrite Et in E; cbn [of_outcome bbind] in E.
    + destruct (config_concat_spec (b_seqs (bo_members o)) tags) as [[_ Ec]|[Hc Ec]]; rewrite Ec in E; cbn [of_outcome bbind] in E; [discriminate|].
      injection E as <-. split; auto. right. eauto.
    + injection E as <-. split; auto. right. exists tags, o. split; auto. split; auto. intros N. apply Ht.
      clear -N. induction (b_seqs (bo_members o)) as [|a l IH]; auto. inversion N; auto.
  - destruct f; destruct (b_finalized (bo_members o)) in E; discriminate E.
Qed.

(** The other operations of builders never throw. *)
Theorem C80_others_never_throw b o b' r : bstep b o = BNext b' r -> (exists o', o = BOp o') \/ (exists k cl, o = BAnd k cl) \/ r = RUnit.
Proof.
  assert (Rs : forall l b0 b1 r1, release_shares b0 l = BNext b1 r1 -> r1 = RUnit).
  { induction l as [|s l IH]; intros b0 b1 r1 H; cbn [release_shares] in H; [injection H as _ <-; auto|]. destruct (release_share b0 s); try discriminate; eauto. }
  intros H. destruct o as [o|m ov ms|j cl|j|d sr|j|j l]; eauto; right; right; cbn [bstep] in H.
  - unfold do_bexpect in H. destruct (find_overload (bw b) m ov) as [st|[s coll]] eqn:F.
    + unfold find_overload in F. destruct (nth_error (w_mocks (bw b)) m) as [mk|]; [|injection F as <-; discriminate].
      destruct (negb _); [injection F as <-; discriminate|]. destruct (nth_error (mk_sigs mk) ov); [|injection F as <-; discriminate].
      destruct (mk_colls mk) as [cs|]; [|injection F as <-; discriminate]. destruct (nth_error cs ov); [discriminate|injection F as <-; discriminate].
    + destruct (negb _); [discriminate|]. destruct (frontend_ok s ms) as [bd E]. rewrite E in H. injection H as _ <-. auto.
  - unfold do_bmove in H. destruct (nth_error (bw_builders b) j) as [o|]; [|discriminate]. destruct (bo_alive o); [|discriminate]. injection H as _ <-. auto.
  - unfold do_bassign in H. destruct (nth_error (bw_builders b) d) as [od|]; [|discriminate]. destruct (nth_error (bw_builders b) sr) as [os|]; [|discriminate].
    destruct (negb _); [discriminate|]. destruct (d =? sr); [injection H as _ <-; auto|eauto].
  - unfold do_bdrop in H. destruct (nth_error (bw_builders b) j) as [o|]; [|discriminate]. destruct (bo_alive o); [|discriminate]. eauto.
  - unfold do_bfinalize in H. destruct (nth_error (bw_builders b) j) as [o|]; [|discriminate]. destruct (negb _); [discriminate|].
    destruct (bo_null o && _); [discriminate|]. destruct (control_new _ _ _) as [[ss ctl]|x| |u] eqn:E; try discriminate.
    + destruct (bo_storage o); [|discriminate]. destruct (nth_error (w_colls (bw b)) n); [|discriminate]. injection H as _ <-. auto.
    + exfalso. eapply control_new_nothrow; eauto.
Qed.

(** A builder which was moved from, extended or finalized is used up; using it again attaches nothing and never goes well. *)
Theorem C80_used_up b o b' k : bstep b o = BNext b' RUnit -> (o = BMove k \/ (exists cl, o = BAnd k cl) \/ (exists l, o = BFinalize k l) \/ (exists d, o = BMoveAssign d k /\ d <> k)) ->
  exists ob, nth_error (bw_builders b') k = Some ob /\ bo_storage ob = None.
Proof.
  intros H C. assert (Lk : exists ob, nth_error (bw_builders b) k = Some ob).
  { destruct (nth_error (bw_builders b) k) as [ob|] eqn:E; eauto. exfalso.
    destruct C as [->|[[cl ->]|[[l ->]|[d [-> _]]]]]; cbn [bstep] in H; unfold do_bmove, do_band, do_bfinalize, do_bassign in H; rewrite E in H; try discriminate.
    destruct (nth_error (bw_builders b) d); discriminate. }
  destruct Lk as [ob Hk]. pose proof (nth_error_lt _ _ _ Hk) as Lk.
  assert (U : forall x tail, nth_error (upd (bw_builders b) k x ++ tail) k = Some x).
  { intros x tail. rewrite nth_error_app1 by (rewrite length_upd; auto). eapply nth_error_upd_eq; eauto. }
  destruct C as [->|[[cl ->]|[[l ->]|[d [-> Hd]]]]]; cbn [bstep] in H.
  - unfold do_bmove in H. rewrite Hk in H. destruct (bo_alive ob); [|discriminate]. injection H as <-. cbn [bw_builders set_builders]. rewrite U. eexists; split; eauto.
  - unfold do_band in H. rewrite Hk in H. destruct (negb _); [discriminate|]. destruct (match cl with ClSeq _ => _ | _ => false end); [discriminate|].
    destruct (builder_and _ _); try discriminate. destruct (bo_storage ob); [|discriminate]. injection H as <-. cbn [bw_builders set_builders]. rewrite U.
    eexists; split; eauto. destruct cl; reflexivity.
  - unfold do_bfinalize in H. rewrite Hk in H. destruct (negb _); [discriminate|].
    destruct (bo_null ob && _); [discriminate|]. destruct (control_new _ _ _) as [[ss ctl]|x| |u] eqn:E; try discriminate.
    destruct (bo_storage ob); [|discriminate]. destruct (nth_error (w_colls (bw b)) n); [|discriminate]. injection H as <-.
    cbn [bw_builders set_builders set_bw]. specialize (U (used_up ob) []). rewrite app_nil_r in U. rewrite U. eexists; split; eauto.
  - unfold do_bassign in H. rewrite Hk in H. destruct (nth_error (bw_builders b) d) as [od|] eqn:Ed; [|discriminate]. destruct (negb _); [discriminate|].
    destruct (Nat.eqb_spec d k); [congruence|]. apply release_shares_parts in H. destruct H as [_ ->]. cbn [bw_builders set_builders].
    rewrite nth_error_upd_neq by auto. specialize (U (moved_from ob) []). rewrite app_nil_r in U. rewrite U. eexists; split; eauto.
Qed.
Theorem C80_no_second_use b k ob b' r : nth_error (bw_builders b) k = Some ob -> bo_storage ob = None ->
  (forall l, bstep b (BFinalize k l) <> BNext b' r) /\ (forall cl, bstep b (BAnd k cl) = BNext b' r -> b' = b /\ r = RThrow EInvalidArgument).
Proof.
  intros Hk St. split.
  - intros l H. cbn [bstep] in H. unfold do_bfinalize in H. rewrite Hk, St in H. destruct (negb _); [discriminate|].
    destruct (bo_null ob && _); [discriminate|]. destruct (control_new _ _ _) as [[ss ctl]|x| |u] eqn:E; try discriminate.
    exfalso. eapply control_new_nothrow; eauto.
  - intros cl H. assert (exists x, r = RThrow x) as [x ->].
    { cbn [bstep] in H. unfold do_band in H. rewrite Hk, St in H. destruct (negb _); [discriminate|]. destruct (match cl with ClSeq _ => _ | _ => false end); [discriminate|].
      destruct (builder_and _ _); try discriminate. injection H as _ <-. eauto. }
    destruct (C80_throwing_operand _ _ _ _ _ H) as (-> & -> & _). auto.
Qed.

(** ** Builders alone do nothing *)

(** At most sequences die, which may then complain. *)
Record only_sequences_die (w w' : world) : Prop := mkOsd {
  osd_exps : w_exps w' = w_exps w;
  osd_seqs : w_seqs w' = w_seqs w;
  osd_colls : w_colls w' = w_colls w;
  osd_mocks : w_mocks w' = w_mocks w;
  osd_scoped : w_scoped w' = w_scoped w;
  osd_frames : w_frames w' = w_frames w;
  osd_reporter : w_reporter w' = w_reporter w /\ w_rid w' = w_rid w /\ w_uncaught w' = w_uncaught w;
  osd_dead : forall s, nth s (w_sdead w) true = true -> nth s (w_sdead w') true = true;
  osd_trace : exists evs, w_trace w' = w_trace w ++ evs /\
    forall ev, In ev evs -> exists k n s, ev = EvReport (w_rid w) (RError k n) [s] /\ nth s (w_sdead w) true = false /\ nth s (w_sdead w') true = true
}.

Lemma osd_refl w : only_sequences_die w w.
Proof. constructor; auto. exists []. rewrite app_nil_r. split; auto. intros ev []. Qed.
Lemma osd_trans w w1 w2 : only_sequences_die w w1 -> only_sequences_die w1 w2 -> only_sequences_die w w2.
Proof.
  intros [A1 A2 A3 A4 A5 A6 (A7 & A8 & A9) Ad (evs1 & At & Ae)] [B1 B2 B3 B4 B5 B6 (B7 & B8 & B9) Bd (evs2 & Bt & Be)]. constructor; try congruence; auto.
  - repeat split; congruence.
  - exists (evs1 ++ evs2). rewrite Bt, At, app_assoc. split; auto. intros ev Hin. apply in_app_or in Hin. destruct Hin as [Hin|Hin].
    + destruct (Ae _ Hin) as (k & n & s & -> & D1 & D2). exists k, n, s. auto.
    + destruct (Be _ Hin) as (k & n & s & -> & D1 & D2). exists k, n, s. rewrite A8. split; auto. split; auto.
      destruct (nth s (w_sdead w) true) eqn:E; auto. apply Ad in E. congruence.
Qed.
Lemma nth_upd_other {A} (l : list A) i j x d : j <> i -> nth j (upd l i x) d = nth j l d.
Proof. revert i j. induction l as [|a l IH]; intros [|i] [|j] H; cbn; auto; try congruence. Qed.
Lemma osd_drop w s w' r : step w (ODropSeq s) = Next w' r -> only_sequences_die w w'.
Proof.
  cbn [step]. destruct (nth s (w_iface w) false); [|discriminate]. intros H. apply release_seq_next in H.
  destruct H as (_ & [[-> _]|(_ & Hd & q & Hq & -> & _)]); [constructor; auto; exists []; rewrite app_nil_r; split; auto; intros ev []|].
  cbn in Hd. assert (Ls : s < length (w_sdead w)).
  { destruct (Nat.lt_ge_cases s (length (w_sdead w))); auto. rewrite nth_overflow in Hd by lia. discriminate. }
  assert (U : nth s (upd (w_sdead w) s true) true = true).
  { erewrite nth_error_nth; eauto. destruct (nth_error_ex _ _ Ls) as [x Hx]. eapply nth_error_upd_eq; eauto. }
  constructor; auto; cbn.
  - intros s' H. destruct (Nat.eq_dec s' s) as [->|Hne]; auto. rewrite nth_upd_other; auto.
  - exists (dtor_events (w_rid w) s q). split; auto. unfold dtor_events. destruct (seq_dtor_error q) as [[k n]|]; intros ev []; [|contradiction].
    subst. exists k, n, s. auto.
Qed.
Lemma osd_release l : forall b b' r, release_shares b l = BNext b' r -> only_sequences_die (bw b) (bw b').
Proof.
  induction l as [|s l IH]; intros b b' r H; cbn [release_shares] in H; [injection H as <- _; apply osd_refl|].
  destruct (release_share b s) as [b1 r1| |u|] eqn:E; try discriminate. eapply osd_trans; [|eapply IH; eauto].
  unfold release_share in E. destruct (_ || _); [injection E as <- _; apply osd_refl|].
  destruct (step (bw b) (ODropSeq s)) as [w' r'| |u|] eqn:Es; cbn [blift] in E; try discriminate. injection E as <- _. eapply osd_drop; eauto.
Qed.

(** Using such a builder once more is not rejected by the compiler; it is undefined (or ends the program while entering a full sequence). *)
Theorem C80_second_use_undefined b k ob : nth_error (bw_builders b) k = Some ob -> bo_storage ob = None -> bo_alive ob = true ->
  (forall l, finalize_ok (bo_sig ob) (bo_members ob) = true -> bstep b (BFinalize k l) = BStop \/ exists u, bstep b (BFinalize k l) = BWrong u) /\
  (forall cl, names_ok b cl = true -> clause_ok (bw b) (length (sg_params (bo_sig ob))) cl = true -> builder_and (bo_members ob) cl <> BIllFormed ->
     bstep b (BAnd k cl) = BNext b (RThrow EInvalidArgument) \/ exists u, bstep b (BAnd k cl) = BWrong u).
Proof.
  intros Hk St Ha. split.
  - intros l Hf. cbn [bstep]. unfold do_bfinalize. rewrite Hk, Ha, Hf, St. cbn [andb negb].
    destruct (bo_null ob && _); [right; eauto|]. destruct (control_new _ _ _) as [[ss ctl]|x| |u] eqn:E; eauto.
    exfalso. eapply control_new_nothrow; eauto.
  - intros cl Hn Hc Hb. destruct (bstep b (BAnd k cl)) as [b' r| |u|] eqn:E; eauto.
    + left. destruct (proj2 (C80_no_second_use b k ob b' r Hk St) cl E) as [-> ->]. reflexivity.
    + exfalso. cbn [bstep] in E. unfold do_band in E. rewrite Hk, Ha, Hn, Hc, St in E. cbn [andb negb] in E.
      destruct (match cl with ClSeq _ => _ | _ => false end); [discriminate|]. destruct (builder_and _ _); discriminate.
    + exfalso. cbn [bstep] in E. unfold do_band in E. rewrite Hk, Ha, Hn, Hc, St in E. cbn [andb negb] in E.
      destruct (match cl with ClSeq _ => _ | _ => false end); [discriminate|]. destruct (builder_and _ _); try discriminate. auto.
Qed.

(** The static type of a builder (18-24): signature, are limits and finalizer given, the number of sequences and of requirements. *)
Definition static_type (ob : bobj) : signature * bool * bool * nat * nat :=
  let bd := bo_members ob in (bo_sig ob, b_times_configured bd, b_finalized bd, length (b_seqs bd), length (b_policies bd)).

(** Builders can be assigned to each other exactly if both exist and have the same type. *)
Theorem C80_assignable b dst src : breachable b -> bstep b (BMoveAssign dst src) <> BInvalid <->
  exists d s, nth_error (bw_builders b) dst = Some d /\ nth_error (bw_builders b) src = Some s /\ bo_alive d = true /\ bo_alive s = true /\
    static_type d = static_type s.
Proof.
  intros Hr. destruct (binv_reachable _ Hr) as (I & w1 & Rw1 & T0).
  cbn [bstep]. unfold do_bassign. destruct (nth_error (bw_builders b) dst) as [d|] eqn:Hd; [|split; [congruence|intros (d & s & H & _); discriminate]].
  destruct (nth_error (bw_builders b) src) as [s|] eqn:Hs; [|split; [congruence|intros (d' & s & _ & H & _); discriminate]].
  assert (T : same_type d s = true <-> static_type d = static_type s).
  { unfold same_type, static_type. destruct (signature_eq_dec (bo_sig d) (bo_sig s)) as [Es|Es]; cbn [andb];
      [|split; [discriminate|intros H; injection H; intros; contradiction]].
    rewrite !andb_true_iff, !Nat.eqb_eq, !Bool.eqb_true_iff. split.
    - intros (((-> & ->) & ->) & ->). rewrite Es. reflexivity.
    - intros H. injection H. auto. }
  destruct (bo_alive d) eqn:Ad, (bo_alive s) eqn:As, (same_type d s) eqn:St; cbn [andb negb];
    try (split; [congruence|intros (d' & s' & H1 & H2 & H3 & H4 & H5); injection H1 as <-; injection H2 as <-; try congruence; apply T in H5; discriminate]).
  split; [intros _; exists d, s; split; auto; split; auto; split; auto; split; auto; apply T; auto|].
  intros _. destruct (Nat.eqb_spec dst src) as [->|Hne]; [discriminate|].
  assert (Hind : In d (bw_builders b)) by (eapply nth_error_In; eauto). assert (Hins : In s (bw_builders b)) by (eapply nth_error_In; eauto).
  apply release_shares_valid with (w1 := w1).
  - constructor; [apply I| |].
    + intros k. cbn [set_builders bw bw_user]. rewrite (bi_iface _ _ I). cbn [existsb]. rewrite orb_false_r. rewrite <- orb_assoc. f_equal.
      unfold held. cbn [set_builders bw_builders]. change (existsb (holding k) (bw_builders b) =
        existsb (holding k) (upd (upd (bw_builders b) src (moved_from s)) dst s) || holding k d).
      rewrite (existsb_upd_or (holding k) _ _ d s) by (rewrite nth_error_upd_neq; auto).
      rewrite (existsb_upd_or (holding k) _ _ _ (moved_from s) Hs), moved_holds, orb_false_r. auto.
    + intros y Hy. cbn [set_builders bw_builders] in Hy. apply in_upd in Hy. destruct Hy as [Hy| ->]; [|apply I; auto].
      apply in_upd in Hy. destruct Hy as [Hy| ->]; [apply I; auto|]. eapply bobj_spent_ok; [apply (bi_objs _ _ I _ Hins)| | |]; reflexivity.
  - unfold holds. destruct (_ && _); [apply (bi_objs _ _ I); auto|constructor].
  - destruct T0 as (S & Hp). split; auto. intros y Hy. cbn [set_builders bw_builders] in Hy.
    apply in_upd in Hy. destruct Hy as [Hy| ->]; [|apply Hp; auto]. apply in_upd in Hy. destruct Hy as [Hy| ->]; [apply Hp; auto|apply (places_like b w1 s); auto].
Qed.

Theorem C80_quiet b o b' r : bstep b o = BNext b' r ->
  match o with
  | BOp _ | BFinalize _ _ => True
  | BExpect _ _ _ | BAnd _ _ | BMove _ => bw b' = bw b /\ bw_user b' = bw_user b
  | BDrop _ | BMoveAssign _ _ => only_sequences_die (bw b) (bw b') /\ bw_user b' = bw_user b
  end.
Proof.
  intros H. destruct o as [o|m ov ms|j cl|j|d sr|j|j l]; auto; cbn [bstep] in H.
  - unfold do_bexpect in H. destruct (find_overload (bw b) m ov) as [st|[s coll]] eqn:F.
    + unfold find_overload in F. destruct (nth_error (w_mocks (bw b)) m) as [mk|]; [|injection F as <-; discriminate].
      destruct (negb _); [injection F as <-; discriminate|]. destruct (nth_error (mk_sigs mk) ov); [|injection F as <-; discriminate].
      destruct (mk_colls mk) as [cs|]; [|injection F as <-; discriminate]. destruct (nth_error cs ov); [discriminate|injection F as <-; discriminate].
    + destruct (negb _); [discriminate|]. destruct (frontend_builder s ms); try discriminate; injection H as <- _; auto.
  - unfold do_band in H. destruct (nth_error (bw_builders b) j) as [o|]; [|discriminate].
    destruct (negb _); [discriminate|]. destruct (match cl with ClSeq _ => _ | _ => false end); [discriminate|].
    destruct (builder_and _ _); [|injection H as <- _; auto|discriminate]. destruct (bo_storage o); [|discriminate]. injection H as <- _. auto.
  - unfold do_bmove in H. destruct (nth_error (bw_builders b) j) as [o|]; [|discriminate]. destruct (bo_alive o); [|discriminate]. injection H as <- _. auto.
  - unfold do_bassign in H. destruct (nth_error (bw_builders b) d) as [od|]; [|discriminate]. destruct (nth_error (bw_builders b) sr) as [os|]; [|discriminate].
    destruct (negb _); [discriminate|]. destruct (d =? sr); [injection H as <- _; split; auto; apply osd_refl|].
    split; [apply osd_release in H; exact H|apply release_shares_parts in H; apply H].
  - unfold do_bdrop in H. destruct (nth_error (bw_builders b) j) as [o|]; [|discriminate]. destruct (bo_alive o); [|discriminate].
    split; [apply osd_release in H; exact H|apply release_shares_parts in H; apply H].
Qed.

(** ** Sequences *)

(** Finalizing a builder or extending it by in_sequence gives away nothing: its variable goes on to keep its sequences alive. *)
Theorem C80_keeps_sequences b o b' k ob : bstep b o = BNext b' RUnit -> nth_error (bw_builders b) k = Some ob ->
  (exists l, o = BFinalize k l) \/ (exists tags, o = BAnd k (ClSeq tags)) ->
  exists ob', nth_error (bw_builders b') k = Some ob' /\ holds ob' = holds ob.
Proof.
  intros H Hk C. pose proof (nth_error_lt _ _ _ Hk) as Lk.
  assert (U : forall x tail, nth_error (upd (bw_builders b) k x ++ tail) k = Some x).
  { intros x tail. rewrite nth_error_app1 by (rewrite length_upd; auto). eapply nth_error_upd_eq; eauto. }
  exists (used_up ob). split; auto. destruct C as [[l ->]|[tags ->]]; cbn [bstep] in H.
  - unfold do_bfinalize in H. rewrite Hk in H. destruct (negb _); [discriminate|].
    destruct (bo_null ob && _); [discriminate|]. destruct (control_new _ _ _) as [[ss ctl]|x| |u] eqn:E; try discriminate.
    destruct (bo_storage ob); [|discriminate]. destruct (nth_error (w_colls (bw b)) n); [|discriminate]. injection H as <-.
    cbn [bw_builders set_builders set_bw]. rewrite <- (U (used_up ob) []), app_nil_r. auto.
  - unfold do_band in H. rewrite Hk in H. destruct (negb _); [discriminate|]. destruct (_ && match _ with Ret _ => _ | _ => _ end); [discriminate|].
    destruct (builder_and _ _); try discriminate. destruct (bo_storage ob); [|discriminate]. injection H as <-. cbn [bw_builders set_builders]. apply U.
Qed.

(** All other uses leave nothing behind. *)
Theorem C80_gives_sequences b o b' k ob : bstep b o = BNext b' RUnit -> nth_error (bw_builders b) k = Some ob ->
  o = BMove k \/ (exists cl, o = BAnd k cl /\ match cl with ClSeq _ => False | _ => True end) \/ (exists d, o = BMoveAssign d k /\ d <> k) \/ o = BDrop k ->
  exists ob', nth_error (bw_builders b') k = Some ob' /\ holds ob' = [].
Proof.
  intros H Hk C. pose proof (nth_error_lt _ _ _ Hk) as Lk.
  assert (U : forall x tail, nth_error (upd (bw_builders b) k x ++ tail) k = Some x).
  { intros x tail. rewrite nth_error_app1 by (rewrite length_upd; auto). eapply nth_error_upd_eq; eauto. }
  assert (M : holds (moved_from ob) = []) by (unfold holds, moved_from; cbn; rewrite andb_false_r; auto).
  destruct C as [->|[[cl [-> Hc]]|[[d [-> Hd]]| ->]]]; cbn [bstep] in H.
  - unfold do_bmove in H. rewrite Hk in H. destruct (bo_alive ob); [|discriminate]. injection H as <-. cbn [bw_builders set_builders]. rewrite U. eauto.
  - unfold do_band in H. rewrite Hk in H. destruct (negb _); [discriminate|]. destruct (match cl with ClSeq _ => _ | _ => false end); [discriminate|].
    destruct (builder_and _ _); try discriminate. destruct (bo_storage ob); [|discriminate]. injection H as <-. cbn [bw_builders set_builders]. rewrite U.
    destruct cl; try contradiction; cbn [after_and]; eauto.
  - unfold do_bassign in H. rewrite Hk in H. destruct (nth_error (bw_builders b) d) as [od|] eqn:Ed; [|discriminate]. destruct (negb _); [discriminate|].
    destruct (Nat.eqb_spec d k); [congruence|]. apply release_shares_parts in H. destruct H as [_ ->]. cbn [bw_builders set_builders].
    rewrite nth_error_upd_neq by auto. specialize (U (moved_from ob) []). rewrite app_nil_r in U. rewrite U. eauto.
  - unfold do_bdrop in H. rewrite Hk in H. destruct (bo_alive ob); [|discriminate]. apply release_shares_parts in H. destruct H as [_ ->].
    cbn [bw_builders set_builders]. set (x := mkBObj _ _ _ _ _ _). specialize (U x []). rewrite app_nil_r in U. rewrite U. eauto.
Qed.

(** ** Examples *)

Fixpoint bexec (b : bworld) (ops : list bop) : option (bworld * list result) :=
  match ops with
  | [] => Some (b, [])
  | o :: t =>
      match bstep b o with
      | BNext b1 r => match bexec b1 t with Some (b2, rs) => Some (b2, r :: rs) | None => None end
      | _ => None
      end
  end.
Definition bafter (ops : list bop) : bworld := match bexec binit ops with Some (b, _) => b | None => binit end.
Definition bresults (ops : list bop) : list result := match bexec binit ops with Some (_, rs) => rs | None => [] end.
Definition breports (ops : list bop) : list report := flat_map (fun ev => match ev with EvReport _ r _ => [r] | _ => [] end) (w_trace (bw (bafter ops))).

Lemma bexec_run ops : forall b b' rs, bexec b ops = Some (b', rs) -> brun b ops b'.
Proof.
  induction ops as [|o ops IH]; intros b b' rs H; cbn [bexec] in H; [injection H as <- _; constructor|].
  destruct (bstep b o) as [b1 r| |u|] eqn:E; try discriminate. destruct (bexec b1 ops) as [[b2 rs2]|] eqn:E2; [|discriminate]. injection H as <- _.
  econstructor; eauto.
Qed.
Lemma bafter_reachable ops : (match bexec binit ops with Some _ => true | None => false end) = true -> breachable (bafter ops).
Proof. unfold bafter. destruct (bexec binit ops) as [[b rs]|] eqn:E; [|discriminate]. intros _. exists ops. eapply bexec_run; eauto. Qed.

(** auto b0 = mock.expect_call(); auto b1 = std::move(b0) and expect::in_sequence(seq); auto b2 = std::move(b1) and expect::twice();
    the user's sequence object ends; the mock is moved. *)
Definition prologue : list bop :=
  [BOp (OInstall (fun _ _ => Returns)); BOp (ONewSeq Lazy); BOp (ONewMock [sig_void]);
   BExpect 0 0 []; BAnd 0 (ClSeq [0]); BAnd 1 (ClTimes (TxExactly 2)); BOp (ODropSeq 0); BOp (OMoveMock 0)].

(** The builder keeps the sequence alive; finalized, it puts the expectation in the storage which mock 1 has now. *)
Example stored_sequence : bresults prologue = repeat RUnit 8 /\ w_sdead (bw (bafter prologue)) = [false] /\ w_exps (bw (bafter prologue)) = [] /\
  map bo_storage (bw_builders (bafter prologue)) = [None; None; Some 0] /\ map holds (bw_builders (bafter prologue)) = [[]; []; [0]] /\
  bw_user (bafter prologue) = [false] /\ w_iface (bw (bafter prologue)) = [true].
Proof. vm_compute. auto 10. Qed.

Definition called : list bop := prologue ++ [BFinalize 2 here; BOp (OCall 1 0 [] there); BOp OFinal; BOp (OReturn (UOk (VInt 0))); BOp (OCall 1 0 [] there); BOp OFinal; BOp (OReturn (UOk (VInt 0)))].
Example finalized_later : bresults (called ++ [BOp (OSatisfied 0)]) = repeat RUnit 11 ++ [RVal None; RUnit; RUnit; RVal None; RBool true] /\
  accepted (w_trace (bw (bafter called))) 0 = 2.
Proof. vm_compute. auto. Qed.

(** The hypotheses of C80_deferred, C80_expression and C80_failures are met. *)
Definition start : list bop := firstn 3 prologue.
Example deferred_case :
  (exists b1, perform (bafter start) (BExpect 0 0 [] :: ands (length (bw_builders (bafter start))) [ClSeq [0]; ClTimes (TxExactly 2)]) = BNext b1 RUnit /\
    brun b1 [BOp (ODropSeq 0); BOp (OMoveMock 0)] (bafter prologue)) /\
  find_overload (bw (bafter start)) 0 0 = inr (sig_void, 0) /\ find_overload (bw (bafter prologue)) 1 0 = inr (sig_void, 0) /\
  find_overload (bw (bafter prologue)) 0 0 = inl (Wrong UbNull) /\
  touches 2 (BOp (ODropSeq 0)) = false /\ touches 2 (BOp (OMoveMock 0)) = false /\
  (exists b2, bstep (bafter prologue) (BFinalize 2 here) = BNext b2 RUnit /\ length (w_exps (bw b2)) = 1).
Proof.
  split.
  - exists (bafter (firstn 6 prologue)). split; [vm_compute; reflexivity|].
    apply (brun_cons _ _ (bafter (firstn 7 prologue)) RUnit); [vm_compute; reflexivity|].
    apply (brun_cons _ _ (bafter prologue) RUnit); [vm_compute; reflexivity|constructor].
  - do 5 (split; [reflexivity|]). exists (bafter (prologue ++ [BFinalize 2 here])). split; vm_compute; reflexivity.
Qed.

Example expression_case :
  (exists b2, perform (bafter start) (in_parts (bafter start) 0 0 [] [ClSeq [0]; ClTimes (TxExactly 2)] here) = BNext b2 RUnit /\ length (w_exps (bw b2)) = 1 /\
     length (bw_builders b2) = 3) /\
  perform (bafter start) (in_parts (bafter start) 0 0 [] [ClSeq [0]; ClSeq [0]] here) = BNext (bafter (firstn 5 prologue)) (RThrow EInvalidArgument) /\
  perform (bafter (start ++ [BOp (OMoveMock 0)])) (in_parts (bafter (start ++ [BOp (OMoveMock 0)])) 0 0 [] [] here) = BWrong UbNull.
Proof.
  split; [|split; vm_compute; reflexivity].
  exists (bafter (firstn 6 prologue ++ [BFinalize 2 here])). split; [vm_compute; reflexivity|]. split; vm_compute; reflexivity.
Qed.

(** One expects a finalized builder to hold nothing any more; but: *)
Theorem C80_finalized_holds_nothing_refuted :
  exists b k l b' ob, breachable b /\ bstep b (BFinalize k l) = BNext b' RUnit /\ nth_error (bw_builders b') k = Some ob /\ holds ob <> [].
Proof.
  exists (bafter prologue), 2, here, (bafter (prologue ++ [BFinalize 2 here])).
  destruct (nth_error (bw_builders (bafter (prologue ++ [BFinalize 2 here]))) 2) as [ob|] eqn:E; [|exfalso; revert E; vm_compute; discriminate].
  exists ob. split; [apply bafter_reachable; vm_compute; reflexivity|]. split; [vm_compute; reflexivity|]. split; auto.
  assert (H : option_map holds (nth_error (bw_builders (bafter (prologue ++ [BFinalize 2 here]))) 2) = Some [0]) by (vm_compute; reflexivity).
  rewrite E in H. injection H as ->. discriminate.
Qed.

(** This can be noticed: the sequence complains when the variable ends, not together with its last expectation. Without the variable it does. *)
Definition ended : list bop := prologue ++ [BFinalize 2 here; BOp (OEndScope 0)].
Definition no_variable : list bop :=
  [BOp (OInstall (fun _ _ => Returns)); BOp (ONewSeq Lazy); BOp (ONewMock [sig_void]);
   BOp (OExpect 0 0 [] [ClSeq [0]; ClTimes (TxExactly 2)] here); BOp (ODropSeq 0); BOp (OEndScope 0)].
Example late_complaint :
  map (fun r => match r with RError k n => Some (k, n) | _ => None end) (breports ended) = [None] /\
  map (fun r => match r with RError k n => Some (k, n) | _ => None end) (breports (ended ++ [BDrop 2])) = [None; Some (0, 1)] /\
  w_sdead (bw (bafter ended)) = [false] /\ w_sdead (bw (bafter (ended ++ [BDrop 2]))) = [true] /\
  map (fun r => match r with RError k n => Some (k, n) | _ => None end) (breports no_variable) = [None; Some (0, 1)] /\
  length (bresults (ended ++ [BDrop 2])) = 11.
Proof. vm_compute. auto 10. Qed.

(** With the reporter of the library, whose exceptions must not leave destructors, such an end of a builder terminates the program, as does the end of
    the sequence; with another owner left it does not. *)
Example late_stop :
  bstep (bafter (ended ++ [BOp (OInstall (fun _ _ => Throws))])) (BDrop 2) = BStop /\
  bstep (bafter (firstn 6 prologue ++ [BFinalize 2 here; BOp (OEndScope 0); BOp (OInstall (fun _ _ => Throws))])) (BDrop 2) <> BStop.
Proof. vm_compute. split; [auto|discriminate]. Qed.

(** Using a builder twice. *)
Example used_up_cases :
  bstep (bafter prologue) (BFinalize 0 here) = BWrong UbAssert /\            (* storage gone *)
  bstep (bafter prologue) (BFinalize 1 here) = BWrong UbNull /\              (* sequences gone, too *)
  bstep (bafter prologue) (BAnd 0 (ClTimes TxOnce)) = BWrong UbAssert /\
  bstep (bafter (firstn 6 prologue ++ [BOp (ONewSeq Lazy)])) (BAnd 1 (ClSeq [1])) = BWrong UbNull /\
  bstep (bafter (firstn 6 prologue ++ [BOp (ONewSeq Lazy)])) (BAnd 1 (ClSeq [1; 1])) = BNext (bafter (firstn 6 prologue ++ [BOp (ONewSeq Lazy)])) (RThrow EInvalidArgument) /\
  bstep (bafter (firstn 6 prologue ++ [BOp (ONewSeq Lazy)])) (BAnd 0 (ClSeq [1])) = BWrong UbAssert /\
  bstep (bafter (prologue ++ [BFinalize 2 here])) (BFinalize 2 there) = BWrong UbAssert /\
  bstep (bafter (prologue ++ [BDrop 2])) (BFinalize 2 there) = BInvalid /\ bstep (bafter (prologue ++ [BDrop 2])) (BDrop 2) = BInvalid /\
  bstep (bafter (prologue ++ [BDrop 2])) (BMove 2) = BInvalid /\ bstep (bafter (prologue ++ [BDrop 2])) (BAnd 2 (ClPolicy (PSideEffect 1))) = BInvalid /\
  bstep (bafter prologue) (BAnd 2 (ClTimes TxOnce)) = BInvalid /\            (* limits twice: ill-formed *)
  bstep (bafter prologue) (BAnd 2 (ClSeq [0])) = BInvalid /\                 (* the user has no such sequence any more *)
  bstep (bafter prologue) (BMove 7) = BInvalid /\ bstep (bafter prologue) (BAnd 7 (ClTimes TxOnce)) = BInvalid /\
  bstep (bafter prologue) (BFinalize 7 here) = BInvalid /\ bstep (bafter prologue) (BDrop 7) = BInvalid /\ bstep (bafter prologue) (BMoveAssign 7 2) = BInvalid /\
  bstep (bafter prologue) (BExpect 1 0 [m_any]) = BInvalid /\ bstep (bafter prologue) (BExpect 0 0 []) = BWrong UbNull.
Proof. vm_compute. auto 25. Qed.

(** Throwing operands: limits out of order, a sequence which the builder has already. The builder can still be used. *)
Definition five := firstn 5 prologue.
Example throwing_cases :
  bstep (bafter five) (BAnd 1 (ClTimes (TxRange 3 2))) = BNext (bafter five) (RThrow EInvalidArgument) /\
  bstep (bafter five) (BAnd 1 (ClSeq [0])) = BNext (bafter five) (RThrow EInvalidArgument) /\
  bresults (five ++ [BAnd 1 (ClSeq [0]); BAnd 1 (ClTimes TxOnce); BFinalize 2 here]) = repeat RUnit 5 ++ [RThrow EInvalidArgument; RUnit; RUnit].
Proof. vm_compute. auto. Qed.

(** Moving builders; assignment needs the same type, and gives up the sequences of the target. *)
Definition two_builders : list bop :=
  [BOp (ONewSeq Lazy); BOp (ONewSeq Greedy); BOp (ONewMock [sig_void; sig_unary]); BExpect 0 0 []; BAnd 0 (ClSeq [0]); BExpect 0 0 []; BAnd 2 (ClSeq [1]);
   BOp (ODropSeq 0); BOp (ODropSeq 1)].
Example assignment :
  map holds (bw_builders (bafter two_builders)) = [[]; [0]; []; [1]] /\ w_sdead (bw (bafter two_builders)) = [false; false] /\
  map holds (bw_builders (bafter (two_builders ++ [BMoveAssign 1 3]))) = [[]; [1]; []; []] /\
  w_sdead (bw (bafter (two_builders ++ [BMoveAssign 1 3]))) = [true; false] /\
  map bo_storage (bw_builders (bafter (two_builders ++ [BMoveAssign 1 3]))) = [None; Some 0; None; None] /\
  bstep (bafter two_builders) (BMoveAssign 1 1) = BNext (bafter two_builders) RUnit /\
  bstep (bafter two_builders) (BMoveAssign 1 0) = BInvalid /\ bstep (bafter two_builders) (BMoveAssign 0 1) = BInvalid /\
  map holds (bw_builders (bafter (two_builders ++ [BMove 1]))) = [[]; []; []; [1]; [0]] /\
  map bo_storage (bw_builders (bafter (two_builders ++ [BMove 1]))) = [None; None; None; Some 0; Some 0] /\
  bresults (two_builders ++ [BMove 1; BFinalize 4 here; BOp (OSatisfied 0)]) = repeat RUnit 11 ++ [RBool false] /\
  w_sdead (bw (bafter (two_builders ++ [BMove 1; BDrop 4]))) = [true; false] /\ w_sdead (bw (bafter (two_builders ++ [BMove 1; BDrop 1]))) = [false; false].
Proof. vm_compute. auto 20. Qed.
Example types :
  let p := [BOp (ONewMock [sig_void; sig_unary]); BExpect 0 0 []; BExpect 0 0 []; BExpect 0 1 [m_any]; BExpect 0 0 []; BAnd 3 (ClTimes TxOnce);
            BExpect 0 0 []; BAnd 5 (ClFinal (FThrows (EUser 1))); BExpect 0 0 []; BAnd 7 (ClPolicy (PSideEffect 1))] in
  let assigns d s := match bstep (bafter p) (BMoveAssign d s) with BNext _ _ => true | _ => false end in
  (assigns 0 1, assigns 0 2, assigns 0 4, assigns 0 6, assigns 0 8, assigns 4 0, assigns 6 0, assigns 8 0, assigns 0 3) =
  (true, false, false, false, false, false, false, false, true).
Proof. vm_compute. reflexivity. Qed.

(** Finalizing after the mock is gone: nobody can call the expectation; it is reported as unfulfilled. *)
Example without_mock :
  let p := [BOp (OInstall (fun _ _ => Returns)); BOp (ONewMock [sig_void]); BExpect 0 0 []; BOp (ODestroyMock 0); BFinalize 0 here; BOp (OSatisfied 0)] in
  bresults p = repeat RUnit 5 ++ [RBool false] /\
  map (fun r => match r with RUnfulfilled _ => true | _ => false end) (breports (p ++ [BOp (OEndScope 0)])) = [true].
Proof. vm_compute. auto. Qed.

(** A mock with int(int): a builder without finalizer cannot be finalized, one with it can; the finalizer and the policies arrive. *)
Example policies_arrive :
  let p := [BOp (ONewMock [sig_int]); BExpect 0 0 [m_eq 4]; BAnd 0 (ClFinal (FReturns (VInt 7))); BMove 1; BFinalize 2 here] in
  bstep (bafter (firstn 2 p)) (BFinalize 0 here) = BInvalid /\
  bresults (p ++ [BOp (OCall 0 0 [VInt 4] here); BOp OFinal; BOp (OReturn (UOk (VInt 0)))]) = repeat RUnit 7 ++ [RVal (Some (VInt 7))] /\
  bresults (p ++ [BOp (OCall 0 0 [VInt 5] here)]) = repeat RUnit 5 ++ [RThrow EReporter] /\
  map (fun eo => (e_loc (eo_exp eo), eo_ov eo, eo_sig eo, eo_coll eo)) (w_exps (bw (bafter p))) = [(here, 0, sig_int, 0)].
Proof. vm_compute. auto. Qed.

Print Assumptions C80_every_program.
Print Assumptions C80_failures.
Print Assumptions C80_limits.
Print Assumptions C80_sequence_lifetime.
Print Assumptions C80_conservative.
Print Assumptions C80_expression.
Print Assumptions C80_untouched.
Print Assumptions C80_deferred.
Print Assumptions C80_throwing_operand.
Print Assumptions C80_others_never_throw.
Print Assumptions C80_used_up.
Print Assumptions C80_no_second_use.
Print Assumptions C80_second_use_undefined.
Print Assumptions C80_assignable.
Print Assumptions C80_quiet.
Print Assumptions C80_keeps_sequences.
Print Assumptions C80_gives_sequences.
Print Assumptions C80_finalized_holds_nothing_refuted.
