(** * ObjInv: handles, mocks and running calls of reachable programs. *)

From Verif Require Import Base Lib Sequence Control Signature Printer Reports Expectation Builder BuildSpec World WorldSpec
  SeqInv BuilderLemmas StepCases MatchLemmas WorldInv.

(** ** How the operations change mocks, handles and frames *)

Definition new_ids (w : world) (sigs : list signature) : list nat :=
  map (fun s => match overload_collection sigs s with Some i => length (w_colls w) + i | None => length (w_colls w) end) sigs.

Definition mock_sigs_ok (sigs : list signature) : bool := is_overload_set sigs && forallb (fun s => negb (sg_variadic s)) sigs.

Inductive mocks_change (w w' : world) : op -> Prop :=
| McNew sigs : mock_sigs_ok sigs = true ->
    w_mocks w' = w_mocks w ++ [mkMock sigs (Some (new_ids w sigs)) true] ->
    w_colls w' = w_colls w ++ map (fun _ => []) (mock_collections sigs) -> mocks_change w w' (ONewMock sigs)
| McMove m mk : nth_error (w_mocks w) m = Some mk -> mk_alive mk = true ->
    w_mocks w' = upd (w_mocks w) m (mkMock (mk_sigs mk) None true) ++ [mkMock (mk_sigs mk) (mk_colls mk) true] ->
    w_colls w' = w_colls w -> mocks_change w w' (OMoveMock m)
| McAssign dst src md ms : nth_error (w_mocks w) dst = Some md -> nth_error (w_mocks w) src = Some ms ->
    mk_alive md = true -> mk_alive ms = true -> dst <> src ->
    mk_sigs md = mk_sigs ms ->
    w_mocks w' = upd (upd (w_mocks w) src (mkMock (mk_sigs ms) None true)) dst (mkMock (mk_sigs ms) (mk_colls ms) true) ->
    w_colls w' = w_colls w -> mocks_change w w' (OMoveAssignMock dst src)
| McDestroy m mk : nth_error (w_mocks w) m = Some mk -> mk_alive mk = true ->
    w_mocks w' = upd (w_mocks w) m (mkMock (mk_sigs mk) None false) ->
    w_colls w' = w_colls w -> mocks_change w w' (ODestroyMock m)
| McSame o : w_mocks w' = w_mocks w -> length (w_colls w') = length (w_colls w) -> mocks_change w w' o.

Definition scoped_change (w w' : world) (o : op) (r : result) : Prop :=
  match o with
  | OExpect _ _ _ _ _ =>
      (r = RUnit /\ w_scoped w' = w_scoped w ++ [HOwns (length (w_exps w))] /\ length (w_exps w') = S (length (w_exps w))) \/
      (exists x, r = RThrow x /\ w' = w)
  | OEndScope h =>
      w_scoped w' = upd (w_scoped w) h HDead /\
      (nth_error (w_scoped w) h = Some HEmpty \/ exists e, nth_error (w_scoped w) h = Some (HOwns e))
  | OMoveScoped h => exists x, nth_error (w_scoped w) h = Some x /\ x <> HDead /\ w_scoped w' = upd (w_scoped w) h HEmpty ++ [x]
  | OMoveAssignScoped dst src =>
      exists old x, nth_error (w_scoped w) dst = Some old /\ nth_error (w_scoped w) src = Some x /\ old <> HDead /\ x <> HDead /\
        ((dst = src /\ w' = w) \/ (dst <> src /\ w_scoped w' = upd (upd (w_scoped w) src HEmpty) dst x))
  | _ => w_scoped w' = w_scoped w
  end.

(** The expectation whose scope ends, if any. *)
Definition ended (w : world) (o : op) : option nat :=
  match o with
  | OEndScope h => match nth_error (w_scoped w) h with Some (HOwns e) => Some e | _ => None end
  | OMoveAssignScoped dst src =>
      if dst =? src then None else match nth_error (w_scoped w) dst with Some (HOwns e) => Some e | _ => None end
  | _ => None
  end.

(** Liveness, place and requirements of existing expectations. *)
Definition same_static (x x' : eobj) : Prop :=
  eo_coll x' = eo_coll x /\ eo_ov x' = eo_ov x /\ eo_sig x' = eo_sig x /\
  e_loc (eo_exp x') = e_loc (eo_exp x) /\ e_policies (eo_exp x') = e_policies (eo_exp x) /\ e_final (eo_exp x') = e_final (eo_exp x) /\
  x_min x' = x_min x /\ x_max x' = x_max x /\ c_seqs (e_ctl (eo_exp x')) = c_seqs (e_ctl (eo_exp x)).

Lemma same_static_refl x : same_static x x.
Proof. repeat split; auto. Qed.

Lemma same_static_trans x y z : same_static x y -> same_static y z -> same_static x z.
Proof. unfold same_static. intuition congruence. Qed.

Lemma end_expectation_parts w e w' r : end_expectation w e = Next w' r ->
  w_mocks w' = w_mocks w /\ w_scoped w' = w_scoped w /\ w_frames w' = w_frames w /\ length (w_colls w') = length (w_colls w) /\
  exists eo, nth_error (w_exps w) e = Some eo /\ w_exps w' = upd (w_exps w) e (mkEObj (eo_exp eo) (eo_coll eo) false (eo_ov eo) (eo_sig eo)).
Proof.
  intros H. apply end_expectation_next in H.
  destruct H as (eo & l & unf & evs & d' & He & Hl & Hin & Hrel & -> & Hcase). simpl.
  rewrite length_upd. repeat split; auto. exists eo. auto.
Qed.

Lemma release_seq_parts w s w' r : release_seq w s = Next w' r ->
  w_mocks w' = w_mocks w /\ w_scoped w' = w_scoped w /\ w_frames w' = w_frames w /\ w_colls w' = w_colls w /\ w_exps w' = w_exps w.
Proof.
  intros H. apply release_seq_next in H. destruct H as [-> [[-> _]|(_ & _ & q & _ & -> & _)]]; auto.
Qed.

Lemma step_mocks w o w' r : step w o = Next w' r -> mocks_change w w' o.
Proof.
  intros H. destruct o; simpl in H.
  - inversion H; subst. apply McSame; auto.
  - destruct (nth s (w_iface w) false); [|discriminate]. apply release_seq_parts in H. simpl in H.
    destruct H as (? & ? & ? & ? & ?). apply McSame; auto; congruence.
  - destruct (is_overload_set sigs && _) eqn:Ho; [|discriminate]. inversion H; subst. apply McNew; auto.
  - destruct (nth_error (w_mocks w) m) as [mk|] eqn:Hm; [|discriminate]. destruct (mk_alive mk) eqn:Ha; [|discriminate].
    inversion H; subst. eapply McMove; eauto.
  - destruct (nth_error (w_mocks w) dst) as [md|] eqn:Hd; [|discriminate].
    destruct (nth_error (w_mocks w) src) as [msr|] eqn:Hs; [|discriminate].
    destruct (mk_alive md) eqn:Ha1; [|discriminate]. destruct (mk_alive msr) eqn:Ha2; [|discriminate].
    destruct (list_eq_dec signature_eq_dec (mk_sigs md) (mk_sigs msr)) as [Hsig|]; [|discriminate]. simpl in H.
    destruct (Nat.eqb_spec dst src); inversion H; subst; [apply McSame; auto|]. eapply McAssign; eauto.
  - destruct (nth_error (w_mocks w) m) as [mk|] eqn:Hm; [|discriminate]. destruct (mk_alive mk) eqn:Ha; [|discriminate].
    inversion H; subst. eapply McDestroy; eauto.
  - apply do_expect_next in H. destruct H as (s & coll & Hf & Hlen & Hok & [(x & Hb & -> & ->)|(b & ss & ctl & mem & Hb & Hfin & Hc & Hm & -> & ->)]).
    + apply McSame; auto.
    + apply McSame; simpl; auto. apply length_upd.
  - apply do_call_next in H. destruct H as (s & coll & Hf & Hlen & H).
    apply handle_call_next in H. destruct H as (lst & es & ml & Hl & Hes & Hml & Hcr).
    inversion Hcr; subst; apply McSame; auto.
  - unfold do_action in H. destruct (w_frames w) as [|f fs]; [discriminate|].
    destruct (f_todo f); [discriminate|]. destruct (negb _); [discriminate|]. inversion H; subst. apply McSame; auto.
  - destruct (w_frames w); [discriminate|]. destruct (_ && _); discriminate.
  - unfold do_final in H. destruct (w_frames w) as [|f fs]; [discriminate|].
    destruct (f_todo f); [|discriminate]. destruct (f_final f); [discriminate|]. destruct (negb _); [discriminate|].
    inversion H; subst. apply McSame; auto.
  - unfold do_return in H. destruct (w_frames w) as [|f fs]; [discriminate|].
    destruct (negb _); [discriminate|]. destruct (nth_error _ _); [|discriminate].
    destruct (finalizer_result _ _); [|unfold thrown in H; destruct (f_noexcept f); [discriminate|]]; inversion H; subst; apply McSame; auto.
  - destruct (nth_error (w_scoped w) h) as [[e| |]|]; try discriminate.
    destruct (nth_error (w_exps w) e) as [eo|]; [|discriminate]. destruct (eo_alive eo); [|discriminate].
    inversion H; subst. apply McSame; auto.
  - destruct (nth_error (w_scoped w) h) as [[e| |]|]; try discriminate.
    + apply end_expectation_parts in H. simpl in H. destruct H as (? & _ & _ & ? & _). apply McSame; auto.
    + inversion H; subst. apply McSame; auto.
  - destruct (nth_error (w_scoped w) h) as [[e| |]|]; try discriminate; inversion H; subst; apply McSame; auto.
  - destruct (nth_error (w_scoped w) dst) as [[e| |]|], (nth_error (w_scoped w) src) as [[e'| |]|]; try discriminate;
      destruct (dst =? src);
      try (inversion H; subst; apply McSame; auto; fail);
      destruct (end_expectation _ e) as [w2 r2| | |] eqn:He in H; try discriminate;
      (assert (w2 = w') by (destruct r2; inversion H; auto)); subst;
      apply end_expectation_parts in He; simpl in He; destruct He as (? & _ & _ & ? & _); apply McSame; auto.
  - inversion H; subst. apply McSame; auto.
  - inversion H; subst. apply McSame; auto.
Qed.

Lemma step_scoped w o w' r : step w o = Next w' r -> scoped_change w w' o r.
Proof.
  intros H. destruct o; simpl in H; simpl.
  - inversion H; subst. auto.
  - destruct (nth s (w_iface w) false); [|discriminate]. apply release_seq_parts in H. simpl in H. tauto.
  - destruct (is_overload_set sigs && _); [|discriminate]. inversion H; subst. auto.
  - destruct (nth_error (w_mocks w) m) as [mk|]; [|discriminate]. destruct (mk_alive mk); [|discriminate]. inversion H; subst. auto.
  - destruct (nth_error (w_mocks w) dst) as [md|]; [|discriminate].
    destruct (nth_error (w_mocks w) src) as [msr|]; [|discriminate].
    destruct (negb _); [discriminate|]. destruct (dst =? src); inversion H; subst; auto.
  - destruct (nth_error (w_mocks w) m) as [mk|]; [|discriminate]. destruct (mk_alive mk); [|discriminate]. inversion H; subst. auto.
  - apply do_expect_next in H. destruct H as (s & coll & Hf & Hlen & Hok & [(x & Hb & -> & ->)|(b & ss & ctl & mem & Hb & Hfin & Hc & Hm & -> & ->)]).
    + right. eauto.
    + left. simpl. rewrite app_length. simpl. repeat split; auto. lia.
  - apply do_call_next in H. destruct H as (s & coll & Hf & Hlen & H).
    apply handle_call_next in H. destruct H as (lst & es & ml & Hl & Hes & Hml & Hcr).
    inversion Hcr; subst; auto.
  - unfold do_action in H. destruct (w_frames w) as [|f fs]; [discriminate|].
    destruct (f_todo f); [discriminate|]. destruct (negb _); [discriminate|]. inversion H; subst. auto.
  - destruct (w_frames w); [discriminate|]. destruct (_ && _); discriminate.
  - unfold do_final in H. destruct (w_frames w) as [|f fs]; [discriminate|].
    destruct (f_todo f); [|discriminate]. destruct (f_final f); [discriminate|]. destruct (negb _); [discriminate|].
    inversion H; subst. auto.
  - unfold do_return in H. destruct (w_frames w) as [|f fs]; [discriminate|].
    destruct (negb _); [discriminate|]. destruct (nth_error _ _); [|discriminate].
    destruct (finalizer_result _ _); [|unfold thrown in H; destruct (f_noexcept f); [discriminate|]]; inversion H; subst; auto.
  - destruct (nth_error (w_scoped w) h) as [[e| |]|]; try discriminate.
    destruct (nth_error (w_exps w) e) as [eo|]; [|discriminate]. destruct (eo_alive eo); [|discriminate].
    inversion H; subst. auto.
  - destruct (nth_error (w_scoped w) h) as [[e| |]|]; try discriminate.
    + apply end_expectation_parts in H. simpl in H. destruct H as (_ & -> & _). eauto.
    + inversion H; subst. auto.
  - destruct (nth_error (w_scoped w) h) as [[e| |]|]; try discriminate; inversion H; subst;
      eexists; repeat split; eauto; discriminate.
  - destruct (nth_error (w_scoped w) dst) as [[e| |]|], (nth_error (w_scoped w) src) as [[e'| |]|]; try discriminate;
      destruct (Nat.eqb_spec dst src);
      try (inversion H; subst; eexists _, _; repeat split; eauto; try discriminate; fail);
      destruct (end_expectation _ e) as [w2 r2| | |] eqn:He in H; try discriminate;
      (assert (w2 = w') by (destruct r2; inversion H; auto)); subst;
      apply end_expectation_parts in He; simpl in He; destruct He as (_ & -> & _);
      eexists _, _; repeat split; eauto; discriminate.
  - inversion H; subst. auto.
  - inversion H; subst. auto.
Qed.

(** ** How the operations change expectations *)

Lemma step_exps w o w' r : WInv w -> step w o = Next w' r -> forall e x, exp_at w e x ->
  exists x', exp_at w' e x' /\ same_static x x' /\
    eo_alive x' = eo_alive x && negb (match ended w o with Some k => k =? e | None => false end).
Proof.
  intros I H e x Hx. unfold exp_at in *.
  assert (Hsame : forall y, y = x -> exists x', Some y = Some x' /\ same_static x x' /\ eo_alive x' = eo_alive x && true).
  { intros y ->. exists x. rewrite andb_true_r. repeat split; auto. }
  assert (Hend : forall w1 k, w_exps w1 = w_exps w -> end_expectation w1 k = Next w' r ->
            exists x', nth_error (w_exps w') e = Some x' /\ same_static x x' /\ eo_alive x' = eo_alive x && negb (k =? e)).
  { intros w1 k E He. apply end_expectation_parts in He. destruct He as (_ & _ & _ & _ & eo & Heo & ->).
    rewrite E in *. destruct (Nat.eqb_spec k e) as [->|Hne].
    - rewrite nth_error_upd_eq by (eapply nth_error_lt; eauto). eexists. split; eauto.
      rewrite Hx in Heo. inversion Heo; subst. rewrite andb_false_r. repeat split; auto.
    - rewrite nth_error_upd_neq by auto. exists x. rewrite andb_true_r. repeat split; auto. }
  destruct o; simpl in H; cbn [ended]; try (cbn [negb]).
  - inversion H; subst. simpl. rewrite Hx. auto.
  - destruct (nth s (w_iface w) false); [|discriminate]. apply release_seq_parts in H. simpl in H.
    destruct H as (_ & _ & _ & _ & ->). rewrite Hx. auto.
  - destruct (is_overload_set sigs && _); [|discriminate]. inversion H; subst. simpl. rewrite Hx. auto.
  - destruct (nth_error (w_mocks w) m) as [mk|]; [|discriminate]. destruct (mk_alive mk); [|discriminate]. inversion H; subst. simpl. rewrite Hx. auto.
  - destruct (nth_error (w_mocks w) dst) as [md|]; [|discriminate].
    destruct (nth_error (w_mocks w) src) as [msr|]; [|discriminate].
    destruct (negb _); [discriminate|]. destruct (dst =? src); inversion H; subst; simpl; rewrite Hx; auto.
  - destruct (nth_error (w_mocks w) m) as [mk|]; [|discriminate]. destruct (mk_alive mk); [|discriminate]. inversion H; subst. simpl. rewrite Hx. auto.
  - apply do_expect_next in H. destruct H as (s & coll & Hf & Hlen & Hok & [(y & Hb & -> & ->)|(b & ss & ctl & mem & Hb & Hfin & Hc & Hm & -> & ->)]).
    + rewrite Hx. auto.
    + simpl. rewrite (nth_error_snoc_old _ _ _ _ Hx). auto.
  - apply do_call_next in H. destruct H as (s & coll & Hf & Hlen & H).
    apply handle_call_next in H. destruct H as (lst & es & ml & Hl & Hes & Hml & Hcr).
    inversion Hcr; subst.
    + simpl. destruct (Nat.eq_dec n e) as [->|Hne].
      * rewrite nth_error_upd_eq by (eapply nth_error_lt; eauto). rewrite Hx in H2. inversion H2; subst eo.
        pose proof (consume_applicable _ _ _ H3) as Happ.
        destruct (control_consume_ok _ _ _ _ (wi_s _ I) (ctls_nth _ _ _ Hx) Happ) as (ss' & Hc' & _).
        unfold ctl_of in Hc'. rewrite H3 in Hc'. inversion Hc'; subst.
        eexists. split; eauto. simpl. rewrite andb_true_r. repeat split; auto.
      * rewrite nth_error_upd_neq by auto. rewrite Hx. auto.
    + simpl. rewrite Hx. auto.
  - unfold do_action in H. destruct (w_frames w) as [|f fs]; [discriminate|].
    destruct (f_todo f); [discriminate|]. destruct (negb _) in H; [discriminate|]. inversion H; subst. simpl. rewrite Hx. auto.
  - destruct (w_frames w); [discriminate|]. destruct (_ && _) in H; discriminate.
  - unfold do_final in H. destruct (w_frames w) as [|f fs]; [discriminate|].
    destruct (f_todo f); [|discriminate]. destruct (f_final f); [discriminate|]. destruct (negb _) in H; [discriminate|].
    inversion H; subst. simpl. rewrite Hx. auto.
  - unfold do_return in H. destruct (w_frames w) as [|f fs]; [discriminate|].
    destruct (negb _) in H; [discriminate|]. destruct (nth_error _ (f_exp f)); [|discriminate].
    destruct (finalizer_result _ _); [|unfold thrown in H; destruct (f_noexcept f); [discriminate|]]; inversion H; subst; simpl; rewrite Hx; auto.
  - destruct (nth_error (w_scoped w) h) as [[k| |]|]; try discriminate.
    destruct (nth_error (w_exps w) k) as [eo|]; [|discriminate]. destruct (eo_alive eo) in H; [|discriminate].
    inversion H; subst. rewrite Hx. auto.
  - destruct (nth_error (w_scoped w) h) as [[k| |]|]; try discriminate.
    + eapply Hend in H; auto.
    + inversion H; subst. simpl. rewrite Hx. auto.
  - destruct (nth_error (w_scoped w) h) as [[k| |]|]; try discriminate; inversion H; subst; simpl; rewrite Hx; auto.
  - destruct (nth_error (w_scoped w) dst) as [[k| |]|], (nth_error (w_scoped w) src) as [[e'| |]|]; try discriminate;
      destruct (Nat.eqb_spec dst src);
      try (inversion H; subst; simpl; rewrite Hx; auto; fail);
      destruct (end_expectation _ k) as [w2 r2| | |] eqn:He in H; try discriminate;
      (assert (w2 = w' /\ r2 = r) as [-> ->] by (destruct r2; inversion H; auto));
      eapply Hend in He; auto.
  - inversion H; subst. simpl. rewrite Hx. auto.
  - inversion H; subst. simpl. rewrite Hx. auto.
Qed.

(** New expectations only come from expectation expressions. *)
Lemma step_new_exps w o w' r : step w o = Next w' r -> forall e x', exp_at w' e x' -> length (w_exps w) <= e ->
  exists m ov ms cls l s coll b ss ctl mem, o = OExpect m ov ms cls l /\ find_overload w m ov = inr (s, coll) /\
    length ms = length (sg_params s) /\ forallb (clause_ok w (length (sg_params s))) cls = true /\
    build s ms cls = BOk b /\ finalize_ok s b = true /\ control_new (w_seqs w) (b_times b) (b_seqs b) = Ret (ss, ctl) /\
    nth_error (w_colls w) coll = Some mem /\
    e = length (w_exps w) /\ x' = mkEObj (mkExp l ctl (b_policies b) (b_final b)) coll true ov s /\
    w' = new_world w coll mem ss x'.
Proof.
  intros H e x' Hx Hle. pose proof (step_change _ _ _ _ H) as Hc. unfold exp_at in Hx.
  destruct Hc.
  - rewrite H3 in Hx. apply nth_error_lt in Hx. lia.
  - subst w'. simpl in Hx. apply nth_error_lt in Hx. lia.
  - subst w'. simpl in Hx. apply nth_error_lt in Hx. lia.
  - subst w'. simpl in Hx. apply nth_error_snoc in Hx. destruct Hx as [[_ Hx]|[-> ->]]; [lia|].
    exists m, ov, ms, cls, l, s, coll, b, ss, ctl, members. repeat split; auto.
  - subst w'. simpl in Hx. apply nth_error_lt in Hx. rewrite length_upd in Hx. lia.
  - subst w'. simpl in Hx. apply nth_error_lt in Hx. rewrite length_upd in Hx. destruct H0 as [sc ->]. simpl in Hx. lia.
Qed.

Lemma step_exps_length w o w' r : step w o = Next w' r -> length (w_exps w) <= length (w_exps w').
Proof.
  intros H. apply step_change in H. destruct H; subst; try (simpl; rewrite ?app_length, ?length_upd; lia).
  - rewrite H2. auto.
  - destruct H as [sc ->]. simpl. rewrite length_upd. auto.
Qed.

(** ** The invariant *)

Record OInv (w : world) : Prop := mkOInv {
  oi_own : forall h e, nth_error (w_scoped w) h = Some (HOwns e) -> exists x, exp_at w e x /\ eo_alive x = true;
  oi_owned : forall e x, exp_at w e x -> eo_alive x = true -> exists h, nth_error (w_scoped w) h = Some (HOwns e);
  oi_uniq : forall h h' e, nth_error (w_scoped w) h = Some (HOwns e) -> nth_error (w_scoped w) h' = Some (HOwns e) -> h = h';
  oi_len : forall m mk cs, nth_error (w_mocks w) m = Some mk -> mk_colls mk = Some cs -> length cs = length (mk_sigs mk);
  oi_set : forall m mk, nth_error (w_mocks w) m = Some mk -> mock_sigs_ok (mk_sigs mk) = true;
  oi_range : forall m mk cs ov c, nth_error (w_mocks w) m = Some mk -> mk_colls mk = Some cs -> nth_error cs ov = Some c ->
    c < length (w_colls w);
  oi_sep : forall m m' mk mk' cs cs' ov ov' c, nth_error (w_mocks w) m = Some mk -> nth_error (w_mocks w) m' = Some mk' ->
    mk_colls mk = Some cs -> mk_colls mk' = Some cs' -> nth_error cs ov = Some c -> nth_error cs' ov' = Some c -> m = m';
  oi_decay : forall m mk cs ov ov' c c' s s', nth_error (w_mocks w) m = Some mk -> mk_colls mk = Some cs ->
    nth_error cs ov = Some c -> nth_error cs ov' = Some c' -> nth_error (mk_sigs mk) ov = Some s -> nth_error (mk_sigs mk) ov' = Some s' ->
    (c = c' <-> decay s = decay s');
  oi_exp : forall e x m mk cs ov, exp_at w e x -> nth_error (w_mocks w) m = Some mk -> mk_colls mk = Some cs ->
    nth_error cs ov = Some (eo_coll x) ->
    nth_error (mk_sigs mk) (eo_ov x) = Some (eo_sig x) /\ nth_error cs (eo_ov x) = Some (eo_coll x);
  oi_policies : forall e x, exp_at w e x ->
    In (PCategory (frontend_category (eo_sig x))) (e_policies (eo_exp x)) /\
    In (PConstness (frontend_constness (eo_sig x))) (e_policies (eo_exp x))
}.

Lemma oinv_init : OInv init.
Proof.
  constructor; unfold exp_at; simpl; intros;
    repeat match goal with H : nth_error [] ?i = Some _ |- _ => destruct i; discriminate end.
Qed.

(** Collection numbers of a new mock. *)
Lemma unique_onto_in l : forall u x, In x (unique_onto u l) <-> In x u \/ In x l.
Proof.
  induction l as [|a l IH]; intros u x; simpl; [tauto|]. rewrite IH.
  destruct (existsb (signature_eqb a) u) eqn:E.
  - apply existsb_exists in E. destruct E as (y & Hy & Heq). unfold signature_eqb in Heq.
    destruct (signature_eq_dec a y); [subst|discriminate]. split; [tauto|]. intros [|[<-|]]; auto.
  - rewrite in_app_iff. simpl. tauto.
Qed.

Lemma unique_onto_nodup l : forall u, NoDup u -> NoDup (unique_onto u l).
Proof.
  induction l as [|a l IH]; intros u Hu; simpl; auto. apply IH.
  destruct (existsb (signature_eqb a) u) eqn:E; auto. apply NoDup_app_snoc; auto. intros Hin.
  assert (existsb (signature_eqb a) u = true); [|congruence]. apply existsb_exists. exists a. split; auto.
  unfold signature_eqb. destruct (signature_eq_dec a a); congruence.
Qed.

Lemma index_of_in s l : In s l -> exists i, index_of s l = Some i /\ nth_error l i = Some s.
Proof.
  induction l as [|x l IH]; simpl; [tauto|]. intros H. unfold signature_eqb. destruct (signature_eq_dec s x) as [->|Hne].
  - exists 0. auto.
  - destruct H as [->|H]; [congruence|]. destruct (IH H) as (i & -> & Hn). exists (S i). auto.
Qed.

Lemma index_of_inj s s' l i : index_of s l = Some i -> index_of s' l = Some i -> s = s'.
Proof.
  revert i. induction l as [|x l IH]; intros i; simpl; [discriminate|]. unfold signature_eqb.
  destruct (signature_eq_dec s x) as [->|Hne], (signature_eq_dec s' x) as [->|Hne']; auto.
  - intros E. inversion E; subst. destruct (index_of s' l); discriminate.
  - intros E1 E2. inversion E2; subst. destruct (index_of s l); discriminate.
  - destruct (index_of s l) as [a|], (index_of s' l) as [b|]; simpl; try discriminate. intros E1 E2.
    inversion E1; subst. inversion E2; subst. eapply IH; eauto.
Qed.

Lemma overload_collection_some sigs s : In s sigs ->
  exists i, overload_collection sigs s = Some i /\ i < length (mock_collections sigs).
Proof.
  intros H. unfold overload_collection. destruct (index_of_in (decay s) (mock_collections sigs)) as (i & Hi & Hn).
  - unfold mock_collections, unique_list. apply unique_onto_in. right. apply in_map; auto.
  - exists i. split; auto. eapply nth_error_lt; eauto.
Qed.

Lemma new_ids_nth w sigs ov c : nth_error (new_ids w sigs) ov = Some c ->
  exists s i, nth_error sigs ov = Some s /\ overload_collection sigs s = Some i /\ c = length (w_colls w) + i /\
    i < length (mock_collections sigs).
Proof.
  intros H. apply nth_error_map_some in H. destruct H as (s & Hs & ->).
  destruct (overload_collection_some sigs s) as (i & Hi & Hl); [eapply nth_error_In; eauto|]. rewrite Hi. eauto 8.
Qed.

Lemma nth_upd_inv {A} (l : list A) i x j y : nth_error (upd l i x) j = Some y -> (i = j /\ y = x) \/ (i <> j /\ nth_error l j = Some y).
Proof. intros H. apply nth_error_upd in H. tauto. Qed.

(** The mocks of the new world, seen from the old one: same object, or moved there. *)
Lemma mocks_origin w w' o m' mk' cs : mocks_change w w' o -> OInv w ->
  nth_error (w_mocks w') m' = Some mk' -> mk_colls mk' = Some cs ->
  (exists sigs, o = ONewMock sigs /\ m' = length (w_mocks w) /\ mock_sigs_ok sigs = true /\ mk_sigs mk' = sigs /\ cs = new_ids w sigs /\
     length (w_colls w') = length (w_colls w) + length (mock_collections sigs)) \/
  (exists m mk, nth_error (w_mocks w) m = Some mk /\ mk_sigs mk = mk_sigs mk' /\ mk_colls mk = Some cs /\
     (forall m2 mk2 cs2, nth_error (w_mocks w') m2 = Some mk2 -> mk_colls mk2 = Some cs2 -> m2 <> m' ->
        (forall sigs, o <> ONewMock sigs) -> exists m3 mk3, nth_error (w_mocks w) m3 = Some mk3 /\ m3 <> m /\ mk_colls mk3 = Some cs2)).
Proof.
  intros Hc I Hm Hcs. destruct Hc as [sigs Ho E1 E2|m mk Hmk Ha E1 E2|dst src md ms Hd Hs Ha1 Ha2 Hne Hsig E1 E2|m mk Hmk Ha E1 E2|o E1 E2];
    rewrite E1 in Hm.
  - apply nth_error_snoc in Hm. destruct Hm as [[Hm _]|[-> ->]].
    + right. exists m', mk'. repeat split; auto. intros m2 mk2 cs2 _ _ _ Hs0. exfalso. eapply Hs0; eauto.
    + left. exists sigs. simpl in Hcs. inversion Hcs; subst. rewrite E2, app_length, map_length. repeat split; auto.
  - right. apply nth_error_snoc in Hm. rewrite length_upd in Hm. destruct Hm as [[Hm _]|[-> ->]].
    + apply nth_upd_inv in Hm. destruct Hm as [[-> ->]|[Hne Hm]]; [discriminate|].
      exists m', mk'. repeat split; auto. intros m2 mk2 cs2 H2 Hcs2 Hne2 _. rewrite E1 in H2.
      apply nth_error_snoc in H2. rewrite length_upd in H2. destruct H2 as [[H2 _]|[-> ->]].
      * apply nth_upd_inv in H2. destruct H2 as [[-> ->]|[Hne3 H2]]; [discriminate|]. eauto.
      * simpl in Hcs2. exists m, mk. auto.
    + simpl in Hcs. exists m, mk. repeat split; auto. intros m2 mk2 cs2 H2 Hcs2 Hne2 _. rewrite E1 in H2.
      apply nth_error_snoc in H2. rewrite length_upd in H2. destruct H2 as [[H2 _]|[-> ->]]; [|congruence].
      apply nth_upd_inv in H2. destruct H2 as [[-> ->]|[Hne3 H2]]; [discriminate|]. eauto 6.
  - right. apply nth_upd_inv in Hm. destruct Hm as [[-> ->]|[Hne1 Hm]].
    + simpl in Hcs. exists src, ms. repeat split; auto. intros m2 mk2 cs2 H2 Hcs2 Hne2 _. rewrite E1 in H2.
      apply nth_upd_inv in H2. destruct H2 as [[-> ->]|[Hne3 H2]]; [congruence|].
      apply nth_upd_inv in H2. destruct H2 as [[-> ->]|[Hne4 H2]]; [discriminate|]. eauto 6.
    + apply nth_upd_inv in Hm. destruct Hm as [[-> ->]|[Hne3 Hm]]; [discriminate|].
      exists m', mk'. repeat split; auto. intros m2 mk2 cs2 H2 Hcs2 Hne2 _. rewrite E1 in H2.
      apply nth_upd_inv in H2. destruct H2 as [[-> ->]|[Hne4 H2]].
      * simpl in Hcs2. exists src, ms. auto.
      * apply nth_upd_inv in H2. destruct H2 as [[-> ->]|[Hne5 H2]]; [discriminate|]. eauto 6.
  - right. apply nth_upd_inv in Hm. destruct Hm as [[-> ->]|[Hne1 Hm]]; [discriminate|].
    exists m', mk'. repeat split; auto. intros m2 mk2 cs2 H2 Hcs2 Hne2 _. rewrite E1 in H2.
    apply nth_upd_inv in H2. destruct H2 as [[-> ->]|[Hne4 H2]]; [discriminate|]. eauto 6.
  - right. exists m', mk'. repeat split; auto. intros m2 mk2 cs2 H2 Hcs2 Hne2 _. rewrite E1 in H2. eauto 6.
Qed.

Lemma mocks_sets w w' o m' mk' : mocks_change w w' o -> OInv w ->
  nth_error (w_mocks w') m' = Some mk' -> mock_sigs_ok (mk_sigs mk') = true.
Proof.
  intros Hc I Hm. destruct Hc as [sigs Ho E1 E2|m mk Hmk Ha E1 E2|dst src md ms Hd Hs Ha1 Ha2 Hne Hsig E1 E2|m mk Hmk Ha E1 E2|o E1 E2];
    rewrite E1 in Hm.
  - apply nth_error_snoc in Hm. destruct Hm as [[Hm _]|[-> ->]]; auto. eapply oi_set; eauto.
  - apply nth_error_snoc in Hm. destruct Hm as [[Hm _]|[-> ->]]; [|exact (oi_set _ I _ _ Hmk)].
    apply nth_upd_inv in Hm. destruct Hm as [[-> ->]|[Hne Hm]]; [exact (oi_set _ I _ _ Hmk)|exact (oi_set _ I _ _ Hm)].
  - apply nth_upd_inv in Hm. destruct Hm as [[-> ->]|[Hne1 Hm]]; [exact (oi_set _ I _ _ Hs)|].
    apply nth_upd_inv in Hm. destruct Hm as [[-> ->]|[Hne2 Hm]]; [exact (oi_set _ I _ _ Hs)|exact (oi_set _ I _ _ Hm)].
  - apply nth_upd_inv in Hm. destruct Hm as [[-> ->]|[Hne1 Hm]]; [exact (oi_set _ I _ _ Hmk)|exact (oi_set _ I _ _ Hm)].
  - exact (oi_set _ I _ _ Hm).
Qed.

Lemma colls_mono w w' o : mocks_change w w' o -> length (w_colls w) <= length (w_colls w').
Proof.
  intros H. destruct H; try (rewrite H1; lia); try (rewrite H2; lia); try (rewrite H3; lia); try lia.
  - rewrite H1, app_length. lia.
  - rewrite H6. lia.
Qed.

Lemma find_overload_inr w m ov s coll : find_overload w m ov = inr (s, coll) ->
  exists mk cs, nth_error (w_mocks w) m = Some mk /\ mk_alive mk = true /\ nth_error (mk_sigs mk) ov = Some s /\
    mk_colls mk = Some cs /\ nth_error cs ov = Some coll.
Proof.
  unfold find_overload. destruct (nth_error (w_mocks w) m) as [mk|] eqn:Hm; [|discriminate].
  destruct (mk_alive mk) eqn:Ha; [|discriminate]. simpl.
  destruct (nth_error (mk_sigs mk) ov) as [s'|] eqn:Hs; [|discriminate].
  destruct (mk_colls mk) as [cs|] eqn:Hc; [|discriminate].
  destruct (nth_error cs ov) as [c|] eqn:Hn; [|discriminate]. intros E; inversion E; subst. exists mk, cs. auto.
Qed.

Definition ended_handle (w : world) (o : op) (h : nat) : Prop :=
  match o with OEndScope h' => h = h' | OMoveAssignScoped dst _ => h = dst | _ => False end.

Theorem oinv_step w o r w' : WInv w -> OInv w -> step w o = Next w' r -> OInv w'.
Proof.
  intros W I H. pose proof (step_exps _ _ _ _ W H) as HX. pose proof (step_new_exps _ _ _ _ H) as HN.
  pose proof (step_mocks _ _ _ _ H) as HM. pose proof (step_scoped _ _ _ _ H) as HS.
  assert (Hcase : forall e x', exp_at w' e x' -> (exists x, exp_at w e x /\ same_static x x' /\
             eo_alive x' = eo_alive x && negb (match ended w o with Some k => k =? e | None => false end)) \/ length (w_exps w) <= e).
  { intros e x' Hx'. destruct (Nat.lt_ge_cases e (length (w_exps w))) as [Hlt|]; auto. left.
    destruct (nth_error_ex (w_exps w) e Hlt) as [x Hx]. exists x. split; auto.
    destruct (HX e x Hx) as (x2 & Hx2 & Hst & Hal). unfold exp_at in *. rewrite Hx' in Hx2. inversion Hx2; subst. auto. }
  constructor.
  - (* oi_own *)
    intros h e Hh.
    assert (Hkey : (exists h0, nth_error (w_scoped w) h0 = Some (HOwns e) /\ match ended w o with Some k => k =? e | None => false end = false) \/
                   (exists a b c d f, o = OExpect a b c d f /\ e = length (w_exps w) /\ length (w_exps w') = S (length (w_exps w)))).
    { unfold scoped_change in HS. unfold ended. destruct o; try (rewrite HS in Hh; eauto 4; fail).
      - destruct HS as [(_ & HS & HL)|(x & _ & ->)]; [|eauto].
        rewrite HS in Hh. apply nth_error_snoc in Hh. destruct Hh as [[Hh _]|[-> E]]; [eauto|]. inversion E; subst. right. eauto 10.
      - destruct HS as [HS Hold]. rewrite HS in Hh. apply nth_upd_inv in Hh. destruct Hh as [[-> E]|[Hne Hh]]; [discriminate|].
        left. exists h. split; auto. destruct (nth_error (w_scoped w) h0) as [[k| |]|] eqn:Hk; auto.
        apply Nat.eqb_neq. intros ->. apply Hne. eapply oi_uniq; eauto.
      - destruct HS as (x & Hx & Hd & HS). rewrite HS in Hh. apply nth_error_snoc in Hh. rewrite length_upd in Hh.
        destruct Hh as [[Hh _]|[-> <-]]; [|eauto]. apply nth_upd_inv in Hh. destruct Hh as [[-> E]|[Hne Hh]]; [discriminate|]. eauto.
      - destruct HS as (old & x & Ho & Hx & Hd1 & Hd2 & [[-> ->]|[Hne HS]]).
        + rewrite Nat.eqb_refl. eauto.
        + destruct (Nat.eqb_spec dst src); [congruence|]. rewrite Ho. rewrite HS in Hh.
          apply nth_upd_inv in Hh. destruct Hh as [[<- <-]|[Hne1 Hh]].
          * left. exists src. split; auto. destruct old as [k| |]; auto. apply Nat.eqb_neq. intros ->.
            assert (dst = src) by (eapply oi_uniq; eauto). congruence.
          * apply nth_upd_inv in Hh. destruct Hh as [[-> E]|[Hne2 Hh]]; [discriminate|].
            left. exists h. split; auto. destruct old as [k| |]; auto. apply Nat.eqb_neq. intros ->.
            apply Hne1. eapply oi_uniq; eauto. }
    destruct Hkey as [(h0 & Hh0 & Hend)|(a & b & c & d & f & -> & -> & HL)].
    + destruct (oi_own _ I _ _ Hh0) as (x & Hx & Ha). destruct (HX _ _ Hx) as (x' & Hx' & _ & Hal).
      exists x'. split; auto. rewrite Hal, Ha, Hend. reflexivity.
    + destruct (nth_error_ex (w_exps w') (length (w_exps w))) as [x' Hx']; [lia|]. exists x'. split; auto.
      destruct (HN _ _ Hx' (le_n _)) as (? & ? & ? & ? & ? & ? & ? & ? & ? & ? & ? & ? & ? & ? & ? & ? & ? & ? & ? & ? & -> & ?). reflexivity.
  - (* oi_owned *)
    intros e x' Hx' Ha'. destruct (Hcase _ _ Hx') as [(x & Hx & _ & Hal)|Hge].
    + rewrite Ha' in Hal. symmetry in Hal. apply andb_true_iff in Hal. destruct Hal as [Ha Hend]. apply negb_true_iff in Hend.
      destruct (oi_owned _ I _ _ Hx Ha) as [h Hh].
      unfold scoped_change in HS. unfold ended in Hend. destruct o; try (rewrite HS; eauto; fail).
      * destruct HS as [(_ & HS & HL)|(y & _ & ->)]; [|eauto]. rewrite HS. exists h. apply nth_error_snoc_old; auto.
      * destruct HS as [HS _]. rewrite HS. exists h. rewrite nth_error_upd_neq; auto. intros ->. rewrite Hh in Hend.
        rewrite Nat.eqb_refl in Hend. discriminate.
      * destruct HS as (y & Hy & Hd & HS). rewrite HS. destruct (Nat.eq_dec h h0) as [->|Hne].
        -- rewrite Hh in Hy. inversion Hy; subst. exists (length (upd (w_scoped w) h0 HEmpty)). apply nth_error_app_last.
        -- exists h. apply nth_error_snoc_old. rewrite nth_error_upd_neq; auto.
      * destruct HS as (old & y & Ho & Hy & Hd1 & Hd2 & [[-> ->]|[Hne HS]]); [eauto|]. rewrite HS.
        destruct (Nat.eqb_spec dst src); [congruence|]. rewrite Ho in Hend.
        destruct (Nat.eq_dec h src) as [->|Hne1].
        -- rewrite Hh in Hy. inversion Hy; subst. exists dst. apply nth_error_upd_eq. rewrite length_upd. eapply nth_error_lt; eauto.
        -- exists h. rewrite !nth_error_upd_neq; auto. intros ->. rewrite Hh in Ho. inversion Ho; subst.
           rewrite Nat.eqb_refl in Hend. discriminate.
    + destruct (HN _ _ Hx' Hge) as (m & ov & ms & cls & l & s & coll & b & ss & ctl & mem & -> & _ & _ & _ & _ & _ & _ & _ & -> & _ & ->).
      simpl. exists (length (w_scoped w)). apply nth_error_app_last.
  - (* oi_uniq *)
    intros h h' e Hh Hh'. unfold scoped_change in HS. destruct o; try (rewrite HS in *; eapply oi_uniq; eauto; fail).
    + destruct HS as [(_ & HS & HL)|(y & _ & ->)]; [|eapply oi_uniq; eauto]. rewrite HS in *.
      assert (Hf : forall k, nth_error (w_scoped w) k <> Some (HOwns (length (w_exps w)))).
      { intros k Hk. destruct (oi_own _ I _ _ Hk) as (x & Hx & _). apply nth_error_lt in Hx. lia. }
      apply nth_error_snoc in Hh. apply nth_error_snoc in Hh'.
      destruct Hh as [[Hh _]|[-> E]], Hh' as [[Hh' _]|[-> E']].
      * eapply oi_uniq; eauto.
      * inversion E'; subst. exfalso. eapply Hf; eauto.
      * inversion E; subst. exfalso. eapply Hf; eauto.
      * reflexivity.
    + destruct HS as [HS _]. rewrite HS in *. apply nth_upd_inv in Hh. apply nth_upd_inv in Hh'.
      destruct Hh as [[_ E]|[_ Hh]]; [discriminate|]. destruct Hh' as [[_ E]|[_ Hh']]; [discriminate|]. eapply oi_uniq; eauto.
    + destruct HS as (x & Hx & Hd & HS). rewrite HS in *. apply nth_error_snoc in Hh. apply nth_error_snoc in Hh'.
      rewrite length_upd in *. destruct Hh as [[Hh _]|[-> E]], Hh' as [[Hh' _]|[-> E']]; auto;
        try (apply nth_upd_inv in Hh; destruct Hh as [[_ E2]|[Hne2 Hh]]; [discriminate|]);
        try (apply nth_upd_inv in Hh'; destruct Hh' as [[_ E2']|[Hne2' Hh']]; [discriminate|]).
      * eapply oi_uniq; eauto.
      * subst x. exfalso. apply Hne2. eapply oi_uniq; eauto.
      * subst x. exfalso. apply Hne2'. eapply oi_uniq; eauto.
    + destruct HS as (old & x & Ho & Hx & Hd1 & Hd2 & [[-> ->]|[Hne HS]]); [eapply oi_uniq; eauto|].
      rewrite HS in *. apply nth_upd_inv in Hh. apply nth_upd_inv in Hh'.
      destruct Hh as [[-> E]|[Hne1 Hh]], Hh' as [[-> E']|[Hne1' Hh']]; auto;
        try (apply nth_upd_inv in Hh; destruct Hh as [[_ E2]|[Hne2 Hh]]; [discriminate|]);
        try (apply nth_upd_inv in Hh'; destruct Hh' as [[_ E2']|[Hne2' Hh']]; [discriminate|]).
      * subst x. exfalso. apply Hne2'. eapply oi_uniq; eauto.
      * subst x. exfalso. apply Hne2. eapply oi_uniq; eauto.
      * eapply oi_uniq; eauto.
  - (* oi_len *)
    intros m mk cs Hm Hcs. destruct (mocks_origin _ _ _ _ _ _ HM I Hm Hcs) as [(sigs & _ & _ & _ & -> & -> & _)|(m0 & mk0 & Hm0 & <- & Hc0 & _)].
    + unfold new_ids. apply map_length.
    + eapply oi_len; eauto.
  - (* oi_set *) intros m mk Hm. eapply mocks_sets; eauto.
  - (* oi_range *)
    intros m mk cs ov c Hm Hcs Hn. destruct (mocks_origin _ _ _ _ _ _ HM I Hm Hcs) as [(sigs & _ & _ & _ & _ & -> & HL)|(m0 & mk0 & Hm0 & _ & Hc0 & _)].
    + destruct (new_ids_nth _ _ _ _ Hn) as (s & i & _ & _ & -> & Hi). lia.
    + pose proof (oi_range _ I _ _ _ _ _ Hm0 Hc0 Hn). pose proof (colls_mono _ _ _ HM). lia.
  - (* oi_sep *)
    intros m m' mk mk' cs cs' ov ov' c Hm Hm' Hcs Hcs' Hn Hn'.
    destruct (mocks_origin _ _ _ _ _ _ HM I Hm Hcs) as [(sigs & -> & -> & _ & _ & -> & _)|(m0 & mk0 & Hm0 & _ & Hc0 & Hoth)];
    destruct (mocks_origin _ _ _ _ _ _ HM I Hm' Hcs') as [(sigs' & Ho' & -> & _ & _ & -> & _)|(m1 & mk1 & Hm1 & _ & Hc1 & Hoth')]; auto.
    + destruct (new_ids_nth _ _ _ _ Hn) as (s & i & _ & _ & -> & Hi).
      pose proof (oi_range _ I _ _ _ _ _ Hm1 Hc1 Hn'). lia.
    + destruct (new_ids_nth _ _ _ _ Hn') as (s & i & _ & _ & -> & Hi).
      pose proof (oi_range _ I _ _ _ _ _ Hm0 Hc0 Hn). lia.
    + destruct (Nat.eq_dec m m') as [|Hne]; auto. exfalso.
      assert (Hdec : (forall sigs, o <> ONewMock sigs) \/ exists sigs, o = ONewMock sigs).
      { destruct o; try (left; discriminate). right. eauto. }
      destruct Hdec as [Hnn|[sigs ->]].
      * destruct (Hoth _ _ _ Hm' Hcs' (fun E => Hne (eq_sym E)) Hnn) as (m3 & mk3 & Hm3 & Hne3 & Hc3).
        apply Hne3. eapply (oi_sep _ I m3 m0); eauto.
      * inversion HM as [sg HO Em Ec| | | |o0 Em Ec]; subst.
        2: { rewrite Em in Hm, Hm'. apply Hne. eapply (oi_sep _ I m m'); eauto. }
        rewrite Em in Hm, Hm'. apply nth_error_snoc in Hm. apply nth_error_snoc in Hm'.
        destruct Hm as [[Hm _]|[-> ->]], Hm' as [[Hm' _]|[-> ->]]; auto.
        -- apply Hne. eapply (oi_sep _ I m m'); eauto.
        -- simpl in Hcs'. inversion Hcs'; subst. destruct (new_ids_nth _ _ _ _ Hn') as (s & i & _ & _ & -> & Hi).
           pose proof (oi_range _ I _ _ _ _ _ Hm0 Hc0 Hn). lia.
        -- simpl in Hcs. inversion Hcs; subst. destruct (new_ids_nth _ _ _ _ Hn) as (s & i & _ & _ & -> & Hi).
           pose proof (oi_range _ I _ _ _ _ _ Hm1 Hc1 Hn'). lia.
  - (* oi_decay *)
    intros m mk cs ov ov' c c' s s' Hm Hcs Hn Hn' Hs Hs'.
    destruct (mocks_origin _ _ _ _ _ _ HM I Hm Hcs) as [(sigs & _ & _ & _ & E & -> & _)|(m0 & mk0 & Hm0 & E & Hc0 & _)].
    + subst sigs. destruct (new_ids_nth _ _ _ _ Hn) as (t & i & Ht & Hi & -> & _).
      destruct (new_ids_nth _ _ _ _ Hn') as (t' & i' & Ht' & Hi' & -> & _).
      rewrite Hs in Ht. inversion Ht; subst t. rewrite Hs' in Ht'. inversion Ht'; subst t'.
      unfold overload_collection in *. split; intros E2.
      * assert (i = i') by lia. subst. eapply index_of_inj; eauto.
      * rewrite E2 in Hi. congruence.
    + rewrite <- E in *. eapply (oi_decay _ I m0); eauto.
  - (* oi_exp *)
    intros e x' m mk cs ov Hx' Hm Hcs Hn.
    destruct (mocks_origin _ _ _ _ _ _ HM I Hm Hcs) as [(sigs & -> & _ & _ & E & -> & _)|(m0 & mk0 & Hm0 & E & Hc0 & _)].
    + exfalso. destruct (Hcase _ _ Hx') as [(x & Hx & (Hcoll & _) & _)|Hge].
      * destruct (new_ids_nth _ _ _ _ Hn) as (t & i & Ht & Hi & Hc & _). pose proof (wi_collr _ W _ _ Hx). lia.
      * destruct (HN _ _ Hx' Hge) as (? & ? & ? & ? & ? & ? & ? & ? & ? & ? & ? & Ho & _). discriminate.
    + destruct (Hcase _ _ Hx') as [(x & Hx & (Hcoll & Hov & Hsig & _) & _)|Hge].
      * rewrite Hov, Hsig, Hcoll in *. rewrite <- E. eapply (oi_exp _ I); eauto.
      * destruct (HN _ _ Hx' Hge) as (m1 & ov1 & ms & cls & l & s & coll & b & ss & ctl & mem & -> & Hf & _ & _ & _ & _ & _ & _ & -> & -> & ->).
        simpl in *. destruct (find_overload_inr _ _ _ _ _ Hf) as (mk1 & cs1 & Hm1 & _ & Hs1 & Hc1 & Hn1).
        assert (m0 = m1) by (eapply (oi_sep _ I m0 m1); eauto). subst m1. rewrite Hm0 in Hm1. inversion Hm1; subst mk1.
        rewrite Hc0 in Hc1. inversion Hc1; subst cs1. rewrite <- E. auto.
  - (* oi_policies *)
    intros e x' Hx'. destruct (Hcase _ _ Hx') as [(x & Hx & (_ & _ & Hsig & _ & Hpol & _) & _)|Hge].
    + rewrite Hsig, Hpol. eapply (oi_policies _ I); eauto.
    + destruct (HN _ _ Hx' Hge) as (m1 & ov1 & ms & cls & l & s & coll & b & ss & ctl & mem & -> & Hf & _ & Hok & Hb & _ & _ & _ & -> & -> & ->).
      simpl. destruct (build_ok _ _ _ _ Hb (clauses_times _ _ _ Hok)) as (_ & _ & ->).
      rewrite !in_app_iff. simpl. auto 10.
Qed.

Theorem inv_run w ops w' : WInv w -> OInv w -> run w ops w' -> WInv w' /\ OInv w'.
Proof.
  intros W O H. induction H; auto. apply IHrun; [eapply winv_step; eauto|eapply oinv_step; eauto].
Qed.

Theorem oinv_reachable w : reachable w -> OInv w.
Proof. intros [ops H]. eapply inv_run; eauto; [apply winv_init|apply oinv_init]. Qed.
