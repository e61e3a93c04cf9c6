(** * MatchLemmas: the matching loop of a call, described expectation by expectation. *)

From Verif Require Import Base Lib Sequence Control Signature Printer Reports Expectation Builder World WorldSpec SeqInv.

Definition entry : Type := (nat * expectation)%type.

Section Loop.
  Context (rp : reporter) (u : nat) (ss : seq_store) (c : call_info).

  Definition att (e : expectation) : outcome match_attempt := make_match_report rp u ss e c.

  Definition sel (want : match_result) (p : entry) : list (nat * match_report) :=
    match att (snd p) with
    | Ret (AttemptReport m) =>
        match evaluate_match_report m, want with
        | MatchNone, MatchNone | MatchInapplicable, MatchInapplicable | MatchFull, MatchFull => [(fst p, m)]
        | _, _ => []
        end
    | _ => []
    end.

  Definition sel_unhandled (p : entry) : list (nat * (exp_report * exn)) :=
    match att (snd p) with
    | Ret (AttemptUnhandled r x) => [(fst p, (r, x))]
    | _ => []
    end.

  Lemma match_loop_ret es : forall acc ml, match_loop rp u ss c es acc = Ret ml ->
    (forall p, In p es -> exists a, att (snd p) = Ret a) /\
    ml_full ml = ml_full acc ++ flat_map (sel MatchFull) es /\
    ml_inapplicable ml = ml_inapplicable acc ++ flat_map (sel MatchInapplicable) es /\
    ml_none ml = ml_none acc ++ flat_map (sel MatchNone) es /\
    ml_unhandled ml = ml_unhandled acc ++ flat_map sel_unhandled es.
  Proof.
    induction es as [|[n e] es IH]; intros acc ml H; simpl in H.
    - inversion H; subst. simpl. rewrite !app_nil_r. repeat split; auto. intros p [].
    - destruct (make_match_report rp u ss e c) as [a|x| |v] eqn:Ha; simpl in H; try discriminate.
      apply IH in H. destruct H as (Hall & Hf & Hi & Hn & Hu).
      split.
      { intros p [<-|Hp]; [exists a; exact Ha|auto]. }
      rewrite Hf, Hi, Hn, Hu. unfold sel, sel_unhandled, att. simpl. rewrite Ha.
      destruct a as [m|r x]; [destruct (evaluate_match_report m)|]; simpl; rewrite <- ?app_assoc; auto.
  Qed.

  Lemma match_loop_all es : forall acc, (forall p, In p es -> exists a, att (snd p) = Ret a) ->
    exists ml, match_loop rp u ss c es acc = Ret ml.
  Proof.
    induction es as [|[n e] es IH]; intros acc H; simpl; eauto.
    destruct (H (n, e)) as [a Ha]; [left; auto|]. unfold att in Ha. simpl in Ha. rewrite Ha. simpl.
    apply IH. intros p Hp. apply H. right; auto.
  Qed.
End Loop.

Lemma pick_best_in rest : forall best p, pick_best best rest = Ret p -> In p (best :: rest).
Proof.
  induction rest as [|x rest IH]; intros best p H; simpl in H.
  - inversion H; subst. left; auto.
  - unfold ratings_of in H. destruct (mr_state (snd best)); simpl in H; try discriminate.
    destruct (mr_state (snd x)); simpl in H; try discriminate.
    apply IH in H. destruct (has_better_rating ratings ratings0); destruct H as [<-|H]; simpl; auto.
Qed.

Lemma lookup_exps_spec w l : forall es, lookup_exps w l = Some es ->
  map fst es = l /\ (forall n e, In (n, e) es -> exists eo, nth_error (w_exps w) n = Some eo /\ e = eo_exp eo).
Proof.
  induction l as [|n l IH]; intros es H; simpl in H.
  - inversion H; subst. simpl. split; auto. intros n e [].
  - destruct (nth_error (w_exps w) n) as [eo|] eqn:Hn; [|discriminate].
    destruct (lookup_exps w l) as [es'|] eqn:Hl; [|discriminate].
    inversion H; subst. destruct (IH _ eq_refl) as [Hm Hin]. simpl. split; [f_equal; auto|].
    intros k e [E|Hk]; [inversion E; subst; eauto|eauto].
Qed.

Lemma lookup_exps_some w l : (forall n, In n l -> n < length (w_exps w)) -> exists es, lookup_exps w l = Some es.
Proof.
  induction l as [|n l IH]; intros H; simpl; eauto.
  destruct (nth_error_ex (w_exps w) n) as [eo He]; [apply H; left; auto|]. rewrite He.
  destruct IH as [es ->]; eauto. intros k Hk. apply H. right; auto.
Qed.

Lemma sel_in rp u ss c want es n m : In (n, m) (flat_map (sel rp u ss c want) es) ->
  exists e, In (n, e) es /\ att rp u ss c e = Ret (AttemptReport m) /\ evaluate_match_report m = want.
Proof.
  intros H. apply in_flat_map in H. destruct H as ([k e] & Hin & H). unfold sel in H. simpl in H.
  destruct (att rp u ss c e) as [[m'|]|x| |v] eqn:Ha; simpl in H; try tauto.
  destruct (evaluate_match_report m') eqn:Hev, want; simpl in H; try tauto; destruct H as [H|[]];
    inversion H; subst; exists e; auto.
Qed.

Lemma sel_of rp u ss c want es n e m : In (n, e) es -> att rp u ss c e = Ret (AttemptReport m) ->
  evaluate_match_report m = want -> In (n, m) (flat_map (sel rp u ss c want) es).
Proof.
  intros Hin Ha Hev. apply in_flat_map. exists (n, e). split; auto. unfold sel. simpl. rewrite Ha, Hev.
  destruct want; left; auto.
Qed.

(** ** One expectation *)

Lemma omap_ret {A B} (f : A -> outcome B) l : (forall x, In x l -> exists y, f x = Ret y) -> exists ys, omap f l = Ret ys.
Proof.
  induction l as [|x l IH]; intros H; simpl; eauto.
  destruct (H x) as [y Hy]; [left; auto|]. rewrite Hy. simpl.
  destruct IH as [ys Hys]; [intros; apply H; right; auto|]. rewrite Hys. simpl. eauto.
Qed.

Lemma omap_ret_inv {A B} (f : A -> outcome B) l ys : omap f l = Ret ys -> Forall2 (fun x y => f x = Ret y) l ys.
Proof.
  revert ys. induction l as [|x l IH]; intros ys H; simpl in H.
  - inversion H; constructor.
  - destruct (f x) as [y| | |] eqn:E; simpl in H; try discriminate.
    destruct (omap f l) as [zs| | |] eqn:E2; simpl in H; try discriminate.
    inversion H; subst. constructor; auto.
Qed.

Lemma omap_total {A B} (f : A -> outcome B) l : (forall x, In x l -> (exists y, f x = Ret y) \/ (exists e, f x = Throw e)) ->
  (exists ys, omap f l = Ret ys) \/ (exists e, omap f l = Throw e).
Proof.
  induction l as [|x l IH]; intros H; simpl; eauto.
  destruct (H x) as [[y Hy]|[e He]]; [left; auto| |rewrite He; simpl; eauto].
  rewrite Hy. simpl. destruct IH as [[ys ->]|[e ->]]; simpl; eauto. intros; apply H; right; auto.
Qed.

Lemma omap_throw_inv {A B} (f : A -> outcome B) l e : omap f l = Throw e ->
  exists pre x post, l = pre ++ x :: post /\ f x = Throw e /\ (forall y, In y pre -> exists z, f y = Ret z).
Proof.
  induction l as [|x l IH]; intros H; simpl in H; [discriminate|].
  destruct (f x) as [y| | |] eqn:E; simpl in H; try discriminate.
  - destruct (omap f l) as [zs| | |] eqn:E2; simpl in H; try discriminate.
    inversion H; subst. destruct (IH eq_refl) as (pre & z & post & -> & Hz & Hpre).
    exists (x :: pre), z, post. repeat split; auto. intros w [<-|Hw]; eauto.
  - inversion H; subst. exists [], x, l. repeat split; auto. intros y [].
Qed.

(** The policies behave as long as the selected arguments exist. *)
Lemma policy_matches_ok n p c : policy_ok n p = true -> length (ci_args c) = n ->
  (exists b, policy_matches p c = Ret b) \/ (exists x, policy_matches p c = Throw x).
Proof.
  intros Hok Hlen. destruct p as [x|x|i m proj|k]; simpl; eauto.
  simpl in Hok. apply Nat.ltb_lt in Hok. destruct (nth_error_ex (ci_args c) i) as [v Hv]; [lia|]. rewrite Hv.
  destruct (proj v) as [y|x]; simpl; eauto. destruct (m_matches m y); simpl; eauto.
Qed.

Lemma policy_describe_ok p : (exists d, policy_describe p = Ret d) \/ (exists x, policy_describe p = Throw x).
Proof. destruct p as [x|x|i m proj|k]; simpl; eauto. destruct (m_describe m); simpl; eauto. Qed.

Lemma policy_report_ok n p c : policy_ok n p = true -> length (ci_args c) = n ->
  (exists r, policy_report_of c p = Ret r) \/ (exists x, policy_report_of c p = Throw x).
Proof.
  intros Hok Hlen. unfold policy_report_of.
  destruct (policy_matches_ok n p c Hok Hlen) as [[b ->]|[x ->]]; simpl; eauto.
  destruct (policy_describe_ok p) as [[d ->]|[x ->]]; simpl; eauto.
Qed.

Lemma policy_report_ret c p r : policy_report_of c p = Ret r ->
  policy_matches p c = Ret (pr_matching r) /\ policy_describe p = Ret (pr_desc r).
Proof.
  unfold policy_report_of. destruct (policy_matches p c) as [b| | |]; simpl; try discriminate.
  destruct (policy_describe p) as [d| | |]; simpl; try discriminate. intros H; inversion H; auto.
Qed.

Lemma clean_reports x c : clean x c <-> exists rs, omap (policy_report_of c) (e_policies x) = Ret rs.
Proof.
  split.
  - intros H. apply omap_ret. intros p Hp. destruct (H p Hp) as [[b Hb] [d Hd]].
    unfold policy_report_of. rewrite Hb, Hd. simpl. eauto.
  - intros [rs H] p Hp. apply omap_ret_inv in H.
    assert (Hr : exists r, policy_report_of c p = Ret r).
    { clear -H Hp. induction H; simpl in Hp; [tauto|]. destruct Hp as [<-|Hp]; eauto. }
    destruct Hr as [r Hr]. apply policy_report_ret in Hr. destruct Hr; split; eauto.
Qed.

Lemma reports_matching c ps rs : Forall2 (fun p r => policy_report_of c p = Ret r) ps rs ->
  (forallb pr_matching rs = true <-> forall p, In p ps -> policy_matches p c = Ret true) /\
  (forallb pr_matching rs = false <-> exists p, In p ps /\ policy_matches p c = Ret false).
Proof.
  intros H. induction H as [|p r ps rs Hr H [IH1 IH2]]; simpl.
  - split; split; try tauto; try discriminate. intros (p & [] & _).
  - apply policy_report_ret in Hr. destruct Hr as [Hm _]. rewrite andb_true_iff, andb_false_iff, IH1, IH2.
    split; split.
    + intros [E Ha] q [<-|Hq]; [congruence|auto].
    + intros Ha. split; [|auto]. specialize (Ha p (or_introl eq_refl)). congruence.
    + intros [E|(q & Hq & Hf)]; [exists p; split; auto; congruence|exists q; auto].
    + intros (q & [<-|Hq] & Hf); [left; congruence|right; eauto].
Qed.

Lemma consume_asserts_ok ps c : (forall p, In p ps -> policy_matches p c = Ret true) -> consume_asserts ps c = Ret tt.
Proof.
  induction ps as [|p ps IH]; intros H; simpl; auto.
  assert (Hp : policy_consume_assert p c = Ret tt).
  { specialize (H p (or_introl eq_refl)). destruct p; simpl in *; auto; inversion H as [E]; rewrite E; reflexivity. }
  rewrite Hp. simpl. apply IH. intros; apply H; right; auto.
Qed.
