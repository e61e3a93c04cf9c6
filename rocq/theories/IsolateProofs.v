(** * IsolateProofs: a throwing matcher only disables its own expectation. *)

From Coq Require Import Sorted.
From Verif Require Import Base Lib Sequence Control Signature Printer Reports Expectation Builder BuildSpec World WorldSpec CallSpec
  SeqInv BuilderLemmas StepCases MatchLemmas WorldInv ObjInv CallProofs CountProofs.

(** The same world, in which expectation [e] is not in the collection. *)
Definition without (w : world) (coll e : nat) : world :=
  match nth_error (w_colls w) coll with
  | Some l => set_colls w (upd (w_colls w) coll (erase_first e l))
  | None => w
  end.

(** Is the event the unhandled-exception report naming [e]? *)
Definition is_unhandled (e : nat) (ev : event) : bool :=
  match ev with
  | EvReport _ (RUnhandled _ _ _) [n] => n =? e
  | _ => false
  end.

Definition set_trace (w : world) (tr : list event) : world :=
  mkWorld (w_seqs w) (w_iface w) (w_sdead w) (w_exps w) (w_colls w) (w_mocks w) (w_scoped w) (w_frames w)
    (w_rid w) (w_reporter w) (w_uncaught w) tr.

(** The outcome of a call made in [w] as seen by a program without expectation [e]: all the same, but without the
    unhandled-exception report of [e] among the events since [w]. *)
Definition hide (w : world) (coll e : nat) (s : stepped) : stepped :=
  match s with
  | Next w' r =>
      Next (set_trace (without w' coll e)
              (w_trace w ++ filter (fun ev => negb (is_unhandled e ev)) (skipn (length (w_trace w)) (w_trace w')))) r
  | other => other
  end.

Lemma world_ext w w' : w_seqs w = w_seqs w' -> w_iface w = w_iface w' -> w_sdead w = w_sdead w' -> w_exps w = w_exps w' -> w_colls w = w_colls w' ->
  w_mocks w = w_mocks w' -> w_scoped w = w_scoped w' -> w_frames w = w_frames w' -> w_rid w = w_rid w' -> w_reporter w = w_reporter w' ->
  w_uncaught w = w_uncaught w' -> w_trace w = w_trace w' -> w = w'.
Proof. destruct w, w'. cbn. intros. subst. reflexivity. Qed.

Lemma without_eq w coll e l : nth_error (w_colls w) coll = Some l -> without w coll e = set_colls w (upd (w_colls w) coll (erase_first e l)).
Proof. intros H. unfold without. rewrite H. reflexivity. Qed.

Definition drop_unh (e : nat) (l : list (nat * (exp_report * exn))) := filter (fun p => negb (fst p =? e)) l.
Definition drop_ml (e : nat) (ml : match_lists) : match_lists :=
  mkLists (ml_full ml) (ml_inapplicable ml) (ml_none ml) (drop_unh e (ml_unhandled ml)).
Definition omap1 {A B} (f : A -> B) (m : outcome A) : outcome B := obind m (fun a => Ret (f a)).

Lemma match_loop_drop rp u ss c e es : forall acc,
  (forall x, In (e, x) es -> exists r y, att rp u ss c x = Ret (AttemptUnhandled r y)) ->
  match_loop rp u ss c (filter (fun p => negb (fst p =? e)) es) (drop_ml e acc) = omap1 (drop_ml e) (match_loop rp u ss c es acc).
Proof.
  induction es as [|[n x] es IH]; intros acc H; auto.
  cbn [filter fst]. destruct (Nat.eqb_spec n e) as [E|Hne].
  - subst n. destruct (H x) as (r & y & Ha); [left; auto|]. cbn [negb match_loop]. unfold att in Ha. rewrite Ha. cbn [obind].
    rewrite <- IH by (intros x' Hx'; apply H; right; auto). f_equal. unfold drop_ml, drop_unh. cbn [ml_full ml_inapplicable ml_none ml_unhandled].
    rewrite filter_app. cbn [filter fst]. rewrite Nat.eqb_refl. cbn [negb]. rewrite app_nil_r. reflexivity.
  - cbn [negb match_loop]. destruct (make_match_report rp u ss x c) as [a|z| |v]; cbn [obind omap1]; auto.
    rewrite <- IH by (intros x' Hx'; apply H; right; auto). f_equal. destruct a as [m|r y]; [destruct (evaluate_match_report m); reflexivity|].
    unfold drop_ml, drop_unh. cbn [ml_full ml_inapplicable ml_none ml_unhandled]. rewrite filter_app. cbn [filter fst].
    destruct (Nat.eqb_spec n e); [congruence|]. reflexivity.
Qed.

Lemma filter_rev {A} (f : A -> bool) l : filter f (rev l) = rev (filter f l).
Proof.
  induction l as [|a l IH]; simpl; auto. rewrite filter_app, IH. simpl. destruct (f a); simpl; auto. apply app_nil_r.
Qed.

Lemma lookup_filter w e l : forall es, lookup_exps w l = Some es ->
  lookup_exps w (filter (fun n => negb (n =? e)) l) = Some (filter (fun p => negb (fst p =? e)) es).
Proof.
  induction l as [|n l IH]; intros es H; simpl in *; [inversion H; auto|].
  destruct (nth_error (w_exps w) n) as [eo|] eqn:Hn; [|discriminate]. destruct (lookup_exps w l) as [es'|]; [|discriminate].
  inversion H; subst. specialize (IH _ eq_refl). cbn [filter fst]. destruct (n =? e); cbn [negb]; auto. simpl. rewrite Hn, IH. reflexivity.
Qed.

Lemma hidden_events rid c e l : filter (fun ev => negb (is_unhandled e ev)) (map (unhandled_event rid c) l) = map (unhandled_event rid c) (drop_unh e l).
Proof.
  induction l as [|[n [r y]] l IH]; auto. unfold drop_unh in *. cbn [map filter fst]. unfold unhandled_event at 1. cbn [is_unhandled fst].
  destruct (n =? e); cbn [negb]; auto. cbn [map]. f_equal. auto.
Qed.

Lemma skipn_exact {A} (l l' : list A) : skipn (length l) (l ++ l') = l'.
Proof. rewrite skipn_app, skipn_all, Nat.sub_diag. reflexivity. Qed.

Lemma skipn_exact2 {A} (l a b : list A) : skipn (length l) ((l ++ a) ++ b) = a ++ b.
Proof. rewrite <- app_assoc. apply skipn_exact. Qed.

Lemma unhandled_kept e ev : (match ev with EvReport _ (RUnhandled _ _ _) _ => false | _ => true end) = true ->
  negb (is_unhandled e ev) = true.
Proof. destruct ev as [to r who| | |]; auto. destruct r; auto. discriminate. Qed.

Lemma isolated w m ov args l s coll e x : reachable w -> find_overload w m ov = inr (s, coll) -> length args = length (sg_params s) ->
  throwing w coll (call_of s args l) e x -> describes (eo_exp x) ->
  (forall r y, w_reporter w (RUnhandled (make_call_report (call_of s args l)) r y) (w_uncaught w) = Returns) ->
  step (without w coll e) (OCall m ov args l) = hide w coll e (step w (OCall m ov args l)).
Proof.
  intros Hr Hf Hlen [Hlive Hnc] Hd Hunh. pose proof (winv_reachable _ Hr) as I. pose proof (oinv_reachable _ Hr) as O.
  pose proof (find_overload_coll _ _ _ _ _ O Hf) as Hcoll. set (c := call_of s args l) in *.
  destruct (nth_error_ex (w_colls w) coll Hcoll) as [lst Hl]. pose proof (wi_coll _ I _ _ Hl) as Hm.
  destruct (lookup_exps_some w (rev lst)) as [es Hes].
  { intros n Hn. apply in_rev in Hn. rewrite Hm in Hn. apply members_in in Hn. destruct Hn as (y & Hy & _). eapply nth_error_lt; eauto. }
  assert (W : without w coll e = set_colls w (upd (w_colls w) coll (erase_first e lst))) by (unfold without; rewrite Hl; auto).
  assert (Hlst : erase_first e lst = filter (fun n => negb (n =? e)) lst).
  { rewrite erase_first_filter; [|rewrite Hm; apply members_nodup]. apply filter_ext. intros a. rewrite Nat.eqb_sym. reflexivity. }
  assert (Hes' : lookup_exps (without w coll e) (rev (erase_first e lst)) = Some (filter (fun p => negb (fst p =? e)) es)).
  { rewrite (lookup_exps_ext (without w coll e) w) by (rewrite W; reflexivity). rewrite Hlst, <- filter_rev. apply lookup_filter; auto. }
  assert (Hatt : forall x', In (e, x') es -> exists r y, att (w_reporter w) (w_uncaught w) (w_seqs w) c x' = Ret (AttemptUnhandled r y)).
  { intros x' Hin. destruct (lookup_exps_spec _ _ _ Hes) as [_ Hin']. destruct (Hin' _ _ Hin) as (y & Hy & ->).
    pose proof Hlive as (Hx & _). unfold exp_at in *. rewrite Hx in Hy. inversion Hy; subst y.
    destruct (overload_live_params _ _ _ _ _ I O Hf _ _ Hlive) as [Hdc _].
    destruct (att_throws (length args) w e x c I Hx) as (r & y & H & _); eauto.
    rewrite Hlen, <- (decay_params _ _ Hdc). exact (wi_pol _ I _ _ Hx). }
  pose proof (match_loop_drop (w_reporter w) (w_uncaught w) (w_seqs w) c e es lists0 Hatt) as Hloop.
  change (drop_ml e lists0) with lists0 in Hloop.
  simpl. unfold do_call. replace (find_overload (without w coll e) m ov) with (find_overload w m ov) by (rewrite W; reflexivity).
  rewrite Hf, Hlen, Nat.eqb_refl. cbn [negb]. fold (call_of s args l). fold c. unfold handle_call. rewrite Hl, Hes.
  assert (Hl' : nth_error (w_colls (without w coll e)) coll = Some (erase_first e lst)).
  { rewrite W. simpl. apply nth_error_upd_eq; auto. }
  rewrite Hl', Hes'.
  assert (Ew : w_reporter (without w coll e) = w_reporter w /\ w_uncaught (without w coll e) = w_uncaught w /\ w_seqs (without w coll e) = w_seqs w).
  { rewrite W. auto. }
  destruct Ew as (E1 & E2 & E3). rewrite E1, E2, E3. fold lists0. rewrite Hloop.
  destruct (match_loop (w_reporter w) (w_uncaught w) (w_seqs w) c es lists0) as [ml|z| |v] eqn:Hml; cbn [omap1 obind]; auto.
  2:{ exfalso. eapply match_loop_nothrow; eauto. }
  rewrite !emit_unhandled_add.
  assert (Wp : forall evs, add_trace (without w coll e) evs = without (add_trace w evs) coll e).
  { intros evs. unfold without. change (w_colls (add_trace w evs)) with (w_colls w). rewrite Hl. reflexivity. }
  set (evs := map (unhandled_event (w_rid w) c) (ml_unhandled ml)).
  assert (Eevs : map (unhandled_event (w_rid (without w coll e)) c) (ml_unhandled (drop_ml e ml)) = filter (fun ev => negb (is_unhandled e ev)) evs).
  { unfold evs, drop_ml. cbn [ml_unhandled]. rewrite hidden_events. rewrite W. reflexivity. }
  rewrite Eevs. unfold react, emit_report, emit. cbn [drop_ml ml_full ml_inapplicable ml_none].
  assert (Hfin : forall a, filter (fun ev => negb (is_unhandled e ev)) (evs ++ [a]) = filter (fun ev => negb (is_unhandled e ev)) evs ++ [a] \/
                           (match a with EvReport _ (RUnhandled _ _ _) _ => True | _ => False end)).
  { intros a. destruct a as [to r who| | |]; [destruct r|..]; auto; left; rewrite filter_app; reflexivity. }
  destruct (ml_full ml) as [|first others].
  - cbn [w_reporter w_uncaught add_trace]. rewrite E1, E2.
    set (rep := match ml_inapplicable ml with [] => _ | _ => _ end). set (who := match ml_inapplicable ml with [] => map fst (ml_none ml) | _ => _ end).
    destruct (w_reporter w rep (w_uncaught w)); cbn [hide]; auto. unfold thrown. destruct (frontend_noexcept s); cbn [hide]; auto.
    f_equal. cbn [w_trace add_trace]. rewrite skipn_exact2.
    destruct (Hfin (EvReport (w_rid w) rep who)) as [Hfin'|Hbad]; [|unfold rep in Hbad; destruct (ml_inapplicable ml); contradiction].
    cbn [w_rid add_trace]. rewrite Hfin'. rewrite W. match goal with |- _ = set_trace (without ?b _ _) _ => rewrite (without_eq b coll e lst) by exact Hl end.
    apply world_ext; try reflexivity. unfold set_trace. cbn [w_trace]. rewrite app_assoc. reflexivity.
  - destruct (pick_best first others) as [[n mr]|z| |v] eqn:Hpick; cbn [hide]; auto.
    2:{ exfalso. eapply pick_best_nothrow; eauto. }
    cbn [w_reporter w_uncaught add_trace]. rewrite E1, E2.
    destruct (w_reporter w (RFull (make_call_report c) mr) (w_uncaught w)); cbn [hide]; auto.
    cbn [w_exps w_seqs add_trace]. rewrite E3. replace (w_exps (without w coll e)) with (w_exps w) by (rewrite W; reflexivity).
    destruct (nth_error (w_exps w) n) as [eo|]; auto.
    destruct (control_consume (w_seqs w) (e_ctl (eo_exp eo))) as [[ss ctl]|z| |v] eqn:Hcc; auto.
    2:{ exfalso. eapply control_consume_nothrow; eauto. }
    destruct (consume_asserts (e_policies (eo_exp eo)) c); auto. cbn [hide]. f_equal.
    cbn [w_trace add_trace set_frames set_exps set_seqs]. rewrite skipn_exact2.
    destruct (Hfin (EvReport (w_rid w) (RFull (make_call_report c) mr) [n])) as [Hfin'|Hbad]; [|contradiction].
    cbn [w_rid add_trace]. rewrite Hfin'. rewrite W. match goal with |- _ = set_trace (without ?b _ _) _ => rewrite (without_eq b coll e lst) by exact Hl end.
    apply world_ext; try reflexivity. unfold set_trace. cbn [w_trace]. rewrite app_assoc. reflexivity.
Qed.

(** Exactly one report names it. *)
Lemma isolated_report w m ov args l s coll e x w' r : reachable w -> find_overload w m ov = inr (s, coll) -> length args = length (sg_params s) ->
  throwing w coll (call_of s args l) e x -> describes (eo_exp x) ->
  (forall r y, w_reporter w (RUnhandled (make_call_report (call_of s args l)) r y) (w_uncaught w) = Returns) ->
  step w (OCall m ov args l) = Next w' r ->
  exists evs rep y, w_trace w' = w_trace w ++ evs /\
    filter (is_unhandled e) evs = [EvReport (w_rid w) (RUnhandled (make_call_report (call_of s args l)) rep y) [e]] /\
    true_exp_report w e x rep /\ first_exception (e_policies (eo_exp x)) (call_of s args l) y.
Proof.
  intros Hr Hf Hlen [Hlive Hnc] Hd Hunh Hs. pose proof (winv_reachable _ Hr) as I. pose proof (oinv_reachable _ Hr) as O.
  set (c := call_of s args l) in *.
  simpl in Hs. apply do_call_next in Hs. destruct Hs as (s' & coll' & Hf' & _ & Hs). rewrite Hf in Hf'. inversion Hf'; subst s' coll'.
  fold c in Hs. apply handle_call_next in Hs. destruct Hs as (lst & es & ml & Hl & Hes & Hml & Hcr).
  destruct (match_loop_ret _ _ _ _ _ _ _ Hml) as (_ & _ & _ & _ & Hun). simpl in Hun.
  destruct (lookup_exps_spec _ _ _ Hes) as [Hmap Hin]. pose proof (wi_coll _ I _ _ Hl) as Hm.
  destruct (overload_live_params _ _ _ _ _ I O Hf _ _ Hlive) as [Hdc _]. pose proof Hlive as (Hx & Ha & Hc).
  destruct (att_throws (length args) w e x c I Hx) as (rep & y & Hatt & Ht & Hfe); eauto.
  { rewrite Hlen, <- (decay_params _ _ Hdc). exact (wi_pol _ I _ _ Hx). }
  assert (Hone : filter (is_unhandled e) (map (unhandled_event (w_rid w) c) (ml_unhandled ml)) =
                 [EvReport (w_rid w) (RUnhandled (make_call_report c) rep y) [e]]).
  { rewrite Hun. assert (Hnd : NoDup (map fst es)) by (rewrite Hmap, Hm; apply NoDup_rev; apply members_nodup).
    assert (Hie : In (e, eo_exp x) es).
    { assert (Hn : In e (map fst es)) by (rewrite Hmap, Hm; apply -> in_rev; apply members_in; exists x; auto).
      apply in_map_iff in Hn. destruct Hn as ([k x'] & E & Hk). simpl in E. subst k. destruct (Hin _ _ Hk) as (z & Hz & ->).
      unfold exp_at in Hx. rewrite Hx in Hz. inversion Hz; subst z. auto. }
    clear -Hnd Hie Hatt. induction es as [|[n x'] es IH]; [contradiction|]. inversion Hnd; subst. cbn [flat_map]. rewrite map_app, filter_app.
    assert (Hno : ~ In e (map fst es) -> filter (is_unhandled e) (map (unhandled_event (w_rid w) c) (flat_map (sel_unhandled (w_reporter w) (w_uncaught w) (w_seqs w) c) es)) = []).
    { clear. intros Hn. induction es as [|[k x'] es IH]; auto. cbn [flat_map]. rewrite map_app, filter_app.
      rewrite IH by (intros H; apply Hn; right; auto). unfold sel_unhandled. cbn [fst snd].
      destruct (att _ _ _ _ _) as [[m0|r y]| | |]; auto. cbn [map filter unhandled_event is_unhandled fst app].
      destruct (Nat.eqb_spec k e); auto. exfalso. apply Hn. left; auto. }
    destruct Hie as [E|Hie].
    - inversion E; subst. rewrite (Hno H1). unfold sel_unhandled. cbn [fst snd]. rewrite Hatt. cbn. rewrite Nat.eqb_refl. reflexivity.
    - rewrite IH by auto. assert (Hne : n <> e) by (intros ->; apply H1; apply in_map_fst; eauto).
      unfold sel_unhandled at 1. cbn [fst snd]. destruct (att _ _ _ _ x') as [[m0|r y0]| | |]; auto.
      cbn. destruct (Nat.eqb_spec n e); [congruence|]. reflexivity. }
  inversion Hcr; subst; eexists; exists rep, y; (split; [unfold accept_world, add_trace; cbn [w_seqs w_iface w_sdead w_exps w_colls w_mocks w_scoped w_frames w_rid w_reporter w_uncaught w_trace]; reflexivity|]); (split; [|auto]); rewrite filter_app, Hone;
    cbn [filter is_unhandled]; auto. unfold fail_report. destruct (ml_inapplicable ml); reflexivity.
Qed.
