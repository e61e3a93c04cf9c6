(** * PropLifetime: ends of expectations and sequences in programs with several threads (C100). *)

From Verif Require Import Base Lib Sequence Control Signature Printer Reports Expectation Builder World WorldSpec CallSpec StepCases WorldInv
  MatchLemmas BuildProofs Scenario FrameSpec Conc ConcSpec ConcProofs PropConc ConcOrder Race RaceSpec RaceProofs RaceFree PropRace Lifetime LifetimeSpec LifetimeProofs LifetimeOrder.

(** ** Events *)

Lemma plain_app a b : plain_events (a ++ b) = plain_events a ++ plain_events b.
Proof. unfold plain_events. apply flat_map_app. Qed.
Lemma plain_map l : plain_events (map LE l) = l.
Proof. induction l as [|x l IH]; cbn; auto. f_equal. exact IH. Qed.
Lemma releases_app a b : releases (a ++ b) = releases a ++ releases b.
Proof. unfold releases. apply flat_map_app. Qed.
Lemma releases_map l : releases (map LE l) = [].
Proof. induction l as [|x l IH]; cbn; auto. Qed.

Lemma releases_seq_end w s : releases (seq_end w s) = [].
Proof. unfold seq_end. cbn. destruct (nth_error (w_seqs w) s) as [q|]; auto. destruct (seq_dtor_error q); reflexivity. Qed.

Lemma releases_drop w l : releases (drop_events w l) = l.
Proof.
  induction l as [|s l IH]; cbn [drop_events]; auto. change (releases (?a :: ?b)) with (releases [a] ++ releases b). cbn [releases flat_map app]. fold (releases ((if seq_in_use w s || existsb (Nat.eqb s) l then [] else seq_end w s) ++ drop_events w l)).
  rewrite releases_app, IH. destruct (_ || _); [reflexivity|]. rewrite releases_seq_end. reflexivity.
Qed.

(** The errors of destroyed sequences: each once, whichever release is the last. *)
Definition err_of (w : world) (s : nat) : nat :=
  match nth_error (w_seqs w) s with Some q => match seq_dtor_error q with Some _ => 1 | None => 0 end | None => 0 end.
Definition errs_at (w : world) (d : list bool) (s : nat) : nat := if seq_in_use w s || nth s d true then 0 else err_of w s.
Fixpoint deliveries (n : nat) : list mev := match n with 0 => [] | S n => deliver KError ++ deliveries n end.

Lemma deliveries_app n m : deliveries (n + m) = deliveries n ++ deliveries m.
Proof. induction n as [|n IH]; cbn [Nat.add deliveries]; auto. rewrite IH, app_assoc. reflexivity. Qed.

Lemma plain_seq_end w s : plain_events (seq_end w s) = deliveries (err_of w s).
Proof.
  unfold seq_end, err_of. change (plain_events (?a :: ?b)) with (plain_events b). destruct (nth_error (w_seqs w) s) as [q|]; [|reflexivity].
  destruct (seq_dtor_error q); reflexivity.
Qed.

Lemma drop_errors w d l : (forall s, In s l -> nth s d true = false) -> plain_events (drop_events w l) = deliveries (list_sum (map (errs_at w d) (nodup Nat.eq_dec l))).
Proof.
  induction l as [|s l IH]; intros Hd; cbn [drop_events nodup]; auto. change (plain_events (?a :: ?b)) with (plain_events b). rewrite plain_app, IH by (intros; apply Hd; right; auto).
  destruct (in_dec Nat.eq_dec s l) as [Hin|Hin].
  - replace (existsb (Nat.eqb s) l) with true by (symmetry; apply existsb_eqb; auto). rewrite orb_true_r. reflexivity.
  - replace (existsb (Nat.eqb s) l) with false by (symmetry; apply not_true_is_false; rewrite existsb_eqb; auto). rewrite orb_false_r. cbn [map list_sum fold_right].
    change (fold_right Nat.add 0 ?q) with (list_sum q). rewrite deliveries_app. f_equal. unfold errs_at. rewrite (Hd s) by (left; auto). rewrite orb_false_r.
    destruct (seq_in_use w s); [reflexivity|]. apply plain_seq_end.
Qed.

Lemma errs_upd w d s l : NoDup l -> list_sum (map (errs_at w d) l) = (if in_dec Nat.eq_dec s l then errs_at w d s else 0) + list_sum (map (errs_at w (upd d s true)) l).
Proof.
  induction 1 as [|a l Hn Hd IH]; auto. cbn [map]. change (list_sum (?a :: ?b)) with (a + list_sum b). rewrite IH.
  assert (A : errs_at w (upd d s true) a = if s =? a then 0 else errs_at w d a).
  { unfold errs_at. rewrite nth_upd_true. destruct (s =? a); auto. rewrite orb_true_r. reflexivity. }
  rewrite A. destruct (Nat.eqb_spec s a) as [->|Hne].
  - destruct (in_dec Nat.eq_dec a (a :: l)) as [_|H]; [|exfalso; apply H; left; auto]. destruct (in_dec Nat.eq_dec a l); [contradiction|]. lia.
  - destruct (in_dec Nat.eq_dec s (a :: l)) as [[->|H]|H]; [congruence| |].
    + destruct (in_dec Nat.eq_dec s l); [lia|contradiction].
    + destruct (in_dec Nat.eq_dec s l); [exfalso; apply H; right; auto|lia].
Qed.

Lemma released_errors w l d evs d' : released w l d evs d' ->
  flat_map (fun ev => match ev with EvReport _ (RError _ _) _ => deliver KError | _ => [] end) evs = deliveries (list_sum (map (errs_at w d) (nodup Nat.eq_dec l))).
Proof.
  induction 1 as [d|s l d evs d' Hk H IH|s q l d evs d' Hu Hd Hq H IH]; auto.
  - rewrite IH. cbn [nodup]. destruct (in_dec Nat.eq_dec s l); auto. cbn [map]. change (list_sum (?a :: ?b)) with (a + list_sum b).
    replace (errs_at w d s) with 0; auto. unfold errs_at. destruct Hk as [-> | ->]; [|rewrite orb_true_r]; reflexivity.
  - rewrite flat_map_app, IH. assert (E : errs_at w d s = err_of w s) by (unfold errs_at; rewrite Hu, Hd; reflexivity).
    assert (F : flat_map (fun ev => match ev with EvReport _ (RError _ _) _ => deliver KError | _ => [] end) (dtor_events (w_rid w) s q) = deliveries (err_of w s)).
    { unfold dtor_events, err_of. rewrite Hq. destruct (seq_dtor_error q) as [[k n]|]; reflexivity. }
    rewrite F, <- deliveries_app. f_equal. cbn [nodup]. pose proof (errs_upd w d s (nodup Nat.eq_dec l) (NoDup_nodup _ _)) as U.
    destruct (in_dec Nat.eq_dec s l) as [Hin|Hin].
    + rewrite U. destruct (in_dec Nat.eq_dec s (nodup Nat.eq_dec l)) as [_|G]; [lia|]. exfalso. apply G. apply nodup_In. exact Hin.
    + cbn [map]. change (list_sum (?a :: ?b)) with (a + list_sum b). rewrite U. destruct (in_dec Nat.eq_dec s (nodup Nat.eq_dec l)) as [G|_]; [|lia].
      exfalso. apply Hin. apply nodup_In in G. exact G.
Qed.

(** Nothing of Race.v is lost or added. *)
Theorem C100_events_of_steps release n acts c t a c' r : cruns release (cinit n) acts c -> cstep release c t a = CNext c' r ->
  plain_events (life_of release c t a) = ev_of release c t a.
Proof.
  intros R Hs. pose proof (li_reach _ _ _ _ R) as L. destruct (life_case _ _ _ _ _ _ Hs) as
    [Hl Hsame Hown Hno|s evs d' Ha Hi w1 Hr Hc Ht Hl|e x l unf evs d' Ha Hx Hcl Hin w1 Hr He Hi Hd Ht Hu Hev Hl]; rewrite Hl.
  - apply plain_map.
  - subst a. rewrite (drop_errors _ (w_sdead (cw c))), <- (released_errors _ _ _ _ _ Hr).
    + pose proof (cstep_op _ _ _ _ _ _ Hs) as (th & v & Hth & Hp & _ & Ho & ->). unfold ev_of. rewrite Hth, Hp. cbn [is_call op_events]. rewrite Ho. unfold error_events.
      cbn [cw leave w_trace set_uncaught set_frames] in Ht. rewrite Ht. cbn [w_trace enter set_uncaught set_frames]. rewrite skipn_app_all. reflexivity.
    + intros s0 [<-|[]]. rewrite (li_dead _ L). apply negb_false_iff, in_use_spec. auto.
  - assert (A : eo_alive x = true).
    { rewrite (li_coll _ L _ _ Hcl) in Hin. apply members_in in Hin. destruct Hin as (x' & Hx' & A & _). unfold exp_at in *. congruence. }
    rewrite plain_app, plain_map, Hev. f_equal. change (plain_events (LKill ?a :: ?b)) with (plain_events b).
    rewrite (drop_errors _ (w_sdead (cw c))), <- (released_errors _ _ _ _ _ Hr).
    + rewrite flat_map_app. replace (flat_map _ unf) with (@nil mev); auto. clear -Hu. induction unf as [|ev unf IH]; auto. cbn [flat_map].
      destruct (Hu ev (or_introl eq_refl)) as (rid & rep & who & ->). apply IH. intros ev Hin. apply Hu. right. exact Hin.
    + intros s Hs0. eapply seq_alive; eauto.
Qed.

(** ** Ends in one step *)

Lemma drop_plain_error w l y : In (LE y) (drop_events w l) -> In y (deliver KError).
Proof.
  induction l as [|s0 l IH]; cbn [drop_events]; [intros []|]. cbn [In]. rewrite in_app_iff. intros [H|[H|H]]; [discriminate| |auto].
  destruct (_ || _); [destruct H|]. apply seq_end_parts in H. destruct H as [H|(k & H & D)]; [discriminate|]. injection H as ->. exact D.
Qed.

(** The end of a scope: the expectation ends after its list has been unlocked; then its sequences are released, one by one. *)
Theorem C100_end_of_scope release c t h e x c' r :
  cstep release c t (AOp (OEndScope h)) = CNext c' r -> nth_error (w_scoped (cw c)) h = Some (HOwns e) -> exp_at (cw c) e x ->
  exists body rest, life_of release c t (AOp (OEndScope h)) =
    LE (MLock (eo_coll x)) :: map LE body ++ LE (MUnlock (eo_coll x)) :: LKill (PlCount e) :: rest /\
    Forall lockless body /\ releases rest = x_seqs x /\ forall y, In (LE y) rest -> In y (deliver KError).
Proof.
  intros Hs Hh Hx. pose proof (cstep_op _ _ _ _ _ _ Hs) as (th & v & Hth & Hp & _ & Ho & _).
  set (w1 := set_exps (enter (cw c) th) (upd (w_exps (enter (cw c) th)) e (mkEObj (eo_exp x) (eo_coll x) false (eo_ov x) (eo_sig x)))).
  exists (MRead (PlVector (eo_coll x)) :: MWrite (PlVector (eo_coll x)) :: MRead (PlCount e) ::
    (if exp_is_satisfied (eo_exp x) then [] else report_events e (eo_exp x) ++ match exp_report_of (w_seqs (cw c)) (eo_exp x) with Ret _ => deliver KUnfulfilled | _ => [] end)),
    (drop_events w1 (x_seqs x)). split; [|split; [|split]].
  - unfold life_of. rewrite Hth, Hp. cbn [is_call before_endings]. unfold endings. rewrite Ho. unfold handle_events, handle_ending.
    change (w_scoped (enter (cw c) th)) with (w_scoped (cw c)). rewrite Hh. unfold end_events, ending. change (w_exps (enter (cw c) th)) with (w_exps (cw c)) at 1 2. unfold exp_at in Hx.
    rewrite Hx. unfold remove_events. change (w_seqs (enter (cw c) th)) with (w_seqs (cw c)). rewrite map_app, map_app, <- !app_assoc. cbn [map app]. reflexivity.
  - repeat (apply Forall_cons; [exact Logic.I|]). destruct (exp_is_satisfied (eo_exp x)); [constructor|]. apply Forall_app. split.
    + eapply Forall_impl; [|apply (report_inside 0)]. intros y. apply inside_lockless.
    + destruct (exp_report_of _ _); [repeat (constructor; [exact Logic.I|]); constructor|constructor..].
  - apply releases_drop.
  - intros y H. apply drop_plain_error in H. exact H.
Qed.

Lemma skipn_next {A} n (l : list A) x l' : skipn n l = x :: l' -> skipn (S n) l = l'.
Proof. revert l. induction n as [|n IH]; intros [|y l] H; try discriminate; [injection H as _ H; exact H|]. exact (IH _ H). Qed.

(** A sequence ends right after the release of its last shared_ptr. *)
Theorem C100_last_release release c t a c' r j q : cstep release c t a = CNext c' r ->
  nth_error (life_of release c t a) j = Some (LKill (PlSeq q)) ->
  0 < j /\ nth_error (life_of release c t a) (j - 1) = Some (LDrop q) /\ ~ In q (releases (skipn j (life_of release c t a))).
Proof.
  intros Hs Hj.
  assert (K : forall w l k, nth_error (drop_events w l) k = Some (LKill (PlSeq q)) ->
    0 < k /\ nth_error (drop_events w l) (k - 1) = Some (LDrop q) /\ ~ In q (releases (skipn k (drop_events w l)))).
  { intros w l k H. destruct (drop_at _ _ _ _ H) as (l1 & l2 & _ & Hn & Hp & H0 & Hsk). split; auto. split; [rewrite <- Hp; f_equal; lia|].
    destruct k as [|k]; [lia|]. replace (S k - 1) with k in Hsk by lia.
    assert (E : skipn (S k) (drop_events w l) = seq_end w q ++ drop_events w l2).
    { exact (skipn_next _ _ _ _ Hsk). }
    rewrite E, releases_app, releases_seq_end, releases_drop. exact Hn. }
  destruct (life_case _ _ _ _ _ _ Hs) as
    [Hl Hsame Hown Hno|s evs d' Ha Hi w1 Hr Hc Ht Hl|e x l unf evs d' Ha Hx Hcl Hin w1 Hr He Hi Hd Ht Hu Hev Hl]; rewrite Hl in *.
  - exfalso. apply nth_error_In in Hj. apply in_map_iff in Hj. destruct Hj as (z & E & _). discriminate.
  - eauto.
  - set (pre := map LE (remove_events (w_seqs (cw c)) (eo_coll x) e (eo_exp x))) in *.
    destruct (Nat.lt_ge_cases j (length pre)) as [Hlt|Hge].
    { exfalso. rewrite nth_error_app1 in Hj by auto. apply nth_error_In in Hj. apply in_map_iff in Hj. destruct Hj as (z & E & _). discriminate. }
    rewrite nth_error_app2 in Hj by auto. destruct (j - length pre) as [|m] eqn:Em; [discriminate|]. cbn [nth_error] in Hj. destruct (K _ _ _ Hj) as (H0 & H1 & H2).
    split; [lia|]. split.
    + rewrite nth_error_app2 by lia. replace (j - 1 - length pre) with (S (m - 1)) by lia. exact H1.
    + rewrite skipn_app, skipn_all2 by lia. cbn [app]. rewrite Em. exact H2.
Qed.

(** An expectation ends in the step after which it is no longer alive. *)
Theorem C100_ends_of_expectations release n acts c t a c' r e : cruns release (cinit n) acts c -> cstep release c t a = CNext c' r ->
  In (LKill (PlCount e)) (life_of release c t a) <->
  (exists x, exp_at (cw c) e x /\ eo_alive x = true) /\ (exists x', exp_at (cw c') e x' /\ eo_alive x' = false).
Proof.
  intros R Hs. pose proof (li_reach _ _ _ _ R) as L. split.
  - intros H. apply In_nth_error in H. destruct H as [j Hj]. destruct (step_end _ _ _ _ _ _ _ _ L Hs Hj) as (_ & A & E & _). auto.
  - intros ((x & Hx & A) & (x' & Hx' & A')). destruct (step_stays _ _ _ _ _ _ _ _ L Hs Hx A) as [(y & Hy & Ay & _)|(_ & _ & H & _)]; auto.
    unfold exp_at in *. congruence.
Qed.

Lemma owners_owns w q : owners_of w q = (if nth q (w_iface w) false then 1 else 0)
  + list_sum (map (fun o : bool * list nat => if fst o then count_occ Nat.eq_dec (snd o) q else 0) (map owns (w_exps w))).
Proof. unfold owners_of. rewrite map_map. reflexivity. Qed.

Lemma list_sum_zero l : list_sum l = 0 <-> forall x, In x l -> x = 0.
Proof.
  induction l as [|a l IH]; [split; [intros _ x []|reflexivity]|]. change (list_sum (a :: l)) with (a + list_sum l). split.
  - intros H x [<-|Hx]; [lia|]. apply IH; auto. lia.
  - intros H. rewrite (H a) by (left; auto). apply IH. intros x Hx. apply H. right. auto.
Qed.

Lemma owners_in_use w q : owners_of w q = 0 <-> seq_in_use w q = false.
Proof.
  assert (E : seq_in_use w q = true <-> owners_of w q <> 0).
  { rewrite in_use_spec. unfold owners_of. split.
    - intros [-> | (e & x & Hx & A & Hq)]; [lia|]. intros H.
      assert (Z : list_sum (map (fun x => if eo_alive x then count_occ Nat.eq_dec (map fst (c_seqs (e_ctl (eo_exp x)))) q else 0) (w_exps w)) = 0) by lia.
      rewrite list_sum_zero in Z. apply (count_occ_In Nat.eq_dec) in Hq. unfold x_seqs in Hq.
      enough (count_occ Nat.eq_dec (map fst (c_seqs (e_ctl (eo_exp x)))) q = 0) by lia. apply Z. apply in_map_iff. exists x. rewrite A. split; auto. eapply nth_error_In; eauto.
    - intros H. destruct (nth q (w_iface w) false); [left; auto|]. right.
      destruct (list_eq_dec Nat.eq_dec (filter (fun v => negb (v =? 0)) (map (fun x => if eo_alive x then count_occ Nat.eq_dec (map fst (c_seqs (e_ctl (eo_exp x)))) q else 0) (w_exps w))) []) as [Z|Z].
      + exfalso. apply H. cbn [Nat.add]. apply list_sum_zero. intros v Hv. destruct (Nat.eqb_spec v 0); auto. exfalso.
        assert (G : In v []) by (rewrite <- Z; apply filter_In; split; auto; destruct (Nat.eqb_spec v 0); auto). destruct G.
      + destruct (filter _ _) as [|v l] eqn:F; [congruence|]. assert (G : In v (v :: l)) by (left; auto). rewrite <- F in G. apply filter_In in G. destruct G as [G G'].
        apply in_map_iff in G. destruct G as (x & Ex & Hin). apply In_nth_error in Hin. destruct Hin as [e He]. exists e, x. split; [exact He|].
        destruct (eo_alive x); [|subst v; discriminate]. split; auto. apply (count_occ_In Nat.eq_dec). unfold x_seqs. rewrite Ex. destruct v; [discriminate|lia]. }
  destruct (seq_in_use w q); split; intros H; auto; try discriminate.
  - exfalso. apply E; auto.
  - destruct (Nat.eq_dec (owners_of w q) 0) as [|G]; auto. apply E in G. discriminate.
Qed.

(** Each release lowers the number of owners by one; only new sequences and new expectations raise it. *)
Lemma list_sum_upd l i a b : nth_error l i = Some a -> list_sum (upd l i b) + a = list_sum l + b.
Proof.
  revert i. induction l as [|c l IH]; intros [|i] H; try discriminate; cbn [nth_error] in H.
  - injection H as ->. cbn [upd]. change (list_sum (?u :: ?v)) with (u + list_sum v). lia.
  - cbn [upd]. change (list_sum (?u :: ?v)) with (u + list_sum v). specialize (IH _ H). lia.
Qed.

Theorem C100_releases release n acts c t a c' r q : cruns release (cinit n) acts c -> cstep release c t a = CNext c' r -> creates a = false ->
  owners_of (cw c') q + count_occ Nat.eq_dec (releases (life_of release c t a)) q = owners_of (cw c) q.
Proof.
  intros R Hs Hn. pose proof (li_reach _ _ _ _ R) as L. destruct (life_case _ _ _ _ _ _ Hs) as
    [Hl Hsame Hown Hno|s evs d' Ha Hi w1 Hr Hc Ht Hl|e x l unf evs d' Ha Hx Hcl Hin w1 Hr He Hi Hd Ht Hu Hev Hl]; rewrite Hl.
  - rewrite releases_map. destruct (Hown Hn) as [H1 H2]. rewrite !owners_owns, H1, H2. cbn [count_occ]. lia.
  - rewrite releases_drop. destruct (core_fields _ _ Hc) as (_ & Hif & _ & Hex & _). rewrite !owners_owns, Hif, Hex. unfold w1. cbn [w_iface w_exps set_iface set_sdead].
    assert (Hlt : s < length (w_iface (cw c))) by (destruct (Nat.lt_ge_cases s (length (w_iface (cw c)))) as [|G]; auto; rewrite nth_overflow in Hi by auto; discriminate).
    rewrite nth_iface_upd by exact Hlt. cbn [count_occ]. destruct (Nat.eqb_spec s q) as [->|Hne].
    + destruct (Nat.eq_dec q q); [|congruence]. rewrite Hi. lia.
    + destruct (Nat.eq_dec s q); [congruence|]. lia.
  - assert (A : eo_alive x = true).
    { rewrite (li_coll _ L _ _ Hcl) in Hin. apply members_in in Hin. destruct Hin as (x' & Hx' & A & _). unfold exp_at in *. congruence. }
    rewrite releases_app, releases_map. cbn [app]. change (releases (LKill ?a :: ?b)) with (releases b). rewrite releases_drop.
    rewrite !owners_owns, Hi, He. unfold w1. cbn [w_exps set_exps]. rewrite !map_map, map_upd.
    pose proof (list_sum_upd (map (fun x0 => if fst (owns x0) then count_occ Nat.eq_dec (snd (owns x0)) q else 0) (w_exps (cw c))) e
      (count_occ Nat.eq_dec (map fst (c_seqs (e_ctl (eo_exp x)))) q) 0) as S.
    rewrite nth_error_map in S. unfold exp_at in Hx. rewrite Hx in S. cbn [option_map owns fst snd] in S. rewrite A in S. specialize (S eq_refl).
    cbn [owns fst snd eo_alive]. unfold owns in S |- *. cbn [fst snd] in S |- *. lia.
Qed.

Theorem C100_new_owners release c t m ov ms cls l c' : cstep release c t (AOp (OExpect m ov ms cls l)) = CNext c' RUnit ->
  exists x, exp_at (cw c') (length (w_exps (cw c))) x /\ eo_alive x = true /\
    forall q, owners_of (cw c') q = owners_of (cw c) q + count_occ Nat.eq_dec (x_seqs x) q.
Proof.
  intros Hs. apply cstep_op in Hs. destruct Hs as (th & v & _ & _ & _ & Ho & ->). cbn [step] in Ho. apply do_expect_next in Ho.
  destruct Ho as (s & coll & _ & _ & _ & [(z & _ & _ & G)|(b & ss & ctl & mem & _ & _ & _ & _ & _ & ->)]); [discriminate|].
  exists (mkEObj (mkExp l ctl (b_policies b) (b_final b)) coll true ov s). split; [unfold exp_at; cbn [cw leave set_uncaught set_frames w_exps new_world]; apply nth_error_app_last|].
  split; [reflexivity|]. intros q. unfold owners_of. cbn [cw leave set_uncaught set_frames w_exps w_iface new_world enter set_scoped set_colls set_exps set_seqs].
  rewrite map_app, list_sum_app. cbn [map list_sum fold_right eo_alive eo_exp e_ctl]. unfold x_seqs. cbn [eo_exp e_ctl]. lia.
Qed.

Theorem C100_new_sequences release c t f c' r q : cstep release c t (AOp (ONewSeq f)) = CNext c' r ->
  owners_of (cw c') q = owners_of (cw c) q + (if q =? length (w_iface (cw c)) then 1 else 0).
Proof.
  intros Hs. apply cstep_op in Hs. destruct Hs as (th & v & _ & _ & _ & Ho & ->). cbn [step] in Ho. injection Ho as <- _.
  unfold owners_of. cbn [cw leave set_uncaught set_frames w_exps w_iface enter set_sdead set_iface set_seqs]. 
  destruct (Nat.eqb_spec q (length (w_iface (cw c)))) as [->|Hne].
  - rewrite app_nth2, Nat.sub_diag by lia. rewrite (nth_overflow (w_iface (cw c))) by lia. cbn [nth]. lia.
  - destruct (Nat.lt_ge_cases q (length (w_iface (cw c)))) as [Hlt|Hge]; [rewrite app_nth1 by auto; lia|].
    rewrite !nth_overflow by (rewrite ?app_length; cbn [length]; lia). lia.
Qed.

(** A sequence ends in the step which takes its last owner. *)
Theorem C100_ends_of_sequences release n acts c t a c' r q : cruns release (cinit n) acts c -> cstep release c t a = CNext c' r ->
  (In (LKill (PlSeq q)) (life_of release c t a) <-> owners_of (cw c) q <> 0 /\ owners_of (cw c') q = 0) /\
  (In (LKill (PlSeq q)) (life_of release c t a) <-> nth_error (w_sdead (cw c)) q = Some false /\ nth_error (w_sdead (cw c')) q = Some true).
Proof.
  intros R Hs. pose proof (li_reach _ _ _ _ R) as L. pose proof (li_step _ _ _ _ _ _ Hs L) as L'.
  assert (A : In (LKill (PlSeq q)) (life_of release c t a) -> nth_error (w_sdead (cw c)) q = Some false /\ nth_error (w_sdead (cw c')) q = Some true).
  { intros H. apply In_nth_error in H. destruct H as [j Hj]. destruct (step_end _ _ _ _ _ _ _ _ L Hs Hj) as (_ & A & E & _). split; [apply nth_false_some; exact A|exact E]. }
  assert (U : forall w, LI w -> forall b, nth_error (w_sdead w) q = Some b -> seq_in_use w q = negb b).
  { intros w Lw b Hb. pose proof (li_dead _ Lw q) as D. rewrite (nth_error_nth _ _ true Hb) in D. rewrite D, negb_involutive. reflexivity. }
  assert (B : nth_error (w_sdead (cw c)) q = Some false /\ nth_error (w_sdead (cw c')) q = Some true -> owners_of (cw c) q <> 0 /\ owners_of (cw c') q = 0).
  { intros [H1 H2]. apply (U _ L) in H1. apply (U _ L') in H2. cbn in H1, H2. rewrite owners_in_use, owners_in_use. split; congruence. }
  assert (C : owners_of (cw c) q <> 0 /\ owners_of (cw c') q = 0 -> In (LKill (PlSeq q)) (life_of release c t a)).
  { intros [H1 H2]. rewrite owners_in_use in H1, H2. apply not_false_is_true in H1. destruct (life_case _ _ _ _ _ _ Hs) as
      [Hl Hsame Hown Hno|s evs d' Ha Hi w1 Hr Hc Ht Hl|e x l unf evs d' Ha Hx Hcl Hin w1 Hr He Hi Hd Ht Hu Hev Hl]; rewrite Hl.
    - exfalso. assert (D : nth_error (w_sdead (cw c)) q = Some false) by (apply nth_false_some; rewrite (li_dead _ L), H1; reflexivity).
      apply (proj2 Hsame) in D. apply (U _ L') in D. cbn in D. congruence.
    - destruct (core_fields _ _ Hc) as (_ & Hif & _ & Hex & _). rewrite (in_use_ext w1 (cw c')) in H2 by (rewrite ?Hex, ?Hif; reflexivity).
      apply drop_kill. exists q. split; auto. split; auto. destruct (Nat.eq_dec s q) as [|Hne]; [left; auto|]. exfalso.
      enough (seq_in_use w1 q = true) by congruence. apply in_use_spec. apply in_use_spec in H1. destruct H1 as [H1|H1]; [left|right; exact H1].
      unfold w1. cbn [w_iface set_iface].
      assert (Hlt : s < length (w_iface (cw c))) by (destruct (Nat.lt_ge_cases s (length (w_iface (cw c)))) as [|G]; auto; rewrite nth_overflow in Hi by auto; discriminate).
      rewrite nth_iface_upd by exact Hlt. destruct (Nat.eqb_spec s q); [congruence|exact H1].
    - rewrite (in_use_ext w1 (cw c')) in H2 by (rewrite ?He, ?Hi; reflexivity). apply in_or_app. right. right. apply drop_kill. exists q. split; auto. split; auto.
      destruct (in_dec Nat.eq_dec q (x_seqs x)) as [|Hq]; auto. exfalso. enough (seq_in_use w1 q = true) by congruence. apply in_use_spec. apply in_use_spec in H1.
      destruct H1 as [H1|(e1 & x1 & Hx1 & A1 & Hq1)]; [left; exact H1|right]. exists e1, x1. split; [|auto]. unfold exp_at, w1 in *. cbn [w_exps set_exps].
      rewrite nth_error_upd_neq; auto. intros ->. congruence. }
  split; (split; [auto|]); intros H; auto.
Qed.

(** ** Accesses and ends of several threads *)

Lemma li_cinit n : LI (cw (cinit n)).
Proof. eapply (li_reach true n []). constructor. Qed.

(** While the program has no undefined behaviour, nothing is used after its end, and everything ends at most once. *)
Theorem C100_no_use_after_end release n acts c i j t a t' p : cruns release (cinit n) acts c ->
  access_at (life release (cinit n) acts) i t a p -> end_at (life release (cinit n) acts) j t' p -> i < j.
Proof. intros R. apply (ends_after_access _ _ _ _ _ _ _ _ _ _ (li_cinit n) R). Qed.

Theorem C100_ends_once release n acts c i j t t' p : cruns release (cinit n) acts c ->
  end_at (life release (cinit n) acts) i t p -> end_at (life release (cinit n) acts) j t' p -> i = j /\ t = t'.
Proof.
  intros R H1 H2. assert (i = j) by exact (ends_once _ _ _ _ _ _ _ _ _ (li_cinit n) R H1 H2). subst j. split; auto.
  destruct H1 as [a H1], H2 as [b H2]. congruence.
Qed.

(** The mutexes of the overloads and the counters of the shared_ptrs order the end of an expectation or a sequence after every access
    made by matching a call, by a new expectation or by the end of a scope, of any thread. *)
Theorem C100_ends_are_ordered release n acts c i j t a t' p : cruns release (cinit n) acts c ->
  access_at (life release (cinit n) acts) i t a p -> end_at (life release (cinit n) acts) j t' p -> ~ unguarded a ->
  lhb (life release (cinit n) acts) i j.
Proof. intros R. apply (access_before_end _ _ _ _ _ _ _ _ _ _ (li_cinit n) R). Qed.

(** An access without a mutex is ordered if its thread accesses the same object again under a mutex, e.g. by another call. *)
Theorem C100_later_access_orders release n acts c i i' j t a a' t' p : cruns release (cinit n) acts c ->
  access_at (life release (cinit n) acts) i t a p -> access_at (life release (cinit n) acts) i' t a' p -> i < i' -> ~ unguarded a' ->
  end_at (life release (cinit n) acts) j t' p -> lhb (life release (cinit n) acts) i j.
Proof.
  intros R H1 H2 Hlt Hg He. eapply lhb_trans; [|eapply C100_ends_are_ordered; eauto].
  destruct H1 as [H1|H1], H2 as [H2|H2]; eapply lhb_program; eauto.
Qed.

Lemma lhb_forward tr i j : lhb tr i j -> i < j.
Proof. induction 1; lia. Qed.

Lemma lhb_threads tr i j : lhb tr i j -> exists t a x t' b y, nth_error tr i = Some (t, a, x) /\ nth_error tr j = Some (t', b, y).
Proof.
  induction 1 as [i j t a b x y Hij Hi Hj|i j t t' a b m Hij Hi Hj|i j t t' a b q Hij Hi Hj|i j k H1 IH1 H2 IH2]; eauto 10.
  destruct IH1 as (t1 & a1 & x1 & _ & _ & _ & H1' & _), IH2 as (_ & _ & _ & t2 & a2 & x2 & _ & H2'). eauto 10.
Qed.

Definition hands_over (y : lev) : Prop := (exists m, y = LE (MUnlock m)) \/ exists q, y = LDrop q.

(** Happening before an event of another thread needs an unlock or a release by the first thread. *)
Lemma lhb_needs tr i j : lhb tr i j -> forall t a x t' b y, nth_error tr i = Some (t, a, x) -> nth_error tr j = Some (t', b, y) -> t <> t' ->
  exists u b' z, i <= u < j /\ nth_error tr u = Some (t, b', z) /\ hands_over z.
Proof.
  induction 1 as [i j t0 a0 b0 x0 y0 Hij Hi Hj|i j t0 t1 a0 b0 m Hij Hi Hj|i j t0 t1 a0 b0 q Hij Hi Hj|i j k H1 IH1 H2 IH2]; intros t a x t' b y Ht Ht' Hne.
  - congruence.
  - rewrite Hi in Ht. injection Ht as <- <- <-. exists i, a0, (LE (MUnlock m)). split; [lia|]. split; auto. left. eauto.
  - rewrite Hi in Ht. injection Ht as <- <- <-. exists i, a0, (LDrop q). split; [lia|]. split; auto. right. eauto.
  - pose proof (lhb_forward _ _ _ H1) as L1. pose proof (lhb_forward _ _ _ H2) as L2.
    destruct (lhb_threads _ _ _ H2) as (t2 & a2 & z & _ & _ & _ & Hz & _). destruct (Nat.eq_dec t t2) as [->|Hn].
    + destruct (IH2 _ _ _ _ _ _ Hz Ht' Hne) as (u & b' & z' & Hu & H). exists u, b', z'. split; auto; lia.
    + destruct (IH1 _ _ _ _ _ _ Ht Hz Hn) as (u & b' & z' & Hu & H). exists u, b', z'. split; auto; lia.
Qed.

(** The quiet actions are all but the calls, the creations and ends of expectations, and the ends of sequences. *)
Theorem C100_quiet_actions a : quiet a = false <->
  (exists m ov args l, a = AMatch m ov args l) \/
  exists o, a = AOp o /\ ((exists m ov ms cls l, o = OExpect m ov ms cls l) \/ (exists h, o = OEndScope h) \/ (exists dst src, o = OMoveAssignScoped dst src) \/
    exists s, o = ODropSeq s).
Proof.
  split.
  - destruct a as [o|m ov args l|]; [|intros _; left; eauto|discriminate]. intros H. right. exists o. split; auto.
    destruct o; try discriminate; eauto 12.
  - intros [(m & ov & args & l & ->)|(o & -> & [(m & ov & ms & cls & l & ->)|[(h & ->)|[(dst & src & ->)|(s & ->)]]])]; reflexivity.
Qed.

Lemma quiet_life release c t a y : quiet a = true -> In y (life_of release c t a) -> ~ hands_over y.
Proof.
  intros Hq Hin Hh. assert (T : takes_lock a = false) by (destruct a as [[]| |]; try discriminate; reflexivity).
  pose proof (ev_lockless release c t a T) as F. rewrite Forall_forall in F.
  assert (E : exists z, y = LE z /\ In z (ev_of release c t a)).
  { unfold life_of in Hin. destruct (nth_error (c_threads c) t) as [th|] eqn:Hth; [|destruct Hin].
    assert (G : In y (map LE (ev_of release c t a))).
    { destruct (t_pending th) as [pd|] eqn:Hp; [exact Hin|]. destruct a as [o|m ov args l|]; try exact Hin. destruct (is_call o) eqn:Hc; [destruct Hin|].
      unfold ev_of. rewrite Hth, Hp, Hc. apply in_app_or in Hin. destruct Hin as [Hin|Hin].
      - destruct o; try discriminate; exact Hin.
      - exfalso. unfold endings in Hin. destruct (step _ o); try destruct Hin. destruct o; try discriminate; destruct Hin. }
    apply in_map_iff in G. destruct G as (z & <- & G). eauto. }
  destruct E as (z & -> & Hz). apply F in Hz. destruct Hh as [[m E]|[q E]]; [|discriminate]. injection E as ->. exact Hz.
Qed.

Lemma life_in release acts : forall c cN t a y, cruns release c acts cN -> In (t, a, y) (life release c acts) -> In (t, a) acts /\ exists c1, In y (life_of release c1 t a).
Proof.
  intros c cN t a y R H. apply In_nth_error in H. destruct H as [i Hi]. destruct (life_at _ _ _ _ _ _ _ _ R Hi) as (A & B & c1 & c1' & r & k & -> & _ & _ & _ & _ & Hk).
  split; [apply in_or_app; right; left; reflexivity|]. exists c1. eapply nth_error_In; eauto.
Qed.

(** Counting an accepted call, and asking a ScopedExpectation, race with the end of the expectation by another thread, unless the first
    thread uses a mutex or releases a sequence in between: the library itself does not order them. *)
Theorem C100_unguarded_accesses_race release c acts1 c1 t a c1' r acts2 c2 t' b c2' r' acts3 p y :
  cruns release c acts1 c1 -> unguarded a -> cstep release c1 t a = CNext c1' r -> In (LE y) (life_of release c1 t a) -> y = MRead p \/ y = MWrite p ->
  cruns release c1' acts2 c2 -> (forall a', In (t, a') acts2 -> quiet a' = true) ->
  t <> t' -> cstep release c2 t' b = CNext c2' r' -> In (LKill p) (life_of release c2 t' b) ->
  end_race (life release c (acts1 ++ (t, a) :: acts2 ++ (t', b) :: acts3)) p.
Proof.
  intros R1 Hu Hs Hy T R2 Hq Hne Hs' Hk. apply In_nth_error in Hy. apply In_nth_error in Hk. destruct Hy as [k Hk1], Hk as [k' Hk2].
  rewrite (life_parts _ _ _ _ _ _ _ _ _ _ _ _ _ _ _ R1 Hs R2 Hs').
  set (L1 := life release c acts1). set (L2 := life release c1' acts2). set (L3 := life release c2' acts3). set (b1 := life_of release c1 t a) in *. set (b2 := life_of release c2 t' b) in *.
  set (tr := L1 ++ map (pair (t, a)) b1 ++ L2 ++ map (pair (t', b)) b2 ++ L3).
  pose proof (nth_error_lt _ _ _ Hk1) as Li. pose proof (nth_error_lt _ _ _ Hk2) as Lj.
  set (I := length L1 + k). set (J := length L1 + (length b1 + (length L2 + k'))).
  assert (HI : nth_error tr I = Some (t, a, LE y)) by (unfold tr, I; apply nth_in_second; apply nth_pair_map; exact Hk1).
  assert (HJ : nth_error tr J = Some (t', b, LKill p)).
  { unfold tr, J. rewrite nth_error_app2 by lia. replace (_ + _ - length L1) with (length b1 + (length L2 + k')) by lia.
    rewrite nth_error_app2; rewrite map_length; [|lia]. replace (_ + _ - length b1) with (length L2 + k') by lia. apply nth_in_second. apply nth_pair_map. exact Hk2. }
  exists I, J, t, t', a. split. { unfold access_at. destruct T as [-> | ->]; auto. }
  split. { exists b. exact HJ. }
  split; [exact Hne|]. split.
  2:{ intros H. apply lhb_forward in H. unfold I, J in H. lia. }
  intros H. destruct (lhb_needs _ _ _ H _ _ _ _ _ _ HI HJ Hne) as (u & b' & z & Hu1 & Hz & Hh).
  assert (Qa : quiet a = true) by (destruct Hu as [->|[h ->]]; reflexivity).
  unfold tr, I, J in *. rewrite nth_error_app2 in Hz by lia. destruct (Nat.lt_ge_cases (u - length L1) (length b1)) as [H1|H1].
  - rewrite nth_error_app1 in Hz by (rewrite map_length; auto). apply nth_map_pair in Hz. destruct Hz as [E Hz]. injection E as ->.
    eapply (quiet_life release c1 t a); eauto. eapply nth_error_In; eauto.
  - rewrite nth_error_app2 in Hz; rewrite map_length in *; auto. destruct (Nat.lt_ge_cases (u - length L1 - length b1) (length L2)) as [H2|H2].
    + rewrite nth_error_app1 in Hz by auto. apply nth_error_In in Hz. destruct (life_in _ _ _ _ _ _ _ R2 Hz) as (Hin & c3 & Hl). eapply quiet_life; [apply Hq; exact Hin|exact Hl|exact Hh].
    + rewrite nth_error_app2 in Hz by auto. rewrite nth_error_app1 in Hz by (rewrite map_length; lia). apply nth_map_pair in Hz. destruct Hz as [E _]. injection E as E _. auto.
Qed.

(** ** Examples *)

(** Thread 0 owns sequence 0 and the expectations 0 and 1, both attached to it; thread 1 calls; thread 0 then gives up everything. *)
Definition accepted : list (nat * action) :=
  [(0, AOp (ONewMock [sig_unary])); (0, AOp (ONewSeq Lazy));
   (0, AOp (OExpect 0 0 [m_any] [ClSeq [0]; ClTimes (TxRange 0 3)] here)); (0, AOp (OExpect 0 0 [m_eq 2] [ClSeq [0]; ClTimes (TxRange 0 3)] here));
   (1, AMatch 0 0 [VInt 1] there)].
Definition given_up : list (nat * action) := accepted ++ (1, ACount) :: finish 1.
Definition owner_leaves : list (nat * action) := [(0, AOp (ODropSeq 0)); (0, AOp (OEndScope 0)); (0, AOp (OEndScope 1))].

Example C100_events_example :
  life_of true (after2 given_up) 0 (AOp (ODropSeq 0)) = [LDrop 0] /\
  life_of true (after2 (given_up ++ [(0, AOp (ODropSeq 0))])) 0 (AOp (OEndScope 0)) =
    map LE [MLock 0; MRead (PlVector 0); MWrite (PlVector 0); MRead (PlCount 0); MUnlock 0] ++ [LKill (PlCount 0); LDrop 0] /\
  life_of true (after2 (given_up ++ [(0, AOp (ODropSeq 0)); (0, AOp (OEndScope 0))])) 0 (AOp (OEndScope 1)) =
    map LE [MLock 0; MRead (PlVector 0); MWrite (PlVector 0); MRead (PlCount 1); MUnlock 0] ++ [LKill (PlCount 1); LDrop 0; LKill (PlSeq 0)] /\
  map (fun acts => owners_of (cw (after2 (given_up ++ acts))) 0)
    [[]; [(0, AOp (ODropSeq 0))]; [(0, AOp (ODropSeq 0)); (0, AOp (OEndScope 0))]; owner_leaves] = [3; 2; 1; 0].
Proof. vm_compute. repeat split. Qed.

(** The matching of thread 1 is ordered before the ends. *)
Example C100_ends_are_ordered_example : exists c i j a,
  let acts := given_up ++ owner_leaves in
  cruns true (cinit 2) acts c /\ access_at (life true (cinit 2) acts) i 1 a (PlSeq 0) /\ end_at (life true (cinit 2) acts) j 0 (PlSeq 0) /\ ~ unguarded a /\
  lhb (life true (cinit 2) acts) i j.
Proof.
  assert (H : exists c i j, let acts := given_up ++ owner_leaves in
    cruns true (cinit 2) acts c /\ nth_error (life true (cinit 2) acts) i = Some (1, AMatch 0 0 [VInt 1] there, LE (MRead (PlSeq 0))) /\ end_at (life true (cinit 2) acts) j 0 (PlSeq 0)).
  { exists (after2 (given_up ++ owner_leaves)), 17, 46. cbv zeta. split; [apply after2_runs; vm_compute; reflexivity|]. split; [vm_compute; reflexivity|]. eexists. vm_compute. reflexivity. }
  destruct H as (c & i & j & R & Hi & Hj). exists c, i, j, (AMatch 0 0 [VInt 1] there). cbv zeta.
  assert (U : ~ unguarded (AMatch 0 0 [VInt 1] there)) by (intros [E|[h E]]; discriminate).
  split; auto. split; [left; exact Hi|]. split; auto. split; auto. eapply C100_ends_are_ordered; eauto. left. exact Hi.
Qed.

(** The counting of thread 1 is not. *)
Theorem C100_ends_never_race_refuted : exists acts c p, cruns true (cinit 2) acts c /\ end_race (life true (cinit 2) acts) p.
Proof.
  assert (H : exists c1 c1' r c2 c2' r',
    cruns true (cinit 2) accepted c1 /\ cstep true c1 1 ACount = CNext c1' r /\ In (LE (MWrite (PlCount 0))) (life_of true c1 1 ACount) /\
    cruns true c1' (finish 1) c2 /\ cstep true c2 0 (AOp (OEndScope 0)) = CNext c2' r' /\ In (LKill (PlCount 0)) (life_of true c2 0 (AOp (OEndScope 0)))).
  { do 6 eexists. split; [apply cexec_runs; vm_compute; reflexivity|]. split; [vm_compute; reflexivity|]. split; [vm_compute; auto 10|].
    split; [apply cexec_runs; vm_compute; reflexivity|]. split; [vm_compute; reflexivity|]. vm_compute. auto 10. }
  destruct H as (c1 & c1' & r & c2 & c2' & r' & R1 & Hs & Hy & R2 & Hs' & Hk).
  exists (accepted ++ (1, ACount) :: finish 1 ++ (0, AOp (OEndScope 0)) :: []), c2', (PlCount 0). split.
  - eapply cruns_app; [exact R1|]. econstructor; [exact Hs|]. eapply cruns_app; [exact R2|]. econstructor; [exact Hs'|constructor].
  - eapply (C100_unguarded_accesses_race true (cinit 2) accepted c1 1 ACount); [exact R1|left; reflexivity|exact Hs|exact Hy|auto|exact R2| |discriminate|exact Hs'|exact Hk].
    intros a' H. cbn in H. repeat (destruct H as [H|H]; [injection H as <-; reflexivity|]). destruct H.
Qed.

(** Thread 1 gives up the last owner: its release comes after those of thread 0, and so does the end of the sequence. *)
Example C100_last_owner_example :
  let acts := accepted ++ (1, ACount) :: finish 1 ++ [(0, AOp (ODropSeq 0)); (0, AOp (OEndScope 0)); (1, AOp (OEndScope 1))] in
  (exists c, cruns true (cinit 2) acts c) /\ exists i j, end_at (life true (cinit 2) acts) j 1 (PlSeq 0) /\
    nth_error (life true (cinit 2) acts) i = Some (0, AOp (ODropSeq 0), LDrop 0) /\ lhb (life true (cinit 2) acts) i j.
Proof.
  cbv zeta. split; [eexists; apply cexec_runs; vm_compute; reflexivity|].
  set (tr := life true (cinit 2) _). exists 31, 46.
  assert (H : nth_error tr 31 = Some (0, AOp (ODropSeq 0), LDrop 0) /\ nth_error tr 45 = Some (1, AOp (OEndScope 1), LDrop 0) /\ nth_error tr 46 = Some (1, AOp (OEndScope 1), LKill (PlSeq 0)))
    by (vm_compute; repeat split).
  destruct H as (H1 & H2 & H3). split; [eexists; exact H3|]. split; [exact H1|].
  eapply lhb_trans; [eapply lhb_count; [|exact H1|exact H2]; lia|eapply lhb_program; [|exact H2|exact H3]; lia].
Qed.

(** A second call of thread 1 orders its first one before the end of the scope. *)
Example C100_later_access_example :
  let acts := given_up ++ (1, AMatch 0 0 [VInt 1] there) :: [(0, AOp (OEndScope 0))] in
  exists c i i' j, cruns true (cinit 2) acts c /\ access_at (life true (cinit 2) acts) i 1 ACount (PlCount 0) /\
    access_at (life true (cinit 2) acts) i' 1 (AMatch 0 0 [VInt 1] there) (PlCount 0) /\ i < i' /\ end_at (life true (cinit 2) acts) j 0 (PlCount 0).
Proof.
  cbv zeta. exists (after2 (given_up ++ (1, AMatch 0 0 [VInt 1] there) :: [(0, AOp (OEndScope 0))])), 29, 37, 49.
  split; [apply after2_runs; vm_compute; reflexivity|]. split; [right; vm_compute; reflexivity|]. split; [left; vm_compute; reflexivity|]. split; [lia|].
  eexists. vm_compute. reflexivity.
Qed.

Print Assumptions C100_quiet_actions.
Print Assumptions C100_events_of_steps.
Print Assumptions C100_end_of_scope.
Print Assumptions C100_last_release.
Print Assumptions C100_ends_of_expectations.
Print Assumptions C100_releases.
Print Assumptions C100_new_owners.
Print Assumptions C100_new_sequences.
Print Assumptions C100_ends_of_sequences.
Print Assumptions C100_no_use_after_end.
Print Assumptions C100_ends_once.
Print Assumptions C100_ends_are_ordered.
Print Assumptions C100_later_access_orders.
Print Assumptions C100_unguarded_accesses_race.
Print Assumptions C100_ends_never_race_refuted.
