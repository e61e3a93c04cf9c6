(** * SelectProofs: the selection of the best match. *)

From Coq Require Import Sorted.
From Verif Require Import Base Lib Sequence Control Signature Printer Reports Expectation Builder BuildSpec World WorldSpec CallSpec
  SeqInv BuilderLemmas StepCases MatchLemmas WorldInv ObjInv CallProofs CountProofs SelectSpec.

(** ** has_better_rating *)

Definition votes_against (rhs : list rating) (l : rating) : bool :=
  match find_rating (r_tag l) rhs with
  | Some r => (r_priority l <? r_priority r)%Z
  | None => false
  end.

Lemma better_loop_spec rhs lhs : forall acc, better_loop acc lhs rhs = true <->
  (exists l, In l lhs /\ find_rating (r_tag l) rhs = None) \/
  ((2 * Z.of_nat (length (filter (votes_against rhs) lhs)) <= Z.of_nat (length lhs) + acc)%Z).
Proof.
  induction lhs as [|l lhs IH]; intros acc.
  - simpl. rewrite Z.leb_le. split; [intros; right; lia|intros [(l & [] & _)|H]; lia].
  - cbn [better_loop filter]. unfold votes_against at 1. destruct (find_rating (r_tag l) rhs) as [r|] eqn:Hr.
    + rewrite IH. destruct (r_priority l <? r_priority r)%Z; cbn [length]; split;
        (intros [(l' & Hl & Hn)|H]; [left|right; lia]); try (exists l'; split; [right|]; auto; fail);
        destruct Hl as [<-|Hl]; try congruence; eauto.
    + split; auto. intros _. left. exists l. split; [left|]; auto.
Qed.

Lemma find_rating_none ss tag lb : find_rating tag (map (rating_in ss) lb) = None <-> ~ In tag (map fst lb).
Proof.
  induction lb as [|[s id] lb IH]; simpl; [tauto|].
  assert (E : r_tag (rating_in ss (s, id)) = s) by (unfold rating_in; simpl; destruct (nth_error ss s); reflexivity).
  rewrite E. destruct (Nat.eqb_spec s tag); split; intros H; try discriminate; try tauto.
Qed.

Lemma find_rating_some ss tag id lb : NoDup (map fst lb) -> In (tag, id) lb ->
  find_rating tag (map (rating_in ss) lb) = Some (rating_in ss (tag, id)).
Proof.
  induction lb as [|[s i] lb IH]; intros Hn Hi; simpl in *; [contradiction|]. inversion Hn; subst.
  assert (E : r_tag (rating_in ss (s, i)) = s) by (unfold rating_in; simpl; destruct (nth_error ss s); reflexivity).
  rewrite E. destruct (Nat.eqb_spec s tag) as [Es|Hne].
  - subst s. destruct Hi as [H|H]; [inversion H; subst; auto|]. exfalso. apply H1. apply in_map_fst; eauto.
  - destruct Hi as [H|H]; [inversion H; congruence|]. auto.
Qed.

Lemma classic_sub (l l' : list nat) : (forall s, In s l -> In s l') \/ (exists s, In s l /\ ~ In s l').
Proof.
  induction l as [|a l [IH|(s & H1 & H2)]].
  - left. intros s [].
  - destruct (in_dec Nat.eq_dec a l'); [left; intros s [<-|H]; auto|right; exists a; split; [left|]; auto].
  - right. exists s. split; [right|]; auto.
Qed.

Lemma better_keeps w a b xa xb : WInv w -> exp_at w a xa -> exp_at w b xb ->
  (has_better_rating (map (rating_in (w_seqs w)) (c_seqs (ctl_of xa))) (map (rating_in (w_seqs w)) (c_seqs (ctl_of xb))) = true <-> keeps w a b).
Proof.
  intros I Ha Hb. pose proof (wi_s _ I) as S. pose proof (ctls_nth _ _ _ Ha) as Ca. pose proof (ctls_nth _ _ _ Hb) as Cb.
  pose proof (si_nodup _ _ S _ _ Ca) as Na. pose proof (si_nodup _ _ S _ _ Cb) as Nb.
  unfold has_better_rating. rewrite better_loop_spec. set (rhs := map (rating_in (w_seqs w)) (c_seqs (ctl_of xb))).
  assert (Hmiss : (exists l, In l (map (rating_in (w_seqs w)) (c_seqs (ctl_of xa))) /\ find_rating (r_tag l) rhs = None) <->
                  (exists s, In s (x_seqs xa) /\ ~ In s (x_seqs xb))).
  { split.
    - intros (l & Hl & Hn). apply in_map_iff in Hl. destruct Hl as ([s id] & <- & Hi).
      assert (E : r_tag (rating_in (w_seqs w) (s, id)) = s) by (unfold rating_in; simpl; destruct (nth_error _ s); reflexivity).
      rewrite E in Hn. apply find_rating_none in Hn. exists s. split; auto. apply in_map_fst; eauto.
    - intros (s & Hs & Hn). apply in_map_fst in Hs. destruct Hs as [id Hi]. exists (rating_in (w_seqs w) (s, id)). split; [apply in_map; auto|].
      assert (E : r_tag (rating_in (w_seqs w) (s, id)) = s) by (unfold rating_in; simpl; destruct (nth_error _ s); reflexivity).
      rewrite E. apply find_rating_none. auto. }
  rewrite Hmiss, map_length.
  assert (Hcount : (forall s, In s (x_seqs xa) -> In s (x_seqs xb)) ->
     length (filter (votes_against rhs) (map (rating_in (w_seqs w)) (c_seqs (ctl_of xa)))) =
     length (filter (fun s => worse_in w s a b) (x_seqs xa))).
  { unfold x_seqs at 1 3. fold (ctl_of xa). intros Hsub.
    assert (G : forall l, incl l (c_seqs (ctl_of xa)) -> length (filter (votes_against rhs) (map (rating_in (w_seqs w)) l)) =
                  length (filter (fun s => worse_in w s a b) (map fst l))).
    { induction l as [|[s id] l IH]; intros Hincl; auto. cbn [map filter fst].
      assert (Hi : In (s, id) (c_seqs (ctl_of xa))) by (apply Hincl; left; auto).
      replace (votes_against rhs (rating_in (w_seqs w) (s, id))) with (worse_in w s a b).
      { specialize (IH (fun p Hp => Hincl p (or_intror Hp))). destruct (worse_in w s a b); simpl; auto. }
      assert (Hs : In s (x_seqs xb)) by (apply Hsub; apply in_map_fst; eauto).
      apply in_map_fst in Hs. destruct Hs as [id' Hi']. destruct (si_entry _ _ S _ _ _ _ Ca Hi) as (q & Hq & _).
      unfold votes_against.
      assert (E : r_tag (rating_in (w_seqs w) (s, id)) = s) by (unfold rating_in; simpl; destruct (nth_error _ s); reflexivity).
      rewrite E. unfold rhs. rewrite (find_rating_some _ _ id' _ Nb Hi'). unfold rating_in. cbn [fst snd]. rewrite Hq. cbn [r_priority].
      assert (Hord : (b < a -> id' < id) /\ (a < b -> id < id') /\ (a = b -> id = id')).
      { split; [|split]; intros.
        - exact (si_order _ _ S _ _ _ _ _ _ _ Cb Ca Hi' Hi H).
        - exact (si_order _ _ S _ _ _ _ _ _ _ Ca Cb Hi Hi' H).
        - subst b. unfold exp_at in Ha, Hb. rewrite Ha in Hb. inversion Hb; subst xb. eapply nodup_fst_inj; eauto. }
      destruct Hord as (O1 & O2 & O3). unfold worse_in, is_lazy, priority. rewrite Hq. destruct (s_strategy q).
      - destruct (Nat.ltb_spec b a) as [H|H]; symmetry; [apply Z.ltb_lt; specialize (O1 H); lia|apply Z.ltb_ge].
        destruct (Nat.eq_dec a b) as [E1|E1]; [specialize (O3 E1); lia|]. assert (a < b) by lia. specialize (O2 H0). lia.
      - destruct (Nat.ltb_spec a b) as [H|H]; symmetry; [apply Z.ltb_lt; specialize (O2 H); lia|apply Z.ltb_ge].
        destruct (Nat.eq_dec a b) as [E1|E1]; [specialize (O3 E1); lia|]. assert (b < a) by lia. specialize (O1 H0). lia. }
    apply G. apply incl_refl. }
  assert (Hlen : length (c_seqs (ctl_of xa)) = length (x_seqs xa)) by (unfold x_seqs; rewrite map_length; reflexivity).
  rewrite Hlen. split.
  - intros H. exists xa, xb. split; auto. split; auto.
    destruct (classic_sub (x_seqs xa) (x_seqs xb)) as [Hsub|Hsub]; [|left; auto].
    destruct H as [H|H]; [left; auto|right]. rewrite Hcount in H by auto. lia.
  - intros (ya & yb & Hya & Hyb & H). unfold exp_at in *. rewrite Ha in Hya. inversion Hya; subst ya. rewrite Hb in Hyb. inversion Hyb; subst yb.
    destruct (classic_sub (x_seqs xa) (x_seqs xb)) as [Hsub|Hsub]; [|left; auto].
    destruct H as [H|H]; [left; auto|right]. rewrite Hcount by auto. lia.
Qed.

(** ** The matched expectation is the selected one *)

Lemma keeps_dec w a b xa xb : WInv w -> exp_at w a xa -> exp_at w b xb -> keeps w a b \/ ~ keeps w a b.
Proof.
  intros I Ha Hb. rewrite <- (better_keeps _ _ _ _ _ I Ha Hb).
  destruct (has_better_rating _ _); [left; auto|right; discriminate].
Qed.

Lemma pick_tournament w : WInv w -> forall rest best n mr,
  (forall k r, In (k, r) (best :: rest) -> exists x, exp_at w k x /\ ratings_of r = Ret (map (rating_in (w_seqs w)) (c_seqs (ctl_of x)))) ->
  pick_best best rest = Ret (n, mr) -> tournament w (fst best) (map fst rest) n.
Proof.
  intros I. induction rest as [|[e r] rest IH]; intros [b rb] n mr H Hp; simpl in *.
  - inversion Hp; subst. constructor.
  - destruct (H b rb) as (xb & Hb & Hrb); auto. destruct (H e r) as (xe & He & Hre); auto.
    rewrite Hrb, Hre in Hp. simpl in Hp.
    destruct (has_better_rating _ _) eqn:E in Hp.
    + apply t_keep; [apply (better_keeps _ _ _ _ _ I Hb He); auto|]. refine (IH (b, rb) n mr _ Hp). intros k r' [H'|H']; apply H; auto.
    + apply t_replace; [rewrite <- (better_keeps _ _ _ _ _ I Hb He); congruence|]. refine (IH (e, r) n mr _ Hp). intros k r' [H'|H']; apply H; auto.
Qed.

Lemma call_selects w m ov args l w' : reachable w -> step w (OCall m ov args l) = Next w' RUnit ->
  exists s coll n, find_overload w m ov = inr (s, coll) /\ selected w (candidate w coll (call_of s args l)) n /\
    forall e, accepted (w_trace w') e = accepted (w_trace w) e + (if n =? e then 1 else 0).
Proof.
  intros Hr H. pose proof (winv_reachable _ Hr) as I. pose proof (oinv_reachable _ Hr) as O.
  simpl in H. apply do_call_next in H.
  destruct H as (s & coll & Hf & Hlen & H). apply handle_call_next in H. destruct H as (lst & es & ml & Hl & Hes & Hml & Hcr).
  exists s, coll. set (c := call_of s args l) in *.
  inversion Hcr; subst. exists n. split; auto.
  destruct (match_loop_ret _ _ _ _ _ _ _ Hml) as (Hall & Hfull & _). simpl in Hfull.
  destruct (lookup_exps_spec _ _ _ Hes) as [Hmap Hin].
  pose proof (wi_coll _ I _ _ Hl) as Hm.
  assert (Hlive : forall k e, In (k, e) es <-> exists x, live_in w coll k x /\ e = eo_exp x).
  { intros k e. split.
    - intros Hk. destruct (Hin _ _ Hk) as (x & Hx & ->). exists x. split; auto.
      assert (Hn : In k (rev lst)) by (rewrite <- Hmap; apply in_map_fst; eauto). apply in_rev in Hn. rewrite Hm in Hn.
      apply members_in in Hn. destruct Hn as (y & Hy & Ha & Hc). unfold exp_at in *. rewrite Hx in Hy. inversion Hy; subst. repeat split; auto.
    - intros (x & (Hx & Ha & Hc) & ->). assert (Hn : In k (map fst es)).
      { rewrite Hmap, Hm. apply -> in_rev. apply members_in. exists x. auto. }
      apply in_map_iff in Hn. destruct Hn as ([k' e'] & E & Hne). simpl in E. subst k'.
      destruct (Hin _ _ Hne) as (y & Hy & ->). unfold exp_at in *. rewrite Hx in Hy. inversion Hy; subst. auto. }
  assert (Hatt : forall k x, live_in w coll k x ->
     (exists mr0, att (w_reporter w) (w_uncaught w) (w_seqs w) c (eo_exp x) = Ret (AttemptReport mr0) /\ clean (eo_exp x) c /\
        (evaluate_match_report mr0 = MatchFull <-> accepts (eo_exp x) c /\ applicable w k x) /\
        (applicable w k x -> ratings_of mr0 = Ret (map (rating_in (w_seqs w)) (c_seqs (ctl_of x))))) \/
     (~ clean (eo_exp x) c /\ exists r y, att (w_reporter w) (w_uncaught w) (w_seqs w) c (eo_exp x) = Ret (AttemptUnhandled r y))).
  { intros k x Hk. destruct (Hall (k, eo_exp x)) as [a Ha]; [apply Hlive; eauto|]. simpl in Ha.
    destruct a as [mr0|r y].
    - left. exists mr0. split; auto. pose proof (att_report_clean _ _ _ _ _ _ Ha) as Hc. split; auto.
      destruct (att_clean w k x c I (proj1 Hk) Hc) as (m' & Hm' & _ & Hf' & _ & _ & Hrt). rewrite Ha in Hm'. inversion Hm'; subst m'.
      split; auto. intros Happ. specialize (Hrt Happ). unfold ratings_of. destruct (mr_state mr0); try contradiction. subst; auto.
    - right. split; eauto. intros Hc. destruct (att_clean w k x c I (proj1 Hk) Hc) as (m' & Hm' & _). congruence. }
  assert (Hsel : forall k r, In (k, r) (ml_full ml) -> exists x, exp_at w k x /\ candidate w coll c k x /\
                   ratings_of r = Ret (map (rating_in (w_seqs w)) (c_seqs (ctl_of x)))).
  { intros k r Hk. rewrite Hfull in Hk. apply sel_in in Hk. destruct Hk as (e & Hk & Ha & Hev). apply Hlive in Hk.
    destruct Hk as (x & Hk & ->). exists x. split; [apply Hk|].
    destruct (Hatt _ _ Hk) as [(mr0 & Hmr0 & _ & Hf' & Hrt)|(_ & r' & y & Hmr0)]; rewrite Ha in Hmr0; inversion Hmr0; subst mr0.
    apply Hf' in Hev. destruct Hev as [Hacc Happ]. split; auto. split; auto. }
  split.
  - exists (fst first), (map fst others). split.
    + change (fst first :: map fst others) with (map fst (first :: others)). rewrite <- H. split.
      * rewrite Hfull. apply sorted_flat_map; [intros p; apply sel_shape|]. rewrite Hmap, Hm. apply sorted_rev_members.
      * intros e. rewrite in_map_iff. split.
        -- intros ([k r] & <- & Hk). destruct (Hsel _ _ Hk) as (x & Hx & Hc & _). eauto.
        -- intros (x & Hx & Hlv & Hacc & Happ). destruct (Hatt _ _ Hlv) as [(mr0 & Hmr0 & _ & Hf' & _)|(Hn & _)]; [|destruct Hacc; tauto].
           exists (e, mr0). split; auto. rewrite Hfull. eapply sel_of; eauto; [apply Hlive; eauto|]. apply Hf'; auto.
    + eapply pick_tournament; eauto. intros k r Hk. rewrite <- H in Hk. destruct (Hsel _ _ Hk) as (x & Hx & _ & Hrt). eauto.
  - intros e. unfold accept_world, add_trace. simpl. rewrite !accepted_app, accepted_full.
    destruct (quiet_counts _ (quiet_unhandled (w_rid w) c (ml_unhandled ml)) e) as [A _]. lia.
Qed.

(** ** Consequences *)

Lemma tournament_in w b l n : tournament w b l n -> In n (b :: l).
Proof. intros H. induction H; simpl in *; auto; destruct IHtournament; auto. Qed.

Lemma tournament_first w b l n : (forall e, In e l -> keeps w b e) -> tournament w b l n -> n = b.
Proof.
  intros H T. induction T; auto.
  - apply IHT. intros e' He'. apply H. right; auto.
  - exfalso. apply H0. apply H. left; auto.
Qed.

Lemma newest_first_head w P first others : newest_first w P (first :: others) ->
  (exists x, exp_at w first x /\ P first x) /\ forall e x, exp_at w e x -> P e x -> e <= first.
Proof.
  intros [Hs Hin]. split; [apply Hin; left; auto|]. intros e x He HP. assert (H : In e (first :: others)) by (apply Hin; eauto).
  destruct H as [->|H]; auto. inversion Hs; subst. rewrite Forall_forall in H3. specialize (H3 _ H). lia.
Qed.

(** The newest candidate without sequences is selected. *)
Lemma selected_newest w P n e x : selected w P n -> exp_at w e x -> P e x -> x_seqs x = [] ->
  (forall e' x', exp_at w e' x' -> P e' x' -> e' <= e) -> n = e.
Proof.
  intros (first & others & Hn & T) Hx HP Hnil Hnew. destruct (newest_first_head _ _ _ _ Hn) as [(y & Hy & HPy) Hle].
  assert (first = e) by (apply Nat.le_antisymm; [eapply Hnew; eauto|eapply Hle; eauto]). subst first.
  eapply tournament_first; eauto. intros e' He'. destruct Hn as [_ Hin]. destruct (proj1 (Hin e') (or_intror He')) as (x' & Hx' & _).
  exists x, x'. split; auto. split; auto. right. rewrite Hnil. simpl. lia.
Qed.

(** A candidate which is strictly preferred to all others is selected. *)
Lemma tournament_champion w p : forall l b n, tournament w b l n -> In p (b :: l) ->
  (forall e, In e (b :: l) -> e <> p -> keeps w p e /\ ~ keeps w e p) -> NoDup (b :: l) -> n = p.
Proof.
  intros l b n T. induction T as [b|b e l n Hk T IH|b e l n Hk T IH]; intros Hp H Hnd.
  - destruct Hp as [|[]]; auto.
  - destruct Hp as [->|[Hep|Hp]].
    + apply IH; [left; auto| |].
      * intros e' [->|He']; [congruence|]. apply H. right; right; auto.
      * inversion Hnd; subst. inversion H3; subst. constructor; auto. intros Hin. apply H2. right; auto.
    + subst e. exfalso. assert (Hne : b <> p) by (inversion Hnd; subst; intros ->; apply H2; left; auto).
      destruct (H b (or_introl eq_refl) Hne) as [_ Hno]. auto.
    + apply IH; [right; auto| |].
      * intros e' [->|He']; apply H; simpl; auto.
      * inversion Hnd; subst. inversion H3; subst. constructor; auto. intros Hin. apply H2. right; auto.
  - destruct Hp as [->|[Hep|Hp]].
    + exfalso. assert (Hne : e <> p) by (inversion Hnd; subst; intros ->; apply H2; left; auto).
      destruct (H e (or_intror (or_introl eq_refl)) Hne) as [Hyes _]. auto.
    + subst e. apply IH; [left; auto| |].
      * intros e' [->|He']; [congruence|]. apply H. right; right; auto.
      * inversion Hnd; auto.
    + apply IH; [right; auto| |].
      * intros e' [->|He']; apply H; simpl; auto.
      * inversion Hnd; auto.
Qed.

Lemma sorted_nodup l : StronglySorted (fun a b => b < a) l -> NoDup l.
Proof.
  intros H. induction H; constructor; auto. intros Hin. rewrite Forall_forall in H0. specialize (H0 _ Hin). lia.
Qed.

Lemma selected_champion w P n p : selected w P n -> (exists x, exp_at w p x /\ P p x) ->
  (forall e x, exp_at w e x -> P e x -> e <> p -> keeps w p e /\ ~ keeps w e p) -> n = p.
Proof.
  intros (first & others & [Hs Hin] & T) Hp H. eapply tournament_champion; eauto.
  - apply Hin; auto.
  - intros e He Hne. destruct (proj1 (Hin e) He) as (x & Hx & HP). eapply H; eauto.
  - apply sorted_nodup; auto.
Qed.

Lemma filter_all {A} (f : A -> bool) l : (forall a, In a l -> f a = true) -> filter f l = l.
Proof. induction l as [|a l IH]; simpl; intros H; auto. rewrite (H a) by auto. f_equal. apply IH. intros; apply H; auto. Qed.
Lemma filter_none {A} (f : A -> bool) l : (forall a, In a l -> f a = false) -> filter f l = [].
Proof. induction l as [|a l IH]; simpl; intros H; auto. rewrite (H a) by auto. apply IH. intros; apply H; auto. Qed.

(** If all candidates take part in the same sequences and one is preferred in each of them, it is selected. *)
Lemma selected_unanimous w P n p xp : selected w P n -> exp_at w p xp -> P p xp -> x_seqs xp <> [] ->
  (forall e x, exp_at w e x -> P e x -> same_seqs x xp) ->
  (forall e x s, exp_at w e x -> P e x -> e <> p -> In s (x_seqs xp) -> worse_in w s e p = true) -> n = p.
Proof.
  intros S Hp HPp Hne Hsame Hpref. eapply selected_champion; eauto. intros e x Hx HP Hep.
  pose proof (Hsame _ _ Hx HP) as Hs. split.
  - exists xp, x. split; auto. split; auto. right. rewrite filter_none; [simpl; lia|]. intros s Hin.
    pose proof (Hpref _ _ _ Hx HP Hep Hin) as Hw. unfold worse_in in *. destruct (is_lazy w s); apply Nat.ltb_lt in Hw; apply Nat.ltb_ge; lia.
  - intros (y & yp & Hy & Hyp & [(s & H1 & H2)|H]); unfold exp_at in *; rewrite Hx in Hy; inversion Hy; subst y; rewrite Hp in Hyp; inversion Hyp; subst yp.
    + apply H2. apply Hs; auto.
    + rewrite filter_all in H.
      * destruct (x_seqs x) eqn:E; [|simpl in H; lia]. apply Hne. destruct (x_seqs xp) as [|s l] eqn:E2; auto. exfalso.
        assert (G : In s (x_seqs x)) by (apply Hs; rewrite E2; left; auto). rewrite E in G. contradiction.
      * intros s Hin. eapply Hpref; eauto. apply Hs; auto.
Qed.

(** The sequences of the newest candidate are sequences of the selected one. *)
Lemma not_keeps_sub w a b xa xb : exp_at w a xa -> exp_at w b xb -> ~ keeps w a b -> forall s, In s (x_seqs xa) -> In s (x_seqs xb).
Proof.
  intros Ha Hb Hn s Hs. destruct (in_dec Nat.eq_dec s (x_seqs xb)); auto. exfalso. apply Hn. exists xa, xb. split; auto. split; auto. left; eauto.
Qed.

Lemma tournament_sub w : forall l b n, tournament w b l n -> (forall e, In e (b :: l) -> exists x, exp_at w e x) ->
  forall xb xn, exp_at w b xb -> exp_at w n xn -> forall s, In s (x_seqs xb) -> In s (x_seqs xn).
Proof.
  intros l b n T. induction T as [b|b e l n Hk T IH|b e l n Hk T IH]; intros H xb xn Hb Hn s Hs.
  - unfold exp_at in *. congruence.
  - eapply IH; eauto. intros e' [->|He']; eauto. apply H. right; right; auto.
  - destruct (H e) as [xe He]; [right; left; auto|]. eapply IH; eauto.
    + intros e' [->|He']; eauto. apply H. right; right; auto.
    + apply (not_keeps_sub _ _ _ _ _ Hb He Hk); auto.
Qed.

Lemma selected_sub w P n xn e x : selected w P n -> exp_at w n xn -> exp_at w e x -> P e x ->
  (forall e' x', exp_at w e' x' -> P e' x' -> e' <= e) -> forall s, In s (x_seqs x) -> In s (x_seqs xn).
Proof.
  intros (first & others & Hn & T) Hxn Hx HP Hnew. destruct (newest_first_head _ _ _ _ Hn) as [(y & Hy & HPy) Hle].
  assert (first = e) by (apply Nat.le_antisymm; [eapply Hnew; eauto|eapply Hle; eauto]). subst first.
  eapply tournament_sub; eauto. intros e' He'. destruct Hn as [_ Hin]. apply Hin in He'. destruct He' as (x' & Hx' & _). eauto.
Qed.

(** With the same sequences, the sequences vote. *)
Definition lazy_votes (w : world) (x : eobj) : nat := length (filter (is_lazy w) (x_seqs x)).

Lemma x_seqs_nodup w e x : WInv w -> exp_at w e x -> NoDup (x_seqs x).
Proof. intros I Hx. exact (si_nodup _ _ (wi_s _ I) _ _ (ctls_nth _ _ _ Hx)). Qed.

Lemma same_seqs_votes w e x e' x' : WInv w -> exp_at w e x -> exp_at w e' x' -> same_seqs x x' ->
  length (x_seqs x) = length (x_seqs x') /\ lazy_votes w x = lazy_votes w x'.
Proof.
  intros I Hx Hx' Hs. assert (Hp : Permutation.Permutation (x_seqs x) (x_seqs x')).
  { apply Permutation.NoDup_Permutation; [eapply x_seqs_nodup; eauto|eapply x_seqs_nodup; eauto|exact Hs]. }
  split; [apply Permutation.Permutation_length; auto|]. unfold lazy_votes.
  assert (G : forall l l', Permutation.Permutation l l' -> length (filter (is_lazy w) l) = length (filter (is_lazy w) l')).
  { clear. intros l l' H. induction H; simpl; auto; [destruct (is_lazy w x); simpl; auto| |congruence].
    destruct (is_lazy w x), (is_lazy w y); auto. }
  apply G; auto.
Qed.

Lemma keeps_votes w a b xa xb : WInv w -> exp_at w a xa -> exp_at w b xb -> same_seqs xa xb -> b < a ->
  (keeps w a b <-> 2 * lazy_votes w xa <= length (x_seqs xa)).
Proof.
  intros I Ha Hb Hs Hlt. assert (E : filter (fun s => worse_in w s a b) (x_seqs xa) = filter (is_lazy w) (x_seqs xa)).
  { apply filter_ext. intros s. unfold worse_in. destruct (is_lazy w s); [apply Nat.ltb_lt|apply Nat.ltb_ge]; lia. }
  split.
  - intros (ya & yb & Hya & Hyb & H). unfold exp_at in *. rewrite Ha in Hya. inversion Hya; subst ya. rewrite Hb in Hyb. inversion Hyb; subst yb.
    destruct H as [(s & H1 & H2)|H]; [exfalso; apply H2; apply Hs; auto|]. rewrite E in H. exact H.
  - intros H. exists xa, xb. split; auto. split; auto. right. rewrite E. exact H.
Qed.

Lemma tournament_votes w x0 : WInv w -> forall l b n, tournament w b l n -> StronglySorted (fun a b => b < a) (b :: l) ->
  (forall e, In e (b :: l) -> exists x, exp_at w e x /\ same_seqs x x0) -> (exists e0, exp_at w e0 x0) ->
  (2 * lazy_votes w x0 <= length (x_seqs x0) -> n = b) /\
  (length (x_seqs x0) < 2 * lazy_votes w x0 -> forall e, In e (b :: l) -> n <= e).
Proof.
  intros I l b n T. induction T as [b|b e l n Hk T IH|b e l n Hk T IH]; intros Hs H [e0 He0].
  - split; auto. intros _ e [->|[]]; auto.
  - inversion Hs; subst. inversion H2; subst. rewrite Forall_forall in H3. pose proof (H3 e (or_introl eq_refl)) as Hlt.
    destruct (H b (or_introl eq_refl)) as (xb & Hxb & Sb). destruct (H e (or_intror (or_introl eq_refl))) as (xe & Hxe & Se).
    assert (Sbe : same_seqs xb xe) by (intros s; rewrite (Sb s), (Se s); tauto).
    apply (keeps_votes _ _ _ _ _ I Hxb Hxe Sbe Hlt) in Hk. destruct (same_seqs_votes _ _ _ _ _ I Hxb He0 Sb) as [L1 L2].
    destruct IH as [IH1 IH2].
    + constructor; auto. apply Forall_forall. intros y Hy. apply H3. right; auto.
    + intros y [->|Hy]; eauto. apply H. right; right; auto.
    + eauto.
    + split; [auto|]. intros Hc. exfalso. lia.
  - inversion Hs; subst. inversion H2; subst. rewrite Forall_forall in H3. pose proof (H3 e (or_introl eq_refl)) as Hlt.
    destruct (H b (or_introl eq_refl)) as (xb & Hxb & Sb). destruct (H e (or_intror (or_introl eq_refl))) as (xe & Hxe & Se).
    assert (Sbe : same_seqs xb xe) by (intros s; rewrite (Sb s), (Se s); tauto).
    rewrite (keeps_votes _ _ _ _ _ I Hxb Hxe Sbe Hlt) in Hk. destruct (same_seqs_votes _ _ _ _ _ I Hxb He0 Sb) as [L1 L2].
    destruct IH as [IH1 IH2]; auto.
    + intros y Hy. apply H. right; auto.
    + eauto.
    + split; [intros Hc; exfalso; lia|]. intros Hc y [->|Hy]; [|apply IH2; auto].
      specialize (IH2 Hc e (or_introl eq_refl)). lia.
Qed.

Lemma selected_votes w P n e0 x0 : WInv w -> selected w P n -> exp_at w e0 x0 -> P e0 x0 ->
  (forall e x, exp_at w e x -> P e x -> same_seqs x x0) ->
  (2 * lazy_votes w x0 <= length (x_seqs x0) -> forall e x, exp_at w e x -> P e x -> e <= n) /\
  (length (x_seqs x0) < 2 * lazy_votes w x0 -> forall e x, exp_at w e x -> P e x -> n <= e).
Proof.
  intros I (first & others & Hn & T) H0 HP0 Hsame. destruct (newest_first_head _ _ _ _ Hn) as [_ Hle]. destruct Hn as [Hs Hin].
  destruct (tournament_votes w x0 I _ _ _ T Hs) as [V1 V2].
  - intros e He. apply Hin in He. destruct He as (x & Hx & HP). exists x. split; auto. eapply Hsame; eauto.
  - eauto.
  - split.
    + intros Hv e x Hx HP. rewrite (V1 Hv). eapply Hle; eauto.
    + intros Hv e x Hx HP. apply (V2 Hv). apply Hin. eauto.
Qed.

(** The selected expectation is one of the candidates. *)
Lemma selected_in w P n : selected w P n -> exists x, exp_at w n x /\ P n x.
Proof. intros (first & others & [_ Hin] & T). apply Hin. apply tournament_in in T. exact T. Qed.
