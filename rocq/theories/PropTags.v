(** * PropTags: C89, the addresses of sequences.

    sequence::Tag is the address of the sequence (Sequence.hpp 200-206), the model uses numbers which are never used twice. In a program the
    address of a destroyed sequence may be used again for a new one. Here [addr] gives the addresses: two sequences which exist at the
    same time have different ones, nothing else is known. *)

From Verif Require Import Base Lib Sequence Control Signature Printer Reports Expectation Builder World WorldSpec StepCases MatchLemmas WorldInv BuildSpec BuildProofs CountProofs Scenario.

(** ** Specification *)

(** A sequence exists as long as its object or a live expectation attached to it does. *)
Definition exists_in (w : world) (s : nat) : Prop :=
  nth s (w_iface w) false = true \/ exists e x, exp_at w e x /\ eo_alive x = true /\ In s (x_seqs x).
Definition addresses (w : world) (addr : nat -> nat) : Prop :=
  forall s s', exists_in w s -> exists_in w s' -> addr s = addr s' -> s = s'.

(** The same with addresses in place of numbers: sequence::rating, Fwd.hpp 223-230; control_state_t, Reports.hpp 39-76; MatchReport, Reports.hpp 285-345. *)
Definition rating_at (addr : nat -> nat) (r : rating) : rating := mkRating (r_priority r) (addr (r_tag r)).
Definition state_at (addr : nat -> nat) (st : control_state) : control_state :=
  match st with
  | StInapplicable a b c rs ts => StInapplicable a b c (map (rating_at addr) rs) (map addr ts)
  | StApplicable a b c rs => StApplicable a b c (map (rating_at addr) rs)
  | StSaturated a b c ts => StSaturated a b c (map addr ts)
  end.
Definition report_at (addr : nat -> nat) (m : match_report) : match_report := mkMatchReport (mr_loc m) (mr_final m) (state_at addr (mr_state m)) (mr_policies m).
Definition cand_at (addr : nat -> nat) (q : nat * match_report) : nat * match_report := (fst q, report_at addr (snd q)).

(** ** Ratings *)

Lemma find_at addr t rs : (forall r, In r rs -> addr (r_tag r) = addr t -> r_tag r = t) ->
  find_rating (addr t) (map (rating_at addr) rs) = option_map (rating_at addr) (find_rating t rs).
Proof.
  induction rs as [|r rs IH]; intros H; cbn [map find_rating]; [reflexivity|]. cbn [rating_at r_tag]. destruct (Nat.eqb_spec (r_tag r) t) as [E|E].
  - rewrite E, Nat.eqb_refl. reflexivity.
  - destruct (Nat.eqb_spec (addr (r_tag r)) (addr t)) as [E'|_]; [exfalso; apply E, H; [left; auto|auto]|]. apply IH. intros r' Hr'. apply H. right; auto.
Qed.

Theorem C89_ratings addr lhs rhs : (forall l r, In l lhs -> In r rhs -> addr (r_tag r) = addr (r_tag l) -> r_tag r = r_tag l) ->
  has_better_rating (map (rating_at addr) lhs) (map (rating_at addr) rhs) = has_better_rating lhs rhs.
Proof.
  unfold has_better_rating. generalize 0%Z as acc. induction lhs as [|l lhs IH]; intros acc H; cbn [map better_loop]; [reflexivity|].
  cbn [rating_at r_tag r_priority]. rewrite find_at by (intros r Hr; apply H; auto; left; auto). destruct (find_rating (r_tag l) rhs) as [r|]; cbn [option_map]; [|reflexivity].
  apply IH. intros l0 r0 Hl. apply H. right; auto.
Qed.

Print Assumptions C89_ratings.

(** ** Selection *)

Lemma pick_at addr (S : nat -> Prop) : (forall s s', S s -> S s' -> addr s = addr s' -> s = s') -> forall others first,
  (forall q rs, In q (first :: others) -> ratings_of (snd q) = Ret rs -> forall r, In r rs -> S (r_tag r)) ->
  pick_best (cand_at addr first) (map (cand_at addr) others) =
  match pick_best first others with Ret q => Ret (cand_at addr q) | Throw x => Throw x | Terminate => Terminate | Undef u => Undef u end.
Proof.
  intros Hinj. assert (R : forall q, ratings_of (snd (cand_at addr q)) = match ratings_of (snd q) with Ret rs => Ret (map (rating_at addr) rs) | Throw x => Throw x | Terminate => Terminate | Undef u => Undef u end).
  { intros [n m]. unfold ratings_of. cbn. destruct (mr_state m); reflexivity. }
  induction others as [|q others IH]; intros first Hs; cbn [map pick_best]; [reflexivity|]. rewrite !R.
  destruct (ratings_of (snd first)) as [rb|x| |u] eqn:Eb; cbn [obind]; auto. destruct (ratings_of (snd q)) as [rx|x| |u] eqn:Ex; cbn [obind]; auto.
  rewrite C89_ratings.
  2:{ intros l r Hl Hr. apply Hinj; [apply (Hs q rx)|apply (Hs first rb)]; auto; [right; left; auto|left; auto]. }
  destruct (has_better_rating rb rx); apply IH; intros p rs [<-|Hp]; apply Hs; cbn; auto.
Qed.

Lemma collect_tags ss entries : forall rs ts, collect_ratings ss entries = Ret (rs, ts) -> (forall r, In r rs -> In (r_tag r) (map fst entries)) /\ (forall t, In t ts -> In t (map fst entries)).
Proof.
  induction entries as [|[s id] entries IH]; intros rs ts H; cbn [collect_ratings] in H; [injection H as <- <-; split; intros ? []|].
  unfold with_seq in H. destruct (nth_error ss s) as [q|]; [|discriminate]. destruct (seq_priority_of q id) as [p|x| |u]; try discriminate. cbn [obind] in H.
  destruct (collect_ratings ss entries) as [[rs0 ts0]|x| |u]; try discriminate. cbn [obind] in H. destruct (IH _ _ eq_refl) as [H1 H2].
  destruct p as [prio|]; injection H as <- <-; cbn [map fst]; (split; [intros r Hr|intros t Ht]); cbn [In] in *; auto.
  - destruct Hr as [<-|Hr]; cbn; auto.
  - destruct Ht as [<-|Ht]; auto.
Qed.

(** Which candidate is taken does not depend on the addresses. *)
Theorem C89_selection w addr coll lst es c ml first others : reachable w -> addresses w addr ->
  nth_error (w_colls w) coll = Some lst -> lookup_exps w (rev lst) = Some es ->
  match_loop (w_reporter w) (w_uncaught w) (w_seqs w) c es (mkLists [] [] [] []) = Ret ml -> ml_full ml = first :: others ->
  exists q, pick_best first others = Ret q /\ pick_best (cand_at addr first) (map (cand_at addr) others) = Ret (cand_at addr q).
Proof.
  intros Hr Ha Hl Hes Hml Hf.
  assert (E : pick_best (cand_at addr first) (map (cand_at addr) others) = match pick_best first others with Ret q => Ret (cand_at addr q) | Throw x => Throw x | Terminate => Terminate | Undef u => Undef u end).
  { apply (pick_at addr (exists_in w)); [exact Ha|]. rewrite <- Hf. clear Hf. intros [n m] rs Hin Hrs r Hrr. cbn [snd] in Hrs.
    destruct (match_loop_ret _ _ _ _ es _ _ Hml) as (_ & Hfull & _). cbn [ml_full app] in Hfull. rewrite Hfull in Hin. apply in_flat_map in Hin. destruct Hin as ([k e] & Hke & Hs).
    destruct (lookup_exps_spec _ _ _ Hes) as [Hmap Hin]. destruct (Hin _ _ Hke) as (eo & Heo & ->). right. exists k, eo. split; [exact Heo|].
    assert (Hk : In k lst). { apply in_rev. rewrite <- Hmap. apply (in_map fst) in Hke. exact Hke. }
    pose proof (wi_coll _ (winv_reachable _ Hr) _ _ Hl) as El. rewrite El in Hk. apply members_in in Hk. destruct Hk as (eo' & Heo' & Hal & _).
    assert (eo' = eo) by congruence. subst eo'. split; [exact Hal|].
    unfold sel, att in Hs. cbn [fst snd] in Hs. unfold make_match_report in Hs. destruct (exp_matches (w_seqs w) (eo_exp eo) c) as [m0|x| |u] eqn:Em; try contradiction.
    2:{ destruct (exp_report_of _ _); cbn [obind noexcept_of] in Hs; try contradiction. destruct (w_reporter w _ _); contradiction. }
    cbn [noexcept_of] in Hs. assert (m0 = m) by (destruct (evaluate_match_report m0); try contradiction; destruct Hs as [[= _ <-]|[]]; reflexivity). subst m0.
    unfold exp_matches in Em. destruct (control_state_of (w_seqs w) (e_ctl (eo_exp eo))) as [st|x| |u] eqn:Es; try discriminate. cbn [obind] in Em.
    destruct (omap _ _) as [ps|x| |u]; try discriminate. cbn [obind] in Em. injection Em as <-. unfold ratings_of in Hrs. cbn [mr_state] in Hrs.
    unfold control_state_of in Es. destruct (_ =? _)%Z; [injection Es as <-; discriminate|]. destruct (collect_ratings _ _) as [[rs0 ts0]|x| |u] eqn:Ec; try discriminate. cbn [obind] in Es.
    destruct (collect_tags _ _ _ _ Ec) as [Ht _]. injection Es as <-. destruct ts0; [|discriminate]. injection Hrs as <-. exact (Ht _ Hrr). }
  assert (T : exists q, pick_best first others = Ret q).
  { destruct (match_loop_ret _ _ _ _ es _ _ Hml) as (_ & Hfull & _). cbn [ml_full app] in Hfull. apply CallProofs.pick_best_total. rewrite <- Hf, Hfull.
    intros [n m] Hin. apply in_flat_map in Hin. destruct Hin as ([k e] & _ & Hs). unfold sel in Hs. cbn [fst snd] in Hs. destruct (att _ _ _ _ e) as [[m0|r x]|y| |u]; try contradiction.
    destruct (evaluate_match_report m0) eqn:Ev; try contradiction. destruct Hs as [[= _ <-]|[]]. cbn [snd]. unfold evaluate_match_report, ratings_of in *.
    destruct (mr_state m0); eauto; destruct (negb _) in Ev; discriminate. }
  destruct T as [q T]. exists q. split; [exact T|]. rewrite E, T. reflexivity.
Qed.
Print Assumptions C89_selection.

(** ** Configurations *)

Theorem C89_config w addr tags : addresses w addr -> Forall (exists_in w) tags ->
  (config_make tags = Ret tags /\ config_make (map addr tags) = Ret (map addr tags)) \/
  (config_make tags = Throw EInvalidArgument /\ config_make (map addr tags) = Throw EInvalidArgument).
Proof.
  intros Ha Hl. rewrite Forall_forall in Hl.
  assert (N : NoDup (map addr tags) <-> NoDup tags).
  { split; [apply NoDup_map_inv|]. intros N. induction N as [|t l Ht N IH]; cbn [map]; constructor.
    - intros Hin. apply in_map_iff in Hin. destruct Hin as (t' & E & Hin). apply Ht. rewrite (Ha t t'); auto; apply Hl; [left|right]; auto.
    - apply IH. intros t' Ht'. apply Hl. right; auto. }
  destruct (BuilderLemmas.config_make_spec tags) as [[H ->]|[H ->]], (BuilderLemmas.config_make_spec (map addr tags)) as [[H' ->]|[H' ->]]; auto; tauto.
Qed.
Print Assumptions C89_config.

(** ** Texts *)

Theorem C89_text addr tn m ms c : print_match_report (report_at addr m) = print_match_report m /\ evaluate_match_report (report_at addr m) = evaluate_match_report m /\
  stringify_full tn c (report_at addr m) = stringify_full tn c m /\ stringify_inapplicable tn c (map (report_at addr) ms) = stringify_inapplicable tn c ms /\
  stringify_no_match tn c (map (report_at addr) ms) = stringify_no_match tn c ms.
Proof.
  assert (V : forall m, evaluate_match_report (report_at addr m) = evaluate_match_report m).
  { intros m0. unfold evaluate_match_report. cbn [report_at mr_policies mr_state]. destruct (negb _); auto. destruct (mr_state m0); reflexivity. }
  assert (P : forall m, print_match_report (report_at addr m) = print_match_report m).
  { intros m0. assert (E : print_control_state (state_at addr (mr_state m0)) = print_control_state (mr_state m0)).
    { destruct (mr_state m0) as [a b n rs ts|a b n rs|a b n ts]; cbn [state_at print_control_state]; try rewrite !map_length; reflexivity. }
    unfold print_match_report. rewrite V. cbn [report_at mr_loc mr_final mr_state mr_policies]. rewrite E. reflexivity. }
  assert (L : print_match_reports (map (report_at addr) ms) = print_match_reports ms).
  { induction ms as [|m0 ms IH]; cbn [map print_match_reports]; [reflexivity|]. rewrite P, IH. reflexivity. }
  split; [apply P|]. split; [apply V|]. split; [|split].
  - unfold stringify_full. rewrite P. reflexivity.
  - unfold stringify_inapplicable. rewrite L. reflexivity.
  - unfold stringify_no_match. rewrite map_length, L. destruct ms; reflexivity.
Qed.
Print Assumptions C89_text.

(** ** Addresses may be used again *)

Lemma exists_after w o w' r s : reachable w -> step w o = Next w' r -> exists_in w' s ->
  exists_in w s \/ s = length (w_iface w) /\ length (w_iface w') = S (length (w_iface w)).
Proof.
  intros Hr H Hs. pose proof (step_change _ _ _ _ H) as C. unfold exists_in, exp_at in *. destruct C.
  - left. rewrite H1, H3 in Hs. exact Hs.
  - subst w'. cbn [set_sdead set_iface set_seqs w_iface w_exps] in *. rewrite app_length. cbn [length]. destruct Hs as [Hs|Hs]; [|left; right; exact Hs].
    destruct (Nat.lt_ge_cases s (length (w_iface w))) as [L|L].
    + rewrite app_nth1 in Hs by auto. left; left; exact Hs.
    + right. split; [|lia]. rewrite app_nth2 in Hs by auto. destruct (s - length (w_iface w)) as [|k] eqn:E; [lia|]. cbn in Hs. destruct k; discriminate.
  - subst w'. cbn [set_sdead_trace set_iface w_iface w_exps] in *. left. destruct Hs as [Hs|Hs]; [|right; exact Hs]. left.
    destruct (Nat.eq_dec s0 s) as [->|E]; [exact H1|]. revert Hs. clear -E. generalize (w_iface w) as l. intros l. revert s s0 E.
    induction l as [|b l IH]; intros [|s] [|s0] E Hs; cbn in *; auto; try lia. eapply IH; [|exact Hs]. lia.
  - subst o. left. destruct (expect_next _ _ _ _ _ _ _ _ H) as (s1 & coll1 & _ & _ & _ & [(_ & _ & x & Hx & Hd & _)|(_ & _ & E)]).
    2:{ rewrite E in *. exact Hs. }
    subst w'. cbn [new_world w_iface w_exps] in *. destruct Hs as [Hs|(e & y & Hy & Hal & Hin)]; [left; exact Hs|].
    unfold exp_at in Hx. cbn [new_world w_exps] in Hx. destruct (Nat.lt_ge_cases e (length (w_exps w))) as [L|L].
    + rewrite nth_error_app1 in Hy by auto. right. exists e, y. auto.
    + assert (E : e = length (w_exps w)). { apply nth_error_lt in Hy. rewrite app_length in Hy. cbn in Hy. lia. } subst e.
      rewrite Hy in Hx. injection Hx as <-. assert (E : x_seqs y = clause_seqs cls) by apply Hd. rewrite E in Hin. unfold clause_seqs in Hin.
      apply in_flat_map in Hin. destruct Hin as (cl & Hc & Hin). rewrite forallb_forall in H3. specialize (H3 _ Hc). destruct cl as [t|tags|v|pl]; try contradiction.
      cbn [clause_ok] in H3. apply andb_true_iff in H3. destruct H3 as [H3 _]. rewrite forallb_forall in H3. left. apply H3. exact Hin.
  - subst w'. cbn [accept_world add_trace set_frames set_exps set_seqs w_iface w_exps] in *. left. destruct Hs as [Hs|(e & y & Hy & Hal & Hin)]; [left; exact Hs|]. right.
    destruct (Nat.eq_dec n e) as [->|E].
    + rewrite nth_error_upd_eq in Hy by (eapply nth_error_lt; eauto). injection Hy as <-. exists e, eo. split; [assumption|]. split; [exact Hal|].
      unfold x_seqs in *. cbn [eo_exp with_ctl e_ctl] in Hin.
      assert (K : c_seqs ctl = c_seqs (e_ctl (eo_exp eo))).
      { match goal with K : control_consume _ _ = Ret _ |- _ => revert K end. unfold control_consume, assert_. destruct (control_is_applicable _ _); [|discriminate].
        destruct (for_each_seq _ _ _) as [ss1|x| |u]; try discriminate. cbn [obind]. destruct (_ =? _)%Z; [discriminate|]. destruct (control_update _ _) as [ss2|x| |u]; try discriminate.
        cbn [obind]. intros [= _ <-]. reflexivity. }
      rewrite <- K. exact Hin.
    + rewrite nth_error_upd_neq in Hy by auto. exists e, y. auto.
  - destruct H0 as [sc ->]. subst w'. cbn [add_trace set_sdead kill set_exps set_colls set_scoped w_iface w_exps] in *. left. destruct Hs as [Hs|(e0 & y & Hy & Hal & Hin)]; [left; exact Hs|]. right.
    destruct (Nat.eq_dec e e0) as [->|E].
    + rewrite nth_error_upd_eq in Hy by (eapply nth_error_lt; eauto). injection Hy as <-. discriminate.
    + rewrite nth_error_upd_neq in Hy by auto. exists e0, y. auto.
Qed.

(** An operation which creates no sequence keeps the addresses valid; a new sequence may be placed at any address at which none exists. *)
Theorem C89_reuse w o w' r addr : reachable w -> step w o = Next w' r -> addresses w addr ->
  (length (w_iface w') = length (w_iface w) -> addresses w' addr) /\
  (forall a, (forall s, exists_in w s -> addr s <> a) -> addresses w' (fun s => if s =? length (w_iface w) then a else addr s)).
Proof.
  intros Hr H Ha. split.
  - intros E s s' Hs Hs' Es. destruct (exists_after _ _ _ _ _ Hr H Hs) as [Hs1|[_ L]]; [|lia]. destruct (exists_after _ _ _ _ _ Hr H Hs') as [Hs1'|[_ L]]; [|lia]. apply Ha; auto.
  - intros a Hf s s' Hs Hs' Es.
    destruct (exists_after _ _ _ _ _ Hr H Hs) as [Hs1|[-> _]], (exists_after _ _ _ _ _ Hr H Hs') as [Hs1'|[-> _]]; auto.
    + destruct (Nat.eqb_spec s (length (w_iface w))) as [E|E], (Nat.eqb_spec s' (length (w_iface w))) as [E'|E']; auto; try congruence.
      * exfalso. apply (Hf s' Hs1'). auto.
      * exfalso. apply (Hf s Hs1). auto.
    + rewrite Nat.eqb_refl in Es. destruct (Nat.eqb_spec s (length (w_iface w))) as [E|E]; auto. exfalso. apply (Hf s Hs1). auto.
    + rewrite Nat.eqb_refl in Es. destruct (Nat.eqb_spec s' (length (w_iface w))) as [E|E]; auto. exfalso. apply (Hf s' Hs1'). auto.
Qed.
Print Assumptions C89_reuse.

(** ** Example: sequence 2 is placed where sequence 0 was; two candidates of a call are in sequences 1 and 2. *)

Definition again : list op :=
  [ONewSeq Lazy; ONewSeq Lazy; ODropSeq 0; ONewSeq Greedy; ONewMock [sig_void]; OExpect 0 0 [] [ClSeq [1; 2]; ClTimes (TxAtMost 3)] here; OExpect 0 0 [] [ClSeq [2]] there].
Definition place (s : nat) : nat := match s with 1 => 5 | _ => 3 end.

Example C89_example :
  reachable (after again) /\ place 0 = place 2 /\ addresses (after again) place /\ ~ exists_in (after again) 0 /\ exists_in (after again) 2 /\
  config_make (map place [2; 1]) = Ret [3; 5] /\ config_make (map place [2; 1; 2]) = Throw EInvalidArgument /\
  exists es ml first second, lookup_exps (after again) (rev [0; 1]) = Some es /\ nth_error (w_colls (after again)) 0 = Some [0; 1] /\
    match_loop (w_reporter (after again)) 0 (w_seqs (after again)) (call_of sig_void [] here) es (mkLists [] [] [] []) = Ret ml /\ ml_full ml = [first; second] /\
    map (fun q => match mr_state (report_at place (snd q)) with StApplicable _ _ _ rs => map r_tag rs | _ => [] end) [first; second] = [[3]; [5; 3]].
Proof.
  assert (E0 : forall s, exists_in (after again) s -> s = 1 \/ s = 2).
  { intros s. unfold exists_in. assert (Ei : w_iface (after again) = [false; true; true]) by (vm_compute; reflexivity). rewrite Ei.
    intros [H|(e & x & Hx & _ & Hin)].
    - destruct s as [|[|[|s]]]; cbn in H; auto; try discriminate. destruct s; discriminate.
    - unfold exp_at in Hx. assert (Hm : map x_seqs (w_exps (after again)) = [[1; 2]; [2]]) by (vm_compute; reflexivity).
      apply (map_nth_error x_seqs) in Hx. rewrite Hm in Hx. destruct e as [|[|[|e]]]; cbn in Hx; try discriminate; injection Hx as Hx; rewrite <- Hx in Hin; cbn in Hin; intuition. }
  split. { apply after_reachable. vm_compute; reflexivity. }
  split; [reflexivity|]. split. { intros s s' Hs Hs'. destruct (E0 _ Hs) as [->| ->], (E0 _ Hs') as [->| ->]; cbn; auto; discriminate. }
  split. { intros H. destruct (E0 _ H); discriminate. }
  split. { left. vm_compute. reflexivity. }
  split; [reflexivity|]. split; [reflexivity|].
  eexists _, _, _, _. split; [vm_compute; reflexivity|]. split; [vm_compute; reflexivity|]. split; [vm_compute; reflexivity|]. split; [reflexivity|]. vm_compute. reflexivity.
Qed.
