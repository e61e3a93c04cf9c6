(** * SeqEnd: the end of sequences and the limit on their size. *)

From Coq Require Import Sorted.
From Verif Require Import Base Lib Sequence Control Signature Printer Reports Expectation Builder World WorldSpec SeqSpec
  SeqInv BuildSpec BuilderLemmas StepCases MatchLemmas WorldInv ObjInv CallSpec CallProofs BuildProofs CountProofs History.

(** ** Attached expectations, by number *)

Definition numbers (cs : list control) (s : nat) : list nat :=
  filter (fun e => match nth_error cs e with Some c => attached_in s c | None => false end) (seq 0 (length cs)).

Lemma numbers_snoc cs c s : numbers (cs ++ [c]) s = numbers cs s ++ (if attached_in s c then [length cs] else []).
Proof.
  unfold numbers. rewrite app_length. simpl. rewrite seq_app, filter_app. simpl. f_equal.
  - apply filter_ext_in. intros e He. apply in_seq in He. rewrite nth_error_app1 by lia. reflexivity.
  - rewrite nth_error_app_last. reflexivity.
Qed.

Lemma numbers_in cs s e : In e (numbers cs s) <-> exists c, nth_error cs e = Some c /\ In s (map fst (c_seqs c)).
Proof.
  unfold numbers. rewrite filter_In, in_seq. destruct (nth_error cs e) as [c|] eqn:E.
  - rewrite attached_in_spec. split.
    + intros [_ H]. eauto.
    + intros (c' & Hc & H). inversion Hc; subst. split; auto. apply nth_error_lt in E. lia.
  - split; [intros [_ H]; discriminate|intros (c & H & _); discriminate].
Qed.

Lemma sorted_filter {A} (R : A -> A -> Prop) f l : StronglySorted R l -> StronglySorted R (filter f l).
Proof.
  intros H. induction H as [|a l H IH Hf]; simpl; [constructor|]. destruct (f a); auto. constructor; auto.
  rewrite Forall_forall in *. intros x Hx. apply filter_In in Hx. apply Hf. tauto.
Qed.

Lemma sorted_seq n : forall k, StronglySorted lt (seq k n).
Proof.
  induction n as [|n IH]; intros k; simpl; constructor; auto. apply Forall_forall. intros x Hx. apply in_seq in Hx. lia.
Qed.

Lemma numbers_attached w s : attached_numbers w s (numbers (ctls w) s).
Proof.
  split; [apply sorted_filter, sorted_seq|]. intros e. rewrite numbers_in. split.
  - intros (c & Hc & Hs). apply ctls_nth_inv in Hc. destruct Hc as (x & Hx & ->). exists x. auto.
  - intros (x & Hx & Hs). exists (ctl_of x). split; auto. apply ctls_nth; auto.
Qed.

Lemma sorted_unique l : forall l', StronglySorted lt l -> StronglySorted lt l' -> (forall e, In e l <-> In e l') -> l = l'.
Proof.
  induction l as [|a l IH]; intros [|b l'] H H' E; auto.
  - exfalso. destruct (E b) as [_ F]. apply F. left; auto.
  - exfalso. destruct (E a) as [F _]. apply F. left; auto.
  - inversion H as [|? ? H1 H2]; subst. inversion H' as [|? ? H1' H2']; subst. rewrite Forall_forall in H2, H2'.
    assert (a = b) as ->.
    { destruct (E a) as [F _]. destruct (E b) as [_ G]. destruct (F (or_introl eq_refl)) as [|Ha]; auto.
      destruct (G (or_introl eq_refl)) as [|Hb]; auto. specialize (H2 _ Hb). specialize (H2' _ Ha). lia. }
    f_equal. apply IH; auto. intros e. specialize (E e). simpl in E. split; intros Hin.
    + destruct (proj1 E (or_intror Hin)) as [<-|]; auto. specialize (H2 _ Hin). lia.
    + destruct (proj2 E (or_intror Hin)) as [<-|]; auto. specialize (H2' _ Hin). lia.
Qed.

Lemma numbers_unique w s l : attached_numbers w s l -> l = numbers (ctls w) s.
Proof.
  intros [H1 H2]. destruct (numbers_attached w s) as [N1 N2]. apply sorted_unique; auto.
  intros e. rewrite H2, N2. reflexivity.
Qed.

(** The controls of the attached expectations, by number and as a list. *)
Lemma numbers_controls cs s : map (fun e => nth_error cs e) (numbers cs s) = map Some (filter (attached_in s) cs).
Proof.
  induction cs as [|c cs IH] using rev_ind; auto. rewrite numbers_snoc, map_app, filter_app, map_app. f_equal.
  - rewrite <- IH. apply map_ext_in. intros e He. apply numbers_in in He. destruct He as (d & Hd & _).
    rewrite nth_error_app1; auto. eapply nth_error_lt; eauto.
  - simpl. destruct (attached_in s c); simpl; auto. rewrite nth_error_app_last. reflexivity.
Qed.

Lemma numbers_length cs s : length (numbers cs s) = length (filter (attached_in s) cs).
Proof. rewrite <- (map_length (fun e => nth_error cs e)), numbers_controls, map_length. reflexivity. Qed.

Lemma numbers_nth cs s i e : nth_error (numbers cs s) i = Some e ->
  exists c, nth_error cs e = Some c /\ nth_error (filter (attached_in s) cs) i = Some c.
Proof.
  intros H. assert (H' : nth_error (map (fun e => nth_error cs e) (numbers cs s)) i = Some (nth_error cs e)) by (apply (map_nth_error _ _ _ H)).
  rewrite numbers_controls in H'. apply nth_error_map_some in H'. destruct H' as (c & Hc & E). eauto.
Qed.

Lemma prefix_len_spec {A} (f : A -> bool) l : forallb f l = false ->
  (exists x, nth_error l (prefix_len f l) = Some x /\ f x = false) /\
  (forall i x, i < prefix_len f l -> nth_error l i = Some x -> f x = true).
Proof.
  induction l as [|a l IH]; simpl; [discriminate|]. destruct (f a) eqn:E; simpl.
  - intros H. destruct (IH H) as [H1 H2]. split; auto. intros [|i] x Hi Hx; simpl in Hx.
    + inversion Hx; subst. auto.
    + eapply H2; eauto. lia.
  - intros _. split; [eauto|]. intros; lia.
Qed.

Lemma met_count w e x : WInv w -> exp_at w e x -> (met (ctl_of x) = true <-> (x_min x <= Z.of_nat (accepted (w_trace w) e))%Z).
Proof. intros I H. unfold met, x_min. fold (ctl_of x). rewrite (wi_count _ I _ _ H). apply Z.leb_le. Qed.

Lemma unmet_count w e x : WInv w -> exp_at w e x -> (unmet x = true <-> (Z.of_nat (accepted (w_trace w) e) < x_min x)%Z).
Proof. intros I H. unfold unmet, x_min. fold (ctl_of x). rewrite (wi_count _ I _ _ H). apply Z.ltb_lt. Qed.

Lemma all_met_spec w s : WInv w -> (all_met (ctls w) s = false <-> exists e, missed w s e).
Proof.
  intros I. unfold all_met. split.
  - intros H. apply not_true_iff_false in H.
    destruct (existsb (fun c => negb (met c)) (filter (attached_in s) (ctls w))) eqn:E.
    + apply existsb_exists in E. destruct E as (c & Hc & Hm). apply filter_In in Hc. destruct Hc as [Hc Ha].
      apply In_nth_error in Hc. destruct Hc as [e He]. apply ctls_nth_inv in He. destruct He as (x & Hx & ->).
      exists e, x. split; auto. split; [apply attached_in_spec; auto|]. apply negb_true_iff in Hm.
      destruct (Z.lt_ge_cases (Z.of_nat (accepted (w_trace w) e)) (x_min x)); auto.
      apply (met_count _ _ _ I Hx) in H0. congruence.
    + exfalso. apply H. apply forallb_forall. intros c Hc. destruct (met c) eqn:Em; auto.
      assert (existsb (fun c => negb (met c)) (filter (attached_in s) (ctls w)) = true); [|congruence].
      apply existsb_exists. exists c. rewrite Em. auto.
  - intros (e & x & Hx & Hs & Hlt). apply not_true_iff_false. intros H. rewrite forallb_forall in H.
    assert (Hm : met (ctl_of x) = true).
    { apply H, filter_In. split; [eapply nth_error_In, ctls_nth; eauto|]. apply attached_in_spec. auto. }
    apply (met_count _ _ _ I Hx) in Hm. lia.
Qed.

Lemma gone_spec w s : gone w s <-> seq_in_use w s = false.
Proof.
  split.
  - intros [H1 H2]. apply not_true_iff_false. intros H. apply in_use_spec in H. destruct H as [H|(e & x & Hx & Ha & Hs)]; [congruence|].
    specialize (H2 _ _ Hx Hs). congruence.
  - intros H. assert (N : seq_in_use w s <> true) by congruence. rewrite in_use_spec in N. split.
    + apply not_true_iff_false. tauto.
    + intros e x Hx Hs. apply not_true_iff_false. intros Ha. apply N. right. eauto.
Qed.

(** ** C18 *)

Lemma errors_iff w s : reachable w -> s < length (w_seqs w) ->
  (seq_error_reports (w_trace w) s = 1 /\ gone w s /\ exists e, missed w s e) \/
  (seq_error_reports (w_trace w) s = 0 /\ ~ (gone w s /\ exists e, missed w s e)).
Proof.
  intros Hr Hs. pose proof (winv_reachable _ Hr) as I. rewrite gone_spec, (wi_err _ I _ Hs), (wi_dead _ I _ Hs).
  destruct (seq_in_use w s); simpl; [right; split; auto; intros []; discriminate|].
  destruct (all_met (ctls w) s) eqn:E; simpl.
  - right. split; auto. intros [_ H]. apply all_met_spec in H; auto. congruence.
  - left. do 2 (split; auto). apply all_met_spec; auto.
Qed.

Lemma released_events w l d evs d' : released w l d evs d' -> forall ev s, In ev evs -> is_seq_error s ev = true ->
  exists q k n, nth_error (w_seqs w) s = Some q /\ seq_dtor_error q = Some (k, n) /\ ev = EvReport (w_rid w) (RError k n) [s] /\
    seq_in_use w s = false.
Proof.
  intros H. induction H as [d|s l d evs d' Hk H IH|s q l d evs d' Hu Hd Hq H IH]; intros ev s' Hin He; auto; [contradiction|].
  apply in_app_iff in Hin. destruct Hin as [Hin|Hin]; [|eapply IH; eauto].
  unfold dtor_events in Hin. destruct (seq_dtor_error q) as [[k n]|] eqn:E; [|contradiction].
  destruct Hin as [<-|[]]. cbn [is_seq_error] in He. destruct (list_eq_dec Nat.eq_dec [s] [s']) as [Es|]; [|discriminate].
  inversion Es; subst s'. exists q, k, n. auto.
Qed.

Lemma unf_le u v e : unfulfilled_reports (u ++ v) e = 0 -> unfulfilled_reports u e = 0.
Proof. rewrite unf_app. lia. Qed.

(** The error reports of an operation. *)
Lemma error_event w o w' r : reachable w -> step w o = Next w' r ->
  exists evs, w_trace w' = w_trace w ++ evs /\
    forall u ev v s, evs = u ++ ev :: v -> is_seq_error s ev = true ->
    exists q k n, nth_error (w_seqs w) s = Some q /\ seq_dtor_error q = Some (k, n) /\ ev = EvReport (w_rid w) (RError k n) [s] /\
      gone w' s /\ ~ gone w s /\
      (forall e, missed w s e <-> missed w' s e) /\
      forall e x, exp_at w e x -> In s (x_seqs x) -> (Z.of_nat (accepted (w_trace w) e) < x_min x)%Z -> describable (eo_exp x) = true ->
        unfulfilled_reports (w_trace w ++ u) e = 1.
Proof.
  intros Hr H. pose proof (winv_reachable _ Hr) as I. pose proof (step_accepted _ _ _ _ Hr H) as SA.
  assert (HM : length (w_exps w') = length (w_exps w) -> (forall k, accepted (w_trace w') k = accepted (w_trace w) k) ->
               forall s e, missed w s e <-> missed w' s e).
  { intros HL HA s e. unfold missed. split.
    - intros (x & Hx & Hs & Hm). destruct (step_exps _ _ _ _ I H _ _ Hx) as (x' & Hx' & S & _).
      exists x'. rewrite (static_seqs _ _ S), (static_min _ _ S), HA. auto.
    - intros (x' & Hx' & Hs & Hm). pose proof (nth_error_lt _ _ _ Hx') as Hl. rewrite HL in Hl.
      destruct (nth_error_ex _ _ Hl) as [x Hx]. destruct (step_exps _ _ _ _ I H _ _ Hx) as (y & Hy & S & _).
      unfold exp_at in Hx', Hy. rewrite Hx' in Hy. inversion Hy; subst y. exists x.
      rewrite <- (static_seqs _ _ S), <- (static_min _ _ S), <- HA. auto. }
  pose proof (step_change _ _ _ _ H) as C. destruct C as
    [evs E1 E2 E3 E4 E5 Et Hq|st E|s0 evs d' Eo Hi Hrel E|m ov ms cls l s coll b ss ctl mem Eo Hf Hlen Hok Hb Hfin Hc Hm E
    |m ov args l s coll lst es ml n mr first others eo ss ctl Eo Hf Hlen Hl Hes Hml Hfull Hp He Hc Hca E
    |e w1 eo l unf evs d' [sc Hsc] He Hl Hin Hrel E Hcase].
  - exists evs. split; auto. intros u ev v s -> Hev. exfalso. destruct (quiet_counts _ Hq s) as (_ & _ & Q).
    rewrite err_app in Q. unfold seq_error_reports in Q. cbn [filter] in Q. rewrite Hev in Q. simpl in Q. lia.
  - exists []. subst w'. simpl. rewrite app_nil_r. split; auto. intros u ev v s Eu. destruct u; discriminate.
  - exists evs. subst w'. split; auto. intros u ev v s Eu Hev.
    assert (Hine : In ev evs) by (rewrite Eu; apply in_elt).
    destruct (released_events _ _ _ _ _ Hrel _ _ Hine Hev) as (q & k & n & Hq & Hdt & -> & Hu).
    destruct (released_spec _ _ _ _ _ Hrel) as (R1 & R2 & R3 & R4).
    exists q, k, n. do 3 (split; auto). split; [apply gone_spec; exact Hu|].
    split.
    { intros Hg. apply gone_spec in Hg. pose proof (wi_dead _ I s ltac:(eapply nth_error_lt; exact Hq)) as Hd. rewrite Hg in Hd. simpl in Hd.
      assert (Z0 : seq_error_reports evs s = 0) by (rewrite R4, Hd; reflexivity).
      rewrite Eu, err_app in Z0. unfold seq_error_reports in Z0. cbn [filter] in Z0. rewrite Hev in Z0. simpl in Z0. lia. }
    split.
    { apply HM; auto. intros j. simpl. rewrite accepted_app. destruct (R3 j) as [-> _]. lia. }
    intros e x Hx Hs Hm Hd.
    assert (Ha : eo_alive x = false).
    { apply gone_spec in Hu. destruct Hu as [_ Hu]. exact (Hu e x Hx Hs). }
    rewrite unf_app, (wi_unf _ I _ _ Hx), Ha, (proj2 (unmet_count _ _ _ I Hx) Hm), Hd. simpl.
    destruct (R3 e) as [_ Hz]. rewrite Eu in Hz. rewrite (unf_le _ _ _ Hz). reflexivity.
  - exists []. subst w'. simpl. rewrite app_nil_r. split; auto. intros u ev v k Eu. destruct u; discriminate.
  - eexists. split; [subst w'; reflexivity|]. intros u ev v k Eu Hev. exfalso.
    assert (Q : seq_error_reports (map (unhandled_event (w_rid w) (call_of s args l)) (ml_unhandled ml) ++
                [EvReport (w_rid w) (RFull (make_call_report (call_of s args l)) mr) [n]]) k = 0).
    { rewrite err_app. destruct (quiet_counts _ (quiet_unhandled (w_rid w) (call_of s args l) (ml_unhandled ml)) k) as (_ & _ & ->). reflexivity. }
    rewrite Eu, err_app in Q. unfold seq_error_reports in Q. cbn [filter] in Q. rewrite Hev in Q. simpl in Q. lia.
  - subst w1. exists (unf ++ evs). subst w'. split; [reflexivity|]. intros u ev v s Eu Hev.
    assert (Hx : exp_at w e eo) by exact He.
    destruct (released_spec _ _ _ _ _ Hrel) as (R1 & R2 & R3 & R4).
    assert (Hsplit : exists u', u = unf ++ u' /\ evs = u' ++ ev :: v).
    { apply app_split in Eu. destruct Eu as [(u1 & Eu & _)|(u1 & Eu1 & Eu2)]; [|eauto]. exfalso.
      assert (In ev unf) by (rewrite Eu; apply in_elt).
      destruct Hcase as [(_ & ->)|[(_ & y & _ & ->)|(_ & rep & _ & ->)]]; simpl in H0; try contradiction.
      destruct H0 as [<-|[]]. discriminate Hev. }
    destruct Hsplit as (u' & -> & Ev).
    assert (Hine : In ev evs) by (rewrite Ev; apply in_elt).
    destruct (released_events _ _ _ _ _ Hrel _ _ Hine Hev) as (q & k & n & Hq & Hdt & -> & Hu).
    exists q, k, n. do 3 (split; auto). split; [apply gone_spec; exact Hu|].
    split.
    { intros Hg. apply gone_spec in Hg. pose proof (wi_dead _ I s ltac:(eapply nth_error_lt; exact Hq)) as Hd. rewrite Hg in Hd. simpl in Hd.
      assert (Z0 : seq_error_reports evs s = 0) by (rewrite R4, Hd; reflexivity).
      rewrite Ev, err_app in Z0. unfold seq_error_reports in Z0. cbn [filter] in Z0. rewrite Hev in Z0. simpl in Z0. lia. }
    split.
    { apply HM; [simpl; rewrite length_upd; auto|]. intros j. simpl. rewrite !accepted_app. destruct (R3 j) as [-> _].
      destruct Hcase as [(_ & ->)|[(_ & y & _ & ->)|(_ & rep & _ & ->)]]; simpl; lia. }
    intros j x Hj Hs Hm Hd.
    assert (Hz : unfulfilled_reports u' j = 0). { destruct (R3 j) as [_ Hz]. rewrite Ev in Hz. exact (unf_le _ _ _ Hz). }
    rewrite !unf_app, Hz, (wi_unf _ I _ _ Hj), Hd, (proj2 (unmet_count _ _ _ I Hj) Hm).
    destruct (Nat.eq_dec j e) as [->|Hne].
    + unfold exp_at in Hx, Hj. rewrite Hx in Hj. inversion Hj; subst x.
      assert (Ha : eo_alive eo = true).
      { rewrite (wi_coll _ I _ _ Hl) in Hin. apply members_in in Hin. destruct Hin as (y & Hy & Hay & _). congruence. }
      rewrite Ha. simpl. pose proof (satisfied_met eo _ _ _ (wi_s _ I) (ctls_nth _ _ _ Hx)) as Hsm.
      rewrite (proj2 (unmet_count _ _ _ I Hx) Hm) in Hsm. simpl in Hsm.
      destruct (exp_report_describable _ _ _ I Hx) as [Hd1 _]. destruct (Hd1 Hd) as [rr Hrr].
      destruct Hcase as [(Hs1 & _)|[(_ & y & Hy & _)|(_ & rep & _ & ->)]]; try congruence.
      rewrite unf_unf, Nat.eqb_refl. reflexivity.
    + assert (Ha : eo_alive x = false).
      { apply gone_spec in Hu. destruct Hu as [_ Hu]. apply (Hu j x); auto. unfold exp_at. simpl. rewrite nth_error_upd_neq; auto. }
      rewrite Ha. simpl. destruct Hcase as [(_ & ->)|[(_ & y & _ & ->)|(_ & rep & _ & ->)]]; auto.
      rewrite unf_unf. destruct (Nat.eqb_spec e j); auto. congruence.
Qed.

Lemma describable_describes x : describes x <-> describable x = true.
Proof.
  unfold describes, describable. rewrite forallb_forall. split; intros H p Hp.
  - destruct (H p Hp) as [d ->]. reflexivity.
  - specialize (H p Hp). destruct (policy_describe p); try discriminate. eauto.
Qed.

(** The report of an unfulfilled expectation comes first. *)
Lemma error_after_unfulfilled w : reachable w -> forall t ev t' s, w_trace w = t ++ ev :: t' -> is_seq_error s ev = true ->
  exists e x, exp_at w e x /\ In s (x_seqs x) /\ eo_alive x = false /\ (Z.of_nat (accepted (w_trace w) e) < x_min x)%Z /\
    (describes (eo_exp x) -> unfulfilled_reports t e = 1).
Proof.
  revert w. apply (reachable_steps (fun w => forall t ev t' s, w_trace w = t ++ ev :: t' -> is_seq_error s ev = true ->
    exists e x, exp_at w e x /\ In s (x_seqs x) /\ eo_alive x = false /\ (Z.of_nat (accepted (w_trace w) e) < x_min x)%Z /\
    (describes (eo_exp x) -> unfulfilled_reports t e = 1))).
  - intros t ev t' s H. destruct t; discriminate.
  - intros w o w' r Hr IH Hs t ev t' s Ht Hev. pose proof (winv_reachable _ Hr) as I.
    destruct (error_event _ _ _ _ Hr Hs) as (evs & Et & Hevs). rewrite Et in Ht. apply app_split in Ht.
    destruct Ht as [(u & Hu & _)|(u & -> & Hu)].
    + destruct (IH _ _ _ _ Hu Hev) as (e & x & Hx & Hin & Ha & Hm & Hd).
      destruct (step_exps _ _ _ _ I Hs _ _ Hx) as (x' & Hx' & S & Hal). rewrite Ha in Hal. simpl in Hal.
      exists e, x'. split; auto. rewrite (static_seqs _ _ S), (static_min _ _ S). do 2 (split; auto). split.
      * rewrite (dead_accepts_nothing _ [o] _ _ _ Hr (run_one _ _ _ _ Hs) Hx Ha). auto.
      * unfold describes in *. destruct S as (_ & _ & _ & _ & -> & _). auto.
    + destruct (Hevs _ _ _ _ Hu Hev) as (q & k & n & Hq & Hdt & Eev & Hg & Hng & Hmiss & Hrep).
      assert (Hex : exists e, missed w s e).
      { apply all_met_spec; auto. pose proof (dtor_all_met _ _ _ I Hq) as E. rewrite Hdt in E. symmetry in E. apply negb_true_iff in E. auto. }
      destruct Hex as (e & Hmi). pose proof (proj1 (Hmiss e) Hmi) as (x' & Hx' & Hin' & Hm').
      destruct Hmi as (x & Hx & Hin & Hm). exists e, x'. do 2 (split; auto). split; [destruct Hg as [_ Hg]; eauto|]. split; auto.
      intros Hd. eapply Hrep; eauto. apply describable_describes. unfold describes in *.
      destruct (step_exps _ _ _ _ I Hs _ _ Hx) as (y & Hy & S & _). unfold exp_at in Hx', Hy. rewrite Hx' in Hy. inversion Hy; subst y.
      destruct S as (_ & _ & _ & _ & E & _). rewrite E in Hd. auto.
Qed.

(** ** C19 *)

Lemma error_numbers w s q k n : WInv w -> nth_error (w_seqs w) s = Some q -> seq_dtor_error q = Some (k, n) ->
  exists l, attached_numbers w s l /\ n = length l /\
    (exists e, nth_error l k = Some e /\ missed w s e) /\ (forall i e, i < k -> nth_error l i = Some e -> ~ missed w s e).
Proof.
  intros I Hq Hd. rewrite (dtor_spec _ _ _ _ (wi_s _ I) Hq) in Hd. cbv zeta in Hd.
  destruct (forallb met (filter (attached_in s) (ctls w))) eqn:E; [discriminate|]. inversion Hd; subst k n.
  exists (numbers (ctls w) s). split; [apply numbers_attached|]. split; [symmetry; apply numbers_length|].
  destruct (prefix_len_spec _ _ E) as [(c & Hc & Hm) Hpre]. split.
  - pose proof (nth_error_lt _ _ _ Hc) as Hl. rewrite <- numbers_length in Hl. destruct (nth_error_ex _ _ Hl) as [e He].
    exists e. split; auto. destruct (numbers_nth _ _ _ _ He) as (c' & Hc' & Hc''). rewrite Hc in Hc''. inversion Hc''; subst c'.
    apply ctls_nth_inv in Hc'. destruct Hc' as (x & Hx & ->).
    destruct (proj2 (numbers_attached w s) e) as [F _]. destruct (F (nth_error_In _ _ He)) as (y & Hy & Hin).
    unfold exp_at in *. rewrite Hx in Hy. inversion Hy; subst y. exists x. split; auto. split; auto.
    destruct (Z.lt_ge_cases (Z.of_nat (accepted (w_trace w) e)) (x_min x)); auto.
    apply (met_count _ _ _ I Hx) in H. congruence.
  - intros i e Hi He (x & Hx & Hin & Hlt). destruct (numbers_nth _ _ _ _ He) as (c' & Hc' & Hc'').
    rewrite (ctls_nth _ _ _ Hx) in Hc'. inversion Hc'; subst c'. specialize (Hpre _ _ Hi Hc'').
    apply (met_count _ _ _ I Hx) in Hpre. lia.
Qed.

(** ** C55 *)

Lemma entries_count w s q l : WInv w -> nth_error (w_seqs w) s = Some q -> attached_numbers w s l -> length (s_entries q) = length l.
Proof.
  intros I Hq Hl. rewrite (numbers_unique _ _ _ Hl), numbers_length. exact (entries_length _ _ _ _ (wi_s _ I) Hq).
Qed.

Lemma expect_below w m ov ms cls l s coll : reachable w ->
  find_overload w m ov = inr (s, coll) -> length ms = length (sg_params s) ->
  forallb (clause_ok w (length (sg_params s))) cls = true ->
  (exists b, build s ms cls = BOk b /\ finalize_ok s b = true) ->
  (forall t, In t (clause_seqs cls) -> below_limit w t) ->
  exists w', step w (OExpect m ov ms cls l) = Next w' RUnit.
Proof.
  intros Hr Hf Hlen Hok (b & Hb & Hfin) Hlim. pose proof (winv_reachable _ Hr) as I. pose proof (oinv_reachable _ Hr) as O.
  destruct (wi_len _ I) as [Li Ld]. destruct (build_ok _ _ _ _ Hb (clauses_times _ _ _ Hok)) as (Hv & Hbs & Hbp).
  assert (Hif : forall t, In t (b_seqs b) -> exists q, nth_error (w_seqs w) t = Some q).
  { intros t Ht. rewrite Hbs in Ht. apply nth_error_ex. rewrite <- Li. apply nth_true_lt. eapply clauses_seqs; eauto. }
  destruct (find_overload_inr _ _ _ _ _ Hf) as (mk & cs & Hmk & _ & _ & Hcs & Hn).
  pose proof (oi_range _ O _ _ _ _ _ Hmk Hcs Hn) as Hcoll. destruct (nth_error_ex _ _ Hcoll) as [mem Hmem].
  simpl. unfold do_expect. rewrite Hf, Hlen, Nat.eqb_refl, Hok. simpl. rewrite Hb, Hfin. simpl.
  destruct (control_new_ok _ _ (b_times b) (b_seqs b) (wi_s _ I) (bv_times _ Hv) (bv_max _ Hv) (bv_seqs _ Hv) Hif) as
    [(ss & c & -> & _)|(_ & t & q & Ht & Hq & Hover)].
  - rewrite Hmem. eauto.
  - exfalso. rewrite Hbs in Ht. pose proof (Hlim t Ht _ (numbers_attached w t)) as B.
    rewrite <- (entries_count _ _ _ _ I Hq (numbers_attached w t)) in B. lia.
Qed.

Lemma expect_over w m ov ms cls l s coll t : reachable w ->
  find_overload w m ov = inr (s, coll) -> length ms = length (sg_params s) ->
  forallb (clause_ok w (length (sg_params s))) cls = true ->
  (exists b, build s ms cls = BOk b /\ finalize_ok s b = true) ->
  In t (clause_seqs cls) -> ~ below_limit w t ->
  step w (OExpect m ov ms cls l) = Stop.
Proof.
  intros Hr Hf Hlen Hok (b & Hb & Hfin) Ht Hlim. pose proof (winv_reachable _ Hr) as I.
  destruct (wi_len _ I) as [Li Ld]. destruct (build_ok _ _ _ _ Hb (clauses_times _ _ _ Hok)) as (Hv & Hbs & Hbp).
  assert (Hif : forall t, In t (b_seqs b) -> exists q, nth_error (w_seqs w) t = Some q).
  { intros t' Ht'. rewrite Hbs in Ht'. apply nth_error_ex. rewrite <- Li. apply nth_true_lt. eapply clauses_seqs; eauto. }
  simpl. unfold do_expect. rewrite Hf, Hlen, Nat.eqb_refl, Hok. simpl. rewrite Hb, Hfin. simpl.
  destruct (control_new_ok _ _ (b_times b) (b_seqs b) (wi_s _ I) (bv_times _ Hv) (bv_max _ Hv) (bv_seqs _ Hv) Hif) as
    [(ss & c & Hc & Hc1 & Hc2 & Hc3 & Hm & _ & Hids & _)|(-> & _)]; auto.
  exfalso. apply Hlim. intros lst Hl. rewrite Hbs in Hm. rewrite <- Hm in Ht. apply in_map_fst in Ht. destruct Ht as [id Hid].
  destruct (Hids _ _ Hid) as (q & Hq & -> & Hle & _). rewrite (entries_count _ _ _ _ I Hq Hl) in Hle. auto.
Qed.
