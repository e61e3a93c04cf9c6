(** * RefProofs: forgetting the data structures commutes with every operation. *)

From Coq Require Import Sorted.
From Verif Require Import Base Lib Sequence Control Signature Printer Reports Expectation Builder BuildSpec World WorldSpec
  SeqInv BuilderLemmas StepCases MatchLemmas WorldInv ObjInv CallSpec CallProofs SelectSpec SelectProofs BuildProofs Reference.

(** ** Positions and elements of lists *)

Definition at_index {A} (P : A -> bool) (l : list A) (k : nat) : bool :=
  match nth_error l k with Some x => P x | None => false end.

Lemma filter_map {A B} (f : B -> bool) (g : A -> B) l : filter f (map g l) = map g (filter (fun x => f (g x)) l).
Proof. induction l as [|a l IH]; simpl; auto. destruct (f (g a)); simpl; rewrite IH; auto. Qed.

Lemma filter_ext_on {A} (f g : A -> bool) l : (forall x, In x l -> f x = g x) -> filter f l = filter g l.
Proof. intros H. apply filter_ext_in. auto. Qed.

Lemma forallb_ext_on {A} (f g : A -> bool) l : (forall x, In x l -> f x = g x) -> forallb f l = forallb g l.
Proof. induction l as [|a l IH]; simpl; intros H; auto. rewrite H, IH; auto. Qed.

Lemma seq_shift_filter (f : nat -> bool) n : forall a, filter f (seq (S a) n) = map S (filter (fun k => f (S k)) (seq a n)).
Proof. intros a. rewrite <- seq_shift. apply filter_map. Qed.

Lemma indices_filter {A} (P : A -> bool) l :
  Forall2 (fun k x => nth_error l k = Some x) (filter (at_index P l) (seq 0 (length l))) (filter P l).
Proof.
  induction l as [|a l IH]; [constructor|]. cbn [length seq filter]. rewrite seq_shift_filter. cbn [at_index nth_error].
  assert (F : Forall2 (fun k x => nth_error (a :: l) k = Some x) (map S (filter (fun k => at_index P (a :: l) (S k)) (seq 0 (length l)))) (filter P l)).
  { change (fun k => at_index P (a :: l) (S k)) with (at_index P l).
    clear -IH. induction IH; simpl; constructor; auto. }
  unfold at_index at 1. cbn [nth_error]. destruct (P a); auto.
Qed.

Lemma forall2_len {A B} (R : A -> B -> Prop) l l' : Forall2 R l l' -> length l = length l'.
Proof. induction 1; simpl; auto. Qed.

Lemma forall2_forallb {A B} (R : A -> B -> Prop) f g l l' : (forall a b, R a b -> f a = g b) -> Forall2 R l l' -> forallb f l = forallb g l'.
Proof. intros H F. induction F; simpl; auto. rewrite (H _ _ H0), IHF. reflexivity. Qed.

Lemma forall2_leading {A B} (R : A -> B -> Prop) f g l l' : (forall a b, R a b -> f a = g b) -> Forall2 R l l' -> leading f l = prefix_len g l'.
Proof. intros H F. induction F; simpl; auto. rewrite (H _ _ H0), IHF. reflexivity. Qed.

Lemma filter_below (f : nat -> bool) e n : e <= n -> filter (fun k => k <? e) (filter f (seq 0 n)) = filter f (seq 0 e).
Proof.
  intros He. replace n with (e + (n - e)) by lia. rewrite seq_app, filter_app, filter_app.
  rewrite (forallb_filter_id (fun k => k <? e) (filter f (seq 0 e))).
  2:{ apply forallb_forall. intros k Hk. apply filter_In in Hk. destruct Hk as [Hk _]. apply in_seq in Hk. apply Nat.ltb_lt. lia. }
  rewrite (filter_none (fun k => k <? e)).
  - apply app_nil_r.
  - intros k Hk. apply filter_In in Hk. destruct Hk as [Hk _]. apply in_seq in Hk. apply Nat.ltb_ge. lia.
Qed.

Lemma nth_error_firstn {A} (l : list A) : forall n k, k < n -> nth_error (firstn n l) k = nth_error l k.
Proof. induction l as [|a l IH]; intros [|n] [|k] H; simpl; auto; try lia. apply IH. lia. Qed.

Lemma mem_spec s l : mem s l = true <-> In s l.
Proof.
  unfold mem. rewrite existsb_exists. split.
  - intros (y & Hy & E). apply Nat.eqb_eq in E. subst. auto.
  - intros H. exists s. split; auto. apply Nat.eqb_refl.
Qed.

Lemma mem_false s l : mem s l = false <-> ~ In s l.
Proof. rewrite <- mem_spec. destruct (mem s l); split; intros; congruence. Qed.

(** ** Counts *)

Lemma forget_nth w e : nth_error (rw_exps (forget w)) e = option_map forget_exp (nth_error (w_exps w) e).
Proof. cbn [rw_exps forget]. apply nth_error_map. Qed.

Lemma fulfilled_met w e x : WInv w -> exp_at w e x -> fulfilled (forget w) e = met (ctl_of x).
Proof.
  intros I Hx. unfold fulfilled. rewrite forget_nth. unfold exp_at in Hx. rewrite Hx. cbn [option_map forget_exp x_lo].
  unfold met, matched. cbn [forget rw_trace]. rewrite (wi_count _ I _ _ Hx). reflexivity.
Qed.

Lemma attached_mem s x : attached_in s (ctl_of x) = mem s (x_seqs x).
Proof. apply negb_iff. rewrite attached_in_spec, mem_spec. reflexivity. Qed.

Lemma elements_at w s : elements (forget w) s = filter (at_index (attached_in s) (ctls w)) (seq 0 (length (ctls w))).
Proof.
  unfold elements, ctls. cbn [forget rw_exps]. rewrite !map_length. apply filter_ext. intros k. unfold at_index.
  rewrite !nth_error_map. destruct (nth_error (w_exps w) k) as [x|]; cbn [option_map]; auto. rewrite attached_mem. reflexivity.
Qed.

Lemma elements_in w s e : In e (elements (forget w) s) <-> exists x, exp_at w e x /\ In s (x_seqs x).
Proof.
  rewrite elements_at, filter_In, in_seq. unfold at_index. split.
  - intros [_ H]. destruct (nth_error (ctls w) e) as [c|] eqn:E; [|discriminate].
    destruct (ctls_nth_inv _ _ _ E) as (x & Hx & ->). exists x. split; auto. rewrite attached_mem in H. apply mem_spec; auto.
  - intros (x & Hx & Hs). pose proof (ctls_nth _ _ _ Hx) as E. rewrite E. split; [apply nth_error_lt in E; lia|].
    rewrite attached_mem. apply mem_spec; auto.
Qed.

Lemma elements_f2 w s : Forall2 (fun k c => nth_error (ctls w) k = Some c) (elements (forget w) s) (filter (attached_in s) (ctls w)).
Proof. rewrite elements_at. apply indices_filter. Qed.

Lemma fulfilled_ctl w k c : WInv w -> nth_error (ctls w) k = Some c -> fulfilled (forget w) k = met c.
Proof. intros I H. destruct (ctls_nth_inv _ _ _ H) as (x & Hx & ->). apply fulfilled_met; auto. Qed.

(** What the destructor of a sequence reports. *)
Lemma dtor_forget w s q : WInv w -> nth_error (w_seqs w) s = Some q ->
  seq_dtor_error q =
    if forallb (fulfilled (forget w)) (elements (forget w) s) then None
    else Some (leading (fulfilled (forget w)) (elements (forget w) s), length (elements (forget w) s)).
Proof.
  intros I Hq. rewrite (dtor_spec _ _ _ _ (wi_s _ I) Hq). cbn zeta. pose proof (elements_f2 w s) as F.
  assert (H : forall k c, nth_error (ctls w) k = Some c -> fulfilled (forget w) k = met c) by (intros; apply fulfilled_ctl; auto).
  rewrite (forall2_forallb _ _ _ _ _ H F), (forall2_leading _ _ _ _ _ H F), (forall2_len _ _ _ F). reflexivity.
Qed.

Lemma elements_count w s q : WInv w -> nth_error (w_seqs w) s = Some q -> length (elements (forget w) s) = length (s_entries q).
Proof. intros I Hq. rewrite (entries_length _ _ _ _ (wi_s _ I) Hq). apply (forall2_len _ _ _ (elements_f2 w s)). Qed.

(** ** Positions, progress, turns *)

Lemma position_id w e x s id : WInv w -> exp_at w e x -> In (s, id) (c_seqs (ctl_of x)) -> position (forget w) s e = id.
Proof.
  intros I Hx Hi. pose proof (ctls_nth _ _ _ Hx) as Hc. rewrite (member_pos _ _ _ _ _ _ (wi_s _ I) Hc Hi).
  unfold position. rewrite elements_at. pose proof (nth_error_lt _ _ _ Hc) as Hlt. rewrite filter_below by lia.
  assert (E : length (firstn e (ctls w)) = e) by (rewrite firstn_length; lia).
  transitivity (length (filter (at_index (attached_in s) (firstn e (ctls w))) (seq 0 (length (firstn e (ctls w)))))).
  - rewrite E. f_equal. apply filter_ext_on. intros k Hk. apply in_seq in Hk. unfold at_index. rewrite nth_error_firstn by lia. reflexivity.
  - apply (forall2_len _ _ _ (indices_filter (attached_in s) (firstn e (ctls w)))).
Qed.

Lemma sorted_rev_head l a rest : StronglySorted lt l -> rev l = a :: rest -> forall k, In k l -> k <= a.
Proof.
  intros Hs E k Hk. assert (El : l = rev rest ++ [a]) by (rewrite <- (rev_involutive l), E; reflexivity).
  rewrite El in Hs, Hk. clear -Hs Hk. induction (rev rest) as [|b l IH]; simpl in *.
  - destruct Hk as [<-|[]]. auto.
  - inversion Hs; subst. destruct Hk as [<-|Hk]; auto. rewrite Forall_forall in H2. apply Nat.lt_le_incl, H2. apply in_app_iff. right; left; auto.
Qed.

Lemma filter_sorted (f : nat -> bool) l : StronglySorted lt l -> StronglySorted lt (filter f l).
Proof.
  induction 1 as [|a l H IH F]; simpl; [constructor|]. destruct (f a); auto. constructor; auto.
  rewrite Forall_forall in *. intros x Hx. apply filter_In in Hx. apply F, Hx.
Qed.

Lemma seq_sorted n : forall a, StronglySorted lt (seq a n).
Proof. induction n as [|n IH]; intros a; simpl; constructor; auto. apply Forall_forall. intros k Hk. apply in_seq in Hk. lia. Qed.

Lemma filter_rev_comm {A} (f : A -> bool) l : filter f (rev l) = rev (filter f l).
Proof. induction l as [|a l IH]; simpl; auto. rewrite filter_app, IH. simpl. destruct (f a); simpl; auto. apply app_nil_r. Qed.

Lemma progress_cursor w s q : WInv w -> nth_error (w_seqs w) s = Some q -> progress (forget w) s = s_cursor q.
Proof.
  intros I Hq. pose proof (wi_s _ I) as SI. unfold progress. rewrite filter_rev_comm.
  set (begun := filter (fun k => 0 <? matched (forget w) k) (elements (forget w) s)).
  assert (Hb : forall k, In k begun <-> exists x, exp_at w k x /\ In s (x_seqs x) /\ (0 < c_count (ctl_of x))%Z).
  { intros k. unfold begun. rewrite filter_In, elements_in, Nat.ltb_lt. unfold matched. cbn [forget rw_trace]. split.
    - intros [(x & Hx & Hs) H]. exists x. split; auto. split; auto. rewrite (wi_count _ I _ _ Hx). lia.
    - intros (x & Hx & Hs & H). rewrite (wi_count _ I _ _ Hx) in H. split; eauto. lia. }
  assert (Hso : StronglySorted lt begun).
  { unfold begun, elements. apply filter_sorted, filter_sorted, seq_sorted. }
  destruct (rev begun) as [|k rest] eqn:E.
  - destruct (si_cursor _ _ SI _ _ Hq) as [->|(e & c & He & Hin & Hc)]; auto. exfalso.
    destruct (ctls_nth_inv _ _ _ He) as (x & Hx & ->). assert (H : In e begun).
    { apply Hb. exists x. split; auto. split; auto. apply in_map_fst. eauto. }
    apply in_rev in H. rewrite E in H. destruct H.
  - assert (Hk : In k begun) by (apply in_rev; rewrite E; left; auto).
    apply Hb in Hk. destruct Hk as (x & Hx & Hs & Hpos). apply in_map_fst in Hs. destruct Hs as [id Hid].
    rewrite (position_id _ _ _ _ _ I Hx Hid). pose proof (ctls_nth _ _ _ Hx) as Hc.
    assert (Hle : id <= s_cursor q).
    { destruct (Nat.le_gt_cases id (s_cursor q)); auto. exfalso. pose proof (si_after _ _ SI _ _ _ _ _ Hc Hid Hq H). lia. }
    destruct (si_cursor _ _ SI _ _ Hq) as [Hz|(e & c & He & Hin & Hce)]; [lia|].
    destruct (ctls_nth_inv _ _ _ He) as (y & Hy & ->).
    assert (Hek : e <= k).
    { apply (sorted_rev_head _ _ _ Hso E). apply Hb. exists y. split; auto. split; auto. apply in_map_fst; eauto. }
    destruct (Nat.eq_dec e k) as [->|Hne].
    + unfold exp_at in *. rewrite Hx in Hy. inversion Hy; subst y. eapply nodup_fst_inj; [apply (si_nodup _ _ SI _ _ Hc)| |]; eauto.
    + pose proof (si_order _ _ SI _ _ _ _ _ _ _ He Hc Hin Hid ltac:(lia)). lia.
Qed.

Lemma turn_consumable w e x s id : WInv w -> exp_at w e x -> In (s, id) (c_seqs (ctl_of x)) ->
  (c_count (ctl_of x) < c_max (ctl_of x))%Z -> turn (forget w) e s = consumable_in (w_seqs w) (s, id).
Proof.
  intros I Hx Hi Hlt. pose proof (ctls_nth _ _ _ Hx) as Hc. destruct (si_entry _ _ (wi_s _ I) _ _ _ _ Hc Hi) as (q & Hq & _).
  unfold consumable_in. cbn [fst snd]. rewrite Hq. apply negb_iff.
  rewrite (consumable_spec _ _ _ _ _ _ _ (wi_s _ I) Hc Hi Hq Hlt). unfold turn. rewrite forallb_forall. split.
  - intros H e' c' He' Hs'. destruct (ctls_nth_inv _ _ _ He') as (x' & Hx' & ->).
    specialize (H e'). rewrite elements_in in H. specialize (H (ex_intro _ _ (conj Hx' Hs'))). split; intros Hl.
    + assert (E : (e' <? e) = true) by (apply Nat.ltb_lt; auto). rewrite E in H. rewrite (fulfilled_met _ _ _ I Hx') in H. apply Z.leb_le; auto.
    + assert (E : (e' <? e) = false) by (apply Nat.ltb_ge; lia). assert (E' : (e <? e') = true) by (apply Nat.ltb_lt; auto).
      rewrite E, E' in H. apply Nat.eqb_eq in H. rewrite (wi_count _ I _ _ Hx'). unfold matched in H. cbn [forget rw_trace] in H. rewrite H. reflexivity.
  - intros H k Hk. apply elements_in in Hk. destruct Hk as (x' & Hx' & Hs').
    destruct (H _ _ (ctls_nth _ _ _ Hx') Hs') as [H1 H2]. destruct (Nat.ltb_spec k e).
    + rewrite (fulfilled_met _ _ _ I Hx'). apply Z.leb_le; auto.
    + destruct (Nat.ltb_spec e k); auto. specialize (H2 H3). rewrite (wi_count _ I _ _ Hx') in H2. apply Nat.eqb_eq. unfold matched. cbn [forget rw_trace]. lia.
Qed.

Lemma rate_rating w e x s id : WInv w -> exp_at w e x -> In (s, id) (c_seqs (ctl_of x)) ->
  rate (forget w) e s = rating_in (w_seqs w) (s, id).
Proof.
  intros I Hx Hi. pose proof (ctls_nth _ _ _ Hx) as Hc. destruct (si_entry _ _ (wi_s _ I) _ _ _ _ Hc Hi) as (q & Hq & _).
  unfold rate, rating_in, priority. cbn [fst snd forget rw_flavours]. rewrite nth_error_map, Hq. cbn [option_map].
  fold (forget w). rewrite (position_id _ _ _ _ _ I Hx Hi), (progress_cursor _ _ _ I Hq). destruct (s_strategy q); reflexivity.
Qed.

(** ** The state of an expectation *)

Lemma condition_state w e x : WInv w -> exp_at w e x ->
  control_state_of (w_seqs w) (ctl_of x) = Ret (condition (forget w) e (forget_exp x)).
Proof.
  intros I Hx. pose proof (ctls_nth _ _ _ Hx) as Hc. rewrite (control_state_ok _ _ _ _ (wi_s _ I) Hc).
  pose proof (si_ok _ _ (wi_s _ I) _ _ Hc) as (_ & _ & Hcnt).
  unfold condition, applies, exhausted, matched. cbn [forget_exp x_lo x_hi x_in]. cbn [forget rw_trace]. fold (forget w).
  rewrite <- (wi_count _ I _ _ Hx). change (x_max x) with (c_max (ctl_of x)). change (x_min x) with (c_min (ctl_of x)).
  destruct (Z.eqb_spec (c_count (ctl_of x)) (c_max (ctl_of x))) as [|Hne]; auto. cbn [negb andb].
  assert (Hlt : (c_count (ctl_of x) < c_max (ctl_of x))%Z) by lia.
  assert (Ht : forall p, In p (c_seqs (ctl_of x)) -> turn (forget w) e (fst p) = consumable_in (w_seqs w) p).
  { intros [s id] Hp. apply (turn_consumable _ _ _ _ _ I Hx Hp Hlt). }
  assert (Hr : forall p, In p (c_seqs (ctl_of x)) -> rate (forget w) e (fst p) = rating_in (w_seqs w) p).
  { intros [s id] Hp. apply (rate_rating _ _ _ _ _ I Hx Hp). }
  unfold x_seqs. fold (ctl_of x). rewrite forallb_map, !filter_map, !map_map.
  rewrite (forallb_ext_on _ _ _ Ht), (filter_ext_on _ _ _ Ht).
  rewrite (filter_ext_on (fun y => negb (turn (forget w) e (fst y))) (fun p => negb (consumable_in (w_seqs w) p))) by (intros p Hp; rewrite Ht; auto).
  rewrite (map_ext_in _ _ _ Hr).
  rewrite (map_ext_in (fun y => rate (forget w) e (fst y)) (rating_in (w_seqs w)) (filter (consumable_in (w_seqs w)) (c_seqs (ctl_of x))))
    by (intros p Hp; apply filter_In in Hp; apply Hr, Hp).
  assert (Ha : control_is_applicable (w_seqs w) (ctl_of x) = forallb (consumable_in (w_seqs w)) (c_seqs (ctl_of x))).
  { unfold control_is_applicable. replace (c_count (ctl_of x) <? c_max (ctl_of x))%Z with true by (symmetry; apply Z.ltb_lt; lia).
    simpl. apply forallb_ext_on. intros [s id] _. reflexivity. }
  rewrite Ha. reflexivity.
Qed.

Lemma applies_applicable w e x : WInv w -> exp_at w e x ->
  applies (forget w) e (forget_exp x) = match condition (forget w) e (forget_exp x) with StApplicable _ _ _ _ => true | _ => false end.
Proof.
  intros _ _. unfold condition. destruct (exhausted (forget w) e (forget_exp x)) eqn:E.
  - unfold applies. rewrite E. reflexivity.
  - destruct (applies (forget w) e (forget_exp x)); reflexivity.
Qed.

Lemma applies_ratings w e x : WInv w -> exp_at w e x -> applies (forget w) e (forget_exp x) = true ->
  exists mn mx n, condition (forget w) e (forget_exp x) = StApplicable mn mx n (map (rating_in (w_seqs w)) (c_seqs (ctl_of x))) /\
    control_is_applicable (w_seqs w) (ctl_of x) = true.
Proof.
  intros I Hx H. pose proof (condition_state _ _ _ I Hx) as E. pose proof (ctls_nth _ _ _ Hx) as Hc.
  rewrite (control_state_ok _ _ _ _ (wi_s _ I) Hc) in E. inversion E as [E']. rewrite (applies_applicable _ _ _ I Hx), <- E' in H.
  destruct (c_count (ctl_of x) =? c_max (ctl_of x))%Z; [discriminate|].
  destruct (control_is_applicable (w_seqs w) (ctl_of x)); [|discriminate]. eauto 6.
Qed.

Lemma report_forget w e x : WInv w -> exp_at w e x ->
  exp_report_of (w_seqs w) (eo_exp x) =
  obind (omap policy_describe (e_policies (eo_exp x))) (fun ds => Ret (description (forget w) e (forget_exp x) ds)).
Proof.
  intros I Hx. unfold exp_report_of. fold (ctl_of x). rewrite (condition_state _ _ _ I Hx). reflexivity.
Qed.

Lemma describe_cases l : (exists ds, omap policy_describe l = Ret ds) \/ (exists y, omap policy_describe l = Throw y).
Proof. apply omap_total. intros p _. apply policy_describe_ok. Qed.

Lemma ask_attempt w e x c : WInv w -> exp_at w e x ->
  make_match_report (w_reporter w) (w_uncaught w) (w_seqs w) (eo_exp x) c = ask (forget w) c e.
Proof.
  intros I Hx. unfold make_match_report, exp_matches, ask. fold (ctl_of x). rewrite (condition_state _ _ _ I Hx), forget_nth.
  unfold exp_at in Hx. rewrite Hx. cbn [obind option_map]. cbn [forget_exp x_reqs x_loc]. fold (forget_exp x).
  destruct (omap (policy_report_of c) (e_policies (eo_exp x))) as [rs|y| |u]; cbn [obind noexcept_of]; auto.
  rewrite (report_forget _ _ _ I Hx). cbn [forget rw_reporter rw_uncaught]. fold (forget w).
  destruct (describe_cases (e_policies (eo_exp x))) as [[ds ->]|[z ->]]; cbn [obind noexcept_of]; auto.
  destruct (w_reporter w _ (w_uncaught w)); reflexivity.
Qed.

(** ** Ends of lifetimes *)

(** States which agree in everything a complaint depends on. *)
Record alike (r r' : rworld) : Prop := mkAlike {
  al_iface : rw_iface r' = rw_iface r;
  al_exps : rw_exps r' = rw_exps r;
  al_matched : forall e, matched r' e = matched r e
}.

Lemma alike_elements r r' s : alike r r' -> elements r' s = elements r s.
Proof. intros [_ E _]. unfold elements. rewrite E. reflexivity. Qed.
Lemma alike_fulfilled r r' e : alike r r' -> fulfilled r' e = fulfilled r e.
Proof. intros [_ E M]. unfold fulfilled. rewrite E, M. reflexivity. Qed.

Lemma leading_ext {A} (f g : A -> bool) l : (forall x, f x = g x) -> leading f l = leading g l.
Proof. intros H. induction l; simpl; auto. rewrite H, IHl. reflexivity. Qed.
Lemma forallb_same {A} (f g : A -> bool) l : (forall x, f x = g x) -> forallb f l = forallb g l.
Proof. intros H. apply forallb_ext_on. auto. Qed.

Lemma alike_complaint r r' s : alike r r' -> complaint r' s = complaint r s.
Proof.
  intros H. unfold complaint, used. rewrite (al_iface _ _ H), (al_exps _ _ H), (alike_elements _ _ _ H).
  rewrite (forallb_same (fulfilled r') (fulfilled r)) by (intros; apply alike_fulfilled; auto).
  rewrite (leading_ext (fulfilled r') (fulfilled r)) by (intros; apply alike_fulfilled; auto). reflexivity.
Qed.

Lemma alike_complaints r r' l : alike r r' -> complaints r' l = complaints r l.
Proof. intros H. unfold complaints. induction l as [|s l IH]; simpl; auto. rewrite IH, (alike_complaint _ _ _ H). reflexivity. Qed.

Lemma used_forget w s : used (forget w) s = seq_in_use w s.
Proof.
  unfold used, seq_in_use. cbn [forget rw_iface rw_exps]. f_equal. induction (w_exps w) as [|x l IH]; simpl; auto.
  rewrite IH. f_equal. f_equal. apply negb_iff. rewrite mem_spec. unfold attached_to. rewrite existsb_exists. split.
  - intros H. apply in_map_fst in H. destruct H as [id H]. exists (s, id). split; auto. apply Nat.eqb_refl.
  - intros ([s' id] & H & E). apply Nat.eqb_eq in E. subst. apply in_map_fst. eauto.
Qed.

(** The sequence objects know what the reference machine computes. *)
Definition knows (w : world) (s : nat) : Prop :=
  exists q, nth_error (w_seqs w) s = Some q /\
    seq_dtor_error q = (if forallb (fulfilled (forget w)) (elements (forget w) s) then None
                        else Some (leading (fulfilled (forget w)) (elements (forget w) s), length (elements (forget w) s))).

Lemma accepted_error tr rid k n s e : accepted (tr ++ [EvReport rid (RError k n) [s]]) e = accepted tr e.
Proof. rewrite accepted_app. unfold accepted at 2. simpl. apply Nat.add_0_r. Qed.

Lemma knows_ext w w' s : w_seqs w' = w_seqs w -> elements (forget w') s = elements (forget w) s ->
  (forall e, fulfilled (forget w') e = fulfilled (forget w) e) -> knows w s -> knows w' s.
Proof.
  intros Es El F (q & Hq & E). exists q. rewrite Es. split; auto. rewrite E, El.
  rewrite (forallb_same (fulfilled (forget w')) (fulfilled (forget w))) by auto.
  rewrite (leading_ext (fulfilled (forget w')) (fulfilled (forget w))) by auto. reflexivity.
Qed.

Lemma release_forget l : forall w, NoDup l -> (forall s, In s l -> knows w s /\ nth s (w_sdead w) true = false) ->
  forget_stepped (release_seqs w l) = let_go (forget w) (w_uncaught w) l RUnit.
Proof.
  induction l as [|s l IH]; intros w Hnd H.
  - unfold let_go. cbn [complaints flat_map forallb map release_seqs forget_stepped]. f_equal. unfold with_trace. cbn [forget rw_trace]. rewrite app_nil_r. reflexivity.
  - inversion Hnd as [|? ? Hs Hnd']; subst. destruct (H s (or_introl eq_refl)) as [(q & Hq & Hd) Hdead].
    cbn [release_seqs]. unfold release_seq. rewrite Hdead, orb_false_r.
    assert (Hc : complaints (forget w) (s :: l) = map (fun rep => (rep, s)) (complaint (forget w) s) ++ complaints (forget w) l) by reflexivity.
    unfold let_go. rewrite Hc. unfold complaint. rewrite used_forget. destruct (seq_in_use w s) eqn:Hu; cbn [orb].
    + cbn [map app]. rewrite IH; auto. intros s' Hs'. apply H. right; auto.
    + rewrite Hq, Hd. destruct (forallb (fulfilled (forget w)) (elements (forget w) s)) eqn:Hf.
      * cbn [map app]. set (w1 := set_sdead w (upd (w_sdead w) s true)). rewrite (IH w1); auto.
        intros s' Hs'. destruct (H s' (or_intror Hs')) as [K D]. split; [exact K|].
        cbn [w1 set_sdead w_sdead]. rewrite nth_upd_true. destruct (Nat.eqb_spec s s'); [subst; contradiction|auto].
      * cbn [map app forallb fst]. set (k := leading (fulfilled (forget w)) (elements (forget w) s)).
        set (n := length (elements (forget w) s)). set (w1 := set_sdead w (upd (w_sdead w) s true)).
        change (react w1 (RError k n)) with (w_reporter w (RError k n) (w_uncaught w)).
        change (rw_reporter (forget w)) with (w_reporter w).
        destruct (w_reporter w (RError k n) (w_uncaught w)) eqn:Hr; cbn [andb forget_stepped]; auto.
        set (w2 := emit_report w1 (RError k n) [s]).
        assert (A : alike (forget w) (forget w2)).
        { split; auto. intros e. unfold matched. cbn [w2 emit_report emit w1 set_sdead forget rw_trace w_trace]. apply accepted_error. }
        rewrite (IH w2); auto.
        -- unfold let_go. rewrite (alike_complaints _ _ _ A). cbn [w2 emit_report emit w1 set_sdead forget rw_reporter rw_rid rw_trace w_reporter w_rid w_trace w_uncaught].
           destruct (forallb _ (complaints (forget w) l)); auto. f_equal. unfold with_trace.
           cbn [rw_trace rw_flavours rw_iface rw_exps rw_homes rw_mocks rw_scoped rw_frames rw_rid rw_reporter rw_uncaught
             w_seqs w_iface w_exps w_colls w_mocks w_scoped w_frames w_uncaught w_trace forget w1 set_sdead map snd].
           change (w_trace w2) with (w_trace w ++ [EvReport (w_rid w) (RError k n) [s]]). rewrite <- app_assoc. reflexivity.
        -- intros s' Hs'. destruct (H s' (or_intror Hs')) as [K D]. split; [exact (knows_ext w w2 s' eq_refl (alike_elements _ _ _ A) (fun e => alike_fulfilled _ _ e A) K)|].
           cbn [w2 emit_report emit w1 set_sdead w_sdead]. rewrite nth_upd_true. destruct (Nat.eqb_spec s s'); [subst; contradiction|auto].
Qed.

Lemma winv_knows w s : WInv w -> s < length (w_seqs w) -> knows w s.
Proof. intros I H. destruct (nth_error_ex _ _ H) as [q Hq]. exists q. split; auto. apply dtor_forget; auto. Qed.

Lemma upd_nth_cases {A} (l : list A) i x k : nth_error (upd l i x) k = if i =? k then (if k <? length l then Some x else None) else nth_error l k.
Proof.
  destruct (Nat.eqb_spec i k) as [->|Hne].
  - destruct (Nat.ltb_spec k (length l)).
    + apply nth_error_upd_eq; auto.
    + apply nth_error_None. rewrite length_upd. auto.
  - apply nth_error_upd_neq; auto.
Qed.

Lemma ended_elements r e x s : nth_error (rw_exps r) e = Some x ->
  elements (with_exps r (upd (rw_exps r) e (ended_exp x))) s = elements r s.
Proof.
  intros Hx. unfold elements. cbn [with_exps rw_exps]. rewrite length_upd. apply filter_ext. intros k.
  rewrite upd_nth_cases. destruct (Nat.eqb_spec e k) as [<-|]; auto. rewrite Hx.
  pose proof (nth_error_lt _ _ _ Hx) as H. apply Nat.ltb_lt in H. rewrite H. reflexivity.
Qed.

Lemma ended_fulfilled r e x k : nth_error (rw_exps r) e = Some x ->
  fulfilled (with_exps r (upd (rw_exps r) e (ended_exp x))) k = fulfilled r k.
Proof.
  intros Hx. unfold fulfilled. cbn [with_exps rw_exps]. unfold matched. cbn [rw_trace].
  rewrite upd_nth_cases. destruct (Nat.eqb_spec e k) as [<-|]; auto. rewrite Hx.
  pose proof (nth_error_lt _ _ _ Hx) as H. apply Nat.ltb_lt in H. rewrite H. reflexivity.
Qed.

Definition with_uncaught (r : rworld) (u : nat) : rworld :=
  mkRWorld (rw_flavours r) (rw_iface r) (rw_exps r) (rw_homes r) (rw_mocks r) (rw_scoped r) (rw_frames r)
    (rw_rid r) (rw_reporter r) u (rw_trace r).

Lemma release_thrown w u1 u l y : NoDup l -> (forall s, In s l -> knows w s /\ nth s (w_sdead w) true = false) ->
  forget_stepped (match release_seqs (set_uncaught w u1) l with
                  | Next w2 _ => Next (set_uncaught w2 u) (RThrow y)
                  | other => other
                  end) = let_go (forget (set_uncaught w u)) u1 l (RThrow y).
Proof.
  intros Hn H. pose proof (release_forget l (set_uncaught w u1) Hn H) as E. unfold let_go in *.
  change (complaints (forget (set_uncaught w u1)) l) with (complaints (forget w) l) in E.
  change (complaints (forget (set_uncaught w u)) l) with (complaints (forget w) l).
  change (rw_reporter (forget (set_uncaught w u1))) with (w_reporter w) in E.
  change (rw_reporter (forget (set_uncaught w u))) with (w_reporter w).
  change (w_uncaught (set_uncaught w u1)) with u1 in E.
  destruct (forallb _ (complaints (forget w) l)).
  - destruct (release_seqs (set_uncaught w u1) l) as [w2 r2| | |]; cbn [forget_stepped] in *; try discriminate.
    f_equal. set (r3 := with_trace _ _) in E. assert (E' : forget w2 = r3) by congruence.
    change (forget (set_uncaught w2 u)) with (with_uncaught (forget w2) u). rewrite E'. reflexivity.
  - destruct (release_seqs (set_uncaught w u1) l) as [w2 r2| | |]; cbn [forget_stepped] in *; inversion E; auto.
Qed.

Definition ended_world (w : world) (e : nat) (x : eobj) (l : list nat) (evs : list event) : world :=
  mkWorld (w_seqs w) (w_iface w) (w_sdead w) (upd (w_exps w) e (mkEObj (eo_exp x) (eo_coll x) false (eo_ov x) (eo_sig x)))
    (upd (w_colls w) (eo_coll x) l) (w_mocks w) (w_scoped w) (w_frames w) (w_rid w) (w_reporter w) (w_uncaught w) (w_trace w ++ evs).

Lemma forget_ended w e x l evs : forget (ended_world w e x l evs) =
  with_trace (with_exps (forget w) (upd (rw_exps (forget w)) e (ended_exp (forget_exp x)))) evs.
Proof. unfold forget, ended_world, with_trace, with_exps. cbn. rewrite map_upd, length_upd. reflexivity. Qed.

Lemma end_forget w e x : WInv w -> exp_at w e x -> eo_alive x = true ->
  forget_stepped (end_expectation w e) = end_of (forget w) e.
Proof.
  intros I Hx Ha. unfold end_expectation, end_of. rewrite forget_nth. pose proof Hx as Hx'. unfold exp_at in Hx'. rewrite Hx'. cbn [option_map].
  destruct (nth_error_ex _ _ (wi_collr _ I _ _ Hx)) as [l Hl]. rewrite Hl.
  assert (Hin : existsb (Nat.eqb e) l = true).
  { apply existsb_exists. exists e. split; [|apply Nat.eqb_refl]. rewrite (wi_coll _ I _ _ Hl). apply members_in. eauto. }
  rewrite Hin. cbn [negb]. cbv zeta.
  set (l' := erase_first e l).
  assert (Hsat : exp_is_satisfied (eo_exp x) = fulfilled (forget w) e).
  { rewrite (fulfilled_met _ _ _ I Hx). unfold exp_is_satisfied, control_is_satisfied, met. fold (ctl_of x).
    pose proof (si_ok _ _ (wi_s _ I) _ _ (ctls_nth _ _ _ Hx)) as (_ & _ & Hc).
    replace (c_count (ctl_of x) <=? c_max (ctl_of x))%Z with true by (symmetry; apply Z.leb_le; lia).
    rewrite andb_true_r. replace (forallb policy_is_satisfied (e_policies (eo_exp x))) with true; [apply andb_true_r|].
    symmetry. apply forallb_forall. reflexivity. }
  assert (Hnd : NoDup (x_seqs x)) by (eapply x_seqs_nodup; eauto).
  assert (Hk : forall evs, (forall k, accepted evs k = 0) -> forall s, In s (x_seqs x) ->
            knows (ended_world w e x l' evs) s /\ nth s (w_sdead (ended_world w e x l' evs)) true = false).
  { intros evs Hev s Hs. pose proof Hs as Hs'. apply in_map_fst in Hs'. destruct Hs' as [id Hid].
    destruct (si_entry _ _ (wi_s _ I) _ _ _ _ (ctls_nth _ _ _ Hx) Hid) as (q & Hq & _). pose proof (nth_error_lt _ _ _ Hq) as Hlt.
    assert (Hr : nth_error (rw_exps (forget w)) e = Some (forget_exp x)) by (rewrite forget_nth, Hx'; reflexivity).
    split.
    - apply (knows_ext w); auto.
      + rewrite forget_ended. etransitivity; [|apply (ended_elements _ _ _ _ Hr)]. reflexivity.
      + intros k. rewrite forget_ended. etransitivity; [|apply (ended_fulfilled _ _ _ _ Hr)].
        unfold fulfilled, matched. cbn [with_trace rw_exps rw_trace with_exps]. rewrite accepted_app, Hev, Nat.add_0_r. reflexivity.
      + apply winv_knows; auto.
    - cbn [ended_world w_sdead]. rewrite (wi_dead _ I _ Hlt). apply negb_false_iff. apply in_use_spec. right. eauto. }
  change (map fst (c_seqs (e_ctl (eo_exp x)))) with (x_seqs x).
  rewrite Hsat. destruct (fulfilled (forget w) e) eqn:Hf.
  - match goal with |- context [release_seqs ?d _] => replace d with (ended_world w e x l' []) by
      (unfold ended_world; rewrite app_nil_r; reflexivity) end.
    rewrite release_forget; auto. rewrite forget_ended. unfold with_trace. cbn [with_exps rw_trace]. rewrite app_nil_r. reflexivity.
  - rewrite (report_forget _ _ _ I Hx). cbn [forget_exp x_reqs]. fold (forget_exp x).
    destruct (describe_cases (e_policies (eo_exp x))) as [[ds ->]|[y ->]]; cbn [obind].
    + set (rep := RUnfulfilled (description (forget w) e (forget_exp x) ds)).
      change (rw_reporter (forget w)) with (w_reporter w). change (rw_uncaught (forget w)) with (w_uncaught w).
      match goal with |- context [react ?w1 rep] => change (react w1 rep) with (w_reporter w rep (w_uncaught w)) end.
      assert (Hev : forall k, accepted [EvReport (w_rid w) rep [e]] k = 0) by reflexivity.
      destruct (w_reporter w rep (w_uncaught w)); auto.
      * match goal with |- context [release_seqs ?d _] => change d with (ended_world w e x l' [EvReport (w_rid w) rep [e]]) end.
        rewrite release_forget; auto. rewrite forget_ended. reflexivity.
      * match goal with |- context [release_seqs (set_uncaught ?d _) _] => change d with (ended_world w e x l' [EvReport (w_rid w) rep [e]]) end.
        rewrite release_thrown; auto. change (set_uncaught (ended_world w e x l' [EvReport (w_rid w) rep [e]]) (w_uncaught w)) with (ended_world w e x l' [EvReport (w_rid w) rep [e]]).
        rewrite forget_ended. reflexivity.
    + match goal with |- context [release_seqs (set_uncaught ?d _) _] => replace d with (ended_world w e x l' []) by
        (unfold ended_world; rewrite app_nil_r; reflexivity) end.
      rewrite release_thrown; auto. change (set_uncaught (ended_world w e x l' []) (w_uncaught w)) with (ended_world w e x l' []).
      rewrite forget_ended. unfold with_trace. cbn [with_exps rw_trace]. rewrite app_nil_r. reflexivity.
Qed.

(** ** Calls *)

Definition classify (want : match_result) (p : nat * match_attempt) : list (nat * match_report) :=
  match snd p with
  | AttemptReport m =>
      match evaluate_match_report m, want with
      | MatchNone, MatchNone | MatchInapplicable, MatchInapplicable | MatchFull, MatchFull => [(fst p, m)]
      | _, _ => []
      end
  | AttemptUnhandled _ _ => []
  end.
Definition unhandled_of (p : nat * match_attempt) : list (nat * (exp_report * exn)) :=
  match snd p with AttemptReport _ => [] | AttemptUnhandled r y => [(fst p, (r, y))] end.

Lemma match_loop_omap rp u ss c es : forall acc,
  match_loop rp u ss c es acc =
  obind (omap (fun p => make_match_report rp u ss (snd p) c) es) (fun ats =>
    let as_ := combine (map fst es) ats in
    Ret (mkLists (ml_full acc ++ flat_map (classify MatchFull) as_) (ml_inapplicable acc ++ flat_map (classify MatchInapplicable) as_)
           (ml_none acc ++ flat_map (classify MatchNone) as_) (ml_unhandled acc ++ flat_map unhandled_of as_))).
Proof.
  induction es as [|[n e] es IH]; intros acc; simpl.
  - rewrite !app_nil_r. destruct acc; reflexivity.
  - destruct (make_match_report rp u ss e c) as [a|x| |v]; simpl; auto. rewrite IH.
    destruct (omap (fun p => make_match_report rp u ss (snd p) c) es) as [ats|x| |v]; simpl; auto.
    destruct a as [m|r x]; simpl; [unfold classify, unhandled_of; simpl; destruct (evaluate_match_report m)|]; simpl; rewrite <- ?app_assoc; auto.
Qed.

Lemma omap_ext {A B C} (f : A -> outcome C) (g : B -> outcome C) (h : A -> B) l :
  (forall a, In a l -> f a = g (h a)) -> omap f l = omap g (map h l).
Proof. induction l as [|a l IH]; simpl; intros H; auto. rewrite (H a) by auto. rewrite IH by auto. reflexivity. Qed.

(** The answers tell the truth. *)
Definition truthful (w : world) (p : nat * match_attempt) : Prop :=
  exists x, exp_at w (fst p) x /\ forall m, snd p = AttemptReport m -> mr_state m = condition (forget w) (fst p) (forget_exp x).

Lemma full_answers w as_ : WInv w -> Forall (truthful w) as_ ->
  flat_map (classify MatchFull) as_ = filter (applies_now (forget w)) (accepting_answers as_).
Proof.
  intros I H. induction H as [|[e a] as_ (x & Hx & Ht) H IH]; simpl; auto. unfold accepting_answers. cbn [flat_map].
  fold (accepting_answers as_). rewrite filter_app, <- IH. f_equal. unfold classify. cbn [fst snd] in *. destruct a as [m|r y]; auto.
  unfold evaluate_match_report. destruct (forallb pr_matching (mr_policies m)); cbn [negb]; auto.
  rewrite (Ht m eq_refl). cbn [filter]. unfold applies_now. cbn [fst]. rewrite forget_nth. unfold exp_at in Hx. rewrite Hx. cbn [option_map].
  rewrite (applies_applicable _ _ _ I Hx). destruct (condition (forget w) e (forget_exp x)); reflexivity.
Qed.

Lemma none_answers as_ : flat_map (classify MatchNone) as_ = rejecting_answers as_.
Proof.
  induction as_ as [|[e a] as_ IH]; simpl; auto. unfold rejecting_answers. cbn [flat_map]. rewrite IH. f_equal. unfold classify. cbn [fst snd].
  destruct a as [m|r y]; auto. unfold evaluate_match_report. destruct (forallb pr_matching (mr_policies m)); cbn [negb]; auto.
  destruct (mr_state m); auto.
Qed.

Lemma inapplicable_answers w as_ : WInv w -> Forall (truthful w) as_ ->
  flat_map (classify MatchInapplicable) as_ = filter (fun p => negb (applies_now (forget w) p)) (accepting_answers as_).
Proof.
  intros I H. induction H as [|[e a] as_ (x & Hx & Ht) H IH]; simpl; auto. unfold accepting_answers. cbn [flat_map].
  fold (accepting_answers as_). rewrite filter_app, <- IH. f_equal. unfold classify. cbn [fst snd] in *. destruct a as [m|r y]; auto.
  unfold evaluate_match_report. destruct (forallb pr_matching (mr_policies m)); cbn [negb]; auto.
  rewrite (Ht m eq_refl). cbn [filter]. unfold applies_now. cbn [fst]. rewrite forget_nth. unfold exp_at in Hx. rewrite Hx. cbn [option_map].
  rewrite (applies_applicable _ _ _ I Hx). destruct (condition (forget w) e (forget_exp x)); reflexivity.
Qed.

Lemma unhandled_answers w c as_ : emit_unhandled w c (flat_map unhandled_of as_) = add_trace w (exceptions_of (w_rid w) c as_).
Proof.
  rewrite emit_unhandled_add. f_equal. induction as_ as [|[e a] as_ IH]; simpl; auto. rewrite map_app, IH.
  unfold exceptions_of. cbn [flat_map]. f_equal. unfold unhandled_of. cbn [snd fst]. destruct a; reflexivity.
Qed.

Lemma filter_empty_negb {A} (f : A -> bool) l : filter f l = [] -> filter (fun x => negb (f x)) l = l.
Proof. induction l as [|a l IH]; simpl; auto. destruct (f a); [discriminate|]. simpl. intros H. rewrite IH; auto. Qed.

Lemma stays_keeps w a b xa xb : exp_at w a xa -> exp_at w b xb -> (stays (forget w) a b = true <-> keeps w a b).
Proof.
  intros Ha Hb. unfold stays. rewrite !forget_nth. pose proof Ha as Ha'. pose proof Hb as Hb'. unfold exp_at in Ha', Hb'. rewrite Ha', Hb'.
  cbn [option_map forget_exp x_in]. rewrite orb_true_iff, existsb_exists, Nat.leb_le.
  assert (E : filter (votes_for (forget w) a b) (x_seqs xa) = filter (fun s => worse_in w s a b) (x_seqs xa)).
  { apply filter_ext. intros s. unfold votes_for, worse_in, is_lazy. cbn [forget rw_flavours]. rewrite nth_error_map.
    destruct (nth_error (w_seqs w) s) as [q|]; cbn [option_map]; auto. destruct (s_strategy q); auto. }
  rewrite E. unfold keeps. split.
  - intros H. exists xa, xb. split; auto. split; auto. destruct H as [(s & Hs & Hn)|H]; auto. left. exists s. split; auto.
    apply negb_true_iff, mem_false in Hn. auto.
  - intros (ya & yb & Hya & Hyb & H). unfold exp_at in *. rewrite Ha in Hya. inversion Hya; subst ya. rewrite Hb in Hyb. inversion Hyb; subst yb.
    destruct H as [(s & Hs & Hn)|H]; auto. left. exists s. split; auto. apply negb_true_iff, mem_false. auto.
Qed.

Lemma pick_favourite w : WInv w -> forall rest best,
  (forall k r, In (k, r) (best :: rest) -> exists x, exp_at w k x /\ ratings_of r = Ret (map (rating_in (w_seqs w)) (c_seqs (ctl_of x)))) ->
  pick_best best rest = Ret (favourite (forget w) best rest).
Proof.
  intros I. induction rest as [|[e r] rest IH]; intros [b rb] H; auto. cbn [pick_best snd]. unfold favourite. cbn [fold_left fst].
  destruct (H b rb (or_introl eq_refl)) as (xb & Hb & ->). destruct (H e r (or_intror (or_introl eq_refl))) as (xe & He & ->). cbn [obind].
  assert (E : has_better_rating (map (rating_in (w_seqs w)) (c_seqs (ctl_of xb))) (map (rating_in (w_seqs w)) (c_seqs (ctl_of xe))) = stays (forget w) b e).
  { apply negb_iff. rewrite (better_keeps _ _ _ _ _ I Hb He), (stays_keeps _ _ _ _ _ Hb He). reflexivity. }
  rewrite E. apply IH. intros k r' [E'|Hin]; apply H.
  - destruct (stays (forget w) b e); inversion E'; subst; simpl; auto.
  - simpl; auto.
Qed.

Lemma favourite_in r first others : In (favourite r first others) (first :: others).
Proof.
  unfold favourite. revert first. induction others as [|p l IH]; intros first; simpl; auto.
  destruct (IH (if stays r (fst first) (fst p) then first else p)) as [H|H]; auto.
  destruct (stays r (fst first) (fst p)); auto.
Qed.

Lemma present_members w coll : present (forget w) coll = rev (members (w_exps w) coll).
Proof.
  unfold present, members. f_equal. cbn [forget rw_exps]. rewrite map_length. apply filter_ext. intros e. unfold lives.
  rewrite nth_error_map. destruct (nth_error (w_exps w) e); reflexivity.
Qed.

Lemma combine_f2 {A B C} (f : A -> outcome B) (g : C -> A) l ys :
  omap (fun c => f (g c)) l = Ret ys -> Forall2 (fun c y => f (g c) = Ret y) l ys.
Proof. intros H. apply omap_ret_inv in H. exact H. Qed.

(** Matching changes neither the strategies of sequences nor what expectations declare. *)
Lemma strategies_same ss ss' : length ss' = length ss ->
  (forall s q, nth_error ss s = Some q -> exists q', nth_error ss' s = Some q' /\ s_strategy q' = s_strategy q) ->
  map s_strategy ss' = map s_strategy ss.
Proof.
  intros Hl H. symmetry. apply nth_error_ext_eq; [rewrite !map_length; auto|]. intros i st Hs.
  apply nth_error_map_some in Hs. destruct Hs as (q & Hq & ->). destruct (H _ _ Hq) as (q' & Hq' & <-). apply map_nth_error; auto.
Qed.

Lemma call_forget w coll c ne : WInv w -> coll < length (w_colls w) ->
  forget_stepped (handle_call w coll c ne) = call_on (forget w) coll c ne.
Proof.
  intros I Hcoll. unfold handle_call. destruct (nth_error_ex _ _ Hcoll) as [l Hl]. rewrite Hl.
  pose proof (wi_coll _ I _ _ Hl) as El.
  destruct (lookup_exps_some w (rev l)) as [es Hes].
  { intros n Hn. apply in_rev in Hn. rewrite El in Hn. apply members_in in Hn. destruct Hn as (x & Hx & _). eapply nth_error_lt; eauto. }
  rewrite Hes. destruct (lookup_exps_spec _ _ _ Hes) as [Hf Hin]. rewrite match_loop_omap.
  assert (Ep : present (forget w) coll = map fst es) by (rewrite present_members, Hf, El; reflexivity).
  unfold call_on. rewrite Ep.
  rewrite (omap_ext (fun p => make_match_report (w_reporter w) (w_uncaught w) (w_seqs w) (snd p) c) (ask (forget w) c) fst es).
  2:{ intros [n e] Hp. destruct (Hin _ _ Hp) as (eo & He & ->). cbn [fst snd]. apply ask_attempt; auto. }
  destruct (omap (ask (forget w) c) (map fst es)) as [ats|y| |u] eqn:Ha; cbn [obind forget_stepped]; auto.
  2:{ exfalso. clear -Ha. apply omap_throw_inv in Ha. destruct Ha as (_ & n & _ & _ & H & _). unfold ask in H.
      destruct (nth_error (rw_exps (forget w)) n) as [x|]; [|discriminate].
      destruct (omap (policy_report_of c) (x_reqs x)); try discriminate. destruct (omap policy_describe (x_reqs x)); try discriminate.
      destruct (rw_reporter (forget w) _ _); discriminate. }
  cbv zeta. set (as_ := combine (map fst es) ats). cbn [ml_full ml_inapplicable ml_none ml_unhandled app].
  assert (Htr : Forall (truthful w) as_).
  { apply omap_ret_inv in Ha. unfold as_. assert (Hall : forall n, In n (map fst es) -> exists x, exp_at w n x).
    { intros n Hn. apply in_map_iff in Hn. destruct Hn as ([n' e] & <- & Hp). destruct (Hin _ _ Hp) as (eo & He & _). exists eo. auto. }
    clear -Ha Hall. induction Ha as [|n a ns ats' Hna Ha IH]; simpl; constructor; [|apply IH; intros; apply Hall; right; auto].
    destruct (Hall n (or_introl eq_refl)) as (x & Hx). exists x. cbn [fst snd]. split; auto. intros m ->.
    unfold ask in Hna. rewrite forget_nth in Hna. unfold exp_at in Hx. rewrite Hx in Hna. cbn [option_map] in Hna.
    destruct (omap (policy_report_of c) (x_reqs (forget_exp x))) as [rs|y| |u]; try discriminate; [inversion Hna; subst; reflexivity|].
    destruct (omap policy_describe (x_reqs (forget_exp x))); try discriminate. destruct (rw_reporter (forget w) _ _); discriminate. }
  rewrite (full_answers _ _ I Htr), (inapplicable_answers _ _ I Htr), none_answers, unhandled_answers.
  change (rw_rid (forget w)) with (w_rid w). set (unh := exceptions_of (w_rid w) c as_).
  change (rw_reporter (forget w)) with (w_reporter w). change (rw_uncaught (forget w)) with (w_uncaught w).
  destruct (filter (applies_now (forget w)) (accepting_answers as_)) as [|first others] eqn:Efull.
  - rewrite (filter_empty_negb _ _ Efull).
    set (acc := accepting_answers as_). set (rej := rejecting_answers as_).
    assert (E : forall rep who,
      forget_stepped (match react (add_trace w unh) rep with
                      | Returns => Wrong UbUnreachable
                      | Throws => thrown ne (emit_report (add_trace w unh) rep who) EReporter
                      | Terminates => Stop
                      end) =
      match w_reporter w rep (w_uncaught w) with
      | Returns => RWrong UbUnreachable
      | Throws => leave ne (with_trace (with_trace (forget w) unh) [EvReport (w_rid w) rep who]) EReporter
      | Terminates => RStop
      end).
    { intros rep who. change (react (add_trace w unh) rep) with (w_reporter w rep (w_uncaught w)).
      destruct (w_reporter w rep (w_uncaught w)); auto. unfold thrown, leave. destruct ne; reflexivity. }
    destruct acc as [|a acc']; apply E.
  - assert (Hcand : forall k r, In (k, r) (first :: others) -> exists x, exp_at w k x /\
               ratings_of r = Ret (map (rating_in (w_seqs w)) (c_seqs (ctl_of x))) /\
               control_is_applicable (w_seqs w) (ctl_of x) = true /\ forallb pr_matching (mr_policies r) = true /\
               In (k, AttemptReport r) as_).
    { intros k r Hkr. rewrite <- Efull in Hkr. apply filter_In in Hkr. destruct Hkr as [Hacc Happ].
      unfold accepting_answers in Hacc. apply in_flat_map in Hacc. destruct Hacc as ([k' a] & Hp & Hk). cbn [fst snd] in Hk.
      destruct a as [m|rr y]; [|destruct Hk]. destruct (forallb pr_matching (mr_policies m)) eqn:Hm; [|destruct Hk].
      destruct Hk as [Hk|[]]. inversion Hk; subst k' m. rewrite Forall_forall in Htr. destruct (Htr _ Hp) as (x & Hx & Ht). cbn [fst snd] in *.
      exists x. split; auto. unfold applies_now in Happ. cbn [fst] in Happ. rewrite forget_nth in Happ. unfold exp_at in Hx. rewrite Hx in Happ.
      cbn [option_map] in Happ. destruct (applies_ratings _ _ _ I Hx Happ) as (mn & mx & n & E & Hap). unfold ratings_of. rewrite (Ht r eq_refl), E. auto. }
    rewrite (pick_favourite _ I).
    2:{ intros k r Hkr. destruct (Hcand _ _ Hkr) as (x & Hx & Hr & _). eauto. }
    pose proof (favourite_in (forget w) first others) as Hfav. destruct (favourite (forget w) first others) as [n m] eqn:Enm.
    destruct (Hcand _ _ Hfav) as (x & Hx & _ & Happ & Hmatch & Hans).
    set (rep := RFull (make_call_report c) m). change (react (add_trace w unh) rep) with (w_reporter w rep (w_uncaught w)).
    rewrite forget_nth. pose proof Hx as Hx'. unfold exp_at in Hx'. rewrite Hx'. cbn [option_map].
    change (w_exps (emit_report (add_trace w unh) rep [n])) with (w_exps w). rewrite Hx'.
    destruct (w_reporter w rep (w_uncaught w)); auto.
    change (w_seqs (emit_report (add_trace w unh) rep [n])) with (w_seqs w).
    pose proof (ctls_nth _ _ _ Hx) as Hc. fold (ctl_of x).
    destruct (control_consume_ok _ _ _ _ (wi_s _ I) Hc Happ) as (ss' & -> & Hlen & Hin1 & Hout).
    assert (Hpol : forall p, In p (e_policies (eo_exp x)) -> policy_matches p c = Ret true).
    { apply omap_ret_inv in Ha. assert (Hak : ask (forget w) c n = Ret (AttemptReport m)).
      { unfold as_ in Hans. clear -Ha Hans. induction Ha as [|k a ns ats' Hna Ha IH]; simpl in Hans; [destruct Hans|].
        destruct Hans as [E|Hans]; auto. inversion E; subst. auto. }
      unfold ask in Hak. rewrite forget_nth, Hx' in Hak. cbn [option_map forget_exp x_reqs] in Hak. fold (forget_exp x) in Hak.
      destruct (omap (policy_report_of c) (e_policies (eo_exp x))) as [rs|y| |u] eqn:Ers; try discriminate.
      - inversion Hak; subst m. cbn [mr_policies] in Hmatch. apply omap_ret_inv in Ers. apply (proj1 (reports_matching _ _ _ Ers)); auto.
      - destruct (omap policy_describe (e_policies (eo_exp x))); try discriminate. destruct (rw_reporter (forget w) _ _); discriminate. }
    rewrite (consume_asserts_ok _ _ Hpol). cbn [forget_stepped]. f_equal.
    unfold forget, with_frames, with_trace. cbn [set_frames set_exps set_seqs emit_report emit add_trace
      w_seqs w_iface w_exps w_colls w_mocks w_scoped w_frames w_rid w_reporter w_uncaught w_trace
      rw_trace rw_flavours rw_iface rw_exps rw_homes rw_mocks rw_scoped rw_frames rw_rid rw_reporter rw_uncaught].
    f_equal.
    + apply strategies_same; auto. intros s q Hq. destruct (in_dec Nat.eq_dec s (map fst (c_seqs (ctl_of x)))) as [Hs|Hs].
      * apply in_map_fst in Hs. destruct Hs as [id Hid]. rewrite (Hin1 _ _ _ Hid Hq). eexists. split; [reflexivity|]. reflexivity.
      * rewrite (Hout _ Hs). eauto.
    + rewrite map_upd. apply upd_same. rewrite nth_error_map, Hx'. reflexivity.
Qed.

(** ** Declaring *)

Lemma overload_forget w m ov : overload_of (forget w) m ov =
  match find_overload w m ov with inl st => inl (forget_stepped st) | inr p => inr p end.
Proof.
  unfold overload_of, find_overload. cbn [forget rw_mocks]. destruct (nth_error (w_mocks w) m) as [[sigs colls alive]|]; auto.
  cbn [mk_alive mk_sigs mk_colls]. destruct alive; cbn [negb]; auto. destruct (nth_error sigs ov), colls as [hs|]; auto.
  destruct (nth_error hs ov); reflexivity.
Qed.

Lemma distinct_spec l : distinct l = true <-> NoDup l.
Proof.
  induction l as [|s l IH]; simpl; [split; auto; constructor|]. rewrite andb_true_iff, negb_true_iff, mem_false, IH.
  split; [intros []; constructor; auto|intros H; inversion H; auto].
Qed.

Lemma times_default_valid : valid_limits TxOnce.
Proof. unfold valid_limits. simpl. lia. Qed.

Lemma meaningful_spec cls : well_formed cls -> (meaningful cls = true <-> valid_setup cls).
Proof.
  intros (Ht & _). unfold meaningful, valid_setup, declared_limits. rewrite !andb_true_iff, !Z.leb_le, distinct_spec.
  destruct (times_clauses cls) as [|t [|t' l]]; [| |simpl in Ht; lia].
  - cbn [fst snd]. split; [intros [_ H]; split; auto|intros [_ H]; split; auto; lia].
  - unfold valid_limits. split; [intros [[A B] H]; split; auto|intros [H N]; inversion H; subst; split; [lia|auto]].
Qed.

Lemma clause_ok_accepted w n cls :
  forallb (clause_accepted (forget w) n) cls = true <-> forallb (clause_ok w n) cls = true /\ ~ In FInit (final_clauses cls).
Proof.
  induction cls as [|cl cls IH]; [simpl; split; auto|]. cbn [forallb]. rewrite !andb_true_iff, IH. unfold final_clauses. cbn [flat_map].
  fold (final_clauses cls).
  assert (E : clause_accepted (forget w) n cl = true <->
              clause_ok w n cl = true /\ ~ In FInit (match cl with ClFinal f => [f] | _ => [] end)).
  { destruct cl as [t|tags|f|p]; unfold clause_accepted, clause_ok.
    - change (In FInit []) with False. tauto.
    - change (In FInit []) with False. change (rw_iface (forget w)) with (w_iface w).
      destruct tags as [|s tags]; [split; [discriminate|intros [H _]; discriminate]|]. rewrite andb_true_iff. tauto.
    - destruct f; split; auto; try discriminate; try (intros _; split; auto; intros [|[]]; discriminate).
      intros [_ H]. exfalso. apply H. left. reflexivity.
    - change (In FInit []) with False. destruct p; cbn [policy_ok]; tauto. }
  rewrite E, in_app_iff. tauto.
Qed.

Lemma finalizable_spec s cls : finalizable s cls = (sg_ret s =? 0) || (0 <? length (final_clauses cls)).
Proof.
  unfold finalizable. f_equal. induction cls as [|cl cls IH]; auto. cbn [existsb]. rewrite IH. unfold final_clauses. cbn [flat_map].
  destruct cl; auto.
Qed.

Lemma finalize_ok_spec s ms cls : finalize_ok s (finished s ms cls) = finalizable s cls.
Proof.
  rewrite finalizable_spec. unfold finalize_ok. f_equal. cbn [finished b_finalized]. destruct (final_clauses cls); reflexivity.
Qed.

Lemma compiles_spec w s ms cls : compiles (forget w) s ms cls = true <->
  (length ms =? length (sg_params s)) && forallb (clause_ok w (length (sg_params s))) cls = true /\ well_formed cls /\ finalizable s cls = true.
Proof.
  unfold compiles. rewrite finalizable_spec. rewrite !andb_true_iff, clause_ok_accepted, !Nat.leb_le. unfold well_formed. tauto.
Qed.

Lemma strategy_attached c q : s_strategy (attached_new c q) = s_strategy q.
Proof. reflexivity. Qed.

Lemma expect_forget w m ov ms cls l : reachable w -> forget_stepped (step w (OExpect m ov ms cls l)) = ref_step (forget w) (OExpect m ov ms cls l).
Proof.
  intros Hr. pose proof (winv_reachable _ Hr) as I. pose proof (oinv_reachable _ Hr) as O. destruct (wi_len _ I) as [Li Ld].
  cbn [step ref_step]. unfold do_expect. rewrite overload_forget. destruct (find_overload w m ov) as [st|[s coll]] eqn:Hf; auto.
  unfold declare. destruct (compiles (forget w) s ms cls) eqn:Hc.
  - apply compiles_spec in Hc. destruct Hc as (Hok & Hwf & Hfin). rewrite Hok. cbn [negb].
    apply Bool.andb_true_iff in Hok. destruct Hok as [_ Hok].
    destruct (build_spec s ms cls) as (B1 & B2 & _). destruct (meaningful cls) eqn:Hm.
    + apply (meaningful_spec _ Hwf) in Hm. pose proof (B1 Hwf Hm) as Hb. rewrite Hb. rewrite finalize_ok_spec, Hfin. cbn [negb].
      destruct (build_ok _ _ _ _ Hb (clauses_times _ _ _ Hok)) as (Hv & Hbs & _).
      assert (Hif : forall t, In t (clause_seqs cls) -> exists q, nth_error (w_seqs w) t = Some q).
      { intros t Ht. apply nth_error_ex. rewrite <- Li. apply nth_true_lt. eapply clauses_seqs; eauto. }
      pose proof (find_overload_coll _ _ _ _ _ O Hf) as Hcoll. destruct (nth_error_ex _ _ Hcoll) as [mem Hmem].
      rewrite Hbs. destruct (control_new_ok _ _ (b_times (finished s ms cls)) (clause_seqs cls) (wi_s _ I) (bv_times _ Hv) (bv_max _ Hv)
                  (proj2 Hm) Hif) as [(ss & c & E & Emin & Emax & _ & Eseq & Elen & Hin & Hout)|(E & t & q & Ht & Hq & Hover)]; rewrite E.
      * replace (existsb _ (clause_seqs cls)) with false.
        2:{ symmetry. apply not_true_is_false. intros H. apply existsb_exists in H. destruct H as (t & Ht & H). apply Z.ltb_lt in H.
            rewrite <- Eseq in Ht. apply in_map_fst in Ht. destruct Ht as [id Hid]. destruct (Hin _ _ Hid) as (q & Hq & -> & Hle & _).
            rewrite (elements_count _ _ _ I Hq) in H. lia. }
        rewrite Hmem. cbn [forget_stepped]. f_equal. unfold forget, with_scoped, with_exps.
        cbn [set_scoped set_colls set_exps set_seqs w_seqs w_iface w_exps w_colls w_mocks w_scoped w_frames w_rid w_reporter w_uncaught w_trace
             rw_trace rw_flavours rw_iface rw_exps rw_homes rw_mocks rw_scoped rw_frames rw_rid rw_reporter rw_uncaught].
        f_equal.
        { apply strategies_same; auto. intros t q Hq. destruct (in_dec Nat.eq_dec t (clause_seqs cls)) as [Ht|Ht].
          - rewrite <- Eseq in Ht. apply in_map_fst in Ht. destruct Ht as [id Hid]. destruct (Hin _ _ Hid) as (q' & Hq' & _ & _ & Hn).
            rewrite Hq in Hq'. inversion Hq'; subst q'. eauto.
          - rewrite (Hout _ Ht). eauto. }
        { rewrite map_app. f_equal. cbn [map]. f_equal. unfold forget_exp, x_seqs, x_min, x_max, ctl_of.
          cbn [eo_exp e_loc e_ctl e_policies e_final eo_coll eo_alive finished b_policies b_final].
          rewrite Emin, Emax, Eseq. reflexivity. }
        { rewrite length_upd. reflexivity. }
        { rewrite map_length. reflexivity. }
      * replace (existsb _ (clause_seqs cls)) with true; auto. symmetry. apply existsb_exists. exists t. split; auto. apply Z.ltb_lt.
        rewrite (elements_count _ _ _ I Hq). auto.
    + rewrite (B2 Hwf), Hfin; auto. intros H. apply (meaningful_spec _ Hwf) in H. congruence.
  - cbn [negb]. destruct (negb _) eqn:Hok; auto. apply Bool.negb_false_iff in Hok.
    assert (Hn : ~ (well_formed cls /\ finalizable s cls = true)).
    { intros [A B]. assert (compiles (forget w) s ms cls = true) by (apply compiles_spec; auto). congruence. }
    destruct (build s ms cls) as [b|x|] eqn:Hb; auto.
    + destruct (build_inv _ _ _ _ Hb) as (Hwf & _ & ->). rewrite finalize_ok_spec. destruct (finalizable s cls); auto. exfalso. auto.
    + destruct (build_throws _ _ _ _ Hb) as (Hwf & _). destruct (finalizable s cls); auto. exfalso. auto.
Qed.

(** ** All operations *)

Lemma winv_scoped w l : WInv w -> WInv (set_scoped w l).
Proof. intros [H1 H2 H3 H4 H5 H6 H7 H8 H9 H10 H11]. constructor; auto. Qed.

Lemma release_one w s : release_seqs w [s] = match release_seq w s with Next w' _ => Next w' RUnit | other => other end.
Proof. cbn [release_seqs]. destruct (release_seq w s); reflexivity. Qed.

Lemma release_unit w s w' r : release_seq w s = Next w' r -> r = RUnit.
Proof.
  unfold release_seq. destruct (_ || _); [congruence|]. destruct (nth_error (w_seqs w) s); [|discriminate].
  destruct (seq_dtor_error b) as [[k n]|]; [|congruence]. destruct (react _ _); congruence.
Qed.

Lemma drop_forget w s : WInv w -> nth s (w_iface w) false = true ->
  forget_stepped (release_seq (set_iface w (upd (w_iface w) s false)) s) =
  let_go (with_sequences (forget w) (rw_flavours (forget w)) (upd (rw_iface (forget w)) s false)) (w_uncaught w) [s] RUnit.
Proof.
  intros I Hi. destruct (wi_len _ I) as [Li Ld]. pose proof (nth_true_lt _ _ Hi) as Hs. rewrite Li in Hs.
  set (w1 := set_iface w (upd (w_iface w) s false)).
  replace (release_seq w1 s) with (release_seqs w1 [s]).
  2:{ rewrite release_one. destruct (release_seq w1 s) as [w' r| | |] eqn:E; auto. apply release_unit in E. subst. reflexivity. }
  rewrite release_forget.
  - reflexivity.
  - repeat constructor. intros [].
  - intros t [<-|[]]. split.
    + apply (knows_ext w w1); auto. apply winv_knows; auto.
    + change (w_sdead w1) with (w_sdead w). rewrite (wi_dead _ I) by auto. replace (seq_in_use w s) with true; auto. symmetry.
      apply in_use_spec. auto.
Qed.

Lemma satisfied_forget w e x : WInv w -> exp_at w e x -> exp_is_satisfied (eo_exp x) = fulfilled (forget w) e.
Proof.
  intros I Hx. rewrite (fulfilled_met _ _ _ I Hx). unfold exp_is_satisfied, control_is_satisfied, met, ctl_of.
  destruct (si_ok _ _ (wi_s _ I) _ _ (ctls_nth _ _ _ Hx)) as (_ & _ & _ & Hle). unfold ctl_of in Hle. apply Z.leb_le in Hle. rewrite Hle, andb_true_r.
  replace (forallb policy_is_satisfied (e_policies (eo_exp x))) with true; [apply andb_true_r|]. symmetry. apply forallb_forall. intros p _.
  destruct p; reflexivity.
Qed.

Lemma thrown_forget ne w x : forget_stepped (thrown ne w x) = leave ne (forget w) x.
Proof. unfold thrown, leave. destruct ne; reflexivity. Qed.

Lemma alive_forget w e : in_scope (forget w) e = exp_alive w e.
Proof. unfold in_scope, exp_alive. rewrite forget_nth. destruct (nth_error (w_exps w) e); reflexivity. Qed.

Theorem step_forget w o : reachable w -> forget_stepped (step w o) = ref_step (forget w) o.
Proof.
  intros Hr. pose proof (winv_reachable _ Hr) as I. pose proof (oinv_reachable _ Hr) as O.
  destruct o; try (apply expect_forget; assumption); cbn [step ref_step].
  - cbn [forget_stepped]. unfold forget, with_sequences.
    cbn [set_sdead set_iface set_seqs w_seqs w_iface w_exps w_colls w_mocks w_scoped w_frames w_rid w_reporter w_uncaught w_trace
         rw_trace rw_flavours rw_iface rw_exps rw_homes rw_mocks rw_scoped rw_frames rw_rid rw_reporter rw_uncaught].
    rewrite map_app. reflexivity.
  - change (rw_iface (forget w)) with (w_iface w). destruct (nth s (w_iface w) false) eqn:Hs; auto. apply drop_forget; auto.
  - destruct (_ && _); auto. cbn [forget_stepped]. f_equal. unfold forget, with_mocks.
    cbn [set_mocks set_colls w_seqs w_iface w_exps w_colls w_mocks w_scoped w_frames w_rid w_reporter w_uncaught w_trace
         rw_trace rw_flavours rw_iface rw_exps rw_homes rw_mocks rw_scoped rw_frames rw_rid rw_reporter rw_uncaught].
    rewrite app_length, map_length. reflexivity.
  - cbn [forget rw_mocks]. destruct (nth_error (w_mocks w) m) as [[sigs colls alive]|]; auto. destruct alive; reflexivity.
  - cbn [forget rw_mocks]. destruct (nth_error (w_mocks w) dst) as [[sigs colls alive]|]; auto.
    destruct (nth_error (w_mocks w) src) as [[sigs' colls' alive']|]; [|destruct alive; reflexivity].
    cbn [mk_alive mk_sigs mk_colls]. destruct alive, alive'; cbn [andb negb]; auto.
    destruct (list_eq_dec signature_eq_dec sigs sigs') as [<-|]; cbn [negb]; auto. destruct (dst =? src); reflexivity.
  - cbn [forget rw_mocks]. destruct (nth_error (w_mocks w) m) as [[sigs colls alive]|]; auto. destruct alive; reflexivity.
  - unfold do_call. rewrite overload_forget. destruct (find_overload w m ov) as [st|[s coll]] eqn:Hf; auto.
    destruct (length args =? length (sg_params s)); cbn [negb]; auto. apply call_forget; auto. eapply find_overload_coll; eauto.
  - unfold do_action. cbn [forget rw_frames]. fold (forget w). destruct (w_frames w) as [|[e todo started final ne] fs]; auto.
    cbn [f_todo f_exp f_final f_noexcept]. destruct todo; auto. rewrite alive_forget. destruct (exp_alive w e); reflexivity.
  - cbn [forget rw_frames]. destruct (w_frames w) as [|[e todo started final ne] fs]; auto. cbn [f_started f_final].
    destruct started, final; reflexivity.
  - unfold do_final. cbn [forget rw_frames]. fold (forget w). destruct (w_frames w) as [|[e todo started final ne] fs]; auto.
    cbn [f_todo f_exp f_final f_noexcept f_started]. destruct todo; auto. destruct final; auto. rewrite alive_forget. destruct (exp_alive w e); reflexivity.
  - unfold do_return. cbn [forget rw_frames]. fold (forget w). destruct (w_frames w) as [|[e todo started final ne] fs]; auto.
    cbn [f_final f_exp f_noexcept]. destruct final; cbn [negb]; [|destruct todo; reflexivity]. rewrite forget_nth. destruct (nth_error (w_exps w) e) as [x|]; auto.
    cbn [option_map forget_exp x_fin]. destruct (e_final (eo_exp x)); cbn [finalizer_result]; auto; try (rewrite thrown_forget; reflexivity).
    destruct user; auto. rewrite thrown_forget. reflexivity.
  - cbn [forget rw_scoped]. fold (forget w). destruct (nth_error (w_scoped w) h) as [[e| |]|] eqn:Hh; auto.
    destruct (oi_own _ O _ _ Hh) as (x & Hx & Ha). pose proof Hx as Hx'. unfold exp_at in Hx'. rewrite Hx', Ha.
    rewrite (satisfied_forget _ _ _ I Hx). reflexivity.
  - cbn [forget rw_scoped]. fold (forget w). destruct (nth_error (w_scoped w) h) as [[e| |]|] eqn:Hh; auto.
    destruct (oi_own _ O _ _ Hh) as (x & Hx & Ha). exact (end_forget _ _ _ (winv_scoped w (upd (w_scoped w) h HDead) I) Hx Ha).
  - cbn [forget rw_scoped]. fold (forget w). destruct (nth_error (w_scoped w) h) as [[e| |]|] eqn:Hh; auto.
  - cbn [forget rw_scoped]. fold (forget w). destruct (nth_error (w_scoped w) dst) as [[e| |]|] eqn:Hd; auto;
      destruct (nth_error (w_scoped w) src) as [[e'| |]|] eqn:Hs; auto; try (destruct (dst =? src); reflexivity);
      (destruct (dst =? src); [reflexivity|]); cbv zeta;
      destruct (oi_own _ O _ _ Hd) as (x & Hx & Ha);
      match goal with |- context [end_expectation (set_scoped w ?l) e] =>
        pose proof (end_forget _ _ _ (winv_scoped w l I) Hx Ha) as E; change (forget (set_scoped w l)) with (with_scoped (forget w) l) in E end;
      rewrite <- E; match goal with |- context [end_expectation ?w1 e] => destruct (end_expectation w1 e) as [w2 [| | |y]| | |] end; reflexivity.
  - reflexivity.
  - reflexivity.
Qed.
