(** * WorldInv: the invariant of all reachable programs. *)

From Verif Require Import Base Lib Sequence Control Signature Printer Reports Expectation Builder World WorldSpec
  SeqInv BuildSpec BuilderLemmas StepCases MatchLemmas.

Definition ctl_of (x : eobj) : control := e_ctl (eo_exp x).
Definition ctls (w : world) : list control := map ctl_of (w_exps w).

Definition lives (xs : list eobj) (c e : nat) : bool :=
  match nth_error xs e with
  | Some x => eo_alive x && (eo_coll x =? c)
  | None => false
  end.
Definition members (xs : list eobj) (c : nat) : list nat := filter (lives xs c) (seq 0 (length xs)).

Definition describable (x : expectation) : bool :=
  forallb (fun p => match policy_describe p with Ret _ => true | _ => false end) (e_policies x).

Definition unmet (x : eobj) : bool := (c_count (ctl_of x) <? c_min (ctl_of x))%Z.

(** Is the sequence [s] attached to all met expectations? *)
Definition all_met (cs : list control) (s : nat) : bool := forallb met (filter (attached_in s) cs).

Record WInv (w : world) : Prop := mkWInv {
  wi_s : SInv (w_seqs w) (ctls w);
  wi_count : forall e x, exp_at w e x -> c_count (ctl_of x) = Z.of_nat (accepted (w_trace w) e);
  wi_fresh : forall e, length (w_exps w) <= e -> accepted (w_trace w) e = 0 /\ unfulfilled_reports (w_trace w) e = 0;
  wi_len : length (w_iface w) = length (w_seqs w) /\ length (w_sdead w) = length (w_seqs w);
  wi_fresh_seq : forall s, length (w_seqs w) <= s -> seq_error_reports (w_trace w) s = 0;
  wi_coll : forall c l, nth_error (w_colls w) c = Some l -> l = members (w_exps w) c;
  wi_collr : forall e x, exp_at w e x -> eo_coll x < length (w_colls w);
  wi_dead : forall s, s < length (w_seqs w) -> nth s (w_sdead w) true = negb (seq_in_use w s);
  wi_pol : forall e x, exp_at w e x -> forallb (policy_ok (length (sg_params (eo_sig x)))) (e_policies (eo_exp x)) = true;
  wi_unf : forall e x, exp_at w e x ->
    unfulfilled_reports (w_trace w) e = if negb (eo_alive x) && unmet x && describable (eo_exp x) then 1 else 0;
  wi_err : forall s, s < length (w_seqs w) ->
    seq_error_reports (w_trace w) s = if nth s (w_sdead w) true && negb (all_met (ctls w) s) then 1 else 0
}.

(** ** Counting in traces *)

Lemma accepted_app tr evs e : accepted (tr ++ evs) e = accepted tr e + accepted evs e.
Proof. unfold accepted. rewrite filter_app, app_length. reflexivity. Qed.
Lemma unf_app tr evs e : unfulfilled_reports (tr ++ evs) e = unfulfilled_reports tr e + unfulfilled_reports evs e.
Proof. unfold unfulfilled_reports. rewrite filter_app, app_length. reflexivity. Qed.
Lemma err_app tr evs s : seq_error_reports (tr ++ evs) s = seq_error_reports tr s + seq_error_reports evs s.
Proof. unfold seq_error_reports. rewrite filter_app, app_length. reflexivity. Qed.

Lemma quiet_counts evs : forallb quiet evs = true -> forall k,
  accepted evs k = 0 /\ unfulfilled_reports evs k = 0 /\ seq_error_reports evs k = 0.
Proof.
  unfold accepted, unfulfilled_reports, seq_error_reports.
  induction evs as [|ev evs IH]; simpl; auto. intros H k. apply andb_true_iff in H. destruct H as [Hq H].
  destruct (IH H k) as (A & B & C).
  destruct ev as [to r who| | |]; simpl in *; auto. destruct r; simpl in *; try discriminate; auto.
Qed.

Lemma accepted_full rid c m n e : accepted [EvReport rid (RFull c m) [n]] e = if n =? e then 1 else 0.
Proof.
  unfold accepted. cbn [filter is_accept]. destruct (list_eq_dec Nat.eq_dec [n] [e]) as [E|E]; destruct (Nat.eqb_spec n e); auto; congruence.
Qed.
Lemma unf_unf rid r n e : unfulfilled_reports [EvReport rid (RUnfulfilled r) [n]] e = if n =? e then 1 else 0.
Proof.
  unfold unfulfilled_reports. cbn [filter is_unfulfilled]. destruct (list_eq_dec Nat.eq_dec [n] [e]) as [E|E]; destruct (Nat.eqb_spec n e); auto; congruence.
Qed.
Lemma err_err rid k n s s' : seq_error_reports [EvReport rid (RError k n) [s]] s' = if s =? s' then 1 else 0.
Proof.
  unfold seq_error_reports. cbn [filter is_seq_error]. destruct (list_eq_dec Nat.eq_dec [s] [s']) as [E|E]; destruct (Nat.eqb_spec s s'); auto; congruence.
Qed.

Lemma dtor_events_counts rid s q : forall k,
  accepted (dtor_events rid s q) k = 0 /\ unfulfilled_reports (dtor_events rid s q) k = 0 /\
  seq_error_reports (dtor_events rid s q) k = if (s =? k) && match seq_dtor_error q with Some _ => true | None => false end then 1 else 0.
Proof.
  intros k. unfold dtor_events. destruct (seq_dtor_error q) as [[a b]|]; simpl.
  - rewrite err_err. rewrite andb_true_r. auto.
  - rewrite andb_false_r. auto.
Qed.

(** ** Releasing sequences *)

Lemma nth_upd_true d s k : nth k (upd d s true) true = if s =? k then true else nth k d true.
Proof.
  revert s k. induction d as [|b d IH]; intros [|s] [|k]; simpl; auto.
  destruct (s =? k); auto.
Qed.

Lemma released_spec w l d evs d' : released w l d evs d' ->
  length d' = length d /\
  (forall s, nth s d' true = nth s d true || (existsb (Nat.eqb s) l && negb (seq_in_use w s))) /\
  (forall e, accepted evs e = 0 /\ unfulfilled_reports evs e = 0) /\
  (forall s, seq_error_reports evs s =
     if negb (nth s d true) && nth s d' true &&
        match nth_error (w_seqs w) s with
        | Some q => match seq_dtor_error q with Some _ => true | None => false end
        | None => false
        end then 1 else 0).
Proof.
  intros H. induction H as [d|s l d evs d' Hk H (IH1 & IH2 & IH3 & IH4)|s q l d evs d' Hu Hd Hq H (IH1 & IH2 & IH3 & IH4)].
  - split; auto. split; [intros s; simpl; rewrite orb_false_r; auto|]. split; [auto|].
    intros s. rewrite (andb_comm (negb _)), andb_negb_r. reflexivity.
  - split; auto. split; [|split; auto]. intros k. rewrite IH2. simpl. destruct (Nat.eqb_spec k s) as [->|Hne]; auto.
    simpl. destruct Hk as [Hk|Hk]; rewrite Hk; simpl; auto. rewrite andb_false_r. auto.
  - rewrite length_upd in IH1. split; auto. split; [|split].
    + intros k. rewrite IH2, nth_upd_true. simpl. rewrite (Nat.eqb_sym k s). destruct (Nat.eqb_spec s k) as [->|Hne]; simpl; auto.
      rewrite Hu. simpl. rewrite orb_true_r. auto.
    + intros e. rewrite accepted_app, unf_app. destruct (IH3 e) as [-> ->].
      destruct (dtor_events_counts (w_rid w) s q e) as (-> & -> & _). auto.
    + intros k. rewrite err_app, IH4. destruct (dtor_events_counts (w_rid w) s q k) as (_ & _ & ->).
      rewrite IH2, nth_upd_true. destruct (Nat.eqb_spec s k) as [->|Hne]; simpl; auto.
      rewrite Hd, Hq. simpl. destruct (seq_dtor_error q); auto.
Qed.

(** ** Sequences in use *)

Lemma in_use_spec w s : seq_in_use w s = true <->
  nth s (w_iface w) false = true \/ exists e x, exp_at w e x /\ eo_alive x = true /\ In s (x_seqs x).
Proof.
  unfold seq_in_use. rewrite orb_true_iff, existsb_exists. split; intros [H|H]; auto; right.
  - destruct H as (x & Hin & Hx). apply andb_true_iff in Hx. destruct Hx as [Ha Hs].
    apply In_nth_error in Hin. destruct Hin as [e He]. exists e, x. split; auto. split; auto.
    unfold attached_to in Hs. apply existsb_exists in Hs. destruct Hs as ([s' id] & Hin & Heq). apply Nat.eqb_eq in Heq. subst.
    unfold x_seqs. apply in_map_fst; eauto.
  - destruct H as (e & x & He & Ha & Hs). exists x. split; [eapply nth_error_In; exact He|].
    rewrite Ha. simpl. unfold x_seqs in Hs. apply in_map_fst in Hs. destruct Hs as [id Hid].
    unfold attached_to. apply existsb_exists. exists (s, id). split; auto. apply Nat.eqb_refl.
Qed.

Lemma negb_iff a b : (a = true <-> b = true) -> a = b.
Proof. destruct a, b; intros [H1 H2]; auto; symmetry; auto. Qed.

(** ** Collections *)

Lemma lives_spec xs c e : lives xs c e = true <-> exists x, nth_error xs e = Some x /\ eo_alive x = true /\ eo_coll x = c.
Proof.
  unfold lives. destruct (nth_error xs e) as [x|].
  - rewrite andb_true_iff, Nat.eqb_eq. split; [intros []; eauto|intros (y & E & ? & ?); inversion E; subst; auto].
  - split; [discriminate|intros (y & E & _); discriminate].
Qed.

Lemma members_in xs c e : In e (members xs c) <-> exists x, nth_error xs e = Some x /\ eo_alive x = true /\ eo_coll x = c.
Proof.
  unfold members. rewrite filter_In, lives_spec, in_seq. split; [tauto|]. intros H. split; auto.
  destruct H as (x & H & _). apply nth_error_lt in H. lia.
Qed.

Lemma members_nodup xs c : NoDup (members xs c).
Proof. apply NoDup_filter, seq_NoDup. Qed.

Lemma members_snoc xs x c : members (xs ++ [x]) c = members xs c ++ (if eo_alive x && (eo_coll x =? c) then [length xs] else []).
Proof.
  unfold members. rewrite app_length. simpl. rewrite seq_app, filter_app. simpl. f_equal.
  - apply filter_ext_in. intros e He. apply in_seq in He. unfold lives. rewrite nth_error_app1 by lia. reflexivity.
  - unfold lives. rewrite nth_error_app_last. reflexivity.
Qed.

Lemma members_upd_same xs c n x y : nth_error xs n = Some x -> eo_alive y = eo_alive x -> eo_coll y = eo_coll x ->
  members (upd xs n y) c = members xs c.
Proof.
  intros Hn Ha Hc. unfold members. rewrite length_upd. apply filter_ext. intros e. unfold lives.
  destruct (Nat.eq_dec n e) as [->|Hne].
  - rewrite nth_error_upd_eq by (eapply nth_error_lt; eauto). rewrite Hn, Ha, Hc. reflexivity.
  - rewrite nth_error_upd_neq by auto. reflexivity.
Qed.

Lemma erase_first_filter e l : NoDup l -> erase_first e l = filter (fun y => negb (e =? y)) l.
Proof.
  induction l as [|y l IH]; simpl; intros H; auto. inversion H; subst. destruct (Nat.eqb_spec e y) as [->|Hne]; simpl.
  - symmetry. clear IH H H3. induction l as [|z l IH]; simpl; auto. simpl in H2.
    destruct (Nat.eqb_spec y z) as [->|]; simpl; [tauto|]. f_equal. apply IH; tauto.
  - f_equal. auto.
Qed.

Lemma filter_filter_and {A} (f g : A -> bool) l : filter f (filter g l) = filter (fun x => g x && f x) l.
Proof. induction l as [|a l IH]; simpl; auto. destruct (g a); simpl; rewrite ?IH; auto. Qed.

Lemma members_kill xs c e x : nth_error xs e = Some x ->
  members (upd xs e (mkEObj (eo_exp x) (eo_coll x) false (eo_ov x) (eo_sig x))) c
  = if eo_coll x =? c then erase_first e (members xs c) else members xs c.
Proof.
  intros He. assert (H : members (upd xs e (mkEObj (eo_exp x) (eo_coll x) false (eo_ov x) (eo_sig x))) c
                       = filter (fun y => negb (e =? y)) (members xs c)).
  { unfold members. rewrite length_upd, filter_filter_and. apply filter_ext. intros y. unfold lives.
    destruct (Nat.eqb_spec e y) as [->|Hne]; simpl.
    - rewrite nth_error_upd_eq by (eapply nth_error_lt; eauto). simpl. rewrite andb_false_r. reflexivity.
    - rewrite nth_error_upd_neq by auto. rewrite andb_true_r. reflexivity. }
  rewrite H. destruct (Nat.eqb_spec (eo_coll x) c) as [<-|Hne].
  - symmetry. apply erase_first_filter, members_nodup.
  - transitivity (filter (fun _ => true) (members xs c)); [|clear; induction (members xs c); simpl; f_equal; auto].
    apply filter_ext_in. intros y Hy. apply members_in in Hy. destruct Hy as (z & Hz & _ & Hc).
    destruct (Nat.eqb_spec e y) as [->|]; auto. congruence.
Qed.

(** ** Members of sequences *)

Lemma filter_upd_out {A} (f : A -> bool) l n x y : nth_error l n = Some x -> f x = false -> f y = false ->
  filter f (upd l n y) = filter f l.
Proof.
  revert n. induction l as [|a l IH]; intros [|n] Hn Hx Hy; simpl in *; try discriminate.
  - inversion Hn; subst. rewrite Hx, Hy. reflexivity.
  - rewrite (IH _ Hn); auto.
Qed.

Lemma ctls_upd w n y : map ctl_of (upd (w_exps w) n y) = upd (ctls w) n (ctl_of y).
Proof. apply map_upd. Qed.

Lemma ctls_nth w e x : exp_at w e x -> nth_error (ctls w) e = Some (ctl_of x).
Proof. intros H. apply map_nth_error; auto. Qed.

Lemma ctls_nth_inv w e c : nth_error (ctls w) e = Some c -> exists x, exp_at w e x /\ c = ctl_of x.
Proof. intros H. apply nth_error_map_some in H. exact H. Qed.

(** The applicability computed from cursors is the one read off the history. *)
Lemma applicable_iff w e x : WInv w -> exp_at w e x ->
  (control_is_applicable (w_seqs w) (ctl_of x) = true <-> applicable w e x).
Proof.
  intros I He. rewrite (applicable_by_counts _ _ _ _ (wi_s _ I) (ctls_nth _ _ _ He)).
  unfold applicable, x_max. fold (ctl_of x). rewrite (wi_count _ I _ _ He). split; intros [Hc H]; split; auto.
  - intros s Hs e' x' He' Hs'. destruct (H s Hs e' (ctl_of x') (ctls_nth _ _ _ He') Hs') as [H1 H2].
    rewrite (wi_count _ I _ _ He') in *. split; auto. intros Hl. specialize (H2 Hl). lia.
  - intros s Hs e' c' He' Hs'. apply ctls_nth_inv in He'. destruct He' as (x' & He' & ->).
    destruct (H s Hs e' x' He' Hs') as [H1 H2]. unfold x_min in H1. fold (ctl_of x') in H1.
    rewrite (wi_count _ I _ _ He') in *. split; auto. intros Hl. specialize (H2 Hl). lia.
Qed.

Lemma consume_applicable ss c r : control_consume ss c = Ret r -> control_is_applicable ss c = true.
Proof. unfold control_consume, assert_. destruct (control_is_applicable ss c); auto. discriminate. Qed.

(** ** Preservation *)

Lemma winv_init : WInv init.
Proof.
  constructor; simpl; auto; intros.
  - apply sinv_init.
  - unfold exp_at in H. simpl in H. destruct e; discriminate.
  - destruct c; discriminate.
  - unfold exp_at in H. simpl in H. destruct e; discriminate.
  - lia.
  - unfold exp_at in H. simpl in H. destruct e; discriminate.
  - unfold exp_at in H. simpl in H. destruct e; discriminate.
  - lia.
Qed.

Lemma winv_admin w w' evs : WInv w ->
  w_seqs w' = w_seqs w -> w_iface w' = w_iface w -> w_sdead w' = w_sdead w -> w_exps w' = w_exps w ->
  (w_colls w' = w_colls w \/ exists k, w_colls w' = w_colls w ++ repeat [] k) ->
  w_trace w' = w_trace w ++ evs -> forallb quiet evs = true -> WInv w'.
Proof.
  intros I Hs Hi Hd He Hc Ht Hq. pose proof (quiet_counts _ Hq) as Q.
  assert (Hu : forall s, seq_in_use w' s = seq_in_use w s).
  { intros s. unfold seq_in_use. rewrite Hi, He. reflexivity. }
  assert (Hct : ctls w' = ctls w) by (unfold ctls; rewrite He; auto).
  assert (Hacc : forall e, accepted (w_trace w') e = accepted (w_trace w) e).
  { intros e. rewrite Ht, accepted_app. destruct (Q e) as (-> & _). lia. }
  assert (Hunf : forall e, unfulfilled_reports (w_trace w') e = unfulfilled_reports (w_trace w) e).
  { intros e. rewrite Ht, unf_app. destruct (Q e) as (_ & -> & _). lia. }
  assert (Herr : forall e, seq_error_reports (w_trace w') e = seq_error_reports (w_trace w) e).
  { intros e. rewrite Ht, err_app. destruct (Q e) as (_ & _ & ->). lia. }
  constructor; unfold exp_at; rewrite ?Hs, ?Hi, ?Hd, ?He, ?Hct.
  - apply (wi_s _ I).
  - intros e x Hx. rewrite Hacc. eapply (wi_count _ I); eauto.
  - intros e Hx. rewrite Hacc, Hunf. eapply (wi_fresh _ I); eauto.
  - apply (wi_len _ I).
  - intros s Hl. rewrite Herr. eapply (wi_fresh_seq _ I); eauto.
  - intros c l Hl. destruct Hc as [Hc|[k Hc]]; rewrite Hc in Hl; [eapply (wi_coll _ I); eauto|].
    destruct (Nat.lt_ge_cases c (length (w_colls w))) as [Hlt|Hge].
    + rewrite nth_error_app1 in Hl by auto. eapply (wi_coll _ I); eauto.
    + rewrite nth_error_app2 in Hl by auto. apply nth_error_In, repeat_spec in Hl. subst l.
      symmetry. unfold members. destruct (filter _ _) as [|e l] eqn:E; auto.
      assert (Hin : In e (members (w_exps w) c)) by (unfold members; rewrite E; left; auto).
      apply members_in in Hin. destruct Hin as (x & Hx & _ & Hcx). pose proof (wi_collr _ I _ _ Hx). lia.
  - intros e x Hx. pose proof (wi_collr _ I _ _ Hx). destruct Hc as [Hc|[k Hc]]; rewrite Hc, ?app_length; lia.
  - intros s Hl. rewrite Hu. apply (wi_dead _ I); auto.
  - intros e x Hx. eapply (wi_pol _ I); eauto.
  - intros e x Hx. rewrite Hunf. eapply (wi_unf _ I); eauto.
  - intros s Hl. rewrite Herr. eapply (wi_err _ I); eauto.
Qed.

Lemma nth_snoc_bool (l : list bool) (b : bool) s d : nth s (l ++ [b]) d = if s =? length l then b else nth s l d.
Proof.
  destruct (Nat.eqb_spec s (length l)) as [->|Hne].
  - rewrite app_nth2, Nat.sub_diag by lia. reflexivity.
  - destruct (Nat.lt_ge_cases s (length l)).
    + apply app_nth1; auto.
    + rewrite app_nth2 by lia. rewrite (nth_overflow l) by lia. destruct (s - length l) as [|[|k]] eqn:E; auto. lia.
Qed.

Lemma winv_newseq w st : WInv w ->
  WInv (set_sdead (set_iface (set_seqs w (w_seqs w ++ [seq_new st])) (w_iface w ++ [true])) (w_sdead w ++ [false])).
Proof.
  intros I. destruct (wi_len _ I) as [Li Ld].
  assert (Hu : forall s, s < length (w_seqs w) ->
    seq_in_use (set_sdead (set_iface (set_seqs w (w_seqs w ++ [seq_new st])) (w_iface w ++ [true])) (w_sdead w ++ [false])) s = seq_in_use w s).
  { intros s Hs. unfold seq_in_use. simpl. rewrite nth_snoc_bool. destruct (Nat.eqb_spec s (length (w_iface w))); [lia|]. reflexivity. }
  constructor; simpl.
  - apply sinv_new_seq, (wi_s _ I).
  - apply (wi_count _ I).
  - apply (wi_fresh _ I).
  - rewrite !app_length. simpl. lia.
  - intros s Hs. rewrite app_length in Hs. simpl in Hs. apply (wi_fresh_seq _ I). lia.
  - apply (wi_coll _ I).
  - apply (wi_collr _ I).
  - intros s Hs. rewrite app_length in Hs. simpl in Hs. rewrite nth_snoc_bool.
    destruct (Nat.eqb_spec s (length (w_sdead w))) as [->|Hne].
    + unfold seq_in_use. simpl. rewrite nth_snoc_bool, Ld, <- Li, Nat.eqb_refl. reflexivity.
    + rewrite Hu by lia. apply (wi_dead _ I). lia.
  - apply (wi_pol _ I).
  - apply (wi_unf _ I).
  - intros s Hs. rewrite app_length in Hs. simpl in Hs. rewrite nth_snoc_bool.
    destruct (Nat.eqb_spec s (length (w_sdead w))) as [->|Hne].
    + simpl. apply (wi_fresh_seq _ I). lia.
    + apply (wi_err _ I). lia.
Qed.

(** What the destructor of a sequence reports, in terms of the attached expectations. *)
Lemma dtor_all_met w s q : WInv w -> nth_error (w_seqs w) s = Some q ->
  match seq_dtor_error q with Some _ => true | None => false end = negb (all_met (ctls w) s).
Proof.
  intros I Hq. rewrite (dtor_spec _ _ _ _ (wi_s _ I) Hq). cbv zeta. unfold all_met.
  destruct (forallb met _); reflexivity.
Qed.

Lemma nth_iface_upd l s k : s < length l -> nth k (upd l s false) false = if s =? k then false else nth k l false.
Proof.
  revert s k. induction l as [|b l IH]; intros [|s] [|k] H; simpl in *; try lia; auto.
  rewrite IH by lia. reflexivity.
Qed.

Lemma nth_true_lt l s : nth s l false = true -> s < length l.
Proof. intros H. destruct (Nat.lt_ge_cases s (length l)); auto. rewrite nth_overflow in H by auto. discriminate. Qed.

Lemma winv_dropseq w s evs d' : WInv w -> nth s (w_iface w) false = true ->
  released (set_iface w (upd (w_iface w) s false)) [s] (w_sdead w) evs d' ->
  WInv (set_sdead_trace (set_iface w (upd (w_iface w) s false)) d' evs).
Proof.
  intros I Hi Hr. destruct (wi_len _ I) as [Li Ld]. pose proof (nth_true_lt _ _ Hi) as Hs. rewrite Li in Hs.
  destruct (released_spec _ _ _ _ _ Hr) as (R1 & R2 & R3 & R4). simpl in R4.
  assert (Hin : seq_in_use w s = true) by (apply in_use_spec; auto).
  assert (Hds : nth s (w_sdead w) true = false) by (rewrite (wi_dead _ I) by auto; rewrite Hin; auto).
  constructor; simpl.
  - apply (wi_s _ I).
  - intros e x Hx. rewrite accepted_app. destruct (R3 e) as [-> _]. rewrite Nat.add_0_r. eapply (wi_count _ I); eauto.
  - intros e Hx. rewrite accepted_app, unf_app. destruct (R3 e) as [-> ->]. rewrite !Nat.add_0_r. apply (wi_fresh _ I); auto.
  - rewrite length_upd. lia.
  - intros k Hk. rewrite err_app, R4. rewrite (wi_fresh_seq _ I) by auto.
    rewrite (proj2 (nth_error_None (w_seqs w) k) Hk), andb_false_r. reflexivity.
  - apply (wi_coll _ I).
  - apply (wi_collr _ I).
  - intros k Hk. rewrite R2. simpl. rewrite orb_false_r.
    replace (seq_in_use (set_sdead_trace _ d' evs) k) with (seq_in_use (set_iface w (upd (w_iface w) s false)) k) by reflexivity.
    rewrite (wi_dead _ I) by auto. destruct (Nat.eqb_spec k s) as [->|Hne]; simpl.
    + rewrite Hin. reflexivity.
    + rewrite orb_false_r. unfold seq_in_use. simpl. rewrite nth_iface_upd by lia.
      destruct (Nat.eqb_spec s k); [congruence|]. reflexivity.
  - apply (wi_pol _ I).
  - intros e x Hx. rewrite unf_app. destruct (R3 e) as [_ ->]. rewrite Nat.add_0_r. eapply (wi_unf _ I); eauto.
  - intros k Hk. rewrite err_app, R4, (wi_err _ I) by auto.
    destruct (nth_error_ex (w_seqs w) k Hk) as [q Hq]. rewrite Hq, (dtor_all_met _ _ _ I Hq).
    change (ctls (set_sdead_trace _ d' evs)) with (ctls w).
    assert (Hmono : nth k (w_sdead w) true = true -> nth k d' true = true) by (intros E; rewrite R2, E; auto).
    destruct (nth k (w_sdead w) true); simpl.
    + rewrite Hmono by auto. simpl. lia.
    + reflexivity.
Qed.

Lemma clauses_times w n cls : forallb (clause_ok w n) cls = true -> forall t, In (ClTimes t) cls -> times_expr_int t = true.
Proof. intros H t Ht. rewrite forallb_forall in H. apply (H _ Ht). Qed.

Lemma clauses_seqs w n cls : forallb (clause_ok w n) cls = true -> forall s, In s (clause_seqs cls) -> nth s (w_iface w) false = true.
Proof.
  intros H s Hs. rewrite forallb_forall in H. unfold clause_seqs in Hs. apply in_flat_map in Hs.
  destruct Hs as (cl & Hcl & Hs). specialize (H _ Hcl). destruct cl; simpl in *; try tauto.
  apply andb_true_iff in H. destruct H as [H _]. rewrite forallb_forall in H. auto.
Qed.

Lemma clauses_policies w n cls : forallb (clause_ok w n) cls = true -> forallb (policy_ok n) (clause_policies cls) = true.
Proof.
  intros H. rewrite forallb_forall in *. intros p Hp. unfold clause_policies in Hp. apply in_flat_map in Hp.
  destruct Hp as (cl & Hcl & Hp). specialize (H _ Hcl). destruct cl; simpl in *; try tauto. destruct Hp as [<-|[]]. auto.
Qed.

Lemma winv_new w ms cls l s coll b ss ctl mem ov : WInv w ->
  length ms = length (sg_params s) -> forallb (clause_ok w (length (sg_params s))) cls = true ->
  build s ms cls = BOk b ->
  control_new (w_seqs w) (b_times b) (b_seqs b) = Ret (ss, ctl) ->
  nth_error (w_colls w) coll = Some mem ->
  WInv (new_world w coll mem ss (mkEObj (mkExp l ctl (b_policies b) (b_final b)) coll true ov s)).
Proof.
  intros I Hlen Hok Hb Hc Hm. destruct (wi_len _ I) as [Li Ld].
  destruct (build_ok _ _ _ _ Hb (clauses_times _ _ _ Hok)) as (Hv & Hbs & Hbp).
  assert (Hif : forall t, In t (b_seqs b) -> nth t (w_iface w) false = true).
  { intros t Ht. rewrite Hbs in Ht. eapply clauses_seqs; eauto. }
  destruct (control_new_ok _ _ (b_times b) (b_seqs b) (wi_s _ I) (bv_times _ Hv) (bv_max _ Hv) (bv_seqs _ Hv)) as
    [(ss' & c' & Hc' & Hmin & Hmax & Hcnt & Hseqs & Hls & Hat & Hout)|[Hc' _]]; [| |congruence].
  { intros t Ht. apply nth_error_ex. rewrite <- Li. apply nth_true_lt; auto. }
  rewrite Hc in Hc'. inversion Hc'; subst ss' c'. clear Hc'.
  set (x := mkEObj (mkExp l ctl (b_policies b) (b_final b)) coll true ov s).
  assert (Hcts : ctls (new_world w coll mem ss x) = ctls w ++ [ctl]).
  { unfold ctls, new_world. simpl. rewrite map_app. reflexivity. }
  assert (Huse : forall k, k < length (w_seqs w) -> seq_in_use (new_world w coll mem ss x) k = seq_in_use w k).
  { intros k Hk. apply negb_iff. rewrite !in_use_spec. simpl. split; intros [H|(e & y & He & Ha & Hs)]; auto.
    - apply nth_error_snoc in He. destruct He as [[He _]|[-> ->]]; [right; exists e, y; auto|].
      left. apply Hif. unfold x_seqs in Hs. simpl in Hs. rewrite Hseqs in Hs. auto.
    - right. exists e, y. split; auto. apply nth_error_snoc_old; auto. }
  destruct (wi_fresh _ I (length (w_exps w)) (le_n _)) as [Hfa Hfu].
  constructor.
  - rewrite Hcts. simpl. apply (sinv_new (w_seqs w)); auto.
    + apply (wi_s _ I).
    + unfold ctl_ok. rewrite Hmin, Hmax, Hcnt. pose proof (bv_times _ Hv). pose proof (bv_max _ Hv). lia.
    + rewrite Hseqs. apply (bv_seqs _ Hv).
    + rewrite Hseqs. auto.
  - intros e y Hy. simpl. apply nth_error_snoc in Hy. destruct Hy as [[Hy _]|[-> ->]].
    + eapply (wi_count _ I); eauto.
    + rewrite Hfa. unfold ctl_of. simpl. auto.
  - intros e He. simpl in *. rewrite app_length in He. simpl in He. apply (wi_fresh _ I). lia.
  - simpl. rewrite Hls. auto.
  - intros k Hk. simpl in *. rewrite Hls in Hk. apply (wi_fresh_seq _ I); auto.
  - intros c lst Hl. simpl in *. rewrite members_snoc. simpl. apply nth_error_upd in Hl. destruct Hl as [(<- & _ & ->)|(Hne & Hl)].
    + rewrite Nat.eqb_refl, (wi_coll _ I _ _ Hm). reflexivity.
    + destruct (Nat.eqb_spec coll c); [congruence|]. rewrite app_nil_r. apply (wi_coll _ I); auto.
  - intros e y Hy. simpl. rewrite length_upd. apply nth_error_snoc in Hy. destruct Hy as [[Hy _]|[-> ->]].
    + eapply (wi_collr _ I); eauto.
    + simpl. eapply nth_error_lt; eauto.
  - intros k Hk. change (w_sdead (new_world w coll mem ss x)) with (w_sdead w). simpl in Hk. rewrite Hls in Hk.
    rewrite Huse by auto. apply (wi_dead _ I); auto.
  - intros e y Hy. apply nth_error_snoc in Hy. destruct Hy as [[Hy _]|[-> ->]].
    + eapply (wi_pol _ I); eauto.
    + simpl. rewrite Hbp, forallb_app, arg_reqs_ok by (simpl; lia). simpl. eapply clauses_policies; eauto.
  - intros e y Hy. simpl. apply nth_error_snoc in Hy. destruct Hy as [[Hy _]|[-> ->]].
    + eapply (wi_unf _ I); eauto.
    + simpl. auto.
  - intros k Hk. change (w_sdead (new_world w coll mem ss x)) with (w_sdead w).
    change (w_trace (new_world w coll mem ss x)) with (w_trace w). simpl in Hk. rewrite Hls in Hk.
    rewrite (wi_err _ I) by auto. destruct (nth k (w_sdead w) true) eqn:Hd; auto. simpl.
    replace (all_met (ctls (new_world w coll mem ss x)) k) with (all_met (ctls w) k); auto.
    unfold all_met. rewrite Hcts, filter_app. simpl. destruct (attached_in k ctl) eqn:Ha; [|rewrite app_nil_r; auto].
    exfalso. apply attached_in_spec in Ha. rewrite Hseqs in Ha. apply Hif in Ha.
    rewrite (wi_dead _ I) in Hd by auto. apply negb_true_iff in Hd.
    assert (seq_in_use w k = true) by (apply in_use_spec; auto). congruence.
Qed.

Lemma winv_accept w n x ss ctl ne evs rid cr mr : WInv w ->
  exp_at w n x -> eo_alive x = true ->
  control_consume (w_seqs w) (ctl_of x) = Ret (ss, ctl) ->
  forallb quiet evs = true ->
  WInv (accept_world w n x ss ctl ne (evs ++ [EvReport rid (RFull cr mr) [n]])).
Proof.
  intros I Hx Ha Hc Hq. destruct (wi_len _ I) as [Li Ld].
  pose proof (consume_applicable _ _ _ Hc) as Happ.
  destruct (control_consume_ok _ _ _ _ (wi_s _ I) (ctls_nth _ _ _ Hx) Happ) as (ss' & Hc' & Hls & Hat & Hout).
  rewrite Hc in Hc'. inversion Hc'; subst ss' ctl. clear Hc'.
  set (x' := mkEObj (with_ctl (eo_exp x) (bump (ctl_of x))) (eo_coll x) (eo_alive x) (eo_ov x) (eo_sig x)).
  set (w' := accept_world w n x ss (bump (ctl_of x)) ne (evs ++ [EvReport rid (RFull cr mr) [n]])).
  assert (Hexps : w_exps w' = upd (w_exps w) n x') by reflexivity.
  assert (Hcts : ctls w' = upd (ctls w) n (bump (ctl_of x))).
  { unfold ctls. rewrite Hexps. rewrite map_upd. reflexivity. }
  assert (Hacc : forall e, accepted (w_trace w') e = accepted (w_trace w) e + if n =? e then 1 else 0).
  { intros e. unfold w'. simpl. rewrite !accepted_app, accepted_full. destruct (quiet_counts _ Hq e) as (-> & _). lia. }
  assert (Hunf : forall e, unfulfilled_reports (w_trace w') e = unfulfilled_reports (w_trace w) e).
  { intros e. unfold w'. simpl. rewrite !unf_app. destruct (quiet_counts _ Hq e) as (_ & -> & _).
    unfold unfulfilled_reports at 2. simpl. lia. }
  assert (Herr : forall e, seq_error_reports (w_trace w') e = seq_error_reports (w_trace w) e).
  { intros e. unfold w'. simpl. rewrite !err_app. destruct (quiet_counts _ Hq e) as (_ & _ & ->).
    unfold seq_error_reports at 2. simpl. lia. }
  assert (Hex : forall e y, exp_at w' e y -> (e = n /\ y = x') \/ (e <> n /\ exp_at w e y)).
  { intros e y Hy. unfold exp_at in Hy. rewrite Hexps in Hy. apply nth_error_upd in Hy.
    destruct Hy as [(-> & _ & ->)|(Hne & Hy)]; auto. }
  assert (Huse : forall k, seq_in_use w' k = seq_in_use w k).
  { intros k. apply negb_iff. rewrite !in_use_spec. change (w_iface w') with (w_iface w).
    split; intros [H|(e & y & He & Hay & Hs)]; auto; right.
    - destruct (Hex _ _ He) as [[-> ->]|[_ Hy]]; [exists n, x; auto|exists e, y; auto].
    - destruct (Nat.eq_dec e n) as [->|Hne].
      + unfold exp_at in He, Hx. rewrite Hx in He. inversion He; subst y.
        exists n, x'. split; auto. unfold exp_at. rewrite Hexps. apply nth_error_upd_eq. eapply nth_error_lt; eauto.
      + exists e, y. split; auto. unfold exp_at. rewrite Hexps, nth_error_upd_neq; auto. }
  constructor.
  - rewrite Hcts. change (w_seqs w') with ss.
    apply (sinv_accept _ _ _ _ _ (wi_s _ I) (ctls_nth _ _ _ Hx)); auto.
  - intros e y Hy. rewrite Hacc. destruct (Hex _ _ Hy) as [[-> ->]|[Hne Hy']].
    + rewrite Nat.eqb_refl. unfold ctl_of. simpl. fold (ctl_of x). rewrite (wi_count _ I _ _ Hx). lia.
    + destruct (Nat.eqb_spec n e); [congruence|]. rewrite Nat.add_0_r. apply (wi_count _ I); auto.
  - intros e He. rewrite Hexps, length_upd in He. rewrite Hacc, Hunf. destruct (Nat.eqb_spec n e) as [->|].
    + apply nth_error_lt in Hx. lia.
    + rewrite Nat.add_0_r. apply (wi_fresh _ I); auto.
  - change (w_iface w') with (w_iface w). change (w_sdead w') with (w_sdead w). change (w_seqs w') with ss. rewrite Hls. auto.
  - intros k Hk. change (w_seqs w') with ss in Hk. rewrite Hls in Hk. rewrite Herr. apply (wi_fresh_seq _ I); auto.
  - intros c l Hl. change (w_colls w') with (w_colls w) in Hl. rewrite Hexps.
    rewrite (members_upd_same _ _ _ _ _ Hx); auto. apply (wi_coll _ I); auto.
  - intros e y Hy. change (w_colls w') with (w_colls w). destruct (Hex _ _ Hy) as [[-> ->]|[Hne Hy']].
    + apply (wi_collr _ I _ _ Hx).
    + apply (wi_collr _ I _ _ Hy').
  - intros k Hk. change (w_seqs w') with ss in Hk. rewrite Hls in Hk. rewrite Huse. apply (wi_dead _ I); auto.
  - intros e y Hy. destruct (Hex _ _ Hy) as [[-> ->]|[Hne Hy']].
    + apply (wi_pol _ I _ _ Hx).
    + apply (wi_pol _ I _ _ Hy').
  - intros e y Hy. rewrite Hunf. destruct (Hex _ _ Hy) as [[-> ->]|[Hne Hy']].
    + rewrite (wi_unf _ I _ _ Hx). simpl. rewrite Ha. reflexivity.
    + apply (wi_unf _ I _ _ Hy').
  - intros k Hk. change (w_seqs w') with ss in Hk. rewrite Hls in Hk. rewrite Herr, (wi_err _ I) by auto.
    change (w_sdead w') with (w_sdead w).
    destruct (nth k (w_sdead w) true) eqn:Hd; auto. simpl.
    replace (all_met (ctls w') k) with (all_met (ctls w) k); auto.
    unfold all_met. rewrite Hcts.
    assert (Hna : attached_in k (ctl_of x) = false).
    { apply not_true_is_false. intros E. apply attached_in_spec in E.
      rewrite (wi_dead _ I) in Hd by auto. apply negb_true_iff in Hd.
      assert (seq_in_use w k = true) by (apply in_use_spec; right; exists n, x; auto). congruence. }
    rewrite (filter_upd_out _ _ _ _ (bump (ctl_of x)) (ctls_nth _ _ _ Hx)); auto.
Qed.

Lemma satisfied_met x ss cs e : SInv ss cs -> nth_error cs e = Some (ctl_of x) ->
  exp_is_satisfied (eo_exp x) = negb (unmet x).
Proof.
  intros I He. destruct (si_ok _ _ I _ _ He) as (_ & _ & Hc).
  unfold exp_is_satisfied, control_is_satisfied, unmet. fold (ctl_of x).
  replace (forallb policy_is_satisfied _) with true.
  - destruct (Z.leb_spec (c_count (ctl_of x)) (c_max (ctl_of x))); [|lia]. rewrite !andb_true_r.
    destruct (Z.leb_spec (c_min (ctl_of x)) (c_count (ctl_of x))), (Z.ltb_spec (c_count (ctl_of x)) (c_min (ctl_of x))); auto; lia.
  - symmetry. apply forallb_forall. reflexivity.
Qed.

Lemma exp_report_describable w e x : WInv w -> exp_at w e x ->
  (describable (eo_exp x) = true -> exists r, exp_report_of (w_seqs w) (eo_exp x) = Ret r) /\
  (describable (eo_exp x) = false -> exists y, exp_report_of (w_seqs w) (eo_exp x) = Throw y).
Proof.
  intros I Hx. unfold exp_report_of. fold (ctl_of x).
  rewrite (control_state_ok _ _ _ _ (wi_s _ I) (ctls_nth _ _ _ Hx)). simpl.
  assert (H : forall ps, (forallb (fun p => match policy_describe p with Ret _ => true | _ => false end) ps = true -> exists ds, omap policy_describe ps = Ret ds) /\
            (forallb (fun p => match policy_describe p with Ret _ => true | _ => false end) ps = false -> exists y, omap policy_describe ps = Throw y)).
  { induction ps as [|p ps [IH1 IH2]]; simpl; [split; eauto; discriminate|].
    destruct (policy_describe_ok p) as [[d Hd]|[y Hd]]; rewrite Hd; simpl.
    - split; intros H; [destruct (IH1 H) as [ds ->]|destruct (IH2 H) as [y ->]]; simpl; eauto.
    - split; [discriminate|eauto]. }
  unfold describable. destruct (H (e_policies (eo_exp x))) as [H1 H2]. split; intros E.
  - destruct (H1 E) as [ds ->]. simpl. eauto.
  - destruct (H2 E) as [y ->]. simpl. eauto.
Qed.

Lemma winv_end w w1 e x l unf evs d' : WInv w ->
  (exists sc, w1 = set_scoped w sc) -> exp_at w e x ->
  nth_error (w_colls w) (eo_coll x) = Some l -> In e l ->
  released (kill w1 e x l) (map fst (c_seqs (ctl_of x))) (w_sdead w) evs d' ->
  ((exp_is_satisfied (eo_exp x) = true /\ unf = []) \/
   (exp_is_satisfied (eo_exp x) = false /\ exists y, exp_report_of (w_seqs w) (eo_exp x) = Throw y /\ unf = []) \/
   (exp_is_satisfied (eo_exp x) = false /\ exists rep, exp_report_of (w_seqs w) (eo_exp x) = Ret rep /\
        unf = [EvReport (w_rid w) (RUnfulfilled rep) [e]])) ->
  WInv (add_trace (set_sdead (kill w1 e x l) d') (unf ++ evs)).
Proof.
  intros I [sc ->] Hx Hl Hin Hr Hcase. destruct (wi_len _ I) as [Li Ld].
  assert (Ha : eo_alive x = true).
  { rewrite (wi_coll _ I _ _ Hl) in Hin. apply members_in in Hin. destruct Hin as (y & Hy & Hay & _).
    unfold exp_at in Hx. congruence. }
  destruct (released_spec _ _ _ _ _ Hr) as (R1 & R2 & R3 & R4). simpl in R4.
  set (x' := mkEObj (eo_exp x) (eo_coll x) false (eo_ov x) (eo_sig x)).
  set (wk := kill (set_scoped w sc) e x l) in *.
  set (w' := add_trace (set_sdead wk d') (unf ++ evs)).
  assert (Hexps : w_exps w' = upd (w_exps w) e x') by reflexivity.
  assert (Hcts : ctls w' = ctls w).
  { unfold ctls. rewrite Hexps, map_upd. apply upd_same. change (ctl_of x') with (ctl_of x). apply ctls_nth; auto. }
  assert (Hu3 : forall k, accepted unf k = 0 /\ seq_error_reports unf k = 0 /\
                unfulfilled_reports unf k = if (e =? k) && unmet x && describable (eo_exp x) then 1 else 0).
  { intros k. pose proof (satisfied_met x _ _ _ (wi_s _ I) (ctls_nth _ _ _ Hx)) as Hsm.
    destruct (exp_report_describable _ _ _ I Hx) as [Hd1 Hd2].
    destruct Hcase as [(Hs & ->)|[(Hs & y & Hy & ->)|(Hs & rep & Hrep & ->)]]; rewrite Hs in Hsm.
    - destruct (unmet x); [discriminate|]. rewrite andb_false_r. auto.
    - destruct (describable (eo_exp x)); [destruct Hd1; auto; congruence|]. rewrite andb_false_r. auto.
    - destruct (unmet x); [|discriminate]. rewrite unf_unf.
      destruct (describable (eo_exp x)); [|destruct Hd2; auto; congruence].
      rewrite !andb_true_r. auto. }
  assert (Hacc : forall k, accepted (w_trace w') k = accepted (w_trace w) k).
  { intros k. unfold w'. simpl. rewrite !accepted_app. destruct (R3 k) as [-> _]. destruct (Hu3 k) as [-> _]. lia. }
  assert (Hex : forall k y, exp_at w' k y -> (k = e /\ y = x') \/ (k <> e /\ exp_at w k y)).
  { intros k y Hy. unfold exp_at in Hy. rewrite Hexps in Hy. apply nth_error_upd in Hy.
    destruct Hy as [(-> & _ & ->)|(Hne & Hy)]; auto. }
  assert (Huse : forall k, seq_in_use w' k = seq_in_use wk k) by reflexivity.
  assert (Hin_use : forall s, In s (x_seqs x) -> seq_in_use w s = true).
  { intros s Hs. apply in_use_spec. right. exists e, x. auto. }
  assert (Huse2 : forall k, ~ In k (x_seqs x) -> seq_in_use w' k = seq_in_use w k).
  { intros k Hk. apply negb_iff. rewrite !in_use_spec. change (w_iface w') with (w_iface w).
    split; intros [H|(j & y & Hj & Hay & Hs)]; auto; right.
    - destruct (Hex _ _ Hj) as [[-> ->]|[_ Hy]]; [discriminate|]. eauto.
    - exists j, y. split; auto. unfold exp_at. rewrite Hexps, nth_error_upd_neq; auto.
      intros <-. unfold exp_at in *. rewrite Hx in Hj. inversion Hj; subst. auto. }
  assert (Hexb : forall k, existsb (Nat.eqb k) (map fst (c_seqs (ctl_of x))) = true <-> In k (x_seqs x)).
  { intros k. rewrite existsb_exists. unfold x_seqs. fold (ctl_of x). split.
    - intros (y & Hy & E). apply Nat.eqb_eq in E. subst. auto.
    - intros Hk. exists k. split; auto. apply Nat.eqb_refl. }
  constructor.
  - rewrite Hcts. apply (wi_s _ I).
  - intros k y Hy. rewrite Hacc. destruct (Hex _ _ Hy) as [[-> ->]|[Hne Hy']].
    + apply (wi_count _ I _ _ Hx).
    + apply (wi_count _ I _ _ Hy').
  - intros k Hk. rewrite Hexps, length_upd in Hk. rewrite Hacc. destruct (wi_fresh _ I k Hk) as [H1 H2]. split; auto.
    unfold w'. simpl. rewrite !unf_app, H2. destruct (R3 k) as [_ ->]. destruct (Hu3 k) as (_ & _ & ->).
    destruct (Nat.eqb_spec e k) as [->|]; simpl; auto. apply nth_error_lt in Hx. lia.
  - change (w_iface w') with (w_iface w). change (w_sdead w') with d'. change (w_seqs w') with (w_seqs w). lia.
  - intros k Hk. change (w_seqs w') with (w_seqs w) in Hk. unfold w'. simpl. rewrite !err_app, R4.
    rewrite (wi_fresh_seq _ I) by auto. destruct (Hu3 k) as (_ & -> & _).
    rewrite (proj2 (nth_error_None (w_seqs w) k) Hk), andb_false_r. reflexivity.
  - intros c lst Hlst. change (w_colls w') with (upd (w_colls w) (eo_coll x) (erase_first e l)) in Hlst.
    rewrite Hexps. unfold x'. rewrite (members_kill _ _ _ _ Hx). apply nth_error_upd in Hlst.
    destruct Hlst as [(<- & _ & ->)|(Hne & Hlst)].
    + rewrite Nat.eqb_refl, (wi_coll _ I _ _ Hl). reflexivity.
    + destruct (Nat.eqb_spec (eo_coll x) c); [congruence|]. apply (wi_coll _ I); auto.
  - intros k y Hy. change (w_colls w') with (upd (w_colls w) (eo_coll x) (erase_first e l)). rewrite length_upd.
    destruct (Hex _ _ Hy) as [[-> ->]|[Hne Hy']].
    + apply (wi_collr _ I _ _ Hx).
    + apply (wi_collr _ I _ _ Hy').
  - intros k Hk. change (w_seqs w') with (w_seqs w) in Hk. change (w_sdead w') with d'. rewrite R2.
    rewrite (wi_dead _ I) by auto. rewrite <- Huse.
    destruct (existsb (Nat.eqb k) (map fst (c_seqs (ctl_of x)))) eqn:E.
    + rewrite Hin_use by (apply Hexb; auto). reflexivity.
    + rewrite Huse2; [simpl; rewrite orb_false_r; auto|]. intros H. apply Hexb in H. congruence.
  - intros k y Hy. destruct (Hex _ _ Hy) as [[-> ->]|[Hne Hy']].
    + apply (wi_pol _ I _ _ Hx).
    + apply (wi_pol _ I _ _ Hy').
  - intros k y Hy. unfold w'. simpl. rewrite !unf_app. destruct (R3 k) as [_ ->]. destruct (Hu3 k) as (_ & _ & ->).
    destruct (Hex _ _ Hy) as [[-> ->]|[Hne Hy']].
    + rewrite (wi_unf _ I _ _ Hx), Ha, Nat.eqb_refl. simpl. rewrite Nat.add_0_r. reflexivity.
    + destruct (Nat.eqb_spec e k); [congruence|]. simpl. rewrite Nat.add_0_r. apply (wi_unf _ I _ _ Hy').
  - intros k Hk. change (w_seqs w') with (w_seqs w) in Hk. rewrite Hcts. change (w_sdead w') with d'.
    unfold w'. simpl. rewrite !err_app, R4, (wi_err _ I) by auto. destruct (Hu3 k) as (_ & -> & _).
    destruct (nth_error_ex (w_seqs w) k Hk) as [q Hq]. rewrite Hq, (dtor_all_met _ _ _ I Hq).
    assert (Hmono : nth k (w_sdead w) true = true -> nth k d' true = true) by (intros E; rewrite R2, E; auto).
    destruct (nth k (w_sdead w) true); simpl.
    + rewrite Hmono by auto. simpl. lia.
    + reflexivity.
Qed.

(** The chosen expectation of an accepted call is a live member of the collection. *)
Lemma chosen_alive w coll lst es c ml first others n mr : WInv w ->
  nth_error (w_colls w) coll = Some lst -> lookup_exps w (rev lst) = Some es ->
  match_loop (w_reporter w) (w_uncaught w) (w_seqs w) c es lists0 = Ret ml ->
  ml_full ml = first :: others -> pick_best first others = Ret (n, mr) ->
  exists x, live_in w coll n x /\ att (w_reporter w) (w_uncaught w) (w_seqs w) c (eo_exp x) = Ret (AttemptReport mr) /\
    evaluate_match_report mr = MatchFull /\ In (n, eo_exp x) es.
Proof.
  intros I Hl Hes Hml Hf Hp. apply pick_best_in in Hp. rewrite <- Hf in Hp.
  destruct (match_loop_ret _ _ _ _ _ _ _ Hml) as (_ & Hfull & _). simpl in Hfull. rewrite Hfull in Hp.
  apply sel_in in Hp. destruct Hp as (e & Hin & Ha & Hev).
  destruct (lookup_exps_spec _ _ _ Hes) as [Hmap Hes'].
  destruct (Hes' _ _ Hin) as (x & Hx & ->). exists x. split; auto.
  assert (Hn : In n lst).
  { rewrite in_rev, <- Hmap. apply in_map_fst; eauto. }
  rewrite (wi_coll _ I _ _ Hl) in Hn. apply members_in in Hn. destruct Hn as (y & Hy & Hay & Hcy).
  unfold exp_at in Hx. rewrite Hx in Hy. inversion Hy; subst. repeat split; auto.
Qed.

Theorem winv_step w o r w' : WInv w -> step w o = Next w' r -> WInv w'.
Proof.
  intros I H. apply step_change in H. destruct H.
  - eapply winv_admin; eauto.
  - subst. apply winv_newseq; auto.
  - subst. apply winv_dropseq; auto.
  - subst. eapply winv_new; eauto.
  - destruct (chosen_alive _ _ _ _ _ _ _ _ _ _ I H2 H3 H4 H5 H6) as (x & (Hx & Ha & _) & _).
    unfold exp_at in Hx. rewrite H7 in Hx. inversion Hx; subst x. subst w'.
    apply winv_accept; auto. apply quiet_unhandled.
  - subst w'. eapply winv_end; eauto.
Qed.

Theorem winv_run w ops w' : WInv w -> run w ops w' -> WInv w'.
Proof. intros I H. induction H; auto. apply IHrun. eapply winv_step; eauto. Qed.

Theorem winv_reachable w : reachable w -> WInv w.
Proof. intros [ops H]. eapply winv_run; eauto. apply winv_init. Qed.
