(** * SeqInv: the invariant relating sequences and control policies, and its preservation. *)

From Verif Require Import Base Lib Sequence Control.

Definition ctl_ok (c : control) : Prop :=
  (0 <= c_min c <= c_max c)%Z /\ (c_max c <= INT_MAX)%Z /\ (0 <= c_count c <= c_max c)%Z.

(** The entry state as a function of limits and count. *)
Definition entry_of (c : control) : entry_state :=
  if (c_count c <? c_min c)%Z then Unsatisfied
  else if (c_count c =? c_max c)%Z && (c_min c <? c_max c)%Z then Saturated
  else Satisfied.

Record SInv (ss : seq_store) (cs : list control) : Prop := mkSInv {
  si_ok : forall e c, nth_error cs e = Some c -> ctl_ok c;
  si_nodup : forall e c, nth_error cs e = Some c -> NoDup (map fst (c_seqs c));
  si_entry : forall e c s id, nth_error cs e = Some c -> In (s, id) (c_seqs c) ->
    exists q, nth_error ss s = Some q /\ nth_error (s_entries q) id = Some (entry_of c);
  si_order : forall e e' c c' s id id', nth_error cs e = Some c -> nth_error cs e' = Some c' ->
    In (s, id) (c_seqs c) -> In (s, id') (c_seqs c') -> e < e' -> id < id';
  si_onto : forall s q id, nth_error ss s = Some q -> id < length (s_entries q) ->
    exists e c, nth_error cs e = Some c /\ In (s, id) (c_seqs c);
  si_before : forall e c s id q, nth_error cs e = Some c -> In (s, id) (c_seqs c) -> nth_error ss s = Some q ->
    id < s_cursor q -> (c_min c <= c_count c)%Z;
  si_after : forall e c s id q, nth_error cs e = Some c -> In (s, id) (c_seqs c) -> nth_error ss s = Some q ->
    s_cursor q < id -> c_count c = 0%Z;
  si_cursor : forall s q, nth_error ss s = Some q -> s_cursor q = 0 \/
    exists e c, nth_error cs e = Some c /\ In (s, s_cursor q) (c_seqs c) /\ (0 < c_count c)%Z
}.

Lemma sinv_init : SInv [] [].
Proof.
  split; intros; try (destruct e; discriminate); destruct s; discriminate.
Qed.

Lemma sinv_inj ss cs e e' c c' s id : SInv ss cs ->
  nth_error cs e = Some c -> nth_error cs e' = Some c' ->
  In (s, id) (c_seqs c) -> In (s, id) (c_seqs c') -> e = e'.
Proof.
  intros I H H' Hi Hi'. destruct (lt_eq_lt_dec e e') as [[Hl|]|Hl]; auto; exfalso.
  - pose proof (si_order _ _ I _ _ _ _ _ _ _ H H' Hi Hi' Hl). lia.
  - pose proof (si_order _ _ I _ _ _ _ _ _ _ H' H Hi' Hi Hl). lia.
Qed.

Lemma sinv_cursor_le ss cs s q : SInv ss cs -> nth_error ss s = Some q -> s_cursor q <= length (s_entries q).
Proof.
  intros I Hq. destruct (si_cursor _ _ I _ _ Hq) as [->|(e & c & He & Hin & _)]; [lia|].
  destruct (si_entry _ _ I _ _ _ _ He Hin) as (q' & Hq' & Hn).
  rewrite Hq in Hq'; inversion Hq'; subst. apply nth_error_lt in Hn. lia.
Qed.

Lemma state_done_entry c : state_done (entry_of c) = true <-> (c_min c <= c_count c)%Z.
Proof.
  unfold entry_of. destruct (Z.ltb_spec (c_count c) (c_min c)); simpl.
  - split; [discriminate|lia].
  - destruct ((c_count c =? c_max c)%Z && (c_min c <? c_max c)%Z); simpl; tauto.
Qed.

(** Consumability of one element, by counts only. *)
Lemma consumable_spec ss cs e c s id q : SInv ss cs ->
  nth_error cs e = Some c -> In (s, id) (c_seqs c) -> nth_error ss s = Some q -> (c_count c < c_max c)%Z ->
  seq_is_consumable q id = true <->
  (forall e' c', nth_error cs e' = Some c' -> In s (map fst (c_seqs c')) ->
     (e' < e -> (c_min c' <= c_count c')%Z) /\ (e < e' -> c_count c' = 0%Z)).
Proof.
  intros I He Hin Hq Hlt.
  destruct (si_entry _ _ I _ _ _ _ He Hin) as (q' & Hq' & Hn).
  rewrite Hq in Hq'; inversion Hq'; subst q'.
  unfold seq_is_consumable. rewrite Hn.
  assert (Hst : (match entry_of c with Unsatisfied | Satisfied => true | Saturated => false end) = true).
  { unfold entry_of. destruct (c_count c <? c_min c)%Z; auto.
    destruct (Z.eqb_spec (c_count c) (c_max c)); simpl; auto. lia. }
  rewrite Hst, andb_true_r, andb_true_iff, Nat.leb_le, forallb_firstn_skipn. split.
  - intros [Hc Hall] e' c' He' Hs. apply in_map_fst in Hs. destruct Hs as [id' Hin'].
    split; intros Hlt'.
    + pose proof (si_order _ _ I _ _ _ _ _ _ _ He' He Hin' Hin Hlt') as Hid.
      destruct (si_entry _ _ I _ _ _ _ He' Hin') as (q' & Hq'' & Hn').
      rewrite Hq in Hq''; inversion Hq''; subst q'.
      destruct (le_lt_dec (s_cursor q) id') as [Hle|Hgt].
      * apply state_done_entry. apply (Hall id'); auto. lia.
      * eapply si_before; eauto.
    + pose proof (si_order _ _ I _ _ _ _ _ _ _ He He' Hin Hin' Hlt') as Hid.
      eapply si_after; eauto. lia.
  - intros Hspec. split.
    + destruct (le_lt_dec (s_cursor q) id) as [|Hgt]; auto. exfalso.
      destruct (si_cursor _ _ I _ _ Hq) as [H0|(e' & c' & He' & Hin' & Hpos)]; [lia|].
      destruct (lt_eq_lt_dec e e') as [[Hl|Hl]|Hl].
      * destruct (Hspec e' c' He') as [_ H]. { apply in_map_fst; eauto. } specialize (H Hl). lia.
      * subst e'. rewrite He in He'. inversion He'; subst c'.
        pose proof (nodup_fst_inj _ _ _ _ (si_nodup _ _ I _ _ He) Hin Hin'). lia.
      * pose proof (si_order _ _ I _ _ _ _ _ _ _ He' He Hin' Hin Hl). lia.
    + intros i st Hi Hst'.
      destruct (si_onto _ _ I _ _ i Hq) as (e' & c' & He' & Hin').
      { eapply nth_error_lt; eauto. }
      destruct (si_entry _ _ I _ _ _ _ He' Hin') as (q' & Hq'' & Hn').
      rewrite Hq in Hq''; inversion Hq''; subst q'.
      rewrite Hst' in Hn'. inversion Hn'; subst st. apply state_done_entry.
      apply (Hspec e' c' He'). { apply in_map_fst; eauto. }
      destruct (lt_eq_lt_dec e' e) as [[Hl|Hl]|Hl]; auto; exfalso.
      * subst e'. rewrite He in He'. inversion He'; subst c'.
        pose proof (nodup_fst_inj _ _ _ _ (si_nodup _ _ I _ _ He) Hin Hin'). lia.
      * pose proof (si_order _ _ I _ _ _ _ _ _ _ He He' Hin Hin' Hl). lia.
Qed.

(** ** Folds over the sequences of one expectation *)

Lemma for_each_seq_ok f l : forall ss,
  NoDup (map fst l) ->
  (forall s id, In (s, id) l -> exists q q', nth_error ss s = Some q /\ f q id = Ret q') ->
  exists ss', for_each_seq f ss l = Ret ss' /\ length ss' = length ss /\
    (forall s id q, In (s, id) l -> nth_error ss s = Some q -> exists q', f q id = Ret q' /\ nth_error ss' s = Some q') /\
    (forall s, ~ In s (map fst l) -> nth_error ss' s = nth_error ss s).
Proof.
  induction l as [|[s id] l IH]; intros ss Hnd Hall; simpl.
  - exists ss. repeat split; auto. intros; tauto.
  - inversion Hnd as [|? ? Hs Hnd']; subst.
    destruct (Hall s id) as (q & q' & Hq & Hf); [left; auto|].
    unfold with_seq. rewrite Hq, Hf. simpl.
    destruct (IH (upd ss s q') Hnd') as (ss' & He & Hlen & Hin & Hout).
    { intros s1 id1 H1. destruct (Hall s1 id1) as (q1 & q1' & Hq1 & Hf1); [right; auto|].
      exists q1, q1'. split; auto. rewrite nth_error_upd_neq; auto.
      intros ->. apply Hs. apply in_map_fst; eauto. }
    exists ss'. repeat split; auto.
    + rewrite Hlen. apply length_upd.
    + intros s1 id1 q1 [H1|H1] Hq1.
      * inversion H1; subst s1 id1. rewrite Hq in Hq1; inversion Hq1; subst q1.
        exists q'. split; auto. rewrite Hout by auto.
        apply nth_error_upd_eq. eapply nth_error_lt; eauto.
      * apply (Hin s1 id1); auto. rewrite nth_error_upd_neq; auto.
        intros ->. apply Hs. apply in_map_fst; eauto.
    + intros s1 Hn. rewrite Hout by tauto. apply nth_error_upd_neq. tauto.
Qed.

(** ** Accepting a call *)

Definition bump (c : control) : control := mkControl (c_min c) (c_max c) (c_count c + 1) (c_seqs c).

Definition consumed (c' : control) (q : bseq) (id : nat) : bseq :=
  mkSeq (s_strategy q) (upd (s_entries q) id (entry_of c')) id.

Lemma is_applicable_spec ss c :
  control_is_applicable ss c = true <->
  (c_count c < c_max c)%Z /\ (forall s id, In (s, id) (c_seqs c) -> exists q, nth_error ss s = Some q /\ seq_is_consumable q id = true).
Proof.
  unfold control_is_applicable. rewrite andb_true_iff, Z.ltb_lt, forallb_forall. split; intros [H1 H2]; split; auto.
  - intros s id Hin. specialize (H2 _ Hin). simpl in H2. destruct (nth_error ss s); [eauto|discriminate].
  - intros [s id] Hin. destruct (H2 _ _ Hin) as (q & -> & Hc). auto.
Qed.

Lemma control_consume_ok ss cs e c : SInv ss cs ->
  nth_error cs e = Some c -> control_is_applicable ss c = true ->
  exists ss', control_consume ss c = Ret (ss', bump c) /\ length ss' = length ss /\
    (forall s id q, In (s, id) (c_seqs c) -> nth_error ss s = Some q -> nth_error ss' s = Some (consumed (bump c) q id)) /\
    (forall s, ~ In s (map fst (c_seqs c)) -> nth_error ss' s = nth_error ss s).
Proof.
  intros I He Happ. pose proof (proj1 (is_applicable_spec _ _) Happ) as [Hlt Hcons].
  pose proof (si_nodup _ _ I _ _ He) as Hnd. pose proof (si_ok _ _ I _ _ He) as (Hmm & Hmax & Hcnt).
  unfold control_consume. rewrite Happ. simpl.
  destruct (for_each_seq_ok seq_consume (c_seqs c) ss Hnd) as (ss1 & -> & Hlen1 & Hin1 & Hout1).
  { intros s id Hin. destruct (Hcons _ _ Hin) as (q & Hq & Hc). exists q.
    unfold seq_consume, seq_is_valid. rewrite Hc.
    assert (Hv : id <? length (s_entries q) = true).
    { unfold seq_is_consumable in Hc. destruct (nth_error (s_entries q) id) eqn:En; [|discriminate].
      apply Nat.ltb_lt. eapply nth_error_lt; eauto. }
    rewrite Hv. simpl. eauto. }
  simpl. replace (c_count c =? INT_MAX)%Z with false by (symmetry; apply Z.eqb_neq; lia).
  assert (Hin1' : forall s id q, In (s, id) (c_seqs c) -> nth_error ss s = Some q ->
            id < length (s_entries q) /\ nth_error (s_entries q) id = Some (entry_of c) /\
            nth_error ss1 s = Some (mkSeq (s_strategy q) (s_entries q) id)).
  { intros s id q Hin Hq. destruct (si_entry _ _ I _ _ _ _ He Hin) as (q0 & Hq0 & Hn).
    rewrite Hq in Hq0; inversion Hq0; subst q0.
    destruct (Hin1 _ _ _ Hin Hq) as (q' & Hf & Hq'). split; [eapply nth_error_lt; eauto|]. split; auto.
    unfold seq_consume in Hf. destruct (seq_is_valid q id); simpl in Hf; [|discriminate].
    destruct (seq_is_consumable q id); simpl in Hf; [|discriminate]. inversion Hf; subst. auto. }
  assert (Hcat : exists q0, True) by (exists 0; auto).
  clear Hcat.
  change (mkControl (c_min c) (c_max c) (c_count c + 1) (c_seqs c)) with (bump c).
  unfold control_update. simpl c_count; simpl c_min; simpl c_max.
  destruct (Z.eqb_spec (c_count c + 1) (c_min c)) as [Hmin|Hmin].
  - destruct (for_each_seq_ok seq_set_satisfied (c_seqs (bump c)) ss1 Hnd) as (ss2 & -> & Hlen2 & Hin2 & Hout2).
    { intros s id Hin. destruct (Hcons _ _ Hin) as (q & Hq & Hc).
      destruct (Hin1' _ _ _ Hin Hq) as (Hl & Hn & Hq1). rewrite Hq1. eexists; eexists. split; [reflexivity|].
      unfold seq_set_satisfied, seq_is_valid. simpl. rewrite Hn.
      apply Nat.ltb_lt in Hl. rewrite Hl, Nat.leb_refl. simpl.
      unfold entry_of. replace (c_count c <? c_min c)%Z with true by (symmetry; apply Z.ltb_lt; lia). reflexivity. }
    exists ss2. repeat split; try congruence.
    + intros s id q Hin Hq. destruct (Hin1' _ _ _ Hin Hq) as (Hl & Hn & Hq1).
      destruct (Hin2 _ _ _ Hin Hq1) as (q2 & Hf & ->). f_equal.
      unfold seq_set_satisfied, seq_is_valid in Hf. simpl in Hf. rewrite Hn in Hf.
      apply Nat.ltb_lt in Hl. rewrite Hl, Nat.leb_refl in Hf. simpl in Hf.
      unfold entry_of in Hf. replace (c_count c <? c_min c)%Z with true in Hf by (symmetry; apply Z.ltb_lt; lia).
      inversion Hf. unfold consumed. f_equal. f_equal. unfold entry_of. simpl.
      replace (c_count c + 1 <? c_min c)%Z with false by (symmetry; apply Z.ltb_ge; lia).
      destruct (Z.eqb_spec (c_count c + 1) (c_max c)); simpl; auto.
      replace (c_min c <? c_max c)%Z with false by (symmetry; apply Z.ltb_ge; lia). auto.
    + intros s Hn. rewrite Hout2, Hout1; auto.
  - destruct (Z.eqb_spec (c_count c + 1) (c_max c)) as [Hmx|Hmx].
    + destruct (for_each_seq_ok seq_set_saturated (c_seqs (bump c)) ss1 Hnd) as (ss2 & -> & Hlen2 & Hin2 & Hout2).
      { intros s id Hin. destruct (Hcons _ _ Hin) as (q & Hq & Hc).
        destruct (Hin1' _ _ _ Hin Hq) as (Hl & Hn & Hq1). rewrite Hq1. eexists; eexists. split; [reflexivity|].
        unfold seq_set_saturated, seq_is_valid. simpl. rewrite Hn.
        apply Nat.ltb_lt in Hl. rewrite Hl, Nat.leb_refl. simpl.
        unfold entry_of. replace (c_count c <? c_min c)%Z with false by (symmetry; apply Z.ltb_ge; lia).
        replace (c_count c =? c_max c)%Z with false by (symmetry; apply Z.eqb_neq; lia). reflexivity. }
      exists ss2. repeat split; try congruence.
      * intros s id q Hin Hq. destruct (Hin1' _ _ _ Hin Hq) as (Hl & Hn & Hq1).
        destruct (Hin2 _ _ _ Hin Hq1) as (q2 & Hf & ->). f_equal.
        unfold seq_set_saturated, seq_is_valid in Hf. simpl in Hf. rewrite Hn in Hf.
        apply Nat.ltb_lt in Hl. rewrite Hl, Nat.leb_refl in Hf. simpl in Hf.
        unfold entry_of in Hf. replace (c_count c <? c_min c)%Z with false in Hf by (symmetry; apply Z.ltb_ge; lia).
        replace (c_count c =? c_max c)%Z with false in Hf by (symmetry; apply Z.eqb_neq; lia). simpl in Hf.
        inversion Hf. unfold consumed. f_equal. f_equal. unfold entry_of. simpl.
        replace (c_count c + 1 <? c_min c)%Z with false by (symmetry; apply Z.ltb_ge; lia).
        replace (c_count c + 1 =? c_max c)%Z with true by (symmetry; apply Z.eqb_eq; lia).
        replace (c_min c <? c_max c)%Z with true by (symmetry; apply Z.ltb_lt; lia). auto.
      * intros s Hn. rewrite Hout2, Hout1; auto.
    + simpl. exists ss1. repeat split; auto.
      intros s id q Hin Hq. destruct (Hin1' _ _ _ Hin Hq) as (Hl & Hn & Hq1). rewrite Hq1. f_equal.
      unfold consumed. f_equal. symmetry. apply upd_same. rewrite Hn. f_equal. unfold entry_of. simpl.
      replace (c_count c =? c_max c)%Z with false by (symmetry; apply Z.eqb_neq; lia).
      replace (c_count c + 1 =? c_max c)%Z with false by (symmetry; apply Z.eqb_neq; lia). simpl.
      destruct (Z.ltb_spec (c_count c) (c_min c)), (Z.ltb_spec (c_count c + 1) (c_min c)); auto; lia.
Qed.

Lemma sinv_accept ss cs e c ss' : SInv ss cs ->
  nth_error cs e = Some c -> control_is_applicable ss c = true -> length ss' = length ss ->
  (forall s id q, In (s, id) (c_seqs c) -> nth_error ss s = Some q -> nth_error ss' s = Some (consumed (bump c) q id)) ->
  (forall s, ~ In s (map fst (c_seqs c)) -> nth_error ss' s = nth_error ss s) ->
  SInv ss' (upd cs e (bump c)).
Proof.
  intros I He Happ Hlen Hin Hout. pose proof (proj1 (is_applicable_spec _ _) Happ) as [Hlt Hcons].
  pose proof (nth_error_lt _ _ _ He) as Hel.
  pose proof (si_ok _ _ I _ _ He) as (Hmm & Hmax & Hcnt).
  (* every store element of ss' comes from ss *)
  assert (Hback : forall s q', nth_error ss' s = Some q' -> exists q, nth_error ss s = Some q /\
            ((exists id, In (s, id) (c_seqs c) /\ q' = consumed (bump c) q id) \/ (~ In s (map fst (c_seqs c)) /\ q' = q))).
  { intros s q' Hq'. destruct (nth_error_ex ss s) as [q Hq]. { rewrite <- Hlen. eapply nth_error_lt; eauto. }
    exists q. split; auto. destruct (in_dec Nat.eq_dec s (map fst (c_seqs c))) as [Hs|Hs].
    - left. pose proof Hs as Hs'. apply in_map_fst in Hs'. destruct Hs' as [id Hid]. exists id. split; auto.
      rewrite (Hin _ _ _ Hid Hq) in Hq'. congruence.
    - right. rewrite Hout in Hq' by auto. split; auto. congruence. }
  assert (Hcs : forall e' c', nth_error (upd cs e (bump c)) e' = Some c' ->
            exists c0, nth_error cs e' = Some c0 /\ c_seqs c' = c_seqs c0 /\ ((e' = e /\ c0 = c /\ c' = bump c) \/ (e' <> e /\ c' = c0))).
  { intros e' c' H. apply nth_error_upd in H. destruct H as [(<- & _ & ->)|[Hne H]].
    - exists c. split; auto.
    - exists c'. split; auto. }
  assert (Hbound : forall s id q, In (s, id) (c_seqs c) -> nth_error ss s = Some q -> id < length (s_entries q)).
  { intros s id q Hi Hq. destruct (si_entry _ _ I _ _ _ _ He Hi) as (q0 & Hq0 & Hn).
    rewrite Hq in Hq0; inversion Hq0; subst. eapply nth_error_lt; eauto. }
  assert (Hcur : forall s id q, In (s, id) (c_seqs c) -> nth_error ss s = Some q -> s_cursor q <= id).
  { intros s id q Hi Hq. destruct (Hcons _ _ Hi) as (q0 & Hq0 & Hc).
    rewrite Hq in Hq0; inversion Hq0; subst. unfold seq_is_consumable in Hc.
    destruct (nth_error (s_entries q0) id); [|discriminate].
    rewrite !andb_true_iff, Nat.leb_le in Hc. tauto. }
  split.
  - intros e' c' H. destruct (Hcs _ _ H) as (c0 & H0 & _ & [(-> & -> & ->)|[_ ->]]).
    + unfold ctl_ok, bump; simpl. lia.
    + eapply si_ok; eauto.
  - intros e' c' H. destruct (Hcs _ _ H) as (c0 & H0 & -> & _). eapply si_nodup; eauto.
  - intros e' c' s id' H Hi. destruct (Hcs _ _ H) as (c0 & H0 & Hs & Hcase). rewrite Hs in Hi.
    destruct (si_entry _ _ I _ _ _ _ H0 Hi) as (q & Hq & Hn).
    destruct (in_dec Nat.eq_dec s (map fst (c_seqs c))) as [Hs'|Hs'].
    + apply in_map_fst in Hs'. destruct Hs' as [id Hid].
      rewrite (Hin _ _ _ Hid Hq). eexists. split; [reflexivity|]. simpl.
      destruct Hcase as [(-> & -> & ->)|[Hne ->]].
      * rewrite (nodup_fst_inj _ _ _ _ (si_nodup _ _ I _ _ He) Hi Hid).
        apply nth_error_upd_eq. eauto.
      * rewrite nth_error_upd_neq; auto. intros <-. apply Hne. eapply sinv_inj; eauto.
    + rewrite Hout by auto. exists q. split; auto.
      destruct Hcase as [(-> & -> & ->)|[Hne ->]]; auto.
      exfalso. apply Hs'. apply in_map_fst; eauto.
  - intros e1 e2 c1 c2 s id1 id2 H1 H2 Hi1 Hi2 Hl.
    destruct (Hcs _ _ H1) as (c10 & H10 & Hs1 & _). destruct (Hcs _ _ H2) as (c20 & H20 & Hs2 & _).
    rewrite Hs1 in Hi1. rewrite Hs2 in Hi2. eapply (si_order _ _ I e1 e2); eauto.
  - intros s q' id Hq' Hl. destruct (Hback _ _ Hq') as (q & Hq & Hcase).
    assert (Hl' : id < length (s_entries q)).
    { destruct Hcase as [(id0 & _ & ->)|[_ ->]]; auto. simpl in Hl. rewrite length_upd in Hl. auto. }
    destruct (si_onto _ _ I _ _ _ Hq Hl') as (e' & c' & He' & Hi').
    destruct (Nat.eq_dec e e') as [<-|Hne].
    + exists e, (bump c). split. { apply nth_error_upd_eq; auto. }
      rewrite He in He'. inversion He'; subst. auto.
    + exists e', c'. split; auto. rewrite nth_error_upd_neq; auto.
  - intros e' c' s id' q' H Hi Hq' Hlc. destruct (Hcs _ _ H) as (c0 & H0 & Hs & Hcase0). rewrite Hs in Hi.
    destruct (Hback _ _ Hq') as (q & Hq & [(id & Hid & ->)|[Hns ->]]).
    + simpl in Hlc. destruct Hcase0 as [(-> & -> & ->)|[Hne ->]].
      * pose proof (nodup_fst_inj _ _ _ _ (si_nodup _ _ I _ _ He) Hi Hid). lia.
      * assert (Hlt' : e' < e).
        { destruct (lt_eq_lt_dec e' e) as [[|]|Hgt]; auto; [congruence|].
          pose proof (si_order _ _ I _ _ _ _ _ _ _ He H0 Hid Hi Hgt). lia. }
        destruct (Hcons _ _ Hid) as (q0 & Hq0 & Hc). rewrite Hq in Hq0; inversion Hq0; subst q0.
        pose proof (proj1 (consumable_spec _ _ _ _ _ _ _ I He Hid Hq Hlt) Hc) as Hsp.
        apply (Hsp e' c0 H0); auto. apply in_map_fst; eauto.
    + destruct Hcase0 as [(-> & -> & ->)|[Hne ->]].
      * exfalso. apply Hns. apply in_map_fst; eauto.
      * eapply (si_before _ _ I); eauto.
  - intros e' c' s id' q' H Hi Hq' Hlc. destruct (Hcs _ _ H) as (c0 & H0 & Hs & Hcase0). rewrite Hs in Hi.
    destruct (Hback _ _ Hq') as (q & Hq & [(id & Hid & ->)|[Hns ->]]).
    + simpl in Hlc. destruct Hcase0 as [(-> & -> & ->)|[Hne ->]].
      * pose proof (nodup_fst_inj _ _ _ _ (si_nodup _ _ I _ _ He) Hi Hid). lia.
      * eapply (si_after _ _ I); eauto. pose proof (Hcur _ _ _ Hid Hq). lia.
    + destruct Hcase0 as [(-> & -> & ->)|[Hne ->]].
      * exfalso. apply Hns. apply in_map_fst; eauto.
      * eapply (si_after _ _ I); eauto.
  - intros s q' Hq'. destruct (Hback _ _ Hq') as (q & Hq & [(id & Hid & ->)|[Hns ->]]).
    + right. simpl. exists e, (bump c). split; [apply nth_error_upd_eq; auto|]. split; auto. simpl. lia.
    + destruct (si_cursor _ _ I _ _ Hq) as [|(e' & c' & He' & Hi' & Hp)]; auto. right.
      exists e', c'. split; auto. rewrite nth_error_upd_neq; auto.
      intros <-. rewrite He in He'. inversion He'; subst. apply Hns. apply in_map_fst; eauto.
Qed.

(** ** Creating an expectation *)

Lemma add_entries_ok tags : forall ss,
  NoDup tags -> (forall s, In s tags -> exists q, nth_error ss s = Some q) ->
  (exists ss' entries, add_entries ss tags = Ret (ss', entries) /\ map fst entries = tags /\ length ss' = length ss /\
    (forall s id, In (s, id) entries -> exists q, nth_error ss s = Some q /\ id = length (s_entries q) /\
       (Z.of_nat id <= INT_MAX)%Z /\
       nth_error ss' s = Some (mkSeq (s_strategy q) (s_entries q ++ [Unsatisfied]) (s_cursor q))) /\
    (forall s, ~ In s tags -> nth_error ss' s = nth_error ss s))
  \/ (add_entries ss tags = Throw ERuntimeError /\
      exists s q, In s tags /\ nth_error ss s = Some q /\ (INT_MAX < Z.of_nat (length (s_entries q)))%Z).
Proof.
  induction tags as [|s tags IH]; intros ss Hnd Hall; simpl.
  - left. exists ss, []. repeat split; auto. intros; simpl in *; tauto.
  - inversion Hnd as [|? ? Hs Hnd']; subst.
    destruct (Hall s) as [q Hq]; [left; auto|].
    unfold with_seq. rewrite Hq. unfold seq_add.
    destruct (Z.leb_spec (Z.of_nat (length (s_entries q))) INT_MAX) as [Hle|Hgt].
    + simpl. destruct (IH (upd ss s (mkSeq (s_strategy q) (s_entries q ++ [Unsatisfied]) (s_cursor q))) Hnd') as
        [(ss' & entries & -> & Hm & Hlen & Hin & Hout)|(-> & s1 & q1 & Hin1 & Hq1 & Hgt)].
      { intros s1 H1. destruct (Hall s1) as [q1 Hq1]; [right; auto|]. exists q1.
        rewrite nth_error_upd_neq; auto. intros ->. auto. }
      * left. simpl. exists ss', ((s, length (s_entries q)) :: entries). simpl. repeat split.
        -- congruence.
        -- rewrite Hlen. apply length_upd.
        -- intros s1 id [H1|H1].
           ++ inversion H1; subst. exists q. repeat split; auto. rewrite Hout by auto.
              apply nth_error_upd_eq. eapply nth_error_lt; eauto.
           ++ destruct (Hin _ _ H1) as (q1 & Hq1 & Hid & Hle1 & Hn). exists q1. repeat split; auto.
              rewrite nth_error_upd_neq in Hq1; auto. intros <-. apply Hs.
              rewrite <- Hm. apply in_map_fst. eauto.
        -- intros s1 Hn. rewrite Hout by tauto. apply nth_error_upd_neq. tauto.
      * right. split; auto. exists s1, q1. repeat split; auto.
        rewrite nth_error_upd_neq in Hq1; auto. intros <-. auto.
    + right. simpl. split; auto. exists s, q. auto.
Qed.

Definition attached_new (c : control) (q : bseq) : bseq :=
  mkSeq (s_strategy q) (s_entries q ++ [entry_of c]) (s_cursor q).

Lemma upd_snoc_last {A} (l : list A) x y : upd (l ++ [x]) (length l) y = l ++ [y].
Proof. induction l; simpl; auto. f_equal; auto. Qed.

Lemma control_new_ok ss cs t tags : SInv ss cs ->
  (0 <= t_min t <= t_max t)%Z -> (t_max t <= INT_MAX)%Z ->
  NoDup tags -> (forall s, In s tags -> exists q, nth_error ss s = Some q) ->
  (exists ss' c, control_new ss t tags = Ret (ss', c) /\ c_min c = t_min t /\ c_max c = t_max t /\ c_count c = 0%Z /\
    map fst (c_seqs c) = tags /\ length ss' = length ss /\
    (forall s id, In (s, id) (c_seqs c) -> exists q, nth_error ss s = Some q /\ id = length (s_entries q) /\
       (Z.of_nat id <= INT_MAX)%Z /\ nth_error ss' s = Some (attached_new c q)) /\
    (forall s, ~ In s tags -> nth_error ss' s = nth_error ss s))
  \/ (control_new ss t tags = Terminate /\
      exists s q, In s tags /\ nth_error ss s = Some q /\ (INT_MAX < Z.of_nat (length (s_entries q)))%Z).
Proof.
  intros I Hmm Hmax Hnd Hall. unfold control_new, make_sequence_entries.
  destruct (add_entries_ok tags ss Hnd Hall) as [(ss1 & entries & -> & Hm & Hlen & Hin & Hout)|(-> & H)].
  2:{ right. simpl. auto. }
  left. simpl. set (c := mkControl (t_min t) (t_max t) 0 entries).
  assert (Hnd' : NoDup (map fst entries)) by congruence.
  unfold control_update. simpl c_count; simpl c_min; simpl c_max.
  destruct (Z.eqb_spec 0 (t_min t)) as [H0|H0].
  - destruct (for_each_seq_ok seq_set_satisfied (c_seqs c) ss1 Hnd') as (ss2 & -> & Hlen2 & Hin2 & Hout2).
    { intros s id Hi. destruct (Hin _ _ Hi) as (q & Hq & Hid & Hle & Hn).
      eexists; eexists; split; [exact Hn|]. unfold seq_set_satisfied, seq_is_valid. simpl.
      rewrite app_length. simpl. subst id. rewrite nth_error_app_last.
      replace (length (s_entries q) <? length (s_entries q) + 1) with true by (symmetry; apply Nat.ltb_lt; lia).
      pose proof (sinv_cursor_le _ _ _ _ I Hq) as Hc. apply Nat.leb_le in Hc. rewrite Hc. simpl. reflexivity. }
    simpl. exists ss2, c. repeat split; auto; try congruence.
    + intros s id Hi. destruct (Hin _ _ Hi) as (q & Hq & Hid & Hle & Hn). exists q. repeat split; auto.
      destruct (Hin2 _ _ _ Hi Hn) as (q2 & Hf & ->). f_equal.
      unfold seq_set_satisfied, seq_is_valid in Hf. simpl in Hf.
      rewrite app_length in Hf. simpl in Hf. subst id. rewrite nth_error_app_last in Hf.
      replace (length (s_entries q) <? length (s_entries q) + 1) with true in Hf by (symmetry; apply Nat.ltb_lt; lia).
      pose proof (sinv_cursor_le _ _ _ _ I Hq) as Hc. apply Nat.leb_le in Hc. rewrite Hc in Hf. simpl in Hf.
      inversion Hf. unfold attached_new. rewrite upd_snoc_last. 
      assert (Hec : entry_of c = Satisfied).
      { unfold entry_of, c; cbn [c_count c_min c_max]. rewrite <- H0. change (0 <? 0)%Z with false.
        destruct (Z.eqb_spec 0 (t_max t)) as [Hz|]; [rewrite <- Hz|]; reflexivity. }
      rewrite Hec. reflexivity.
    + intros s Hn. rewrite Hout2, Hout; auto. simpl. rewrite Hm. auto.
  - assert (Hmx : (0 =? t_max t)%Z = false) by (apply Z.eqb_neq; lia). rewrite Hmx. simpl.
    exists ss1, c. repeat split; auto.
    intros s id Hi. destruct (Hin _ _ Hi) as (q & Hq & Hid & Hle & Hn). exists q. repeat split; auto.
    rewrite Hn. unfold attached_new, entry_of, c. simpl.
    replace (0 <? t_min t)%Z with true by (symmetry; apply Z.ltb_lt; lia). auto.
Qed.

Lemma sinv_new ss cs ss' c : SInv ss cs ->
  ctl_ok c -> c_count c = 0%Z -> NoDup (map fst (c_seqs c)) -> length ss' = length ss ->
  (forall s id, In (s, id) (c_seqs c) -> exists q, nth_error ss s = Some q /\ id = length (s_entries q) /\
       (Z.of_nat id <= INT_MAX)%Z /\ nth_error ss' s = Some (attached_new c q)) ->
  (forall s, ~ In s (map fst (c_seqs c)) -> nth_error ss' s = nth_error ss s) ->
  SInv ss' (cs ++ [c]).
Proof.
  intros I Hok H0 Hnd Hlen Hin Hout.
  assert (Hback : forall s q', nth_error ss' s = Some q' -> exists q, nth_error ss s = Some q /\
            ((In (s, length (s_entries q)) (c_seqs c) /\ q' = attached_new c q) \/ (~ In s (map fst (c_seqs c)) /\ q' = q))).
  { intros s q' Hq'. destruct (in_dec Nat.eq_dec s (map fst (c_seqs c))) as [Hs|Hs].
    - apply in_map_fst in Hs. destruct Hs as [id Hid]. destruct (Hin _ _ Hid) as (q & Hq & -> & _ & Hn).
      exists q. split; auto. left. split; auto. congruence.
    - rewrite Hout in Hq' by auto. exists q'. auto. }
  (* existing elements stay where they are *)
  assert (Hold : forall e c' s id, nth_error cs e = Some c' -> In (s, id) (c_seqs c') ->
            exists q q', nth_error ss s = Some q /\ nth_error ss' s = Some q' /\ id < length (s_entries q) /\
              s_cursor q' = s_cursor q /\ nth_error (s_entries q') id = nth_error (s_entries q) id).
  { intros e c' s id He Hi. destruct (si_entry _ _ I _ _ _ _ He Hi) as (q & Hq & Hn).
    pose proof (nth_error_lt _ _ _ Hn) as Hl. exists q.
    destruct (in_dec Nat.eq_dec s (map fst (c_seqs c))) as [Hs|Hs].
    - apply in_map_fst in Hs. destruct Hs as [id' Hid]. destruct (Hin _ _ Hid) as (q0 & Hq0 & -> & _ & Hn').
      rewrite Hq in Hq0; inversion Hq0; subst q0. exists (attached_new c q). repeat split; auto.
      simpl. rewrite nth_error_app1; auto.
    - exists q. rewrite Hout by auto. auto. }
  split.
  - intros e c' H. apply nth_error_snoc in H. destruct H as [[H _]|[_ ->]]; auto. eapply si_ok; eauto.
  - intros e c' H. apply nth_error_snoc in H. destruct H as [[H _]|[_ ->]]; auto. eapply si_nodup; eauto.
  - intros e c' s id H Hi. apply nth_error_snoc in H. destruct H as [[H _]|[_ ->]].
    + destruct (Hold _ _ _ _ H Hi) as (q & q' & Hq & Hq' & Hl & _ & Hn). exists q'. split; auto.
      destruct (si_entry _ _ I _ _ _ _ H Hi) as (q1 & Hq1 & Hn1). rewrite Hq in Hq1; inversion Hq1; subst q1. congruence.
    + destruct (Hin _ _ Hi) as (q & Hq & -> & _ & Hn). eexists. split; [exact Hn|]. simpl. apply nth_error_app_last.
  - intros e1 e2 c1 c2 s id1 id2 H1 H2 Hi1 Hi2 Hl.
    apply nth_error_snoc in H1. apply nth_error_snoc in H2.
    destruct H1 as [[H1 _]|[-> ->]], H2 as [[H2 Hl2]|[-> ->]]; try lia.
    + eapply (si_order _ _ I e1 e2); eauto.
    + destruct (Hold _ _ _ _ H1 Hi1) as (q & q' & Hq & Hq' & Hl1 & _).
      destruct (Hin _ _ Hi2) as (q2 & Hq2 & -> & _). rewrite Hq in Hq2; inversion Hq2; subst. auto.
  - intros s q' id Hq' Hl. destruct (Hback _ _ Hq') as (q & Hq & [[Hi ->]|[Hns ->]]).
    + simpl in Hl. rewrite app_length in Hl. simpl in Hl.
      destruct (Nat.eq_dec id (length (s_entries q))) as [->|Hne].
      * exists (length cs), c. split; auto. apply nth_error_app_last.
      * destruct (si_onto _ _ I _ _ id Hq) as (e & c' & He & Hi'); [lia|].
        exists e, c'. split; auto. apply nth_error_snoc_old; auto.
    + destruct (si_onto _ _ I _ _ id Hq) as (e & c' & He & Hi'); [lia|].
      exists e, c'. split; auto. apply nth_error_snoc_old; auto.
  - intros e c' s id q' H Hi Hq' Hlc. apply nth_error_snoc in H. destruct H as [[H _]|[_ ->]].
    + destruct (Hold _ _ _ _ H Hi) as (q & q1 & Hq & Hq1 & Hl & Hc & _). rewrite Hq' in Hq1; inversion Hq1; subst q1.
      eapply (si_before _ _ I); eauto. lia.
    + destruct (Hin _ _ Hi) as (q & Hq & -> & _ & Hn). rewrite Hq' in Hn; inversion Hn; subst q'. simpl in Hlc.
      pose proof (sinv_cursor_le _ _ _ _ I Hq). lia.
  - intros e c' s id q' H Hi Hq' Hlc. apply nth_error_snoc in H. destruct H as [[H _]|[_ ->]]; auto.
    destruct (Hold _ _ _ _ H Hi) as (q & q1 & Hq & Hq1 & Hl & Hc & _). rewrite Hq' in Hq1; inversion Hq1; subst q1.
    eapply (si_after _ _ I); eauto. lia.
  - intros s q' Hq'. destruct (Hback _ _ Hq') as (q & Hq & [[Hi ->]|[Hns ->]]); simpl.
    + destruct (si_cursor _ _ I _ _ Hq) as [|(e & c' & He & Hi' & Hp)]; auto. right.
      exists e, c'. split; auto. apply nth_error_snoc_old; auto.
    + destruct (si_cursor _ _ I _ _ Hq) as [|(e & c' & He & Hi' & Hp)]; auto. right.
      exists e, c'. split; auto. apply nth_error_snoc_old; auto.
Qed.

(** A new sequence. *)
Lemma sinv_new_seq ss cs st : SInv ss cs -> SInv (ss ++ [seq_new st]) cs.
Proof.
  intros I. split.
  - apply (si_ok _ _ I).
  - apply (si_nodup _ _ I).
  - intros e c s id He Hi. destruct (si_entry _ _ I _ _ _ _ He Hi) as (q & Hq & Hn).
    exists q. split; auto. apply nth_error_snoc_old; auto.
  - apply (si_order _ _ I).
  - intros s q id Hq Hl. apply nth_error_snoc in Hq. destruct Hq as [[Hq _]|[_ ->]]; [|simpl in Hl; lia].
    eapply si_onto; eauto.
  - intros e c s id q He Hi Hq Hl. apply nth_error_snoc in Hq. destruct Hq as [[Hq _]|[_ ->]]; [|simpl in Hl; lia].
    eapply (si_before _ _ I); eauto.
  - intros e c s id q He Hi Hq Hl. apply nth_error_snoc in Hq. destruct Hq as [[Hq _]|[-> ->]].
    + eapply (si_after _ _ I); eauto.
    + destruct (si_entry _ _ I _ _ _ _ He Hi) as (q & Hq & _). apply nth_error_lt in Hq. lia.
  - intros s q Hq. apply nth_error_snoc in Hq. destruct Hq as [[Hq _]|[_ ->]]; auto.
    apply (si_cursor _ _ I _ _ Hq).
Qed.

(** ** Queries never fail *)

Lemma priority_of_ok ss cs e c s id q : SInv ss cs ->
  nth_error cs e = Some c -> In (s, id) (c_seqs c) -> nth_error ss s = Some q ->
  seq_priority_of q id =
    if seq_is_consumable q id
    then Ret (Some (match s_strategy q with
                    | Lazy => (INT_MAX - (Z.of_nat id - Z.of_nat (s_cursor q)))%Z
                    | Greedy => (Z.of_nat id - Z.of_nat (s_cursor q))%Z
                    end))
    else Ret None.
Proof.
  intros I He Hi Hq. destruct (si_entry _ _ I _ _ _ _ He Hi) as (q0 & Hq0 & Hn).
  rewrite Hq in Hq0; inversion Hq0; subst q0.
  unfold seq_priority_of, seq_is_valid. pose proof (nth_error_lt _ _ _ Hn) as Hl. apply Nat.ltb_lt in Hl. rewrite Hl. unfold assert_ at 1.
  destruct (seq_is_consumable q id) eqn:Hc; auto.
  unfold strategy_priority. unfold seq_is_consumable in Hc. rewrite Hn in Hc. rewrite !andb_true_iff in Hc.
  destruct Hc as [[-> _] _]. reflexivity.
Qed.

(** Priority of an element of a sequence. *)
Definition priority (q : bseq) (id : nat) : Z :=
  match s_strategy q with
  | Lazy => (INT_MAX - (Z.of_nat id - Z.of_nat (s_cursor q)))%Z
  | Greedy => (Z.of_nat id - Z.of_nat (s_cursor q))%Z
  end.

Definition consumable_in (ss : seq_store) (p : nat * nat) : bool :=
  match nth_error ss (fst p) with
  | Some q => seq_is_consumable q (snd p)
  | None => false
  end.
Definition rating_in (ss : seq_store) (p : nat * nat) : rating :=
  match nth_error ss (fst p) with
  | Some q => mkRating (priority q (snd p)) (fst p)
  | None => mkRating 0 (fst p)
  end.

Lemma collect_ratings_ok ss cs e c : SInv ss cs -> nth_error cs e = Some c ->
  forall l, incl l (c_seqs c) ->
  collect_ratings ss l =
    Ret (map (rating_in ss) (filter (consumable_in ss) l),
         map fst (filter (fun p => negb (consumable_in ss p)) l)).
Proof.
  intros I He l. induction l as [|[s id] l IH]; intros Hincl; simpl; auto.
  assert (Hi : In (s, id) (c_seqs c)) by (apply Hincl; left; auto).
  destruct (si_entry _ _ I _ _ _ _ He Hi) as (q & Hq & Hn).
  unfold with_seq. rewrite Hq. rewrite (priority_of_ok _ _ _ _ _ _ _ I He Hi Hq).
  assert (Hci : consumable_in ss (s, id) = seq_is_consumable q id).
  { unfold consumable_in. cbn [fst snd]. rewrite Hq. reflexivity. }
  rewrite Hci, IH by (intros x Hx; apply Hincl; right; auto).
  destruct (seq_is_consumable q id) eqn:Hc; cbn [obind negb map fst]; auto.
  unfold rating_in at 2, priority. cbn [fst snd]. rewrite Hq. reflexivity.
Qed.

Lemma control_state_ok ss cs e c : SInv ss cs -> nth_error cs e = Some c ->
  control_state_of ss c =
    Ret (if (c_count c =? c_max c)%Z then StSaturated (c_min c) (c_max c) (c_count c) (map fst (c_seqs c))
         else if control_is_applicable ss c
         then StApplicable (c_min c) (c_max c) (c_count c) (map (rating_in ss) (c_seqs c))
         else StInapplicable (c_min c) (c_max c) (c_count c)
                (map (rating_in ss) (filter (consumable_in ss) (c_seqs c)))
                (map fst (filter (fun p => negb (consumable_in ss p)) (c_seqs c)))).
Proof.
  intros I He. unfold control_state_of. pose proof (si_ok _ _ I _ _ He) as (Hmm & Hmax & Hcnt).
  destruct (Z.eqb_spec (c_count c) (c_max c)) as [|Hne]; auto.
  rewrite (collect_ratings_ok _ _ _ _ I He _ (incl_refl _)). simpl.
  assert (Happ : control_is_applicable ss c = forallb (consumable_in ss) (c_seqs c)).
  { unfold control_is_applicable. replace (c_count c <? c_max c)%Z with true by (symmetry; apply Z.ltb_lt; lia).
    simpl. induction (c_seqs c) as [|[s id] l IHl]; simpl; auto. rewrite IHl. reflexivity. }
  rewrite Happ. destruct (forallb (consumable_in ss) (c_seqs c)) eqn:Hall.
  - assert (Hf : filter (fun p => negb (consumable_in ss p)) (c_seqs c) = []).
    { clear -Hall. induction (c_seqs c) as [|p l IHl]; simpl in *; auto.
      apply andb_true_iff in Hall. destruct Hall as [-> H]. simpl. auto. }
    assert (Hf' : filter (consumable_in ss) (c_seqs c) = c_seqs c).
    { clear -Hall. induction (c_seqs c) as [|p l IHl]; simpl in *; auto.
      apply andb_true_iff in Hall. destruct Hall as [-> H]. simpl. f_equal. auto. }
    rewrite Hf, Hf'. reflexivity.
  - destruct (map fst (filter (fun p => negb (consumable_in ss p)) (c_seqs c))) eqn:Hf; auto. exfalso.
    apply map_eq_nil in Hf. clear -Hall Hf. induction (c_seqs c) as [|p l IHl]; simpl in *; [discriminate|].
    destruct (consumable_in ss p); simpl in *; auto. discriminate.
Qed.

(** Applicability expressed by counts only. *)
Lemma applicable_by_counts ss cs e c : SInv ss cs -> nth_error cs e = Some c ->
  control_is_applicable ss c = true <->
  (c_count c < c_max c)%Z /\
  (forall s, In s (map fst (c_seqs c)) -> forall e' c', nth_error cs e' = Some c' -> In s (map fst (c_seqs c')) ->
     (e' < e -> (c_min c' <= c_count c')%Z) /\ (e < e' -> c_count c' = 0%Z)).
Proof.
  intros I He. rewrite is_applicable_spec. split; intros [Hlt H]; split; auto.
  - intros s Hs. apply in_map_fst in Hs. destruct Hs as [id Hi]. destruct (H _ _ Hi) as (q & Hq & Hc).
    apply (consumable_spec _ _ _ _ _ _ _ I He Hi Hq Hlt). auto.
  - intros s id Hi. destruct (si_entry _ _ I _ _ _ _ He Hi) as (q & Hq & _). exists q. split; auto.
    apply (consumable_spec _ _ _ _ _ _ _ I He Hi Hq Hlt). apply H. apply in_map_fst; eauto.
Qed.

(** ** Positions: the id of an element is the number of elements attached before *)

Definition attached_in (s : nat) (c : control) : bool := existsb (fun p => fst p =? s) (c_seqs c).

Lemma attached_in_spec s c : attached_in s c = true <-> In s (map fst (c_seqs c)).
Proof.
  unfold attached_in. rewrite existsb_exists, in_map_iff. split; intros (p & H1 & H2); exists p; split; auto.
  - apply Nat.eqb_eq; auto.
  - apply Nat.eqb_eq; auto.
Qed.

Definition id_in (s : nat) (c : control) : nat :=
  match find (fun p => fst p =? s) (c_seqs c) with
  | Some p => snd p
  | None => 0
  end.

Lemma id_in_spec s c : In s (map fst (c_seqs c)) -> In (s, id_in s c) (c_seqs c).
Proof.
  intros H. unfold id_in. destruct (find _ _) as [[s' id]|] eqn:E.
  - apply find_some in E. simpl in E. destruct E as [E1 E2]. apply Nat.eqb_eq in E2. subst. auto.
  - apply in_map_iff in H. destruct H as (p & Hp & Hin). pose proof (find_none _ _ E p Hin) as F. simpl in F.
    apply Nat.eqb_neq in F. congruence.
Qed.

Lemma in_firstn_nth {A} (l : list A) n x : In x (firstn n l) <-> exists i, i < n /\ nth_error l i = Some x.
Proof.
  revert n. induction l as [|a l IH]; intros [|n]; simpl; split; try tauto; try (intros (i & Hi & Hn); lia).
  - intros (i & _ & Hn). destruct i; discriminate.
  - intros [->|Hin]; [exists 0; split; auto; lia|]. apply IH in Hin. destruct Hin as (i & Hi & Hn). exists (S i). split; auto. lia.
  - intros (i & Hi & Hn). destruct i; simpl in Hn; [left; congruence|]. right. apply IH. exists i. split; auto. lia.
Qed.

Lemma filter_ids_nodup ss cs s n : SInv ss cs ->
  NoDup (map (id_in s) (filter (attached_in s) (firstn n cs))).
Proof.
  intros I. induction n as [|n IH]; [constructor|].
  destruct (nth_error cs n) as [c|] eqn:Hn.
  - assert (E : firstn (S n) cs = firstn n cs ++ [c]).
    { clear IH I. revert n Hn. induction cs as [|a cs IH]; intros [|n] Hn; simpl in *; try discriminate.
      - inversion Hn; auto.
      - f_equal. apply IH; auto. }
    rewrite E, filter_app, map_app. simpl. destruct (attached_in s c) eqn:Ha; simpl; [|rewrite app_nil_r; auto].
    apply NoDup_app_snoc; auto. intros Hin.
    apply in_map_iff in Hin. destruct Hin as (c' & Hid & Hc'). apply filter_In in Hc'. destruct Hc' as [Hc' Ha'].
    apply in_firstn_nth in Hc'. destruct Hc' as (i & Hi & Hni).
    apply attached_in_spec, id_in_spec in Ha. apply attached_in_spec, id_in_spec in Ha'.
    pose proof (si_order _ _ I _ _ _ _ _ _ _ Hni Hn Ha' Ha Hi). lia.
  - assert (E : firstn (S n) cs = firstn n cs).
    { apply nth_error_None in Hn. rewrite !firstn_all2; auto; lia. }
    rewrite E. auto.
Qed.

Lemma member_pos ss cs e c s id : SInv ss cs -> nth_error cs e = Some c -> In (s, id) (c_seqs c) ->
  id = length (filter (attached_in s) (firstn e cs)).
Proof.
  intros I He Hin. rewrite <- (map_length (id_in s)).
  destruct (si_entry _ _ I _ _ _ _ He Hin) as (q & Hq & Hent). apply nth_error_lt in Hent.
  assert (H1 : length (map (id_in s) (filter (attached_in s) (firstn e cs))) <= length (seq 0 id)).
  { apply NoDup_incl_length; [eapply filter_ids_nodup; eauto|]. intros j Hj.
    apply in_map_iff in Hj. destruct Hj as (c' & <- & Hc'). apply filter_In in Hc'. destruct Hc' as [Hc' Ha'].
    apply in_firstn_nth in Hc'. destruct Hc' as (i & Hi & Hni). apply attached_in_spec, id_in_spec in Ha'.
    apply in_seq. pose proof (si_order _ _ I _ _ _ _ _ _ _ Hni He Ha' Hin Hi). lia. }
  assert (H2 : length (seq 0 id) <= length (map (id_in s) (filter (attached_in s) (firstn e cs)))).
  { apply NoDup_incl_length; [apply seq_NoDup|]. intros j Hj. apply in_seq in Hj.
    destruct (si_onto _ _ I s q j Hq ltac:(lia)) as (e' & c' & He' & Hin').
    assert (Ha' : attached_in s c' = true) by (apply attached_in_spec, in_map_fst; eauto).
    apply in_map_iff. exists c'. split.
    - assert (Hx : In (s, id_in s c') (c_seqs c')) by (apply id_in_spec, attached_in_spec; auto).
      eapply nodup_fst_inj; [apply (si_nodup _ _ I _ _ He')|exact Hx|exact Hin'].
    - apply filter_In. split; auto. apply in_firstn_nth. exists e'. split; auto.
      destruct (Nat.lt_trichotomy e' e) as [|[->|Hlt]]; auto.
      + rewrite He in He'; inversion He'; subst c'.
        pose proof (nodup_fst_inj _ _ _ _ (si_nodup _ _ I _ _ He) Hin Hin'). lia.
      + pose proof (si_order _ _ I _ _ _ _ _ _ _ He He' Hin Hin' Hlt). lia. }
  rewrite seq_length in *. lia.
Qed.

Lemma entries_length ss cs s q : SInv ss cs -> nth_error ss s = Some q ->
  length (s_entries q) = length (filter (attached_in s) cs).
Proof.
  intros I Hq. rewrite <- (map_length (id_in s)), <- (firstn_all cs).
  assert (H1 : length (map (id_in s) (filter (attached_in s) (firstn (length cs) cs))) <= length (seq 0 (length (s_entries q)))).
  { apply NoDup_incl_length; [eapply filter_ids_nodup; eauto|]. intros j Hj.
    apply in_map_iff in Hj. destruct Hj as (c' & <- & Hc'). apply filter_In in Hc'. destruct Hc' as [Hc' Ha'].
    apply in_firstn_nth in Hc'. destruct Hc' as (i & Hi & Hni). apply attached_in_spec, id_in_spec in Ha'.
    apply in_seq. destruct (si_entry _ _ I _ _ _ _ Hni Ha') as (q' & Hq' & Hent). apply nth_error_lt in Hent.
    rewrite Hq in Hq'. inversion Hq'; subst. lia. }
  assert (H2 : length (seq 0 (length (s_entries q))) <= length (map (id_in s) (filter (attached_in s) (firstn (length cs) cs)))).
  { apply NoDup_incl_length; [apply seq_NoDup|]. intros j Hj. apply in_seq in Hj.
    destruct (si_onto _ _ I s q j Hq ltac:(lia)) as (e' & c' & He' & Hin').
    assert (Ha' : attached_in s c' = true) by (apply attached_in_spec, in_map_fst; eauto).
    apply in_map_iff. exists c'. split.
    - assert (Hx : In (s, id_in s c') (c_seqs c')) by (apply id_in_spec, attached_in_spec; auto).
      eapply nodup_fst_inj; [apply (si_nodup _ _ I _ _ He')|exact Hx|exact Hin'].
    - apply filter_In. split; auto. apply in_firstn_nth. exists e'. split; auto. eapply nth_error_lt; eauto. }
  rewrite seq_length in *. lia.
Qed.

Lemma filter_nth_split {A} (f : A -> bool) (l : list A) e x : nth_error l e = Some x -> f x = true ->
  nth_error (filter f l) (length (filter f (firstn e l))) = Some x.
Proof.
  revert e. induction l as [|a l IH]; intros [|e] Hn Hf; simpl in *; try discriminate.
  - inversion Hn; subst. rewrite Hf. reflexivity.
  - destruct (f a); simpl; auto.
Qed.

(** The states of the elements of a sequence, in the order of attachment. *)
Lemma entries_members ss cs s q : SInv ss cs -> nth_error ss s = Some q ->
  s_entries q = map entry_of (filter (attached_in s) cs).
Proof.
  intros I Hq. apply nth_error_ext_eq; [rewrite map_length; eapply entries_length; eauto|].
  intros i x Hx. pose proof (nth_error_lt _ _ _ Hx) as Hi.
  destruct (si_onto _ _ I s q i Hq Hi) as (e & c & He & Hin).
  destruct (si_entry _ _ I _ _ _ _ He Hin) as (q' & Hq' & Hent).
  rewrite Hq in Hq'; inversion Hq'; subst q'. rewrite Hx in Hent. inversion Hent; subst.
  apply map_nth_error. rewrite (member_pos _ _ _ _ _ _ I He Hin).
  apply filter_nth_split; auto. apply attached_in_spec, in_map_fst; eauto.
Qed.

Definition met (c : control) : bool := (c_min c <=? c_count c)%Z.

Fixpoint prefix_len {A} (f : A -> bool) (l : list A) : nat :=
  match l with
  | [] => 0
  | x :: l' => if f x then S (prefix_len f l') else 0
  end.

Lemma find_not_done_prefix l :
  find_not_done l = if forallb state_done l then None else Some (prefix_len state_done l).
Proof.
  induction l as [|a l IH]; simpl; auto. destruct (state_done a); simpl; auto.
  rewrite IH. destruct (forallb state_done l); reflexivity.
Qed.

Lemma prefix_len_skip {A} (f : A -> bool) n l : n <= length l -> forallb f (firstn n l) = true ->
  n + prefix_len f (skipn n l) = prefix_len f l.
Proof.
  revert l. induction n as [|n IH]; intros [|a l] Hn Hf; simpl in *; auto; try lia.
  apply andb_true_iff in Hf. destruct Hf as [-> Hf]. rewrite <- (IH l); auto. lia.
Qed.

Lemma done_met c : state_done (entry_of c) = met c.
Proof.
  unfold met. destruct (state_done (entry_of c)) eqn:E.
  - apply state_done_entry in E. symmetry. apply Z.leb_le; auto.
  - symmetry. apply not_true_is_false. intros H. apply Z.leb_le, state_done_entry in H. congruence.
Qed.

Lemma prefix_len_map {A B} (f : B -> bool) (g : A -> B) l : prefix_len f (map g l) = prefix_len (fun x => f (g x)) l.
Proof. induction l; simpl; auto. destruct (f (g a)); auto. Qed.

Lemma prefix_len_ext {A} (f g : A -> bool) l : (forall x, f x = g x) -> prefix_len f l = prefix_len g l.
Proof. intros H. induction l; simpl; auto. rewrite H, IHl. reflexivity. Qed.

(** What the destructor of a sequence finds: the elements before the first unmet one are counted. *)
Lemma dtor_spec ss cs s q : SInv ss cs -> nth_error ss s = Some q ->
  seq_dtor_error q =
    let ms := filter (attached_in s) cs in
    if forallb met ms then None else Some (prefix_len met ms, length ms).
Proof.
  intros I Hq. cbv zeta. unfold seq_dtor_error. rewrite find_not_done_prefix.
  pose proof (sinv_cursor_le _ _ _ _ I Hq) as Hcur.
  assert (Hpre : forallb state_done (firstn (s_cursor q) (s_entries q)) = true).
  { apply forallb_forall. intros x Hx. apply in_firstn_nth in Hx. destruct Hx as (i & Hi & Hx).
    destruct (si_onto _ _ I s q i Hq ltac:(eapply nth_error_lt; eauto)) as (e & c & He & Hin).
    destruct (si_entry _ _ I _ _ _ _ He Hin) as (q' & Hq' & Hent).
    rewrite Hq in Hq'; inversion Hq'; subst q'. rewrite Hx in Hent. inversion Hent; subst.
    apply state_done_entry. eapply (si_before _ _ I); eauto. }
  assert (Hall : forallb state_done (skipn (s_cursor q) (s_entries q)) = forallb met (filter (attached_in s) cs)).
  { rewrite <- (andb_true_l (forallb state_done (skipn _ _))), <- Hpre, <- forallb_app, firstn_skipn.
    rewrite (entries_members _ _ _ _ I Hq). rewrite forallb_map. 
    induction (filter (attached_in s) cs) as [|c l IH]; simpl; auto. rewrite done_met, IH. reflexivity. }
  rewrite Hall. destruct (forallb met (filter (attached_in s) cs)); auto.
  rewrite (prefix_len_skip _ _ _ Hcur Hpre), (entries_members _ _ _ _ I Hq), prefix_len_map, map_length.
  rewrite (prefix_len_ext _ met); auto. intros; apply done_met.
Qed.
