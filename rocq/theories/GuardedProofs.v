(** * GuardedProofs: programs which guard the library by a mutex. *)

From Verif Require Import Base Lib Sequence Control Signature Printer Reports Expectation Builder World WorldSpec CountProofs FrameSpec
  Conc ConcSpec ConcProofs PropConc ConcOrder Race RaceSpec RaceProofs Lifetime LifetimeSpec Colls CollsSpec Guarded GuardedSpec.

(** ** Positions in traces *)

Lemma gevents_app release acts1 : forall c c1 acts2, gruns release c acts1 c1 -> gevents release c (acts1 ++ acts2) = gevents release c acts1 ++ gevents release c1 acts2.
Proof.
  induction acts1 as [|[t a] acts1 IH]; intros c c1 acts2 H; inversion H; subst; auto.
  cbn [app gevents]. match goal with E : gstep _ _ _ _ = GNext _ _ |- _ => rewrite E end. rewrite <- app_assoc. f_equal. apply IH; auto.
Qed.

Lemma gevents_cons release c t a c1 r acts : gstep release c t a = GNext c1 r -> gevents release c ((t, a) :: acts) = map (pair (t, a)) (gev_of release c t a) ++ gevents release c1 acts.
Proof. intros H. cbn [gevents]. rewrite H. reflexivity. Qed.

Lemma gevents_at release acts : forall c cN i t a y, gruns release c acts cN -> nth_error (gevents release c acts) i = Some (t, a, y) ->
  exists A B c1 c1' r k, acts = A ++ (t, a) :: B /\ gruns release c A c1 /\ gstep release c1 t a = GNext c1' r /\ gruns release c1' B cN /\
    i = length (gevents release c A) + k /\ nth_error (gev_of release c1 t a) k = Some y.
Proof.
  induction acts as [|[t0 a0] acts IH]; intros c cN i t a y H Hi; [destruct i; discriminate|]. inversion H; subst.
  match goal with E : gstep _ _ _ _ = GNext ?q ?r0 |- _ => rename E into Hs; rename q into c1; rename r0 into r end. rewrite (gevents_cons _ _ _ _ _ _ _ Hs) in Hi.
  destruct (Nat.lt_ge_cases i (length (map (pair (t0, a0)) (gev_of release c t0 a0)))) as [Hlt|Hge].
  - rewrite nth_error_app1 in Hi by auto. apply nth_map_pair in Hi. destruct Hi as [E Hi]. injection E as -> ->.
    exists [], acts, c, c1, r, i. cbn [app gevents length]. repeat split; auto. constructor.
  - rewrite nth_error_app2 in Hi by auto. destruct (IH _ _ _ _ _ _ ltac:(eassumption) Hi) as (A & B & c2 & c2' & r' & k & -> & H1 & H2 & H3 & H4 & H5).
    exists ((t0, a0) :: A), B, c2, c2', r', k. split; [reflexivity|]. split; [econstructor; eauto|]. split; auto. split; auto. split; auto.
    rewrite (gevents_cons _ _ _ _ _ _ _ Hs), app_length. lia.
Qed.

(** Two events of a trace: in one step, or in two. *)
Lemma gevents_two release acts : forall c cN i j t a y t' b z, gruns release c acts cN -> i < j ->
  nth_error (gevents release c acts) i = Some (t, a, y) -> nth_error (gevents release c acts) j = Some (t', b, z) ->
  exists A c1 c1' r k, gruns release c A c1 /\ gstep release c1 t a = GNext c1' r /\ nth_error (gev_of release c1 t a) k = Some y /\
    i = length (gevents release c A) + k /\
    ((t' = t /\ b = a /\ exists k', k < k' /\ nth_error (gev_of release c1 t a) k' = Some z) \/
     (exists B C c2 c2' r' k', acts = A ++ (t, a) :: B ++ (t', b) :: C /\ gruns release c1' B c2 /\ gstep release c2 t' b = GNext c2' r' /\
        nth_error (gev_of release c2 t' b) k' = Some z /\
        j = length (gevents release c A) + (length (gev_of release c1 t a) + (length (gevents release c1' B) + k')))).
Proof.
  induction acts as [|[t0 a0] acts IH]; intros c cN i j t a y t' b z H Hij Hi Hj; [destruct i; discriminate|]. inversion H; subst.
  match goal with E : gstep _ _ _ _ = GNext ?q ?r0 |- _ => rename E into Hs; rename q into c1; rename r0 into r end. rewrite (gevents_cons _ _ _ _ _ _ _ Hs) in Hi, Hj.
  destruct (Nat.lt_ge_cases i (length (map (pair (t0, a0)) (gev_of release c t0 a0)))) as [Hlt|Hge].
  - rewrite nth_error_app1 in Hi by auto. apply nth_map_pair in Hi. destruct Hi as [E Hi]. injection E as -> ->.
    exists [], c, c1, r, i. split; [constructor|]. split; auto. split; auto. split; [reflexivity|].
    destruct (Nat.lt_ge_cases j (length (map (pair (t0, a0)) (gev_of release c t0 a0)))) as [Hlt'|Hge'].
    + left. rewrite nth_error_app1 in Hj by auto. apply nth_map_pair in Hj. destruct Hj as [E Hj]. injection E as -> ->. split; auto. split; auto. eauto.
    + right. rewrite nth_error_app2 in Hj by auto. destruct (gevents_at _ _ _ _ _ _ _ _ ltac:(eassumption) Hj) as (B & C & c2 & c2' & r' & k & -> & H1 & H2 & H3 & H4 & H5).
      exists B, C, c2, c2', r', k. split; [reflexivity|]. split; auto. split; auto. split; auto. cbn [gevents length]. rewrite map_length in *. lia.
  - rewrite nth_error_app2 in Hi by auto. rewrite nth_error_app2 in Hj by lia.
    set (n := length (map (pair (t0, a0)) (gev_of release c t0 a0))) in *. assert (Hij' : i - n < j - n) by lia.
    destruct (IH _ _ _ _ _ _ _ _ _ _ ltac:(eassumption) Hij' Hi Hj) as (A & c2 & c2' & r' & k & H1 & H2 & H3 & H4 & Hd). unfold n in *.
    exists ((t0, a0) :: A), c2, c2', r', k. split; [econstructor; eauto|]. split; auto. split; auto.
    split. { rewrite (gevents_cons _ _ _ _ _ _ _ Hs), app_length. lia. }
    destruct Hd as [Hd|(B & C & c3 & c3' & r'' & k' & -> & G1 & G2 & G3 & G4)]; [left; exact Hd|]. right. exists B, C, c3, c3', r'', k'.
    split; [reflexivity|]. split; auto. split; auto. split; auto. rewrite (gevents_cons _ _ _ _ _ _ _ Hs), app_length. lia.
Qed.

(** The trace around two steps. *)
Lemma gevents_trace release c A c1 t a c1' r B c2 t' b c2' r' C : gruns release c A c1 -> gstep release c1 t a = GNext c1' r -> gruns release c1' B c2 -> gstep release c2 t' b = GNext c2' r' ->
  gevents release c (A ++ (t, a) :: B ++ (t', b) :: C) =
  gevents release c A ++ map (pair (t, a)) (gev_of release c1 t a) ++ gevents release c1' B ++ map (pair (t', b)) (gev_of release c2 t' b) ++ gevents release c2' C.
Proof.
  intros H1 H2 H3 H4. rewrite (gevents_app _ _ _ _ _ H1), (gevents_cons _ _ _ _ _ _ _ H2), (gevents_app _ _ _ _ _ H3), (gevents_cons _ _ _ _ _ _ _ H4). reflexivity.
Qed.


(** ** Mutexes *)

Definition HU (g : gworld) : Prop := NoDup (map fst (g_held g)).

Lemma holder_has g m t : HU g -> (holder g m = Some t <-> has g m t).
Proof.
  unfold HU, holder, has. induction (g_held g) as [|[m0 t0] l IH]; cbn [find map fst In]; intros N; [split; [discriminate|intros []]|]. inversion N; subst.
  destruct (Nat.eqb_spec m0 m) as [->|Hne]; cbn [snd].
  - split; intros H.
    + injection H as ->. left. reflexivity.
    + destruct H as [H|H]; [congruence|]. exfalso. apply (in_map fst) in H. auto.
  - rewrite IH by auto. split; intros H; [auto|]. destruct H as [H|H]; [congruence|auto].
Qed.

Lemma holder_none g m : holder g m = None <-> forall t, ~ has g m t.
Proof.
  unfold holder, has. induction (g_held g) as [|[m0 t0] l IH]; cbn [find In fst]; [split; auto|]. destruct (Nat.eqb_spec m0 m) as [->|Hne].
  - split; [discriminate|]. intros H. exfalso. apply (H t0). auto.
  - rewrite IH. split; intros H t; specialize (H t); [intros [E|E]; [congruence|auto]|auto].
Qed.

Lemma filter_nodup l m : NoDup (map fst l) -> NoDup (map (@fst nat nat) (filter (fun p => negb (fst p =? m)) l)).
Proof.
  induction l as [|[a b] l IH]; cbn [map filter fst]; auto. intros N. inversion N; subst. destruct (negb (a =? m)); cbn [map fst]; auto. constructor; auto.
  intros H. apply in_map_iff in H. destruct H as ([a' b'] & E & H). cbn in E. subst. apply filter_In in H. destruct H as [H _]. apply (in_map fst) in H. auto.
Qed.

Lemma gstep_hu release g t x g' r : HU g -> gstep release g t x = GNext g' r -> HU g'.
Proof.
  intros N H. destruct x as [m|m|a]; cbn [gstep] in H.
  - destruct (holder g m) as [t'|] eqn:E; [destruct (t' =? t); discriminate|]. injection H as <- _. unfold HU. cbn [g_held map fst]. constructor; auto.
    intros Hi. apply in_map_iff in Hi. destruct Hi as ([m0 t0] & E0 & Hi). cbn in E0. subst. rewrite holder_none in E. exact (E t0 Hi).
  - destruct (holder g m) as [t'|]; [|discriminate]. destruct (t' =? t); [|discriminate]. injection H as <- _. apply filter_nodup. exact N.
  - destruct (cstep release (gc g) t a); try discriminate. injection H as <- _. exact N.
Qed.

Lemma gruns_hu release g acts g' : gruns release g acts g' -> HU g -> HU g'.
Proof. induction 1; auto. intros. eauto using gstep_hu. Qed.
Lemma hu_init n : HU (ginit n).
Proof. constructor. Qed.

(** Which thread has a mutex after a step. *)
Lemma gstep_has release g t x g' r m u : HU g -> gstep release g t x = GNext g' r ->
  (has g' m u <-> (has g m u /\ ~ (x = GUnlock m /\ u = t)) \/ (x = GLock m /\ u = t)).
Proof.
  intros N H. pose proof H as H0. destruct x as [m0|m0|a]; cbn [gstep] in H.
  - destruct (holder g m0) as [t'|] eqn:E; [destruct (t' =? t); discriminate|]. injection H as <- _. unfold has. cbn [g_held In]. split.
    + intros [Hi|Hi]; [injection Hi as -> ->; auto|]. left. split; auto. intros [Q _]. discriminate.
    + intros [[Hi _]|[Hi ->]]; auto. injection Hi as ->. auto.
  - destruct (holder g m0) as [t'|] eqn:E; [|discriminate]. destruct (Nat.eqb_spec t' t) as [->|]; [|discriminate]. injection H as <- _. unfold has. cbn [g_held]. rewrite filter_In. cbn [fst].
    rewrite negb_true_iff, Nat.eqb_neq. split.
    + intros [Hi Hn]. left. split; auto. intros [Q _]. injection Q as ->. auto.
    + intros [[Hi Hn]|[Q _]]; [|discriminate]. split; auto. intros ->. apply Hn. split; auto. apply (holder_has g m0 u N) in Hi. congruence.
  - destruct (cstep release (gc g) t a); try discriminate. injection H as <- _. unfold has. cbn [g_held]. split; [left; split; auto; intros [Q _]; discriminate|].
    intros [[Hi _]|[Q _]]; [auto|discriminate].
Qed.

Lemma has_one g m t t' : HU g -> has g m t -> has g m t' -> t = t'.
Proof. intros N H1 H2. apply holder_has in H1, H2; auto. congruence. Qed.

(** Between the holdings of two threads the first one unlocks, and then the second one locks. *)
Lemma lock_since release B : forall g g' m t, HU g -> gruns release g B g' -> ~ has g m t -> has g' m t ->
  exists B1 B2 g1 g1' r, B = B1 ++ (t, GLock m) :: B2 /\ gruns release g B1 g1 /\ gstep release g1 t (GLock m) = GNext g1' r /\ gruns release g1' B2 g'.
Proof.
  induction B as [|[t0 x] B IH]; intros g g' m t N R H1 H2; inversion R; subst; [contradiction|].
  match goal with E : gstep _ _ _ _ = GNext ?q ?r0 |- _ => rename E into Hs; rename q into g1; rename r0 into r end.
  assert (D : has g1 m t \/ ~ has g1 m t).
  { unfold has. destruct (in_dec (fun a b : nat * nat => ltac:(decide equality; apply Nat.eq_dec)) (m, t) (g_held g1)); auto. }
  destruct D as [D|D].
  - apply (gstep_has _ _ _ _ _ _ _ _ N Hs) in D. destruct D as [[D _]|[-> ->]]; [contradiction|]. exists [], B, g, g1, r. repeat split; auto. constructor.
  - destruct (IH g1 g' m t) as (B1 & B2 & g2 & g2' & r' & -> & Q1 & Q2 & Q3); auto; [eapply gstep_hu; eauto|]. exists ((t0, x) :: B1), B2, g2, g2', r'. repeat split; auto. econstructor; eauto.
Qed.

Lemma unlock_since release B : forall g g' m t, HU g -> gruns release g B g' -> has g m t -> ~ has g' m t ->
  exists B1 B2 g1 g1' r, B = B1 ++ (t, GUnlock m) :: B2 /\ gruns release g B1 g1 /\ gstep release g1 t (GUnlock m) = GNext g1' r /\ gruns release g1' B2 g'.
Proof.
  induction B as [|[t0 x] B IH]; intros g g' m t N R H1 H2; inversion R; subst; [contradiction|].
  match goal with E : gstep _ _ _ _ = GNext ?q ?r0 |- _ => rename E into Hs; rename q into g1; rename r0 into r end.
  assert (D : has g1 m t \/ ~ has g1 m t).
  { unfold has. destruct (in_dec (fun a b : nat * nat => ltac:(decide equality; apply Nat.eq_dec)) (m, t) (g_held g1)); auto. }
  destruct D as [D|D].
  - destruct (IH g1 g' m t) as (B1 & B2 & g2 & g2' & r' & -> & Q1 & Q2 & Q3); auto; [eapply gstep_hu; eauto|]. exists ((t0, x) :: B1), B2, g2, g2', r'. repeat split; auto. econstructor; eauto.
  - assert (E : x = GUnlock m /\ t = t0).
    { destruct x as [m0|m0|a].
      - exfalso. apply D, (gstep_has _ _ _ _ _ _ _ _ N Hs). left. split; auto. intros [Q _]. discriminate.
      - destruct (Nat.eq_dec m0 m) as [->|Hn]; [destruct (Nat.eq_dec t t0) as [->|Hn']; auto|]; exfalso; apply D, (gstep_has _ _ _ _ _ _ _ _ N Hs); left; split; auto; intros [Q Q']; congruence.
      - exfalso. apply D, (gstep_has _ _ _ _ _ _ _ _ N Hs). left. split; auto. intros [Q _]. discriminate. }
    destruct E as [-> ->]. exists [], B, g, g1, r. repeat split; auto. constructor.
Qed.

Lemma unlocked_free release g t m g' r u : HU g -> gstep release g t (GUnlock m) = GNext g' r -> ~ has g' m u.
Proof.
  intros N Hs H. apply (gstep_has _ _ _ _ _ _ _ _ N Hs) in H. destruct H as [[H Hn]|[H _]]; [|discriminate]. apply Hn. split; auto.
  cbn [gstep] in Hs. destruct (holder g m) as [t'|] eqn:E; [|discriminate]. destruct (Nat.eqb_spec t' t) as [->|]; [|discriminate]. apply holder_has in H; auto. congruence.
Qed.

(** Two events of threads which hold the same mutex are ordered. *)
Lemma held_orders release g A g1 t x g1' r B g2 t' x' g2' r' C i j y z m : HU g -> gruns release g A g1 -> gstep release g1 t x = GNext g1' r -> gruns release g1' B g2 ->
  gstep release g2 t' x' = GNext g2' r' -> t <> t' -> has g1' m t -> has g2 m t' ->
  nth_error (gev_of release g1 t x) i = Some y -> nth_error (gev_of release g2 t' x') j = Some z ->
  ghb (gevents release g (A ++ (t, x) :: B ++ (t', x') :: C)) (length (gevents release g A) + i)
    (length (gevents release g A) + (length (gev_of release g1 t x) + (length (gevents release g1' B) + j))).
Proof.
  intros N RA Hs RB Hs' Hne H1 H2 Hi Hj.
  assert (N1 : HU g1) by eauto using gruns_hu. assert (N1' : HU g1') by eauto using gstep_hu. assert (N2 : HU g2) by eauto using gruns_hu.
  assert (H2' : ~ has g2 m t) by (intros Q; apply Hne; eauto using has_one).
  destruct (unlock_since _ _ _ _ _ _ N1' RB H1 H2') as (B1 & B2 & q & q' & rq & -> & Q1 & Q2 & Q3).
  assert (Nq : HU q) by eauto using gruns_hu. assert (Nq' : HU q') by eauto using gstep_hu.
  destruct (lock_since _ _ _ _ _ _ Nq' Q3 (unlocked_free _ _ _ _ _ _ t' Nq Q2) H2) as (B3 & B4 & p & p' & rp & -> & P1 & P2 & P3).
  assert (E : gevents release g1' (B1 ++ (t, GUnlock m) :: B3 ++ (t', GLock m) :: B4) =
    gevents release g1' B1 ++ [(t, GUnlock m, GUnlocked m)] ++ gevents release q' B3 ++ [(t', GLock m, GLocked m)] ++ gevents release p' B4).
  { rewrite (gevents_app _ _ _ _ _ Q1), (gevents_cons _ _ _ _ _ _ _ Q2), (gevents_app _ _ _ _ _ P1), (gevents_cons _ _ _ _ _ _ _ P2). reflexivity. }
  rewrite (gevents_trace _ _ _ _ _ _ _ _ _ _ _ _ _ _ _ RA Hs RB Hs'), E. rewrite !app_length. cbn [length].
  set (L0 := gevents release g A). set (S1 := gev_of release g1 t x) in *. set (L1 := gevents release g1' B1). set (L2 := gevents release q' B3). set (L3 := gevents release p' B4).
  set (S2 := gev_of release g2 t' x') in *. set (L4 := gevents release g2' C).
  set (tr := L0 ++ map (pair (t, x)) S1 ++ (L1 ++ [(t, GUnlock m, GUnlocked m)] ++ L2 ++ [(t', GLock m, GLocked m)] ++ L3) ++ map (pair (t', x')) S2 ++ L4).
  pose proof (nth_error_lt _ _ _ Hi) as Li. pose proof (nth_error_lt _ _ _ Hj) as Lj.
  assert (Ti : nth_error tr (length L0 + i) = Some (t, x, y)).
  { unfold tr. rewrite nth_error_app2 by lia. rewrite nth_error_app1 by (rewrite map_length; lia). replace (_ + i - _) with i by lia. rewrite nth_error_map, Hi. reflexivity. }
  assert (Tu : nth_error tr (length L0 + (length S1 + length L1)) = Some (t, GUnlock m, GUnlocked m)).
  { unfold tr. rewrite nth_error_app2 by lia. replace (_ + (_ + _) - _) with (length S1 + length L1) by lia. rewrite nth_error_app2 by (rewrite map_length; lia). rewrite map_length.
    replace (_ + _ - length S1) with (length L1) by lia. rewrite <- !app_assoc. rewrite nth_error_app2, Nat.sub_diag by lia. reflexivity. }
  assert (Tv : nth_error tr (length L0 + (length S1 + (length L1 + (1 + length L2)))) = Some (t', GLock m, GLocked m)).
  { unfold tr. rewrite nth_error_app2 by lia. replace (_ + _ - length L0) with (length S1 + (length L1 + (1 + length L2))) by lia. rewrite nth_error_app2 by (rewrite map_length; lia). rewrite map_length.
    replace (_ + _ - length S1) with (length L1 + (1 + length L2)) by lia. rewrite <- !app_assoc. rewrite nth_error_app2 by lia. replace (_ + _ - length L1) with (1 + length L2) by lia.
    cbn [app Nat.add nth_error]. rewrite nth_error_app2, Nat.sub_diag by lia. reflexivity. }
  assert (Tj : nth_error tr (length L0 + (length S1 + (length L1 + S (length L2 + S (length L3)) + j))) = Some (t', x', z)).
  { unfold tr. rewrite nth_error_app2 by lia. replace (_ + _ - length L0) with (length S1 + (length L1 + S (length L2 + S (length L3)) + j)) by lia. rewrite nth_error_app2 by (rewrite map_length; lia). rewrite map_length.
    replace (_ + _ - length S1) with (length L1 + S (length L2 + S (length L3)) + j) by lia. rewrite nth_error_app2; rewrite !app_length; cbn [length]; [|lia].
    replace (_ - _) with j by lia. rewrite nth_error_app1 by (rewrite map_length; lia). rewrite nth_error_map, Hj. reflexivity. }
  eapply ghb_trans; [eapply ghb_program; [|exact Ti|exact Tu]; lia|]. eapply ghb_trans; [eapply ghb_user; [|exact Tu|exact Tv]; lia|].
  eapply ghb_program; [|exact Tv|]; [|eapply eq_trans; [|exact Tj]; f_equal; lia]. lia.
Qed.

(** ** Guarded programs *)

Lemma guarded_app release m A : forall g g1 B, guarded release m g (A ++ B) -> gruns release g A g1 -> guarded release m g1 B.
Proof.
  induction A as [|[t x] A IH]; intros g g1 B H R; inversion R; subst; auto. inversion H; subst.
  match goal with E : gstep _ _ _ _ = _, E' : gstep _ _ _ _ = _ |- _ => rewrite E in E'; injection E' as <- _ end. eauto.
Qed.
Lemma protected_app release m p A : forall g g1 B, protected release m p g (A ++ B) -> gruns release g A g1 -> protected release m p g1 B.
Proof.
  induction A as [|[t x] A IH]; intros g g1 B H R; inversion R; subst; auto. inversion H; subst.
  match goal with E : gstep _ _ _ _ = _, E' : gstep _ _ _ _ = _ |- _ => rewrite E in E'; injection E' as <- _ end. eauto.
Qed.

Definition all_settled (g : gworld) : Prop := forall t, settled g t.

(** Either no call is under way, or one, by the thread which has the mutex, which was begun in such a state. *)
Definition JJ (release : bool) (n m : nat) (g : gworld) : Prop :=
  (serialised release (cinit n) (gc g) /\ all_settled g) \/
  exists g0 t mo ov args l, serialised release (cinit n) (gc g0) /\ all_settled g0 /\ cstep release (gc g0) t (AMatch mo ov args l) = CNext (gc g) RUnit /\ has g m t.

Lemma leave_settled g t th w log h : nth_error (c_threads (gc g)) t = Some th -> (forall t', t' <> t -> settled g t') -> all_settled (mkG (leave (gc g) t w None log) h).
Proof.
  intros Hth H t'. unfold settled. cbn [gc leave c_threads]. intros th' E. destruct (Nat.eq_dec t' t) as [->|Hn].
  - rewrite nth_error_upd_eq in E by (eapply nth_error_lt; eauto). injection E as <-. reflexivity.
  - rewrite nth_error_upd_neq in E by auto. exact (H _ Hn _ E).
Qed.

Lemma jj_step release n m g t x g' r : HU g -> JJ release n m g -> gstep release g t x = GNext g' r ->
  match x with GDo _ => has g m t | GUnlock m' => m' = m -> settled g t | GLock _ => True end -> JJ release n m g'.
Proof.
  intros N J Hs Hok. pose proof (gstep_has _ _ _ _ _ _ m t N Hs) as Hh.
  destruct x as [m0|m0|a].
  - (* lock *)
    assert (E : gc g' = gc g) by (cbn [gstep] in Hs; destruct (holder g m0) as [t'|]; [destruct (t' =? t); discriminate|]; injection Hs as <- _; reflexivity).
    destruct J as [[J1 J2]|(g0 & u & mo & ov & args & l & J1 & J2 & J3 & J4)].
    + left. rewrite E. split; auto. intros u. unfold settled. rewrite E. apply J2.
    + right. exists g0, u, mo, ov, args, l. rewrite E. repeat split; auto. apply (gstep_has _ _ _ _ _ _ m u N Hs). left. split; auto. intros [Q _]. discriminate.
  - assert (E : gc g' = gc g) by (cbn [gstep] in Hs; destruct (holder g m0) as [t'|]; [|discriminate]; destruct (t' =? t); [|discriminate]; injection Hs as <- _; reflexivity).
    destruct J as [[J1 J2]|(g0 & u & mo & ov & args & l & J1 & J2 & J3 & J4)].
    + left. rewrite E. split; auto. intros u. unfold settled. rewrite E. apply J2.
    + right. exists g0, u, mo, ov, args, l. rewrite E. repeat split; auto. apply (gstep_has _ _ _ _ _ _ m u N Hs). left. split; auto. intros [Q ->]. injection Q as ->.
      specialize (Hok eq_refl). pose proof (cstep_match _ _ _ _ _ _ _ _ _ J3) as (th & s & coll & Hth & _ & _ & _ & [(w' & k & _ & _ & Ec)|(w' & Hm & _)]).
      * specialize (Hok (mkThread (w_frames w') (w_uncaught w') (Some (k, call_of s args l, frontend_noexcept s)))). rewrite Ec in Hok. cbn [leave c_threads] in Hok.
        rewrite nth_error_upd_eq in Hok by (eapply nth_error_lt; eauto). specialize (Hok eq_refl). discriminate.
      * destruct (over_throws _ _ _ _ _ _ Hm) as [q Hq]. discriminate.
  - cbn [gstep] in Hs. destruct (cstep release (gc g) t a) as [c' r0| | |] eqn:Hc; try discriminate. injection Hs as <- <-.
    destruct J as [[J1 J2]|(g0 & u & mo & ov & args & l & J1 & J2 & J3 & J4)].
    + destruct a as [o|mo ov args l|].
      * left. cbn [gc]. split; [eapply se_op; eauto|]. apply cstep_op in Hc. destruct Hc as (th & v & Hth & _ & _ & _ & ->). eapply leave_settled; eauto.
      * pose proof (cstep_match _ _ _ _ _ _ _ _ _ Hc) as (th & s & coll & Hth & _ & _ & _ & [(w' & k & _ & -> & Ec)|(w' & Hm & Ec)]).
        { right. exists g, t, mo, ov, args, l. cbn [gc]. repeat split; auto. }
        { destruct (over_throws _ _ _ _ _ _ Hm) as [q ->]. left. cbn [gc]. split; [eapply se_failed; eauto|]. rewrite Ec. eapply leave_settled; eauto. }
      * exfalso. unfold cstep in Hc. destruct (nth_error (c_threads (gc g)) t) as [th|] eqn:Hth; [|discriminate]. rewrite (J2 t th Hth) in Hc. discriminate.
    + assert (u = t) by eauto using has_one. subst u.
      pose proof (cstep_match _ _ _ _ _ _ _ _ _ J3) as (th & s & coll & Hth & _ & _ & _ & [(w' & k & _ & _ & Ec)|(w' & Hm & _)]).
      2:{ destruct (over_throws _ _ _ _ _ _ Hm) as [q Hq]. discriminate. }
      assert (Hth' : nth_error (c_threads (gc g)) t = Some (mkThread (w_frames w') (w_uncaught w') (Some (k, call_of s args l, frontend_noexcept s)))).
      { rewrite Ec. cbn [leave c_threads]. apply nth_error_upd_eq. eapply nth_error_lt; eauto. }
      pose proof Hc as Hc0. unfold cstep in Hc. rewrite Hth' in Hc. cbn [t_pending] in Hc. destruct a as [o|mo' ov' args' l'|]; try discriminate.
      left. cbn [gc]. split; [eapply se_call; eauto|]. unfold embed in Hc. destruct (count_call _ _ _ _ _) as [w2 r2| | |]; try discriminate. injection Hc as <- _.
      eapply leave_settled; [exact Hth'|]. intros t' Hn q Hq. rewrite Ec in Hq. cbn [leave c_threads] in Hq. rewrite nth_error_upd_neq in Hq by auto. exact (J2 _ _ Hq).
Qed.

Lemma jj_run release n m acts : forall g g', HU g -> JJ release n m g -> gruns release g acts g' -> guarded release m g acts -> JJ release n m g'.
Proof.
  induction acts as [|[t x] acts IH]; intros g g' N J R G; inversion R; subst; auto. inversion G; subst.
  match goal with E : gstep _ _ _ _ = _, E' : gstep _ _ _ _ = _ |- _ => rewrite E in E'; injection E' as -> _; rename E into Hs end.
  eapply (IH _ _ (gstep_hu _ _ _ _ _ _ N Hs)); eauto. eapply jj_step; eauto.
Qed.

Lemma jj_init release n m : JJ release n m (ginit n).
Proof.
  left. split; [constructor|]. intros t th H. cbn [ginit gc cinit c_threads] in H. apply nth_error_In, repeat_spec in H. subst. reflexivity.
Qed.
