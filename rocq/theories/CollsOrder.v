(** * CollsOrder: uses of collections and their ends. *)

From Verif Require Import Base Lib Sequence Control Signature Printer Reports Expectation Builder World WorldSpec CallSpec
  SeqInv BuildSpec BuilderLemmas StepCases MatchLemmas WorldInv ObjInv CallProofs BuildProofs CountProofs FrameSpec Conc ConcSpec ConcProofs ConcOrder
  Race RaceSpec RaceProofs RaceFree PropRace Lifetime LifetimeSpec LifetimeProofs LifetimeOrder Colls CollsSpec CollsProofs.

(** ** Uses in one step *)

Definition one_section (m : nat) (l : list mev) : Prop :=
  exists pre body post, l = pre ++ MLock m :: body ++ MUnlock m :: post /\ Forall outside pre /\ Forall (inside m) body /\ Forall outside post.

Lemma outside_no_use k x : outside x -> use_of k x -> False.
Proof. intros H U. destruct U; exact H. Qed.
Lemma inside_use m k x : inside m x -> use_of k x -> k = m.
Proof. intros H U. destruct U; cbn in H; try contradiction; exact H. Qed.

Lemma section_use m l i x k : one_section m l -> nth_error l i = Some x -> use_of k x -> k = m /\ exists u, i <= u /\ nth_error l u = Some (MUnlock m).
Proof.
  intros (pre & body & post & -> & H1 & H2 & H3) Hi U. rewrite Forall_forall in H1, H2, H3.
  assert (Hu : nth_error (pre ++ MLock m :: body ++ MUnlock m :: post) (length pre + S (length body)) = Some (MUnlock m)).
  { rewrite nth_error_app2 by lia. replace (length pre + S (length body) - length pre) with (S (length body)) by lia. cbn [nth_error]. rewrite nth_error_app2 by lia.
    rewrite Nat.sub_diag. reflexivity. }
  destruct (Nat.lt_ge_cases i (length pre)) as [Hlt|Hge].
  { rewrite nth_error_app1 in Hi by auto. apply nth_error_In in Hi. exfalso. eapply outside_no_use; [apply H1; exact Hi|exact U]. }
  rewrite nth_error_app2 in Hi by auto. destruct (i - length pre) as [|n] eqn:En; cbn [nth_error] in Hi.
  { injection Hi as <-. inversion U; subst. split; auto. eexists. split; [|exact Hu]. lia. }
  destruct (Nat.lt_ge_cases n (length body)) as [Hlt|Hge'].
  { rewrite nth_error_app1 in Hi by auto. apply nth_error_In in Hi. split; [eapply inside_use; eauto|]. eexists. split; [|exact Hu]. lia. }
  rewrite nth_error_app2 in Hi by auto. destruct (n - length body) as [|n'] eqn:En'; cbn [nth_error] in Hi.
  { injection Hi as <-. inversion U; subst. split; auto. eexists. split; [|exact Hu]. lia. }
  apply nth_error_In in Hi. exfalso. eapply outside_no_use; [apply H3; exact Hi|exact U].
Qed.

Lemma expect_section coll b : one_section coll (expect_events coll b).
Proof.
  unfold expect_events. rewrite app_assoc. eexists _, [MRead (PlVector coll); MWrite (PlVector coll)], []. split; [reflexivity|]. split; [|split; [|constructor]].
  - apply Forall_app. split.
    + apply Forall_forall. intros x H. apply in_flat_map in H. destruct H as (q & _ & [<-|[<-|[]]]); exact Logic.I.
    + destruct (_ || _); [|constructor]. apply Forall_forall. intros x H. apply in_map_iff in H. destruct H as (q & <- & _). exact Logic.I.
  - repeat (constructor; [reflexivity|]). constructor.
Qed.

Lemma remove_section ss coll e x : one_section coll (remove_events ss coll e x).
Proof.
  unfold remove_events. cbn [app].
  exists [], (MRead (PlVector coll) :: MWrite (PlVector coll) :: MRead (PlCount e) :: 
    (if exp_is_satisfied x then [] else report_events e x ++ match exp_report_of ss x with Ret _ => deliver KUnfulfilled | _ => [] end)), [].
  split; [reflexivity|]. split; [constructor|]. split; [|constructor].
  repeat (constructor; [cbn; auto|]). destruct (exp_is_satisfied x); [constructor|]. apply Forall_app. split; [apply report_inside|].
  destruct (exp_report_of ss x); unfold deliver; forall_list; cbn; auto.
Qed.

Lemma match_section w coll c es : one_section coll (match_events (w_seqs w) coll c es (outcome_of w c es)).
Proof.
  unfold match_events. cbn [app]. exists [], (MRead (PlVector coll) :: flat_map (visit_events (w_seqs w) c) es), (match outcome_of w c es with Some k => deliver k | None => [] end).
  split; [reflexivity|]. split; [constructor|]. split.
  - constructor; [reflexivity|]. apply visits_inside.
  - pose proof (outcome_outside w c es). destruct (outcome_of w c es); [auto|constructor].
Qed.

Lemma found_in_use w m ov s coll : find_overload w m ov = inr (s, coll) -> coll_in_use w coll = true.
Proof.
  intros H. apply find_overload_inr in H. destruct H as (mk & cs & Hm & _ & _ & Hc & Hn). apply use_spec. left. exists mk. split; [eapply nth_error_In; eauto|].
  unfold held_by. rewrite Hc. eapply nth_error_In; eauto.
Qed.

Lemma alive_in_use w e x : exp_at w e x -> eo_alive x = true -> coll_in_use w (eo_coll x) = true.
Proof. intros H A. apply use_spec. right. exists x. split; [eapply nth_error_In; exact H|]. unfold in_coll. rewrite A, Nat.eqb_refl. reflexivity. Qed.

Lemma nth_le_inv l i x : nth_error (map LE l) i = Some (LE x) -> nth_error l i = Some x.
Proof. apply nth_map_le. Qed.

(** A collection is used while it has owners; afterwards it holds an expectation, or the step gives up an owner, or nothing was found in it. *)
Lemma step_uses release c t a c' r i x k : LI (cw c) -> cstep release c t a = CNext c' r -> nth_error (life_of release c t a) i = Some (LE x) -> use_of k x ->
  coll_in_use (cw c) k = true /\
  (exists u, i <= u /\ nth_error (life_of release c t a) u = Some (LE (MUnlock k))) /\
  (finds_nothing (cw c) a k \/ (exists e y, exp_at (cw c') e y /\ eo_alive y = true /\ eo_coll y = k) \/ In k (goes c a)).
Proof.
  intros L Hs Hi U. destruct (life_case _ _ _ _ _ _ Hs) as
    [Hl Hsame Hown Hno|s evs d' -> Hif w1 Hr Hc Ht Hl|e y l unf evs d' Ha Hy Hcl Hin w1 Hr He Hif Hd Ht Hu Hev Hl].
  - rewrite Hl in Hi. apply nth_map_le in Hi. 
    assert (G : forall m, one_section m (ev_of release c t a) -> k = m /\ exists u, i <= u /\ nth_error (life_of release c t a) u = Some (LE (MUnlock k))).
    { intros m Hm. destruct (section_use _ _ _ _ _ Hm Hi U) as (-> & u & Hu & Hn). split; auto. exists u. split; auto. rewrite Hl. apply nth_le_map. exact Hn. }
    assert (N : Forall outside (ev_of release c t a) -> False).
    { intros F. rewrite Forall_forall in F. apply nth_error_In in Hi. apply F in Hi. eapply outside_no_use; eauto. }
    destruct a as [o|m ov args l|].
    + pose proof (cstep_op _ _ _ _ _ _ Hs) as (th & v & Hth & Hp & Hcl & Ho & Ec).
      assert (Eo : ev_of release c t (AOp o) = op_events (enter (cw c) th) o) by (unfold ev_of; rewrite Hth, Hp, Hcl; reflexivity).
      destruct o; try (exfalso; eapply Hno; eapply nth_error_In; eassumption); try discriminate; rewrite Eo in *; cbn [op_events] in *;
        try (exfalso; apply N; repeat (constructor; [reflexivity|]); constructor).
      * exfalso. apply N. apply error_outside.
      * cbn [step] in Ho. apply do_expect_next in Ho. destruct Ho as (s & coll & Hf & _ & _ & [(z & Hb & _)|(b & ss & ctl & mem & Hb & _ & Hcn & _ & _ & Hv)]).
        { rewrite Hf, Hb in Hi. destruct i; discriminate. }
        rewrite Hf, Hb in G. destruct (G _ (expect_section coll b)) as [-> Hu]. split; [exact (found_in_use _ _ _ _ _ Hf)|]. split; [exact Hu|].
        right. left. exists (length (w_exps (cw c))), (mkEObj (mkExp l ctl (b_policies b) (b_final b)) coll true ov s). subst v c'.
        split; [|split; reflexivity]. unfold exp_at. cbn [cw leave set_uncaught set_frames w_exps new_world]. apply nth_error_app_last.
      * exfalso. apply N. destruct (nth_error (w_scoped (enter (cw c) th)) h) as [[e| |]|]; repeat constructor.
    + pose proof (cstep_match _ _ _ _ _ _ _ _ _ Hs) as (th & s & coll & Hth & Hp & Hf & _).
      assert (Em : exists l' es, nth_error (w_colls (cw c)) coll = Some l' /\ ev_of release c t (AMatch m ov args l) =
         match_events (w_seqs (enter (cw c) th)) coll (call_of s args l) es (outcome_of (enter (cw c) th) (call_of s args l) es)).
      { unfold ev_of in Hi |- *. rewrite Hth, Hp, Hf in Hi |- *. cbv zeta in Hi |- *. change (w_colls (enter (cw c) th)) with (w_colls (cw c)) in *.
        destruct (nth_error (w_colls (cw c)) coll) as [l'|]; [|destruct i; discriminate]. destruct (lookup_exps _ (rev l')) as [es|]; [|destruct i; discriminate].
        exists l', es. split; reflexivity. }
      destruct Em as (l' & es & Hl' & Em). rewrite Em in G. destruct (G _ (match_section (enter (cw c) th) coll (call_of s args l) es)) as [-> Hu].
      split; [exact (found_in_use _ _ _ _ _ Hf)|]. split; [exact Hu|]. destruct l' as [|e l'].
      * left. exact Hl'.
      * right. left. pose proof (li_coll _ L _ _ Hl') as El. assert (He : In e (members (w_exps (cw c)) coll)) by (rewrite <- El; left; reflexivity).
        apply members_in in He. destruct He as (y & Hy & A & Hc). exists e, y. split; auto. unfold exp_at.
        destruct (core_fields _ _ (match_over_core _ _ _ _ _ _ _ _ _ Hs)) as (_ & _ & _ & Ex & _). rewrite Ex. exact Hy.
    + exfalso. apply N. unfold ev_of. destruct (nth_error (c_threads c) t) as [th|]; [|constructor]. destruct (t_pending th) as [[[n ci] ne]|]; [|constructor].
      destruct (nth_error _ n); [apply count_outside|constructor].
  - exfalso. rewrite Hl in Hi. apply nth_error_In, drop_plain in Hi. destruct Hi as [->|[q ->]]; inversion U.
  - assert (A : eo_alive y = true).
    { rewrite (li_coll _ L _ _ Hcl) in Hin. apply members_in in Hin. destruct Hin as (y' & Hy' & A & _). unfold exp_at in *. congruence. }
    assert (P : i < length (remove_events (w_seqs (cw c)) (eo_coll y) e (eo_exp y))).
    { destruct (Nat.lt_ge_cases i (length (remove_events (w_seqs (cw c)) (eo_coll y) e (eo_exp y)))) as [|Hge]; auto. exfalso. rewrite Hl in Hi.
      rewrite nth_error_app2 in Hi by (rewrite map_length; auto). destruct (i - _) as [|n]; [discriminate|]. cbn [nth_error] in Hi.
      apply nth_error_In, drop_plain in Hi. destruct Hi as [->|[q ->]]; inversion U. }
    pose proof Hi as Hi'. rewrite Hl in Hi'. rewrite nth_error_app1 in Hi' by (rewrite map_length; auto). apply nth_map_le in Hi'.
    destruct (section_use _ _ _ _ _ (remove_section _ _ _ _) Hi' U) as (-> & u & Hiu & Hn). split; [eapply alive_in_use; eauto|]. split.
    { exists u. split; auto. rewrite Hl. rewrite nth_error_app1 by (rewrite map_length; eapply nth_error_lt; eauto). apply nth_le_map. exact Hn. }
    right. right. assert (En : new_owner a = false) by (destruct Ha as [[h ->]|(d & s & ->)]; reflexivity).
    pose proof (step_owners _ _ _ _ _ _ (eo_coll y) L Hs En) as O. rewrite !owners_sums in O.
    assert (Em : w_mocks (cw c') = w_mocks (cw c)).
    { destruct Ha as [[h ->]|(d & s & ->)]; apply cstep_op in Hs; destruct Hs as (th & v & _ & _ & _ & Ho & ->); apply step_mocks in Ho; inversion Ho; subst; assumption. }
    rewrite Em, He in O. unfold w1 in O. cbn [w_exps set_exps] in O.
    pose proof (sum_upd (fun x => if in_coll (eo_coll y) x then 1 else 0) _ _ _ (mkEObj (eo_exp y) (eo_coll y) false (eo_ov y) (eo_sig y)) Hy) as S. cbn beta in S.
    unfold in_coll in S at 2 4. cbn [eo_alive eo_coll andb] in S. rewrite A, Nat.eqb_refl in S. cbn [andb] in S. fold (esum (w_exps (cw c)) (eo_coll y)) in S.
    unfold esum in O at 1. apply (count_occ_In Nat.eq_dec). lia.
Qed.

(** ** Positions in traces *)

Lemma full_app release acts1 : forall c c1 acts2, cruns release c acts1 c1 -> full release c (acts1 ++ acts2) = full release c acts1 ++ full release c1 acts2.
Proof.
  induction acts1 as [|[t a] acts1 IH]; intros c c1 acts2 H; inversion H; subst; auto.
  cbn [app full]. match goal with E : cstep _ _ _ _ = CNext _ _ |- _ => rewrite E end. rewrite <- app_assoc. f_equal. apply IH; auto.
Qed.

Lemma full_cons release c t a c1 r acts : cstep release c t a = CNext c1 r -> full release c ((t, a) :: acts) = map (pair (t, a)) (full_of release c t a) ++ full release c1 acts.
Proof. intros H. cbn [full]. rewrite H. reflexivity. Qed.

Lemma full_at release acts : forall c cN i t a y, cruns release c acts cN -> nth_error (full release c acts) i = Some (t, a, y) ->
  exists A B c1 c1' r k, acts = A ++ (t, a) :: B /\ cruns release c A c1 /\ cstep release c1 t a = CNext c1' r /\ cruns release c1' B cN /\
    i = length (full release c A) + k /\ nth_error (full_of release c1 t a) k = Some y.
Proof.
  induction acts as [|[t0 a0] acts IH]; intros c cN i t a y H Hi; [destruct i; discriminate|]. inversion H; subst.
  match goal with E : cstep _ _ _ _ = CNext ?q ?r0 |- _ => rename E into Hs; rename q into c1; rename r0 into r end. rewrite (full_cons _ _ _ _ _ _ _ Hs) in Hi.
  destruct (Nat.lt_ge_cases i (length (map (pair (t0, a0)) (full_of release c t0 a0)))) as [Hlt|Hge].
  - rewrite nth_error_app1 in Hi by auto. apply nth_map_pair in Hi. destruct Hi as [E Hi]. injection E as -> ->.
    exists [], acts, c, c1, r, i. cbn [app full length]. repeat split; auto. constructor.
  - rewrite nth_error_app2 in Hi by auto. destruct (IH _ _ _ _ _ _ ltac:(eassumption) Hi) as (A & B & c2 & c2' & r' & k & -> & H1 & H2 & H3 & H4 & H5).
    exists ((t0, a0) :: A), B, c2, c2', r', k. split; [reflexivity|]. split; [econstructor; eauto|]. split; auto. split; auto. split; auto.
    rewrite (full_cons _ _ _ _ _ _ _ Hs), app_length. lia.
Qed.

(** Two events of a trace: in one step, or in two. *)
Lemma full_two release acts : forall c cN i j t a y t' b z, cruns release c acts cN -> i < j ->
  nth_error (full release c acts) i = Some (t, a, y) -> nth_error (full release c acts) j = Some (t', b, z) ->
  exists A c1 c1' r k, cruns release c A c1 /\ cstep release c1 t a = CNext c1' r /\ nth_error (full_of release c1 t a) k = Some y /\
    i = length (full release c A) + k /\
    ((t' = t /\ b = a /\ exists k', k < k' /\ nth_error (full_of release c1 t a) k' = Some z) \/
     (exists B C c2 c2' r' k', acts = A ++ (t, a) :: B ++ (t', b) :: C /\ cruns release c1' B c2 /\ cstep release c2 t' b = CNext c2' r' /\
        nth_error (full_of release c2 t' b) k' = Some z /\
        j = length (full release c A) + (length (full_of release c1 t a) + (length (full release c1' B) + k')))).
Proof.
  induction acts as [|[t0 a0] acts IH]; intros c cN i j t a y t' b z H Hij Hi Hj; [destruct i; discriminate|]. inversion H; subst.
  match goal with E : cstep _ _ _ _ = CNext ?q ?r0 |- _ => rename E into Hs; rename q into c1; rename r0 into r end. rewrite (full_cons _ _ _ _ _ _ _ Hs) in Hi, Hj.
  destruct (Nat.lt_ge_cases i (length (map (pair (t0, a0)) (full_of release c t0 a0)))) as [Hlt|Hge].
  - rewrite nth_error_app1 in Hi by auto. apply nth_map_pair in Hi. destruct Hi as [E Hi]. injection E as -> ->.
    exists [], c, c1, r, i. split; [constructor|]. split; auto. split; auto. split; [reflexivity|].
    destruct (Nat.lt_ge_cases j (length (map (pair (t0, a0)) (full_of release c t0 a0)))) as [Hlt'|Hge'].
    + left. rewrite nth_error_app1 in Hj by auto. apply nth_map_pair in Hj. destruct Hj as [E Hj]. injection E as -> ->. split; auto. split; auto. eauto.
    + right. rewrite nth_error_app2 in Hj by auto. destruct (full_at _ _ _ _ _ _ _ _ ltac:(eassumption) Hj) as (B & C & c2 & c2' & r' & k & -> & H1 & H2 & H3 & H4 & H5).
      exists B, C, c2, c2', r', k. split; [reflexivity|]. split; auto. split; auto. split; auto. cbn [full length]. rewrite map_length in *. lia.
  - rewrite nth_error_app2 in Hi by auto. rewrite nth_error_app2 in Hj by lia.
    set (n := length (map (pair (t0, a0)) (full_of release c t0 a0))) in *. assert (Hij' : i - n < j - n) by lia.
    destruct (IH _ _ _ _ _ _ _ _ _ _ ltac:(eassumption) Hij' Hi Hj) as (A & c2 & c2' & r' & k & H1 & H2 & H3 & H4 & Hd). unfold n in *.
    exists ((t0, a0) :: A), c2, c2', r', k. split; [econstructor; eauto|]. split; auto. split; auto.
    split. { rewrite (full_cons _ _ _ _ _ _ _ Hs), app_length. lia. }
    destruct Hd as [Hd|(B & C & c3 & c3' & r'' & k' & -> & G1 & G2 & G3 & G4)]; [left; exact Hd|]. right. exists B, C, c3, c3', r'', k'.
    split; [reflexivity|]. split; auto. split; auto. split; auto. rewrite (full_cons _ _ _ _ _ _ _ Hs), app_length. lia.
Qed.

(** The trace around two steps. *)
Lemma full_trace release c A c1 t a c1' r B c2 t' b c2' r' C : cruns release c A c1 -> cstep release c1 t a = CNext c1' r -> cruns release c1' B c2 -> cstep release c2 t' b = CNext c2' r' ->
  full release c (A ++ (t, a) :: B ++ (t', b) :: C) =
  full release c A ++ map (pair (t, a)) (full_of release c1 t a) ++ full release c1' B ++ map (pair (t', b)) (full_of release c2 t' b) ++ full release c2' C.
Proof.
  intros H1 H2 H3 H4. rewrite (full_app _ _ _ _ _ H1), (full_cons _ _ _ _ _ _ _ H2), (full_app _ _ _ _ _ H3), (full_cons _ _ _ _ _ _ _ H4). reflexivity.
Qed.


(** ** Ends *)

Lemma end_goes release c t a c' r e x : LI (cw c) -> cstep release c t a = CNext c' r -> exp_at (cw c) e x -> eo_alive x = true ->
  (exists x', exp_at (cw c') e x' /\ eo_alive x' = true /\ eo_coll x' = eo_coll x) \/
  (nth_error (life_of release c t a) 0 = Some (LE (MLock (eo_coll x))) /\ In (eo_coll x) (goes c a)).
Proof.
  intros L Hs Hx A. destruct (life_case _ _ _ _ _ _ Hs) as
    [Hl Hsame Hown Hno|s evs d' Ha Hi w1 Hr Hc Ht Hl|e0 y l unf evs d' Ha Hy Hcl Hin w1 Hr He Hi Hd Ht Hu Hev Hl].
  - left. destruct (proj1 Hsame _ _ Hx) as (x' & H1 & H2 & H3 & _). exists x'. split; auto. split; congruence.
  - left. destruct (core_fields _ _ Hc) as (_ & _ & _ & Hex & _). exists x. unfold exp_at. rewrite Hex. auto.
  - destruct (Nat.eq_dec e e0) as [->|Hne].
    2:{ left. exists x. unfold exp_at in *. rewrite He. unfold w1. cbn [w_exps set_exps]. rewrite nth_error_upd_neq by auto. auto. }
    assert (y = x) by (unfold exp_at in *; congruence). subst y. right. split; [rewrite Hl; reflexivity|].
    assert (En : new_owner a = false) by (destruct Ha as [[h ->]|(d & s & ->)]; reflexivity).
    pose proof (step_owners _ _ _ _ _ _ (eo_coll x) L Hs En) as O. rewrite !owners_sums in O.
    assert (Em : w_mocks (cw c') = w_mocks (cw c)).
    { destruct Ha as [[h ->]|(d & s & ->)]; apply cstep_op in Hs; destruct Hs as (th & v & _ & _ & _ & Ho & ->); apply step_mocks in Ho; inversion Ho; subst; assumption. }
    rewrite Em, He in O. unfold w1 in O. cbn [w_exps set_exps] in O.
    pose proof (sum_upd (fun z => if in_coll (eo_coll x) z then 1 else 0) _ _ _ (mkEObj (eo_exp x) (eo_coll x) false (eo_ov x) (eo_sig x)) Hx) as S. cbn beta in S.
    unfold in_coll in S at 2 4. cbn [eo_alive eo_coll andb] in S. rewrite A, Nat.eqb_refl in S. cbn [andb] in S. fold (esum (w_exps (cw c)) (eo_coll x)) in S.
    unfold esum in O at 1. apply (count_occ_In Nat.eq_dec). lia.
Qed.

Lemma goes_drop release c t a c' r k : cstep release c t a = CNext c' r -> In k (goes c a) ->
  exists u, length (life_of release c t a) <= u /\ nth_error (full_of release c t a) u = Some (HDrop k).
Proof.
  intros H Hk. assert (D : In (HDrop k) (coll_part release c t a)).
  { rewrite (part_drops _ _ _ _ _ _ H). clear -Hk. induction (goes c a) as [|k' l IH]; [destruct Hk|]. cbn [drop_colls]. destruct Hk as [->|Hk]; [left; reflexivity|].
    right. apply in_or_app. auto. }
  apply In_nth_error in D. destruct D as [n Hn]. exists (length (life_of release c t a) + n). split; [lia|]. rewrite full_parts.
  rewrite nth_error_app2 by (rewrite map_length; lia). rewrite map_length. replace (_ + n - _) with n by lia. exact Hn.
Qed.

Lemma life_in_full release c t a u y : nth_error (life_of release c t a) u = Some y -> nth_error (full_of release c t a) u = Some (HL y).
Proof.
  intros H. rewrite full_parts, nth_error_app1 by (rewrite map_length; eapply nth_error_lt; eauto). rewrite nth_error_map, H. reflexivity.
Qed.

Lemma full_in_life release c t a c' r u y : cstep release c t a = CNext c' r -> nth_error (full_of release c t a) u = Some (HL y) -> nth_error (life_of release c t a) u = Some y.
Proof.
  intros Hs H. rewrite full_parts in H. destruct (Nat.lt_ge_cases u (length (life_of release c t a))) as [Hlt|Hge].
  - rewrite nth_error_app1 in H by (rewrite map_length; auto). rewrite nth_error_map in H. destruct (nth_error (life_of release c t a) u); cbn in H; congruence.
  - exfalso. rewrite nth_error_app2 in H by (rewrite map_length; auto). apply nth_error_In in H. rewrite (part_drops _ _ _ _ _ _ Hs) in H.
    apply drop_colls_parts in H. destruct H as (k & _ & [E|[E _]]); discriminate.
Qed.

(** During a run an expectation stays, or a step ends it: it takes the mutex and releases the collection. *)
Lemma run_holds release B : forall c c2 e x, LI (cw c) -> cruns release c B c2 -> exp_at (cw c) e x -> eo_alive x = true ->
  (exists x', exp_at (cw c2) e x' /\ eo_alive x' = true /\ eo_coll x' = eo_coll x) \/
  (exists m1 m2 t b, m1 < m2 /\ nth_error (full release c B) m1 = Some (t, b, HL (LE (MLock (eo_coll x)))) /\ nth_error (full release c B) m2 = Some (t, b, HDrop (eo_coll x))).
Proof.
  induction B as [|[t b] B IH]; intros c c2 e x L H Hx A; inversion H; subst. { left. eauto. }
  match goal with E : cstep _ _ _ _ = CNext ?q ?r0 |- _ => rename E into Hs; rename q into c1; rename r0 into r end.
  pose proof (li_step _ _ _ _ _ _ Hs L) as L1. rewrite (full_cons _ _ _ _ _ _ _ Hs).
  destruct (end_goes _ _ _ _ _ _ _ _ L Hs Hx A) as [(x' & Hx' & A' & Hc')|(H0 & HD)].
  - destruct (IH _ _ _ _ L1 ltac:(eassumption) Hx' A') as [(x'' & G1 & G2 & G3)|(m1 & m2 & t1 & b1 & Hm & E1 & E2)].
    + left. exists x''. split; auto. split; auto. congruence.
    + right. set (n := length (map (pair (t, b)) (full_of release c t b))). exists (n + m1), (n + m2), t1, b1. split; [lia|].
      rewrite !nth_error_app2 by (unfold n; lia). fold n. replace (n + m1 - n) with m1 by lia. replace (n + m2 - n) with m2 by lia. rewrite <- Hc'. auto.
  - right. destruct (goes_drop _ _ _ _ _ _ _ Hs HD) as (u & Hu & Hn). pose proof (nth_error_lt _ _ _ H0). pose proof (life_in_full _ _ _ _ _ _ H0) as H0'. exists 0, u, t, b. split; [lia|].
    pose proof (nth_error_lt _ _ _ H0'). pose proof (nth_error_lt _ _ _ Hn).
    rewrite !nth_error_app1 by (rewrite map_length; auto). split; apply nth_pair_map; auto.
Qed.

Theorem used_before_end release c acts cN i j t a t' k : HI (cw c) -> cruns release c acts cN ->
  uses_at (full release c acts) i t a k -> coll_end_at (full release c acts) j t' k -> i < j.
Proof.
  intros I H (x & U & Hi) (b & Hj). destruct (Nat.lt_trichotomy i j) as [|[->|Hlt]]; auto; exfalso; [congruence|].
  destruct (full_two _ _ _ _ _ _ _ _ _ _ _ _ H Hlt Hj Hi) as (A & c1 & c1' & r & u & R1 & Hs & Hk & _ & D).
  pose proof (hi_run _ _ _ _ R1 I) as I1. destruct (full_kill_at _ _ _ _ _ _ _ _ I1 Hs Hk) as (_ & G & Hn & _).
  destruct D as [(-> & -> & k' & Hkk & Hk')|(B & C & c2 & c2' & r' & k' & _ & R2 & Hs' & Hk' & _)].
  - apply (full_in_life _ _ _ _ _ _ _ _ Hs) in Hk'. apply nth_error_lt in Hk'. lia.
  - pose proof (hi_step _ _ _ _ _ _ Hs I1) as I1'. pose proof (hi_run _ _ _ _ R2 I1') as I2. apply (full_in_life _ _ _ _ _ _ _ _ Hs') in Hk'.
    destruct (step_uses _ _ _ _ _ _ _ _ _ (hi_li _ I2) Hs' Hk' U) as (Hu & _). destruct (run_gone _ _ _ _ _ R2 I1' G) as [_ G2]. congruence.
Qed.

Theorem coll_ends_once release c acts cN i j t t' k : HI (cw c) -> cruns release c acts cN ->
  coll_end_at (full release c acts) i t k -> coll_end_at (full release c acts) j t' k -> i = j.
Proof.
  intros I H. assert (W : forall i j t t' a b, i < j -> nth_error (full release c acts) i = Some (t, a, HKill k) -> nth_error (full release c acts) j = Some (t', b, HKill k) -> False).
  { clear i j t t'. intros i j t t' a b Hlt Hi Hj.
    destruct (full_two _ _ _ _ _ _ _ _ _ _ _ _ H Hlt Hi Hj) as (A & c1 & c1' & r & u & R1 & Hs & Hk & _ & D).
    pose proof (hi_run _ _ _ _ R1 I) as I1. destruct (full_kill_at _ _ _ _ _ _ _ _ I1 Hs Hk) as (_ & G & Hn & _ & _ & Un).
    destruct D as [(-> & -> & k' & Hkk & Hk')|(B & C & c2 & c2' & r' & k' & _ & R2 & Hs' & Hk' & _)].
    - rewrite (Un _ Hk') in Hkk. lia.
    - pose proof (hi_step _ _ _ _ _ _ Hs I1) as I1'. pose proof (hi_run _ _ _ _ R2 I1') as I2. destruct (full_kill_at _ _ _ _ _ _ _ _ I2 Hs' Hk') as (Hu & _).
      destruct (run_gone _ _ _ _ _ R2 I1' G) as [_ G2]. congruence. }
  intros (a & Hi) (b & Hj). destruct (Nat.lt_trichotomy i j) as [Hlt|[|Hlt]]; auto; exfalso; eapply W; eauto.
Qed.

(** Each use is ordered before the end, unless it is a call which found no expectation. *)
Theorem use_ordered release c acts cN i j t a t' k : HI (cw c) -> cruns release c acts cN ->
  uses_at (full release c acts) i t a k -> coll_end_at (full release c acts) j t' k ->
  hhb (full release c acts) i j \/
  (exists A B c1, acts = A ++ (t, a) :: B /\ cruns release c A c1 /\
     length (full release c A) <= i < length (full release c (A ++ [(t, a)])) /\ finds_nothing (cw c1) a k).
Proof.
  intros I H Hu He. pose proof (used_before_end _ _ _ _ _ _ _ _ _ _ I H Hu He) as Hij. destruct Hu as (x & U & Hi), He as (b & Hj).
  destruct (full_two _ _ _ _ _ _ _ _ _ _ _ _ H Hij Hi Hj) as (A & c1 & c1' & r & u & R1 & Hs & Hk & Ei & D).
  destruct D as [(-> & -> & _)|(B & C & c2 & c2' & r' & k' & Eacts & R2 & Hs' & Hk' & Ej)]; [left; eapply hhb_program; eauto|].
  pose proof (hi_run _ _ _ _ R1 I) as I1. pose proof (hi_step _ _ _ _ _ _ Hs I1) as I1'. pose proof (hi_run _ _ _ _ R2 I1') as I2.
  destruct (full_kill_at _ _ _ _ _ _ _ _ I2 Hs' Hk') as (_ & G & Hn & Hd & _).
  set (tr := full release c acts) in *.
  assert (P1 : forall u z, nth_error (full_of release c1 t a) u = Some z -> nth_error tr (length (full release c A) + u) = Some (t, a, z)).
  { intros v z Hv. unfold tr. rewrite Eacts, (full_trace _ _ _ _ _ _ _ _ _ _ _ _ _ _ _ R1 Hs R2 Hs'). apply nth_in_second. apply nth_pair_map. exact Hv. }
  assert (P2 : forall u z, nth_error (full release c1' B) u = Some z -> nth_error tr (length (full release c A) + (length (full_of release c1 t a) + u)) = Some z).
  { intros v z Hv. unfold tr. rewrite Eacts, (full_trace _ _ _ _ _ _ _ _ _ _ _ _ _ _ _ R1 Hs R2 Hs'). rewrite nth_error_app2 by lia.
    replace (_ - length (full release c A)) with (length (map (pair (t, a)) (full_of release c1 t a)) + v) by (rewrite map_length; lia). apply nth_in_second. exact Hv. }
  assert (P3 : forall u z, nth_error (full_of release c2 t' b) u = Some z ->
    nth_error tr (length (full release c A) + (length (full_of release c1 t a) + (length (full release c1' B) + u))) = Some (t', b, z)).
  { intros v z Hv. unfold tr. rewrite Eacts, (full_trace _ _ _ _ _ _ _ _ _ _ _ _ _ _ _ R1 Hs R2 Hs'). rewrite nth_error_app2 by lia.
    replace (_ - length (full release c A)) with (length (map (pair (t, a)) (full_of release c1 t a)) + (length (full release c1' B) + v)) by (rewrite map_length; lia).
    rewrite nth_error_app2 by lia. replace (_ + _ - _) with (length (full release c1' B) + v) by lia. apply nth_in_second. apply nth_pair_map. exact Hv. }
  pose proof (full_in_life _ _ _ _ _ _ _ _ Hs Hk) as Hl. pose proof (nth_error_lt _ _ _ Hk) as Hkl. pose proof (nth_error_lt _ _ _ Hl) as Hll.
  assert (Last : forall n t0 b0, n < length (full release c A) + (length (full_of release c1 t a) + length (full release c1' B)) ->
    nth_error tr n = Some (t0, b0, HDrop k) -> hhb tr n j).
  { intros n t0 b0 Hlt Hdr. subst j. eapply hhb_trans.
    - eapply hhb_coll; [|exact Hdr|apply P3; exact Hd]. lia.
    - eapply hhb_program; [|apply P3; exact Hd|exact Hj]. lia. }
  destruct (step_uses _ _ _ _ _ _ _ _ _ (hi_li _ I1) Hs Hl U) as (_ & (v & Hv & Hun) & [F|[(e & y & Hy & Ay & Ck)|Hg]]).
  - right. exists A, (B ++ (t', b) :: C), c1. split; [exact Eacts|]. split; [exact R1|]. split; [|exact F].
    rewrite (full_app _ _ _ _ _ R1), app_length, (full_cons _ _ _ _ _ _ _ Hs), app_length, map_length. lia.
  - left. assert (Iv : i = length (full release c A) + v \/ hhb tr i (length (full release c A) + v)).
    { destruct (Nat.eq_dec u v) as [->|Hne]; [left; auto|]. right. eapply hhb_program; [|exact Hi|apply P1, life_in_full; exact Hun]. lia. }
    pose proof (nth_error_lt _ _ _ (life_in_full _ _ _ _ _ _ Hun)) as Hvl. pose proof (P1 _ _ (life_in_full _ _ _ _ _ _ Hun)) as Hun'.
    assert (G2 : hhb tr (length (full release c A) + v) j).
    { destruct (run_holds _ _ _ _ _ _ (hi_li _ I1') R2 Hy Ay) as [(y' & Hy' & Ay' & Ck')|(m1 & m2 & t1 & b1 & Hm & E1 & E2)].
      - destruct (end_goes _ _ _ _ _ _ _ _ (hi_li _ I2) Hs' Hy' Ay') as [(z & Hz & Az & Cz)|(H0 & _)].
        + exfalso. pose proof (alive_in_use _ _ _ Hz Az) as X. destruct G as [_ G]. rewrite Cz, Ck', Ck in X. congruence.
        + rewrite Ck', Ck in H0. pose proof (P3 _ _ (life_in_full _ _ _ _ _ _ H0)) as H0'. pose proof (nth_error_lt _ _ _ H0). eapply hhb_trans.
          * eapply hhb_mutex; [|exact Hun'|exact H0']. lia.
          * subst j. eapply hhb_program; [|exact H0'|exact Hj]. lia.
      - rewrite Ck in E1, E2. pose proof (nth_error_lt _ _ _ E2). apply P2 in E1. apply P2 in E2. eapply hhb_trans.
        + eapply hhb_mutex; [|exact Hun'|exact E1]. lia.
        + eapply hhb_trans; [eapply hhb_program; [|exact E1|exact E2]; lia|]. eapply Last; [|exact E2]. lia. }
    destruct Iv as [->|Iv]; [exact G2|]. eapply hhb_trans; [exact Iv|exact G2].
  - left. destruct (goes_drop _ _ _ _ _ _ _ Hs Hg) as (d & Hdu & Hdn). pose proof (nth_error_lt _ _ _ Hdn). apply P1 in Hdn. eapply hhb_trans.
    + eapply hhb_program; [|exact Hi|exact Hdn]. lia.
    + eapply Last; [|exact Hdn]. lia.
Qed.
