(** * PropColls: ends of collections in programs with several threads (C101). *)

From Verif Require Import Base Lib Sequence Control Signature Printer Reports Expectation Builder World WorldSpec CallSpec StepCases WorldInv ObjInv
  MatchLemmas BuildProofs Scenario FrameSpec Conc ConcSpec ConcProofs PropConc ConcOrder Race RaceSpec RaceProofs RaceFree PropRace Lifetime LifetimeSpec
  LifetimeProofs LifetimeOrder PropLifetime Colls CollsSpec CollsProofs CollsOrder.

(** ** Events *)

Lemma plain_life_app a b : plain_life (a ++ b) = plain_life a ++ plain_life b.
Proof. unfold plain_life. apply flat_map_app. Qed.
Lemma plain_life_map l : plain_life (map HL l) = l.
Proof. induction l as [|x l IH]; cbn; auto. f_equal. exact IH. Qed.
Lemma plain_life_drop w l : plain_life (drop_colls w l) = [].
Proof.
  induction l as [|k l IH]; cbn [drop_colls]; auto. change (plain_life (HDrop k :: ?b)) with (plain_life b). rewrite plain_life_app, IH.
  destruct (_ || _); reflexivity.
Qed.

(** Apart from the collections, the events of an execution are those of Lifetime.v. *)
Theorem C101_events release c acts c' : cruns release c acts c' ->
  plain_life (map snd (full release c acts)) = map snd (life release c acts).
Proof.
  induction 1 as [c|c t a c1 r acts c2 Hs R IH]; [reflexivity|]. rewrite (full_cons _ _ _ _ _ _ _ Hs), (life_cons _ _ _ _ _ _ _ Hs), !map_app, plain_life_app, IH. f_equal.
  rewrite !map_map. cbn [snd]. rewrite !map_id, full_parts, plain_life_app, plain_life_map, (part_drops _ _ _ _ _ _ Hs), plain_life_drop, app_nil_r. reflexivity.
Qed.

(** ** Owners *)

(** Every owner which disappears is released in that step, and nothing else is released. *)
Theorem C101_releases release n acts c t a c' r k : cruns release (cinit n) acts c -> cstep release c t a = CNext c' r -> new_owner a = false ->
  coll_owners (cw c') k + count_occ Nat.eq_dec (coll_releases (full_of release c t a)) k = coll_owners (cw c) k.
Proof. intros R Hs Hn. rewrite (full_releases _ _ _ _ _ _ Hs). exact (step_owners _ _ _ _ _ _ _ (li_reach _ _ _ _ R) Hs Hn). Qed.

(** A new expectation shares the collection of its overload. *)
Theorem C101_new_expectations release c t m ov ms cls l c' : cstep release c t (AOp (OExpect m ov ms cls l)) = CNext c' RUnit ->
  exists mk cs k, nth_error (w_mocks (cw c)) m = Some mk /\ mk_colls mk = Some cs /\ nth_error cs ov = Some k /\
    (exists x, exp_at (cw c') (length (w_exps (cw c))) x /\ eo_alive x = true /\ eo_coll x = k) /\
    forall k', coll_owners (cw c') k' = coll_owners (cw c) k' + (if k' =? k then 1 else 0).
Proof.
  intros Hs. apply cstep_op in Hs. destruct Hs as (th & v & _ & _ & _ & Ho & ->). cbn [step] in Ho. apply do_expect_next in Ho.
  destruct Ho as (s & coll & Hf & _ & _ & [(z & _ & _ & G)|(b & ss & ctl & mem & _ & _ & _ & _ & _ & ->)]); [discriminate|].
  apply find_overload_inr in Hf. destruct Hf as (mk & cs & Hm & _ & _ & Hc & Hn). exists mk, cs, coll. split; [exact Hm|]. split; [exact Hc|]. split; [exact Hn|]. split.
  { eexists. split; [unfold exp_at; cbn [cw leave set_uncaught set_frames w_exps new_world]; apply nth_error_app_last|]. split; reflexivity. }
  intros k'. rewrite !owners_sums. cbn [cw leave w_mocks w_exps set_uncaught set_frames new_world set_scoped set_colls set_exps set_seqs enter]. unfold esum. rewrite sum_app.
  cbn [map list_sum fold_right]. unfold in_coll at 2. cbn [eo_alive eo_coll andb]. rewrite (Nat.eqb_sym k' coll). lia.
Qed.

(** A new mock has collections of its own, each with one owner for each of its overloads. *)
Theorem C101_new_mocks release n acts c t sigs c' r : cruns release (cinit n) acts c -> cstep release c t (AOp (ONewMock sigs)) = CNext c' r ->
  exists cs, nth_error (w_mocks (cw c')) (length (w_mocks (cw c))) = Some (mkMock sigs (Some cs) true) /\ length cs = length sigs /\
    (forall k, In k cs -> coll_owners (cw c) k = 0 /\ nth_error (w_colls (cw c')) k = Some []) /\
    forall k, coll_owners (cw c') k = coll_owners (cw c) k + count_occ Nat.eq_dec cs k.
Proof.
  intros R Hs. pose proof (hi_run _ _ _ _ R (hi_cinit n)) as I. apply cstep_op in Hs. destruct Hs as (th & v & _ & _ & _ & Ho & ->). cbn [step] in Ho.
  destruct (is_overload_set sigs && _); [|discriminate]. injection Ho as <- _. exists (new_ids (cw c) sigs).
  cbn [cw leave w_mocks w_colls set_uncaught set_frames set_mocks set_colls enter]. split; [apply nth_error_app_last|]. split; [apply map_length|]. split.
  - intros k Hk. apply In_nth_error in Hk. destruct Hk as [ov Hk]. apply new_ids_nth in Hk. destruct Hk as (s & i & _ & _ & -> & Hi). split.
    + apply owners_free. apply not_true_iff_false. intros U. apply (hi_ranged _ I) in U. lia.
    + rewrite nth_error_app2 by lia. replace (_ + i - _) with i by lia. rewrite nth_error_map. destruct (nth_error_ex (mock_collections sigs) i Hi) as [q Hq]. rewrite Hq. reflexivity.
  - intros k. rewrite !owners_sums. cbn [w_mocks w_exps set_uncaught set_frames set_mocks set_colls enter]. unfold msum. rewrite sum_app. cbn [map list_sum fold_right].
    unfold held_by at 2. cbn [mk_colls]. unfold new_ids. lia.
Qed.

(** A collection ends in the step which takes its last owner: neither the end of its mock nor the end of an expectation is enough as long as
    the other one is there. *)
Theorem C101_ends_of_collections release n acts c t a c' r k : cruns release (cinit n) acts c -> cstep release c t a = CNext c' r ->
  In (HKill k) (full_of release c t a) <-> coll_owners (cw c) k <> 0 /\ coll_owners (cw c') k = 0.
Proof.
  intros R Hs. pose proof (li_reach _ _ _ _ R) as L. rewrite (in_full_kill _ _ _ _ _ _ _ Hs), <- owners_free. split.
  - intros [H1 H2]. split; auto. apply owners_use. exact (goes_used _ _ _ _ _ _ _ L Hs H1).
  - intros [H1 H2]. split; auto. destruct (new_owner a) eqn:En.
    + destruct (step_new_owner _ _ _ _ _ _ k L Hs En) as (_ & Hle & _). lia.
    + pose proof (step_owners _ _ _ _ _ _ k L Hs En). apply (count_occ_In Nat.eq_dec). lia.
Qed.

(** It ends right after the release of its last shared_ptr, and after the other events of the step. *)
Theorem C101_last_release release n acts c t a c' r j k : cruns release (cinit n) acts c -> cstep release c t a = CNext c' r ->
  nth_error (full_of release c t a) j = Some (HKill k) ->
  length (life_of release c t a) < j /\ nth_error (full_of release c t a) (j - 1) = Some (HDrop k) /\ ~ In k (coll_releases (skipn j (full_of release c t a))).
Proof.
  intros R Hs Hj. destruct (full_kill_at _ _ _ _ _ _ _ _ (hi_run _ _ _ _ R (hi_cinit n)) Hs Hj) as (_ & _ & H1 & H2 & H3 & _). auto.
Qed.

(** The end of a scope: the expectation ends, then its collection is released. *)
Theorem C101_end_of_scope release c t h e x c' r :
  cstep release c t (AOp (OEndScope h)) = CNext c' r -> nth_error (w_scoped (cw c)) h = Some (HOwns e) -> exp_at (cw c) e x ->
  full_of release c t (AOp (OEndScope h)) =
    map HL (life_of release c t (AOp (OEndScope h))) ++ HDrop (eo_coll x) :: (if coll_owners (cw c') (eo_coll x) =? 0 then [HKill (eo_coll x)] else []).
Proof.
  intros Hs Hh Hx. rewrite full_parts, (part_drops _ _ _ _ _ _ Hs). f_equal. cbn [goes let_go]. unfold handle_coll. rewrite Hh. unfold exp_at in Hx. rewrite Hx.
  cbn [drop_colls existsb app]. rewrite orb_false_r, app_nil_r. f_equal.
  destruct (coll_in_use (cw c') (eo_coll x)) eqn:E; destruct (Nat.eqb_spec (coll_owners (cw c') (eo_coll x)) 0) as [Z|Z]; auto; exfalso.
  - apply owners_use in E. lia.
  - apply owners_free in E. lia.
Qed.

(** The destruction of a mock releases the collections of its overloads, the last overload first; a move assignment releases those of the
    target, the first one first. Nothing is locked. *)
Theorem C101_end_of_mock release c t m c' r : cstep release c t (AOp (ODestroyMock m)) = CNext c' r ->
  exists mk, nth_error (w_mocks (cw c)) m = Some mk /\ life_of release c t (AOp (ODestroyMock m)) = [] /\
    coll_releases (full_of release c t (AOp (ODestroyMock m))) = match mk_colls mk with Some cs => rev cs | None => [] end.
Proof.
  intros Hs. rewrite (full_releases _ _ _ _ _ _ Hs). apply cstep_op in Hs. destruct Hs as (th & v & Hth & Hp & _ & Ho & _). pose proof Ho as Ho'. cbn [step] in Ho'.
  change (w_mocks (enter (cw c) th)) with (w_mocks (cw c)) in Ho'. destruct (nth_error (w_mocks (cw c)) m) as [mk|] eqn:Hm; [|discriminate]. exists mk. split; [reflexivity|]. split.
  - unfold life_of. rewrite Hth, Hp. cbn [is_call before_endings op_events]. unfold endings. rewrite Ho. reflexivity.
  - cbn [goes let_go]. unfold mock_colls. rewrite Hm. unfold held_by. destruct (mk_colls mk); reflexivity.
Qed.

Theorem C101_assigned_mock release c t dst src c' r : cstep release c t (AOp (OMoveAssignMock dst src)) = CNext c' r ->
  exists mk, nth_error (w_mocks (cw c)) dst = Some mk /\ life_of release c t (AOp (OMoveAssignMock dst src)) = [] /\
    coll_releases (full_of release c t (AOp (OMoveAssignMock dst src))) = if dst =? src then [] else match mk_colls mk with Some cs => cs | None => [] end.
Proof.
  intros Hs. rewrite (full_releases _ _ _ _ _ _ Hs). apply cstep_op in Hs. destruct Hs as (th & v & Hth & Hp & _ & Ho & _). pose proof Ho as Ho'. cbn [step] in Ho'.
  change (w_mocks (enter (cw c) th)) with (w_mocks (cw c)) in Ho'. destruct (nth_error (w_mocks (cw c)) dst) as [mk|] eqn:Hm; [|discriminate]. exists mk. split; [reflexivity|]. split.
  - unfold life_of. rewrite Hth, Hp. cbn [is_call before_endings op_events]. unfold endings. rewrite Ho. reflexivity.
  - cbn [goes let_go]. unfold mock_colls. rewrite Hm. reflexivity.
Qed.

(** Matching, counting, and all other operations release no collection. *)
Theorem C101_no_other_releases release c t a c' r : cstep release c t a = CNext c' r ->
  match a with AOp (ODestroyMock _) | AOp (OMoveAssignMock _ _) | AOp (OEndScope _) | AOp (OMoveAssignScoped _ _) => True | _ => full_of release c t a = map HL (life_of release c t a) end.
Proof.
  intros Hs. rewrite full_parts, (part_drops _ _ _ _ _ _ Hs). destruct a as [o|m ov args l|]; cbn [goes]; [destruct o; cbn [let_go]; auto|auto|auto]; apply app_nil_r.
Qed.

(** ** Order *)

(** No use of a collection or of its mutex comes after its end. *)
Theorem C101_no_use_after_end release n acts c i j t a t' k : cruns release (cinit n) acts c ->
  uses_at (full release (cinit n) acts) i t a k -> coll_end_at (full release (cinit n) acts) j t' k -> i < j.
Proof. intros R. apply (used_before_end _ _ _ _ _ _ _ _ _ _ (hi_cinit n) R). Qed.

Theorem C101_ends_once release n acts c i j t t' k : cruns release (cinit n) acts c ->
  coll_end_at (full release (cinit n) acts) i t k -> coll_end_at (full release (cinit n) acts) j t' k -> i = j /\ t = t'.
Proof.
  intros R H1 H2. assert (i = j) by exact (coll_ends_once _ _ _ _ _ _ _ _ _ (hi_cinit n) R H1 H2). subst j. split; auto.
  destruct H1 as [a H1], H2 as [b H2]. congruence.
Qed.

(** The end of a collection is ordered after every use of any thread, except for a call which found the collection empty. *)
Theorem C101_ends_are_ordered release n acts c i j t a t' k : cruns release (cinit n) acts c ->
  uses_at (full release (cinit n) acts) i t a k -> coll_end_at (full release (cinit n) acts) j t' k ->
  hhb (full release (cinit n) acts) i j \/
  exists A B c1, acts = A ++ (t, a) :: B /\ cruns release (cinit n) A c1 /\
    length (full release (cinit n) A) <= i < length (full release (cinit n) (A ++ [(t, a)])) /\ finds_nothing (cw c1) a k.
Proof. intros R. apply (use_ordered _ _ _ _ _ _ _ _ _ _ (hi_cinit n) R). Qed.

(** An accepted call did not find the collection empty: all uses of accepted calls, new expectations and ends of scopes are ordered. *)
Lemma accepted_found release c t m ov args l c' k : cstep release c t (AMatch m ov args l) = CNext c' RUnit ->
  (exists x i, use_of k x /\ nth_error (life_of release c t (AMatch m ov args l)) i = Some (LE x)) -> LI (cw c) -> ~ finds_nothing (cw c) (AMatch m ov args l) k.
Proof.
  intros Hs (x & i & U & Hi) L F. cbn [finds_nothing] in F. pose proof (cstep_match _ _ _ _ _ _ _ _ _ Hs) as (th & s & coll & Hth & Hp & Hf & Hlen & D).
  assert (K : k = coll).
  { unfold life_of in Hi. rewrite Hth, Hp in Hi. apply nth_map_le in Hi. unfold ev_of in Hi. rewrite Hth, Hp, Hf in Hi. cbv zeta in Hi.
    destruct (nth_error (w_colls (enter (cw c) th)) coll) as [l'|]; [|destruct i; discriminate]. destruct (lookup_exps _ (rev l')) as [es|]; [|destruct i; discriminate].
    eapply section_use; [apply match_section|exact Hi|exact U]. }
  subst k. destruct D as [(w' & n & Hm & _)|(w' & Hm & E)].
  - unfold match_call in Hm. change (w_colls (enter (cw c) th)) with (w_colls (cw c)) in Hm. rewrite F in Hm. cbn in Hm. destruct (w_reporter _ _ _); discriminate.
  - apply over_throws in Hm. destruct Hm as [z Hz]. discriminate.
Qed.

Theorem C101_accepted_calls_are_ordered release n A m ov args l c1 c1' t B c i j t' k :
  cruns release (cinit n) A c1 -> cstep release c1 t (AMatch m ov args l) = CNext c1' RUnit -> cruns release c1' B c ->
  let tr := full release (cinit n) (A ++ (t, AMatch m ov args l) :: B) in
  length (full release (cinit n) A) <= i < length (full release (cinit n) (A ++ [(t, AMatch m ov args l)])) ->
  uses_at tr i t (AMatch m ov args l) k -> coll_end_at tr j t' k -> hhb tr i j.
Proof.
  intros R1 Hs R2 tr Hi Hu He. assert (R : cruns release (cinit n) (A ++ (t, AMatch m ov args l) :: B) c) by (eapply cruns_app; [exact R1|econstructor; eauto]).
  destruct (C101_ends_are_ordered _ _ _ _ _ _ _ _ _ _ R Hu He) as [|(A' & B' & c1'' & EA & R1' & Hi' & F)]; [auto|]. exfalso.
  (* both splits are the same *)
  assert (Em : forall X Y a b, A ++ a :: B = X ++ b :: Y -> (exists Z, A = X ++ b :: Z) \/ (A = X /\ a = b) \/ exists Z, X = A ++ a :: Z).
  { clear. induction A as [|q A IH]; intros [|q' X] Y a b H; cbn in H; injection H as H1 H2.
    - right. left. auto.
    - right. right. exists X. cbn. congruence.
    - left. exists A. cbn. congruence.
    - destruct (IH _ _ _ _ H2) as [(Z & HZ)|[(HZ & Hab)|(Z & HZ)]]; subst q'.
      + left. exists Z. cbn. congruence.
      + right. left. split; auto. congruence.
      + right. right. exists Z. cbn. congruence. }
  destruct (Em _ _ _ _ EA) as [(Z & EZ)|[(EZ & _)|(Z & EZ)]].
  - subst A. assert (P : cruns release (cinit n) (A' ++ [(t, AMatch m ov args l)] ++ Z) c1) by exact R1. rewrite app_assoc in P. apply cruns_split in P. destruct P as (q & P1 & P2).
    assert (G : length (full release (cinit n) (A' ++ [(t, AMatch m ov args l)])) <= length (full release (cinit n) (A' ++ (t, AMatch m ov args l) :: Z))).
    { change ((t, AMatch m ov args l) :: Z) with ([(t, AMatch m ov args l)] ++ Z). rewrite app_assoc, (full_app _ _ _ _ _ P1), app_length. lia. }
    lia.
  - subst A'. assert (E1 : c1'' = c1).
    { clear -R1 R1'. revert R1 R1'. generalize (cinit n). induction A as [|[t a] A IH]; intros c H1 H2; inversion H1; inversion H2; subst; [reflexivity|].
      match goal with E : cstep _ _ _ _ = _, E' : cstep _ _ _ _ = _ |- _ => rewrite E in E'; injection E' as <- _ end. eapply IH; eauto. }
    subst c1''. destruct Hu as (x & U & Hx). eapply (accepted_found release c1 t m ov args l c1' k); eauto; [|exact (li_reach _ _ _ _ R1)].
    unfold tr in Hx. rewrite (full_app _ _ _ _ _ R1) in Hx. rewrite nth_error_app2 in Hx by lia. rewrite (full_cons _ _ _ _ _ _ _ Hs) in Hx.
    rewrite (full_app _ _ _ _ _ R1), app_length, (full_cons _ _ _ _ _ _ _ Hs), app_length in Hi. cbn [full length] in Hi.
    rewrite nth_error_app1 in Hx by lia. apply nth_map_pair in Hx. destruct Hx as [_ Hx]. apply (full_in_life _ _ _ _ _ _ _ _ Hs) in Hx. exists x, (i - length (full release (cinit n) A)). auto.
  - subst A'. assert (P : cruns release (cinit n) ((A ++ [(t, AMatch m ov args l)]) ++ Z) c1'') by (rewrite <- app_assoc; exact R1').
    apply cruns_split in P. destruct P as (q & P1 & P2).
    assert (G : length (full release (cinit n) (A ++ [(t, AMatch m ov args l)])) <= length (full release (cinit n) (A ++ (t, AMatch m ov args l) :: Z))).
    { change ((t, AMatch m ov args l) :: Z) with ([(t, AMatch m ov args l)] ++ Z). rewrite app_assoc, (full_app _ _ _ _ _ P1), app_length. lia. }
    lia.
Qed.

(** ** Races *)

Lemma hhb_forward tr i j : hhb tr i j -> i < j.
Proof. induction 1; lia. Qed.

Lemma hhb_threads tr i j : hhb tr i j -> exists t a x t' b y, nth_error tr i = Some (t, a, x) /\ nth_error tr j = Some (t', b, y).
Proof.
  induction 1 as [i j t a b x y Hij Hi Hj|i j t t' a b m Hij Hi Hj|i j t t' a b q Hij Hi Hj|i j t t' a b q Hij Hi Hj|i j k H1 IH1 H2 IH2]; eauto 10.
  destruct IH1 as (t1 & a1 & x1 & _ & _ & _ & H1' & _), IH2 as (_ & _ & _ & t2 & a2 & x2 & _ & H2'). eauto 10.
Qed.

(** What one thread hands over, and another one takes. *)
Inductive handed : hev -> hev -> Prop :=
| HandMutex m : handed (HL (LE (MUnlock m))) (HL (LE (MLock m)))
| HandCount q : handed (HL (LDrop q)) (HL (LDrop q))
| HandColl k : handed (HDrop k) (HDrop k).

Lemma hhb_needs tr i j : hhb tr i j -> forall t a x t' b y, nth_error tr i = Some (t, a, x) -> nth_error tr j = Some (t', b, y) -> t <> t' ->
  exists u u' b' z t2 b2 z', i <= u /\ u < u' /\ u' <= j /\ nth_error tr u = Some (t, b', z) /\ nth_error tr u' = Some (t2, b2, z') /\ handed z z'.
Proof.
  induction 1 as [i j t0 a0 b0 x0 y0 Hij Hi Hj|i j t0 t1 a0 b0 m Hij Hi Hj|i j t0 t1 a0 b0 q Hij Hi Hj|i j t0 t1 a0 b0 q Hij Hi Hj|i j k H1 IH1 H2 IH2]; intros t a x t' b y Ht Ht' Hne.
  - congruence.
  - exists i, j, a0, (HL (LE (MUnlock m))), t1, b0, (HL (LE (MLock m))). repeat split; auto; [congruence|constructor].
  - exists i, j, a0, (HL (LDrop q)), t1, b0, (HL (LDrop q)). repeat split; auto; [congruence|constructor].
  - exists i, j, a0, (HDrop q), t1, b0, (HDrop q). repeat split; auto; [congruence|constructor].
  - pose proof (hhb_forward _ _ _ H1) as L1. pose proof (hhb_forward _ _ _ H2) as L2.
    destruct (hhb_threads _ _ _ H2) as (t2 & a2 & z & _ & _ & _ & Hz & _). destruct (Nat.eq_dec t t2) as [->|Hn].
    + destruct (IH2 _ _ _ _ _ _ Hz Ht' Hne) as (u & u' & b' & z' & t3 & b3 & z3 & G1 & G2 & G3 & G). exists u, u', b', z', t3, b3, z3. split; [lia|]. split; [lia|]. split; [lia|]. exact G.
    + destruct (IH1 _ _ _ _ _ _ Ht Hz Hn) as (u & u' & b' & z' & t3 & b3 & z3 & G1 & G2 & G3 & G). exists u, u', b', z', t3, b3, z3. split; [lia|]. split; [lia|]. split; [lia|]. exact G.
Qed.

Lemma full_in release acts : forall c cN t a y, cruns release c acts cN -> In (t, a, y) (full release c acts) ->
  In (t, a) acts /\ exists c1 c1' r, cstep release c1 t a = CNext c1' r /\ In y (full_of release c1 t a).
Proof.
  intros c cN t a y R H. apply In_nth_error in H. destruct H as [i Hi]. destruct (full_at _ _ _ _ _ _ _ _ R Hi) as (A & B & c1 & c1' & r & k & -> & _ & Hs & _ & _ & Hk).
  split; [apply in_or_app; right; left; reflexivity|]. exists c1, c1', r. split; auto. eapply nth_error_In; eauto.
Qed.

Lemma silent_full release c t a c' r y y' : cstep release c t a = CNext c' r -> silent a = true -> In y (full_of release c t a) -> ~ handed y y'.
Proof.
  intros Hs Hq Hin Hh. unfold silent in Hq. apply andb_prop in Hq. destruct Hq as [Hq Hn]. rewrite full_parts, (part_drops _ _ _ _ _ _ Hs) in Hin.
  assert (G : goes c a = []) by (destruct a as [[]| |]; try discriminate; reflexivity). rewrite G in Hin. cbn [drop_colls] in Hin. rewrite app_nil_r in Hin.
  apply in_map_iff in Hin. destruct Hin as (z & <- & Hz). eapply (quiet_life release c t a z Hq Hz). inversion Hh; subst; [left|right]; eauto.
Qed.

(** A matching locks its collection once, at its start, and hands over nothing else. *)
Lemma match_locks release c t m ov args l c' r u u' z z' k :
  cstep release c t (AMatch m ov args l) = CNext c' r -> (exists x i, use_of k x /\ nth_error (full_of release c t (AMatch m ov args l)) i = Some (HL (LE x))) ->
  nth_error (full_of release c t (AMatch m ov args l)) u = Some z -> handed z z' ->
  z = HL (LE (MUnlock k)) /\ (u < u' -> nth_error (full_of release c t (AMatch m ov args l)) u' <> Some (HL (LE (MLock k)))).
Proof.
  intros Hs (x & i & U & Hi) Hu Hh. apply (full_in_life _ _ _ _ _ _ _ _ Hs) in Hi. pose proof (C101_no_other_releases _ _ _ _ _ _ Hs) as E. cbn iota in E. rewrite E in Hu |- *.
  apply cstep_match in Hs. destruct Hs as (th & s & coll & Hth & Hp & Hf & _ & _).
  assert (M : exists w' cc es, life_of release c t (AMatch m ov args l) = map LE (match_events (w_seqs w') coll cc es (outcome_of w' cc es)) \/ life_of release c t (AMatch m ov args l) = []).
  { unfold life_of. rewrite Hth, Hp. unfold ev_of. rewrite Hth, Hp, Hf. cbv zeta. destruct (nth_error (w_colls (enter (cw c) th)) coll) as [l'|].
    - destruct (lookup_exps _ (rev l')) as [es|]; [eexists _, _, _; left; reflexivity|]. exists (cw c), (call_of s args l), []. right. reflexivity.
    - exists (cw c), (call_of s args l), []. right. reflexivity. }
  destruct M as (w' & cc & es & [M|M]); [|rewrite M in Hi; destruct i; discriminate]. rewrite M in *. apply nth_le_inv in Hi.
  assert (K : k = coll) by (eapply section_use; [apply match_section|exact Hi|exact U]). subst coll. rewrite map_map in Hu |- *.
  unfold match_events in Hu |- *. cbn [app] in Hu |- *.
  set (body := MRead (PlVector k) :: flat_map (visit_events (w_seqs w') cc) es) in *. set (post := match outcome_of w' cc es with Some kk => deliver kk | None => [] end) in *.
  assert (B : forall y, In y body -> inside k y) by (intros y [<-|Hy]; [reflexivity|]; pose proof (visits_inside k (w_seqs w') cc es) as V; rewrite Forall_forall in V; auto).
  assert (P : forall y, In y post -> outside y) by (unfold post; intros y Hy; pose proof (outcome_outside w' cc es) as V; destruct (outcome_of w' cc es); [rewrite Forall_forall in V; auto|destruct Hy]).
  split.
  - apply nth_error_In, in_map_iff in Hu. destruct Hu as (y & <- & Hy). inversion Hh as [mm E1 E2| |]; subst.
    destruct Hy as [Hy|Hy]; [discriminate|]. change (MRead (PlVector k) :: flat_map (visit_events (w_seqs w') cc) es ++ MUnlock k :: post) with (body ++ MUnlock k :: post) in Hy.
    apply in_app_or in Hy. destruct Hy as [Hy|[Hy|Hy]]; [exact (False_ind _ (B _ Hy))|congruence|exact (False_ind _ (P _ Hy))].
  - intros Lt. destruct u' as [|u']; [lia|]. intros H. assert (Hy : nth_error (map (fun x => HL (LE x)) (body ++ MUnlock k :: post)) u' = Some (HL (LE (MLock k)))) by exact H. clear H.
    apply nth_error_In, in_map_iff in Hy. destruct Hy as (y & E1 & Hy). injection E1 as ->. apply in_app_or in Hy. destruct Hy as [Hy|[Hy|Hy]]; [exact (B _ Hy)|discriminate|exact (P _ Hy)].
Qed.

(** The silent actions are all but the calls, the creations and ends of expectations, and the ends of sequences and mocks. *)
Theorem C101_silent_actions a : silent a = false <->
  (exists m ov args l, a = AMatch m ov args l) \/
  exists o, a = AOp o /\ ((exists m ov ms cls l, o = OExpect m ov ms cls l) \/ (exists h, o = OEndScope h) \/ (exists dst src, o = OMoveAssignScoped dst src) \/
    (exists s, o = ODropSeq s) \/ (exists m, o = ODestroyMock m) \/ exists dst src, o = OMoveAssignMock dst src).
Proof.
  split.
  - destruct a as [o|m ov args l|]; [|intros _; left; eauto|discriminate]. intros H. right. exists o. split; auto.
    destruct o; try discriminate; eauto 12.
  - intros [(m & ov & args & l & ->)|(o & -> & [(m & ov & ms & cls & l & ->)|[(h & ->)|[(dst & src & ->)|[(s & ->)|[(m & ->)|(dst & src & ->)]]]]])]; reflexivity.
Qed.

(** A call whose thread keeps silent afterwards races with the end of the collection by the end of the mock in another thread, unless the
    collection is locked once more in between: the library does not order them. *)
Theorem C101_unfollowed_calls_race release c acts1 c1 t m ov args l c1' r acts2 c2 t' b c2' r' acts3 k x :
  cruns release c acts1 c1 -> cstep release c1 t (AMatch m ov args l) = CNext c1' r -> In (HL (LE x)) (full_of release c1 t (AMatch m ov args l)) -> use_of k x ->
  cruns release c1' acts2 c2 -> (forall a', In (t, a') acts2 -> silent a' = true) -> (forall t0 b0, ~ In (t0, b0, HL (LE (MLock k))) (full release c1' acts2)) ->
  t <> t' -> (exists mo, b = AOp (ODestroyMock mo)) \/ (exists dst src, b = AOp (OMoveAssignMock dst src)) ->
  cstep release c2 t' b = CNext c2' r' -> In (HKill k) (full_of release c2 t' b) ->
  coll_race (full release c (acts1 ++ (t, AMatch m ov args l) :: acts2 ++ (t', b) :: acts3)) k.
Proof.
  intros R1 Hs Hy U R2 Hq Hnl Hne Hb Hs' Hk. set (a := AMatch m ov args l) in *. apply In_nth_error in Hy. apply In_nth_error in Hk. destruct Hy as [n1 Hk1], Hk as [n2 Hk2].
  rewrite (full_trace _ _ _ _ _ _ _ _ _ _ _ _ _ _ _ R1 Hs R2 Hs').
  assert (NL : forall t0, ~ In (t0, b, HL (LE (MLock k))) (map (pair (t', b)) (full_of release c2 t' b))).
  { intros t0 H. apply in_map_iff in H. destruct H as (y & E & H). injection E as _ ->. apply In_nth_error in H. destruct H as [v H]. apply (full_in_life _ _ _ _ _ _ _ _ Hs') in H.
    assert (L0 : life_of release c2 t' b = []).
    { destruct Hb as [(mo & ->)|(dst & src & ->)]; [destruct (C101_end_of_mock _ _ _ _ _ _ Hs') as (_ & _ & L0 & _)|destruct (C101_assigned_mock _ _ _ _ _ _ _ Hs') as (_ & _ & L0 & _)]; exact L0. }
    rewrite L0 in H. destruct v; discriminate. }
  set (L1 := full release c acts1). set (L2 := full release c1' acts2) in *. set (L3 := full release c2' acts3). set (b1 := full_of release c1 t a) in *. set (b2 := full_of release c2 t' b) in *.
  set (tr := L1 ++ map (pair (t, a)) b1 ++ L2 ++ map (pair (t', b)) b2 ++ L3).
  pose proof (nth_error_lt _ _ _ Hk1) as Li. pose proof (nth_error_lt _ _ _ Hk2) as Lj.
  set (I := length L1 + n1). set (J := length L1 + (length b1 + (length L2 + n2))).
  assert (HI : nth_error tr I = Some (t, a, HL (LE x))) by (unfold tr, I; apply nth_in_second; apply nth_pair_map; exact Hk1).
  assert (HJ : nth_error tr J = Some (t', b, HKill k)).
  { unfold tr, J. rewrite nth_error_app2 by lia. replace (_ + _ - length L1) with (length b1 + (length L2 + n2)) by lia.
    rewrite nth_error_app2; rewrite map_length; [|lia]. replace (_ + _ - length b1) with (length L2 + n2) by lia. apply nth_in_second. apply nth_pair_map. exact Hk2. }
  exists I, J, t, t', a. split; [exists x; auto|]. split; [exists b; exact HJ|]. split; [exact Hne|]. split.
  2:{ intros H. apply hhb_forward in H. unfold I, J in H. lia. }
  intros H. destruct (hhb_needs _ _ _ H _ _ _ _ _ _ HI HJ Hne) as (u & u' & b' & z & t2 & b2' & z' & G1 & G2 & G3 & Hz & Hz' & Hh).
  unfold tr, I, J in *. rewrite nth_error_app2 in Hz by lia. destruct (Nat.lt_ge_cases (u - length L1) (length b1)) as [H1|H1].
  - rewrite nth_error_app1 in Hz by (rewrite map_length; auto). apply nth_map_pair in Hz. destruct Hz as [_ Hz].
    destruct (match_locks release c1 t m ov args l c1' r _ (u' - length L1) z z' k Hs (ex_intro _ x (ex_intro _ n1 (conj U Hk1))) Hz Hh) as (-> & Hno).
    inversion Hh; subst. rewrite nth_error_app2 in Hz' by lia. destruct (Nat.lt_ge_cases (u' - length L1) (length b1)) as [H2|H2].
    { rewrite nth_error_app1 in Hz' by (rewrite map_length; auto). apply nth_map_pair in Hz'. destruct Hz' as [_ Hz']. apply Hno; [lia|exact Hz']. }
    rewrite nth_error_app2 in Hz'; rewrite map_length in *; auto. destruct (Nat.lt_ge_cases (u' - length L1 - length b1) (length L2)) as [H3|H3].
    { rewrite nth_error_app1 in Hz' by auto. apply nth_error_In in Hz'. exact (Hnl _ _ Hz'). }
    rewrite nth_error_app2 in Hz' by auto. rewrite nth_error_app1 in Hz' by (rewrite map_length; lia). pose proof Hz' as Hz2. apply nth_map_pair in Hz2. destruct Hz2 as [E _].
    injection E as -> ->. apply nth_error_In in Hz'. exact (NL _ Hz').
  - rewrite nth_error_app2 in Hz; rewrite map_length in *; auto. destruct (Nat.lt_ge_cases (u - length L1 - length b1) (length L2)) as [H2|H2].
    + rewrite nth_error_app1 in Hz by auto. apply nth_error_In in Hz. destruct (full_in _ _ _ _ _ _ _ R2 Hz) as (Hin & c3 & c3' & r3 & Hs3 & Hl). eapply silent_full; [exact Hs3|apply Hq; exact Hin|exact Hl|exact Hh].
    + rewrite nth_error_app2 in Hz by auto. rewrite nth_error_app1 in Hz by (rewrite map_length; lia). apply nth_map_pair in Hz. destruct Hz as [E _]. injection E as E _. auto.
Qed.

(** ** Examples *)

(** Thread 0 owns a mock and an expectation; thread 1 calls; the mock ends before the expectation, which takes the collection with it. *)
Definition used_mock : list (nat * action) :=
  [(0, AOp (ONewMock [sig_unary])); (0, AOp (OExpect 0 0 [m_any] [ClTimes (TxRange 0 3)] here)); (1, AMatch 0 0 [VInt 1] there)] ++ (1, ACount) :: finish 1.

Example C101_events_example :
  full_of true (after2 used_mock) 0 (AOp (ODestroyMock 0)) = [HDrop 0] /\
  full_of true (after2 (used_mock ++ [(0, AOp (ODestroyMock 0))])) 0 (AOp (OEndScope 0)) =
    map (fun x => HL (LE x)) [MLock 0; MRead (PlVector 0); MWrite (PlVector 0); MRead (PlCount 0); MUnlock 0] ++ [HL (LKill (PlCount 0)); HDrop 0; HKill 0] /\
  full_of true (after2 used_mock) 0 (AOp (OEndScope 0)) =
    map (fun x => HL (LE x)) [MLock 0; MRead (PlVector 0); MWrite (PlVector 0); MRead (PlCount 0); MUnlock 0] ++ [HL (LKill (PlCount 0)); HDrop 0] /\
  full_of true (after2 (used_mock ++ [(0, AOp (OEndScope 0))])) 0 (AOp (ODestroyMock 0)) = [HDrop 0; HKill 0] /\
  map (fun acts => coll_owners (cw (after2 (used_mock ++ acts))) 0)
    [[]; [(0, AOp (ODestroyMock 0))]; [(0, AOp (ODestroyMock 0)); (0, AOp (OEndScope 0))]] = [2; 1; 0].
Proof. vm_compute. repeat split. Qed.

(** The accepted call of thread 1 is ordered before the end of the collection by the end of the mock. *)
Example C101_ends_are_ordered_example : exists c i j,
  let acts := used_mock ++ [(0, AOp (OEndScope 0)); (0, AOp (ODestroyMock 0))] in
  cruns true (cinit 2) acts c /\ nth_error (full true (cinit 2) acts) i = Some (1, AMatch 0 0 [VInt 1] there, HL (LE (MRead (PlVector 0)))) /\
  nth_error (full true (cinit 2) acts) j = Some (0, AOp (ODestroyMock 0), HKill 0) /\ hhb (full true (cinit 2) acts) i j.
Proof.
  cbv zeta. set (acts := used_mock ++ _). exists (after2 acts), 5, 23. set (tr := full true (cinit 2) acts).
  assert (H : nth_error tr 5 = Some (1, AMatch 0 0 [VInt 1] there, HL (LE (MRead (PlVector 0)))) /\ nth_error tr 9 = Some (1, AMatch 0 0 [VInt 1] there, HL (LE (MUnlock 0))) /\
    nth_error tr 15 = Some (0, AOp (OEndScope 0), HL (LE (MLock 0))) /\ nth_error tr 23 = Some (0, AOp (ODestroyMock 0), HKill 0)) by (vm_compute; repeat split).
  destruct H as (H1 & H2 & H3 & H4). split; [apply after2_runs; vm_compute; reflexivity|]. split; [exact H1|]. split; [exact H4|].
  eapply hhb_trans; [eapply hhb_program; [|exact H1|exact H2]; lia|]. eapply hhb_trans; [eapply hhb_mutex; [|exact H2|exact H3]; lia|]. eapply hhb_program; [|exact H3|exact H4]; lia.
Qed.

(** Two overloads: the destruction releases the last one first. A move assignment releases the first one first. *)
Definition two_mocks : list (nat * action) := [(0, AOp (ONewMock [sig_unary; sig_void])); (0, AOp (ONewMock [sig_unary; sig_void]))].
Example C101_order_example :
  full_of true (after2 two_mocks) 0 (AOp (ODestroyMock 0)) = [HDrop 1; HKill 1; HDrop 0; HKill 0] /\
  full_of true (after2 two_mocks) 0 (AOp (OMoveAssignMock 0 1)) = [HDrop 0; HKill 0; HDrop 1; HKill 1] /\
  full_of true (after2 two_mocks) 0 (AOp (OMoveAssignMock 0 0)) = [] /\
  full_of true (after2 (two_mocks ++ [(0, AOp (OMoveAssignMock 0 1))])) 1 (AOp (ODestroyMock 1)) = [] /\
  full_of true (after2 (two_mocks ++ [(0, AOp (OMoveAssignMock 0 1))])) 1 (AOp (ODestroyMock 0)) = [HDrop 3; HKill 3; HDrop 2; HKill 2].
Proof. vm_compute. repeat split. Qed.

(** A call which finds nothing is not ordered before the end of the mock. *)
Theorem C101_ends_never_race_refuted : exists acts c k, cruns true (cinit 2) acts c /\ coll_race (full true (cinit 2) acts) k.
Proof.
  assert (H : exists c1 c1' r c2' r',
    cruns true (cinit 2) [(0, AOp (ONewMock [sig_unary]))] c1 /\ cstep true c1 1 (AMatch 0 0 [VInt 1] there) = CNext c1' r /\
    In (HL (LE (MRead (PlVector 0)))) (full_of true c1 1 (AMatch 0 0 [VInt 1] there)) /\
    cstep true c1' 0 (AOp (ODestroyMock 0)) = CNext c2' r' /\ In (HKill 0) (full_of true c1' 0 (AOp (ODestroyMock 0)))).
  { do 5 eexists. split; [apply cexec_runs; vm_compute; reflexivity|]. split; [vm_compute; reflexivity|]. split; [vm_compute; auto 10|].
    split; [vm_compute; reflexivity|]. vm_compute. auto 10. }
  destruct H as (c1 & c1' & r & c2' & r' & R1 & Hs & Hy & Hs' & Hk).
  exists ([(0, AOp (ONewMock [sig_unary]))] ++ (1, AMatch 0 0 [VInt 1] there) :: [] ++ (0, AOp (ODestroyMock 0)) :: []), c2', 0. split.
  - eapply cruns_app; [exact R1|]. econstructor; [exact Hs|]. econstructor; [exact Hs'|constructor].
  - eapply (C101_unfollowed_calls_race true (cinit 2) _ c1 1); [exact R1|exact Hs|exact Hy|constructor|constructor|intros a' []|intros t0 b0 []|discriminate|left; eauto|exact Hs'|exact Hk].
Qed.

Print Assumptions C101_events.
Print Assumptions C101_releases.
Print Assumptions C101_new_expectations.
Print Assumptions C101_new_mocks.
Print Assumptions C101_ends_of_collections.
Print Assumptions C101_last_release.
Print Assumptions C101_end_of_scope.
Print Assumptions C101_end_of_mock.
Print Assumptions C101_assigned_mock.
Print Assumptions C101_no_other_releases.
Print Assumptions C101_no_use_after_end.
Print Assumptions C101_ends_once.
Print Assumptions C101_ends_are_ordered.
Print Assumptions C101_accepted_calls_are_ordered.
Print Assumptions C101_silent_actions.
Print Assumptions C101_unfollowed_calls_race.
Print Assumptions C101_ends_never_race_refuted.
