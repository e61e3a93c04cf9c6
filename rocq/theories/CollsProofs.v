(** * CollsProofs: the owners of the collections. *)

From Verif Require Import Base Lib Sequence Control Signature Printer Reports Expectation Builder World WorldSpec CallSpec
  SeqInv BuildSpec BuilderLemmas StepCases MatchLemmas WorldInv ObjInv CallProofs BuildProofs CountProofs FrameSpec Conc ConcSpec ConcProofs ConcOrder
  Race RaceSpec RaceProofs RaceFree Lifetime LifetimeSpec LifetimeProofs LifetimeOrder Colls CollsSpec.

(** ** Counting owners *)

Definition msum (l : list mock) (k : nat) : nat := list_sum (map (fun mk => count_occ Nat.eq_dec (held_by mk) k) l).
Definition in_coll (k : nat) (x : eobj) : bool := eo_alive x && (eo_coll x =? k).
Definition esum (l : list eobj) (k : nat) : nat := list_sum (map (fun x => if in_coll k x then 1 else 0) l).

Lemma owners_sums w k : coll_owners w k = msum (w_mocks w) k + esum (w_exps w) k.
Proof.
  unfold coll_owners, msum, esum. f_equal.
  - f_equal. apply map_ext. intros mk. unfold held_by. destruct (mk_colls mk); reflexivity.
  - induction (w_exps w) as [|x l IH]; auto. cbn [filter map]. unfold in_coll at 1. destruct (eo_alive x && (eo_coll x =? k)); cbn [length list_sum fold_right]; fold (list_sum (map (fun x0 => if in_coll k x0 then 1 else 0) l)); rewrite IH; reflexivity.
Qed.

Lemma sum_upd {A} (f : A -> nat) (l : list A) i x y : nth_error l i = Some x -> list_sum (map f (upd l i y)) + f x = list_sum (map f l) + f y.
Proof.
  revert i. induction l as [|z l IH]; intros [|i] H; cbn in H; try discriminate.
  - injection H as ->. cbn. lia.
  - cbn. specialize (IH _ H). fold (list_sum (map f l)) in *. fold (list_sum (map f (upd l i y))). lia.
Qed.

Lemma sum_app {A} (f : A -> nat) (l l' : list A) : list_sum (map f (l ++ l')) = list_sum (map f l) + list_sum (map f l').
Proof. rewrite map_app, list_sum_app. reflexivity. Qed.

Lemma sum_pos {A} (f : A -> nat) (l : list A) : list_sum (map f l) <> 0 <-> exists x, In x l /\ f x <> 0.
Proof.
  induction l as [|z l IH]; cbn; [split; [lia|intros (x & [] & _)]|]. fold (list_sum (map f l)). split.
  - intros H. destruct (f z) eqn:E; [|exists z; split; auto; lia]. destruct (proj1 IH) as (x & Hx & Hf); [lia|]. eauto.
  - intros (x & [->|Hx] & Hf); [lia|]. assert (list_sum (map f l) <> 0) by (apply IH; eauto). lia.
Qed.

Lemma use_spec w k : coll_in_use w k = true <-> (exists mk, In mk (w_mocks w) /\ In k (held_by mk)) \/ (exists x, In x (w_exps w) /\ in_coll k x = true).
Proof.
  unfold coll_in_use. rewrite orb_true_iff, !existsb_exists. split; (intros [(y & Hy & H)|H]; [left|right; exact H]); exists y; split; auto; apply existsb_eqb; auto.
Qed.

Lemma owners_use w k : coll_owners w k <> 0 <-> coll_in_use w k = true.
Proof.
  rewrite owners_sums, use_spec. unfold msum, esum. split.
  - intros H. destruct (list_sum (map (fun mk => count_occ Nat.eq_dec (held_by mk) k) (w_mocks w))) eqn:E.
    + right. destruct (proj1 (sum_pos (fun x => if in_coll k x then 1 else 0) (w_exps w)) H) as (x & Hx & Hf). exists x. split; auto. destruct (in_coll k x); congruence.
    + left. destruct (proj1 (sum_pos (fun mk => count_occ Nat.eq_dec (held_by mk) k) (w_mocks w))) as (x & Hx & Hf); [lia|]. exists x. split; auto.
      apply (count_occ_In Nat.eq_dec). lia.
  - intros [(mk & Hm & Hk)|(x & Hx & Hk)].
    + assert (list_sum (map (fun mk => count_occ Nat.eq_dec (held_by mk) k) (w_mocks w)) <> 0); [|lia]. apply sum_pos. exists mk. split; auto. apply (count_occ_In Nat.eq_dec) in Hk. lia.
    + assert (list_sum (map (fun x => if in_coll k x then 1 else 0) (w_exps w)) <> 0); [|lia]. apply sum_pos. exists x. split; auto. rewrite Hk. lia.
Qed.

Lemma owners_free w k : coll_owners w k = 0 <-> coll_in_use w k = false.
Proof. rewrite <- not_true_iff_false, <- owners_use. lia. Qed.

Lemma owners_same w w' k : w_mocks w' = w_mocks w -> w_exps w' = w_exps w -> coll_owners w' k = coll_owners w k.
Proof. intros E1 E2. unfold coll_owners. rewrite E1, E2. reflexivity. Qed.

Lemma owners_core w w' k : core w' = core w -> coll_owners w' k = coll_owners w k.
Proof. intros E. apply owners_same; [|apply (core_fields _ _ E)]. change (w_mocks w') with (w_mocks (core w')). rewrite E. reflexivity. Qed.

Lemma use_ext w w' : (forall k, coll_owners w' k = coll_owners w k) -> forall k, coll_in_use w' k = coll_in_use w k.
Proof. intros H k. apply eq_true_iff_eq. rewrite <- !owners_use, H. reflexivity. Qed.

(** The end of an expectation. *)
Lemma end_fields w sc e w' r : LI w -> end_expectation (set_scoped w sc) e = Next w' r ->
  exists x, exp_at w e x /\ eo_alive x = true /\ w_exps w' = upd (w_exps w) e (mkEObj (eo_exp x) (eo_coll x) false (eo_ov x) (eo_sig x)) /\
    w_mocks w' = w_mocks w /\ length (w_colls w') = length (w_colls w).
Proof.
  intros L H. apply end_expectation_next in H. destruct H as (x & l & unf & evs & d' & Hx & Hl & Hin & _ & -> & _).
  cbn [w_exps set_scoped w_colls] in Hx, Hl. rewrite (li_coll _ L _ _ Hl) in Hin. apply members_in in Hin. destruct Hin as (x' & Hx' & A & _).
  assert (x' = x) by (unfold exp_at in *; congruence). subst x'. exists x. split; [exact Hx|]. split; auto.
  split; [reflexivity|]. split; [reflexivity|]. cbn [w_colls add_trace set_sdead kill set_colls set_exps set_scoped]. apply length_upd.
Qed.

Lemma end_owners w sc e w' r k : LI w -> end_expectation (set_scoped w sc) e = Next w' r ->
  exists x, nth_error (w_exps w) e = Some x /\ coll_owners w' k + count_occ Nat.eq_dec [eo_coll x] k = coll_owners w k.
Proof.
  intros L H. destruct (end_fields _ _ _ _ _ L H) as (x & Hx & A & E1 & E2 & _). exists x. split; [exact Hx|]. rewrite !owners_sums, E1, E2.
  unfold esum. pose proof (sum_upd (fun x => if in_coll k x then 1 else 0) _ _ _ (mkEObj (eo_exp x) (eo_coll x) false (eo_ov x) (eo_sig x)) Hx) as S. cbn beta in S.
  unfold in_coll at 2 4 in S. cbn [eo_alive eo_coll andb] in S. rewrite A in S. cbn [andb] in S. cbn [count_occ].
  destruct (Nat.eq_dec (eo_coll x) k) as [E|E]; destruct (Nat.eqb_spec (eo_coll x) k); try congruence; lia.
Qed.

(** Operations which create no owner release those they take away. *)
Lemma op_owners w o w' r k : step w o = Next w' r -> is_call o = false -> LI w -> new_owner (AOp o) = false ->
  coll_owners w' k + count_occ Nat.eq_dec (let_go w o) k = coll_owners w k.
Proof.
  intros H Hc L Hn. destruct (frame_op o) eqn:Ef.
  { pose proof (frame_op_core _ _ _ _ Ef H) as [E _]. rewrite (owners_core _ _ _ E). destruct o; try discriminate; cbn [let_go count_occ]; lia. }
  destruct o; try discriminate; cbn [step] in H; cbn [let_go count_occ].
  - injection H as <- _. rewrite Nat.add_0_r. apply owners_same; reflexivity.
  - destruct (nth s (w_iface w) false); [|discriminate]. apply release_seq_next in H. rewrite Nat.add_0_r.
    destruct H as (_ & [(-> & _)|(_ & _ & q & _ & -> & _)]); apply owners_same; reflexivity.
  - destruct (nth_error (w_mocks w) m) as [mk|] eqn:Hm; [|discriminate]. destruct (negb (mk_alive mk)); [discriminate|]. injection H as <- _.
    rewrite !owners_sums. cbn [w_mocks w_exps set_mocks]. unfold msum. rewrite sum_app.
    pose proof (sum_upd (fun mk => count_occ Nat.eq_dec (held_by mk) k) _ _ _ (mkMock (mk_sigs mk) None true) Hm) as S. cbn beta in S. cbn [map list_sum fold_right].
    unfold held_by in *. cbn [mk_colls count_occ] in *. lia.
  - destruct (nth_error (w_mocks w) dst) as [md|] eqn:Hd; [|discriminate]. destruct (nth_error (w_mocks w) src) as [ms|] eqn:Hs; [|discriminate].
    destruct (negb _); [discriminate|]. destruct (Nat.eqb_spec dst src) as [->|Hne]; injection H as <- _; [cbn [count_occ]; lia|].
    rewrite !owners_sums. cbn [w_mocks w_exps set_mocks]. unfold msum, mock_colls. rewrite Hd.
    pose proof (sum_upd (fun mk => count_occ Nat.eq_dec (held_by mk) k) _ _ _ (mkMock (mk_sigs ms) None true) Hs) as S1. cbn beta in S1.
    assert (Hd' : nth_error (upd (w_mocks w) src (mkMock (mk_sigs ms) None true)) dst = Some md) by (rewrite nth_error_upd_neq; auto).
    pose proof (sum_upd (fun mk => count_occ Nat.eq_dec (held_by mk) k) _ _ _ (mkMock (mk_sigs ms) (mk_colls ms) true) Hd') as S2. cbn beta in S2.
    unfold held_by in *. cbn [mk_colls count_occ] in *. lia.
  - destruct (nth_error (w_mocks w) m) as [mk|] eqn:Hm; [|discriminate]. destruct (negb (mk_alive mk)); [discriminate|]. injection H as <- _.
    rewrite !owners_sums. cbn [w_mocks w_exps set_mocks]. unfold msum, mock_colls. rewrite Hm, count_occ_rev.
    pose proof (sum_upd (fun mk => count_occ Nat.eq_dec (held_by mk) k) _ _ _ (mkMock (mk_sigs mk) None false) Hm) as S. cbn beta in S.
    unfold held_by in *. cbn [mk_colls count_occ] in *. lia.
  - destruct (nth_error (w_scoped w) h) as [[e| |]|]; try discriminate. destruct (nth_error (w_exps w) e) as [eo|]; [|discriminate]. destruct (eo_alive eo); [|discriminate].
    injection H as <- _. lia.
  - unfold handle_coll. destruct (nth_error (w_scoped w) h) as [[e| |]|]; try discriminate.
    + destruct (end_owners _ _ _ _ _ k L H) as (x & -> & E). exact E.
    + injection H as <- _. cbn [count_occ]. rewrite Nat.add_0_r. apply owners_same; reflexivity.
  - destruct (nth_error (w_scoped w) h) as [[e| |]|]; try discriminate; injection H as <- _; rewrite Nat.add_0_r; apply owners_same; reflexivity.
  - assert (H' : (dst = src /\ w' = w) \/ (dst <> src /\
        ((exists e sc, nth_error (w_scoped w) dst = Some (HOwns e) /\ end_expectation (set_scoped w sc) e = Next w' r) \/
         ((forall e, nth_error (w_scoped w) dst <> Some (HOwns e)) /\ exists sc, w' = set_scoped w sc)))).
    { destruct (nth_error (w_scoped w) dst) as [old|]; [|destruct (nth_error (w_scoped w) src) as [[]|]; discriminate].
      destruct (nth_error (w_scoped w) src) as [x|]; [|destruct old; discriminate].
      assert (H1 : (if dst =? src then Next w RUnit
                  else match old with
                       | HOwns e => match end_expectation (set_scoped w (upd (upd (w_scoped w) src HEmpty) dst x)) e with
                                    | Next w2 (RThrow _) => Stop
                                    | other => other
                                    end
                       | _ => Next (set_scoped w (upd (upd (w_scoped w) src HEmpty) dst x)) RUnit
                       end) = Next w' r).
      { destruct old, x; try discriminate; exact H. }
      clear H. destruct (Nat.eqb_spec dst src) as [->|Hne]; [left; split; auto; congruence|]. right. split; auto. destruct old as [e| |].
      - left. exists e, (upd (upd (w_scoped w) src HEmpty) dst x). split; [reflexivity|].
        destruct (end_expectation (set_scoped w (upd (upd (w_scoped w) src HEmpty) dst x)) e) as [w2 r2| | |]; try discriminate. destruct r2; try discriminate; exact H1.
      - right. split; [congruence|]. eexists. symmetry. injection H1 as H1 _. exact H1.
      - right. split; [congruence|]. eexists. symmetry. injection H1 as H1 _. exact H1. }
    destruct H' as [[-> ->]|[Hne [(e & sc & Hd & He)|(Hno & sc & ->)]]].
    + rewrite Nat.eqb_refl. cbn [count_occ]. lia.
    + destruct (Nat.eqb_spec dst src); [contradiction|]. unfold handle_coll. rewrite Hd. destruct (end_owners _ _ _ _ _ k L He) as (x & -> & E). exact E.
    + destruct (Nat.eqb_spec dst src); [contradiction|]. unfold handle_coll. destruct (nth_error (w_scoped w) dst) as [[e| |]|]; try (exfalso; eapply Hno; reflexivity);
        cbn [count_occ]; rewrite Nat.add_0_r; apply owners_same; reflexivity.
  - injection H as <- _. rewrite Nat.add_0_r. apply owners_same; reflexivity.
  - injection H as <- _. rewrite Nat.add_0_r. apply owners_same; reflexivity.
Qed.

(** ** Releases *)

Lemma crel_app a b : coll_releases (a ++ b) = coll_releases a ++ coll_releases b.
Proof. unfold coll_releases. apply flat_map_app. Qed.
Lemma crel_map l : coll_releases (map HL l) = [].
Proof. induction l; cbn; auto. Qed.
Lemma crel_drop w l : coll_releases (drop_colls w l) = l.
Proof.
  induction l as [|k l IH]; cbn [drop_colls]; auto. change (coll_releases (HDrop k :: ?b)) with (k :: coll_releases b). f_equal.
  rewrite crel_app, IH. destruct (_ || _); reflexivity.
Qed.

Lemma drop_colls_parts w l y : In y (drop_colls w l) -> exists k, In k l /\ (y = HDrop k \/ (y = HKill k /\ coll_in_use w k = false)).
Proof.
  induction l as [|k l IH]; cbn [drop_colls]; [intros []|]. intros [<-|H]; [exists k; cbn; auto|]. apply in_app_or in H. destruct H as [H|H].
  - destruct (coll_in_use w k || existsb (Nat.eqb k) l) eqn:E; [destruct H|]. destruct H as [<-|[]]. apply orb_false_iff in E. exists k. cbn. tauto.
  - destruct (IH H) as (k' & Hk & D). exists k'. cbn. auto.
Qed.

Lemma drop_colls_kill w l k : coll_in_use w k = false -> In k l -> In (HKill k) (drop_colls w l).
Proof.
  intros Hu. induction l as [|k' l IH]; [intros []|]. intros H. cbn [drop_colls]. right. apply in_or_app.
  destruct (in_dec Nat.eq_dec k l) as [Hi|Hi]; [right; auto|]. left. destruct H as [->|H]; [|contradiction]. rewrite Hu. cbn [orb].
  destruct (existsb (Nat.eqb k) l) eqn:E; [apply existsb_eqb in E; contradiction|]. left. reflexivity.
Qed.

(** A collection ends right after the release of its last shared_ptr. *)
Lemma drop_colls_at w l : forall j k, nth_error (drop_colls w l) j = Some (HKill k) ->
  coll_in_use w k = false /\ 0 < j /\ nth_error (drop_colls w l) (j - 1) = Some (HDrop k) /\ ~ In k (coll_releases (skipn j (drop_colls w l))) /\
  forall j', nth_error (drop_colls w l) j' = Some (HKill k) -> j' = j.
Proof.
  induction l as [|k0 l IH]; intros j k H; [destruct j; discriminate|]. cbn [drop_colls] in *.
  destruct j as [|j]; [discriminate|]. cbn [nth_error] in H. cbn [skipn].
  destruct (coll_in_use w k0 || existsb (Nat.eqb k0) l) eqn:E; cbn [app] in *.
  - destruct (IH _ _ H) as (H1 & H2 & H3 & H4 & H5). split; auto. split; [lia|]. split.
    { replace (S j - 1) with (S (j - 1)) by lia. exact H3. }
    split; auto. intros [|j'] Hj; [discriminate|]. f_equal. apply H5. exact Hj.
  - apply orb_false_iff in E. destruct E as [E1 E2]. assert (Hn : ~ In k0 l) by (intros G; apply existsb_eqb in G; congruence).
    assert (Later : forall j', nth_error (drop_colls w l) j' = Some (HKill k0) -> False).
    { intros j' Hj. apply nth_error_In, drop_colls_parts in Hj. destruct Hj as (k' & Hk & [D|[D _]]); [discriminate|]. injection D as <-. contradiction. }
    destruct j as [|j]; cbn [nth_error] in H.
    + injection H as <-. split; auto. split; [lia|]. split; [reflexivity|]. cbn [skipn]. split.
      * change (coll_releases (HKill k0 :: ?b)) with (coll_releases b). rewrite crel_drop. exact Hn.
      * intros [|[|j']] Hj; [discriminate|reflexivity|]. exfalso. exact (Later _ Hj).
    + destruct (IH _ _ H) as (H1 & H2 & H3 & H4 & H5). split; auto. split; [lia|]. split.
      { replace (S (S j) - 1) with (S (S (j - 1))) by lia. exact H3. }
      split; [exact H4|]. intros [|[|j']] Hj; [discriminate| |f_equal; f_equal; apply H5; exact Hj]. cbn in Hj. injection Hj as <-. exfalso. exact (Later _ H).
Qed.

(** ** Owners and steps *)

Definition coll_ranged (w : world) : Prop := forall k, coll_in_use w k = true -> k < length (w_colls w).

(** The events about collections of a step. *)
Definition coll_part (release : bool) (c : cworld) (t : nat) (a : action) : list hev :=
  match nth_error (c_threads c) t with
  | None => []
  | Some th =>
      match t_pending th, a with
      | None, AOp o => if is_call o then [] else coll_events (enter (cw c) th) o
      | _, _ => []
      end
  end.
Lemma full_parts release c t a : full_of release c t a = map HL (life_of release c t a) ++ coll_part release c t a.
Proof. reflexivity. Qed.

Lemma drop_colls_ext w w' l : (forall k, coll_in_use w k = coll_in_use w' k) -> drop_colls w l = drop_colls w' l.
Proof. intros H. induction l as [|k l IH]; cbn [drop_colls]; auto. rewrite H, IH. reflexivity. Qed.

Lemma part_op release c t o c' r : cstep release c t (AOp o) = CNext c' r ->
  coll_part release c t (AOp o) = drop_colls (cw c') (let_go (cw c) o).
Proof.
  intros H. apply cstep_op in H. destruct H as (th & v & Hth & Hp & Hc & Hs & ->). unfold coll_part. rewrite Hth, Hp, Hc. unfold coll_events. rewrite Hs.
  replace (let_go (enter (cw c) th) o) with (let_go (cw c) o) by (destruct o; reflexivity). apply drop_colls_ext. reflexivity.
Qed.
Lemma part_other release c t a : (forall o, a <> AOp o) -> coll_part release c t a = [].
Proof. intros H. unfold coll_part. destruct (nth_error (c_threads c) t) as [th|]; auto. destruct (t_pending th); auto. destruct a; auto. exfalso. eapply H; eauto. Qed.

Definition goes (c : cworld) (a : action) : list nat := match a with AOp o => let_go (cw c) o | _ => [] end.
Lemma part_drops release c t a c' r : cstep release c t a = CNext c' r -> coll_part release c t a = drop_colls (cw c') (goes c a).
Proof.
  intros H. destruct a as [o|m ov args l|]; cbn [goes]; [eapply part_op; eauto| |]; rewrite part_other; auto; discriminate.
Qed.
Lemma full_releases release c t a c' r : cstep release c t a = CNext c' r -> coll_releases (full_of release c t a) = goes c a.
Proof. intros H. rewrite full_parts, crel_app, crel_map, (part_drops _ _ _ _ _ _ H), crel_drop. reflexivity. Qed.

Lemma enter_li w th : LI w -> LI (enter w th).
Proof. apply li_core. reflexivity. Qed.

Lemma step_owners release c t a c' r k : LI (cw c) -> cstep release c t a = CNext c' r -> new_owner a = false ->
  coll_owners (cw c') k + count_occ Nat.eq_dec (goes c a) k = coll_owners (cw c) k.
Proof.
  intros L H Hn. destruct a as [o|m ov args l|]; cbn [goes count_occ].
  - pose proof (cstep_op _ _ _ _ _ _ H) as (th & v & Hth & Hp & Hc & Hs & ->). pose proof (op_owners _ _ _ _ k Hs Hc (enter_li _ th L) Hn) as G.
    replace (let_go (enter (cw c) th) o) with (let_go (cw c) o) in G by (destruct o; reflexivity). exact G.
  - rewrite Nat.add_0_r. apply owners_core. eapply match_over_core; eauto.
  - rewrite Nat.add_0_r. destruct (count_lives _ _ _ _ _ H) as (_ & _ & _ & n & x & x' & Hx & A & E & A' & Hc & _).
    assert (Em : w_mocks (cw c') = w_mocks (cw c)).
    { apply cstep_count in H. destruct H as (th & n' & ci & ne & x0 & v & ss & ctl & _ & _ & _ & _ & _ & _ & Hv & _ & -> & _). apply count_fields in Hv.
      destruct Hv as (_ & _ & _ & Hm & _). exact Hm. }
    rewrite !owners_sums, Em, E. unfold esum. pose proof (sum_upd (fun x => if in_coll k x then 1 else 0) _ _ _ x' Hx) as S. cbn beta in S.
    unfold in_coll in S at 2 4. rewrite A, A', Hc in S. cbn [andb] in S. lia.
Qed.

Lemma step_new_owner release c t a c' r k : LI (cw c) -> cstep release c t a = CNext c' r -> new_owner a = true ->
  goes c a = [] /\ coll_owners (cw c) k <= coll_owners (cw c') k /\
  (coll_owners (cw c') k <> 0 -> coll_owners (cw c) k <> 0 \/ length (w_colls (cw c)) <= k < length (w_colls (cw c'))).
Proof.
  intros L H Hn. destruct a as [o|m ov args l|]; try discriminate. pose proof (cstep_op _ _ _ _ _ _ H) as (th & v & Hth & Hp & Hc & Hs & ->).
  destruct o; try discriminate; (split; [reflexivity|]); cbn [step] in Hs.
  - destruct (is_overload_set sigs && _) eqn:Eo; [|discriminate]. injection Hs as <- _. rewrite !owners_sums.
    cbn [cw leave w_mocks w_exps w_colls set_uncaught set_frames set_mocks set_colls enter]. unfold msum. rewrite sum_app. cbn [map list_sum fold_right]. split; [lia|].
    intros Hz. rewrite app_length, map_length. 
    match type of Hz with context [count_occ _ (held_by ?q) k] => destruct (in_dec Nat.eq_dec k (held_by q)) as [Hi|Hi] end.
    + right. unfold held_by in Hi. cbn [mk_colls] in Hi. apply In_nth_error in Hi. destruct Hi as [ov Hi].
      change (nth_error (new_ids (cw c) sigs) ov = Some k) in Hi. apply new_ids_nth in Hi. destruct Hi as (s & i & _ & _ & -> & Hi). lia.
    + left. apply (count_occ_not_In Nat.eq_dec) in Hi. lia.
  - apply do_expect_next in Hs. destruct Hs as (s & coll & Hf & _ & _ & [(x & _ & -> & _)|(b & ss & ctl & mem & _ & _ & _ & _ & _ & ->)]).
    + split; [apply Nat.le_refl|]. intros Hz. left. exact Hz.
    + rewrite !owners_sums. cbn [cw leave w_mocks w_exps w_colls set_uncaught set_frames new_world set_scoped set_colls set_exps set_seqs enter]. unfold esum. rewrite sum_app.
      cbn [map list_sum fold_right]. split; [lia|]. intros Hz. left. unfold in_coll in Hz at 2. cbn [eo_alive eo_coll andb] in Hz.
      destruct (Nat.eqb_spec coll k) as [->|]; [|lia].
      apply find_overload_inr in Hf. destruct Hf as (mk & cs & Hm & _ & _ & Hcs & Hn'). 
      assert (G : msum (w_mocks (cw c)) k <> 0); [|lia].
      unfold msum. apply sum_pos. exists mk. split; [eapply nth_error_In; exact Hm|]. unfold held_by. rewrite Hcs. apply nth_error_In in Hn'. apply (count_occ_In Nat.eq_dec) in Hn'. lia.
Qed.

Lemma step_colls_grow release c t a c' r : LI (cw c) -> cstep release c t a = CNext c' r -> length (w_colls (cw c)) <= length (w_colls (cw c')).
Proof.
  intros L H. destruct a as [o|m ov args l|].
  - apply cstep_op in H. destruct H as (th & v & _ & _ & Hc & Hs & ->). cbn [cw leave w_colls set_uncaught set_frames].
    change (w_colls (cw c)) with (w_colls (enter (cw c) th)). apply step_mocks in Hs. destruct Hs as [sigs _ _ E|m mk _ _ _ E|dst src md ms _ _ _ _ _ _ _ E|m mk _ _ _ E|o _ E];
      rewrite E; rewrite ?app_length; lia.
  - apply match_over_core in H. destruct (core_fields _ _ H) as (_ & _ & _ & _ & E & _). rewrite E. lia.
  - destruct (count_lives _ _ _ _ _ H) as (E & _). rewrite E. lia.
Qed.

(** Only a new mock has new collections. *)
Lemma step_use_back release c t a c' r k : LI (cw c) -> cstep release c t a = CNext c' r -> coll_in_use (cw c') k = true ->
  coll_in_use (cw c) k = true \/ length (w_colls (cw c)) <= k < length (w_colls (cw c')).
Proof.
  intros L H Hu. apply owners_use in Hu. destruct (new_owner a) eqn:En.
  - destruct (step_new_owner _ _ _ _ _ _ k L H En) as (_ & _ & G). destruct (G Hu) as [G'|G']; auto. left. apply owners_use. exact G'.
  - left. apply owners_use. pose proof (step_owners _ _ _ _ _ _ k L H En). lia.
Qed.

Lemma step_ranged release c t a c' r : LI (cw c) -> cstep release c t a = CNext c' r -> coll_ranged (cw c) -> coll_ranged (cw c').
Proof.
  intros L H R k Hk. pose proof (step_colls_grow _ _ _ _ _ _ L H). destruct (step_use_back _ _ _ _ _ _ _ L H Hk) as [G|G]; [|lia]. apply R in G. lia.
Qed.

Record HI (w : world) : Prop := mkHI { hi_li : LI w; hi_ranged : coll_ranged w }.
Lemma hi_step release c t a c' r : cstep release c t a = CNext c' r -> HI (cw c) -> HI (cw c').
Proof. intros H [L R]. split; [eapply li_step; eauto|eapply step_ranged; eauto]. Qed.
Lemma hi_run release c acts c' : cruns release c acts c' -> HI (cw c) -> HI (cw c').
Proof. induction 1; auto. intros I. apply IHcruns. eapply hi_step; eauto. Qed.
Lemma hi_cinit k : HI (cw (cinit k)).
Proof. split; [exact li_init|]. intros j H. discriminate. Qed.

(** A collection which ended stays so. *)
Definition gone (w : world) (k : nat) : Prop := k < length (w_colls w) /\ coll_in_use w k = false.
Lemma step_gone release c t a c' r k : HI (cw c) -> cstep release c t a = CNext c' r -> gone (cw c) k -> gone (cw c') k.
Proof.
  intros [L R] H [Hk Hu]. split; [pose proof (step_colls_grow _ _ _ _ _ _ L H); lia|]. destruct (coll_in_use (cw c') k) eqn:E; auto.
  destruct (step_use_back _ _ _ _ _ _ _ L H E) as [G|G]; [congruence|lia].
Qed.
Lemma run_gone release c acts c' k : cruns release c acts c' -> HI (cw c) -> gone (cw c) k -> gone (cw c') k.
Proof. induction 1; auto. intros I G. apply IHcruns; [eapply hi_step; eauto|eapply step_gone; eauto]. Qed.

(** ** The ends in one step *)

Lemma in_full_kill release c t a c' r k : cstep release c t a = CNext c' r -> In (HKill k) (full_of release c t a) <-> In k (goes c a) /\ coll_in_use (cw c') k = false.
Proof.
  intros H. rewrite full_parts, (part_drops _ _ _ _ _ _ H). split.
  - intros Hi. apply in_app_or in Hi. destruct Hi as [Hi|Hi]; [apply in_map_iff in Hi; destruct Hi as (y & E & _); discriminate|].
    apply drop_colls_parts in Hi. destruct Hi as (k' & Hk & [D|[D Hu]]); [discriminate|]. injection D as <-. auto.
  - intros [Hk Hu]. apply in_or_app. right. apply drop_colls_kill; auto.
Qed.

Lemma goes_used release c t a c' r k : LI (cw c) -> cstep release c t a = CNext c' r -> In k (goes c a) -> coll_in_use (cw c) k = true.
Proof.
  intros L H Hk. apply owners_use. destruct (new_owner a) eqn:En.
  - destruct (step_new_owner _ _ _ _ _ _ k L H En) as (E & _). rewrite E in Hk. destruct Hk.
  - pose proof (step_owners _ _ _ _ _ _ k L H En). apply (count_occ_In Nat.eq_dec) in Hk. lia.
Qed.

Lemma full_kill_at release c t a c' r j k : HI (cw c) -> cstep release c t a = CNext c' r -> nth_error (full_of release c t a) j = Some (HKill k) ->
  coll_in_use (cw c) k = true /\ gone (cw c') k /\ length (life_of release c t a) < j /\ nth_error (full_of release c t a) (j - 1) = Some (HDrop k) /\
  ~ In k (coll_releases (skipn j (full_of release c t a))) /\ forall j', nth_error (full_of release c t a) j' = Some (HKill k) -> j' = j.
Proof.
  intros I H Hj. pose proof (nth_error_In _ _ Hj) as Hi. apply (in_full_kill _ _ _ _ _ _ _ H) in Hi. destruct Hi as [Hk Hu].
  pose proof (goes_used _ _ _ _ _ _ _ (hi_li _ I) H Hk) as Hb. pose proof (hi_ranged _ I _ Hb) as Hr. pose proof (step_colls_grow _ _ _ _ _ _ (hi_li _ I) H).
  split; auto. split; [split; auto; lia|]. rewrite full_parts in *. set (n := length (life_of release c t a)).
  assert (P : forall j', nth_error (map HL (life_of release c t a) ++ coll_part release c t a) j' = Some (HKill k) -> n <= j' /\ nth_error (coll_part release c t a) (j' - n) = Some (HKill k)).
  { intros j' Hj'. destruct (Nat.lt_ge_cases j' n) as [Hlt|Hge].
    - exfalso. rewrite nth_error_app1 in Hj' by (rewrite map_length; exact Hlt). apply nth_error_In, in_map_iff in Hj'. destruct Hj' as (y & E & _). discriminate.
    - split; auto. rewrite nth_error_app2 in Hj' by (rewrite map_length; exact Hge). rewrite map_length in Hj'. exact Hj'. }
  destruct (P _ Hj) as [Hn Hp]. rewrite (part_drops _ _ _ _ _ _ H) in Hp. destruct (drop_colls_at _ _ _ _ Hp) as (_ & G0 & G1 & G2 & G3).
  rewrite <- (part_drops _ _ _ _ _ _ H) in G1, G2, G3. split; [lia|]. split; [|split].
  - rewrite nth_error_app2 by (rewrite map_length; fold n; lia). rewrite map_length. fold n. replace (j - 1 - n) with (j - n - 1) by lia. exact G1.
  - rewrite skipn_app, map_length. fold n. rewrite skipn_all2 by (rewrite map_length; fold n; lia). exact G2.
  - intros j' Hj'. destruct (P _ Hj') as [Hn' Hp']. apply G3 in Hp'. lia.
Qed.
