(** * TestProofs: lemmas for PropTests.v. *)

From Coq Require Import Permutation Sorted.
From Verif Require Import Base Lib Sequence Control Signature Printer Reports Expectation Builder World WorldSpec CallSpec
  SeqInv BuildSpec BuilderLemmas StepCases MatchLemmas WorldInv ObjInv CallProofs BuildProofs CountProofs History PropCalls PropScope TestSpec.

(** ** What a body leaves unchanged *)

Definition same_setup (w w' : world) : Prop :=
  w_mocks w' = w_mocks w /\ w_reporter w' = w_reporter w /\ length (w_exps w') = length (w_exps w) /\
  forall e x, exp_at w e x -> exists x', exp_at w' e x' /\ eo_alive x' = eo_alive x /\ same_static x x'.

Lemma same_setup_refl w : same_setup w w.
Proof. do 3 (split; [reflexivity|]). intros e x Hx. exists x. split; auto. split; auto. apply same_static_refl. Qed.

Lemma same_setup_trans w1 w2 w3 : same_setup w1 w2 -> same_setup w2 w3 -> same_setup w1 w3.
Proof.
  intros (A1 & A2 & A3 & A4) (B1 & B2 & B3 & B4). split; [congruence|]. split; [congruence|]. split; [congruence|].
  intros e x Hx. destruct (A4 _ _ Hx) as (y & Hy & Ay & Sy). destruct (B4 _ _ Hy) as (z & Hz & Az & Sz).
  exists z. split; auto. split; [congruence|]. eapply same_static_trans; eauto.
Qed.

Lemma same_setup_of w w' : w_mocks w' = w_mocks w -> w_reporter w' = w_reporter w -> w_exps w' = w_exps w -> same_setup w w'.
Proof.
  intros H1 H2 H3. split; auto. split; auto. split; [congruence|]. intros e x Hx. exists x. unfold exp_at in *. rewrite H3.
  split; auto. split; auto. apply same_static_refl.
Qed.

Lemma call_reporter w m ov args l w' r : step w (OCall m ov args l) = Next w' r -> w_reporter w' = w_reporter w.
Proof.
  intros H. cbn [step] in H. apply do_call_next in H. destruct H as (s & coll & _ & _ & H). apply handle_call_next in H.
  destruct H as (lst & es & ml & _ & _ & _ & Hcr). inversion Hcr; subst; reflexivity.
Qed.

Lemma emit_quiet w ev l e : is_accept e ev = false -> accepted (w_trace (set_frames (emit w ev) l)) e = accepted (w_trace w) e.
Proof. intros H. unfold set_frames, emit. cbn [w_trace]. rewrite accepted_app. unfold accepted at 2. cbn [filter]. rewrite H. cbn. lia. Qed.

Lemma body_step w o w' r : reachable w -> body_op o = true -> step w o = Next w' r ->
  same_setup w w' /\
  ((calls_of [o] = [] \/ r = RThrow EReporter) /\ (forall e, accepted (w_trace w') e = accepted (w_trace w) e) \/
   exists c n, calls_of [o] = [c] /\ o = call_op c /\ r = RUnit /\ (exists s coll x, find_overload w (ce_mock c) (ce_overload c) = inr (s, coll) /\
      length (ce_args c) = length (sg_params s) /\ candidate w coll (call_of s (ce_args c) (ce_loc c)) n x) /\
      forall e, accepted (w_trace w') e = accepted (w_trace w) e + if e =? n then 1 else 0).
Proof.
  intros Hr Hb H. destruct o; try discriminate Hb.
  - pose proof (call_reporter _ _ _ _ _ _ _ H) as Hrep.
    destruct (call_effect _ _ _ _ _ _ _ Hr H) as
      [(s & coll & n & x & mr & unh & E & Hf & Hlen & Hc & Ht & Hq & Hexps & _ & Hm & _)|[-> (evs & Hq & E)]].
    + subst r. split.
      * split; auto. split; auto. split; [rewrite Hexps, length_upd; reflexivity|]. intros e y Hy. unfold exp_at in *.
        destruct Hc as ((Hx & _) & _). unfold exp_at in Hx. rewrite Hexps. destruct (Nat.eq_dec n e) as [->|Hne].
        -- rewrite Hy in Hx. inversion Hx; subst. rewrite nth_error_upd_eq by (eapply nth_error_lt; eauto).
           eexists. split; [reflexivity|]. split; [reflexivity|]. repeat split; auto.
        -- rewrite nth_error_upd_neq by auto. exists y. split; auto. split; auto. apply same_static_refl.
      * right. exists (mkCallExpr m ov args l), n. split; [reflexivity|]. split; [reflexivity|]. split; [reflexivity|]. split; [exists s, coll, x; auto|].
        intros e. rewrite Ht, !accepted_app, accepted_full. destruct (quiet_counts _ Hq e) as (-> & _).
        rewrite (Nat.eqb_sym e n). destruct (n =? e); lia.
    + split; [subst w'; apply same_setup_of; reflexivity|]. left. split; [right; reflexivity|]. intros e. subst w'. unfold only_reports. cbn [w_trace].
      rewrite accepted_app. destruct (quiet_counts _ Hq e) as (-> & _). lia.
  - cbn [step] in H. unfold do_action in H. destruct (w_frames w) as [|f fs]; [discriminate|]. destruct (f_todo f); [discriminate|].
    destruct (negb _); [discriminate|]. inversion H; subst. split; [apply same_setup_of; reflexivity|]. left. split; [left; reflexivity|].
    intros e. apply emit_quiet. reflexivity.
  - cbn [step] in H. unfold do_final in H. destruct (w_frames w) as [|f fs]; [discriminate|]. destruct (f_todo f); [|discriminate].
    destruct (f_final f); [discriminate|]. destruct (negb _); [discriminate|]. inversion H; subst. split; [apply same_setup_of; reflexivity|].
    left. split; [left; reflexivity|]. intros e. apply emit_quiet. reflexivity.
  - cbn [step] in H. unfold do_return in H. destruct (w_frames w) as [|f fs]; [discriminate|]. destruct (negb _); [discriminate|].
    destruct (nth_error (w_exps w) (f_exp f)); [|discriminate].
    destruct (finalizer_result _ _); [|unfold thrown in H; destruct (f_noexcept f); [discriminate|]]; inversion H; subst;
      (split; [apply same_setup_of; reflexivity|]); left; (split; [left; reflexivity|]); reflexivity.
  - cbn [step] in H. destruct (nth_error (w_scoped w) h) as [[e| |]|]; try discriminate. destruct (nth_error (w_exps w) e) as [eo|]; [|discriminate].
    destruct (eo_alive eo); [|discriminate]. inversion H; subst. split; [apply same_setup_refl|]. left. split; [left; reflexivity|]. reflexivity.
Qed.

Lemma same_overload w w' m ov : same_setup w w' -> find_overload w' m ov = find_overload w m ov.
Proof. intros (H & _). unfold find_overload. rewrite H. reflexivity. Qed.

Lemma setup_back w w' e x' : same_setup w w' -> exp_at w' e x' -> exists x, exp_at w e x /\ eo_alive x' = eo_alive x /\ same_static x x'.
Proof.
  intros (_ & _ & Hl & H) Hx. assert (Hlt : e < length (w_exps w)) by (rewrite <- Hl; eapply nth_error_lt; eauto).
  apply nth_error_ex in Hlt. destruct Hlt as [x Hx0]. destruct (H _ _ Hx0) as (y & Hy & Ha & Hs). unfold exp_at in *.
  rewrite Hx in Hy. inversion Hy; subst. eauto.
Qed.

Lemma accepts_static x x' c : same_static x x' -> (accepts (eo_exp x') c <-> accepts (eo_exp x) c).
Proof. intros (_ & _ & _ & _ & Hp & _). unfold accepts, clean. rewrite Hp. tauto. Qed.

Lemma takes_same w w' c e : same_setup w w' -> (takes w' c e <-> takes w c e).
Proof.
  intros H. split; intros (s & coll & x & Hf & Hl & (Hx & Ha & Hc) & Hac).
  - destruct (setup_back _ _ _ _ H Hx) as (y & Hy & Ay & Sy). rewrite (same_overload _ _ _ _ H) in Hf.
    exists s, coll, y. split; auto. split; auto. split.
    + split; auto. split; [congruence|]. destruct Sy as (E & _). congruence.
    + eapply accepts_static in Sy. apply Sy. exact Hac.
  - pose proof H as (_ & _ & _ & H4). destruct (H4 _ _ Hx) as (y & Hy & Ay & Sy). exists s, coll, y. rewrite (same_overload _ _ _ _ H).
    split; auto. split; auto. split.
    + split; auto. split; [congruence|]. destruct Sy as (E & _). congruence.
    + eapply accepts_static in Sy. apply Sy. exact Hac.
Qed.

(** ** The invariant of a body *)

Definition progress (w0 w : world) (calls : list call_expr) (es : list nat) : Prop :=
  reachable w /\ same_setup w0 w /\ Forall2 (takes w0) calls es /\ ordered w0 es /\
  (forall e, accepted (w_trace w) e = times_taken es e) /\
  (forall e x, exp_at w0 e x -> times_taken es e <> 0 -> (Z.of_nat (times_taken es e) <= x_max x)%Z).

Lemma progress_init w : reachable w -> fresh w -> progress w w [] [].
Proof.
  intros Hr Hf. split; auto. split; [apply same_setup_refl|]. split; [constructor|]. split.
  - intros es1 a es2 b es3 s x y H. destruct es1; discriminate.
  - split; [exact Hf|]. intros e x _ H. contradiction.
Qed.

Lemma times_snoc es n e : times_taken (es ++ [n]) e = times_taken es e + if e =? n then 1 else 0.
Proof.
  unfold times_taken. rewrite count_occ_app. cbn [count_occ]. destruct (Nat.eq_dec n e) as [->|H].
  - rewrite Nat.eqb_refl. reflexivity.
  - destruct (Nat.eqb_spec e n); [congruence|]. reflexivity.
Qed.

Lemma times_in es e : In e es <-> times_taken es e <> 0.
Proof. unfold times_taken. rewrite (count_occ_In Nat.eq_dec). lia. Qed.

Lemma ordered_snoc w es n y : ordered w es -> exp_at w n y ->
  (forall a x s, In a es -> exp_at w a x -> In s (x_seqs x) -> In s (x_seqs y) -> a <= n) -> ordered w (es ++ [n]).
Proof.
  intros Ho Hy Hn es1 a es2 b es3 s x z E Ha Hb Hs1 Hs2.
  destruct es3 as [|q es3'] using rev_ind.
  - replace (es1 ++ a :: es2 ++ [b]) with ((es1 ++ a :: es2) ++ [b]) in E by (rewrite <- app_assoc; reflexivity).
    apply app_inj_tail in E. destruct E as [E <-]. unfold exp_at in *. rewrite Hb in Hy. inversion Hy; subst.
    eapply Hn; eauto. apply in_or_app. right. left. reflexivity.
  - clear IHes3'. replace (es1 ++ a :: es2 ++ b :: es3' ++ [q]) with ((es1 ++ a :: es2 ++ b :: es3') ++ [q]) in E.
    + apply app_inj_tail in E. destruct E as [E _]. eapply Ho; eauto.
    + rewrite <- app_assoc. cbn. rewrite <- app_assoc. reflexivity.
Qed.

Lemma calls_of_app ops1 ops2 : calls_of (ops1 ++ ops2) = calls_of ops1 ++ calls_of ops2.
Proof. induction ops1 as [|o ops IH]; auto. destruct o; cbn; rewrite IH; reflexivity. Qed.

(** One more operation which does not fail. *)
Lemma progress_step w0 w calls es o w' r : progress w0 w calls es -> body_op o = true -> step w o = Next w' r -> (calls_of [o] <> [] -> r = RUnit) ->
  exists es', progress w0 w' (calls ++ calls_of [o]) (es ++ es').
Proof.
  intros (Hr & Hs & Hp & Ho & Ha & Hm) Hb H Hok. pose proof (reachable_step _ _ _ _ Hr H) as Hr'.
  destruct (body_step _ _ _ _ Hr Hb H) as [Hs' [[Hq He]|(c & n & Ec & -> & -> & (s & coll & x & Hf & Hl & Hc) & He)]].
  - assert (E : calls_of [o] = []).
    { destruct (calls_of [o]) as [|c l] eqn:E; auto. destruct Hq as [Hq|Hq]; [discriminate|]. rewrite Hok in Hq by discriminate. discriminate. }
    exists []. rewrite E, !app_nil_r. split; auto. split; [eapply same_setup_trans; eauto|]. do 2 (split; auto). split; auto.
    intros e. rewrite He. apply Ha.
  - exists [n]. destruct Hc as ((Hx & Hal & Hco) & Hac & Ap). destruct (setup_back _ _ _ _ Hs Hx) as (y & Hy & Ay & Sy).
    rewrite Ec. split; auto. split; [eapply same_setup_trans; eauto|]. split; [|split; [|split]].
    + apply Forall2_app; auto. constructor; [|constructor]. apply (takes_same _ _ _ _ Hs). exists s, coll, x. split; auto. split; auto. split; auto.
      split; auto.
    + apply (ordered_snoc _ _ _ y Ho Hy). intros a z t Hin Hz Ht1 Ht2. destruct (Nat.le_gt_cases a n) as [|Hlt]; auto. exfalso.
      destruct Hs as (_ & _ & _ & Hs4). destruct (Hs4 _ _ Hz) as (z' & Hz' & _ & Sz).
      rewrite <- (static_seqs _ _ Sy) in Ht2. rewrite <- (static_seqs _ _ Sz) in Ht1.
      destruct Ap as [_ Ap]. destruct (Ap t Ht2 a z' Hz' Ht1) as [_ A0]. specialize (A0 Hlt). rewrite Ha in A0.
      apply times_in in Hin. contradiction.
    + intros e. rewrite He, times_snoc, Ha. reflexivity.
    + intros e z Hz _. rewrite times_snoc. destruct (Nat.eqb_spec e n) as [->|Hne].
      * unfold exp_at in *. rewrite Hy in Hz. inversion Hz; subst z. destruct Ap as [Ap _]. rewrite Ha, (static_max _ _ Sy) in Ap. lia.
      * rewrite Nat.add_0_r. destruct (times_taken es e) as [|k] eqn:Ek.
        -- pose proof (winv_reachable _ Hr) as I. destruct Hs as (_ & _ & _ & Hs4). destruct (Hs4 _ _ Hz) as (z' & Hz' & _ & Sz).
           rewrite <- (static_max _ _ Sz). specialize (Ha e). rewrite Ek in Ha.
           pose proof (max_bound w e z' Hr Hz') as H2. rewrite Ha in H2. exact H2.
        -- rewrite <- Ek. apply Hm; auto. lia.
Qed.

(** ** Completeness *)

Lemma assignment_unique w calls es es' : unambiguous w calls -> Forall2 (takes w) calls es -> Forall2 (takes w) calls es' -> es = es'.
Proof.
  intros Hu H. revert es' Hu. induction H as [|c e calls es Hc H IH]; intros es' Hu H'; inversion H'; subst; auto. f_equal.
  - eapply Hu; eauto. left. reflexivity.
  - apply IH; auto. intros d a b Hd. apply Hu. right. exact Hd.
Qed.

Lemma unambiguous_app_l w l l' : unambiguous w (l ++ l') -> unambiguous w l.
Proof. intros H c e e' Hc. apply H. apply in_or_app. auto. Qed.

Lemma times_app l l' e : times_taken (l ++ l') e = times_taken l e + times_taken l' e.
Proof. apply count_occ_app. Qed.

Lemma next_candidate w0 w calls c calls' es es1 n es2 :
  progress w0 w calls es -> unambiguous w0 calls -> Forall2 (takes w0) calls es1 ->
  takes w0 c n -> ordered w0 (es1 ++ n :: es2) -> within_limits w0 (es1 ++ n :: es2) -> calls' = calls ++ [c] ->
  exists s coll x, find_overload w (ce_mock c) (ce_overload c) = inr (s, coll) /\ length (ce_args c) = length (sg_params s) /\
    candidate w coll (call_of s (ce_args c) (ce_loc c)) n x.
Proof.
  intros (Hr & Hs & Hp & Ho & Ha & _) Hu Hp1 Ht Hord Hlim _.
  assert (es = es1) by (eapply assignment_unique; eauto). subst es1.
  apply (takes_same _ _ _ _ Hs) in Ht. destruct Ht as (s & coll & x & Hf & Hl & Hlive & Hac). exists s, coll, x. split; auto. split; auto.
  split; auto. split; auto. pose proof Hlive as (Hx & _ & _). destruct (setup_back _ _ _ _ Hs Hx) as (y & Hy & _ & Sy). split.
  - rewrite Ha, (static_max _ _ Sy). destruct (Hlim _ _ Hy) as [_ H]. rewrite times_app in H. unfold times_taken at 2 in H.
    cbn [count_occ] in H. destruct (Nat.eq_dec n n); [|contradiction]. lia.
  - intros t Htx e' x' Hx' Htx'. destruct (setup_back _ _ _ _ Hs Hx') as (y' & Hy' & _ & Sy').
    rewrite (static_seqs _ _ Sy) in Htx. rewrite (static_seqs _ _ Sy') in Htx'. split.
    + intros Hlt. rewrite Ha, (static_min _ _ Sy'). destruct (Hlim _ _ Hy') as [H _].
      assert (H0 : times_taken (n :: es2) e' = 0).
      { destruct (Nat.eq_dec (times_taken (n :: es2) e') 0) as [E|E]; auto. apply times_in in E. destruct E as [E|E]; [lia|].
        apply in_split in E. destruct E as (a & b & ->). assert (n <= e') by (eapply (Hord es n a e' b); eauto). lia. }
      rewrite times_app, H0, Nat.add_0_r in H. exact H.
    + intros Hlt. rewrite Ha. destruct (Nat.eq_dec (times_taken es e') 0) as [E|E]; auto. apply times_in in E. apply in_split in E.
      destruct E as (a & b & ->). assert (e' <= n); [|lia].
      apply (Hord a e' b n es2 t y' y); auto. rewrite <- app_assoc. reflexivity.
Qed.

Lemma describes_same w w' : same_setup w w' -> (forall e x, exp_at w e x -> describes (eo_exp x)) ->
  forall e x, exp_at w' e x -> describes (eo_exp x).
Proof.
  intros H Ht e x Hx. destruct (setup_back _ _ _ _ H Hx) as (y & Hy & _ & Sy). specialize (Ht _ _ Hy).
  destruct Sy as (_ & _ & _ & _ & Hp & _). unfold describes in *. rewrite Hp. exact Ht.
Qed.

Lemma next_call_passes w0 w calls c rest es : set_up w0 -> progress w0 w calls es -> unambiguous w0 (calls ++ c :: rest) ->
  conforms w0 (calls ++ c :: rest) -> exists w', step w (call_op c) = Next w' RUnit.
Proof.
  intros (_ & Hrep & _ & Htame) Hpr Hu (full & Hp & Ho & Hl). apply Forall2_app_inv_l in Hp.
  destruct Hp as (es1 & es2' & Hp1 & Hp2 & ->). inversion Hp2 as [|? n ? es2 Hn Hp2']; subst.
  destruct (next_candidate w0 w calls c _ es es1 n es2 Hpr (unambiguous_app_l _ _ _ Hu) Hp1 Hn Ho Hl eq_refl) as (s & coll & x & Hf & Hlen & Hc).
  pose proof Hpr as (Hr & Hs & _).
  assert (Hlc : legal_call w (ce_mock c) (ce_overload c) (ce_args c) s coll).
  { split; auto. split; auto. split; auto. destruct Hs as (_ & E & _). rewrite E. exact Hrep. }
  assert (Hd : describable_throwers w coll (call_of s (ce_args c) (ce_loc c))).
  { intros e z ((Hz & _) & _). exact (describes_same _ _ Hs Htame e z Hz). }
  apply (proj2 (C04_matched_iff_candidate w (ce_mock c) (ce_overload c) (ce_args c) (ce_loc c) s coll Hlc Hd)). eauto.
Qed.

Lemma call_op_of o c : calls_of [o] = [c] -> o = call_op c.
Proof. destruct o; try discriminate. cbn. intros H. inversion H. reflexivity. Qed.

Lemma calls_of_one o : calls_of [o] = [] \/ exists c, calls_of [o] = [c].
Proof. destruct o; cbn; eauto. Qed.

Lemma calls_of_cons o ops : calls_of (o :: ops) = calls_of [o] ++ calls_of ops.
Proof. apply (calls_of_app [o] ops). Qed.

Lemma conforming_run w0 w calls es ops w' : set_up w0 -> progress w0 w calls es -> Forall (fun o => body_op o = true) ops ->
  (exists rest, unambiguous w0 (calls ++ calls_of ops ++ rest) /\ conforms w0 (calls ++ calls_of ops ++ rest)) ->
  run w ops w' -> passing w ops w' /\ exists es', progress w0 w' (calls ++ calls_of ops) es'.
Proof.
  intros H0 Hp Hb Hc H. revert calls es Hp Hc. induction H as [w|w o w1 r ops w2 Hstep Hrun IH]; intros calls es Hp (rest & Hu & Hc).
  - split; [constructor|]. cbn. rewrite app_nil_r. eauto.
  - inversion Hb as [|? ? Hb1 Hb2]; subst. rewrite calls_of_cons in *.
    assert (Hok : calls_of [o] <> [] -> r = RUnit).
    { intros Hne. destruct (calls_of_one o) as [E|(c & E)]; [contradiction|]. rewrite E in *. cbn [app] in *.
      destruct (next_call_passes _ _ _ _ _ _ H0 Hp Hu Hc) as (w3 & Hs). rewrite (call_op_of _ _ E) in Hstep. congruence. }
    destruct (progress_step _ _ _ _ _ _ _ Hp Hb1 Hstep Hok) as (es' & Hp').
    destruct (IH Hb2 _ _ Hp') as [Hps Hfin].
    { exists rest. rewrite <- !app_assoc in *. auto. }
    split; [econstructor; eauto|]. rewrite <- app_assoc in Hfin. exact Hfin.
Qed.

Lemma passing_progress w0 w calls es ops w' : progress w0 w calls es -> Forall (fun o => body_op o = true) ops -> passing w ops w' ->
  exists es', progress w0 w' (calls ++ calls_of ops) es'.
Proof.
  intros Hp Hb H. revert calls es Hp. induction H as [w|w o w1 r ops w2 Hstep Hok Hrun IH]; intros calls es Hp.
  - cbn. rewrite app_nil_r. eauto.
  - inversion Hb; subst. rewrite calls_of_cons. destruct (progress_step _ _ _ _ _ _ _ Hp H1 Hstep Hok) as (es' & Hp').
    destruct (IH H2 _ _ Hp') as (es2 & Hfin). rewrite <- app_assoc in Hfin. eauto.
Qed.

Lemma passing_conforms w ops w' : reachable w -> fresh w -> Forall (fun o => body_op o = true) ops -> passing w ops w' -> fulfilled w' ->
  conforms w (calls_of ops).
Proof.
  intros Hr Hf Hb Hp Hful. destruct (passing_progress w w [] [] ops w' (progress_init _ Hr Hf) Hb Hp) as (es & (Hr' & Hs & Hes & Ho & Ha & _)).
  exists es. split; auto. split; auto. intros e x Hx. pose proof Hs as (_ & _ & _ & Hs4). destruct (Hs4 _ _ Hx) as (x' & Hx' & _ & Sx).
  rewrite <- Ha, <- (static_min _ _ Sx), <- (static_max _ _ Sx). split; [apply Hful; auto|apply max_bound; auto].
Qed.

Lemma conforms_fulfilled w ops w' : set_up w -> Forall (fun o => body_op o = true) ops -> unambiguous w (calls_of ops) ->
  conforms w (calls_of ops) -> run w ops w' -> passing w ops w' /\ fulfilled w'.
Proof.
  intros H0 Hb Hu Hc H. pose proof H0 as (Hr & _ & Hf & _).
  destruct (conforming_run w w [] [] ops w' H0 (progress_init _ Hr Hf) Hb) as [Hp (es & (Hr' & Hs & Hes & _ & Ha & _))]; auto.
  { exists []. cbn. rewrite app_nil_r. auto. }
  split; auto. destruct Hc as (es1 & Hes1 & _ & Hl). cbn [app] in Hes. assert (es = es1) by (eapply assignment_unique; eauto). subst es1.
  intros e x' Hx'. destruct (setup_back _ _ _ _ Hs Hx') as (x & Hx & _ & Sx). rewrite Ha, (static_min _ _ Sx). apply (Hl _ _ Hx).
Qed.

(** ** The end of the test *)

Lemma no_call_accepts w ops w' : reachable w -> calls_of ops = [] -> run w ops w' -> forall e, accepted (w_trace w') e = accepted (w_trace w) e.
Proof.
  intros Hr Hc H. revert Hr Hc. induction H as [|w o w1 r ops w2 Hs Hrun IH]; intros Hr Hc e; auto.
  rewrite calls_of_cons in Hc. apply app_eq_nil in Hc. destruct Hc as [Hc1 Hc2].
  rewrite (IH (reachable_step _ _ _ _ Hr Hs) Hc2).
  destruct (step_accepted _ _ _ _ Hr Hs) as [(evs & -> & Hz)|(m & ov & args & l & s & coll & n & x & mr & unh & -> & _)]; [|discriminate].
  rewrite accepted_app, Hz. lia.
Qed.

Lemma body_same_setup w ops w' : reachable w -> Forall (fun o => body_op o = true) ops -> run w ops w' -> same_setup w w'.
Proof.
  intros Hr Hb H. revert Hr Hb. induction H as [|w o w1 r ops w2 Hs Hrun IH]; intros Hr Hb; [apply same_setup_refl|].
  inversion Hb; subst. destruct (body_step _ _ _ _ Hr H1 Hs) as [Hst _]. eapply same_setup_trans; eauto. apply IH; auto.
  eapply reachable_step; eauto.
Qed.

Lemma fulfilled_silent w w1 ends w2 : set_up w -> reachable w1 -> same_setup w w1 -> calls_of ends = [] -> run w1 ends w2 -> torn_down w w2 ->
  (fulfilled w1 <-> nothing_missed w w2).
Proof.
  intros (_ & _ & _ & Hd) Hr1 Hs Hc Hrun Ht. pose proof Hs as (_ & _ & Hlen & _).
  assert (Hr2 : reachable w2) by (eapply reachable_run; eauto).
  assert (Hmin : forall e x1 x2, exp_at w1 e x1 -> exp_at w2 e x2 -> describes (eo_exp x2) /\ x_min x2 = x_min x1).
  { intros e x1 x2 H1 H2. destruct (run_static _ _ _ (winv_reachable _ Hr1) Hrun _ _ H1) as (y & Hy & Sy). unfold exp_at in *.
    rewrite H2 in Hy. inversion Hy; subst y. split; [|apply static_min; auto].
    pose proof (describes_same _ _ Hs Hd e x1 H1) as D. destruct Sy as (_ & _ & _ & _ & Hp & _). unfold describes in *. rewrite Hp. exact D. }
  split.
  - intros Hf e He. rewrite <- Hlen in He. destruct (nth_error_ex _ _ He) as [x1 H1].
    destruct (run_static _ _ _ (winv_reachable _ Hr1) Hrun _ _ H1) as (x2 & H2 & _). destruct (Hmin _ _ _ H1 H2) as [D M].
    destruct (C10_reported_once_iff _ _ _ Hr2 H2 D) as [(_ & _ & Hlt)|(U & _)]; auto.
    rewrite M, (no_call_accepts _ _ _ Hr1 Hc Hrun) in Hlt. specialize (Hf _ _ H1). lia.
  - intros Hn e x1 H1. assert (He : e < length (w_exps w)) by (rewrite <- Hlen; eapply nth_error_lt; eauto).
    destruct (run_static _ _ _ (winv_reachable _ Hr1) Hrun _ _ H1) as (x2 & H2 & _). destruct (Hmin _ _ _ H1 H2) as [D M].
    rewrite <- M, <- (no_call_accepts _ _ _ Hr1 Hc Hrun e).
    destruct (C10_reported_once_iff _ _ _ Hr2 H2 D) as [(U & _)|(_ & [A|A])]; auto.
    + rewrite (Hn _ He) in U. discriminate.
    + rewrite (Ht _ _ H2 He) in A. discriminate.
Qed.

(** ** Permutations and blocks *)

Lemma conforms_permutation w calls calls' : no_shared_sequence w -> Permutation calls calls' -> conforms w calls -> conforms w calls'.
Proof.
  intros Hn Hp (es & He & _ & Hl). destruct (Permutation_Forall2 Hp He) as (es' & Hp' & He'). exists es'. split; auto. split.
  - intros es1 a es2 b es3 s x y _ Ha Hb H1 H2. rewrite (Hn a b x y s); auto.
  - intros e x Hx. specialize (Hl _ _ Hx). unfold times_taken in *. rewrite (Permutation_count_occ Nat.eq_dec) in Hp'. rewrite <- Hp'. exact Hl.
Qed.

Lemma takes_exists w c e : takes w c e -> exists x, exp_at w e x.
Proof. intros (s & coll & x & _ & _ & (Hx & _) & _). eauto. Qed.

Lemma ordered_sorted w s es : all_in_sequence w s -> (forall e, In e es -> exists x, exp_at w e x) -> (ordered w es <-> StronglySorted le es).
Proof.
  intros Ha. induction es as [|a es IH]; intros Hex.
  - split; [constructor|]. intros _ es1 b es2 c es3 t x y E. destruct es1; discriminate.
  - assert (Hex' : forall e, In e es -> exists x, exp_at w e x) by (intros e He; apply Hex; right; auto). split.
    + intros Ho. constructor.
      * apply IH; auto. intros es1 b es2 c es3 t x y E. apply (Ho (a :: es1) b es2 c es3 t x y). rewrite E. reflexivity.
      * apply Forall_forall. intros b Hb. apply in_split in Hb. destruct Hb as (l1 & l2 & ->).
        destruct (Hex a) as [x Hx]; [left; auto|]. destruct (Hex b) as [y Hy]; [right; apply in_or_app; right; left; auto|].
        apply (Ho [] a l1 b l2 s x y); auto; eapply Ha; eauto.
    + intros Hs. inversion Hs as [|? ? Hs1 Hs2]; subst. intros es1 b es2 c es3 t x y E Hb Hc T1 T2. destruct es1 as [|d es1]; inversion E; subst.
      * rewrite Forall_forall in Hs2. apply Hs2. apply in_or_app. right. left. reflexivity.
      * apply IH in Hs1; auto. eapply (Hs1 es1 b es2 c es3); eauto.
Qed.

Lemma sorted_head lo es : StronglySorted le es -> Forall (fun e => lo <= e) es ->
  exists k es', es = repeat lo k ++ es' /\ StronglySorted le es' /\ Forall (fun e => Datatypes.S lo <= e) es'.
Proof.
  induction es as [|a es IH]; intros Hs Hl.
  - exists 0, []. repeat split; auto.
  - inversion Hs; subst. inversion Hl; subst. destruct (Nat.eq_dec a lo) as [->|Hne].
    + destruct (IH H1 H4) as (k & es' & -> & A & B). exists (Datatypes.S k), es'. auto.
    + exists 0, (a :: es). split; auto. split; auto. constructor; [lia|]. eapply Forall_impl; [|exact H2]. cbn. intros; lia.
Qed.

Lemma times_repeat lo k e : times_taken (repeat lo k) e = if e =? lo then k else 0.
Proof.
  unfold times_taken. destruct (Nat.eqb_spec e lo) as [->|H].
  - induction k; cbn; auto. destruct (Nat.eq_dec lo lo); [|contradiction]. auto.
  - induction k; cbn; auto. destruct (Nat.eq_dec lo e); [congruence|]. auto.
Qed.

Lemma times_above lo es e : Forall (fun x => lo <= x) es -> e < lo -> times_taken es e = 0.
Proof.
  intros H He. destruct (Nat.eq_dec (times_taken es e) 0) as [E|E]; auto. apply times_in in E. rewrite Forall_forall in H. specialize (H _ E). lia.
Qed.

Lemma Forall2_repeat {A B} (P : A -> B -> Prop) l b k : Forall2 P l (repeat b k) <-> length l = k /\ Forall (fun a => P a b) l.
Proof.
  split.
  - revert k. induction l as [|a l IH]; intros [|k] H; inversion H; subst; [auto|]. destruct (IH _ H5) as [<- H']. auto.
  - intros [<- H]. induction H; cbn; constructor; auto.
Qed.

Lemma blocks_of_sorted (P : call_expr -> nat -> Prop) n : forall lo calls es, Forall2 P calls es -> StronglySorted le es ->
  Forall (fun e => lo <= e) es -> Forall (fun e => e < lo + n) es ->
  exists blocks, length blocks = n /\ calls = concat blocks /\
    forall i b, nth_error blocks i = Some b -> length b = times_taken es (lo + i) /\ Forall (fun c => P c (lo + i)) b.
Proof.
  induction n as [|n IH]; intros lo calls es Hp Hs Hl Hu.
  - destruct es as [|e es]; [|inversion Hl; inversion Hu; subst; lia]. inversion Hp; subst. exists []. split; auto. split; auto.
    intros [|i] b H; discriminate.
  - destruct (sorted_head lo es Hs Hl) as (k & es' & -> & Hs' & Hl'). apply Forall2_app_inv_r in Hp.
    destruct Hp as (c1 & c2 & Hp1 & Hp2 & ->). apply Forall_app in Hu. destruct Hu as [_ Hu].
    destruct (IH (Datatypes.S lo) c2 es' Hp2 Hs' Hl') as (blocks & Hlen & -> & Hb).
    { eapply Forall_impl; [|exact Hu]. cbn. intros; lia. }
    apply Forall2_repeat in Hp1. destruct Hp1 as [Hk Hp1]. exists (c1 :: blocks). split; [cbn; lia|]. split; auto.
    intros [|i] b H; cbn in H.
    + inversion H; subst b. rewrite Nat.add_0_r, times_app, times_repeat, Nat.eqb_refl, (times_above _ _ _ Hl') by lia. split; [lia|auto].
    + destruct (Hb _ _ H) as [H1 H2]. rewrite times_app, times_repeat. destruct (Nat.eqb_spec (lo + Datatypes.S i) lo); [lia|].
      rewrite Nat.add_succ_r. rewrite Nat.add_succ_l in H1, H2. split; auto.
Qed.

Lemma sorted_of_blocks (P : call_expr -> nat -> Prop) blocks : forall lo,
  (forall i b, nth_error blocks i = Some b -> Forall (fun c => P c (lo + i)) b) ->
  exists es, Forall2 P (concat blocks) es /\ StronglySorted le es /\ Forall (fun e => lo <= e) es /\
    forall i b, nth_error blocks i = Some b -> times_taken es (lo + i) = length b.
Proof.
  induction blocks as [|b0 blocks IH]; intros lo H.
  - exists []. repeat split; auto; try constructor. intros [|i] b E; discriminate.
  - destruct (IH (Datatypes.S lo)) as (es & H1 & H2 & H3 & H4).
    { intros i b E. specialize (H (Datatypes.S i) b E). rewrite Nat.add_succ_r in H. exact H. }
    assert (Hrep : Forall (fun e => lo <= e) es) by (eapply Forall_impl; [|exact H3]; cbn; intros; lia).
    exists (repeat lo (length b0) ++ es). split; [|split; [|split]].
    + cbn. apply Forall2_app; auto. apply Forall2_repeat. split; auto. specialize (H 0 b0 eq_refl). rewrite Nat.add_0_r in H. exact H.
    + generalize (length b0). intros k. induction k; cbn; auto. constructor; auto. apply Forall_app. split; auto.
      apply Forall_forall. intros x Hx. apply repeat_spec in Hx. lia.
    + apply Forall_app. split; auto. apply Forall_forall. intros x Hx. apply repeat_spec in Hx. lia.
    + intros [|i] b E; cbn in E.
      * inversion E; subst b. rewrite Nat.add_0_r, times_app, times_repeat, Nat.eqb_refl, (times_above _ _ _ H3) by lia. lia.
      * rewrite times_app, times_repeat. destruct (Nat.eqb_spec (lo + Datatypes.S i) lo); [lia|].
        rewrite Nat.add_succ_r. rewrite <- Nat.add_succ_l. cbn [Nat.add]. apply (H4 _ _ E).
Qed.

Lemma conforms_blocks w s calls : all_in_sequence w s -> (conforms w calls <-> in_blocks w calls).
Proof.
  intros Ha. split.
  - intros (es & He & Ho & Hl).
    assert (Hex : forall e, In e es -> exists x, exp_at w e x).
    { clear -He. induction He; intros a Hin; [contradiction|]. destruct Hin as [<-|Hin]; [eapply takes_exists; eauto|auto]. }
    apply (ordered_sorted _ _ _ Ha Hex) in Ho.
    destruct (blocks_of_sorted (takes w) (length (w_exps w)) 0 calls es He Ho) as (blocks & Hlen & Hc & Hb).
    + apply Forall_forall. intros; lia.
    + apply Forall_forall. intros e Hin. destruct (Hex _ Hin) as [x Hx]. cbn. eapply nth_error_lt; eauto.
    + exists blocks. split; auto. split; auto. intros e x b Hx E. destruct (Hb _ _ E) as [H1 H2]. cbn [Nat.add] in *. rewrite H1. split; auto.
  - intros (blocks & Hlen & -> & Hb).
    assert (Hblk : forall i b, nth_error blocks i = Some b -> exists x, exp_at w i x).
    { intros i b E. apply nth_error_ex. rewrite <- Hlen. eapply nth_error_lt; eauto. }
    destruct (sorted_of_blocks (takes w) blocks 0) as (es & He & Hs & _ & Ht).
    { intros i b E. destruct (Hblk _ _ E) as [x Hx]. apply (Hb i x b Hx E). }
    assert (Hex : forall e, In e es -> exists x, exp_at w e x).
    { clear -He. induction He; intros a Hin; [contradiction|]. destruct Hin as [<-|Hin]; [eapply takes_exists; eauto|auto]. }
    exists es. split; auto. split; [apply (ordered_sorted _ _ _ Ha Hex); auto|]. intros e x Hx.
    assert (He' : e < length blocks) by (rewrite Hlen; eapply nth_error_lt; eauto). destruct (nth_error_ex _ _ He') as [b E].
    specialize (Ht _ _ E). cbn [Nat.add] in Ht. rewrite Ht. apply (Hb _ _ _ Hx E).
Qed.

(** ** Deciding the notions of TestSpec for concrete programs *)

Definition takes_b (w : world) (c : call_expr) (e : nat) : bool :=
  match find_overload w (ce_mock c) (ce_overload c) with
  | inr (s, coll) =>
      match nth_error (w_exps w) e with
      | Some x =>
          (length (ce_args c) =? length (sg_params s)) && eo_alive x && (eo_coll x =? coll) &&
          forallb (fun p => match policy_matches p (call_of s (ce_args c) (ce_loc c)), policy_describe p with Ret true, Ret _ => true | _, _ => false end)
            (e_policies (eo_exp x))
      | None => false
      end
  | inl _ => false
  end.

Lemma takes_b_iff w c e : takes_b w c e = true <-> takes w c e.
Proof.
  unfold takes_b, takes. split.
  - destruct (find_overload _ _ _) as [|[s coll]]; [discriminate|]. destruct (nth_error (w_exps w) e) as [x|] eqn:Hx; [|discriminate].
    rewrite !andb_true_iff, !Nat.eqb_eq, forallb_forall. intros (((H1 & H2) & H3) & H4). exists s, coll, x. split; auto. split; auto.
    split; [split; auto|]. assert (G : forall p, In p (e_policies (eo_exp x)) -> policy_matches p (call_of s (ce_args c) (ce_loc c)) = Ret true /\
      exists d, policy_describe p = Ret d).
    { intros p Hp. specialize (H4 p Hp). destruct (policy_matches _ _) as [[]| | |]; try discriminate.
      destruct (policy_describe p) as [d| | |]; try discriminate. eauto. }
    split; intros p Hp; destruct (G p Hp) as [G1 G2]; eauto.
  - intros (s & coll & x & -> & Hl & (Hx & Ha & Hc) & Hcl & Hm). unfold exp_at in Hx. rewrite Hx.
    rewrite !andb_true_iff, !Nat.eqb_eq, forallb_forall. split; auto. intros p Hp. rewrite (Hm p Hp).
    destruct (Hcl p Hp) as [_ [d ->]]. reflexivity.
Qed.

Definition unambiguous_b (w : world) (calls : list call_expr) : bool :=
  forallb (fun c => length (filter (takes_b w c) (seq 0 (length (w_exps w)))) <=? 1) calls.

Lemma unambiguous_b_sound w calls : unambiguous_b w calls = true -> unambiguous w calls.
Proof.
  unfold unambiguous_b. rewrite forallb_forall. intros H c e e' Hc H1 H2. specialize (H c Hc). apply Nat.leb_le in H.
  assert (G : forall k, takes w c k -> In k (filter (takes_b w c) (seq 0 (length (w_exps w))))).
  { intros k Hk. apply filter_In. split; [|apply takes_b_iff; auto]. destruct (takes_exists _ _ _ Hk) as [x Hx].
    apply in_seq. split; [lia|]. cbn. eapply nth_error_lt; eauto. }
  apply G in H1. apply G in H2. destruct (filter _ _) as [|a [|b l]]; [contradiction| |cbn in H; lia].
  destruct H1 as [<-|[]], H2 as [<-|[]]. reflexivity.
Qed.

Definition shares (w : world) (a b : nat) : bool :=
  match nth_error (w_exps w) a, nth_error (w_exps w) b with
  | Some x, Some y => existsb (fun s => existsb (Nat.eqb s) (x_seqs y)) (x_seqs x)
  | _, _ => false
  end.
Fixpoint ordered_b (w : world) (es : list nat) : bool :=
  match es with
  | [] => true
  | a :: es' => forallb (fun b => negb (shares w a b) || (a <=? b)) es' && ordered_b w es'
  end.

Lemma ordered_b_sound w es : ordered_b w es = true -> ordered w es.
Proof.
  intros H es1 a es2 b es3 s x y -> Ha Hb H1 H2. induction es1 as [|c es1 IH]; cbn in H; apply andb_true_iff in H; destruct H as [H H'].
  - rewrite forallb_forall in H. specialize (H b). rewrite orb_true_iff, Nat.leb_le in H. destruct H as [H|H]; auto.
    + apply in_or_app. right. left. reflexivity.
    + exfalso. apply negb_true_iff in H. unfold shares, exp_at in *. rewrite Ha, Hb in H. apply not_true_iff_false in H. apply H.
      apply existsb_exists. exists s. split; auto. apply existsb_exists. exists s. split; auto. apply Nat.eqb_refl.
  - apply IH. exact H'.
Qed.

Definition within_b (w : world) (es : list nat) : bool :=
  forallb (fun e => match nth_error (w_exps w) e with
                    | Some x => (x_min x <=? Z.of_nat (times_taken es e))%Z && (Z.of_nat (times_taken es e) <=? x_max x)%Z
                    | None => true end) (seq 0 (length (w_exps w))).

Lemma within_b_sound w es : within_b w es = true -> within_limits w es.
Proof.
  unfold within_b. rewrite forallb_forall. intros H e x Hx. specialize (H e). unfold exp_at in Hx. rewrite Hx in H.
  rewrite andb_true_iff, !Z.leb_le in H. apply H. apply in_seq. split; [lia|]. cbn. eapply nth_error_lt; eauto.
Qed.

Fixpoint all2 {A B} (f : A -> B -> bool) (l : list A) (l' : list B) : bool :=
  match l, l' with
  | [], [] => true
  | a :: l, b :: l' => f a b && all2 f l l'
  | _, _ => false
  end.
Lemma all2_sound {A B} (f : A -> B -> bool) (P : A -> B -> Prop) l l' : (forall a b, f a b = true -> P a b) -> all2 f l l' = true -> Forall2 P l l'.
Proof.
  intros H. revert l'. induction l as [|a l IH]; intros [|b l'] E; try discriminate; constructor; cbn in E; apply andb_true_iff in E; destruct E; auto.
Qed.

Lemma conforms_check w calls es : all2 (takes_b w) calls es && ordered_b w es && within_b w es = true -> conforms w calls.
Proof.
  rewrite !andb_true_iff. intros ((H1 & H2) & H3). exists es. split.
  - eapply all2_sound; [|exact H1]. intros c e. apply takes_b_iff.
  - split; [apply ordered_b_sound; auto|apply within_b_sound; auto].
Qed.

Definition describes_b (w : world) : bool :=
  forallb (fun x => forallb (fun p => match policy_describe p with Ret _ => true | _ => false end) (e_policies (eo_exp x))) (w_exps w).

Lemma default_obeys : obeys_contract default_reporter.
Proof. repeat split; intros; try discriminate; reflexivity. Qed.

Lemma set_up_check w : reachable w -> w_reporter w = default_reporter -> w_trace w = [] -> describes_b w = true -> set_up w.
Proof.
  intros Hr Hp Ht Hd. split; auto. split; [rewrite Hp; exact default_obeys|]. split; [intros e; rewrite Ht; reflexivity|].
  unfold describes_b in Hd. rewrite forallb_forall in Hd. intros e x Hx p Hp'. specialize (Hd x (nth_error_In _ _ Hx)).
  rewrite forallb_forall in Hd. specialize (Hd p Hp'). destruct (policy_describe p); try discriminate. eauto.
Qed.

Lemma passing_second_fails w o1 w1 r o2 w2 y w' :
  step w o1 = Next w1 r -> step w1 o2 = Next w2 (RThrow y) -> calls_of [o2] <> [] -> ~ passing w [o1; o2] w'.
Proof.
  intros S1 S2 Hc H. inversion H as [|? ? ? ? ? ? Hs _ Hp]; subst. rewrite S1 in Hs. inversion Hs; subst.
  inversion Hp as [|? ? ? ? ? ? Hs' Hok _]; subst. rewrite S2 in Hs'. inversion Hs'; subst. specialize (Hok Hc). discriminate.
Qed.
