(** * CustomProofs: programs with policies written by the user. *)

From Verif Require Import Base Lib Sequence Control Signature Printer Reports Expectation Builder World WorldSpec
  SeqInv BuildSpec BuilderLemmas StepCases MatchLemmas WorldInv CallProofs History Stateful Custom.

(** ** An invariant which does not depend on the policies *)

Record CInv (w : world) : Prop := mkCInv {
  ci_s : SInv (w_seqs w) (ctls w);
  ci_count : forall e x, exp_at w e x -> c_count (ctl_of x) = Z.of_nat (accepted (w_trace w) e);
  ci_fresh : forall e, length (w_exps w) <= e -> accepted (w_trace w) e = 0;
  ci_len : length (w_iface w) = length (w_seqs w);
  ci_coll : forall c l, nth_error (w_colls w) c = Some l -> l = members (w_exps w) c;
  ci_collr : forall e x, exp_at w e x -> eo_coll x < length (w_colls w)
}.

Lemma cinv_of w : WInv w -> CInv w.
Proof. intros I. constructor; apply I. Qed.

(** Limits and sequences are kept. *)
Definition as_before (w w' : world) : Prop :=
  length (w_exps w) <= length (w_exps w') /\
  forall k y', exp_at w' k y' -> k < length (w_exps w) -> exists y, exp_at w k y /\ x_min y' = x_min y /\ x_max y' = x_max y /\ x_seqs y' = x_seqs y.

(** What an operation did to the numbers of accepted calls. *)
Inductive counted (w w' : world) : Prop :=
| CdNone evs : as_before w w' -> w_trace w' = w_trace w ++ evs -> (forall e, accepted evs e = 0) -> counted w w'
| CdOne evs rid cr mr n x : as_before w w' -> w_trace w' = w_trace w ++ evs ++ [EvReport rid (RFull cr mr) [n]] ->
    (forall e, accepted evs e = 0) -> exp_at w n x -> applicable w n x -> counted w w'.

Lemma as_before_same w w' : w_exps w' = w_exps w -> as_before w w'.
Proof. intros E. split; [rewrite E; auto|]. intros k y Hy _. unfold exp_at in *. rewrite E in Hy. exists y. auto. Qed.
Lemma as_before_upd w w' n x x' : w_exps w' = upd (w_exps w) n x' -> exp_at w n x ->
  x_min x' = x_min x -> x_max x' = x_max x -> x_seqs x' = x_seqs x -> as_before w w'.
Proof.
  intros E Hx H1 H2 H3. split; [rewrite E, length_upd; auto|]. intros k y Hy _. unfold exp_at in *. rewrite E in Hy.
  apply nth_error_upd in Hy. destruct Hy as [(<- & _ & ->)|(_ & Hy)]; eauto.
Qed.

Lemma cinv_same w w' evs : CInv w -> w_seqs w' = w_seqs w -> length (w_iface w') = length (w_iface w) -> w_exps w' = w_exps w ->
  (w_colls w' = w_colls w \/ exists k, w_colls w' = w_colls w ++ repeat [] k) -> w_trace w' = w_trace w ++ evs -> (forall e, accepted evs e = 0) ->
  CInv w' /\ counted w w'.
Proof.
  intros I Hs Hi He Hc Ht Ha. split; [|eapply CdNone; eauto; apply as_before_same; auto].
  assert (Hacc : forall e, accepted (w_trace w') e = accepted (w_trace w) e) by (intros e; rewrite Ht, accepted_app, Ha; lia).
  constructor.
  - unfold ctls. rewrite Hs, He. apply (ci_s _ I).
  - intros e x Hx. rewrite Hacc. unfold exp_at in Hx. rewrite He in Hx. apply (ci_count _ I); auto.
  - intros e. rewrite He, Hacc. apply (ci_fresh _ I).
  - rewrite Hi, Hs. apply (ci_len _ I).
  - intros c l Hl. rewrite He. destruct Hc as [Hc|[k Hc]]; rewrite Hc in Hl; [apply (ci_coll _ I); auto|].
    destruct (Nat.lt_ge_cases c (length (w_colls w))) as [Hlt|Hge].
    + rewrite nth_error_app1 in Hl by auto. apply (ci_coll _ I); auto.
    + rewrite nth_error_app2 in Hl by auto. apply nth_error_In, repeat_spec in Hl. subst l.
      symmetry. destruct (members (w_exps w) c) as [|n l'] eqn:Em; auto. exfalso.
      assert (In n (members (w_exps w) c)) as Hn by (rewrite Em; left; auto). apply members_in in Hn. destruct Hn as (x & Hx & _ & <-).
      pose proof (ci_collr _ I _ _ Hx). lia.
  - intros e x Hx. unfold exp_at in Hx. rewrite He in Hx. pose proof (ci_collr _ I _ _ Hx).
    destruct Hc as [->|[k ->]]; rewrite ?app_length; lia.
Qed.

Lemma cinv_newseq w st : CInv w ->
  let w' := set_sdead (set_iface (set_seqs w (w_seqs w ++ [seq_new st])) (w_iface w ++ [true])) (w_sdead w ++ [false]) in CInv w' /\ counted w w'.
Proof.
  intros I w'. split.
  - constructor; cbn.
    + apply sinv_new_seq, (ci_s _ I).
    + apply (ci_count _ I).
    + apply (ci_fresh _ I).
    + rewrite !app_length, (ci_len _ I). reflexivity.
    + apply (ci_coll _ I).
    + apply (ci_collr _ I).
  - apply (CdNone _ _ []); [apply as_before_same; reflexivity|symmetry; apply app_nil_r|reflexivity].
Qed.

Lemma cinv_new w ms cls l s coll b ss ctl mem ov : CInv w ->
  length ms = length (sg_params s) -> forallb (clause_ok w (length (sg_params s))) cls = true ->
  build s ms cls = BOk b ->
  control_new (w_seqs w) (b_times b) (b_seqs b) = Ret (ss, ctl) ->
  nth_error (w_colls w) coll = Some mem ->
  let w' := new_world w coll mem ss (mkEObj (mkExp l ctl (b_policies b) (b_final b)) coll true ov s) in CInv w' /\ counted w w'.
Proof.
  intros I Hlen Hok Hb Hc Hm w'. pose proof (ci_len _ I) as Li.
  destruct (build_ok _ _ _ _ Hb (clauses_times _ _ _ Hok)) as (Hv & Hbs & Hbp).
  destruct (control_new_ok _ _ (b_times b) (b_seqs b) (ci_s _ I) (bv_times _ Hv) (bv_max _ Hv) (bv_seqs _ Hv)) as
    [(ss' & c' & Hc' & Hmin & Hmax & Hcnt & Hseqs & Hls & Hat & Hout)|[Hc' _]]; [| |congruence].
  { intros t Ht. apply nth_error_ex. rewrite <- Li. apply nth_true_lt. rewrite Hbs in Ht. eapply clauses_seqs; eauto. }
  rewrite Hc in Hc'. inversion Hc'; subst ss' c'. clear Hc'.
  unfold w'. set (x := mkEObj (mkExp l ctl (b_policies b) (b_final b)) coll true ov s).
  assert (Hcts : ctls (new_world w coll mem ss x) = ctls w ++ [ctl]).
  { unfold ctls, new_world. simpl. rewrite map_app. reflexivity. }
  pose proof (ci_fresh _ I (length (w_exps w)) (le_n _)) as Hfa.
  split; [constructor|].
  - rewrite Hcts. simpl. apply (sinv_new (w_seqs w)); auto.
    + apply (ci_s _ I).
    + unfold ctl_ok. rewrite Hmin, Hmax, Hcnt. pose proof (bv_times _ Hv). pose proof (bv_max _ Hv). lia.
    + rewrite Hseqs. apply (bv_seqs _ Hv).
    + rewrite Hseqs. auto.
  - intros e y Hy. simpl. apply nth_error_snoc in Hy. destruct Hy as [[Hy _]|[-> ->]].
    + eapply (ci_count _ I); eauto.
    + rewrite Hfa. unfold ctl_of. simpl. auto.
  - intros e He. simpl in *. rewrite app_length in He. simpl in He. apply (ci_fresh _ I). lia.
  - simpl. rewrite Hls. auto.
  - intros c lst Hl. simpl in *. rewrite members_snoc. simpl. apply nth_error_upd in Hl. destruct Hl as [(<- & _ & ->)|(Hne & Hl)].
    + rewrite Nat.eqb_refl, (ci_coll _ I _ _ Hm). reflexivity.
    + destruct (Nat.eqb_spec coll c); [congruence|]. rewrite app_nil_r. apply (ci_coll _ I); auto.
  - intros e y Hy. simpl. rewrite length_upd. apply nth_error_snoc in Hy. destruct Hy as [[Hy _]|[-> ->]].
    + eapply (ci_collr _ I); eauto.
    + simpl. eapply nth_error_lt; eauto.
  - apply (CdNone _ _ []); [|symmetry; apply app_nil_r|reflexivity]. split; [simpl; rewrite app_length; lia|].
    intros k y Hy Hk. apply nth_error_snoc in Hy. destruct Hy as [[Hy _]|[-> _]]; [exists y; auto|lia].
Qed.

Lemma cinv_applicable w n x : CInv w -> exp_at w n x -> (control_is_applicable (w_seqs w) (ctl_of x) = true <-> applicable w n x).
Proof.
  intros I Hx. rewrite (applicable_by_counts _ _ _ _ (ci_s _ I) (ctls_nth _ _ _ Hx)). unfold applicable, x_max, x_seqs. fold (ctl_of x).
  rewrite (ci_count _ I _ _ Hx). split; intros [A B]; split; auto.
  - intros s Hs e' x' Hx' Hs'. destruct (B s Hs e' _ (ctls_nth _ _ _ Hx') Hs') as [B1 B2]. rewrite (ci_count _ I _ _ Hx') in B1, B2. split; auto.
    intros Hlt. specialize (B2 Hlt). lia.
  - intros s Hs e' c' Hc' Hs'. destruct (ctls_nth_inv _ _ _ Hc') as (x' & Hx' & ->). destruct (B s Hs e' _ Hx' Hs') as [B1 B2].
    rewrite (ci_count _ I _ _ Hx'). split; auto. intros Hlt. rewrite (B2 Hlt). reflexivity.
Qed.

Lemma cinv_accept w w' n x ss ctl evs rid cr mr : CInv w -> exp_at w n x ->
  control_consume (w_seqs w) (ctl_of x) = Ret (ss, ctl) -> (forall e, accepted evs e = 0) ->
  w_seqs w' = ss -> w_iface w' = w_iface w -> w_colls w' = w_colls w ->
  w_exps w' = upd (w_exps w) n (mkEObj (with_ctl (eo_exp x) ctl) (eo_coll x) (eo_alive x) (eo_ov x) (eo_sig x)) ->
  w_trace w' = w_trace w ++ evs ++ [EvReport rid (RFull cr mr) [n]] ->
  CInv w' /\ counted w w' /\ applicable w n x.
Proof.
  intros I Hx Hc Hq Hss Hif Hco Hexps Ht. 
  pose proof (consume_applicable _ _ _ Hc) as Happ.
  destruct (control_consume_ok _ _ _ _ (ci_s _ I) (ctls_nth _ _ _ Hx) Happ) as (ss' & Hc' & Hls & Hat & Hout).
  rewrite Hc in Hc'. inversion Hc'; subst ss' ctl. clear Hc'.
  set (x' := mkEObj (with_ctl (eo_exp x) (bump (ctl_of x))) (eo_coll x) (eo_alive x) (eo_ov x) (eo_sig x)) in *.
  assert (Hcts : ctls w' = upd (ctls w) n (bump (ctl_of x))).
  { unfold ctls. rewrite Hexps. rewrite map_upd. reflexivity. }
  assert (Hacc : forall e, accepted (w_trace w') e = accepted (w_trace w) e + if n =? e then 1 else 0).
  { intros e. rewrite Ht, !accepted_app, accepted_full, Hq. lia. }
  assert (Hex : forall e y, exp_at w' e y -> (e = n /\ y = x') \/ (e <> n /\ exp_at w e y)).
  { intros e y Hy. unfold exp_at in Hy. rewrite Hexps in Hy. apply nth_error_upd in Hy.
    destruct Hy as [(-> & _ & ->)|(Hne & Hy)]; auto. }
  assert (Ap : applicable w n x) by (apply cinv_applicable; auto).
  split; [constructor|split; [|auto]].
  - rewrite Hcts, Hss.
    apply (sinv_accept _ _ _ _ _ (ci_s _ I) (ctls_nth _ _ _ Hx)); auto.
  - intros e y Hy. rewrite Hacc. destruct (Hex _ _ Hy) as [[-> ->]|[Hne Hy']].
    + rewrite Nat.eqb_refl. unfold ctl_of. simpl. fold (ctl_of x). rewrite (ci_count _ I _ _ Hx). lia.
    + destruct (Nat.eqb_spec n e); [congruence|]. rewrite Nat.add_0_r. apply (ci_count _ I); auto.
  - intros e He. rewrite Hexps, length_upd in He. rewrite Hacc. destruct (Nat.eqb_spec n e) as [->|].
    + apply nth_error_lt in Hx. lia.
    + rewrite Nat.add_0_r. apply (ci_fresh _ I); auto.
  - rewrite Hif, Hss, Hls. apply (ci_len _ I).
  - intros c l Hl. rewrite Hco in Hl. rewrite Hexps.
    rewrite (members_upd_same _ _ _ _ _ Hx); auto. apply (ci_coll _ I); auto.
  - intros e y Hy. rewrite Hco. destruct (Hex _ _ Hy) as [[-> ->]|[Hne Hy']].
    + apply (ci_collr _ I _ _ Hx).
    + apply (ci_collr _ I _ _ Hy').
  - eapply CdOne; eauto. eapply as_before_upd; eauto.
Qed.

Lemma cinv_end w w' e x l evs : CInv w -> exp_at w e x -> nth_error (w_colls w) (eo_coll x) = Some l ->
  w_seqs w' = w_seqs w -> w_iface w' = w_iface w -> w_colls w' = upd (w_colls w) (eo_coll x) (erase_first e l) ->
  w_exps w' = upd (w_exps w) e (mkEObj (eo_exp x) (eo_coll x) false (eo_ov x) (eo_sig x)) ->
  w_trace w' = w_trace w ++ evs -> (forall k, accepted evs k = 0) -> CInv w' /\ counted w w'.
Proof.
  intros I Hx Hl Hs Hi Hco Hexps Ht Ha. set (x' := mkEObj (eo_exp x) (eo_coll x) false (eo_ov x) (eo_sig x)) in *.
  assert (Hcts : ctls w' = ctls w).
  { unfold ctls. rewrite Hexps, map_upd. apply upd_same. change (ctl_of x') with (ctl_of x). apply ctls_nth; auto. }
  assert (Hacc : forall k, accepted (w_trace w') k = accepted (w_trace w) k) by (intros k; rewrite Ht, accepted_app, Ha; lia).
  assert (Hex : forall k y, exp_at w' k y -> (k = e /\ y = x') \/ (k <> e /\ exp_at w k y)).
  { intros k y Hy. unfold exp_at in Hy. rewrite Hexps in Hy. apply nth_error_upd in Hy.
    destruct Hy as [(-> & _ & ->)|(Hne & Hy)]; auto. }
  split; [constructor|].
  - rewrite Hcts, Hs. apply (ci_s _ I).
  - intros k y Hy. rewrite Hacc. destruct (Hex _ _ Hy) as [[-> ->]|[Hne Hy']].
    + apply (ci_count _ I _ _ Hx).
    + apply (ci_count _ I _ _ Hy').
  - intros k Hk. rewrite Hexps, length_upd in Hk. rewrite Hacc. apply (ci_fresh _ I); auto.
  - rewrite Hi, Hs. apply (ci_len _ I).
  - intros c lst Hlst. rewrite Hco in Hlst.
    rewrite Hexps. unfold x'. rewrite (members_kill _ _ _ _ Hx). apply nth_error_upd in Hlst.
    destruct Hlst as [(<- & _ & ->)|(Hne & Hlst)].
    + rewrite Nat.eqb_refl, (ci_coll _ I _ _ Hl). reflexivity.
    + destruct (Nat.eqb_spec (eo_coll x) c); [congruence|]. apply (ci_coll _ I); auto.
  - intros k y Hy. rewrite Hco, length_upd.
    destruct (Hex _ _ Hy) as [[-> ->]|[Hne Hy']].
    + apply (ci_collr _ I _ _ Hx).
    + apply (ci_collr _ I _ _ Hy').
  - eapply CdNone; eauto. eapply as_before_upd; eauto.
Qed.

(** The operations of [World]. *)
Lemma cinv_step w o w' r : CInv w -> step w o = Next w' r -> CInv w' /\ counted w w'.
Proof.
  intros I H. apply step_change in H.
  destruct H as [evs H1 H2 H3 H4 H5 H6 H7|st ->|s evs d' -> Hi Hr ->|m ov ms cls l s coll b ss ctl mem -> Hf Hlen Hok Hb Hfin Hc Hm ->
    |m ov args l s coll lst es ml n mr first others eo ss ctl -> Hf Hlen Hl Hes Hml Hfull Hp He Hc Ha ->|e w1 eo l unf evs d' [sc ->] He Hl Hin Hr -> Hcase].
  - eapply cinv_same; eauto; [congruence|]. intros e. apply quiet_counts; auto.
  - apply cinv_newseq; auto.
  - eapply cinv_same; eauto; cbn; auto; [apply length_upd|]. intros e. eapply released_spec; eauto.
  - eapply cinv_new; eauto.
  - destruct (cinv_accept w (accept_world w n eo ss ctl (frontend_noexcept s) (map (unhandled_event (w_rid w) (call_of s args l)) (ml_unhandled ml)
       ++ [EvReport (w_rid w) (RFull (make_call_report (call_of s args l)) mr) [n]])) n eo ss ctl
       (map (unhandled_event (w_rid w) (call_of s args l)) (ml_unhandled ml)) (w_rid w) (make_call_report (call_of s args l)) mr) as (A & B & _); auto.
    intros e. apply quiet_counts, quiet_unhandled.
  - eapply cinv_end; eauto; try reflexivity. intros k. destruct (released_spec _ _ _ _ _ Hr) as (_ & _ & R & _). destruct (R k) as [R1 _].
    destruct Hcase as [(_ & ->)|[(_ & y & _ & ->)|(_ & rep & _ & ->)]]; cbn [app]; auto.
Qed.

(** ** Calls *)

Section User.
Context {U : Type}.
Implicit Types (p : cpolicy U) (ps : list (cpolicy U)) (u : U) (pols : nat -> list (cpolicy U)).

Lemma c_attempt_nothrow rp n ss e ps c u x u' : c_make_match_report rp n ss e ps c u <> (Throw x, u').
Proof.
  unfold c_make_match_report. intros H. 
  match type of H with (match ?t with _ => _ end) = _ => destruct t as [o1 v1] end. injection H as H1 H2. exact (noexcept_nothrow _ _ H1).
Qed.

Lemma c_loop_nothrow rp n ss c es : forall acc u x u', c_match_loop rp n ss c es acc u <> (Throw x, u').
Proof.
  induction es as [|[k [e ps]] es IH]; intros acc u x u'; cbn [c_match_loop]; [discriminate|]. unfold sbind.
  destruct (c_make_match_report rp n ss e ps c u) as [[a|y| |v] u1] eqn:E; try discriminate.
  - apply IH.
  - exfalso. eapply c_attempt_nothrow; eauto.
Qed.

(** The two ways in which the part after the loop goes on. *)
Inductive settled (w : world) (c : call_info) (ne : bool) (ok : nat -> outcome unit) (acts : nat -> list nat) (ml : match_lists) : world -> result -> Prop :=
| StTaken first others n m eo ss ctl : ml_full ml = first :: others -> pick_best first others = Ret (n, m) -> nth_error (w_exps w) n = Some eo ->
    control_consume (w_seqs w) (e_ctl (eo_exp eo)) = Ret (ss, ctl) -> ok n = Ret tt ->
    settled w c ne ok acts ml
      (add_trace (set_frames (set_exps (set_seqs w ss) (upd (w_exps w) n (mkEObj (with_ctl (eo_exp eo) ctl) (eo_coll eo) (eo_alive eo) (eo_ov eo) (eo_sig eo))))
         (mkFrame n (acts n) false false ne :: w_frames w))
         (map (unhandled_event (w_rid w) c) (ml_unhandled ml) ++ [EvReport (w_rid w) (RFull (make_call_report c) m) [n]])) RUnit
| StFailed : ml_full ml = [] -> ne = false ->
    settled w c ne ok acts ml (add_trace w (map (unhandled_event (w_rid w) c) (ml_unhandled ml) ++ [EvReport (w_rid w) (fail_report c ml) (fail_who ml)])) (RThrow EReporter).

Lemma settle_next w c ne ok acts ml w' r : settle w c ne ok acts ml = Next w' r -> settled w c ne ok acts ml w' r.
Proof.
  unfold settle. intros H. rewrite emit_unhandled_add in H.
  destruct (ml_full ml) as [|first others] eqn:Hf.
  - fold (fail_report c ml) in H. fold (fail_who ml) in H.
    unfold react in H. cbn in H.
    destruct (w_reporter w (fail_report c ml) (w_uncaught w)) eqn:Hr; try discriminate.
    unfold thrown in H. destruct ne eqn:Hne; [discriminate|]. inversion H; subst.
    unfold emit_report. rewrite emit_add, add_trace_app. exact (StFailed w c false ok acts ml Hf eq_refl).
  - destruct (pick_best first others) as [[n m]|x| |u] eqn:Hp; try discriminate.
    2:{ exfalso. eapply pick_best_nothrow; eauto. }
    unfold react in H. cbn in H.
    destruct (w_reporter w (RFull (make_call_report c) m) (w_uncaught w)) eqn:Hr; try discriminate.
    destruct (nth_error (w_exps w) n) as [eo|] eqn:He; [|discriminate].
    destruct (control_consume (w_seqs w) (e_ctl (eo_exp eo))) as [[ss ctl]|x| |u] eqn:Hc; try discriminate.
    2:{ exfalso. eapply control_consume_nothrow; eauto. }
    destruct (ok n) as [[]|x| |u] eqn:Ha; try discriminate.
    inversion H; subst.
    match goal with |- settled _ _ _ _ _ _ ?w1 _ => replace w1 with
      (add_trace (set_frames (set_exps (set_seqs w ss) (upd (w_exps w) n (mkEObj (with_ctl (eo_exp eo) ctl) (eo_coll eo) (eo_alive eo) (eo_ov eo) (eo_sig eo))))
         (mkFrame n (acts n) false false ne :: w_frames w))
         (map (unhandled_event (w_rid w) c) (ml_unhandled ml) ++ [EvReport (w_rid w) (RFull (make_call_report c) m) [n]])) end.
    + eapply StTaken; eauto.
    + unfold add_trace, set_frames, set_exps, set_seqs, emit_report, emit. simpl. rewrite app_assoc. reflexivity.
Qed.

Lemma cinv_settled w c ne ok acts ml w' r : CInv w -> settled w c ne ok acts ml w' r -> CInv w' /\ counted w w'.
Proof.
  intros I H. destruct H as [first others n m eo ss ctl Hf Hp He Hc Ho|Hf Hn].
  - destruct (cinv_accept w (add_trace (set_frames (set_exps (set_seqs w ss) (upd (w_exps w) n (mkEObj (with_ctl (eo_exp eo) ctl) (eo_coll eo) (eo_alive eo) (eo_ov eo) (eo_sig eo))))
         (mkFrame n (acts n) false false ne :: w_frames w))
         (map (unhandled_event (w_rid w) c) (ml_unhandled ml) ++ [EvReport (w_rid w) (RFull (make_call_report c) m) [n]])) n eo ss ctl
       (map (unhandled_event (w_rid w) c) (ml_unhandled ml)) (w_rid w) (make_call_report c) m) as (A & B & _); auto.
    intros e. apply quiet_counts, quiet_unhandled.
  - eapply cinv_same; eauto; [reflexivity|]. intros e. apply quiet_counts. rewrite forallb_app, quiet_unhandled. cbn [forallb]. rewrite quiet_fail. reflexivity.
Qed.

Lemma c_call_parts w pols m ov args l u w' r u' : c_do_call w pols m ov args l u = (Next w' r, u') ->
  exists s coll lst es ml, find_overload w m ov = inr (s, coll) /\ length args = length (sg_params s) /\
    nth_error (w_colls w) coll = Some lst /\ lookup_exps w (rev lst) = Some es /\
    c_match_loop (w_reporter w) (w_uncaught w) (w_seqs w) (call_of s args l) (map (fun q : nat * expectation => (fst q, (snd q, pols (fst q)))) es) lists0 u = (Ret ml, u') /\
    settled w (call_of s args l) (frontend_noexcept s) (fun n => c_consume_asserts (pols n) (call_of s args l)) (fun n => c_actions (pols n)) ml w' r.
Proof.
  unfold c_do_call. intros H. destruct (find_overload w m ov) as [x|[s coll]] eqn:Ef.
  { exfalso. inversion H; subst. revert Ef. unfold find_overload. repeat match goal with |- context [match ?t with _ => _ end] => destruct t end; discriminate. }
  destruct (Nat.eqb_spec (length args) (length (sg_params s))) as [El|]; [|discriminate]. cbn [negb] in H. fold (call_of s args l) in H.
  unfold c_handle_call in H. destruct (nth_error (w_colls w) coll) as [lst|] eqn:Hl; [|discriminate].
  destruct (lookup_exps w (rev lst)) as [es|] eqn:Hes; [|discriminate]. fold lists0 in H.
  destruct (c_match_loop _ _ _ _ _ _ u) as [[ml|x| |v] u1] eqn:Hml; try discriminate.
  2:{ exfalso. eapply c_loop_nothrow; eauto. }
  inversion H as [[H1 H2]]. subst u1. apply settle_next in H1. exists s, coll, lst, es, ml. repeat (split; auto).
Qed.

(** ** The end of an expectation *)

Lemma c_end_parts w pols e u w' r u' : c_end_expectation w pols e u = (Next w' r, u') ->
  exists eo l unf evs d',
    nth_error (w_exps w) e = Some eo /\ nth_error (w_colls w) (eo_coll eo) = Some l /\ In e l /\
    released (kill w e eo l) (map fst (c_seqs (e_ctl (eo_exp eo)))) (w_sdead w) evs d' /\
    w' = add_trace (set_sdead (kill w e eo l) d') (unf ++ evs) /\
    ((c_is_satisfied (eo_exp eo) (pols e) u = true /\ unf = [] /\ r = RUnit /\ u' = u) \/
     (c_is_satisfied (eo_exp eo) (pols e) u = false /\ exists x, c_exp_report (w_seqs w) (eo_exp eo) (pols e) u = (Throw x, u') /\ unf = [] /\ r = RThrow x) \/
     (c_is_satisfied (eo_exp eo) (pols e) u = false /\ exists rep, c_exp_report (w_seqs w) (eo_exp eo) (pols e) u = (Ret rep, u') /\
        unf = [EvReport (w_rid w) (RUnfulfilled rep) [e]] /\
        ((react w (RUnfulfilled rep) = Returns /\ r = RUnit) \/ (react w (RUnfulfilled rep) = Throws /\ r = RThrow EReporter)))).
Proof.
  unfold c_end_expectation. intros H.
  destruct (nth_error (w_exps w) e) as [eo|] eqn:He; [|discriminate].
  destruct (nth_error (w_colls w) (eo_coll eo)) as [l|] eqn:Hl; [|discriminate].
  destruct (existsb (Nat.eqb e) l) eqn:Hin; [|discriminate].
  assert (Hin' : In e l).
  { apply existsb_exists in Hin. destruct Hin as (x & Hx & Heq). apply Nat.eqb_eq in Heq. subst. auto. }
  cbn [negb] in H.
  destruct (c_is_satisfied (eo_exp eo) (pols e) u) eqn:Hsat.
  - inversion H as [[H1 H2]]. subst u'. destruct (release_seqs_next _ _ _ _ H1) as (-> & evs & d' & Hr & ->).
    exists eo, l, [], evs, d'. repeat split; auto.
  - destruct (c_exp_report (w_seqs w) (eo_exp eo) (pols e) u) as [[rep|x| |v] u1] eqn:Hrep; try discriminate.
    + inversion H as [[H1 H2]]. subst u1. clear H. unfold react in H1; cbn [w_reporter w_uncaught set_colls] in H1.
      destruct (w_reporter w (RUnfulfilled rep) (w_uncaught w)) eqn:Hre; try discriminate.
      * destruct (release_seqs_next _ _ _ _ H1) as (-> & evs & d' & Hr & ->).
        exists eo, l, [EvReport (w_rid w) (RUnfulfilled rep) [e]], evs, d'. split; auto. split; auto. split; auto. split.
        { eapply released_ext; [| | |exact Hr]; auto. }
        split.
        { unfold set_sdead_trace, add_trace, emit_report, emit, set_sdead, kill. simpl. rewrite <- app_assoc. reflexivity. }
        right. right. split; auto. exists rep. split; auto.
      * destruct (release_seqs _ _) as [w3 r3| | |] eqn:Hrel in H1; try discriminate.
        destruct (release_seqs_next _ _ _ _ Hrel) as (-> & evs & d' & Hr & ->).
        inversion H1; subst w' r. exists eo, l, [EvReport (w_rid w) (RUnfulfilled rep) [e]], evs, d'.
        split; auto. split; auto. split; auto. split.
        { eapply released_ext; [| | |exact Hr]; auto. }
        split.
        { unfold set_sdead_trace, add_trace, emit_report, emit, set_sdead, kill, set_uncaught. simpl. rewrite <- app_assoc. reflexivity. }
        right. right. split; auto. exists rep. split; auto.
    + inversion H as [[H1 H2]]. subst u1. clear H. destruct (release_seqs _ _) as [w3 r3| | |] eqn:Hrel in H1; try discriminate.
      destruct (release_seqs_next _ _ _ _ Hrel) as (-> & evs & d' & Hr & ->).
      inversion H1; subst w' r. exists eo, l, [], evs, d'.
      split; auto. split; auto. split; auto. split.
      { eapply released_ext; [| | |exact Hr]; auto. }
      split.
      { reflexivity. }
      right. left. split; auto. exists x. auto.
Qed.

Lemma cinv_scoped w sc : CInv w -> CInv (set_scoped w sc).
Proof. intros [A B C D E F]. constructor; auto. Qed.

Lemma cinv_ends w sc pols e u w' r u' : CInv w -> c_end_expectation (set_scoped w sc) pols e u = (Next w' r, u') -> CInv w' /\ counted w w'.
Proof.
  intros I H. apply c_end_parts in H. destruct H as (eo & l & unf & evs & d' & He & Hl & Hin & Hr & -> & Hcase).
  eapply cinv_end; eauto; try reflexivity. intros k. destruct (released_spec _ _ _ _ _ Hr) as (_ & _ & R & _). destruct (R k) as [R1 _].
  destruct Hcase as [(_ & -> & _)|[(_ & y & _ & -> & _)|(_ & rep & _ & -> & _)]]; cbn [app]; auto.
Qed.

(** ** All operations *)

Lemma cinv_cstep pols w u o w' r u' : CInv w -> c_step pols w u o = (Next w' r, u') -> CInv w' /\ counted w w'.
Proof.
  intros I H. destruct o; cbn [c_step] in H;
    try (match type of H with (?s, _) = _ => assert (Hs : s = Next w' r) by (inversion H; auto) end; eapply cinv_step; [exact I|exact Hs]).
  - apply c_call_parts in H. destruct H as (s & coll & lst & es & ml & _ & _ & _ & _ & _ & H). eapply cinv_settled; eauto.
  - destruct (nth_error (w_scoped w) h) as [[e| |]|]; try discriminate. destruct (nth_error (w_exps w) e) as [eo|]; [|discriminate].
    destruct (eo_alive eo); [|discriminate]. inversion H; subst. eapply (cinv_same w' w' []); auto; symmetry; apply app_nil_r.
  - destruct (nth_error (w_scoped w) h) as [[e| |]|]; try discriminate.
    + eapply cinv_ends; eauto.
    + inversion H; subst. eapply (cinv_same w _ []); auto; symmetry; apply app_nil_r.
  - destruct (nth_error (w_scoped w) dst) as [old|]; [|destruct (nth_error (w_scoped w) src) as [[]|]; discriminate].
    destruct (nth_error (w_scoped w) src) as [x|]; [|destruct old; discriminate].
    assert (Hx : old <> HDead /\ x <> HDead) by (destruct old, x; try discriminate; split; discriminate).
    assert (H' : (if dst =? src then (Next w RUnit, u)
                  else match old with
                       | HOwns e => match c_end_expectation (set_scoped w (upd (upd (w_scoped w) src HEmpty) dst x)) pols e u with
                                    | (Next w2 (RThrow _), u') => (Stop, u')
                                    | other => other
                                    end
                       | _ => (Next (set_scoped w (upd (upd (w_scoped w) src HEmpty) dst x)) RUnit, u)
                       end) = (Next w' r, u')).
    { destruct Hx as [Hx1 Hx2]. destruct old, x; try congruence; exact H. }
    clear H. destruct (dst =? src). { inversion H'; subst. eapply (cinv_same w' _ []); auto; symmetry; apply app_nil_r. }
    destruct old as [e| |].
    + destruct (c_end_expectation _ pols e u) as [[w2 r2| | |] u2] eqn:He; try discriminate.
      assert (w2 = w' /\ r2 = r) as [-> ->] by (destruct r2; inversion H'; auto). eapply cinv_ends; eauto.
    + inversion H'; subst. eapply (cinv_same w _ []); auto; symmetry; apply app_nil_r.
    + destruct Hx; congruence.
Qed.

Lemma cinv_crun pols w u ops w' u' : crun pols w u ops w' u' -> CInv w -> CInv w'.
Proof. induction 1; auto. intros I. apply IHcrun. eapply cinv_cstep; eauto. Qed.

End User.

Lemma cinv_init : CInv init.
Proof. apply cinv_of, winv_reachable. exists []. constructor. Qed.
