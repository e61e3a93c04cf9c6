(** * ScopeProofs: the end of a ScopedExpectation, and the delivery of reports. *)

From Verif Require Import Base Lib Sequence Control Signature Printer Reports Expectation Builder World WorldSpec CallSpec SeqSpec
  SeqInv StepCases WorldInv ObjInv CallProofs CountProofs PlayProofs MoveProofs History SeqEnd.

Lemma release_seqs_total l : forall w, (forall k n, react w (RError k n) = Returns) ->
  (forall t, In t l -> exists p, nth_error (w_seqs w) t = Some p) -> exists w', release_seqs w l = Next w' RUnit.
Proof.
  induction l as [|t l IH]; intros w Hre Hall; cbn [release_seqs]; [eauto|].
  assert (E : exists w1, release_seq w t = Next w1 RUnit /\ w_seqs w1 = w_seqs w /\ forall r, react w1 r = react w r).
  { unfold release_seq. destruct (seq_in_use w t || nth t (w_sdead w) true); [exists w; auto|].
    destruct (Hall t (or_introl eq_refl)) as [p Hp]. rewrite Hp. destruct (seq_dtor_error p) as [[k n]|]; [|eexists; split; [reflexivity|auto]].
    change (react (set_sdead w (upd (w_sdead w) t true)) (RError k n)) with (react w (RError k n)). rewrite Hre. eexists; split; [reflexivity|auto]. }
  destruct E as (w1 & -> & E1 & E2). apply IH; [intros; rewrite E2; auto|]. intros t' Ht'. rewrite E1. apply Hall. right; auto.
Qed.

(** Everything a live ScopedExpectation refers to exists. *)
Lemma end_setting w h e : reachable w -> nth_error (w_scoped w) h = Some (HOwns e) ->
  exists x l, exp_at w e x /\ eo_alive x = true /\ nth_error (w_colls w) (eo_coll x) = Some l /\ existsb (Nat.eqb e) l = true /\
    (forall t, In t (map fst (c_seqs (e_ctl (eo_exp x)))) -> exists p, nth_error (w_seqs w) t = Some p).
Proof.
  intros Hr Hh. pose proof (winv_reachable _ Hr) as I. pose proof (oinv_reachable _ Hr) as O.
  destruct (oi_own _ O _ _ Hh) as (x & Hx & Ha). pose proof (wi_collr _ I _ _ Hx) as Hc. destruct (nth_error_ex _ _ Hc) as [l Hl].
  exists x, l. do 3 (split; auto). split.
  - apply existsb_exists. exists e. split; [|apply Nat.eqb_refl]. rewrite (wi_coll _ I _ _ Hl). apply members_in. eauto.
  - intros t Ht. apply in_map_fst in Ht. destruct Ht as [id Hid].
    destruct (si_entry _ _ (wi_s _ I) _ _ _ _ (ctls_nth _ _ _ Hx) Hid) as (q & Hq & _). eauto.
Qed.

Lemma satisfied_count w e x : WInv w -> exp_at w e x ->
  (exp_is_satisfied (eo_exp x) = true /\ (x_min x <= Z.of_nat (accepted (w_trace w) e))%Z) \/
  (exp_is_satisfied (eo_exp x) = false /\ (Z.of_nat (accepted (w_trace w) e) < x_min x)%Z).
Proof.
  intros I Hx. rewrite (satisfied_met x _ _ _ (wi_s _ I) (ctls_nth _ _ _ Hx)). pose proof (unmet_count _ _ _ I Hx) as U.
  destruct (unmet x); [right|left]; split; auto; [apply U; auto|]. destruct U as [_ U].
  destruct (Z.lt_ge_cases (Z.of_nat (accepted (w_trace w) e)) (x_min x)); auto. specialize (U H). discriminate.
Qed.

(** The end of an expectation with a reporter which accepts reports. *)
Lemma end_total w w1 sc h e x : reachable w -> nth_error (w_scoped w) h = Some (HOwns e) -> w1 = set_scoped w sc ->
  exp_at w e x -> describes (eo_exp x) ->
  (forall k n, react w (RError k n) = Returns) -> (forall r, react w (RUnfulfilled r) = Returns) ->
  exists w', end_expectation w1 e = Next w' RUnit.
Proof.
  intros Hr Hh -> Hx Hd H1 H2. destruct (end_setting _ _ _ Hr Hh) as (x' & l & Hx' & Ha & Hl & Hin & Hall).
  unfold exp_at in *. rewrite Hx in Hx'. inversion Hx'; subst x'. pose proof (winv_reachable _ Hr) as I.
  unfold end_expectation. cbn [w_exps w_colls w_seqs set_scoped]. rewrite Hx, Hl, Hin. cbn [negb].
  destruct (exp_is_satisfied (eo_exp x)).
  - apply release_seqs_total; auto.
  - destruct (exp_report_true _ _ _ I Hx Hd) as (rep & -> & _).
    match goal with |- context [react ?a (RUnfulfilled rep)] => change (react a (RUnfulfilled rep)) with (react w (RUnfulfilled rep)) end.
    rewrite H2. apply release_seqs_total; auto.
Qed.

(** ** Delivery *)

Definition to_current (rid : nat) (ev : event) : Prop :=
  match ev with
  | EvReport to _ _ => to = rid
  | EvInstall _ => False
  | _ => True
  end.

Lemma released_current w l d evs d' : released w l d evs d' -> forall ev, In ev evs -> to_current (w_rid w) ev.
Proof.
  intros H. induction H as [|s l d evs d' Hk H IH|s q l d evs d' Hu Hd Hq H IH]; intros ev Hin; [contradiction|auto|].
  apply in_app_iff in Hin. destruct Hin as [Hin|]; auto. unfold dtor_events in Hin.
  destruct (seq_dtor_error q) as [[k n]|]; [|contradiction]. destruct Hin as [<-|[]]. reflexivity.
Qed.

Definition delivers (w : world) (o : op) (w' : world) : Prop :=
  exists evs, w_trace w' = w_trace w ++ evs /\
    match o with
    | OInstall rp => evs = [EvInstall (S (w_rid w))] /\ w_rid w' = S (w_rid w) /\ w_reporter w' = rp
    | _ => w_rid w' = w_rid w /\ w_reporter w' = w_reporter w /\ forall ev, In ev evs -> to_current (w_rid w) ev
    end.

Lemma end_delivers w sc e w' r : end_expectation (set_scoped w sc) e = Next w' r ->
  exists evs, w_trace w' = w_trace w ++ evs /\ w_rid w' = w_rid w /\ w_reporter w' = w_reporter w /\
    forall ev, In ev evs -> to_current (w_rid w) ev.
Proof.
  intros H. apply end_expectation_next in H. destruct H as (eo & l & unf & evs & d' & He & Hl & Hi & Hrel & -> & Hc).
  exists (unf ++ evs). do 3 (split; [reflexivity|]). intros ev Hin. apply in_app_iff in Hin. destruct Hin as [Hin|Hin].
  - destruct Hc as [(_ & -> & _)|[(_ & y & _ & -> & _)|(_ & rep & _ & -> & _)]]; [contradiction|contradiction|].
    destruct Hin as [<-|[]]. reflexivity.
  - exact (released_current _ _ _ _ _ Hrel _ Hin).
Qed.

Lemma step_delivers w o w' r : step w o = Next w' r -> delivers w o w'.
Proof.
  assert (Same : forall w1, w_trace w1 = w_trace w -> w_rid w1 = w_rid w -> w_reporter w1 = w_reporter w ->
     exists evs, w_trace w1 = w_trace w ++ evs /\ w_rid w1 = w_rid w /\ w_reporter w1 = w_reporter w /\ forall ev, In ev evs -> to_current (w_rid w) ev).
  { intros w1 E1 E2 E3. exists []. rewrite app_nil_r. do 3 (split; auto). intros ev []. }
  intros H. unfold delivers. destruct o; cbn [step] in H.
  - inversion H; subst. apply Same; reflexivity.
  - destruct (nth s (w_iface w) false); [|discriminate]. apply release_seq_next in H.
    destruct H as [-> [[-> _]|(_ & _ & q & _ & -> & _)]]; [apply Same; reflexivity|].
    eexists. split; [reflexivity|]. do 2 (split; [reflexivity|]). intros ev Hin. unfold dtor_events in Hin.
    destruct (seq_dtor_error q) as [[k n]|]; [|contradiction]. destruct Hin as [<-|[]]. reflexivity.
  - destruct (_ && _); [|discriminate]. inversion H; subst. apply Same; reflexivity.
  - destruct (nth_error (w_mocks w) m) as [mk|]; [|discriminate]. destruct (mk_alive mk); [|discriminate]. inversion H; subst. apply Same; reflexivity.
  - destruct (nth_error (w_mocks w) dst) as [md|]; [|discriminate]. destruct (nth_error (w_mocks w) src) as [ms|]; [|discriminate].
    destruct (negb _); [discriminate|]. destruct (dst =? src); inversion H; subst; apply Same; reflexivity.
  - destruct (nth_error (w_mocks w) m) as [mk|]; [|discriminate]. destruct (mk_alive mk); [|discriminate]. inversion H; subst. apply Same; reflexivity.
  - apply do_expect_next in H. destruct H as (s & coll & _ & _ & _ & [(y & _ & -> & _)|(b & ss & ctl & mem & _ & _ & _ & _ & _ & ->)]);
      apply Same; reflexivity.
  - apply do_call_next in H. destruct H as (s & coll & _ & _ & H). apply handle_call_next in H. destruct H as (lst & es & ml & _ & _ & _ & Hcr).
    inversion Hcr; subst; eexists; (split; [reflexivity|]); do 2 (split; [reflexivity|]); intros ev Hin; apply in_app_iff in Hin;
      (destruct Hin as [Hin|[<-|[]]]; [apply in_map_iff in Hin; destruct Hin as ([n0 [r0 x0]] & <- & _); reflexivity|reflexivity]).
  - unfold do_action in H. destruct (w_frames w) as [|f fs]; [discriminate|]. destruct (f_todo f); [discriminate|].
    destruct (negb _); [discriminate|]. inversion H; subst. eexists. split; [reflexivity|]. do 2 (split; [reflexivity|]). intros ev [<-|[]]. exact I.
  - destruct (w_frames w) as [|f fs]; [discriminate|]. destruct (_ && _); discriminate.
  - unfold do_final in H. destruct (w_frames w) as [|f fs]; [discriminate|]. destruct (f_todo f); [|discriminate]. destruct (f_final f); [discriminate|].
    destruct (negb _); [discriminate|]. inversion H; subst. eexists. split; [reflexivity|]. do 2 (split; [reflexivity|]). intros ev [<-|[]]. exact I.
  - unfold do_return in H. destruct (w_frames w) as [|f fs]; [discriminate|]. destruct (negb _); [discriminate|].
    destruct (nth_error (w_exps w) (f_exp f)); [|discriminate].
    destruct (finalizer_result _ _); [|unfold thrown in H; destruct (f_noexcept f); [discriminate|]]; inversion H; subst; apply Same; reflexivity.
  - destruct (nth_error (w_scoped w) h) as [[e| |]|]; try discriminate. destruct (nth_error (w_exps w) e) as [eo|]; [|discriminate].
    destruct (eo_alive eo); [|discriminate]. inversion H; subst. apply Same; reflexivity.
  - destruct (nth_error (w_scoped w) h) as [[e| |]|]; try discriminate; [eapply end_delivers; eauto|]. inversion H; subst. apply Same; reflexivity.
  - destruct (nth_error (w_scoped w) h) as [[e| |]|]; try discriminate; inversion H; subst; apply Same; reflexivity.
  - destruct (nth_error (w_scoped w) dst) as [[e| |]|]; try discriminate; destruct (nth_error (w_scoped w) src) as [[e'| |]|]; try discriminate;
      (destruct (dst =? src); [inversion H; subst; apply Same; reflexivity|]);
      try (inversion H; subst; apply Same; reflexivity);
      (match type of H with context [end_expectation (set_scoped w ?sc) e] =>
         destruct (end_expectation (set_scoped w sc) e) as [w2 r2| | |] eqn:E; try discriminate;
         destruct r2; try discriminate; inversion H; subst; eapply end_delivers; exact E end).
  - inversion H; subst. eexists. split; [reflexivity|]. auto.
  - inversion H; subst. apply Same; reflexivity.
Qed.

Lemma release_seqs_defined l : forall w, (forall t, In t l -> exists p, nth_error (w_seqs w) t = Some p) ->
  (exists w', release_seqs w l = Next w' RUnit) \/ release_seqs w l = Stop.
Proof.
  induction l as [|t l IH]; intros w Hall; cbn [release_seqs]; [eauto|].
  assert (E : (exists w1, release_seq w t = Next w1 RUnit /\ w_seqs w1 = w_seqs w) \/ release_seq w t = Stop).
  { unfold release_seq. destruct (seq_in_use w t || nth t (w_sdead w) true); [left; exists w; auto|].
    destruct (Hall t (or_introl eq_refl)) as [p Hp]. rewrite Hp. destruct (seq_dtor_error p) as [[k n]|]; [|left; eexists; split; [reflexivity|auto]].
    destruct (react _ _); auto. left. eexists; split; [reflexivity|auto]. }
  destruct E as [(w1 & -> & E1)| ->]; auto. apply IH. intros t' Ht'. rewrite E1. apply Hall. right; auto.
Qed.

Lemma end_next_or_stop w h e : reachable w -> nth_error (w_scoped w) h = Some (HOwns e) -> forall sc,
  (exists w' r, end_expectation (set_scoped w sc) e = Next w' r) \/ end_expectation (set_scoped w sc) e = Stop.
Proof.
  intros Hr Hh sc. destruct (end_setting _ _ _ Hr Hh) as (x & l & Hx & Ha & Hl & Hin & Hall).
  pose proof (winv_reachable _ Hr) as I. unfold exp_at in Hx.
  unfold end_expectation. cbn [w_exps w_colls w_seqs set_scoped]. rewrite Hx, Hl, Hin. cbn [negb].
  assert (D : forall w1, w_seqs w1 = w_seqs w -> (exists w', release_seqs w1 (map fst (c_seqs (e_ctl (eo_exp x)))) = Next w' RUnit) \/
            release_seqs w1 (map fst (c_seqs (e_ctl (eo_exp x)))) = Stop).
  { intros w1 E. apply release_seqs_defined. intros t Ht. rewrite E. auto. }
  destruct (exp_is_satisfied (eo_exp x)).
  - match goal with |- context [release_seqs ?a _] => destruct (D a eq_refl) as [[w' E]|E]; rewrite E; eauto end.
  - destruct (exp_report_describable _ _ _ I Hx) as [D1 D2]. destruct (describable (eo_exp x)).
    + destruct (D1 eq_refl) as [rep ->]. destruct (react _ _); auto;
        match goal with |- context [release_seqs ?a _] => destruct (D a eq_refl) as [[w' E]|E]; rewrite E; eauto end.
    + destruct (D2 eq_refl) as [y ->].
      match goal with |- context [release_seqs ?a _] => destruct (D a eq_refl) as [[w' E]|E]; rewrite E; eauto end.
Qed.
