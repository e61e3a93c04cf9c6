(** * ProgramProofs: lemmas about whole programs for PropTests.v. *)

From Verif Require Import Base Lib Sequence Control Signature Printer Reports Expectation Builder World WorldSpec CallSpec SeqSpec
  SeqInv BuildSpec BuilderLemmas StepCases MatchLemmas WorldInv ObjInv CallProofs BuildProofs CountProofs OutcomeProofs ScopeProofs FrameProofs History
  PropCalls PropScope PropSeq TestSpec TestProofs.

(** ** Which operation reports what *)

Lemma released_no_outcome w l d evs d' : released w l d evs d' -> filter is_outcome evs = [].
Proof.
  intros H. induction H as [|s l d evs d' Hk H IH|s q l d evs d' Hu Hd Hq H IH]; auto. rewrite filter_app, IH, app_nil_r.
  unfold dtor_events. destruct (seq_dtor_error q) as [[k n]|]; reflexivity.
Qed.

Lemma end_no_outcome w sc e w' r : end_expectation (set_scoped w sc) e = Next w' r ->
  exists evs, w_trace w' = w_trace w ++ evs /\ filter is_outcome evs = [].
Proof.
  intros H. apply end_expectation_next in H. destruct H as (eo & l & unf & evs & d' & He & Hl & Hi & Hrel & -> & Hc).
  exists (unf ++ evs). split; [reflexivity|]. rewrite filter_app, (released_no_outcome _ _ _ _ _ Hrel), app_nil_r.
  destruct Hc as [(_ & -> & _)|[(_ & y & _ & -> & _)|(_ & rep & _ & -> & _)]]; reflexivity.
Qed.

Lemma other_no_outcome w o w' r : calls_of [o] = [] -> step w o = Next w' r ->
  exists evs, w_trace w' = w_trace w ++ evs /\ filter is_outcome evs = [].
Proof.
  assert (Same : forall w1, w_trace w1 = w_trace w -> exists evs, w_trace w1 = w_trace w ++ evs /\ filter is_outcome evs = []).
  { intros w1 E1. exists []. rewrite app_nil_r. auto. }
  intros Ho H. destruct o; cbn [step] in H.
  - inversion H; subst. apply Same; reflexivity.
  - destruct (nth s (w_iface w) false); [|discriminate]. apply release_seq_next in H.
    destruct H as [-> [[-> _]|(_ & _ & q & _ & -> & _)]]; [apply Same; reflexivity|].
    eexists. split; [reflexivity|]. unfold dtor_events. destruct (seq_dtor_error q) as [[k n]|]; reflexivity.
  - destruct (_ && _); [|discriminate]. inversion H; subst. apply Same; reflexivity.
  - destruct (nth_error (w_mocks w) m) as [mk|]; [|discriminate]. destruct (mk_alive mk); [|discriminate]. inversion H; subst. apply Same; reflexivity.
  - destruct (nth_error (w_mocks w) dst) as [md|]; [|discriminate]. destruct (nth_error (w_mocks w) src) as [ms|]; [|discriminate].
    destruct (negb _); [discriminate|]. destruct (dst =? src); inversion H; subst; apply Same; reflexivity.
  - destruct (nth_error (w_mocks w) m) as [mk|]; [|discriminate]. destruct (mk_alive mk); [|discriminate]. inversion H; subst. apply Same; reflexivity.
  - apply do_expect_next in H. destruct H as (s & coll & _ & _ & _ & [(y & _ & -> & _)|(b & ss & ctl & mem & _ & _ & _ & _ & _ & ->)]);
      apply Same; reflexivity.
  - discriminate.
  - unfold do_action in H. destruct (w_frames w) as [|f fs]; [discriminate|]. destruct (f_todo f); [discriminate|].
    destruct (negb _); [discriminate|]. inversion H; subst. eexists. split; reflexivity.
  - destruct (w_frames w) as [|f fs]; [discriminate|]. destruct (_ && _); discriminate.
  - unfold do_final in H. destruct (w_frames w) as [|f fs]; [discriminate|]. destruct (f_todo f); [|discriminate]. destruct (f_final f); [discriminate|].
    destruct (negb _); [discriminate|]. inversion H; subst. eexists. split; reflexivity.
  - unfold do_return in H. destruct (w_frames w) as [|f fs]; [discriminate|]. destruct (negb _); [discriminate|].
    destruct (nth_error (w_exps w) (f_exp f)); [|discriminate].
    destruct (finalizer_result _ _); [|unfold thrown in H; destruct (f_noexcept f); [discriminate|]]; inversion H; subst; apply Same; reflexivity.
  - destruct (nth_error (w_scoped w) h) as [[e| |]|]; try discriminate. destruct (nth_error (w_exps w) e) as [eo|]; [|discriminate].
    destruct (eo_alive eo); [|discriminate]. inversion H; subst. apply Same; reflexivity.
  - destruct (nth_error (w_scoped w) h) as [[e| |]|]; try discriminate; [eapply end_no_outcome; eauto|]. inversion H; subst. apply Same; reflexivity.
  - destruct (nth_error (w_scoped w) h) as [[e| |]|]; try discriminate; inversion H; subst; apply Same; reflexivity.
  - destruct (nth_error (w_scoped w) dst) as [[e| |]|]; try discriminate; destruct (nth_error (w_scoped w) src) as [[e'| |]|]; try discriminate;
      (destruct (dst =? src); [inversion H; subst; apply Same; reflexivity|]);
      try (inversion H; subst; apply Same; reflexivity);
      (match type of H with context [end_expectation (set_scoped w ?sc) e] =>
         destruct (end_expectation (set_scoped w sc) e) as [w2 r2| | |] eqn:E; try discriminate;
         destruct r2; try discriminate; inversion H; subst; eapply end_no_outcome; exact E end).
  - inversion H; subst. eexists. split; reflexivity.
  - inversion H; subst. apply Same; reflexivity.
Qed.

(** A report which is neither harmless nor the outcome of a call concerns an expectation or a sequence. *)
Definition concerns (w : world) (ev : event) : Prop :=
  match ev with
  | EvReport _ (RUnfulfilled _) who => exists e x, who = [e] /\ exp_at w e x
  | EvReport _ (RError _ _) who => exists s, who = [s]
  | _ => True
  end.

Lemma concerns_step w o w' r ev : WInv w -> step w o = Next w' r -> concerns w ev -> concerns w' ev.
Proof.
  intros I H C. destruct ev as [id r0 who| | |]; auto. destruct r0; auto. destruct C as (e & x & E & Hx).
  destruct (step_exps _ _ _ _ I H _ _ Hx) as (x' & Hx' & _). exists e, x'. auto.
Qed.

Lemma quiet_concerns w evs ev : forallb quiet evs = true -> In ev evs -> concerns w ev.
Proof. intros H Hin. rewrite forallb_forall in H. specialize (H _ Hin). destruct ev as [id r who| | |]; try exact Logic.I. destruct r; try exact Logic.I; discriminate. Qed.

Lemma released_concerns w0 w l d evs d' ev : released w l d evs d' -> In ev evs -> concerns w0 ev.
Proof.
  intros H. induction H as [|s l d evs d' Hk H IH|s q l d evs d' Hu Hd Hq H IH]; intros Hin; [contradiction|auto|].
  apply in_app_iff in Hin. destruct Hin as [Hin|]; auto. unfold dtor_events in Hin.
  destruct (seq_dtor_error q) as [[k n]|]; [|contradiction]. destruct Hin as [<-|[]]. exists s. reflexivity.
Qed.

Lemma all_concern w : reachable w -> forall ev, In ev (w_trace w) -> concerns w ev.
Proof.
  revert w. apply (reachable_steps (fun w => forall ev, In ev (w_trace w) -> concerns w ev)); [intros ev []|].
  intros w o w' r Hr IH H ev Hin. pose proof (winv_reachable _ Hr) as I.
  assert (Old : In ev (w_trace w) -> concerns w' ev) by (intros Ho; eapply concerns_step; eauto).
  destruct (step_change _ _ _ _ H).
  - rewrite H5 in Hin. apply in_app_iff in Hin. destruct Hin as [|Hin]; auto. eapply quiet_concerns; eauto.
  - subst w'. auto.
  - assert (Hin' : In ev (w_trace w ++ evs)) by (subst w'; exact Hin). apply in_app_iff in Hin'. destruct Hin' as [|Hin']; auto. eapply released_concerns; eauto.
  - subst w'. auto.
  - assert (Hin' : In ev (w_trace w ++ map (unhandled_event (w_rid w) (call_of s args l)) (ml_unhandled ml) ++
                          [EvReport (w_rid w) (RFull (make_call_report (call_of s args l)) mr) [n]])) by (subst w'; exact Hin).
    apply in_app_iff in Hin'. destruct Hin' as [|Hin']; auto. apply in_app_iff in Hin'. destruct Hin' as [Hin'|[<-|[]]]; [|exact Logic.I].
    eapply quiet_concerns; [apply quiet_unhandled|exact Hin'].
  - assert (Hin' : In ev (w_trace w ++ unf ++ evs)). { destruct H0 as [sc ->]. subst w'. exact Hin. }
    apply in_app_iff in Hin'. destruct Hin' as [|Hin']; auto. apply in_app_iff in Hin'. destruct Hin' as [Hin'|Hin']; [|eapply released_concerns; eauto].
    destruct H6 as [(_ & ->)|[(_ & x & _ & ->)|(_ & rep & _ & ->)]]; try contradiction. destruct Hin' as [<-|[]].
    destruct (step_exps _ _ _ _ I H e eo H1) as (x' & Hx' & _). exists e, x'. auto.
Qed.

(** ** The distribution made by the library *)

Lemma static_run w ops w' e x : reachable w -> run w ops w' -> exp_at w e x -> exists x', exp_at w' e x' /\ same_static x x'.
Proof. intros Hr H. apply (run_static _ _ _ (winv_reachable _ Hr) H). Qed.

Lemma handed_run w ops es w' : handed w ops es w' -> run w ops w'.
Proof. intros H. induction H; econstructor; eauto. Qed.

(** The calls so far, in the order of their expectations. *)
Definition counted (w : world) (es : list nat) : Prop :=
  reachable w /\ (forall e, In e es -> exists x, exp_at w e x) /\ forall e, accepted (w_trace w) e = times_taken es e.

Lemma counted_init : counted init [].
Proof. split; [exists []; constructor|]. split; [intros e []|reflexivity]. Qed.

Lemma counted_other w o w' r es : counted w es -> calls_of [o] = [] -> step w o = Next w' r -> counted w' es.
Proof.
  intros (Hr & Hx & Ha) Ho H. split; [eapply reachable_step; eauto|]. split.
  - intros e He. destruct (Hx _ He) as (x & Hex). destruct (step_exps _ _ _ _ (winv_reachable _ Hr) H _ _ Hex) as (x' & Hex' & _). eauto.
  - intros e. rewrite <- Ha. apply (no_call_accepts w [o] w'); auto. eapply run_one; eauto.
Qed.

Lemma call_taken w c w' es : counted w es -> step w (call_op c) = Next w' RUnit ->
  exists n x, exp_at w n x /\ takes w c n /\ applicable w n x /\ counted w' (es ++ [n]).
Proof.
  intros (Hr & Hx & Ha) H. pose proof (reachable_step _ _ _ _ Hr H) as Hr'. pose proof (winv_reachable _ Hr) as I.
  destruct (call_effect _ _ _ _ _ _ _ Hr H) as
    [(s & coll & n & x & mr & unh & _ & Hf & Hlen & Hc & Ht & Hq & _)|[E _]]; [|discriminate].
  destruct Hc as ((Hex & Hal & Hco) & Hac & Hap).
  exists n, x. split; auto. split. { exists s, coll, x. split; auto. split; auto. split; [split; auto|exact Hac]. } split; auto. split; auto. split.
  - intros e He. apply in_app_iff in He. assert (exists y, exp_at w e y) as (y & Hy) by (destruct He as [He|[<-|[]]]; eauto).
    destruct (step_exps _ _ _ _ I H _ _ Hy) as (y' & Hy' & _). eauto.
  - intros e. rewrite Ht, !accepted_app, accepted_full, times_snoc, Ha. destruct (quiet_counts _ Hq e) as (-> & _).
    rewrite (Nat.eqb_sym e n). destruct (n =? e); lia.
Qed.

Lemma ordered_grows w w' es : (forall e, In e es -> exists x, exp_at w e x) -> (forall e x, exp_at w e x -> exists x', exp_at w' e x' /\ same_static x x') ->
  ordered w es -> ordered w' es.
Proof.
  intros Hx Hs Ho es1 a es2 b es3 s x y E Ha Hb H1 H2.
  assert (Ia : In a es) by (rewrite E; apply in_or_app; right; left; reflexivity).
  assert (Ib : In b es) by (rewrite E; apply in_or_app; right; right; apply in_or_app; right; left; reflexivity).
  destruct (Hx _ Ia) as (x0 & Hx0). destruct (Hx _ Ib) as (y0 & Hy0).
  destruct (Hs _ _ Hx0) as (x1 & Hx1 & Sx). destruct (Hs _ _ Hy0) as (y1 & Hy1 & Sy). unfold exp_at in *.
  rewrite Ha in Hx1. inversion Hx1; subst x1. rewrite Hb in Hy1. inversion Hy1; subst y1.
  rewrite (static_seqs _ _ Sx) in H1. rewrite (static_seqs _ _ Sy) in H2. eapply Ho; eauto.
Qed.

(** A failed call is reported. *)
Lemma silent_call w c w' r : reachable w -> step w (call_op c) = Next w' r -> no_failure w' -> r = RUnit.
Proof.
  intros Hr H Hn. destruct (outcome_next _ _ _ _ _ _ _ Hr H) as (s & coll & evs & rep & who & _ & _ & Ht & Hf & [(n & x & mr & -> & _)|(_ & ms & Hrep)]); auto.
  exfalso. assert (Hin : In (EvReport (w_rid w) rep who) (w_trace w')).
  { rewrite Ht. apply in_or_app. right. apply (filter_In is_outcome). rewrite Hf. left. reflexivity. }
  specialize (Hn _ _ _ Hin). destruct Hrep as [-> | ->]; discriminate.
Qed.

Lemma no_failure_before w ops w' : run w ops w' -> no_failure w' -> no_failure w.
Proof. intros H Hn id r who Hin. destruct (run_trace _ _ _ H) as (evs & E). apply (Hn id r who). rewrite E. apply in_or_app. auto. Qed.

Lemma silent_handed w ops w' es : run w ops w' -> counted w es -> ordered w es -> no_failure w' ->
  exists es', handed w ops es' w' /\ counted w' (es ++ es') /\ ordered w' (es ++ es').
Proof.
  intros H. revert es. induction H as [w|w o w1 r ops w2 Hs Hrun IH]; intros es Hc Ho Hn.
  { exists []. rewrite app_nil_r. split; [constructor|]. auto. }
  pose proof Hc as (Hr & Hx & Ha). pose proof (winv_reachable _ Hr) as I.
  assert (St : forall e x, exp_at w e x -> exists x', exp_at w1 e x' /\ same_static x x').
  { intros e x Hex. destruct (step_exps _ _ _ _ I Hs _ _ Hex) as (x' & Hex' & S & _). eauto. }
  destruct (calls_of_one o) as [E|(c & E)].
  - destruct (IH es) as (es' & H1 & H2 & H3); [eapply counted_other; eauto|eapply ordered_grows; eauto|auto|].
    exists es'. split; [eapply handed_other; eauto|]. auto.
  - pose proof (call_op_of _ _ E) as ->. pose proof (silent_call _ _ _ _ Hr Hs (no_failure_before _ _ _ Hrun Hn)) as ->.
    destruct (call_taken _ _ _ _ Hc Hs) as (n & x & Hex & Ht & Hap & Hc1).
    assert (O : ordered w (es ++ [n])).
    { apply (ordered_snoc _ _ _ x Ho Hex). intros a z t Hin Hz Ht1 Ht2. destruct (Nat.le_gt_cases a n) as [|Hlt]; auto. exfalso.
      destruct Hap as [_ Hap]. destruct (Hap t Ht2 a z Hz Ht1) as [_ A0]. specialize (A0 Hlt). rewrite Ha in A0. apply times_in in Hin. contradiction. }
    destruct (IH (es ++ [n])) as (es' & H1 & H2 & H3); auto.
    { eapply ordered_grows; [|exact St|exact O]. intros e He. apply in_app_iff in He. destruct He as [He|[<-|[]]]; eauto. }
    exists (n :: es'). split; [eapply handed_call; eauto|]. rewrite <- app_assoc in H2, H3. auto.
Qed.

Lemma silent_conforms ops w : run init ops w -> all_ended w -> all_describe w -> no_failure w -> program_conforms ops w.
Proof.
  intros H He Hd Hn. destruct (silent_handed init ops w [] H counted_init) as (es & H1 & (Hr & _ & Ha) & H3); auto.
  { intros es1 a es2 b es3 s x y E. destruct es1; discriminate. }
  cbn [app] in *. exists es. split; auto. split; auto. intros e x Hx. rewrite <- Ha. split; [|apply max_bound; auto].
  destruct (C10_reported_once_iff _ _ _ Hr Hx (Hd _ _ Hx)) as [(U & _)|(_ & [A|A])]; auto.
  - exfalso. unfold unfulfilled_reports in U. destruct (filter (is_unfulfilled e) (w_trace w)) as [|ev l] eqn:F; [discriminate|].
    assert (Hin : In ev (filter (is_unfulfilled e) (w_trace w))) by (rewrite F; left; reflexivity). apply filter_In in Hin. destruct Hin as [Hin Hu].
    destruct ev as [id r who| | |]; try discriminate. specialize (Hn _ _ _ Hin). destruct r; discriminate.
  - rewrite (He _ _ Hx) in A. discriminate.
Qed.

(** ** The other direction *)

Definition no_failed_call (w : world) : Prop := forall ev, In ev (w_trace w) -> is_outcome ev = true -> exists id c mr who, ev = EvReport id (RFull c mr) who.

Lemma reporter_run w ops w' : run w ops w' -> contracts ops -> obeys_contract (w_reporter w) -> obeys_contract (w_reporter w').
Proof.
  intros H. induction H as [|w o w1 r ops w2 Hs Hrun IH]; intros Hc Ho; auto. apply IH.
  - intros rp Hin. apply Hc. right. exact Hin.
  - rewrite (step_reporter _ _ _ _ Hs). destruct o; auto. apply Hc. left. reflexivity.
Qed.

Lemma conforming_accepted w ops es2 w' : handed w ops es2 w' -> forall es1,
  counted w es1 -> ordered w' (es1 ++ es2) -> within_limits w' (es1 ++ es2) -> contracts ops -> obeys_contract (w_reporter w) -> all_describe w' ->
  (forall ops1 c ops2 w1 e e', ops = ops1 ++ call_op c :: ops2 -> run w ops1 w1 -> takes w1 c e -> takes w1 c e' -> e = e') ->
  no_failed_call w -> counted w' (es1 ++ es2) /\ no_failed_call w'.
Proof.
  intros H. induction H as [w|w c w1 r ops e es w2 Hs Ht H IH|w o w1 r ops es w2 Ho Hs H IH]; intros es1 Hc Hord Hlim Hcon Hrep Hd Hu Hn.
  - rewrite app_nil_r. auto.
  - pose proof Hc as (Hr & Hx & Ha). pose proof (winv_reachable _ Hr) as I.
    assert (Hrun : run w (call_op c :: ops) w2) by (econstructor; [exact Hs|apply (handed_run _ _ _ _ H)]).
    assert (Hr1 : reachable w1) by (eapply reachable_step; eauto).
    assert (R1 : r = RUnit).
    { destruct Ht as (s & coll & x & Hf & Hlen & Hlive & Hac).
      assert (Hlc : legal_call w (ce_mock c) (ce_overload c) (ce_args c) s coll) by (repeat split; auto; apply Hrep).
      assert (Hdt : describable_throwers w coll (call_of s (ce_args c) (ce_loc c))).
      { intros k z ((Hz & _) & _). destruct (static_run _ _ _ _ _ Hr Hrun Hz) as (z' & Hz' & Sz). specialize (Hd _ _ Hz').
        destruct Sz as (_ & _ & _ & _ & Hp & _). unfold describes in *. rewrite Hp in Hd. exact Hd. }
      destruct (proj2 (C04_matched_iff_candidate w (ce_mock c) (ce_overload c) (ce_args c) (ce_loc c) s coll Hlc Hdt)) as (w3 & E).
      - exists e, x. split; auto. split; auto. pose proof Hlive as (Hex & _).
        destruct (static_run _ _ _ _ _ Hr Hrun Hex) as (y & Hy & Sy). split.
        + rewrite Ha, <- (static_max _ _ Sy). destruct (Hlim _ _ Hy) as [_ L]. rewrite times_app in L. unfold times_taken at 2 in L.
          cbn [count_occ] in L. destruct (Nat.eq_dec e e); [|contradiction]. lia.
        + intros t Htx e' x' Hx' Htx'. destruct (static_run _ _ _ _ _ Hr Hrun Hx') as (y' & Hy' & Sy').
          rewrite <- (static_seqs _ _ Sy) in Htx. rewrite <- (static_seqs _ _ Sy') in Htx'. split.
          * intros Hlt. rewrite Ha, <- (static_min _ _ Sy'). destruct (Hlim _ _ Hy') as [L _].
            assert (H0 : times_taken (e :: es) e' = 0).
            { destruct (Nat.eq_dec (times_taken (e :: es) e') 0) as [E|E]; auto. apply times_in in E. destruct E as [E|E]; [lia|].
              apply in_split in E. destruct E as (a & b & ->). assert (e <= e') by (eapply (Hord es1 e a e' b); eauto). lia. }
            rewrite times_app, H0, Nat.add_0_r in L. exact L.
          * intros Hlt. rewrite Ha. destruct (Nat.eq_dec (times_taken es1 e') 0) as [E|E]; auto. apply times_in in E. apply in_split in E.
            destruct E as (a & b & ->). assert (e' <= e); [|lia].
            apply (Hord a e' b e es t y' y); auto. rewrite <- app_assoc. reflexivity.
      - change (OCall (ce_mock c) (ce_overload c) (ce_args c) (ce_loc c)) with (call_op c) in E. congruence. }
    subst r. destruct (call_taken _ _ _ _ Hc Hs) as (n & x & Hex & Ht' & Hap & Hc1).
    assert (n = e) by (eapply (Hu [] c ops w); eauto; constructor). subst n.
    destruct (IH (es1 ++ [e])) as [IH1 IH2]; auto.
    + rewrite <- app_assoc. exact Hord.
    + rewrite <- app_assoc. exact Hlim.
    + intros rp Hin. apply Hcon. right. exact Hin.
    + rewrite (step_reporter _ _ _ _ Hs). exact Hrep.
    + intros ops1 d ops2 w3 k k' E Hr3. apply (Hu (call_op c :: ops1) d ops2); [rewrite E; reflexivity|econstructor; eauto].
    + intros ev Hin Hout. destruct (outcome_next _ _ _ _ _ _ _ Hr Hs) as (s & coll & evs & rep & who & _ & _ & Et & Hf & [(n & y & mr & _ & -> & _)|(E & _)]); [|discriminate].
      rewrite Et in Hin. apply in_app_iff in Hin. destruct Hin as [Hin|Hin]; [apply Hn; auto|].
      assert (Hin' : In ev (filter is_outcome evs)) by (apply filter_In; auto). rewrite Hf in Hin'. destruct Hin' as [<-|[]]. eauto.
    + rewrite <- app_assoc in IH1. split; auto.
  - destruct (IH es1) as [IH1 IH2]; auto.
    + eapply counted_other; eauto.
    + intros rp Hin. apply Hcon. right. exact Hin.
    + rewrite (step_reporter _ _ _ _ Hs). destruct o; auto. apply Hcon. left. reflexivity.
    + intros ops1 d ops2 w3 k k' E Hr3. apply (Hu (o :: ops1) d ops2); [rewrite E; reflexivity|econstructor; eauto].
    + intros ev Hin Hout. destruct (other_no_outcome _ _ _ _ Ho Hs) as (evs & Et & Hf). rewrite Et in Hin. apply in_app_iff in Hin.
      destruct Hin as [Hin|Hin]; [apply Hn; auto|]. exfalso. assert (Hin' : In ev (filter is_outcome evs)) by (apply filter_In; auto).
      rewrite Hf in Hin'. destruct Hin'.
Qed.

Lemma conforms_silent ops w : contracts ops -> all_describe w -> program_unambiguous ops -> program_conforms ops w -> no_failure w.
Proof.
  intros Hcon Hd Hu (es & H & Ho & Hl).
  destruct (conforming_accepted init ops es w H [] counted_init Ho Hl Hcon) as [(Hr & _ & Ha) Hn]; auto.
  { repeat split; simpl; discriminate. }
  { intros ev []. }
  cbn [app] in Ha. assert (Met : forall e x, exp_at w e x -> ~ (Z.of_nat (accepted (w_trace w) e) < x_min x)%Z).
  { intros e x Hx. rewrite Ha. pose proof (Hl _ _ Hx). lia. }
  intros id r who Hin. pose proof (all_concern _ Hr _ Hin) as C. destruct r; try reflexivity; exfalso.
  1,2: destruct (Hn _ Hin eq_refl) as (? & ? & ? & ? & E); discriminate.
  - destruct C as (e & x & -> & Hx). destruct (C10_reported_once_iff _ _ _ Hr Hx (Hd _ _ Hx)) as [(_ & _ & Hlt)|(U & _)]; [exact (Met _ _ Hx Hlt)|].
    unfold unfulfilled_reports in U. assert (Hf : In (EvReport id (RUnfulfilled r) [e]) (filter (is_unfulfilled e) (w_trace w))).
    { apply filter_In. split; auto. cbn [is_unfulfilled]. destruct (list_eq_dec _ _ _); congruence. }
    destruct (filter (is_unfulfilled e) (w_trace w)); [contradiction|discriminate].
  - destruct C as (s & ->). apply in_split in Hin. destruct Hin as (t & t' & E).
    destruct (C18_unfulfilled_before w t _ t' s Hr E) as (e & x & Hx & _ & _ & Hlt & _).
    + cbn [is_seq_error]. destruct (list_eq_dec _ _ _); congruence.
    + exact (Met _ _ Hx Hlt).
Qed.

(** ** Decision procedures for examples *)

Fixpoint handed_b (w : world) (ops : list op) (es : list nat) : option world :=
  match ops with
  | [] => match es with [] => Some w | _ => None end
  | o :: ops' =>
      match step w o with
      | Next w1 _ =>
          match calls_of [o], es with
          | [], _ => handed_b w1 ops' es
          | c :: _, e :: es' => if takes_b w c e then handed_b w1 ops' es' else None
          | _, [] => None
          end
      | _ => None
      end
  end.

Lemma handed_b_sound ops : forall w es w', handed_b w ops es = Some w' -> handed w ops es w'.
Proof.
  induction ops as [|o ops IH]; intros w es w' H; cbn [handed_b] in H.
  - destruct es; [|discriminate]. inversion H; subst. constructor.
  - destruct (step w o) as [w1 r| | |] eqn:Hs; try discriminate. destruct (calls_of_one o) as [E|(c & E)]; rewrite E in H.
    + eapply handed_other; eauto.
    + pose proof (call_op_of _ _ E) as ->. destruct es as [|e es]; [discriminate|]. destruct (takes_b w c e) eqn:Ht; [|discriminate].
      eapply handed_call; eauto. apply takes_b_iff. exact Ht.
Qed.

Fixpoint program_unambiguous_b (w : world) (ops : list op) : bool :=
  match ops with
  | [] => true
  | o :: ops' => unambiguous_b w (calls_of [o]) && match step w o with Next w1 _ => program_unambiguous_b w1 ops' | _ => true end
  end.

Lemma program_unambiguous_from w ops : program_unambiguous_b w ops = true ->
  forall ops1 c ops2 w1 e e', ops = ops1 ++ call_op c :: ops2 -> run w ops1 w1 -> takes w1 c e -> takes w1 c e' -> e = e'.
Proof.
  revert w. induction ops as [|o ops IH]; intros w H ops1 c ops2 w1 e e' E Hr H1 H2; [destruct ops1; discriminate|].
  cbn [program_unambiguous_b] in H. apply andb_prop in H. destruct H as [H H']. destruct ops1 as [|o1 ops1]; inversion E; subst.
  - inversion Hr; subst. apply (unambiguous_b_sound _ _ H c); auto. left. destruct c. reflexivity.
  - inversion Hr as [|? ? w2 r ? ? Hs Hrun]; subst. rewrite Hs in H'. eapply IH; eauto.
Qed.

Lemma program_unambiguous_check ops : program_unambiguous_b init ops = true -> program_unambiguous ops.
Proof. intros H ops1 c ops2 w e e'. apply (program_unambiguous_from init ops H). Qed.

Lemma describes_check w : describes_b w = true -> all_describe w.
Proof.
  unfold describes_b. intros Hd e x Hx p Hp. rewrite forallb_forall in Hd. specialize (Hd x (nth_error_In _ _ Hx)).
  rewrite forallb_forall in Hd. specialize (Hd p Hp). destruct (policy_describe p); try discriminate. eauto.
Qed.

Definition ended_b (w : world) : bool := forallb (fun x => negb (eo_alive x)) (w_exps w).
Lemma ended_check w : ended_b w = true -> all_ended w.
Proof. intros H e x Hx. unfold ended_b in H. rewrite forallb_forall in H. apply negb_true_iff. apply H. eapply nth_error_In; eauto. Qed.

Lemma contracts_check ops : forallb (fun o => match o with OInstall _ => false | _ => true end) ops = true -> contracts ops.
Proof. intros H rp Hin. rewrite forallb_forall in H. specialize (H _ Hin). discriminate. Qed.

Definition no_failure_b (w : world) : bool := forallb (fun ev => match ev with EvReport _ r _ => harmless r | _ => true end) (w_trace w).
Lemma no_failure_check w : no_failure_b w = true <-> no_failure w.
Proof.
  unfold no_failure_b. rewrite forallb_forall. split.
  - intros H id r who Hin. exact (H _ Hin).
  - intros H ev Hin. destruct ev; auto. eapply H; eauto.
Qed.

Lemma program_conforms_check ops es w : handed_b init ops es = Some w -> ordered_b w es && within_b w es = true -> program_conforms ops w.
Proof.
  intros H1 H2. apply andb_prop in H2. destruct H2 as [H2 H3]. exists es. split; [apply handed_b_sound; auto|].
  split; [apply ordered_b_sound; auto|apply within_b_sound; auto].
Qed.
