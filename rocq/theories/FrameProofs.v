(** * FrameProofs: the stack of running calls. *)

From Verif Require Import Base Lib Sequence Control Signature Printer Reports Expectation Builder World WorldSpec CallSpec SeqSpec
  SeqInv BuildSpec BuilderLemmas StepCases WorldInv ObjInv CallProofs BuildProofs CountProofs OutcomeProofs PropCalls PlayProofs MoveProofs History SeqEnd ScopeProofs FrameSpec.

Lemma side_effects_spec ps : side_effects ps = effects_of ps.
Proof. induction ps as [|p ps IH]; auto. destruct p; simpl; rewrite ?IH; auto. Qed.

Lemma finalizer_result_spec f u : finalizer_result f u = call_result_of f u.
Proof. destruct f, u; reflexivity. Qed.

(** The possible changes of the stack, with the effects started. *)
Inductive frames_change (w : world) (o : op) (w' : world) (new : list event) (r : result) : Prop :=
| FcSame : w_frames w' = w_frames w -> filter is_effect new = [] -> frames_change w o w' new r
| FcPush m ov args l n x ne : o = OCall m ov args l -> exp_at w n x -> eo_alive x = true ->
    w_frames w' = mkFrame n (side_effects (e_policies (eo_exp x))) false false ne :: w_frames w -> filter is_effect new = [] -> frames_change w o w' new r
| FcAction f fs n todo : o = OAction -> w_frames w = f :: fs -> f_todo f = n :: todo ->
    w_frames w' = mkFrame (f_exp f) todo true (f_final f) (f_noexcept f) :: fs -> new = [EvAction (f_exp f) n] -> frames_change w o w' new r
| FcFinal f fs : o = OFinal -> w_frames w = f :: fs -> f_todo f = [] -> f_final f = false ->
    w_frames w' = mkFrame (f_exp f) [] (f_started f) true (f_noexcept f) :: fs -> new = [EvFinal (f_exp f)] -> frames_change w o w' new r
| FcReturn f fs u : o = OReturn u -> w_frames w = f :: fs -> f_final f = true -> w_frames w' = fs -> new = [] -> w_exps w' = w_exps w ->
    (exists eo, nth_error (w_exps w) (f_exp f) = Some eo /\
       match call_result_of (e_final (eo_exp eo)) u with
       | UOk v => r = RVal v
       | UThrow y => r = RThrow y /\ f_noexcept f = false
       end) -> frames_change w o w' new r.

Lemma released_no_effect w l d evs d' : released w l d evs d' -> filter is_effect evs = [].
Proof.
  intros H. induction H as [|s l d evs d' Hk H IH|s q l d evs d' Hu Hd Hq H IH]; auto. rewrite filter_app, IH, app_nil_r.
  unfold dtor_events. destruct (seq_dtor_error q) as [[k n]|]; reflexivity.
Qed.

Lemma end_no_effect w sc e w' r new : end_expectation (set_scoped w sc) e = Next w' r -> w_trace w' = w_trace w ++ new ->
  w_frames w' = w_frames w /\ filter is_effect new = [].
Proof.
  intros H Ht. apply end_expectation_next in H. destruct H as (eo & l & unf & evs & d' & He & Hl & Hi & Hrel & -> & Hc).
  split; [reflexivity|]. cbn [w_trace add_trace] in Ht.
  change (w_trace (set_sdead (kill (set_scoped w sc) e eo l) d')) with (w_trace w) in Ht. apply app_inv_head in Ht. subst new.
  rewrite filter_app, (released_no_effect _ _ _ _ _ Hrel), app_nil_r.
  destruct Hc as [(_ & -> & _)|[(_ & y & _ & -> & _)|(_ & rep & _ & -> & _)]]; reflexivity.
Qed.

Lemma app_nil_same {A} (l new : list A) : l = l ++ new -> new = [].
Proof. intros H. rewrite <- (app_nil_r l) in H at 1. apply app_inv_head in H. auto. Qed.

Lemma unhandled_no_effect rid c l : filter is_effect (map (unhandled_event rid c) l) = [].
Proof. induction l as [|[n [r x]] l IH]; auto. Qed.

Lemma step_frames w o w' r new : reachable w -> step w o = Next w' r -> w_trace w' = w_trace w ++ new -> frames_change w o w' new r.
Proof.
  assert (Same : w_frames w' = w_frames w -> w_trace w' = w_trace w -> w_trace w' = w_trace w ++ new -> frames_change w o w' new r).
  { intros E1 E2 E3. rewrite E2 in E3. apply app_nil_same in E3. subst. apply FcSame; auto. }
  intros Hr H Ht. pose proof H as H0. destruct o; cbn [step] in H.
  - inversion H; subst. apply Same; auto.
  - destruct (nth s (w_iface w) false); [|discriminate]. apply release_seq_next in H.
    destruct H as [-> [[-> _]|(_ & _ & q & _ & -> & _)]]; [apply Same; auto|]. apply FcSame; [reflexivity|].
    cbn [w_trace set_sdead_trace add_trace set_sdead set_iface] in Ht. apply app_inv_head in Ht. subst new.
    unfold dtor_events. destruct (seq_dtor_error q) as [[k n]|]; reflexivity.
  - destruct (_ && _); [|discriminate]. inversion H; subst. apply Same; auto.
  - destruct (nth_error (w_mocks w) m) as [mk|]; [|discriminate]. destruct (mk_alive mk); [|discriminate]. inversion H; subst. apply Same; auto.
  - destruct (nth_error (w_mocks w) dst) as [md|]; [|discriminate]. destruct (nth_error (w_mocks w) src) as [ms|]; [|discriminate].
    destruct (negb _); [discriminate|]. destruct (dst =? src); inversion H; subst; apply Same; auto.
  - destruct (nth_error (w_mocks w) m) as [mk|]; [|discriminate]. destruct (mk_alive mk); [|discriminate]. inversion H; subst. apply Same; auto.
  - apply do_expect_next in H. destruct H as (s & coll & _ & _ & _ & [(y & _ & -> & _)|(b & ss & ctl & mem & _ & _ & _ & _ & _ & ->)]);
      apply Same; auto.
  - apply do_call_next in H. destruct H as (s & coll & _ & _ & H). apply handle_call_next in H. destruct H as (lst & es & ml & _ & _ & _ & Hcr).
    destruct (call_effect _ _ _ _ _ _ _ Hr H0) as [(s1 & coll1 & n & x & mr & unh & -> & _ & _ & Hc & _ & _ & _ & _ & _ & _ & _ & _ & Efr)|[-> _]].
    + inversion Hcr; subst. cbn [w_trace accept_world add_trace set_frames set_exps set_seqs] in Ht. apply app_inv_head in Ht. subst new.
      destruct Hc as ((Hx & Ha & _) & _). eapply FcPush; [reflexivity|exact Hx|exact Ha|exact Efr|]. rewrite filter_app, unhandled_no_effect. reflexivity.
    + inversion Hcr; subst. cbn [w_trace add_trace] in Ht. apply app_inv_head in Ht. subst new.
      apply FcSame; [reflexivity|]. rewrite filter_app, unhandled_no_effect. unfold fail_report. destruct (ml_inapplicable ml); reflexivity.
  - unfold do_action in H. destruct (w_frames w) as [|f fs] eqn:Ef; [discriminate|]. destruct (f_todo f) as [|n todo] eqn:Et; [discriminate|].
    destruct (negb _); [discriminate|]. inversion H; subst. cbn [w_trace emit set_frames] in Ht. apply app_inv_head in Ht. subst new.
    eapply FcAction; eauto.
  - destruct (w_frames w) as [|f fs]; [discriminate|]. destruct (_ && _); discriminate.
  - unfold do_final in H. destruct (w_frames w) as [|f fs] eqn:Ef; [discriminate|]. destruct (f_todo f) as [|n todo] eqn:Et; [|discriminate].
    destruct (f_final f) eqn:Efi; [discriminate|]. destruct (negb _); [discriminate|]. inversion H; subst.
    cbn [w_trace emit set_frames] in Ht. apply app_inv_head in Ht. subst new. eapply FcFinal; eauto.
  - unfold do_return in H. destruct (w_frames w) as [|f fs] eqn:Ef; [discriminate|]. destruct (f_final f) eqn:Efi; [|discriminate]. cbn [negb] in H.
    destruct (nth_error (w_exps w) (f_exp f)) as [eo|] eqn:Ee; [|discriminate]. rewrite finalizer_result_spec in H.
    destruct (call_result_of (e_final (eo_exp eo)) user) as [v|y] eqn:Er.
    + inversion H; subst. eapply FcReturn; eauto; [apply (app_nil_same _ _ Ht)|]. exists eo. rewrite Er. auto.
    + unfold thrown in H. destruct (f_noexcept f) eqn:En; [discriminate|]. inversion H; subst.
      eapply FcReturn; eauto; [apply (app_nil_same _ _ Ht)|]. exists eo. rewrite Er. auto.
  - destruct (nth_error (w_scoped w) h) as [[e| |]|]; try discriminate. destruct (nth_error (w_exps w) e) as [eo|]; [|discriminate].
    destruct (eo_alive eo); [|discriminate]. inversion H; subst. apply Same; auto.
  - destruct (nth_error (w_scoped w) h) as [[e| |]|]; try discriminate.
    + destruct (end_no_effect _ _ _ _ _ _ H Ht). apply FcSame; auto.
    + inversion H; subst. apply Same; auto.
  - destruct (nth_error (w_scoped w) h) as [[e| |]|]; try discriminate; inversion H; subst; apply Same; auto.
  - destruct (nth_error (w_scoped w) dst) as [[e| |]|]; try discriminate; destruct (nth_error (w_scoped w) src) as [[e'| |]|]; try discriminate;
      (destruct (dst =? src); [inversion H; subst; apply Same; auto|]);
      try (inversion H; subst; apply Same; auto; fail);
      (match type of H with context [end_expectation (set_scoped w ?sc) e] =>
         destruct (end_expectation (set_scoped w sc) e) as [w2 r2| | |] eqn:E; try discriminate;
         destruct r2; try discriminate; inversion H; subst;
         destruct (end_no_effect _ _ _ _ _ _ E Ht); apply FcSame; auto end).
  - inversion H; subst. cbn [w_trace] in Ht. apply app_inv_head in Ht. subst new. apply FcSame; auto.
  - inversion H; subst. apply Same; auto.
Qed.

(** The call at depth [d]. *)
Definition fr (w : world) (d : nat) : option frame := nth_error (rev (w_frames w)) d.

Lemma fr_cons f fs d w : w_frames w = f :: fs -> fr w d = if d =? length fs then Some f else nth_error (rev fs) d.
Proof.
  intros E. unfold fr. rewrite E. simpl. destruct (Nat.eqb_spec d (length fs)) as [->|Hne].
  - rewrite nth_error_app2 by (rewrite rev_length; auto). rewrite rev_length, Nat.sub_diag. reflexivity.
  - destruct (Nat.lt_ge_cases d (length fs)).
    + rewrite nth_error_app1; auto. rewrite rev_length. auto.
    + rewrite nth_error_app2 by (rewrite rev_length; auto). rewrite rev_length. rewrite (proj2 (nth_error_None (rev fs) d)) by (rewrite rev_length; auto).
      destruct (d - length fs) as [|k] eqn:E'; [lia|]. simpl. destruct k; reflexivity.
Qed.

Definition is_action (ev : event) : bool := match ev with EvAction _ _ => true | _ => false end.

(** What is left to do by a frame. *)
Definition pending (f : frame) : list event := map (EvAction (f_exp f)) (f_todo f) ++ (if f_final f then [] else [EvFinal (f_exp f)]).

Lemma frame_step w o w1 r new d f : reachable w -> step w o = Next w1 r -> w_trace w1 = w_trace w ++ new -> d < length (w_frames w1) ->
  fr w d = Some f -> (f_final f = true -> f_todo f = []) ->
  exists f1, fr w1 d = Some f1 /\ f_exp f1 = f_exp f /\ f_noexcept f1 = f_noexcept f /\ (f_final f1 = true -> f_todo f1 = []) /\
    pending f = (if length (w_frames w) =? S d then filter is_effect new else []) ++ pending f1 /\
    f_started f1 = f_started f || existsb is_action (if length (w_frames w) =? S d then filter is_effect new else []).
Proof.
  intros Hr Hs Ht Hd Hf Hfin. assert (Hlt : d < length (w_frames w)).
  { unfold fr in Hf. apply nth_error_lt in Hf. rewrite rev_length in Hf. auto. }
  destruct (step_frames _ _ _ _ _ Hr Hs Ht) as [E Hn|m ov args l n x ne _ _ _ E Hn|g fs n todo Eo Ew Et E ->|g fs Eo Ew Et Ef E ->|g fs u Eo Ew Ef E -> _ _].
  - exists f. unfold fr in *. rewrite E, Hn. repeat split; auto; destruct (_ =? _); auto; rewrite Bool.orb_false_r; auto.
  - exists f. rewrite (fr_cons _ _ d _ E). destruct (Nat.eqb_spec d (length (w_frames w))); [lia|]. rewrite Hn.
    repeat split; auto; destruct (_ =? _); auto; rewrite Bool.orb_false_r; auto.
  - rewrite (fr_cons _ _ d _ Ew) in Hf. rewrite (fr_cons _ _ d _ E). rewrite Ew. cbn [length].
    destruct (Nat.eqb_spec d (length fs)) as [->|Hne].
    + inversion Hf; subst g. eexists. split; [reflexivity|]. cbn [f_exp f_noexcept f_final f_todo]. do 2 (split; auto). split.
      * intros F. specialize (Hfin F). congruence.
      * unfold pending. cbn [f_exp f_todo f_final f_started]. rewrite Et, Nat.eqb_refl. split; [reflexivity|]. cbn. rewrite Bool.orb_true_r. reflexivity.
    + exists f. destruct (Nat.eqb_spec (S (length fs)) (S d)); [exfalso; congruence|]. repeat split; auto. rewrite Bool.orb_false_r. auto.
  - rewrite (fr_cons _ _ d _ Ew) in Hf. rewrite (fr_cons _ _ d _ E). rewrite Ew. cbn [length].
    destruct (Nat.eqb_spec d (length fs)) as [->|Hne].
    + inversion Hf; subst g. eexists. split; [reflexivity|]. cbn [f_exp f_noexcept f_final f_todo]. do 3 (split; auto).
      unfold pending. cbn [f_exp f_todo f_final f_started]. rewrite Et, Ef, Nat.eqb_refl. split; [reflexivity|]. cbn. rewrite Bool.orb_false_r. reflexivity.
    + exists f. destruct (Nat.eqb_spec (S (length fs)) (S d)); [exfalso; congruence|]. repeat split; auto. rewrite Bool.orb_false_r. auto.
  - rewrite (fr_cons _ _ d _ Ew) in Hf. rewrite Ew in *. rewrite E in Hd. cbn [length] in *. destruct (Nat.eqb_spec d (length fs)); [lia|].
    exists f. unfold fr. rewrite E. repeat split; auto; destruct (_ =? _); auto; rewrite Bool.orb_false_r; auto.
Qed.

Lemma during_run d w ops evs w' : during d w ops evs w' -> run w ops w'.
Proof. intros H. induction H; econstructor; eauto. Qed.

Lemma during_start d w ops evs w' : during d w ops evs w' -> d < length (w_frames w).
Proof. intros H. destruct H; auto. Qed.

Lemma during_end d w ops evs w' : during d w ops evs w' -> d < length (w_frames w').
Proof. intros H. induction H; auto. Qed.

Lemma during_pending d w ops evs w' : during d w ops evs w' -> reachable w -> forall f, fr w d = Some f -> (f_final f = true -> f_todo f = []) ->
  exists f', fr w' d = Some f' /\ f_exp f' = f_exp f /\ f_noexcept f' = f_noexcept f /\ (f_final f' = true -> f_todo f' = []) /\
    pending f = evs ++ pending f' /\ f_started f' = f_started f || existsb is_action evs.
Proof.
  intros H. induction H as [w Hd|w o w1 r new ops evs w' Hd Hs Ht H IH]; intros Hr f Hf Hfin.
  - exists f. rewrite Bool.orb_false_r. auto 6.
  - destruct (frame_step _ _ _ _ _ _ _ Hr Hs Ht (during_start _ _ _ _ _ H) Hf Hfin) as (f1 & Hf1 & E1 & E2 & Hfin1 & Ep & Es).
    destruct (IH (reachable_step _ _ _ _ Hr Hs) f1 Hf1 Hfin1) as (f' & Hf' & E1' & E2' & Hfin' & Ep' & Es'). exists f'. split; auto. split; [congruence|]. split; [congruence|].
    split; auto. split; [rewrite Ep, Ep', app_assoc; reflexivity|]. rewrite Es', Es, existsb_app, Bool.orb_assoc. reflexivity.
Qed.

(** The bottom of the stack stays while the call is running. *)
Lemma during_below d w ops evs w' : during d w ops evs w' -> reachable w -> forall fs, (exists pre, w_frames w = pre ++ fs) -> length fs = d ->
  exists pre, w_frames w' = pre ++ fs.
Proof.
  intros H. induction H as [w Hd|w o w1 r new ops evs w' Hd Hs Ht H IH]; intros Hr fs [pre E] Hl; [eauto|]. apply IH; [eapply reachable_step; eauto| |auto].
  assert (Hp : exists g pre', pre = g :: pre'). { destruct pre as [|g pre']; eauto. rewrite E in Hd. simpl in Hd. lia. }
  destruct Hp as (g & pre' & ->).
  destruct (step_frames _ _ _ _ _ Hr Hs Ht) as [E' _|m ov args l n x ne _ _ _ E' _|g' fs' n todo _ Ew _ E' _|g' fs' _ Ew _ _ E' _|g' fs' u _ Ew _ E' _ _ _];
    rewrite E'; rewrite ?E in *.
  - eauto.
  - eexists (_ :: g :: pre'). reflexivity.
  - inversion Ew; subst. eexists (_ :: pre'). reflexivity.
  - inversion Ew; subst. eexists (_ :: pre'). reflexivity.
  - inversion Ew; subst. eexists pre'. reflexivity.
Qed.

(** Frames refer to existing expectations. *)
Lemma frames_exist w : reachable w -> forall f, In f (w_frames w) -> exists x, exp_at w (f_exp f) x.
Proof.
  revert w. apply (reachable_steps (fun w => forall f, In f (w_frames w) -> exists x, exp_at w (f_exp f) x)); [intros f []|].
  intros w o w' r Hr IH Hs f Hf. pose proof (winv_reachable _ Hr) as I. destruct (step_trace _ _ _ _ Hs) as [new Ht].
  assert (K : forall e, (exists x, exp_at w e x) -> exists x, exp_at w' e x).
  { intros e [x Hx]. destruct (step_exps _ _ _ _ I Hs _ _ Hx) as (x' & Hx' & _). eauto. }
  destruct (step_frames _ _ _ _ _ Hr Hs Ht) as [E _|m ov args l n x ne _ Hx _ E _|g fs n todo _ Ew _ E _|g fs _ Ew _ _ E _|g fs u _ Ew _ E _ _ _];
    rewrite E in Hf.
  - auto.
  - destruct Hf as [<-|Hf]; auto. cbn [f_exp]. eauto.
  - destruct Hf as [<-|Hf]; [apply K; cbn [f_exp]; apply IH; rewrite Ew; left; auto|apply K, IH; rewrite Ew; right; auto].
  - destruct Hf as [<-|Hf]; [apply K; cbn [f_exp]; apply IH; rewrite Ew; left; auto|apply K, IH; rewrite Ew; right; auto].
  - apply K, IH. rewrite Ew. right; auto.
Qed.

(** ** Legal programs *)

Lemma legal_run_run w ops w' : legal_run w ops w' -> run w ops w'.
Proof. intros H. induction H; econstructor; eauto. Qed.

Definition LInv (w : world) : Prop :=
  obeys_contract (w_reporter w) /\ forall f, In f (w_frames w) ->
    (f_final f = true -> f_todo f = []) /\ (f_final f = false -> exists x, exp_at w (f_exp f) x /\ eo_alive x = true).

Lemma linv_init : LInv init.
Proof. split; [repeat split; simpl; discriminate|intros f []]. Qed.

Lemma step_reporter w o w' r : step w o = Next w' r -> w_reporter w' = match o with OInstall rp => rp | _ => w_reporter w end.
Proof. intros H. destruct (step_delivers _ _ _ _ H) as (evs & _ & D). destruct o; tauto. Qed.

Lemma linv_step w o w' r : reachable w -> LInv w -> legal w o -> step w o = Next w' r -> LInv w'.
Proof.
  intros Hr [C A] HL Hs. pose proof (winv_reachable _ Hr) as I. destruct (step_trace _ _ _ _ Hs) as [new Ht]. split.
  { rewrite (step_reporter _ _ _ _ Hs). destruct o; auto. }
  assert (K : forall f, In f (w_frames w) -> f_final f = false -> exists x, exp_at w' (f_exp f) x /\ eo_alive x = true).
  { intros f Hf Hff. destruct (proj2 (A f Hf) Hff) as (x & Hx & Ha). destruct (step_exps _ _ _ _ I Hs _ _ Hx) as (x' & Hx' & _ & Ha').
    exists x'. split; auto. rewrite Ha', Ha. destruct (ended w o) as [k|] eqn:E; auto. cbn [andb].
    destruct (Nat.eqb_spec k (f_exp f)) as [->|]; auto. exfalso.
    destruct o; cbn [ended] in E; try discriminate; cbn [legal] in HL.
    - destruct (nth_error (w_scoped w) h) as [[e| |]|] eqn:Eh; try discriminate. inversion E; subst. destruct (HL _ f eq_refl Hf eq_refl) as [Hl _]. congruence.
    - destruct (dst =? src); [discriminate|]. destruct (nth_error (w_scoped w) dst) as [[e| |]|] eqn:Eh; try discriminate. inversion E; subst.
      destruct (HL _ f eq_refl Hf eq_refl) as [Hl _]. congruence. }
  assert (K' : forall f, In f (w_frames w) ->
    (f_final f = true -> f_todo f = []) /\ (f_final f = false -> exists x, exp_at w' (f_exp f) x /\ eo_alive x = true)).
  { intros f Hf. split; [apply (A f Hf)|apply K; auto]. }
  intros f Hf.
  destruct (step_frames _ _ _ _ _ Hr Hs Ht) as [E _|m ov args l n x ne Eo Hx Ha E _|g fs n todo _ Ew Et E _|g fs _ Ew _ _ E _|g fs u _ Ew _ E _ _ _];
    rewrite E in Hf.
  - auto.
  - destruct Hf as [<-|Hf]; auto. cbn [f_exp f_final]. split; [discriminate|]. intros _. destruct (step_exps _ _ _ _ I Hs _ _ Hx) as (x' & Hx' & _ & Ha').
    exists x'. split; auto. subst o. rewrite Ha', Ha. reflexivity.
  - assert (Hg : In g (w_frames w)) by (rewrite Ew; left; auto). destruct Hf as [<-|Hf]; [|apply K'; rewrite Ew; right; auto]. cbn [f_exp f_final f_todo].
    split; [|apply (K g); auto]. intros Hff. apply (A g Hg) in Hff. congruence.
  - destruct Hf as [<-|Hf]; [|apply K'; rewrite Ew; right; auto]. cbn [f_exp f_final f_todo]. split; [auto|discriminate].
  - apply K'. rewrite Ew. right; auto.
Qed.

Lemma linv_run ops w : legal_run init ops w -> LInv w.
Proof.
  assert (G : forall v, legal_run v ops w -> reachable v -> LInv v -> LInv w).
  { intros v H. induction H; auto. intros Hr Hl. apply IHlegal_run; [eapply reachable_step|eapply linv_step]; eauto. }
  intros H. exact (G _ H reachable_init linv_init).
Qed.

(** Whether the description of some throwing expectation throws is decidable. *)
Lemma describable_throwers_dec w m ov args s coll l : call_setting w m ov args s coll ->
  describable_throwers w coll (call_of s args l) \/ exists e x, throwing w coll (call_of s args l) e x /\ ~ describes (eo_exp x).
Proof.
  intros (Hr & Hf & Hlen). pose proof (winv_reachable _ Hr) as I. pose proof (oinv_reachable _ Hr) as O. set (c := call_of s args l).
  assert (T : forall e, (forall x, throwing w coll c e x -> describes (eo_exp x)) \/
                        exists x, throwing w coll c e x /\ ~ describes (eo_exp x)).
  { intros e. destruct (nth_error (w_exps w) e) as [x|] eqn:Hx.
    2:{ left. intros x [[Hx' _] _]. unfold exp_at in Hx'. congruence. }
    assert (U : forall y, throwing w coll c e y -> y = x). { intros y [[Hy _] _]. unfold exp_at in Hy. congruence. }
    destruct (describes_dec (eo_exp x)) as [Hd|Hd]; [left; intros y Hy; rewrite (U y Hy); auto|].
    destruct (eo_alive x) eqn:Ha; [|left; intros y Hy; pose proof (U y Hy); subst y; destruct Hy as [(_ & Ha' & _) _]; congruence].
    destruct (Nat.eq_dec (eo_coll x) coll) as [Hc|Hc];
      [|left; intros y Hy; pose proof (U y Hy); subst y; destruct Hy as [(_ & _ & Hc') _]; congruence].
    assert (Hlive : live_in w coll e x) by (split; auto).
    destruct (clean_dec (length args) (eo_exp x) c) as [Hcl|Hcl].
    - destruct (overload_live_params _ _ _ _ _ I O Hf _ _ Hlive) as [Hde _]. rewrite Hlen, <- (decay_params _ _ Hde). exact (wi_pol _ I _ _ Hx).
    - reflexivity.
    - left. intros y Hy. pose proof (U y Hy). subst y. destruct Hy as [_ Hn]. contradiction.
    - right. exists x. split; auto. split; auto. }
  assert (D : forall n, (forall e x, e < n -> throwing w coll c e x -> describes (eo_exp x)) \/
                        exists e x, throwing w coll c e x /\ ~ describes (eo_exp x)).
  { induction n as [|n [IH|IH]]; [left; intros; lia| |right; auto]. destruct (T n) as [Hn|[x Hx]]; [|right; eauto].
    left. intros e x Hlt Hx. destruct (Nat.eq_dec e n) as [->|]; [auto|]. apply (IH e x); [lia|auto]. }
  destruct (D (length (w_exps w))) as [H|H]; auto. left. intros e x Hx. apply (H e x); auto. destruct Hx as [[Hx _] _]. eapply nth_error_lt; eauto.
Qed.

Lemma call_not_wrong w m ov args l u : reachable w -> obeys_contract (w_reporter w) ->
  (forall mk, nth_error (w_mocks w) m = Some mk -> mk_colls mk <> None) -> step w (OCall m ov args l) <> Wrong u.
Proof.
  intros Hr (C1 & C2 & C3 & C4) Hm H. pose proof H as H0. cbn [step] in H. unfold do_call in H.
  destruct (find_overload w m ov) as [st|[s coll]] eqn:Hf.
  - unfold find_overload in Hf. destruct (nth_error (w_mocks w) m) as [mk|] eqn:Em; [|inversion Hf; subst; discriminate].
    destruct (mk_alive mk); cbn [negb] in Hf; [|inversion Hf; subst; discriminate].
    destruct (nth_error (mk_sigs mk) ov); [|inversion Hf; subst; discriminate].
    destruct (mk_colls mk) as [cs|] eqn:Ec; [|exact (Hm _ eq_refl Ec)].
    destruct (nth_error cs ov); inversion Hf; subst; discriminate.
  - destruct (Nat.eqb_spec (length args) (length (sg_params s))) as [Hlen|]; [|discriminate].
    assert (HS : call_setting w m ov args s coll) by (split; auto).
    destruct (describable_throwers_dec w m ov args s coll l HS) as [Hd|(e & x & Ht & Hd)].
    + destruct (call_master w m ov args l s coll HS Hd (fun r y => C4 _ r y _) (fun mr => C3 _ mr _)) as
        (unh & _ & [(who & ms & n & mr & x & ss & ctl & _ & _ & _ & _ & _ & _ & _ & E)|(_ & rep & who & Hrep & E)]); rewrite E in H0; [discriminate|].
      unfold failed, react in H0. assert (w_reporter w rep (w_uncaught w) <> Returns) as Hn.
      { destruct Hrep as [(_ & _ & ms & -> & _)|(_ & _ & ms & -> & _)]; auto. }
      destruct (w_reporter w rep (w_uncaught w)); [congruence| |discriminate]. destruct (sg_noexcept s); discriminate.
    + rewrite (undescribed_stops w m ov args l s coll e x HS Ht Hd (fun r y => C4 _ r y _)) in H0. discriminate.
Qed.

Lemma expect_not_wrong w m ov ms cls l u : reachable w ->
  (forall mk, nth_error (w_mocks w) m = Some mk -> mk_colls mk <> None) -> step w (OExpect m ov ms cls l) <> Wrong u.
Proof.
  intros Hr Hm H. cbn [step] in H. unfold do_expect in H. pose proof (winv_reachable _ Hr) as I. pose proof (oinv_reachable _ Hr) as O.
  destruct (find_overload w m ov) as [st|[s coll]] eqn:Hf.
  - unfold find_overload in Hf. destruct (nth_error (w_mocks w) m) as [mk|] eqn:Em; [|inversion Hf; subst; discriminate].
    destruct (mk_alive mk); cbn [negb] in Hf; [|inversion Hf; subst; discriminate].
    destruct (nth_error (mk_sigs mk) ov); [|inversion Hf; subst; discriminate].
    destruct (mk_colls mk) as [cs|] eqn:Ec; [|exact (Hm _ eq_refl Ec)].
    destruct (nth_error cs ov); inversion Hf; subst; discriminate.
  - destruct (negb _) eqn:Hok; [discriminate|]. apply Bool.negb_false_iff, Bool.andb_true_iff in Hok. destruct Hok as [Hlen Hok].
    destruct (build s ms cls) as [b|x|] eqn:Hb; try discriminate; [|destruct (finalizable s cls); discriminate].
    destruct (finalize_ok s b) eqn:Hfin; [|discriminate]. cbn [negb] in H.
    destruct (wi_len _ I) as [Li Ld]. destruct (build_ok _ _ _ _ Hb (clauses_times _ _ _ Hok)) as (Hv & Hbs & Hbp).
    assert (Hif : forall t, In t (b_seqs b) -> exists q, nth_error (w_seqs w) t = Some q).
    { intros t Ht. rewrite Hbs in Ht. apply nth_error_ex. rewrite <- Li. apply nth_true_lt. eapply clauses_seqs; eauto. }
    pose proof (find_overload_coll _ _ _ _ _ O Hf) as Hcoll. destruct (nth_error_ex _ _ Hcoll) as [mem Hmem].
    destruct (control_new_ok _ _ (b_times b) (b_seqs b) (wi_s _ I) (bv_times _ Hv) (bv_max _ Hv) (bv_seqs _ Hv) Hif) as
      [(ss & c & E & _)|(E & _)]; rewrite E in H; [rewrite Hmem in H|]; discriminate.
Qed.

Lemma legal_not_wrong w o u : reachable w -> LInv w -> legal w o -> step w o <> Wrong u.
Proof.
  intros Hr [C A] HL H. pose proof (winv_reachable _ Hr) as I. pose proof (oinv_reachable _ Hr) as O. destruct (wi_len _ I) as [Li Ld].
  destruct o; cbn [legal] in HL; try (cbn [step] in H).
  - discriminate.
  - destruct (nth s (w_iface w) false) eqn:Es; [|discriminate]. apply nth_true_lt in Es. rewrite Li in Es. destruct (nth_error_ex _ _ Es) as [q Hq].
    destruct (release_seqs_defined [s] (set_iface w (upd (w_iface w) s false))) as [[w' E]|E].
    + intros t [<-|[]]. eauto.
    + cbn [release_seqs] in E. rewrite H in E. discriminate.
    + cbn [release_seqs] in E. rewrite H in E. discriminate.
  - destruct (_ && _); discriminate.
  - destruct (nth_error (w_mocks w) m) as [mk|]; [|discriminate]. destruct (mk_alive mk); discriminate.
  - destruct (nth_error (w_mocks w) dst) as [md|]; [|discriminate]. destruct (nth_error (w_mocks w) src) as [ms|]; [|discriminate].
    destruct (negb _); [discriminate|]. destruct (dst =? src); discriminate.
  - destruct (nth_error (w_mocks w) m) as [mk|]; [|discriminate]. destruct (mk_alive mk); discriminate.
  - exact (expect_not_wrong w m ov ms cls l u Hr HL H).
  - exact (call_not_wrong w m ov args l u Hr C HL H).
  - unfold do_action in H. destruct (w_frames w) as [|f fs] eqn:Ef; [discriminate|]. destruct (f_todo f) eqn:Et; [discriminate|].
    destruct (A f (or_introl eq_refl)) as [At Al]. destruct (f_final f); [rewrite At in Et by auto; discriminate|]. destruct (Al eq_refl) as (x & Hx & Ha). unfold exp_alive, exp_at in *. rewrite Hx, Ha in H. discriminate.
  - destruct (w_frames w) as [|f fs]; [discriminate|]. destruct (_ && _); discriminate.
  - unfold do_final in H. destruct (w_frames w) as [|f fs] eqn:Ef; [discriminate|]. destruct (f_todo f); [|discriminate]. destruct (f_final f) eqn:Eff; [discriminate|].
    destruct (proj2 (A f (or_introl eq_refl)) Eff) as (x & Hx & Ha). unfold exp_alive, exp_at in *. rewrite Hx, Ha in H. discriminate.
  - unfold do_return, thrown in H. destruct (w_frames w) as [|f fs]; [discriminate|]. destruct (negb _); [discriminate|].
    destruct (nth_error (w_exps w) (f_exp f)); [|discriminate]. destruct (finalizer_result _ _); [discriminate|]. destruct (f_noexcept f); discriminate.
  - destruct (nth_error (w_scoped w) h) as [[e| |]|] eqn:Eh; try discriminate; [|congruence]. destruct (oi_own _ O _ _ Eh) as (x & Hx & Ha).
    unfold exp_at in Hx. rewrite Hx, Ha in H. discriminate.
  - destruct (nth_error (w_scoped w) h) as [[e| |]|] eqn:Eh; try discriminate.
    destruct (end_next_or_stop _ _ _ Hr Eh (upd (w_scoped w) h HDead)) as [(w' & r & E)|E]; rewrite E in H; discriminate.
  - destruct (nth_error (w_scoped w) h) as [[e| |]|]; discriminate.
  - destruct (nth_error (w_scoped w) dst) as [[e| |]|] eqn:Ed; try discriminate; destruct (nth_error (w_scoped w) src) as [[e'| |]|]; try discriminate;
      (destruct (dst =? src); [discriminate|]); try discriminate;
      (match type of H with context [end_expectation (set_scoped w ?sc) e] =>
         destruct (end_next_or_stop _ _ _ Hr Ed sc) as [(w' & r & E)|E]; rewrite E in H; [destruct r|]; discriminate end).
  - discriminate.
  - discriminate.
Qed.

(** The call made by [OCall] in [w] is handled by expectation [n] with overload signature [s]. *)
Lemma handled_frame w m ov args l w1 n : reachable w -> handled_by w (OCall m ov args l) w1 n ->
  exists s coll x unh mr, find_overload w m ov = inr (s, coll) /\ candidate w coll (call_of s args l) n x /\
    w_trace w1 = w_trace w ++ unh ++ [EvReport (w_rid w) (RFull (make_call_report (call_of s args l)) mr) [n]] /\
    Forall (fun ev => exists id c r y who, ev = EvReport id (RUnhandled c r y) who) unh /\
    w_frames w1 = mkFrame n (effects_of (e_policies (eo_exp x))) false false (sg_noexcept s) :: w_frames w.
Proof.
  intros Hr [H Hacc]. pose proof H as H0.
  destruct (call_effect _ _ _ _ _ _ _ Hr H) as [(s & coll & k & x & mr & unh & _ & Hf & Hlen & Hc & Ht & Hq & Hex & _ & _ & _ & _ & _ & Efr)|[E _]]; [|discriminate].
  assert (n = k) as <-.
  { rewrite Ht, !accepted_app, accepted_full in Hacc. destruct (quiet_counts _ Hq n) as (A & _). rewrite A in Hacc.
    destruct (Nat.eqb_spec k n); auto. lia. }
  exists s, coll, x, unh, mr. rewrite <- side_effects_spec. do 3 (split; auto). split; auto.
  cbn [step] in H0. apply do_call_next in H0. destruct H0 as (s' & coll' & Hf' & _ & H0). apply handle_call_next in H0.
  destruct H0 as (lst & es & ml & _ & _ & _ & Hcr). inversion Hcr; subst.
  cbn [w_trace accept_world add_trace set_frames set_exps set_seqs] in Ht. apply app_inv_head in Ht. apply app_inj_tail in Ht. destruct Ht as [<- _].
  apply Forall_forall. intros ev Hev. apply in_map_iff in Hev. destruct Hev as ([j [rep y]] & <- & _). unfold unhandled_event. eauto 8.
Qed.
