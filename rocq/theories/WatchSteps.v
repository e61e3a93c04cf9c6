(** * WatchSteps: what a single operation does to the watchers. *)

From Verif Require Import Base Lib Sequence Control Signature Printer Reports Expectation Builder BuildSpec World WorldSpec CallSpec
  SeqInv BuilderLemmas StepCases MatchLemmas WorldInv ObjInv CallProofs BuildProofs CountProofs History FrameSpec FrameProofs Watcher WatchSpec WatchProofs.

Lemma perform_inv s o k s' r : perform s o k = WNext s' r -> exists w1 r1, step (ww s) o = Next w1 r1 /\ k (after_op s w1 o) r1 = WNext s' r.
Proof. exact (perform_next s o k s' r). Qed.

(** ** Everything only grows *)

Definition later (s s' : wworld) : Prop :=
  (exists more, ww_log s' = ww_log s ++ more /\ run (ww s) more (ww s')) /\ incl (ww_lmocks s) (ww_lmocks s') /\ incl (ww_rmocks s) (ww_rmocks s').

Lemma later_refl s : later s s.
Proof. split; [exists []; rewrite app_nil_r; split; auto; constructor|]. split; apply incl_refl. Qed.
Lemma later_trans a b c : later a b -> later b c -> later a c.
Proof.
  intros ((x & E1 & R1) & A & B) ((y & E2 & R2) & C & D). split; [|split; eapply incl_tran; eauto].
  exists (x ++ y). split; [rewrite E2, E1, app_assoc; reflexivity|eapply run_app; eauto].
Qed.
Lemma later_op s o w1 r1 : step (ww s) o = Next w1 r1 -> later s (after_op s w1 o).
Proof. intros H. split; [exists [o]; split; [reflexivity|eapply run_one; eauto]|]. split; apply incl_refl. Qed.
Lemma later_life s l : later s (set_life s l).
Proof. split; [exists []; rewrite app_nil_r; split; auto; constructor|]. split; apply incl_refl. Qed.
Lemma later_reloc s l : later s (set_reloc s l).
Proof. split; [exists []; rewrite app_nil_r; split; auto; constructor|]. split; apply incl_refl. Qed.
Lemma later_conts s l : later s (set_conts s l).
Proof. split; [exists []; rewrite app_nil_r; split; auto; constructor|]. split; apply incl_refl. Qed.
Lemma later_own_life s m : later s (own_life s m).
Proof. split; [exists []; rewrite app_nil_r; split; auto; constructor|]. split; [apply incl_tl|]; apply incl_refl. Qed.
Lemma later_own_reloc s m : later s (own_reloc s m).
Proof. split; [exists []; rewrite app_nil_r; split; auto; constructor|]. split; [|apply incl_tl]; apply incl_refl. Qed.

Definition goes_on (s : wworld) (st : wstepped) : Prop := match st with WNext s' _ => later s s' | _ => True end.

Lemma goes_perform s o k : (forall w1 r1, goes_on (after_op s w1 o) (k (after_op s w1 o) r1)) -> goes_on s (perform s o k).
Proof.
  intros H. unfold perform. destruct (step (ww s) o) as [w1 r1| | |] eqn:E; simpl; auto. specialize (H w1 r1). fold (after_op s w1 o).
  destruct (k (after_op s w1 o) r1); simpl in *; auto. eapply later_trans; [eapply later_op; eauto|auto].
Qed.
Lemma goes_from s s1 st : later s s1 -> goes_on s1 st -> goes_on s st.
Proof. destruct st; simpl; auto. apply later_trans. Qed.
Lemma goes_drop s mo : goes_on s (drop_mock s mo).
Proof. destruct mo; cbn [drop_mock]; [apply goes_perform; intros|]; apply later_refl. Qed.
Lemma goes_leave ne s r : goes_on s (leave ne s r).
Proof. destruct r; simpl; try apply later_refl. destruct ne; simpl; auto. apply later_refl. Qed.
Lemma goes_refresh s i : goes_on s (refresh s i).
Proof.
  unfold refresh. destruct (nth_error (ww_life s) i) as [[lw|]|]; simpl; auto. apply goes_perform. intros w1 r1.
  eapply goes_from; [|apply goes_drop]. eapply later_trans; [apply later_own_life|apply later_life].
Qed.
Lemma goes_finish s k r : goes_on s (finish s k r).
Proof.
  destruct k; cbn [finish].
  - apply goes_perform. intros. apply goes_leave.
  - apply goes_perform. intros. destruct (is_throw r); [apply later_refl|apply goes_refresh].
  - destruct (is_throw r); [apply goes_perform; intros; apply goes_leave|].
    destruct (nth_error (ww_reloc s) i) as [[m|]|]; simpl; auto. apply goes_perform. intros. apply later_reloc.
  - destruct (is_throw r); [apply goes_leave|]. destruct (nth_error (ww_reloc s) i) as [[mi|]|]; simpl; auto.
    destruct (nth_error (ww_reloc s) j) as [[mj|]|]; simpl; auto. apply goes_perform. intros. apply later_refl.
Qed.
Lemma goes_call s m l k : goes_on s (call_then s m l k).
Proof. unfold call_then. apply goes_perform. intros w1 r1. destruct (is_throw r1); [apply goes_finish|apply later_conts]. Qed.
Lemma goes_resume s r : goes_on s (resume s r).
Proof.
  unfold resume. destruct (ww_conts s) as [|[d k] ks]; [apply later_refl|]. destruct (length (w_frames (ww s)) <=? d); [|apply later_refl].
  eapply goes_from; [apply later_conts|apply goes_finish].
Qed.
Lemma goes_new_life s : goes_on s (new_life s).
Proof. unfold new_life. apply goes_perform. intros. eapply later_trans; [apply later_own_life|apply later_life]. Qed.
Lemma goes_new_reloc s : goes_on s (new_reloc s).
Proof. unfold new_reloc. apply goes_perform. intros. eapply later_trans; [apply later_own_reloc|apply later_reloc]. Qed.

Lemma step_later s o : goes_on s (wstep s o).
Proof.
  destruct o as [o| |i|i|i j l|i j|i ne l|i cls l|i| |i|i ne l|i j|i j ne l|i|i cls l]; cbn [wstep].
  - destruct (existsb (is_private s) (named o)); [simpl; auto|]. apply goes_perform. intros. apply goes_resume.
  - apply goes_new_life.
  - destruct (nth_error (ww_life s) i) as [[lw|]|]; simpl; auto. apply goes_new_life.
  - destruct (nth_error (ww_life s) i) as [[lw|]|]; simpl; auto. apply later_life.
  - destruct (nth_error (ww_life s) i) as [[lw|]|]; simpl; auto. destruct (nth_error (ww_life s) j) as [[lj|]|]; simpl; auto.
    destruct (lw_mock lw); [|apply goes_refresh]. eapply goes_from; [apply later_life|apply goes_call].
  - destruct (nth_error (ww_life s) i) as [[lw|]|]; simpl; auto. destruct (nth_error (ww_life s) j) as [[lj|]|]; simpl; auto.
    destruct (i =? j); [apply later_refl|]. eapply goes_from; [apply later_life|apply goes_drop].
  - destruct (nth_error (ww_life s) i) as [[lw|]|]; simpl; auto.
    destruct (lw_mock lw); [|apply later_life]. eapply goes_from; [apply later_life|apply goes_call].
  - unfold expect_destruct. destruct (nth_error (ww_life s) i) as [[[[|] [m|]]|]|]; simpl; auto; try apply later_refl.
    eapply goes_from; [apply later_life|]. apply goes_perform. intros. apply later_refl.
  - unfold expect_destruct. destruct (nth_error (ww_life s) i) as [[[[|] [m|]]|]|]; simpl; auto; try apply later_refl. apply later_life.
  - apply goes_new_reloc.
  - destruct (nth_error (ww_reloc s) i) as [[m|]|]; simpl; auto. apply goes_new_reloc.
  - destruct (nth_error (ww_reloc s) i) as [[m|]|]; simpl; auto. apply goes_perform. intros. eapply goes_from; [apply later_own_reloc|apply goes_call].
  - destruct (nth_error (ww_reloc s) i) as [[m|]|]; simpl; auto. destruct (nth_error (ww_reloc s) j) as [[mj|]|]; simpl; auto.
    apply goes_perform. intros. eapply goes_from; [apply later_own_reloc|]. apply goes_perform. intros. apply goes_perform. intros. apply later_refl.
  - destruct (nth_error (ww_reloc s) i) as [[m|]|]; simpl; auto. destruct (nth_error (ww_reloc s) j) as [[mj|]|]; simpl; auto. apply goes_call.
  - destruct (nth_error (ww_reloc s) i) as [[m|]|]; simpl; auto. eapply goes_from; [apply later_reloc|]. apply goes_perform. intros. apply later_refl.
  - destruct (nth_error (ww_reloc s) i) as [[m|]|]; simpl; auto. apply goes_perform. intros. apply later_refl.
Qed.

Lemma wstep_later s o s' r : wstep s o = WNext s' r -> later s s'.
Proof. intros H. pose proof (step_later s o) as G. rewrite H in G. exact G. Qed.
Lemma wrun_later s ops s' : wrun s ops s' -> later s s'.
Proof.
  intros H. induction H as [|s o s1 r ops s2 Hs Hr IH]; [apply later_refl|]. eapply later_trans; [eapply wstep_later; eauto|auto].
Qed.
Lemma wrun_app s a s1 b s2 : wrun s a s1 -> wrun s1 b s2 -> wrun s (a ++ b) s2.
Proof. intros H. induction H; simpl; auto. intros. econstructor; eauto. Qed.
Lemma wreachable_run s ops s' : wreachable s -> wrun s ops s' -> wreachable s'.
Proof. intros [a Ha] H. exists (a ++ ops). eapply wrun_app; eauto. Qed.
Lemma wreachable_step s o s' r : wreachable s -> wstep s o = WNext s' r -> wreachable s'.
Proof. intros H Hs. eapply wreachable_run; eauto. econstructor; eauto. constructor. Qed.

(** ** The lifetime watchers after a step *)

Inductive life_change (s : wworld) : wop -> wworld -> Prop :=
| LcSame o s' : ww_life s' = ww_life s -> (forall i ne l, o <> LDestroy i ne l) -> life_change s o s'
| LcNew o s' : (o = LNew \/ exists i, o = LCopy i) -> ww_life s' = ww_life s ++ [Some (mkLW false (Some (length (w_mocks (ww s)))))] ->
    life_change s o s'
| LcMove i lw s' : nth_error (ww_life s) i = Some (Some lw) -> ww_life s' = upd (ww_life s) i (Some (mkLW (lw_flag lw) None)) ++ [Some lw] ->
    life_change s (LMove i) s'
| LcReset o i lw d s' : nth_error (ww_life s) i = Some (Some lw) -> length (w_mocks (ww s)) <= d ->
    ww_life s' = upd (ww_life s) i (Some (mkLW false (Some d))) ->
    ((exists j l, o = LCopyAssign i j l /\ lw_mock lw = None) \/
     (exists o' k m ks, o = WOp o' /\ ww_conts s = (k, KReset i m) :: ks)) -> life_change s o s'
| LcAssign i j l m fl s' : carries s i m fl -> ww_life s' = upd (ww_life s) i (Some (mkLW fl None)) ->
    1 <= calls m (ww_log s') -> life_change s (LCopyAssign i j l) s'
| LcMoveAssign i j li lj s' : i <> j -> nth_error (ww_life s) i = Some (Some li) -> nth_error (ww_life s) j = Some (Some lj) ->
    ww_life s' = upd (upd (ww_life s) j (Some (mkLW (lw_flag lj) None))) i (Some lj) -> life_change s (LMoveAssign i j) s'
| LcDestroy i ne l lw s' : nth_error (ww_life s) i = Some (Some lw) -> ww_life s' = upd (ww_life s) i None ->
    (forall m, lw_mock lw = Some m -> 1 <= calls m (ww_log s')) -> life_change s (LDestroy i ne l) s'
| LcExpect o i m s' : (o = LExpectDropped i \/ exists cls l, o = LExpect i cls l) -> carries s i m false ->
    ww_life s' = upd (ww_life s) i (Some (mkLW true (Some m))) -> life_change s o s'.

Lemma drop_next s mo s' r : drop_mock s mo = WNext s' r -> r = RUnit /\ ww_life s' = ww_life s /\ ww_reloc s' = ww_reloc s /\ ww_conts s' = ww_conts s.
Proof.
  destruct mo; cbn [drop_mock]; intros H; [|inversion H; subst; auto]. apply perform_inv in H. destruct H as (w1 & r1 & _ & H). inversion H; subst. auto.
Qed.
Lemma leave_next ne s r s' r' : leave ne s r = WNext s' r' -> s' = s /\ is_throw r' = is_throw r.
Proof. destruct r; simpl; intros H; try (inversion H; subst; auto; fail). destruct ne; inversion H; subst; auto. Qed.
Lemma refresh_next s i s' r : refresh s i = WNext s' r ->
  exists lw, nth_error (ww_life s) i = Some (Some lw) /\ r = RUnit /\ ww_reloc s' = ww_reloc s /\ ww_conts s' = ww_conts s /\
    ww_life s' = upd (ww_life s) i (Some (mkLW false (Some (length (w_mocks (ww s)))))).
Proof.
  unfold refresh. destruct (nth_error (ww_life s) i) as [[lw|]|]; try discriminate. intros H. apply perform_inv in H.
  destruct H as (w1 & r1 & _ & H). apply drop_next in H. destruct H as (-> & E1 & E2 & E3). exists lw.
  cbn [ww_life ww_reloc ww_conts set_life own_life after_op] in *. auto 6.
Qed.
Lemma destroy_mocks w m w1 r1 : step w (ODestroyMock m) = Next w1 r1 -> r1 = RUnit /\ length (w_mocks w1) = length (w_mocks w) /\ w_trace w1 = w_trace w /\
  w_frames w1 = w_frames w /\ w_exps w1 = w_exps w.
Proof.
  cbn [step]. destruct (nth_error (w_mocks w) m) as [mk|]; [|discriminate]. destruct (negb (mk_alive mk)); [discriminate|].
  intros H. inversion H; subst. cbn [w_mocks w_trace w_frames w_exps set_mocks]. rewrite length_upd. auto.
Qed.
Lemma finish_life s k r0 s' r : finish s k r0 = WNext s' r ->
  ww_life s' = ww_life s \/
  (exists i m lw, k = KReset i m /\ is_throw r0 = false /\ nth_error (ww_life s) i = Some (Some lw) /\
     ww_life s' = upd (ww_life s) i (Some (mkLW false (Some (length (w_mocks (ww s))))))).
Proof.
  destruct k; cbn [finish]; intros H.
  - apply perform_inv in H. destruct H as (w1 & r1 & _ & H). apply leave_next in H. destruct H as [-> _]. auto.
  - apply perform_inv in H. destruct H as (w1 & r1 & Hs & H). destruct (is_throw r0) eqn:E; [inversion H; subst; auto|].
    apply refresh_next in H. destruct H as (lw & Hi & _ & _ & _ & El). right. exists i, m, lw. cbn [ww_life ww after_op] in *.
    apply destroy_mocks in Hs. destruct Hs as (_ & Hl & _). rewrite Hl in El. auto.
  - destruct (is_throw r0).
    + apply perform_inv in H. destruct H as (w1 & r1 & _ & H). apply leave_next in H. destruct H as [-> _]. auto.
    + destruct (nth_error (ww_reloc s) i) as [[m|]|]; try discriminate. apply perform_inv in H. destruct H as (w1 & r1 & _ & H). inversion H; subst. auto.
  - destruct (is_throw r0); [apply leave_next in H; destruct H as [-> _]; auto|]. destruct (nth_error (ww_reloc s) i) as [[mi|]|]; try discriminate.
    destruct (nth_error (ww_reloc s) j) as [[mj|]|]; try discriminate. apply perform_inv in H. destruct H as (w1 & r1 & _ & H). inversion H; subst. auto.
Qed.
Lemma calls_here m o a : calls m (a ++ [o]) = calls m a + calls m [o].
Proof. apply calls_app. Qed.
Lemma calls_one m l : calls m [OCall m 0 [] l] = 1.
Proof. unfold calls. simpl. rewrite Nat.eqb_refl. reflexivity. Qed.
Lemma later_calls s s' m : later s s' -> calls m (ww_log s) <= calls m (ww_log s').
Proof. intros ((more & E & _) & _). rewrite E, calls_app. lia. Qed.
Lemma call_then_next s m l k s' r : call_then s m l k = WNext s' r ->
  exists w1 r1, step (ww s) (OCall m 0 [] l) = Next w1 r1 /\
    ((is_throw r1 = true /\ finish (after_op s w1 (OCall m 0 [] l)) k r1 = WNext s' r) \/
     (is_throw r1 = false /\ r = RUnit /\ s' = set_conts (after_op s w1 (OCall m 0 [] l)) ((length (w_frames (ww s)), k) :: ww_conts s))).
Proof.
  unfold call_then. intros H. apply perform_inv in H. destruct H as (w1 & r1 & Hs & H). exists w1, r1. split; auto.
  destruct (is_throw r1); [left; auto|right]. inversion H; subst. auto.
Qed.
Lemma call_then_life s m l k s' r : call_then s m l k = WNext s' r -> ww_life s' = ww_life s /\ S (calls m (ww_log s)) <= calls m (ww_log s').
Proof.
  intros H. apply call_then_next in H. destruct H as (w1 & r1 & Hs & [(Et & H)|(Et & -> & ->)]).
  - pose proof (goes_finish (after_op s w1 (OCall m 0 [] l)) k r1) as G. rewrite H in G. simpl in G. apply (later_calls _ _ m) in G.
    cbn [ww_log after_op] in G. rewrite calls_here, calls_one in G.
    apply finish_life in H. destruct H as [->|(i & m0 & lw & _ & E & _)]; [|congruence]. split; [reflexivity|lia].
  - split; [reflexivity|]. cbn [ww_log set_conts after_op]. rewrite calls_here, calls_one. lia.
Qed.
Lemma resume_life s r0 s' r : resume s r0 = WNext s' r ->
  ww_life s' = ww_life s \/
  (exists i m k ks lw, ww_conts s = (k, KReset i m) :: ks /\ nth_error (ww_life s) i = Some (Some lw) /\
     ww_life s' = upd (ww_life s) i (Some (mkLW false (Some (length (w_mocks (ww s))))))).
Proof.
  unfold resume. intros H. destruct (ww_conts s) as [|[d k] ks]; [inversion H; subst; auto|].
  destruct (length (w_frames (ww s)) <=? d); [|inversion H; subst; auto]. apply finish_life in H.
  destruct H as [H|(i & m & lw & -> & _ & Hi & El)]; [left; auto|]. right. exists i, m, d, ks, lw. auto.
Qed.

Lemma life_step s o s' r : wstep s o = WNext s' r -> life_change s o s'.
Proof.
  destruct o as [o| |i|i|i j l|i j|i ne l|i cls l|i| |i|i ne l|i j|i j ne l|i|i cls l]; cbn [wstep]; intros H.
  - destruct (existsb (is_private s) (named o)); [discriminate|]. apply perform_inv in H. destruct H as (w1 & r1 & Hs & H).
    pose proof (mocks_grow _ _ _ _ Hs). apply resume_life in H. destruct H as [E|(i & m & k & ks & lw & Ec & Hi & E)].
    + apply LcSame; [exact E|discriminate].
    + eapply LcReset; [exact Hi| |exact E|]; [cbn [ww after_op]; auto|]. right. exists o, k, m, ks. auto.
  - unfold new_life in H. apply perform_inv in H. destruct H as (w1 & r1 & _ & H). inversion H; subst. apply LcNew; auto.
  - destruct (nth_error (ww_life s) i) as [[lw|]|]; try discriminate. unfold new_life in H. apply perform_inv in H.
    destruct H as (w1 & r1 & _ & H). inversion H; subst. apply LcNew; eauto.
  - destruct (nth_error (ww_life s) i) as [[lw|]|] eqn:Hi; inversion H; subst. eapply LcMove; eauto.
  - destruct (nth_error (ww_life s) i) as [[lw|]|] eqn:Hi; try discriminate. destruct (nth_error (ww_life s) j) as [[lj|]|]; try discriminate.
    destruct (lw_mock lw) as [m|] eqn:Hm.
    + apply call_then_life in H. destruct H as [E Hc]. eapply (LcAssign s i j l m (lw_flag lw)); [|exact E|lia].
      unfold carries. rewrite Hi. destruct lw; simpl in *; congruence.
    + apply refresh_next in H. destruct H as (lw' & Hi' & _ & _ & _ & E). eapply LcReset; [exact Hi'|apply le_n|exact E|]. left. exists j, l. split; auto. congruence.
  - destruct (nth_error (ww_life s) i) as [[li|]|] eqn:Hi; try discriminate. destruct (nth_error (ww_life s) j) as [[lj|]|] eqn:Hj; try discriminate.
    destruct (Nat.eqb_spec i j); [inversion H; subst; apply LcSame; [reflexivity|discriminate]|]. apply drop_next in H. destruct H as (_ & E & _). eapply LcMoveAssign; eauto.
  - destruct (nth_error (ww_life s) i) as [[lw|]|] eqn:Hi; try discriminate. destruct (lw_mock lw) as [m|] eqn:Hm.
    + apply call_then_life in H. destruct H as [E Hc]. eapply LcDestroy; [exact Hi|exact E|]. intros m0 E0. rewrite Hm in E0. inversion E0; subst. lia.
    + inversion H; subst. eapply LcDestroy; [exact Hi|reflexivity|]. congruence.
  - unfold expect_destruct in H. destruct (nth_error (ww_life s) i) as [[[[|] [m|]]|]|] eqn:Hi; try discriminate; try (inversion H; subst; apply LcSame; [reflexivity|discriminate]).
    apply perform_inv in H. destruct H as (w1 & r1 & _ & H). inversion H; subst. eapply LcExpect; [right; eauto|exact Hi|reflexivity].
  - unfold expect_destruct in H. destruct (nth_error (ww_life s) i) as [[[[|] [m|]]|]|] eqn:Hi; try discriminate; try (inversion H; subst; apply LcSame; [reflexivity|discriminate]).
    inversion H; subst. eapply LcExpect; [left; eauto|exact Hi|reflexivity].
  - unfold new_reloc in H. apply perform_inv in H. destruct H as (w1 & r1 & _ & H). inversion H; subst. apply LcSame; [reflexivity|discriminate].
  - destruct (nth_error (ww_reloc s) i) as [[lw|]|]; try discriminate. unfold new_reloc in H. apply perform_inv in H.
    destruct H as (w1 & r1 & _ & H). inversion H; subst. apply LcSame; [reflexivity|discriminate].
  - destruct (nth_error (ww_reloc s) i) as [[m|]|]; try discriminate. apply perform_inv in H. destruct H as (w1 & r1 & _ & H).
    apply call_then_life in H. destruct H as [E _]. apply LcSame; [exact E|discriminate].
  - destruct (nth_error (ww_reloc s) i) as [[m|]|]; try discriminate. destruct (nth_error (ww_reloc s) j) as [[mj|]|]; try discriminate.
    apply perform_inv in H. destruct H as (w1 & r1 & _ & H). apply perform_inv in H. destruct H as (w2 & r2 & _ & H).
    apply perform_inv in H. destruct H as (w3 & r3 & _ & H). inversion H; subst. apply LcSame; [reflexivity|discriminate].
  - destruct (nth_error (ww_reloc s) i) as [[m|]|]; try discriminate. destruct (nth_error (ww_reloc s) j) as [[mj|]|]; try discriminate.
    apply call_then_life in H. destruct H as [E _]. apply LcSame; [exact E|discriminate].
  - destruct (nth_error (ww_reloc s) i) as [[m|]|]; try discriminate. apply perform_inv in H. destruct H as (w1 & r1 & _ & H). inversion H; subst.
    apply LcSame; [reflexivity|discriminate].
  - destruct (nth_error (ww_reloc s) i) as [[m|]|]; try discriminate. apply perform_inv in H. destruct H as (w1 & r1 & _ & H). inversion H; subst.
    apply LcSame; [reflexivity|discriminate].
Qed.

(** ** One identity through a step *)

Lemma carried_below s i m fl : WatchInv s -> carries s i m fl -> m < length (w_mocks (ww s)).
Proof. intros I H. apply (v_lm _ I). apply (v_life _ I _ _ _ H). Qed.

Lemma unique_carrier s i j m fl fl' : WatchInv s -> carries s i m fl -> carries s j m fl' -> i = j /\ fl = fl'.
Proof.
  intros I Hi Hj. assert (i = j) as <-; [|split; auto; unfold carries in *; congruence].
  destruct (Nat.eq_dec i j) as [|Hne]; auto. exfalso. pose proof (countb_upd (holds m) _ _ _ None Hi) as E.
  simpl holds in E. rewrite Nat.eqb_refl in E. simpl b2n in E.
  assert (1 <= countb (holds m) (upd (ww_life s) i None)).
  { eapply countb_in; [eapply nth_error_In; rewrite nth_error_upd_neq by exact Hne; exact Hj|simpl; apply Nat.eqb_refl]. }
  pose proof (v_own _ I m). lia.
Qed.

(** Where an identity comes from. *)
Lemma carry_step s o s' r j m fl' : wstep s o = WNext s' r -> carries s' j m fl' ->
  (exists k fl, carries s k m fl /\
     (fl' = fl \/ (fl = false /\ fl' = true /\ (o = LExpectDropped k \/ exists cls l, o = LExpect k cls l)))) \/
  (length (w_mocks (ww s)) <= m /\ fl' = false).
Proof.
  intros Hs Hc. apply life_step in Hs. unfold carries in Hc.
  destruct Hs as [o s' E _|o s' _ E|i lw s' Hi E|o i lw d s' Hi Hd E _|i k l n fl s' Hn E _|i k li lk s' Hne Hi Hk E|i ne l lw s' Hi E _|o i n s' Ho Hn E];
    rewrite E in Hc.
  - left. exists j, fl'. auto.
  - apply nth_error_snoc in Hc. destruct Hc as [[Hc _]|[_ Hc]]; [left; exists j, fl'; auto|]. inversion Hc; subst. right. auto.
  - apply nth_error_snoc in Hc. destruct Hc as [[Hc _]|[_ Hc]].
    + apply nth_upd_inv in Hc. destruct Hc as [[_ Hc]|[_ Hc]]; [discriminate|]. left. exists j, fl'. auto.
    + inversion Hc; subst lw. left. exists i, fl'. auto.
  - apply nth_upd_inv in Hc. destruct Hc as [[_ Hc]|[_ Hc]]; [|left; exists j, fl'; auto]. inversion Hc; subst. right. auto.
  - apply nth_upd_inv in Hc. destruct Hc as [[_ Hc]|[_ Hc]]; [discriminate|]. left. exists j, fl'. auto.
  - apply nth_upd_inv in Hc. destruct Hc as [[_ Hc]|[_ Hc]].
    + inversion Hc; subst lk. left. exists k, fl'. auto.
    + apply nth_upd_inv in Hc. destruct Hc as [[_ Hc]|[_ Hc]]; [discriminate|]. left. exists j, fl'. auto.
  - apply nth_upd_inv in Hc. destruct Hc as [[_ Hc]|[_ Hc]]; [discriminate|]. left. exists j, fl'. auto.
  - apply nth_upd_inv in Hc. destruct Hc as [[-> Hc]|[_ Hc]]; [|left; exists j, fl'; auto]. inversion Hc; subst n fl'. left. exists j, false. auto 6.
Qed.

(** The flag of an identity is never taken back. *)
Lemma flag_stays s ops s' i j m fl : WatchInv s -> wrun s ops s' -> carries s i m true -> carries s' j m fl -> fl = true.
Proof.
  intros I H Hi Hj.
  assert (G : m < length (w_mocks (ww s)) /\ forall k f, carries s k m f -> f = true).
  { split; [eapply carried_below; eauto|]. intros k f Hk. destruct (unique_carrier _ _ _ _ _ _ I Hi Hk); auto. }
  clear Hi i. revert I G. induction H as [|s o s1 r ops s2 Hs Hr IH]; intros I [G1 G2]; [eapply G2; eauto|].
  pose proof (inv_wstep s o I) as I1. rewrite Hs in I1. simpl in I1. apply IH; auto. split.
  - destruct (wstep_later _ _ _ _ Hs) as ((more & _ & Hrun) & _). assert (length (w_mocks (ww s)) <= length (w_mocks (ww s1))); [|lia].
    clear - Hrun. induction Hrun as [|w o w1 r ops w2 Hs _ IH]; auto. apply mocks_grow in Hs. lia.
  - intros k f Hk. destruct (carry_step _ _ _ _ _ _ _ Hs Hk) as [(k0 & f0 & H0 & [->|(-> & -> & _)])|[Hge _]]; eauto. lia.
Qed.

(** How an identity gets lost. *)
Lemma lost_step s o s' r i m fl : WatchInv s -> wstep s o = WNext s' r -> carries s i m fl -> (forall j fl', ~ carries s' j m fl') ->
  1 <= calls m (ww_log s') \/ (exists j, j <> i /\ o = LMoveAssign i j) \/
  (exists o' k n ks, o = WOp o' /\ ww_conts s = (k, KReset i n) :: ks /\ n <> m).
Proof.
  intros I Hs Hc Hn. pose proof (life_step _ _ _ _ Hs) as L.
  destruct L as [o s' E _|o s' _ E|k lw s' Hi E|o k lw d s' Hi Hd E Ho|k j l n f s' Hk E Hcalls|k j lk lj s' Hne Hi Hj E|k ne l lw s' Hi E Hcalls|o k n s' Ho Hk E].
  - exfalso. apply (Hn i fl). unfold carries. rewrite E. exact Hc.
  - exfalso. apply (Hn i fl). unfold carries. rewrite E. apply nth_error_snoc_old. exact Hc.
  - exfalso. destruct (Nat.eq_dec k i) as [->|Hki].
    + unfold carries in Hc. rewrite Hi in Hc. inversion Hc; subst lw. apply (Hn (length (ww_life s)) fl). unfold carries. rewrite E.
      rewrite <- (length_upd (ww_life s) i (Some (mkLW fl None))). apply nth_error_app_last.
    + apply (Hn i fl). unfold carries. rewrite E. apply nth_error_snoc_old. rewrite nth_error_upd_neq; auto.
  - destruct (Nat.eq_dec k i) as [->|Hki].
    + unfold carries in Hc. rewrite Hi in Hc. inversion Hc; subst lw. destruct Ho as [(j & l & _ & F)|(o' & k0 & n & ks & -> & Ec)]; [discriminate|].
      right. right. exists o', k0, n, ks. split; auto. split; auto. intros ->. pose proof (v_own _ I m) as H. rewrite Ec, countb_cons in H. unfold waits in H at 1.
      simpl in H. rewrite Nat.eqb_refl in H. simpl in H. pose proof (carries_held _ _ _ _ Hi). lia.
    + exfalso. apply (Hn i fl). unfold carries. rewrite E, nth_error_upd_neq; auto.
  - destruct (Nat.eq_dec k i) as [->|Hki].
    + left. unfold carries in *. rewrite Hk in Hc. inversion Hc; subst. auto.
    + exfalso. apply (Hn i fl). unfold carries. rewrite E, nth_error_upd_neq; auto.
  - destruct (Nat.eq_dec k i) as [->|Hki]; [right; left; eauto|]. exfalso. destruct (Nat.eq_dec j i) as [->|Hji].
    + unfold carries in Hc. rewrite Hj in Hc. inversion Hc; subst lj. apply (Hn k fl). unfold carries. rewrite E. apply nth_error_upd_eq.
      rewrite length_upd. eapply nth_error_lt; eauto.
    + apply (Hn i fl). unfold carries. rewrite E, !nth_error_upd_neq; auto.
  - destruct (Nat.eq_dec k i) as [->|Hki].
    + left. unfold carries in Hc. rewrite Hi in Hc. inversion Hc; subst lw. auto.
    + exfalso. apply (Hn i fl). unfold carries. rewrite E, nth_error_upd_neq; auto.
  - exfalso. destruct (Nat.eq_dec k i) as [->|Hki].
    + unfold carries in Hk, Hc. rewrite Hk in Hc. inversion Hc; subst. apply (Hn i true). unfold carries. rewrite E. apply nth_error_upd_eq. eapply nth_error_lt; eauto.
    + apply (Hn i fl). unfold carries. rewrite E, nth_error_upd_neq; auto.
Qed.

(** ** Waiting special member functions and running calls *)

(** The waiting special member functions wait for running calls, the innermost for the innermost one of those calls. *)
Fixpoint nested (n : nat) (l : list (nat * cont)) : Prop :=
  match l with
  | [] => True
  | (d, _) :: l' => d < n /\ nested d l'
  end.
Lemma nested_le n n' l : n <= n' -> nested n l -> nested n' l.
Proof. destruct l as [|[d k] l]; simpl; auto. intros H [A B]. split; auto. lia. Qed.

Definition depth (s : wworld) : nat := length (w_frames (ww s)).
Definition in_step (s : wworld) : Prop := nested (depth s) (ww_conts s).

Lemma op_depth w o w' r : reachable w -> step w o = Next w' r ->
  match o with
  | OReturn _ => length (w_frames w') <= length (w_frames w) <= S (length (w_frames w'))
  | OCall _ _ _ _ => length (w_frames w') = if is_throw r then length (w_frames w) else S (length (w_frames w))
  | _ => length (w_frames w') = length (w_frames w)
  end.
Proof.
  intros Hr Hs. destruct o; try (destruct (step_trace _ _ _ _ Hs) as [new Ht]; 
    destruct (step_frames _ _ _ _ _ Hr Hs Ht) as [E _|? ? ? ? ? ? ? Eo _ _ E _|? ? ? ? Eo Ew _ E _|? ? Eo Ew _ _ E _|? ? ? Eo Ew _ E _ _ _];
    try discriminate; rewrite ?Ew, ?E; simpl; lia).
  destruct (call_effect _ _ _ _ _ _ _ Hr Hs) as [(s & coll & k & x & mr & unh & -> & _ & _ & _ & _ & _ & _ & _ & _ & _ & _ & _ & E)|(-> & H)].
  - rewrite E. reflexivity.
  - destruct H as (evs & _ & ->). reflexivity.
Qed.

Definition frames_kept (o : op) : bool := match o with ODestroyMock _ | ONewMock _ | OMoveAssignMock _ _ => true | _ => false end.
Lemma kept w o w' r : frames_kept o = true -> step w o = Next w' r -> w_frames w' = w_frames w /\ w_trace w' = w_trace w /\ w_exps w' = w_exps w /\
  r = RUnit /\ w_scoped w' = w_scoped w /\
  w_rid w' = w_rid w /\ w_reporter w' = w_reporter w /\ w_uncaught w' = w_uncaught w.
Proof.
  destruct o; try discriminate; intros _; cbn [step]; intros H.
  - destruct (is_overload_set sigs && _); [|discriminate]. inversion H; subst. repeat split; auto.
  - destruct (nth_error (w_mocks w) dst) as [md|]; [|discriminate]. destruct (nth_error (w_mocks w) src) as [ms|]; [|discriminate].
    destruct (negb _); [discriminate|]. destruct (dst =? src); inversion H; subst; repeat split; auto.
  - destruct (nth_error (w_mocks w) m) as [mk|]; [|discriminate]. destruct (negb _); [discriminate|]. inversion H; subst. repeat split; auto.
Qed.

Definition steady (st : wstepped) : Prop := match st with WNext s' _ => in_step s' | _ => True end.

Lemma steady_kept s o k : frames_kept o = true ->
  (forall w1, step (ww s) o = Next w1 RUnit -> depth (after_op s w1 o) = depth s -> steady (k (after_op s w1 o) RUnit)) -> steady (perform s o k).
Proof.
  intros Hk H. unfold perform. destruct (step (ww s) o) as [w1 r1| | |] eqn:E; simpl; auto. pose proof (kept _ _ _ _ Hk E) as (F & _ & _ & -> & _).
  apply H; auto. unfold depth. cbn [ww after_op]. rewrite F. reflexivity.
Qed.
Lemma steady_next s s' r : in_step s -> depth s' = depth s -> ww_conts s' = ww_conts s -> steady (WNext s' r).
Proof. unfold in_step. simpl. unfold in_step. intros H -> ->. exact H. Qed.
Lemma steady_leave ne s r : in_step s -> steady (leave ne s r).
Proof. intros H. destruct r; simpl; auto. destruct ne; simpl; auto. Qed.
Lemma steady_drop s mo : in_step s -> steady (drop_mock s mo).
Proof. intros H. destruct mo; cbn [drop_mock]; [|exact H]. apply steady_kept; auto. intros. eapply steady_next; eauto. Qed.
Lemma steady_refresh s i : in_step s -> steady (refresh s i).
Proof.
  intros H. unfold refresh. destruct (nth_error (ww_life s) i) as [[lw|]|]; simpl; auto. apply steady_kept; auto. intros w1 Hs Hd.
  apply steady_drop. exact (eq_rect_r (fun n => nested n (ww_conts s)) H Hd).
Qed.
Lemma steady_finish s k r : in_step s -> steady (finish s k r).
Proof.
  intros H. destruct k; cbn [finish].
  - apply steady_kept; auto. intros. apply steady_leave. exact (eq_rect_r (fun n => nested n (ww_conts s)) H H1).
  - apply steady_kept; auto. intros. destruct (is_throw r); [eapply steady_next; eauto|]. apply steady_refresh. exact (eq_rect_r (fun n => nested n (ww_conts s)) H H1).
  - destruct (is_throw r).
    + apply steady_kept; auto. intros. apply steady_leave. exact (eq_rect_r (fun n => nested n (ww_conts s)) H H1).
    + destruct (nth_error (ww_reloc s) i) as [[m|]|]; simpl; auto. apply steady_kept; auto. intros. eapply steady_next; eauto.
  - destruct (is_throw r); [apply steady_leave; auto|]. destruct (nth_error (ww_reloc s) i) as [[mi|]|]; simpl; auto.
    destruct (nth_error (ww_reloc s) j) as [[mj|]|]; simpl; auto. apply steady_kept; auto. intros. eapply steady_next; eauto.
Qed.
Lemma steady_call s m l k : reachable (ww s) -> in_step s -> steady (call_then s m l k).
Proof.
  intros Hr H. unfold call_then, perform. destruct (step (ww s) (OCall m 0 [] l)) as [w1 r1| | |] eqn:E; simpl; auto.
  apply op_depth in E; auto. destruct (is_throw r1).
  - apply steady_finish. unfold in_step, depth. cbn [ww ww_conts]. rewrite E. exact H.
  - change (nested (length (w_frames w1)) ((length (w_frames (ww s)), k) :: ww_conts s)). rewrite E. split; [lia|exact H].
Qed.
Lemma steady_resume s r n : nested n (ww_conts s) -> n <= S (depth s) -> steady (resume s r).
Proof.
  intros H Hn. unfold resume. unfold depth in Hn. destruct (ww_conts s) as [|[d k] ks] eqn:Ec.
  - simpl. unfold in_step. rewrite Ec. exact Logic.I.
  - destruct H as [Hd Hks]. destruct (Nat.leb_spec (length (w_frames (ww s))) d) as [Hle|Hgt].
    + apply steady_finish. unfold in_step, depth. cbn [ww ww_conts set_conts]. replace (length (w_frames (ww s))) with d by lia. auto.
    + simpl. unfold in_step, depth. rewrite Ec. split; auto.
Qed.

Lemma steady_new_life s : in_step s -> steady (new_life s).
Proof. intros H. unfold new_life. apply steady_kept; auto. intros. eapply steady_next; eauto. Qed.
Lemma steady_new_reloc s : in_step s -> steady (new_reloc s).
Proof. intros H. unfold new_reloc. apply steady_kept; auto. intros. eapply steady_next; eauto. Qed.
Lemma steady_expect s m cls l : reachable (ww s) -> in_step s -> steady (perform s (OExpect m 0 [] cls l) WNext).
Proof.
  intros Hr H. unfold perform. destruct (step (ww s) (OExpect m 0 [] cls l)) as [w1 r1| | |] eqn:E; simpl; auto.
  apply op_depth in E; auto. simpl in E. unfold in_step, depth. cbn [ww ww_conts]. rewrite E. exact H.
Qed.

Lemma steady_step s o : reachable (ww s) -> in_step s -> steady (wstep s o).
Proof.
  intros Hr H. destruct o as [o| |i|i|i j l|i j|i ne l|i cls l|i| |i|i ne l|i j|i j ne l|i|i cls l]; cbn [wstep].
  - destruct (existsb (is_private s) (named o)); [simpl; auto|]. unfold perform. destruct (step (ww s) o) as [w1 r1| | |] eqn:E; simpl; auto.
    apply op_depth in E; auto. apply (steady_resume _ _ (depth s)); [exact H|]. unfold depth. cbn [ww]. destruct o; try lia; destruct (is_throw r1); lia.
  - apply steady_new_life; auto.
  - destruct (nth_error (ww_life s) i) as [[lw|]|]; try exact Logic.I. apply steady_new_life; auto.
  - destruct (nth_error (ww_life s) i) as [[lw|]|]; try exact Logic.I. exact H.
  - destruct (nth_error (ww_life s) i) as [[lw|]|]; try exact Logic.I. destruct (nth_error (ww_life s) j) as [[lj|]|]; try exact Logic.I.
    destruct (lw_mock lw); [|apply steady_refresh; auto]. apply steady_call; auto.
  - destruct (nth_error (ww_life s) i) as [[lw|]|]; try exact Logic.I. destruct (nth_error (ww_life s) j) as [[lj|]|]; try exact Logic.I.
    destruct (i =? j); [exact H|]. apply steady_drop; auto.
  - destruct (nth_error (ww_life s) i) as [[lw|]|]; try exact Logic.I. destruct (lw_mock lw); [apply steady_call; auto|exact H].
  - unfold expect_destruct. destruct (nth_error (ww_life s) i) as [[[[|] [m|]]|]|]; try exact Logic.I; try exact H. apply steady_expect; auto.
  - unfold expect_destruct. destruct (nth_error (ww_life s) i) as [[[[|] [m|]]|]|]; try exact Logic.I; exact H.
  - apply steady_new_reloc; auto.
  - destruct (nth_error (ww_reloc s) i) as [[m|]|]; try exact Logic.I. apply steady_new_reloc; auto.
  - destruct (nth_error (ww_reloc s) i) as [[m|]|]; try exact Logic.I. apply steady_kept; auto. intros w1 Hs Hd. apply steady_call.
    + exact (reachable_step _ _ _ _ Hr Hs).
    + exact (eq_rect_r (fun n => nested n (ww_conts s)) H Hd).
  - destruct (nth_error (ww_reloc s) i) as [[m|]|]; try exact Logic.I. destruct (nth_error (ww_reloc s) j) as [[mj|]|]; try exact Logic.I.
    apply steady_kept; auto. intros w1 _ Hd1. apply steady_kept; auto. intros w2 _ Hd2. apply steady_kept; auto. intros w3 _ Hd3.
    apply (steady_next s); auto. rewrite Hd3, Hd2. exact Hd1.
  - destruct (nth_error (ww_reloc s) i) as [[m|]|]; try exact Logic.I. destruct (nth_error (ww_reloc s) j) as [[mj|]|]; try exact Logic.I. apply steady_call; auto.
  - destruct (nth_error (ww_reloc s) i) as [[m|]|]; try exact Logic.I. apply steady_kept; auto. intros w1 _ Hd. apply (steady_next s); auto.
  - destruct (nth_error (ww_reloc s) i) as [[m|]|]; try exact Logic.I. apply steady_expect; auto.
Qed.

Lemma in_step_reachable s : wreachable s -> in_step s.
Proof.
  intros [ops H]. assert (I : WatchInv winit /\ in_step winit) by (split; [apply inv_winit|exact Logic.I]).
  revert I. induction H as [|s o s1 r ops s2 Hs Hr IH]; [tauto|]. intros [I H]. apply IH.
  pose proof (inv_wstep s o I) as G. pose proof (steady_step s o (v_reachable _ I) H) as S. rewrite Hs in G, S. auto.
Qed.

(** An operation of the program that does not end a call is just executed; the end of a call resumes the special member function
    waiting for it, if any. *)
Lemma plain_step s o w1 r1 : wreachable s -> existsb (is_private s) (named o) = false -> step (ww s) o = Next w1 r1 ->
  (forall u, o <> OReturn u) -> wstep s (WOp o) = WNext (after_op s w1 o) r1.
Proof.
  intros Hr Hp Hs Ho. cbn [wstep]. rewrite Hp. unfold perform. rewrite Hs. fold (after_op s w1 o). unfold resume.
  pose proof (in_step_reachable _ Hr) as H. unfold in_step, depth in H. pose proof (inv_wreachable _ Hr) as I. apply op_depth in Hs; [|apply v_reachable; auto].
  cbn [ww_conts ww after_op]. destruct (ww_conts s) as [|[d k] ks]; auto. destruct H as [H _].
  assert (d < length (w_frames w1)) as Hd. { destruct o; try lia; [destruct (is_throw r1); lia|]. exfalso. eapply Ho; eauto. }
  apply Nat.leb_gt in Hd. rewrite Hd. reflexivity.
Qed.

(** ** The call made by a watcher *)

Lemma watcher_overload w m c : nth_error (w_mocks w) m = Some (mkMock [sig_watch] (Some [c]) true) -> find_overload w m 0 = inr (sig_watch, c).
Proof. intros H. unfold find_overload. rewrite H. reflexivity. Qed.

(** Requirements of a watcher's expectations do not run user code. *)
Lemma watcher_policies w m c e x : reachable w -> place w m c -> exp_at w e x -> eo_coll x = c -> forall p k, In p (e_policies (eo_exp x)) ->
  (exists b, policy_matches p k = Ret b) /\ (exists d, policy_describe p = Ret d).
Proof.
  intros Hr Hp Hx Hc p k Hin. pose proof (winv_reachable _ Hr) as I. pose proof (oinv_reachable _ Hr) as O.
  destruct (oi_exp _ O e x m _ [c] 0 Hx Hp eq_refl (f_equal Some (eq_sym Hc))) as [Hsig _]. cbn [mk_sigs] in Hsig.
  assert (eo_sig x = sig_watch) as Es. { destruct (eo_ov x) as [|[|n]]; simpl in Hsig; congruence. }
  pose proof (wi_pol _ I _ _ Hx) as H. rewrite Es in H. rewrite forallb_forall in H. specialize (H _ Hin).
  destruct p as [a|a|i mt f|n]; cbn [policy_matches policy_describe]; eauto. simpl in H. discriminate.
Qed.
Lemma watcher_describes w m c e x : reachable w -> place w m c -> exp_at w e x -> eo_coll x = c -> describes (eo_exp x).
Proof. intros Hr Hp Hx Hc p Hin. destruct (watcher_policies _ _ _ _ _ Hr Hp Hx Hc p (watcher_call (mkLoc "" "" 0 0)) Hin). auto. Qed.
Lemma watcher_clean w m c e x k : reachable w -> place w m c -> live_in w c e x -> clean (eo_exp x) k.
Proof. intros Hr Hp (Hx & _ & Hc) p Hin. eapply watcher_policies; eauto. Qed.

Lemma watcher_calls w m c l : reachable w -> place w m c -> obeys_contract (w_reporter w) ->
  let k := watcher_call l in
  (exists e x mr w1, candidate w c k e x /\ step w (OCall m 0 [] l) = Next w1 RUnit /\ true_report w k e x mr /\
     w_trace w1 = w_trace w ++ [EvReport (w_rid w) (RFull (make_call_report k) mr) [e]] /\ w_mocks w1 = w_mocks w) \/
  ((forall e x, ~ candidate w c k e x) /\ exists rep who, failure w c k rep who /\
     step w (OCall m 0 [] l) = failed false (react w rep) (only_reports w [EvReport (w_rid w) rep who])).
Proof.
  intros Hr Hp (C1 & C2 & C3 & C4) k.
  assert (Hnt : forall e x, ~ throwing w c k e x) by (intros e x [H1 H2]; apply H2; eapply watcher_clean; eauto).
  destruct (call_master w m 0 [] l sig_watch c) as (unh & Hu & H).
  { split; [auto|]. split; [apply watcher_overload; auto|reflexivity]. }
  { intros e x H. exfalso. eapply Hnt; eauto. }
  { intros r y. apply C4. }
  { intros mr. apply C3. }
  assert (unh = []) as ->.
  { destruct Hu as (who & [_ Hw] & H2). destruct who as [|e who]; [inversion H2; auto|]. exfalso. destruct (proj1 (Hw e) (or_introl eq_refl)) as (x & _ & Hx).
    eapply Hnt; eauto. }
  destruct H as [(who & ms & n & mr & x & ss & ctl & _ & _ & _ & _ & Hc & Ht & _ & Hs)|(Hn & rep & who & Hf & Hs)].
  - left. exists n, x, mr. eexists. split; [exact Hc|]. split; [exact Hs|]. split; [exact Ht|]. split; reflexivity.
  - right. split; [exact Hn|]. exists rep, who. split; [|exact Hs]. destruct Hf as [(A & B & C)|(A & B & C)]; [left|right]; auto.
Qed.

Lemma call_then_outcome s m c l k : reachable (ww s) -> place (ww s) m c -> obeys_contract (w_reporter (ww s)) ->
  let w := ww s in let call := watcher_call l in
  (exists e x mr s', candidate w c call e x /\ true_report w call e x mr /\ call_then s m l k = WNext s' RUnit /\
     w_trace (ww s') = w_trace w ++ [EvReport (w_rid w) (RFull (make_call_report call) mr) [e]] /\ w_mocks (ww s') = w_mocks w /\
     ww_life s' = ww_life s /\ ww_reloc s' = ww_reloc s /\ ww_conts s' = (depth s, k) :: ww_conts s /\ depth s' = S (depth s)) \/
  ((forall e x, ~ candidate w c call e x) /\ exists rep who, failure w c call rep who /\
     call_then s m l k =
       match react w rep with
       | Throws => finish (after_op s (only_reports w [EvReport (w_rid w) rep who]) (OCall m 0 [] l)) k (RThrow EReporter)
       | Terminates => WStop
       | Returns => WWrong UbUnreachable
       end).
Proof.
  intros Hr Hp Hc w call. destruct (watcher_calls (ww s) m c l Hr Hp Hc) as [(e & x & mr & w1 & Hcand & Hs & Ht & Htr & Hm)|(Hn & rep & who & Hf & Hs)].
  - left. exists e, x, mr. eexists. split; [exact Hcand|]. split; [exact Ht|]. pose proof (op_depth _ _ _ _ Hr Hs) as Hd. simpl in Hd.
    split; [unfold call_then, perform; rewrite Hs; reflexivity|]. repeat split; auto.
  - right. split; [exact Hn|]. exists rep, who. split; [exact Hf|]. unfold call_then, perform. rewrite Hs. fold w. unfold failed.
    destruct (react w rep); reflexivity.
Qed.

(** Destroying the mock of a watcher. *)
Lemma destroy_alive w m mk : nth_error (w_mocks w) m = Some mk -> mk_alive mk = true ->
  step w (ODestroyMock m) = Next (set_mocks w (upd (w_mocks w) m (mkMock (mk_sigs mk) None false))) RUnit.
Proof. intros H Ha. cbn [step]. rewrite H, Ha. reflexivity. Qed.

(** ** Who calls the private mocks *)

Definition calling (s : wworld) (o : wop) (m : nat) : bool :=
  match o with
  | LDestroy i _ _ | LCopyAssign i _ _ => match nth_error (ww_life s) i with Some x => holds m x | None => false end
  | RMove i _ _ | RMoveAssign _ i _ _ => match nth_error (ww_reloc s) i with Some x => rholds m x | None => false end
  | _ => false
  end.

Definition adds (m n : nat) (s : wworld) (st : wstepped) : Prop :=
  match st with WNext s' _ => calls m (ww_log s') = calls m (ww_log s) + n | _ => True end.

Lemma adds_perform m n s o k : (forall w1 r1, adds m n (after_op s w1 o) (k (after_op s w1 o) r1)) -> adds m (calls m [o] + n) s (perform s o k).
Proof.
  intros H. unfold perform. destruct (step (ww s) o) as [w1 r1| | |] eqn:E; simpl; auto. specialize (H w1 r1). fold (after_op s w1 o).
  destruct (k (after_op s w1 o) r1); simpl in *; auto. rewrite calls_app in H. lia.
Qed.
Lemma adds_plain m s o k : frames_kept o = true -> (forall w1 r1, adds m 0 (after_op s w1 o) (k (after_op s w1 o) r1)) -> adds m 0 s (perform s o k).
Proof.
  intros Hk H. assert (calls m [o] = 0) as E by (apply calls_other; intros; destruct o; discriminate). pose proof (adds_perform m 0 s o k H) as G.
  rewrite E in G. exact G.
Qed.
Lemma adds_same m s s1 st n : ww_log s1 = ww_log s -> adds m n s1 st -> adds m n s st.
Proof. destruct st; simpl; auto. intros <-. auto. Qed.
Lemma adds_zero m s s' r : ww_log s' = ww_log s -> adds m 0 s (WNext s' r).
Proof. simpl. intros ->. lia. Qed.
Lemma adds_leave m ne s r : adds m 0 s (leave ne s r).
Proof. destruct r; simpl; try lia. destruct ne; simpl; auto; lia. Qed.
Lemma adds_drop m s mo : adds m 0 s (drop_mock s mo).
Proof. destruct mo; cbn [drop_mock]; [apply adds_plain; auto; intros|]; apply adds_zero; auto. Qed.
Lemma adds_refresh m s i : adds m 0 s (refresh s i).
Proof.
  unfold refresh. destruct (nth_error (ww_life s) i) as [[lw|]|]; try exact Logic.I. apply adds_plain; auto. intros.
  eapply adds_same; [|apply adds_drop]. reflexivity.
Qed.
Lemma adds_finish m s k r : adds m 0 s (finish s k r).
Proof.
  destruct k; cbn [finish].
  - apply adds_plain; auto. intros. apply adds_leave.
  - apply adds_plain; auto. intros. destruct (is_throw r); [apply adds_zero; auto|apply adds_refresh].
  - destruct (is_throw r); [apply adds_plain; auto; intros; apply adds_leave|].
    destruct (nth_error (ww_reloc s) i) as [[n|]|]; try exact Logic.I. apply adds_plain; auto. intros. apply adds_zero; auto.
  - destruct (is_throw r); [apply adds_leave|]. destruct (nth_error (ww_reloc s) i) as [[mi|]|]; try exact Logic.I.
    destruct (nth_error (ww_reloc s) j) as [[mj|]|]; try exact Logic.I. apply adds_plain; auto. intros. apply adds_zero; auto.
Qed.
Lemma adds_call m s n l k : adds m (if n =? m then 1 else 0) s (call_then s n l k).
Proof.
  unfold call_then. replace (if n =? m then 1 else 0) with (calls m [OCall n 0 [] l] + 0).
  - apply adds_perform. intros w1 r1. destruct (is_throw r1); [apply adds_finish|apply adds_zero; auto].
  - unfold calls. simpl. destruct (n =? m); reflexivity.
Qed.
Lemma adds_resume m s r : adds m 0 s (resume s r).
Proof.
  unfold resume. destruct (ww_conts s) as [|[d k] ks]; [apply adds_zero; auto|]. destruct (length (w_frames (ww s)) <=? d); [|apply adds_zero; auto].
  eapply adds_same; [|apply adds_finish]. reflexivity.
Qed.

Lemma adds_step m s o : In m (ww_lmocks s ++ ww_rmocks s) -> adds m (if calling s o m then 1 else 0) s (wstep s o).
Proof.
  intros Hm. destruct o as [o| |i|i|i j l|i j|i ne l|i cls l|i| |i|i ne l|i j|i j ne l|i|i cls l]; cbn [wstep calling].
  - destruct (existsb (is_private s) (named o)) eqn:E; [exact Logic.I|]. change 0 with (0 + 0) at 1. replace 0 with (calls m [o]) at 1; [apply adds_perform; intros; apply adds_resume|].
    apply calls_other. intros ov args l ->. cbn [named existsb] in E. rewrite orb_false_r in E. apply private_spec in E. apply in_app_or in Hm. tauto.
  - unfold new_life. apply adds_plain; auto. intros. apply adds_zero; auto.
  - destruct (nth_error (ww_life s) i) as [[lw|]|]; try exact Logic.I. unfold new_life. apply adds_plain; auto. intros. apply adds_zero; auto.
  - destruct (nth_error (ww_life s) i) as [[lw|]|]; try exact Logic.I. apply adds_zero; auto.
  - destruct (nth_error (ww_life s) i) as [[[fl mo]|]|]; try exact Logic.I. destruct (nth_error (ww_life s) j) as [[lj|]|]; try exact Logic.I.
    cbn [lw_mock holds]. destruct mo; [|apply adds_refresh]. eapply adds_same; [|apply adds_call]. reflexivity.
  - destruct (nth_error (ww_life s) i) as [[lw|]|]; try exact Logic.I. destruct (nth_error (ww_life s) j) as [[lj|]|]; try exact Logic.I.
    destruct (i =? j); [apply adds_zero; auto|]. eapply adds_same; [|apply adds_drop]. reflexivity.
  - destruct (nth_error (ww_life s) i) as [[[fl mo]|]|]; try exact Logic.I.
    cbn [lw_mock holds]. destruct mo; [|apply adds_zero; reflexivity]. eapply adds_same; [|apply adds_call]. reflexivity.
  - unfold expect_destruct. destruct (nth_error (ww_life s) i) as [[[[|] [n|]]|]|]; try exact Logic.I; try (apply adds_zero; reflexivity).
    match goal with |- adds _ _ _ (perform ?x _ _) => apply (adds_same _ _ x); [reflexivity|] end. change 0 with (calls m [OExpect n 0 [] (ClTimes TxOnce :: cls) l] + 0) at 1. apply adds_perform. intros. apply adds_zero; auto.
  - unfold expect_destruct. destruct (nth_error (ww_life s) i) as [[[[|] [n|]]|]|]; try exact Logic.I; apply adds_zero; reflexivity.
  - unfold new_reloc. apply adds_plain; auto. intros. apply adds_zero; auto.
  - destruct (nth_error (ww_reloc s) i) as [[n|]|]; try exact Logic.I. unfold new_reloc. apply adds_plain; auto. intros. apply adds_zero; auto.
  - destruct (nth_error (ww_reloc s) i) as [[n|]|]; try exact Logic.I. cbn [rholds].
    change (if n =? m then 1 else 0) with (calls m [ONewMock [sig_watch]] + (if n =? m then 1 else 0)).
    apply adds_perform. intros. eapply adds_same; [|apply adds_call]. reflexivity.
  - destruct (nth_error (ww_reloc s) i) as [[n|]|]; try exact Logic.I. destruct (nth_error (ww_reloc s) j) as [[mj|]|]; try exact Logic.I.
    apply adds_plain; auto. intros. match goal with |- adds _ _ _ (perform ?x _ _) => apply (adds_same _ _ x); [reflexivity|] end. apply adds_plain; auto. intros. apply adds_plain; auto. intros. apply adds_zero; auto.
  - destruct (nth_error (ww_reloc s) i) as [[n|]|]; try exact Logic.I. destruct (nth_error (ww_reloc s) j) as [[mj|]|]; try exact Logic.I. cbn [rholds]. apply adds_call.
  - destruct (nth_error (ww_reloc s) i) as [[n|]|]; try exact Logic.I. match goal with |- adds _ _ _ (perform ?x _ _) => apply (adds_same _ _ x); [reflexivity|] end. apply adds_plain; auto. intros. apply adds_zero; auto.
  - destruct (nth_error (ww_reloc s) i) as [[n|]|]; try exact Logic.I. change 0 with (calls m [OExpect n 0 [] cls l] + 0) at 1. apply adds_perform. intros. apply adds_zero; auto.
Qed.

(** ** The mock of an identity is never moved *)

Definition moves (m : nat) (o : op) : bool :=
  match o with
  | OMoveMock n => n =? m
  | OMoveAssignMock a b => (a =? m) || (b =? m)
  | _ => false
  end.
Definition still (m : nat) (s : wworld) (st : wstepped) : Prop :=
  match st with
  | WNext s' _ => exists more, ww_log s' = ww_log s ++ more /\ run (ww s) more (ww s') /\ forallb (fun o => negb (moves m o)) more = true
  | _ => True
  end.

Lemma still_perform m s o k : moves m o = false -> (forall w1 r1, step (ww s) o = Next w1 r1 -> still m (after_op s w1 o) (k (after_op s w1 o) r1)) -> still m s (perform s o k).
Proof.
  intros Hm H. unfold perform. destruct (step (ww s) o) as [w1 r1| | |] eqn:E; simpl; auto. specialize (H w1 r1 eq_refl). fold (after_op s w1 o).
  destruct (k (after_op s w1 o) r1); simpl in *; auto. destruct H as (more & E1 & R & F). exists (o :: more). rewrite <- app_assoc in E1. split; auto.
  split; [econstructor; eauto|]. simpl. rewrite Hm. auto.
Qed.
Lemma still_next m s s' r : ww_log s' = ww_log s -> ww s' = ww s -> still m s (WNext s' r).
Proof. intros E1 E2. exists []. rewrite E1, E2, app_nil_r. split; auto. split; auto. constructor. Qed.
Lemma still_from m s s1 st : ww_log s1 = ww_log s -> ww s1 = ww s -> still m s1 st -> still m s st.
Proof. intros E1 E2. destruct st; simpl; auto. rewrite E1, E2. auto. Qed.
Lemma still_leave m ne s r : still m s (leave ne s r).
Proof. destruct r; try (apply still_next; reflexivity). destruct ne; [exact Logic.I|]. apply still_next; reflexivity. Qed.
Lemma still_drop m s mo : still m s (drop_mock s mo).
Proof. destruct mo; cbn [drop_mock]; [apply still_perform; auto; intros|]; apply still_next; auto. Qed.
Lemma still_refresh m s i : still m s (refresh s i).
Proof.
  unfold refresh. destruct (nth_error (ww_life s) i) as [[lw|]|]; try exact Logic.I. apply still_perform; auto. intros.
  eapply still_from; [| |apply still_drop]; reflexivity.
Qed.
Lemma still_finish m s k r : (is_throw r = true \/ (WatchInv s /\ cont_ok s k /\ In m (ww_lmocks s))) -> still m s (finish s k r).
Proof.
  intros H. destruct k; cbn [finish].
  - apply still_perform; auto. intros. apply still_leave.
  - apply still_perform; auto. intros. destruct (is_throw r); [apply still_next; auto|apply still_refresh].
  - destruct (is_throw r); [apply still_perform; auto; intros; apply still_leave|]. destruct H as [H|(I & (Hd & _) & Hm)]; [discriminate|].
    destruct (nth_error (ww_reloc s) i) as [[n|]|] eqn:Hn; try exact Logic.I. apply still_perform; [|intros; apply still_next; auto].
    destruct (v_reloc _ I _ _ Hn) as [Hn1 _]. simpl. apply orb_false_iff. split; apply Nat.eqb_neq; intros ->; eapply (v_disj _ I); eauto.
  - destruct (is_throw r); [apply still_leave|]. destruct H as [H|(I & _ & Hm)]; [discriminate|].
    destruct (nth_error (ww_reloc s) i) as [[mi|]|] eqn:Hi; try exact Logic.I. destruct (nth_error (ww_reloc s) j) as [[mj|]|] eqn:Hj; try exact Logic.I.
    apply still_perform; [|intros; apply still_next; auto]. destruct (v_reloc _ I _ _ Hi) as [Hn1 _]. destruct (v_reloc _ I _ _ Hj) as [Hn2 _].
    simpl. apply orb_false_iff. split; apply Nat.eqb_neq; intros ->; eapply (v_disj _ I); eauto.
Qed.
Lemma still_call m s n l k : still m s (call_then s n l k).
Proof. unfold call_then. apply still_perform; auto. intros. destruct (is_throw r1) eqn:E; [apply still_finish; auto|apply still_next; auto]. Qed.
Lemma still_resume m s r : WatchInv s -> In m (ww_lmocks s) -> still m s (resume s r).
Proof.
  intros I Hm. unfold resume. destruct (ww_conts s) as [|[d k] ks] eqn:E; [apply still_next; auto|].
  destruct (length (w_frames (ww s)) <=? d); [|apply still_next; auto]. destruct (good_pop _ _ _ _ I E) as [I1 Hk].
  eapply still_from; [| |apply still_finish; right; split; [exact I1|auto]]; reflexivity.
Qed.

Lemma still_step m s o : WatchInv s -> In m (ww_lmocks s) -> still m s (wstep s o).
Proof.
  intros I Hm. destruct o as [o| |i|i|i j l|i j|i ne l|i cls l|i| |i|i ne l|i j|i j ne l|i|i cls l]; cbn [wstep].
  - destruct (existsb (is_private s) (named o)) eqn:E; [exact Logic.I|]. apply still_perform.
    + assert (Hn : ~ In m (named o)).
      { intros Hn. assert (existsb (is_private s) (named o) = true); [|congruence]. apply existsb_exists. exists m. split; auto. unfold is_private.
        apply orb_true_iff. left. apply existsb_exists. exists m. split; auto. apply Nat.eqb_refl. }
      destruct o; simpl in Hn |- *; auto.
      * apply Nat.eqb_neq. intros ->. auto.
      * apply orb_false_iff. split; apply Nat.eqb_neq; intros ->; auto.
    + intros w1 r1 Hs. apply still_resume; auto. eapply inv_op; eauto.
  - unfold new_life. apply still_perform; auto. intros. apply still_next; auto.
  - destruct (nth_error (ww_life s) i) as [[lw|]|]; try exact Logic.I. unfold new_life. apply still_perform; auto. intros. apply still_next; auto.
  - destruct (nth_error (ww_life s) i) as [[lw|]|]; try exact Logic.I. apply still_next; auto.
  - destruct (nth_error (ww_life s) i) as [[lw|]|]; try exact Logic.I. destruct (nth_error (ww_life s) j) as [[lj|]|]; try exact Logic.I.
    destruct (lw_mock lw); [|apply still_refresh]. eapply still_from; [| |apply still_call]; reflexivity.
  - destruct (nth_error (ww_life s) i) as [[lw|]|]; try exact Logic.I. destruct (nth_error (ww_life s) j) as [[lj|]|]; try exact Logic.I.
    destruct (i =? j); [apply still_next; auto|]. eapply still_from; [| |apply still_drop]; reflexivity.
  - destruct (nth_error (ww_life s) i) as [[lw|]|]; try exact Logic.I.
    destruct (lw_mock lw); [|apply still_next; reflexivity]. eapply still_from; [| |apply still_call]; reflexivity.
  - unfold expect_destruct. destruct (nth_error (ww_life s) i) as [[[[|] [n|]]|]|]; try exact Logic.I; try (apply still_next; reflexivity).
    match goal with |- still _ _ (perform ?x _ _) => apply (still_from _ _ x); [reflexivity|reflexivity|] end.
    apply still_perform; auto. intros. apply still_next; auto.
  - unfold expect_destruct. destruct (nth_error (ww_life s) i) as [[[[|] [n|]]|]|]; try exact Logic.I; apply still_next; reflexivity.
  - unfold new_reloc. apply still_perform; auto. intros. apply still_next; auto.
  - destruct (nth_error (ww_reloc s) i) as [[n|]|]; try exact Logic.I. unfold new_reloc. apply still_perform; auto. intros. apply still_next; auto.
  - destruct (nth_error (ww_reloc s) i) as [[n|]|]; try exact Logic.I. apply still_perform; auto. intros. eapply still_from; [| |apply still_call]; reflexivity.
  - destruct (nth_error (ww_reloc s) i) as [[n|]|] eqn:Hi; try exact Logic.I. destruct (nth_error (ww_reloc s) j) as [[mj|]|]; try exact Logic.I.
    apply still_perform; auto. intros. match goal with |- still _ _ (perform ?x _ _) => apply (still_from _ _ x); [reflexivity|reflexivity|] end.
    apply still_perform.
    + destruct (v_reloc _ I _ _ Hi) as [Hn1 _]. simpl. apply orb_false_iff. split; apply Nat.eqb_neq; intros En; subst m; [eapply (v_disj _ I); eauto|].
      apply (v_lm _ I) in Hm. lia.
    + intros. apply still_perform; auto. intros. apply still_next; auto.
  - destruct (nth_error (ww_reloc s) i) as [[n|]|]; try exact Logic.I. destruct (nth_error (ww_reloc s) j) as [[mj|]|]; try exact Logic.I. apply still_call.
  - destruct (nth_error (ww_reloc s) i) as [[n|]|]; try exact Logic.I.
    match goal with |- still _ _ (perform ?x _ _) => apply (still_from _ _ x); [reflexivity|reflexivity|] end.
    apply still_perform; auto. intros. apply still_next; auto.
  - destruct (nth_error (ww_reloc s) i) as [[n|]|]; try exact Logic.I. apply still_perform; auto. intros. apply still_next; auto.
Qed.

Lemma still_run w ops w' m mk : run w ops w' -> forallb (fun o => negb (moves m o)) ops = true ->
  nth_error (w_mocks w) m = Some mk -> nth_error (w_mocks w') m = Some mk \/ exists mk', nth_error (w_mocks w') m = Some mk' /\ mk_alive mk' = false.
Proof.
  intros H Hf Hm.
  assert (G : nth_error (w_mocks w) m = Some mk \/ exists mk', nth_error (w_mocks w) m = Some mk' /\ mk_alive mk' = false) by auto. clear Hm.
  induction H as [|w o w1 r ops w2 Hs Hr IH]; auto. simpl in Hf. apply andb_true_iff in Hf. destruct Hf as [Ho Hf]. apply IH; auto. clear IH Hr Hf.
  assert (Ho' : match o with OMoveMock n => n <> m | OMoveAssignMock d s => d <> m /\ s <> m | _ => True end).
  { destruct o; simpl in Ho; auto; apply negb_true_iff in Ho; [apply Nat.eqb_neq in Ho; auto|]. apply orb_false_iff in Ho. destruct Ho as [A B].
    apply Nat.eqb_neq in A, B. auto. }
  clear Ho. destruct (Nat.eq_dec (match o with ODestroyMock n => n | _ => S m end) m) as [Hd|Hd].
  - destruct o; try lia. subst. cbn [step] in Hs. right. destruct (nth_error (w_mocks w) m) as [mk0|] eqn:Em; [|discriminate].
    destruct (negb (mk_alive mk0)); [discriminate|]. inversion Hs; subst. cbn [w_mocks set_mocks]. eexists. split; [apply nth_error_upd_eq; eapply nth_error_lt; eauto|reflexivity].
  - assert (Hn : match o with OMoveMock n | ODestroyMock n => n <> m | OMoveAssignMock d s => d <> m /\ s <> m | _ => True end) by (destruct o; auto).
    destruct G as [G|(mk' & G & Ga)]; [left|right; exists mk'; split; auto]; eapply unmoved_mock; eauto.
Qed.

Lemma place_stays s ops s' i j m fl fl' c : WatchInv s -> wrun s ops s' -> carries s i m fl -> carries s' j m fl' -> place (ww s) m c -> place (ww s') m c.
Proof.
  intros I H Hi Hj Hp. destruct (v_life _ I _ _ _ Hi) as [Hin _].
  assert (G : exists more, run (ww s) more (ww s') /\ forallb (fun o => negb (moves m o)) more = true).
  { clear Hi Hj Hp i j fl fl' c. induction H as [|s o s1 r ops s2 Hs Hr IH]; [exists []; split; [constructor|auto]|].
    pose proof (still_step m s o I Hin) as S. rewrite Hs in S. destruct S as (a & _ & Ra & Fa). pose proof (inv_wstep s o I) as I1. rewrite Hs in I1.
    destruct (wstep_later _ _ _ _ Hs) as (_ & Hl & _). destruct (IH I1 (Hl _ Hin)) as (b & Rb & Fb). exists (a ++ b).
    split; [eapply run_app; eauto|]. rewrite forallb_app, Fa. auto. }
  destruct G as (more & Hrun & Hf). pose proof (inv_wrun _ _ _ I H) as I'. destruct (v_life _ I' _ _ _ Hj) as [_ Hid]. apply ident_fixed in Hid. destruct Hid as (c' & Hc').
  destruct (still_run _ _ _ _ _ Hrun Hf Hp) as [E|(mk & E & Ea)]; [exact E|]. unfold place in Hc'. rewrite Hc' in E. inversion E; subst. discriminate.
Qed.

(** Plain expectations accept the destruction. *)
Lemma plain_policies cls : plain cls -> forall p, In p (clause_policies cls) -> exists n, p = PSideEffect n.
Proof.
  intros H p Hin. unfold clause_policies in Hin. apply in_flat_map in Hin. destruct Hin as (cl & Hcl & Hp). specialize (H _ Hcl).
  destruct cl; try contradiction. destruct Hp as [->|[]]. destruct p; try contradiction. eauto.
Qed.
Lemma plain_seqs cls : plain cls -> clause_seqs cls = [].
Proof.
  intros H. unfold clause_seqs. induction cls as [|cl cls IH]; auto. simpl. rewrite IH by (intros c Hc; apply H; right; auto).
  specialize (H cl (or_introl eq_refl)). destruct cl; auto. contradiction.
Qed.
Lemma plain_accepts x cls l0 l : as_declared x sig_watch 0 [] (ClTimes TxOnce :: cls) l0 -> plain cls -> accepts (eo_exp x) (watcher_call l) /\ x_seqs x = [].
Proof.
  intros (_ & _ & E3 & E4 & _) Hp.
  assert (Hin : forall p, In p (e_policies (eo_exp x)) -> p = PCategory CatAny \/ p = PConstness NonConst \/ exists n, p = PSideEffect n).
  { intros p H. rewrite E4 in H. simpl in H. destruct H as [<-|[<-|H]]; auto. right. right. apply (plain_policies cls); auto. }
  split.
  - split; intros p H; apply Hin in H; destruct H as [->|[->|[n ->]]]; simpl; eauto; try (split; eauto).
  - rewrite E3. simpl. apply plain_seqs; auto.
Qed.
