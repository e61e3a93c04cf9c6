(** * PropFrames: C21, C23, C25, C26, C33 (finalizers): what happens inside of matched calls. *)

From Verif Require Import Base Lib Sequence Control Signature Printer Reports Expectation Builder BuildSpec World WorldSpec CallSpec
  WorldInv ObjInv BuildProofs CountProofs Scenario ScopeProofs FrameSpec FrameProofs.

(** ** C23: the order of effects of a matched call. *)

(** The script of a call handled by expectation [n] with requirements and effects [ps]. *)
Definition script (n : nat) (ps : list policy) : list event := map (EvAction n) (effects_of ps) ++ [EvFinal n].

(** The call itself first reports the full match and counts the call; the effects follow. *)
Theorem C23_report_and_count_first w m ov args l w1 n :
  reachable w -> handled_by w (OCall m ov args l) w1 n ->
  exists unh c mr, w_trace w1 = w_trace w ++ unh ++ [EvReport (w_rid w) (RFull c mr) [n]] /\
    Forall (fun ev => exists id c r y who, ev = EvReport id (RUnhandled c r y) who) unh /\
    (exists x, exp_at w1 n x /\ c_count (ctl_of x) = Z.of_nat (S (accepted (w_trace w) n))) /\
    length (w_frames w1) = S (length (w_frames w)).
Proof.
  intros Hr H. destruct (handled_frame _ _ _ _ _ _ _ Hr H) as (s & coll & x & unh & mr & Hf & Hc & Ht & Hu & Ef).
  exists unh. do 2 eexists. split; [exact Ht|]. split; auto. destruct H as [Hs Hacc]. pose proof (reachable_step _ _ _ _ Hr Hs) as Hr1.
  split; [|rewrite Ef; reflexivity]. pose proof (winv_reachable _ Hr1) as I1. destruct Hc as ((Hx & _) & _).
  destruct (step_exps _ _ _ _ (winv_reachable _ Hr) Hs _ _ Hx) as (x' & Hx' & _). exists x'. split; auto.
  rewrite <- Hacc. exact (wi_count _ I1 _ _ Hx').
Qed.

(** While the call is running, its effects are those of the script, in order and without repetition; nested calls (of the same
    expectation, too) do not interfere. When the call returns, the whole script was executed. *)
Theorem C23_effects_in_order w m ov args l w1 n x ops evs w2 :
  reachable w -> handled_by w (OCall m ov args l) w1 n -> exp_at w n x ->
  during (length (w_frames w)) w1 ops evs w2 ->
  (exists rest, evs ++ rest = script n (e_policies (eo_exp x))) /\
  (forall user w3 r, length (w_frames w2) = S (length (w_frames w)) -> step w2 (OReturn user) = Next w3 r ->
     evs = script n (e_policies (eo_exp x)) /\ w_frames w3 = w_frames w /\
     r = match call_result_of (e_final (eo_exp x)) user with UOk v => RVal v | UThrow y => RThrow y end).
Proof.
  intros Hr H Hx Hd. destruct (handled_frame _ _ _ _ _ _ _ Hr H) as (s & coll & y & unh & mr & Hf & Hc & Ht & Hu & Ef).
  destruct Hc as ((Hy & _) & _). unfold exp_at in *. rewrite Hx in Hy. inversion Hy; subst y. clear Hy. destruct H as [Hs Hacc].
  pose proof (reachable_step _ _ _ _ Hr Hs) as Hr1.
  destruct (during_pending _ _ _ _ _ Hd Hr1 (mkFrame n (effects_of (e_policies (eo_exp x))) false false (sg_noexcept s))) as
    (f' & Hf' & En & Ene & Hfin & Ep & _).
  { rewrite (fr_cons _ _ _ _ Ef), Nat.eqb_refl. reflexivity. }
  { discriminate. }
  cbn [f_exp f_noexcept] in *. unfold pending at 1 in Ep. cbn [f_exp f_todo f_final] in Ep. split; [eexists; symmetry; exact Ep|].
  intros user w3 r Hl Hret. pose proof (reachable_run _ _ _ Hr1 (during_run _ _ _ _ _ Hd)) as Hr2. destruct (step_trace _ _ _ _ Hret) as [new Htn].
  destruct (during_below _ _ _ _ _ Hd Hr1 (w_frames w)) as [pre Epre].
  { rewrite Ef. eexists [_]. reflexivity. }
  { reflexivity. }
  destruct pre as [|g [|g2 pre]]; [rewrite Epre in Hl; simpl in Hl; lia| |rewrite Epre, app_length in Hl; simpl in Hl; lia]. cbn [app] in Epre.
  rewrite (fr_cons _ _ _ _ Epre), Nat.eqb_refl in Hf'. inversion Hf'; subst g. clear Hf'.
  destruct (step_frames _ _ _ _ _ Hr2 Hret Htn) as [E _|? ? ? ? ? ? ? Eo _ _ _ _|? ? ? ? Eo _ _ _ _|? ? Eo _ _ _ _ _|g fs u Eo Ew Efi E Enew Eex (eo & He & Hres)];
    try discriminate.
  - exfalso. cbn [step] in Hret. unfold do_return in Hret. rewrite Epre in Hret. destruct (negb (f_final f')); [discriminate|].
    destruct (nth_error (w_exps w2) (f_exp f')); [|discriminate].
    destruct (finalizer_result _ _) in Hret; unfold thrown in Hret; [|destruct (f_noexcept f'); [discriminate|]]; inversion Hret; subst;
      cbn [w_frames set_frames] in E; rewrite Epre in E; clear - E; assert (length (w_frames w) = length (f' :: w_frames w)) by congruence; simpl in *; lia.
  - inversion Eo; subst u. rewrite Epre in Ew. injection Ew as Eg Efs. subst g. unfold pending in Ep. rewrite Efi, (Hfin Efi) in Ep. cbn [map app] in Ep.
    rewrite app_nil_r in Ep. split; [symmetry; exact Ep|]. split; [congruence|].
    assert (Hst : e_final (eo_exp eo) = e_final (eo_exp x)).
    { destruct (run_static _ _ _ (winv_reachable _ Hr) (run_app _ _ _ _ _ (run_one _ _ _ _ Hs) (during_run _ _ _ _ _ Hd)) _ _ Hx) as (x2 & Hx2 & Hst).
      rewrite En in He. unfold exp_at in Hx2. rewrite He in Hx2. inversion Hx2; subst x2. destruct Hst as (_ & _ & _ & _ & _ & Hst & _). auto. }
    rewrite Hst in Hres. destruct (call_result_of (e_final (eo_exp x)) user); [auto|tauto].
Qed.

(** The script consists of what the program attached to the expectation: the effects and the finalizer of the expectation
    expression. *)
Theorem C23_effects_as_attached ops0 w0 m ov ms cls l w1 ops w2 :
  run init ops0 w0 -> step w0 (OExpect m ov ms cls l) = Next w1 RUnit -> run w1 ops w2 ->
  exists x, exp_at w2 (length (w_exps w0)) x /\ effects_of (e_policies (eo_exp x)) = effects_of (clause_policies cls) /\
    e_final (eo_exp x) = declared_finalizer cls.
Proof.
  intros H0 H1 H2. destruct (declared_expectation _ _ _ _ _ _ _ _ _ _ H0 H1 H2) as (s & coll & x & _ & Hx & (_ & _ & _ & Hp & Hf & _) & _).
  exists x. split; auto. split; auto. rewrite Hp. unfold effects_of. rewrite !flat_map_app. cbn [overload_requirements flat_map app].
  unfold arg_requirements. induction (combine (seq 0 (length ms)) ms); auto.
Qed.

(** The effects observe the updated count. *)
Theorem C23_count_observed w m ov args l w1 n x ops evs w2 h :
  reachable w -> handled_by w (OCall m ov args l) w1 n -> exp_at w n x ->
  during (length (w_frames w)) w1 ops evs w2 -> nth_error (w_scoped w2) h = Some (HOwns n) ->
  accepted (w_trace w) n < accepted (w_trace w2) n /\
  exists b, step w2 (OSatisfied h) = Next w2 (RBool b) /\
    (b = true <-> (x_min x <= Z.of_nat (accepted (w_trace w2) n))%Z).
Proof.
  intros Hr [Hs Hacc] Hx Hd Hh. pose proof (reachable_step _ _ _ _ Hr Hs) as Hr1. pose proof (during_run _ _ _ _ _ Hd) as Hrun.
  pose proof (reachable_run _ _ _ Hr1 Hrun) as Hr2. split; [pose proof (accepted_mono _ _ _ n Hrun); lia|].
  destruct (end_setting _ _ _ Hr2 Hh) as (y & _ & Hy & Ha & _). cbn [step]. rewrite Hh. unfold exp_at in Hy. rewrite Hy, Ha. eexists. split; [reflexivity|].
  destruct (run_static _ _ _ (winv_reachable _ Hr) (run_app _ _ _ _ _ (run_one _ _ _ _ Hs) Hrun) _ _ Hx) as (x2 & Hx2 & Hst).
  unfold exp_at in Hx2. rewrite Hy in Hx2. inversion Hx2; subst x2. destruct Hst as (_ & _ & _ & _ & _ & _ & <- & _).
  destruct (satisfied_count _ _ _ (winv_reachable _ Hr2) Hy) as [[-> H]|[-> H]]; split; auto; try discriminate; lia.
Qed.

(** Without interference the call runs to its end: all side effects, then the finalizer, then the return. *)
Theorem C23_completes w m ov args l w1 n x user v :
  reachable w -> handled_by w (OCall m ov args l) w1 n -> exp_at w n x ->
  call_result_of (e_final (eo_exp x)) user = UOk v ->
  exists w2 w3, during (length (w_frames w)) w1 (repeat OAction (length (effects_of (e_policies (eo_exp x)))) ++ [OFinal])
      (script n (e_policies (eo_exp x))) w2 /\ w_trace w2 = w_trace w1 ++ script n (e_policies (eo_exp x)) /\
    step w2 (OReturn user) = Next w3 (RVal v) /\ w_trace w3 = w_trace w2 /\ w_frames w3 = w_frames w.
Proof.
  intros Hr H Hx Hv. destruct (handled_frame _ _ _ _ _ _ _ Hr H) as (s & coll & y & unh & mr & Hf & Hc & Ht & Hu & Ef).
  destruct Hc as ((Hy & Ha & _) & _). unfold exp_at in *. rewrite Hx in Hy. inversion Hy; subst y. clear Hy. destruct H as [Hs Hacc].
  assert (Hx1 : exists y, nth_error (w_exps w1) n = Some y /\ eo_alive y = true /\ e_final (eo_exp y) = e_final (eo_exp x)).
  { destruct (step_exps _ _ _ _ (winv_reachable _ Hr) Hs _ _ Hx) as (y & Hy & (_ & _ & _ & _ & _ & Hst & _) & Hal). exists y.
    split; auto. split; auto. rewrite Hal, Ha. reflexivity. }
  clear Hs Hacc Ht. unfold script. revert w1 Ef Hx1. generalize false at 1 as st.
  induction (effects_of (e_policies (eo_exp x))) as [|a todo IH]; intros st w1 Ef (y & Hy & Hal & Hfi).
  - cbn [length repeat app map]. 
    pose (w2 := set_frames (emit w1 (EvFinal n)) (mkFrame n [] st true (sg_noexcept s) :: w_frames w)).
    exists w2, (set_frames w2 (w_frames w)). split; [|split; [reflexivity|split; [|auto]]].
    + replace [EvFinal n] with ((if length (w_frames w1) =? S (length (w_frames w)) then filter is_effect [EvFinal n] else []) ++ []).
      2:{ rewrite Ef. cbn [length]. rewrite Nat.eqb_refl. reflexivity. }
      econstructor.
      * rewrite Ef. simpl. lia.
      * cbn [step]. unfold do_final. rewrite Ef. cbn [f_todo f_final f_exp]. unfold exp_alive. rewrite Hy, Hal. reflexivity.
      * reflexivity.
      * constructor. simpl. lia.
    + cbn [step]. unfold do_return. cbn [w_frames w2 set_frames f_final negb f_exp w_exps emit]. unfold w2. cbn [w_exps set_frames emit]. rewrite Hy.
      rewrite Hfi, finalizer_result_spec, Hv. reflexivity.
  - cbn [length repeat app map].
    destruct (IH true (set_frames (emit w1 (EvAction n a)) (mkFrame n todo true false (sg_noexcept s) :: w_frames w))) as (w2 & w3 & Hd & Ht & H3);
      [reflexivity|exists y; auto|].
    exists w2, w3. split; [|split; [|exact H3]].
    + change (EvAction n a :: map (EvAction n) todo ++ [EvFinal n]) with ([EvAction n a] ++ map (EvAction n) todo ++ [EvFinal n]).
      replace [EvAction n a] with (if length (w_frames w1) =? S (length (w_frames w)) then filter is_effect [EvAction n a] else []).
      2:{ rewrite Ef. cbn [length]. rewrite Nat.eqb_refl. reflexivity. }
      econstructor.
      * rewrite Ef. simpl. lia.
      * cbn [step]. unfold do_action. rewrite Ef. cbn [f_todo f_exp f_final f_noexcept]. unfold exp_alive. rewrite Hy, Hal. reflexivity.
      * reflexivity.
      * exact Hd.
    + rewrite Ht. cbn [w_trace set_frames emit]. rewrite <- app_assoc. reflexivity.
Qed.

(** A call with two side effects, the first of which calls the same mock (handled by another expectation) and queries the count. *)
Definition prog_effects : list op :=
  [ONewMock [sig_int]; OExpect 0 0 [m_eq 1] [ClPolicy (PSideEffect 7); ClFinal (FReturns (VInt 5)); ClPolicy (PSideEffect 8)] here;
   OExpect 0 0 [m_eq 2] [ClPolicy (PSideEffect 9); ClFinal FAction] here].
Example C23_example :
  let body := [OAction; OSatisfied 0; OCall 0 0 [VInt 2] here; OAction; OFinal; OReturn (UOk (VInt 6)); OAction; OFinal] in
  results (prog_effects ++ [OCall 0 0 [VInt 1] here] ++ body ++ [OReturn (UOk (VInt 0))])
  = [RUnit; RUnit; RUnit; RUnit; RUnit; RBool true; RUnit; RUnit; RUnit; RVal (Some (VInt 6)); RUnit; RUnit; RVal (Some (VInt 5))] /\
  filter is_effect (w_trace (after (prog_effects ++ [OCall 0 0 [VInt 1] here] ++ body)))
  = [EvAction 0 7; EvAction 1 9; EvFinal 1; EvAction 0 8; EvFinal 0] /\
  exists w2, during 0 (after (prog_effects ++ [OCall 0 0 [VInt 1] here])) body [EvAction 0 7; EvAction 0 8; EvFinal 0] w2 /\
    handled_by (after prog_effects) (OCall 0 0 [VInt 1] here) (after (prog_effects ++ [OCall 0 0 [VInt 1] here])) 0.
Proof.
  split; [vm_compute; reflexivity|]. split; [vm_compute; reflexivity|]. eexists. split; [|split; vm_compute; reflexivity].
  assert (S1 : forall w o w1 r new ops evs w', 0 < length (w_frames w) -> step w o = Next w1 r -> w_trace w1 = w_trace w ++ new -> during 0 w1 ops evs w' ->
     forall evs', evs' = (if length (w_frames w) =? 1 then filter is_effect new else []) ++ evs -> during 0 w (o :: ops) evs' w').
  { intros. subst. econstructor; eauto. }
  eapply S1 with (new := [EvAction 0 7]); [vm_compute; lia|vm_compute; reflexivity|vm_compute; reflexivity| |vm_compute; reflexivity].
  eapply S1 with (new := []); [vm_compute; lia|vm_compute; reflexivity|vm_compute; reflexivity| |vm_compute; reflexivity].
  eapply S1 with (new := [_]); [vm_compute; lia|vm_compute; reflexivity|vm_compute; reflexivity| |vm_compute; reflexivity].
  eapply S1 with (new := [EvAction 1 9]); [vm_compute; lia|vm_compute; reflexivity|vm_compute; reflexivity| |vm_compute; reflexivity].
  eapply S1 with (new := [EvFinal 1]); [vm_compute; lia|vm_compute; reflexivity|vm_compute; reflexivity| |vm_compute; reflexivity].
  eapply S1 with (new := []); [vm_compute; lia|vm_compute; reflexivity|vm_compute; reflexivity| |vm_compute; reflexivity].
  eapply S1 with (new := [EvAction 0 8]); [vm_compute; lia|vm_compute; reflexivity|vm_compute; reflexivity| |vm_compute; reflexivity].
  eapply S1 with (new := [EvFinal 0]); [vm_compute; lia|vm_compute; reflexivity|vm_compute; reflexivity| |vm_compute; reflexivity].
  constructor. vm_compute. lia.
Qed.

(** ** C26 and C33: exceptions from finalizers and side effects. *)

(** The frame of the call at the moment its finalizer was started. *)
Lemma finalized_frame w m ov args l w1 n x ops evs w2 s coll :
  reachable w -> handled_by w (OCall m ov args l) w1 n -> exp_at w n x -> find_overload w m ov = inr (s, coll) ->
  during (length (w_frames w)) w1 ops evs w2 -> length (w_frames w2) = S (length (w_frames w)) ->
  exists f y, w_frames w2 = f :: w_frames w /\ f_exp f = n /\ f_noexcept f = sg_noexcept s /\ nth_error (w_exps w2) n = Some y /\
    e_final (eo_exp y) = e_final (eo_exp x) /\ f_started f = existsb is_action evs /\ (f_final f = true -> f_todo f = []) /\
    map (EvAction n) (effects_of (e_policies (eo_exp x))) ++ [EvFinal n]
    = evs ++ map (EvAction n) (f_todo f) ++ (if f_final f then [] else [EvFinal n]).
Proof.
  intros Hr H Hx Hf Hd Hl. destruct (handled_frame _ _ _ _ _ _ _ Hr H) as (s' & coll' & y & unh & mr & Hf' & Hc & Ht & Hu & Ef).
  rewrite Hf in Hf'. inversion Hf'; subst s' coll'. destruct Hc as ((Hy & _) & _). unfold exp_at in *. rewrite Hx in Hy. inversion Hy; subst y. clear Hy.
  destruct H as [Hs Hacc]. pose proof (reachable_step _ _ _ _ Hr Hs) as Hr1.
  destruct (during_pending _ _ _ _ _ Hd Hr1 (mkFrame n (effects_of (e_policies (eo_exp x))) false false (sg_noexcept s))) as
    (f' & Hff & En & Ene & Hfin & Ep & Est).
  { rewrite (fr_cons _ _ _ _ Ef), Nat.eqb_refl. reflexivity. }
  { discriminate. }
  destruct (during_below _ _ _ _ _ Hd Hr1 (w_frames w)) as [pre Epre].
  { rewrite Ef. eexists [_]. reflexivity. }
  { reflexivity. }
  destruct pre as [|g [|g2 pre]]; [rewrite Epre in Hl; simpl in Hl; lia| |rewrite Epre, app_length in Hl; simpl in Hl; lia]. cbn [app] in Epre.
  rewrite (fr_cons _ _ _ _ Epre), Nat.eqb_refl in Hff. inversion Hff; subst g. clear Hff. cbn [f_exp f_noexcept f_started orb] in *.
  destruct (run_static _ _ _ (winv_reachable _ Hr) (run_app _ _ _ _ _ (run_one _ _ _ _ Hs) (during_run _ _ _ _ _ Hd)) _ _ Hx) as
    (x2 & Hx2 & (_ & _ & _ & _ & _ & Hst & _)).
  exists f', x2. do 6 (split; auto). split; auto. unfold pending in Ep. cbn [f_exp f_todo f_final] in Ep. rewrite En in Ep. exact Ep.
Qed.

Lemma script_split n (a : list nat) (evs rest : list event) : map (EvAction n) a ++ [EvFinal n] = evs ++ rest -> In (EvFinal n) evs -> rest = [].
Proof.
  revert evs. induction a as [|k a IH]; intros evs H Hin; destruct evs as [|e evs]; try contradiction; cbn [map app] in H; inversion H; subst.
  - destruct evs; [|discriminate]. destruct rest; [reflexivity|discriminate].
  - destruct Hin as [Hin|Hin]; [discriminate|]. eapply IH; eauto.
Qed.

(** The finalizer was started and throws [y] (because it is finally::throws or because the user's action throws): on an overload
    without noexcept the exception reaches the caller, nothing else happens and the call stays counted. *)
Theorem C26_finalizer_exception w m ov args l w1 n x ops evs w2 s coll user y :
  reachable w -> handled_by w (OCall m ov args l) w1 n -> exp_at w n x -> find_overload w m ov = inr (s, coll) ->
  during (length (w_frames w)) w1 ops evs w2 -> length (w_frames w2) = S (length (w_frames w)) -> In (EvFinal n) evs ->
  call_result_of (e_final (eo_exp x)) user = UThrow y -> sg_noexcept s = false ->
  exists w3, step w2 (OReturn user) = Next w3 (RThrow y) /\ w_frames w3 = w_frames w /\ w_trace w3 = w_trace w2 /\ w_exps w3 = w_exps w2 /\
    accepted (w_trace w) n < accepted (w_trace w3) n.
Proof.
  intros Hr H Hx Hf Hd Hl Hin Hy Hn. destruct (finalized_frame _ _ _ _ _ _ _ _ _ _ _ _ _ Hr H Hx Hf Hd Hl) as (f & e & Ef & En & Ene & He & Hfi & _ & _ & Ep).
  pose proof (script_split _ _ _ _ Ep Hin) as Er. apply app_eq_nil in Er. destruct Er as [Ef2 Er]. destruct (f_final f) eqn:Efi; [|discriminate].
  exists (set_frames w2 (w_frames w)). cbn [step]. unfold do_return. rewrite Ef, Efi. cbn [negb]. rewrite En, He, Hfi, finalizer_result_spec, Hy, Ene, Hn.
  do 4 (split; [reflexivity|]). cbn [w_trace set_frames]. destruct H as [Hs Hacc]. pose proof (accepted_mono _ _ _ n (during_run _ _ _ _ _ Hd)). lia.
Qed.

(** On a noexcept overload the same exception ends the program. *)
Theorem C33_finalizer_exception_terminates w m ov args l w1 n x ops evs w2 s coll user y :
  reachable w -> handled_by w (OCall m ov args l) w1 n -> exp_at w n x -> find_overload w m ov = inr (s, coll) ->
  during (length (w_frames w)) w1 ops evs w2 -> length (w_frames w2) = S (length (w_frames w)) -> In (EvFinal n) evs ->
  call_result_of (e_final (eo_exp x)) user = UThrow y -> sg_noexcept s = true ->
  step w2 (OReturn user) = Stop.
Proof.
  intros Hr H Hx Hf Hd Hl Hin Hy Hn. destruct (finalized_frame _ _ _ _ _ _ _ _ _ _ _ _ _ Hr H Hx Hf Hd Hl) as (f & e & Ef & En & Ene & He & Hfi & _ & _ & Ep).
  pose proof (script_split _ _ _ _ Ep Hin) as Er. apply app_eq_nil in Er. destruct Er as [Ef2 Er]. destruct (f_final f) eqn:Efi; [|discriminate].
  cbn [step]. unfold do_return. rewrite Ef, Efi. cbn [negb]. rewrite En, He, Hfi, finalizer_result_spec, Hy, Ene, Hn. reflexivity.
Qed.

(** A call on a noexcept overload never returns by an exception. *)
Theorem C33_noexcept_return_never_throws w m ov args l w1 n ops evs w2 s coll user w3 r :
  reachable w -> handled_by w (OCall m ov args l) w1 n -> find_overload w m ov = inr (s, coll) -> sg_noexcept s = true ->
  during (length (w_frames w)) w1 ops evs w2 -> length (w_frames w2) = S (length (w_frames w)) -> step w2 (OReturn user) = Next w3 r ->
  exists v, r = RVal v.
Proof.
  intros Hr H Hf Hn Hd Hl Hret. destruct (handled_frame _ _ _ _ _ _ _ Hr H) as (s' & coll' & x & unh & mr & _ & ((Hx & _) & _) & _).
  destruct (finalized_frame _ _ _ _ _ _ _ _ _ _ _ _ _ Hr H Hx Hf Hd Hl) as (f & e & Ef & En & Ene & He & Hfi & _).
  cbn [step] in Hret. unfold do_return in Hret. rewrite Ef in Hret. destruct (negb (f_final f)); [discriminate|]. rewrite En, He in Hret.
  destruct (finalizer_result _ _) as [v|y]; [inversion Hret; eauto|]. rewrite Ene, Hn in Hret. discriminate.
Qed.

(** A side effect of the call was started, none of its exceptions reaches anybody: the program ends. *)
Theorem C26_side_effect_exception_terminates w m ov args l w1 n ops evs w2 k y :
  reachable w -> handled_by w (OCall m ov args l) w1 n ->
  during (length (w_frames w)) w1 ops evs w2 -> length (w_frames w2) = S (length (w_frames w)) ->
  In (EvAction n k) evs -> ~ In (EvFinal n) evs ->
  step w2 (OActionThrows y) = Stop.
Proof.
  intros Hr H Hd Hl Hin Hnf. destruct (handled_frame _ _ _ _ _ _ _ Hr H) as (s & coll & x & unh & mr & Hf & ((Hx & _) & _) & _).
  destruct (finalized_frame _ _ _ _ _ _ _ _ _ _ _ _ _ Hr H Hx Hf Hd Hl) as (f & e & Ef & En & Ene & He & Hfi & Hst & Hft & Ep).
  cbn [step]. rewrite Ef, Hst. replace (existsb is_action evs) with true.
  2:{ symmetry. apply existsb_exists. exists (EvAction n k). auto. }
  destruct (f_final f) eqn:Efi; [|reflexivity]. exfalso. rewrite (Hft eq_refl) in Ep. cbn [map app] in Ep. rewrite app_nil_r in Ep.
  apply Hnf. rewrite <- Ep. apply in_app_iff. right. left. reflexivity.
Qed.

Example C26_example :
  results [ONewMock [sig_int]; OExpect 0 0 [m_any] [ClFinal (FThrows (EUser 3))] here; OCall 0 0 [VInt 1] here; OFinal; OReturn (UOk (VInt 0)); OSatisfied 0]
  = [RUnit; RUnit; RUnit; RUnit; RThrow (EUser 3); RBool true] /\
  step (after [ONewMock [sig_int]; OExpect 0 0 [m_any] [ClPolicy (PSideEffect 7); ClFinal FAction] here; OCall 0 0 [VInt 1] here; OAction]) (OActionThrows (EUser 4))
  = Stop /\
  step (after [ONewMock [sig_void_noexcept]; OExpect 0 0 [] [ClFinal (FThrows (EUser 3))] here; OCall 0 0 [] here; OFinal]) (OReturn (UOk (VInt 0)))
  = Stop.
Proof. vm_compute. auto. Qed.

(** ** C21: no assertion and no undefined behaviour in legal use. *)

(** [legal] excludes moved-from objects, reporters violating their contract and ending the scope of an expectation inside of one
    of its own calls which still needs it; everything else is allowed, in particular arbitrarily nested calls from side effects and finalizers. *)
Theorem C21_legal_use_is_defined ops w o u : legal_run init ops w -> legal w o -> step w o <> Wrong u.
Proof.
  intros H HL. apply legal_not_wrong; auto; [exists ops; apply legal_run_run; auto|eapply linv_run; eauto].
Qed.

(** Legal programs containing moves, nested calls, sequences and scope ends exist. *)
Definition legal_b (w : world) (o : op) : bool :=
  match o with
  | OCall m _ _ _ | OExpect m _ _ _ _ => match nth_error (w_mocks w) m with Some mk => match mk_colls mk with None => false | _ => true end | None => true end
  | OSatisfied h => match nth_error (w_scoped w) h with Some HEmpty => false | _ => true end
  | OEndScope h | OMoveAssignScoped h _ =>
      match nth_error (w_scoped w) h with Some (HOwns e) => forallb (fun f => negb (f_exp f =? e) || (f_final f && match nth_error (w_exps w) e with
        Some x => match e_final (eo_exp x) with FAction | FInit => true | _ => false end | None => false end)) (w_frames w) | _ => true end
  | OInstall _ => false
  | _ => true
  end.
Lemma legal_b_legal w o : legal_b w o = true -> legal w o.
Proof.
  destruct o; simpl; auto; intros H.
  - intros mk E. rewrite E in H. destruct (mk_colls mk); [discriminate|congruence].
  - intros mk E. rewrite E in H. destruct (mk_colls mk); [discriminate|congruence].
  - intros E. rewrite E in H. discriminate.
  - intros e f E Hf Ee. rewrite E in H. rewrite forallb_forall in H. apply H in Hf. rewrite Ee, Nat.eqb_refl in Hf. cbn [negb orb] in Hf. apply andb_prop in Hf as [Hf Hx].
    split; [auto|]. rewrite Ee. destruct (nth_error (w_exps w) e) as [x|] eqn:Ex; [|discriminate]. exists x. split; [auto|]. destruct (e_final (eo_exp x)); auto; discriminate.
  - intros e f E Hf Ee. rewrite E in H. rewrite forallb_forall in H. apply H in Hf. rewrite Ee, Nat.eqb_refl in Hf. cbn [negb orb] in Hf. apply andb_prop in Hf as [Hf Hx].
    split; [auto|]. rewrite Ee. destruct (nth_error (w_exps w) e) as [x|] eqn:Ex; [|discriminate]. exists x. split; [auto|]. destruct (e_final (eo_exp x)); auto; discriminate.
  - discriminate.
Qed.
Fixpoint legal_exec (w : world) (ops : list op) : bool :=
  match ops with
  | [] => true
  | o :: ops' => legal_b w o && match step w o with Next w1 _ => legal_exec w1 ops' | _ => false end
  end.
Lemma legal_exec_run ops : forall w, legal_exec w ops = true -> exists w', legal_run w ops w'.
Proof.
  induction ops as [|o ops IH]; intros w H; [eexists; constructor|]. cbn [legal_exec] in H. apply Bool.andb_true_iff in H. destruct H as [H1 H2].
  destruct (step w o) as [w1 r| | |] eqn:E; try discriminate. destruct (IH _ H2) as [w' H]. exists w'. econstructor; eauto. apply legal_b_legal; auto.
Qed.
Example C21_example : exists w, legal_run init
  ([ONewSeq Lazy] ++ prog_effects ++ [OMoveMock 0; OExpect 1 0 [m_eq 3] [ClSeq [0]; ClTimes (TxAtMost 1); ClFinal (FReturns (VInt 1))] there; OCall 1 0 [VInt 1] here; OAction; OEndScope 2;
     OCall 1 0 [VInt 2] here; OAction; OFinal; OReturn (UOk (VInt 6)); OEndScope 1; OAction; OFinal; OReturn (UOk (VInt 0)); OEndScope 0; ODropSeq 0]) w.
Proof. apply legal_exec_run. vm_compute. reflexivity. Qed.

(** ** C25: ending scopes from inside of calls. *)

(** If the expectation handling the innermost call is not alive any more and the call is not at its finalizer yet, the next thing the
    call does is undefined. *)
Theorem C25_own_scope_is_undefined w m ov args l w1 n ops evs w2 y :
  reachable w -> handled_by w (OCall m ov args l) w1 n ->
  during (length (w_frames w)) w1 ops evs w2 -> length (w_frames w2) = S (length (w_frames w)) -> ~ In (EvFinal n) evs ->
  exp_at w2 n y -> eo_alive y = false ->
  (step w2 OAction = Wrong UbDangling /\ step w2 OFinal = Invalid) \/ (step w2 OAction = Invalid /\ step w2 OFinal = Wrong UbDangling).
Proof.
  intros Hr H Hd Hl Hnf Hy Ha. destruct (handled_frame _ _ _ _ _ _ _ Hr H) as (s & coll & x & unh & mr & Hf & ((Hx & _) & _) & _).
  destruct (finalized_frame _ _ _ _ _ _ _ _ _ _ _ _ _ Hr H Hx Hf Hd Hl) as (f & e & Ef & En & Ene & He & Hfi & Hst & Hft & Ep).
  assert (Efi : f_final f = false).
  { destruct (f_final f) eqn:Efi; auto. exfalso. rewrite (Hft eq_refl) in Ep. cbn [map app] in Ep. rewrite app_nil_r in Ep.
    apply Hnf. rewrite <- Ep. apply in_app_iff. right. left. reflexivity. }
  cbn [step]. unfold do_action, do_final, exp_alive, exp_at in *. rewrite Ef. cbv iota beta. rewrite Efi, En, Hy, Ha. destruct (f_todo f); auto.
Qed.

(** The expectation that side effects may end any scope is false: ending the own one leads to undefined behaviour. *)
Theorem C25_own_scope_refuted :
  exists ops w h e, run init ops w /\ nth_error (w_scoped w) h = Some (HOwns e) /\
    (forall m, nth_error (w_mocks w) m = None \/ exists mk, nth_error (w_mocks w) m = Some mk /\ mk_colls mk <> None) /\
    exists w', step w (OEndScope h) = Next w' RUnit /\ step w' OFinal = Wrong UbDangling.
Proof.
  exists [ONewMock [sig_void]; OExpect 0 0 [] [ClPolicy (PSideEffect 1)] here; OCall 0 0 [] here; OAction], 
    (after [ONewMock [sig_void]; OExpect 0 0 [] [ClPolicy (PSideEffect 1)] here; OCall 0 0 [] here; OAction]), 0, 0.
  split; [apply after_run; vm_compute; reflexivity|]. split; [vm_compute; reflexivity|]. split.
  - intros [|m]; [right; eexists; split; [vm_compute; reflexivity|discriminate]|left; destruct m; vm_compute; reflexivity].
  - eexists. split; vm_compute; reflexivity.
Qed.

(** Ending any other scope is safe: it is defined, ends no running call, and the program may go on as a legal one. *)
Theorem C25_other_scopes_are_safe ops w h e :
  legal_run init ops w -> nth_error (w_scoped w) h = Some (HOwns e) -> (forall f, In f (w_frames w) -> f_exp f <> e) ->
  (step w (OEndScope h) = Stop \/ exists w' r, step w (OEndScope h) = Next w' r /\ legal_run init (ops ++ [OEndScope h]) w' /\ w_frames w' = w_frames w) /\
  (forall w' r o u, step w (OEndScope h) = Next w' r -> legal w' o -> step w' o <> Wrong u).
Proof.
  intros H Hh Hn. assert (HL : legal w (OEndScope h)). { intros k f E Hf Ek. rewrite Hh in E. inversion E; subst. exfalso. exact (Hn f Hf eq_refl). }
  assert (S1 : forall v o v1 r, legal_run v ops w -> legal w o -> step w o = Next v1 r -> legal_run v (ops ++ [o]) v1).
  { clear. intros v o v1 r H. induction H; intros; cbn [app]; econstructor; eauto; try constructor. }
  assert (Hr : reachable w) by (exists ops; apply legal_run_run; auto). split.
  - destruct (end_next_or_stop _ _ _ Hr Hh (upd (w_scoped w) h HDead)) as [(w' & r & E)|E]; cbn [step]; rewrite Hh, E; auto.
    right. exists w', r. split; auto. split; [eapply S1; eauto; cbn [step]; rewrite Hh; exact E|]. apply end_expectation_parts in E.
    destruct E as (_ & _ & -> & _). reflexivity.
  - intros w' r o u E HL'. eapply C21_legal_use_is_defined; eauto.
Qed.

(** The function given to returns_result_of, too, may end the scope of the expectation it belongs to: this is legal, and its result is returned. *)
Theorem C25_finalizers_may_end_their_scope ops w h f fs x :
  legal_run init ops w -> w_frames w = f :: fs -> f_final f = true -> exp_at w (f_exp f) x -> e_final (eo_exp x) = FAction ->
  nth_error (w_scoped w) h = Some (HOwns (f_exp f)) -> (forall g, In g fs -> f_exp g = f_exp f -> f_final g = true) ->
  (forall u, step w (OEndScope h) <> Wrong u) /\ step w (OEndScope h) <> Invalid /\
  (forall w' r, step w (OEndScope h) = Next w' r ->
    legal_run init (ops ++ [OEndScope h]) w' /\ (exists x', exp_at w' (f_exp f) x' /\ eo_alive x' = false) /\
    forall v, exists w2, step w' (OReturn (UOk v)) = Next w2 (RVal (Some v)) /\ w_frames w2 = fs /\ legal_run init (ops ++ [OEndScope h; OReturn (UOk v)]) w2).
Proof.
  intros H Ef Hff Hx Hfin Hh Hg. assert (Hr : reachable w) by (exists ops; apply legal_run_run; auto). pose proof (winv_reachable _ Hr) as I.
  assert (HL : legal w (OEndScope h)).
  { intros e g E Hin Eg. rewrite Hh in E. injection E as <-. split.
    - rewrite Ef in Hin. destruct Hin as [<-|Hin]; auto.
    - exists x. rewrite Eg. auto. }
  assert (S1 : forall v o os v1 v2 r, legal_run v os v1 -> legal v1 o -> step v1 o = Next v2 r -> legal_run v (os ++ [o]) v2).
  { clear. intros v o os v1 v2 r H. induction H; intros; cbn [app]; econstructor; eauto; try constructor. }
  split; [intros u; eapply C21_legal_use_is_defined; eauto|]. split.
  { destruct (end_next_or_stop _ _ _ Hr Hh (upd (w_scoped w) h HDead)) as [(w' & r & E)|E]; cbn [step]; rewrite Hh, E; discriminate. }
  intros w' r E. assert (H' : legal_run init (ops ++ [OEndScope h]) w') by (eapply S1; eauto). split; [exact H'|].
  destruct (step_exps _ _ _ _ I E _ _ Hx) as (x' & Hx' & He & Ha).
  split.
  { exists x'. split; auto. rewrite Ha. cbn [ended]. rewrite Hh, Nat.eqb_refl. apply Bool.andb_false_r. }
  assert (Efr : w_frames w' = f :: fs).
  { cbn [step] in E. rewrite Hh in E. apply end_expectation_parts in E. destruct E as (_ & _ & -> & _). exact Ef. }
  intros v. exists (set_frames w' fs).
  assert (Er : step w' (OReturn (UOk v)) = Next (set_frames w' fs) (RVal (Some v))).
  { cbn [step]. unfold do_return. rewrite Efr, Hff. unfold exp_at in Hx'. cbn [negb]. rewrite Hx'.
    replace (e_final (eo_exp x')) with FAction by (rewrite <- Hfin; destruct He as (_ & _ & _ & _ & _ & -> & _); reflexivity). reflexivity. }
  split; [exact Er|]. split; [reflexivity|]. change [OEndScope h; OReturn (UOk v)] with ([OEndScope h] ++ [OReturn (UOk v)]). rewrite app_assoc.
  eapply S1; [exact H'|exact Logic.I|exact Er].
Qed.

Example C25_example_finalizer : exists w x,
  legal_run init [ONewMock [sig_int]; OExpect 0 0 [m_any] [ClFinal FAction] here; OCall 0 0 [VInt 1] here; OFinal] w /\
  (exists f, w_frames w = [f] /\ f_final f = true /\ exp_at w (f_exp f) x /\ nth_error (w_scoped w) 0 = Some (HOwns (f_exp f))) /\ e_final (eo_exp x) = FAction /\
  exists w', step w (OEndScope 0) = Next w' RUnit /\ exists w2, step w' (OReturn (UOk (VInt 7))) = Next w2 (RVal (Some (VInt 7))).
Proof.
  eexists. eexists. split; [|split; [|split]].
  - do 4 (eapply lr_cons; [first [exact Logic.I|apply legal_b_legal; vm_compute; reflexivity]|vm_compute; reflexivity|]). apply lr_nil.
  - eexists. split; [reflexivity|]. split; [reflexivity|]. split; vm_compute; reflexivity.
  - reflexivity.
  - eexists. split; [vm_compute; reflexivity|]. eexists. vm_compute. reflexivity.
Qed.

Example C25_example : exists w, legal_run init
  [ONewMock [sig_int]; OExpect 0 0 [m_eq 1] [ClPolicy (PSideEffect 7); ClFinal (FReturns (VInt 5))] here;
   OExpect 0 0 [m_eq 2] [ClFinal FAction; ClTimes (TxAtMost 1)] here; OCall 0 0 [VInt 1] here; OAction; OEndScope 1; OFinal; OReturn (UOk (VInt 0))] w.
Proof. apply legal_exec_run. vm_compute. reflexivity. Qed.

Print Assumptions C23_report_and_count_first.
Print Assumptions C23_effects_in_order.
Print Assumptions C23_effects_as_attached.
Print Assumptions C23_count_observed.
Print Assumptions C23_completes.
Print Assumptions C26_finalizer_exception.
Print Assumptions C26_side_effect_exception_terminates.
Print Assumptions C33_finalizer_exception_terminates.
Print Assumptions C33_noexcept_return_never_throws.
Print Assumptions C21_legal_use_is_defined.
Print Assumptions C25_finalizers_may_end_their_scope.
Print Assumptions C25_own_scope_is_undefined.
Print Assumptions C25_own_scope_refuted.
Print Assumptions C25_other_scopes_are_safe.
