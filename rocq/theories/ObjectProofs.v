(** * ObjectProofs: invariants of programs with memory. *)

From Verif Require Import Base Lib Sequence Control Signature Printer Reports Expectation Builder BuildSpec World WorldSpec StepCases WorldInv ObjInv BuildProofs CountProofs
  History SigProofs CallSpec FrameSpec FrameProofs Actions ActionSpec ActionProofs Objects ObjectSpec.

Lemma pbind_next s k p r c : pbind s k = PNext p r c -> exists w r', s = Next w r' /\ k w r' = PNext p r c.
Proof. destruct s; cbn; try discriminate. eauto. Qed.

Lemma expect_parts la p m ov ms cls l p' r c : do_pexpect la p m ov ms cls l = PNext p' r c ->
  step (pw p) (OExpect m ov ms (plains 0 cls) l) = Next (pw p') r /\ pf p' = pf p /\ c = CVoid /\
  exists s coll, find_overload (pw p) m ov = inr (s, coll) /\ forallb (pclause_ok (length (sg_params s))) cls = true /\
    ((r = RUnit /\ exists a, eval_clauses la cls (mkActs [] FinVoid) (pm p) = Some (a, pm p') /\ pa p' = pa p ++ [a]) \/
     (r <> RUnit /\ pa p' = pa p /\ exists b a, frontend_builder s ms = BOk b /\ eval_clauses la (evaluated b 0 cls) (mkActs [] FinVoid) (pm p) = Some (a, pm p'))).
Proof.
  unfold do_pexpect. destruct (find_overload (pw p) m ov) as [s0|[s coll]] eqn:Hf.
  { intros H. apply pbind_next in H. destruct H as (w & r' & -> & H). discriminate. }
  destruct (forallb _ cls) eqn:Hok; cbn [negb]; [|discriminate]. intros H. apply pbind_next in H. destruct H as (w & r' & Hs & H).
  rewrite Hs. destruct r' as [|b|v|x].
  - destruct (eval_clauses la cls _ _) as [[a m']|] eqn:E; [|discriminate]. injection H as <- <- <-. cbn [pw pf pm pa]. split; auto. split; auto. split; auto.
    exists s, coll. split; auto. split; auto. left. split; auto. exists a. auto.
  - destruct (frontend_builder s ms) as [b0|x|] eqn:Eb; try discriminate.
    destruct (eval_clauses la (evaluated b0 0 cls) _ _) as [[a m']|] eqn:E; [|discriminate]. injection H as <- <- <-. cbn [pw pf pm pa].
    split; auto. split; auto. split; auto. exists s, coll. split; auto. split; auto. right. split; [discriminate|]. split; auto. exists b0, a. auto.
  - destruct (frontend_builder s ms) as [b0|x|] eqn:Eb; try discriminate.
    destruct (eval_clauses la (evaluated b0 0 cls) _ _) as [[a m']|] eqn:E; [|discriminate]. injection H as <- <- <-. cbn [pw pf pm pa].
    split; auto. split; auto. split; auto. exists s, coll. split; auto. split; auto. right. split; [discriminate|]. split; auto. exists b0, a. auto.
  - destruct (frontend_builder s ms) as [b0|y|] eqn:Eb; try discriminate.
    destruct (eval_clauses la (evaluated b0 0 cls) _ _) as [[a m']|] eqn:E; [|discriminate]. injection H as <- <- <-. cbn [pw pf pm pa].
    split; auto. split; auto. split; auto. exists s, coll. split; auto. split; auto. right. split; [discriminate|]. split; auto. exists b0, a. auto.
Qed.

Lemma pcall_parts la p m ov es l p' r c : do_pcall la p m ov es l = PNext p' r c ->
  exists s coll ls vals, find_overload (pw p) m ov = inr (s, coll) /\
    bind_params (la_residue la) (map (la_pmode la) (sg_params s)) es (pm p) = Some (ls, pm p') /\ select ls (pm p') = Some vals /\
    step (pw p) (OCall m ov vals l) = Next (pw p') r /\ pa p' = pa p /\ pf p' = (match r with RUnit => mkPF s ls :: pf p | _ => pf p end) /\ c = CVoid.
Proof.
  unfold do_pcall. destruct (find_overload (pw p) m ov) as [s0|[s coll]] eqn:Hf.
  { intros H. apply pbind_next in H. destruct H as (w & r' & -> & H). discriminate. }
  destruct (bind_params _ _ _ _) as [[ls m1]|] eqn:Hb; [|discriminate]. destruct (select ls m1) as [vals|] eqn:Hv; [|discriminate].
  intros H. apply pbind_next in H. destruct H as (w & r' & Hs & H). injection H as <- <- <-. cbn [pw pf pm pa]. exists s, coll, ls, vals. auto 10.
Qed.

Lemma paction_parts p p' r c : do_paction p = PNext p' r c ->
  exists f fs fr frs n todo a se args e, w_frames (pw p) = f :: fs /\ pf p = fr :: frs /\ f_todo f = n :: todo /\ nth_error (pa p) (f_exp f) = Some a /\
    nth_error (a_effects a) n = Some se /\ handed se (pf_args fr) = Some args /\ step (pw p) OAction = Next (pw p') r /\
    function_of se args (pm p) = (URet e, pm p') /\ pa p' = pa p /\ pf p' = pf p /\ c = CVoid /\ length (pm p) <= length (pm p').
Proof.
  unfold do_paction. destruct (w_frames (pw p)) as [|f fs] eqn:Ef; [discriminate|]. destruct (pf p) as [|fr frs] eqn:Ep; [discriminate|].
  destruct (f_todo f) as [|n todo] eqn:Et; [discriminate|]. destruct (nth_error (pa p) (f_exp f)) as [a|] eqn:Ea; [|discriminate].
  destruct (nth_error (a_effects a) n) as [se|] eqn:Es; [|discriminate]. destruct (handed se (pf_args fr)) as [args|] eqn:Eh; [|discriminate].
  intros H. apply pbind_next in H. destruct H as (w & r' & Hs & H). destruct (function_of se args (pm p)) as [[e|v] m'] eqn:Ff; [|discriminate].
  destruct (Nat.leb_spec (length (pm p)) (length m')) as [Hl|]; [|discriminate]. injection H as <- <- <-. cbn [pw pf pm pa]. exists f, fs, fr, frs, n, todo, a, se, args, e. auto 20.
Qed.

Lemma preturn_parts la p p' r c : do_preturn la p = PNext p' r c ->
  exists f fs fr frs a, w_frames (pw p) = f :: fs /\ pf p = fr :: frs /\ nth_error (pa p) (f_exp f) = Some a /\ pa p' = pa p /\ pf p' = frs /\
    length (pm p) <= length (pm p') /\
    let fz := finalize (la_residue la) (a_fin a) (ret_mode la (pf_sig fr)) (map (la_pmode la) (sg_params (pf_sig fr))) (pf_args fr) [] (pm p) in
    ((exists lg, fz = Returned lg c (pm p') /\ step (pw p) (OReturn (UOk (result_value c (pm p')))) = Next (pw p') r) \/
     (exists lg v, fz = Threw lg v (pm p') /\ c = CVoid /\ step (pw p) (OReturn (UThrow (la_exn la v))) = Next (pw p') r)).
Proof.
  unfold do_preturn. destruct (w_frames (pw p)) as [|f fs] eqn:Ef; [discriminate|]. destruct (pf p) as [|fr frs] eqn:Ep; [discriminate|].
  destruct (nth_error (pa p) (f_exp f)) as [a|] eqn:Ea; [|discriminate].
  destruct (finalize _ _ _ _ _ _ _) as [lg c0 m'|lg v m'| | |] eqn:Ez; try discriminate;
    intros H; apply pbind_next in H; destruct H as (w & r' & Hs & H); (destruct (Nat.leb_spec (length (pm p)) (length m')) as [Hl|]; [|discriminate]);
    injection H as <- <- <-; cbn [pw pf pm pa]; exists f, fs, fr, frs, a; (do 6 (split; [auto|])); cbn zeta; rewrite Ez; [left; exists lg|right; exists lg, v]; auto.
Qed.

(** Every operation but [PUser] is one operation of World.v. *)
Lemma ostep_shadow la p o p' r c : ostep la p o = PNext p' r c ->
  (exists f, o = PUser f /\ p' = mkPW (pw p) (f (pm p)) (pa p) (pf p) /\ length (pm p) <= length (f (pm p)) /\ r = RUnit /\ c = CVoid) \/
  (exists o', shadow o o' /\ step (pw p) o' = Next (pw p') r).
Proof.
  destruct o as [f|o|m ov ms cls l|m ov es l| | |]; cbn [ostep shadow]; intros H.
  - left. exists f. destruct (Nat.leb_spec (length (pm p)) (length (f (pm p)))); [|discriminate]. injection H as <- <- <-. auto.
  - right. destruct (objectless o) eqn:E; [|discriminate]. apply pbind_next in H. destruct H as (w & r' & Hs & H). injection H as <- <- <-.
    exists o. auto.
  - right. apply expect_parts in H. destruct H as (Hs & _). eauto.
  - right. apply pcall_parts in H. destruct H as (s & coll & ls & vals & _ & _ & _ & Hs & _). eauto.
  - right. apply paction_parts in H. destruct H as (f & fs & fr & frs & n & todo & a & se & args & e & _ & _ & _ & _ & _ & _ & Hs & _). eauto.
  - right. apply pbind_next in H. destruct H as (w & r' & Hs & H). injection H as <- <- <-. eauto.
  - right. apply preturn_parts in H. destruct H as (f & fs & fr & frs & a & _ & _ & _ & _ & _ & _ & [(lg & _ & Hs)|(lg & v & _ & _ & Hs)]); eauto.
Qed.

Lemma orun_reachable la p ops p' : orun la p ops p' -> reachable (pw p) -> reachable (pw p').
Proof.
  intros H. induction H as [p|p o p1 r c ops p2 Hs H IH]; auto. intros Hr. apply IH. destruct (ostep_shadow _ _ _ _ _ _ Hs) as [(f & _ & -> & _)|(o' & _ & Hs')]; auto.
  eapply reachable_step; eauto.
Qed.

(** ** Sizes *)

Lemma step_length w o w' r : step w o = Next w' r -> (forall m ov ms cls l, o <> OExpect m ov ms cls l) -> length (w_exps w') = length (w_exps w).
Proof.
  intros H Hn. apply step_change in H. destruct H; subst; try (simpl; rewrite ?app_length, ?length_upd; lia).
  - congruence.
  - exfalso. eapply Hn; eauto.
  - destruct H as [sc ->]. simpl. rewrite length_upd. auto.
Qed.

Lemma frames_objectless w o w' r : reachable w -> step w o = Next w' r -> objectless o = true -> w_frames w' = w_frames w.
Proof.
  intros Hr Hs Ho. destruct (step_trace _ _ _ _ Hs) as [new Ht].
  destruct (step_frames _ _ _ _ _ Hr Hs Ht) as [E _|? ? ? ? ? ? ? -> _ _ _ _|? ? ? ? -> _ _ _ _|? ? -> _ _ _ _ _|? ? ? -> _ _ _ _ _ _]; auto; discriminate.
Qed.
Lemma frames_expect w m ov ms cls l w' r : reachable w -> step w (OExpect m ov ms cls l) = Next w' r -> w_frames w' = w_frames w.
Proof.
  intros Hr Hs. destruct (step_trace _ _ _ _ Hs) as [new Ht].
  destruct (step_frames _ _ _ _ _ Hr Hs Ht) as [E _|? ? ? ? ? ? ? X _ _ _ _|? ? ? ? X _ _ _ _|? ? X _ _ _ _ _|? ? ? X _ _ _ _ _ _]; auto; discriminate.
Qed.
Lemma frames_call w m ov args l w' r : reachable w -> step w (OCall m ov args l) = Next w' r ->
  (r = RUnit /\ exists n x ne, exp_at w n x /\ accepted (w_trace w') n = Datatypes.S (accepted (w_trace w) n) /\
     w_frames w' = mkFrame n (effects_of (e_policies (eo_exp x))) false false ne :: w_frames w) \/
  (exists y, r = RThrow y /\ w_frames w' = w_frames w).
Proof.
  intros Hr Hs. destruct (call_effect _ _ _ _ _ _ _ Hr Hs) as [(s & coll & n & x & mr & unh & -> & Hf & _ & Hc & Ht & Hq & _ & _ & _ & _ & _ & _ & Hfr)|[-> (evs & _ & ->)]].
  - left. split; auto. exists n, x, (sg_noexcept s). destruct Hc as ((Hx & _) & _). split; auto. rewrite side_effects_spec in Hfr. split; auto.
    rewrite Ht, !accepted_app, accepted_full, Nat.eqb_refl. destruct (quiet_counts _ Hq n) as (A & _). lia.
  - right. eauto.
Qed.
Lemma frames_action w w' r : step w OAction = Next w' r -> exists f fs n todo, w_frames w = f :: fs /\ f_todo f = n :: todo /\ r = RUnit /\
  w_frames w' = mkFrame (f_exp f) todo true (f_final f) (f_noexcept f) :: fs.
Proof.
  cbn [step]. unfold do_action. destruct (w_frames w) as [|f fs]; [discriminate|]. destruct (f_todo f) as [|n todo] eqn:E; [discriminate|].
  destruct (negb _); [discriminate|]. intros H. injection H as <- <-. exists f, fs, n, todo. auto.
Qed.
Lemma frames_final w w' r : step w OFinal = Next w' r -> exists f fs, w_frames w = f :: fs /\ f_todo f = [] /\ r = RUnit /\
  w_frames w' = mkFrame (f_exp f) [] (f_started f) true (f_noexcept f) :: fs.
Proof.
  cbn [step]. unfold do_final. destruct (w_frames w) as [|f fs]; [discriminate|]. destruct (f_todo f) as [|n todo] eqn:E; [|discriminate].
  destruct (f_final f); [discriminate|]. destruct (negb _); [discriminate|]. intros H. injection H as <- <-. exists f, fs. auto.
Qed.
Lemma frames_return w u w' r : step w (OReturn u) = Next w' r -> exists f fs eo, w_frames w = f :: fs /\ f_final f = true /\ w_frames w' = fs /\
  nth_error (w_exps w) (f_exp f) = Some eo /\
  match finalizer_result (e_final (eo_exp eo)) u with UOk v => r = RVal v | UThrow y => r = RThrow y end.
Proof.
  cbn [step]. unfold do_return. destruct (w_frames w) as [|f fs]; [discriminate|]. destruct (f_final f) eqn:Ef; [|discriminate]. cbn [negb].
  destruct (nth_error (w_exps w) (f_exp f)) as [eo|] eqn:E; [|discriminate]. intros H. exists f, fs, eo.
  destruct (finalizer_result _ _) eqn:R; unfold thrown in *; [|destruct (f_noexcept f); [discriminate|]]; injection H as <- <-; auto.
Qed.

(** ** The invariant *)

Definition world_fin (f : fin) : finalizer := match f with FinVoid => FInit | _ => FAction end.

Record OI (p : pworld) : Prop := mkOI {
  oj_reach : reachable (pw p);
  oj_frames : length (pf p) = length (w_frames (pw p));
  oj_exps : length (pa p) = length (w_exps (pw p));
  oj_acts : forall e x a, exp_at (pw p) e x -> nth_error (pa p) e = Some a ->
    effects_of (e_policies (eo_exp x)) = seq 0 (length (a_effects a)) /\ e_final (eo_exp x) = world_fin (a_fin a)
}.

Lemma eval_effects la cls : forall a m a' m', eval_clauses la cls a m = Some (a', m') -> a_effects a' = a_effects a ++ effects_in cls.
Proof.
  induction cls as [|c cls IH]; intros a m a' m' H; cbn [eval_clauses effects_in flat_map] in *; [injection H as <- _; rewrite app_nil_r; auto|].
  destruct (eval_clause la c a m) as [[a1 m1]|] eqn:E; [|discriminate]. rewrite (IH _ _ _ _ H).
  fold (effects_in cls). destruct c; cbn [eval_clause] in E; cbn [app]; try (injection E as <- _; cbn [a_effects]; rewrite <- ?app_assoc; reflexivity);
    (destruct (store _ _ _ _) as [[f m2]|]; [|discriminate]); injection E as <- _; reflexivity.
Qed.

Lemma plains_effects cls : forall k, effects_of (clause_policies (plains k cls)) = seq k (length (effects_in cls)).
Proof.
  unfold effects_in, effects_of, clause_policies. induction cls as [|c cls IH]; intros k; cbn [plains flat_map]; [reflexivity|].
  rewrite flat_map_app, IH. destruct c; cbn [plain next_effect flat_map app length seq]; auto.
Qed.

Lemma plains_finals cls : forall k, final_clauses (plains k cls) = map (fun _ => FAction) (finals_in cls).
Proof.
  unfold final_clauses, finals_in. induction cls as [|c cls IH]; intros k; cbn [plains flat_map filter map]; [reflexivity|].
  rewrite IH. destruct c; cbn [plain filter map app]; auto.
Qed.

Lemma eval_fin la cls : forall a m a' m' n, eval_clauses la cls a m = Some (a', m') -> forallb (pclause_ok n) cls = true ->
  (finals_in cls = [] /\ a_fin a' = a_fin a) \/ (finals_in cls <> [] /\ a_fin a' <> FinVoid).
Proof.
  induction cls as [|c cls IH]; intros a m a' m' n H Hok; cbn [eval_clauses finals_in filter forallb] in *; [injection H as <- _; auto|].
  destruct (eval_clause la c a m) as [[a1 m1]|] eqn:E; [|discriminate]. apply andb_true_iff in Hok. destruct Hok as [Hc Hok].
  specialize (IH _ _ _ _ _ H Hok). fold (finals_in cls).
  destruct c; cbn [eval_clause] in E; try (injection E as <- _; cbn [a_fin] in IH; exact IH).
  - right. split; [discriminate|]. unfold store in E. destruct (init_from _ _ _) as [[v m2]|]; [|discriminate]. injection E as <- _. cbn [a_fin] in IH.
    destruct IH as [[_ ->]|[_ IH]]; auto. discriminate.
  - right. split; [discriminate|]. unfold store in E. destruct (init_from _ _ _) as [[v m2]|]; [|discriminate]. injection E as <- _. cbn [a_fin] in IH.
    destruct IH as [[_ ->]|[_ IH]]; auto. discriminate.
  - right. split; [discriminate|]. injection E as <- _. cbn [a_fin] in IH. destruct IH as [[_ ->]|[_ IH]]; auto.
    cbn [pclause_ok] in Hc. apply andb_true_iff in Hc. destruct Hc as [_ Hc]. destruct f; discriminate.
Qed.

Lemma oi_init : OI oinit.
Proof. constructor; try reflexivity; [apply reachable_init|]. intros [|e] x a H; discriminate. Qed.

Lemma acts_keep w w' pa0 : (forall e x, exp_at w e x -> exists x', exp_at w' e x' /\ same_static x x') -> length (w_exps w') = length (w_exps w) ->
  (forall e x a, exp_at w e x -> nth_error pa0 e = Some a ->
    effects_of (e_policies (eo_exp x)) = seq 0 (length (a_effects a)) /\ e_final (eo_exp x) = world_fin (a_fin a)) ->
  forall e x a, exp_at w' e x -> nth_error pa0 e = Some a ->
    effects_of (e_policies (eo_exp x)) = seq 0 (length (a_effects a)) /\ e_final (eo_exp x) = world_fin (a_fin a).
Proof.
  intros St Len H e x a Hx Ha. assert (Hl : e < length (w_exps w)) by (rewrite <- Len; eapply nth_error_lt; exact Hx).
  destruct (nth_error_ex _ _ Hl) as [x0 Hx0]. destruct (St _ _ Hx0) as (x' & Hx' & S). unfold exp_at in *. rewrite Hx in Hx'. injection Hx' as <-.
  destruct S as (_ & _ & _ & _ & E1 & E2 & _). rewrite E1, E2. eauto.
Qed.

Lemma static_step w o w' r : reachable w -> step w o = Next w' r -> forall e x, exp_at w e x -> exists x', exp_at w' e x' /\ same_static x x'.
Proof.
  intros Hr Hs e x Hx. destruct (step_exps _ _ _ _ (winv_reachable _ Hr) Hs _ _ Hx) as (x' & Hx' & St & _). eauto.
Qed.

Lemma oi_step la p o p' r c : OI p -> ostep la p o = PNext p' r c -> OI p'.
Proof.
  intros I H. pose proof (oj_reach _ I) as Hr.
  assert (G : forall o', shadow o o' -> step (pw p) o' = Next (pw p') r -> (forall m ov ms cls l, o' <> OExpect m ov ms cls l) -> pa p' = pa p ->
            length (pf p') = length (w_frames (pw p')) -> OI p').
  { intros o' _ Hs Hn Epa Ef. pose proof (step_length _ _ _ _ Hs Hn) as L. constructor; auto; [eapply reachable_step; eauto|rewrite Epa, L; apply I|].
    rewrite Epa. eapply acts_keep; [apply (static_step _ _ _ _ Hr Hs)|exact L|apply I]. }
  destruct o as [f|o|m ov ms cls l|m ov es l| | |]; cbn [ostep] in H.
  - destruct (Nat.leb_spec (length (pm p)) (length (f (pm p)))); [|discriminate]. injection H as <- <- <-. destruct I. constructor; auto.
  - destruct (objectless o) eqn:Eo; [|discriminate]. apply pbind_next in H. destruct H as (w & r' & Hs & H). injection H as <- <- <-.
    apply (G o); cbn [pw pa pf shadow]; auto; [intros; intros ->; discriminate|]. rewrite (frames_objectless _ _ _ _ Hr Hs Eo). apply I.
  - apply expect_parts in H. destruct H as (Hs & Ef & _ & s & coll & Hf & Hok & Hc).
    assert (Efr : w_frames (pw p') = w_frames (pw p)) by (eapply frames_expect; eauto).
    destruct (expect_next _ _ _ _ _ _ _ _ Hs) as (s' & coll' & Hf' & _ & W & [(V & -> & x & Hx & D & _ & _ & L & _)|(_ & Er & Ew)]).
    + destruct Hc as [(_ & a & Ea & Epa)|(X & _)]; [|congruence]. constructor; [eapply reachable_step; eauto|rewrite Ef, Efr; apply I|rewrite Epa, app_length, L; cbn [length]; rewrite (oj_exps _ I); lia|].
      intros e y b Hy Hb. rewrite Epa in Hb. destruct (Nat.lt_ge_cases e (length (pa p))) as [Hlt|Hge].
      * rewrite nth_error_app1 in Hb by auto. assert (He : e < length (w_exps (pw p))) by (rewrite <- (oj_exps _ I); auto).
        destruct (nth_error_ex _ _ He) as [y0 Hy0]. destruct (static_step _ _ _ _ Hr Hs _ _ Hy0) as (y' & Hy' & S). unfold exp_at in *.
        rewrite Hy in Hy'. injection Hy' as <-. destruct S as (_ & _ & _ & _ & E1 & E2 & _). rewrite E1, E2. eapply (oj_acts _ I); eauto.
      * rewrite nth_error_app2 in Hb by auto. destruct (e - length (pa p)) as [|j] eqn:Ej; [|destruct j; discriminate]. injection Hb as <-.
        assert (e = length (w_exps (pw p))) as -> by (rewrite <- (oj_exps _ I); lia). unfold exp_at in *. rewrite Hx in Hy. injection Hy as <-.
        destruct D as (_ & _ & _ & Dp & Df & _). rewrite (eval_effects _ _ _ _ _ _ Ea). cbn [a_effects app]. rewrite Dp, Df. split.
        -- transitivity (effects_of (clause_policies (plains 0 cls))); [|apply plains_effects]. unfold effects_of. rewrite !flat_map_app.
           cbn [overload_requirements flat_map app]. unfold arg_requirements. induction (combine (seq 0 (length ms)) ms); auto.
        -- unfold declared_finalizer. rewrite plains_finals. destruct (eval_fin _ _ _ _ _ _ _ Ea Hok) as [(-> & ->)|(Hn & Hv)]; [reflexivity|].
           destruct (finals_in cls); [congruence|]. cbn [map]. unfold world_fin. destruct (a_fin a); congruence.
    + destruct Hc as [(X & _)|(_ & Epa & _)]; [congruence|]. rewrite Ew in *. constructor; rewrite ?Ew, ?Ef, ?Epa; apply I.
  - apply pcall_parts in H. destruct H as (s & coll & ls & vals & _ & _ & _ & Hs & Epa & Epf & _).
    apply (G (OCall m ov vals l)); cbn [shadow]; eauto; [intros; discriminate|]. rewrite Epf.
    destruct (frames_call _ _ _ _ _ _ _ Hr Hs) as [(-> & n & x & ne & _ & _ & ->)|(y & -> & ->)]; cbn [length]; rewrite (oj_frames _ I); auto.
  - apply paction_parts in H. destruct H as (f & fs & fr & frs & n & todo & a & se & args & e & Ef & _ & _ & _ & _ & _ & Hs & _ & Epa & Epf & _).
    apply (G OAction); cbn [shadow]; auto; [intros; discriminate|]. rewrite Epf, (oj_frames _ I).
    destruct (frames_action _ _ _ Hs) as (f' & fs' & n' & todo' & -> & _ & _ & ->). reflexivity.
  - apply pbind_next in H. destruct H as (w & r' & Hs & H). injection H as <- <- <-. apply (G OFinal); cbn [shadow pw pa pf]; auto; [intros; discriminate|].
    rewrite (oj_frames _ I). destruct (frames_final _ _ _ Hs) as (f' & fs' & -> & _ & _ & ->). reflexivity.
  - apply preturn_parts in H. destruct H as (f & fs & fr & frs & a & Ef & Ep & _ & Epa & Epf & _ & Hc).
    assert (exists u, step (pw p) (OReturn u) = Next (pw p') r) as [u Hs] by (destruct Hc as [(lg & _ & Hs)|(lg & v & _ & _ & Hs)]; eauto).
    apply (G (OReturn u)); cbn [shadow]; eauto; [intros; discriminate|]. destruct (frames_return _ _ _ _ Hs) as (f' & fs' & eo & E1 & _ & -> & _).
    pose proof (oj_frames _ I) as L. rewrite Ep, E1 in L. cbn [length] in L. rewrite Epf. lia.
Qed.

Lemma oi_run la p ops p' : orun la p ops p' -> OI p -> OI p'.
Proof. intros H. induction H as [p|p o p1 r c ops p2 Hs H IH]; auto. intros I. apply IH. eapply oi_step; eauto. Qed.
Lemma oi_reachable la p : oreachable la p -> OI p.
Proof. intros [ops H]. eapply oi_run; [exact H|apply oi_init]. Qed.

(** The policies of an expectation stay as they are. *)
Lemma acts_step la p o p' r c e a : ostep la p o = PNext p' r c -> nth_error (pa p) e = Some a -> nth_error (pa p') e = Some a.
Proof.
  intros H Ha. destruct o as [f|o|m ov ms cls l|m ov es l| | |]; cbn [ostep] in H.
  - destruct (_ <=? _); [|discriminate]. injection H as <- _ _. auto.
  - destruct (objectless o); [|discriminate]. apply pbind_next in H. destruct H as (w & r' & Hs & H). injection H as <- _ _. auto.
  - apply expect_parts in H. destruct H as (_ & _ & _ & s & coll & _ & _ & [(_ & a' & _ & ->)|(_ & -> & _)]); auto.
    rewrite nth_error_app1; auto. eapply nth_error_lt; eauto.
  - apply pcall_parts in H. destruct H as (s & coll & ls & vals & _ & _ & _ & _ & -> & _). auto.
  - apply paction_parts in H. destruct H as (f & fs & fr & frs & n & todo & b & se & args & x & _ & _ & _ & _ & _ & _ & _ & _ & -> & _). auto.
  - apply pbind_next in H. destruct H as (w & r' & Hs & H). injection H as <- _ _. auto.
  - apply preturn_parts in H. destruct H as (f & fs & fr & frs & b & _ & _ & _ & -> & _). auto.
Qed.
Lemma acts_run la p ops p' e a : orun la p ops p' -> nth_error (pa p) e = Some a -> nth_error (pa p') e = Some a.
Proof. intros H. induction H as [p|p o p1 r c ops p2 Hs H IH]; auto. intros Ha. apply IH. eapply acts_step; eauto. Qed.

(** ** Memory *)

Lemma init_length residue e m v m1 : init_from residue e m = Some (v, m1) -> length m1 = length m.
Proof.
  destruct e as [x|l|l]; cbn [init_from]; [|destruct (nth_error m l); [|discriminate]|destruct (nth_error m l); [|discriminate]];
    intros H; injection H as _ <-; rewrite ?length_upd; auto.
Qed.
Lemma store_length residue mk e m f m1 : store residue mk e m = Some (f, m1) -> length m1 = Datatypes.S (length m).
Proof.
  unfold store. destruct (init_from residue e m) as [[v m2]|] eqn:E; [|discriminate]. intros H. injection H as _ <-. rewrite app_length. cbn [length].
  rewrite (init_length _ _ _ _ _ E). lia.
Qed.
Lemma eval_clause_length la c a m a' m' : eval_clause la c a m = Some (a', m') -> length m <= length m'.
Proof.
  destruct c; cbn [eval_clause]; intros H; try (injection H as _ <-; auto; fail);
    destruct (store _ _ _ _) as [[f m2]|] eqn:E; try discriminate; injection H as _ <-; rewrite (store_length _ _ _ _ _ _ E); lia.
Qed.
Lemma eval_length la cls : forall a m a' m', eval_clauses la cls a m = Some (a', m') -> length m <= length m'.
Proof.
  induction cls as [|c cls IH]; intros a m a' m' H; cbn [eval_clauses] in H; [injection H as _ <-; auto|].
  destruct (eval_clause la c a m) as [[a1 m1]|] eqn:E; [|discriminate]. apply eval_clause_length in E. apply IH in H. lia.
Qed.

Lemma memory_grows la p o p' r c : ostep la p o = PNext p' r c -> length (pm p) <= length (pm p').
Proof.
  intros H. destruct o as [f|o|m ov ms cls l|m ov es l| | |]; cbn [ostep] in H.
  - destruct (Nat.leb_spec (length (pm p)) (length (f (pm p)))); [|discriminate]. injection H as <- _ _. auto.
  - destruct (objectless o); [|discriminate]. apply pbind_next in H. destruct H as (w & r' & Hs & H). injection H as <- _ _. auto.
  - apply expect_parts in H. destruct H as (_ & _ & _ & s & coll & _ & _ & [(_ & a' & E & _)|(_ & _ & b & a & _ & E)]); eapply eval_length; eauto.
  - apply pcall_parts in H. destruct H as (s & coll & ls & vals & _ & Hb & _). apply bind_length in Hb. apply Hb.
  - apply paction_parts in H. destruct H as (f & fs & fr & frs & n & todo & b & se & args & x & _ & _ & _ & _ & _ & _ & _ & _ & _ & _ & _ & L). auto.
  - apply pbind_next in H. destruct H as (w & r' & Hs & H). injection H as <- _ _. auto.
  - apply preturn_parts in H. destruct H as (f & fs & fr & frs & b & _ & _ & _ & _ & _ & L & _). auto.
Qed.

(** The arguments of running calls are objects. *)
Definition args_exist (p : pworld) : Prop := forall fr l, In fr (pf p) -> In l (pf_args fr) -> l < length (pm p).
Lemma args_step la p o p' r c : args_exist p -> ostep la p o = PNext p' r c -> args_exist p'.
Proof.
  intros A H. pose proof (memory_grows _ _ _ _ _ _ H) as L.
  assert (G : (forall fr, In fr (pf p') -> In fr (pf p)) -> args_exist p').
  { intros K fr l Hf Hl. specialize (A fr l (K _ Hf) Hl). lia. }
  destruct o as [f|o|m ov ms cls l|m ov es l| | |]; cbn [ostep] in H.
  - destruct (_ <=? _); [|discriminate]. injection H as <- _ _. apply G. auto.
  - destruct (objectless o); [|discriminate]. apply pbind_next in H. destruct H as (w & r' & Hs & H). injection H as <- _ _. apply G. auto.
  - apply expect_parts in H. destruct H as (_ & E & _). apply G. rewrite E. auto.
  - apply pcall_parts in H. destruct H as (s & coll & ls & vals & _ & Hb & Hsel & _ & _ & Epf & _). intros fr k Hf Hk. rewrite Epf in Hf.
    assert (Hin : In fr (pf p) \/ fr = mkPF s ls) by (destruct r; auto; destruct Hf as [<-|Hf]; auto).
    destruct Hin as [Hin| ->]; [specialize (A fr k Hin Hk); lia|]. cbn [pf_args] in Hk. clear - Hsel Hk. revert vals Hsel.
    induction ls as [|x ls IH]; intros vals Hsel; [contradiction|]. cbn [select] in Hsel. destruct (nth_error (pm p') x) eqn:Ex; [|discriminate].
    destruct (select ls (pm p')) eqn:Es; [|discriminate]. destruct Hk as [<-|Hk]; [eapply nth_error_lt; eauto|eapply IH; eauto].
  - apply paction_parts in H. destruct H as (f & fs & fr & frs & n & todo & b & se & args & x & _ & _ & _ & _ & _ & _ & _ & _ & _ & E & _). apply G. rewrite E. auto.
  - apply pbind_next in H. destruct H as (w & r' & Hs & H). injection H as <- _ _. apply G. auto.
  - apply preturn_parts in H. destruct H as (f & fs & fr & frs & b & _ & E1 & _ & _ & E2 & _). apply G. rewrite E1, E2. intros; right; auto.
Qed.
Lemma args_run la p ops p' : orun la p ops p' -> args_exist p -> args_exist p'.
Proof. intros H. induction H as [p|p o p1 r c ops p2 Hs H IH]; auto. intros A. apply IH. eapply args_step; eauto. Qed.
Lemma args_reachable la p : oreachable la p -> args_exist p.
Proof. intros [ops H]. eapply args_run; [exact H|]. intros fr l []. Qed.

(** ** The stack *)

Definition is_action (o : pop) : bool := match o with PAction => true | _ => false end.

Lemma stack_step la p o p1 r c pre f fs ppre fr frs : OI p -> ostep la p o = PNext p1 r c ->
  w_frames (pw p) = pre ++ f :: fs -> pf p = ppre ++ fr :: frs -> length pre = length ppre -> length fs < length (w_frames (pw p1)) ->
  (f_final f = true -> f_todo f = []) ->
  exists pre' f' ppre', w_frames (pw p1) = pre' ++ f' :: fs /\ pf p1 = ppre' ++ fr :: frs /\ length pre' = length ppre' /\ f_exp f' = f_exp f /\
    (f_final f' = true -> f_todo f' = []) /\
    f_todo f' = (if is_action o && (length pre =? 0) then tl (f_todo f) else f_todo f).
Proof.
  intros I H Ef Ep El Hd Hfin. pose proof (oj_reach _ I) as Hr.
  assert (Same : w_frames (pw p1) = w_frames (pw p) -> pf p1 = pf p -> is_action o = false -> exists pre' f' ppre', w_frames (pw p1) = pre' ++ f' :: fs /\ pf p1 = ppre' ++ fr :: frs /\
    length pre' = length ppre' /\ f_exp f' = f_exp f /\ (f_final f' = true -> f_todo f' = []) /\ f_todo f' = (if is_action o && (length pre =? 0) then tl (f_todo f) else f_todo f)).
  { intros E1 E2 E3. exists pre, f, ppre. rewrite E1, E2, E3. auto 10. }
  destruct o as [g|o|m ov ms cls l|m ov es l| | |]; cbn [ostep] in H; cbn [is_action andb] in *.
  - destruct (_ <=? _); [|discriminate]. injection H as <- _ _. apply Same; auto.
  - destruct (objectless o) eqn:Eo; [|discriminate]. apply pbind_next in H. destruct H as (w & r' & Hs & H). injection H as <- _ _. apply Same; auto.
    cbn [pw]. eapply frames_objectless; eauto.
  - apply expect_parts in H. destruct H as (Hs & E & _). apply Same; auto. eapply frames_expect; eauto.
  - apply pcall_parts in H. destruct H as (s & coll & ls & vals & _ & _ & _ & Hs & _ & Epf & _).
    destruct (frames_call _ _ _ _ _ _ _ Hr Hs) as [(-> & n & x & ne & _ & _ & E)|(y & -> & E)]; [|apply Same; auto].
    eexists (_ :: pre), f, (_ :: ppre). rewrite E, Epf, Ef, Ep. cbn [app length]. auto 10.
  - apply paction_parts in H. destruct H as (g & gs & gr & grs & n & todo & a & se & args & e & E1 & _ & E3 & _ & _ & _ & Hs & _ & _ & Epf & _).
    destruct (frames_action _ _ _ Hs) as (g' & gs' & n' & todo' & E4 & E5 & _ & E6). rewrite E1 in E4. injection E4 as <- <-.
    rewrite E3 in E5. injection E5 as <- <-. rewrite E1 in Ef. rewrite Epf, E6. destruct pre as [|g0 pre].
    + cbn [app] in Ef. injection Ef as -> ->. eexists [], _, ppre. cbn [app length Nat.eqb]. split; [reflexivity|]. rewrite E3 in *. cbn [f_exp f_final f_todo tl]. split; [auto|]. split; [auto|]. split; [auto|]. split; auto. intros Hx. specialize (Hfin Hx). discriminate.
    + cbn [app] in Ef. injection Ef as -> ->. eexists (_ :: pre), f, ppre. cbn [app length Nat.eqb] in *. split; [reflexivity|]. auto 10.
  - apply pbind_next in H. destruct H as (w & r' & Hs & H). injection H as <- _ _. cbn [pw pf] in *.
    destruct (frames_final _ _ _ Hs) as (g & gs & E1 & E2 & _ & E3). rewrite E1 in Ef. rewrite E3. destruct pre as [|g0 pre].
    + cbn [app] in Ef. injection Ef as -> ->. eexists [], _, ppre. cbn [app length]. split; [reflexivity|]. rewrite E2. auto.
    + cbn [app] in Ef. injection Ef as -> ->. eexists (_ :: pre), f, ppre. cbn [app length] in *. split; [reflexivity|]. auto 10.
  - apply preturn_parts in H. destruct H as (g & gs & gr & grs & a & E1 & E2 & _ & _ & Epf & _ & Hc).
    assert (exists u, step (pw p) (OReturn u) = Next (pw p1) r) as [u Hs] by (destruct Hc as [(lg & _ & Hs)|(lg & v & _ & _ & Hs)]; eauto).
    destruct (frames_return _ _ _ _ Hs) as (g' & gs' & eo & E4 & _ & E5 & _). rewrite E1 in E4. injection E4 as <- <-.
    rewrite E1 in Ef. rewrite E2 in Ep. rewrite E5 in *. rewrite Epf. destruct pre as [|g0 pre]; cbn [app] in Ef; injection Ef as -> ->; [lia|].
    destruct ppre as [|q ppre]; [discriminate|]. cbn [app] in Ep. injection Ep as -> ->. exists pre, f, ppre. cbn [length] in El. auto 10.
Qed.

Lemma own_action_front la d p o p1 r c pre f fs : ostep la p o = PNext p1 r c -> w_frames (pw p) = pre ++ f :: fs -> length fs = d ->
  own_action d p o = (is_action o && (length pre =? 0)).
Proof.
  intros _ E <-. destruct o; cbn [own_action is_action andb]; auto. rewrite E, app_length. cbn [length].
  destruct (Nat.eqb_spec (length pre) 0), (Nat.eqb_spec (length pre + Datatypes.S (length fs)) (Datatypes.S (length fs))); auto; lia.
Qed.

Lemma stack_during la d p ops k p2 : oduring la d p ops k p2 -> OI p -> forall f fs fr frs N,
  w_frames (pw p) = f :: fs -> pf p = fr :: frs -> length fs = d -> f_todo f = seq 0 N -> f_final f = false ->
  OI p2 /\ exists pre f' ppre, w_frames (pw p2) = pre ++ f' :: fs /\ pf p2 = ppre ++ fr :: frs /\ length pre = length ppre /\ f_exp f' = f_exp f /\
    (f_final f' = true -> f_todo f' = []) /\ f_todo f' = seq k (N - k) /\ k <= N.
Proof.
  intros H I f fs fr frs N Ef Ep Ed Et Eff. induction H as [Hd|ops k p1 o p2 r c H IH Hs Hd].
  - split; auto. exists [], f, []. rewrite Nat.sub_0_r. cbn [app]. split; auto. split; auto. split; auto. split; auto. split; [congruence|]. split; auto. lia.
  - destruct IH as (I1 & pre & f' & ppre & E1 & E2 & E3 & E4 & E5 & E6 & E7). split; [eapply oi_step; eauto|].
    rewrite (own_action_front _ _ _ _ _ _ _ _ _ _ Hs E1 Ed).
    rewrite <- Ed in Hd. destruct (stack_step _ _ _ _ _ _ _ _ _ _ _ _ I1 Hs E1 E2 E3 Hd E5) as (pre' & g & ppre' & F1 & F2 & F3 & F4 & F5 & F6).
    exists pre', g, ppre'. rewrite F4. do 5 (split; auto). rewrite F6, E6. destruct (is_action o && (length pre =? 0)) eqn:Ea; [|auto].
    apply andb_true_iff in Ea. destruct Ea as [Ea Eb]. apply Nat.eqb_eq in Eb. destruct pre; [|discriminate]. destruct o; try discriminate. cbn [ostep] in Hs.
    apply paction_parts in Hs. destruct Hs as (g0 & gs & gr & grs & n & todo & a & se & args & e & G1 & _ & G3 & _). rewrite E1 in G1. cbn [app] in G1. injection G1 as <- <-.
    rewrite E6 in G3. destruct (N - k) as [|j] eqn:Ej; [discriminate|]. cbn [seq tl]. split; [f_equal; lia|lia].
Qed.

Lemma bind_passed residue ps es m ls m1 : Forall (denotes m) es -> bind_params residue ps es m = Some (ls, m1) -> passed ps es m ls m1.
Proof.
  intros Hd Hb. destruct (bind_length _ _ _ _ _ _ Hb) as (L1 & L2 & L3). destruct (bind_memory _ _ _ _ _ _ Hb) as [B1 B2]. rewrite Forall_forall in Hd.
  split; auto. split; auto. split; auto. split; auto. intros k p e Hp Hke. destruct (bind_spec _ _ _ _ _ _ Hb _ _ _ Hp Hke) as (l & Hl & Hlt & Hr).
  exists l. split; auto. split; auto. destruct (by_reference p e) eqn:Eb; auto. destruct Hr as [Hr1 Hr2]. split; auto. split; [auto|].
  intros Hu. eapply B2; eauto.
Qed.

Lemma select_values ls : forall (m : mem) vals, select ls m = Some vals -> length vals = length ls /\ forall k l, nth_error ls k = Some l -> nth_error vals k = nth_error m l.
Proof.
  induction ls as [|x ls IH]; intros m vals H; cbn [select] in H; [injection H as <-; split; auto; intros [|k]; discriminate|].
  destruct (nth_error m x) as [v|] eqn:E; [|discriminate]. destruct (select ls m) as [vs|] eqn:Es; [|discriminate]. injection H as <-.
  destruct (IH _ _ Es) as [L K]. cbn [length]. rewrite L. split; auto. intros [|k] l Hl; cbn [nth_error] in *; [injection Hl as <-; auto|auto].
Qed.

(** What an expression leaves alone. *)
Lemma store_spec residue mk e m f m1 : store residue mk e m = Some (f, m1) -> exists cell v, f = mk cell /\ length m <= cell /\ value_of m e = Some v /\ nth_error m1 cell = Some v /\
  length m < length m1 /\ forall l, l < length m -> e <> Xv l -> nth_error m1 l = nth_error m l.
Proof.
  unfold store. destruct (init_from residue e m) as [[v m2]|] eqn:E; [|discriminate]. intros H; inversion H; subst. destruct (init_inv _ _ _ _ _ E) as (Hv & L & K).
  exists (length m2), v. split; auto. split; [lia|]. split; auto. split; [apply nth_error_app_last|]. rewrite app_length. simpl. split; [lia|].
  intros l Hl Hne. rewrite nth_error_app1 by lia. apply K. auto.
Qed.
Lemma eval_clause_memory la c a m a' m' l : eval_clause la c a m = Some (a', m') -> l < length m -> c <> PcReturns (Xv l) -> c <> PcThrows (Xv l) ->
  nth_error m' l = nth_error m l.
Proof.
  intros H Hl N1 N2. destruct c; cbn [eval_clause] in H; try (injection H as _ <-; auto; fail);
    destruct (store _ _ _ _) as [[f m2]|] eqn:E; try discriminate; injection H as _ <-; destruct (store_spec _ _ _ _ _ _ E) as (cell & v & _ & _ & _ & _ & _ & K);
    apply K; auto; congruence.
Qed.
Lemma eval_memory la cls : forall a m a' m' l, eval_clauses la cls a m = Some (a', m') -> l < length m ->
  ~ In (PcReturns (Xv l)) cls -> ~ In (PcThrows (Xv l)) cls -> nth_error m' l = nth_error m l.
Proof.
  induction cls as [|c cls IH]; intros a m a' m' l H Hl N1 N2; cbn [eval_clauses] in H; [injection H as _ <-; auto|].
  destruct (eval_clause la c a m) as [[a1 m1]|] eqn:E; [|discriminate]. pose proof (eval_clause_length _ _ _ _ _ _ E) as L. cbn [In] in *.
  rewrite (IH _ _ _ _ _ H); [|lia|tauto|tauto]. eapply eval_clause_memory; eauto.
Qed.
Lemma evaluated_in b k cls c : In c (evaluated b k cls) -> In c cls.
Proof.
  revert b k. induction cls as [|x cls IH]; intros b k H; cbn [evaluated] in H; [contradiction|]. destruct (builder_and b (plain k x)); try contradiction.
  destruct H as [<-|H]; [left; auto|right; eauto].
Qed.

(** The finalizer as written. *)
Lemma eval_finals la cls : forall a m a' m', eval_clauses la cls a m = Some (a', m') -> finals_in cls = [] -> a_fin a' = a_fin a /\ m' = m.
Proof.
  induction cls as [|c cls IH]; intros a m a' m' H Hn; cbn [eval_clauses] in H; [injection H as <- <-; auto|].
  destruct (eval_clause la c a m) as [[a1 m1]|] eqn:E; [|discriminate]. cbn [finals_in filter] in Hn. fold (finals_in cls) in Hn.
  destruct c; try discriminate; cbn [eval_clause] in E; injection E as <- <-; destruct (IH _ _ _ _ H Hn) as [-> ->]; auto.
Qed.
Lemma eval_written la cls : forall a m a' m' c, eval_clauses la cls a m = Some (a', m') -> finals_in cls = [c] ->
  match c with
  | PcReturns e => exists cell v, a_fin a' = FinReturns cell /\ length m <= cell /\ value_of m e = Some v /\ nth_error m' cell = Some v
  | PcThrows e => exists cell v, a_fin a' = FinThrows cell /\ length m <= cell /\ value_of m e = Some v /\ nth_error m' cell = Some v
  | PcFinal g => a_fin a' = g
  | _ => False
  end.
Proof.
  induction cls as [|x cls IH]; intros a m a' m' c H Hc; cbn [eval_clauses] in H; [discriminate|].
  destruct (eval_clause la x a m) as [[a1 m1]|] eqn:E; [|discriminate]. cbn [finals_in filter] in Hc. fold (finals_in cls) in Hc.
  destruct x; cbn [eval_clause] in E; try (injection E as <- <-; exact (IH _ _ _ _ _ H Hc)).
  - injection Hc as <- Hn. destruct (store _ _ _ _) as [[f m2]|] eqn:Es; [|discriminate]. injection E as <- <-.
    destruct (eval_finals _ _ _ _ _ _ H Hn) as [-> ->]. destruct (store_spec _ _ _ _ _ _ Es) as (cell & v & -> & A & B & C & _). cbn [a_fin]. eauto 10.
  - injection Hc as <- Hn. destruct (store _ _ _ _) as [[f m2]|] eqn:Es; [|discriminate]. injection E as <- <-.
    destruct (eval_finals _ _ _ _ _ _ H Hn) as [-> ->]. destruct (store_spec _ _ _ _ _ _ Es) as (cell & v & -> & A & B & C & _). cbn [a_fin]. eauto 10.
  - injection Hc as <- Hn. injection E as <- <-. destruct (eval_finals _ _ _ _ _ _ H Hn) as [-> _]. reflexivity.
Qed.

(** ** A stored object *)

Definition hidden (cell : nat) (p : pworld) : Prop := forall fr, In fr (pf p) -> ~ In cell (pf_args fr).

Lemma bind_args_fresh residue ps es m ls m1 cell : bind_params residue ps es m = Some (ls, m1) -> cell < length m -> ~ In (Lv cell) es -> ~ In (Xv cell) es -> ~ In cell ls.
Proof.
  intros Hb Hc N1 N2 Hin. destruct (bind_length _ _ _ _ _ _ Hb) as (L1 & L2 & _). apply In_nth_error in Hin. destruct Hin as [k Hk].
  assert (Hlt : k < length ps) by (rewrite <- L1; eapply nth_error_lt; eauto). destruct (nth_error_ex _ _ Hlt) as [p Hp].
  rewrite <- L2 in Hlt. destruct (nth_error_ex _ _ Hlt) as [e He]. destruct (bind_spec _ _ _ _ _ _ Hb _ _ _ Hp He) as (l & Hl & _ & Hr).
  rewrite Hk in Hl. injection Hl as <-. apply nth_error_In in He. destruct (by_reference p e) eqn:Eb; [|lia]. subst n.
  destruct p, e; cbn [by_reference] in Eb; try discriminate; injection Eb as ->; auto.
Qed.

Lemma handed_lvalues se ls args cell : handed se ls = Some args -> ~ In cell ls -> ~ In (Lv cell) args.
Proof.
  intros H N Hin. destruct (handed_in _ _ _ _ H Hin) as (i & _ & Hi). apply N. eapply nth_error_In; eauto.
Qed.

Lemma convert_keeps residue lg rm e m lg' c m' cell : convert residue lg rm e m = Returned lg' c m' -> cell < length m -> e <> Xv cell -> nth_error m' cell = nth_error m cell.
Proof.
  unfold convert. destruct rm; intros H Hc Hn.
  - injection H as _ _ <-. auto.
  - destruct (init_from residue e m) as [[v m1]|] eqn:E; [|discriminate]. injection H as _ _ <-. destruct (init_inv _ _ _ _ _ E) as (_ & _ & K). auto.
  - destruct e; try discriminate. injection H as _ _ <-. auto.
  - destruct e; cbn [new_object] in H; injection H as _ _ <-; auto. apply nth_error_app1. auto.
  - destruct e; cbn [new_object] in H; injection H as _ _ <-; auto. apply nth_error_app1. auto.
Qed.

Lemma result_keeps residue rm g args m o cell : result_of residue [] rm g args m = o -> keeps_off cell g -> ~ In (Lv cell) args -> cell < length m ->
  match o with Returned _ _ m' => length m <= length m' -> nth_error m' cell = nth_error m cell | Threw _ _ m' => nth_error m' cell = nth_error m cell | _ => True end.
Proof.
  unfold result_of. intros <- K N Hc. destruct (g args m) as [[e|v] m1] eqn:E; destruct (K _ _ _ _ E N Hc) as [K1 K2]; auto.
  destruct (convert residue [] rm e m1) as [lg c m'|lg v m'| | |] eqn:Ec; auto.
  - intros _. rewrite <- K1. destruct (Nat.lt_ge_cases cell (length m1)) as [Hl|Hl]; [eapply convert_keeps; eauto; congruence|].
    exfalso. assert (nth_error m1 cell = None) as Z by (apply nth_error_None; auto). rewrite Z in K1. symmetry in K1. apply nth_error_None in K1. lia.
  - exfalso. unfold convert in Ec. destruct rm; try discriminate; [destruct (init_from residue e m1) as [[? ?]|]|destruct e|destruct e|destruct e]; discriminate.
Qed.

Lemma cell_step la cell p o p' r c : hidden cell p -> cell < length (pm p) -> functions_keep_off cell p -> discreet cell p o -> ostep la p o = PNext p' r c ->
  hidden cell p' /\ nth_error (pm p') cell = nth_error (pm p) cell.
Proof.
  intros Hh Hc Hk Hdi H. destruct o as [f|o|m ov ms cls l|m ov es l| | |]; cbn [ostep discreet] in *.
  - destruct (_ <=? _); [|discriminate]. injection H as <- _ _. auto.
  - destruct (objectless o); [|discriminate]. apply pbind_next in H. destruct H as (w & r' & Hs & H). injection H as <- _ _. auto.
  - apply expect_parts in H. destruct Hdi as [D1 D2]. destruct H as (_ & E & _ & s & coll & _ & _ & Hc').
    split; [unfold hidden; rewrite E; exact Hh|].
    destruct Hc' as [(_ & a' & Ev & _)|(_ & _ & b & a & _ & Ev)]; eapply eval_memory; eauto; intros X; apply evaluated_in in X; auto.
  - apply pcall_parts in H. destruct H as (s & coll & ls & vals & _ & Hb & Hsel & _ & _ & Epf & _). destruct Hdi as [D1 D2]. split.
    + intros fr Hf. rewrite Epf in Hf. assert (In fr (pf p) \/ fr = mkPF s ls) as [Hin| ->] by (destruct r; auto; destruct Hf as [<-|Hf]; auto); auto.
      cbn [pf_args]. eapply bind_args_fresh; eauto.
    + destruct (bind_memory _ _ _ _ _ _ Hb) as [B _]. apply B; auto. intros k [_ X]. apply D2. eapply nth_error_In; eauto.
  - apply paction_parts in H. destruct H as (f & fs & fr & frs & n & todo & a & se & args & e & _ & Ep & _ & Ha & Hse & Hh' & _ & Hfn & _ & Epf & _).
    split; [unfold hidden; rewrite Epf; exact Hh|]. destruct (Hk a (nth_error_In _ _ Ha)) as [K _].
    apply (K _ (nth_error_In _ _ Hse) _ _ _ _ Hfn); auto. eapply handed_lvalues; eauto. apply Hh. rewrite Ep. left. auto.
  - apply pbind_next in H. destruct H as (w & r' & Hs & H). injection H as <- _ _. auto.
  - apply preturn_parts in H. destruct H as (f & fs & fr & frs & a & _ & Ep & Ha & _ & Epf & L & Hz).
    assert (Hfr : ~ In cell (pf_args fr)) by (apply Hh; rewrite Ep; left; auto).
    split; [intros g Hg; apply Hh; rewrite Ep; right; congruence|]. destruct (Hk a (nth_error_In _ _ Ha)) as [_ K]. cbn zeta in Hz.
    set (fz := finalize _ _ _ _ _ _ _) in Hz. assert (G : match fz with Returned _ _ m' => length (pm p) <= length m' -> nth_error m' cell = nth_error (pm p) cell
      | Threw _ _ m' => nth_error m' cell = nth_error (pm p) cell | _ => True end).
    { unfold fz. unfold finalize. destruct (a_fin a) as [|k|g|is g|g|i|k]; cbn [fin_function] in K.
      - destruct (ret_mode la (pf_sig fr)); auto.
      - destruct (convert _ _ _ _ _) eqn:Ec; auto; [|exfalso; unfold convert in Ec; destruct (ret_mode la (pf_sig fr)); try discriminate; destruct (init_from _ _ _) as [[? ?]|]; discriminate].
        intros _. eapply convert_keeps; eauto. discriminate.
      - eapply result_keeps; eauto.
      - destruct (select is (pf_args fr)) as [xs|] eqn:Es; auto. eapply result_keeps; eauto. intros X. apply in_map_iff in X. destruct X as (x & X1 & X2).
        injection X1 as ->. destruct (select_in _ _ _ Es _ X2) as (i & _ & Hi). apply Hfr. eapply nth_error_In; eauto.
      - eapply result_keeps; eauto. intros X. apply in_map_iff in X. destruct X as (x & X1 & X2). injection X1 as ->. auto.
      - destruct (nth_error (map _ _) i) as [q|]; auto. destruct (nth_error (pf_args fr) i) as [l|] eqn:El; auto.
        destruct (convert _ _ _ _ _) eqn:Ec; auto; [|exfalso; unfold convert in Ec; destruct (ret_mode la (pf_sig fr)); try discriminate; [destruct (init_from _ _ _) as [[? ?]|]|destruct (as_forwarded q l)..]; discriminate].
        intros _. eapply convert_keeps; eauto. intros X. apply Hfr. apply nth_error_In with i. destruct q; cbn [as_forwarded] in X; try discriminate; injection X as ->; auto.
      - destruct (nth_error (pm p) k); auto. }
    destruct Hz as [(lg & E & _)|(lg & v & E & _)]; rewrite E in G; auto.
Qed.

Lemma keep_off_back la p ops p' cell : orun la p ops p' -> functions_keep_off cell p' -> functions_keep_off cell p.
Proof.
  intros H K a Ha. apply In_nth_error in Ha. destruct Ha as [e Ha]. apply K. eapply nth_error_In. eapply acts_run; eauto.
Qed.
Lemma undisturbed_run la cell p ops p' : undisturbed la cell p ops p' -> orun la p ops p'.
Proof. intros H. induction H; [constructor|econstructor; eauto]. Qed.
Lemma cell_run la cell p ops p' : undisturbed la cell p ops p' -> hidden cell p -> cell < length (pm p) -> functions_keep_off cell p' ->
  hidden cell p' /\ nth_error (pm p') cell = nth_error (pm p) cell.
Proof.
  intros H. induction H as [p|p o p1 r c ops p2 Hd Hs H IH]; auto. intros Hh Hc Hk.
  assert (Hk0 : functions_keep_off cell p) by (eapply keep_off_back; [econstructor; [exact Hs|eapply undisturbed_run; eauto]|auto]).
  destruct (cell_step _ _ _ _ _ _ _ Hh Hc Hk0 Hd Hs) as [A B]. rewrite <- B. apply IH; auto. pose proof (memory_grows _ _ _ _ _ _ Hs). lia.
Qed.

(** ** The end of a call *)

Lemma convert_spec residue lg rm e m lg' c m' : convert residue lg rm e m = Returned lg' c m' -> converted residue rm e m c m'.
Proof.
  unfold convert. destruct rm; intros H.
  - injection H as _ <- <-. constructor.
  - destruct e as [v|l|l]; cbn [init_from] in H; [|destruct (nth_error m l) eqn:E; [|discriminate]|destruct (nth_error m l) eqn:E; [|discriminate]]; injection H as _ <- <-.
    + constructor.
    + constructor. auto.
    + apply cv_move; auto; [apply length_upd|apply nth_error_upd_eq; eapply nth_error_lt; eauto|intros k Hk; apply nth_error_upd_neq; auto].
  - destruct e; try discriminate. injection H as _ <- <-. constructor; discriminate.
  - destruct e; cbn [new_object] in H; injection H as _ <- <-.
    + apply cv_temporary; auto; [apply nth_error_app_last|]. intros. apply nth_error_app1. auto.
    + constructor; discriminate.
    + constructor; auto.
  - destruct e; cbn [new_object] in H; injection H as _ <- <-.
    + apply cv_temporary; auto; [apply nth_error_app_last|]. intros. apply nth_error_app1. auto.
    + constructor; discriminate.
    + constructor; auto.
Qed.
Lemma convert_no_throw residue lg rm e m lg' v m' : convert residue lg rm e m <> Threw lg' v m'.
Proof. unfold convert. destruct rm; try discriminate; [destruct (init_from residue e m) as [[? ?]|]|destruct e|destruct e|destruct e]; discriminate. Qed.

Lemma return_concludes la p p' r c : OI p -> do_preturn la p = PNext p' r c ->
  exists f fs fr frs a, w_frames (pw p) = f :: fs /\ pf p = fr :: frs /\ f_final f = true /\ nth_error (pa p) (f_exp f) = Some a /\
    concludes la (pf_sig fr) (a_fin a) (pf_args fr) (pm p) (pm p') r c.
Proof.
  intros I H. apply preturn_parts in H. destruct H as (f & fs & fr & frs & a & Ef & Ep & Ha & _ & _ & _ & Hz). exists f, fs, fr, frs, a. split; auto. split; auto.
  assert (exists u, step (pw p) (OReturn u) = Next (pw p') r /\ match finalizer_result (world_fin (a_fin a)) u with UOk v => r = RVal v | UThrow y => r = RThrow y end) as Hu.
  { cbn zeta in Hz. destruct Hz as [(lg & _ & Hs)|(lg & v & _ & _ & Hs)]; destruct (frames_return _ _ _ _ Hs) as (g & gs & eo & E1 & _ & _ & E2 & E3);
      rewrite Ef in E1; injection E1 as <- <-; destruct (oj_acts _ I _ _ _ E2 Ha) as [_ Efin]; rewrite Efin in E3; eauto. }
  assert (Hff : f_final f = true).
  { destruct Hu as (u & Hs & _). destruct (frames_return _ _ _ _ Hs) as (g & gs & eo & E1 & E0 & _). rewrite Ef in E1. injection E1 as <- <-. auto. }
  split; auto. split; auto. clear Hu. cbn zeta in Hz. unfold concludes. fold (ret_mode la (pf_sig fr)).
  assert (Cb : forall g args, result_of (la_residue la) [] (ret_mode la (pf_sig fr)) g args (pm p) =
              finalize (la_residue la) (a_fin a) (ret_mode la (pf_sig fr)) (map (la_pmode la) (sg_params (pf_sig fr))) (pf_args fr) [] (pm p) ->
            world_fin (a_fin a) = FAction -> concludes_by la (ret_mode la (pf_sig fr)) g args (pm p) (pm p') r c).
  { intros g args Eg Ew. rewrite <- Eg in Hz. unfold result_of in Hz. destruct (g args (pm p)) as [[e|v] m1] eqn:E.
    - right. exists e, m1. split; auto. destruct Hz as [(lg & Hc & Hs)|(lg & v & Hc & _)]; [|exfalso; eapply convert_no_throw; eauto].
      split; [eapply convert_spec; eauto|]. destruct (frames_return _ _ _ _ Hs) as (g1 & gs & eo & E1 & _ & _ & E2 & E3).
      rewrite Ef in E1; injection E1 as <- <-. destruct (oj_acts _ I _ _ _ E2 Ha) as [_ Efin]. rewrite Efin, Ew in E3. exact E3.
    - left. exists v. destruct Hz as [(lg & Hc & Hs)|(lg & v' & Hc & -> & Hs)]; [discriminate|]. injection Hc as _ -> ->. split; auto.
      destruct (frames_return _ _ _ _ Hs) as (g1 & gs & eo & E1 & _ & _ & E2 & E3).
      rewrite Ef in E1; injection E1 as <- <-. destruct (oj_acts _ I _ _ _ E2 Ha) as [_ Efin]. rewrite Efin, Ew in E3. auto. }
  assert (Cv : forall e, convert (la_residue la) [] (ret_mode la (pf_sig fr)) e (pm p) =
              finalize (la_residue la) (a_fin a) (ret_mode la (pf_sig fr)) (map (la_pmode la) (sg_params (pf_sig fr))) (pf_args fr) [] (pm p) ->
            world_fin (a_fin a) = FAction -> converted (la_residue la) (ret_mode la (pf_sig fr)) e (pm p) c (pm p') /\ r = RVal (Some (result_value c (pm p')))).
  { intros e Eg Ew. rewrite <- Eg in Hz. destruct Hz as [(lg & Hc & Hs)|(lg & v & Hc & _)]; [|exfalso; eapply convert_no_throw; eauto].
    split; [eapply convert_spec; eauto|]. destruct (frames_return _ _ _ _ Hs) as (g1 & gs & eo & E1 & _ & _ & E2 & E3).
    rewrite Ef in E1; injection E1 as <- <-. destruct (oj_acts _ I _ _ _ E2 Ha) as [_ Efin]. rewrite Efin, Ew in E3. exact E3. }
  assert (Res : forall u, step (pw p) (OReturn u) = Next (pw p') r -> match finalizer_result (world_fin (a_fin a)) u with UOk v => r = RVal v | UThrow y => r = RThrow y end).
  { intros u Hs. destruct (frames_return _ _ _ _ Hs) as (g1 & gs & eo & E1 & _ & _ & E2 & E3). rewrite Ef in E1; injection E1 as <- <-.
    destruct (oj_acts _ I _ _ _ E2 Ha) as [_ Efin]. rewrite Efin in E3. auto. }
  destruct (a_fin a) as [|k|g|is g|g|i|k]; cbn [world_fin] in *.
  - cbn [finalize] in Hz. destruct (ret_mode la (pf_sig fr)); destruct Hz as [(lg & Hc & Hs)|(lg & v & Hc & _)]; try discriminate. injection Hc as _ <- <-.
    specialize (Res _ Hs). cbn [finalizer_result] in Res. auto.
  - apply Cv; reflexivity.
  - apply Cb; reflexivity.
  - cbn [finalize] in *. destruct (select is (pf_args fr)) as [xs|] eqn:Es; [|destruct Hz as [(? & X & _)|(? & ? & X & _)]; discriminate].
    exists (map as_lvalue xs). split; [apply selected_lvalues; auto|]. apply Cb; reflexivity.
  - exists (map as_lvalue (pf_args fr)). split; [split; [apply map_length|]; intros j l Hl; rewrite (map_nth_error _ _ _ Hl); reflexivity|]. apply Cb; reflexivity.
  - cbn [finalize] in *. destruct (nth_error (map (la_pmode la) (sg_params (pf_sig fr))) i) as [q|] eqn:Eq; [|destruct Hz as [(? & X & _)|(? & ? & X & _)]; discriminate].
    destruct (nth_error (pf_args fr) i) as [l|] eqn:El; [|destruct Hz as [(? & X & _)|(? & ? & X & _)]; discriminate].
    rewrite nth_error_map in Eq. destruct (nth_error (sg_params (pf_sig fr)) i) as [t|]; [|discriminate]. injection Eq as <-.
    exists t, l. split; [auto|]. split; [auto|]. apply Cv; auto.
  - cbn [finalize] in Hz. destruct (nth_error (pm p) k) as [v|] eqn:Ev; [|destruct Hz as [(? & X & _)|(? & ? & X & _)]; discriminate].
    destruct Hz as [(lg & Hc & _)|(lg & v' & Hc & -> & Hs)]; [discriminate|]. injection Hc as _ <- <-. exists v. specialize (Res _ Hs). cbn [finalizer_result] in Res. auto.
Qed.

(** ** Indices and arguments fit *)

Definition frame_fits (w : world) (f : frame) (fr : pframe) : Prop :=
  exists x, exp_at w (f_exp f) x /\ eo_sig x = pf_sig fr /\ length (pf_args fr) = length (sg_params (pf_sig fr)) /\ incl (f_todo f) (effects_of (e_policies (eo_exp x))).
Record OF (p : pworld) : Prop := mkOF {
  of_frames : Forall2 (frame_fits (pw p)) (w_frames (pw p)) (pf p);
  of_acts : forall e x a, exp_at (pw p) e x -> nth_error (pa p) e = Some a ->
    (forall se, In se (a_effects a) -> side_effect_ok (length (sg_params (eo_sig x))) se = true) /\ finalizer_ok (length (sg_params (eo_sig x))) (a_fin a) = true
}.

Lemma eval_ok la n cls : forall a m a' m', eval_clauses la cls a m = Some (a', m') -> forallb (pclause_ok n) cls = true ->
  (forall se, In se (a_effects a) -> side_effect_ok n se = true) -> finalizer_ok n (a_fin a) = true ->
  (forall se, In se (a_effects a') -> side_effect_ok n se = true) /\ finalizer_ok n (a_fin a') = true.
Proof.
  induction cls as [|c cls IH]; intros a m a' m' H Hok H1 H2; cbn [eval_clauses forallb] in *; [injection H as <- _; auto|].
  destruct (eval_clause la c a m) as [[a1 m1]|] eqn:E; [|discriminate]. apply andb_true_iff in Hok. destruct Hok as [Hc Hok].
  apply (IH _ _ _ _ H Hok); destruct c; cbn [eval_clause] in E; try (injection E as <- _; cbn [a_effects a_fin]; auto; fail).
  - injection E as <- _. cbn [a_effects]. intros s Hs. apply in_app_iff in Hs. destruct Hs as [Hs|[<-|[]]]; auto.
  - destruct (store _ _ _ _) as [[f m2]|]; [|discriminate]. injection E as <- _. auto.
  - destruct (store _ _ _ _) as [[f m2]|]; [|discriminate]. injection E as <- _. auto.
  - unfold store in E. destruct (init_from _ _ _) as [[v m2]|]; [|discriminate]. injection E as <- _. reflexivity.
  - unfold store in E. destruct (init_from _ _ _) as [[v m2]|]; [|discriminate]. injection E as <- _. reflexivity.
  - injection E as <- _. cbn [a_fin]. cbn [pclause_ok] in Hc. apply andb_true_iff in Hc. apply Hc.
Qed.

Lemma fits_step w o w' r f fr : reachable w -> step w o = Next w' r -> frame_fits w f fr -> frame_fits w' f fr.
Proof.
  intros Hr Hs (x & Hx & E & L). destruct (static_step _ _ _ _ Hr Hs _ _ Hx) as (x' & Hx' & S). exists x'. split; auto. destruct S as (_ & _ & -> & _ & -> & _). auto.
Qed.
Lemma fits_all w o w' r fs frs : reachable w -> step w o = Next w' r -> Forall2 (frame_fits w) fs frs -> Forall2 (frame_fits w') fs frs.
Proof. intros Hr Hs H. induction H; constructor; auto. eapply fits_step; eauto. Qed.

Lemma of_step la p o p' r c : OI p -> OF p -> ostep la p o = PNext p' r c -> OF p'.
Proof.
  intros I F H. pose proof (oj_reach _ I) as Hr.
  assert (Ac : forall o', step (pw p) o' = Next (pw p') r -> (forall m ov ms cls l, o' <> OExpect m ov ms cls l) -> pa p' = pa p ->
    forall e x a, exp_at (pw p') e x -> nth_error (pa p') e = Some a ->
    (forall se, In se (a_effects a) -> side_effect_ok (length (sg_params (eo_sig x))) se = true) /\ finalizer_ok (length (sg_params (eo_sig x))) (a_fin a) = true).
  { intros o' Hs Hn Epa e x a Hx Ha. rewrite Epa in Ha. assert (Hl : e < length (w_exps (pw p))) by (rewrite <- (step_length _ _ _ _ Hs Hn); eapply nth_error_lt; exact Hx).
    destruct (nth_error_ex _ _ Hl) as [x0 Hx0]. destruct (static_step _ _ _ _ Hr Hs _ _ Hx0) as (x' & Hx' & S). unfold exp_at in *. rewrite Hx in Hx'. injection Hx' as <-.
    destruct S as (_ & _ & E & _). rewrite E. eapply (of_acts _ F); eauto. }
  destruct o as [f|o|m ov ms cls l|m ov es l| | |]; cbn [ostep] in H.
  - destruct (_ <=? _); [|discriminate]. injection H as <- _ _. destruct F. constructor; auto.
  - destruct (objectless o) eqn:Eo; [|discriminate]. apply pbind_next in H. destruct H as (w & r' & Hs & H). injection H as <- <- _. cbn [pw pa pf] in *. constructor; cbn [pw pa pf].
    + rewrite (frames_objectless _ _ _ _ Hr Hs Eo). eapply fits_all; eauto. apply F.
    + apply (Ac _ Hs); auto. intros; intros ->; discriminate.
  - apply expect_parts in H. destruct H as (Hs & Ef & _ & s & coll & Hf & Hok & Hc). constructor.
    + rewrite Ef, (frames_expect _ _ _ _ _ _ _ _ Hr Hs). eapply fits_all; eauto. apply F.
    + intros e x a Hx Ha. destruct (expect_next _ _ _ _ _ _ _ _ Hs) as (s' & coll' & Hf' & _ & _ & [(_ & -> & y & Hy & D & _ & _ & L & _)|(_ & Er & Ew)]).
      * destruct Hc as [(_ & a0 & Ea & Epa)|(X & _)]; [|congruence]. rewrite Epa in Ha. destruct (Nat.lt_ge_cases e (length (pa p))) as [Hlt|Hge].
        -- rewrite nth_error_app1 in Ha by auto. rewrite (oj_exps _ I) in Hlt. destruct (nth_error_ex _ _ Hlt) as [x0 Hx0].
           destruct (static_step _ _ _ _ Hr Hs _ _ Hx0) as (x' & Hx' & S). unfold exp_at in *. rewrite Hx in Hx'. injection Hx' as <-.
           destruct S as (_ & _ & E & _). rewrite E. eapply (of_acts _ F); eauto.
        -- rewrite nth_error_app2 in Ha by auto. destruct (e - length (pa p)) as [|j] eqn:Ej; [|destruct j; discriminate]. injection Ha as <-.
           assert (e = length (w_exps (pw p))) as -> by (rewrite <- (oj_exps _ I); lia). unfold exp_at in *. rewrite Hy in Hx. injection Hx as <-.
           destruct D as (_ & _ & _ & _ & _ & _ & E & _). rewrite E. rewrite Hf in Hf'. injection Hf' as <- <-.
           eapply eval_ok; eauto.
      * destruct Hc as [(X & _)|(_ & Epa & _)]; [congruence|]. rewrite Ew in Hx. rewrite Epa in Ha. eapply (of_acts _ F); eauto.
  - apply pcall_parts in H. destruct H as (s & coll & ls & vals & Hf & Hb & _ & Hs & Epa & Epf & _). constructor; [|apply (Ac _ Hs); auto; discriminate].
    rewrite Epf. destruct (call_effect _ _ _ _ _ _ _ Hr Hs) as [(s' & coll' & n & x & mr & unh & -> & Hf' & _ & Hc & _ & _ & _ & _ & _ & _ & _ & _ & Hfr)|[-> (evs & _ & Ew)]].
    + rewrite Hf in Hf'. injection Hf' as <- <-. rewrite Hfr. constructor; [|eapply fits_all; eauto; apply F].
      destruct (candidate_overload _ _ _ _ _ _ _ _ _ Hr Hf Hc) as [_ Es]. destruct Hc as ((Hx & _) & _).
      eapply fits_step; eauto. exists x. cbn [f_exp pf_sig pf_args]. split; auto. split; auto. destruct (bind_length _ _ _ _ _ _ Hb) as (L & _). rewrite L, map_length. split; auto. cbn [f_todo]. rewrite side_effects_spec. apply incl_refl.
    + rewrite Ew. cbn [only_reports w_frames]. eapply (fits_all (pw p)); [exact Hr|rewrite <- Ew; exact Hs|apply F].
  - apply paction_parts in H. destruct H as (f & fs & fr & frs & n & todo & a & se & args & e & Ef & Ep & _ & _ & _ & _ & Hs & _ & Epa & Epf & _).
    constructor; [|apply (Ac _ Hs); auto; discriminate]. pose proof (fits_all _ _ _ _ _ _ Hr Hs (of_frames _ F)) as K.
    destruct (frames_action _ _ _ Hs) as (g & gs & n' & todo' & E1 & Et & _ & ->). rewrite E1, Ep in K. rewrite Epf, Ep. inversion K as [|? ? ? ? Hg]; subst. constructor; auto.
    destruct Hg as (x & G1 & G2 & G3 & G4). exists x. cbn [f_exp f_todo]. do 3 (split; auto). intros k Hk. apply G4. rewrite Et. right. auto.
  - apply pbind_next in H. destruct H as (w & r' & Hs & H). injection H as <- <- _. cbn [pw pa pf] in *. constructor; cbn [pw pa pf]; [|apply (Ac _ Hs); auto; discriminate].
    pose proof (fits_all _ _ _ _ _ _ Hr Hs (of_frames _ F)) as K. destruct (frames_final _ _ _ Hs) as (g & gs & E1 & _ & _ & ->). rewrite E1 in K.
    inversion K as [|? ? ? ? Hg]; subst. constructor; auto. destruct Hg as (x & G1 & G2 & G3 & G4). exists x. cbn [f_exp f_todo]. do 3 (split; auto). intros k [].
  - apply preturn_parts in H. destruct H as (f & fs & fr & frs & a & Ef & Ep & _ & Epa & Epf & _ & Hc).
    assert (exists u, step (pw p) (OReturn u) = Next (pw p') r) as [u Hs] by (destruct Hc as [(lg & _ & Hs)|(lg & v & _ & _ & Hs)]; eauto).
    constructor; [|apply (Ac _ Hs); auto; discriminate]. pose proof (fits_all _ _ _ _ _ _ Hr Hs (of_frames _ F)) as K.
    destruct (frames_return _ _ _ _ Hs) as (g & gs & eo & E1 & _ & -> & _). rewrite E1, Ep in K. rewrite Epf. inversion K; auto.
Qed.
Lemma of_run la p ops p' : orun la p ops p' -> OI p -> OF p -> OF p'.
Proof. intros H. induction H as [p|p o p1 r c ops p2 Hs H IH]; auto. intros I F. apply IH; [eapply oi_step; eauto|eapply of_step; eauto]. Qed.
Lemma of_reachable la p : oreachable la p -> OF p.
Proof. intros [ops H]. eapply of_run; [exact H|apply oi_init|]. constructor; [constructor|]. intros [|e] x a H0; discriminate. Qed.

Lemma handed_ok se n ls : side_effect_ok n se = true -> length ls = n -> exists args, handed se ls = Some args.
Proof.
  intros H <-. destruct se; cbn [handed side_effect_ok] in *; eauto. destruct (select_ok _ _ H) as [xs ->]. eauto.
Qed.
