(** * PropObjects: C86: whole programs whose calls, expectations and user functions act on objects. *)

From Verif Require Import Base Lib Sequence Control Signature Printer Reports Expectation Builder BuildSpec World WorldSpec StepCases WorldInv ObjInv BuildProofs CountProofs
  History Scenario CallSpec FrameSpec FrameProofs Actions ActionSpec ActionProofs Objects ObjectSpec ObjectProofs.

(** ** Programs with memory are programs *)

(** Forgetting the memory, every state is one of World.v: all that is proved about its programs holds for these, too. *)
Theorem C86_is_program la p : oreachable la p -> reachable (pw p).
Proof. intros [ops H]. eapply orun_reachable; eauto. apply reachable_init. Qed.

(** Every operation is one operation of World.v with the same outcome, or is code of the program, which changes memory only; on top of that, the only
    way of ending a program is a side effect which throws. *)
Theorem C86_operations la p o :
  match ostep la p o with
  | PNext p' r c =>
      (exists f, o = PUser f /\ pw p' = pw p /\ pm p' = f (pm p) /\ pa p' = pa p /\ pf p' = pf p /\ r = RUnit /\ c = CVoid) \/
      (exists o', shadow o o' /\ step (pw p) o' = Next (pw p') r)
  | PStop =>
      (exists o', shadow o o' /\ step (pw p) o' = Stop) \/
      (o = PAction /\ exists w', step (pw p) OAction = Next w' RUnit /\ exists f fs fr frs a n todo se args v m',
         w_frames (pw p) = f :: fs /\ pf p = fr :: frs /\ f_todo f = n :: todo /\ nth_error (pa p) (f_exp f) = Some a /\ nth_error (a_effects a) n = Some se /\
         gets se (pf_args fr) args /\ function_of se args (pm p) = (URaise v, m'))
  | PWrong u => exists o', shadow o o' /\ step (pw p) o' = Wrong u
  | PInvalid => True
  end.
Proof.
  destruct (ostep la p o) as [p' r c| |u|] eqn:H; auto.
  - destruct (ostep_shadow _ _ _ _ _ _ H) as [(f & -> & -> & _ & -> & ->)|]; [left; exists f; auto 10|right; auto].
  - destruct o as [f|o|m ov ms cls l|m ov es l| | |]; cbn [ostep] in H.
    + destruct (_ <=? _); discriminate.
    + destruct (objectless o) eqn:E; [|discriminate]. left. exists o. cbn [shadow]. split; auto. destruct (step (pw p) o); try discriminate; auto.
    + unfold do_pexpect in H. left. exists (OExpect m ov ms (plains 0 cls) l). cbn [shadow step]. split; auto.
      destruct (find_overload (pw p) m ov) as [s|[s coll]] eqn:Ef; [unfold do_expect; rewrite Ef; destruct s; try discriminate; auto|].
      destruct (negb _); [discriminate|]. destruct (step (pw p) (OExpect m ov ms (plains 0 cls) l)) as [w' r| | |] eqn:Es; cbn [pbind] in H; try discriminate; auto.
      destruct r; [destruct (eval_clauses _ _ _ _) as [[? ?]|]; discriminate|..]; destruct (frontend_builder s ms); try discriminate; destruct (eval_clauses _ _ _ _) as [[? ?]|]; discriminate.
    + unfold do_pcall in H. left. cbn [shadow]. destruct (find_overload (pw p) m ov) as [s|[s coll]] eqn:Ef.
      * exists (OCall m ov [] l). split; [eauto|]. cbn [step]. unfold do_call. rewrite Ef. destruct s; try discriminate; auto.
      * destruct (bind_params _ _ _ _) as [[ls m1]|]; [|discriminate]. destruct (select ls m1) as [vals|]; [|discriminate].
        exists (OCall m ov vals l). split; [eauto|]. destruct (step (pw p) (OCall m ov vals l)); try discriminate; auto.
    + unfold do_paction in H. destruct (w_frames (pw p)) as [|f fs] eqn:Ef; [discriminate|]. destruct (pf p) as [|fr frs] eqn:Ep; [discriminate|].
      destruct (f_todo f) as [|n todo] eqn:Et; [discriminate|]. destruct (nth_error (pa p) (f_exp f)) as [a|] eqn:Ea; [|discriminate].
      destruct (nth_error (a_effects a) n) as [se|] eqn:Es; [|discriminate]. destruct (handed se (pf_args fr)) as [args|] eqn:Eh; [|discriminate].
      destruct (step (pw p) OAction) as [w' r| | |] eqn:Ew; cbn [pbind] in H; try discriminate; [|left; exists OAction; cbn [shadow]; auto].
      right. split; auto. destruct (frames_action _ _ _ Ew) as (_ & _ & _ & _ & _ & _ & -> & _). exists w'. split; auto.
      destruct (function_of se args (pm p)) as [[e|v] m'] eqn:Ff; [destruct (_ <=? _); discriminate|].
      exists f, fs, fr, frs, a, n, todo, se, args, v, m'. do 5 (split; auto). split; auto. apply handed_gets. auto.
    + left. exists OFinal. cbn [shadow]. split; auto. destruct (step (pw p) OFinal); try discriminate; auto.
    + unfold do_preturn in H. left. cbn [shadow]. destruct (w_frames (pw p)) as [|f fs] eqn:Ef; [discriminate|]. destruct (pf p) as [|fr frs] eqn:Ep; [discriminate|].
      destruct (nth_error (pa p) (f_exp f)) as [a|] eqn:Ea; [|discriminate].
      destruct (finalize _ _ _ _ _ _ _) as [lg c0 m'|lg v m'| | |] eqn:Ez; try discriminate;
        (match type of H with context [step (pw p) (OReturn ?u)] => exists (OReturn u); (split; [exists u; reflexivity|]); destruct (step (pw p) (OReturn u)) end; cbn [pbind] in H; [destruct (_ <=? _); discriminate|reflexivity|discriminate|discriminate]).
  - destruct o as [f|o|m ov ms cls l|m ov es l| | |]; cbn [ostep] in H.
    + destruct (_ <=? _); discriminate.
    + destruct (objectless o) eqn:E; [|discriminate]. exists o. cbn [shadow]. split; auto. destruct (step (pw p) o); cbn [pbind] in H; congruence.
    + unfold do_pexpect in H. exists (OExpect m ov ms (plains 0 cls) l). cbn [shadow step]. split; auto.
      destruct (find_overload (pw p) m ov) as [s|[s coll]] eqn:Ef; [unfold do_expect; rewrite Ef; destruct s; cbn [pbind] in H; congruence|].
      destruct (negb _); [discriminate|]. destruct (step (pw p) (OExpect m ov ms (plains 0 cls) l)) as [w' r| | |] eqn:Es; cbn [pbind] in H; try discriminate; [|injection H as <-; exact Es].
      destruct r; [destruct (eval_clauses _ _ _ _) as [[? ?]|]; discriminate|..]; destruct (frontend_builder s ms); try discriminate; destruct (eval_clauses _ _ _ _) as [[? ?]|]; discriminate.
    + unfold do_pcall in H. cbn [shadow]. destruct (find_overload (pw p) m ov) as [s|[s coll]] eqn:Ef.
      * exists (OCall m ov [] l). split; [eauto|]. cbn [step]. unfold do_call. rewrite Ef. destruct s; cbn [pbind] in H; congruence.
      * destruct (bind_params _ _ _ _) as [[ls m1]|]; [|discriminate]. destruct (select ls m1) as [vals|]; [|discriminate].
        exists (OCall m ov vals l). split; [eauto|]. destruct (step (pw p) (OCall m ov vals l)); cbn [pbind] in H; congruence.
    + unfold do_paction in H. destruct (w_frames (pw p)) as [|f fs] eqn:Ef; [discriminate|]. destruct (pf p) as [|fr frs] eqn:Ep; [discriminate|].
      destruct (f_todo f) as [|n todo] eqn:Et; [discriminate|]. destruct (nth_error (pa p) (f_exp f)) as [a|] eqn:Ea; [|discriminate].
      destruct (nth_error (a_effects a) n) as [se|] eqn:Es; [|discriminate]. destruct (handed se (pf_args fr)) as [args|] eqn:Eh; [|discriminate].
      exists OAction. cbn [shadow]. split; auto. destruct (step (pw p) OAction) as [w' r| | |] eqn:Ew; cbn [pbind] in H; try congruence.
      destruct (function_of se args (pm p)) as [[e|v] m'] eqn:Ff; [destruct (_ <=? _); discriminate|discriminate].
    + exists OFinal. cbn [shadow]. split; auto. destruct (step (pw p) OFinal); cbn [pbind] in H; congruence.
    + unfold do_preturn in H. cbn [shadow]. destruct (w_frames (pw p)) as [|f fs] eqn:Ef; [discriminate|]. destruct (pf p) as [|fr frs] eqn:Ep; [discriminate|].
      destruct (nth_error (pa p) (f_exp f)) as [a|] eqn:Ea; [|discriminate].
      destruct (finalize _ _ _ _ _ _ _) as [lg c0 m'|lg v m'| | |] eqn:Ez; try discriminate;
        (match type of H with context [step (pw p) (OReturn ?u)] => exists (OReturn u); (split; [exists u; reflexivity|]); destruct (step (pw p) (OReturn u)) end; cbn [pbind] in H; [destruct (_ <=? _); discriminate|discriminate|congruence|discriminate]).
Qed.

(** ** Arguments *)

(** A call passes its arguments as C++ demands. Requirements and reports see the values of the parameter objects, which are those of the argument
    expressions unless the caller moves an object into another parameter of the same call. *)
Theorem C86_arguments la p m ov es l p1 r c :
  Forall (denotes (pm p)) es -> ostep la p (PCall m ov es l) = PNext p1 r c ->
  exists s coll ls vals, find_overload (pw p) m ov = inr (s, coll) /\ passed (map (la_pmode la) (sg_params s)) es (pm p) ls (pm p1) /\
    step (pw p) (OCall m ov vals l) = Next (pw p1) r /\ length vals = length ls /\
    (forall k o, nth_error ls k = Some o -> nth_error vals k = nth_error (pm p1) o) /\
    (forall k e, nth_error es k = Some e -> (forall o k', e = Lv o \/ e = Xv o -> moved_in (map (la_pmode la) (sg_params s)) es k' o -> k' = k) ->
       nth_error vals k = value_of (pm p) e).
Proof.
  intros Hd H. cbn [ostep] in H. apply pcall_parts in H. destruct H as (s & coll & ls & vals & Hf & Hb & Hsel & Hs & _).
  exists s, coll, ls, vals. pose proof (bind_passed _ _ _ _ _ _ Hd Hb) as P. destruct (select_values _ _ _ Hsel) as [L V].
  split; auto. split; auto. split; auto. split; auto. split; auto. intros k e He Hu.
  destruct P as (P1 & P2 & P3 & P4 & P5). assert (Hk : k < length (map (la_pmode la) (sg_params s))) by (rewrite <- P2; eapply nth_error_lt; eauto).
  destruct (nth_error_ex _ _ Hk) as [q Hq]. destruct (P4 _ _ _ Hq He) as (o & Ho & Hlt & Hr). rewrite (V _ _ Ho).
  destruct (by_reference q e) as [o'|] eqn:Eb.
  - subst o'. assert (He' : (e = Lv o \/ e = Xv o) /\ q <> ByValue) by (destruct q, e; cbn [by_reference] in Eb; try discriminate; injection Eb as ->; split; auto; discriminate).
    destruct He' as [He' Hq']. rewrite P5.
    + destruct He' as [-> | ->]; reflexivity.
    + rewrite Forall_forall in Hd. specialize (Hd _ (nth_error_In _ _ He)). destruct He' as [-> | ->]; exact Hd.
    + intros k' Hm. assert (k' = k) as -> by (eapply Hu; eauto). destruct Hm as [Hm _]. congruence.
  - destruct Hr as (_ & _ & Hr). destruct (Hr Hu) as (v & -> & ->). reflexivity.
Qed.

(** ** Who changes objects *)

(** The library itself changes no object of the program: apart from user code, an operation keeps every object which the program does not
    explicitly move into a parameter or a finalizer. *)
Theorem C86_library_keeps_objects la p o p' r c l :
  ostep la p o = PNext p' r c -> ~ user_code o -> l < length (pm p) -> ~ moves la p o l -> nth_error (pm p') l = nth_error (pm p) l.
Proof.
  intros H Hu Hl Hm. destruct o as [f|o|m ov ms cls k|m ov es k| | |]; cbn [ostep] in H.
  - exfalso. apply Hu. left. eauto.
  - destruct (objectless o); [|discriminate]. apply pbind_next in H. destruct H as (w & r' & Hs & H). injection H as <- _ _. auto.
  - apply expect_parts in H. cbn [moves] in Hm. destruct H as (_ & _ & _ & s & coll & _ & _ & [(_ & a' & Ev & _)|(_ & _ & b & a & _ & Ev)]);
      eapply eval_memory; eauto; intros X; apply evaluated_in in X; auto.
  - apply pcall_parts in H. destruct H as (s & coll & ls & vals & Hf & Hb & _). destruct (bind_memory _ _ _ _ _ _ Hb) as [B _]. apply B; auto.
    intros j X. apply Hm. cbn [moves]. eauto.
  - exfalso. apply Hu. right. auto.
  - apply pbind_next in H. destruct H as (w & r' & Hs & H). injection H as <- _ _. auto.
  - exfalso. apply Hu. right. auto.
Qed.

(** ** Side effects and finalizers *)

(** An expectation gets its side effects in the order they are written, and the finalizer as written. Whatever the program does later: they stay. *)
Theorem C86_as_written la p m ov ms cls l p1 c :
  oreachable la p -> ostep la p (PExpect m ov ms cls l) = PNext p1 RUnit c ->
  exists a x, exp_at (pw p1) (length (w_exps (pw p))) x /\ a_effects a = effects_in cls /\ as_written cls (pm p) (a_fin a) (pm p1) /\
    forall ops p2, orun la p1 ops p2 -> nth_error (pa p2) (length (w_exps (pw p))) = Some a.
Proof.
  intros Hr H. pose proof (oi_reachable _ _ Hr) as I. cbn [ostep] in H. apply expect_parts in H. destruct H as (Hs & _ & _ & s & coll & Hf & Hok & [(_ & a & Ea & Epa)|(X & _)]); [|congruence].
  destruct (expect_next _ _ _ _ _ _ _ _ Hs) as (s' & coll' & _ & _ & W & [(_ & _ & x & Hx & _)|(_ & Er & _)]); [|discriminate].
  exists a, x. split; auto. split; [apply (eval_effects _ _ _ _ _ _ Ea)|]. split.
  - destruct W as (_ & W & _). rewrite plains_finals, map_length in W. unfold as_written. destruct (finals_in cls) as [|c0 [|c1 cs]] eqn:Ec; [|..|cbn [length] in W; lia].
    + apply (eval_finals _ _ _ _ _ _ Ea Ec).
    + pose proof (eval_written _ _ _ _ _ _ _ Ea Ec) as K. destruct c0; auto.
  - intros ops p2 H. eapply acts_run; eauto. rewrite Epa, <- (oj_exps _ I). apply nth_error_app_last.
Qed.

(** A matched call, whatever the program does while it is running (in user functions: calling other mocks, changing objects): its k-th side effect is
    the k-th one attached and gets the arguments of this very call by reference, in the memory as it is then. When it returns, all its side effects have
    been executed, and its result is what the finalizer makes of its own arguments and the memory as it is then. *)
Theorem C86_body la p m ov es l p1 c0 :
  oreachable la p -> Forall (denotes (pm p)) es -> ostep la p (PCall m ov es l) = PNext p1 RUnit c0 ->
  exists n a s coll ls, find_overload (pw p) m ov = inr (s, coll) /\ nth_error (pa p) n = Some a /\
    accepted (w_trace (pw p1)) n = S (accepted (w_trace (pw p)) n) /\ passed (map (la_pmode la) (sg_params s)) es (pm p) ls (pm p1) /\
    forall ops k p2, oduring la (length (w_frames (pw p))) p1 ops k p2 ->
      k <= length (a_effects a) /\
      (length (w_frames (pw p2)) = S (length (w_frames (pw p))) -> forall p3 r c,
        (ostep la p2 PAction = PNext p3 r c -> exists se args e, nth_error (a_effects a) k = Some se /\ gets se ls args /\ function_of se args (pm p2) = (URet e, pm p3)) /\
        (ostep la p2 PReturn = PNext p3 r c -> k = length (a_effects a) /\ concludes la s (a_fin a) ls (pm p2) (pm p3) r c)).
Proof.
  intros Hr Hd H. pose proof (oi_reachable _ _ Hr) as I. pose proof (oi_step _ _ _ _ _ _ I H) as I1. cbn [ostep] in H. apply pcall_parts in H.
  destruct H as (s & coll & ls & vals & Hf & Hb & _ & Hs & Epa & Epf & _).
  destruct (frames_call _ _ _ _ _ _ _ (oj_reach _ I) Hs) as [(_ & n & x & ne & Hx & Hacc & Efr)|(y & X & _)]; [|discriminate].
  assert (Hn : n < length (pa p)) by (rewrite (oj_exps _ I); eapply nth_error_lt; exact Hx). destruct (nth_error_ex _ _ Hn) as [a Ha].
  destruct (oj_acts _ I _ _ _ Hx Ha) as [Ee _]. exists n, a, s, coll, ls. split; auto. split; auto. split; auto. split; [eapply bind_passed; eauto|].
  intros ops k p2 Hdu.
  assert (Ha2 : forall q, oduring la (length (w_frames (pw p))) p1 ops k q -> nth_error (pa q) n = Some a).
  { intros q Hq. rewrite <- Epa in Ha. clear - Ha Hq. induction Hq as [|? ? ? ? ? ? ? ? IH Hs]; auto. eapply acts_step; eauto. }
  specialize (Ha2 _ Hdu).
  destruct (stack_during _ _ _ _ _ _ Hdu I1 _ _ _ _ (length (a_effects a)) Efr Epf eq_refl Ee eq_refl) as (I2 & pre & f' & ppre & E1 & E2 & E3 & E4 & E5 & E6 & E7).
  cbn [f_exp] in E4. split; auto. intros Hlen p3 r c. rewrite E1, app_length in Hlen. cbn [length] in Hlen. destruct pre; [|cbn [length] in Hlen; lia].
  destruct ppre; [|discriminate]. cbn [app] in *. split.
  - intros H. cbn [ostep] in H. apply paction_parts in H. destruct H as (f & fs & fr & frs & j & todo & b & se & args & e & G1 & G2 & G3 & G4 & G5 & G6 & _ & G7 & _).
    rewrite E1 in G1. injection G1 as <- <-. rewrite E2 in G2. injection G2 as <- <-. rewrite E4, Ha2 in G4. injection G4 as <-.
    rewrite E6 in G3. destruct (length (a_effects a) - k) as [|d]; [discriminate|]. cbn [seq] in G3. injection G3 as <- _. cbn [pf_args] in G6.
    exists se, args, e. split; auto. split; auto. apply handed_gets. auto.
  - intros H. cbn [ostep] in H. destruct (return_concludes _ _ _ _ _ I2 H) as (f & fs & fr & frs & b & G1 & G2 & G3 & G4 & G5).
    rewrite E1 in G1. injection G1 as <- <-. rewrite E2 in G2. injection G2 as <- <-. rewrite E4, Ha2 in G4. injection G4 as <-. cbn [pf_sig pf_args] in G5.
    split; auto. specialize (E5 G3). rewrite E6 in E5. destruct (length (a_effects a) - k) as [|d] eqn:Ed; [lia|discriminate].
Qed.

(** The side effects do happen: a running call with side effects left executes the next one, unless its expectation has been destroyed; a throwing one
    ends the program. *)
Theorem C86_side_effect_runs la p f fs n todo x :
  oreachable la p -> w_frames (pw p) = f :: fs -> f_todo f = n :: todo -> exp_at (pw p) (f_exp f) x -> eo_alive x = true ->
  exists fr frs a se args, pf p = fr :: frs /\ nth_error (pa p) (f_exp f) = Some a /\ nth_error (a_effects a) n = Some se /\ gets se (pf_args fr) args /\
    match function_of se args (pm p) with
    | (URet _, m') => length (pm p) <= length m' -> exists p', ostep la p PAction = PNext p' RUnit CVoid /\ pm p' = m' /\ pa p' = pa p /\ pf p' = pf p
    | (URaise _, _) => ostep la p PAction = PStop
    end.
Proof.
  intros Hr Ef Et Hx Hal. pose proof (oi_reachable _ _ Hr) as I. pose proof (of_reachable _ _ Hr) as F.
  pose proof (of_frames _ F) as K. rewrite Ef in K. inversion K as [|? fr ? frs Hg Hgs E0 Ep]; subst. destruct Hg as (y & G1 & G2 & G3 & G4).
  unfold exp_at in *. rewrite Hx in G1. injection G1 as <-.
  assert (Hn : f_exp f < length (pa p)) by (rewrite (oj_exps _ I); eapply nth_error_lt; exact Hx). destruct (nth_error_ex _ _ Hn) as [a Ha].
  destruct (oj_acts _ I _ _ _ Hx Ha) as [Ee _]. destruct (of_acts _ F _ _ _ Hx Ha) as [Ok _].
  assert (Hin : In n (effects_of (e_policies (eo_exp x)))) by (apply G4; rewrite Et; left; auto). rewrite Ee in Hin. apply in_seq in Hin.
  assert (Hlt : n < length (a_effects a)) by lia. destruct (nth_error_ex _ _ Hlt) as [se Hse].
  destruct (handed_ok se _ (pf_args fr) (Ok _ (nth_error_In _ _ Hse))) as [args Hargs]; [rewrite G3, G2; auto|].
  exists fr, frs, a, se, args. split; auto. split; auto. split; auto. split; [apply handed_gets; auto|].
  cbn [ostep]. unfold do_paction. rewrite Ef, <- Ep, Et, Ha, Hse, Hargs. cbn [step]. unfold do_action. rewrite Ef, Et. unfold exp_alive. rewrite Hx, Hal. cbn [negb pbind].
  destruct (function_of se args (pm p)) as [[e|v] m']; auto. intros L. destruct (Nat.leb_spec (length (pm p)) (length m')); [|lia]. eexists. split; [reflexivity|]. auto.
Qed.

(** ** returns and throws, every time *)

Lemma stored_kept la p m ov ms cls l p1 c0 cell v ops p2 :
  oreachable la p -> ostep la p (PExpect m ov ms cls l) = PNext p1 RUnit c0 -> length (pm p) <= cell -> nth_error (pm p1) cell = Some v ->
  undisturbed la cell p1 ops p2 -> functions_keep_off cell p2 -> nth_error (pm p2) cell = Some v.
Proof.
  intros Hr H Hc Hv Hu Hk. pose proof (args_reachable _ _ Hr) as A. cbn [ostep] in H. apply expect_parts in H. destruct H as (_ & Epf & _).
  destruct (cell_run _ _ _ _ _ Hu) as [_ E]; auto; [|eapply nth_error_lt; eauto|congruence].
  intros fr Hfr Hin. rewrite Epf in Hfr. specialize (A _ _ Hfr Hin). lia.
Qed.

(** returns(e): every call the expectation takes yields the value e had when the expectation was written - over every further program, as long as nobody
    gets hold of the stored object. The same for throws. *)
Theorem C86_every_time la p m ov ms cls l p1 c0 e v :
  oreachable la p -> ostep la p (PExpect m ov ms cls l) = PNext p1 RUnit c0 -> finals_in cls = [PcReturns e] \/ finals_in cls = [PcThrows e] -> value_of (pm p) e = Some v ->
  exists cell, length (pm p) <= cell /\ nth_error (pm p1) cell = Some v /\
  forall ops p2 f fs p3 r c, undisturbed la cell p1 ops p2 -> functions_keep_off cell p2 -> w_frames (pw p2) = f :: fs -> f_exp f = length (w_exps (pw p)) ->
    ostep la p2 PReturn = PNext p3 r c ->
    if match finals_in cls with [PcThrows _] => true | _ => false end then r = RThrow (la_exn la v)
    else exists s coll, find_overload (pw p) m ov = inr (s, coll) /\
      if sg_ret s =? 0 then c = CVoid
      else match la_rmode la (sg_ret s) with
      | RetVoid => c = CVoid
      | RetValue => c = CVal v /\ r = RVal (Some v)
      | RetLref | RetCref | RetRref => c = CRef cell /\ nth_error (pm p3) cell = Some v
      end.
Proof.
  intros Hr H Hfi Hv. destruct (C86_as_written _ _ _ _ _ _ _ _ _ Hr H) as (a & x & Hx & _ & Hw & Hstay). unfold as_written in Hw.
  assert (exists cell, length (pm p) <= cell /\ nth_error (pm p1) cell = Some v /\ a_fin a = (match finals_in cls with [PcThrows _] => FinThrows cell | _ => FinReturns cell end)) as (cell & C1 & C2 & C3).
  { destruct Hfi as [Hfi|Hfi]; rewrite Hfi in Hw |- *; destruct Hw as (cell & v' & W1 & W2 & W3 & W4); exists cell; split; auto; split; auto; congruence. }
  exists cell. split; auto. split; auto. intros ops p2 f fs p3 r c Hu Hk Ef Efe Hret.
  pose proof (undisturbed_run _ _ _ _ _ Hu) as Hrun. pose proof (Hstay _ _ Hrun) as Ha. pose proof (stored_kept _ _ _ _ _ _ _ _ _ _ _ _ _ Hr H C1 C2 Hu Hk) as Hv2.
  assert (Hr1 : oreachable la p1).
  { destruct Hr as [ops0 Hops0]. exists (ops0 ++ [PExpect m ov ms cls l]). clear - Hops0 H. induction Hops0; cbn [app]; econstructor; eauto. constructor. }
  assert (Hr2 : oreachable la p2).
  { destruct Hr1 as [ops0 Hops0]. exists (ops0 ++ ops). clear - Hops0 Hrun. induction Hops0; cbn [app]; auto. econstructor; eauto. }
  pose proof (oi_reachable _ _ Hr2) as I2. pose proof (of_reachable _ _ Hr2) as F2.
  cbn [ostep] in Hret. destruct (return_concludes _ _ _ _ _ I2 Hret) as (f' & fs' & fr & frs & b & G1 & G2 & _ & G4 & G5). rewrite Ef in G1. injection G1 as <- <-.
  rewrite Efe, Ha in G4. injection G4 as <-. rewrite C3 in G5.
  destruct Hfi as [Hfi|Hfi]; rewrite Hfi in *.
  - assert (exists s coll, find_overload (pw p) m ov = inr (s, coll) /\ pf_sig fr = s) as (s & coll & Hf & Es).
    { cbn [ostep] in H. apply expect_parts in H. destruct H as (Hs & _). destruct (expect_next _ _ _ _ _ _ _ _ Hs) as (s & coll & Hf & _ & _ & [(_ & _ & y & Hy & D & _)|(_ & Er & _)]); [|discriminate].
      exists s, coll. split; auto. pose proof (of_frames _ F2) as K. rewrite Ef, G2 in K. inversion K as [|? ? ? ? Hg]; subst. destruct Hg as (z & Z1 & Z2 & _).
      destruct D as (_ & _ & _ & _ & _ & _ & D & _). rewrite <- Z2, <- D. rewrite Efe in Z1.
      assert (S : forall q ops0 q', orun la q ops0 q' -> reachable (pw q) -> forall y0, exp_at (pw q) (length (w_exps (pw p))) y0 -> exists y', exp_at (pw q') (length (w_exps (pw p))) y' /\ eo_sig y' = eo_sig y0).
      { clear. intros q ops0 q' Hq. induction Hq as [q|q o q1 r c ops0 q2 Hs Hq IH]; intros Hr y0 Hy; eauto.
        destruct (ostep_shadow _ _ _ _ _ _ Hs) as [(g & _ & -> & _)|(o' & _ & Hs')]; [apply IH; auto|].
        destruct (static_step _ _ _ _ Hr Hs' _ _ Hy) as (y1 & Hy1 & S). destruct S as (_ & _ & S & _).
        destruct (IH (reachable_step _ _ _ _ Hr Hs') _ Hy1) as (y2 & Hy2 & E). exists y2. split; auto. congruence. }
      destruct (S _ _ _ Hrun (C86_is_program _ _ Hr1) _ Hy) as (y' & Hy' & Ey). unfold exp_at in *. rewrite Z1 in Hy'. injection Hy' as <-. auto. }
    exists s, coll. split; auto. cbn [concludes] in G5. rewrite Es in G5. destruct G5 as [Hcv Hres].
    destruct (sg_ret s =? 0); [inversion Hcv; subst; auto; congruence|].
    destruct (la_rmode la (sg_ret s)); inversion Hcv; subst; try congruence; auto.
    assert (v0 = v) as -> by congruence. auto.
  - cbn [concludes] in G5. destruct G5 as (v' & G5 & _ & G6 & _). congruence.
Qed.

(** ** Expressions which fail *)

(** An expectation expression which throws leaves mocks, expectations and running calls as they were, and all objects except those it moved from. *)
Theorem C86_failed_expression la p m ov ms cls l p1 r c :
  oreachable la p -> ostep la p (PExpect m ov ms cls l) = PNext p1 r c -> r <> RUnit ->
  r = RThrow EInvalidArgument /\ pw p1 = pw p /\ pa p1 = pa p /\ pf p1 = pf p /\
  forall o, o < length (pm p) -> ~ In (PcReturns (Xv o)) cls -> ~ In (PcThrows (Xv o)) cls -> nth_error (pm p1) o = nth_error (pm p) o.
Proof.
  intros Hr H Hn. cbn [ostep] in H. apply expect_parts in H. destruct H as (Hs & Epf & _ & s & coll & _ & _ & [(X & _)|(_ & Epa & b & a & _ & Ev)]); [congruence|].
  destruct (expect_next _ _ _ _ _ _ _ _ Hs) as (s' & coll' & _ & _ & _ & [(_ & X & _)|(_ & Er & Ew)]); [congruence|].
  do 4 (split; auto). intros o Ho N1 N2. eapply eval_memory; eauto; intros X; apply evaluated_in in X; auto.
Qed.

(** Which operands are allowed: the indices of applied functions and of the returned argument are below the number of parameters; the finalizers
    are those of namespace finally. *)
Definition operand_fits (n : nat) (c : pclause) : Prop :=
  match c with
  | PcThen se => forall i, In i (indices_of se) -> i < n
  | PcFinal f => (forall i, In i (fin_indices_of f) -> i < n) /\ f <> FinVoid /\ forall cell, f <> FinReturns cell /\ f <> FinThrows cell
  | _ => True
  end.
Definition operand_denotes (m : mem) (c : pclause) : Prop := match c with PcReturns e | PcThrows e => denotes m e | _ => True end.

Lemma operand_fits_ok n c : pclause_ok n c = true <-> operand_fits n c.
Proof.
  assert (K : forall is, indices_ok n is = true <-> forall i, In i is -> i < n).
  { intros is. unfold indices_ok. rewrite forallb_forall. split; intros H i Hi; apply Nat.ltb_lt; auto. }
  destruct c as [| | |se| | |f]; cbn [pclause_ok operand_fits]; try tauto.
  - destruct se; cbn [side_effect_ok indices_of]; [apply K| |]; (split; [intros _ i []|auto]).
  - rewrite andb_true_iff.
    assert (N : forall is : list nat, is = [] -> forall i, In i is -> i < n) by (intros is -> i []).
    destruct f as [|cell|g|is g|g|i|cell]; cbn [finalizer_ok fin_indices_of]; rewrite ?K.
    all: try (split; [intros [_ H]; discriminate H|]; intros (_ & H2 & H3); exfalso; first [apply H2; reflexivity|apply (proj1 (H3 cell)); reflexivity|apply (proj2 (H3 cell)); reflexivity]).
    all: split; [intros [H1 _]; split; [first [exact H1|intros ? []]|split; [discriminate|intros; split; discriminate]]|intros (H1 & _); auto].
Qed.

Lemma eval_defined la cls : forall a m, (forall c, In c cls -> operand_denotes m c) -> exists a' m', eval_clauses la cls a m = Some (a', m').
Proof.
  assert (S0 : forall mk e m, denotes m e -> exists f m', store (la_residue la) mk e m = Some (f, m')).
  { intros mk e m H. unfold store, init_from. destruct e as [v|l|l]; cbn [denotes] in H; [eauto| |];
      destruct (nth_error_ex _ _ H) as [v Hv]; rewrite Hv; eauto. }
  induction cls as [|c cls IH]; intros a m H; cbn [eval_clauses]; [eauto|].
  assert (E : exists a1 m1, eval_clause la c a m = Some (a1, m1)).
  { pose proof (H c (or_introl eq_refl)) as Hc. destruct c; cbn [eval_clause operand_denotes] in *; eauto.
    all: destruct (S0 FinReturns e m Hc) as (f & m' & Ef); destruct (S0 FinThrows e m Hc) as (f' & m'' & Ef'); rewrite ?Ef, ?Ef'; eauto. }
  destruct E as (a1 & m1 & E). rewrite E. apply IH. intros c' Hc'. pose proof (eval_clause_length _ _ _ _ _ _ E) as L.
  pose proof (H c' (or_intror Hc')) as D. destruct c'; cbn [operand_denotes] in *; auto; destruct e; cbn [denotes] in *; auto; lia.
Qed.

(** An expectation expression whose operands denote objects is possible iff it is one of World.v and its operands are allowed. *)
Theorem C86_possible_expressions la p m ov ms cls l w r s coll :
  step (pw p) (OExpect m ov ms (plains 0 cls) l) = Next w r -> find_overload (pw p) m ov = inr (s, coll) ->
  (forall c, In c cls -> operand_denotes (pm p) c) ->
  (forall c, In c cls -> operand_fits (length (sg_params s)) c) <-> exists p', ostep la p (PExpect m ov ms cls l) = PNext p' r CVoid /\ pw p' = w.
Proof.
  intros Hs Hf Hd. cbn [ostep]. split.
  - intros Hfit. unfold do_pexpect. rewrite Hf.
    assert (forallb (pclause_ok (length (sg_params s))) cls = true) as -> by (apply forallb_forall; intros c Hc; apply operand_fits_ok; auto). cbn [negb].
    rewrite Hs. cbn [pbind].
    destruct (eval_defined la cls (mkActs [] FinVoid) (pm p) Hd) as (a' & m' & E). rewrite E.
    rewrite frontend_builder_spec. 
    match goal with |- context [evaluated ?b0 0 cls] => destruct (eval_defined la (evaluated b0 0 cls) (mkActs [] FinVoid) (pm p)) as (a2 & m2 & E2) end.
    { intros c Hc. apply Hd. eapply evaluated_in; eauto. }
    rewrite E2. destruct r as [|b|v|x]; eexists; split; reflexivity.
  - intros (p' & H & _) c Hc. apply expect_parts in H. destruct H as (_ & _ & _ & s' & coll' & Hf' & Hok & _). rewrite Hf in Hf'. injection Hf' as <- <-.
    apply operand_fits_ok. eapply forallb_forall in Hok; eauto.
Qed.

(** ** Examples *)

Fixpoint oexec (la : lang) (p : pworld) (ops : list pop) : option (pworld * list (result * cres)) :=
  match ops with
  | [] => Some (p, [])
  | o :: ops' =>
      match ostep la p o with
      | PNext p1 r c => match oexec la p1 ops' with Some (p2, rs) => Some (p2, (r, c) :: rs) | None => None end
      | _ => None
      end
  end.
Lemma oexec_run la ops : forall p p' rs, oexec la p ops = Some (p', rs) -> orun la p ops p'.
Proof.
  induction ops as [|o ops IH]; intros p p' rs H; cbn [oexec] in H; [injection H as <- _; constructor|].
  destruct (ostep la p o) as [p1 r c| | |] eqn:E; try discriminate. destruct (oexec la p1 ops) as [[p2 rs2]|] eqn:E2; [|discriminate]. injection H as <- _. econstructor; eauto.
Qed.
Definition oafter (la : lang) (ops : list pop) : pworld := match oexec la oinit ops with Some (p, _) => p | None => oinit end.
Definition oresults (la : lang) (p : pworld) (ops : list pop) : list (result * cres) := match oexec la p ops with Some (_, rs) => rs | None => [] end.
Lemma oafter_run la ops : (match oexec la oinit ops with Some _ => true | None => false end) = true -> orun la oinit ops (oafter la ops).
Proof. unfold oafter. destruct (oexec la oinit ops) as [[p rs]|] eqn:E; [|discriminate]. intros _. eapply oexec_run; eauto. Qed.
Lemma oafter_reachable la ops : (match oexec la oinit ops with Some _ => true | None => false end) = true -> oreachable la (oafter la ops).
Proof. intros H. exists ops. apply oafter_run; auto. Qed.

(** Type 1: int, 2: int&, 3: int&&; moved-from objects become opaque; every exception object looks alike. *)
Definition la0 : lang := mkLang (fun _ => VOpaque) (fun t => if t =? 2 then ByLref else if t =? 3 then ByRref else ByValue)
  (fun t => if t =? 2 then RetLref else if t =? 3 then RetRref else RetValue) (fun _ => EUser 4).
Definition set_first (v : val) : ufun := fun args m => match args with Lv l :: _ => (URet (Prv VOpaque), upd m l v) | _ => (URet (Prv VOpaque), m) end.
Definition first_of : ufun := fun args m => match args with Lv l :: _ => (URet (Lv l), m) | _ => (URet (Prv VOpaque), m) end.
Definition boom : ufun := fun _ m => (URaise (VInt 13), m).

(** int x = 1, y = 5; Mock<int(int&), int&(int)> m; the first overload sets its argument to 9, then to 11, and returns std::move(y); the second one (of int&) returns
    what a function makes of its argument. *)
Definition prog_objects : list pop :=
  [PUser (fun m => m ++ [VInt 1; VInt 5]); POp (ONewMock [mkSig 1 [2] false false RefNone false; mkSig 2 [1] false false RefNone false]);
   PExpect 0 0 [m_any] [PcThen (ApplyArgs [0] (set_first (VInt 9))); PcTimes (TxAtMost 2); PcReturns (Xv 1); PcThen (ApplyAll (set_first (VInt 11)))] here;
   PExpect 0 1 [m_eq 3] [PcFinal (FinApply [0] first_of)] here].

Example C86_example :
  let p := oafter la0 prog_objects in
  oreachable la0 p /\ pm p = [VInt 1; VOpaque; VInt 5] /\ map (fun a => length (a_effects a)) (pa p) = [2; 0] /\ map a_fin (firstn 1 (pa p)) = [FinReturns 2] /\
  (* the first call; its first side effect calls the second overload, whose argument is a new object (3) and whose result refers to it *)
  let body := [PCall 0 0 [Lv 0] here; PAction; PCall 0 1 [Prv (VInt 3)] here; PFinal; PReturn; PAction; PFinal; PReturn] in
  oresults la0 p body = [(RUnit, CVoid); (RUnit, CVoid); (RUnit, CVoid); (RUnit, CVoid); (RVal (Some (VInt 3)), CRef 3); (RUnit, CVoid); (RUnit, CVoid); (RVal (Some (VInt 5)), CVal (VInt 5))] /\
  pm (oafter la0 (prog_objects ++ firstn 2 body)) = [VInt 9; VOpaque; VInt 5] /\
  pm (oafter la0 (prog_objects ++ body)) = [VInt 11; VOpaque; VInt 5; VInt 3] /\
  (* the second call returns the same although y has been moved from *)
  oresults la0 (oafter la0 (prog_objects ++ body)) [PUser (fun m => upd m 1 (VInt 77)); PCall 0 0 [Lv 1] here; PAction; PAction; PFinal; PReturn]
    = [(RUnit, CVoid); (RUnit, CVoid); (RUnit, CVoid); (RUnit, CVoid); (RUnit, CVoid); (RVal (Some (VInt 5)), CVal (VInt 5))].
Proof.
  split; [apply oafter_reachable; vm_compute; reflexivity|]. split; [vm_compute; reflexivity|]. split; [vm_compute; reflexivity|]. split; [vm_compute; reflexivity|].
  split; [vm_compute; reflexivity|]. split; [vm_compute; reflexivity|]. split; [vm_compute; reflexivity|vm_compute; reflexivity].
Qed.

(** The hypotheses of C86_body and C86_side_effect_runs: the state inside of the first call, with another call inside of its side effect. *)
Example C86_example_body :
  let p := oafter la0 prog_objects in
  exists p1 p2, oreachable la0 p /\ Forall (denotes (pm p)) [Lv 0] /\ ostep la0 p (PCall 0 0 [Lv 0] here) = PNext p1 RUnit CVoid /\
    oduring la0 0 p1 [PAction; PCall 0 1 [Prv (VInt 3)] here; PFinal; PReturn] 1 p2 /\ length (w_frames (pw p2)) = 1 /\
    oresults la0 p2 [PAction; PFinal; PReturn] = [(RUnit, CVoid); (RUnit, CVoid); (RVal (Some (VInt 5)), CVal (VInt 5))].
Proof.
  exists (oafter la0 (prog_objects ++ [PCall 0 0 [Lv 0] here])), (oafter la0 (prog_objects ++ [PCall 0 0 [Lv 0] here; PAction; PCall 0 1 [Prv (VInt 3)] here; PFinal; PReturn])).
  split; [apply oafter_reachable; vm_compute; reflexivity|]. split; [constructor; [vm_compute; lia|constructor]|]. split; [vm_compute; reflexivity|].
  split; [|split; vm_compute; reflexivity].
  set (q := oafter la0 (prog_objects ++ [PCall 0 0 [Lv 0] here])).
  assert (S0 : oduring la0 0 q [] 0 q) by (constructor; vm_compute; lia).
  pose (q1 := oafter la0 (prog_objects ++ [PCall 0 0 [Lv 0] here; PAction])).
  assert (S1 : oduring la0 0 q ([] ++ [PAction]) 1 q1) by (apply (od_snoc la0 0 q [] 0 q PAction q1 RUnit CVoid); [exact S0|vm_compute; reflexivity|vm_compute; lia]).
  pose (q2 := oafter la0 (prog_objects ++ [PCall 0 0 [Lv 0] here; PAction; PCall 0 1 [Prv (VInt 3)] here])).
  assert (S2 : oduring la0 0 q (([] ++ [PAction]) ++ [PCall 0 1 [Prv (VInt 3)] here]) 1 q2)
    by (apply (od_snoc la0 0 q _ 1 q1 (PCall 0 1 [Prv (VInt 3)] here) q2 RUnit CVoid); [exact S1|vm_compute; reflexivity|vm_compute; lia]).
  pose (q3 := oafter la0 (prog_objects ++ [PCall 0 0 [Lv 0] here; PAction; PCall 0 1 [Prv (VInt 3)] here; PFinal])).
  assert (S3 : oduring la0 0 q ((([] ++ [PAction]) ++ [PCall 0 1 [Prv (VInt 3)] here]) ++ [PFinal]) 1 q3)
    by (apply (od_snoc la0 0 q _ 1 q2 PFinal q3 RUnit CVoid); [exact S2|vm_compute; reflexivity|vm_compute; lia]).
  apply (od_snoc la0 0 q [PAction; PCall 0 1 [Prv (VInt 3)] here; PFinal] 1 q3 PReturn _ (RVal (Some (VInt 3))) (CRef 3)); [exact S3|vm_compute; reflexivity|vm_compute; lia].
Qed.

Lemma set_first_keeps_off cell v : keeps_off cell (set_first v).
Proof.
  intros args m u m' H N _. unfold set_first in H. destruct args as [|[x|k|k] args]; injection H as <- <-; (split; [|discriminate]); auto.
  apply nth_error_upd_neq. intros ->. apply N. left. reflexivity.
Qed.
(** The hypotheses of C86_every_time: the stored object is 2; the program writes to all other objects. *)
Example C86_example_every_time :
  let p := oafter la0 (firstn 2 prog_objects) in
  exists p1 p2, oreachable la0 p /\ ostep la0 p (nth 2 prog_objects PFinal) = PNext p1 RUnit CVoid /\ value_of (pm p) (Xv 1) = Some (VInt 5) /\
    undisturbed la0 2 p1 [PUser (fun m => upd m 1 (VInt 8)); PCall 0 0 [Lv 1] here; PAction; PAction; PFinal] p2 /\ functions_keep_off 2 p2 /\
    nth_error (w_frames (pw p2)) 0 = Some (mkFrame 0 [] true true false) /\ pm p2 = [VInt 1; VInt 11; VInt 5] /\
    oresults la0 p2 [PReturn] = [(RVal (Some (VInt 5)), CVal (VInt 5))].
Proof.
  exists (oafter la0 (firstn 3 prog_objects)), (oafter la0 (firstn 3 prog_objects ++ [PUser (fun m => upd m 1 (VInt 8)); PCall 0 0 [Lv 1] here; PAction; PAction; PFinal])).
  split; [apply oafter_reachable; vm_compute; reflexivity|]. split; [vm_compute; reflexivity|]. split; [vm_compute; reflexivity|]. split; [|split; [|split; [|split]; vm_compute; reflexivity]].
  - pose (u := PUser (fun m => upd m 1 (VInt 8))). pose (cl := PCall 0 0 [Lv 1] here).
    apply (un_cons la0 2 _ u (oafter la0 (firstn 3 prog_objects ++ [u])) RUnit CVoid); [vm_compute; reflexivity|vm_compute; reflexivity|].
    apply (un_cons la0 2 _ cl (oafter la0 (firstn 3 prog_objects ++ [u; cl])) RUnit CVoid); [split; intros [H|[]]; discriminate|vm_compute; reflexivity|].
    apply (un_cons la0 2 _ PAction (oafter la0 (firstn 3 prog_objects ++ [u; cl; PAction])) RUnit CVoid); [exact Logic.I|vm_compute; reflexivity|].
    apply (un_cons la0 2 _ PAction (oafter la0 (firstn 3 prog_objects ++ [u; cl; PAction; PAction])) RUnit CVoid); [exact Logic.I|vm_compute; reflexivity|].
    apply (un_cons la0 2 _ PFinal (oafter la0 (firstn 3 prog_objects ++ [u; cl; PAction; PAction; PFinal])) RUnit CVoid); [exact Logic.I|vm_compute; reflexivity|].
    constructor.
  - intros a Ha.
    assert (Hp : pa (oafter la0 (firstn 3 prog_objects ++ [PUser (fun m => upd m 1 (VInt 8)); PCall 0 0 [Lv 1] here; PAction; PAction; PFinal]))
      = [mkActs [ApplyArgs [0] (set_first (VInt 9)); ApplyAll (set_first (VInt 11))] (FinReturns 2)]) by (vm_compute; reflexivity).
    rewrite Hp in Ha. destruct Ha as [<-|[]]. split; [|intros g; discriminate]. intros se [<-|[<-|[]]]; apply set_first_keeps_off.
Qed.

(** All kinds of operands at the border of the allowed ones. *)
Example C86_example_possible :
  let p := oafter la0 (firstn 2 prog_objects) in
  let ok cls := match ostep la0 p (PExpect 0 0 [m_any] cls here) with PNext _ RUnit CVoid => true | _ => false end in
  ok [PcThen (ApplyArgs [0; 0] (set_first (VInt 9))); PcFinal (FinArg 0)] = true /\ ok [PcThen (ApplyArgs [0; 1] (set_first (VInt 9))); PcFinal (FinArg 0)] = false /\
  ok [PcFinal (FinArg 1)] = false /\ ok [PcFinal (FinApply [0] boom)] = true /\ ok [PcFinal (FinApply [1] boom)] = false /\ ok [PcFinal (FinApplyAll boom)] = true /\
  ok [PcFinal (FinResultOf boom)] = true /\ ok [PcFinal FinVoid] = false /\ ok [PcFinal (FinReturns 0)] = false /\ ok [PcFinal (FinThrows 0)] = false /\
  ok [PcReturns (Lv 1)] = true /\ ok [PcThrows (Lv 2)] = false.
Proof. vm_compute. repeat (split; [reflexivity|]). reflexivity. Qed.

(** A side effect which throws ends the program; throws and a finalizer of a reference to the argument. *)
Example C86_example_ends :
  ostep la0 (oafter la0 [PUser (fun m => m ++ [VInt 1]); POp (ONewMock [sig_unary]); PExpect 0 0 [m_any] [PcThen (Invoke boom)] here; PCall 0 0 [Xv 0] here]) PAction = PStop /\
  oresults la0 oinit [PUser (fun m => m ++ [VInt 1]); POp (ONewMock [sig_unary]); PExpect 0 0 [m_any] [PcThrows (Lv 0)] here; PUser (fun m => upd m 0 (VInt 6)); PCall 0 0 [Xv 0] here; PFinal; PReturn]
    = [(RUnit, CVoid); (RUnit, CVoid); (RUnit, CVoid); (RUnit, CVoid); (RUnit, CVoid); (RUnit, CVoid); (RThrow (EUser 4), CVoid)] /\
  oresults la0 oinit [PUser (fun m => m ++ [VInt 1]); POp (ONewMock [mkSig 3 [3] false false RefNone false]); PExpect 0 0 [m_any] [PcFinal (FinArg 0)] here; PCall 0 0 [Xv 0] here; PFinal; PReturn]
    = [(RUnit, CVoid); (RUnit, CVoid); (RUnit, CVoid); (RUnit, CVoid); (RUnit, CVoid); (RVal (Some (VInt 1)), CRef 0)].
Proof. split; [vm_compute; reflexivity|]. split; vm_compute; reflexivity. Qed.

(** Where the intuition fails: an expectation expression which throws need not leave the objects of the program as they were;
    m.expect_call() && finally::returns(std::move(x)) && expect::times(2, 1) has moved from x. *)
Theorem C86_failed_expression_keeps_objects_refuted :
  exists la p m ov ms cls l p1 c o, oreachable la p /\ ostep la p (PExpect m ov ms cls l) = PNext p1 (RThrow EInvalidArgument) c /\
    o < length (pm p) /\ nth_error (pm p1) o <> nth_error (pm p) o.
Proof.
  exists la0, (oafter la0 (firstn 2 prog_objects)), 0, 0, [m_any], [PcReturns (Xv 1); PcTimes (TxRange 2 1)], here. do 2 eexists. exists 1.
  split; [apply oafter_reachable; vm_compute; reflexivity|]. split; [vm_compute; reflexivity|]. split; [vm_compute; lia|]. vm_compute. discriminate.
Qed.
(** Operands behind the failing one are not evaluated. *)
Example C86_example_failed :
  exists p1, ostep la0 (oafter la0 (firstn 2 prog_objects)) (PExpect 0 0 [m_any] [PcTimes (TxRange 2 1); PcReturns (Xv 1)] here) = PNext p1 (RThrow EInvalidArgument) CVoid /\
    pm p1 = [VInt 1; VInt 5] /\ pa p1 = [].
Proof. eexists. split; [vm_compute; reflexivity|]. split; vm_compute; reflexivity. Qed.

(** A returned reference to the stored object: the hypothesis that nobody writes to it can not be dropped. *)
Theorem C86_every_time_refuted :
  exists la p m ov ms cls l p1 c0 e v ops p2 f fs p3 r c, oreachable la p /\ ostep la p (PExpect m ov ms cls l) = PNext p1 RUnit c0 /\ finals_in cls = [PcReturns e] /\
    value_of (pm p) e = Some v /\ orun la p1 ops p2 /\ w_frames (pw p2) = f :: fs /\ f_exp f = length (w_exps (pw p)) /\
    ostep la p2 PReturn = PNext p3 r c /\ r <> RVal (Some v).
Proof.
  pose (start := [POp (ONewMock [mkSig 2 [] false false RefNone false])]). pose (ex := PExpect 0 0 [] [PcTimes (TxExactly 2); PcReturns (Prv (VInt 5))] here).
  pose (body := [PCall 0 0 [] here; PFinal; PReturn; PUser (fun m => upd m 0 (VInt 6)); PCall 0 0 [] here; PFinal]).
  exists la0, (oafter la0 start), 0, 0, [], [PcTimes (TxExactly 2); PcReturns (Prv (VInt 5))], here, (oafter la0 (start ++ [ex])), CVoid, (Prv (VInt 5)), (VInt 5), body,
    (oafter la0 (start ++ [ex] ++ body)). do 5 eexists.
  split; [apply oafter_reachable; vm_compute; reflexivity|]. split; [vm_compute; reflexivity|]. split; [reflexivity|]. split; [reflexivity|].
  split; [|split; [vm_compute; reflexivity|]; split; [vm_compute; reflexivity|]; split; [vm_compute; reflexivity|]; discriminate].
  destruct (oexec la0 (oafter la0 (start ++ [ex])) body) as [[q rs]|] eqn:E; [|vm_compute in E; discriminate].
  assert (q = oafter la0 (start ++ [ex] ++ body)) as <- by (vm_compute in E; injection E as <- _; vm_compute; reflexivity). eapply oexec_run; eauto.
Qed.

Print Assumptions C86_is_program.
Print Assumptions C86_operations.
Print Assumptions C86_arguments.
Print Assumptions C86_library_keeps_objects.
Print Assumptions C86_as_written.
Print Assumptions C86_body.
Print Assumptions C86_side_effect_runs.
Print Assumptions C86_every_time.
Print Assumptions C86_possible_expressions.
Print Assumptions C86_failed_expression.
Print Assumptions C86_failed_expression_keeps_objects_refuted.
Print Assumptions C86_every_time_refuted.
