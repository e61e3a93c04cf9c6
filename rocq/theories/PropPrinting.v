(** * PropPrinting: printers which throw (property C84). *)

From Verif Require Import Base Lib Sequence Control Signature Printer Reports Expectation Builder World WorldSpec CallSpec
  SeqInv BuilderLemmas StepCases MatchLemmas WorldInv ObjInv CallProofs OutcomeProofs Scenario Printing.

(** ** Vocabulary *)

(** [x] is what the printer of the leftmost unprintable argument throws. *)
Definition cannot_print (pr : printers) (args : list val) (x : exn) : Prop :=
  exists pre v post, args = pre ++ v :: post /\ pr v = Some x /\ forall u, In u pre -> pr u = None.
Definition can_print (pr : printers) (args : list val) : Prop := forall v, In v args -> pr v = None.

(** The operations which are not calls with unprintable arguments. *)
Definition prints (pr : printers) (o : op) : bool :=
  match o with
  | OCall _ _ args _ => forallb (fun v => match pr v with None => true | Some _ => false end) args
  | _ => true
  end.

(** ** Proofs *)

Lemma unprintable_spec pr args : (forall x, unprintable pr args = Some x <-> cannot_print pr args x) /\ (unprintable pr args = None <-> can_print pr args).
Proof.
  induction args as [|v args [IH1 IH2]]; split.
  - intros x. split; [discriminate|]. intros (pre & v & post & E & _). destruct pre; discriminate.
  - split; auto. intros _ v [].
  - intros x. cbn [unprintable]. destruct (pr v) as [y|] eqn:E.
    + split.
      * intros H. injection H as ->. exists [], v, args. split; auto. split; auto. intros u [].
      * intros (pre & u & post & Ea & Eu & Hp). destruct pre as [|p pre]; cbn in Ea; injection Ea as -> ->; [congruence|].
        rewrite (Hp p (or_introl eq_refl)) in E. discriminate.
    + rewrite IH1. split; intros (pre & u & post & Ea & Eu & Hp).
      * exists (v :: pre), u, post. split; [rewrite Ea; reflexivity|]. split; auto. intros z [<-|Hz]; auto.
      * destruct pre as [|p pre]; cbn in Ea; injection Ea as -> ->; [congruence|]. exists pre, u, post. split; auto. split; auto.
        intros z Hz. apply Hp. right; auto.
  - cbn [unprintable]. destruct (pr v) as [y|] eqn:E.
    + split; [discriminate|]. intros H. rewrite (H v (or_introl eq_refl)) in E. discriminate.
    + rewrite IH2. split; intros H.
      * intros u [<-|Hu]; auto.
      * intros u Hu. apply H. right; auto.
Qed.

Lemma prints_call pr m ov args l : prints pr (OCall m ov args l) = match unprintable pr args with None => true | Some _ => false end.
Proof. cbn [prints]. induction args as [|v args IH]; cbn [forallb unprintable]; auto. destruct (pr v); cbn [andb]; auto. Qed.

Lemma full_state m : evaluate_match_report m = MatchFull -> exists rs, ratings_of m = Ret rs.
Proof.
  unfold evaluate_match_report, ratings_of. destruct (forallb pr_matching (mr_policies m)); cbn [negb]; [|discriminate].
  destruct (mr_state m); try discriminate. eauto.
Qed.

Lemma matches_clean ss c es : forall full,
  (forall p, In p es -> exists m, exp_matches ss (snd p) c = Ret m) ->
  (forall p, In p full -> exists rs, ratings_of (snd p) = Ret rs) ->
  exists full', matches_unprinted ss c es full = Ret full' /\ forall p, In p full' -> exists rs, ratings_of (snd p) = Ret rs.
Proof.
  induction es as [|[n e] es IH]; intros full H Hf; [exists full; auto|]. cbn [matches_unprinted].
  destruct (H (n, e) (or_introl eq_refl)) as [m Hm]. cbn [snd] in Hm. rewrite Hm. apply IH.
  - intros p Hp. apply H. right; auto.
  - destruct (evaluate_match_report m) eqn:E; auto. intros p Hp. apply in_app_iff in Hp. destruct Hp as [Hp|[<-|[]]]; auto.
    apply full_state; auto.
Qed.

Lemma matches_throwing ss c es : forall full,
  (forall p, In p es -> (exists m, exp_matches ss (snd p) c = Ret m) \/ exists x, exp_matches ss (snd p) c = Throw x) ->
  (exists p x, In p es /\ exp_matches ss (snd p) c = Throw x) -> matches_unprinted ss c es full = Terminate.
Proof.
  induction es as [|[n e] es IH]; intros full H (p & x & Hp & Hx); [contradiction|]. cbn [matches_unprinted].
  destruct (H (n, e) (or_introl eq_refl)) as [[m Hm]|[y Hy]]; cbn [snd] in *; [|rewrite Hy; reflexivity].
  rewrite Hm. apply IH; [intros q Hq; apply H; right; auto|]. destruct Hp as [<-|Hp]; [cbn [snd] in Hx; congruence|eauto].
Qed.

(** Matching one expectation. *)
Lemma exp_matches_clean w e x c : WInv w -> exp_at w e x -> clean (eo_exp x) c -> exists m, exp_matches (w_seqs w) (eo_exp x) c = Ret m.
Proof.
  intros I Hx Hc. destruct (state_true _ _ _ I Hx) as (st & Hst & _). destruct (proj1 (clean_reports _ _) Hc) as [rs Hr].
  unfold exp_matches. fold (ctl_of x). rewrite Hst. cbn [obind]. rewrite Hr. cbn [obind]. eauto.
Qed.
Lemma exp_matches_throws n w e x c : WInv w -> exp_at w e x -> forallb (policy_ok n) (e_policies (eo_exp x)) = true -> length (ci_args c) = n ->
  ~ clean (eo_exp x) c -> exists y, exp_matches (w_seqs w) (eo_exp x) c = Throw y.
Proof.
  intros I Hx Hok Hlen Hnc. destruct (state_true _ _ _ I Hx) as (st & Hst & _). rewrite clean_reports in Hnc. rewrite forallb_forall in Hok.
  destruct (omap_total (policy_report_of c) (e_policies (eo_exp x))) as [[rs H]|[y H]];
    [intros p Hp; eapply policy_report_ok; eauto|exfalso; eauto|].
  exists y. unfold exp_matches. fold (ctl_of x). rewrite Hst. cbn [obind]. rewrite H. reflexivity.
Qed.

(** ** C84 *)

(** Nothing changes for calls whose arguments can be printed, and for all other operations. *)
Theorem C84_conservative pr w o :
  (match o with OCall _ _ args _ => can_print pr args | _ => True end) -> pstep pr w o = step w o.
Proof. destruct o; intros H; auto. cbn [pstep]. rewrite (proj2 (proj2 (unprintable_spec pr args)) H). reflexivity. Qed.

(** A call with an unprintable argument, in every state a program can reach: if a requirement of a live expectation throws, too, or the function is
    noexcept, the program is ended. Otherwise the exception of the leftmost unprintable argument reaches the caller; and that is all that happens:
    no report is made, nothing is counted, no sequence moves, no side effect starts - whether the call was expected or not. *)
Theorem C84_unprintable_call pr w m ov args l s coll x :
  call_setting w m ov args s coll -> cannot_print pr args x ->
  (exists e y, throwing w coll (call_of s args l) e y) /\ pstep pr w (OCall m ov args l) = Stop \/
  (forall e y, ~ throwing w coll (call_of s args l) e y) /\
    pstep pr w (OCall m ov args l) = if sg_noexcept s then Stop else Next w (RThrow x).
Proof.
  intros (Hr & Hf & Hlen) Hx. apply (proj1 (unprintable_spec pr args)) in Hx.
  pose proof (winv_reachable _ Hr) as I. pose proof (oinv_reachable _ Hr) as O.
  set (c := call_of s args l) in *. pose proof (find_overload_coll _ _ _ _ _ O Hf) as Hcoll.
  destruct (call_entries w coll I Hcoll) as (lst & es & Hl & Hes & _ & Hin).
  assert (Hpol : forall k y, live_in w coll k y -> forallb (policy_ok (length args)) (e_policies (eo_exp y)) = true).
  { intros k y Hy. destruct (overload_live_params _ _ _ _ _ I O Hf _ _ Hy) as [Hd _]. rewrite Hlen, <- (decay_params _ _ Hd).
    destruct Hy as [Hy _]. exact (wi_pol _ I _ _ Hy). }
  assert (Hcase : forall p, In p es -> exists y, live_in w coll (fst p) y /\ snd p = eo_exp y /\
            ((clean (eo_exp y) c /\ exists mr, exp_matches (w_seqs w) (snd p) c = Ret mr) \/
             (~ clean (eo_exp y) c /\ exists z, exp_matches (w_seqs w) (snd p) c = Throw z))).
  { intros [k y0] Hk. apply Hin in Hk. destruct Hk as (y & Hy & ->). exists y. split; auto. split; auto. cbn [snd]. pose proof Hy as (Hya & _).
    destruct (clean_dec (length args) (eo_exp y) c (Hpol _ _ Hy) eq_refl) as [Hc|Hc].
    - left. split; auto. eapply exp_matches_clean; eauto.
    - right. split; auto. eapply exp_matches_throws; eauto. }
  cbn [pstep]. rewrite Hx. unfold do_unprintable. rewrite Hf, Hlen, Nat.eqb_refl. cbn [negb]. fold (call_of s args l). fold c.
  unfold handle_unprintable. rewrite Hl, Hes.
  assert (D : (exists p x0, In p es /\ exp_matches (w_seqs w) (snd p) c = Throw x0) \/ forall p, In p es -> exists mr, exp_matches (w_seqs w) (snd p) c = Ret mr).
  { clear -Hcase. induction es as [|p es IH]; [right; intros p []|].
    destruct IH as [(q & z & Hq & Hz)|IH]; [intros q Hq; apply Hcase; right; auto|left; exists q, z; split; auto; right; auto|].
    destruct (Hcase p (or_introl eq_refl)) as (y & _ & _ & [(_ & Hm)|(_ & z & Hz)]).
    - right. intros q [<-|Hq]; auto.
    - left. exists p, z. split; auto. left; auto. }
  destruct D as [(p & z & Hp & Hz)|D].
  - left. destruct (Hcase p Hp) as (y & Hy & Ey & [(_ & mr & Hm)|(Hn & _)]); [congruence|].
    split; [exists (fst p), y; split; auto|].
    rewrite (matches_throwing (w_seqs w) c es []); auto.
    + intros q Hq. destruct (Hcase q Hq) as (_ & _ & _ & [(_ & H)|(_ & H)]); auto.
    + eauto.
  - right. split.
    { intros e y [Hy Hn]. pose proof (proj2 (Hin e (eo_exp y)) (ex_intro _ y (conj Hy eq_refl))) as Hp.
      destruct (Hcase _ Hp) as (y' & Hy' & Ey & [(Hc & _)|(_ & z & Hz)]); cbn [fst snd] in *.
      - rewrite <- Ey in Hc. auto.
      - destruct (D _ Hp) as [mr Hm]. cbn [snd] in Hm. congruence. }
    destruct (matches_clean (w_seqs w) c es [] D) as (full & Hfull & Hrat); [intros p []|]. rewrite Hfull.
    change (sg_noexcept s) with (frontend_noexcept s).
    destruct full as [|first others]; [reflexivity|].
    destruct (pick_best_total others first Hrat) as [p Hp]. rewrite Hp. reflexivity.
Qed.

(** Without any hypothesis: if such a call does not end the program, it throws and leaves everything as it was. *)
Theorem C84_nothing_happens pr w m ov args l w' r :
  pstep pr w (OCall m ov args l) = Next w' r -> ~ can_print pr args ->
  w' = w /\ exists x, r = RThrow x /\ cannot_print pr args x.
Proof.
  intros H Hn. destruct (unprintable_spec pr args) as [H1 H2]. cbn [pstep] in H.
  destruct (unprintable pr args) as [x|] eqn:E; [|elim Hn; apply H2; auto].
  assert (K : w' = w /\ r = RThrow x); [|destruct K as [-> ->]; split; auto; exists x; split; auto; apply H1; auto].
  unfold do_unprintable in H. destruct (find_overload w m ov) as [y|[s coll]] eqn:Hf.
  { subst y. unfold find_overload in Hf. repeat match type of Hf with context [match ?t with _ => _ end] => destruct t; try discriminate end. }
  destruct (length args =? length (sg_params s)); [|discriminate]. cbn [negb] in H. unfold handle_unprintable in H.
  destruct (nth_error (w_colls w) coll); [|discriminate]. destruct (lookup_exps w (rev l0)); [|discriminate].
  destruct (matches_unprinted _ _ _ _) as [[|first others]|y| |u]; try discriminate.
  - unfold thrown in H. destruct (frontend_noexcept s); [discriminate|]. injection H as <- <-. auto.
  - destruct (pick_best first others); try discriminate. unfold thrown in H. destruct (frontend_noexcept s); [discriminate|]. injection H as <- <-. auto.
Qed.

(** A program with throwing printers behaves like the program without the calls whose arguments can not be printed; all properties of programs hold. *)
Theorem C84_programs pr w ops w' : prun pr w ops w' -> run w (filter (prints pr) ops) w'.
Proof.
  induction 1 as [w|w o w1 r ops w2 H R IH]; [constructor|]. cbn [filter]. destruct (prints pr o) eqn:E.
  - apply (run_cons w o w1 r); auto. destruct o; auto. rewrite prints_call in E. cbn [pstep] in H. destruct (unprintable pr args); [discriminate|auto].
  - destruct o; try discriminate. rewrite prints_call in E.
    destruct (C84_nothing_happens pr w m ov args l w1 r H) as [-> _]; auto.
    intros Hc. apply (proj2 (unprintable_spec pr args)) in Hc. rewrite Hc in E. discriminate.
Qed.
Theorem C84_reachable pr ops w : prun pr init ops w -> reachable w.
Proof. intros H. exists (filter (prints pr) ops). apply (C84_programs pr); auto. Qed.

(** ** Concrete programs *)

(** Printing the number 13 throws. *)
Definition unlucky : printers := fun v => match v with VInt z => if (z =? 13)%Z then Some (EUser 13) else None | _ => None end.

Definition one_any : list op := [ONewMock [sig_unary]; OExpect 0 0 [m_any] [] here].

(** One expects that a call for which a fitting expectation is waiting is accepted; but the printer's exception comes first, and the expectation is
    reported as unfulfilled at the end. *)
Theorem C84_expected_call_accepted_refuted : exists pr w m ov args l s coll e x,
  call_setting w m ov args s coll /\ obeys_contract (w_reporter w) /\ sg_noexcept s = false /\
  candidate w coll (call_of s args l) e x /\ (forall e' x', live_in w coll e' x' -> e' = e) /\
  pstep pr w (OCall m ov args l) = Next w (RThrow (EUser 13)) /\
  (exists w1, step w (OCall m ov args l) = Next w1 RUnit) /\
  (exists rep, pstep pr w (OEndScope 0) = Next (after (one_any ++ [OEndScope 0])) (RThrow EReporter) /\
     w_trace (after (one_any ++ [OEndScope 0])) = [EvReport 0 (RUnfulfilled rep) [0]]).
Proof.
  exists unlucky, (after one_any), 0, 0, [VInt 13], there.
  destruct (find_overload (after one_any) 0 0) as [?|[s coll]] eqn:Hf; [exfalso; revert Hf; vm_compute; discriminate|].
  destruct (nth_error (w_exps (after one_any)) 0) as [x|] eqn:Hx; [|exfalso; revert Hx; vm_compute; discriminate].
  exists s, coll, 0, x.
  assert (Es : s = sig_unary /\ coll = 0) by (revert Hf; vm_compute; intros H; injection H as <- <-; auto). destruct Es as [-> ->].
  split. { split; [apply after_reachable; vm_compute; reflexivity|]. split; auto. }
  split. { vm_compute. repeat split; try discriminate. }
  split; [reflexivity|].
  split. { split; [split; [exact Hx|]|]; revert Hx; vm_compute; intros H; injection H as <-; cbn; [auto|]. split.
    - split; intros p Hp; repeat (destruct Hp as [<-|Hp]; [first [reflexivity|split; eexists; reflexivity]|]); destruct Hp.
    - split; [reflexivity|]. intros s []. }
  split. { intros e' x' (H & _). destruct e' as [|[|e']]; auto; revert H; vm_compute; discriminate. }
  split; [vm_compute; reflexivity|].
  split; [eexists; vm_compute; reflexivity|].
  eexists. split; vm_compute; reflexivity.
Qed.

(** One expects that an unexpected call is reported; but: *)
Theorem C84_unexpected_call_reported_refuted : exists pr w m ov args l s coll,
  call_setting w m ov args s coll /\ obeys_contract (w_reporter w) /\ sg_noexcept s = false /\ (forall e x, ~ live_in w coll e x) /\
  pstep pr w (OCall m ov args l) = Next w (RThrow (EUser 13)) /\
  exists w1 c, step w (OCall m ov args l) = Next w1 (RThrow EReporter) /\ w_trace w1 = w_trace w ++ [EvReport (w_rid w) (RNoMatch c []) []].
Proof.
  exists unlucky, (after [ONewMock [sig_unary]]), 0, 0, [VInt 13], there, sig_unary, 0.
  split. { split; [apply after_reachable; vm_compute; reflexivity|]. split; reflexivity. }
  split. { vm_compute. repeat split; try discriminate. }
  split; [reflexivity|].
  split. { intros [|e] x (H & _); revert H; vm_compute; discriminate. }
  split; [vm_compute; reflexivity|]. eexists. eexists. split; vm_compute; reflexivity.
Qed.

(** ** The hypotheses can be met *)

(** The leftmost unprintable argument decides. *)
Definition picky : printers := fun v => match v with VInt z => if (z <? 0)%Z then Some (EUser (Z.to_nat (- z))) else None | _ => None end.
Example leftmost : cannot_print picky [VInt 1; VInt (-2); VInt (-3)] (EUser 2) /\ ~ cannot_print picky [VInt 1; VInt (-2); VInt (-3)] (EUser 3) /\
  can_print picky [VInt 1; VInt 0].
Proof.
  split; [exists [VInt 1], (VInt (-2)), [VInt (-3)]; split; [reflexivity|]; split; [reflexivity|]; intros u [<-|[]]; reflexivity|].
  split; [|intros v [<-|[<-|[]]]; reflexivity].
  intros H. apply (proj1 (unprintable_spec _ _)) in H. discriminate.
Qed.

(** A requirement throws and the argument can not be printed: the program ends; with a printable argument it goes on. So does a noexcept function. *)
Definition one_throwing : list op := [ONewMock [sig_unary]; OExpect 0 0 [m_throws 1] [] here; OInstall (fun r _ => match r with RNoMatch _ _ => Throws | _ => Returns end)].
Definition sig_unary_noexcept : signature := mkSig 0 [1] false false RefNone true.
Example both_throw : pstep unlucky (after one_throwing) (OCall 0 0 [VInt 13] there) = Stop /\
  (exists w, pstep unlucky (after one_throwing) (OCall 0 0 [VInt 12] there) = Next w (RThrow EReporter)) /\
  pstep unlucky (after [ONewMock [sig_unary_noexcept]; OExpect 0 0 [m_any] [] here]) (OCall 0 0 [VInt 13] there) = Stop /\
  (exists e y, throwing (after one_throwing) 0 (call_of sig_unary [VInt 13] there) e y) /\
  (forall e y, ~ throwing (after one_any) 0 (call_of sig_unary [VInt 13] there) e y).
Proof.
  split; [vm_compute; reflexivity|]. split; [eexists; vm_compute; reflexivity|]. split; [vm_compute; reflexivity|]. split.
  - destruct (nth_error (w_exps (after one_throwing)) 0) as [x|] eqn:Hx; [|exfalso; revert Hx; vm_compute; discriminate].
    exists 0, x. assert (K : In (PArg 0 (m_throws 1) (fun v => UOk v)) (e_policies (eo_exp x)) /\ eo_alive x = true /\ eo_coll x = 0)
      by (revert Hx; vm_compute; intros H; injection H as <-; cbn; auto 10). destruct K as (K & Ha & Hc).
    split; [split; auto|]. intros H. destruct (H _ K) as [[b Hb] _]. discriminate.
  - intros [|e] y [(Hy & _) Hn]; [|destruct e; discriminate]. apply Hn. revert Hy. vm_compute. intros H. injection H as <-. intros p Hp.
    repeat (destruct Hp as [<-|Hp]; [split; eexists; reflexivity|]). destruct Hp.
Qed.

(** A program of several calls, two of which can not be printed. *)
Definition pcalls : list op :=
  one_any ++ [OCall 0 0 [VInt 13] there; OCall 0 0 [VInt 12] there; OFinal; OReturn (UOk (VInt 0)); OCall 0 0 [VInt 13] there; OEndScope 0].
Fixpoint pexec (pr : printers) (w : world) (ops : list op) : option world :=
  match ops with
  | [] => Some w
  | o :: ops' => match pstep pr w o with Next w1 _ => pexec pr w1 ops' | _ => None end
  end.
Lemma pexec_run pr ops : forall w w', pexec pr w ops = Some w' -> prun pr w ops w'.
Proof.
  induction ops as [|o ops IH]; intros w w' H; cbn [pexec] in H; [injection H as <-; constructor|].
  destruct (pstep pr w o) as [w1 r| | |] eqn:E; try discriminate. econstructor; eauto.
Qed.
Example pcalls_run : prun unlucky init pcalls (after (filter (prints unlucky) pcalls)) /\ length (filter (prints unlucky) pcalls) = 6 /\
  accepted (w_trace (after (filter (prints unlucky) pcalls))) 0 = 1.
Proof. split; [apply pexec_run; vm_compute; reflexivity|]. split; vm_compute; reflexivity. Qed.

Print Assumptions C84_conservative.
Print Assumptions C84_unprintable_call.
Print Assumptions C84_nothing_happens.
Print Assumptions C84_programs.
Print Assumptions C84_reachable.
Print Assumptions C84_expected_call_accepted_refuted.
Print Assumptions C84_unexpected_call_reported_refuted.
