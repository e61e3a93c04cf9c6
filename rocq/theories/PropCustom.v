(** * PropCustom: C87, expectation policies written by the user. *)

From Coq Require Import Sorted.
From Verif Require Import Base Lib Sequence Control Signature Printer Reports Expectation Builder World WorldSpec
  SeqInv StepCases MatchLemmas WorldInv ObjInv CountProofs CallProofs History ScopeProofs SeqEnd Scenario RefProofs Stateful StatefulProofs PropStateful
  Custom CustomProofs.

(** ** Specification *)

Section Spec.
Context {U : Type}.
Implicit Types (p : cpolicy U) (ps : list (cpolicy U)) (u : U).

(** A policy is asked whether the call matches, then for its description. *)
Inductive says (c : call_info) : cpolicy U -> U -> bool -> option string -> U -> Prop :=
| says_lib q u b u1 d u2 : s_matches q c u = (Ret b, u1) -> s_describe q u1 = (Ret d, u2) -> says c (CLib q) u b d u2
| says_own q u b u1 d u2 : up_matches q c u = (UOk b, u1) -> up_describe q u1 = (UOk d, u2) -> says c (COwn q) u b d u2.
(** It throws at either of them. *)
Inductive throws_at (c : call_info) : cpolicy U -> U -> exn -> U -> Prop :=
| throws_lib_match q u x u1 : s_matches q c u = (Throw x, u1) -> throws_at c (CLib q) u x u1
| throws_lib_describe q u b u1 x u2 : s_matches q c u = (Ret b, u1) -> s_describe q u1 = (Throw x, u2) -> throws_at c (CLib q) u x u2
| throws_own_match q u x u1 : up_matches q c u = (UThrow x, u1) -> throws_at c (COwn q) u x u1
| throws_own_describe q u b u1 x u2 : up_matches q c u = (UOk b, u1) -> up_describe q u1 = (UThrow x, u2) -> throws_at c (COwn q) u x u2.

(** All policies answer, one after the other. *)
Inductive chorus (c : call_info) : list (cpolicy U) -> U -> list (bool * option string) -> U -> Prop :=
| chorus_nil u : chorus c [] u [] u
| chorus_cons p ps u b d u1 l u2 : says c p u b d u1 -> chorus c ps u1 l u2 -> chorus c (p :: ps) u ((b, d) :: l) u2.
(** One of them throws; the later ones are not asked. *)
Inductive falters (c : call_info) : list (cpolicy U) -> U -> exn -> U -> Prop :=
| falters_here p ps u x u1 : throws_at c p u x u1 -> falters c (p :: ps) u x u1
| falters_later p ps u b d u1 x u2 : says c p u b d u1 -> falters c ps u1 x u2 -> falters c (p :: ps) u x u2.

(** All policies are asked for their descriptions only. *)
Inductive description : cpolicy U -> U -> ures (option string) -> U -> Prop :=
| description_lib q u d u1 : s_describe q u = (Ret d, u1) -> description (CLib q) u (UOk d) u1
| description_lib_throws q u x u1 : s_describe q u = (Throw x, u1) -> description (CLib q) u (UThrow x) u1
| description_own q u r u1 : up_describe q u = (r, u1) -> description (COwn q) u r u1.
Inductive described : list (cpolicy U) -> U -> list (option string) -> U -> Prop :=
| described_nil u : described [] u [] u
| described_cons p ps u d u1 l u2 : description p u (UOk d) u1 -> described ps u1 l u2 -> described (p :: ps) u (d :: l) u2.
Inductive undescribed : list (cpolicy U) -> U -> exn -> U -> Prop :=
| undescribed_here p ps u x u1 : description p u (UThrow x) u1 -> undescribed (p :: ps) u x u1
| undescribed_later p ps u d u1 x u2 : description p u (UOk d) u1 -> undescribed ps u1 x u2 -> undescribed (p :: ps) u x u2.

(** What comes of asking an expectation. *)
Inductive verdict : Type :=
| Answers (l : list (bool * option string))
| Raised (x : exn) (ds : list (option string)).
Inductive judged (c : call_info) : list (cpolicy U) -> U -> verdict -> U -> Prop :=
| judged_answers ps u l u1 : chorus c ps u l u1 -> judged c ps u (Answers l) u1
| judged_raised ps u x u1 ds u2 : falters c ps u x u1 -> described ps u1 ds u2 -> judged c ps u (Raised x ds) u2.
Inductive heard (c : call_info) (pols : nat -> list (cpolicy U)) : list nat -> U -> list (nat * verdict) -> U -> Prop :=
| heard_nil u : heard c pols [] u [] u
| heard_cons n ns u v u1 vs u2 : judged c (pols n) u v u1 -> heard c pols ns u1 vs u2 -> heard c pols (n :: ns) u ((n, v) :: vs) u2.

(** The exceptions among the verdicts. *)
Definition raised (vs : list (nat * verdict)) : list (nat * (exn * list (option string))) :=
  flat_map (fun nv => match snd nv with Raised x ds => [(fst nv, (x, ds))] | Answers _ => [] end) vs.

(** User code run by the consumption of an accepted call: side effects and the policies of the user, in the order of attachment. *)
Definition consumption ps : list nat :=
  flat_map (fun p => match p with CLib (SSideEffect n) => [n] | CLib _ => [] | COwn q => [up_consume q] end) ps.

(** Enough calls, and all policies of the user are satisfied. *)
Definition content (w : world) (u : U) (ps : list (cpolicy U)) (e : nat) (x : eobj) : Prop :=
  (x_min x <= Z.of_nat (accepted (w_trace w) e))%Z /\ forall q, In (COwn q) ps -> up_satisfied q u = true.

End Spec.

(** ** Policies of the library: nothing new *)

Lemma somap_lib {U A} (f : cpolicy U -> sact U A) (g : spolicy U -> sact U A) ps : (forall p u, f (CLib p) u = g p u) -> forall u, somap f (map CLib ps) u = somap g ps u.
Proof.
  intros H. induction ps as [|p ps IH]; intros u; [reflexivity|]. cbn [map somap]. unfold sbind. rewrite H. destruct (g p u) as [[a|x| |v] u1]; auto.
  rewrite IH. reflexivity.
Qed.
Lemma report_lib {U} c (p : spolicy U) u : c_report_of c (CLib p) u = s_report_of c p u.
Proof. reflexivity. Qed.
Lemma describe_lib {U} (p : spolicy U) u : c_describe (CLib p) u = s_describe p u.
Proof. reflexivity. Qed.

Lemma attempt_lib {U} rp n ss e (ps : list (spolicy U)) c u : c_make_match_report rp n ss e (map CLib ps) c u = s_make_match_report rp n ss e ps c u.
Proof.
  unfold c_make_match_report, s_make_match_report, c_exp_matches, s_exp_matches, c_exp_report, s_exp_report. unfold sbind, sret.
  destruct (control_state_of ss (e_ctl e)) as [st|y| |v]; try reflexivity.
  rewrite (somap_lib _ (s_report_of c)) by (intros; apply report_lib).
  destruct (somap (s_report_of c) ps u) as [[rs|y| |v] u1]; try reflexivity.
  rewrite (somap_lib _ s_describe) by (intros; apply describe_lib). reflexivity.
Qed.

Lemma loop_lib {U} rp n ss c (pols : nat -> list (spolicy U)) (es : list (nat * expectation)) : forall acc u,
  c_match_loop rp n ss c (map (fun q => (fst q, (snd q, map CLib (pols (fst q))))) es) acc u =
  s_match_loop rp n ss c (map (fun q => (fst q, (snd q, pols (fst q)))) es) acc u.
Proof.
  induction es as [|[k e] es IH]; intros acc u; [reflexivity|]. cbn [map c_match_loop s_match_loop fst snd]. unfold sbind. rewrite attempt_lib.
  destruct (s_make_match_report rp n ss e (pols k) c u) as [[a|y| |v] u1]; try reflexivity. apply IH.
Qed.

Lemma asserts_lib {U} c (ps : list (spolicy U)) : c_consume_asserts (map CLib ps) c = s_consume_asserts ps c.
Proof. unfold s_consume_asserts. induction ps as [|p ps IH]; [reflexivity|]. cbn. rewrite IH. reflexivity. Qed.
Lemma actions_lib {U} (ps : list (spolicy U)) : c_actions (map CLib ps) = s_side_effects ps.
Proof. unfold s_side_effects. induction ps as [|p ps IH]; [reflexivity|]. destruct p; cbn; rewrite IH; reflexivity. Qed.

(** Only policies of the library: calls are those of [Stateful]. *)
Theorem C87_library_policies {U} w (pols : nat -> list (spolicy U)) m ov args l u :
  c_do_call w (fun e => map CLib (pols e)) m ov args l u = s_do_call w pols m ov args l u.
Proof.
  unfold c_do_call, s_do_call. destruct (find_overload w m ov) as [r|[s coll]]; [reflexivity|]. destruct (negb _); [reflexivity|].
  unfold c_handle_call, s_handle_call. destruct (nth_error (w_colls w) coll) as [lst|]; [|reflexivity].
  destruct (lookup_exps w (rev lst)) as [es|]; [|reflexivity]. rewrite loop_lib.
  destruct (s_match_loop _ _ _ _ _ _ u) as [[ml|y| |v] u1]; try reflexivity. f_equal. unfold settle.
  destruct (ml_full ml) as [|first others]; [reflexivity|]. destruct (pick_best first others) as [[n mr]|y| |v]; try reflexivity.
  rewrite asserts_lib, actions_lib. reflexivity.
Qed.

Lemma satisfied_lib {U} e (ps : list policy) (u : U) : c_is_satisfied e (map (fun p => CLib (lift_policy p)) ps) u = control_is_satisfied (e_ctl e) && forallb policy_is_satisfied ps.
Proof. unfold c_is_satisfied. f_equal. induction ps as [|p ps IH]; [reflexivity|]. cbn [map forallb c_satisfied]. rewrite IH. destruct p; reflexivity. Qed.

Lemma exp_report_lib {U} ss e (u : U) : c_exp_report ss e (map (fun p => CLib (lift_policy p)) (e_policies e)) u = (exp_report_of ss e, u).
Proof.
  unfold c_exp_report, exp_report_of, sbind, sret. destruct (control_state_of ss (e_ctl e)) as [st|y| |v]; cbn [obind]; try reflexivity.
  rewrite <- (map_map lift_policy CLib), (somap_lib _ s_describe) by (intros; apply describe_lib).
  rewrite (omap_lift policy_describe) by (intros; apply lift_describe).
  destruct (omap policy_describe (e_policies e)) as [ds|z| |v]; reflexivity.
Qed.

Lemma end_lib {U} w (pols : nat -> list (cpolicy U)) e u :
  (forall e x, exp_at w e x -> pols e = map (fun p => CLib (lift_policy p)) (e_policies (eo_exp x))) ->
  c_end_expectation w pols e u = (end_expectation w e, u).
Proof.
  intros Hp. unfold c_end_expectation, end_expectation. destruct (nth_error (w_exps w) e) as [eo|] eqn:He; [|reflexivity].
  rewrite (Hp _ _ He). destruct (nth_error (w_colls w) (eo_coll eo)) as [l|]; [|reflexivity]. destruct (negb _); [reflexivity|].
  rewrite satisfied_lib. unfold exp_is_satisfied. destruct (_ && _); [reflexivity|]. rewrite exp_report_lib.
  destruct (exp_report_of (w_seqs w) (eo_exp eo)) as [rep|y| |v]; try reflexivity.
Qed.

(** Only policies of the library without state: all operations are those of [World]. *)
Theorem C87_conservative {U} w (pols : nat -> list (cpolicy U)) u o :
  (forall e x, exp_at w e x -> pols e = map (fun p => CLib (lift_policy p)) (e_policies (eo_exp x))) ->
  c_step pols w u o = (step w o, u).
Proof.
  intros Hp. destruct o; try reflexivity; cbn [c_step step].
  - change (do_call w m ov args l, u) with (step w (OCall m ov args l), u).
    rewrite <- (C79_stateless w (fun e => match nth_error (w_exps w) e with Some x => map lift_policy (e_policies (eo_exp x)) | None => [] end) m ov args l u).
    2:{ intros e x Hx. unfold exp_at in Hx. rewrite Hx. reflexivity. }
    rewrite <- C87_library_policies. unfold c_do_call. destruct (find_overload w m ov) as [r|[s coll]]; [reflexivity|]. destruct (negb _); [reflexivity|].
    set (c := mkCall _ _ _ _ _ _). set (pols' := fun e => map CLib _).
    assert (E : forall e x, exp_at w e x -> pols e = pols' e).
    { intros e x Hx. unfold pols'. unfold exp_at in Hx. rewrite Hx, (Hp _ _ Hx), map_map. reflexivity. }
    unfold c_handle_call. destruct (nth_error (w_colls w) coll) as [lst|]; [|reflexivity]. destruct (lookup_exps w (rev lst)) as [es|] eqn:Hes; [|reflexivity].
    destruct (lookup_exps_spec _ _ _ Hes) as [_ Hin].
    replace (map (fun p => (fst p, (snd p, pols (fst p)))) es) with (map (fun p => (fst p, (snd p, pols' (fst p)))) es).
    2:{ apply map_ext_in. intros [n e] Hne. cbn. destruct (Hin _ _ Hne) as (x & Hx & _). rewrite (E _ _ Hx). reflexivity. }
    destruct (c_match_loop _ _ _ _ _ _ u) as [[ml|y| |v] u1]; try reflexivity. f_equal. unfold settle.
    destruct (ml_full ml) as [|first others]; [reflexivity|]. destruct (pick_best first others) as [[n mr]|y| |v]; try reflexivity.
    destruct (react _ _); try reflexivity. rewrite emit_unhandled_add. change (w_exps (emit_report (add_trace w _) _ _)) with (w_exps w).
    destruct (nth_error (w_exps w) n) as [eo|] eqn:He; [|reflexivity]. rewrite (E _ _ He). reflexivity.
  - destruct (nth_error (w_scoped w) h) as [[e| |]|]; try reflexivity. destruct (nth_error (w_exps w) e) as [eo|] eqn:He; [|reflexivity].
    rewrite (Hp _ _ He), satisfied_lib. destruct (eo_alive eo); reflexivity.
  - destruct (nth_error (w_scoped w) h) as [[e| |]|]; try reflexivity. apply end_lib. exact Hp.
  - destruct (nth_error (w_scoped w) dst) as [[e| |]|], (nth_error (w_scoped w) src) as [[e'| |]|]; try reflexivity; destruct (dst =? src); try reflexivity;
      rewrite end_lib by exact Hp; destruct (end_expectation _ e) as [w2 r2| | |]; try reflexivity; destruct r2; reflexivity.
Qed.

(** ** What the policies of an expectation are asked *)

Section Ask.
Context {U : Type}.
Implicit Types (p : cpolicy U) (ps : list (cpolicy U)) (u : U) (pols : nat -> list (cpolicy U)).

Lemma s_matches_undef q c u : (exists b u1, s_matches q c u = (Ret b, u1)) \/ (exists x u1, s_matches q c u = (Throw x, u1)) \/
  (exists i (mt : smatcher U) pr u1, q = SArg i mt pr /\ length (ci_args c) <= i /\ s_matches q c u = (Undef UbDomain, u1)).
Proof.
  destruct q as [y|y|i mt pr|n]; cbn [s_matches]; unfold sret; eauto 6.
  destruct (nth_error (ci_args c) i) as [v|] eqn:E.
  - unfold sbind, scall. destruct (pr v u) as [[a|x] u1]; cbn [fst snd of_ures]; eauto 6. destruct (sm_matches mt a u1) as [[b|x] u2]; cbn [fst snd of_ures]; eauto 6.
  - right. right. exists i, mt, pr, u. split; auto. split; auto. apply nth_error_None; auto.
Qed.
Lemma s_describe_total (q : spolicy U) u : (exists d u1, s_describe q u = (Ret d, u1)) \/ (exists x u1, s_describe q u = (Throw x, u1)).
Proof.
  destruct q as [y|y|i mt pr|n]; cbn [s_describe]; unfold sret; eauto. unfold sbind, scall.
  destruct (sm_describe mt u) as [[d|x] u1]; cbn [fst snd of_ures]; eauto.
Qed.

Lemma report_cases c p u :
  match c_report_of c p u with
  | (Ret r, u1) => says c p u (pr_matching r) (pr_desc r) u1
  | (Throw x, u1) => throws_at c p u x u1
  | (Terminate, _) => False
  | (Undef b, _) => exists i (mt : smatcher U) pr, p = CLib (SArg i mt pr) /\ length (ci_args c) <= i
  end.
Proof.
  unfold c_report_of, sbind. destruct p as [q|q]; cbn [c_matches c_describe].
  - destruct (s_matches_undef q c u) as [(b & u1 & E)|[(x & u1 & E)|(i & mt & pr & u1 & -> & Hi & E)]]; rewrite E; [|constructor; auto|eauto].
    destruct (s_describe_total q u1) as [(d & u2 & E2)|(x & u2 & E2)]; rewrite E2; cbn; [eapply says_lib; eauto|eapply throws_lib_describe; eauto].
  - unfold scall. destruct (up_matches q c u) as [[b|x] u1] eqn:E; cbn [fst snd of_ures]; [|constructor; auto].
    destruct (up_describe q u1) as [[d|x] u2] eqn:E2; cbn; [econstructor; eauto|]. eapply throws_own_describe; eauto.
Qed.

Lemma reports_cases c ps : forall u,
  match somap (c_report_of c) ps u with
  | (Ret rs, u1) => chorus c ps u (map (fun r => (pr_matching r, pr_desc r)) rs) u1
  | (Throw x, u1) => falters c ps u x u1
  | (Terminate, _) => False
  | (Undef b, _) => exists i (mt : smatcher U) pr, In (CLib (SArg i mt pr)) ps /\ length (ci_args c) <= i
  end.
Proof.
  induction ps as [|p ps IH]; intros u; cbn [somap]; [constructor|]. unfold sbind. pose proof (report_cases c p u) as H.
  destruct (c_report_of c p u) as [[r|x| |b] u1]; auto; [|constructor; auto|].
  - specialize (IH u1). destruct (somap (c_report_of c) ps u1) as [[rs|x| |b] u2]; cbn [sret map]; auto; [econstructor; eauto|eapply falters_later; eauto|].
    destruct IH as (i & mt & pr & Hi & Hl). exists i, mt, pr. split; auto. right; auto.
  - destruct H as (i & mt & pr & -> & Hl). exists i, mt, pr. split; auto. left; auto.
Qed.

Lemma describes_cases ps : forall u,
  match somap c_describe ps u with
  | (Ret ds, u1) => described ps u ds u1
  | (Throw x, u1) => undescribed ps u x u1
  | _ => False
  end.
Proof.
  induction ps as [|p ps IH]; intros u; cbn [somap]; [constructor|]. unfold sbind.
  assert (H : match c_describe p u with (Ret d, u1) => description p u (UOk d) u1 | (Throw x, u1) => description p u (UThrow x) u1 | _ => False end).
  { destruct p as [q|q]; cbn [c_describe].
    - destruct (s_describe_total q u) as [(d & u1 & E)|(x & u1 & E)]; rewrite E; constructor; auto.
    - unfold scall. destruct (up_describe q u) as [[d|x] u1] eqn:E; cbn [of_ures fst snd]; constructor; auto. }
  destruct (c_describe p u) as [[d|x| |b] u1]; auto; [|constructor; auto].
  specialize (IH u1). destruct (somap c_describe ps u1) as [[ds|x| |b] u2]; cbn [sret]; auto; [econstructor; eauto|eapply undescribed_later; eauto].
Qed.

(** One expectation. *)
Lemma attempt_cases rp n ss e ps c u st : control_state_of ss (e_ctl e) = Ret st ->
  match c_make_match_report rp n ss e ps c u with
  | (Ret (AttemptReport m), u1) => mr_state m = st /\ judged c ps u (Answers (map (fun r => (pr_matching r, pr_desc r)) (mr_policies m))) u1
  | (Ret (AttemptUnhandled r x), u1) => judged c ps u (Raised x (er_descs r)) u1
  | (Throw _, _) => False
  | (Terminate, _) => True
  | (Undef b, _) => exists i (mt : smatcher U) pr, In (CLib (SArg i mt pr)) ps /\ length (ci_args c) <= i
  end.
Proof.
  intros Hst. unfold c_make_match_report, c_exp_matches, c_exp_report. unfold sbind at 1. cbn [sret]. rewrite Hst. unfold sbind at 1.
  pose proof (reports_cases c ps u) as H. destruct (somap (c_report_of c) ps u) as [[rs|x| |b] u1]; cbn [sret noexcept_of]; auto.
  - cbn [mr_state mr_policies]. split; auto. constructor; auto.
  - unfold sbind, sret. pose proof (describes_cases ps u1) as H2. destruct (somap c_describe ps u1) as [[ds|y| |b] u2]; cbn [noexcept_of]; auto; try contradiction.
    destruct (rp _ n); cbn [noexcept_of]; auto. cbn [er_descs]. econstructor; eauto.
Qed.

Definition yes (l : list (bool * option string)) : bool := forallb fst l.
Lemma yes_reports rs : yes (map (fun r => (pr_matching r, pr_desc r)) rs) = forallb pr_matching rs.
Proof. unfold yes. rewrite forallb_map. reflexivity. Qed.

Definition free_state (st : control_state) : Prop := match st with StApplicable _ _ _ _ => True | _ => False end.
Lemma evaluate_full m : evaluate_match_report m = MatchFull <-> forallb pr_matching (mr_policies m) = true /\ free_state (mr_state m).
Proof. unfold evaluate_match_report. destruct (forallb pr_matching (mr_policies m)), (mr_state m); cbn; intuition discriminate. Qed.

(** Part of a list, in the same order. *)
Inductive part_of : list nat -> list nat -> Prop :=
| part_nil l : part_of [] l
| part_skip l a m : part_of l m -> part_of l (a :: m)
| part_take a l m : part_of l m -> part_of (a :: l) (a :: m).
Lemma part_in l m : part_of l m -> forall x, In x l -> In x m.
Proof. induction 1; intros x Hx; [destruct Hx|right; auto|destruct Hx as [<-|Hx]; [left; auto|right; auto]]. Qed.
Lemma part_sorted l m : part_of l m -> StronglySorted gt m -> StronglySorted gt l.
Proof.
  induction 1 as [l|l a m H IH|a l m H IH]; intros Hs; [constructor|inversion Hs; auto|]. inversion Hs as [|? ? Hs' Ha]; subst. constructor; auto.
  rewrite Forall_forall in *. intros x Hx. apply Ha. eapply part_in; eauto.
Qed.

(** All of them. *)
Lemma loop_cases rp un ss c pols es :
  (forall n e, In (n, e) es -> exists st, control_state_of ss (e_ctl e) = Ret st) -> forall acc u,
  match c_match_loop rp un ss c (map (fun q : nat * expectation => (fst q, (snd q, pols (fst q)))) es) acc u with
  | (Ret ml, u') => exists vs F unh, heard c pols (map fst es) u vs u' /\
      ml_full ml = ml_full acc ++ F /\ ml_unhandled ml = ml_unhandled acc ++ unh /\
      map (fun q => (fst q, (snd (snd q), er_descs (fst (snd q))))) unh = raised vs /\
      part_of (map fst F) (map fst es) /\
      (forall n m, In (n, m) F -> exists e, In (n, e) es /\ control_state_of ss (e_ctl e) = Ret (mr_state m) /\ free_state (mr_state m) /\
         In (n, Answers (map (fun r => (pr_matching r, pr_desc r)) (mr_policies m))) vs /\ forallb pr_matching (mr_policies m) = true) /\
      (forall n l, In (n, Answers l) vs -> yes l = true -> exists e st, In (n, e) es /\ control_state_of ss (e_ctl e) = Ret st /\ (free_state st -> exists m, In (n, m) F))
  | (Throw _, _) => False
  | (Terminate, _) => True
  | (Undef b, _) => exists n i (mt : smatcher U) pr, In n (map fst es) /\ In (CLib (SArg i mt pr)) (pols n) /\ length (ci_args c) <= i
  end.
Proof.
  induction es as [|[n e] es IH]; intros Hst acc u.
  - cbn. exists [], [], []. rewrite !app_nil_r. split; [constructor|]. repeat (split; auto); try constructor; intros ? ? [].
  - cbn [map c_match_loop fst snd]. unfold sbind. destruct (Hst n e (or_introl eq_refl)) as [st E].
    pose proof (attempt_cases rp un ss e (pols n) c u st E) as H.
    destruct (c_make_match_report rp un ss e (pols n) c u) as [[a|x| |b] u1]; auto.
    2:{ destruct H as (i & mt & pr & H1 & H2). exists n, i, mt, pr. split; [left; auto|auto]. }
    match goal with |- context [c_match_loop rp un ss c _ ?acc1 u1] => set (acc' := acc1); specialize (IH (fun k e' Hk => Hst k e' (or_intror Hk)) acc' u1) end.
    destruct (c_match_loop _ _ _ _ _ acc' u1) as [[ml|x| |b] u2]; auto.
    2:{ destruct IH as (k & i & mt & pr & H1 & H2). exists k, i, mt, pr. split; [right; auto|auto]. }
    destruct IH as (vs & F & unh & I1 & I2 & I3 & I4 & I5 & I6 & I7). destruct a as [m|r x].
    + destruct H as [Hm Hj]. set (l := map (fun r => (pr_matching r, pr_desc r)) (mr_policies m)) in *.
      assert (I6' : forall k m', In (k, m') F -> exists e0, In (k, e0) ((n, e) :: es) /\ control_state_of ss (e_ctl e0) = Ret (mr_state m') /\ free_state (mr_state m') /\
         In (k, Answers (map (fun r => (pr_matching r, pr_desc r)) (mr_policies m'))) ((n, Answers l) :: vs) /\ forallb pr_matching (mr_policies m') = true).
      { intros k m' Hin. destruct (I6 _ _ Hin) as (e0 & J1 & J2 & J3 & J4 & J5). exists e0. split; [right; auto|]. split; auto. split; auto. split; auto. right; auto. }
      assert (Hother : evaluate_match_report m <> MatchFull -> ml_full acc' = ml_full acc /\ ml_unhandled acc' = ml_unhandled acc).
      { unfold acc'. destruct (evaluate_match_report m); try congruence; auto. }
      assert (Hfull : evaluate_match_report m = MatchFull -> ml_full acc' = ml_full acc ++ [(n, m)] /\ ml_unhandled acc' = ml_unhandled acc).
      { unfold acc'. intros ->. auto. }
      destruct (match evaluate_match_report m with MatchFull => true | _ => false end) eqn:Ef.
      * assert (Ev : evaluate_match_report m = MatchFull) by (destruct (evaluate_match_report m); congruence). destruct (Hfull Ev) as [A1 A2].
        apply evaluate_full in Ev. destruct Ev as [Ev1 Ev2].
        exists ((n, Answers l) :: vs), ((n, m) :: F), unh. split; [econstructor; eauto|]. rewrite A1 in I2. rewrite A2 in I3. rewrite <- app_assoc in I2. cbn [app] in I2.
        split; auto. split; auto. split; auto. split; [cbn [map fst]; apply part_take; auto|]. split.
        -- intros k m' [Hk|Hk]; [|apply I6'; auto]. inversion Hk; subst k m'. exists e. split; [left; auto|]. rewrite Hm in *. split; auto. split; auto. split; auto. left; auto.
        -- intros k l' [Hk|Hk] Hy.
           ++ inversion Hk; subst k l'. exists e, st. split; [left; auto|]. split; auto. intros _. exists m. left; auto.
           ++ destruct (I7 _ _ Hk Hy) as (e0 & st0 & J1 & J2 & J3). exists e0, st0. split; [right; auto|]. split; auto. intros Hfr. destruct (J3 Hfr) as [m0 Hm0]. exists m0. right; auto.
      * assert (Ev : evaluate_match_report m <> MatchFull) by (destruct (evaluate_match_report m); congruence). destruct (Hother Ev) as [A1 A2].
        exists ((n, Answers l) :: vs), F, unh. split; [econstructor; eauto|]. rewrite A1 in I2. rewrite A2 in I3. split; auto. split; auto. split; auto.
        split; [constructor; auto|]. split; [exact I6'|].
        intros k l' [Hk|Hk] Hy.
        -- inversion Hk; subst k l'. exists e, st. split; [left; auto|]. split; auto. intros Hfr. exfalso. apply Ev, evaluate_full. unfold l in Hy.
           rewrite yes_reports in Hy. rewrite Hm. auto.
        -- destruct (I7 _ _ Hk Hy) as (e0 & st0 & J1 & J2 & J3). exists e0, st0. split; [right; auto|]. auto.
    + exists ((n, Raised x (er_descs r)) :: vs), F, ((n, (r, x)) :: unh). split; [econstructor; eauto|]. unfold acc' in I2, I3. cbn [ml_full ml_unhandled] in I2, I3.
      rewrite <- app_assoc in I3. cbn [app] in I3. split; auto. split; auto. split; [cbn; rewrite I4; reflexivity|]. split; [constructor; auto|]. split.
      * intros k m' Hin. destruct (I6 _ _ Hin) as (e0 & J1 & J2 & J3 & J4 & J5). exists e0. split; [right; auto|]. split; auto. split; auto. split; auto. right; auto.
      * intros k l' [Hk|Hk] Hy; [discriminate|]. destruct (I7 _ _ Hk Hy) as (e0 & st0 & J1 & J2 & J3). exists e0, st0. split; [right; auto|]. auto.
Qed.

Lemma state_free w n x : CInv w -> exp_at w n x -> exists st, control_state_of (w_seqs w) (ctl_of x) = Ret st /\ (free_state st <-> applicable w n x).
Proof.
  intros I Hx. rewrite (control_state_ok _ _ _ _ (ci_s _ I) (ctls_nth _ _ _ Hx)). eexists. split; [reflexivity|].
  rewrite <- (cinv_applicable _ _ _ I Hx). unfold control_is_applicable. destruct (si_ok _ _ (ci_s _ I) _ _ (ctls_nth _ _ _ Hx)) as (_ & _ & Hc).
  destruct (Z.eqb_spec (c_count (ctl_of x)) (c_max (ctl_of x))) as [E|E].
  - cbn. rewrite E, Z.ltb_irrefl. cbn. intuition discriminate.
  - destruct (_ && _); cbn; intuition discriminate.
Qed.

Lemma actions_spec ps : c_actions ps = consumption ps.
Proof. induction ps as [|[[]|q] ps IH]; cbn; rewrite ?IH; reflexivity. Qed.

(** No rating at all: the first one is kept. *)
Lemma pick_unrated rest : forall best z, pick_best best rest = Ret z -> (forall q, In q (best :: rest) -> ratings_of (snd q) = Ret []) -> z = best.
Proof.
  induction rest as [|x rest IH]; intros best z H Hr; cbn [pick_best] in H; [congruence|].
  rewrite (Hr best), (Hr x) in H by (simpl; auto). cbn in H. apply (IH best); auto. intros q [<-|Hq]; apply Hr; simpl; auto.
Qed.

End Ask.

(** ** Calls *)

(** A candidate: the expectation is in scope, may be called (by counts and sequences), and all of its policies answered yes. *)
Definition willing (w : world) (coll : nat) (vs : list (nat * verdict)) (n : nat) (x : eobj) : Prop :=
  live_in w coll n x /\ applicable w n x /\ exists l, In (n, Answers l) vs /\ forall b d, In (b, d) l -> b = true.

Lemma yes_all l : yes l = true <-> forall b d, In (b, d) l -> b = true.
Proof. unfold yes. rewrite forallb_forall. split; [intros H b d Hi; apply (H _ Hi)|intros H [b d] Hi; eapply H; eauto]. Qed.

Lemma heard_in {U} c (pols : nat -> list (cpolicy U)) ns u vs u' : heard c pols ns u vs u' -> map fst vs = ns.
Proof. induction 1; cbn; congruence. Qed.

Lemma live_list w coll lst es : CInv w -> nth_error (w_colls w) coll = Some lst -> lookup_exps w (rev lst) = Some es ->
  newest_first w coll (map fst es) /\ (forall n e, In (n, e) es -> exists x, live_in w coll n x /\ e = eo_exp x).
Proof.
  intros I Hl Hes. destruct (lookup_exps_spec _ _ _ Hes) as [Hf Hin]. rewrite (ci_coll _ I _ _ Hl) in Hf.
  assert (Hn : newest_first w coll (map fst es)).
  { rewrite Hf. split.
    - apply rev_sorted. unfold members. apply filter_sorted, seq_sorted.
    - intros e. rewrite <- in_rev. apply members_in. }
  split; auto. intros n e He. destruct (Hin _ _ He) as (x & Hx & ->). exists x. split; auto.
  destruct Hn as [_ Hn]. destruct (proj1 (Hn n)) as (y & Hy & Ha & Hc); [apply (in_map fst) in He; exact He|].
  unfold exp_at in Hy. rewrite Hx in Hy. inversion Hy; subst y. split; auto.
Qed.

(** A call asks all expectations in scope, newest first; exceptions are reported and only cost the expectation this call. If there are candidates, one of them
    accepts the call, the newest one if no sequence is involved, and the user code of its consumption is to be run in the order of attachment.
    Otherwise the call fails. *)
Theorem C87_call {U} (pols : nat -> list (cpolicy U)) u0 ops w u m ov args l w' r u' : crun pols init u0 ops w u ->
  c_step pols w u (OCall m ov args l) = (Next w' r, u') ->
  exists s coll ns vs unh, find_overload w m ov = inr (s, coll) /\ newest_first w coll ns /\ heard (call_of s args l) pols ns u vs u' /\
    map (fun q => (fst q, (snd (snd q), er_descs (fst (snd q))))) unh = raised vs /\
    ((exists n x mr, willing w coll vs n x /\ r = RUnit /\
        w_trace w' = w_trace w ++ map (fun q => EvReport (w_rid w) (RUnhandled (make_call_report (call_of s args l)) (fst (snd q)) (snd (snd q))) [fst q]) unh
                      ++ [EvReport (w_rid w) (RFull (make_call_report (call_of s args l)) mr) [n]] /\
        In (n, Answers (map (fun r => (pr_matching r, pr_desc r)) (mr_policies mr))) vs /\
        w_frames w' = mkFrame n (consumption (pols n)) false false (frontend_noexcept s) :: w_frames w /\
        ((forall k y, willing w coll vs k y -> x_seqs y = []) -> forall k y, willing w coll vs k y -> k <= n)) \/
     ((forall n x, ~ willing w coll vs n x) /\ r = RThrow EReporter /\ frontend_noexcept s = false /\ w_frames w' = w_frames w /\
        exists rep who, w_trace w' = w_trace w ++ map (fun q => EvReport (w_rid w) (RUnhandled (make_call_report (call_of s args l)) (fst (snd q)) (snd (snd q))) [fst q]) unh
                      ++ [EvReport (w_rid w) rep who] /\
          match rep with RNoMatch _ _ | RInapplicable _ _ => True | _ => False end)).
Proof.
  intros Hrun H. pose proof (cinv_crun _ _ _ _ _ _ Hrun cinv_init) as I. cbn [c_step] in H. apply c_call_parts in H.
  destruct H as (s & coll & lst & es & ml & Hf & Hlen & Hl & Hes & Hml & Hst). set (c := call_of s args l) in *.
  destruct (live_list _ _ _ _ I Hl Hes) as [Hn Hin].
  assert (Hctl : forall n e, In (n, e) es -> exists st, control_state_of (w_seqs w) (e_ctl e) = Ret st).
  { intros n e He. destruct (Hin _ _ He) as (x & [Hx _] & ->). destruct (state_free w n x I Hx) as (st & E & _). eauto. }
  pose proof (loop_cases (w_reporter w) (w_uncaught w) (w_seqs w) c pols es Hctl lists0 u) as H. rewrite Hml in H.
  destruct H as (vs & F & unh & I1 & I2 & I3 & I4 & I5 & I6 & I7). cbn [lists0 ml_full ml_unhandled app] in I2, I3.
  exists s, coll, (map fst es), vs, unh. split; auto. split; auto. split; auto. split; auto.
  assert (W1 : forall n mr, In (n, mr) F -> exists x, willing w coll vs n x /\ control_state_of (w_seqs w) (ctl_of x) = Ret (mr_state mr) /\
     In (n, Answers (map (fun r => (pr_matching r, pr_desc r)) (mr_policies mr))) vs).
  { intros n mr Hnm. destruct (I6 _ _ Hnm) as (e & J1 & J2 & J3 & J4 & J5). destruct (Hin _ _ J1) as (x & Hlx & ->). exists x. split; [|split; auto].
    split; auto. destruct Hlx as [Hx _]. destruct (state_free w n x I Hx) as (st & E & Hfr). unfold ctl_of in E. rewrite J2 in E. inversion E; subst st. split; [apply Hfr; auto|].
    eexists. split; [exact J4|]. apply yes_all. rewrite yes_reports. auto. }
  assert (W2 : forall n x, willing w coll vs n x -> exists mr, In (n, mr) F).
  { intros n x (Hlx & Ha & la & Hla & Hy). apply yes_all in Hy. destruct (I7 _ _ Hla Hy) as (e & st & J1 & J2 & J3). apply J3.
    destruct (Hin _ _ J1) as (y & [Hy1 _] & ->). destruct Hlx as [Hx _]. unfold exp_at in *. rewrite Hx in Hy1. inversion Hy1; subst y.
    destruct (state_free w n x I Hx) as (st' & E & Hfr). unfold ctl_of in E. rewrite J2 in E. inversion E; subst st'. apply Hfr; auto. }
  destruct Hst as [first others n mr eo ss ctl Hfu Hp He Hc Ho|Hfu Hne].
  - left. rewrite I2 in Hfu. pose proof (pick_best_in _ _ _ Hp) as Hpi. rewrite <- Hfu in Hpi. destruct (W1 _ _ Hpi) as (x & Hw & Hsx & Ha).
    exists n, x, mr. split; auto. split; auto. rewrite I3. split; [reflexivity|]. split; auto. split; [cbn; rewrite actions_spec; reflexivity|].
    intros Hall k y Hk.
    assert (Hfirst : (n, mr) = first).
    { eapply pick_unrated; eauto. intros [k' mr'] Hq. rewrite <- Hfu in Hq. destruct (W1 _ _ Hq) as (z & Hz & Hsz & _). cbn [snd].
      destruct (I6 _ _ Hq) as (e & _ & _ & J3 & _). unfold ratings_of. pose proof (Hall _ _ Hz) as E0. destruct Hz as ([Hz _] & _).
      rewrite (control_state_ok _ _ _ _ (ci_s _ I) (ctls_nth _ _ _ Hz)) in Hsz. unfold x_seqs in E0. fold (ctl_of z) in E0. apply map_eq_nil in E0. rewrite E0 in Hsz.
      destruct (_ =? _)%Z; [|destruct (control_is_applicable _ _)]; injection Hsz as Hsz; rewrite <- Hsz in *; [destruct J3|reflexivity|destruct J3]. }
    destruct (W2 _ _ Hk) as [mk Hmk]. pose proof (part_sorted _ _ I5 (proj1 Hn)) as Hs. rewrite Hfu, <- Hfirst in Hs. cbn in Hs.
    apply (in_map fst) in Hmk. rewrite Hfu, <- Hfirst in Hmk. cbn in Hmk. apply StronglySorted_inv in Hs. destruct Hs as [_ Hfo]. destruct Hmk as [<-|Hmk]; auto. rewrite Forall_forall in Hfo. specialize (Hfo _ Hmk). lia.
  - right. rewrite I2 in Hfu. split.
    + intros n x Hw. destruct (W2 _ _ Hw) as [mr Hmr]. rewrite Hfu in Hmr. destruct Hmr.
    + split; auto. split; auto. split; auto. rewrite I3. exists (fail_report c ml), (fail_who ml). split; [reflexivity|].
      unfold fail_report. destruct (ml_inapplicable ml); exact Logic.I.
Qed.

(** Whatever the policies of the user answer: an accepted call is within the limits and respects the sequences. *)
Lemma respected_counted w w' : CInv w -> counted w w' -> respected w -> respected w'.
Proof.
  intros I Hc H t ev t' e x' Ht Ha Hx'.
  assert (Back : forall k y', exp_at w' k y' -> k < length (w_exps w) -> exists y, exp_at w k y /\ x_min y' = x_min y /\ x_max y' = x_max y /\ x_seqs y' = x_seqs y).
  { destruct Hc as [evs [_ B] _ _|evs rid cr mr n x [_ B] _ _ _ _]; exact B. }
  assert (Old : forall t0 u, w_trace w = t0 ++ u -> forall k, length (w_exps w) <= k -> accepted t0 k = 0).
  { intros t0 v E k Hk. pose proof (ci_fresh _ I _ Hk) as A. rewrite E, accepted_app in A. lia. }
  assert (P1 : forall v, w_trace w = t ++ ev :: v -> 
    (Z.of_nat (accepted t e) < x_max x')%Z /\
    forall s e' y', In s (x_seqs x') -> exp_at w' e' y' -> In s (x_seqs y') ->
      (e' < e -> (x_min y' <= Z.of_nat (accepted t e'))%Z) /\ (e < e' -> accepted t e' = 0)).
  { intros v E. assert (He : e < length (w_exps w)).
    { destruct (Nat.lt_ge_cases e (length (w_exps w))) as [|Hge]; auto. exfalso. pose proof (ci_fresh _ I _ Hge) as A.
      rewrite E, accepted_app, accepted_cons, (accept_counts _ _ Ha) in A. lia. }
    destruct (Back _ _ Hx' He) as (x & Hx & _ & -> & ->).
    destruct (H t ev v e x E Ha Hx) as [A B]. split; auto. intros s e' y' Hs1 Hy' Hs2.
    destruct (Nat.lt_ge_cases e' (length (w_exps w))) as [Hl|Hge].
    - destruct (Back _ _ Hy' Hl) as (y & Hy & S1 & _ & S3). rewrite S1. rewrite S3 in Hs2. eauto.
    - split; [lia|]. intros _. eapply Old; eauto. }
  destruct Hc as [evs _ E H0|evs rid cr mr n x _ E H0 Hx Hap]; rewrite E in Ht; apply app_split in Ht.
  - destruct Ht as [(v & Hv & _)|(v & _ & Hv)]; [eauto|].
    exfalso. specialize (H0 e). rewrite Hv, accepted_app, accepted_cons, (accept_counts _ _ Ha) in H0. lia.
  - destruct Ht as [(v & Hv & _)|(v & -> & Hv)]; [eauto|]. apply app_split in Hv. destruct Hv as [(v1 & Hv & _)|(v1 & -> & Hv)].
    { exfalso. specialize (H0 e). rewrite Hv, accepted_app, accepted_cons, (accept_counts _ _ Ha) in H0. lia. }
    assert (v1 = [] /\ ev = EvReport rid (RFull cr mr) [n]) as [-> ->].
    { destruct v1 as [|a v1]; simpl in Hv; inversion Hv; auto. destruct v1; discriminate. }
    assert (n = e) as ->.
    { pose proof (accept_counts _ _ Ha) as A. rewrite accepted_full in A. destruct (Nat.eqb_spec n e); auto. discriminate. }
    assert (Ek : forall k, accepted (w_trace w ++ evs ++ []) k = accepted (w_trace w) k) by (intros k; rewrite app_nil_r, accepted_app, H0; lia).
    destruct Hap as [A B]. pose proof (nth_error_lt _ _ _ Hx) as He.
    destruct (Back _ _ Hx' He) as (x2 & Hx2 & _ & -> & ->). unfold exp_at in *. rewrite Hx in Hx2. inversion Hx2; subst x2.
    rewrite Ek. split; auto. intros s e' y' Hs1 Hy' Hs2. rewrite Ek.
    destruct (Nat.lt_ge_cases e' (length (w_exps w))) as [Hl|Hge].
    + destruct (Back _ _ Hy' Hl) as (y & Hy & S1 & _ & S3). rewrite S1. rewrite S3 in Hs2. eauto.
    + split; [lia|]. intros _. apply (ci_fresh _ I); auto.
Qed.

Theorem C87_limits_and_sequences {U} (pols : nat -> list (cpolicy U)) u ops w u' : crun pols init u ops w u' -> respected w.
Proof.
  assert (G : forall w0 u ops w u', crun pols w0 u ops w u' -> CInv w0 -> respected w0 -> respected w).
  { induction 1 as [w0 v|w0 v o w1 r v1 ops0 w2 v2 Hs H IH|w0 v v1 ops0 w2 v2 H IH]; intros I R; auto.
    destruct (cinv_cstep _ _ _ _ _ _ _ I Hs) as [I1 Hc]. apply IH; [auto|]. apply (respected_counted w0); auto. }
  intros H. eapply G; eauto; [apply cinv_init|]. intros t ev t' e x Ht. destruct t; discriminate.
Qed.

(** ** Satisfaction *)

Lemma satisfied_content {U} w u (ps : list (cpolicy U)) e x : CInv w -> exp_at w e x -> (c_is_satisfied (eo_exp x) ps u = true <-> content w u ps e x).
Proof.
  intros I Hx. unfold c_is_satisfied, content, x_min. rewrite andb_true_iff.
  assert (E : control_is_satisfied (e_ctl (eo_exp x)) = true <-> (c_min (e_ctl (eo_exp x)) <= Z.of_nat (accepted (w_trace w) e))%Z).
  { unfold control_is_satisfied. fold (ctl_of x). rewrite (ci_count _ I _ _ Hx). destruct (si_ok _ _ (ci_s _ I) _ _ (ctls_nth _ _ _ Hx)) as (_ & _ & Hc).
    rewrite (ci_count _ I _ _ Hx) in Hc. rewrite andb_true_iff, !Z.leb_le. lia. }
  rewrite E. split; intros [A B]; split; auto.
  - intros q Hq. rewrite forallb_forall in B. apply (B (COwn q) Hq).
  - apply forallb_forall. intros [q|q] Hq; [destruct q; reflexivity|apply B; auto].
Qed.

(** is_satisfied() of a ScopedExpectation. *)
Theorem C87_satisfied {U} (pols : nat -> list (cpolicy U)) u0 ops w u h w' r u' : crun pols init u0 ops w u ->
  c_step pols w u (OSatisfied h) = (Next w' r, u') ->
  exists e x b, nth_error (w_scoped w) h = Some (HOwns e) /\ exp_at w e x /\ eo_alive x = true /\ w' = w /\ u' = u /\ r = RBool b /\
    (b = true <-> content w u (pols e) e x).
Proof.
  intros Hrun H. pose proof (cinv_crun _ _ _ _ _ _ Hrun cinv_init) as I. cbn [c_step] in H.
  destruct (nth_error (w_scoped w) h) as [[e| |]|] eqn:Eh; try discriminate. destruct (nth_error (w_exps w) e) as [x|] eqn:Ex; [|discriminate].
  destruct (eo_alive x) eqn:Ea; [|discriminate]. inversion H; subst. exists e, x, (c_is_satisfied (eo_exp x) (pols e) u').
  split; auto. split; auto. split; auto. split; auto. split; auto. split; auto. apply satisfied_content; auto.
Qed.

(** The end of an expectation in state [u] of the user. *)
Definition ends {U} (w : world) (ps : list (cpolicy U)) (u : U) (e : nat) (x : eobj) (w' : world) (r : result) (u' : U) : Prop :=
  exists unf evs, w_trace w' = w_trace w ++ unf ++ evs /\ (forall k, unfulfilled_reports evs k = 0 /\ accepted evs k = 0) /\
    (exists x', exp_at w' e x' /\ eo_alive x' = false) /\ (forall k, k <> e -> nth_error (w_exps w') k = nth_error (w_exps w) k) /\
    ((content w u ps e x /\ unf = [] /\ r = RUnit /\ u' = u) \/
     (~ content w u ps e x /\ exists y, undescribed ps u y u' /\ unf = [] /\ r = RThrow y) \/
     (~ content w u ps e x /\ exists ds rep, described ps u ds u' /\ er_descs rep = ds /\ er_loc rep = Some (e_loc (eo_exp x)) /\ er_final rep = None /\
        (exists st, control_state_of (w_seqs w) (e_ctl (eo_exp x)) = Ret st /\ er_times rep = Some (print_control_state st)) /\
        unf = [EvReport (w_rid w) (RUnfulfilled rep) [e]] /\
        (r = RUnit /\ w_reporter w (RUnfulfilled rep) (w_uncaught w) = Returns \/ r = RThrow EReporter /\ w_reporter w (RUnfulfilled rep) (w_uncaught w) = Throws))).

Lemma c_end_ends {U} w sc (pols : nat -> list (cpolicy U)) e u w' r u' : CInv w -> c_end_expectation (set_scoped w sc) pols e u = (Next w' r, u') ->
  exists x, exp_at w e x /\ eo_alive x = true /\ ends w (pols e) u e x w' r u'.
Proof.
  intros I H. apply c_end_parts in H. destruct H as (x & l & unf & evs & d' & Hx & Hl & Hin & Hr & -> & Hcase).
  cbn [set_scoped w_exps w_colls w_rid w_seqs] in *. exists x. split; auto. split.
  { rewrite (ci_coll _ I _ _ Hl) in Hin. apply members_in in Hin. destruct Hin as (y & Hy & Ha & _). rewrite Hx in Hy. inversion Hy; subst; auto. }
  exists unf, evs. split; [reflexivity|]. split.
  { intros k. destruct (released_spec _ _ _ _ _ Hr) as (_ & _ & R & _). destruct (R k); auto. }
  split. { eexists. split; [unfold exp_at; cbn; apply nth_error_upd_eq; eapply nth_error_lt; eauto|reflexivity]. }
  split. { intros k Hk. cbn. apply nth_error_upd_neq; auto. }
  pose proof (satisfied_content w u (pols e) e x I Hx) as Hs. destruct (state_free w e x I Hx) as (st & Est & _). unfold ctl_of in Est.
  assert (Erep : c_exp_report (w_seqs w) (eo_exp x) (pols e) u =
    match somap c_describe (pols e) u with
    | (Ret ds, u1) => (Ret (mkExpReport (Some (e_loc (eo_exp x))) None (Some (print_control_state st)) ds), u1)
    | (Throw y, u1) => (Throw y, u1)
    | (Terminate, u1) => (Terminate, u1)
    | (Undef b, u1) => (Undef b, u1)
    end).
  { unfold c_exp_report, sbind, sret. rewrite Est. reflexivity. }
  pose proof (describes_cases (pols e) u) as Hd.
  destruct Hcase as [(H1 & H2 & H3 & H4)|[(H1 & y & H2 & H3 & H4)|(H1 & rep & H2 & H3 & H4)]].
  - left. split; [apply Hs; auto|auto].
  - right. left. split; [intros C; apply Hs in C; congruence|]. exists y. split; auto. rewrite Erep in H2.
    destruct (somap c_describe (pols e) u) as [[ds|z| |b] u1]; try discriminate. inversion H2; subst. auto.
  - right. right. split; [intros C; apply Hs in C; congruence|]. rewrite Erep in H2.
    destruct (somap c_describe (pols e) u) as [[ds|z| |b] u1]; try discriminate. injection H2 as Hrep Hu. subst u1. exists ds, rep. subst rep.
    split; auto. split; [reflexivity|]. split; [reflexivity|]. split; [reflexivity|]. split; [exists st; split; auto|]. split; auto.
    unfold react in H4. cbn [set_scoped w_reporter w_uncaught] in H4. tauto.
Qed.

(** The end of a scope reports the expectation exactly if it had too few calls or a policy of the user is not satisfied at this moment (unless its description
    throws). The ScopedExpectation might also lose its expectation to another one, where exceptions end the program. *)
Theorem C87_scope_end {U} (pols : nat -> list (cpolicy U)) u0 ops w u h e w' r u' : crun pols init u0 ops w u ->
  nth_error (w_scoped w) h = Some (HOwns e) -> c_step pols w u (OEndScope h) = (Next w' r, u') ->
  exists x, exp_at w e x /\ eo_alive x = true /\ ends w (pols e) u e x w' r u'.
Proof.
  intros Hrun Hh H. pose proof (cinv_crun _ _ _ _ _ _ Hrun cinv_init) as I. cbn [c_step] in H. rewrite Hh in H. eapply c_end_ends; eauto.
Qed.
Theorem C87_replaced {U} (pols : nat -> list (cpolicy U)) u0 ops w u dst src e z w' r u' : crun pols init u0 ops w u ->
  nth_error (w_scoped w) dst = Some (HOwns e) -> nth_error (w_scoped w) src = Some z -> z <> HDead -> dst <> src ->
  c_step pols w u (OMoveAssignScoped dst src) = (Next w' r, u') ->
  exists x, exp_at w e x /\ eo_alive x = true /\ ends w (pols e) u e x w' r u' /\ forall y, r <> RThrow y.
Proof.
  intros Hrun Hd Hs Hz Hne H. pose proof (cinv_crun _ _ _ _ _ _ Hrun cinv_init) as I. cbn [c_step] in H. rewrite Hd, Hs in H.
  destruct (Nat.eqb_spec dst src) as [|_]; [congruence|].
  destruct (c_end_expectation (set_scoped w (upd (upd (w_scoped w) src HEmpty) dst z)) pols e u) as [[w2 r2| | |] u2] eqn:He.
  2-4: exfalso; destruct z; try congruence; discriminate.
  assert (E : w2 = w' /\ r2 = r /\ u2 = u' /\ forall y, r <> RThrow y).
  { destruct z, r2; try congruence; inversion H; subst; repeat split; auto; discriminate. }
  destruct E as (-> & -> & -> & Hr). destruct (c_end_ends _ _ _ _ _ _ _ _ I He) as (x & A & B & C). exists x. auto.
Qed.

(** ** No undefined behaviour *)

Lemma matches_asserts {U} (q : spolicy U) c u u1 : s_matches q c u = (Ret true, u1) -> policy_consume_assert (skind q) c = Ret tt.
Proof.
  destruct q as [x|x|i mt pr|n]; cbn [skind policy_consume_assert s_matches]; unfold sret, assert_; intros H; try reflexivity; injection H as -> _; reflexivity.
Qed.
Lemma asserts_after_yes {U} c (ps : list (cpolicy U)) u l u1 : chorus c ps u l u1 -> yes l = true -> c_consume_asserts ps c = Ret tt.
Proof.
  induction 1 as [u|p ps u b d u1 l u2 Hs H IH]; intros Hy; [reflexivity|]. unfold yes in Hy. cbn [forallb fst] in Hy. apply andb_true_iff in Hy. destruct Hy as [Hb Hy].
  specialize (IH Hy). subst b. inversion Hs; subst; cbn [c_consume_asserts]; auto.
  match goal with E : s_matches _ _ _ = (Ret true, _) |- _ => rewrite (matches_asserts _ _ _ _ E) end. exact IH.
Qed.

Lemma heard_chorus {U} c (pols : nat -> list (cpolicy U)) ns u vs u' : heard c pols ns u vs u' -> forall n l, In (n, Answers l) vs -> exists v v', chorus c (pols n) v l v'.
Proof.
  induction 1 as [u|n ns u v u1 vs u2 Hj H IH]; intros k l Hin; [destruct Hin|]. destruct Hin as [E|Hin]; [|eauto]. inversion E; subst. inversion Hj; subst. eauto.
Qed.

(** The library's asserts hold whatever the policies of the user do, as long as the library's own policies fit to the signature and the reporter does not return from
    a failure. *)
Theorem C87_no_undefined_behaviour {U} (pols : nat -> list (cpolicy U)) u0 ops w u m ov args l s coll b : crun pols init u0 ops w u ->
  find_overload w m ov = inr (s, coll) -> coll < length (w_colls w) ->
  (forall e x i mt pr, live_in w coll e x -> In (CLib (SArg i mt pr)) (pols e) -> i < length args) ->
  (forall rep n, match rep with RNoMatch _ _ | RInapplicable _ _ => w_reporter w rep n <> Returns | _ => True end) ->
  fst (c_step pols w u (OCall m ov args l)) <> Wrong b.
Proof.
  intros Hrun Hf Hcoll Hidx Hrep. pose proof (cinv_crun _ _ _ _ _ _ Hrun cinv_init) as I. cbn [c_step]. unfold c_do_call. rewrite Hf.
  destruct (negb _); [discriminate|]. fold (call_of s args l). set (c := call_of s args l). unfold c_handle_call.
  destruct (nth_error_ex _ _ Hcoll) as [lst Hl]. rewrite Hl.
  destruct (lookup_exps_some w (rev lst)) as [es Hes].
  { intros n Hn. apply in_rev in Hn. rewrite (ci_coll _ I _ _ Hl) in Hn. apply members_in in Hn. destruct Hn as (x & Hx & _). eapply nth_error_lt; eauto. }
  rewrite Hes. destruct (live_list _ _ _ _ I Hl Hes) as [Hn Hin].
  assert (Hctl : forall n e, In (n, e) es -> exists st, control_state_of (w_seqs w) (e_ctl e) = Ret st).
  { intros n e He. destruct (Hin _ _ He) as (x & [Hx _] & ->). destruct (state_free w n x I Hx) as (st & E & _). eauto. }
  pose proof (loop_cases (w_reporter w) (w_uncaught w) (w_seqs w) c pols es Hctl (mkLists [] [] [] []) u) as H.
  destruct (c_match_loop _ _ _ _ _ _ u) as [[ml|x| |b'] u1]; cbn [fst]; try discriminate; try contradiction.
  2:{ exfalso. destruct H as (n & i & mt & pr & H1 & H2 & H3). destruct Hn as [_ Hn]. apply Hn in H1. destruct H1 as (x & Hx).
      pose proof (Hidx _ _ _ _ _ Hx H2). unfold c, call_of in H3. cbn in H3. lia. }
  destruct H as (vs & F & unh & I1 & I2 & I3 & I4 & I5 & I6 & I7). cbn [ml_full ml_unhandled app] in I2, I3.
  unfold settle. rewrite emit_unhandled_add. rewrite I2. destruct F as [|first others].
  - unfold react. cbn [add_trace w_reporter w_uncaught]. destruct (ml_inapplicable ml).
    + pose proof (Hrep (RNoMatch (make_call_report c) (map snd (ml_none ml))) (w_uncaught w)) as Hr. cbn in Hr. destruct (w_reporter w _ _); try congruence.
      * unfold thrown. destruct (frontend_noexcept s); discriminate.
    + match goal with |- context [RInapplicable ?a ?b] => pose proof (Hrep (RInapplicable a b) (w_uncaught w)) as Hr end. cbn beta iota in Hr. destruct (w_reporter w _ _); try congruence.
      * unfold thrown. destruct (frontend_noexcept s); discriminate.
  - destruct (pick_best first others) as [[n mr]|x| |b'] eqn:Hp; try discriminate.
    2:{ unfold thrown. destruct (frontend_noexcept s); discriminate. }
    2:{ exfalso. assert (Hrat : forall q, In q (first :: others) -> exists rs, ratings_of (snd q) = Ret rs).
        { intros [k mr] Hq. destruct (I6 _ _ Hq) as (e & _ & _ & J & _). unfold ratings_of. cbn [snd]. destruct (mr_state mr); try contradiction. eauto. }
        destruct (pick_best_total others first Hrat) as [p E]. congruence. }
    destruct (react _ _); try discriminate. pose proof (pick_best_in _ _ _ Hp) as Hpi. destruct (I6 _ _ Hpi) as (e & J1 & J2 & J3 & J4 & J5).
    destruct (Hin _ _ J1) as (x & Hlx & ->). destruct Hlx as [Hx Hlx]. change (w_exps (emit_report (add_trace w _) _ _)) with (w_exps w).
    change (w_seqs (emit_report (add_trace w _) _ _)) with (w_seqs w). unfold exp_at in Hx. rewrite Hx.
    destruct (state_free w n x I Hx) as (st & E & Hfr). unfold ctl_of in E. rewrite J2 in E. injection E as E. rewrite E in J3. apply Hfr in J3.
    apply (cinv_applicable _ _ _ I Hx) in J3.
    destruct (control_consume_ok _ _ _ _ (ci_s _ I) (ctls_nth _ _ _ Hx) J3) as (ss' & Hc' & _). unfold ctl_of in Hc'. rewrite Hc'.
    destruct (heard_chorus _ _ _ _ _ _ I1 _ _ J4) as (v & v' & Hch). rewrite (asserts_after_yes _ _ _ _ _ Hch) by (rewrite yes_reports; auto). discriminate.
Qed.

(** ** Examples *)

Fixpoint c_exec {U} (pols : nat -> list (cpolicy U)) (w : world) (u : U) (ops : list op) : option (world * U * list result) :=
  match ops with
  | [] => Some (w, u, [])
  | o :: ops' =>
      match c_step pols w u o with
      | (Next w1 r, u1) => match c_exec pols w1 u1 ops' with Some (w2, u2, rs) => Some (w2, u2, r :: rs) | None => None end
      | _ => None
      end
  end.
Lemma c_exec_run {U} (pols : nat -> list (cpolicy U)) ops : forall w u w' u' rs, c_exec pols w u ops = Some (w', u', rs) -> crun pols w u ops w' u'.
Proof.
  induction ops as [|o ops IH]; intros w u w' u' rs H; cbn [c_exec] in H; [inversion H; subst; constructor|].
  destruct (c_step pols w u o) as [[w1 r| | |] u1] eqn:E; try discriminate. destruct (c_exec pols w1 u1 ops) as [[[w2 u2] rs2]|] eqn:E2; [|discriminate].
  inversion H; subst. econstructor; eauto.
Qed.
Definition c_after {U} (pols : nat -> list (cpolicy U)) (u : U) (ops : list op) : world * U :=
  match c_exec pols init u ops with Some (w, u', _) => (w, u') | None => (init, u) end.
Lemma c_after_run {U} (pols : nat -> list (cpolicy U)) u ops : (match c_exec pols init u ops with Some _ => true | None => false end) = true ->
  crun pols init u ops (fst (c_after pols u ops)) (snd (c_after pols u ops)).
Proof. unfold c_after. destruct (c_exec pols init u ops) as [[[w u'] rs]|] eqn:E; [|discriminate]. intros _. eapply c_exec_run; eauto. Qed.

(** A policy which wants to be asked three times and declines the fifth call. *)
Definition curious : upolicy nat :=
  mkUPolicy (fun u => 3 <=? u) (fun _ u => (UOk (negb (u =? 4)), S u)) (fun u => (UOk (Some ("asked " ++ dec_nat u)%string), u)) 41.
Definition two_in_order : list op :=
  [ONewMock [sig_unary]; ONewSeq Lazy; OExpect 0 0 [m_any] [ClSeq [0]; ClPolicy (PSideEffect 7)] here; OExpect 0 0 [m_any] [ClSeq [0]] there].
Definition one_curious (e : nat) : list (cpolicy nat) :=
  match nth_error (w_exps (after two_in_order)) e with
  | Some x => map (fun p => CLib (lift_policy p)) (e_policies (eo_exp x)) ++ (if e =? 0 then [COwn curious] else [])
  | None => []
  end.
Definition a_call : op := OCall 0 0 [VInt 7] here.

(** The first call: accepted by the first expectation, whose side effect and policy are to be consumed in this order. *)
Example C87_call_example : let s := c_after one_curious 0 two_in_order in
  exists w', c_step one_curious (fst s) (snd s) a_call = (Next w' RUnit, 1) /\ w_frames w' = [mkFrame 0 [7; 41] false false false].
Proof. eexists. split; vm_compute; reflexivity. Qed.

Definition once_done : list op := two_in_order ++ [a_call; OAction; OAction; OFinal; OReturn (UOk (VInt 0))].
Lemma once_done_run : crun one_curious init 0 once_done (fst (c_after one_curious 0 once_done)) (snd (c_after one_curious 0 once_done)).
Proof. apply c_after_run. vm_compute. reflexivity. Qed.

Definition w_once : world := fst (c_after one_curious 0 once_done).
Definition after_second : world := match fst (c_step one_curious w_once 1 a_call) with Next w _ => w | _ => init end.

Lemma uncontent w u x : u < 3 -> ~ content w u (one_curious 0) 0 x.
Proof.
  intros Hu [_ H]. specialize (H curious). cbn [curious up_satisfied] in H. assert (Hin : In (COwn curious) (one_curious 0)).
  { unfold one_curious. destruct (nth_error (w_exps (after two_in_order)) 0) eqn:E; [|vm_compute in E; discriminate]. apply in_app_iff. right. left; reflexivity. }
  specialize (H Hin). apply Nat.leb_le in H. lia.
Qed.

(** One might think that an expectation with an unsatisfied policy keeps its successors in the sequence waiting, as one with too few calls does. *)
Theorem C87_successors_wait_refuted : exists (pols : nat -> list (cpolicy nat)) u0 ops w u x0 x1 s w' r u',
  crun pols init u0 ops w u /\ exp_at w 0 x0 /\ exp_at w 1 x1 /\ In s (x_seqs x0) /\ In s (x_seqs x1) /\ ~ content w u (pols 0) 0 x0 /\
  c_step pols w u a_call = (Next w' r, u') /\ accepted (w_trace w) 1 = 0 /\ accepted (w_trace w') 1 = 1 /\ ~ content w' u' (pols 0) 0 x0.
Proof.
  destruct (nth_error (w_exps w_once) 0) as [x0|] eqn:E0; [|vm_compute in E0; discriminate].
  destruct (nth_error (w_exps w_once) 1) as [x1|] eqn:E1; [|vm_compute in E1; discriminate].
  exists one_curious, 0, once_done, w_once, 1, x0, x1, 0, after_second, RUnit, 2.
  split. { pose proof once_done_run as H. replace (snd (c_after one_curious 0 once_done)) with 1 in H by (vm_compute; reflexivity). exact H. }
  split; [exact E0|]. split; [exact E1|].
  split. { assert (H : option_map x_seqs (nth_error (w_exps w_once) 0) = Some [0]) by (vm_compute; reflexivity). rewrite E0 in H. injection H as H. rewrite H. left; auto. }
  split. { assert (H : option_map x_seqs (nth_error (w_exps w_once) 1) = Some [0]) by (vm_compute; reflexivity). rewrite E1 in H. injection H as H. rewrite H. left; auto. }
  split; [apply uncontent; lia|]. split; [unfold after_second; vm_compute; reflexivity|]. split; [vm_compute; reflexivity|]. split; [vm_compute; reflexivity|]. apply uncontent; lia.
Qed.

(** One might think that the report about an unfulfilled expectation tells in its text about the calls that something is missing. *)
Definition gone_first : world := match fst (c_step one_curious w_once 1 (OEndScope 0)) with Next w _ => w | _ => init end.
Theorem C87_report_explains_refuted : exists (pols : nat -> list (cpolicy nat)) u0 ops w u x w' r u' rid rep,
  crun pols init u0 ops w u /\ exp_at w 0 x /\ accepted (w_trace w) 0 = 1 /\ ~ content w u (pols 0) 0 x /\
  c_step pols w u (OEndScope 0) = (Next w' r, u') /\ w_trace w' = w_trace w ++ [EvReport rid (RUnfulfilled rep) [0]] /\
  exists rest, er_times rep = Some ("already saturated (matched once)" ++ rest)%string.
Proof.
  destruct (nth_error (w_exps w_once) 0) as [x0|] eqn:E0; [|vm_compute in E0; discriminate].
  destruct (match last (w_trace gone_first) (EvFinal 0) with EvReport rid (RUnfulfilled rep) _ => Some rep | _ => None end) as [rep|] eqn:E; [|vm_compute in E; discriminate].
  exists one_curious, 0, once_done, w_once, 1, x0, gone_first, (RThrow EReporter), 1, 0, rep.
  split. { pose proof once_done_run as H. replace (snd (c_after one_curious 0 once_done)) with 1 in H by (vm_compute; reflexivity). exact H. }
  split; [exact E0|]. split; [vm_compute; reflexivity|].
  split. { apply uncontent. lia. }
  split; [unfold gone_first; vm_compute; reflexivity|].
  split.
  - vm_compute in E. injection E as <-. vm_compute. reflexivity.
  - vm_compute in E. injection E as <-. eexists. vm_compute. reflexivity.
Qed.

(** The expectation is satisfied once its policy is, and its end is silent then. *)
Example C87_satisfied_example : let s := c_after one_curious 0 once_done in
  fst (c_step one_curious (fst s) (snd s) (OSatisfied 0)) = Next (fst s) (RBool false) /\
  fst (c_step one_curious (fst s) 3 (OSatisfied 0)) = Next (fst s) (RBool true) /\
  match fst (c_step one_curious (fst s) 3 (OEndScope 0)) with Next w _ => w_trace w = w_trace (fst s) | _ => False end.
Proof. split; [vm_compute; reflexivity|]. split; vm_compute; reflexivity. Qed.

Print Assumptions C87_library_policies.
Print Assumptions C87_conservative.
Print Assumptions C87_call.
Print Assumptions C87_limits_and_sequences.
Print Assumptions C87_satisfied.
Print Assumptions C87_scope_end.
Print Assumptions C87_replaced.
Print Assumptions C87_no_undefined_behaviour.
Print Assumptions C87_successors_wait_refuted.
Print Assumptions C87_report_explains_refuted.
