(** * PropOperands: C93 and C94, exceptions of user types inside of conditionally noexcept functions, and the operands of the factories *)

From Verif Require Import Base Operands.

(** ** C93 *)

(** No function of the type throws although it is declared noexcept. *)
Definition honest_one (o : option behaviour) : Prop := forall b, o = Some b -> b_noexcept b = true -> b_throws b = None.
Definition honest (t : vtype) : Prop := forall c, honest_one (t_ctor t c) /\ honest_one (t_call t c).

(** A function which makes some uses of user functions, one after the other, and hides nothing: the first exception is passed on. *)
Inductive passes_on : list (option behaviour) -> ended -> Prop :=
| passes_nothing l : Forall (fun o => exists b, o = Some b /\ b_throws b = None) l -> passes_on l Done
| passes_first l b x l' : Forall (fun o => exists b, o = Some b /\ b_throws b = None) l -> b_throws b = Some x ->
    Forall (fun o => o <> None) l' -> passes_on (l ++ Some b :: l') (Threw x)
| passes_none l : In None l -> passes_on l IllFormed.

(** The uses in a row, as one end. *)
Definition all_uses (l : list (option behaviour)) : ended := fold_right (fun o e => and_then (use o) e) Done l.
Lemma uses_passed l : Forall honest_one l -> passes_on l (all_uses l).
Proof.
  induction 1 as [|o l H F IH]; [repeat constructor|]. cbn [all_uses fold_right]. fold (all_uses l).
  destruct o as [b|]; [|apply passes_none; left; reflexivity].
  specialize (H b eq_refl). unfold use. destruct (b_throws b) as [x|] eqn:T.
  - destruct (b_noexcept b); [discriminate (H eq_refl)|]. inversion IH as [l0 G|l0 b0 x0 l1 G T0 N|l0 I]; subst.
    + cbn [and_then]. apply (passes_first [] b x l); [constructor|exact T|]. eapply Forall_impl; [|exact G]. intros o (b1 & -> & _). discriminate.
    + cbn [and_then]. apply (passes_first [] b x (l0 ++ Some b0 :: l1)); [constructor|exact T|]. apply Forall_app. split; [|constructor; [discriminate|exact N]].
      eapply Forall_impl; [|exact G]. intros o (b1 & -> & _). discriminate.
    + cbn [and_then]. apply passes_none. right. exact I.
  - inversion IH as [l0 G|l0 b0 x0 l1 G T0 N|l0 I]; subst; cbn [and_then].
    + apply passes_nothing. constructor; [exists b; auto|exact G].
    + apply (passes_first (Some b :: l0) b0 x0 l1); [constructor; [exists b; auto|exact G]|exact T0|exact N].
    + apply passes_none. right. exact I.
Qed.
Lemma passed_not_dead l e : passes_on l e -> e <> Dead.
Proof. intros [| |]; discriminate. Qed.

Lemma declared_honest o : honest_one o -> declared (nothrow o) (use o) = use o.
Proof.
  intros H. destruct o as [b|]; [|reflexivity]. specialize (H b eq_refl). cbn. destruct (b_throws b); [|reflexivity].
  destruct (b_noexcept b); [discriminate (H eq_refl)|reflexivity].
Qed.
Lemma move_in_use t : honest t -> move_in t = use (t_ctor t RV).
Proof. intros H. apply declared_honest, H. Qed.
Lemma use_nothrow o : honest_one o -> nothrow o = true -> use o = Done.
Proof. intros H N. destruct o as [b|]; [|discriminate]. cbn in *. rewrite (H b eq_refl N). reflexivity. Qed.
Lemma honest_ctor t c : honest t -> honest_one (t_ctor t c).
Proof. intros H. apply H. Qed.
Lemma honest_call t c : honest t -> honest_one (t_call t c).
Proof. intros H. apply H. Qed.
Lemma and_then_assoc a b c : and_then (and_then a b) c = and_then a (and_then b c).
Proof. destruct a, b, c; reflexivity. Qed.
Lemma and_then_done a : and_then a Done = a.
Proof. destruct a; reflexivity. Qed.
Local Hint Resolve honest_ctor honest_call : core.

(** A factory whose operand can be constructed without exceptions only if it can be moved so, passes all exceptions on. This holds of all
    rvalues, and of all types whose moves do not throw. *)
Definition moves_like (t : vtype) (c : vcat) : Prop := nothrow (t_ctor t c) = true -> nothrow (t_ctor t RV) = true.
Theorem C93_construction : forall t c, honest t -> moves_like t c ->
  passes_on [t_ctor t c; t_ctor t RV] (make_captured t c) /\ passes_on [t_ctor t c; t_ctor t RV] (make_throws t c) /\
  passes_on [t_ctor t c; t_ctor t RV; t_ctor t RV] (make_applied t c).
Proof.
  intros t c H M. unfold make_throws. fold (make_captured t c).
  assert (A : make_captured t c = all_uses [t_ctor t c; t_ctor t RV] /\ make_applied t c = all_uses [t_ctor t c; t_ctor t RV; t_ctor t RV]).
  { unfold make_captured, make_applied, nothrow_from. rewrite !move_in_use by exact H. cbn [all_uses fold_right]. rewrite !and_then_done.
    destruct (nothrow (t_ctor t c)) eqn:N.
    - rewrite (use_nothrow _ (honest_ctor t c H) N), (use_nothrow _ (honest_ctor t RV H) (M N)). split; reflexivity.
    - split; [destruct (and_then (use (t_ctor t c)) (use (t_ctor t RV))); reflexivity|].
      destruct (and_then (use (t_ctor t c)) (and_then (use (t_ctor t RV)) (use (t_ctor t RV)))); reflexivity. }
  destruct A as [-> ->]. repeat split; apply uses_passed; repeat constructor; auto.
Qed.
Theorem C93_rvalues : forall t, moves_like t RV /\ (forall c, nothrow (t_ctor t RV) = true -> moves_like t c).
Proof. intros t. split; [intros H; exact H|]. intros c H _. exact H. Qed.
(** Exactly when such a factory ends the program. *)
Theorem C93_construction_exact : forall t c, honest t ->
  (make_captured t c = Dead <-> nothrow (t_ctor t c) = true /\ exists b x, t_ctor t RV = Some b /\ b_throws b = Some x) /\
  (make_throws t c = Dead <-> nothrow (t_ctor t c) = true /\ exists b x, t_ctor t RV = Some b /\ b_throws b = Some x) /\
  (make_applied t c = Dead <-> nothrow (t_ctor t c) = true /\ exists b x, t_ctor t RV = Some b /\ b_throws b = Some x).
Proof.
  intros t c H. unfold make_throws. fold (make_captured t c). unfold make_captured, make_applied, nothrow_from. rewrite !move_in_use by exact H.
  assert (L : forall l, Forall honest_one l -> declared false (all_uses l) <> Dead).
  { intros l F. pose proof (passed_not_dead _ _ (uses_passed l F)) as P. destruct (all_uses l); cbn; congruence. }
  assert (A : forall n, declared (nothrow (t_ctor t c)) (and_then (use (t_ctor t c)) (all_uses (repeat (t_ctor t RV) (S n)))) = Dead <->
    nothrow (t_ctor t c) = true /\ exists b x, t_ctor t RV = Some b /\ b_throws b = Some x).
  { intros n. destruct (nothrow (t_ctor t c)) eqn:N.
    - rewrite (use_nothrow _ (honest_ctor t c H) N). pose proof (honest_ctor t RV H) as HR.
      destruct (t_ctor t RV) as [b|]; [|split; [discriminate|intros (_ & b & x & E & _); discriminate E]].
      specialize (HR b eq_refl). cbn [repeat all_uses fold_right]. fold (all_uses (repeat (Some b) n)). destruct (b_throws b) as [x|] eqn:T.
      + split; [eauto 6|]. intros _. unfold use. rewrite T. destruct (b_noexcept b); [discriminate (HR eq_refl)|].
        assert (G : all_uses (repeat (Some b) n) <> IllFormed).
        { clear. induction n as [|n IH]; [discriminate|]. cbn [repeat all_uses fold_right]. fold (all_uses (repeat (Some b) n)). unfold use at 1.
          destruct (b_throws b); [destruct (b_noexcept b)|]; destruct (all_uses (repeat (Some b) n)); cbn; congruence. }
        destruct (all_uses (repeat (Some b) n)); cbn; congruence.
      + assert (G : all_uses (repeat (Some b) n) = Done).
        { clear - T. induction n as [|n IH]; [reflexivity|]. cbn [repeat all_uses fold_right]. fold (all_uses (repeat (Some b) n)). rewrite IH. unfold use. rewrite T. reflexivity. }
        rewrite G. unfold use. rewrite T. split; [discriminate|]. intros (_ & b' & x & [= <-] & E). congruence.
    - split; [|intros (E & _); discriminate E]. intros E. exfalso. apply (L (t_ctor t c :: repeat (t_ctor t RV) (S n))); [|exact E].
      constructor; [auto|]. apply Forall_forall. intros o I. apply repeat_spec in I. subst o. auto. }
  pose proof (A 0) as A0. pose proof (A 1) as A1. cbn [repeat all_uses fold_right] in A0, A1. rewrite !and_then_done in A0, A1. auto.
Qed.
(** expect::arg, for the matcher and the projection. *)
Theorem C93_arg : forall m p c, honest m -> honest p -> moves_like m c ->
  passes_on [t_ctor m c; t_ctor p RV; t_ctor p RV; t_ctor m RV; t_ctor p RV] (make_arg m p c).
Proof.
  intros m p c Hm Hp M.
  assert (A : make_arg m p c = all_uses [t_ctor m c; t_ctor p RV; t_ctor p RV; t_ctor m RV; t_ctor p RV]).
  { unfold make_arg, nothrow_from. rewrite move_in_use by exact Hp. cbn [all_uses fold_right]. rewrite and_then_done, and_then_assoc.
    pose proof (honest_ctor m RV Hm) as H1. pose proof (honest_ctor p RV Hp) as H2. pose proof (honest_ctor m c Hm) as H3. unfold moves_like in M.
    destruct (nothrow (t_ctor m c)) eqn:N.
    - rewrite (use_nothrow _ H3 N). rewrite (M eq_refl). rewrite (use_nothrow _ H1 (M eq_refl)). cbn [andb].
      destruct (nothrow (t_ctor p RV)) eqn:N2; [rewrite (use_nothrow _ H2 N2); reflexivity|]. destruct (use (t_ctor p RV)); reflexivity.
    - cbn [andb]. destruct (nothrow (t_ctor m RV)) eqn:N1.
      + rewrite (use_nothrow _ H1 N1). cbn [andb]. destruct (nothrow (t_ctor p RV)) eqn:N2; [rewrite (use_nothrow _ H2 N2)|]; destruct (use (t_ctor m c)), (use (t_ctor p RV)); reflexivity.
      + cbn [andb]. destruct (use (t_ctor m c)), (use (t_ctor p RV)), (use (t_ctor m RV)); reflexivity. }
  rewrite A. apply uses_passed. repeat constructor; auto.
Qed.
(** Matchers: no exception specification, no condition. *)
Theorem C93_matchers : forall t c, honest t -> passes_on [t_ctor t c; t_ctor t RV] (make_matcher t c).
Proof.
  intros t c H. assert (A : make_matcher t c = all_uses [t_ctor t c; t_ctor t RV]).
  { unfold make_matcher. rewrite move_in_use by exact H. cbn [all_uses fold_right]. rewrite and_then_done. reflexivity. }
  rewrite A. apply uses_passed. repeat constructor; auto.
Qed.

(** A type whose copy never throws, but whose move does: given as an lvalue, the exception ends the program. *)
Definition odd_move : vtype :=
  mkType (fun c => Some (match c with LV | CLV => mkBehaviour true None | RV | CRV => mkBehaviour false (Some (EUser 0)) end)) (fun _ => Some (mkBehaviour true None)).
Lemma odd_move_honest : honest odd_move.
Proof. intros c. split; destruct c; intros b [= <-] E; cbn in *; congruence. Qed.
Theorem C93_construction_refuted : exists t, honest t /\
  make_captured t LV = Dead /\ make_throws t LV = Dead /\ make_applied t LV = Dead /\ make_arg t (mkType (fun _ => Some (mkBehaviour true None)) (fun _ => None)) LV = Dead.
Proof. exists odd_move. split; [exact odd_move_honest|]. repeat split. Qed.

(** Calls of a finalizer. *)
Theorem C93_finalizers : forall k t c conv, honest t -> honest_one conv ->
  (k = KResultOf -> nothrow (t_call t c) = true -> nothrow (t_call t LV) = true) ->
  passes_on [t_call t (match k with KResultOf => LV | _ => CLV end); conv] (run_finalizer k t c conv).
Proof.
  intros k t c conv H Hc M.
  assert (A : run_finalizer k t c conv = all_uses [t_call t (match k with KResultOf => LV | _ => CLV end); conv]).
  { assert (B : forall o ne, honest_one o -> (ne = true -> nothrow o = true) -> finalize_call ne (declared ne (use o)) conv = all_uses [o; conv]).
    { intros o ne Ho N. unfold finalize_call. cbn [all_uses fold_right]. rewrite and_then_done. destruct ne.
      - rewrite (use_nothrow _ Ho (N eq_refl)). cbn [declared and_then andb]. destruct (use conv) eqn:E; try reflexivity.
        destruct (nothrow conv) eqn:Nc; [rewrite (use_nothrow _ Hc Nc) in E; discriminate E|reflexivity].
      - cbn [andb]. destruct (use o), (use conv); reflexivity. }
    destruct k; unfold run_finalizer, call_result_of, call_applied; apply B; auto. }
  rewrite A. apply uses_passed. repeat constructor; auto.
Qed.
Theorem C93_result_of_exact : forall t c conv, honest t -> honest_one conv -> conv <> None ->
  (run_finalizer KResultOf t c conv = Dead <-> nothrow (t_call t c) = true /\ exists b x, t_call t LV = Some b /\ b_throws b = Some x).
Proof.
  intros t c conv H Hc Nc. destruct conv as [bc|]; [|congruence]. cbn [run_finalizer]. unfold finalize_call, call_result_of.
  pose proof (honest_call t LV H) as HL. pose proof (Hc bc eq_refl) as Hb.
  destruct (t_call t LV) as [b|]; [specialize (HL b eq_refl)|].
  - destruct (nothrow (t_call t c)); cbn.
    + destruct (b_throws b) as [x|] eqn:T.
      * destruct (b_noexcept b); [discriminate (HL eq_refl)|]. cbn. destruct (b_throws bc); [destruct (b_noexcept bc)|]; cbn; split; eauto 6.
      * split; [|intros (_ & b' & x & [= <-] & E); congruence]. destruct (b_throws bc); [|discriminate]. destruct (b_noexcept bc); [discriminate (Hb eq_refl)|discriminate].
    + split; [|intros (E & _); discriminate E]. destruct (b_throws b); [destruct (b_noexcept b); [discriminate (HL eq_refl)|]|]; cbn.
      * destruct (b_throws bc); [destruct (b_noexcept bc); [discriminate (Hb eq_refl)|]|]; discriminate.
      * destruct (b_throws bc); [destruct (b_noexcept bc); [discriminate (Hb eq_refl)|]|]; discriminate.
  - split; [destruct (nothrow (t_call t c)); cbn; discriminate|]. intros (_ & b & x & E & _). discriminate E.
Qed.
(** A functor which never throws as an rvalue, but does so as an lvalue: returns_result_of is given an rvalue and calls an lvalue. *)
Definition odd_call : vtype :=
  mkType (fun _ => Some (mkBehaviour true None)) (fun c => Some (match c with RV | CRV => mkBehaviour true None | LV | CLV => mkBehaviour false (Some (EUser 1)) end)).
Theorem C93_result_of_refuted : exists t conv, honest t /\ honest_one conv /\
  make_captured t RV = Done /\ run_finalizer KResultOf t RV conv = Dead /\ run_finalizer KResultOf t LV conv = Threw (EUser 1) /\
  run_finalizer KApplyAll t RV conv = Threw (EUser 1).
Proof.
  exists odd_call, (Some (mkBehaviour true None)). split; [|split; [|repeat split]].
  - intros c. split; destruct c; intros b [= <-] E; cbn in *; congruence.
  - intros b [= <-] _. reflexivity.
Qed.

(** Side effects: whatever they declare, an exception ends the program. *)
Theorem C93_side_effects : forall t c e, honest t -> In e [run_side_effect (nothrow (t_call t (collapsed c))) (call_invoke t c); run_side_effect (nothrow (t_call t CLV)) (call_applied t c)] ->
  (forall x, e <> Threw x) /\
  (e = run_side_effect (nothrow (t_call t (collapsed c))) (call_invoke t c) -> (forall b, t_call t LV = Some b -> b_throws b = None) -> e <> Dead).
Proof.
  intros t c e H I. split.
  - intros x. assert (D : forall e0, declared true e0 <> Threw x) by (intros []; discriminate). destruct I as [<-|[<-|[]]]; apply D.
  - intros -> N E. unfold run_side_effect, call_invoke in E. destruct (t_call t LV) as [b|]; [|destruct (nothrow _); discriminate E].
    cbn in E. rewrite (N b eq_refl) in E. discriminate E.
Qed.
Theorem C93_side_effects_exact : forall t c b x, honest t ->
  (t_call t LV = Some b -> b_throws b = Some x -> run_side_effect (nothrow (t_call t (collapsed c))) (call_invoke t c) = Dead) /\
  (t_call t CLV = Some b -> b_throws b = Some x -> run_side_effect (nothrow (t_call t CLV)) (call_applied t c) = Dead) /\
  (t_call t CLV = Some b -> b_throws b = None -> run_side_effect (nothrow (t_call t CLV)) (call_applied t c) = Done) /\
  (t_call t LV = Some b -> b_throws b = None -> run_side_effect (nothrow (t_call t (collapsed c))) (call_invoke t c) = Done).
Proof.
  intros t c b x H. unfold run_side_effect, call_invoke, call_applied. repeat split; intros E T; rewrite ?E; cbn; rewrite T; try reflexivity.
  - destruct (b_noexcept b); [reflexivity|]. cbn. destruct (nothrow _); reflexivity.
  - destruct (b_noexcept b); reflexivity.
Qed.
(** What then::invoke promises for the closure itself is wrong only for const operands. *)
Theorem C93_invoke : forall t c, honest t -> c = LV \/ c = RV -> passes_on [t_call t LV] (call_invoke t c).
Proof.
  intros t c H C. assert (A : call_invoke t c = all_uses [t_call t LV]).
  { unfold call_invoke. cbn [all_uses fold_right]. rewrite and_then_done. destruct C as [->| ->]; apply declared_honest; auto. }
  rewrite A. apply uses_passed. repeat constructor; auto.
Qed.
Theorem C93_invoke_refuted : exists t, honest t /\ call_invoke t CLV = Dead /\ call_invoke t LV = Threw (EUser 2).
Proof.
  exists (mkType (fun _ => Some (mkBehaviour true None)) (fun c => Some (match c with CLV => mkBehaviour true None | _ => mkBehaviour false (Some (EUser 2)) end))).
  split; [|repeat split]. intros c. split; destruct c; intros b [= <-] E; cbn in *; congruence.
Qed.

(** PredicateMatcher::matches only looks at the predicate: the program ends iff the predicate is declared noexcept, and a projection or the
    conversion of the result throws. *)
Theorem C93_predicate : forall p proj conv, honest_one (Some p) -> Forall (fun b => honest_one (Some b)) proj -> honest_one (Some conv) ->
  (predicate_matches (Some p) proj conv = Dead <-> b_noexcept p = true /\ Exists (fun b => b_throws b <> None) (proj ++ [conv])) /\
  (b_noexcept p = false -> passes_on (map Some (proj ++ [p; conv])) (predicate_matches (Some p) proj conv)).
Proof.
  intros p proj conv Hp Hl Hc.
  assert (A : and_then (fold_right (fun b e => and_then (use (Some b)) e) Done proj) (and_then (use (Some p)) (use (Some conv))) = all_uses (map Some (proj ++ [p; conv]))).
  { clear Hl. induction proj as [|b l IH]; cbn [fold_right map app all_uses]; [cbn [and_then]; rewrite and_then_done; destruct (and_then (use (Some p)) (use (Some conv))); reflexivity|].
    fold (all_uses (map Some (l ++ [p; conv]))). rewrite <- IH. apply and_then_assoc. }
  unfold predicate_matches. rewrite A. cbn [nothrow]. split.
  - assert (HA : Forall honest_one (map Some (proj ++ [p; conv]))).
    { apply Forall_map. apply Forall_app. split; [exact Hl|]. repeat constructor; assumption. }
    pose proof (uses_passed _ HA) as P. destruct (b_noexcept p) eqn:N.
    + split.
      * intros E. split; [reflexivity|]. remember (map Some (proj ++ [p; conv])) as l eqn:L. destruct P as [l F|l b x l' F T G|l I]; try discriminate E.
        assert (B : In b (proj ++ [p; conv])).
        { assert (In (Some b) (map Some (proj ++ [p; conv]))) as I by (rewrite <- L; apply in_or_app; right; left; reflexivity).
          apply in_map_iff in I. destruct I as (b' & [= ->] & I). exact I. }
        apply Exists_exists. exists b. split; [|congruence]. apply in_app_or in B. apply in_or_app. destruct B as [B|[->|[->|[]]]]; auto; [|right; left; reflexivity].
        rewrite (Hp b eq_refl N) in T. discriminate T.
      * intros (_ & X). apply Exists_exists in X. destruct X as (b & I & T).
        assert (In (Some b) (map Some (proj ++ [p; conv]))) as I'.
        { apply in_map. apply in_app_or in I. apply in_or_app. destruct I as [I|[->|[]]]; [left; exact I|right; right; left; reflexivity]. }
        remember (map Some (proj ++ [p; conv])) as l0 eqn:L. destruct P as [l F|l b' x l' F T' G|l J]; [| reflexivity|].
        -- rewrite Forall_forall in F. destruct (F _ I') as (b' & [= <-] & E). congruence.
        -- exfalso. rewrite L in J. apply in_map_iff in J. destruct J as (? & E & _). discriminate E.
    + split; [|intros (E & _); discriminate E]. intros E. exfalso. apply (passed_not_dead _ _ P). destruct (all_uses _); cbn in E; congruence.
  - intros ->. assert (Forall honest_one (map Some (proj ++ [p; conv]))) as F.
    { apply Forall_map. apply Forall_app. split; [exact Hl|]. repeat constructor; assumption. }
    pose proof (uses_passed _ F) as P. destruct (all_uses (map Some (proj ++ [p; conv]))); cbn; exact P.
Qed.

(** ** C94 *)

Definition element_factory (f : factory) : Prop := f = FaEachElement \/ f = FaAnyElement.

(** Every other factory leaves lvalues and const operands as they are, and moves from rvalues. *)
Theorem C94_forwarding : forall f c, ~ element_factory f -> operand_after f c = Some (match c with RV => MovedFrom | _ => Kept end).
Proof. intros f c N. unfold element_factory in N. destruct f; try (destruct c; reflexivity); exfalso; auto. Qed.
Theorem C94_lvalues_kept_refuted : exists f, operand_after f LV = Some MovedFrom /\ operand_after f CLV = None /\ taken_as f CLV = None.
Proof. exists FaEachElement. repeat split. Qed.
Theorem C94_elements : forall f, element_factory f <-> operand_after f LV <> Some Kept.
Proof. unfold element_factory. intros []; cbn; split; try (intros _; discriminate); auto; try congruence; intros [E|E]; discriminate E. Qed.
Theorem C94_const_operands : forall f c, operand_after f c = None <-> element_factory f /\ (c = CLV \/ c = CRV).
Proof.
  unfold element_factory. intros f c.
  destruct f, c; cbn; split; try discriminate; auto 6; try (intros ([E|E] & _); discriminate E); try (intros (_ & [E|E]); discriminate E).
Qed.
(** A variable stays usable iff it was never given to one of the two. *)
Theorem C94_variables : forall l, variable_after Kept l = Some Kept <-> Forall (fun f => ~ element_factory f) l.
Proof.
  intros l. assert (M : forall l, variable_after MovedFrom l = Some MovedFrom).
  { clear l. induction l as [|f l IH]; [reflexivity|]. cbn [variable_after]. destruct f; exact IH. }
  split.
  - induction l as [|f l IH]; [constructor|]. cbn [variable_after]. intros H. destruct (operand_after f LV) as [[]|] eqn:E; [| |discriminate H].
    + constructor; [|apply IH, H]. intros F. apply C94_elements in F. congruence.
    + rewrite M in H. discriminate H.
  - induction 1 as [|f l N F IH]; [reflexivity|]. cbn [variable_after]. rewrite (C94_forwarding f LV N). exact IH.
Qed.

(** ** Examples *)

(** An ordinary functor: one call operator, a copy which may throw (and does), a move which does not. *)
Definition usual : vtype :=
  mkType (fun c => Some (match c with RV => mkBehaviour true None | _ => mkBehaviour false (Some (EUser 3)) end)) (fun _ => Some (mkBehaviour false (Some (EUser 4)))).
Example usual_functor : honest usual /\ moves_like usual LV /\ make_applied usual LV = Threw (EUser 3) /\ make_applied usual RV = Done /\
  run_finalizer KResultOf usual RV (Some (mkBehaviour true None)) = Threw (EUser 4) /\ run_side_effect false (call_invoke usual RV) = Dead.
Proof. split; [intros c; split; destruct c; intros b [= <-] E; cbn in *; congruence|]. split; [intros E; discriminate E|]. repeat split. Qed.
Example throwing_projection : predicate_matches (Some (mkBehaviour true None)) [mkBehaviour true None; mkBehaviour false (Some (EUser 5))] (mkBehaviour true None) = Dead /\
  predicate_matches (Some (mkBehaviour false None)) [mkBehaviour true None; mkBehaviour false (Some (EUser 5))] (mkBehaviour true None) = Threw (EUser 5).
Proof. split; reflexivity. Qed.
Example used_thrice : variable_after Kept [FaCompare; FaArg; FaExpectCall] = Some Kept /\ variable_after Kept [FaArg; FaAnyElement; FaArg] = Some MovedFrom.
Proof. split; reflexivity. Qed.

Print Assumptions C93_construction.
Print Assumptions C93_rvalues.
Print Assumptions C93_construction_exact.
Print Assumptions C93_arg.
Print Assumptions C93_matchers.
Print Assumptions C93_construction_refuted.
Print Assumptions C93_finalizers.
Print Assumptions C93_result_of_exact.
Print Assumptions C93_result_of_refuted.
Print Assumptions C93_side_effects.
Print Assumptions C93_side_effects_exact.
Print Assumptions C93_invoke.
Print Assumptions C93_invoke_refuted.
Print Assumptions C93_predicate.
Print Assumptions C94_forwarding.
Print Assumptions C94_lvalues_kept_refuted.
Print Assumptions C94_elements.
Print Assumptions C94_const_operands.
Print Assumptions C94_variables.
