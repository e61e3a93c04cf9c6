(** * PropConjoin: which expectation expressions compile (C95). *)

From Verif Require Import Base Control Signature Expectation Builder Operands Conjoin.

(** ** The concepts *)

(** What a type needs in order to be an expectation policy. *)
Record is_policy (t : otype) : Prop := {
  ip_moves : ot_from t RV = true;
  ip_destructible : ot_destructible t = true;
  ip_satisfied : exists f, ot_is_satisfied t = Some f /\ mb_const f = true /\ mb_noexcept f = true /\ mb_converts f = true;
  ip_matches : exists f, ot_matches t = Some f /\ mb_const f = true /\ mb_converts f = true;
  ip_describe : exists f, ot_describe t = Some f /\ mb_const f = true /\ mb_converts f = true;
  ip_consume : exists f, ot_consume t = Some f
}.
Record is_finalizer (t : otype) : Prop := {
  if_moves : ot_from t RV = true;
  if_destructible : ot_destructible t = true;
  if_final : exists f, ot_finalize t = Some f /\ mb_converts f = true
}.

Lemma const_call_iff : forall m, const_call m = true <-> exists f, m = Some f /\ mb_const f = true /\ mb_converts f = true.
Proof.
  intros [f|]; cbn [const_call]; split; [|intros (g & [= <-] & -> & ->); reflexivity|discriminate|intros (g & [=] & _)].
  intros H. apply andb_prop in H as [A B]. exists f. auto.
Qed.
Lemma const_call_noexcept_iff : forall m, const_call_noexcept m = true <->
  exists f, m = Some f /\ mb_const f = true /\ mb_noexcept f = true /\ mb_converts f = true.
Proof.
  intros [f|]; cbn [const_call_noexcept]; split; [|intros (g & [= <-] & -> & -> & ->); reflexivity|discriminate|intros (g & [=] & _)].
  intros H. apply andb_prop in H as [A C]. apply andb_prop in A as [A B]. exists f. auto.
Qed.

Theorem C95_policies : forall t, expectation_policy t = true <-> is_policy t.
Proof.
  intros t. unfold expectation_policy. rewrite !andb_true_iff, const_call_noexcept_iff, !const_call_iff. split.
  - intros (((((A & B) & C) & D) & E) & F). constructor; auto. destruct (ot_consume t) as [f|]; [exists f; reflexivity|discriminate].
  - intros [A B C D E (f & F)]. rewrite F. auto 10.
Qed.
Theorem C95_finalizers : forall t, finalize_policy t = true <-> is_finalizer t.
Proof.
  intros t. unfold finalize_policy. rewrite !andb_true_iff. split.
  - intros ((A & B) & C). constructor; auto. destruct (ot_finalize t) as [f|]; [exists f; auto|discriminate].
  - intros [A B (f & F & C)]. rewrite F. auto.
Qed.

(** ** Overload resolution *)

(** Which overloads can be called with an operand, and by which conversion. *)
Inductive callable (b : bstate) (t : otype) (c : vcat) : which -> rank -> Prop :=
| callable_final : bs_init b = true -> ot_init t = false -> is_finalizer t -> callable b t c OvFinal SameType
| callable_policy : is_policy t -> callable b t c OvPolicy SameType
| callable_times r : bs_times b = false -> ot_times t = Some r -> r = UserConversion \/ c = RV -> callable b t c OvTimes r
| callable_seqs r : ot_seqs t = Some r -> r <> UserConversion -> c = RV -> callable b t c OvSeqs r.

(** Derived classes are worse than the class itself, conversions worse than both; with equal conversions the overload which is no template
    wins, then the one for sequences. *)
Definition beats (w : which) (r : rank) (w' : which) (r' : rank) : Prop :=
  rank_number r < rank_number r' \/ (r = r' /\ ((w = OvTimes /\ w' <> OvTimes) \/ (w = OvSeqs /\ (w' = OvFinal \/ w' = OvPolicy)))).

Lemma rank_inj : forall r r', rank_number r = rank_number r' -> r = r'.
Proof. intros [] []; simpl; congruence. Qed.

Lemma better_iff : forall x y, better x y = true <-> beats (fst x) (snd x) (fst y) (snd y).
Proof.
  intros [w r] [w' r']. unfold better, beats. cbn [fst snd]. rewrite orb_true_iff, andb_true_iff, Nat.ltb_lt, Nat.eqb_eq.
  split; (intros [H|[H K]]; [left; exact H|right]).
  - split; [apply rank_inj, H|]. destruct w, w'; try discriminate K; try (left; split; [reflexivity|discriminate]);
      (right; split; [reflexivity|]; first [left; reflexivity|right; reflexivity]).
  - subst r'. split; [reflexivity|]. destruct K as [[-> K]|[-> [->| ->]]]; [destruct w'; [reflexivity|reflexivity|contradiction|reflexivity]|reflexivity..].
Qed.

Lemma which_eqb_iff : forall a b, which_eqb a b = true <-> a = b.
Proof. intros [] []; simpl; split; intros H; try reflexivity; discriminate H. Qed.

Lemma in_candidates : forall b t c w r, In (w, r) (candidates b RV t c) <-> callable b t c w r.
Proof.
  intros b t c w r. unfold candidates. rewrite !in_app_iff. unfold candidate_of. split.
  - intros [H|[H|[H|H]]].
    + destruct (bs_init b) eqn:A; [|destruct H]. destruct (ot_init t) eqn:B; [destruct H|]. destruct (finalize_policy t) eqn:C; [|destruct H].
      destruct H as [[= <- <-]|[]]. constructor; auto. apply C95_finalizers, C.
    + destruct (expectation_policy t) eqn:C; [|destruct H]. destruct H as [[= <- <-]|[]]. constructor. apply C95_policies, C.
    + destruct (bs_times b) eqn:A; [destruct H|]. destruct (ot_times t) as [k|] eqn:B; [|destruct H].
      destruct k, c; cbn [binds] in H; try destruct H as [[= <- <-]|[]]; try destruct H; constructor; auto.
    + destruct (ot_seqs t) as [k|] eqn:B; [|destruct H].
      destruct k, c; cbn [binds] in H; try destruct H as [[= <- <-]|[]]; try destruct H; constructor; auto; discriminate.
  - intros H. destruct H as [A B C|C|k A B C|k A B C].
    + left. apply C95_finalizers in C. rewrite A, B, C. left. reflexivity.
    + right. left. apply C95_policies in C. rewrite C. left. reflexivity.
    + right. right. left. rewrite A, B. destruct C as [-> | ->]; [left; reflexivity|destruct k; left; reflexivity].
    + right. right. right. rewrite A. subst c. destruct k; [left; reflexivity|left; reflexivity|contradiction].
Qed.

Lemma callable_once : forall b t c w r r', callable b t c w r -> callable b t c w r' -> r = r'.
Proof. intros b t c w r r' A B. inversion A; subst; inversion B; subst; congruence. Qed.

Lemma beats_irrefl : forall w r, ~ beats w r w r.
Proof. intros w r [H|[_ [[-> H]|[-> [H|H]]]]]; [lia|apply H; reflexivity|discriminate H|discriminate H]. Qed.
Lemma beats_asym : forall w r w' r', beats w r w' r' -> ~ beats w' r' w r.
Proof.
  intros w r w' r' [H|[E H]] [K|[E' K]]; try (subst; lia).
  destruct H as [[-> H]|[-> H]], K as [[-> K]|[-> K]]; try (apply H; reflexivity); try (destruct K as [K|K]; discriminate K);
    try (destruct H as [H|H]; discriminate H).
Qed.

(** An overload is chosen exactly if it can be called and beats every other one which can be called. *)
Theorem C95_resolution : forall b t c,
  (forall w, resolve (candidates b RV t c) = Selected w <->
     exists r, callable b t c w r /\ forall w' r', callable b t c w' r' -> w' = w \/ beats w r w' r') /\
  (resolve (candidates b RV t c) = NoOverload <-> forall w r, ~ callable b t c w r).
Proof.
  intros b t c. pose proof (in_candidates b t c) as I. pose proof (callable_once b t c) as O.
  set (l := candidates b RV t c) in *.
  set (top := fun x => forallb (fun y => which_eqb (fst x) (fst y) || better x y) l).
  assert (Top : forall w r, top (w, r) = true <-> forall w' r', callable b t c w' r' -> w' = w \/ beats w r w' r').
  { intros w r. unfold top. rewrite forallb_forall. split.
    - intros H w' r' K. apply I in K. apply H in K. apply orb_prop in K as [K|K]; [left; symmetry; apply which_eqb_iff, K|].
      right. apply (better_iff (w, r) (w', r')), K.
    - intros H [w' r'] K. apply I in K. apply H in K as [-> |K]; apply orb_true_intro; [left; apply which_eqb_iff; reflexivity|].
      right. apply (better_iff (w, r) (w', r')), K. }
  assert (R : resolve l = match l with [] => NoOverload | _ => match filter top l with x :: _ => Selected (fst x) | [] => Ambiguous end end) by reflexivity.
  split.
  - intros w. rewrite R. split.
    + intros H. assert (F : exists x, In x (filter top l) /\ fst x = w).
      { destruct l; [discriminate H|]. destruct (filter top _) as [|x f]; [discriminate H|]. injection H as <-. exists x. split; [left|]; reflexivity. }
      destruct F as ([w0 r] & F & E). simpl in E. subst w0. apply filter_In in F as [F T]. exists r. split; [apply I, F|apply Top, T].
    + intros (r & C & H). assert (F : In (w, r) (filter top l)) by (apply filter_In; split; [apply I, C|apply Top, H]).
      destruct l as [|a l']; [destruct F|]. destruct (filter top (a :: l')) as [|[w0 r0] f] eqn:E; [destruct F|]. cbn [fst]. f_equal.
      assert (F0 : In (w0, r0) (filter top (a :: l'))) by (rewrite E; left; reflexivity). apply filter_In in F0 as [F0 T0].
      apply I in F0. pose proof (proj1 (Top _ _) T0 _ _ C) as [->|B0]; [reflexivity|]. destruct (H _ _ F0) as [->|B1]; [reflexivity|].
      destruct (beats_asym _ _ _ _ B0 B1).
  - rewrite R. split.
    + intros H w r K. apply I in K. destruct l; [destruct K|]. destruct (filter top _); discriminate H.
    + intros H. destruct l as [|[w r] l']; [reflexivity|]. destruct (H w r). apply I. left. reflexivity.
Qed.

(** Everything needs a temporary (or std::move of a variable): nothing can be attached to a named builder, to a const one neither. *)
Theorem C95_builder_category : forall b bc t c, bc <> RV -> conjoin b bc t c = Failed NoOverload.
Proof. intros b [] t c H; try reflexivity. contradiction. Qed.

(** What the selected overload does: only operands of the first two are stored, and have to be constructible from the operand. *)
Theorem C95_effect : forall b t c w b',
  conjoin b RV t c = Formed w b' <->
  resolve (candidates b RV t c) = Selected w /\ ((w = OvFinal \/ w = OvPolicy) -> ot_from t c = true) /\
  bs_times b' = (if which_eqb w OvTimes then true else bs_times b) /\ bs_init b' = (if which_eqb w OvFinal then false else bs_init b).
Proof.
  intros [bt bi] t c w [bt' bi']. unfold conjoin. destruct (resolve _) as [w0| |]; cbn [bs_times bs_init].
  - destruct w0; try destruct (ot_from t c) eqn:F; (split;
      [intros H; injection H as <- <- <- || discriminate H || injection H; intros; subst;
         (split; [reflexivity|]; split; [intros [K|K]; try discriminate K; auto|]; split; reflexivity)
      |intros ([= <-] & K & -> & ->); try reflexivity; try (specialize (K (or_introl eq_refl)); discriminate K);
         try (specialize (K (or_intror eq_refl)); discriminate K)]).
  - split; [discriminate|intros ([=] & _)].
  - split; [discriminate|intros ([=] & _)].
Qed.
Theorem C95_body : forall b t c w, conjoin b RV t c = Inside w <->
  resolve (candidates b RV t c) = Selected w /\ (w = OvFinal \/ w = OvPolicy) /\ ot_from t c = false.
Proof.
  intros b t c w. unfold conjoin. destruct (resolve _) as [w0| |].
  - destruct w0; try destruct (ot_from t c) eqn:F; (split; [intros H; try discriminate H; injection H as <-; auto|
      intros ([= <-] & [K|K] & G); try discriminate K; try discriminate G; reflexivity]).
  - split; [discriminate|intros ([=] & _)].
  - split; [discriminate|intros ([=] & _)].
Qed.

(** ** Types which are both *)

Definition unrelated (t : otype) : Prop := ot_times t = None /\ ot_seqs t = None.

Lemma unrelated_callable : forall b t c w r, unrelated t -> callable b t c w r ->
  (w = OvFinal /\ bs_init b = true /\ ot_init t = false /\ is_finalizer t) \/ (w = OvPolicy /\ is_policy t).
Proof. intros b t c w r [A B] H. destruct H as [? ? ?|?|k ? E ?|k E ? ?]; [left; auto|right; auto|congruence|congruence]. Qed.

(** A type which is a policy as well as a finalizer is ambiguous as long as the expectation has no finalizer, and a policy from then on. *)
Theorem C95_ambiguous : forall b t c, unrelated t ->
  (conjoin b RV t c = Failed Ambiguous <-> bs_init b = true /\ ot_init t = false /\ is_finalizer t /\ is_policy t).
Proof.
  intros b t c U. unfold conjoin. destruct (C95_resolution b t c) as [R N]. pose proof (unrelated_callable b t c) as V.
  destruct (resolve (candidates b RV t c)) as [w| |] eqn:E.
  - split; [destruct w; try destruct (ot_from t c); discriminate|]. intros (A & B & C & D). exfalso.
    destruct (proj1 (R w) eq_refl) as (r & K & H).
    pose proof (callable_final b t c A B C) as KF. pose proof (callable_policy b t c D) as KP.
    destruct (V _ _ U K) as [(-> & _)|(-> & _)].
    + destruct (H _ _ KP) as [X|[X|[_ [[X _]|[X _]]]]]; try discriminate X. rewrite (callable_once _ _ _ _ _ _ K KF) in X. simpl in X. lia.
    + destruct (H _ _ KF) as [X|[X|[_ [[X _]|[X _]]]]]; try discriminate X. rewrite (callable_once _ _ _ _ _ _ K KP) in X. simpl in X. lia.
  - split; [discriminate|]. intros (A & B & C & D). destruct (proj1 N eq_refl _ _ (callable_policy b t c D)).
  - split; [intros _|reflexivity].
    assert (NS : forall w, ~ exists r, callable b t c w r /\ forall w' r', callable b t c w' r' -> w' = w \/ beats w r w' r').
    { intros w K. apply R in K. discriminate K. }
    assert (NN : ~ forall w r, ~ callable b t c w r) by (intros K; apply N in K; discriminate K).
    assert (Fin : bs_init b = true -> ot_init t = false -> is_finalizer t -> is_policy t).
    { intros A B C. destruct (expectation_policy t) eqn:P; [apply C95_policies, P|]. exfalso. apply (NS OvFinal). exists SameType.
      split; [constructor; auto|]. intros w' r' K. destruct (V _ _ U K) as [(-> & _)|(_ & D)]; [left; reflexivity|].
      apply C95_policies in D. congruence. }
    destruct (bs_init b && negb (ot_init t) && finalize_policy t) eqn:F.
    + apply andb_prop in F as [F C]. apply andb_prop in F as [A B]. apply negb_true_iff in B. apply C95_finalizers in C. auto.
    + exfalso. assert (NF : ~ (bs_init b = true /\ ot_init t = false /\ is_finalizer t)).
      { intros (A & B & C). apply C95_finalizers in C. rewrite A, B, C in F. discriminate F. }
      destruct (expectation_policy t) eqn:P.
      * apply (NS OvPolicy). exists SameType. split; [constructor; apply C95_policies, P|].
        intros w' r' K. destruct (V _ _ U K) as [(_ & A & B & C)|(-> & _)]; [destruct NF; auto|left; reflexivity].
      * apply NN. intros w r K. destruct (V _ _ U K) as [(_ & A & B & C)|(_ & D)]; [apply NF; auto|]. apply C95_policies in D. congruence.
Qed.

(** Operands which are nothing but policies are policies, and those which are nothing but finalizers are finalizers, as long as there is none. *)
Theorem C95_policy_operand : forall b t c, unrelated t -> is_policy t -> (bs_init b = true -> ot_init t = false -> ~ is_finalizer t) ->
  conjoin b RV t c = if ot_from t c then Formed OvPolicy b else Inside OvPolicy.
Proof.
  intros b t c U P F. unfold conjoin. destruct (C95_resolution b t c) as [R _].
  assert (S : resolve (candidates b RV t c) = Selected OvPolicy).
  { apply R. exists SameType. split; [constructor; exact P|]. intros w' r' K.
    destruct (unrelated_callable _ _ _ _ _ U K) as [(_ & A & B & C)|(-> & _)]; [destruct (F A B C)|left; reflexivity]. }
  rewrite S. reflexivity.
Qed.
Theorem C95_finalizer_operand : forall b t c, unrelated t -> is_finalizer t -> ~ is_policy t ->
  conjoin b RV t c =
    if bs_init b && negb (ot_init t) then (if ot_from t c then Formed OvFinal (mkBState (bs_times b) false) else Inside OvFinal)
    else Failed NoOverload.
Proof.
  intros b t c U F P. unfold conjoin. destruct (C95_resolution b t c) as [R N].
  destruct (bs_init b && negb (ot_init t)) eqn:E.
  - apply andb_prop in E as [A B]. apply negb_true_iff in B.
    assert (S : resolve (candidates b RV t c) = Selected OvFinal).
    { apply R. exists SameType. split; [constructor; auto|]. intros w' r' K.
      destruct (unrelated_callable _ _ _ _ _ U K) as [(-> & _)|(_ & D)]; [left; reflexivity|contradiction]. }
    rewrite S. reflexivity.
  - assert (S : resolve (candidates b RV t c) = NoOverload).
    { apply N. intros w r K. destruct (unrelated_callable _ _ _ _ _ U K) as [(_ & A & B & _)|(_ & D)]; [|contradiction].
      rewrite A, B in E. discriminate E. }
    rewrite S. reflexivity.
Qed.

(** User expectation (C36): the order of the operands does not matter. Refuted for types which are both. *)
Definition both_type : otype :=
  mkOType everywhere true (Some (mkMember true true true)) (Some (mkMember true false true)) (Some (mkMember true false true))
    (Some (mkMember false false true)) (Some (mkMember false false true)) None None false.
Definition all_movable (r : nat) : bool := true.

Theorem C95_order_matters_refuted : exists t u,
  expression_compiles all_movable 1 [(t, RV); (u, RV)] = true /\ expression_compiles all_movable 1 [(u, RV); (t, RV)] = false.
Proof. exists (lib_type all_movable 1 LThrows), both_type. split; reflexivity. Qed.

(** ** The types of the library *)

(** The configurations have to be temporaries: a named times or sequence configuration is not accepted. *)
Theorem C95_configurations : forall movable r b c,
  (conjoin b RV (lib_type movable r LTimes) c = if bs_times b then Failed NoOverload else
     match c with RV => Formed OvTimes (mkBState true (bs_init b)) | _ => Failed NoOverload end) /\
  (conjoin b RV (lib_type movable r LSeqs) c = match c with RV => Formed OvSeqs b | _ => Failed NoOverload end).
Proof. intros movable r [[|] [|]] []; split; reflexivity. Qed.

Definition is_temporary (c : vcat) : bool := match c with RV => true | _ => false end.
(** Policies and finalizers may be named, if they can be copied; side effects can not. *)
Theorem C95_named_operands : forall movable r b,
  (forall copies c, conjoin b RV (lib_type movable r (LRequirement copies true)) c =
     if copies || is_temporary c then Formed OvPolicy b else Inside OvPolicy) /\
  (forall c, conjoin b RV (lib_type movable r (LSideEffect true)) c = match c with RV => Formed OvPolicy b | _ => Inside OvPolicy end) /\
  (forall c, conjoin b RV (lib_type movable r LQualifier) c = Formed OvPolicy b) /\
  (forall copies c, conjoin b RV (lib_type movable r (LResult copies true)) c =
     if bs_init b && ((r =? 0) || movable r)
     then (if copies || is_temporary c then Formed OvFinal (mkBState (bs_times b) false) else Inside OvFinal) else Failed NoOverload) /\
  (forall c, conjoin b RV (lib_type movable r LThrows) c =
     if bs_init b && ((r =? 0) || movable r) then Formed OvFinal (mkBState (bs_times b) false) else Failed NoOverload).
Proof.
  intros movable r [bt bi]. split; [|split; [|split; [|split]]].
  - intros [|] []; destruct bt, bi; reflexivity.
  - intros []; destruct bt, bi; reflexivity.
  - intros []; destruct bt, bi; reflexivity.
  - intros [|] c; unfold conjoin, candidates, lib_type, finalizer_type, finalize_policy, result_converts;
      cbn [bs_init bs_times ot_init ot_from ot_destructible ot_finalize mb_converts copies_if everywhere moves_only negb andb];
      destruct bt, bi, ((r =? 0) || movable r), c; reflexivity.
  - intros c; unfold conjoin, candidates, lib_type, finalizer_type, finalize_policy, result_converts;
      cbn [bs_init bs_times ot_init ot_from ot_destructible ot_finalize mb_converts everywhere negb andb];
      destruct bt, bi, ((r =? 0) || movable r), c; reflexivity.
Qed.

(** Operands whose constraints are not met, and the initial finalizer, are not accepted at all. *)
Theorem C95_not_accepted : forall movable r b c o,
  In o [LInit; LSideEffect false] \/ (exists copies, o = LResult copies false) \/ (exists copies, o = LRequirement copies false) ->
  conjoin b RV (lib_type movable r o) c = Failed NoOverload.
Proof.
  intros movable r [bt bi] c o [[<-|[<-|[]]]|[([|] & ->)|([|] & ->)]]; unfold conjoin, candidates, lib_type; cbn [ot_init negb finalizer_type];
    destruct bt, bi, c; reflexivity.
Qed.

(** The result types: no conversion from an object of a type which can not be moved. *)
Theorem C95_results : forall movable from_void r, result_converts movable from_void r = true <-> r = 0 \/ (from_void = false /\ movable r = true).
Proof.
  intros movable [|] r; unfold result_converts; rewrite ?orb_true_iff, Nat.eqb_eq; split; auto; intros [H|H]; auto; destruct H; auto; discriminate.
Qed.

(** The temporary builder can always be converted as far as the type traits know, but finalize compiles only with a finalizer (or void). *)
Theorem C95_finalize : forall movable r b, finalize_compiles movable r b = true <-> bs_init b = false \/ r = 0.
Proof.
  intros movable r [bt [|]]; unfold finalize_compiles; cbn [bs_init]; [rewrite C95_results|]; split; auto.
  - intros [H|[H _]]; [auto|discriminate H].
  - intros [H|H]; [discriminate H|auto].
Qed.
Theorem C95_scoped_trait_refuted : exists movable r b, scoped_from_builder RV = true /\ finalize_compiles movable r b = false.
Proof. exists all_movable, 1, (mkBState false true). split; reflexivity. Qed.
Theorem C95_scoped : forall bc, scoped_from_builder bc = true <-> bc = RV.
Proof. intros []; split; intros H; try reflexivity; discriminate H. Qed.

(** ** Expressions of the library's operands are those of Builder.v *)

Definition clause_op (movable : nat -> bool) (r : nat) (cl : clause) : otype * vcat := (lib_type movable r (clause_operand cl), RV).

Definition after (b : bstate) (cls : list clause) : bstate :=
  mkBState (bs_times b || existsb (fun cl => match cl with ClTimes _ => true | _ => false end) cls)
    (bs_init b && negb (existsb (fun cl => match cl with ClFinal _ => true | _ => false end) cls)).

Lemma clause_step : forall movable r b cl, r = 0 \/ movable r = true ->
  conjoin b RV (fst (clause_op movable r cl)) (snd (clause_op movable r cl)) =
    match cl with
    | ClTimes _ => if bs_times b then Failed NoOverload else Formed OvTimes (mkBState true (bs_init b))
    | ClSeq _ => Formed OvSeqs b
    | ClFinal FInit => Failed NoOverload
    | ClFinal _ => if bs_init b then Formed OvFinal (mkBState (bs_times b) false) else Failed NoOverload
    | ClPolicy _ => Formed OvPolicy b
    end.
Proof.
  intros movable r b cl M. assert (M' : (r =? 0) || movable r = true) by (rewrite orb_true_iff, Nat.eqb_eq; exact M).
  unfold clause_op. cbn [fst snd].
  destruct (C95_named_operands movable r b) as (A & B & C & D & E). destruct (C95_configurations movable r b RV) as [F G].
  destruct cl as [t|tags|[|v|x|]|[k|k|i m p|n]]; cbn [clause_operand].
  - exact F.
  - exact G.
  - apply C95_not_accepted. left. left. reflexivity.
  - rewrite D, M', andb_true_r. reflexivity.
  - rewrite E, M', andb_true_r. reflexivity.
  - rewrite D, M', andb_true_r. reflexivity.
  - apply C.
  - apply C.
  - rewrite A. reflexivity.
  - rewrite B. reflexivity.
Qed.

Theorem C95_library : forall movable r cls b, r = 0 \/ movable r = true ->
  chain b (map (clause_op movable r) cls) =
    if viable (bs_times b) (negb (bs_init b)) cls then Some (map clause_kind cls, after b cls) else None.
Proof.
  intros movable r cls b M. revert b. induction cls as [|cl cls IH]; intros b.
  - cbn [map chain viable]. unfold after. cbn [existsb negb]. rewrite orb_false_r, andb_true_r. destruct b; reflexivity.
  - cbn [map chain]. pose proof (clause_step movable r b cl M) as S. destruct (clause_op movable r cl) as [t c]. cbn [fst snd] in S. rewrite S. clear S.
    destruct b as [bt bi]. destruct cl as [t0|tags|f|p]; cbn [bs_times bs_init viable clause_kind].
    + destruct bt; [reflexivity|]. rewrite IH. cbn [negb andb bs_times bs_init]. destruct (viable true (negb bi) cls); [|reflexivity].
      cbn [option_map fst snd]. unfold after. cbn [existsb bs_times bs_init orb]. reflexivity.
    + rewrite IH. cbn [bs_times bs_init]. destruct (viable bt (negb bi) cls); reflexivity.
    + destruct f; [reflexivity|..]; (destruct bi; [|reflexivity]; rewrite IH; cbn [negb andb bs_times bs_init];
        destruct (viable bt true cls); [|reflexivity]; cbn [option_map fst snd]; unfold after; cbn [existsb bs_times bs_init orb andb negb]; reflexivity).
    + rewrite IH. cbn [bs_times bs_init]. destruct (viable bt (negb bi) cls); reflexivity.
Qed.

(** All operands of the library can be destroyed, and moved. *)
(** The same for operands which are named: configurations and side effects can not be, everything else is copied. *)
Theorem C95_named_clauses : forall movable r b cl c, c <> RV -> r = 0 \/ movable r = true ->
  conjoin b RV (lib_type movable r (clause_operand cl)) c =
    match cl with
    | ClTimes _ | ClSeq _ | ClFinal FInit => Failed NoOverload
    | ClFinal _ => if bs_init b then Formed OvFinal (mkBState (bs_times b) false) else Failed NoOverload
    | ClPolicy (PSideEffect _) => Inside OvPolicy
    | ClPolicy _ => Formed OvPolicy b
    end.
Proof.
  intros movable r b cl c N M. assert (M' : (r =? 0) || movable r = true) by (rewrite orb_true_iff, Nat.eqb_eq; exact M).
  destruct (C95_named_operands movable r b) as (A & B & C & D & E). destruct (C95_configurations movable r b c) as [F G].
  destruct cl as [t|tags|[|v|x|]|[k|k|i m p|n]]; cbn [clause_operand].
  - rewrite F. destruct (bs_times b), c; try reflexivity; contradiction.
  - rewrite G. destruct c; try reflexivity; contradiction.
  - apply C95_not_accepted. left. left. reflexivity.
  - rewrite D, M', andb_true_r. reflexivity.
  - rewrite E, M', andb_true_r. reflexivity.
  - rewrite D, M', andb_true_r. reflexivity.
  - apply C.
  - apply C.
  - rewrite A. reflexivity.
  - rewrite B. destruct c; try reflexivity; contradiction.
Qed.
Print Assumptions C95_named_clauses.

(** The members the types of the library declare: only the side effects and the finalizers which hold something need an object that is not
    const; what runs user supplied code or makes text may throw. *)
Theorem C95_library_members : forall movable r o m,
  (ot_is_satisfied (lib_type movable r o) = Some m -> mb_const m = true /\ mb_noexcept m = true) /\
  (ot_matches (lib_type movable r o) = Some m -> mb_const m = true /\ (mb_noexcept m = false <-> exists c f, o = LRequirement c f)) /\
  (ot_describe (lib_type movable r o) = Some m -> mb_const m = true /\ (mb_noexcept m = true <-> exists i, o = LSideEffect i)) /\
  (ot_consume (lib_type movable r o) = Some m ->
     (mb_const m = false <-> exists i, o = LSideEffect i) /\ (mb_noexcept m = false <-> exists i, o = LSideEffect i)) /\
  (ot_finalize (lib_type movable r o) = Some m -> (mb_const m = true <-> o = LInit) /\ (mb_noexcept m = true <-> o = LInit)).
Proof.
  intros movable r o m.
  destruct o as [| | |c []| |c []| |[]]; cbn; (split; [|split; [|split; [|split]]]); intros H; try discriminate H; injection H as <-; cbn; intuition eauto;
    repeat match goal with H : exists _, _ |- _ => destruct H end; discriminate.
Qed.
Print Assumptions C95_library_members.
(** Which members there are. *)
Theorem C95_library_shape : forall movable r o,
  (ot_finalize (lib_type movable r o) <> None <-> In o [LInit; LThrows] \/ exists c, o = LResult c true) /\
  (ot_describe (lib_type movable r o) <> None <-> ot_is_satisfied (lib_type movable r o) <> None) /\
  (ot_is_satisfied (lib_type movable r o) <> None <-> o = LQualifier \/ (exists i, o = LSideEffect i) \/ exists c f, o = LRequirement c f) /\
  (ot_times (lib_type movable r o) <> None <-> o = LTimes) /\ (ot_seqs (lib_type movable r o) <> None <-> o = LSeqs) /\
  (ot_init (lib_type movable r o) = true <-> o = LInit).
Proof.
  intros movable r o.
  destruct o as [| | |c []| |c []| |[]]; cbn; intuition (try congruence; eauto);
    repeat match goal with H : exists _, _ |- _ => destruct H end; discriminate.
Qed.
Print Assumptions C95_library_shape.

Theorem C95_library_movable movable r o : ot_destructible (lib_type movable r o) = true /\ ot_from (lib_type movable r o) RV = true.
Proof. destruct o as [| | |[] []| |[] []| |[]]; split; reflexivity. Qed.
Print Assumptions C95_library_movable.

Theorem C95_library_expressions : forall movable s cls, sg_ret s = 0 \/ movable (sg_ret s) = true ->
  expression_compiles movable (sg_ret s) (map (clause_op movable (sg_ret s)) cls) = viable false false cls && finalizable s cls.
Proof.
  intros movable s cls M. unfold expression_compiles. rewrite C95_library by exact M. cbn [bs_times bs_init negb].
  destruct (viable false false cls) eqn:V; [|reflexivity]. cbn [andb].
  apply eq_true_iff_eq. rewrite C95_finalize. unfold finalizable, after. cbn [bs_init andb]. rewrite orb_true_iff, Nat.eqb_eq, negb_false_iff. tauto.
Qed.

(** A mock which returns a type that can not be moved can be called, but nothing of the library can be expected of it. *)
Theorem C95_immovable_results : forall movable r l, r <> 0 -> movable r = false ->
  expression_compiles movable r (map (fun oc : lib_operand * vcat => (lib_type movable r (fst oc), snd oc)) l) = false.
Proof.
  intros movable r l N M. unfold expression_compiles.
  assert (H : forall b w b', bs_init b = true -> chain b (map (fun oc : lib_operand * vcat => (lib_type movable r (fst oc), snd oc)) l) = Some (w, b') ->
    bs_init b' = true).
  { assert (N' : (r =? 0) = false) by (apply Nat.eqb_neq, N).
    induction l as [|[o c] l IH]; intros b w b' I; cbn [map chain fst snd]; [intros [= <- <-]; exact I|].
    destruct (C95_named_operands movable r b) as (A & B & C & D & E). destruct (C95_configurations movable r b c) as [F G].
    assert (K : forall v b1, conjoin b RV (lib_type movable r o) c = Formed v b1 -> bs_init b1 = true).
    { intros v b1. destruct o as [| | |copies inv| |copies fits| |inv].
      - rewrite F. destruct (bs_times b), c; try discriminate; intros [= <- <-]; exact I.
      - rewrite G. destruct c; try discriminate; intros [= <- <-]; exact I.
      - rewrite C95_not_accepted by (left; left; reflexivity). discriminate.
      - destruct inv; [rewrite D, N', M, andb_false_r; discriminate|]. rewrite C95_not_accepted by (right; left; exists copies; reflexivity). discriminate.
      - rewrite E, N', M, andb_false_r. discriminate.
      - destruct fits; [|rewrite C95_not_accepted by (right; right; exists copies; reflexivity); discriminate].
        rewrite A. destruct (copies || is_temporary c); [|discriminate]. intros [= <- <-]. exact I.
      - rewrite C. intros [= <- <-]. exact I.
      - destruct inv; [|rewrite C95_not_accepted by (left; right; left; reflexivity); discriminate].
        rewrite B. destruct c; try discriminate. intros [= <- <-]. exact I. }
    destruct (conjoin b RV (lib_type movable r o) c) as [v b1| |]; try discriminate.
    destruct (chain b1 _) as [[w1 b2]|] eqn:Ch; [|discriminate]. cbn [option_map fst snd]. intros [= <- <-].
    apply (IH b1 w1 b2 (K v b1 eq_refl) Ch). }
  destruct (chain _ _) as [[w b']|] eqn:Ch; [|reflexivity]. apply H in Ch; [|reflexivity].
  destruct (finalize_compiles movable r b') eqn:E; [|reflexivity]. apply C95_finalize in E as [E|E]; congruence.
Qed.

(** ** Examples *)

Example both_is_both : is_policy both_type /\ is_finalizer both_type /\ unrelated both_type.
Proof.
  split; [apply C95_policies; reflexivity|]. split; [apply C95_finalizers; reflexivity|]. split; reflexivity.
Qed.
(** A class derived from TimesConfig which is a policy, too, is a policy; a type with a conversion to TimesConfig configures the times, also
    if it is named. *)
Example derived_example :
  let t := mkOType everywhere true (Some (mkMember true true true)) (Some (mkMember true false true)) (Some (mkMember true false true))
             (Some (mkMember false false true)) None (Some DerivedClass) None false in
  conjoin (mkBState false true) RV t RV = Formed OvPolicy (mkBState false true).
Proof. reflexivity. Qed.
Example conversion_example :
  let t := mkOType everywhere true None None None None None (Some UserConversion) None false in
  conjoin (mkBState false true) RV t LV = Formed OvTimes (mkBState true true).
Proof. reflexivity. Qed.
Example expression_example :
  expression_compiles all_movable 1 (map (clause_op all_movable 1) [ClFinal (FThrows EReporter); ClTimes TxTwice; ClSeq [0]; ClPolicy (PSideEffect 0)]) = true /\
  expression_compiles all_movable 1 (map (clause_op all_movable 1) [ClTimes TxTwice]) = false /\
  expression_compiles all_movable 1 (map (clause_op all_movable 1) [ClFinal (FThrows EReporter); ClTimes TxTwice; ClTimes TxTwice]) = false.
Proof. repeat split; reflexivity. Qed.

Print Assumptions C95_policies.
Print Assumptions C95_finalizers.
Print Assumptions C95_resolution.
Print Assumptions C95_builder_category.
Print Assumptions C95_effect.
Print Assumptions C95_body.
Print Assumptions C95_ambiguous.
Print Assumptions C95_policy_operand.
Print Assumptions C95_finalizer_operand.
Print Assumptions C95_order_matters_refuted.
Print Assumptions C95_configurations.
Print Assumptions C95_named_operands.
Print Assumptions C95_not_accepted.
Print Assumptions C95_results.
Print Assumptions C95_finalize.
Print Assumptions C95_scoped_trait_refuted.
Print Assumptions C95_scoped.
Print Assumptions C95_library.
Print Assumptions C95_library_expressions.
Print Assumptions C95_immovable_results.
