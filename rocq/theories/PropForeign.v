(** * C96: matchers of Catch2 as requirements *)

From Verif Require Import Base Lib Sequence Control Signature Printer Reports Expectation Matcher Strings Builder World WorldSpec BuildSpec OutcomeProofs
  Scenario BuildProofs CountProofs PropCalls Foreign.
Local Open Scope string_scope.

(** A matcher of Catch2 for the parameter: it is derived from one of the base classes, its answers come from [match], its text from [describe]. *)
Definition of_catch2 (f : foreign) (answer : val -> ures bool) (text : ures string) : Prop :=
  (ft_generic f = true \/ ft_untyped f = true) /\ ft_match f = Some answer /\ ft_describe f = Some text /\ ft_movable f = true /\ ft_special f = None.

(** With the integration every matcher of Catch2 is a matcher which answers and describes itself as Catch2 does. A member [matches] which it
    may also have is not used. *)
Theorem C96_supported f answer text : of_catch2 f answer text -> foreign_matcher true f = Some (mkMatcher answer text).
Proof.
  intros (D & A & T & M & N). unfold foreign_matcher, foreign_matches, foreign_describe, traits_matches, traits_describe, traits_of, catch2_traits.
  rewrite M, N. replace (ft_generic f || ft_untyped f)%bool with true by (destruct D as [-> | ->]; destruct (ft_generic f); reflexivity).
  cbn [andb hook]. rewrite A, T. reflexivity.
Qed.

(** Without it a type is a matcher by its own members only. *)
Theorem C96_disabled f m : ft_special f = None ->
  (foreign_matcher false f = Some m <-> ft_movable f = true /\ ft_matches f = Some (m_matches m) /\ ft_describe f = Some (m_describe m)).
Proof.
  intros N. unfold foreign_matcher, foreign_matches, foreign_describe, traits_matches, traits_describe, traits_of, catch2_traits. rewrite N. cbn [andb hook].
  destruct (ft_movable f), (ft_matches f) as [a|], (ft_describe f) as [d|]; split; try (intros (? & ? & ?)); try discriminate.
  - intros [= <-]. auto.
  - destruct m as [a' d']. cbn [m_matches m_describe] in *. congruence.
Qed.

(** Who answers: the user's own specialisation, then Catch2's [match], then the member [matches]. *)
Inductive answered (integration : bool) (f : foreign) : (val -> ures bool) -> Prop :=
| by_user a d : ft_special f = Some (Some a, d) -> answered integration f a
| by_match a : ft_special f = None -> integration = true -> ft_generic f = true \/ ft_untyped f = true -> ft_match f = Some a -> answered integration f a
| by_member a :
    ft_special f <> None \/ integration = false \/ (ft_generic f = false /\ ft_untyped f = false) \/ ft_match f = None ->
    (forall b d, ft_special f <> Some (Some b, d)) -> ft_matches f = Some a -> answered integration f a.
(** Who describes: only the user's specialisation comes before the member. *)
Inductive described_by (f : foreign) : ures string -> Prop :=
| text_user a d : ft_special f = Some (a, Some d) -> described_by f d
| text_member d : (forall a b, ft_special f <> Some (a, Some b)) -> ft_describe f = Some d -> described_by f d.

Ltac who H := inversion H; subst; cbn [hook]; repeat match goal with D : _ \/ _ |- _ => destruct D | D : _ /\ _ |- _ => destruct D end; try congruence;
  exfalso; match goal with N : forall b d, ft_special _ <> _ |- _ => eapply N; eassumption end.
Theorem C96_exactly integration f m : foreign_matcher integration f = Some m <->
  ft_movable f = true /\ answered integration f (m_matches m) /\ described_by f (m_describe m).
Proof.
  assert (A : forall a, foreign_matches integration f = Some a <-> answered integration f a).
  { intros a. unfold foreign_matches, traits_matches, traits_of, catch2_traits. destruct (ft_special f) as [[[u|] d]|] eqn:U; cbn [hook].
    - split; [intros [= <-]; eapply by_user; eauto|]. intros H; who H.
    - split; [intros H; apply by_member; auto; [left|]; congruence|]. intros H; who H.
    - destruct integration; cbn [andb].
      + destruct (ft_generic f) eqn:G; cbn [orb]; [|destruct (ft_untyped f) eqn:T; cbn [orb]].
        * destruct (ft_match f) eqn:M; cbn [hook].
          -- split; [intros [= <-]; apply by_match; auto|]. intros H; who H.
          -- split; [intros H; apply by_member; auto; congruence|]. intros H; who H.
        * destruct (ft_match f) eqn:M; cbn [hook].
          -- split; [intros [= <-]; apply by_match; auto|]. intros H; who H.
          -- split; [intros H; apply by_member; auto; congruence|]. intros H; who H.
        * split; [intros H; apply by_member; auto; congruence|]. intros H; who H.
      + split; [intros H; apply by_member; auto; congruence|]. intros H; who H. }
  assert (D : forall d, foreign_describe integration f = Some d <-> described_by f d).
  { intros d. unfold foreign_describe, traits_describe, traits_of, catch2_traits. destruct (ft_special f) as [[u [e|]]|] eqn:U; cbn [hook].
    - split; [intros [= <-]; eapply text_user; eauto|]. intros H; inversion H as [? ? E|? N]; subst; [congruence|destruct (N _ _ U)].
    - split; [intros H; apply text_member; auto; congruence|]. intros H; inversion H; subst; congruence.
    - assert (E : match (if (integration && (ft_generic f || ft_untyped f))%bool then Some (ft_match f, None) else None) with Some (_, d) => d | None => None end = @None (ures string))
        by (destruct (integration && (ft_generic f || ft_untyped f))%bool; reflexivity).
      rewrite E. split; [intros H; apply text_member; auto; congruence|]. intros H; inversion H; subst; cbn [hook]; congruence. }
  unfold foreign_matcher. destruct (ft_movable f); [|split; [discriminate|intros [? _]; discriminate]].
  destruct (foreign_matches integration f) as [a|] eqn:Ea.
  - destruct (foreign_describe integration f) as [d|] eqn:Ed.
    + split.
      * intros [= <-]. split; auto. split; [apply A; reflexivity|apply D; reflexivity].
      * intros (_ & Ha & Hd). apply A in Ha. apply D in Hd. destruct m as [a1 d1]. cbn [m_matches m_describe] in *. congruence.
    + split; [discriminate|]. intros (_ & _ & Hd). apply D in Hd. congruence.
  - split; [discriminate|]. intros (_ & Ha & _). apply A in Ha. congruence.
Qed.

(** As operand of expect_call: a matcher is used as it is; everything else must be comparable with the parameter. *)
Theorem C96_operand integration comparable f param :
  (make_arg_matcher (foreign_traits integration comparable f param) = UseMatcher <-> exists m, foreign_matcher integration f = Some m) /\
  ((forall m, foreign_matcher integration f <> Some m) ->
   make_arg_matcher (foreign_traits integration comparable f param) = if comparable then UseEq else NoOverload).
Proof.
  unfold foreign_traits, make_arg_matcher. destruct (foreign_matcher integration f) as [m|]; cbn [at_matcher_for at_param_string at_arg_string at_comparable].
  - split; [split; eauto|]. intros H. destruct (H m eq_refl).
  - split; [|intros _; destruct param; reflexivity]. split; [|intros [? [=]]]. destruct param; destruct comparable; discriminate.
Qed.

(** In a program: an expectation with such an operand accepts only calls whose argument is matched by Catch2, and says in its reports what
    Catch2 says. *)
Theorem C96_program ops0 w0 m ov ms cls l w1 ops w2 i f answer text mt :
  run init ops0 w0 -> step w0 (OExpect m ov ms cls l) = Next w1 RUnit -> run w1 ops w2 ->
  of_catch2 f answer (UOk text) -> foreign_matcher true f = Some mt -> nth_error ms i = Some mt ->
  exists x, exp_at w2 (length (w_exps w0)) x /\
    (forall c, accepts (eo_exp x) c -> exists v, nth_error (ci_args c) i = Some v /\ answer v = UOk true) /\
    exists p, In p (e_policies (eo_exp x)) /\ policy_describe p = Ret (Some ("expect: arg[" ++ dec_nat i ++ "] " ++ text)) /\
      forall c v, nth_error (ci_args c) i = Some v -> policy_matches p c = of_ures (answer v).
Proof.
  intros R0 S R F M N. rewrite (C96_supported _ _ _ F) in M. injection M as <-.
  destruct (declared_expectation _ _ _ _ _ _ _ _ _ _ R0 S R) as (s & coll & x & _ & Hx & (_ & _ & _ & Hp & _) & _).
  destruct (C44_conjunction _ _ _ _ _ _ _ _ _ _ R0 S R) as (s' & coll' & x' & _ & Hx' & A).
  assert (x' = x) by (unfold exp_at in *; congruence). subst x'. exists x. split; auto. split.
  - intros c Ha. apply A in Ha as [_ Ha]. assert (H : forall p, In p (arg_requirements ms) -> holds p c) by (intros p Hin; apply Ha, in_or_app; auto).
    rewrite C44_arguments in H. destruct (H i _ N) as (v & V & E). exists v. split; [exact V|exact E].
  - exists (PArg i (mkMatcher answer (UOk text)) (fun v => UOk v)). split; [|split; [reflexivity|]].
    + rewrite Hp. apply in_or_app. left. unfold arg_requirements. apply in_map_iff. exists (i, mkMatcher answer (UOk text)). split; [reflexivity|].
      assert (L : i < length ms) by (apply nth_error_Some; congruence). apply (nth_error_In _ i).
      assert (G : forall (l : list matcher) k j, nth_error l j = Some (mkMatcher answer (UOk text)) ->
        nth_error (combine (seq k (length l)) l) j = Some (k + j, mkMatcher answer (UOk text))).
      { induction l0 as [|y l0 IH]; intros k [|j] Hj; try discriminate.
        - cbn in *. injection Hj as ->. rewrite Nat.add_0_r. reflexivity.
        - cbn [length seq combine nth_error] in *. rewrite (IH (Datatypes.S k) j Hj). f_equal. f_equal. lia. }
      apply (G ms 0 i N).
    + intros c v V. cbn. rewrite V. reflexivity.
Qed.

(** "Catch2 matchers are fully supported" is refuted for the elements of ranges: a matcher of Catch2 which has no member [matches] of its own
    can not be given to each_element or any_element, and one which has is asked by that member. *)
Theorem C96_elements_refuted :
  (exists f answer text, of_catch2 f answer text /\ foreign_matcher true f = Some (mkMatcher answer text) /\ foreign_element true f = None) /\
  (forall f answer text, of_catch2 f answer text -> ft_matches f = None -> foreign_element true f = None) /\
  (exists f answer text e v, of_catch2 f answer text /\ foreign_element true f = Some e /\ in_matches e v <> of_ures (answer v)).
Proof.
  set (yes := fun _ : val => UOk true). split; [|split].
  - exists (mkForeign true false (Some yes) None (Some (UOk "is odd")) true None), yes, (UOk "is odd"). split; [|split; reflexivity].
    repeat split; auto.
  - intros f answer text _ N. unfold foreign_element, element_matches. rewrite N. reflexivity.
  - exists (mkForeign false true (Some yes) (Some (fun _ => UOk false)) (Some (UOk "is odd")) true None), yes, (UOk "is odd"),
      (mkInner val (fun _ => Ret false) (Ret "is odd")), (VInt 1).
    split; [repeat split; auto|]. split; [reflexivity|discriminate].
Qed.
(** For all types: an element matcher has the member [matches] and a description. *)
Theorem C96_elements integration f e : foreign_element integration f = Some e <->
  exists a d, ft_matches f = Some a /\ described_by f d /\ e = mkInner val (fun v => of_ures (a v)) (of_ures d).
Proof.
  assert (D : forall o, element_describe (option_map of_ures (traits_describe integration f)) (option_map of_ures (ft_describe f)) = o ->
    match o with Some t => exists d, described_by f d /\ t = of_ures d | None => forall d, ~ described_by f d end).
  { intros o <-. unfold element_describe, traits_describe, traits_of, catch2_traits. destruct (ft_special f) as [[u [x|]]|] eqn:U; cbn [hook option_map].
    - exists x. split; [eapply text_user; eauto|reflexivity].
    - destruct (ft_describe f) as [d|] eqn:F; cbn [option_map].
      + exists d. split; [apply text_member; congruence|reflexivity].
      + intros d H. inversion H; subst; congruence.
    - assert (E : match (if (integration && (ft_generic f || ft_untyped f))%bool then Some (ft_match f, None) else None) with Some (_, d) => d | None => None end = @None (ures string))
        by (destruct (integration && (ft_generic f || ft_untyped f))%bool; reflexivity).
      rewrite E. cbn [option_map hook]. destruct (ft_describe f) as [d|] eqn:F; cbn [option_map].
      + exists d. split; [apply text_member; congruence|reflexivity].
      + intros d H. inversion H; subst; congruence. }
  assert (U : forall d d', described_by f d -> described_by f d' -> d = d').
  { intros d d' H H'. inversion H as [? ? E|? N E]; inversion H' as [? ? E'|? N' E']; subst; try congruence; [destruct (N' _ _ E)|destruct (N _ _ E')]. }
  unfold foreign_element. cbv zeta. unfold element_matches. destruct (ft_matches f) as [a|]; cbn [option_map].
  - specialize (D _ eq_refl). destruct (element_describe _ _) as [t|].
    + destruct D as (d & Hd & ->). split.
      * intros [= <-]. exists a, d. auto.
      * intros (a' & d' & [= <-] & Hd' & ->). rewrite (U d d' Hd Hd'). reflexivity.
    + split; [discriminate|]. intros (? & d & _ & H & _). destruct (D _ H).
  - split; [discriminate|]. intros (? & ? & ? & _). discriminate.
Qed.

Print Assumptions C96_supported.
Print Assumptions C96_disabled.
Print Assumptions C96_exactly.
Print Assumptions C96_operand.
Print Assumptions C96_program.
Print Assumptions C96_elements_refuted.
Print Assumptions C96_elements.

(** The matcher IsBetween of the adapter's test (test/adapter-tests/catch2/main.cpp 82-130): old style, without [matches]. *)
Definition is_between : foreign :=
  mkForeign false true (Some (fun v => match v with VInt z => UOk ((42 <=? z) && (z <=? 1337))%Z | _ => UOk false end)) None
    (Some (UOk "is between 42 and 1337")) true None.
Definition between : matcher := match foreign_matcher true is_between with Some m => m | None => m_any end.
Definition catch2_program : world := after [ONewMock [sig_unary]; OExpect 0 0 [between] [] here].
Example C96_example :
  foreign_matcher false is_between = None /\ foreign_element true is_between = None /\
  make_arg_matcher (foreign_traits true false is_between None) = UseMatcher /\
  make_arg_matcher (foreign_traits false false is_between None) = NoOverload /\
  (match step catch2_program (OCall 0 0 [VInt 1337] there) with Next w _ => accepted (w_trace w) 0 = 1 | _ => False end) /\
  (match step catch2_program (OCall 0 0 [VInt 41] there) with Next w r => r = RThrow EReporter /\ accepted (w_trace w) 0 = 0 | _ => False end).
Proof. vm_compute. repeat split; reflexivity. Qed.
