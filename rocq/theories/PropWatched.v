(** * PropWatched: C77. Watched objects as a whole. *)

From Verif Require Import Base Lib Sequence Control Signature Printer Reports Expectation Builder World WorldSpec CallSpec
  StepCases ObjInv WorldInv CallProofs CountProofs Scenario FrameSpec Watcher WatchSpec WatchProofs WatchSteps PropWatcher Watched.

(** ** Types *)

(** "Watched automatically detects the specifications of the Base move-constructor and -assignment-operator"; "If Base is nothrow
    destructible, Watched is it, too" (ObjectWatcher.hpp 350-367): for all watchers, also user-defined ones. *)
Theorem C77_same_exception_specifications b ws :
  forallb object_watcher ws = true ->
  nothrow_dtor (watched b ws) = nothrow_dtor b /\
  (m_ctor_move b <> None -> nothrow_move (watched b ws) = nothrow_move b) /\
  (m_assign_move b <> None -> nothrow_assign (watched b ws) = nothrow_assign b).
Proof.
  intros Hw.
  assert (D : forall f, (forall w, object_watcher w = true -> f w <> None) -> defaulted (map f ws) <> None).
  { intros f Hf. induction ws as [|w ws' IH]; [discriminate|]. cbn in Hw. apply andb_prop in Hw. destruct Hw as [H1 H2]. cbn.
    specialize (Hf w H1). specialize (IH H2). fold (defaulted (map f ws')). destruct (f w); [|congruence]. destruct (defaulted (map f ws')); [discriminate|congruence]. }
  assert (Dm : defaulted (map m_ctor_move ws) <> None) by (apply D; intros w; unfold object_watcher; destruct w as [[?|] [?|] [?|] [?|] ? ?]; cbn; congruence).
  assert (Da : defaulted (map m_assign_move ws) <> None) by (apply D; intros w; unfold object_watcher; destruct w as [[?|] [?|] [?|] [?|] ? ?]; cbn; congruence).
  split; [|split].
  - unfold nothrow_dtor. cbn. unfold nothrow_dtor. destruct (m_dtor b); reflexivity.
  - intros Hm. unfold watched, basic_watched, derived, combined, nothrow_move, specified. cbn.
    destruct (defaulted (map m_ctor_move ws)); [|congruence]. destruct (m_ctor_move b) as [x|]; [|congruence]. cbn. unfold nothrow_dtor. destruct x, (m_dtor b); reflexivity.
  - intros Hm. unfold watched, basic_watched, derived, combined, nothrow_assign, specified. cbn.
    destruct (defaulted (map m_assign_move ws)); [|congruence]. destruct (m_assign_move b) as [x|]; [|congruence]. cbn. destruct x; reflexivity.
Qed.

(** The destructor of Watched may override the one of Base, whatever the watchers do; it is virtual iff the one of Base is (or the one of a
    user-defined watcher). *)
Theorem C77_override b ws :
  override_ok b (basic_watched b ws) = true /\ override_ok b (watched b ws) = true /\
  m_virtual (watched b ws) = m_virtual b || existsb m_virtual ws.
Proof.
  unfold override_ok, watched, basic_watched, derived, combined, nothrow_dtor. cbn. destruct (m_virtual b), (m_dtor b), (existsb m_virtual ws); repeat split.
Qed.

(** The rule of the language: a virtual destructor which may not throw is not overridden by one which may. *)
Theorem C77_override_rule b d : override_ok b d = false <-> m_virtual b = true /\ m_dtor b = true /\ m_dtor d = false.
Proof. unfold override_ok. destruct (m_virtual b), (m_dtor b), (m_dtor d); cbn; intuition discriminate. Qed.
Print Assumptions C77_override_rule.

(** The destructor of a class without one of its own throws nothing iff those of all bases do, and is virtual iff the one of some base is. *)
Theorem C77_derived_destructor bs :
  (m_dtor (derived bs) = true <-> forall b, In b bs -> m_dtor b = true) /\ (m_virtual (derived bs) = true <-> exists b, In b bs /\ m_virtual b = true).
Proof. cbn. rewrite forallb_forall, existsb_exists. split; reflexivity. Qed.
Print Assumptions C77_derived_destructor.

(** Watched objects can be copied iff Base objects can; but copying is never noexcept, if a lifetime or relocation watcher is involved. *)
Theorem C77_copies b ws :
  forallb object_watcher ws = true ->
  (m_ctor_copy (watched b ws) = None <-> m_ctor_copy b = None) /\
  (m_assign_copy (watched b ws) = None <-> m_assign_copy b = None) /\
  (In lifetime_watcher ws \/ In relocation_watcher ws ->
     m_ctor_copy (watched b ws) <> Some true /\ m_assign_copy (watched b ws) <> Some true).
Proof.
  intros Hw.
  assert (D : forall f, (forall w, object_watcher w = true -> f w <> None) -> exists x, defaulted (map f ws) = Some x).
  { intros f Hf. clear -Hf Hw. induction ws as [|w ws' IH]; [exists true; reflexivity|]. cbn in Hw. apply andb_prop in Hw. destruct Hw as [H1 H2]. cbn.
    specialize (Hf w H1). specialize (IH H2). destruct IH as [y IH]. unfold defaulted in *. rewrite IH. destruct (f w); [|congruence]. eexists. reflexivity. }
  destruct (D m_ctor_copy) as [x Hx]; [intros w; unfold object_watcher; destruct w as [[?|] [?|] [?|] [?|] ? ?]; cbn; congruence|].
  destruct (D m_assign_copy) as [y Hy]; [intros w; unfold object_watcher; destruct w as [[?|] [?|] [?|] [?|] ? ?]; cbn; congruence|].
  assert (F : forall f w, In w ws -> f w = Some false -> defaulted (map f ws) <> Some true).
  { intros f w Hin Hf. clear -Hin Hf. induction ws as [|v ws' IH]; [destruct Hin|]. cbn. fold (defaulted (map f ws')). destruct Hin as [->|Hin].
    - rewrite Hf. destruct (defaulted (map f ws')); discriminate.
    - specialize (IH Hin). destruct (f v) as [[|]|], (defaulted (map f ws')) as [[|]|]; cbn; congruence. }
  assert (E1 : m_ctor_copy (watched b ws) = match m_ctor_copy b with Some z => Some (x && (z && true) && true) | None => None end).
  { unfold watched, basic_watched, derived, combined. cbn. rewrite Hx. destruct (m_ctor_copy b); reflexivity. }
  assert (E2 : m_assign_copy (watched b ws) = match m_assign_copy b with Some z => Some (y && (z && true) && true) | None => None end).
  { unfold watched, basic_watched, derived, combined. cbn. rewrite Hy. destruct (m_assign_copy b); reflexivity. }
  rewrite E1, E2. split; [destruct (m_ctor_copy b); split; congruence|]. split; [destruct (m_assign_copy b); split; congruence|].
  intros Hin. assert (x <> true /\ y <> true) as [X Y].
  { destruct Hin as [Hin|Hin]; split; intros ->.
    1,3: apply (F m_ctor_copy _ Hin eq_refl Hx). all: apply (F m_assign_copy _ Hin eq_refl Hy). }
  apply not_true_is_false in X, Y. subst. destruct (m_ctor_copy b), (m_assign_copy b); split; cbn; discriminate.
Qed.

(** With the watchers of the library, the destructor is virtual iff the one of Base is. *)
Theorem C77_library_watchers b ws :
  (forall w, In w ws -> w = lifetime_watcher \/ w = relocation_watcher) ->
  m_virtual (watched b ws) = m_virtual b /\ m_dtor (watched b ws) = m_dtor b /\ forallb object_watcher ws = true /\
  (* one of them has noexcept moves and a destructor that may throw, the other one the reverse *)
  (forall w, In w ws -> m_dtor w = negb (match m_ctor_move w with Some ne => ne | None => false end) /\ m_assign_move w = m_ctor_move w /\
     m_ctor_copy w = Some false /\ m_assign_copy w = Some false).
Proof.
  intros H.
  assert (V : existsb m_virtual ws = false).
  { destruct (existsb m_virtual ws) eqn:E; auto. apply existsb_exists in E. destruct E as (w & Hw & E). destruct (H w Hw) as [-> | ->]; discriminate. }
  assert (O : forallb object_watcher ws = true) by (apply forallb_forall; intros w Hw; destruct (H w Hw) as [-> | ->]; reflexivity).
  split; [rewrite (proj2 (proj2 (C77_override b ws))), V, orb_false_r; reflexivity|]. split; [apply (C77_same_exception_specifications b ws O)|]. split; auto.
  intros w Hw. destruct (H w Hw) as [-> | ->]; repeat split.
Qed.

(** CombinedWatchers, the base class, can be moved without exceptions iff Base can; that an object of Base can not be moved at all counts as "may throw". *)
Theorem C77_combined_moves b ws :
  forallb object_watcher ws = true ->
  (m_ctor_move (combined b ws) = Some true <-> (m_ctor_move b = Some true /\ m_dtor b = true)) /\
  (m_assign_move (combined b ws) = Some true <-> m_assign_move b = Some true) /\
  m_ctor_move (combined b ws) <> None /\ m_assign_move (combined b ws) <> None.
Proof.
  intros Hw.
  assert (D : forall f, (forall w, object_watcher w = true -> f w <> None) -> exists x, defaulted (map f ws) = Some x).
  { intros f Hf. clear -Hf Hw. induction ws as [|w ws' IH]; [exists true; reflexivity|]. cbn in Hw. apply andb_prop in Hw. destruct Hw as [H1 H2]. cbn.
    specialize (Hf w H1). specialize (IH H2). destruct IH as [y IH]. unfold defaulted in *. rewrite IH. destruct (f w); [|congruence]. eexists. reflexivity. }
  destruct (D m_ctor_move) as [x Hx]; [intros w; unfold object_watcher; destruct w as [[?|] [?|] [?|] [?|] ? ?]; cbn; congruence|].
  destruct (D m_assign_move) as [y Hy]; [intros w; unfold object_watcher; destruct w as [[?|] [?|] [?|] [?|] ? ?]; cbn; congruence|].
  unfold combined, specified, nothrow_move, nothrow_assign. cbn. rewrite Hx, Hy. cbn.
  destruct (m_ctor_move b) as [[|]|], (m_assign_move b) as [[|]|], (m_dtor b); cbn; intuition congruence.
Qed.

(** "If one wants to store a Watched<Base> inside e.g. std::vector [...] that would lead to behavior changes. This should never be the case":
    a growing vector moves its elements, if that is noexcept or they can not be copied (std::move_if_noexcept). *)
Definition moved_on_growth (t : members) : bool := nothrow_move t || negb (exists_ (m_ctor_copy t)).
Theorem C77_vector_growth b ws :
  forallb object_watcher ws = true -> m_ctor_move b <> None -> moved_on_growth (watched b ws) = moved_on_growth b.
Proof.
  intros Hw Hm. unfold moved_on_growth. rewrite (proj1 (proj2 (C77_same_exception_specifications b ws Hw)) Hm). f_equal. f_equal.
  destruct (C77_copies b ws Hw) as ([H1 H2] & _). unfold exists_. destruct (m_ctor_copy (watched b ws)), (m_ctor_copy b); auto.
  - exfalso. specialize (H2 eq_refl). discriminate.
  - exfalso. specialize (H1 eq_refl). discriminate.
Qed.

(** A Base whose move constructor is deleted can not be moved, but Watched<Base> can: its defaulted move constructor is deleted and ignored. *)
Definition pinned : members := mkMembers (Some false) None (Some false) None true false.
Theorem C77_movable_like_base_refuted :
  exists b ws, forallb object_watcher ws = true /\ m_ctor_move b = None /\ m_ctor_move (watched b ws) <> None.
Proof. exists pinned, [lifetime_watcher]. split; [reflexivity|]. split; [reflexivity|]. vm_compute. discriminate. Qed.

Definition plain_base : members := mkMembers (Some false) (Some true) (Some false) (Some true) true true.
Definition loose_base : members := mkMembers (Some false) (Some false) (Some false) (Some false) false false.
Example C77_types_example :
  let ws := [lifetime_watcher; relocation_watcher] in
  forallb object_watcher ws = true /\
  watched plain_base ws = mkMembers (Some false) (Some true) (Some false) (Some true) true true /\
  watched loose_base ws = mkMembers (Some false) (Some false) (Some false) (Some false) false false /\
  watched (mkMembers (Some true) (Some true) (Some true) (Some true) true false) [] = mkMembers (Some true) (Some true) (Some true) (Some true) true false /\
  watched (mkMembers (Some true) (Some true) (Some true) (Some true) false false) ws = mkMembers (Some false) (Some false) (Some false) (Some true) false false /\
  watched (mkMembers None (Some true) None (Some true) true false) ws = mkMembers None (Some true) None (Some true) true false /\
  watched pinned [lifetime_watcher] = mkMembers (Some false) (Some false) (Some false) (Some false) true false /\
  moved_on_growth (watched plain_base ws) = true /\ moved_on_growth (watched loose_base ws) = false.
Proof. vm_compute. repeat split. Qed.

(** ** Objects *)

Lemma go_run p : forall d d' r, go d p = DNext d' r -> exists ops, wrun (dw d) ops (dw d').
Proof.
  induction p as [r0|b ps|o k IH]; intros d d' r H; cbn [go] in H.
  - inversion H; subst. exists []. constructor.
  - inversion H; subst. exists []. constructor.
  - destruct (wstep (dw d) o) as [s r1| | |] eqn:E; try discriminate.
    destruct (length (ww_conts (dw d)) <? length (ww_conts s)).
    + inversion H; subst. exists [o]. econstructor; [exact E|constructor].
    + destruct (IH _ _ _ _ _ H) as [ops Ho]. exists (o :: ops). econstructor; eauto.
Qed.
Lemma dstep_run d o d' r : dstep d o = DNext d' r -> exists ops, wrun (dw d) ops (dw d').
Proof.
  intros H. destruct o; cbn [dstep] in H.
  - destruct (negb (usable o)); [discriminate|]. destruct (wstep (dw d) o) as [s r1| | |] eqn:E; try discriminate.
    assert (R : wrun (dw d) [o] s) by (econstructor; [exact E|constructor]).
    destruct (dw_tasks d) as [|[n k] ts]; [inversion H; subst; eauto|]. destruct (length (ww_conts s) <=? n); [|inversion H; subst; eauto].
    apply go_run in H. destruct H as [ops Ho]. exists ([o] ++ ops). eapply wrun_app; eauto.
  - destruct (distinct ks); [|discriminate]. eapply go_run; eauto.
  - destruct (dobj d k) as [[b ps]|]; [|discriminate]. destruct (exists_ (m_ctor_copy b)); [|discriminate]. eapply go_run; eauto.
  - destruct (dobj d k) as [[b ps]|]; [|discriminate]. destruct (exists_ (m_ctor_move b)); [eapply go_run; eauto|].
    destruct (exists_ (m_ctor_copy b)); [|discriminate]. eapply go_run; eauto.
  - destruct (dobj d k) as [[b ps]|]; [|discriminate]. destruct (dobj d j) as [[b' qs]|]; [|discriminate].
    destruct (same_kinds ps qs && exists_ (m_assign_copy b)); [|discriminate]. eapply go_run; eauto.
  - destruct (dobj d k) as [[b ps]|]; [|discriminate]. destruct (dobj d j) as [[b' qs]|]; [|discriminate].
    destruct (same_kinds ps qs); [|discriminate]. destruct (exists_ (m_assign_move b)); [eapply go_run; eauto|].
    destruct (exists_ (m_assign_copy b)); [|discriminate]. eapply go_run; eauto.
  - destruct (dobj d k) as [[b ps]|]; [|discriminate]. apply go_run in H. exact H.
  - destruct (distinct ks); [|discriminate]. eapply go_run; eauto.
  - destruct (dobj d k) as [[b ps]|]; [|discriminate]. destruct (throws_ (m_ctor_copy b)); [|discriminate]. eapply go_run; eauto.
  - destruct (dobj d k) as [[b ps]|]; [|discriminate]. destruct (exists_ (m_ctor_move b)); [destruct (throws_ (m_ctor_move b)); [|discriminate]; eapply go_run; eauto|].
    destruct (throws_ (m_ctor_copy b)); [|discriminate]. eapply go_run; eauto.
  - destruct (dobj d k) as [[b ps]|]; [|discriminate]. destruct (dobj d j) as [[b' qs]|]; [|discriminate].
    destruct (same_kinds ps qs && throws_ (m_assign_copy b)); [|discriminate]. eapply go_run; eauto.
  - destruct (dobj d k) as [[b ps]|]; [|discriminate]. destruct (dobj d j) as [[b' qs]|]; [|discriminate].
    destruct (same_kinds ps qs); [|discriminate]. destruct (exists_ (m_assign_move b)); [destruct (throws_ (m_assign_move b)); [|discriminate]; eapply go_run; eauto|].
    destruct (throws_ (m_assign_copy b)); [|discriminate]. eapply go_run; eauto.
  - destruct (dobj d k) as [[b ps]|]; [|discriminate]. destruct (m_dtor b); [discriminate|]. apply go_run in H. exact H.
Qed.

(** A program with Watched objects is a program with watchers; all theorems about these (C50, C51, C52) hold for it. *)
Theorem C77_is_a_watcher_program d : dreachable d -> wreachable (dw d).
Proof.
  intros (ops & H). assert (G : forall d0, drun d0 ops d -> wreachable (dw d0) -> wreachable (dw d)).
  { clear. intros d0 H. induction H as [|d0 o d1 r ops d2 Hs Hr IH]; auto. intros W. apply IH. apply dstep_run in Hs. destruct Hs as [l Hl]. eapply wreachable_run; eauto. }
  apply (G _ H). exists []. constructor.
Qed.

(** No object has two parts of the same kind. *)
Fixpoint builds_distinct (p : plan) : Prop :=
  match p with
  | Done _ => True
  | Built _ ps => distinct (map kind_of ps) = true
  | Do _ k => forall s r, builds_distinct (k s r)
  end.
Definition parts_distinct (d : dworld) : Prop :=
  (forall k b ps, dobj d k = Some (b, ps) -> distinct (map kind_of ps) = true) /\
  (forall n k, In (n, k) (dw_tasks d) -> forall s r, builds_distinct (k s r)).
Lemma go_distinct p : forall d d' r, builds_distinct p -> parts_distinct d -> go d p = DNext d' r -> parts_distinct d'.
Proof.
  induction p as [r0|b ps|o k IH]; intros d d' r Hp Hd H; cbn [go] in H; cbn [builds_distinct] in Hp.
  - inversion H; subst. auto.
  - inversion H; subst. destruct Hd as [H1 H2]. split; [|exact H2]. intros q b' ps' Hq. unfold dobj in Hq. cbn [dw_objs set_objs] in Hq.
    destruct (Nat.lt_ge_cases q (length (dw_objs d))).
    + rewrite nth_error_app1 in Hq by auto. apply (H1 q b'). exact Hq.
    + rewrite nth_error_app2 in Hq by auto. destruct (q - length (dw_objs d)) as [|z]; cbn in Hq; [|destruct z; discriminate]. inversion Hq; subst. auto.
  - destruct (wstep (dw d) o) as [s r1| | |] eqn:E; try discriminate.
    destruct (length (ww_conts (dw d)) <? length (ww_conts s)).
    + inversion H; subst. destruct Hd as [H1 H2]. split; [exact H1|]. cbn [dw_tasks set_tasks set_dw]. intros n k' [Hk|Hk]; [inversion Hk; subst; auto|eauto].
    + apply (IH s r1 (set_dw d s) d' r); auto.
Qed.
Lemma destroy_distinct todo ne l : forall p, builds_distinct (destroy_plan todo ne l p).
Proof.
  induction todo as [|[i|i] t IH]; intros p; cbn.
  - destruct p as [[x n]|]; cbn; auto.
  - destruct p as [[x n]|]; cbn [builds_distinct]; intros s r; auto. destruct r; cbn [builds_distinct]; auto.
  - intros s r. auto.
Qed.
Lemma app_kind built p t : map kind_of built ++ kind_of p :: t = map kind_of (built ++ [p]) ++ t.
Proof. rewrite map_app, <- app_assoc. reflexivity. Qed.
Lemma new_distinct b todo : forall built, distinct (map kind_of built ++ todo) = true -> builds_distinct (new_plan b todo built).
Proof.
  induction todo as [|[|] t IH]; intros built H; cbn.
  - rewrite app_nil_r in H. exact H.
  - intros s _. apply IH. rewrite <- app_kind. exact H.
  - intros s _. apply IH. rewrite <- app_kind. exact H.
Qed.
Lemma copy_distinct b todo : forall built, distinct (map kind_of built ++ map kind_of todo) = true -> builds_distinct (copy_plan b todo built).
Proof.
  induction todo as [|[i|i] t IH]; intros built H; cbn.
  - rewrite app_nil_r in H. exact H.
  - intros s _. apply IH. rewrite <- app_kind. exact H.
  - intros s _. apply IH. rewrite <- app_kind. exact H.
Qed.
Lemma move_distinct b l todo : forall built, distinct (map kind_of built ++ map kind_of todo) = true -> builds_distinct (move_plan b todo built l).
Proof.
  induction todo as [|[i|i] t IH]; intros built H; cbn.
  - rewrite app_nil_r in H. exact H.
  - intros s _. apply IH. rewrite <- app_kind. exact H.
  - intros s r. assert (G : builds_distinct (move_plan b t (built ++ [PReloc (length (ww_reloc s) - 1)]) l)) by (apply IH; rewrite <- app_kind; exact H).
    destruct r; auto. cbn. intros _ _. apply destroy_distinct.
Qed.
Lemma copy_assign_distinct l todo : builds_distinct (copy_assign_plan todo l).
Proof. induction todo as [|[[i|i] [j|j]] t IH]; cbn; auto. intros s [| | |x]; cbn; auto. Qed.
Lemma move_assign_distinct b l todo : builds_distinct (move_assign_plan b todo l).
Proof. induction todo as [|[[i|i] [j|j]] t IH]; cbn; auto. intros s [| | |x]; cbn; auto. Qed.

Lemma throws_distinct x l p : forall s, builds_distinct (base_throws s p x l).
Proof.
  induction p as [r0|b ps|o k IH]; intros s; cbn [base_throws builds_distinct]; [destruct r0; exact Logic.I| |intros s1 r; apply IH].
  unfold unwinding. cbn [builds_distinct]. intros _ _. apply destroy_distinct.
Qed.

Lemma dstep_distinct d o d' r : parts_distinct d -> dstep d o = DNext d' r -> parts_distinct d'.
Proof.
  intros Hd H. pose proof Hd as [H1 H2]. destruct o; cbn [dstep] in H.
  - destruct (negb (usable o)); [discriminate|]. destruct (wstep (dw d) o) as [s r1| | |] eqn:E; try discriminate.
    destruct (dw_tasks d) as [|[n k] ts] eqn:Et; [inversion H; subst; split; [exact H1|cbn [dw_tasks set_dw]; rewrite Et; auto]|].
    destruct (length (ww_conts s) <=? n).
    + apply go_distinct in H; auto; [apply (H2 n); left; reflexivity|]. split; [exact H1|]. cbn [dw_tasks set_tasks]. intros n' k' Hin. apply (H2 n'). right. exact Hin.
    + inversion H; subst. split; [exact H1|cbn [dw_tasks set_dw]; rewrite Et; auto].
  - destruct (distinct ks) eqn:E; [|discriminate]. eapply go_distinct; [|exact Hd|exact H]. apply new_distinct. exact E.
  - destruct (dobj d k) as [[b ps]|] eqn:E; [|discriminate]. destruct (exists_ (m_ctor_copy b)); [|discriminate]. eapply go_distinct; [|exact Hd|exact H]. apply copy_distinct. eapply H1; eauto.
  - destruct (dobj d k) as [[b ps]|] eqn:E; [|discriminate]. destruct (exists_ (m_ctor_move b)); [eapply go_distinct; [|exact Hd|exact H]; apply move_distinct; eapply H1; eauto|].
    destruct (exists_ (m_ctor_copy b)); [|discriminate]. eapply go_distinct; [|exact Hd|exact H]. apply copy_distinct. eapply H1; eauto.
  - destruct (dobj d k) as [[b ps]|]; [|discriminate]. destruct (dobj d j) as [[b' qs]|]; [|discriminate].
    destruct (same_kinds ps qs && exists_ (m_assign_copy b)); [|discriminate]. eapply go_distinct; [|exact Hd|exact H]. apply copy_assign_distinct.
  - destruct (dobj d k) as [[b ps]|]; [|discriminate]. destruct (dobj d j) as [[b' qs]|]; [|discriminate].
    destruct (same_kinds ps qs); [|discriminate]. destruct (exists_ (m_assign_move b)); [eapply go_distinct; [|exact Hd|exact H]; apply move_assign_distinct|].
    destruct (exists_ (m_assign_copy b)); [|discriminate]. eapply go_distinct; [|exact Hd|exact H]. apply copy_assign_distinct.
  - destruct (dobj d k) as [[b ps]|] eqn:E; [|discriminate]. eapply go_distinct; [|split|exact H]; [apply destroy_distinct| |exact H2].
    intros q b' ps' Hq. unfold dobj in Hq. cbn [dw_objs set_objs] in Hq. destruct (nth_error (upd (dw_objs d) k None) q) as [x|] eqn:Ex; [|discriminate]. subst x.
    apply nth_upd_inv in Ex. destruct Ex as [[_ F]|[_ Ex]]; [discriminate|]. apply (H1 q b'). unfold dobj. rewrite Ex. reflexivity.
  - destruct (distinct ks) eqn:E; [|discriminate]. eapply go_distinct; [|exact Hd|exact H]. apply throws_distinct.
  - destruct (dobj d k) as [[b ps]|] eqn:E; [|discriminate]. destruct (throws_ (m_ctor_copy b)); [|discriminate]. eapply go_distinct; [|exact Hd|exact H]. apply throws_distinct.
  - destruct (dobj d k) as [[b ps]|] eqn:E; [|discriminate]. destruct (exists_ (m_ctor_move b)); [destruct (throws_ (m_ctor_move b)); [|discriminate]; eapply go_distinct; [|exact Hd|exact H]; apply throws_distinct|].
    destruct (throws_ (m_ctor_copy b)); [|discriminate]. eapply go_distinct; [|exact Hd|exact H]. apply throws_distinct.
  - destruct (dobj d k) as [[b ps]|]; [|discriminate]. destruct (dobj d j) as [[b' qs]|]; [|discriminate].
    destruct (same_kinds ps qs && throws_ (m_assign_copy b)); [|discriminate]. eapply go_distinct; [|exact Hd|exact H]. apply throws_distinct.
  - destruct (dobj d k) as [[b ps]|]; [|discriminate]. destruct (dobj d j) as [[b' qs]|]; [|discriminate].
    destruct (same_kinds ps qs); [|discriminate]. destruct (exists_ (m_assign_move b)); [destruct (throws_ (m_assign_move b)); [|discriminate]; eapply go_distinct; [|exact Hd|exact H]; apply throws_distinct|].
    destruct (throws_ (m_assign_copy b)); [|discriminate]. eapply go_distinct; [|exact Hd|exact H]. apply throws_distinct.
  - destruct (dobj d k) as [[b ps]|] eqn:E; [|discriminate]. destruct (m_dtor b); [discriminate|]. eapply go_distinct; [|split|exact H]; [unfold unwinding; cbn [builds_distinct]; intros _ _; apply destroy_distinct| |exact H2].
    intros q b' ps' Hq. unfold dobj in Hq. cbn [dw_objs set_objs] in Hq. destruct (nth_error (upd (dw_objs d) k None) q) as [x0|] eqn:Ex; [|discriminate]. subst x0.
    apply nth_upd_inv in Ex. destruct Ex as [[_ F]|[_ Ex]]; [discriminate|]. apply (H1 q b'). unfold dobj. rewrite Ex. reflexivity.
Qed.

(** A Watched object has at most one watcher of each kind, so one of five shapes. *)
Theorem C77_shapes d k b ps :
  dreachable d -> dobj d k = Some (b, ps) ->
  ps = [] \/ (exists i, ps = [PLife i]) \/ (exists j, ps = [PReloc j]) \/ (exists i j, ps = [PLife i; PReloc j]) \/ (exists i j, ps = [PReloc j; PLife i]).
Proof.
  intros (ops & H) Hk. assert (G : forall d0, drun d0 ops d -> parts_distinct d0 -> parts_distinct d).
  { clear. intros d0 H. induction H as [|d0 o d1 r ops d2 Hs Hr IH]; auto. intros W. apply IH. eapply dstep_distinct; eauto. }
  destruct (G _ H) as [H1 _].
  { split; [intros q b' ps' Hq; destruct q; discriminate|intros n f []]. }
  specialize (H1 _ _ _ Hk). destruct ps as [|p ps]; [auto|]. destruct ps as [|q ps]; [destruct p; eauto|].
  destruct ps as [|o ps]; [|destruct p, q, o; cbn in H1; try discriminate; destruct (existsb (kind_eqb KLife) (map kind_of ps)), (existsb (kind_eqb KReloc) (map kind_of ps)); cbn in H1; discriminate].
  destruct p as [i|i], q as [j|j]; cbn in H1; try discriminate; eauto 10.
Qed.

(** ** Single steps *)

Lemma unwind_step s n : wreachable s -> wstep s (WOp (OUnwind n)) = WNext (after_op s (set_uncaught (ww s) n) (OUnwind n)) RUnit.
Proof. intros H. apply plain_step; auto. discriminate. Qed.
Lemma reloc_gone s j m : wreachable s -> nth_error (ww_reloc s) j = Some (Some m) ->
  exists w1, step (ww s) (ODestroyMock m) = Next w1 RUnit /\ wstep s (RDestroy j) = WNext (after_op (set_reloc s (upd (ww_reloc s) j None)) w1 (ODestroyMock m)) RUnit.
Proof.
  intros Hr Hj. destruct (v_reloc _ (inv_wreachable _ Hr) _ _ Hj) as [_ [cs Hm]]. pose proof (destroy_alive _ _ _ Hm eq_refl) as E.
  eexists. split; [exact E|]. cbn [wstep]. rewrite Hj. unfold perform. cbn [ww set_reloc]. rewrite E. reflexivity.
Qed.
Lemma finish_throw s k x s' r : finish s k (RThrow x) = WNext s' r -> r = RThrow x /\ ww_conts s' = ww_conts s /\ ww_life s' = ww_life s /\ ww_reloc s' = ww_reloc s /\
  w_trace (ww s') = w_trace (ww s) /\ w_uncaught (ww s') = w_uncaught (ww s) /\ w_reporter (ww s') = w_reporter (ww s) /\ w_rid (ww s') = w_rid (ww s).
Proof.
  intros H. destruct k; cbn [finish is_throw leave] in H.
  - unfold perform in H. destruct (step (ww s) (ODestroyMock m)) as [w1 r1| | |] eqn:E; try discriminate.
    pose proof (kept _ _ _ _ (eq_refl : frames_kept (ODestroyMock m) = true) E) as (_ & Kt & _ & _ & _ & Kr & Kp & Ku).
    destruct ne; inversion H; subst; cbn; auto 10.
  - unfold perform in H. destruct (step (ww s) (ODestroyMock m)) as [w1 r1| | |] eqn:E; try discriminate.
    pose proof (kept _ _ _ _ (eq_refl : frames_kept (ODestroyMock m) = true) E) as (_ & Kt & _ & _ & _ & Kr & Kp & Ku).
    inversion H; subst; cbn; auto 10.
  - unfold perform in H. destruct (step (ww s) (ODestroyMock d)) as [w1 r1| | |] eqn:E; try discriminate.
    pose proof (kept _ _ _ _ (eq_refl : frames_kept (ODestroyMock d) = true) E) as (_ & Kt & _ & _ & _ & Kr & Kp & Ku).
    destruct ne; inversion H; subst; cbn; auto 10.
  - destruct ne; inversion H; subst; auto 10.
Qed.

(** The failing call of a watcher. *)
Lemma call_fails s m c l k : wreachable s -> place (ww s) m c -> obeys_contract (w_reporter (ww s)) ->
  (forall e x, ~ candidate (ww s) c (watcher_call l) e x) ->
  exists rep who, failure (ww s) c (watcher_call l) rep who /\
    ((call_then s m l k = WStop /\ react (ww s) rep = Terminates) \/
     (react (ww s) rep = Throws /\
      call_then s m l k = finish (after_op s (only_reports (ww s) [EvReport (w_rid (ww s)) rep who]) (OCall m 0 [] l)) k (RThrow EReporter))).
Proof.
  intros Hr Hp Hc Hn. pose proof (inv_wreachable _ Hr) as I.
  destruct (call_then_outcome s m c l k (v_reachable _ I) Hp Hc) as [(e & x & mr & s' & Hcand & _)|(_ & rep & who & Hf & Hs)]; [exfalso; eapply Hn; eauto|].
  exists rep, who. split; [exact Hf|]. rewrite Hs. destruct Hc as (H1 & H2 & _).
  destruct (react (ww s) rep) eqn:E; auto. exfalso. unfold react in E.
  destruct Hf as [(_ & _ & ms & -> & _)|(_ & _ & ms & -> & _)]; [eapply H2|eapply H1]; eauto.
Qed.

(** What an object consists of. *)
Definition present (s : wworld) (p : part) : Prop :=
  match p with
  | PLife i => exists lw, nth_error (ww_life s) i = Some (Some lw)
  | PReloc j => exists m, nth_error (ww_reloc s) j = Some (Some m)
  end.
Definition gone (s : wworld) (p : part) : Prop :=
  match p with
  | PLife i => nth_error (ww_life s) i = Some None
  | PReloc j => nth_error (ww_reloc s) j = Some None
  end.
(** Nothing takes the call. *)
Definition refused (s : wworld) (c : nat) (l : loc) : Prop := forall e x, ~ candidate (ww s) c (watcher_call l) e x.
(** The reporter throws in all cases of failure. *)
Definition throwing (w : world) : Prop :=
  forall c r u, w_reporter w (RNoMatch c r) u = Throws /\ w_reporter w (RInapplicable c r) u = Throws.

Lemma throwing_failure w c k rep who : throwing w -> failure w c k rep who -> react w rep = Throws.
Proof. intros H [(_ & _ & ms & -> & _)|(_ & _ & ms & -> & _)]; apply (H _ _ (w_uncaught w)). Qed.

Lemma go_objs p : forall d d' r, go d p = DNext d' r -> dw_objs d' = dw_objs d \/ exists x, dw_objs d' = dw_objs d ++ [Some x].
Proof.
  induction p as [r0|b ps|o k IH]; intros d d' r H; cbn [go] in H.
  - inversion H; auto.
  - inversion H; subst. right. eexists. reflexivity.
  - destruct (wstep (dw d) o) as [s r1| | |]; try discriminate. destruct (length (ww_conts (dw d)) <? length (ww_conts s)); [inversion H; auto|].
    apply IH in H. exact H.
Qed.
Lemma dobj_lt d k x : dobj d k = Some x -> k < length (dw_objs d).
Proof. unfold dobj. intros H. destruct (nth_error (dw_objs d) k) eqn:E; [|discriminate]. eapply nth_error_lt; eauto. Qed.
Lemma go_dobj d p d' r k : go d p = DNext d' r -> k < length (dw_objs d) -> dobj d' k = dobj d k.
Proof.
  intros H Hk. apply go_objs in H. unfold dobj. destruct H as [->|[x ->]]; auto. rewrite nth_error_app1 by auto. reflexivity.
Qed.
Lemma dobj_dead d k : k < length (dw_objs d) -> dobj (set_objs d (upd (dw_objs d) k None)) k = None.
Proof. intros H. unfold dobj. cbn [dw_objs set_objs]. rewrite nth_error_upd_eq by auto. reflexivity. Qed.

Lemma rdestroy_next s j s' r : wstep s (RDestroy j) = WNext s' r ->
  ww_life s' = ww_life s /\ ww_conts s' = ww_conts s /\ ww_reloc s' = upd (ww_reloc s) j None /\ r = RUnit.
Proof.
  cbn [wstep]. destruct (nth_error (ww_reloc s) j) as [[m|]|]; try discriminate. unfold perform. destruct (step _ _); try discriminate. intros H. inversion H; subst. auto.
Qed.

(** ** Destruction *)

(** The destruction of a Watched object calls the mock of its lifetime watcher exactly once, whatever else belongs to it. *)
Theorem C77_destruction_reported_once d k b ps i m fl l d' r :
  dreachable d -> dobj d k = Some (b, ps) -> In (PLife i) ps -> carries (dw d) i m fl -> dstep d (DDestroy k l) = DNext d' r ->
  calls m (ww_log (dw d)) = 0 /\ calls m (ww_log (dw d')) = 1 /\ dobj d' k = None /\ forall j fl', ~ carries (dw d') j m fl'.
Proof.
  intros Hr Hk Hin Hc H. pose proof (C77_is_a_watcher_program _ Hr) as W. pose proof (dobj_lt _ _ _ Hk) as Lk. cbn [dstep] in H. rewrite Hk in H.
  assert (Dk : dobj d' k = None). { rewrite (go_dobj _ _ _ _ k H); [apply dobj_dead; auto|]. cbn [dw_objs set_objs]. rewrite length_upd. auto. }
  set (d0 := set_objs d (upd (dw_objs d) k None)) in *.
  assert (G : forall t s1 dd, wreachable s1 -> carries s1 i m fl -> dw dd = s1 -> calls m (ww_log s1) = calls m (ww_log (dw d)) ->
    go dd (destroy_plan (PLife i :: t) (nothrow_dtor b) l None) = DNext d' r ->
    calls m (ww_log (dw d)) = 0 /\ calls m (ww_log (dw d')) = 1 /\ forall j fl', ~ carries (dw d') j m fl').
  { intros t s1 dd W1 C1 E1 L1 G. cbn [destroy_plan go] in G. rewrite E1 in G. destruct (wstep s1 (LDestroy i (nothrow_dtor b) l)) as [s2 r2| | |] eqn:E2; try discriminate.
    assert (R : exists ops, wrun s2 ops (dw d')).
    { destruct (length (ww_conts s1) <? length (ww_conts s2)); [inversion G; subst; exists []; constructor|]. apply go_run in G. exact G. }
    destruct R as [ops R]. destruct (C50_called_once _ _ _ _ _ _ _ _ _ _ W1 C1 E2 R) as (A & _ & B & C). rewrite <- L1. auto. }
  assert (F : calls m (ww_log (dw d)) = 0 /\ calls m (ww_log (dw d')) = 1 /\ forall j fl', ~ carries (dw d') j m fl').
  { destruct (C77_shapes _ _ _ _ Hr Hk) as [->|[[i' ->]|[[j ->]|[(i' & j & ->)|(i' & j & ->)]]]]; cbn [rev app] in H.
    - destruct Hin.
    - destruct Hin as [E|[]]. inversion E; subst i'. apply (G [] (dw d) d0); auto.
    - destruct Hin as [E|[]]. discriminate.
    - destruct Hin as [E|[E|[]]]; inversion E; subst i'. cbn [destroy_plan go] in H. change (dw d0) with (dw d) in H.
      destruct (wstep (dw d) (RDestroy j)) as [s1 r1| | |] eqn:E1; try discriminate. pose proof (rdestroy_next _ _ _ _ E1) as (El & Ec & _ & _).
      rewrite Ec, Nat.ltb_irrefl in H. apply (G [] s1 (set_dw d0 s1)); auto.
      + eapply wreachable_step; eauto.
      + unfold carries. rewrite El. exact Hc.
      + pose proof (inv_wreachable _ W) as I. destruct (v_life _ I _ _ _ Hc) as [Hi _].
        pose proof (adds_step m (dw d) (RDestroy j) (in_or_app _ _ _ (or_introl Hi))) as A. rewrite E1 in A. cbn [adds calling] in A. lia.
    - destruct Hin as [E|[E|[]]]; inversion E; subst i'. apply (G [PReloc j] (dw d) d0); auto. }
  tauto.
Qed.

(** "As the destructor of the LifetimeWatcher will effectively be called from ~Watched, this will lead to a call to std::terminate, if Base has
    a noexcept destructor"; otherwise the exception leaves the destructor and all parts of the object are destroyed. *)
Theorem C77_unexpected_destruction d k b ps i m l :
  dreachable d -> dobj d k = Some (b, ps) -> In (PLife i) ps -> carries (dw d) i m false -> Forall (present (dw d)) ps ->
  obeys_contract (w_reporter (ww (dw d))) -> throwing (ww (dw d)) ->
  (nothrow_dtor b = true -> dstep d (DDestroy k l) = DStop) /\
  (nothrow_dtor b = false -> exists d', dstep d (DDestroy k l) = DNext d' (RThrow EReporter) /\ dobj d' k = None /\ Forall (gone (dw d')) ps /\
     w_uncaught (ww (dw d')) = w_uncaught (ww (dw d)) /\ dw_tasks d' = dw_tasks d).
Proof.
  intros Hr Hk Hin Hc Hp Hct Ht. pose proof (C77_is_a_watcher_program _ Hr) as W. pose proof (dobj_lt _ _ _ Hk) as Lk. cbn [dstep]. rewrite Hk.
  set (d0 := set_objs d (upd (dw_objs d) k None)).
  assert (Dk : dobj d0 k = None) by (apply dobj_dead; auto).
  (* the step of the lifetime watcher *)
  assert (V : forall s1 ne, wreachable s1 -> carries s1 i m false -> w_reporter (ww s1) = w_reporter (ww (dw d)) ->
    (ne = true -> wstep s1 (LDestroy i ne l) = WStop) /\
    (ne = false -> exists s2, wstep s1 (LDestroy i ne l) = WNext s2 (RThrow EReporter) /\ ww_conts s2 = ww_conts s1 /\ ww_life s2 = upd (ww_life s1) i None /\
       ww_reloc s2 = ww_reloc s1 /\ w_uncaught (ww s2) = w_uncaught (ww s1))).
  { intros s1 ne W1 C1 Er. destruct (C50_unexpected s1 i m ne l W1 C1) as (s2 & E & _); [rewrite Er; auto|].
    assert (T : react (ww s1) (RNoMatch (make_call_report (watcher_call l)) []) = Throws) by (unfold react; rewrite Er; apply Ht).
    rewrite T in E. cbn [violated] in E. split; intros ->; [exact E|]. exists s2. split; [exact E|].
    cbn [wstep] in E. unfold carries in C1. rewrite C1 in E. cbn [lw_mock] in E. apply call_then_next in E. destruct E as (w1 & r1 & Hs & [(Et & H)|(_ & F & _)]); [|discriminate].
    destruct r1 as [| | |x]; try discriminate. pose proof (finish_throw _ _ _ _ _ H) as (_ & A1 & A2 & A3 & _ & A4 & _). cbn [ww_conts ww_life ww_reloc after_op set_life ww] in *.
    split; [auto|]. split; [auto|]. split; [auto|]. rewrite A4.
    destruct (call_effect _ _ _ _ _ _ _ (v_reachable _ (inv_wreachable _ W1)) Hs) as [(sg & coll & kk & xx & mr & unh & F & _)|(_ & evs & _ & ->)]; [discriminate|]. reflexivity. }
  destruct (C77_shapes _ _ _ _ Hr Hk) as [->|[[i' ->]|[[j ->]|[(i' & j & ->)|(i' & j & ->)]]]]; cbn [rev app destroy_plan].
  - destruct Hin.
  - destruct Hin as [E|[]]. inversion E; subst i'. destruct (V (dw d) (nothrow_dtor b) W Hc eq_refl) as [V1 V2]. cbn [go]. change (dw d0) with (dw d). split; intros Hn.
    + rewrite (V1 Hn). reflexivity.
    + destruct (V2 Hn) as (s2 & E2 & A1 & A2 & A3 & A4). rewrite E2, A1, Nat.ltb_irrefl. cbn [go set_dw dw].
      pose proof (wreachable_step _ _ _ _ W E2) as W2. rewrite (unwind_step _ _ W2). cbn [ww_conts after_op]. rewrite Nat.ltb_irrefl. cbn [destroy_plan go set_dw dw].
      rewrite unwind_step; [|eapply wreachable_step; [exact W2|apply unwind_step; exact W2]]. cbn [ww_conts after_op]. rewrite Nat.ltb_irrefl. cbn [go].
      eexists. split; [reflexivity|]. split; [exact Dk|]. split; [|split; [cbn; exact A4|reflexivity]]. constructor; [|constructor]. cbn [gone dw set_dw ww_life after_op]. rewrite A2. apply nth_error_upd_eq.
      eapply nth_error_lt; eauto.
  - destruct Hin as [E|[]]. discriminate.
  - destruct Hin as [E|[E|[]]]; inversion E; subst i'. cbn [go]. change (dw d0) with (dw d).
    inversion Hp as [|? ? _ Hp']; subst. inversion Hp' as [|? ? Hpj _]; subst. destruct Hpj as [mj Hj]. destruct (reloc_gone _ _ _ W Hj) as (w1 & Ew & E1). rewrite E1.
    pose proof (wreachable_step _ _ _ _ W E1) as W1. set (s1 := after_op _ w1 _) in *. change (ww_conts s1) with (ww_conts (dw d)). rewrite Nat.ltb_irrefl. cbn [go dw set_dw].
    pose proof (kept _ _ _ _ (eq_refl : frames_kept (ODestroyMock mj) = true) Ew) as (_ & _ & _ & _ & _ & _ & Kp & Ku).
    destruct (V s1 (nothrow_dtor b) W1 Hc Kp) as [V1 V2]. split; intros Hn.
    + rewrite (V1 Hn). reflexivity.
    + destruct (V2 Hn) as (s2 & E2 & A1 & A2 & A3 & A4). rewrite E2, A1, Nat.ltb_irrefl. cbn [go set_dw dw].
      pose proof (wreachable_step _ _ _ _ W1 E2) as W2. rewrite (unwind_step _ _ W2). cbn [ww_conts after_op]. rewrite Nat.ltb_irrefl. cbn [destroy_plan go set_dw dw].
      rewrite unwind_step; [|eapply wreachable_step; [exact W2|apply unwind_step; exact W2]]. cbn [ww_conts after_op]. rewrite Nat.ltb_irrefl. cbn [go].
      eexists. split; [reflexivity|]. split; [exact Dk|]. split; [|split; [cbn; rewrite A4; exact Ku|reflexivity]].
      constructor; [|constructor; [|constructor]]; cbn [gone dw set_dw ww_life ww_reloc after_op].
      * rewrite A2. apply nth_error_upd_eq. eapply nth_error_lt; eauto.
      * rewrite A3. unfold s1. cbn [ww_reloc after_op set_reloc]. apply nth_error_upd_eq. eapply nth_error_lt; eauto.
  - destruct Hin as [E|[E|[]]]; inversion E; subst i'. destruct (V (dw d) (nothrow_dtor b) W Hc eq_refl) as [V1 V2]. cbn [go]. change (dw d0) with (dw d). split; intros Hn.
    + rewrite (V1 Hn). reflexivity.
    + destruct (V2 Hn) as (s2 & E2 & A1 & A2 & A3 & A4). rewrite E2, A1, Nat.ltb_irrefl. cbn [go set_dw dw].
      pose proof (wreachable_step _ _ _ _ W E2) as W2. pose proof (unwind_step _ (S (w_uncaught (ww s2))) W2) as E3. rewrite E3. set (s3 := after_op s2 _ _) in *. change (ww_conts s3) with (ww_conts s2).
      rewrite Nat.ltb_irrefl. cbn [destroy_plan go set_dw dw]. pose proof (wreachable_step _ _ _ _ W2 E3) as W3.
      inversion Hp as [|? ? Hpj _]; subst. destruct Hpj as [mj Hj]. assert (Hj3 : nth_error (ww_reloc s3) j = Some (Some mj)) by (unfold s3; cbn [ww_reloc after_op]; rewrite A3; exact Hj).
      destruct (reloc_gone _ _ _ W3 Hj3) as (w4 & Ew & E4). rewrite E4. pose proof (wreachable_step _ _ _ _ W3 E4) as W4. set (s4 := after_op _ w4 _) in *.
      change (ww_conts s4) with (ww_conts s3). rewrite Nat.ltb_irrefl. cbn [go dw set_dw]. rewrite (unwind_step _ _ W4). cbn [ww_conts after_op]. rewrite Nat.ltb_irrefl. cbn [go].
      eexists. split; [reflexivity|]. split; [exact Dk|]. split; [|split; [cbn; exact A4|reflexivity]].
      constructor; [|constructor; [|constructor]]; cbn [gone dw set_dw ww_life ww_reloc after_op].
      * unfold s4. cbn [ww_reloc after_op set_reloc]. apply nth_error_upd_eq. eapply nth_error_lt; eauto.
      * unfold s4. cbn [ww_life after_op set_reloc]. unfold s3. cbn [ww_life after_op]. rewrite A2. apply nth_error_upd_eq. eapply nth_error_lt; eauto.
Qed.

(** ** Moves *)

Lemma call_keeps w m l w1 x : reachable w -> step w (OCall m 0 [] l) = Next w1 (RThrow x) ->
  w_uncaught w1 = w_uncaught w /\ w_reporter w1 = w_reporter w /\ w_exps w1 = w_exps w.
Proof.
  intros Hr Hs. destruct (call_effect _ _ _ _ _ _ _ Hr Hs) as [(sg & coll & kk & xx & mr & unh & F & _)|(_ & evs & _ & ->)]; [discriminate|]. auto.
Qed.
Lemma call_then_throw s m l k s' x : wreachable s -> call_then s m l k = WNext s' (RThrow x) ->
  ww_conts s' = ww_conts s /\ ww_life s' = ww_life s /\ ww_reloc s' = ww_reloc s /\ w_uncaught (ww s') = w_uncaught (ww s) /\ w_reporter (ww s') = w_reporter (ww s).
Proof.
  intros Hr H. apply call_then_next in H. destruct H as (w1 & r1 & Hs & [(Et & H)|(_ & F & _)]); [|discriminate].
  destruct r1 as [| | |y]; try discriminate. pose proof (finish_throw _ _ _ _ _ H) as (_ & A1 & A2 & A3 & _ & A4 & A5 & _). cbn [ww_conts ww_life ww_reloc after_op ww] in *.
  destruct (call_keeps _ _ _ _ _ (v_reachable _ (inv_wreachable _ Hr)) Hs) as (K1 & K2 & _). repeat split; try congruence.
Qed.

(** A relocation that is not expected. *)
Lemma reloc_fails s j c ne l : wreachable s -> watches s j c -> refused s c l -> obeys_contract (w_reporter (ww s)) ->
  (ne = true -> wstep s (RMove j ne l) = WStop) /\
  (ne = false -> throwing (ww s) -> exists s', wstep s (RMove j ne l) = WNext s' (RThrow EReporter) /\ ww_conts s' = ww_conts s /\ ww_life s' = ww_life s /\
     ww_reloc s' = ww_reloc s /\ w_uncaught (ww s') = w_uncaught (ww s) /\ w_reporter (ww s') = w_reporter (ww s) /\ (forall q e, watches s q e -> watches s' q e)).
Proof.
  intros Hr Hw Hn Hc. destruct (C52_relocation s j c (RMove j ne l) ne l Hr Hw (or_introl eq_refl) Hc) as [(e & x & mr & s' & k & Hcand & _)|(_ & rep & who & s' & Hf & E & _ & Er & Hws)];
    [exfalso; eapply Hn; exact Hcand|]. split.
  - intros ->. rewrite E. destruct (react (ww s) rep) eqn:R; auto. exfalso. unfold react in R. destruct Hc as (H1 & H2 & _).
    destruct Hf as [(_ & _ & ms & -> & _)|(_ & _ & ms & -> & _)]; [eapply H2|eapply H1]; eauto.
  - intros -> Ht. rewrite (throwing_failure _ _ _ _ _ Ht Hf) in E. cbn [violated] in E. exists s'. split; [exact E|].
    cbn [wstep] in E. destruct Hw as (m & Hj & Hm). rewrite Hj in E. apply perform_inv in E. destruct E as (w1 & r1 & Hs & E).
    pose proof (kept _ _ _ _ (eq_refl : frames_kept (ONewMock [sig_watch]) = true) Hs) as (_ & _ & _ & _ & _ & _ & Kp & Ku).
    assert (Hd : exists ops, wrun s ops s) by (exists []; constructor).
    apply call_then_next in E. destruct E as (w2 & r2 & Hs2 & [(Et & E)|(_ & F & _)]); [|discriminate].
    destruct r2 as [| | |y]; try discriminate. pose proof (finish_throw _ _ _ _ _ E) as (_ & A1 & A2 & A3 & _ & A4 & A5 & _). cbn [ww_conts ww_life ww_reloc own_reloc after_op ww] in *.
    assert (R1 : reachable w1) by (eapply reachable_step; [exact (v_reachable _ (inv_wreachable _ Hr))|exact Hs]).
    destruct (call_keeps _ _ _ _ _ R1 Hs2) as (K1 & K2 & _). repeat split; try congruence. exact Hws.
Qed.
Lemma assign_fails s i j mi c ne l : wreachable s -> nth_error (ww_reloc s) i = Some (Some mi) -> watches s j c -> refused s c l -> obeys_contract (w_reporter (ww s)) ->
  (ne = true -> wstep s (RMoveAssign i j ne l) = WStop) /\
  (ne = false -> throwing (ww s) -> exists s', wstep s (RMoveAssign i j ne l) = WNext s' (RThrow EReporter) /\ ww_conts s' = ww_conts s /\ ww_life s' = ww_life s /\
     ww_reloc s' = ww_reloc s /\ (forall q e, watches s q e -> watches s' q e)).
Proof.
  intros Hr Hi Hw Hn Hc.
  destruct (C52_relocation s j c (RMoveAssign i j ne l) ne l Hr Hw (or_intror (ex_intro _ i (ex_intro _ mi (conj Hi eq_refl)))) Hc)
    as [(e & x & mr & s' & k & Hcand & _)|(_ & rep & who & s' & Hf & E & _ & Er & Hws)]; [exfalso; eapply Hn; exact Hcand|]. split.
  - intros ->. rewrite E. destruct (react (ww s) rep) eqn:R; auto. exfalso. unfold react in R. destruct Hc as (H1 & H2 & _).
    destruct Hf as [(_ & _ & ms & -> & _)|(_ & _ & ms & -> & _)]; [eapply H2|eapply H1]; eauto.
  - intros -> Ht. rewrite (throwing_failure _ _ _ _ _ Ht Hf) in E. cbn [violated] in E. exists s'. split; [exact E|].
    cbn [wstep] in E. destruct Hw as (m & Hj & Hm). rewrite Hi, Hj in E. apply call_then_throw in E; auto. destruct E as (A1 & A2 & A3 & _). auto.
Qed.

(** The state after the move of the lifetime watcher. *)
Lemma lmove_step s i m fl : carries s i m fl -> exists s', wstep s (LMove i) = WNext s' RUnit /\ ww s' = ww s /\ ww_life s' = upd (ww_life s) i (Some (mkLW fl None)) ++ [Some (mkLW fl (Some m))] /\
  ww_reloc s' = ww_reloc s /\ ww_conts s' = ww_conts s.
Proof. intros H. cbn [wstep]. unfold carries in H. rewrite H. eexists. split; [reflexivity|]. auto. Qed.
Lemma moved_carries (l : list (option lwatcher)) i fl x : length (upd l i (Some (mkLW fl None)) ++ [x]) - 1 = length l.
Proof. rewrite app_length, length_upd. cbn. lia. Qed.

(** "if reporter throws due to a detected violation and the move-operation is declared noexcept, this will inevitable lead to a
    std::terminate": the order of the watchers does not matter. *)
Theorem C77_noexcept_move_terminates d k b ps j c l :
  dreachable d -> dobj d k = Some (b, ps) -> In (PReloc j) ps -> (forall i, In (PLife i) ps -> exists m fl, carries (dw d) i m fl) ->
  watches (dw d) j c -> refused (dw d) c l -> obeys_contract (w_reporter (ww (dw d))) -> nothrow_move b = true ->
  dstep d (DMove k l) = DStop.
Proof.
  intros Hr Hk Hin Hl Hw Hn Hc Hne. pose proof (C77_is_a_watcher_program _ Hr) as W. cbn [dstep]. rewrite Hk.
  assert (exists_ (m_ctor_move b) = true) as -> by (unfold nothrow_move in Hne; destruct (m_ctor_move b); auto).
  assert (G : forall t built dd, wreachable (dw dd) -> watches (dw dd) j c -> refused (dw dd) c l -> w_reporter (ww (dw dd)) = w_reporter (ww (dw d)) ->
    go dd (move_plan b (PReloc j :: t) built l) = DStop).
  { intros t built dd W1 H1 H2 H3. cbn [move_plan go]. rewrite Hne.
    destruct (reloc_fails (dw dd) j c true l W1 H1 H2) as [F _]; [rewrite H3; auto|]. rewrite F; auto. }
  destruct (C77_shapes _ _ _ _ Hr Hk) as [->|[[i' ->]|[[j' ->]|[(i' & j' & ->)|(i' & j' & ->)]]]]; cbn [In] in Hin.
  - destruct Hin.
  - destruct Hin as [E|[]]. discriminate.
  - destruct Hin as [E|[]]. inversion E; subst j'. apply G; auto.
  - destruct Hin as [E|[E|[]]]; inversion E; subst j'. destruct (Hl i') as (m & fl & Hi); [left; auto|].
    destruct (lmove_step _ _ _ _ Hi) as (s1 & E1 & A1 & A2 & A3 & A4). cbn [move_plan]. cbn [go]. rewrite E1, A4, Nat.ltb_irrefl.
    change (go (set_dw d s1) (move_plan b (PReloc j :: []) [PLife (length (ww_life s1) - 1)] l) = DStop). apply G; cbn [dw set_dw].
    + eapply wreachable_step; eauto.
    + destruct Hw as (mj & B1 & B2). exists mj. rewrite A1, A3. auto.
    + unfold refused in *. rewrite A1. exact Hn.
    + rewrite A1. reflexivity.
  - destruct Hin as [E|[E|[]]]; inversion E; subst j'. apply G; auto.
Qed.

(** If the relocation watcher comes first, a failing move changes nothing. *)
Theorem C77_failed_move_changes_nothing d k b j t c l :
  dreachable d -> dobj d k = Some (b, PReloc j :: t) -> watches (dw d) j c -> refused (dw d) c l ->
  obeys_contract (w_reporter (ww (dw d))) -> throwing (ww (dw d)) -> m_ctor_move b <> None -> nothrow_move b = false ->
  exists d', dstep d (DMove k l) = DNext d' (RThrow EReporter) /\ dw_objs d' = dw_objs d /\ ww_life (dw d') = ww_life (dw d) /\ ww_reloc (dw d') = ww_reloc (dw d) /\
    (forall q e, watches (dw d) q e -> watches (dw d') q e) /\ w_uncaught (ww (dw d')) = w_uncaught (ww (dw d)) /\ dw_tasks d' = dw_tasks d.
Proof.
  intros Hr Hk Hw Hn Hc Ht Hm Hne. pose proof (C77_is_a_watcher_program _ Hr) as W. cbn [dstep]. rewrite Hk.
  assert (exists_ (m_ctor_move b) = true) as -> by (destruct (m_ctor_move b); [auto|congruence]). cbn [move_plan go]. rewrite Hne.
  destruct (reloc_fails (dw d) j c false l W Hw Hn Hc) as [_ F]. destruct (F eq_refl Ht) as (s1 & E1 & A1 & A2 & A3 & A4 & A5 & A6).
  rewrite E1, A1, Nat.ltb_irrefl. cbn [go dw set_dw]. pose proof (wreachable_step _ _ _ _ W E1) as W1. pose proof (unwind_step _ (S (w_uncaught (ww s1))) W1) as E2. rewrite E2.
  cbn [ww_conts after_op]. rewrite Nat.ltb_irrefl. cbn [rev destroy_plan go dw set_dw]. rewrite unwind_step by (eapply wreachable_step; eauto). cbn [ww_conts after_op]. rewrite Nat.ltb_irrefl. cbn [go].
  eexists. split; [reflexivity|]. cbn [dw_objs dw_tasks dw set_dw ww_life ww_reloc after_op ww]. split; [auto|]. split; [auto|]. split; [auto|]. split; [|split; [exact A4|auto]].
  intros q e Hq. apply A6 in Hq. destruct Hq as (mq & B1 & B2). exists mq. cbn [ww_reloc ww after_op]. split; [exact B1|exact B2].
Qed.

(** If the lifetime watcher comes first, then it has already been moved, and the unfinished object is destroyed. An object without
    destruction expectation ends the program. *)
Theorem C77_failed_move_terminates d k b i j m c l :
  dreachable d -> dobj d k = Some (b, [PLife i; PReloc j]) -> carries (dw d) i m false -> watches (dw d) j c -> refused (dw d) c l ->
  obeys_contract (w_reporter (ww (dw d))) -> throwing (ww (dw d)) -> m_ctor_move b <> None ->
  dstep d (DMove k l) = DStop.
Proof.
  intros Hr Hk Hi Hw Hn Hc Ht Hm. destruct (nothrow_move b) eqn:Hne.
  { eapply C77_noexcept_move_terminates; eauto; [right; left; auto|]. intros i' [E|[E|[]]]; inversion E; subst. eauto. }
  pose proof (C77_is_a_watcher_program _ Hr) as W. cbn [dstep]. rewrite Hk.
  assert (exists_ (m_ctor_move b) = true) as -> by (destruct (m_ctor_move b); [auto|congruence]). cbn [move_plan go]. rewrite Hne.
  destruct (lmove_step _ _ _ _ Hi) as (s1 & E1 & A1 & A2 & A3 & A4). rewrite E1, A4, Nat.ltb_irrefl. cbn [dw set_dw].
  pose proof (wreachable_step _ _ _ _ W E1) as W1.
  destruct (reloc_fails s1 j c false l) as [_ F]; auto.
  { destruct Hw as (mj & B1 & B2). exists mj. rewrite A1, A3. auto. } { unfold refused in *. rewrite A1. exact Hn. } { rewrite A1. auto. }
  destruct (F eq_refl) as (s2 & E2 & C1 & C2 & C3 & C4 & C5 & C6); [unfold throwing in *; rewrite A1; exact Ht|].
  rewrite E2, C1, A4, Nat.ltb_irrefl. cbn [go dw set_dw]. pose proof (wreachable_step _ _ _ _ W1 E2) as W2. pose proof (unwind_step _ (S (w_uncaught (ww s2))) W2) as E3. rewrite E3.
  set (s3 := after_op s2 _ _) in *. change (ww_conts s3) with (ww_conts s2). rewrite Nat.ltb_irrefl. cbn [app rev destroy_plan go dw set_dw]. pose proof (wreachable_step _ _ _ _ W2 E3) as W3.
  rewrite A2, moved_carries. assert (Hc3 : carries s3 (length (ww_life (dw d))) m false).
  { unfold carries, s3. cbn [ww_life after_op]. rewrite C2, A2. rewrite <- (length_upd (ww_life (dw d)) i (Some (mkLW false None))) at 1. apply nth_error_app_last. }
  destruct (C50_unexpected s3 _ m true l W3 Hc3) as (s4 & E4 & _).
  { unfold s3. cbn [ww after_op set_uncaught w_reporter]. rewrite C5, A1. exact Hc. }
  rewrite E4. assert (react (ww s3) (RNoMatch (make_call_report (watcher_call l)) []) = Throws) as ->; [|reflexivity].
  unfold react, s3. cbn [ww after_op set_uncaught w_reporter]. rewrite C5, A1. apply Ht.
Qed.

(** With a destruction expectation, that expectation takes the destruction of the unfinished object: the object, which still exists, is not
    watched any more. *)
Theorem C77_failed_move_uses_up_destruction d k b i j m fl c l d' r :
  dreachable d -> dobj d k = Some (b, [PLife i; PReloc j]) -> carries (dw d) i m fl -> watches (dw d) j c -> refused (dw d) c l ->
  obeys_contract (w_reporter (ww (dw d))) -> throwing (ww (dw d)) -> m_ctor_move b <> None ->
  dstep d (DMove k l) = DNext d' r ->
  calls m (ww_log (dw d')) = 1 /\ dobj d' k = Some (b, [PLife i; PReloc j]) /\ moved_from (dw d') i /\ forall q fl', ~ carries (dw d') q m fl'.
Proof.
  intros Hr Hk Hi Hw Hn Hc Ht Hm H. destruct (nothrow_move b) eqn:Hne.
  { rewrite (C77_noexcept_move_terminates d k b [PLife i; PReloc j] j c l) in H; auto; [discriminate|right; left; auto|].
    intros i' [E|[E|[]]]; inversion E; subst. eauto. }
  pose proof (C77_is_a_watcher_program _ Hr) as W. cbn [dstep] in H. rewrite Hk in H.
  assert (exists_ (m_ctor_move b) = true) as Ee by (destruct (m_ctor_move b); [auto|congruence]). rewrite Ee in H.
  assert (Dk : dobj d' k = Some (b, [PLife i; PReloc j])). { rewrite (go_dobj _ _ _ _ k H); auto. eapply dobj_lt; eauto. }
  cbn [move_plan go] in H. rewrite Hne in H.
  destruct (lmove_step _ _ _ _ Hi) as (s1 & E1 & A1 & A2 & A3 & A4). rewrite E1, A4, Nat.ltb_irrefl in H. cbn [dw set_dw] in H.
  pose proof (wreachable_step _ _ _ _ W E1) as W1.
  destruct (reloc_fails s1 j c false l) as [_ F]; auto.
  { destruct Hw as (mj & B1 & B2). exists mj. rewrite A1, A3. auto. } { unfold refused in *. rewrite A1. exact Hn. } { rewrite A1. auto. }
  destruct (F eq_refl) as (s2 & E2 & C1 & C2 & C3 & C4 & C5 & C6); [unfold throwing in *; rewrite A1; exact Ht|].
  rewrite E2, C1, A4, Nat.ltb_irrefl in H. cbn [go dw set_dw] in H. pose proof (wreachable_step _ _ _ _ W1 E2) as W2. pose proof (unwind_step _ (S (w_uncaught (ww s2))) W2) as E3. rewrite E3 in H.
  set (s3 := after_op s2 (set_uncaught (ww s2) (S (w_uncaught (ww s2)))) (OUnwind (S (w_uncaught (ww s2))))) in *. change (ww_conts s3) with (ww_conts s2) in H. rewrite Nat.ltb_irrefl in H. cbn [app rev destroy_plan go dw set_dw] in H. pose proof (wreachable_step _ _ _ _ W2 E3) as W3.
  change (ww_conts s3) with (ww_conts s2) in H. rewrite A2, moved_carries in H. assert (Hc3 : carries s3 (length (ww_life (dw d))) m fl).
  { unfold carries, s3. cbn [ww_life after_op]. rewrite C2, A2. rewrite <- (length_upd (ww_life (dw d)) i (Some (mkLW fl None))) at 1. apply nth_error_app_last. }
  assert (Li : i < length (ww_life (dw d))) by (eapply nth_error_lt; exact Hi).
  destruct (wstep s3 (LDestroy (length (ww_life (dw d))) true l)) as [s4 r4| | |] eqn:E4; try discriminate.
  assert (E4' := E4). cbn [wstep] in E4'. unfold carries in Hc3. rewrite Hc3 in E4'. cbn [lw_mock] in E4'. pose proof (call_then_life _ _ _ _ _ _ E4') as [El _]. cbn [ww_life set_life] in El.
  assert (P : length (ww_conts s2) <? length (ww_conts s4) = true).
  { apply call_then_next in E4'. destruct E4' as (w1 & r1 & Hs & [(Et & E5)|(_ & _ & ->)]).
    - destruct r1 as [| | |y]; try discriminate. apply finish_throw in E5 as E6. destruct E6 as [-> _]. cbn [finish] in E5. unfold perform in E5. destruct (step _ (ODestroyMock m)); cbn [leave] in E5; discriminate E5.
    - cbn [ww_conts set_conts after_op set_life]. apply Nat.ltb_lt. cbn. lia. }
  rewrite P in H. inversion H; subst d' r. cbn [dw set_dw set_tasks].
  destruct (C50_called_once s3 _ m fl true l s4 r4 [] s4 W3 Hc3 E4 (wrun_nil _)) as (_ & B1 & _ & B2).
  split; [exact B1|]. split; [exact Dk|]. split; [|exact B2]. exists fl. rewrite El, nth_error_upd_neq by lia. unfold s3. cbn [ww_life after_op]. rewrite C2, A2.
  rewrite nth_error_app1 by (rewrite length_upd; exact Li). apply nth_error_upd_eq. exact Li.
Qed.

(** Without relocation watcher a move is silent; the identity goes to the new object. *)
Theorem C77_move_lifetime_only d k b i m fl l :
  dobj d k = Some (b, [PLife i]) -> carries (dw d) i m fl -> m_ctor_move b <> None ->
  exists d' n, dstep d (DMove k l) = DNext d' RUnit /\ dobj d' (length (dw_objs d)) = Some (b, [PLife n]) /\ carries (dw d') n m fl /\
    moved_from (dw d') i /\ ww (dw d') = ww (dw d) /\ (forall q, q < length (dw_objs d) -> dobj d' q = dobj d q).
Proof.
  intros Hk Hi Hm. cbn [dstep]. rewrite Hk. assert (exists_ (m_ctor_move b) = true) as -> by (destruct (m_ctor_move b); [auto|congruence]). cbn [move_plan go].
  destruct (lmove_step _ _ _ _ Hi) as (s1 & E1 & A1 & A2 & A3 & A4). rewrite E1, A4, Nat.ltb_irrefl. cbn [dw set_dw app]. rewrite A2, moved_carries.
  assert (Li : i < length (ww_life (dw d))) by (eapply nth_error_lt; exact Hi).
  eexists. exists (length (ww_life (dw d))). split; [reflexivity|]. cbn [dw set_dw set_objs dw_objs]. split; [unfold dobj; cbn [dw_objs set_objs]; rewrite nth_error_app_last; reflexivity|].
  split; [unfold carries; rewrite A2; rewrite <- (length_upd (ww_life (dw d)) i (Some (mkLW fl None))) at 1; apply nth_error_app_last|].
  split; [exists fl; rewrite A2, nth_error_app1 by (rewrite length_upd; exact Li); apply nth_error_upd_eq; exact Li|]. split; [exact A1|].
  intros q Hq. unfold dobj. cbn [dw_objs set_objs]. rewrite nth_error_app1 by exact Hq. reflexivity.
Qed.

(** A move with an expected relocation waits for the side effects and the finalizer of the expectation. [move_waits d d1 ...]: what the move
    has done so far. *)
Theorem C77_move_waits d k b ps j c l d1 r :
  dreachable d -> dobj d k = Some (b, ps) -> In (PReloc j) ps -> (forall i, In (PLife i) ps -> exists m fl, carries (dw d) i m fl) ->
  watches (dw d) j c -> ~ refused (dw d) c l -> obeys_contract (w_reporter (ww (dw d))) -> m_ctor_move b <> None ->
  dstep d (DMove k l) = DNext d1 r ->
  exists e f t, r = RUnit /\ accepted (w_trace (ww (dw d1))) e = S (accepted (w_trace (ww (dw d))) e) /\
    ww_conts (dw d1) = (depth (dw d), KMoved j f (nothrow_move b)) :: ww_conts (dw d) /\ dw_tasks d1 = (length (ww_conts (dw d)), t) :: dw_tasks d /\
    dw_objs d1 = dw_objs d /\ depth (dw d1) = S (depth (dw d)).
Proof.
  intros Hr Hk Hin Hl Hw Hn Hc Hm H. pose proof (C77_is_a_watcher_program _ Hr) as W. cbn [dstep] in H. rewrite Hk in H.
  assert (exists_ (m_ctor_move b) = true) as Ee by (destruct (m_ctor_move b); [auto|congruence]). rewrite Ee in H.
  assert (G : forall t built dd, wreachable (dw dd) -> watches (dw dd) j c -> ww (dw dd) = ww (dw d) -> ww_conts (dw dd) = ww_conts (dw d) -> dw_tasks dd = dw_tasks d -> dw_objs dd = dw_objs d ->
    go dd (move_plan b (PReloc j :: t) built l) = DNext d1 r ->
    exists e f t, r = RUnit /\ accepted (w_trace (ww (dw d1))) e = S (accepted (w_trace (ww (dw d))) e) /\
    ww_conts (dw d1) = (depth (dw d), KMoved j f (nothrow_move b)) :: ww_conts (dw d) /\ dw_tasks d1 = (length (ww_conts (dw d)), t) :: dw_tasks d /\
    dw_objs d1 = dw_objs d /\ depth (dw d1) = S (depth (dw d))).
  { intros t built dd W1 H1 H2 H3 H4 H5 G. cbn [move_plan go] in G.
    destruct (C52_relocation (dw dd) j c (RMove j (nothrow_move b) l) (nothrow_move b) l W1 H1 (or_introl eq_refl)) as
      [(e & x & mr & s' & kk & Hcand & _ & E & _ & Acc & _ & _ & Cs & Dp & Kk)|(F & _)]; [rewrite H2; auto| |exfalso; apply Hn; unfold refused; rewrite <- H2; exact F].
    rewrite E, Cs in G. cbn [length] in G. assert (length (ww_conts (dw dd)) <? S (length (ww_conts (dw dd))) = true) as L by (apply Nat.ltb_lt; lia). rewrite L in G.
    inversion G; subst d1 r. cbn [dw set_dw set_tasks dw_tasks dw_objs]. destruct Kk as [[_ ->]|(q & F & _)]; [|discriminate].
    exists e. eexists. eexists. split; [reflexivity|]. split; [rewrite Acc, H2; reflexivity|]. split; [rewrite Cs, H3; unfold depth; rewrite H2; reflexivity|].
    split; [rewrite H3, H4; reflexivity|]. split; [exact H5|]. rewrite Dp. unfold depth. rewrite H2. reflexivity. }
  destruct (C77_shapes _ _ _ _ Hr Hk) as [->|[[i' ->]|[[j' ->]|[(i' & j' & ->)|(i' & j' & ->)]]]]; cbn [In] in Hin.
  - destruct Hin.
  - destruct Hin as [E|[]]. discriminate.
  - destruct Hin as [E|[]]. inversion E; subst j'. eapply G; eauto.
  - destruct Hin as [E|[E|[]]]; inversion E; subst j'. destruct (Hl i') as (m & fl & Hi); [left; auto|].
    destruct (lmove_step _ _ _ _ Hi) as (s1 & E1 & A1 & A2 & A3 & A4). cbn [move_plan] in H. cbn [go] in H. rewrite E1, A4, Nat.ltb_irrefl in H.
    change (go (set_dw d s1) (move_plan b (PReloc j :: []) [PLife (length (ww_life s1) - 1)] l) = DNext d1 r) in H.
    eapply G in H; eauto; cbn [dw set_dw].
    + eapply wreachable_step; eauto.
    + destruct Hw as (mj & B1 & B2). exists mj. rewrite A1, A3. auto.
  - destruct Hin as [E|[E|[]]]; inversion E; subst j'. eapply G; eauto.
Qed.

Lemma return_moved s n i d ne ks u w1 v s' : ww_conts s = (n, KMoved i d ne) :: ks -> depth s = S n -> step (ww s) (OReturn u) = Next w1 (RVal v) ->
  wstep s (WOp (OReturn u)) = WNext s' RUnit -> ww_reloc s' = ww_reloc s ++ [Some d] /\ ww_life s' = ww_life s.
Proof.
  intros Hk Hd Hs H. destruct (return_step _ _ _ _ Hs) as (Hf & _). unfold depth in Hd. cbn [wstep] in H. change (existsb (is_private s) (named (OReturn u))) with false in H. cbv iota in H.
  unfold perform at 1 in H. rewrite Hs in H. unfold resume in H. cbn [ww_conts ww] in H. rewrite Hk in H. replace (length (w_frames w1)) with n in H by lia. rewrite Nat.leb_refl in H.
  cbn [finish is_throw ww_reloc set_conts] in H. destruct (nth_error (ww_reloc s) i) as [[m|]|]; try discriminate. unfold perform in H. destruct (step _ (OMoveAssignMock d m)); try discriminate. inversion H; subst. auto.
Qed.

Lemma move_completes d k b ps i j m fl c l d1 r d2 c' u w1 v :
  dreachable d -> dobj d k = Some (b, ps) -> In (PLife i) ps -> In (PReloc j) ps -> carries (dw d) i m fl ->
  watches (dw d) j c -> ~ refused (dw d) c l -> obeys_contract (w_reporter (ww (dw d))) -> m_ctor_move b <> None ->
  dstep d (DMove k l) = DNext d1 r ->
  wreachable (dw d2) -> dw_tasks d2 = dw_tasks d1 -> ww_conts (dw d2) = ww_conts (dw d1) -> depth (dw d2) = depth (dw d1) -> watches (dw d2) j c' ->
  carries (dw d2) (match ps with PLife _ :: _ => length (ww_life (dw d)) | _ => i end) m fl ->
  step (ww (dw d2)) (OReturn u) = Next w1 (RVal v) ->
  exists d3 ps' n n', dstep d2 (DUse (WOp (OReturn u))) = DNext d3 RUnit /\ dobj d3 (length (dw_objs d2)) = Some (b, ps') /\ map kind_of ps' = map kind_of ps /\
    In (PLife n) ps' /\ In (PReloc n') ps' /\ carries (dw d3) n m fl /\ watches (dw d3) n' c' /\ emptied (dw d3) j /\ dw_tasks d3 = dw_tasks d.
Proof.
  intros Hr Hk Hini Hinj Hi Hw Hn Hc Hm H V2 T2 C2 D2 W2 Hi2 Hs.
  destruct (C77_move_waits d k b ps j c l d1 r Hr Hk Hinj) as (e & f & t & -> & _ & Cs & Ts & _ & Dp); auto.
  { intros i' Hi'. destruct (C77_shapes _ _ _ _ Hr Hk) as [->|[[x ->]|[[x ->]|[(x & y & ->)|(x & y & ->)]]]]; cbn [In] in *;
      repeat match goal with F : _ \/ _ |- _ => destruct F end; try contradiction; try congruence; exists m, fl; congruence. }
  pose proof (C77_is_a_watcher_program _ Hr) as W.
  rewrite Cs in C2. rewrite Dp in D2.
  destruct (C52_move_ends (dw d2) (depth (dw d)) j f (nothrow_move b) (ww_conts (dw d)) c' u w1 v V2 C2 D2 W2 Hs) as (s' & E & _ & Ck & Wn & Em & _).
  destruct (return_moved _ _ _ _ _ _ _ _ _ _ C2 D2 Hs E) as [Rl Ll].
  assert (Ln : length (ww_reloc s') - 1 = length (ww_reloc (dw d2))) by (rewrite Rl, app_length; cbn; lia).
  cbn [dstep usable negb]. rewrite E, T2, Ts. rewrite Ck, Nat.leb_refl.
  cbn [dstep] in H. rewrite Hk in H. assert (exists_ (m_ctor_move b) = true) as Ee by (destruct (m_ctor_move b); [auto|congruence]). rewrite Ee in H.
  destruct (C77_shapes _ _ _ _ Hr Hk) as [->|[[i' ->]|[[j' ->]|[(i' & j' & ->)|(i' & j' & ->)]]]]; cbn [In] in Hini, Hinj.
  - destruct Hini.
  - destruct Hinj as [F|[]]. discriminate.
  - destruct Hini as [F|[]]. discriminate.
  - assert (i' = i) by (destruct Hini as [F|[F|[]]]; congruence). assert (j' = j) by (destruct Hinj as [F|[F|[]]]; congruence). subst i' j'.
    destruct (lmove_step _ _ _ _ Hi) as (s1 & E1 & A1 & A2 & A3 & A4). cbn [move_plan] in H. cbn [go] in H. rewrite E1, A4, Nat.ltb_irrefl in H. cbn [dw set_dw] in H. rewrite A4 in H.
    pose proof (wreachable_step _ _ _ _ W E1) as W1.
    assert (Hw1 : watches s1 j c) by (destruct Hw as (mj & B1 & B2); exists mj; rewrite A1, A3; auto).
    assert (Hc1 : obeys_contract (w_reporter (ww s1))) by (rewrite A1; exact Hc).
    destruct (C52_relocation s1 j c (RMove j (nothrow_move b) l) (nothrow_move b) l W1 Hw1 (or_introl eq_refl) Hc1) as [(e0 & x0 & mr & s3 & kk & _ & _ & E3 & _ & _ & _ & _ & Cs3 & _)|(F & _)];
      [|exfalso; apply Hn; unfold refused; rewrite <- A1; exact F].
    rewrite E3, Cs3, A4 in H. cbn [length] in H. assert (length (ww_conts (dw d)) <? S (length (ww_conts (dw d))) = true) as L by (apply Nat.ltb_lt; lia). rewrite L in H. clear L.
    inversion H; subst d1. cbn [dw_tasks set_tasks set_dw] in Ts. inversion Ts; subst t.
    cbn [go move_plan app]. rewrite Ln, A2, moved_carries.
    eexists. eexists. exists (length (ww_life (dw d))), (length (ww_reloc (dw d2))). split; [reflexivity|]. cbn [set_objs dw_objs set_tasks set_dw dw dw_tasks].
    split; [unfold dobj; cbn [dw_objs set_objs set_tasks set_dw]; rewrite nth_error_app_last; reflexivity|]. split; [reflexivity|]. split; [left; auto|]. split; [right; left; auto|].
    split; [unfold carries; rewrite Ll; exact Hi2|]. auto.
  - assert (i' = i) by (destruct Hini as [F|[F|[]]]; congruence). assert (j' = j) by (destruct Hinj as [F|[F|[]]]; congruence). subst i' j'.
    cbn [move_plan] in H. cbn [go] in H.
    destruct (C52_relocation (dw d) j c (RMove j (nothrow_move b) l) (nothrow_move b) l W Hw (or_introl eq_refl) Hc) as [(e0 & x0 & mr & s3 & kk & _ & _ & E3 & _ & _ & _ & _ & Cs3 & _)|(F & _)];
      [|exfalso; apply Hn; exact F].
    rewrite E3, Cs3 in H. cbn [length] in H. assert (length (ww_conts (dw d)) <? S (length (ww_conts (dw d))) = true) as L by (apply Nat.ltb_lt; lia). rewrite L in H. clear L.
    inversion H; subst d1. cbn [dw_tasks set_tasks set_dw] in Ts. inversion Ts; subst t. cbn [app]. rewrite Ln.
    assert (Hi3 : carries s' i m fl) by (unfold carries; rewrite Ll; exact Hi2). destruct (lmove_step _ _ _ _ Hi3) as (s4 & E4 & A1 & A2 & A3 & A4).
    cbn [go dw set_dw set_tasks]. rewrite E4, A4, Nat.ltb_irrefl. rewrite A2, moved_carries. cbn [app].
    eexists. eexists. exists (length (ww_life s')), (length (ww_reloc (dw d2))). split; [reflexivity|]. cbn [set_objs dw_objs set_tasks set_dw dw dw_tasks].
    split; [unfold dobj; cbn [dw_objs set_objs set_tasks set_dw]; rewrite nth_error_app_last; reflexivity|]. split; [reflexivity|]. split; [right; left; auto|]. split; [left; auto|].
    split; [unfold carries; rewrite A2; rewrite <- (length_upd (ww_life s') i (Some (mkLW fl None))) at 1; apply nth_error_app_last|].
    split; [destruct Wn as (mj & B1 & B2); exists mj; rewrite A1, A3; auto|]. split; [destruct Em as (mj & B1 & B2); exists mj; rewrite A1, A3; auto|]. reflexivity.
Qed.
(** The end of the expectation's part of the call: the new object is complete. Its lifetime watcher has the identity of the old object, its
    relocation watcher the expectations. [d2]: any state in which the move still waits for the call which is to end now. *)
Theorem C77_move_completes d k b ps i j m fl c l d1 r d2 c' u w1 v :
  dreachable d -> dobj d k = Some (b, ps) -> In (PLife i) ps -> In (PReloc j) ps -> carries (dw d) i m fl ->
  watches (dw d) j c -> ~ refused (dw d) c l -> obeys_contract (w_reporter (ww (dw d))) -> m_ctor_move b <> None ->
  dstep d (DMove k l) = DNext d1 r ->
  dreachable d2 -> dw_tasks d2 = dw_tasks d1 -> ww_conts (dw d2) = ww_conts (dw d1) -> depth (dw d2) = depth (dw d1) -> watches (dw d2) j c' ->
  carries (dw d2) (match ps with PLife _ :: _ => length (ww_life (dw d)) | _ => i end) m fl ->
  step (ww (dw d2)) (OReturn u) = Next w1 (RVal v) ->
  exists d3 ps' n n', dstep d2 (DUse (WOp (OReturn u))) = DNext d3 RUnit /\ dobj d3 (length (dw_objs d2)) = Some (b, ps') /\ map kind_of ps' = map kind_of ps /\
    In (PLife n) ps' /\ In (PReloc n') ps' /\ carries (dw d3) n m fl /\ watches (dw d3) n' c' /\ emptied (dw d3) j /\ dw_tasks d3 = dw_tasks d.
Proof. intros Hr Hk Hini Hinj Hi Hw Hn Hc Hm H Hr2. apply (move_completes d k b ps i j m fl c l d1 r d2 c' u w1 v); auto. apply C77_is_a_watcher_program. exact Hr2. Qed.

(** ** Assignments *)

(** A refused relocation in a move assignment: it ends the program, if the move assignment of Base is noexcept. Otherwise nothing has
    happened, if the relocation watcher comes first; if the lifetime watcher comes first, the target has already got the identity of the
    source, and the former identity of the target is lost without report. *)
Theorem C77_failed_move_assignment d k q b b' ps qs j j' c l :
  dreachable d -> k <> q -> dobj d k = Some (b, ps) -> dobj d q = Some (b', qs) -> same_kinds ps qs = true -> In (PReloc j) ps -> In (PReloc j') qs ->
  (forall i, In (PLife i) ps -> exists m fl, carries (dw d) i m fl) -> (forall i, In (PLife i) qs -> exists m fl, carries (dw d) i m fl) ->
  (forall i, In (PLife i) ps -> ~ In (PLife i) qs) ->
  Forall (present (dw d)) ps -> watches (dw d) j' c -> refused (dw d) c l ->
  obeys_contract (w_reporter (ww (dw d))) -> throwing (ww (dw d)) -> m_assign_move b <> None ->
  (nothrow_assign b = true -> dstep d (DMoveAssign k q l) = DStop) /\
  (nothrow_assign b = false -> exists d', dstep d (DMoveAssign k q l) = DNext d' (RThrow EReporter) /\ dw_objs d' = dw_objs d /\ ww_reloc (dw d') = ww_reloc (dw d) /\
     (hd KReloc (map kind_of ps) = KReloc -> ww_life (dw d') = ww_life (dw d)) /\
     (hd KReloc (map kind_of ps) = KLife -> exists i i' m fl m' fl', ps = [PLife i; PReloc j] /\ qs = [PLife i'; PReloc j'] /\ carries (dw d) i m fl /\ carries (dw d) i' m' fl' /\
        carries (dw d') i m' fl' /\ moved_from (dw d') i' /\ calls m (ww_log (dw d')) = 0 /\ forall x y, ~ carries (dw d') x m y)).
Proof.
  intros Hr Hkq Hk Hq Hsame Hinj Hinj' Hlp Hlq Hdis Hpres Hw Hn Hc Ht Hm. pose proof (C77_is_a_watcher_program _ Hr) as W.
  cbn [dstep]. rewrite Hk, Hq, Hsame. assert (exists_ (m_assign_move b) = true) as -> by (destruct (m_assign_move b); [auto|congruence]).
  assert (Hpj : exists mj, nth_error (ww_reloc (dw d)) j = Some (Some mj)) by (rewrite Forall_forall in Hpres; apply (Hpres _ Hinj)). destruct Hpj as [mj Hpj].
  assert (Cases : (exists t t', ps = PReloc j :: t /\ qs = PReloc j' :: t') \/ (exists i i', ps = [PLife i; PReloc j] /\ qs = [PLife i'; PReloc j'])).
  { destruct (C77_shapes _ _ _ _ Hr Hk) as [->|[[x ->]|[[x ->]|[(x & y & ->)|(x & y & ->)]]]];
    destruct (C77_shapes _ _ _ _ Hr Hq) as [->|[[x' ->]|[[x' ->]|[(x' & y' & ->)|(x' & y' & ->)]]]]; cbn in Hsame; try discriminate; cbn [In] in Hinj, Hinj';
    repeat match goal with F : _ \/ _ |- _ => destruct F as [F|F] end; try contradiction; try discriminate;
    repeat match goal with F : PReloc _ = PReloc _ |- _ => inversion F; subst; clear F end; eauto 10. }
  destruct Cases as [(t & t' & -> & ->)|(i & i' & -> & ->)].
  - cbn [combine move_assign_plan go]. destruct (assign_fails (dw d) j j' mj c (nothrow_assign b) l W Hpj Hw Hn Hc) as [F1 F2]. split; intros Hne.
    + rewrite (F1 Hne). reflexivity.
    + destruct (F2 Hne Ht) as (s1 & E1 & A1 & A2 & A3 & A4). rewrite E1, A1, Nat.ltb_irrefl. cbn [go]. eexists. split; [reflexivity|]. split; [reflexivity|]. split; [exact A3|].
      split; [intros _; exact A2|]. cbn. discriminate.
  - cbn [combine move_assign_plan go]. destruct (Hlp i) as (m & fl & Hi); [left; auto|]. destruct (Hlq i') as (m' & fl' & Hi'); [left; auto|].
    assert (Hne : i <> i') by (intros ->; apply (Hdis i'); left; auto).
    destruct (C51_move_assign (dw d) i i' m fl m' fl' W Hne Hi Hi') as (s1 & E1 & B1 & B2 & B3 & B4 & _ & B5).
    assert (E1' := E1). cbn [wstep] in E1'. unfold carries in Hi, Hi'. rewrite Hi, Hi' in E1'. apply Nat.eqb_neq in Hne. rewrite Hne in E1'. cbn [lw_mock lw_flag drop_mock] in E1'.
    apply perform_inv in E1'. destruct E1' as (w1 & r1 & Hs1 & E1'). pose proof (kept _ _ _ _ (eq_refl : frames_kept (ODestroyMock m) = true) Hs1) as (_ & K1 & K2 & _ & _ & _ & K3 & _).
    cbn [ww set_life] in *. inversion E1'; subst s1. clear E1'. set (s1 := after_op _ w1 _) in *. rewrite E1. change (ww_conts s1) with (ww_conts (dw d)). rewrite Nat.ltb_irrefl. cbn [dw set_dw].
    pose proof (wreachable_step _ _ _ _ W E1) as W1.
    assert (Hw1 : watches s1 j' c).
    { destruct Hw as (mm & X1 & X2). exists mm. split; [exact X1|]. unfold place in *. cbn [ww s1 after_op]. destruct (Nat.eq_dec mm m) as [->|Hmm].
      - exfalso. pose proof (inv_wreachable _ W) as I. eapply (v_disj _ I); [apply (v_life _ I _ _ _ Hi)|apply (v_reloc _ I _ _ X1)].
      - eapply unnamed_mock; [exact Hs1| |exact X2]. cbn [named In]. intros [F|[]]. congruence. }
    destruct (assign_fails s1 j j' mj c (nothrow_assign b) l W1 Hpj Hw1) as [F1 F2].
    { unfold refused in *. intros e x Hx. cbn [ww s1 after_op] in Hx. rewrite (candidate_ext (ww (dw d)) w1 K2 K1) in Hx. eapply Hn; eauto. }
    { cbn [ww s1 after_op]. rewrite K3. exact Hc. }
    split; intros Hna.
    + rewrite (F1 Hna). reflexivity.
    + destruct (F2 Hna) as (s2 & E2 & A1 & A2 & A3 & A4); [unfold throwing; cbn [ww s1 after_op]; rewrite K3; exact Ht|].
      rewrite E2, A1, Nat.ltb_irrefl. cbn [go]. eexists. split; [reflexivity|]. split; [reflexivity|]. split; [exact A3|]. split; [cbn; discriminate|]. intros _.
      destruct (B5 [RMoveAssign j j' (nothrow_assign b) l] s2) as [X1 X2]; [econstructor; [exact E2|constructor]|].
      exists i, i', m, fl, m', fl'. split; [auto|]. split; [auto|]. split; [exact Hi|]. split; [exact Hi'|]. cbn [dw set_dw].
      split; [unfold carries; rewrite A2; exact B1|]. split; [destruct B2 as [y B2]; exists y; rewrite A2; exact B2|]. auto.
Qed.

(** ** Copies *)
Lemma lcopy_step s i lw : wreachable s -> nth_error (ww_life s) i = Some (Some lw) ->
  exists s1 m, wstep s (LCopy i) = WNext s1 RUnit /\ ww_life s1 = ww_life s ++ [Some (mkLW false (Some m))] /\ ww_reloc s1 = ww_reloc s /\ ww_conts s1 = ww_conts s /\
    w_trace (ww s1) = w_trace (ww s) /\ w_exps (ww s1) = w_exps (ww s) /\ ~ In m (ww_lmocks s) /\ (forall j c, watches s j c -> watches s1 j c).
Proof.
  intros W Hi. destruct (C51_copy s (LCopy i) W (or_intror (ex_intro _ i (ex_intro _ lw (conj eq_refl Hi))))) as (s1 & m & E & Hc & (F & _) & Ht & He & _).
  exists s1, m. split; [exact E|]. cbn [wstep] in E. rewrite Hi in E. unfold new_life, perform in E. destruct (step (ww s) (ONewMock [sig_watch])) as [w1 r1| | |] eqn:Es; try discriminate.
  inversion E; subst s1. cbn [ww_life ww_reloc ww_conts set_life own_life] in *. unfold carries in Hc. cbn [ww_life set_life own_life] in Hc. rewrite nth_error_app_last in Hc. inversion Hc; subst m.
  do 4 (split; [auto|]). split; [exact He|]. split; [exact F|]. intros j c (q & A & B). exists q. cbn [ww_reloc set_life own_life]. split; [exact A|].
  unfold place in *. cbn [ww set_life own_life]. eapply unnamed_mock; eauto.
Qed.
Lemma rcopy_step s j m : wreachable s -> nth_error (ww_reloc s) j = Some (Some m) ->
  exists s1 c, wstep s (RCopy j) = WNext s1 RUnit /\ watches s1 (length (ww_reloc s)) c /\ length (ww_reloc s1) = S (length (ww_reloc s)) /\ ww_life s1 = ww_life s /\ ww_conts s1 = ww_conts s /\
    w_trace (ww s1) = w_trace (ww s) /\ w_exps (ww s1) = w_exps (ww s) /\ (forall e x, exp_at (ww s1) e x -> eo_coll x <> c) /\ (forall q e, watches s q e -> watches s1 q e) /\
    ww_lmocks s1 = ww_lmocks s.
Proof.
  intros W Hj. destruct (C52_copy s (RCopy j) W (or_intror (ex_intro _ j (ex_intro _ m (conj eq_refl Hj))))) as (s1 & c & E & Hc & F & Ht & He & Ho).
  exists s1, c. split; [exact E|]. cbn [wstep] in E. rewrite Hj in E. unfold new_reloc, perform in E. destruct (step (ww s) (ONewMock [sig_watch])) as [w1 r1| | |] eqn:Es; try discriminate.
  inversion E; subst s1. cbn [ww_life ww_reloc ww_conts ww_lmocks set_reloc own_reloc] in *. split; [exact Hc|]. split; [rewrite app_length; cbn; lia|]. auto 10.
Qed.

(** A copy is an object of its own: nobody expects its destruction or its relocation. The source keeps what it has; nothing is reported. *)
Theorem C77_copy d k b ps :
  dreachable d -> dobj d k = Some (b, ps) -> Forall (present (dw d)) ps -> m_ctor_copy b <> None ->
  exists d' ps', dstep d (DCopy k) = DNext d' RUnit /\ dobj d' (length (dw_objs d)) = Some (b, ps') /\ map kind_of ps' = map kind_of ps /\
    (forall i, In (PLife i) ps' -> exists m, carries (dw d') i m false /\ ~ In m (ww_lmocks (dw d))) /\
    (forall j, In (PReloc j) ps' -> exists c, watches (dw d') j c /\ forall e x, exp_at (ww (dw d')) e x -> eo_coll x <> c) /\
    dobj d' k = Some (b, ps) /\ (forall i m fl, carries (dw d) i m fl -> carries (dw d') i m fl) /\ (forall j c, watches (dw d) j c -> watches (dw d') j c) /\
    w_trace (ww (dw d')) = w_trace (ww (dw d)) /\ w_exps (ww (dw d')) = w_exps (ww (dw d)).
Proof.
  intros Hr Hk Hp Hc. pose proof (C77_is_a_watcher_program _ Hr) as W. pose proof (dobj_lt _ _ _ Hk) as Lk.
  assert (Old : forall s x, dobj (set_objs (set_dw d s) (dw_objs d ++ [x])) k = Some (b, ps)).
  { intros s x. unfold dobj in *. cbn [set_objs set_dw dw_objs]. rewrite nth_error_app1 by auto. exact Hk. }
  assert (New : forall s x, dobj (set_objs (set_dw d s) (dw_objs d ++ [Some x])) (length (dw_objs d)) = Some x).
  { intros s x. unfold dobj. cbn [set_objs set_dw dw_objs]. rewrite nth_error_app_last. reflexivity. }
  assert (Ext : forall s s', (exists x, ww_life s' = ww_life s ++ [x]) -> forall i m fl, carries s i m fl -> carries s' i m fl).
  { intros s s' [x E] i m fl H. unfold carries in *. rewrite E. apply nth_error_snoc_old. exact H. }
  cbn [dstep]. rewrite Hk. assert (exists_ (m_ctor_copy b) = true) as -> by (destruct (m_ctor_copy b); [auto|congruence]).
  destruct (C77_shapes _ _ _ _ Hr Hk) as [->|[[i ->]|[[j ->]|[(i & j & ->)|(i & j & ->)]]]]; cbn [copy_plan go].
  - exists (set_objs d (dw_objs d ++ [Some (b, [])])), []. split; [reflexivity|]. cbn [dw set_objs]. split; [apply (New (dw d))|]. split; [reflexivity|].
    split; [intros i []|]. split; [intros j []|]. split; [apply (Old (dw d))|]. auto.
  - inversion Hp as [|? ? Q1 _]; subst. destruct Q1 as [lw Hi]. destruct (lcopy_step _ _ _ W Hi) as (s1 & m & E & L1 & R1 & C1 & T1 & X1 & F1 & P1). rewrite E, C1, Nat.ltb_irrefl. cbn [copy_plan go app].
    rewrite L1, app_length. cbn [length]. replace (length (ww_life (dw d)) + 1 - 1) with (length (ww_life (dw d))) by lia.
    eexists. eexists. split; [reflexivity|]. split; [apply (New s1)|]. split; [reflexivity|]. cbn [dw set_objs set_dw].
    split; [intros q [F|[]]; inversion F; subst; exists m; split; [unfold carries; rewrite L1; apply nth_error_app_last|auto]|]. split; [intros q [F|[]]; discriminate|].
    split; [apply (Old s1)|]. split; [apply Ext; eauto|]. auto.
  - inversion Hp as [|? ? Q1 _]; subst. destruct Q1 as [m Hj]. destruct (rcopy_step _ _ _ W Hj) as (s1 & c & E & Wc & L1 & R1 & C1 & T1 & X1 & F1 & P1 & M1). rewrite E, C1, Nat.ltb_irrefl. cbn [copy_plan go app].
    rewrite L1. replace (S (length (ww_reloc (dw d))) - 1) with (length (ww_reloc (dw d))) by lia.
    eexists. eexists. split; [reflexivity|]. split; [apply (New s1)|]. split; [reflexivity|]. cbn [dw set_objs set_dw].
    split; [intros q [F|[]]; discriminate|]. split; [intros q [F|[]]; inversion F; subst; exists c; auto|].
    split; [apply (Old s1)|]. split; [intros q m' fl H; unfold carries in *; rewrite R1; exact H|]. auto.
  - inversion Hp as [|? ? Q1 Hp']; subst. inversion Hp' as [|? ? Q2 _]; subst. destruct Q1 as [lw Hi]. destruct Q2 as [m Hj].
    destruct (lcopy_step _ _ _ W Hi) as (s1 & m1 & E & L1 & R1 & C1 & T1 & X1 & F1 & P1). rewrite E, C1, Nat.ltb_irrefl. cbn [copy_plan go app].
    rewrite <- R1 in Hj. pose proof (wreachable_step _ _ _ _ W E) as W1. destruct (rcopy_step _ _ _ W1 Hj) as (s2 & c & E2 & Wc & L2 & R2 & C2 & T2 & X2 & F2 & P2 & M2).
    cbn [dw set_dw]. rewrite E2, C2, Nat.ltb_irrefl. cbn [copy_plan go app].
    rewrite L1, L2, app_length. cbn [length]. replace (length (ww_life (dw d)) + 1 - 1) with (length (ww_life (dw d))) by lia. replace (S (length (ww_reloc s1)) - 1) with (length (ww_reloc s1)) by lia.
    eexists. eexists. split; [reflexivity|]. split; [apply (New s2)|]. split; [reflexivity|]. cbn [dw set_objs set_dw].
    split; [intros q [F|[F|[]]]; inversion F; subst; exists m1; split; [unfold carries; rewrite R2, L1; apply nth_error_app_last|auto]|].
    split; [intros q [F|[F|[]]]; inversion F; subst; exists c; auto|].
    split; [apply (Old s2)|]. split; [apply Ext; rewrite R2; eauto|]. split; [auto|]. rewrite T2, X2. auto.
  - inversion Hp as [|? ? Q1 Hp']; subst. inversion Hp' as [|? ? Q2 _]; subst. destruct Q1 as [m Hj]. destruct Q2 as [lw Hi].
    destruct (rcopy_step _ _ _ W Hj) as (s1 & c & E & Wc & L1 & R1 & C1 & T1 & X1 & F1 & P1 & M1). rewrite E, C1, Nat.ltb_irrefl. cbn [copy_plan go app].
    rewrite <- R1 in Hi. pose proof (wreachable_step _ _ _ _ W E) as W1. destruct (lcopy_step _ _ _ W1 Hi) as (s2 & m2 & E2 & L2 & R2 & C2 & T2 & X2 & F2 & P2).
    cbn [dw set_dw]. rewrite E2, C2, Nat.ltb_irrefl. cbn [copy_plan go app].
    rewrite L1, L2, app_length. cbn [length]. replace (length (ww_life s1) + 1 - 1) with (length (ww_life s1)) by lia. replace (S (length (ww_reloc (dw d))) - 1) with (length (ww_reloc (dw d))) by lia.
    eexists. eexists. split; [reflexivity|]. split; [apply (New s2)|]. split; [reflexivity|]. cbn [dw set_objs set_dw].
    split; [intros q [F|[F|[]]]; inversion F; subst; exists m2; split; [unfold carries; rewrite L2; apply nth_error_app_last|rewrite <- M1; auto]|].
    split; [intros q [F|[F|[]]]; inversion F; subst; exists c; split; [auto|unfold exp_at in *; rewrite X2; auto]|].
    split; [apply (Old s2)|]. split; [apply Ext; rewrite L2, R1; eauto|]. split; [auto|]. rewrite T2, X2. auto.
Qed.

(** ** Programs *)
Fixpoint dexec (d : dworld) (ops : list dop) : option (dworld * list result) :=
  match ops with
  | [] => Some (d, [])
  | o :: ops' =>
      match dstep d o with
      | DNext d1 r => match dexec d1 ops' with Some (d2, rs) => Some (d2, r :: rs) | None => None end
      | _ => None
      end
  end.
Definition dafter (ops : list dop) : dworld := match dexec dinit ops with Some (d, _) => d | None => dinit end.
Definition dresults (ops : list dop) : list result := match dexec dinit ops with Some (_, rs) => rs | None => [] end.
Lemma dexec_run ops : forall d d' rs, dexec d ops = Some (d', rs) -> drun d ops d'.
Proof.
  induction ops as [|o ops IH]; intros d d' rs H; cbn [dexec] in H; [inversion H; constructor|].
  destruct (dstep d o) as [d1 r| | |] eqn:E; try discriminate. destruct (dexec d1 ops) as [[d2 rs2]|] eqn:E2; [|discriminate]. inversion H; subst. econstructor; eauto.
Qed.
Lemma dafter_reachable ops : (match dexec dinit ops with Some _ => true | None => false end) = true -> dreachable (dafter ops).
Proof. unfold dafter. destruct (dexec dinit ops) as [[d rs]|] eqn:E; [|discriminate]. intros _. exists ops. eapply dexec_run; eauto. Qed.

Definition ret : dop := DUse (WOp (OReturn (UOk (VInt 0)))).
Definition fin : dop := DUse (WOp OFinal).

(** The destruction of the object is expected, its relocation is not; the lifetime watcher comes first. The failed move destroys the part
    built so far, which has got the identity of the object: the call fulfils the expectation. The object still exists; its destruction
    is not reported any more. *)
Definition prog_failed_move : list dop :=
  [DNew loose_base [KLife; KReloc]; DUse (LExpect 0 [] here); DMove 0 there; fin; ret].

(** A failed move does not leave the object as it was. *)
Theorem C77_failed_move_keeps_object_refuted :
  exists ops k l ops' d d' x, drun dinit ops d /\ dstep d (DMove k l) = DNext d' RUnit /\ drun d' ops' x /\ dexec d' [fin; ret] = Some (x, [RUnit; RThrow EReporter]) /\
    ops' = [fin; ret] /\ dobj x k = Some (loose_base, [PLife 0; PReloc 0]) /\ carries (dw d) 0 0 true /\ moved_from (dw x) 0 /\ calls 0 (ww_log (dw x)) = 1 /\
    dexec x [DUse (WOp (OEndScope 0)); DDestroy k l] <> None /\ w_trace (ww (dw (match dexec x [DDestroy k l] with Some (y, _) => y | None => dinit end))) = w_trace (ww (dw x)).
Proof.
  exists (firstn 2 prog_failed_move), 0, there, [fin; ret], (dafter (firstn 2 prog_failed_move)), (dafter (firstn 3 prog_failed_move)), (dafter prog_failed_move).
  split; [eapply dexec_run; vm_compute; reflexivity|]. split; [vm_compute; reflexivity|]. split; [eapply dexec_run; vm_compute; reflexivity|]. split; [vm_compute; reflexivity|].
  split; [reflexivity|]. split; [vm_compute; reflexivity|]. split; [vm_compute; reflexivity|]. split; [exists true; vm_compute; reflexivity|]. split; [vm_compute; reflexivity|].
  split; [vm_compute; discriminate|vm_compute; reflexivity].
Qed.
(** The same program, with the relocation watcher first: the object is as before. *)
Example prog_failed_move_other_order :
  let p := [DNew loose_base [KReloc; KLife]; DUse (LExpect 0 [] here); DMove 0 there] in
  dresults p = [RUnit; RUnit; RThrow EReporter] /\ carries (dw (dafter p)) 0 1 true /\ calls 1 (ww_log (dw (dafter p))) = 0 /\
  dresults (p ++ [DDestroy 0 here; fin; ret; DUse (WOp (OEndScope 0))]) = [RUnit; RUnit; RThrow EReporter; RUnit; RUnit; RUnit; RUnit].
Proof. cbv zeta. split; [vm_compute; reflexivity|]. split; [vm_compute; reflexivity|]. split; vm_compute; reflexivity. Qed.
Example prog_failed_move_hypotheses :
  let d := dafter (firstn 2 prog_failed_move) in let d1 := dafter [DNew loose_base [KLife; KReloc]] in
  let d2 := dafter [DNew loose_base [KReloc; KLife]; DUse (LExpect 0 [] here)] in let d3 := dafter [DNew plain_base [KLife; KReloc]] in
  dreachable d /\ dreachable d1 /\ dreachable d2 /\ dreachable d3 /\
  (dobj d 0 = Some (loose_base, [PLife 0; PReloc 0]) /\ carries (dw d) 0 0 true /\ watches (dw d) 0 1) /\
  (dobj d1 0 = Some (loose_base, [PLife 0; PReloc 0]) /\ carries (dw d1) 0 0 false /\ watches (dw d1) 0 1 /\ dstep d1 (DMove 0 there) = DStop /\ dstep d1 (DDestroy 0 there) <> DStop) /\
  (dobj d2 0 = Some (loose_base, [PReloc 0; PLife 0]) /\ watches (dw d2) 0 0) /\
  (dobj d3 0 = Some (plain_base, [PLife 0; PReloc 0]) /\ watches (dw d3) 0 1 /\ nothrow_move plain_base = true /\ dstep d3 (DMove 0 there) = DStop /\ dstep d3 (DDestroy 0 there) = DStop) /\
  m_ctor_move loose_base <> None /\ nothrow_move loose_base = false /\ throwing (ww (dw d)) /\ obeys_contract (w_reporter (ww (dw d))).
Proof.
  cbv zeta. do 4 (split; [apply dafter_reachable; vm_compute; reflexivity|]).
  split; [split; [vm_compute; reflexivity|split; [vm_compute; reflexivity|exists 1; vm_compute; auto]]|].
  split; [split; [vm_compute; reflexivity|split; [vm_compute; reflexivity|split; [exists 1; vm_compute; auto|split; [vm_compute; reflexivity|vm_compute; discriminate]]]]|].
  split; [split; [vm_compute; reflexivity|exists 0; vm_compute; auto]|].
  split; [split; [vm_compute; reflexivity|split; [exists 1; vm_compute; auto|split; [reflexivity|split; vm_compute; reflexivity]]]|].
  split; [discriminate|]. split; [reflexivity|]. split; [intros c r u; split; reflexivity|repeat split; discriminate].
Qed.
(** Nobody has expected a relocation of these objects: the call is refused. *)
Example prog_refused : refused (dw (dafter (firstn 2 prog_failed_move))) 1 there /\ refused (dw (dafter [DNew loose_base [KLife; KReloc]])) 1 there /\
  refused (dw (dafter [DNew loose_base [KReloc; KLife]; DUse (LExpect 0 [] here)])) 0 there /\ refused (dw (dafter [DNew plain_base [KLife; KReloc]])) 1 there.
Proof.
  assert (G : forall s c l, (forall e x, exp_at (ww s) e x -> eo_coll x <> c) -> refused s c l).
  { intros s c l H e x [(Hx & _ & Hc) _]. exact (H _ _ Hx Hc). }
  split; [|split; [|split]]; apply G; intros [|[|e]] x Hx; vm_compute in Hx; try discriminate; inversion Hx; subst; vm_compute; discriminate.
Qed.

(** Both announced: the move hands everything over. *)
Definition prog_both (ks : list kind) : list dop :=
  [DNew loose_base ks; DUse (LExpect 0 [] here); DUse (RExpect 0 [] here); DMove 0 there; fin; ret; DDestroy 0 here; DDestroy 1 there; fin; ret;
   DUse (WOp (OEndScope 1)); DUse (WOp (OEndScope 0))].
Example prog_both_runs :
  dresults (prog_both [KLife; KReloc]) = repeat RUnit 12 /\ dresults (prog_both [KReloc; KLife]) = repeat RUnit 12 /\
  dobj (dafter (firstn 6 (prog_both [KReloc; KLife]))) 1 = Some (loose_base, [PReloc 1; PLife 1]).
Proof. split; [vm_compute; reflexivity|]. split; vm_compute; reflexivity. Qed.
Example prog_both_hypotheses :
  forall ks, ks = [KLife; KReloc] \/ ks = [KReloc; KLife] ->
  let d := dafter (firstn 3 (prog_both ks)) in let d1 := dafter (firstn 4 (prog_both ks)) in let d2 := dafter (firstn 5 (prog_both ks)) in
  dreachable d /\ dreachable d2 /\ (exists ps, dobj d 0 = Some (loose_base, ps) /\ In (PLife 0) ps /\ In (PReloc 0) ps) /\ carries (dw d) 0 (match ks with KLife :: _ => 0 | _ => 1 end) true /\ (exists c, watches (dw d) 0 c) /\
  dstep d (DMove 0 there) = DNext d1 RUnit /\ ww_conts (dw d2) = ww_conts (dw d1) /\ depth (dw d2) = depth (dw d1) /\ (exists c, watches (dw d2) 0 c) /\
  (exists i, carries (dw d2) i (match ks with KLife :: _ => 0 | _ => 1 end) true) /\ exists w1, step (ww (dw d2)) (OReturn (UOk (VInt 0))) = Next w1 (RVal None).
Proof.
  intros ks [->| ->]; cbv zeta.
  - do 2 (split; [apply dafter_reachable; vm_compute; reflexivity|]). split; [exists [PLife 0; PReloc 0]; split; [vm_compute; reflexivity|cbn; auto]|].
    split; [vm_compute; reflexivity|]. split; [exists 1, 1; vm_compute; auto|]. split; [vm_compute; reflexivity|]. split; [vm_compute; reflexivity|]. split; [vm_compute; reflexivity|].
    split; [exists 1, 1; vm_compute; auto|]. split; [exists 1; vm_compute; reflexivity|]. eexists. vm_compute. reflexivity.
  - do 2 (split; [apply dafter_reachable; vm_compute; reflexivity|]). split; [exists [PReloc 0; PLife 0]; split; [vm_compute; reflexivity|cbn; auto]|].
    split; [vm_compute; reflexivity|]. split; [exists 0, 0; vm_compute; auto|]. split; [vm_compute; reflexivity|]. split; [vm_compute; reflexivity|]. split; [vm_compute; reflexivity|].
    split; [exists 0, 0; vm_compute; auto|]. split; [exists 0; vm_compute; reflexivity|]. eexists. vm_compute. reflexivity.
Qed.

(** Two objects; the relocation of the second is not expected. *)
Definition prog_assign2 (b : members) (ks : list kind) : list dop := [DNew b ks; DNew b ks; DUse (LExpect 0 [] here)].
Example prog_assign2_runs :
  let p := prog_assign2 loose_base [KLife; KReloc] ++ [DMoveAssign 0 1 there] in let q := prog_assign2 loose_base [KReloc; KLife] ++ [DMoveAssign 0 1 there] in
  dresults p = [RUnit; RUnit; RUnit; RThrow EReporter] /\ carries (dw (dafter p)) 0 2 false /\ moved_from (dw (dafter p)) 1 /\
  dresults q = [RUnit; RUnit; RUnit; RThrow EReporter] /\ carries (dw (dafter q)) 0 1 true /\ carries (dw (dafter q)) 1 3 false /\
  dexec dinit (prog_assign2 plain_base [KReloc; KLife] ++ [DMoveAssign 0 1 there]) = None /\ dresults (prog_assign2 plain_base [KReloc; KLife]) = [RUnit; RUnit; RUnit].
Proof. cbv zeta. do 2 (split; [vm_compute; reflexivity|]). split; [exists false; vm_compute; reflexivity|]. do 4 (split; [vm_compute; reflexivity|]). vm_compute; reflexivity. Qed.
Example prog_assign2_hypotheses :
  forall b ks, b = loose_base \/ b = plain_base -> ks = [KLife; KReloc] \/ ks = [KReloc; KLife] ->
  let d := dafter (prog_assign2 b ks) in dreachable d /\ exists ps qs m m' c, dobj d 0 = Some (b, ps) /\ dobj d 1 = Some (b, qs) /\ same_kinds ps qs = true /\
    In (PReloc 0) ps /\ In (PReloc 1) qs /\ In (PLife 0) ps /\ In (PLife 1) qs /\ carries (dw d) 0 m true /\ carries (dw d) 1 m' false /\ Forall (present (dw d)) ps /\ watches (dw d) 1 c /\
    refused (dw d) c there.
Proof.
  intros b ks [-> | ->] [-> | ->]; cbv zeta; (split; [apply dafter_reachable; vm_compute; reflexivity|]).
  1,3: exists [PLife 0; PReloc 0], [PLife 1; PReloc 1], 0, 2, 3.
  3,4: exists [PReloc 0; PLife 0], [PReloc 1; PLife 1], 1, 3, 2.
  all: do 3 (split; [vm_compute; reflexivity|]); do 4 (split; [cbn; auto|]); do 2 (split; [vm_compute; reflexivity|]).
  all: split; [repeat constructor; vm_compute; eexists; reflexivity|].
  1,2: (split; [exists 3; vm_compute; auto|]). 3,4: (split; [exists 2; vm_compute; auto|]).
  all: intros [|[|e]] x [(Hx & _ & Hc) _]; vm_compute in Hx; try discriminate; inversion Hx; subst; vm_compute in Hc; discriminate.
Qed.

(** A copy of an announced object. *)
Definition prog_copy : list dop := [DNew loose_base [KReloc; KLife]; DUse (LExpect 0 [] here); DUse (RExpect 0 [] here)].
Example prog_copy_runs :
  let d := dafter prog_copy in
  dreachable d /\ dobj d 0 = Some (loose_base, [PReloc 0; PLife 0]) /\ Forall (present (dw d)) [PReloc 0; PLife 0] /\ m_ctor_copy loose_base <> None /\
  dresults (prog_copy ++ [DCopy 0; DMove 1 here]) = repeat RUnit 4 ++ [RThrow EReporter] /\
  dresults (prog_copy ++ [DCopy 0; DDestroy 1 here]) = repeat RUnit 4 ++ [RThrow EReporter] /\
  dresults (prog_copy ++ [DCopy 0; DCopyAssign 1 0 here]) = repeat RUnit 4 ++ [RThrow EReporter].
Proof.
  cbv zeta. split; [apply dafter_reachable; vm_compute; reflexivity|]. split; [vm_compute; reflexivity|]. split; [repeat constructor; vm_compute; eexists; reflexivity|]. split; [discriminate|].
  split; [vm_compute; reflexivity|]. split; vm_compute; reflexivity.
Qed.
(** Only the lifetime is watched. *)
Example prog_lifetime_only :
  let p := [DNew plain_base [KLife]; DUse (LExpect 0 [] here)] in
  dreachable (dafter p) /\ dobj (dafter p) 0 = Some (plain_base, [PLife 0]) /\ carries (dw (dafter p)) 0 0 true /\ m_ctor_move plain_base <> None /\
  dresults (p ++ [DMove 0 there; DDestroy 0 here; DDestroy 1 here; fin; ret; DUse (WOp (OEndScope 0))]) = repeat RUnit 8.
Proof. cbv zeta. split; [apply dafter_reachable; vm_compute; reflexivity|]. do 2 (split; [vm_compute; reflexivity|]). split; [discriminate|]. vm_compute; reflexivity. Qed.
(** Base cannot be moved: a move is a copy. *)
Example prog_pinned : dresults [DNew pinned [KReloc]; DMove 0 here; DMoveAssign 0 1 here] = [RUnit; RUnit; RUnit].
Proof. vm_compute. reflexivity. Qed.

Print Assumptions C77_same_exception_specifications.
Print Assumptions C77_override.
Print Assumptions C77_copies.
Print Assumptions C77_library_watchers.
Print Assumptions C77_combined_moves.
Print Assumptions C77_vector_growth.
Print Assumptions C77_movable_like_base_refuted.
Print Assumptions C77_is_a_watcher_program.
Print Assumptions C77_shapes.
Print Assumptions C77_destruction_reported_once.
Print Assumptions C77_unexpected_destruction.
Print Assumptions C77_noexcept_move_terminates.
Print Assumptions C77_failed_move_changes_nothing.
Print Assumptions C77_failed_move_terminates.
Print Assumptions C77_failed_move_uses_up_destruction.
Print Assumptions C77_move_lifetime_only.
Print Assumptions C77_move_waits.
Print Assumptions C77_move_completes.
Print Assumptions C77_failed_move_assignment.
Print Assumptions C77_copy.
Print Assumptions C77_failed_move_keeps_object_refuted.
