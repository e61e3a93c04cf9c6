(** * LockProofs: which user code runs with a mutex held; broken programs and deadlocks. *)

From Verif Require Import Base Lib Sequence Control Signature Printer Reports Expectation Builder World Conc Race RaceSpec RaceProofs.

(** ** User code under a mutex *)

Lemma held_lockless body : Forall lockless body -> forall l acc, held (body ++ l) acc = held l acc.
Proof.
  induction 1 as [|x body Hx H IH]; intros l acc; auto. destruct x; cbn [lockless] in Hx; try contradiction; cbn [app held]; apply IH.
Qed.

Lemma guarded_user l : guarded l -> forall pre u post, l = pre ++ MUser u :: post ->
  (runs_locked u = true /\ exists m, held pre [] = [m]) \/ (runs_locked u = false /\ held pre [] = []).
Proof.
  induction 1 as [|x l Hx H IH|m body l Hbody H IH]; intros pre u post E.
  - destruct pre; discriminate.
  - destruct pre as [|y pre]; cbn [app] in E; injection E as -> ->.
    + right. split; auto.
    + destruct (IH pre u post eq_refl) as [[H1 (m & H2)]|[H1 H2]]; [left|right]; (split; [exact H1|]);
        destruct y; cbn [outside] in Hx; try contradiction; cbn [held]; eauto.
  - destruct pre as [|y pre]; cbn [app] in E; [discriminate|]. injection E as <- E. cbn [held].
    assert (HB : Forall lockless body) by (eapply Forall_impl; [|exact Hbody]; intros; eapply inside_lockless; eauto).
    (* where is the user code? *)
    assert (D : (exists b2, body = pre ++ MUser u :: b2) \/ (exists p2, pre = body ++ MUnlock m :: p2 /\ l = p2 ++ MUser u :: post)).
    { clear - E. revert pre E. induction body as [|z body IH]; intros pre E.
      - destruct pre as [|y pre]; cbn [app] in E; [discriminate|]. injection E as <- E. right. exists pre. auto.
      - destruct pre as [|y pre]; cbn [app] in E.
        + injection E as -> E. left. exists body. reflexivity.
        + injection E as <- E. destruct (IH pre E) as [(b2 & ->)|(p2 & -> & ->)]; [left; exists b2|right; exists p2]; auto. }
    destruct D as [(b2 & ->)|(p2 & -> & ->)].
    + left. rewrite Forall_app in Hbody. destruct Hbody as [_ Hu]. inversion Hu; subst. split; auto. exists m.
      rewrite Forall_app in HB. destruct HB as [HB _]. rewrite <- (app_nil_r pre), held_lockless by exact HB. reflexivity.
    + rewrite held_lockless by exact HB. cbn [held remove]. destruct (Nat.eq_dec m m); [|congruence]. apply (IH p2 u post eq_refl).
Qed.

(** ** Programs *)

Lemma by_thread_app t a b : by_thread t (a ++ b) = by_thread t a ++ by_thread t b.
Proof. unfold by_thread. rewrite filter_app, map_app. reflexivity. Qed.

Lemma by_thread_block t t0 l : by_thread t (map (pair t0) l) = if t0 =? t then l else [].
Proof.
  unfold by_thread. induction l as [|x l IH]; cbn [map filter fst]; [destruct (t0 =? t); reflexivity|].
  destruct (t0 =? t) eqn:E; auto. cbn [map snd]. f_equal. exact IH.
Qed.

Lemma by_thread_guarded release t acts : forall c, guarded (by_thread t (events release c acts)).
Proof.
  induction acts as [|[t0 a] acts IH]; intros c; cbn [events]; [constructor|]. rewrite by_thread_app, by_thread_block. apply guarded_app.
  - destruct (t0 =? t); [apply ev_guarded|constructor].
  - destruct (cstep release c t0 a); try constructor. apply IH.
Qed.

Lemma plain_lockless l : Forall lockless l -> plain l.
Proof. induction 1; constructor; auto. Qed.

Lemma with_user_app user a b : with_user user (a ++ b) = with_user user a ++ with_user user b.
Proof. induction a as [|x a IH]; auto. destruct x; cbn [app with_user]; rewrite IH; auto. apply app_assoc. Qed.

Lemma with_user_inside user m body : (forall u, runs_locked u = true -> Forall lockless (user u)) -> Forall (inside m) body -> Forall lockless (with_user user body).
Proof.
  intros Hu. induction 1 as [|x body Hx H IH]; [constructor|]. destruct x; cbn [inside] in Hx; try contradiction; cbn [with_user].
  1,2: constructor; [exact Logic.I|exact IH]. apply Forall_app. split; auto.
Qed.

Lemma with_user_plain user l : guarded l -> (forall u, runs_locked u = true -> Forall lockless (user u)) -> (forall u, runs_locked u = false -> plain (user u)) ->
  plain (with_user user l).
Proof.
  intros H Hl Hp. induction H as [|x l Hx H IH|m body l Hbody H IH]; [constructor| |].
  - destruct x; cbn [outside] in Hx; try contradiction; cbn [with_user].
    1,2: constructor; [exact Logic.I|exact IH]. apply plain_app; auto.
  - cbn [with_user]. rewrite with_user_app. cbn [with_user]. apply pl_lock; auto. eapply with_user_inside; eauto.
Qed.

(** ** Deadlocks *)

Lemma ascending_lockless rank h body l : Forall lockless body -> ascending rank h l -> ascending rank h (body ++ l).
Proof. intros H Hl. induction H as [|x body Hx H IH]; auto. destruct x; cbn [lockless] in Hx; try contradiction; exact IH. Qed.

Lemma plain_ascending rank l : plain l -> ascending rank [] l.
Proof.
  induction 1 as [|x l Hx H IH|m body l Hbody H IH].
  - reflexivity.
  - destruct x; cbn [lockless] in Hx; try contradiction; exact IH.
  - cbn [ascending]. split; [intros k []|]. apply ascending_lockless; auto. cbn [ascending remove]. split; [left; auto|].
    destruct (Nat.eq_dec m m); [exact IH|congruence].
Qed.

Record LInv (rank : nat -> nat) (s : lstate) : Prop := mkLInv {
  li_thread : forall t p, nth_error (snd s) t = Some p -> exists h, ascending rank h p /\ forall m, fst s m = Some t <-> In m h;
  li_owner : forall m t, fst s m = Some t -> t < length (snd s);
  li_finite : exists L, forall m t, fst s m = Some t -> In m L
}.

Lemma linv_start rank ps : (forall p, In p ps -> ascending rank [] p) -> LInv rank (lstart ps).
Proof.
  intros H. split; cbn [lstart fst snd]; [|discriminate|exists []; discriminate].
  intros t p Hp. exists []. split; [apply H; eapply nth_error_In; eauto|]. intros m. split; [discriminate|intros []].
Qed.

Lemma linv_step rank s s' : LInv rank s -> lstep s s' -> LInv rank s'.
Proof.
  intros I H. destruct H as [o ps t x rest o' Hp Ha]. destruct I as [It Io [L If]]. cbn [fst snd] in *.
  destruct (It t _ Hp) as (h & Hh & Hm). pose proof (nth_error_lt _ _ _ Hp) as Ht.
  assert (Hother : forall t' p, nth_error (upd ps t rest) t' = Some p -> (t' = t /\ p = rest) \/ (t' <> t /\ nth_error ps t' = Some p)).
  { intros t' p H. apply nth_error_upd in H. destruct H as [(-> & _ & ->)|[Hne H]]; auto. }
  destruct x as [m|m|pl|pl|u]; cbn [attempt ascending] in *.
  - destruct (o m) as [t'|] eqn:Em; [destruct (t' =? t); discriminate|]. injection Ha as <-. destruct Hh as [Hr Hh]. split; cbn [fst snd].
    + intros t' p Hp'. destruct (Hother _ _ Hp') as [[-> ->]|[Hne Hp'']].
      * exists (m :: h). split; auto. intros m'. unfold give. destruct (m' =? m) eqn:E.
        -- apply Nat.eqb_eq in E. subst. split; intros; [left|]; auto.
        -- apply Nat.eqb_neq in E. rewrite Hm. split; [right; auto|]. intros [->|]; [congruence|auto].
      * destruct (It t' p Hp'') as (h' & Hh' & Hm'). exists h'. split; auto. intros m'. rewrite <- Hm'. unfold give. destruct (m' =? m) eqn:E; [|tauto].
        apply Nat.eqb_eq in E. subst. rewrite Em. split; [intros F; injection F as ->; congruence|discriminate].
    + rewrite length_upd. unfold give. intros m' t' H. destruct (m' =? m); [injection H as <-; auto|eapply Io; eauto].
    + exists (m :: L). unfold give. intros m' t' H. destruct (m' =? m) eqn:E; [left; apply Nat.eqb_eq in E; auto|right; eapply If; eauto].
  - destruct (o m) as [t'|] eqn:Em; [|discriminate]. destruct (t' =? t) eqn:Et; [|discriminate]. injection Ha as <-. apply Nat.eqb_eq in Et. subst t'.
    destruct Hh as [Hr Hh]. split; cbn [fst snd].
    + intros t' p Hp'. destruct (Hother _ _ Hp') as [[-> ->]|[Hne Hp'']].
      * exists (remove Nat.eq_dec m h). split; auto. intros m'. unfold give. destruct (m' =? m) eqn:E.
        -- apply Nat.eqb_eq in E. subst. split; [discriminate|]. intros F. exfalso. eapply remove_In; eauto.
        -- apply Nat.eqb_neq in E. rewrite Hm. split; intros F; [apply in_in_remove; auto|apply in_remove in F; tauto].
      * destruct (It t' p Hp'') as (h' & Hh' & Hm'). exists h'. split; auto. intros m'. rewrite <- Hm'. unfold give. destruct (m' =? m) eqn:E; [|tauto].
        apply Nat.eqb_eq in E. subst. rewrite Em. split; [discriminate|]. intros F. injection F as ->. congruence.
    + rewrite length_upd. unfold give. intros m' t' H. destruct (m' =? m); [discriminate|eapply Io; eauto].
    + exists L. unfold give. intros m' t' H. destruct (m' =? m); [discriminate|eapply If; eauto].
  - injection Ha as <-. split; cbn [fst snd]; [|rewrite length_upd; auto|eauto].
    intros t' p Hp'. destruct (Hother _ _ Hp') as [[-> ->]|[Hne Hp'']]; [exists h|]; auto.
  - injection Ha as <-. split; cbn [fst snd]; [|rewrite length_upd; auto|eauto].
    intros t' p Hp'. destruct (Hother _ _ Hp') as [[-> ->]|[Hne Hp'']]; [exists h|]; auto.
  - injection Ha as <-. split; cbn [fst snd]; [|rewrite length_upd; auto|eauto].
    intros t' p Hp'. destruct (Hother _ _ Hp') as [[-> ->]|[Hne Hp'']]; [exists h|]; auto.
Qed.

Lemma linv_steps rank s s' : lsteps s s' -> LInv rank s -> LInv rank s'.
Proof. induction 1; auto. intros I. apply IHlsteps. eapply linv_step; eauto. Qed.

Lemma linv_not_broken rank s : LInv rank s -> ~ broken s.
Proof.
  intros [It _ _] (t & x & rest & Hp & Ha). destruct (It t _ Hp) as (h & Hh & Hm). destruct x as [m|m| | |]; cbn [attempt ascending] in *; try discriminate.
  - destruct (fst s m) as [t'|] eqn:E; [|discriminate]. destruct (t' =? t) eqn:Et; [|discriminate]. apply Nat.eqb_eq in Et. subst.
    apply Hm in E. destruct Hh as [Hr _]. specialize (Hr m E). lia.
  - destruct Hh as [Hin _]. apply Hm in Hin. rewrite Hin, Nat.eqb_refl in Ha. discriminate.
Qed.

Lemma max_bound_list (f : nat -> nat) (L : list nat) : exists B, forall m, In m L -> f m <= B.
Proof.
  induction L as [|a L [B IH]]; [exists 0; intros m []|]. exists (Nat.max (f a) B). intros m [->|H]; [lia|]. specialize (IH m H). lia.
Qed.

Lemma linv_progress rank s : LInv rank s -> all_done s \/ exists s', lstep s s'.
Proof.
  intros I. pose proof (linv_not_broken _ _ I) as NB. destruct I as [It Io [L If]]. destruct (max_bound_list rank L) as [B HB].
  (* the owner of a mutex is not at its end; if it waits, then for a mutex of a higher rank *)
  assert (Hown : forall n m t, fst s m = Some t -> B - rank m < n -> exists s', lstep s s').
  { induction n as [|n IH]; intros m t Hm Hn; [lia|]. pose proof (If _ _ Hm) as HL. specialize (HB _ HL) as HBm.
    pose proof (Io _ _ Hm) as Ht. destruct (nth_error_ex _ _ Ht) as [p Hp]. destruct (It t p Hp) as (h & Hh & Hmh).
    destruct p as [|x rest]. { cbn [ascending] in Hh. subst h. apply Hmh in Hm. contradiction. }
    destruct (attempt (fst s) t x) as [o'| |] eqn:Ha.
    - exists (o', upd (snd s) t rest). destruct s as [o ps]. eapply lstep_go; eauto.
    - destruct x as [m2|m2| | |]; cbn [attempt] in Ha; try discriminate.
      + destruct (fst s m2) as [t2|] eqn:E2; [|discriminate]. cbn [ascending] in Hh. destruct Hh as [Hr _]. apply Hmh in Hm. specialize (Hr m Hm).
        apply (IH m2 t2 E2). pose proof (HB _ (If _ _ E2)). lia.
      + destruct (fst s m2) as [t2|]; [|discriminate]. destruct (t2 =? t); discriminate.
    - exfalso. apply NB. exists t, x, rest. auto. }
  (* look for a thread which is not at its end *)
  assert (D : forall k, k <= length (snd s) -> (forall t p, t < k -> nth_error (snd s) t = Some p -> p = []) \/ exists s', lstep s s').
  { induction k as [|k IH]; intros Hk; [left; intros; lia|]. destruct IH as [IH|IH]; [lia| |auto].
    destruct (nth_error_ex (snd s) k ltac:(lia)) as [p Hp]. destruct p as [|x rest].
    - left. intros t p Hlt Ht. destruct (Nat.eq_dec t k) as [->|Hne]; [congruence|]. apply (IH t); auto. lia.
    - right. destruct (attempt (fst s) k x) as [o'| |] eqn:Ha.
      + exists (o', upd (snd s) k rest). destruct s as [o ps]. eapply lstep_go; eauto.
      + destruct x as [m2|m2| | |]; cbn [attempt] in Ha; try discriminate.
        * destruct (fst s m2) as [t2|] eqn:E2; [|discriminate]. eapply (Hown (S (B - rank m2)) m2 t2); eauto.
        * destruct (fst s m2) as [t2|]; [|discriminate]. destruct (t2 =? k); discriminate.
      + exfalso. apply NB. exists k, x, rest. auto. }
  destruct (D (length (snd s)) (le_n _)) as [H|H]; auto. left. intros t p Hp. apply (H t); auto. eapply nth_error_lt; eauto.
Qed.

Theorem ascending_no_deadlock rank ps s : (forall p, In p ps -> ascending rank [] p) -> lsteps (lstart ps) s ->
  ~ broken s /\ (all_done s \/ exists s', lstep s s').
Proof.
  intros H Hs. pose proof (linv_steps _ _ _ Hs (linv_start _ _ H)) as I. split; [eapply linv_not_broken; eauto|eapply linv_progress; eauto].
Qed.

(** Running threads by a schedule, for witnesses. *)
Fixpoint lrun (s : lstate) (sched : list nat) : option lstate :=
  match sched with
  | [] => Some s
  | t :: rest =>
      match nth_error (snd s) t with
      | Some (x :: p) => match attempt (fst s) t x with Go o' => lrun (o', upd (snd s) t p) rest | _ => None end
      | _ => None
      end
  end.

Lemma lrun_steps sched : forall s s', lrun s sched = Some s' -> lsteps s s'.
Proof.
  induction sched as [|t sched IH]; intros [o ps] s' H; cbn [lrun fst snd] in H; [injection H as <-; constructor|].
  destruct (nth_error ps t) as [[|x p]|] eqn:Hp; try discriminate. destruct (attempt o t x) as [o'| |] eqn:Ha; try discriminate.
  eapply ls_step; [eapply lstep_go; eauto|]. apply IH. exact H.
Qed.
