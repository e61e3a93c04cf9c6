(** * ActionProofs: lemmas about side effects and finalizers. *)

From Verif Require Import Base Lib Sequence Control Signature Printer Reports Expectation Builder World Actions ActionSpec.

Section Moves.
Context (residue : val -> val).

Lemma init_inv e m v m1 : init_from residue e m = Some (v, m1) ->
  value_of m e = Some v /\ length m1 = length m /\ (forall l, e <> Xv l -> nth_error m1 l = nth_error m l).
Proof.
  destruct e as [x|l|l]; simpl.
  - intros H; inversion H; subst. auto.
  - destruct (nth_error m l) eqn:E; [|discriminate]. intros H; inversion H; subst. auto.
  - destruct (nth_error m l) eqn:E; [|discriminate]. intros H; inversion H; subst. rewrite length_upd. split; auto. split; auto. intros k Hk. apply nth_error_upd_neq. congruence.
Qed.

Lemma bind_param_inv p e m l m1 : bind_param residue p e m = Some (l, m1) ->
  (by_reference p e = Some l /\ m1 = m /\ l < length m) \/
  (by_reference p e = None /\ l = length m /\ length m1 = S (length m) /\ (exists v, value_of m e = Some v /\ nth_error m1 l = Some v) /\
   forall k, k < length m -> ~ (p = ByValue /\ e = Xv k) -> nth_error m1 k = nth_error m k).
Proof.
  unfold bind_param. destruct p.
  - destruct (init_from residue e m) as [[v m0]|] eqn:E; [|discriminate]. destruct (init_inv _ _ _ _ E) as (Hv & Hl & Hk). unfold new_object. intros H; inversion H; subst.
    right. split; [reflexivity|]. rewrite app_length. simpl. split; [auto|]. split; [lia|]. split; [exists v; split; auto; apply nth_error_app_last|].
    intros k Hkl Hne. rewrite nth_error_app1 by lia. apply Hk. intros ->. auto.
  - destruct e as [v|k|k]; try discriminate. destruct (Nat.ltb_spec k (length m)); [|discriminate]. intros H0; inversion H0; subst. left. auto.
  - destruct e as [v|k|k]; [|destruct (Nat.ltb_spec k (length m)); [|discriminate]; intros H0; inversion H0; subst; left; auto ..].
    unfold new_object. intros H; inversion H; subst. right. rewrite app_length. simpl. split; auto. split; auto. split; [lia|]. split; [exists v; split; auto; apply nth_error_app_last|].
    intros k Hkl _. apply nth_error_app1. auto.
  - destruct e as [v|k|k]; [|discriminate|destruct (Nat.ltb_spec k (length m)); [|discriminate]; intros H0; inversion H0; subst; left; auto].
    unfold new_object. intros H; inversion H; subst. right. rewrite app_length. simpl. split; auto. split; auto. split; [lia|]. split; [exists v; split; auto; apply nth_error_app_last|].
    intros k Hkl _. apply nth_error_app1. auto.
Qed.

Lemma bind_length ps : forall es m ls m1, bind_params residue ps es m = Some (ls, m1) -> length ls = length ps /\ length es = length ps /\ length m <= length m1.
Proof.
  induction ps as [|p ps IH]; intros [|e es] m ls m1 H; simpl in H; try discriminate.
  - inversion H; subst. auto.
  - destruct (bind_param residue p e m) as [[l m0]|] eqn:E; [|discriminate]. destruct (bind_params residue ps es m0) as [[ls0 m2]|] eqn:E2; [|discriminate].
    inversion H; subst. destruct (IH _ _ _ _ E2) as (A & B & C). simpl. rewrite A, B. split; auto. split; auto.
    apply bind_param_inv in E. destruct E as [(_ & -> & _)|(_ & _ & L & _)]; lia.
Qed.

(** Reference parameters are bound to the object of the caller; the others are new objects. *)
Lemma bind_spec ps : forall es m ls m1, bind_params residue ps es m = Some (ls, m1) ->
  forall k p e, nth_error ps k = Some p -> nth_error es k = Some e ->
  exists l, nth_error ls k = Some l /\ l < length m1 /\
    match by_reference p e with
    | Some o => l = o
    | None => length m <= l /\ (forall k', nth_error ls k' = Some l -> (forall e', In e' es -> denotes m e') -> k' = k)
    end.
Proof.
  induction ps as [|p ps IH]; intros [|e es] m ls m1 H k p0 e0 Hp He; simpl in H; try discriminate; try (destruct k; discriminate).
  destruct (bind_param residue p e m) as [[l m0]|] eqn:E; [|discriminate]. destruct (bind_params residue ps es m0) as [[ls0 m2]|] eqn:E2; [|discriminate].
  inversion H; subst. destruct (bind_length _ _ _ _ _ E2) as (L1 & L2 & L3). pose proof (bind_param_inv _ _ _ _ _ E) as B. destruct k as [|k]; simpl in Hp, He.
  - inversion Hp; inversion He; subst. exists l. split; auto. destruct B as [(-> & -> & ?)|(-> & -> & Lm & _ & _)]; [split; [lia|auto]|]. split; [lia|]. split; auto.
    intros [|k'] Hk' Hd; auto. exfalso. simpl in Hk'. assert (k' < length ps) as Hlt by (apply nth_error_lt in Hk'; lia).
    destruct (nth_error_ex _ _ Hlt) as [p' Hp']. assert (k' < length es) as Hlt2 by lia. destruct (nth_error_ex _ _ Hlt2) as [e' He'].
    destruct (IH _ _ _ _ E2 _ _ _ Hp' He') as (l' & Hl' & _ & Hr). rewrite Hk' in Hl'. inversion Hl'; subst l'. destruct (by_reference p' e') as [o|] eqn:Eb; [|lia]. subst o.
    assert (denotes m e') as De by (apply Hd; right; eapply nth_error_In; eauto). destruct p', e'; simpl in Eb; try discriminate; inversion Eb; subst; simpl in De; lia.
  - destruct (IH _ _ _ _ E2 _ _ _ Hp He) as (l' & Hl' & Hlt & Hr). exists l'. split; auto. split; auto. destruct (by_reference p0 e0) as [o|]; auto.
    destruct Hr as [Hge Hu]. assert (length m <= length m0) as Hm by (destruct B as [(_ & -> & _)|(_ & _ & Lm & _)]; lia). split; [lia|].
    intros [|k'] Hk' Hd; simpl in Hk'.
    + exfalso. inversion Hk'; subst l'. destruct B as [(_ & -> & ?)|(_ & -> & Lm & _)]; lia.
    + f_equal. apply Hu; auto. intros e' Hin. specialize (Hd e' (or_intror Hin)). destruct e'; simpl in *; lia.
Qed.

(** Objects not moved into a parameter keep their values, and the new parameter objects get the values of their arguments. *)
Lemma bind_memory ps : forall es m ls m1, bind_params residue ps es m = Some (ls, m1) ->
  (forall l, l < length m -> (forall k, ~ moved_in ps es k l) -> nth_error m1 l = nth_error m l) /\
  ((forall e, In e es -> denotes m e) ->
   forall k p e l, nth_error ps k = Some p -> nth_error es k = Some e -> by_reference p e = None -> nth_error ls k = Some l ->
   (forall o k', (e = Lv o \/ e = Xv o) -> moved_in ps es k' o -> k' = k) -> exists v, value_of m e = Some v /\ nth_error m1 l = Some v).
Proof.
  induction ps as [|p ps IH]; intros [|e es] m ls m1 H; simpl in H; try discriminate.
  - inversion H; subst. split; [auto|]. intros _ [|k]; discriminate.
  - destruct (bind_param residue p e m) as [[l m0]|] eqn:E; [|discriminate]. destruct (bind_params residue ps es m0) as [[ls0 m2]|] eqn:E2; [|discriminate].
    inversion H; subst. destruct (IH _ _ _ _ E2) as [IH1 IH2]. pose proof (bind_param_inv _ _ _ _ _ E) as B. pose proof (bind_length _ _ _ _ _ E2) as (L1 & L2 & L3).
    assert (Lm : length m <= length m0) by (destruct B as [(_ & -> & _)|(_ & _ & Lm & _)]; lia).
    assert (First : forall o, o < length m -> ~ moved_in (p :: ps) (e :: es) 0 o -> nth_error m0 o = nth_error m o).
    { intros o Ho Hn. destruct B as [(_ & -> & _)|(_ & _ & _ & _ & Hk)]; auto. apply Hk; auto. intros [-> ->]. apply Hn. split; reflexivity. }
    split.
    + intros o Ho Hn. rewrite IH1; [apply First; auto; apply Hn|lia|]. intros k [A1 A2]. apply (Hn (Datatypes.S k)). split; auto.
    + intros Hd k p0 e0 l0 Hp He Hb Hl Hu. destruct k as [|k]; simpl in Hp, He, Hl.
      * inversion Hp; inversion He; inversion Hl; subst. destruct B as [(F & _)|(_ & El & Lm0 & (v & Hv & Hm0) & _)]; [congruence|]. exists v. split; auto. subst l0.
        rewrite IH1; auto; [lia|]. intros k [A1 A2]. assert (length m < length m) as F; [|lia].
        specialize (Hd (Xv (length m)) (or_intror (nth_error_In _ _ A2))). exact Hd.
      * destruct (IH2) with (k := k) (p := p0) (e := e0) (l := l0) as (v & Hv & Hm); auto.
        { intros e' Hin. specialize (Hd e' (or_intror Hin)). destruct e'; simpl in *; lia. }
        { intros o k' Ho [A1 A2]. assert (Datatypes.S k' = Datatypes.S k) as F; [|lia]. apply (Hu o); auto. split; auto. }
        exists v. split; auto. specialize (Hd e0 (or_intror (nth_error_In _ _ He))). destruct e0 as [x|o|o]; simpl in *; auto.
        -- rewrite <- First; auto. intros Hmi. specialize (Hu o 0 (or_introl eq_refl) Hmi). discriminate.
        -- rewrite <- First; auto. intros Hmi. specialize (Hu o 0 (or_intror eq_refl) Hmi). discriminate.
Qed.

Lemma select_spec indices (ls : list nat) : forall xs, select indices ls = Some xs ->
  length xs = length indices /\ forall k i, nth_error indices k = Some i -> exists l, nth_error ls i = Some l /\ nth_error xs k = Some l.
Proof.
  induction indices as [|i indices IH]; intros xs H; simpl in H.
  - inversion H; subst. split; auto. intros [|k]; discriminate.
  - destruct (nth_error ls i) as [x|] eqn:E; [|discriminate]. destruct (select indices ls) as [ys|]; [|discriminate]. inversion H; subst.
    destruct (IH _ eq_refl) as [A B]. simpl. split; [lia|]. intros [|k] j Hj; simpl in Hj; [inversion Hj; subst; eauto|]. apply B; auto.
Qed.
Lemma select_in indices (ls : list nat) : forall xs, select indices ls = Some xs -> forall l, In l xs -> exists i, In i indices /\ nth_error ls i = Some l.
Proof.
  induction indices as [|i indices IH]; intros xs H l Hin; simpl in H; [inversion H; subst; contradiction|].
  destruct (nth_error ls i) as [x|] eqn:E; [|discriminate]. destruct (select indices ls) as [ys|]; [|discriminate]. inversion H; subst.
  destruct Hin as [<-|Hin]; [exists i; split; [left|]; auto|]. destruct (IH _ eq_refl _ Hin) as (j & A & B). exists j. split; [right|]; auto.
Qed.
Lemma select_ok indices (ls : list nat) : indices_ok (length ls) indices = true -> exists xs, select indices ls = Some xs.
Proof.
  induction indices as [|i indices IH]; simpl; intros H; [eauto|]. apply andb_prop in H. destruct H as [H1 H2]. apply Nat.ltb_lt in H1.
  destruct (nth_error_ex _ _ H1) as [x ->]. destruct (IH H2) as [xs ->]. eauto.
Qed.
Lemma select_length {A B} indices (a : list A) (b : list B) : length a = length b -> (select indices a = None <-> select indices b = None).
Proof.
  intros H. induction indices as [|i indices IH]; simpl; [split; discriminate|].
  assert (nth_error a i = None <-> nth_error b i = None) as N by (rewrite !nth_error_None; lia).
  destruct (nth_error a i), (nth_error b i); try (exfalso; destruct N as [N1 N2]; try (specialize (N1 eq_refl); discriminate); specialize (N2 eq_refl); discriminate); [|tauto].
  destruct (select indices a), (select indices b); split; intros F; try discriminate; auto; destruct IH as [I1 I2]; try (specialize (I1 eq_refl); discriminate); specialize (I2 eq_refl); discriminate.
Qed.

Lemma selected_lvalues indices ls xs : select indices ls = Some xs -> selected_by indices ls (map as_lvalue xs).
Proof.
  intros H. destruct (select_spec _ _ _ H) as [A B]. split; [rewrite map_length; auto|]. intros k i Hi. destruct (B _ _ Hi) as (l & H1 & H2). exists l. split; auto.
  rewrite (map_nth_error _ _ _ H2). reflexivity.
Qed.
Lemma handed_gets se ls args : handed se ls = Some args -> gets se ls args.
Proof.
  destruct se as [is f|f|f]; simpl.
  - destruct (select is ls) as [xs|] eqn:E; [|discriminate]. intros H; inversion H; subst. apply selected_lvalues; auto.
  - intros H; inversion H; subst. split; [apply map_length|]. intros k l Hl. rewrite (map_nth_error _ _ _ Hl). reflexivity.
  - intros H; inversion H; reflexivity.
Qed.
(** What is handed is determined by [gets]. *)
Lemma gets_unique se ls a b : gets se ls a -> gets se ls b -> a = b.
Proof.
  destruct se as [is f|f|f]; simpl.
  - intros [A1 A2] [B1 B2]. apply nth_error_ext_eq; [lia|]. intros k x Hk. assert (k < length is) as Hlt by (apply nth_error_lt in Hk; lia).
    destruct (nth_error_ex _ _ Hlt) as [i Hi]. destruct (A2 _ _ Hi) as (y & Hy & Hy'), (B2 _ _ Hi) as (z & Hz & ->). congruence.
  - intros [A1 A2] [B1 B2]. apply nth_error_ext_eq; [lia|]. intros k x Hk. assert (k < length ls) as Hlt by (apply nth_error_lt in Hk; lia).
    destruct (nth_error_ex _ _ Hlt) as [i Hi]. rewrite (B2 _ _ Hi). rewrite (A2 _ _ Hi) in Hk. auto.
  - congruence.
Qed.
Lemma handed_in se ls args l : handed se ls = Some args -> In (Lv l) args -> exists i, selects se i /\ nth_error ls i = Some l.
Proof.
  destruct se as [is f|f|f]; simpl.
  - destruct (select is ls) as [xs|] eqn:E; [|discriminate]. intros H; inversion H; subst. intros Hin. apply in_map_iff in Hin. destruct Hin as (x & Hx & Hin). inversion Hx; subst.
    eapply select_in; eauto.
  - intros H; inversion H; subst. intros Hin. apply in_map_iff in Hin. destruct Hin as (x & Hx & Hin). inversion Hx; subst. apply In_nth_error in Hin. destruct Hin as [i Hi]. eauto.
  - intros H; inversion H; subst. intros [].
Qed.

Lemma consume_spec ses : forall ls m log m', consume ses ls m = Consumed log m' ->
  map i_tag log = map fst ses /\ m' = left_by m log /\
  (forall k n se inv, nth_error ses k = Some (n, se) -> nth_error log k = Some inv ->
     gets se ls (i_args inv) /\ (exists e, function_of se (i_args inv) (i_before inv) = (URet e, i_after inv)) /\
     i_before inv = left_by m (firstn k log)).
Proof.
  induction ses as [|[n se] ses IH]; intros ls m log m' H; simpl in H.
  - inversion H; subst. split; auto. split; auto. intros [|k]; discriminate.
  - destruct (handed se ls) as [args|] eqn:Eh; [|discriminate]. destruct (function_of se args m) as [[e|v] m1] eqn:Ef; [|discriminate].
    destruct (consume ses ls m1) as [log' m2| |] eqn:Ec; try discriminate. inversion H; subst. destruct (IH _ _ _ _ Ec) as (A & B & C).
    simpl. split; [f_equal; auto|]. split.
    + rewrite B. unfold left_by. simpl. clear. revert m m1. induction log' as [|x [|y log'] IH]; intros; auto. simpl in *. apply IH; auto.
    + intros [|k] n0 se0 inv H1 H2; simpl in H1, H2.
      * inversion H1; inversion H2; subst. simpl. split; [apply handed_gets; auto|]. split; eauto.
      * destruct (C _ _ _ _ H1 H2) as (D1 & D2 & D3). split; auto. split; auto. rewrite D3. unfold left_by. simpl.
        clear. revert m m1. generalize (firstn k log'). intros l. induction l as [|x [|y l] IH]; intros; auto. simpl in *. apply IH; auto.
Qed.

Lemma consume_modest ses : forall ls m log m', consume ses ls m = Consumed log m' -> (forall n se, In (n, se) ses -> modest (function_of se)) ->
  length m <= length m' /\
  forall l, l < length m -> (forall n se i, In (n, se) ses -> selects se i -> nth_error ls i <> Some l) -> nth_error m' l = nth_error m l.
Proof.
  induction ses as [|[n se] ses IH]; intros ls m log m' H Hm; simpl in H.
  - inversion H; subst. auto.
  - destruct (handed se ls) as [args|] eqn:Eh; [|discriminate]. destruct (function_of se args m) as [[e|v] m1] eqn:Ef; [|discriminate].
    destruct (consume ses ls m1) as [log' m2| |] eqn:Ec; try discriminate. inversion H; subst.
    destruct (IH _ _ _ _ Ec) as [A B]; [intros; eapply Hm; right; eauto|]. destruct (Hm n se (or_introl eq_refl) _ _ _ _ Ef) as [C D]. split; [lia|].
    intros l Hl Hs. rewrite B; [|lia|intros; eapply Hs; [right|]; eauto]. apply D; auto. intros Hin. destruct (handed_in _ _ _ _ Eh Hin) as (i & Hi & Hn).
    eapply Hs; [left|exact Hi|exact Hn]; reflexivity.
Qed.

Lemma consume_ok ses : forall ls m, forallb (fun '(_, se) => side_effect_ok (length ls) se) ses = true -> consume ses ls m <> ConsumeIllFormed.
Proof.
  induction ses as [|[n se] ses IH]; intros ls m H; simpl in *; [discriminate|]. apply andb_prop in H. destruct H as [H1 H2].
  assert (exists args, handed se ls = Some args) as [args ->]. { destruct se; simpl in *; eauto. destruct (select_ok _ _ H1) as [xs ->]. eauto. }
  destruct (function_of se args m) as [[e|v] m1]; [|discriminate]. specialize (IH ls m1 H2). destruct (consume ses ls m1); congruence.
Qed.

(** The parts of a call that ended. *)
Lemma call_parts ps r ses f es m o log m' : mock_call residue ps r ses f es m = o -> ends o = Some (log, m') ->
  exists ls m1 m2, bind_params residue ps es m = Some (ls, m1) /\ consume ses ls m1 = Consumed log m2 /\ finalize residue f r ps ls log m2 = o /\
    forallb (fun '(_, se) => side_effect_ok (length ps) se) ses = true /\ finalizer_ok (length ps) f = true.
Proof.
  unfold mock_call. destruct (forallb _ ses && finalizer_ok (length ps) f) eqn:Eok; simpl; [|intros <-; discriminate]. apply andb_prop in Eok. destruct Eok as [O1 O2].
  destruct (bind_params residue ps es m) as [[ls m1]|]; [|intros <-; discriminate].
  destruct (consume ses ls m1) as [lg m2| |] eqn:Ec; try (intros <-; discriminate). intros H He. exists ls, m1, m2. split; auto.
  assert (lg = log) as ->; [|auto].
  assert (G : forall r e mm, ends (convert residue lg r e mm) = Some (log, m') -> lg = log).
  { intros r0 e mm. unfold convert. destruct r0; [|destruct (init_from residue e mm) as [[v mm1]|]| | |]; try destruct e; simpl; intros X; inversion X; auto. }
  assert (G2 : forall g args mm, ends (result_of residue lg r g args mm) = Some (log, m') -> lg = log).
  { intros g args mm. unfold result_of. destruct (g args mm) as [[e|v] mm1]; [apply G|]. simpl. intros X; inversion X; auto. }
  rewrite <- H in He. unfold finalize in He. destruct f; eauto.
  - destruct r; try discriminate. inversion He; auto.
  - destruct (select indices ls); [eauto|discriminate].
  - destruct (nth_error ps i); [|discriminate]. destruct (nth_error ls i); [eauto|discriminate].
  - destruct (nth_error m2 cell); inversion He; auto.
Qed.

End Moves.
