(** * FormatProofs: the reader of format strings accepts exactly the grammar. *)

From Verif Require Import Base Signature Printer Matcher TextSpec FormatSpec.
Local Open Scope string_scope.

Lemma digit_digit c : digit_value c = digit c.
Proof. reflexivity. Qed.

(** Which fields may still follow. *)
Definition compatible (m : fmode) (ts : list ftoken) : Prop :=
  match m with
  | MNone => not_mixed ts
  | MAuto _ => forall n, ~ In (TkField (Some n)) ts
  | MManual => ~ In (TkField None) ts
  end.
Definition fields_before (m : fmode) : nat := match m with MAuto n => n | _ => 0 end.

Lemma compatible_tail m t ts : compatible m (t :: ts) -> compatible m ts.
Proof.
  destruct m; cbn.
  - intros H [H1 [n H2]]. apply H. split; [right; auto|exists n; right; auto].
  - intros H n' Hn. apply (H n'). right. auto.
  - intros H Hn. apply H. right. auto.
Qed.
Lemma compatible_cons m t ts : (forall i, t <> TkField i) -> compatible m ts -> compatible m (t :: ts).
Proof.
  intros Ht. destruct m; cbn.
  - intros H [[H1|H1] [n [H2|H2]]]; try (subst t; eapply Ht; reflexivity). apply H. split; [auto|exists n; auto].
  - intros H n' [Hn|Hn]; [subst t; eapply Ht; reflexivity|]. eapply H; eauto.
  - intros H [Hn|Hn]; [subst t; eapply Ht; reflexivity|]. auto.
Qed.

Lemma auto_mode m ts : compatible m (TkField None :: ts) -> exists m', next_auto m = Some (fields_before m, m') /\ compatible m' ts /\ fields_before m' = S (fields_before m).
Proof.
  destruct m as [|n|]; cbn; intros H.
  - eexists. split; [reflexivity|]. split; [|reflexivity]. intros n Hn. apply H. split; [left; auto|exists n; right; auto].
  - eexists. split; [reflexivity|]. split; [|reflexivity]. intros n' Hn. apply (H n'). right. auto.
  - exfalso. apply H. left. reflexivity.
Qed.
Lemma auto_mode_inv m i m' ts : next_auto m = Some (i, m') -> compatible m' ts -> i = fields_before m /\ fields_before m' = S i /\ compatible m (TkField None :: ts).
Proof.
  destruct m as [|n|]; cbn; intros H C; try discriminate; injection H as <- <-; cbn in C; (split; [reflexivity|]); (split; [reflexivity|]).
  - intros [_ [n [Hn|Hn]]]; [discriminate|]. eapply C; eauto.
  - intros n' [Hn|Hn]; [discriminate|]. eapply C; eauto.
Qed.
Lemma index_mode m n ts : compatible m (TkField (Some n) :: ts) -> exists m', use_index m = Some m' /\ compatible m' ts.
Proof.
  destruct m as [|k|]; cbn; intros H.
  - eexists. split; [reflexivity|]. cbn. intros Hn. apply H. split; [right; auto|exists n; left; auto].
  - exfalso. apply (H n). left. reflexivity.
  - eexists. split; [reflexivity|]. cbn. intros Hn. apply H. right. auto.
Qed.
Lemma index_mode_inv m m' n ts : use_index m = Some m' -> compatible m' ts -> compatible m (TkField (Some n) :: ts) /\ m' = MManual.
Proof.
  destruct m as [|k|]; cbn; intros H C; try discriminate; injection H as <-; cbn in C; (split; [|reflexivity]).
  - intros [[Hn|Hn] _]; [discriminate|]. auto.
  - intros [Hn|Hn]; [discriminate|]. auto.
Qed.

(** Without fields which count, the counter does not matter. *)
Lemma fills_any args k k' ts s : ~ In (TkField None) ts -> fills args k ts s -> fills args k' ts s.
Proof.
  intros Hn H. revert k'. induction H; intros k'; try (constructor; auto; fail).
  - constructor. apply IHfills. intros Hi. apply Hn. right. auto.
  - constructor. apply IHfills. intros Hi. apply Hn. right. auto.
  - constructor. apply IHfills. intros Hi. apply Hn. right. auto.
  - exfalso. apply Hn. left. reflexivity.
  - eapply fi_index; eauto. apply IHfills. intros Hi. apply Hn. right. auto.
Qed.

(** ** Reading what is spelled *)

Lemma read_digits m args r : forall t z n v, read_decimal n t = Some v -> (z = true -> t = "") ->
  vfmt (FIndex z n) m (t ++ r) args = vfmt (FIndex (if t then z else false) v) m r args.
Proof.
  induction t as [|c t IH]; intros z n v H Hz; [cbn in H; injection H as <-; reflexivity|].
  destruct z; [discriminate (Hz eq_refl)|]. cbn [read_decimal] in H. destruct (digit c) as [d|] eqn:Ed; [|discriminate].
  cbn [append vfmt]. rewrite digit_digit, Ed.
  assert (Hc : Ascii.eqb c "}" = false /\ Ascii.eqb c ":" = false).
  { split; apply Ascii.eqb_neq; intros ->; discriminate. }
  destruct Hc as [-> ->]. cbn [orb]. rewrite (IH false _ v H) by discriminate. destruct t; reflexivity.
Qed.

Lemma read_index m args r t v : index_text t v -> vfmt FOpen m (t ++ r) args = vfmt (FIndex (v =? 0)%N v) m r args.
Proof.
  intros (Hne & H & Hz). destruct t as [|c t]; [congruence|]. cbn [read_decimal] in H. destruct (digit c) as [d|] eqn:Ed; [|discriminate].
  cbn [append vfmt]. rewrite digit_digit, Ed.
  assert (Hc : Ascii.eqb c "}" = false /\ Ascii.eqb c ":" = false /\ Ascii.eqb c "{" = false).
  { repeat split; apply Ascii.eqb_neq; intros ->; discriminate. }
  destruct Hc as (-> & -> & ->). cbn [orb]. replace (10 * 0 + d)%N with d in H by lia.
  assert (H0 : (d =? 0)%N = true -> t = "").
  { intros E. apply N.eqb_eq in E. apply (Hz t). f_equal. clear - E Ed. unfold digit in Ed. destruct ((48 <=? N_of_ascii c) && (N_of_ascii c <=? 57))%N eqn:Eb; [|discriminate].
    injection Ed as Ed. apply andb_prop in Eb as [E1 E2]. apply N.leb_le in E1, E2. assert (E3 : N_of_ascii c = 48%N) by lia.
    rewrite <- (ascii_N_embedding c), E3. reflexivity. }
  rewrite (read_digits m args r t _ _ v H H0). destruct t as [|c' t]; [cbn in H; injection H as <-; reflexivity|].
  assert (v <> 0)%N.
  { destruct (N.eqb_spec d 0) as [->|Hd]; [discriminate (H0 eq_refl)|]. clear - H Hd. revert d H Hd. generalize (String c' t). clear. induction s as [|c s IH]; intros d H Hd.
    - cbn in H. congruence.
    - cbn [read_decimal] in H. destruct (digit c); [|discriminate]. apply (IH _ H). lia. }
  destruct (N.eqb_spec v 0); [contradiction|]. reflexivity.
Qed.

Lemma in_range {A : Type} (l : list A) n a : nth_error l (N.to_nat n) = Some a -> (n <? N.of_nat (List.length l))%N = true.
Proof. intros H. apply N.ltb_lt. assert (N.to_nat n < List.length l) by (apply nth_error_Some; congruence). lia. Qed.

Lemma spelled_formats args : forall ts fmt, spells ts fmt -> forall m s, compatible m ts -> fills args (fields_before m) ts s ->
  vfmt FText m fmt args = Ret s.
Proof.
  intros ts fmt H. induction H as [|c ts f Ho Hc H IH|ts f H IH|ts f H IH|ts f spec Hs H IH|ts f t n spec Hs Ht H IH]; intros m s C F.
  - inversion F; subst. reflexivity.
  - inversion F; subst. cbn [vfmt]. rewrite (proj2 (Ascii.eqb_neq c "{") Ho), (proj2 (Ascii.eqb_neq c "}") Hc).
    erewrite IH; [reflexivity| |eassumption]. eapply compatible_tail; eauto.
  - inversion F; subst. cbn. erewrite IH; [reflexivity| |eassumption]. eapply compatible_tail; eauto.
  - inversion F; subst. cbn. erewrite IH; [reflexivity| |eassumption]. eapply compatible_tail; eauto.
  - inversion F as [| | | |k ts' s' a Ha F'|]; subst. destruct (auto_mode _ _ C) as (m' & Em & C' & Ef).
    assert (R : vfmt FText m' f args = Ret s') by (apply IH; [auto|rewrite Ef; auto]).
    destruct Hs as [-> | ->]; cbn; rewrite Em, Ha; cbn; rewrite ?Ha, R; reflexivity.
  - inversion F as [| | | | |k n' ts' s' a Ha F']; subst. destruct (index_mode _ _ _ C) as (m' & Em & C').
    assert (R : vfmt FText m' f args = Ret s').
    { apply IH; auto. destruct m; cbn in Em; try discriminate; injection Em as <-; cbn; eauto. }
    cbn [append]. cbn [vfmt Ascii.eqb]. change (Ascii.eqb "{" "{") with true. cbn iota. rewrite (read_index m args _ t n Ht).
    destruct Hs as [-> | ->]; cbn; rewrite Em, (in_range _ _ _ Ha), Ha; cbn; rewrite ?Ha, R; reflexivity.
Qed.

(** ** What is read was spelled *)

Lemma read_decimal_snoc c : forall t n v d, read_decimal n t = Some v -> digit c = Some d -> read_decimal n (t ++ String c "") = Some (10 * v + d)%N.
Proof.
  induction t as [|x t IH]; intros n v d H Hd; cbn [append read_decimal] in *; [injection H as <-; rewrite Hd; reflexivity|].
  destruct (digit x); [|discriminate]. eapply IH; eauto.
Qed.
Lemma sapp_assoc' (a b c : string) : (a ++ b) ++ c = a ++ b ++ c.
Proof. induction a as [|x a IH]; cbn [append]; [auto|rewrite IH; auto]. Qed.

Definition read_by (args : list string) (m : fmode) (fmt s : string) : Prop :=
  exists ts, spells ts fmt /\ compatible m ts /\ fills args (fields_before m) ts s.

Lemma read_auto args m i m' a spec r s : (spec = "" \/ spec = ":") -> next_auto m = Some (i, m') -> nth_error args i = Some a ->
  read_by args m' r s -> read_by args m ("{" ++ spec ++ "}" ++ r) (a ++ s).
Proof.
  intros Hs Em Ha (ts & S & C & F). destruct (auto_mode_inv _ _ _ _ Em C) as (-> & Ef & C'). exists (TkField None :: ts).
  split; [constructor; auto|]. split; [auto|]. econstructor; eauto. rewrite <- Ef. auto.
Qed.
Lemma read_indexed args m m' n t a spec r s : (spec = "" \/ spec = ":") -> index_text t n -> use_index m = Some m' -> nth_error args (N.to_nat n) = Some a ->
  read_by args m' r s -> read_by args m ("{" ++ t ++ spec ++ "}" ++ r) (a ++ s).
Proof.
  intros Hs Ht Em Ha (ts & S & C & F). destruct (index_mode_inv _ _ n _ Em C) as (C' & ->). exists (TkField (Some n) :: ts).
  split; [constructor; auto|]. split; [auto|]. eapply fi_index; eauto. apply (fills_any _ 0); auto.
Qed.

(** What a successful reading tells in every state. *)
Definition read_in (args : list string) (st : fstate) (m : fmode) (fmt s : string) : Prop :=
  match st with
  | FText => read_by args m fmt s
  | FOpen => read_by args m ("{" ++ fmt) s
  | FClose => read_by args m ("}" ++ fmt) s
  | FIndex z n => forall t, index_text t n -> z = (n =? 0)%N -> read_by args m ("{" ++ t ++ fmt) s
  | FSpec i => exists a r s', nth_error args i = Some a /\ fmt = "}" ++ r /\ s = a ++ s' /\ read_by args m r s'
  end.

Lemma reads args : forall fmt st m s, vfmt st m fmt args = Ret s -> read_in args st m fmt s.
Proof.
  induction fmt as [|c r IH]; intros st m s H.
  { destruct st; cbn in H; try discriminate. injection H as <-. exists []. split; [constructor|]. split; [|constructor].
    destruct m; cbn; [intros [[] _]|intros n0 []|intros []]. }
  destruct st as [| |z n|i|]; cbn [vfmt] in H.
  - destruct (Ascii.eqb_spec c "{") as [->|Ho]; [apply (IH FOpen _ _ H)|]. destruct (Ascii.eqb_spec c "}") as [->|Hc]; [apply (IH FClose _ _ H)|].
    destruct (vfmt FText m r args) as [s'| | |] eqn:E; try discriminate. cbn in H. injection H as <-. destruct (IH FText m s' E) as (ts & S & C & F).
    exists (TkChar c :: ts). split; [constructor; auto|]. split; [apply compatible_cons; [discriminate|auto]|constructor; auto].
  - destruct (Ascii.eqb_spec c "{") as [->|Ho].
    { destruct (vfmt FText m r args) as [s'| | |] eqn:E; try discriminate. cbn in H. injection H as <-. destruct (IH FText m s' E) as (ts & S & C & F).
      exists (TkOpen :: ts). split; [apply (sp_open ts r S)|]. split; [apply compatible_cons; [discriminate|auto]|apply (fi_open args _ ts s' F)]. }
    destruct (Ascii.eqb_spec c "}") as [->|Hc]; cbn [orb] in H.
    { destruct (next_auto m) as [[i m']|] eqn:Em; [|discriminate]. destruct (nth_error args i) as [a|] eqn:Ha; [|discriminate].
      change (Ascii.eqb "}" ":") with false in H. cbn iota in H. destruct (vfmt FText m' r args) as [s'| | |] eqn:E; try discriminate. cbn in H. injection H as <-.
      apply (read_auto args m i m' a ""); auto. apply (IH FText m' s' E). }
    destruct (Ascii.eqb_spec c ":") as [->|Hc2].
    { destruct (next_auto m) as [[i m']|] eqn:Em; [|discriminate]. destruct (nth_error args i) as [a|] eqn:Ha; [|discriminate].
      destruct (IH (FSpec i) _ _ H) as (a' & r' & s' & Ha' & -> & -> & R). rewrite Ha in Ha'. injection Ha' as <-. apply (read_auto args m i m' a ":"); auto. }
    destruct (digit_value c) as [d|] eqn:Ed; [|discriminate]. pose proof (IH _ _ _ H) as R. cbn [read_in] in R.
    apply (R (String c "")); [|reflexivity]. split; [discriminate|]. split; [cbn [read_decimal]; rewrite <- digit_digit, Ed; f_equal; lia|congruence].
  - intros t Ht Hz. destruct (Ascii.eqb_spec c "}") as [->|Hc]; cbn [orb] in H.
    { destruct (use_index m) as [m'|] eqn:Em; [|discriminate]. destruct (n <? _)%N; [|discriminate]. destruct (nth_error args (N.to_nat n)) as [a|] eqn:Ha; [|discriminate].
      change (Ascii.eqb "}" ":") with false in H. cbn iota in H. destruct (vfmt FText m' r args) as [s'| | |] eqn:E; try discriminate. cbn in H. injection H as <-.
      apply (read_indexed args m m' n t a ""); auto. apply (IH FText m' s' E). }
    destruct (Ascii.eqb_spec c ":") as [->|Hc2].
    { destruct (use_index m) as [m'|] eqn:Em; [|discriminate]. destruct (n <? _)%N; [|discriminate]. destruct (nth_error args (N.to_nat n)) as [a|] eqn:Ha; [|discriminate].
      destruct (IH (FSpec _) _ _ H) as (a' & r' & s' & Ha' & -> & -> & R). rewrite Ha in Ha'. injection Ha' as <-. apply (read_indexed args m m' n t a ":"); auto. }
    destruct (digit_value c) as [d|] eqn:Ed; [|discriminate]. destruct z; [discriminate|]. pose proof (IH _ _ _ H) as R. cbn [read_in] in R.
    symmetry in Hz. apply N.eqb_neq in Hz. specialize (R (t ++ String c "")). rewrite sapp_assoc' in R. apply R; [|symmetry; apply N.eqb_neq; lia].
    destruct Ht as (Hne & Hr & H0). split; [destruct t; discriminate|]. split; [apply read_decimal_snoc; auto|].
    intros rest E. destruct t as [|c0 t]; [congruence|]. injection E as -> E. rewrite (H0 t eq_refl) in Hr. cbn in Hr. congruence.
  - destruct (Ascii.eqb_spec c "}") as [->|Hc]; [|discriminate]. destruct (nth_error args i) as [a|] eqn:Ha; [|discriminate].
    destruct (vfmt FText m r args) as [s'| | |] eqn:E; try discriminate. cbn in H. injection H as <-. exists a, r, s'. split; [auto|]. split; [auto|]. split; [auto|]. apply (IH FText m s' E).
  - destruct (Ascii.eqb_spec c "}") as [->|Hc]; [|discriminate]. destruct (vfmt FText m r args) as [s'| | |] eqn:E; try discriminate. cbn in H. injection H as <-.
    destruct (IH FText m s' E) as (ts & S & C & F). exists (TkClose :: ts). split; [apply (sp_close ts r S)|].
    split; [apply compatible_cons; [discriminate|auto]|apply (fi_close args _ ts s' F)].
Qed.

Lemma vformat_ret fmt args s : vformat fmt args = Ret s <-> formatted fmt args s.
Proof.
  split; [intros H; apply (reads args _ FText MNone s H)|]. intros (ts & S & C & F). apply (spelled_formats args ts fmt S MNone s C F).
Qed.

(** ** The other outcomes *)

Lemma vfmt_outcomes args : forall fmt st m, (forall i, st <> FSpec i) ->
  match vfmt st m fmt args with
  | Ret _ => True
  | Throw e => e = ERuntimeError
  | Terminate => False
  | Undef u => u = UbDomain /\ ~ no_colon fmt /\ args <> []
  end.
Proof.
  assert (G : forall fmt st m,
    match vfmt st m fmt args with
    | Ret _ => True
    | Throw e => e = ERuntimeError
    | Terminate => False
    | Undef u => u = UbDomain /\ ((exists i, st = FSpec i) \/ ~ no_colon fmt /\ args <> [])
    end).
  { induction fmt as [|c r IH]; intros st m; [destruct st; cbn; auto|].
    assert (K : forall st' m' (k : string -> string), (forall i, st' = FSpec i -> c = ":"%char /\ args <> []) ->
      match obind (vfmt st' m' r args) (fun s => Ret (k s)) with
      | Ret _ => True | Throw e => e = ERuntimeError | Terminate => False
      | Undef u => u = UbDomain /\ ((exists i, st = FSpec i) \/ ~ no_colon (String c r) /\ args <> []) end).
    { intros st' m' k Hst. specialize (IH st' m'). destruct (vfmt st' m' r args) as [s|e| |u]; cbn; auto. destruct IH as (-> & [[i Hi]|[Hn Ha]]); (split; [reflexivity|]); right.
      - destruct (Hst i Hi) as [-> Ha]. split; [|auto]. intros H. apply H. left. reflexivity.
      - split; [|auto]. intros H. apply Hn. intros Hi. apply H. right. auto. }
    assert (K' : forall st' m', (forall i, st' = FSpec i -> c = ":"%char /\ args <> []) ->
      match vfmt st' m' r args with
      | Ret _ => True | Throw e => e = ERuntimeError | Terminate => False
      | Undef u => u = UbDomain /\ ((exists i, st = FSpec i) \/ ~ no_colon (String c r) /\ args <> []) end).
    { intros st' m' Hst. specialize (K st' m' (fun s => s) Hst). destruct (vfmt st' m' r args); exact K. }
    assert (Hne : forall i a, nth_error args i = Some a -> args <> []) by (intros [|i] a Hi E; rewrite E in Hi; discriminate).
    destruct st as [| |z n|i|]; cbn [vfmt].
    - destruct (Ascii.eqb c "{"); [apply K'; discriminate|]. destruct (Ascii.eqb c "}"); [apply K'; discriminate|]. apply (K FText m (String c)). discriminate.
    - destruct (Ascii.eqb c "{"); [apply (K FText m (String "{")); discriminate|].
      destruct (Ascii.eqb c "}" || Ascii.eqb c ":").
      + destruct (next_auto m) as [[i m']|]; [|reflexivity]. destruct (nth_error args i) as [a|] eqn:Ha; [|reflexivity].
        destruct (Ascii.eqb_spec c ":") as [->|]; [apply K'; intros; split; [reflexivity|eauto]|apply (K FText m' (append a)); discriminate].
      + destruct (digit_value c); [apply K'; discriminate|reflexivity].
    - destruct (Ascii.eqb c "}" || Ascii.eqb c ":").
      + destruct (use_index m) as [m'|]; [|reflexivity]. destruct (_ <? _)%N; [|reflexivity]. destruct (nth_error args (N.to_nat n)) as [a|] eqn:Ha; [|reflexivity].
        destruct (Ascii.eqb_spec c ":") as [->|]; [apply K'; intros; split; [reflexivity|eauto]|apply (K FText m' (append a)); discriminate].
      + destruct (digit_value c); [|reflexivity]. destruct z; [reflexivity|]. apply K'. discriminate.
    - destruct (Ascii.eqb c "}"); [|split; [reflexivity|left; eauto]]. destruct (nth_error args i) as [a|]; [|reflexivity]. apply (K FText m (append a)). discriminate.
    - destruct (Ascii.eqb c "}"); [|reflexivity]. apply (K FText m (String "}")). discriminate. }
  intros fmt st m Hst. specialize (G fmt st m). destruct (vfmt st m fmt args); auto. destruct G as (-> & [[i ->]|H]); [exfalso; eapply Hst; reflexivity|auto].
Qed.

Lemma vformat_throw fmt args : no_colon fmt \/ args = [] -> (vformat fmt args = Throw ERuntimeError <-> forall s, ~ formatted fmt args s).
Proof.
  intros Hc. split.
  - intros H s Hs. apply vformat_ret in Hs. congruence.
  - intros H. pose proof (vfmt_outcomes args fmt FText MNone ltac:(discriminate)) as O. unfold vformat in *.
    destruct (vfmt FText MNone fmt args) as [s|e| |u] eqn:E; [|congruence|contradiction|].
    + exfalso. apply (H s). apply vformat_ret. exact E.
    + destruct O as (_ & Hn & Ha). destruct Hc; contradiction.
Qed.
