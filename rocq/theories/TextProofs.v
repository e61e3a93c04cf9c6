(** * TextProofs: numbers and values can be read back from their text. *)

From Coq Require Import DecimalString DecimalN.
From Coq Require HexadecimalString HexadecimalN Hexadecimal.
From Verif Require Import Base Lib Signature Sequence Control Printer Reports TextSpec.
Local Open Scope string_scope.

Lemma sapp_assoc (a b c : string) : (a ++ b) ++ c = a ++ b ++ c.
Proof. induction a as [|x a IH]; cbn [append]; [auto|rewrite IH; auto]. Qed.
Lemma sapp_nil (a : string) : a ++ "" = a.
Proof. induction a as [|x a IH]; cbn [append]; [auto|rewrite IH; auto]. Qed.
Lemma sapp_inv p (a b : string) : p ++ a = p ++ b -> a = b.
Proof. induction p as [|x p IH]; cbn [append]; [auto|]. intros H. injection H. auto. Qed.

(** ** Characters *)

Fixpoint all_chars (f : ascii -> bool) (s : string) : bool :=
  match s with "" => true | String c s' => f c && all_chars f s' end.
Definition no_start (f : ascii -> bool) (s : string) : bool :=
  match s with "" => true | String c _ => negb (f c) end.

Lemma span_unique f s t a b : all_chars f s = true -> all_chars f t = true -> no_start f a = true -> no_start f b = true ->
  s ++ a = t ++ b -> s = t /\ a = b.
Proof.
  revert t. induction s as [|c s IH]; intros [|d t] Hs Ht Ha Hb H; cbn [append all_chars] in *.
  - auto.
  - subst a. cbn [no_start] in Ha. apply andb_true_iff in Ht. destruct Ht as [E _]. rewrite E in Ha. discriminate.
  - subst b. cbn [no_start] in Hb. apply andb_true_iff in Hs. destruct Hs as [E _]. rewrite E in Hb. discriminate.
  - apply andb_true_iff in Hs, Ht. injection H as -> H. destruct (IH t) as [-> ->]; try tauto; auto.
Qed.

Definition is_digit (c : ascii) : bool := match digit c with Some _ => true | None => false end.
Definition is_hex (c : ascii) : bool :=
  let n := N_of_ascii c in (((48 <=? n) && (n <=? 57)) || ((97 <=? n) && (n <=? 102)))%N.

(** ** Decimal numbers *)

Lemma read_acc d : forall p, read_decimal (Npos p) (NilEmpty.string_of_uint d) = Some (Npos (Pos.of_uint_acc d p)).
Proof. induction d; intros p; cbn [NilEmpty.string_of_uint read_decimal]; [reflexivity|..]; cbn [digit N_of_ascii]; 
  match goal with |- context [digit ?c] => let v := eval vm_compute in (digit c) in change (digit c) with v end; cbv iota beta;
  cbn [Pos.of_uint_acc]; rewrite <- IHd; f_equal; lia. Qed.

Lemma read_uint d : read_decimal 0 (NilEmpty.string_of_uint d) = Some (N.of_uint d).
Proof.
  unfold N.of_uint. induction d; cbn [NilEmpty.string_of_uint read_decimal]; [reflexivity|..];
  match goal with |- context [digit ?c] => let v := eval vm_compute in (digit c) in change (digit c) with v end; cbv iota beta; cbn [Pos.of_uint];
  [exact IHd|..]; apply read_acc.
Qed.

Lemma read_dec n : read_decimal 0 (dec n) = Some n.
Proof. unfold dec. rewrite read_uint. f_equal. apply DecimalN.Unsigned.of_to. Qed.

Lemma digits_uint d : all_chars is_digit (NilEmpty.string_of_uint d) = true.
Proof. induction d; cbn [NilEmpty.string_of_uint all_chars]; auto. Qed.
Lemma digits_dec n : all_chars is_digit (dec n) = true.
Proof. apply digits_uint. Qed.

Lemma dec_inj n m : dec n = dec m -> n = m.
Proof. intros H. pose proof (read_dec n) as Hn. rewrite H, read_dec in Hn. congruence. Qed.

Lemma dec_split n m a b : no_start is_digit a = true -> no_start is_digit b = true -> dec n ++ a = dec m ++ b -> n = m /\ a = b.
Proof.
  intros Ha Hb H. apply (span_unique is_digit) in H; auto using digits_dec. destruct H as [H ->]. split; auto. apply dec_inj; auto.
Qed.

Lemma unorm_head d : (exists d', Decimal.unorm d = Decimal.D0 d') -> Decimal.unorm d = Decimal.zero.
Proof.
  intros [d' H]. unfold Decimal.unorm in *. assert (G : forall d e, Decimal.nzhead d <> Decimal.D0 e).
  { clear. induction d; intros e; cbn [Decimal.nzhead]; try discriminate. apply IHd. }
  destruct (Decimal.nzhead d) eqn:E; auto; try discriminate. exfalso. eapply G; eauto.
Qed.

Lemma dec_norm n : exists d, dec n = NilEmpty.string_of_uint (Decimal.unorm d) /\ N.of_uint d = n.
Proof.
  exists (N.to_uint n). split; [|apply DecimalN.Unsigned.of_to].
  unfold dec. rewrite <- DecimalN.Unsigned.to_of, DecimalN.Unsigned.of_to. reflexivity.
Qed.

Lemma dec_no_zero n rest : dec n = String "0" rest -> rest = "".
Proof.
  destruct (dec_norm n) as (d & -> & _). intros H.
  assert (E : exists d', Decimal.unorm d = Decimal.D0 d').
  { destruct (Decimal.unorm d); cbn [NilEmpty.string_of_uint] in H; try discriminate. eauto. }
  apply unorm_head in E. rewrite E in H. cbn in H. injection H as <-. reflexivity.
Qed.

Lemma dec_cons n : exists c s, dec n = String c s /\ is_digit c = true.
Proof.
  destruct (dec n) as [|c s] eqn:E.
  - pose proof (read_dec n) as H. rewrite E in H. cbn in H. injection H as <-. discriminate.
  - exists c, s. split; auto. pose proof (digits_dec n) as H. rewrite E in H. cbn in H. apply andb_true_iff in H. tauto.
Qed.

Lemma digit_not c n : is_digit c = true -> N_of_ascii c = n -> (48 <= n <= 57)%N.
Proof.
  unfold is_digit, digit. intros H <-. destruct ((48 <=? N_of_ascii c) && (N_of_ascii c <=? 57))%N eqn:E; [|discriminate].
  apply andb_true_iff in E. rewrite !N.leb_le in E. tauto.
Qed.

Lemma dec_Z_split z y a b : no_start is_digit a = true -> no_start is_digit b = true -> dec_Z z ++ a = dec_Z y ++ b -> z = y /\ a = b.
Proof.
  intros Ha Hb H.
  assert (Hm : forall n s t, dec n ++ s <> String "-" t).
  { intros n s t E. destruct (dec_cons n) as (c & u & Ed & Hd). rewrite Ed in E. injection E as -> _. discriminate. }
  destruct z as [|p|p], y as [|q|q]; cbn [dec_Z] in H;
    first [ apply dec_split in H; [|assumption|assumption]; destruct H as [E ->]; split; [congruence|reflexivity]
          | exfalso; cbn [append] in H; eapply Hm; exact H
          | exfalso; cbn [append] in H; symmetry in H; eapply Hm; exact H
          | idtac ].
  change (String "-" (dec (Npos p) ++ a) = String "-" (dec (Npos q) ++ b)) in H. injection H as H. apply dec_split in H; auto.
  destruct H as [E ->]. split; congruence.
Qed.

(** ** Hexadecimal numbers *)

Lemma hex_chars_uint d : all_chars is_hex (HexadecimalString.NilEmpty.string_of_uint d) = true.
Proof. induction d; cbn [HexadecimalString.NilEmpty.string_of_uint all_chars]; auto. Qed.

Lemma hex_inj n m : hex n = hex m -> n = m.
Proof.
  unfold hex. intros H. apply (f_equal HexadecimalString.NilEmpty.uint_of_string) in H. rewrite !HexadecimalString.NilEmpty.usu in H.
  injection H as H. rewrite <- (HexadecimalN.Unsigned.of_to n), <- (HexadecimalN.Unsigned.of_to m), H. reflexivity.
Qed.

Fixpoint zeros (k : nat) (d : Hexadecimal.uint) : Hexadecimal.uint := match k with O => d | S k' => Hexadecimal.D0 (zeros k' d) end.

Lemma zeros_string k d : HexadecimalString.NilEmpty.string_of_uint (zeros k d) = repeat_char "0" k ++ HexadecimalString.NilEmpty.string_of_uint d.
Proof. induction k; cbn [zeros repeat_char append HexadecimalString.NilEmpty.string_of_uint]; congruence. Qed.
Lemma zeros_value k d : N.of_hex_uint (zeros k d) = N.of_hex_uint d.
Proof. induction k; auto. Qed.

Lemma hex16_uint n : hex16 n = HexadecimalString.NilEmpty.string_of_uint (zeros (16 - String.length (hex n)) (N.to_hex_uint n)).
Proof. unfold hex16. rewrite zeros_string. reflexivity. Qed.

Lemma hex16_inj n m : hex16 n = hex16 m -> n = m.
Proof.
  rewrite !hex16_uint. intros H. apply (f_equal HexadecimalString.NilEmpty.uint_of_string) in H. rewrite !HexadecimalString.NilEmpty.usu in H.
  injection H as H. apply (f_equal N.of_hex_uint) in H. rewrite !zeros_value, !HexadecimalN.Unsigned.of_to in H. auto.
Qed.

Lemma hex_chars n : all_chars is_hex (hex n) = true.
Proof. apply hex_chars_uint. Qed.
Lemma hex16_chars n : all_chars is_hex (hex16 n) = true.
Proof. rewrite hex16_uint. apply hex_chars_uint. Qed.

(** ** Values *)

Section ValInd.
  Context (P : val -> Prop) (Hint : forall z, P (VInt z)) (Hbool : forall b, P (VBool b)) (Hstr : forall s, P (VStr s))
    (Hw : forall p u, P (VWStr p u)) (Hr : forall l, Forall P l -> P (VRange l)) (Ht : forall l, Forall P l -> P (VTuple l))
    (Hn : P (VOpt None)) (Ho : forall v, P v -> P (VOpt (Some v))) (Hp : forall a, P (VPtr a)) (Hq : P VOpaque) (Hx : forall s, P (VText s)).
  Fixpoint val_induction (v : val) : P v :=
    let fix go (l : list val) : Forall P l := match l with [] => Forall_nil _ | x :: l' => Forall_cons _ (val_induction x) (go l') end in
    match v with
    | VInt z => Hint z | VBool b => Hbool b | VStr s => Hstr s | VWStr p u => Hw p u
    | VRange l => Hr l (go l) | VTuple l => Ht l (go l)
    | VOpt None => Hn | VOpt (Some x) => Ho x (val_induction x) | VPtr a => Hp a | VOpaque => Hq | VText s => Hx s
    end.
End ValInd.

(** What may follow a value: nothing, a comma or a blank. *)
Definition delim (s : string) : bool :=
  match s with "" => true | String c _ => Ascii.eqb c "," || Ascii.eqb c " " end.

Lemma delim_cases s : delim s = true -> s = "" \/ (exists t, s = String "," t) \/ exists t, s = String " " t.
Proof.
  destruct s as [|c s]; cbn; auto. intros H. apply orb_true_iff in H. destruct H as [H|H]; apply Ascii.eqb_eq in H; subst; eauto.
Qed.
Lemma delim_digit s : delim s = true -> no_start is_digit s = true.
Proof. intros H. destruct (delim_cases s H) as [->|[[t ->]|[t ->]]]; reflexivity. Qed.
Lemma delim_hex s : delim s = true -> no_start is_hex s = true.
Proof. intros H. destruct (delim_cases s H) as [->|[[t ->]|[t ->]]]; reflexivity. Qed.

(** The kind of text a value starts with. *)
Inductive lead : Type := LNum | LTrue | LFalse | LNull | LBrace | LPtr | LWide (p : string).
Definition lead_of (v : val) : lead :=
  match v with
  | VInt _ => LNum | VBool true => LTrue | VBool false => LFalse | VOpt None => LNull
  | VRange _ | VTuple _ | VOpt (Some _) => LBrace | VPtr _ => LPtr | VWStr p _ => LWide p | _ => LNum
  end.

Definition first (s : string) : option ascii := match s with "" => None | String c _ => Some c end.

Lemma first_dec n a : exists c, first (dec n ++ a) = Some c /\ is_digit c = true.
Proof. destruct (dec_cons n) as (c & s & -> & H). exists c. auto. Qed.

Lemma first_dec_Z z a : exists c, first (dec_Z z ++ a) = Some c /\ (is_digit c = true \/ c = "-"%char).
Proof.
  destruct z; cbn [dec_Z].
  - destruct (first_dec 0 a) as (c & H & D). eauto.
  - destruct (first_dec (Npos p) a) as (c & H & D). eauto.
  - exists "-"%char. auto.
Qed.

Lemma plain_prefix p u : plain (VWStr p u) = true -> p = "L" \/ p = "u8" \/ p = "u" \/ p = "U".
Proof.
  cbn. rewrite !orb_true_iff, !String.eqb_eq. intros [H|[H|[H|[H|H]]]]; subst; auto. discriminate.
Qed.

Lemma first_print v a : plain v = true -> exists c, first (print v ++ a) = Some c /\ c <> " "%char /\ c <> ","%char /\ c <> "v"%char.
Proof.
  destruct v as [z|b|s|p u|l|l|[x|]|n| |x]; intros H; try discriminate.
  - cbn [print]. destruct (first_dec_Z z a) as (c & E & D). exists c. split; auto. destruct D as [D| ->].
    + repeat split; intros ->; discriminate.
    + repeat split; discriminate.
  - destruct b; eexists; split; [reflexivity| |reflexivity|]; repeat split; discriminate.
  - apply plain_prefix in H. destruct H as [->|[->|[->| ->]]]; eexists; (split; [reflexivity|]); repeat split; discriminate.
  - eexists; split; [reflexivity|]; repeat split; discriminate.
  - eexists; split; [reflexivity|]; repeat split; discriminate.
  - eexists; split; [reflexivity|]; repeat split; discriminate.
  - eexists; split; [reflexivity|]; repeat split; discriminate.
  - eexists; split; [reflexivity|]; repeat split; discriminate.
Qed.

Definition readable (v : val) : Prop := forall v' a b, plain v = true -> plain v' = true -> delim a = true -> delim b = true ->
  print v ++ a = print v' ++ b -> shape v = shape v' /\ a = b.

Lemma join_rest_unique l : Forall readable l -> forall l' a b, forallb plain l = true -> forallb plain l' = true ->
  join_rest (map print l) ++ " }" ++ a = join_rest (map print l') ++ " }" ++ b -> map shape l = map shape l' /\ a = b.
Proof.
  intros H. induction H as [|v l Hv Hl IH]; intros [|v' l'] a b Hp Hp' E; cbn [map join_rest append] in E.
  - injection E as E. auto.
  - discriminate.
  - discriminate.
  - injection E as E. rewrite !sapp_assoc in E. cbn [forallb] in Hp, Hp'. apply andb_true_iff in Hp, Hp'.
    apply Hv in E; try tauto.
    + destruct E as [E1 E2]. apply IH in E2; try tauto. destruct E2 as [E2 ->]. cbn [map]. rewrite E1, E2. auto.
    + destruct l; reflexivity.
    + destruct l'; reflexivity.
Qed.

Lemma join_unique l l' a b : Forall readable l -> forallb plain l = true -> forallb plain l' = true ->
  join (map print l) ++ " }" ++ a = join (map print l') ++ " }" ++ b -> map shape l = map shape l' /\ a = b.
Proof.
  intros H Hp Hp' E. destruct l as [|v l], l' as [|v' l']; cbn [map join] in E.
  - cbn [append] in E. injection E as E. auto.
  - exfalso. cbn [forallb] in Hp'. apply andb_true_iff in Hp'. destruct (first_print v' (join_rest (map print l') ++ " }" ++ b)) as (c & F & N & _); [tauto|].
    rewrite sapp_assoc in E. rewrite <- E in F. cbn in F. congruence.
  - exfalso. cbn [forallb] in Hp. apply andb_true_iff in Hp. destruct (first_print v (join_rest (map print l) ++ " }" ++ a)) as (c & F & N & _); [tauto|].
    rewrite sapp_assoc in E. rewrite E in F. cbn in F. congruence.
  - rewrite !sapp_assoc in E. inversion H as [|? ? Hv Hl]; subst. cbn [forallb] in Hp, Hp'. apply andb_true_iff in Hp, Hp'.
    apply Hv in E; try tauto.
    + destruct E as [E1 E2]. apply join_rest_unique in E2; try tauto. destruct E2 as [E2 ->]. cbn [map]. rewrite E1, E2. auto.
    + destruct l; reflexivity.
    + destruct l'; reflexivity.
Qed.

Definition wide_unit (u : N) : string := "0x" ++ hex u.

Lemma wide_rest_unique l : forall l' a b, 
  join_rest (map wide_unit l) ++ quote ++ a = join_rest (map wide_unit l') ++ quote ++ b -> l = l' /\ a = b.
Proof.
  induction l as [|u l IH]; intros [|u' l'] a b E; cbn [map join_rest append] in E; try discriminate.
  - injection E as E. auto.
  - injection E as E. rewrite !sapp_assoc in E. apply (span_unique is_hex) in E; auto using hex_chars.
    + destruct E as [E1 E2]. apply hex_inj in E1. apply IH in E2. destruct E2 as [-> ->]. subst. auto.
    + destruct l; reflexivity.
    + destruct l'; reflexivity.
Qed.

Lemma wide_unique l l' a b : join (map wide_unit l) ++ quote ++ a = join (map wide_unit l') ++ quote ++ b -> l = l' /\ a = b.
Proof.
  destruct l as [|u l], l' as [|u' l']; intros E; cbn [map join append] in E; try discriminate.
  - injection E as E. auto.
  - injection E as E. rewrite !sapp_assoc in E. apply (span_unique is_hex) in E; auto using hex_chars.
    + destruct E as [E1 E2]. apply hex_inj in E1. apply wide_rest_unique in E2. destruct E2 as [-> ->]. subst. auto.
    + destruct l; reflexivity.
    + destruct l'; reflexivity.
Qed.

(** Integers followed by a delimiter are nothing else. *)
Lemma num_lead z a v b : delim a = true -> plain v = true -> delim b = true -> dec_Z z ++ a = print v ++ b -> exists y, v = VInt y.
Proof.
  intros Ha Hp Hb E. destruct (first_dec_Z z a) as (c & F & D). rewrite E in F.
  assert (D' : (48 <= N_of_ascii c <= 57)%N \/ c = "-"%char) by (destruct D as [D|D]; [left; eapply digit_not; eauto|auto]). clear D.
  destruct v as [y|y|s|p u|l|l|[x|]|n| |x0]; try discriminate; eauto; exfalso.
  - destruct y; cbn in F; injection F as <-; destruct D' as [D'|D']; [vm_compute in D'|discriminate|vm_compute in D'|discriminate]; destruct D'; congruence.
  - apply plain_prefix in Hp. destruct Hp as [->|[->|[->| ->]]]; cbn in F; injection F as <-; (destruct D' as [D'|D']; [vm_compute in D'; destruct D'; congruence|discriminate]).
  - cbn in F; injection F as <-; (destruct D' as [D'|D']; [vm_compute in D'; destruct D'; congruence|discriminate]).
  - cbn in F; injection F as <-; (destruct D' as [D'|D']; [vm_compute in D'; destruct D'; congruence|discriminate]).
  - cbn in F; injection F as <-; (destruct D' as [D'|D']; [vm_compute in D'; destruct D'; congruence|discriminate]).
  - cbn in F; injection F as <-; (destruct D' as [D'|D']; [vm_compute in D'; destruct D'; congruence|discriminate]).
  - (* 0x *) cbn [print] in E. clear F D'. destruct z as [|q|q]; cbn [dec_Z] in E.
    + cbn in E. injection E as E. subst a. discriminate.
    + change (dec (N.pos q) ++ a = String "0" ("x" ++ hex16 n ++ b)) in E.
      destruct (dec (Npos q)) as [|c0 s] eqn:Ed.
      { pose proof (read_dec (Npos q)) as R. rewrite Ed in R. discriminate. }
      cbn [append] in E. injection E as -> E. pose proof (dec_no_zero _ _ Ed) as ->. cbn in E. subst a. discriminate.
    + discriminate.
Qed.

Lemma readable_all v : readable v.
Proof.
  induction v as [z|bo|s|p u|l IH|l IH| |v IH|n| |x] using val_induction; intros v' a b Hp Hp' Ha Hb E; try discriminate.
  - destruct (num_lead z a v' b) as [y ->]; auto. cbn [print] in E. apply dec_Z_split in E; auto using delim_digit. destruct E as [-> ->]. auto.
  - destruct v' as [z'|b'|s'|p' u'|l'|l'|[x'|]|n'| |y']; try discriminate; try (destruct bo; discriminate).
    + symmetry in E. cbn [print] in E. destruct (num_lead z' b (VBool bo) a) as [y Ey]; auto; discriminate.
    + destruct bo, b'; try discriminate; cbn in E; injection E as E; subst; auto.
    + apply plain_prefix in Hp'. destruct Hp' as [->|[->|[->| ->]]]; destruct bo; discriminate.
  - pose proof (plain_prefix _ _ Hp) as Hpp.
    destruct v' as [z'|b'|s'|p' u'|l'|l'|[x'|]|n'| |y']; try discriminate.
    + symmetry in E. cbn [print] in E. destruct (num_lead z' b (VWStr p u) a) as [y Ey]; auto; discriminate.
    + destruct Hpp as [->|[->|[->| ->]]]; destruct b'; discriminate.
    + pose proof (plain_prefix _ _ Hp') as Hpp'. cbn [print] in E.
      change (fun u0 : N => "0x" ++ hex u0) with wide_unit in E. rewrite !sapp_assoc in E.
      assert (p = p' /\ join (map wide_unit u) ++ quote ++ a = join (map wide_unit u') ++ quote ++ b) as [-> E'].
      { destruct Hpp as [->|[->|[->| ->]]], Hpp' as [->|[->|[->| ->]]]; cbn [append quote] in E; try discriminate; split; auto; injection E as E; exact E. }
      apply wide_unique in E'. destruct E' as [-> ->]. auto.
    + destruct Hpp as [->|[->|[->| ->]]]; discriminate.
    + destruct Hpp as [->|[->|[->| ->]]]; discriminate.
    + destruct Hpp as [->|[->|[->| ->]]]; discriminate.
    + destruct Hpp as [->|[->|[->| ->]]]; discriminate.
    + destruct Hpp as [->|[->|[->| ->]]]; discriminate.
  - destruct v' as [z'|b'|s'|p' u'|l'|l'|[x'|]|n'| |y']; try discriminate; try (destruct b'; discriminate).
    + symmetry in E. cbn [print] in E. destruct (num_lead z' b (VRange l) a) as [y Ey]; auto; discriminate.
    + apply plain_prefix in Hp'. destruct Hp' as [->|[->|[->| ->]]]; discriminate.
    + cbn [print] in E. rewrite !sapp_assoc in E. cbn [append] in E. injection E as E. apply join_unique in E; auto.
      cbn [shape]. destruct E as [-> ->]. auto.
    + cbn [print] in E. rewrite !sapp_assoc in E. cbn [append] in E. injection E as E. apply join_unique in E; auto.
      cbn [shape]. destruct E as [-> ->]. auto.
    + exfalso. cbn [print] in E. rewrite !sapp_assoc in E. cbn [append] in E. injection E as E. destruct l as [|v0 l]; cbn [map join] in E.
      * discriminate.
      * cbn [plain forallb] in Hp. apply andb_true_iff in Hp. rewrite sapp_assoc in E.
        destruct (first_print v0 (join_rest (map print l) ++ " }" ++ a)) as (c & F & _ & _ & N); [tauto|]. 
        change (print v0 ++ join_rest (map print l) ++ String " " (String "}" a)) with (print v0 ++ join_rest (map print l) ++ " }" ++ a) in E. rewrite E in F. cbn in F. congruence.
  - destruct v' as [z'|b'|s'|p' u'|l'|l'|[x'|]|n'| |y']; try discriminate; try (destruct b'; discriminate).
    + symmetry in E. cbn [print] in E. destruct (num_lead z' b (VTuple l) a) as [y Ey]; auto; discriminate.
    + apply plain_prefix in Hp'. destruct Hp' as [->|[->|[->| ->]]]; discriminate.
    + cbn [print] in E. rewrite !sapp_assoc in E. cbn [append] in E. injection E as E. apply join_unique in E; auto.
      cbn [shape]. destruct E as [-> ->]. auto.
    + cbn [print] in E. rewrite !sapp_assoc in E. cbn [append] in E. injection E as E. apply join_unique in E; auto.
      cbn [shape]. destruct E as [-> ->]. auto.
    + exfalso. cbn [print] in E. rewrite !sapp_assoc in E. cbn [append] in E. injection E as E. destruct l as [|v0 l]; cbn [map join] in E.
      * discriminate.
      * cbn [plain forallb] in Hp. apply andb_true_iff in Hp. rewrite sapp_assoc in E.
        destruct (first_print v0 (join_rest (map print l) ++ " }" ++ a)) as (c & F & _ & _ & N); [tauto|]. 
        change (print v0 ++ join_rest (map print l) ++ String " " (String "}" a)) with (print v0 ++ join_rest (map print l) ++ " }" ++ a) in E. rewrite E in F. cbn in F. congruence.
  - destruct v' as [z'|b'|s'|p' u'|l'|l'|[x'|]|n'| |y']; try discriminate; try (destruct b'; discriminate).
    + symmetry in E. cbn [print] in E. destruct (num_lead z' b (VOpt None) a) as [y Ey]; auto; discriminate.
    + apply plain_prefix in Hp'. destruct Hp' as [->|[->|[->| ->]]]; discriminate.
    + cbn in E. injection E as E. auto.
  - destruct v' as [z'|b'|s'|p' u'|l'|l'|[x'|]|n'| |y']; try discriminate; try (destruct b'; discriminate).
    + symmetry in E. cbn [print] in E. destruct (num_lead z' b (VOpt (Some v)) a) as [y Ey]; auto; discriminate.
    + apply plain_prefix in Hp'. destruct Hp' as [->|[->|[->| ->]]]; discriminate.
    + exfalso. cbn [print] in E. rewrite !sapp_assoc in E. cbn [append] in E. injection E as E. destruct l' as [|v0 l']; cbn [map join] in E.
      * discriminate.
      * cbn [plain forallb] in Hp'. apply andb_true_iff in Hp'. rewrite sapp_assoc in E.
        destruct (first_print v0 (join_rest (map print l') ++ " }" ++ b)) as (c & F & _ & _ & N); [tauto|]. 
        change (print v0 ++ join_rest (map print l') ++ String " " (String "}" b)) with (print v0 ++ join_rest (map print l') ++ " }" ++ b) in E. rewrite <- E in F. cbn in F. congruence.
    + exfalso. cbn [print] in E. rewrite !sapp_assoc in E. cbn [append] in E. injection E as E. destruct l' as [|v0 l']; cbn [map join] in E.
      * discriminate.
      * cbn [plain forallb] in Hp'. apply andb_true_iff in Hp'. rewrite sapp_assoc in E.
        destruct (first_print v0 (join_rest (map print l') ++ " }" ++ b)) as (c & F & _ & _ & N); [tauto|]. 
        change (print v0 ++ join_rest (map print l') ++ String " " (String "}" b)) with (print v0 ++ join_rest (map print l') ++ " }" ++ b) in E. rewrite <- E in F. cbn in F. congruence.
    + cbn [print] in E. rewrite !sapp_assoc in E. cbn [append] in E. injection E as E. 
      apply IH in E; auto. destruct E as [E1 E2]. injection E2 as ->. cbn [shape]. rewrite E1. auto.
  - destruct v' as [z'|b'|s'|p' u'|l'|l'|[x'|]|n'| |y']; try discriminate; try (destruct b'; discriminate).
    + symmetry in E. cbn [print] in E. destruct (num_lead z' b (VPtr n) a) as [y Ey]; auto; discriminate.
    + apply plain_prefix in Hp'. destruct Hp' as [->|[->|[->| ->]]]; discriminate.
    + cbn [print] in E. rewrite !sapp_assoc in E. cbn [append] in E. injection E as E.
      apply (span_unique is_hex) in E; auto using hex16_chars, delim_hex. destruct E as [E ->]. apply hex16_inj in E. subst. auto.
Qed.
