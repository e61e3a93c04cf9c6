(** * PropPrimitives: further parts of C70, C71 and C72 about single functions. *)

From Verif Require Strings Dispatch.
From Verif Require Import Base Lib Sequence Control Signature Printer Overload.

(** ** C70: the two models of printed strings agree *)

Definition kind_of (ct : Strings.char_type) : Dispatch.char_type :=
  match ct with
  | Strings.CtChar => Dispatch.ChChar | Strings.CtSChar => Dispatch.ChSignedChar | Strings.CtUChar => Dispatch.ChUnsignedChar
  | Strings.CtWchar => Dispatch.ChWchar | Strings.Ct8 => Dispatch.ChChar8 | Strings.Ct16 => Dispatch.ChChar16 | Strings.Ct32 => Dispatch.ChChar32
  end.

(** A code unit is its own unsigned value, or the one of the negative number modulo 2^8, 2^16 or 2^32. *)
Definition modulus (ct : Strings.char_type) : Z :=
  match ct with
  | Strings.CtChar | Strings.CtSChar | Strings.CtUChar | Strings.Ct8 => 256
  | Strings.Ct16 => 65536
  | Strings.CtWchar | Strings.Ct32 => 4294967296
  end.
Definition is_unit (ct : Strings.char_type) (c : Z) (u : N) : Prop :=
  (Z.of_N u < modulus ct)%Z /\ exists k, (c = Z.of_N u + k * modulus ct)%Z.

Lemma unit_of_is_unit ct c : is_unit ct c (Strings.unit_of ct c).
Proof.
  assert (M : (2 ^ Strings.char_bits ct)%Z = modulus ct) by (destruct ct; reflexivity).
  assert (P : (0 < modulus ct)%Z) by (destruct ct; reflexivity).
  unfold is_unit, Strings.unit_of. rewrite M. pose proof (Z.mod_pos_bound c _ P) as B. rewrite Z2N.id by lia. split; [lia|].
  exists (c / modulus ct)%Z. pose proof (Z.div_mod c (modulus ct)). lia.
Qed.
Lemma is_unit_unique ct c u v : is_unit ct c u -> is_unit ct c v -> u = v.
Proof.
  intros (A & k & E) (B & k' & E'). assert (P : (0 < modulus ct)%Z) by (destruct ct; reflexivity).
  assert (Hu : (c mod modulus ct = Z.of_N u)%Z) by (symmetry; apply (Z.mod_unique c (modulus ct) k); lia).
  assert (Hv : (c mod modulus ct = Z.of_N v)%Z) by (symmetry; apply (Z.mod_unique c (modulus ct) k'); lia).
  lia.
Qed.

Theorem C70_code_units ct c u : Strings.unit_of ct c = u <-> is_unit ct c u.
Proof. split; [intros <-; apply unit_of_is_unit|]. intros H. apply (is_unit_unique ct c); auto. apply unit_of_is_unit. Qed.

(** The values of char are those of the 8-bit patterns, in two's complement when char is signed. Every pattern has one, and only one. *)
Theorem C70_char_values signed c :
  Strings.is_char signed c <-> exists (b7 : bool) (low : N), (low < 128)%N /\
    c = (Z.of_N low + (if b7 then (if signed then -128 else 128) else 0))%Z.
Proof.
  unfold Strings.is_char. destruct signed; split.
  - intros H. destruct (Z.leb_spec 0 c); [exists false, (Z.to_N c) | exists true, (Z.to_N (c + 128))]; split; lia.
  - intros (b & low & L & ->). destruct b; lia.
  - intros H. destruct (Z.leb_spec c 127); [exists false, (Z.to_N c) | exists true, (Z.to_N (c - 128))]; split; lia.
  - intros (b & low & L & ->). destruct b; lia.
Qed.
Theorem C70_one_char_per_unit signed u : (u < 256)%N ->
  exists c, (Strings.is_char signed c /\ Strings.unit_of Strings.CtChar c = u) /\
            forall c', Strings.is_char signed c' -> Strings.unit_of Strings.CtChar c' = u -> c' = c.
Proof.
  intros H. assert (E : exists c, Strings.is_char signed c /\ is_unit Strings.CtChar c u).
  { destruct (signed && (128 <=? u)%N)%bool eqn:B.
    - apply andb_prop in B as [-> B]. apply N.leb_le in B. exists (Z.of_N u - 256)%Z. unfold Strings.is_char, is_unit, modulus.
      split; [lia|]. split; [lia|]. exists (-1)%Z. lia.
    - exists (Z.of_N u). unfold Strings.is_char, is_unit, modulus. split.
      + destruct signed; cbn [andb] in B; [apply N.leb_gt in B|]; lia.
      + split; [lia|]. exists 0%Z. lia. }
  destruct E as (c & A & B). exists c. split; [split; auto; apply C70_code_units; auto|].
  intros c' A' B'. apply C70_code_units in B'. destruct B as (_ & k & ->), B' as (_ & k' & ->).
  unfold Strings.is_char, modulus in *. destruct signed; lia.
Qed.

Theorem C70_models_agree ct s l : Strings.view s = Ret l ->
  Strings.print_str ct s = Ret (Dispatch.print_units (Dispatch.mkText (kind_of ct) None (Dispatch.ChSized (map (Strings.unit_of ct) l))) (map (Strings.unit_of ct) l)).
Proof.
  intros H. unfold Strings.print_str. rewrite H. cbn [obind]. f_equal. unfold Dispatch.print_units.
  destruct ct; cbn [kind_of Dispatch.tx_type Dispatch.tx_printer Dispatch.literal_prefix Strings.literal_prefix print]; try reflexivity.
  unfold Strings.bytes_of, Dispatch.string_of_units. rewrite map_map. reflexivity.
Qed.

(** A negative char, a char16_t of 16 bits, an unsigned char string. *)
Example C70_agree_example :
  is_unit Strings.CtSChar (-1) 255 /\ is_unit Strings.Ct16 65535 65535 /\ is_unit Strings.Ct16 65536 0 /\
  Strings.print_str Strings.CtUChar (Strings.SPtr (Some [97; 0]%Z)) = Ret (quote ++ "0x61" ++ quote)%string /\
  Strings.print_str Strings.CtChar (Strings.SPtr (Some [97; 0]%Z)) = Ret (quote ++ "a" ++ quote)%string.
Proof.
  split; [apply C70_code_units; reflexivity|]. split; [apply C70_code_units; reflexivity|]. split; [apply C70_code_units; reflexivity|].
  split; reflexivity.
Qed.

(** ** C71: the preference of one implicit object parameter over another *)

Definition is_rvalue_preference (o : object_expr) (a b : signature) : Prop := ob_rvalue o = true /\ sg_ref a = RefR /\ sg_ref b = RefL.
Theorem C71_object_preference o a b :
  better_object o a b = true <->
    is_rvalue_preference o a b \/
    (~ is_rvalue_preference o a b /\ ~ is_rvalue_preference o b a /\ sg_const a = false /\ sg_const b = true).
Proof.
  unfold better_object, rvalue_rule, is_rvalue_preference. destruct (ob_rvalue o), (sg_ref a) eqn:Ea, (sg_ref b) eqn:Eb, (sg_const a), (sg_const b); cbn;
    intuition congruence.
Qed.
(** It is a strict preference. *)
Theorem C71_object_preference_strict o a b : better_object o a b = true -> better_object o b a = false.
Proof.
  unfold better_object, rvalue_rule. destruct (ob_rvalue o), (sg_ref a), (sg_ref b), (sg_const a), (sg_const b); cbn; auto; discriminate.
Qed.
Example C71_object_example :
  let s := fun c r => mkSig 0 [] false c r false in
  map (fun o => (better_object o (s true RefR) (s false RefL), better_object o (s false RefL) (s true RefR))) [mkObject false false; mkObject false true]
  = [(false, true); (true, false)].
Proof. reflexivity. Qed.

(** ** C72: make_sequence_entries is noexcept: with an exhausted sequence it ends the program *)

Theorem C72_make_entries ss tags :
  (forall x, make_sequence_entries ss tags <> Throw x) /\
  (forall r, make_sequence_entries ss tags = Ret r <-> add_entries ss tags = Ret r) /\
  (make_sequence_entries ss tags = Terminate <-> (exists x, add_entries ss tags = Throw x) \/ add_entries ss tags = Terminate).
Proof.
  unfold make_sequence_entries, noexcept_of. destruct (add_entries ss tags); split; try discriminate; split; try tauto; try (split; intros H; discriminate);
    split; intros H; try discriminate; eauto; destruct H as [[x H]|H]; try discriminate; auto.
Qed.
(** Two sequences, the second one twice; an expectation with a sequence which does not exist is undefined, not a termination. *)
Example C72_make_entries_example :
  let ss := [mkSeq Lazy [Unsatisfied] 0; mkSeq Greedy [] 0] in
  match make_sequence_entries ss [1; 0; 1] with Ret (_, es) => Some es | _ => None end = Some [(1, 0); (0, 1); (1, 1)] /\
  make_sequence_entries ss [2] = Undef UbDangling.
Proof. split; reflexivity. Qed.

Print Assumptions C70_code_units.
Print Assumptions C70_char_values.
Print Assumptions C70_one_char_per_unit.
Print Assumptions C70_models_agree.
Print Assumptions C71_object_preference.
Print Assumptions C71_object_preference_strict.
Print Assumptions C72_make_entries.
