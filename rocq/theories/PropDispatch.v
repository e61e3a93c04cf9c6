(** * PropDispatch: the choice of the printer (C69) and strings given by pointers and arrays (C70). *)

From Verif Require Import Base Lib Signature Printer Dispatch DispatchSpec DispatchProofs.
Local Open Scope string_scope.

(** ** C69: the choice of the printer *)

(** [mimicpp::print] takes the first available option in the documented order, for every type whose internal printers do not clash. *)
Theorem C69_documented_order tr o : ~ clashing tr -> (resolve tr = Some o <-> documented tr o).
Proof. apply resolve_iff. Qed.

(** The internal printers exclude each other then. *)
(** Overload resolution by itself: a candidate whose tag is a class between priority_tag<4> and the other's tag is better, and a list of
    candidates has a best one iff one of them is strictly better than each of the others. *)
Inductive base_of : nat -> nat -> Prop := (* priority_tag<n> is a proper base of priority_tag<m> *)
| base_direct n : base_of n (S n)
| base_further n m : base_of n m -> base_of n (S m).
Lemma base_of_lt n m : base_of n m <-> n < m.
Proof.
  split.
  - induction 1; lia.
  - intros H. induction H; constructor; auto.
Qed.
Lemma better_base a b : better a b = true <-> base_of (tag_of b) (tag_of a).
Proof. rewrite base_of_lt. unfold better. destruct a, b; cbn; split; intros; try reflexivity; try discriminate; lia. Qed.
Theorem C69_nearer_base_is_better a b : better a b = true <-> base_of (tag_of b) (tag_of a).
Proof. apply better_base. Qed.

Lemma best_in l o : best l = Some o -> In o l.
Proof.
  revert o. induction l as [|x l IH]; cbn [best In]; [discriminate|]. intros o. destruct (best l) as [y|]; [|intros [= ->]; auto].
  destruct (better y x); [intros [= ->]; auto|]. destruct (better x y); [intros [= ->]; auto|discriminate].
Qed.
Theorem C69_best_candidate l o : NoDup l ->
  (best l = Some o <-> In o l /\ forall x, In x l -> x <> o -> base_of (tag_of x) (tag_of o)).
Proof.
  assert (Inj : forall a b, tag_of a = tag_of b -> a = b) by (destruct a, b; cbn; congruence).
  assert (Bt : forall a b, better a b = true <-> tag_of b < tag_of a) by (intros; rewrite better_base; apply base_of_lt).
  assert (Bf : forall a b, better a b = false <-> ~ tag_of b < tag_of a)
    by (intros a b; rewrite <- Bt; destruct (better a b); split; congruence).
  assert (E : forall l, NoDup l -> l <> [] -> exists b, best l = Some b /\ forall x, In x l -> x <> b -> tag_of x < tag_of b).
  { clear l o. induction l as [|x l IH]; [congruence|]. intros N _. inversion N as [|? ? Nx Nl]; subst. destruct l as [|y l].
    - exists x. split; [reflexivity|]. intros z [->|[]]; congruence.
    - destruct (IH Nl) as (b & Eb & Hb); [discriminate|]. cbn [best] in *. rewrite Eb.
      assert (Ib : In b (y :: l)) by (apply best_in; exact Eb).
      destruct (better b x) eqn:B1.
      + exists b. split; auto. intros z [->|Iz] Nz; [apply Bt; auto|auto].
      + destruct (better x b) eqn:B2.
        * exists x. split; auto. apply Bt in B2. intros z [->|Iz] Nz; [congruence|].
          destruct (Nat.eq_dec (tag_of z) (tag_of b)) as [e|ne]; [rewrite e; auto|].
          assert (tag_of z < tag_of b) by (apply Hb; auto; intros ->; auto). lia.
        * exfalso. apply Bf in B1, B2. apply Nx. rewrite (Inj x b) by lia. auto. }
  intros N. split.
  - intros H. split; [apply best_in; auto|]. destruct (E l N) as (b & Eb & Hb); [intros ->; discriminate|].
    rewrite Eb in H. injection H as ->. intros. apply base_of_lt. auto.
  - intros (I & H). destruct (E l N) as (b & Eb & Hb); [intros ->; contradiction|]. rewrite Eb. f_equal.
    assert (D : b = o \/ b <> o) by (destruct b, o; auto; right; discriminate). destruct D as [D|D]; auto.
    assert (A := H b (best_in _ _ Eb) D). apply base_of_lt in A. assert (B := Hb o I (fun e => D (eq_sym e))). lia.
Qed.
Example C69_best_candidate_example : best [OvFormat; OvCustom; OvFallback] = Some OvCustom /\ best [OvRange; OvRange] = None /\ best [] = None.
Proof. repeat split. Qed.

Theorem C69_internal_printer tr s : ~ clashing tr -> (choose_special tr = OneSpecial s <-> internally tr s).
Proof. apply choose_iff. Qed.

(** Refuted: "mimic++ will always prefer such a specialization over any other internal alternative" (Printer.hpp 568-570). A type which is
    tuple-like and a string, and an array of anything but characters, can not be printed at all, even with a custom::Printer. *)
Theorem C69_custom_first_refuted :
  (forall tr, clashing tr -> resolve tr = None) /\
  exists tr, tr_custom tr = true /\ clashing tr /\ documented tr OvCustom.
Proof.
  split; [apply resolve_clash|]. exists (mkTraits true false false false true false Yes false false). split; [reflexivity|]. split.
  - unfold clashing. cbn. auto 10.
  - apply doc_custom. reflexivity.
Qed.

(** The printers of types of the language and the standard library. *)
Definition shape_of (tr : traits) : shape :=
  match resolve tr, choose_special tr with
  | None, _ => NotCompiling
  | Some OvInternal, OneSpecial SpLocation => AsLocation
  | Some OvInternal, OneSpecial SpNullopt => AsNullopt
  | Some OvInternal, OneSpecial SpOptional => AsOptional
  | Some OvInternal, OneSpecial SpTuple => AsElements
  | Some OvInternal, OneSpecial SpPointer => AsAddress
  | Some OvInternal, OneSpecial SpString => AsQuoted
  | Some OvRange, _ => AsRange
  | Some OvFallback, _ => AsUnknown
  | Some _, _ => AsText
  end.
Theorem C69_standard_types : forall t, shape_of (traits_of t) = expected_shape t.
Proof. destruct t; reflexivity. Qed.

(** ** The texts *)

(** The program computes the text of an object iff the object has that text. *)
Theorem C69_text env n s : (forall m, ~ clashing (ob_traits (obj_at env m))) ->
  ((exists fuel, print_object fuel env n = Some (Ret s)) <-> shown env n s).
Proof.
  intros Hok. split.
  - intros [f H]. eapply shown_sound; eauto.
  - apply shown_complete. exact Hok.
Qed.

Theorem C69_one_text env n s s' : (forall m, ~ clashing (ob_traits (obj_at env m))) -> shown env n s -> shown env n s' -> s = s'.
Proof. intros H. apply shown_unique. exact H. Qed.

(** Every object with finitely many parts and proper strings has a text. *)
Theorem C69_every_object env : (forall m, ~ clashing (ob_traits (obj_at env m))) -> well_founded (part_of env) ->
  (forall n c, c = tx_chars (ob_text (obj_at env n)) -> exists l, has_units c l) -> forall n, exists s, shown env n s.
Proof. intros H. apply shown_exists. exact H. Qed.

(** The texts are those of Printer.v. *)
Theorem C69_values env n v : (forall m, ~ clashing (ob_traits (obj_at env m))) -> stands_for env n v ->
  shown env n (print v) /\ forall s, shown env n s -> s = print v.
Proof.
  intros H Hs. assert (Hp : shown env n (print v)) by (apply stands_shown; auto).
  split; auto. intros s Hs'. eapply shown_unique; eauto.
Qed.

(** And every object with a text is one of the values there: a call with any arguments which can be printed is one with values of Printer.v. *)
Theorem C69_values_suffice env n s : (forall m, ~ clashing (ob_traits (obj_at env m))) -> ob_traits (obj_at env (nullopt_object env)) = traits_of TyNullopt ->
  shown env n s -> exists v, stands_for env n v /\ print v = s.
Proof. intros H Hn Hs. exact (proj1 (shown_stands env H Hn) n s Hs). Qed.

(** A tuple-like object and a range with the same elements look the same. *)
Theorem C69_tuples_and_ranges_look_alike env n m s : 
  documented (ob_traits (obj_at env n)) OvInternal -> internally (ob_traits (obj_at env n)) SpTuple -> documented (ob_traits (obj_at env m)) OvRange ->
  ob_elements (obj_at env n) = ob_range (obj_at env m) -> (forall k, ~ clashing (ob_traits (obj_at env k))) ->
  (shown env n s <-> shown env m s).
Proof.
  intros Hn Hi Hm E Hok. assert (T : forall t, shown env n t -> exists ss, shown_all env (ob_elements (obj_at env n)) ss).
  { intros t H. apply (proj1 (shown_complete env Hok)) in H. destruct H as [[|f] H]; [discriminate|]. cbn in H.
    rewrite (proj2 (resolve_iff _ _ (Hok n)) Hn), (proj2 (choose_iff _ _ (Hok n)) Hi) in H.
    destruct (all_texts _) as [[ts| | |]|] eqn:Et; try discriminate. apply all_texts_ret in Et. exists ts. clear H.
    revert ts Et. generalize (ob_elements (obj_at env n)). induction l as [|k l IHl]; intros [|u ts] Et; try discriminate; [constructor|].
    cbn in Et. injection Et as E1 E2. constructor; [eapply shown_sound; eauto|auto]. }
  assert (T' : forall t, shown env m t -> exists ss, shown_all env (ob_range (obj_at env m)) ss).
  { intros t H. apply (proj1 (shown_complete env Hok)) in H. destruct H as [[|f] H]; [discriminate|]. cbn in H.
    rewrite (proj2 (resolve_iff _ _ (Hok m)) Hm) in H.
    destruct (all_texts _) as [[ts| | |]|] eqn:Et; try discriminate. apply all_texts_ret in Et. exists ts. clear H.
    revert ts Et. generalize (ob_range (obj_at env m)). induction l as [|k l IHl]; intros [|u ts] Et; try discriminate; [constructor|].
    cbn in Et. injection Et as E1 E2. constructor; [eapply shown_sound; eauto|auto]. }
  split; intro H.
  - destruct (T s H) as [ss Hss]. pose proof (sh_tuple env n ss Hn Hi Hss) as H1. rewrite E in Hss. pose proof (sh_range env m ss Hm Hss) as H2.
    rewrite (shown_unique env Hok n s _ H H1). exact H2.
  - destruct (T' s H) as [ss Hss]. pose proof (sh_range env m ss Hm Hss) as H2. rewrite <- E in Hss. pose proof (sh_tuple env n ss Hn Hi Hss) as H1.
    rewrite (shown_unique env Hok m s _ H H2). exact H1.
Qed.

(** ** Examples *)

Definition blank : object := mkObject plain_traits "" (mkLoc "" "" 0 0) None [] 0 (mkText ChChar None (ChSized [])) [] "".
Definition with_traits (tr : traits) (o : object) : object :=
  mkObject tr (ob_custom o) (ob_location o) (ob_optional o) (ob_elements o) (ob_address o) (ob_text o) (ob_range o) (ob_formatted o).
Definition integer (z : Z) : object := mkObject (traits_of TyInteger) "" (mkLoc "" "" 0 0) None [] 0 (mkText ChChar None (ChSized [])) [] (dec_Z z).
Definition text_object (ty : cpp_type) (t : text_data) : object := mkObject (traits_of ty) "" (mkLoc "" "" 0 0) None [] 0 t [] "".
Definition list_object (ty : cpp_type) (elements range : list nat) : object :=
  mkObject (traits_of ty) "" (mkLoc "" "" 0 0) None elements 0 (mkText ChChar None (ChSized [])) range "".
Definition optional_object (c : option nat) : object := mkObject (traits_of TyOptional) "" (mkLoc "" "" 0 0) c [] 0 (mkText ChChar None (ChSized [])) [] "".

(** 0: nullopt; 1: 7; 2: u8"ab" in an array; 3: an optional of 1; 4: an empty optional; 5: std::array{1}; 6: std::vector{3, 4, 2}; 7: a class;
    8: a type with a custom printer and a range; 9: a pair of 6 and 8; 10: a wide string with a printer of its characters; 11: "a\0b"; 12: 5 as vector. *)
Definition sample : objects := mkObjects (fun n =>
  match n with
  | 0 => with_traits (traits_of TyNullopt) blank
  | 1 => integer 7
  | 2 => text_object TyCharArray (mkText ChChar8 None (ChPointer [97; 98; 0; 99]%N))
  | 3 => optional_object (Some 1)
  | 4 => optional_object None
  | 5 => list_object TyStdArray [1] [1]
  | 6 => list_object TyVector [] [3; 4; 2]
  | 7 => with_traits (traits_of TyClass) blank
  | 8 => mkObject (mkTraits true false false false false false No true true) "mine" (mkLoc "" "" 0 0) None [] 0 (mkText ChChar None (ChSized [])) [1] "yours"
  | 9 => list_object TyPair [6; 8; 7; 5] []
  | 10 => text_object TyString (mkText ChWchar (Some (fun u => "<" ++ dec u ++ ">")) (ChSized [1; 2]%N))
  | 11 => text_object TyCharPointer (mkText ChChar (Some (fun u => "?")) (ChPointer [97; 0; 98; 0]%N))
  | 12 => list_object TyVector [] [1]
  | 13 => mkObject (traits_of TyObjectPointer) "" (mkLoc "" "" 0 0) None [] 255 (mkText ChChar None (ChSized [])) [] ""
  | 14 => mkObject (traits_of TySourceLocation) "" (mkLoc "f" "g" 1 2) None [] 0 (mkText ChChar None (ChSized [])) [] ""
  | _ => blank
  end) 0.

Lemma sample_ok : forall m, ~ clashing (ob_traits (obj_at sample m)).
Proof.
  intros m. unfold clashing. do 15 (destruct m as [|m]; [cbn; intuition discriminate|]). cbn. intuition discriminate.
Qed.

Example C69_example_texts :
  print_object 5 sample 9 = Some (Ret ("{ { { value: 7 }, nullopt, u8" ++ quote ++ "0x61, 0x62" ++ quote ++ " }, mine, {?}, { 7 } }"))
  /\ print_object 1 sample 10 = Some (Ret ("L" ++ quote ++ "<1><2>" ++ quote)) /\ print_object 1 sample 11 = Some (Ret (quote ++ "a" ++ quote))
  /\ print_object 2 sample 12 = print_object 2 sample 5 /\ print_object 3 sample 9 = None
  /\ print_object 1 sample 13 = Some (Ret "0x00000000000000ff") /\ print_object 1 sample 14 = Some (Ret "f[1:2], g").
Proof. vm_compute. repeat split. Qed.

Example C69_example_suffices : exists s v, shown sample 9 s /\ stands_for sample 9 v /\ print v = s.
Proof.
  assert (H : exists s, shown sample 9 s) by (eexists; apply (C69_text sample 9); [apply sample_ok|]; exists 5; vm_compute; reflexivity).
  destruct H as [s Hs]. destruct (C69_values_suffice sample 9 s sample_ok eq_refl Hs) as (v & Hv & E). eauto.
Qed.
Example C69_example_shown : exists s, shown sample 9 s /\ stands_for sample 5 (VTuple [VInt 7]).
Proof.
  eexists. split.
  - apply (C69_text sample 9); [apply sample_ok|]. exists 5. vm_compute. reflexivity.
  - apply sf_tuple.
    + apply (C69_documented_order (traits_of TyStdArray)); [exact (sample_ok 5)|reflexivity].
    + apply (C69_internal_printer (traits_of TyStdArray)); [exact (sample_ok 5)|reflexivity].
    + constructor; [|constructor]. apply sf_int; [|reflexivity]. apply (C69_documented_order (traits_of TyInteger)); [exact (sample_ok 1)|reflexivity].
Qed.

(** The parts of an object have smaller numbers here, except for the empty optional. *)
Example C69_example_finite : well_founded (part_of sample).
Proof.
  assert (H : forall m n, part_of sample m n -> m < n).
  { intros m n H. unfold part_of in H.
    do 15 (destruct n as [|n]; [cbn in H; intuition (try discriminate; try lia); match goal with E : Some _ = Some _ |- _ => injection E as <-; lia end|]).
    cbn in H. intuition (try discriminate; try lia). }
  intros n. induction n as [n IH] using (well_founded_induction lt_wf). constructor. intros m Hm. apply IH. apply H. exact Hm.
Qed.

(** ** Ranges which contain themselves *)

(** A range with itself as an element has no text: the recursion has no end. *)
Theorem C69_ranges_in_themselves_refuted env n : (forall m, ~ clashing (ob_traits (obj_at env m))) ->
  documented (ob_traits (obj_at env n)) OvRange -> In n (ob_range (obj_at env n)) -> forall s, ~ shown env n s.
Proof.
  intros Hok Hd Hin s H. apply (proj1 (shown_complete env Hok)) in H. destruct H as [f H]. revert H. apply in_itself; auto.
Qed.

(** std::filesystem::path is such a range: a path of one component is a range whose only element equals it. So a call with a path as argument
    never ends (its report contains the argument). *)
Definition paths (component : bool) : objects :=
  mkObjects (fun n => match n with 0 => with_traits (traits_of TyNullopt) blank | _ => list_object TyPath [] (if component then [1] else []) end) 0.
Theorem C69_paths_refuted : (forall fuel, print_object fuel (paths true) 1 = None) /\ print_object 1 (paths false) 1 = Some (Ret "{  }").
Proof.
  split; [|reflexivity]. induction fuel as [|f IH]; [reflexivity|]. cbn [print_object]. change (resolve _) with (Some OvRange). cbv iota beta.
  change (ob_range (obj_at (paths true) 1)) with [1]. cbn [map all_texts]. rewrite IH. reflexivity.
Qed.

(** ** C70: strings given by pointers and arrays *)

(** Pointers to and arrays of characters, including unsigned char, are read up to the first zero. *)
Theorem C70_up_to_zero t memory l rest : tx_chars t = ChPointer memory -> memory = (l ++ 0%N :: rest)%list -> Forall (fun u => u <> 0%N) l ->
  units_of (tx_chars t) = Ret l.
Proof. intros -> -> H. apply units_iff. constructor. exact H. Qed.

(** So an array is only shown up to an embedded zero: arrays which differ behind it look the same. *)
Theorem C70_embedded_zero_refuted : exists p memory memory', memory <> memory' /\ length memory = length memory' /\
  print_units (mkText ChChar p (ChPointer memory)) [97]%N = print_units (mkText ChChar p (ChPointer memory')) [97]%N /\
  units_of (ChPointer memory) = Ret [97]%N /\ units_of (ChPointer memory') = Ret [97]%N.
Proof. exists None, [97; 0; 98; 0]%N, [97; 0; 99; 0]%N. repeat split; discriminate. Qed.

(** And a character array or a buffer of bytes without a zero is read beyond its end: undefined behaviour, exactly then. *)
Theorem C70_unterminated_refuted :
  (forall memory, units_of (ChPointer memory) = Undef UbDomain <-> ~ In 0%N memory) /\
  (forall env n fuel, ob_traits (obj_at env n) = traits_of TyCharArray \/ ob_traits (obj_at env n) = traits_of TyCharPointer ->
     forall memory, tx_chars (ob_text (obj_at env n)) = ChPointer memory -> ~ In 0%N memory -> print_object (S fuel) env n = Some (Undef UbDomain)) /\
  units_of ChNull = Undef UbNull.
Proof.
  split; [apply until_zero_undef|]. split; [|reflexivity]. intros env n fuel Ht memory Hc Hz. cbn [print_object].
  assert (E : resolve (ob_traits (obj_at env n)) = Some OvInternal /\ choose_special (ob_traits (obj_at env n)) = OneSpecial SpString)
    by (destruct Ht as [-> | ->]; split; reflexivity).
  destruct E as [-> ->]. rewrite Hc. cbn [units_of]. apply until_zero_undef in Hz. rewrite Hz. reflexivity.
Qed.
Example C70_example : print_object 1 (mkObjects (fun _ => text_object TyCharArray (mkText ChUnsignedChar None (ChPointer [1; 2; 3]%N))) 0) 0 = Some (Undef UbDomain)
  /\ ~ In 0%N [1; 2; 3]%N.
Proof. split; [reflexivity|]. cbn. intuition discriminate. Qed.

(** The text of a string: its prefix, and between quotes the characters as they are (char), as their custom printer shows them, or as numbers. *)
Theorem C70_string_text t l s : unit_text t l s -> print_units t l = literal_prefix (tx_type t) ++ quote ++ s ++ quote.
Proof. apply print_units_iff. Qed.
Theorem C70_prefixes : map literal_prefix [ChChar; ChSignedChar; ChUnsignedChar; ChWchar; ChChar8; ChChar16; ChChar32; ChUser "my"] = [""; ""; ""; "L"; "u8"; "u"; "U"; "my"].
Proof. reflexivity. Qed.

Print Assumptions C70_prefixes.
Print Assumptions C69_documented_order.
Print Assumptions C69_nearer_base_is_better.
Print Assumptions C69_best_candidate.
Print Assumptions C69_internal_printer.
Print Assumptions C69_custom_first_refuted.
Print Assumptions C69_standard_types.
Print Assumptions C69_text.
Print Assumptions C69_one_text.
Print Assumptions C69_every_object.
Print Assumptions C69_values.
Print Assumptions C69_values_suffice.
Print Assumptions C69_tuples_and_ranges_look_alike.
Print Assumptions C69_ranges_in_themselves_refuted.
Print Assumptions C69_paths_refuted.
Print Assumptions C70_up_to_zero.
Print Assumptions C70_embedded_zero_refuted.
Print Assumptions C70_unterminated_refuted.
Print Assumptions C70_string_text.
