(** * MatchProofs: lemmas about the models of the matchers. *)

From Coq Require Import Permutation Sorted.
From Verif Require Import Base Signature Printer Matcher Strings MatchSpec.
Local Open Scope string_scope.

(** ** obind *)

Lemma obind_Ret_iff : forall (A B : Type) (m : outcome A) (k : A -> outcome B) b,
  obind m k = Ret b <-> exists a, m = Ret a /\ k a = Ret b.
Proof.
  intros A B m k b. destruct m; cbn; split; intro H; try discriminate; try (destruct H as (? & ? & ?); discriminate).
  - exists a; auto.
  - destruct H as [x [H1 H2]]. injection H1 as <-. exact H2.
Qed.

(** ** vformat *)

Lemma vfmt_plain : forall s m args, no_braces s -> vfmt FText m s args = Ret s.
Proof.
  induction s as [|c s IH]; intros m args H; [reflexivity|].
  inversion H as [|c' l [Ho Hc] Hr]; subst. cbn [vfmt].
  rewrite (proj2 (Ascii.eqb_neq c "{") Ho), (proj2 (Ascii.eqb_neq c "}") Hc), (IH m args Hr). reflexivity.
Qed.
Lemma vformat_plain : forall s args, no_braces s -> vformat s args = Ret s.
Proof. intros s args. apply vfmt_plain. Qed.

Lemma vformat_hole : forall pre post a args, no_braces pre -> no_braces post ->
  vformat (pre ++ "{}" ++ post) (a :: args) = Ret (pre ++ a ++ post).
Proof.
  unfold vformat. induction pre as [|c s IH]; intros post a args H Hp.
  - cbn. rewrite (vfmt_plain post (MAuto 1) (a :: args) Hp). reflexivity.
  - inversion H as [|c' l [Ho Hc] Hr]; subst. cbn [vfmt append].
    rewrite (proj2 (Ascii.eqb_neq c "{") Ho), (proj2 (Ascii.eqb_neq c "}") Hc).
    change (s ++ String "{" (String "}" post)) with (s ++ "{}" ++ post).
    rewrite (IH post a args Hr Hp). reflexivity.
Qed.


(** ** Algorithms over strings *)

Section Elements.
  (** Elements which are computed by [f], defined on the characters satisfying [P] and then equal exactly for [E]-related characters. *)
  Context (f : Z -> outcome Z) (P : Z -> Prop) (E : Z -> Z -> Prop).
  Context (same_f : forall a b, P a -> P b -> exists e, same (f a) (f b) = Ret e /\ (e = true <-> E a b)).

  Lemma equal_loop_spec : forall t p, Forall P t -> Forall P p ->
    exists b, equal_loop same (map f t) (map f p) = Ret b /\ (b = true <-> Forall2 E t p).
  Proof.
    induction t as [|a t IH]; intros [|c p] Ht Hp.
    - exists true. split; [reflexivity|]. split; auto.
    - exists false. split; [reflexivity|]. split; [discriminate|]. intro H; inversion H.
    - exists false. split; [reflexivity|]. split; [discriminate|]. intro H; inversion H.
    - inversion Ht; inversion Hp; subst. cbn [map equal_loop].
      destruct (same_f a c) as [e [He Hi]]; [assumption|assumption|]. rewrite He. cbn [obind].
      destruct e.
      + destruct (IH p) as [b [Hb Hbi]]; [assumption|assumption|].
        exists b. split; [exact Hb|]. rewrite Hbi. split.
        * intro H. constructor; [apply Hi; reflexivity|exact H].
        * intro H. inversion H; assumption.
      + exists false. split; [reflexivity|]. split; [discriminate|].
        intro H. inversion H; subst. apply Hi. assumption.
  Qed.

  Lemma Forall2_len : forall (A B : Type) (R : A -> B -> Prop) l r, Forall2 R l r -> List.length l = List.length r.
  Proof. induction 1; cbn; congruence. Qed.

  Lemma equal_views_spec : forall t p, Forall P t -> Forall P p ->
    exists b, equal_views (map f t) (map f p) = Ret b /\ (b = true <-> Forall2 E t p).
  Proof.
    intros t p Ht Hp. unfold equal_views, ranges_equal. rewrite !map_length.
    destruct (Nat.eqb_spec (List.length t) (List.length p)) as [Hl|Hl]; cbn.
    - apply equal_loop_spec; assumption.
    - exists false. split; [reflexivity|]. split; [discriminate|]. intro H. apply Forall2_len in H. contradiction.
  Qed.

  Lemma starts_views_spec : forall t p, Forall P t -> Forall P p ->
    exists b, starts_views (map f t) (map f p) = Ret b /\ (b = true <-> exists t1 t2, t = (t1 ++ t2)%list /\ Forall2 E t1 p).
  Proof.
    unfold starts_views. induction t as [|a t IH]; intros [|c p] Ht Hp.
    - exists true. split; [reflexivity|]. split; auto. intros _. exists [], []. auto.
    - exists false. split; [reflexivity|]. split; [discriminate|].
      intros [t1 [t2 [Ht1 H]]]. inversion H; subst. discriminate.
    - exists true. split; [reflexivity|]. split; auto. intros _. exists [], (a :: t). auto.
    - inversion Ht; inversion Hp; subst. cbn [map mismatch_].
      destruct (same_f a c) as [e [He Hi]]; [assumption|assumption|]. rewrite He. cbn [obind].
      destruct e.
      + destruct (IH p) as [b [Hb Hbi]]; [assumption|assumption|].
        exists b. split; [exact Hb|]. rewrite Hbi. split.
        * intros [t1 [t2 [-> H]]]. exists (a :: t1), t2. split; [reflexivity|]. constructor; [apply Hi; reflexivity|exact H].
        * intros [t1 [t2 [Heq H]]]. inversion H; subst. injection Heq as -> ->. eauto.
      + exists false. split; [reflexivity|]. split; [discriminate|].
        intros [t1 [t2 [Heq H]]]. inversion H; subst. injection Heq as -> ->. apply Hi. assumption.
  Qed.

  Lemma Forall2_rev : forall (A B : Type) (R : A -> B -> Prop) l r, Forall2 R l r -> Forall2 R (rev l) (rev r).
  Proof.
    induction 1; cbn; [constructor|]. apply Forall2_app; [assumption|]. constructor; [assumption|constructor].
  Qed.

  Lemma ends_views_spec : forall t p, Forall P t -> Forall P p ->
    exists b, ends_views (map f t) (map f p) = Ret b /\ (b = true <-> exists t1 t2, t = (t1 ++ t2)%list /\ Forall2 E t2 p).
  Proof.
    intros t p Ht Hp. unfold ends_views. rewrite <- !map_rev.
    destruct (starts_views_spec (rev t) (rev p)) as [b [Hb Hi]].
    - apply Forall_rev; assumption.
    - apply Forall_rev; assumption.
    - exists b. split; [exact Hb|]. rewrite Hi. split.
      + intros [t1 [t2 [Heq H]]]. exists (rev t2), (rev t1). split.
        * rewrite <- rev_app_distr, <- Heq, rev_involutive. reflexivity.
        * apply Forall2_rev in H. rewrite rev_involutive in H. exact H.
      + intros [t1 [t2 [-> H]]]. exists (rev t2), (rev t1). split; [apply rev_app_distr|]. apply Forall2_rev. exact H.
  Qed.

  Lemma probe_spec : forall p t, Forall P t -> Forall P p ->
    (probe_ (map f t) (map f p) = Ret Found /\ (exists t1 t2, t = (t1 ++ t2)%list /\ Forall2 E t1 p))
    \/ (probe_ (map f t) (map f p) = Ret Exhausted /\ List.length t < List.length p)
    \/ (probe_ (map f t) (map f p) = Ret Mismatch /\ ~ (exists t1 t2, t = (t1 ++ t2)%list /\ Forall2 E t1 p)).
  Proof.
    induction p as [|c p IH]; intros t Ht Hp.
    - left. destruct t; (split; [reflexivity|]); eexists [], _; split; try reflexivity; constructor.
    - destruct t as [|a t].
      + right; left. split; [reflexivity|]. cbn. lia.
      + inversion Ht; inversion Hp; subst. cbn [map probe_].
        destruct (same_f a c) as [e [He Hi]]; [assumption|assumption|]. rewrite He. cbn [obind].
        destruct e.
        * destruct (IH t) as [[Hb [t1 [t2 [-> H]]]]|[[Hb Hl]|[Hb Hn]]]; [assumption|assumption| | |].
          -- left. split; [exact Hb|]. exists (a :: t1), t2. split; [reflexivity|]. constructor; [apply Hi; reflexivity|exact H].
          -- right; left. split; [exact Hb|]. cbn. lia.
          -- right; right. split; [exact Hb|]. intros [t1 [t2 [Heq H]]]. inversion H; subst. injection Heq as -> ->.
             apply Hn. eauto.
        * right; right. split; [reflexivity|].
          intros [t1 [t2 [Heq H]]]. inversion H; subst. injection Heq as -> ->. enough (false = true) by discriminate. apply Hi. assumption.
  Qed.

  Lemma search_loop_spec : forall t c p, Forall P t -> Forall P (c :: p) ->
    exists b, search_loop (map f t) (f c) (map f p) = Ret b
              /\ (b = true <-> exists t1 t2 t3, t = (t1 ++ t2 ++ t3)%list /\ Forall2 E t2 (c :: p)).
  Proof.
    induction t as [|a t IH]; intros c p Ht Hp.
    - exists false. split; [reflexivity|]. split; [discriminate|].
      intros [t1 [t2 [t3 [Heq H]]]]. inversion H; subst. destruct t1; discriminate.
    - pose proof Ht as Ht'. pose proof Hp as Hp'. inversion Ht'; inversion Hp'; subst. cbn [map search_loop].
      destruct (same_f a c) as [e [He Hi]]; [assumption|assumption|]. rewrite He. cbn [obind].
      destruct (IH c p) as [b [Hb Hbi]]; [assumption|assumption|].
      assert (Hnot : ~ (exists t1 t2, (a :: t) = (t1 ++ t2)%list /\ Forall2 E t1 (c :: p)) ->
                (b = true <-> exists t1 t2 t3, a :: t = (t1 ++ t2 ++ t3)%list /\ Forall2 E t2 (c :: p))).
      { intro Hn. rewrite Hbi. split.
        - intros [t1 [t2 [t3 [-> H]]]]. exists (a :: t1), t2, t3. auto.
        - intros [t1 [t2 [t3 [Heq H]]]]. destruct t1 as [|x t1].
          + exfalso. apply Hn. exists t2, t3. auto.
          + injection Heq as -> ->. eauto. }
      destruct e.
      + destruct (probe_spec p t) as [[Hq [t1 [t2 [-> H]]]]|[[Hq Hl]|[Hq Hn]]]; [assumption|assumption| | |]; rewrite Hq; cbn [obind].
        * exists true. split; [reflexivity|]. split; [|auto]. intros _. exists [], (a :: t1), t2. split; [reflexivity|].
          constructor; [apply Hi; reflexivity|exact H].
        * exists false. split; [reflexivity|]. split; [discriminate|].
          intros [t1 [t2 [t3 [Heq H]]]]. apply Forall2_len in H. apply (f_equal (@List.length Z)) in Heq.
          rewrite !app_length in Heq. cbn in Heq, H. lia.
        * exists b. split; [exact Hb|]. apply Hnot. intros [t1 [t2 [Heq H]]]. inversion H; subst. injection Heq as -> ->. apply Hn. eauto.
      + exists b. split; [exact Hb|]. apply Hnot. intros [t1 [t2 [Heq H]]]. inversion H; subst. injection Heq as -> ->.
        enough (false = true) by discriminate. apply Hi. assumption.
  Qed.

  Lemma contains_views_spec : forall t p, Forall P t -> Forall P p ->
    exists b, contains_views (map f t) (map f p) = Ret b
              /\ (b = true <-> exists t1 t2 t3, t = (t1 ++ t2 ++ t3)%list /\ Forall2 E t2 p).
  Proof.
    intros t [|c p] Ht Hp.
    - exists true. split; [reflexivity|]. split; [|auto]. intros _. exists [], [], t. split; [reflexivity|constructor].
    - unfold contains_views. cbn [map empty_ search_]. apply search_loop_spec; assumption.
  Qed.
End Elements.

Lemma same_plain : forall a b, True -> True -> exists e, same (Ret a) (Ret b) = Ret e /\ (e = true <-> a = b).
Proof. intros a b _ _. exists (a =? b)%Z. split; [reflexivity|]. apply Z.eqb_eq. Qed.

Lemma Forall_True : forall l : list Z, Forall (fun _ => True) l.
Proof. induction l; constructor; auto. Qed.

Lemma Forall2_eq_iff : forall (A : Type) (l r : list A), Forall2 eq l r <-> l = r.
Proof.
  intros A l r. split.
  - induction 1; congruence.
  - intros ->. induction r; constructor; auto.
Qed.

(** ** Case folding *)

(** The characters on which std::toupper is defined. *)
Definition foldable (signed : bool) (c : Z) : Prop := is_char signed c /\ (-1 <= c)%Z.

Lemma fold_char_value : forall signed c, foldable signed c ->
  fold_char signed c = Ret (if (97 <=? c) && (c <=? 122) then c - 32 else c)%Z.
Proof.
  intros signed c [Hc Hm]. unfold fold_char, toupper, is_char in *.
  assert (H255 : (c <= 255)%Z) by (destruct signed; lia).
  rewrite (proj2 (Z.ltb_ge c (-1)) Hm), (proj2 (Z.ltb_ge 255 c) H255). cbn [orb obind]. unfold to_char. f_equal.
  destruct (Z.eq_dec c (-1)) as [->|Hne].
  - destruct signed; [reflexivity|]. lia.
  - set (u := (if ((97 <=? c) && (c <=? 122))%bool then c - 32 else c)%Z).
    assert (Hu : (0 <= u < 256 /\ (signed = true -> u <= 127))%Z).
    { subst u. destruct ((97 <=? c) && (c <=? 122))%Z eqn:Hb.
      - apply andb_true_iff in Hb as [H1 H2]. apply Z.leb_le in H1, H2. lia.
      - destruct signed; lia. }
    rewrite Z.mod_small by lia. destruct signed; cbn [andb]; [|reflexivity].
    destruct (Z.ltb_spec 127 u); [|reflexivity]. destruct Hu as [_ Hu]. specialize (Hu eq_refl). lia.
Qed.

(** The same character up to case, for all characters (not only ASCII). *)
Lemma same_folded : forall signed a b, foldable signed a -> foldable signed b ->
  exists e, same (fold_char signed a) (fold_char signed b) = Ret e /\ (e = true <-> same_letter a b).
Proof.
  intros signed a b Ha Hb. rewrite (fold_char_value _ _ Ha), (fold_char_value _ _ Hb). cbn [same obind].
  eexists. split; [reflexivity|]. rewrite Z.eqb_eq. unfold same_letter.
  destruct ((97 <=? a) && (a <=? 122))%Z eqn:H1; destruct ((97 <=? b) && (b <=? 122))%Z eqn:H2;
    rewrite ?andb_true_iff, ?andb_false_iff, ?Z.leb_le, ?Z.leb_gt in *; lia.
Qed.

Lemma ascii_foldable : forall signed l, ascii_text l -> Forall (foldable signed) l.
Proof.
  intros signed l H. eapply Forall_impl; [|exact H]. intros c Hc. unfold ascii_char, foldable, is_char in *. destruct signed; lia.
Qed.

Lemma fold_char_undefined : forall signed c, is_char signed c -> ~ foldable signed c -> fold_char signed c = Undef UbDomain.
Proof.
  intros signed c Hc Hn. unfold fold_char, toupper, foldable in *.
  assert (Hl : (c < -1)%Z) by (destruct (Z.le_gt_cases (-1) c); [tauto|assumption]).
  rewrite (proj2 (Z.ltb_lt c (-1)) Hl). reflexivity.
Qed.

(** ** Views *)

Lemma until_nul_Ret : forall l v, until_nul l = Ret v <-> ~ In 0%Z v /\ exists rest, l = (v ++ 0%Z :: rest)%list.
Proof.
  induction l as [|c l IH]; intro v; cbn [until_nul].
  - split; [discriminate|]. intros [_ [rest H]]. destruct v; discriminate.
  - destruct (Z.eqb_spec c 0) as [->|Hc].
    + split.
      * intro H. injection H as <-. split; [intros []|]. exists l. reflexivity.
      * intros [Hn [rest H]]. destruct v as [|x v]; [reflexivity|]. injection H as <- _. exfalso. apply Hn. left. reflexivity.
    + rewrite obind_Ret_iff. split.
      * intros [r [Hr H]]. injection H as <-. apply IH in Hr as [Hn [rest ->]]. split; [|exists rest; reflexivity].
        intros [H|H]; [auto|contradiction].
      * intros [Hn [rest H]]. destruct v as [|x v].
        -- injection H as -> _. contradiction.
        -- injection H as <- ->. exists v. split; [|reflexivity]. apply IH. split; [|eauto]. intro H. apply Hn. right. exact H.
Qed.

Lemma until_nul_Undef : forall l, ~ In 0%Z l <-> until_nul l = Undef UbDangling.
Proof.
  induction l as [|c l IH]; cbn [until_nul].
  - split; auto.
  - destruct (Z.eqb_spec c 0) as [->|Hc].
    + split; [intro H; exfalso; apply H; left; reflexivity|discriminate].
    + split.
      * intro H. rewrite (proj1 IH); [reflexivity|]. intro; apply H; right; assumption.
      * intros H [H0|H0]; [contradiction|]. destruct (until_nul l); try discriminate. injection H as ->. apply IH in H0; [exact H0|reflexivity].
Qed.

(** ** Ranges *)

Lemma ranges_equal_spec : forall (A B : Type) sized (comp : A -> B -> bool) l r,
  exists b, ranges_equal sized (fun a c => Ret (comp a c)) l r = Ret b /\ (b = true <-> Forall2 (fun a c => comp a c = true) l r).
Proof.
  intros A B sized comp l r. unfold ranges_equal.
  assert (Hloop : exists b, equal_loop (fun a c => Ret (comp a c)) l r = Ret b /\ (b = true <-> Forall2 (fun a c => comp a c = true) l r)).
  { revert r. induction l as [|a l IH]; intros [|c r]; cbn [equal_loop].
    - exists true. split; [reflexivity|]. split; auto.
    - exists false. split; [reflexivity|]. split; [discriminate|]. intro H; inversion H.
    - exists false. split; [reflexivity|]. split; [discriminate|]. intro H; inversion H.
    - cbn [obind]. destruct (comp a c) eqn:Hc.
      + destruct (IH r) as [b [Hb Hi]]. exists b. split; [exact Hb|]. rewrite Hi. split.
        * intro H. constructor; assumption.
        * intro H. inversion H; assumption.
      + exists false. split; [reflexivity|]. split; [discriminate|]. intro H. inversion H; subst. congruence. }
  destruct (sized && negb (List.length l =? List.length r)%nat) eqn:Hs; [|exact Hloop].
  exists false. split; [reflexivity|]. split; [discriminate|]. intro H. apply andb_true_iff in Hs as [_ Hs].
  apply Forall2_len in H. rewrite H, Nat.eqb_refl in Hs. discriminate.
Qed.

Lemma all_of_true : forall (A : Type) (f : A -> outcome bool) l,
  all_of_ f l = Ret true <-> forall x, In x l -> f x = Ret true.
Proof.
  intros A f. induction l as [|a l IH]; cbn [all_of_].
  - split; [intros _ x []|reflexivity].
  - destruct (f a) as [[|]| | |] eqn:Ha; cbn [obind].
    + rewrite IH. split; [intros H x [<-|Hx]; auto|intros H x Hx; apply H; right; exact Hx].
    + split; [discriminate|]. intro H. rewrite (H a (or_introl eq_refl)) in Ha. discriminate.
    + split; [discriminate|]. intro H. rewrite (H a (or_introl eq_refl)) in Ha. discriminate.
    + split; [discriminate|]. intro H. rewrite (H a (or_introl eq_refl)) in Ha. discriminate.
    + split; [discriminate|]. intro H. rewrite (H a (or_introl eq_refl)) in Ha. discriminate.
Qed.

(** Any other result is the one for the first element which is not accepted. *)
Lemma all_of_other : forall (A : Type) (f : A -> outcome bool) l r, r <> Ret true ->
  (all_of_ f l = r <-> exists pre x post, l = (pre ++ x :: post)%list /\ (forall y, In y pre -> f y = Ret true) /\ f x = r).
Proof.
  intros A f l r Hr. induction l as [|a l IH]; cbn [all_of_].
  - split; [intro H; congruence|]. intros [[|p pre] [x [post [H _]]]]; discriminate.
  - destruct (f a) as [[|]|e| |u] eqn:Ha; cbn [obind].
    + rewrite IH. split.
      * intros [pre [x [post [-> [Hp Hx]]]]]. exists (a :: pre), x, post. repeat split; [|exact Hx]. intros y [<-|Hy]; auto.
      * intros [[|p pre] [x [post [H [Hp Hx]]]]]; injection H as -> ->.
        -- congruence.
        -- exists pre, x, post. repeat split; [|exact Hx]. intros y Hy. apply Hp. right. exact Hy.
    + split.
      * intros <-. exists [], a, l. repeat split; [intros y []|exact Ha].
      * intros [[|p pre] [x [post [H [Hp Hx]]]]]; injection H as -> ->; [congruence|].
        rewrite (Hp p (or_introl eq_refl)) in Ha. discriminate.
    + split.
      * intros <-. exists [], a, l. repeat split; [intros y []|exact Ha].
      * intros [[|p pre] [x [post [H [Hp Hx]]]]]; injection H as -> ->; [congruence|].
        rewrite (Hp p (or_introl eq_refl)) in Ha. discriminate.
    + split.
      * intros <-. exists [], a, l. repeat split; [intros y []|exact Ha].
      * intros [[|p pre] [x [post [H [Hp Hx]]]]]; injection H as -> ->; [congruence|].
        rewrite (Hp p (or_introl eq_refl)) in Ha. discriminate.
    + split.
      * intros <-. exists [], a, l. repeat split; [intros y []|exact Ha].
      * intros [[|p pre] [x [post [H [Hp Hx]]]]]; injection H as -> ->; [congruence|].
        rewrite (Hp p (or_introl eq_refl)) in Ha. discriminate.
Qed.

Lemma any_of_all_of : forall (A : Type) (f : A -> outcome bool) l,
  any_of_ f l = obind (all_of_ (fun a => obind (f a) (fun b => Ret (negb b))) l) (fun b => Ret (negb b)).
Proof.
  intros A f. induction l as [|a l IH]; [reflexivity|]. cbn [any_of_ all_of_].
  destruct (f a) as [[|]| | |]; cbn [obind negb]; auto.
Qed.

Lemma is_sorted_from_spec : forall (A : Type) (rel : A -> A -> bool) l a,
  exists b, is_sorted_from (fun x y => Ret (rel x y)) a l = Ret b
            /\ (b = true <-> Sorted (fun x y => rel y x = false) (a :: l)).
Proof.
  intros A rel. induction l as [|c l IH]; intro a; cbn [is_sorted_from].
  - exists true. split; [reflexivity|]. split; [|auto]. intros _. constructor; constructor.
  - cbn [obind]. destruct (rel c a) eqn:Hr.
    + exists false. split; [reflexivity|]. split; [discriminate|]. intro H. inversion H as [|x y Hs Hh]; subst. inversion Hh; subst. congruence.
    + destruct (IH c) as [b [Hb Hi]]. exists b. split; [exact Hb|]. rewrite Hi. split.
      * intro H. constructor; [exact H|]. constructor. exact Hr.
      * intro H. inversion H; assumption.
Qed.

Lemma is_sorted_spec : forall (A : Type) (rel : A -> A -> bool) l,
  exists b, is_sorted_ (fun x y => Ret (rel x y)) l = Ret b /\ (b = true <-> Sorted (fun x y => rel y x = false) l).
Proof.
  intros A rel [|a l]; [|apply is_sorted_from_spec]. exists true. split; [reflexivity|]. split; auto.
Qed.

Lemma Sorted_in_order : forall (A : Type) (rel : A -> A -> bool) (less : A -> A -> Prop), decides rel less -> weak_order less ->
  forall l, Sorted (fun x y => rel y x = false) l <-> in_order less l.
Proof.
  intros A rel less Hd Hw l.
  assert (Hf : forall x y, rel y x = false <-> ~ less y x).
  { intros x y. rewrite <- (Hd y x). destruct (rel y x); split; intros; auto; try discriminate. contradiction. }
  split.
  - intro H. apply Sorted_StronglySorted in H.
    + intros pre a mid b post ->. apply Hf.
      induction pre as [|p pre IH]; cbn in H.
      * inversion H as [|x l Hs Hall]; subst. rewrite Forall_app in Hall. destruct Hall as [_ Hall]. inversion Hall; assumption.
      * inversion H; subst. apply IH. assumption.
    + intros x y z Hxy Hyz. apply Hf in Hxy, Hyz. apply Hf. exact (wo_incomparable _ Hw z y x Hyz Hxy).
  - intro H. induction l as [|a l IH]; constructor.
    + apply IH. intros pre x mid y post ->. apply (H (a :: pre) x mid y post). reflexivity.
    + destruct l as [|b l]; constructor. apply Hf. apply (H [] a [] b l). reflexivity.
Qed.

(** ** is_permutation *)

Section Counting.
  Context {A : Type} (comp : A -> A -> bool) (E : A -> A -> Prop).
  Context (Hd : decides comp E) (He : equivalence E).

  Lemma comp_compat : forall a b, E a b -> forall c, comp a c = comp b c.
  Proof.
    intros a b Hab c. destruct (comp b c) eqn:Hbc.
    - apply Hd. apply Hd in Hbc. exact (eqv_trans _ He a b c Hab Hbc).
    - destruct (comp a c) eqn:Hac; [|reflexivity]. apply Hd in Hac.
      assert (E b c) by exact (eqv_trans _ He b a c (eqv_sym _ He a b Hab) Hac). apply Hd in H. congruence.
  Qed.

  Lemma comp_compat_r : forall a b, E a b -> forall c, comp c a = comp c b.
  Proof.
    intros a b Hab c. destruct (comp c b) eqn:Hbc.
    - apply Hd. apply Hd in Hbc. exact (eqv_trans _ He c b a Hbc (eqv_sym _ He a b Hab)).
    - destruct (comp c a) eqn:Hac; [|reflexivity]. apply Hd in Hac.
      assert (E c b) by exact (eqv_trans _ He c a b Hac Hab). apply Hd in H. congruence.
  Qed.

  Lemma count_app : forall (f : A -> bool) l r, count_if f (l ++ r) = count_if f l + count_if f r.
  Proof. induction l; intros; cbn; [reflexivity|]. rewrite IHl. lia. Qed.

  Lemma count_perm : forall (f : A -> bool) l r, Permutation l r -> count_if f l = count_if f r.
  Proof. induction 1; cbn; lia. Qed.

  Lemma count_Forall2 : forall c l r, Forall2 E l r -> count_if (comp c) l = count_if (comp c) r.
  Proof. intros c. induction 1; cbn; [reflexivity|]. rewrite (comp_compat_r x y H). lia. Qed.

  Lemma count_ext : forall a b, E a b -> forall l, count_if (comp a) l = count_if (comp b) l.
  Proof. intros a b Hab. induction l as [|c l IH]; cbn; [reflexivity|]. rewrite (comp_compat a b Hab c). lia. Qed.

  Lemma count_pos : forall (f : A -> bool) l, 0 < count_if f l -> exists pre b post, l = (pre ++ b :: post)%list /\ f b = true.
  Proof.
    induction l as [|c l IH]; cbn; [lia|]. destruct (f c) eqn:Hc.
    - intros _. exists [], c, l. auto.
    - intro H. destruct IH as [pre [b [post [-> Hb]]]]; [lia|]. exists (c :: pre), b, post. auto.
  Qed.

  Lemma comp_refl : forall a, comp a a = true.
  Proof. intro a. apply Hd. apply (eqv_refl _ He). Qed.

  (** Equal counts for the elements of [l] and equal lengths. *)
  Lemma counts_rearranged : forall l r, List.length l = List.length r ->
    (forall x, In x l -> count_if (comp x) l = count_if (comp x) r) -> rearranged E l r.
  Proof.
    induction l as [|a l IH]; intros r Hl Hc.
    - destruct r; [|discriminate]. exists []. split; constructor.
    - assert (Hp : 0 < count_if (comp a) r).
      { rewrite <- (Hc a (or_introl eq_refl)). cbn. rewrite comp_refl. lia. }
      apply count_pos in Hp as [pre [b [post [-> Hb]]]].
      destruct (IH (pre ++ post)%list) as [l' [Hperm Hf]].
      + rewrite app_length in *. cbn in Hl. lia.
      + intros x Hx. specialize (Hc x (or_intror Hx)). cbn in Hc. rewrite count_app in *. cbn in Hc.
        apply Hd in Hb. rewrite (comp_compat_r a b Hb x) in Hc. lia.
      + apply Forall2_app_inv_r in Hf as [l1 [l2 [H1 [H2 ->]]]].
        exists (l1 ++ a :: l2)%list. split.
        * apply Permutation_cons_app. exact Hperm.
        * apply Forall2_app; [exact H1|]. constructor; [apply Hd; exact Hb|exact H2].
  Qed.

  Lemma rearranged_counts : forall l r, rearranged E l r -> List.length l = List.length r /\ forall x, count_if (comp x) l = count_if (comp x) r.
  Proof.
    intros l r [l' [Hp Hf]]. split.
    - rewrite (Permutation_length Hp). eapply Forall2_len. exact Hf.
    - intro x. rewrite (count_perm _ _ _ Hp). apply count_Forall2. exact Hf.
  Qed.

  Lemma first_equivalent : forall x l, In x l -> exists pre a post, l = (pre ++ a :: post)%list /\ E x a /\ (forall y, In y pre -> ~ E x y).
  Proof.
    intros x. induction l as [|c l IH]; intros Hx; [destruct Hx|].
    destruct (comp x c) eqn:Hc.
    - exists [], c, l. split; [reflexivity|]. split; [apply Hd; exact Hc|intros y []].
    - destruct Hx as [->|Hx]; [rewrite comp_refl in Hc; discriminate|].
      destruct (IH Hx) as [pre [a [post [-> [Hxa Hn]]]]]. exists (c :: pre), a, post. split; [reflexivity|]. split; [exact Hxa|].
      intros y [<-|Hy]; [|auto]. intro H. apply Hd in H. congruence.
  Qed.

  Lemma count_none : forall x l, (forall y, In y l -> ~ E x y) -> count_if (comp x) l = 0.
  Proof.
    intros x. induction l as [|c l IH]; intro H; [reflexivity|]. cbn. rewrite IH; [|intros y Hy; apply H; right; exact Hy].
    destruct (comp x c) eqn:Hc; [|reflexivity]. exfalso. apply (H c (or_introl eq_refl)). apply Hd. exact Hc.
  Qed.

  Lemma permutation_loop_spec : forall other rest seen,
    permutation_loop comp seen rest other = true <->
    (forall pre a post, rest = (pre ++ a :: post)%list -> (forall y, In y (seen ++ pre) -> ~ E a y) ->
       count_if (comp a) (a :: post) = count_if (comp a) other).
  Proof.
    intro other. induction rest as [|c rest IH]; intro seen; cbn [permutation_loop].
    - split; [|reflexivity]. intros _ [|x pre] a post H; discriminate.
    - destruct (existsb (comp c) seen) eqn:Hs.
      + apply existsb_exists in Hs as [s [Hin Hcs]]. rewrite IH. split.
        * intros H [|x pre] a post Heq Hn; injection Heq as -> ->.
          -- exfalso. apply (Hn s); [rewrite app_nil_r; exact Hin|]. apply Hd. exact Hcs.
          -- apply (H pre a post eq_refl). intros y Hy. apply Hn. cbn in Hy. rewrite in_app_iff in *. cbn. tauto.
        * intros H pre a post -> Hn. apply (H (c :: pre) a post eq_refl). intros y Hy. apply Hn. cbn. rewrite in_app_iff in *. cbn in Hy. tauto.
      + assert (Hns : forall y, In y seen -> ~ E c y).
        { intros y Hy Hcy. apply Hd in Hcy. assert (existsb (comp c) seen = true) by (apply existsb_exists; eauto). congruence. }
        assert (Hpos : 0 < count_if (comp c) (c :: rest)) by (cbn; rewrite comp_refl; lia).
        destruct ((count_if (comp c) other =? 0)%nat || negb (count_if (comp c) (c :: rest) =? count_if (comp c) other)%nat) eqn:Hb.
        * split; [discriminate|]. intro H. specialize (H [] c rest eq_refl). rewrite app_nil_r in H. specialize (H Hns).
          rewrite H in Hb, Hpos. rewrite Nat.eqb_refl in Hb. cbn in Hb. rewrite orb_false_r in Hb. apply Nat.eqb_eq in Hb. lia.
        * apply orb_false_iff in Hb as [_ Hb]. apply negb_false_iff, Nat.eqb_eq in Hb. rewrite IH. split.
          -- intros H [|x pre] a post Heq Hn; injection Heq as -> ->; [exact Hb|].
             apply (H pre a post eq_refl). intros y Hy. apply Hn. cbn in Hy. rewrite in_app_iff in *. cbn. tauto.
          -- intros H pre a post -> Hn. apply (H (c :: pre) a post eq_refl). intros y Hy. apply Hn. cbn. rewrite in_app_iff in *. cbn in Hy. tauto.
  Qed.

  Lemma permutation_loop_counts : forall l r, permutation_loop comp [] l r = true <-> forall x, In x l -> count_if (comp x) l = count_if (comp x) r.
  Proof.
    intros l r. rewrite permutation_loop_spec. split.
    - intros H x Hx. destruct (first_equivalent x l Hx) as [pre [a [post [-> [Hxa Hn]]]]].
      assert (Hn' : forall y, In y pre -> ~ E a y).
      { intros y Hy Hay. apply (Hn y Hy). exact (eqv_trans _ He x a y Hxa Hay). }
      specialize (H pre a post eq_refl Hn'). rewrite !(count_ext x a Hxa), count_app, (count_none a pre Hn'). exact H.
    - intros H pre a post -> Hn. cbn in Hn. rewrite <- (H a); [|rewrite in_app_iff; right; left; reflexivity].
      rewrite count_app, (count_none a pre Hn). reflexivity.
  Qed.

  Lemma skip_common_spec : forall l r, exists p q, l = (p ++ fst (skip_common comp l r))%list
    /\ r = (q ++ snd (skip_common comp l r))%list /\ Forall2 E p q.
  Proof.
    induction l as [|a l IH]; intros [|b r]; cbn [skip_common]; try (exists [], []; cbn; auto; fail).
    destruct (comp a b) eqn:Hc; [|exists [], []; cbn; auto].
    destruct (IH r) as [p [q [Hp [Hq Hf]]]]. exists (a :: p), (b :: q). cbn. split; [congruence|]. split; [congruence|].
    constructor; [apply Hd; exact Hc|exact Hf].
  Qed.

  Lemma is_permutation_spec : forall l r, is_permutation_ comp l r = true <-> rearranged E l r.
  Proof.
    intros l r. unfold is_permutation_. destruct (Nat.eqb_spec (List.length l) (List.length r)) as [Hl|Hl]; cbn [negb].
    - destruct (skip_common_spec l r) as [p [q [Hp [Hq Hf]]]]. destruct (skip_common comp l r) as [l' r']. cbn [fst snd] in Hp, Hq.
      pose proof (Forall2_len _ _ _ _ _ Hf) as Hpq. assert (Hl' : List.length l' = List.length r').
      { rewrite Hp, Hq, !app_length in Hl. lia. }
      rewrite permutation_loop_counts. split.
      + intro H. destruct (counts_rearranged l' r' Hl' H) as [m [Hm Hfm]]. exists (p ++ m)%list. split.
        * rewrite Hp. apply Permutation_app_head. exact Hm.
        * rewrite Hq. apply Forall2_app; assumption.
      + intros H x _. apply rearranged_counts in H as [_ H]. specialize (H x). rewrite Hp, Hq, !count_app in H.
        rewrite (count_Forall2 x p q Hf) in H. lia.
    - split; [discriminate|]. intro H. apply rearranged_counts in H as [H _]. contradiction.
  Qed.
End Counting.
