(** * PropMatcher: the theorems about the built-in matchers (C37 to C43, C56 and C61 to C65). *)

From Coq Require Import Permutation Sorted.
From Verif Require Import Base Sequence Control Signature Printer Reports Expectation Matcher Strings MatchSpec MatchProofs FormatSpec FormatProofs.
Local Open Scope string_scope.

(** ** C37: negation *)

(** The answer of a negated matcher, including exceptions and undefined behaviour of the predicate. *)
Theorem C37_negation : forall (T S : Type) (m : pmatcher T S) x,
  (forall b, pm_matches (pm_not m) x = Ret b <-> pm_matches m x = Ret (negb b))
  /\ (forall e, pm_matches (pm_not m) x = Throw e <-> pm_matches m x = Throw e)
  /\ (pm_matches (pm_not m) x = Terminate <-> pm_matches m x = Terminate)
  /\ (forall u, pm_matches (pm_not m) x = Undef u <-> pm_matches m x = Undef u).
Proof.
  intros T S m x. unfold pm_matches, pm_not, make_inverted, not_fn. cbn.
  destruct (pm_predicate m x (pm_args m)) as [b| | |]; cbn; repeat split; intros; try congruence.
  - destruct b, b0; cbn in *; congruence.
  - destruct b, b0; cbn in *; congruence.
Qed.
Print Assumptions C37_negation.

(** Any number of negations: an even number behaves and describes itself as the matcher, an odd number as its negation. *)
Theorem C37_nested : forall (T S : Type) (show : S -> outcome string) (m : pmatcher T S) n x,
  let nested := Nat.iter n pm_not m in
  let plain := if Nat.even n then m else pm_not m in
  pm_matches nested x = pm_matches plain x /\ pm_describe show nested = pm_describe show plain.
Proof.
  intros T S show m n x. cbv zeta.
  assert (H : let nested := Nat.iter n pm_not m in let plain := if Nat.even n then m else pm_not m in
    pm_args nested = pm_args plain /\ pm_fmt nested = pm_fmt plain /\ pm_inverted nested = pm_inverted plain
    /\ (forall l, pm_predicate nested x l = pm_predicate plain x l)).
  { cbv zeta. induction n as [|n IH]; [repeat split|]. destruct IH as [Ha [Hf [Hi Hp]]].
    rewrite Nat.even_succ, <- Nat.negb_even. change (Nat.iter (Datatypes.S n) pm_not m) with (pm_not (Nat.iter n pm_not m)).
    set (k := Nat.iter n pm_not m) in *. clearbody k.
    unfold pm_not, make_inverted, not_fn in *. destruct (Nat.even n); cbn [negb pm_args pm_fmt pm_inverted pm_predicate] in *;
      (repeat split; [exact Ha|exact Hi|exact Hf|]); intro l; rewrite Hp.
    - reflexivity.
    - destruct (pm_predicate m x l) as [[|]| | |]; reflexivity. }
  cbv zeta in H. destruct H as [Ha [Hf [_ Hp]]]. unfold pm_matches, pm_describe. rewrite Ha, Hf, Hp. auto.
Qed.
Print Assumptions C37_nested.

(** A negated matcher describes itself with the inverted text and the same stored values. *)
Theorem C37_inverted_text : forall (T S : Type) (show : S -> outcome string) (m : pmatcher T S) texts,
  omap show (pm_args m) = Ret texts -> pm_describe show (pm_not m) = vformat (pm_inverted m) texts.
Proof. intros T S show m texts H. unfold pm_describe, pm_not, make_inverted. cbn. rewrite H. reflexivity. Qed.
Print Assumptions C37_inverted_text.

(** The texts of a matcher and of its negation. *)
Definition described {T S : Type} (show : S -> outcome string) (m : pmatcher T S) (text inverted : string) : Prop :=
  pm_describe show m = Ret text /\ pm_describe show (pm_not m) = Ret inverted.

Lemma append_nil_r : forall s : string, s ++ "" = s.
Proof. induction s; cbn; congruence. Qed.

Ltac text := unfold described, pm_describe; cbn; repeat match goal with H : _ = Ret _ |- _ => rewrite H; clear H; cbn end;
  rewrite ?append_nil_r; split; reflexivity.

Theorem C37_comparison_texts : forall (T S : Type) show (op : operators T S) v s, show v = Ret s ->
  described show (m_eq op (TValue v)) ("== " ++ s) ("!= " ++ s)
  /\ described show (m_ne op (TValue v)) ("!= " ++ s) ("== " ++ s)
  /\ described show (m_lt op (TValue v)) ("< " ++ s) (">= " ++ s)
  /\ described show (m_le op (TValue v)) ("<= " ++ s) ("> " ++ s)
  /\ described show (m_gt op (TValue v)) ("> " ++ s) ("<= " ++ s)
  /\ described show (m_ge op (TValue v)) (">= " ++ s) ("< " ++ s).
Proof. intros T S show op v s H. repeat match goal with |- _ /\ _ => split; [text|] end. text. Qed.
Print Assumptions C37_comparison_texts.

Theorem C37_string_texts : forall show signed p s, show p = Ret s ->
  described show (str_eq p) ("is equal to " ++ s) ("is not equal to " ++ s)
  /\ described show (str_starts p) ("starts with " ++ s) ("starts not with " ++ s)
  /\ described show (str_ends p) ("ends with " ++ s) ("ends not with " ++ s)
  /\ described show (str_contains p) ("contains " ++ s) ("contains not " ++ s)
  /\ described show (str_eq_ci signed p) ("is case-insensitively equal to " ++ s) ("is case-insensitively not equal to " ++ s)
  /\ described show (str_starts_ci signed p) ("case-insensitively starts with " ++ s) ("case-insensitively starts not with " ++ s)
  /\ described show (str_ends_ci signed p) ("case-insensitively ends with " ++ s) ("case-insensitively ends not with " ++ s)
  /\ described show (str_contains_ci signed p) ("case-insensitively contains " ++ s) ("case-insensitively contains not " ++ s).
Proof. intros show signed p s H. repeat match goal with |- _ /\ _ => split; [text|] end. text. Qed.
Print Assumptions C37_string_texts.

Theorem C37_range_texts : forall (A : Type) sized compo comp (rel : A -> A -> outcome bool) show showz (expected : list A) n (m : inner A) s sz d,
  show expected = Ret s -> showz n = Ret sz -> in_describe m = Ret d ->
  described show (range_eq sized compo expected : pmatcher (list A) (list A)) ("elements are " ++ s) ("elements are not " ++ s)
  /\ described show (range_unordered_eq comp expected) ("is a permutation of " ++ s) ("is not a permutation of " ++ s)
  /\ described show (range_is_sorted rel) "is a sorted range" "is an unsorted range"
  /\ described show (range_is_empty (A := A)) "is an empty range" "is not an empty range"
  /\ described showz (range_has_size (A := A) n) ("has size of " ++ sz) ("has different size than " ++ sz)
  /\ described in_describe (range_each m) ("each el in range: el " ++ d) ("not each el in range: el " ++ d)
  /\ described in_describe (range_any m) ("any el in range: el " ++ d) ("none el in range: el " ++ d).
Proof. intros A sized compo comp rel show showz expected n m s sz d H1 H2 H3. repeat match goal with |- _ /\ _ => split; [text|] end. text. Qed.
Print Assumptions C37_range_texts.

(** matches::predicate and matches::instance. *)
Theorem C37_general_texts : forall (T S : Type) (show : S -> outcome string) (p : T -> outcome bool) a s,
  described show (m_predicate p predicate_description predicate_inverted) "passes predicate" "fails predicate"
  /\ (forall showa, showa a = Ret s -> described showa (m_instance a) ("is instance at " ++ s) ("is not instance at " ++ s))
  /\ wildcard_describe = Ret "has no constraints".
Proof.
  intros T S show p a s. split; [text|]. split; [|reflexivity]. intros showa H. text.
Qed.
Print Assumptions C37_general_texts.

(** Example: a negated each_element of a negated comparison. *)
Definition show_Z (z : Z) : outcome string := Ret (print (VInt z)).
Definition ops_Z : operators Z Z := mkOps Z.eqb (fun a b => negb (Z.eqb a b)) Z.ltb Z.leb Z.gtb Z.geb.
Definition less_five : pmatcher Z Z := m_lt ops_Z (TValue 5%Z).
Example C37_example :
  let m := pm_not (range_each (as_inner show_Z (pm_not less_five))) in
  pm_matches m [7; 8; 9]%Z = Ret false /\ pm_matches m [7; 3; 9]%Z = Ret true
  /\ pm_describe in_describe m = Ret "not each el in range: el >= 5"
  /\ pm_describe in_describe (pm_not m) = Ret "each el in range: el >= 5"
  /\ omap in_describe (pm_args m) = Ret [">= 5"].
Proof. repeat split; vm_compute; reflexivity. Qed.

(** A predicate which throws: so does its negation. *)
Example C37_example_throw :
  let m : pmatcher Z Z := m_predicate (fun z => if (z =? 0)%Z then Throw (EUser 3) else Ret true) "holds" "fails" in
  pm_matches (pm_not m) 0%Z = Throw (EUser 3) /\ pm_matches (pm_not m) 1%Z = Ret false /\ pm_describe show_Z (pm_not m) = Ret "fails".
Proof. repeat split; vm_compute; reflexivity. Qed.

(** ** C38: comparisons *)

(** The comparison matchers answer with the operator they are named after, whatever the operators are. *)
Theorem C38_exact : forall (T S : Type) (ops : operators T S) v x,
  pm_matches (m_eq ops (TValue v)) x = Ret (op_eq ops x v) /\ pm_matches (m_ne ops (TValue v)) x = Ret (op_ne ops x v)
  /\ pm_matches (m_lt ops (TValue v)) x = Ret (op_lt ops x v) /\ pm_matches (m_le ops (TValue v)) x = Ret (op_le ops x v)
  /\ pm_matches (m_gt ops (TValue v)) x = Ret (op_gt ops x v) /\ pm_matches (m_ge ops (TValue v)) x = Ret (op_ge ops x v).
Proof. intros. repeat split; reflexivity. Qed.
Print Assumptions C38_exact.

(** So they decide the relations which the operators decide. *)
Theorem C38_relations : forall (T S : Type) (ops : operators T S) (Re Rn Rl Rle Rg Rge : T -> S -> Prop) v x,
  decides (op_eq ops) Re -> decides (op_ne ops) Rn -> decides (op_lt ops) Rl -> decides (op_le ops) Rle -> decides (op_gt ops) Rg -> decides (op_ge ops) Rge ->
  let accepts m (R : T -> S -> Prop) := (pm_matches m x = Ret true <-> R x v) /\ (pm_matches m x = Ret false <-> ~ R x v) in
  accepts (m_eq ops (TValue v)) Re /\ accepts (m_ne ops (TValue v)) Rn /\ accepts (m_lt ops (TValue v)) Rl
  /\ accepts (m_le ops (TValue v)) Rle /\ accepts (m_gt ops (TValue v)) Rg /\ accepts (m_ge ops (TValue v)) Rge.
Proof.
  intros T S ops Re Rn Rl Rle Rg Rge v x He Hn Hl Hle Hg Hge accepts.
  assert (A : forall op (R : T -> S -> Prop) m, decides op R -> pm_matches m x = Ret (op x v) -> accepts m R).
  { intros op R m Hd Hx. specialize (Hd x v). unfold accepts. rewrite Hx. assert (Hf : op x v = false <-> ~ R x v).
    { rewrite <- Hd. destruct (op x v); split; intro H; try congruence; try discriminate. }
    rewrite <- Hf, <- Hd. split; split; congruence. }
  destruct (C38_exact T S ops v x) as (H1 & H2 & H3 & H4 & H5 & H6). repeat split; eapply A; eauto.
Qed.
Print Assumptions C38_relations.

(** On a totally ordered type with consistent operators each negation is the complementary matcher, with the same description. *)
Theorem C38_complements : forall (A : Type) (less : A -> A -> Prop) (ops : operators A A) show v x,
  total_order less -> decides (op_eq ops) (fun a b => a = b) -> decides (op_ne ops) (fun a b => a <> b) -> decides (op_lt ops) less ->
  decides (op_le ops) (fun a b => less a b \/ a = b) -> decides (op_gt ops) (fun a b => less b a) -> decides (op_ge ops) (fun a b => less b a \/ a = b) ->
  let same m m' := pm_matches (pm_not m) x = pm_matches m' x /\ pm_describe show (pm_not m) = pm_describe show m' in
  same (m_eq ops (TValue v)) (m_ne ops (TValue v)) /\ same (m_ne ops (TValue v)) (m_eq ops (TValue v))
  /\ same (m_lt ops (TValue v)) (m_ge ops (TValue v)) /\ same (m_ge ops (TValue v)) (m_lt ops (TValue v))
  /\ same (m_le ops (TValue v)) (m_gt ops (TValue v)) /\ same (m_gt ops (TValue v)) (m_le ops (TValue v)).
Proof.
  intros A less [eqb neb ltb leb gtb geb] show v x Hto He Hn Hl Hle Hg Hge same. cbn [op_eq op_ne op_lt op_le op_gt op_ge] in *.
  assert (H1 : eqb x v = negb (neb x v)).
  { destruct (eqb x v) eqn:E1, (neb x v) eqn:E2; try reflexivity.
    - apply He in E1. apply Hn in E2. contradiction.
    - assert (x <> v) as E3 by (intro E; apply He in E; congruence). apply Hn in E3. congruence. }
  pose proof (to_total _ Hto x v) as Ht.
  assert (H2 : ltb x v = negb (geb x v)).
  { destruct (ltb x v) eqn:E1, (geb x v) eqn:E2; try reflexivity.
    - apply Hl in E1. apply Hge in E2 as [E2| ->].
      + exfalso. exact (to_irrefl _ Hto x (to_trans _ Hto x v x E1 E2)).
      + exfalso. exact (to_irrefl _ Hto v E1).
    - destruct Ht as [H|[H|H]].
      + apply Hl in H. congruence.
      + assert (geb x v = true) by (apply Hge; auto). congruence.
      + assert (geb x v = true) by (apply Hge; auto). congruence. }
  assert (H3 : gtb x v = negb (leb x v)).
  { destruct (gtb x v) eqn:E1, (leb x v) eqn:E2; try reflexivity.
    - apply Hg in E1. apply Hle in E2 as [E2| ->].
      + exfalso. exact (to_irrefl _ Hto x (to_trans _ Hto x v x E2 E1)).
      + exfalso. exact (to_irrefl _ Hto v E1).
    - destruct Ht as [H|[H|H]].
      + assert (leb x v = true) by (apply Hle; auto). congruence.
      + assert (leb x v = true) by (apply Hle; auto). congruence.
      + apply Hg in H. congruence. }
  unfold same, pm_matches, pm_not, make_inverted, not_fn; cbn.
  rewrite H1, H2, H3, ?negb_involutive. repeat split; reflexivity.
Qed.
Print Assumptions C38_complements.

Example C38_total_order_of_Z : total_order Z.lt /\ decides (op_eq ops_Z) (fun a b => a = b) /\ decides (op_ne ops_Z) (fun a b => a <> b)
  /\ decides (op_lt ops_Z) Z.lt /\ decides (op_le ops_Z) (fun a b => Z.lt a b \/ a = b) /\ decides (op_gt ops_Z) (fun a b => Z.lt b a)
  /\ decides (op_ge ops_Z) (fun a b => Z.lt b a \/ a = b).
Proof.
  cbn [op_eq op_ne op_lt op_le op_gt op_ge ops_Z]. split; [constructor; intros; lia|]. unfold decides. repeat split; intros; try rewrite negb_true_iff in *;
    try rewrite Z.eqb_eq in *; try rewrite Z.eqb_neq in *; try rewrite Z.ltb_lt in *; try rewrite Z.leb_le in *; try rewrite Z.geb_le in *;
    try rewrite Z.gtb_lt in *; lia.
Qed.
Example C38_example : pm_matches (pm_not less_five) 5%Z = Ret true /\ pm_matches (m_ge ops_Z (TValue 5%Z)) 5%Z = Ret true
  /\ pm_describe show_Z (pm_not less_five) = Ret ">= 5" /\ pm_describe show_Z (pm_not (pm_not less_five)) = Ret "< 5".
Proof. repeat split; vm_compute; reflexivity. Qed.

(** A number or NaN, with the comparison operators of floating point numbers. *)
Definition nan : Type := option Z.
Definition nan_lt (a b : nan) : bool := match a, b with Some x, Some y => Z.ltb x y | _, _ => false end.
Definition nan_ge (a b : nan) : bool := match a, b with Some x, Some y => Z.geb x y | _, _ => false end.
Definition nan_le (a b : nan) : bool := match a, b with Some x, Some y => Z.leb x y | _, _ => false end.
Definition nan_eq (a b : nan) : bool := match a, b with Some x, Some y => Z.eqb x y | _, _ => false end.
Definition ops_nan : operators nan nan := mkOps nan_eq (fun a b => negb (nan_eq a b)) nan_lt nan_le (fun a b => nan_lt b a) nan_ge.
Definition show_nan (a : nan) : outcome string := match a with Some x => show_Z x | None => Ret "nan" end.

(** On partially ordered types the text of a negated matcher is that of a matcher with another answer. *)
Theorem C38_partial_orders_refuted : exists (v x : nan),
  pm_describe show_nan (pm_not (m_lt ops_nan (TValue v))) = pm_describe show_nan (m_ge ops_nan (TValue v))
  /\ pm_describe show_nan (pm_not (m_lt ops_nan (TValue v))) = Ret ">= 5"
  /\ pm_matches (pm_not (m_lt ops_nan (TValue v))) x = Ret true
  /\ pm_matches (m_ge ops_nan (TValue v)) x = Ret false.
Proof. exists (Some 5%Z), None. vm_compute. auto. Qed.
Print Assumptions C38_partial_orders_refuted.

(** The wildcard accepts everything; predicate answers with the predicate; instance compares addresses. *)
Theorem C38_others : forall (T S : Type) (p : T -> outcome bool) text inverted x a b,
  wildcard_matches x = Ret true
  /\ pm_matches (m_predicate p text inverted : pmatcher T S) x = p x
  /\ (pm_matches (m_instance a) b = Ret true <-> b = a) /\ (pm_matches (m_instance a) b = Ret false <-> b <> a).
Proof.
  intros T S p text inverted x a b. split; [reflexivity|]. split; [reflexivity|].
  change (pm_matches (m_instance a) b) with (Ret (N.eqb b a)). destruct (N.eqb_spec b a); split; split; intro H; congruence.
Qed.
Print Assumptions C38_others.

(** ** C39: strings *)

Theorem C39_eq : forall t p tv pv, view t = Ret tv -> view p = Ret pv ->
  exists b, pm_matches (str_eq p) t = Ret b /\ (b = true <-> tv = pv).
Proof.
  intros t p tv pv Ht Hp. unfold pm_matches; cbn. unfold on_views. rewrite Ht, Hp. cbn [obind].
  destruct (equal_views_spec Ret (fun _ => True) eq same_plain tv pv (Forall_True _) (Forall_True _)) as [b [Hb Hi]].
  exists b. split; [exact Hb|]. rewrite Hi. apply Forall2_eq_iff.
Qed.
Print Assumptions C39_eq.

Theorem C39_starts_with : forall t p tv pv, view t = Ret tv -> view p = Ret pv ->
  exists b, pm_matches (str_starts p) t = Ret b /\ (b = true <-> begins_with tv pv).
Proof.
  intros t p tv pv Ht Hp. unfold pm_matches; cbn. unfold on_views. rewrite Ht, Hp. cbn [obind].
  destruct (starts_views_spec Ret (fun _ => True) eq same_plain tv pv (Forall_True _) (Forall_True _)) as [b [Hb Hi]].
  exists b. split; [exact Hb|]. rewrite Hi. split.
  - intros [t1 [t2 [-> H]]]. apply Forall2_eq_iff in H as ->. exists t2. reflexivity.
  - intros [rest ->]. exists pv, rest. split; [reflexivity|]. apply Forall2_eq_iff. reflexivity.
Qed.
Print Assumptions C39_starts_with.

(** What both ranges have in common is taken off both. *)
Theorem C39_mismatch : forall l r, exists p l' r', l = (p ++ l')%list /\ r = (p ++ r')%list /\ mismatch_ (map Ret l) (map Ret r) = Ret (map Ret l', map Ret r') /\
  (forall x y l2 r2, l' = x :: l2 -> r' = y :: r2 -> x <> y).
Proof.
  induction l as [|a l IH]; intros r; [exists [], [], r; split; [reflexivity|]; split; [reflexivity|]; split; [reflexivity|discriminate]|].
  destruct r as [|b r]; [exists [], (a :: l), []; split; [reflexivity|]; split; [reflexivity|]; split; [reflexivity|discriminate]|].
  cbn [map mismatch_ same obind]. destruct (Z.eqb_spec a b) as [->|E].
  - destruct (IH r) as (p & l' & r' & -> & -> & H & Hd). exists (b :: p), l', r'. split; [reflexivity|]. split; [reflexivity|]. split; auto.
  - exists [], (a :: l), (b :: r). split; [reflexivity|]. split; [reflexivity|]. split; [reflexivity|]. intros x y l2 r2 [= <- _] [= <- _]. exact E.
Qed.
Print Assumptions C39_mismatch.
Theorem C39_ends_with : forall t p tv pv, view t = Ret tv -> view p = Ret pv ->
  exists b, pm_matches (str_ends p) t = Ret b /\ (b = true <-> finishes_with tv pv).
Proof.
  intros t p tv pv Ht Hp. unfold pm_matches; cbn. unfold on_views. rewrite Ht, Hp. cbn [obind].
  destruct (ends_views_spec Ret (fun _ => True) eq same_plain tv pv (Forall_True _) (Forall_True _)) as [b [Hb Hi]].
  exists b. split; [exact Hb|]. rewrite Hi. split.
  - intros [t1 [t2 [-> H]]]. apply Forall2_eq_iff in H as ->. exists t1. reflexivity.
  - intros [rest ->]. exists rest, pv. split; [reflexivity|]. apply Forall2_eq_iff. reflexivity.
Qed.
Print Assumptions C39_ends_with.

Theorem C39_contains : forall t p tv pv, view t = Ret tv -> view p = Ret pv ->
  exists b, pm_matches (str_contains p) t = Ret b /\ (b = true <-> includes tv pv).
Proof.
  intros t p tv pv Ht Hp. unfold pm_matches; cbn. unfold on_views. rewrite Ht, Hp. cbn [obind].
  destruct (contains_views_spec Ret (fun _ => True) eq same_plain tv pv (Forall_True _) (Forall_True _)) as [b [Hb Hi]].
  exists b. split; [exact Hb|]. rewrite Hi. split.
  - intros [t1 [t2 [t3 [-> H]]]]. apply Forall2_eq_iff in H as ->. exists t1, t3. reflexivity.
  - intros [start [rest ->]]. exists start, pv, rest. split; [reflexivity|]. apply Forall2_eq_iff. reflexivity.
Qed.
Print Assumptions C39_contains.

(** The empty pattern is a prefix, a suffix and a part of every string. *)
Theorem C39_empty_pattern : forall t tv, view t = Ret tv ->
  pm_matches (str_starts (SString [])) t = Ret true /\ pm_matches (str_ends (SString [])) t = Ret true
  /\ pm_matches (str_contains (SString [])) t = Ret true /\ (pm_matches (str_eq (SString [])) t = Ret true <-> tv = []).
Proof.
  intros t tv Ht.
  destruct (C39_starts_with t (SString []) tv [] Ht eq_refl) as [b1 [H1 I1]].
  destruct (C39_ends_with t (SString []) tv [] Ht eq_refl) as [b2 [H2 I2]].
  destruct (C39_contains t (SString []) tv [] Ht eq_refl) as [b3 [H3 I3]].
  destruct (C39_eq t (SString []) tv [] Ht eq_refl) as [b4 [H4 I4]].
  rewrite H1, H2, H3, H4. repeat split.
  - f_equal. apply I1. exists tv. reflexivity.
  - f_equal. apply I2. exists tv. symmetry. apply app_nil_r.
  - f_equal. apply I3. exists [], tv. reflexivity.
  - intro H. injection H as ->. apply I4. reflexivity.
  - intro H. apply I4 in H as ->. reflexivity.
Qed.
Print Assumptions C39_empty_pattern.

(** "aabaac" against "aac", where a naive search has to step back. *)
Example C39_example :
  let t := SString [97; 97; 98; 97; 97; 99]%Z in
  pm_matches (str_contains (SView [97; 97; 99]%Z)) t = Ret true
  /\ pm_matches (str_contains (SView [97; 97; 97]%Z)) t = Ret false
  /\ pm_matches (str_ends (SPtr (Some [97; 99; 0; 50]%Z))) t = Ret true
  /\ pm_matches (str_starts (SPtr (Some [97; 99; 0; 50]%Z))) t = Ret false
  /\ view (SPtr (Some [97; 99; 0; 50]%Z)) = Ret [97; 99]%Z.
Proof. vm_compute. repeat split; reflexivity. Qed.

(** ** C40: case-insensitive matching of ASCII strings *)

(** All four matchers; [signed]: both kinds of platforms. *)
Theorem C40_exact : forall signed t p tv pv, view t = Ret tv -> view p = Ret pv -> ascii_text tv -> ascii_text pv ->
  (exists b, pm_matches (str_eq_ci signed p) t = Ret b /\ (b = true <-> same_text tv pv))
  /\ (exists b, pm_matches (str_starts_ci signed p) t = Ret b /\ (b = true <-> exists pv', same_text pv' pv /\ begins_with tv pv'))
  /\ (exists b, pm_matches (str_ends_ci signed p) t = Ret b /\ (b = true <-> exists pv', same_text pv' pv /\ finishes_with tv pv'))
  /\ (exists b, pm_matches (str_contains_ci signed p) t = Ret b /\ (b = true <-> exists pv', same_text pv' pv /\ includes tv pv')).
Proof.
  intros signed t p tv pv Ht Hp At Ap. unfold pm_matches; cbn. unfold on_views. rewrite Ht, Hp. cbn [obind].
  apply (ascii_foldable signed) in At, Ap. pose proof (same_folded signed) as Hs. repeat split.
  - exact (equal_views_spec _ _ _ Hs tv pv At Ap).
  - destruct (starts_views_spec _ _ _ Hs tv pv At Ap) as [b [Hb Hi]]. exists b. split; [exact Hb|]. rewrite Hi. split.
    + intros [t1 [t2 [-> H]]]. exists t1. split; [exact H|]. exists t2. reflexivity.
    + intros [pv' [H [rest ->]]]. eauto.
  - destruct (ends_views_spec _ _ _ Hs tv pv At Ap) as [b [Hb Hi]]. exists b. split; [exact Hb|]. rewrite Hi. split.
    + intros [t1 [t2 [-> H]]]. exists t2. split; [exact H|]. exists t1. reflexivity.
    + intros [pv' [H [rest ->]]]. eauto.
  - destruct (contains_views_spec _ _ _ Hs tv pv At Ap) as [b [Hb Hi]]. exists b. split; [exact Hb|]. rewrite Hi. split.
    + intros [t1 [t2 [t3 [-> H]]]]. exists t2. split; [exact H|]. exists t1, t3. reflexivity.
    + intros [pv' [H [start [rest ->]]]]. eauto 6.
Qed.
Print Assumptions C40_exact.

Lemma fold_same_letter : forall signed a b, foldable signed a -> foldable signed b -> same_letter a b -> fold_char signed a = fold_char signed b.
Proof.
  intros signed a b Ha Hb H. destruct (same_folded signed a b Ha Hb) as [e [He Hi]]. apply Hi in H. subst e.
  rewrite (fold_char_value _ _ Ha), (fold_char_value _ _ Hb) in *. cbn [same obind] in He. injection He as He. apply Z.eqb_eq in He. congruence.
Qed.

Lemma fold_same_text : forall signed l r, Forall (foldable signed) l -> Forall (foldable signed) r -> same_text l r ->
  map (fold_char signed) l = map (fold_char signed) r.
Proof.
  intros signed l r Hl Hr H. induction H; [reflexivity|]. inversion Hl; inversion Hr; subst. cbn. f_equal; [|auto].
  apply fold_same_letter; assumption.
Qed.

(** Changing the case of letters of target or pattern does not change any answer. *)
Theorem C40_invariant : forall signed t t' p p' tv tv' pv pv', view t = Ret tv -> view t' = Ret tv' -> view p = Ret pv -> view p' = Ret pv' ->
  ascii_text tv -> ascii_text tv' -> ascii_text pv -> ascii_text pv' -> same_text tv tv' -> same_text pv pv' ->
  pm_matches (str_eq_ci signed p) t = pm_matches (str_eq_ci signed p') t'
  /\ pm_matches (str_starts_ci signed p) t = pm_matches (str_starts_ci signed p') t'
  /\ pm_matches (str_ends_ci signed p) t = pm_matches (str_ends_ci signed p') t'
  /\ pm_matches (str_contains_ci signed p) t = pm_matches (str_contains_ci signed p') t'.
Proof.
  intros signed t t' p p' tv tv' pv pv' Ht Ht' Hp Hp' A1 A2 A3 A4 H1 H2. unfold pm_matches; cbn. unfold on_views.
  rewrite Ht, Ht', Hp, Hp'. cbn [obind]. apply (ascii_foldable signed) in A1, A2, A3, A4.
  rewrite (fold_same_text signed tv tv' A1 A2 H1), (fold_same_text signed pv pv' A3 A4 H2). auto.
Qed.
Print Assumptions C40_invariant.

(** "Hello" and "hELLO"; "[" (91) and "{" (123) are not cases of a letter although they differ by 32. *)
Example C40_example :
  let t := SString [72; 101; 108; 108; 111]%Z in
  let p := SView [104; 69; 76; 76; 79]%Z in
  pm_matches (str_eq_ci true p) t = Ret true /\ pm_matches (str_eq p) t = Ret false
  /\ pm_matches (str_contains_ci false (SView [69; 76; 76]%Z)) t = Ret true
  /\ pm_matches (str_eq_ci true (SView [91]%Z)) (SView [123]%Z) = Ret false
  /\ same_text [72; 101; 108; 108; 111]%Z [104; 69; 76; 76; 79]%Z
  /\ ascii_text [72; 101; 108; 108; 111]%Z.
Proof.
  repeat split; try (vm_compute; reflexivity).
  - unfold same_text, same_letter. repeat constructor; lia.
  - unfold ascii_text, ascii_char. repeat constructor; lia.
Qed.

(** ** C41: case-insensitive matching of other strings *)

(** Witness: the byte 0xC4 where char is signed; the same strings are no problem for the case-sensitive matcher. *)
Theorem C41_case_folding_refuted : exists t p tv pv, view t = Ret tv /\ view p = Ret pv
  /\ Forall (is_char true) tv /\ Forall (is_char true) pv
  /\ pm_matches (str_eq_ci true p) t = Undef UbDomain /\ pm_matches (str_starts_ci true p) t = Undef UbDomain
  /\ pm_matches (str_ends_ci true p) t = Undef UbDomain /\ pm_matches (str_contains_ci true p) t = Undef UbDomain
  /\ pm_matches (str_eq p) t = Ret true.
Proof.
  exists (SString [-60]%Z), (SString [-60]%Z), [-60]%Z, [-60]%Z.
  repeat split; try (vm_compute; reflexivity); repeat constructor; cbn; lia.
Qed.
Print Assumptions C41_case_folding_refuted.

(** Exactly when the comparison for equality is undefined: the sizes agree, and the first position which is not the same character up to case has
    a byte from 0x80 to 0xFE in one of the strings. *)
Theorem C41_eq_exactly : forall t p tv pv, view t = Ret tv -> view p = Ret pv -> Forall (is_char true) tv -> Forall (is_char true) pv ->
  (pm_matches (str_eq_ci true p) t = Undef UbDomain <->
   List.length tv = List.length pv /\
   exists t1 a t2 p1 b p2, tv = (t1 ++ a :: t2)%list /\ pv = (p1 ++ b :: p2)%list
     /\ same_text t1 p1 /\ Forall (fun c => (-1 <= c)%Z) t1 /\ Forall (fun c => (-1 <= c)%Z) p1 /\ ((a < -1)%Z \/ (b < -1)%Z)).
Proof.
  intros t p tv pv Ht Hp Ct Cp. unfold pm_matches; cbn. unfold on_views. rewrite Ht, Hp. cbn [obind].
  unfold equal_views, ranges_equal. rewrite !map_length.
  destruct (Nat.eqb_spec (List.length tv) (List.length pv)) as [Hl|Hl]; cbn [andb negb].
  2: { split; [discriminate|]. intros [H _]. contradiction. }
  clear Ht Hp t p. revert pv Hl Cp. induction tv as [|a tv IH]; intros [|b pv] Hl Cp; try discriminate.
  - cbn. split; [discriminate|]. intros [_ [t1 [a [t2 [p1 [b [p2 [H _]]]]]]]]. destruct t1; discriminate.
  - inversion Ct as [|x l Ha Ct']; inversion Cp as [|y r Hb Cp']; subst. injection Hl as Hl. cbn [map equal_loop].
    destruct (Z.le_gt_cases (-1) a) as [La|La]; [destruct (Z.le_gt_cases (-1) b) as [Lb|Lb]|].
    + destruct (same_folded true a b) as [e [He Hi]]; [split; assumption|split; assumption|]. rewrite He. cbn [obind].
      destruct e.
      * rewrite (IH Ct' pv Hl Cp'). split.
        -- intros [_ [t1 [a' [t2 [p1 [b' [p2 [-> [-> [H1 [H2 [H3 H4]]]]]]]]]]]]. split; [cbn; congruence|].
           exists (a :: t1), a', t2, (b :: p1), b', p2. repeat split; auto.
           constructor; [apply Hi; reflexivity|exact H1].
        -- intros [_ [t1 [a' [t2 [p1 [b' [p2 [E1 [E2 [H1 [H2 [H3 H4]]]]]]]]]]]]. split; [exact Hl|].
           inversion H1; subst; cbn in E1, E2; injection E1 as -> ->; injection E2 as -> ->.
           ++ lia.
           ++ inversion H2; inversion H3; subst. eexists _, _, _, _, _, _. repeat split; eauto.
      * split; [discriminate|]. intros [_ [t1 [a' [t2 [p1 [b' [p2 [E1 [E2 [H1 [H2 [H3 H4]]]]]]]]]]]].
        inversion H1; subst; cbn in E1, E2; injection E1 as -> ->; injection E2 as -> ->.
        -- lia.
        -- enough (false = true) by discriminate. apply Hi. assumption.
    + assert (Hn : ~ foldable true b) by (intros [_ ?]; lia).
      rewrite (fold_char_undefined true b Hb Hn), (fold_char_value true a (conj Ha La)). cbn. split; [|reflexivity].
      intros _. split; [congruence|]. exists [], a, tv, [], b, pv. repeat split; auto. constructor.
    + assert (Hn : ~ foldable true a) by (intros [_ ?]; lia).
      rewrite (fold_char_undefined true a Ha Hn). cbn. split; [|reflexivity].
      intros _. split; [congruence|]. exists [], a, tv, [], b, pv. repeat split; auto. constructor.
Qed.
Print Assumptions C41_eq_exactly.

Lemma ci_defined : forall signed t p tv pv, view t = Ret tv -> view p = Ret pv -> Forall (foldable signed) tv -> Forall (foldable signed) pv ->
  forall m, In m [str_eq_ci signed p; str_starts_ci signed p; str_ends_ci signed p; str_contains_ci signed p] -> exists b, pm_matches m t = Ret b.
Proof.
  intros signed t p tv pv Ht Hp At Ap m Hm. pose proof (same_folded signed) as Hs.
  cbn in Hm. repeat destruct Hm as [<-|Hm]; [| | | |destruct Hm]; unfold pm_matches; cbn; unfold on_views; rewrite Ht, Hp; cbn [obind].
  - destruct (equal_views_spec _ _ _ Hs tv pv At Ap) as [b [Hb _]]. eauto.
  - destruct (starts_views_spec _ _ _ Hs tv pv At Ap) as [b [Hb _]]. eauto.
  - destruct (ends_views_spec _ _ _ Hs tv pv At Ap) as [b [Hb _]]. eauto.
  - destruct (contains_views_spec _ _ _ Hs tv pv At Ap) as [b [Hb _]]. eauto.
Qed.

(** Where char is unsigned, all four matchers are defined for all strings. *)
Theorem C41_unsigned_platforms : forall t p tv pv, view t = Ret tv -> view p = Ret pv ->
  Forall (is_char false) tv -> Forall (is_char false) pv ->
  forall m, In m [str_eq_ci false p; str_starts_ci false p; str_ends_ci false p; str_contains_ci false p] -> exists b, pm_matches m t = Ret b.
Proof.
  intros t p tv pv Ht Hp Ct Cp. apply (ci_defined false t p tv pv Ht Hp).
  - eapply Forall_impl; [|exact Ct]. intros c Hc. split; [exact Hc|]. unfold is_char in Hc. lia.
  - eapply Forall_impl; [|exact Cp]. intros c Hc. split; [exact Hc|]. unfold is_char in Hc. lia.
Qed.
Print Assumptions C41_unsigned_platforms.

(** Where char is signed, they are defined for strings of ASCII characters and the byte 0xFF. *)
Theorem C41_signed_platforms : forall t p tv pv, view t = Ret tv -> view p = Ret pv ->
  Forall (fun c => -1 <= c <= 127)%Z tv -> Forall (fun c => -1 <= c <= 127)%Z pv ->
  forall m, In m [str_eq_ci true p; str_starts_ci true p; str_ends_ci true p; str_contains_ci true p] -> exists b, pm_matches m t = Ret b.
Proof.
  intros t p tv pv Ht Hp Ct Cp. apply (ci_defined true t p tv pv Ht Hp).
  - eapply Forall_impl; [|exact Ct]. intros c Hc. unfold foldable, is_char. cbn in Hc. lia.
  - eapply Forall_impl; [|exact Cp]. intros c Hc. unfold foldable, is_char. cbn in Hc. lia.
Qed.
Print Assumptions C41_signed_platforms.

(** Undefined only if the byte is looked at: 0xC4 behind a difference or in strings of different size; 0xFF (EOF) folds to itself. *)
Example C41_example :
  pm_matches (str_eq_ci true (SString [65; -60]%Z)) (SString [66; -60]%Z) = Ret false
  /\ pm_matches (str_eq_ci true (SString [65; -60]%Z)) (SString [-60]%Z) = Ret false
  /\ pm_matches (str_eq_ci true (SString [97; -60]%Z)) (SString [65; -60]%Z) = Undef UbDomain
  /\ pm_matches (str_eq_ci true (SString [-1]%Z)) (SString [-1]%Z) = Ret true
  /\ pm_matches (str_eq_ci false (SString [196; 97]%Z)) (SString [196; 65]%Z) = Ret true
  /\ pm_matches (str_eq_ci false (SString [196]%Z)) (SString [228]%Z) = Ret false.
Proof. vm_compute. repeat split; reflexivity. Qed.

(** ** C42: strings given by pointers *)

(** A pointer (or array) stands for the characters before the first NUL; the other strings for all of their characters. *)
Theorem C42_views : forall l v,
  view (SString l) = Ret l /\ view (SView l) = Ret l
  /\ (view (SPtr (Some l)) = Ret v <-> ~ In 0%Z v /\ exists rest, l = (v ++ 0%Z :: rest)%list)
  /\ (view (SPtr (Some l)) = Undef UbDangling <-> ~ In 0%Z l)
  /\ view (SPtr None) = Undef UbNull.
Proof.
  intros l v. split; [reflexivity|]. split; [reflexivity|]. split; [apply until_nul_Ret|]. split; [|reflexivity].
  symmetry. apply until_nul_Undef.
Qed.
Print Assumptions C42_views.

(** A target with a NUL never equals (or ends as a whole with) a C string, whatever follows in memory. *)
Theorem C42_nul_in_target : forall t tv l, view t = Ret tv -> In 0%Z tv -> In 0%Z l ->
  pm_matches (str_eq (SPtr (Some l))) t = Ret false.
Proof.
  intros t tv l Ht Hn Hl. destruct (until_nul l) as [v| | |] eqn:Hu.
  - destruct (C39_eq t (SPtr (Some l)) tv v Ht Hu) as [b [Hb Hi]]. rewrite Hb. f_equal.
    destruct b; [|reflexivity]. exfalso. rewrite (proj1 Hi eq_refl) in Hn. apply until_nul_Ret in Hu. tauto.
  - exfalso. clear - Hu. revert e Hu. induction l as [|c l IH]; intros e Hu; [discriminate|]. cbn in Hu.
    destruct (c =? 0)%Z; [discriminate|]. destruct (until_nul l); try discriminate. eapply IH. reflexivity.
  - exfalso. clear - Hu. revert Hu. induction l as [|c l IH]; intros Hu; [discriminate|]. cbn in Hu.
    destruct (c =? 0)%Z; [discriminate|]. destruct (until_nul l); try discriminate. apply IH. reflexivity.
  - exfalso. assert (u = UbDangling).
    { clear - Hu. revert u Hu. induction l as [|c l IH]; intros u Hu; [injection Hu as <-; reflexivity|]. cbn in Hu.
      destruct (c =? 0)%Z; [discriminate|]. destruct (until_nul l); try discriminate. injection Hu as <-. apply IH. reflexivity. }
    subst u. apply until_nul_Undef in Hu. contradiction.
Qed.
Print Assumptions C42_nul_in_target.

(** std::string and std::string_view patterns are compared in full length. *)
Theorem C42_full_length : forall tv pv t p, In t [SString tv; SView tv] -> In p [SString pv; SView pv] ->
  (pm_matches (str_eq p) t = Ret true <-> tv = pv) /\ (pm_matches (str_eq p) t = Ret false <-> tv <> pv).
Proof.
  intros tv pv t p Ht Hp.
  assert (Hvt : view t = Ret tv) by (cbn in Ht; destruct Ht as [<-|[<-|[]]]; reflexivity).
  assert (Hvp : view p = Ret pv) by (cbn in Hp; destruct Hp as [<-|[<-|[]]]; reflexivity).
  destruct (C39_eq t p tv pv Hvt Hvp) as [b [Hb Hi]]. rewrite Hb. destruct b; split; split; intro H; try discriminate; try reflexivity.
  - apply Hi. reflexivity.
  - exfalso. apply H. apply Hi. reflexivity.
  - apply Hi in H. discriminate.
  - intro E. apply Hi in E. discriminate.
Qed.
Print Assumptions C42_full_length.

Example C42_example :
  pm_matches (str_eq (SPtr (Some [97; 0; 98; 0]%Z))) (SString [97; 0; 98]%Z) = Ret false
  /\ pm_matches (str_eq (SPtr (Some [97; 0; 98; 0]%Z))) (SString [97]%Z) = Ret true
  /\ pm_matches (str_eq (SString [97; 0; 98]%Z)) (SView [97; 0; 98]%Z) = Ret true
  /\ pm_matches (str_eq (SPtr None)) (SView [97]%Z) = Undef UbNull
  /\ pm_matches (str_eq (SPtr (Some [97]%Z))) (SView [97]%Z) = Undef UbDangling.
Proof. vm_compute. repeat split; reflexivity. Qed.

(** ** C43: ranges *)

(** The comparator of the user, between the elements of target and expected range. *)
Theorem C43_eq : forall (A B : Type) sized (comp : A -> B -> bool) R (target : list A) (expected : list B), decides comp R ->
  let r := pm_matches (range_eq sized (fun a b => Ret (comp a b)) expected) target in
  (r = Ret true <-> Forall2 R target expected) /\ (r = Ret false <-> ~ Forall2 R target expected).
Proof.
  intros A B sized comp R target expected Hd. cbv zeta. unfold pm_matches; cbn.
  destruct (ranges_equal_spec A B sized comp target expected) as [b [Hb Hi]]. rewrite Hb.
  assert (Hf : Forall2 (fun a c => comp a c = true) target expected <-> Forall2 R target expected).
  { clear - Hd. split; (induction 1 as [|x y l r Hx]; [constructor|]; constructor; [apply Hd; exact Hx|assumption]). }
  rewrite Hf in Hi. rewrite <- Hi. destruct b; split; split; intro H; try discriminate; try reflexivity; congruence.
Qed.
Print Assumptions C43_eq.

(** For a comparator which decides an equivalence. *)
Theorem C43_unordered_eq : forall (A : Type) (comp : A -> A -> bool) E (target expected : list A), decides comp E -> equivalence E ->
  let r := pm_matches (range_unordered_eq comp expected) target in
  (r = Ret true <-> rearranged E target expected) /\ (r = Ret false <-> ~ rearranged E target expected).
Proof.
  intros A comp E target expected Hd He. cbv zeta. unfold pm_matches; cbn.
  pose proof (is_permutation_spec comp E Hd He target expected) as Hi.
  rewrite <- Hi. destruct (is_permutation_ comp target expected); split; split; intro H; try discriminate; try reflexivity; congruence.
Qed.
Print Assumptions C43_unordered_eq.

(** In particular for == deciding identity. *)
Theorem C43_unordered_eq_plain : forall (A : Type) (eqb : A -> A -> bool) (target expected : list A), decides eqb eq ->
  (pm_matches (range_unordered_eq eqb expected) target = Ret true <-> Permutation target expected).
Proof.
  intros A eqb target expected Hd.
  assert (He : equivalence (@eq A)) by (constructor; congruence).
  destruct (C43_unordered_eq A eqb eq target expected Hd He) as [H _]. cbv zeta in H. rewrite H. split.
  - intros [l [Hp Hf]]. apply Forall2_eq_iff in Hf as <-. exact Hp.
  - intro Hp. exists expected. split; [exact Hp|]. apply Forall2_eq_iff. reflexivity.
Qed.
Print Assumptions C43_unordered_eq_plain.

(** For an arbitrary relation: no element is related to its direct predecessor. For a strict weak order: no element comes before a lesser one. *)
Theorem C43_is_sorted : forall (A S : Type) (rel : A -> A -> bool) less (target : list A), decides rel less ->
  let r := pm_matches (range_is_sorted (S := S) (fun a b => Ret (rel a b))) target in
  (exists b, r = Ret b)
  /\ (r = Ret true <-> forall pre a b post, target = (pre ++ a :: b :: post)%list -> ~ less b a)
  /\ (weak_order less -> (r = Ret true <-> in_order less target)).
Proof.
  intros A S rel less target Hd. cbv zeta. unfold pm_matches; cbn.
  destruct (is_sorted_spec A rel target) as [b [Hb Hi]]. rewrite Hb. split; [eauto|].
  assert (Hf : forall x y, rel y x = false <-> ~ less y x).
  { intros x y. rewrite <- (Hd y x). destruct (rel y x); split; intros; auto; try discriminate. contradiction. }
  split.
  - assert (Hr : Ret b = Ret true <-> b = true) by (split; congruence). rewrite Hr, Hi.
    clear - Hf. split.
    + intros H pre a c post ->. apply Hf. induction pre as [|p pre IH]; cbn in H.
      * inversion H as [|x l Hs Hh]; subst. inversion Hh; assumption.
      * inversion H; auto.
    + intro H. induction target as [|a l IH]; constructor.
      * apply IH. intros pre x y post ->. apply (H (a :: pre) x y post). reflexivity.
      * destruct l as [|c l]; constructor. apply Hf. apply (H [] a c l). reflexivity.
  - intro Hw. assert (Hr : Ret b = Ret true <-> b = true) by (split; congruence). rewrite Hr, Hi. apply Sorted_in_order; assumption.
Qed.
Print Assumptions C43_is_sorted.

Theorem C43_sizes : forall (A S : Type) (target : list A) n,
  (pm_matches (range_is_empty (S := S)) target = Ret true <-> target = [])
  /\ (pm_matches (range_is_empty (S := S)) target = Ret false <-> target <> [])
  /\ (pm_matches (range_has_size n) target = Ret true <-> Z.of_nat (List.length target) = n)
  /\ (pm_matches (range_has_size n) target = Ret false <-> Z.of_nat (List.length target) <> n).
Proof.
  intros A S target n. split; [|split].
  - destruct target; split; intro H; try discriminate; reflexivity.
  - destruct target; split; intro H; try discriminate; try congruence; reflexivity.
  - change (pm_matches (range_has_size n) target) with (Ret (n =? Z.of_nat (List.length target))%Z).
    destruct (Z.eqb_spec n (Z.of_nat (List.length target))); split; split; intro H; congruence.
Qed.
Print Assumptions C43_sizes.

(** each_element: accepted iff all elements are; otherwise the result (no, exception, undefined behaviour) for the first element which is not. *)
Theorem C43_each_element : forall (A : Type) (m : inner A) (target : list A),
  (pm_matches (range_each m) target = Ret true <-> forall x, In x target -> in_matches m x = Ret true)
  /\ (forall r, r <> Ret true ->
      (pm_matches (range_each m) target = r <->
       exists pre x post, target = (pre ++ x :: post)%list /\ (forall y, In y pre -> in_matches m y = Ret true) /\ in_matches m x = r)).
Proof.
  intros A m target. split; [apply all_of_true|]. intros r Hr. exact (all_of_other A (in_matches m) target r Hr).
Qed.
Print Assumptions C43_each_element.

(** any_element: not accepted iff no element is; otherwise the result for the first element which is not rejected. *)
Theorem C43_any_element : forall (A : Type) (m : inner A) (target : list A),
  (pm_matches (range_any m) target = Ret false <-> forall x, In x target -> in_matches m x = Ret false)
  /\ (forall r, r <> Ret false ->
      (pm_matches (range_any m) target = r <->
       exists pre x post, target = (pre ++ x :: post)%list /\ (forall y, In y pre -> in_matches m y = Ret false) /\ in_matches m x = r)).
Proof.
  intros A m target. unfold pm_matches; cbn. rewrite any_of_all_of.
  set (g := fun a => obind (in_matches m a) (fun b => Ret (negb b))).
  assert (Hg : forall a, (g a = Ret true <-> in_matches m a = Ret false)).
  { intro a. unfold g. destruct (in_matches m a) as [[|]| | |]; cbn; split; congruence. }
  split.
  - split.
    + intros H x Hx. apply Hg. destruct (all_of_ g target) as [[|]| | |] eqn:E; try discriminate.
      rewrite all_of_true in E. auto.
    + intro H. rewrite (proj2 (all_of_true A g target)); [reflexivity|]. intros x Hx. apply Hg. auto.
  - intros r Hr.
    set (r' := obind r (fun b => Ret (negb b))).
    assert (Hr' : r' <> Ret true) by (unfold r'; destruct r as [[|]| | |]; cbn; congruence).
    assert (Hinv : forall q : outcome bool, obind q (fun b => Ret (negb b)) = r <-> q = r').
    { intro q. unfold r'. destruct q as [[|]| | |], r as [[|]| | |]; cbn; split; congruence. }
    assert (Hinv' : forall q : outcome bool, obind q (fun b => Ret (negb b)) = r' <-> q = r).
    { intro q. unfold r'. destruct q as [[|]| | |], r as [[|]| | |]; cbn; split; congruence. }
    rewrite Hinv, (all_of_other A g target r' Hr'). split; intros [pre [x [post [-> [Hp Hx]]]]]; exists pre, x, post; (split; [reflexivity|]); split.
    + intros y Hy. apply Hg. auto.
    + apply Hinv'. exact Hx.
    + intros y Hy. apply Hg. auto.
    + apply Hinv'. exact Hx.
Qed.
Print Assumptions C43_any_element.

(** any_element of a matcher is the negation of each_element of the negated matcher, exceptions included. *)
Theorem C43_duality : forall (T S : Type) (show : S -> outcome string) (m : pmatcher T S) (target : list T),
  pm_matches (range_any (as_inner show m)) target = pm_matches (pm_not (range_each (as_inner show (pm_not m)))) target.
Proof. intros T S show m target. exact (any_of_all_of T (pm_matches m) target). Qed.
Print Assumptions C43_duality.

Definition mod3 (a b : Z) : bool := ((a mod 3) =? (b mod 3))%Z.
Example C43_example :
  pm_matches (range_unordered_eq Z.eqb [1; 2; 2; 3]%Z) [2; 3; 1; 2]%Z = Ret true
  /\ pm_matches (range_unordered_eq Z.eqb [1; 2; 3; 3]%Z) [2; 3; 1; 2]%Z = Ret false
  /\ pm_matches (range_unordered_eq mod3 [4; 5; 5; 6]%Z) [2; 3; 1; 2]%Z = Ret true
  /\ decides mod3 (fun a b => a mod 3 = b mod 3)%Z /\ equivalence (fun a b => a mod 3 = b mod 3)%Z
  /\ decides Z.eqb eq
  /\ pm_matches (range_is_sorted (S := Z) (fun a b => Ret (Z.ltb a b))) [1; 2; 2; 3]%Z = Ret true
  /\ pm_matches (range_is_sorted (S := Z) (fun a b => Ret (Z.ltb a b))) [1; 3; 2; 3]%Z = Ret false
  /\ weak_order Z.lt /\ decides Z.ltb Z.lt
  /\ pm_matches (range_has_size (-1)) ([] : list Z) = Ret false
  /\ pm_matches (range_any (as_inner show_Z less_five)) [7; 3]%Z = Ret true
  /\ pm_matches (range_each (as_inner show_Z less_five)) [7; 3]%Z = Ret false
  /\ pm_matches (range_each (as_inner show_Z less_five)) [] = Ret true
  /\ pm_matches (range_eq true (fun a b => Ret (mod3 a b)) [4; 5]%Z) [1; 2]%Z = Ret true.
Proof.
  repeat split; try (vm_compute; reflexivity); try (intros; unfold mod3 in *; congruence);
    try (apply Z.eqb_eq); try (intros ->; apply Z.eqb_refl); try (apply Z.ltb_lt); intros; try lia.
Qed.

(** An exception of the inner matcher is passed on, but only if the element is reached. *)
Example C43_example_throw :
  let m := mkInner Z (fun z => if (z =? 0)%Z then Throw (EUser 1) else Ret (z <? 5)%Z) (Ret "odd") in
  pm_matches (range_each m) [1; 0]%Z = Throw (EUser 1) /\ pm_matches (range_each m) [7; 0]%Z = Ret false
  /\ pm_matches (range_any m) [1; 0]%Z = Ret true /\ pm_matches (range_any m) [7; 0]%Z = Throw (EUser 1).
Proof. vm_compute. auto. Qed.

(** ** C56: default argument matchers *)

(** Exactly one rule applies, and it is determined by the four facts about the types. *)
Theorem C56_rule : forall t,
  (make_arg_matcher t = UseMatcher <-> at_matcher_for t = true)
  /\ (make_arg_matcher t = UseStrEq <->
      at_matcher_for t = false /\ exists c, at_param_string t = Some c /\ at_arg_string t = Some c)
  /\ (make_arg_matcher t = HardError <->
      at_matcher_for t = false /\ exists c d, c <> d /\ at_param_string t = Some c /\ at_arg_string t = Some d)
  /\ (make_arg_matcher t = UseEq <->
      at_matcher_for t = false /\ (at_param_string t = None \/ at_arg_string t = None) /\ at_comparable t = true)
  /\ (make_arg_matcher t = NoOverload <->
      at_matcher_for t = false /\ (at_param_string t = None \/ at_arg_string t = None) /\ at_comparable t = false).
Proof.
  intros [mf ps sa cmp]. unfold make_arg_matcher. cbn [at_matcher_for at_param_string at_arg_string at_comparable].
  assert (Heq : forall c d, char_type_eqb c d = true <-> c = d) by (intros [] []; cbn; split; congruence).
  destruct mf; [repeat split; try discriminate; try (intros (H & _); discriminate)|].
  destruct ps as [c|], sa as [d|]; [destruct (char_type_eqb c d) eqn:E| | |].
  - apply Heq in E as ->. repeat split; try discriminate; try (intros (_ & H); discriminate H); eauto.
    + intros (_ & x & y & H & H1 & H2). congruence.
    + intros (_ & [H|H] & _); discriminate.
    + intros (_ & [H|H] & _); discriminate.
  - assert (c <> d) by (intro H; apply Heq in H; congruence). repeat split; try discriminate; eauto 6.
    + intros (_ & x & H1 & H2). congruence.
    + intros (_ & [H1|H1] & _); discriminate.
    + intros (_ & [H1|H1] & _); discriminate.
  - destruct cmp; repeat split; try discriminate; auto; try (intros (_ & x & H1 & H2); discriminate); try (intros (_ & x & y & _ & H1 & H2); discriminate);
      intros (_ & _ & H); discriminate.
  - destruct cmp; repeat split; try discriminate; auto; try (intros (_ & x & H1 & H2); discriminate); try (intros (_ & x & y & _ & H1 & H2); discriminate);
      intros (_ & _ & H); discriminate.
  - destruct cmp; repeat split; try discriminate; auto; try (intros (_ & x & H1 & H2); discriminate); try (intros (_ & x & y & _ & H1 & H2); discriminate);
      intros (_ & _ & H); discriminate.
Qed.
Print Assumptions C56_rule.

(** A "const char*" argument for a std::string parameter; a literal for a std::wstring parameter; a number; the wildcard for a string. *)
Example C56_example :
  make_arg_matcher (mkTraits false (Some CtChar) (Some CtChar) true) = UseStrEq
  /\ make_arg_matcher (mkTraits false (Some CtWchar) (Some CtChar) false) = HardError
  /\ make_arg_matcher (mkTraits false None None true) = UseEq
  /\ make_arg_matcher (mkTraits false (Some CtChar) None false) = NoOverload
  /\ make_arg_matcher (mkTraits true (Some CtChar) None false) = UseMatcher.
Proof. repeat split; reflexivity. Qed.

(** ** C61: null pointers as arguments *)

(** Printing the arguments of a call is defined iff every character pointer among them points to a terminated string. *)
Definition printable (a : arg) : Prop :=
  match a with
  | AVal _ => True
  | AStr _ (SPtr None) => False
  | AStr _ (SPtr (Some l)) => In 0%Z l
  | AStr _ _ => True
  end.

Lemma until_nul_total : forall l, In 0%Z l -> exists v, until_nul l = Ret v.
Proof.
  induction l as [|c l IH]; intro H; [destruct H|]. cbn. destruct (Z.eqb_spec c 0) as [->|Hc]; [eauto|].
  destruct H as [H|H]; [congruence|]. destruct (IH H) as [v ->]. cbn. eauto.
Qed.

Theorem C61_printable : forall args, Forall printable args <-> exists texts, print_args args = Ret texts.
Proof.
  induction args as [|a args IH].
  - split; [exists []; reflexivity|constructor].
  - assert (Ha : printable a <-> exists s, print_arg a = Ret s).
    { destruct a as [v|ct [l|l|[l|]]]; cbn; split; try (intros; exact I); eauto.
      - intro H. unfold print_str. cbn. destruct (until_nul_total l H) as [v ->]. cbn. eauto.
      - intros [s H]. unfold print_str in H. cbn in H. destruct (until_nul l) as [v| | |] eqn:E; try discriminate.
        apply until_nul_Ret in E as [_ [rest ->]]. apply in_app_iff. right. left. reflexivity.
      - intros [].
      - intros [s H]. discriminate. }
    unfold print_args in *. cbn [omap]. split.
    + intro H. inversion H; subst. apply Ha in H2 as [s ->]. apply IH in H3 as [ts ->]. cbn. eauto.
    + intros [ts H]. destruct (print_arg a) as [s| | |] eqn:E; try discriminate. cbn in H.
      destruct (omap print_arg args) as [ts'| | |] eqn:E2; try discriminate. constructor; [apply Ha; eauto|apply IH; eauto].
Qed.
Print Assumptions C61_printable.

(** The wildcard matches the null pointer, but the call's report can not be made. *)
Theorem C61_null_argument_refuted : exists a, wildcard_matches a = Ret true /\ (forall before after, Forall printable before ->
  print_args (before ++ a :: after) = Undef UbNull).
Proof.
  exists (AStr CtChar (SPtr None)). split; [reflexivity|]. intros before after H. unfold print_args.
  induction H as [|x l Hx Hl IH]; [reflexivity|]. cbn [app omap].
  assert (Hx' : exists s, print_arg x = Ret s).
  { destruct (proj1 (C61_printable [x])) as [ts Hts]; [auto|]. unfold print_args in Hts. cbn [omap] in Hts.
    destruct (print_arg x); try discriminate. eauto. }
  destruct Hx' as [s ->]. cbn [obind]. rewrite IH. reflexivity.
Qed.
Print Assumptions C61_null_argument_refuted.

Example C61_example :
  print_args [AVal (VInt 5); AStr CtChar (SPtr (Some [97; 98; 0; 99]%Z)); AStr Ct16 (SView [65; 66]%Z)]
    = Ret ["5"; quote ++ "ab" ++ quote; "u" ++ quote ++ "0x41, 0x42" ++ quote]
  /\ print_args [AVal (VInt 5); AStr CtSChar (SString [-60; 66]%Z); AStr CtWchar (SString [-1]%Z)]
    = Ret ["5"; quote ++ "0xc4, 0x42" ++ quote; "L" ++ quote ++ "0xffffffff" ++ quote]
  /\ map literal_prefix [CtChar; CtSChar; CtUChar; CtWchar; Ct8; Ct16; Ct32] = [""; ""; ""; "L"; "u8"; "u"; "U"].
Proof. vm_compute. auto. Qed.

(** ** C62: what matchers keep *)

(** Patterns given as std::string and ranges given as rvalues are kept by value. *)
Theorem C62_by_value : forall m e, (forall a, e <> EViewOf a) -> (forall a, e <> EArray a) -> (forall a, e <> ERangeLvalue a) ->
  forall m', load m' (store m e) = given m e.
Proof. intros m [a|l|a|a|a|l] H1 H2 H3 m'; try reflexivity; [exfalso; apply (H1 a)|exfalso; apply (H2 a)|exfalso; apply (H3 a)]; reflexivity. Qed.
Print Assumptions C62_by_value.

(** The others follow later modifications: the matcher compares with the object's content at the time of the call. *)
Theorem C62_by_reference_refuted : forall a, exists (m m' : memory), forall e, In e [EViewOf a; EArray a; ERangeLvalue a] ->
  load m' (store m e) <> given m e
  /\ pm_matches (str_eq (SView (load m' (store m e)))) (SString (given m e)) = Ret false
  /\ pm_matches (str_eq (SView (load m' (store m e)))) (SString (m' a)) = Ret true.
Proof.
  intro a. exists (fun _ => [97]%Z), (fun _ => [98]%Z). intros e He. cbn in He.
  destruct He as [<-|[<-|[<-|[]]]]; cbn; (split; [discriminate|split; vm_compute; reflexivity]).
Qed.
Print Assumptions C62_by_reference_refuted.

Example C62_example : load (fun _ => [98]%Z) (store (fun _ => [97]%Z) (EStringLvalue 5)) = [97]%Z.
Proof. reflexivity. Qed.

(** ** C63: hooks *)

(** matcher_traits are preferred over members; with none of them, the type is no matcher. *)
Theorem C63_hook : forall (X : Type) (traits member : option X) f, hook traits member = Some f <->
  traits = Some f \/ (traits = None /\ member = Some f).
Proof. intros X [t|] member f; cbn; split; intro H; auto; [destruct H as [H|[H _]]; congruence|destruct H as [H|[_ H]]; congruence]. Qed.
Print Assumptions C63_hook.

(** each_element and any_element call the member [matches], but describe by the hook: a matcher made by matcher_traits can not be nested, or
    is nested with an other meaning than described. *)
Theorem C63_nested_refuted : forall (A : Type) (a : A),
  (exists traits member : option (A -> outcome bool), (exists f, hook traits member = Some f) /\ element_matches traits member = None)
  /\ (exists (traits member : option (A -> outcome bool)) f g, hook traits member = Some f /\ element_matches traits member = Some g /\ f a <> g a)
  /\ (forall traits member, element_describe traits member = hook traits member)
  /\ (forall member : option (A -> outcome bool), element_matches None member = hook None member).
Proof.
  intros A a. split; [|split; [|split]].
  - exists (Some (fun _ => Ret true)), None. split; [eexists; reflexivity|reflexivity].
  - exists (Some (fun _ => Ret true)), (Some (fun _ => Ret false)). eexists _, _. split; [reflexivity|]. split; [reflexivity|]. discriminate.
  - reflexivity.
  - reflexivity.
Qed.
Print Assumptions C63_nested_refuted.

(** ** C64: descriptions which fail *)

(** The description given to matches::predicate is a format string: without braces it appears as it is. *)
Theorem C64_predicate_description : forall (T S : Type) (show : S -> outcome string) (p : T -> outcome bool) d i,
  no_braces d -> no_braces i -> described show (m_predicate p d i) d i.
Proof. intros T S show p d i Hd Hi. unfold described, pm_describe, m_predicate. cbn. rewrite !vformat_plain by assumption. auto. Qed.
Print Assumptions C64_predicate_description.

(** In general the description is the text its format string stands for. Format strings without format specifications, and all of those for
    matchers without arguments, throw in every other case; "not" only exchanges the format strings. *)
Theorem C64_descriptions : forall (T S : Type) (show : S -> outcome string) (m : pmatcher T S) texts, omap show (pm_args m) = Ret texts ->
  (forall s, pm_describe show m = Ret s <-> formatted (pm_fmt m) texts s)
  /\ (no_colon (pm_fmt m) \/ texts = [] -> (pm_describe show m = Throw ERuntimeError <-> forall s, ~ formatted (pm_fmt m) texts s))
  /\ (forall s, pm_describe show (pm_not m) = Ret s <-> formatted (pm_inverted m) texts s)
  /\ (no_colon (pm_inverted m) \/ texts = [] -> (pm_describe show (pm_not m) = Throw ERuntimeError <-> forall s, ~ formatted (pm_inverted m) texts s)).
Proof.
  intros T S show m texts H. unfold pm_describe, pm_not, make_inverted. cbn. rewrite H. cbn [obind].
  split; [intros; apply vformat_ret|]. split; [apply vformat_throw|]. split; [intros; apply vformat_ret|apply vformat_throw].
Qed.
Print Assumptions C64_descriptions.

(** The description of a predicate is never left open: it is a text or an error. *)
Theorem C64_predicate_outcome : forall (T S : Type) (show : S -> outcome string) (p : T -> outcome bool) d i,
  (exists s, pm_describe show (m_predicate p d i) = Ret s /\ formatted d [] s)
  \/ (pm_describe show (m_predicate p d i) = Throw ERuntimeError /\ forall s, ~ formatted d [] s).
Proof.
  intros T S show p d i. destruct (C64_descriptions T S show (m_predicate p d i) [] eq_refl) as (R & W & _). cbn [m_predicate pm_fmt] in R, W.
  pose proof (vfmt_outcomes [] d FText MNone ltac:(discriminate)) as O.
  change (pm_describe show (m_predicate p d i)) with (vfmt FText MNone d []) in *.
  destruct (vfmt FText MNone d []) as [s|e| |u] eqn:E.
  - left. exists s. split; [reflexivity|]. apply R. reflexivity.
  - right. subst e. split; [reflexivity|]. apply W; auto.
  - contradiction.
  - destruct O as (_ & _ & H). congruence.
Qed.
Print Assumptions C64_predicate_outcome.

Example C64_format_examples :
  vformat "a{}b{{{}}}" ["1"; "2"] = Ret "a1b{2}" /\ vformat "x{" ["1"] = Throw ERuntimeError /\ vformat "}" [] = Throw ERuntimeError
  /\ vformat "{}{}" ["1"] = Throw ERuntimeError /\ vformat "{}" ["1"; "2"] = Ret "1" /\ vformat "}x" [] = Throw ERuntimeError
  /\ vformat "{1} {0} {1:}" ["a"; "b"] = Ret "b a b" /\ vformat "{0}{}" ["a"; "b"] = Throw ERuntimeError /\ vformat "{}{0}" ["a"] = Throw ERuntimeError
  /\ vformat "{01}" ["a"; "b"] = Throw ERuntimeError /\ vformat "{2}" ["a"; "b"] = Throw ERuntimeError /\ vformat "{x}" ["a"] = Throw ERuntimeError
  /\ vformat "{10}" (List.repeat "a" 10 ++ ["b"])%list = Ret "b" /\ vformat "{:}" ["a"] = Ret "a" /\ vformat "{:>5}" [] = Throw ERuntimeError
  /\ vformat "{0 }" ["a"] = Throw ERuntimeError.
Proof. repeat split; reflexivity. Qed.

(** With braces it is changed, or describing throws; then a call which is compared with the expectation ends the program, even if it matches. *)
Theorem C64_braces_refuted :
  (forall (T S : Type) (show : S -> outcome string) (p : T -> outcome bool) i,
     pm_describe show (m_predicate p "is in {}" i) = Throw ERuntimeError
     /\ pm_describe show (m_predicate p "a } b" i) = Throw ERuntimeError
     /\ pm_describe show (m_predicate p "{{x}}" i) = Ret "{x}")
  /\ (forall rp uncaught ss e c m,
        e_policies e = [PArg 0 m (fun v => UOk v)] -> of_ures (m_describe m) = Throw ERuntimeError ->
        (exists st, control_state_of ss (e_ctl e) = Ret st) -> (exists v vs, ci_args c = v :: vs) -> (forall v, exists b, m_matches m v = UOk b) ->
        make_match_report rp uncaught ss e c = Terminate).
Proof.
  split; [intros; repeat split; reflexivity|].
  intros rp uncaught ss e c m Hp Hd [st Hst] [v [vs Hv]] Hm. unfold make_match_report, exp_matches, exp_report_of. rewrite Hst, Hp. cbn [obind omap].
  unfold policy_report_of. cbn [policy_matches policy_describe]. rewrite Hv. cbn [nth_error of_ures obind].
  destruct (Hm v) as [b ->]. cbn [of_ures obind]. rewrite Hd. reflexivity.
Qed.
Print Assumptions C64_braces_refuted.

(** matches::instance shows the address, except for single character objects: their address is printed as if it were a C string. *)
Theorem C64_instance_refuted : forall a ct c,
  described (show_instance None) (m_instance a) ("is instance at 0x" ++ hex16 a) ("is not instance at 0x" ++ hex16 a)
  /\ (c <> 0%Z -> pm_describe (show_instance (Some (ct, c))) (m_instance a) = Undef UbDangling)
  /\ pm_describe (show_instance (Some (CtChar, 0%Z))) (m_instance a) = Ret ("is instance at " ++ quote ++ quote).
Proof.
  intros a ct c. split; [|split].
  - unfold described, pm_describe. cbn [m_instance pm_args omap show_instance obind print]. cbn. rewrite ?append_nil_r. split; reflexivity.
  - intro H. unfold pm_describe. cbn [m_instance pm_args omap show_instance]. unfold print_str. cbn [view until_nul].
    destruct (Z.eqb_spec c 0); [contradiction|]. reflexivity.
  - reflexivity.
Qed.
Print Assumptions C64_instance_refuted.

(** ** C65: comparison with tuples and pairs *)

(** A value which is no tuple or pair is found equal to itself; a pair or tuple is unpacked by std::tuple's deduction guides, and there is no target
    which could be compared with it ([UbDomain]: does not compile), except for tuples of one element, which are compared as that element. *)
Theorem C65_tuples_refuted : forall (T S : Type) (op : operators T S) x,
  (forall v, pm_matches (m_eq op (TValue v)) x = Ret (op_eq op x v))
  /\ (forall l, List.length l <> 1 -> pm_matches (m_eq op (TTuple l)) x = Undef UbDomain)
  /\ (forall v, pm_matches (m_eq op (TTuple [v])) x = Ret (op_eq op x v)).
Proof.
  intros T S op x. split; [reflexivity|]. split; [|reflexivity]. intros [|a [|b l]] H; try reflexivity. exfalso. apply H. reflexivity.
Qed.
Print Assumptions C65_tuples_refuted.
Example C65_example : pm_matches (m_eq ops_Z (TTuple [1; 2]%Z)) 1%Z = Undef UbDomain.
Proof. reflexivity. Qed.
