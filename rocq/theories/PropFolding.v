(** * PropFolding: C90, strings and case folding of one's own. *)

From Verif Require Import Base Lib Signature Printer Matcher MatchSpec Strings MatchProofs PropMatcher Folding.

(** ** Specification *)

Definition prefix {C} (t p : list C) : Prop := exists rest, t = p ++ rest.
Definition suffix {C} (t p : list C) : Prop := exists rest, t = rest ++ p.
Definition part {C} (t p : list C) : Prop := exists before after, t = before ++ p ++ after.
Definition lawful {C} (eqc : C -> C -> bool) : Prop := forall a b, eqc a b = true <-> a = b.
Definition answers (o : outcome bool) (Q : Prop) : Prop := exists b, o = Ret b /\ (b = true <-> Q).

(** A converter which works character by character / piece by piece. *)
Definition per_character {C} (conv : list C -> outcome (list C)) (f : C -> C) : Prop := forall l, conv l = Ret (map f l).
Definition piecewise {C} (conv : list C -> outcome (list C)) : Prop :=
  exists f, forall l, conv l = Ret (flat_map f l).

(** ** The algorithms *)

Section Algorithms.
Context {C : Type} (eqc : C -> C -> bool) (L : lawful eqc).

Lemma equal_iff l : forall r, equal eqc l r = true <-> l = r.
Proof.
  induction l as [|a l IH]; intros [|b r]; cbn [equal]; try (split; congruence). rewrite andb_true_iff, (L a b), IH. split; [intros [-> ->]; reflexivity|intros [= -> ->]; auto].
Qed.
Lemma starts_iff t : forall p, starts eqc t p = true <-> prefix t p.
Proof.
  unfold starts, prefix. induction t as [|a t IH]; intros [|b p]; cbn [mismatch snd is_end].
  - split; [exists []; reflexivity|auto].
  - split; [discriminate|]. intros [r H]. discriminate.
  - split; [exists (a :: t); reflexivity|auto].
  - destruct (eqc a b) eqn:E.
    + apply L in E. subst b. rewrite IH. split; intros [r H]; exists r; [rewrite H; reflexivity|injection H as H; exact H].
    + cbn [snd is_end]. split; [discriminate|]. intros [r H]. injection H as -> _. assert (eqc b b = true) by (apply L; reflexivity). congruence.
Qed.
Lemma ends_iff t p : ends eqc t p = true <-> suffix t p.
Proof.
  unfold ends. change (starts eqc (rev t) (rev p) = true <-> suffix t p). rewrite starts_iff. unfold prefix, suffix. split; intros [r H].
  - exists (rev r). rewrite <- (rev_involutive t), H, rev_app_distr, rev_involutive. reflexivity.
  - exists (rev r). rewrite H, rev_app_distr. reflexivity.
Qed.
Lemma found_iff t : forall p, found eqc t p = true <-> part t p.
Proof.
  unfold part. induction t as [|a t IH]; intros p; cbn [found]; rewrite orb_true_iff, starts_iff; unfold prefix.
  - split; [intros [[r H]|H]; [exists [], r; exact H|discriminate]|]. intros (x & y & H). left. exists y. destruct x; [exact H|discriminate].
  - rewrite IH. split.
    + intros [[r H]|(x & y & H)]; [exists [], r; exact H|]. exists (a :: x), y. rewrite H. reflexivity.
    + intros ([|c x] & y & H); [left; exists y; exact H|]. right. injection H as _ H. exists x, y. exact H.
Qed.
Lemma contains_iff t p : contains eqc t p = true <-> part t p.
Proof.
  unfold contains. rewrite orb_true_iff, found_iff. split; [intros [H|H]; auto|auto]. destruct p; [|discriminate]. exists [], t. reflexivity.
Qed.
(** The common part is as long as possible, and the rests are those of the two strings. *)
Theorem C90_mismatch l : forall r, exists p l' r', l = p ++ l' /\ r = p ++ r' /\ mismatch eqc l r = (l', r') /\
  (forall x y l2 r2, l' = x :: l2 -> r' = y :: r2 -> x <> y).
Proof.
  induction l as [|a l IH]; intros r; [exists [], [], r; split; [reflexivity|]; split; [reflexivity|]; split; [reflexivity|discriminate]|].
  destruct r as [|b r]; [exists [], (a :: l), []; split; [reflexivity|]; split; [reflexivity|]; split; [reflexivity|discriminate]|].
  cbn [mismatch]. destruct (eqc a b) eqn:E.
  - apply L in E. subst b. destruct (IH r) as (p & l' & r' & -> & -> & H & Hd). exists (a :: p), l', r'. split; [reflexivity|]. split; [reflexivity|]. split; auto.
  - exists [], (a :: l), (b :: r). split; [reflexivity|]. split; [reflexivity|]. split; [reflexivity|]. intros x y l2 r2 [= <- _] [= <- _] Q. apply L in Q. congruence.
Qed.
End Algorithms.

(** ** The matchers *)

Section Matchers.
Context {C T P : Type} (eqc : C -> C -> bool) (view_t : T -> outcome (list C)) (view_p : P -> outcome (list C)) (conv : list C -> outcome (list C)).

Lemma compare_ret ft alg order t p tv pv tf pf : view_t t = Ret tv -> view_p p = Ret pv -> ft tv = Ret tf -> ft pv = Ret pf ->
  compare view_t view_p alg order ft t p = Ret (alg tf pf).
Proof. intros H1 H2 H3 H4. unfold compare, operands. destruct order; rewrite H1, H2; cbn [obind]; rewrite H3, H4; reflexivity. Qed.

(** The strings as they are. *)
Theorem C90_plain order t p tv pv : lawful eqc -> view_t t = Ret tv -> view_p p = Ret pv ->
  answers (pm_matches (s_eq eqc view_t view_p order p) t) (tv = pv) /\ answers (pm_matches (s_starts eqc view_t view_p p) t) (prefix tv pv) /\
  answers (pm_matches (s_ends eqc view_t view_p p) t) (suffix tv pv) /\ answers (pm_matches (s_contains eqc view_t view_p p) t) (part tv pv).
Proof.
  intros L Ht Hp. unfold pm_matches, answers. cbn [s_eq s_starts s_ends s_contains pm_predicate pm_args binary].
  rewrite !(compare_ret Ret _ _ t p tv pv tv pv) by auto. split; [|split; [|split]]; eexists; (split; [reflexivity|]).
  - apply equal_iff, L.
  - apply starts_iff, L.
  - apply ends_iff, L.
  - apply contains_iff, L.
Qed.

(** With [case_insensitive] the converted strings are compared. *)
Theorem C90_folded order t p tv pv tf pf : lawful eqc -> view_t t = Ret tv -> view_p p = Ret pv -> conv tv = Ret tf -> conv pv = Ret pf ->
  answers (pm_matches (f_eq eqc view_t view_p conv order p) t) (tf = pf) /\ answers (pm_matches (f_starts eqc view_t view_p conv p) t) (prefix tf pf) /\
  answers (pm_matches (f_ends eqc view_t view_p conv p) t) (suffix tf pf) /\ answers (pm_matches (f_contains eqc view_t view_p conv p) t) (part tf pf).
Proof.
  intros L Ht Hp Hct Hcp. unfold pm_matches, answers. cbn [f_eq f_starts f_ends f_contains pm_predicate pm_args binary].
  rewrite !(compare_ret conv _ _ t p tv pv tf pf) by auto. split; [|split; [|split]]; eexists; (split; [reflexivity|]).
  - apply equal_iff, L.
  - apply starts_iff, L.
  - apply ends_iff, L.
  - apply contains_iff, L.
Qed.

Definition folded_matchers (p : P) : list (pmatcher T P) :=
  [f_eq eqc view_t view_p conv true p; f_eq eqc view_t view_p conv false p; f_starts eqc view_t view_p conv p; f_ends eqc view_t view_p conv p; f_contains eqc view_t view_p conv p].

(** Strings with the same folding are not told apart, neither as target nor as pattern. *)
Theorem C90_same_folding t t' p p' i : obind (view_t t) conv = obind (view_t t') conv -> obind (view_p p) conv = obind (view_p p') conv ->
  option_map (fun m => pm_matches m t) (nth_error (folded_matchers p) i) = option_map (fun m => pm_matches m t') (nth_error (folded_matchers p') i).
Proof.
  intros Ht Hp. destruct i as [|[|[|[|[|i]]]]]; cbn [folded_matchers nth_error option_map]; try (unfold pm_matches; cbn; unfold compare, operands; rewrite Ht, Hp; reflexivity).
  destruct i; reflexivity.
Qed.

(** Exceptions of views and converters reach the caller; the pattern comes first, except that eq may begin with either. *)
Theorem C90_failures t p x :
  (obind (view_p p) conv = Throw x -> forall m, In m (tl (folded_matchers p)) -> pm_matches m t = Throw x) /\
  (obind (view_t t) conv = Throw x -> (exists pf, obind (view_p p) conv = Ret pf) -> forall m, In m (folded_matchers p) -> pm_matches m t = Throw x) /\
  (obind (view_t t) conv = Throw x -> pm_matches (hd (f_eq eqc view_t view_p conv true p) (folded_matchers p)) t = Throw x).
Proof.
  split; [|split].
  - intros H m Hm. cbn [folded_matchers tl In] in Hm. intuition subst m; unfold pm_matches; cbn; unfold compare, operands; rewrite H; reflexivity.
  - intros H [pf Hp] m Hm. cbn [folded_matchers In] in Hm. intuition subst m; unfold pm_matches; cbn; unfold compare, operands; rewrite H, ?Hp; reflexivity.
  - intros H. cbn [folded_matchers hd]. unfold pm_matches; cbn; unfold compare, operands. rewrite H. reflexivity.
Qed.

Theorem C90_plain_failures t p x :
  (view_p p = Throw x -> forall m, In m [s_eq eqc view_t view_p false p; s_starts eqc view_t view_p p; s_ends eqc view_t view_p p; s_contains eqc view_t view_p p] -> pm_matches m t = Throw x) /\
  (view_t t = Throw x -> pm_matches (s_eq eqc view_t view_p true p) t = Throw x /\
   ((exists pv, view_p p = Ret pv) ->
    forall m, In m [s_eq eqc view_t view_p false p; s_starts eqc view_t view_p p; s_ends eqc view_t view_p p; s_contains eqc view_t view_p p] -> pm_matches m t = Throw x)).
Proof.
  split.
  - intros H m Hm. cbn [In] in Hm. intuition subst m; unfold pm_matches; cbn; unfold compare, operands; rewrite H; reflexivity.
  - intros H. split.
    + unfold pm_matches; cbn; unfold compare, operands; rewrite H; reflexivity.
    + intros [pf Hp] m Hm. cbn [In] in Hm. intuition subst m; unfold pm_matches; cbn; unfold compare, operands; rewrite H, ?Hp; reflexivity.
Qed.

(** Equality does not depend on which string is the pattern. *)
Theorem C90_symmetric order t p : lawful eqc -> (exists tf, obind (view_t t) conv = Ret tf) -> (exists pf, obind (view_p p) conv = Ret pf) ->
  pm_matches (f_eq eqc view_t view_p conv order p) t = pm_matches (f_eq eqc view_p view_t conv order t) p.
Proof.
  intros L [tf Ht] [pf Hp]. unfold pm_matches; cbn; unfold compare, operands. destruct order; rewrite Ht, Hp; cbn [obind]; f_equal;
    apply eq_true_iff_eq; rewrite !(equal_iff eqc L); split; congruence.
Qed.

(** ** What the converters have to do with the strings *)

(** Character by character: the matching part of the target is equal to the pattern up to case. *)
Theorem C90_per_character f t p tv pv : lawful eqc -> per_character conv f -> view_t t = Ret tv -> view_p p = Ret pv ->
  answers (pm_matches (f_starts eqc view_t view_p conv p) t) (exists pv', map f pv' = map f pv /\ prefix tv pv') /\
  answers (pm_matches (f_ends eqc view_t view_p conv p) t) (exists pv', map f pv' = map f pv /\ suffix tv pv') /\
  answers (pm_matches (f_contains eqc view_t view_p conv p) t) (exists pv', map f pv' = map f pv /\ part tv pv').
Proof.
  intros L Hf Ht Hp. destruct (C90_folded true t p tv pv _ _ L Ht Hp (Hf tv) (Hf pv)) as (_ & (b1 & H1 & I1) & (b2 & H2 & I2) & (b3 & H3 & I3)).
  assert (Sp : forall l (x y : list C), map f l = x ++ y -> exists l1 l2, l = l1 ++ l2 /\ map f l1 = x /\ map f l2 = y).
  { intros l x. revert l. induction x as [|c x IH]; intros l y E; [exists [], l; auto|]. destruct l as [|d l]; [discriminate|]. injection E as E1 E2. destruct (IH _ _ E2) as (l1 & l2 & -> & <- & <-).
    exists (d :: l1), l2. cbn. rewrite E1. auto. }
  split; [|split].
  - exists b1. split; [exact H1|]. rewrite I1. split.
    + intros [r E]. destruct (Sp _ _ _ E) as (l1 & l2 & -> & E1 & _). exists l1. split; [exact E1|]. exists l2. reflexivity.
    + intros (pv' & E & r & ->). exists (map f r). rewrite map_app, E. reflexivity.
  - exists b2. split; [exact H2|]. rewrite I2. split.
    + intros [r E]. destruct (Sp _ _ _ E) as (l1 & l2 & -> & _ & E1). exists l2. split; [exact E1|]. exists l1. reflexivity.
    + intros (pv' & E & r & ->). exists (map f r). rewrite map_app, E. reflexivity.
  - exists b3. split; [exact H3|]. rewrite I3. split.
    + intros (x & y & E). destruct (Sp _ _ _ E) as (l1 & l2 & -> & _ & E1). destruct (Sp _ _ _ E1) as (l3 & l4 & -> & E2 & _). exists l3. split; [exact E2|]. exists l1, l4. reflexivity.
    + intros (pv' & E & x & y & ->). exists (map f x), (map f y). rewrite !map_app, E. reflexivity.
Qed.

(** Piece by piece: if some part of the target is equal to the pattern up to case, it is found. *)
Theorem C90_piecewise t p tv pv : lawful eqc -> piecewise conv -> view_t t = Ret tv -> view_p p = Ret pv ->
  (forall pv', conv pv' = conv pv -> prefix tv pv' -> pm_matches (f_starts eqc view_t view_p conv p) t = Ret true) /\
  (forall pv', conv pv' = conv pv -> suffix tv pv' -> pm_matches (f_ends eqc view_t view_p conv p) t = Ret true) /\
  (forall pv', conv pv' = conv pv -> part tv pv' -> pm_matches (f_contains eqc view_t view_p conv p) t = Ret true).
Proof.
  intros L [f Hf] Ht Hp. destruct (C90_folded true t p tv pv _ _ L Ht Hp (Hf tv) (Hf pv)) as (_ & (b1 & H1 & I1) & (b2 & H2 & I2) & (b3 & H3 & I3)).
  assert (Q : forall a b, conv a = conv b -> flat_map f a = flat_map f b) by (intros a b E; rewrite !Hf in E; injection E as E; exact E).
  split; [|split]; intros pv' E.
  - intros [r ->]. rewrite H1. f_equal. apply I1. exists (flat_map f r). rewrite flat_map_app, (Q _ _ E). reflexivity.
  - intros [r ->]. rewrite H2. f_equal. apply I2. exists (flat_map f r). rewrite flat_map_app, (Q _ _ E). reflexivity.
  - intros (x & y & ->). rewrite H3. f_equal. apply I3. exists (flat_map f x), (flat_map f y). rewrite !flat_map_app, (Q _ _ E). reflexivity.
Qed.
End Matchers.
Print Assumptions C90_plain. Print Assumptions C90_folded. Print Assumptions C90_same_folding. Print Assumptions C90_failures. Print Assumptions C90_plain_failures.
Print Assumptions C90_symmetric. Print Assumptions C90_per_character. Print Assumptions C90_piecewise.

(** The converse does not hold: the German sharp s (here 223) folds to ss (115 115). A string which contains it contains an s, though no part of
    it is equal to s up to case. *)
Definition sharp (c : nat) : list nat := if c =? 223 then [115; 115] else [c].
Definition fold_sharp (l : list nat) : outcome (list nat) := Ret (flat_map sharp l).

Theorem C90_part_of_target_refuted : exists (conv : list nat -> outcome (list nat)) t p, piecewise conv /\
  (forall l, obind (conv l) conv = conv l) /\ pm_matches (f_contains Nat.eqb Ret Ret conv p) t = Ret true /\
  pm_matches (f_starts Nat.eqb Ret Ret conv p) t = Ret true /\ pm_matches (f_ends Nat.eqb Ret Ret conv p) t = Ret true /\
  forall p', part t p' -> conv p' <> conv p.
Proof.
  exists fold_sharp, [223], [115]. split; [exists sharp; reflexivity|]. split.
  - intros l. unfold fold_sharp. cbn [obind]. f_equal. induction l as [|c l IH]; cbn [flat_map]; [reflexivity|]. rewrite flat_map_app, IH. f_equal.
    unfold sharp at 2 3. destruct (c =? 223) eqn:E; [reflexivity|]. cbn [flat_map]. unfold sharp. rewrite E. reflexivity.
  - split; [vm_compute; reflexivity|]. split; [vm_compute; reflexivity|]. split; [vm_compute; reflexivity|]. intros p' (x & y & E).
    destruct x as [|c x].
    + destruct p' as [|c p']; [vm_compute; discriminate|]. injection E as <- E. symmetry in E. apply app_eq_nil in E. destruct E as [-> _]. vm_compute. discriminate.
    + injection E as _ E. symmetry in E. apply app_eq_nil in E. destruct E as [_ E]. apply app_eq_nil in E. destruct E as [-> _]. vm_compute. discriminate.
Qed.
Print Assumptions C90_part_of_target_refuted.

(** ** Code units and code points *)

(** An encoding like UTF-8 and UTF-16: the first unit of a code point is recognised as such and tells the number of the others. *)
Definition synchronising {K C} (enc : K -> list C) (lead : C -> bool) : Prop :=
  (forall k, exists c r, enc k = c :: r /\ lead c = true /\ Forall (fun d => lead d = false) r) /\
  (forall k k' c r r', enc k = c :: r -> enc k' = c :: r' -> length r = length r') /\
  (forall k k', enc k = enc k' -> k = k').

Section Encoding.
Context {K C : Type} (enc : K -> list C) (lead : C -> bool) (Hs : synchronising enc lead).

Lemma enc_app_inv k k' x y : enc k ++ x = enc k' ++ y -> k = k' /\ x = y.
Proof.
  destruct Hs as (H1 & H2 & H3). intros E. destruct (H1 k) as (c & r & Ek & _), (H1 k') as (c' & r' & Ek' & _). rewrite Ek, Ek' in E. injection E as <- E.
  pose proof (H2 _ _ _ _ _ Ek Ek') as Hl. assert (r = r' /\ x = y) as [-> ->].
  { clear -E Hl. revert r' Hl E. induction r as [|d r IH]; intros [|d' r'] Hl E; try discriminate; [auto|]. injection E as -> E. cbn in Hl. destruct (IH r') as [-> ->]; auto. }
  split; [|reflexivity]. apply H3. congruence.
Qed.
Lemma enc_prefix p : forall t, prefix (flat_map enc t) (flat_map enc p) <-> prefix t p.
Proof.
  induction p as [|k p IH]; intros t; [split; intros _; [exists t|exists (flat_map enc t)]; reflexivity|]. destruct t as [|k' t]; cbn [flat_map].
  - destruct Hs as (H1 & _). destruct (H1 k) as (c & r & Ek & _). split; intros [y E]; [rewrite Ek in E|]; discriminate.
  - split; intros [y E].
    + rewrite <- app_assoc in E. apply enc_app_inv in E. destruct E as [-> E]. destruct (proj1 (IH t)) as [z ->]; [exists y; exact E|]. exists z. reflexivity.
    + injection E as -> E. destruct (proj2 (IH t)) as [z Ez]; [exists y; exact E|]. exists z. rewrite <- app_assoc, <- Ez. reflexivity.
Qed.
(** A part which begins with the first unit of a code point begins at a code point of the target. *)
Lemma enc_cut t : forall x c y, flat_map enc t = x ++ c :: y -> lead c = true -> exists t1 t2, t = t1 ++ t2 /\ flat_map enc t1 = x /\ flat_map enc t2 = c :: y.
Proof.
  induction t as [|k t IH]; intros x c y E Hc; [destruct x; discriminate|]. destruct x as [|d x].
  - exists [], (k :: t). auto.
  - cbn [flat_map] in E. destruct Hs as (H1 & _). destruct (H1 k) as (c0 & r & Ek & _ & Hr). rewrite Ek in E. injection E as <- E.
    assert (exists x', x = r ++ x' /\ flat_map enc t = x' ++ c :: y) as (x' & -> & E').
    { clear -E Hr Hc. revert x E. induction r as [|e r IHr]; intros x E; [exists x; auto|]. inversion Hr; subst. destruct x as [|e' x]; [injection E as -> _; congruence|].
      injection E as -> E. destruct (IHr H2 x E) as (x' & -> & E'). exists x'. auto. }
    destruct (IH _ _ _ E' Hc) as (t1 & t2 & -> & <- & E2). exists (k :: t1), t2. cbn [flat_map]. rewrite Ek. auto.
Qed.
Lemma enc_inj t p : flat_map enc t = flat_map enc p -> t = p.
Proof.
  revert p. induction t as [|k t IH]; intros [|k' p] E; auto.
  - cbn [flat_map] in E. destruct Hs as (H1 & _). destruct (H1 k') as (c & r & Ek & _). rewrite Ek in E. discriminate.
  - cbn [flat_map] in E. destruct Hs as (H1 & _). destruct (H1 k) as (c & r & Ek & _). rewrite Ek in E. discriminate.
  - cbn [flat_map] in E. apply enc_app_inv in E. destruct E as [-> E]. f_equal. auto.
Qed.
Lemma enc_part t p : part (flat_map enc t) (flat_map enc p) <-> part t p.
Proof.
  split.
  - intros (x & y & E). destruct p as [|k p]; [exists [], t; reflexivity|]. destruct Hs as (H1 & _). destruct (H1 k) as (c & r & Ek & Hc & _).
    cbn [flat_map] in E. rewrite Ek in E. cbn [app] in E. destruct (enc_cut _ _ _ _ E Hc) as (t1 & t2 & -> & _ & E2).
    destruct (proj1 (enc_prefix (k :: p) t2)) as [z ->]; [exists y; rewrite E2; cbn [flat_map]; rewrite Ek; reflexivity|]. exists t1, z. reflexivity.
  - intros (x & y & ->). exists (flat_map enc x), (flat_map enc y). rewrite !flat_map_app. reflexivity.
Qed.
Lemma enc_suffix t p : suffix (flat_map enc t) (flat_map enc p) <-> suffix t p.
Proof.
  split.
  - intros [x E]. destruct p as [|k p]; [exists t; rewrite app_nil_r; reflexivity|]. destruct Hs as (H1 & _). destruct (H1 k) as (c & r & Ek & Hc & _).
    cbn [flat_map] in E. rewrite Ek in E. cbn [app] in E. destruct (enc_cut _ _ _ _ E Hc) as (t1 & t2 & -> & _ & E2). exists t1. f_equal. apply enc_inj. rewrite E2. cbn [flat_map]. rewrite Ek. reflexivity.
  - intros [x ->]. exists (flat_map enc x). rewrite flat_map_app. reflexivity.
Qed.
End Encoding.

(** If the converter yields encoded code points, then the matchers compare code points, though they work on code units. *)
Theorem C90_code_points {K C T P} (enc : K -> list C) lead eqc (view_t : T -> outcome (list C)) (view_p : P -> outcome (list C)) conv order t p tk pk :
  lawful eqc -> synchronising enc lead -> obind (view_t t) conv = Ret (flat_map enc tk) -> obind (view_p p) conv = Ret (flat_map enc pk) ->
  answers (pm_matches (f_eq eqc view_t view_p conv order p) t) (tk = pk) /\ answers (pm_matches (f_starts eqc view_t view_p conv p) t) (prefix tk pk) /\
  answers (pm_matches (f_ends eqc view_t view_p conv p) t) (suffix tk pk) /\ answers (pm_matches (f_contains eqc view_t view_p conv p) t) (part tk pk).
Proof.
  intros L Hs Ht Hp. destruct (view_t t) as [tv|x| |u] eqn:Et; try discriminate. destruct (view_p p) as [pv|x| |u] eqn:Ep; try discriminate. cbn [obind] in Ht, Hp.
  destruct (C90_folded eqc view_t view_p conv order t p tv pv _ _ L Et Ep Ht Hp) as ((b0 & H0 & I0) & (b1 & H1 & I1) & (b2 & H2 & I2) & (b3 & H3 & I3)).
  split; [|split; [|split]]; eexists; (split; [eassumption|]).
  - rewrite I0. split; [apply (enc_inj enc lead Hs)|congruence].
  - rewrite I1. apply (enc_prefix enc lead Hs).
  - rewrite I2. apply (enc_suffix enc lead Hs).
  - rewrite I3. apply (enc_part enc lead Hs).
Qed.
Print Assumptions C90_code_points.

(** ** The built-in strings are an instance *)

Lemma omap_map {A B} (f : A -> outcome B) l : forall r, omap f l = Ret r -> map f l = map Ret r.
Proof.
  induction l as [|a l IH]; intros r H; cbn [omap] in H; [injection H as <-; reflexivity|]. destruct (f a) as [b|x| |u] eqn:E; try discriminate. cbn [obind] in H.
  destruct (omap f l) as [bs|x| |u]; try discriminate. injection H as <-. cbn [map]. rewrite E, (IH _ eq_refl). reflexivity.
Qed.

Lemma views_agree t p :
  equal_views (map Ret t) (map Ret p) = Ret (equal Z.eqb t p) /\ starts_views (map Ret t) (map Ret p) = Ret (starts Z.eqb t p) /\
  ends_views (map Ret t) (map Ret p) = Ret (ends Z.eqb t p) /\ contains_views (map Ret t) (map Ret p) = Ret (contains Z.eqb t p).
Proof.
  assert (L : lawful Z.eqb) by (intros a b; apply Z.eqb_eq). pose proof (Forall_True t) as Ft. pose proof (Forall_True p) as Fp.
  split; [|split; [|split]].
  - destruct (equal_views_spec Ret (fun _ => True) eq same_plain t p Ft Fp) as (b & -> & I). f_equal. apply eq_true_iff_eq. rewrite I, (equal_iff Z.eqb L). apply Forall2_eq_iff.
  - destruct (starts_views_spec Ret (fun _ => True) eq same_plain t p Ft Fp) as (b & -> & I). f_equal. apply eq_true_iff_eq. rewrite I, (starts_iff Z.eqb L). split.
    + intros (t1 & t2 & -> & H). apply Forall2_eq_iff in H as ->. exists t2. reflexivity.
    + intros [r ->]. exists p, r. split; [reflexivity|]. apply Forall2_eq_iff. reflexivity.
  - destruct (ends_views_spec Ret (fun _ => True) eq same_plain t p Ft Fp) as (b & -> & I). f_equal. apply eq_true_iff_eq. rewrite I, (ends_iff Z.eqb L). split.
    + intros (t1 & t2 & -> & H). apply Forall2_eq_iff in H as ->. exists t1. reflexivity.
    + intros [r ->]. exists r, p. split; [reflexivity|]. apply Forall2_eq_iff. reflexivity.
  - destruct (contains_views_spec Ret (fun _ => True) eq same_plain t p Ft Fp) as (b & -> & I). f_equal. apply eq_true_iff_eq. rewrite I, (contains_iff Z.eqb L). split.
    + intros (t1 & t2 & t3 & -> & H). apply Forall2_eq_iff in H as ->. exists t1, t3. reflexivity.
    + intros (x & y & ->). exists x, p, y. split; [reflexivity|]. apply Forall2_eq_iff. reflexivity.
Qed.

Theorem C90_builtin order signed t p tv pv : view t = Ret tv -> view p = Ret pv ->
  (pm_matches (s_eq Z.eqb view view order p) t = pm_matches (str_eq p) t /\ pm_matches (s_starts Z.eqb view view p) t = pm_matches (str_starts p) t /\
   pm_matches (s_ends Z.eqb view view p) t = pm_matches (str_ends p) t /\ pm_matches (s_contains Z.eqb view view p) t = pm_matches (str_contains p) t) /\
  (forall tf pf, omap (fold_char signed) tv = Ret tf -> omap (fold_char signed) pv = Ret pf -> let conv := omap (fold_char signed) in
   pm_matches (f_eq Z.eqb view view conv order p) t = pm_matches (str_eq_ci signed p) t /\ pm_matches (f_starts Z.eqb view view conv p) t = pm_matches (str_starts_ci signed p) t /\
   pm_matches (f_ends Z.eqb view view conv p) t = pm_matches (str_ends_ci signed p) t /\ pm_matches (f_contains Z.eqb view view conv p) t = pm_matches (str_contains_ci signed p) t).
Proof.
  intros Ht Hp. split.
  - destruct (views_agree tv pv) as (V0 & V1 & V2 & V3). unfold pm_matches. cbn [s_eq s_starts s_ends s_contains str_eq str_starts str_ends str_contains pm_predicate pm_args binary]. unfold on_views.
    rewrite Ht, Hp. cbn [obind]. rewrite V0, V1, V2, V3. rewrite !(compare_ret view view Ret _ _ t p tv pv tv pv) by auto. auto.
  - intros tf pf Ct Cp. cbv zeta. destruct (views_agree tf pf) as (V0 & V1 & V2 & V3). unfold pm_matches.
    cbn [f_eq f_starts f_ends f_contains str_eq_ci str_starts_ci str_ends_ci str_contains_ci pm_predicate pm_args binary]. unfold on_views.
    rewrite Ht, Hp. cbn [obind]. rewrite (omap_map _ _ _ Ct), (omap_map _ _ _ Cp), V0, V1, V2, V3.
    rewrite !(compare_ret view view (omap (fold_char signed)) _ _ t p tv pv tf pf) by auto. auto.
Qed.
Print Assumptions C90_builtin.

(** ** Texts *)

Theorem C90_texts {C T P} eqc (vt : T -> outcome (list C)) (vp : P -> outcome (list C)) conv order show p s : show p = Ret s ->
  described show (s_eq eqc vt vp order p) ("is equal to " ++ s)%string ("is not equal to " ++ s)%string
  /\ described show (s_starts eqc vt vp p) ("starts with " ++ s)%string ("starts not with " ++ s)%string
  /\ described show (s_ends eqc vt vp p) ("ends with " ++ s)%string ("ends not with " ++ s)%string
  /\ described show (s_contains eqc vt vp p) ("contains " ++ s)%string ("contains not " ++ s)%string
  /\ described show (f_eq eqc vt vp conv order p) ("is case-insensitively equal to " ++ s)%string ("is case-insensitively not equal to " ++ s)%string
  /\ described show (f_starts eqc vt vp conv p) ("case-insensitively starts with " ++ s)%string ("case-insensitively starts not with " ++ s)%string
  /\ described show (f_ends eqc vt vp conv p) ("case-insensitively ends with " ++ s)%string ("case-insensitively ends not with " ++ s)%string
  /\ described show (f_contains eqc vt vp conv p) ("case-insensitively contains " ++ s)%string ("case-insensitively contains not " ++ s)%string.
Proof. intros H. repeat match goal with |- _ /\ _ => split; [text|] end. text. Qed.
Print Assumptions C90_texts.

(** ** Example: a e with acute accent, and sharp s, in UTF-8; upper case letters are folded to lower case ones. *)

Inductive letter : Type := La | LA | Le' | LE' | Lss | Ls.
Definition utf8 (k : letter) : list nat :=
  match k with La => [97] | LA => [65] | Le' => [195; 169] | LE' => [195; 137] | Lss => [195; 159] | Ls => [115] end.
Definition is_lead (c : nat) : bool := (c <? 128) || (192 <=? c).
Definition lower (k : letter) : list letter := match k with LA => [La] | LE' => [Le'] | Lss => [Ls; Ls] | _ => [k] end.

Example C90_example : lawful Nat.eqb /\ synchronising utf8 is_lead /\
  let conv l := Ret (flat_map (fun k => flat_map utf8 (lower k)) l) in
  (* the views are encoded below; the converter decodes, folds and encodes *)
  forall dec : list nat -> outcome (list letter), (forall l, dec (flat_map utf8 l) = Ret l) ->
    let fold u := obind (dec u) conv in
    pm_matches (f_contains Nat.eqb Ret Ret fold (flat_map utf8 [Le'])) (flat_map utf8 [LA; LE']) = Ret true /\
    pm_matches (f_starts Nat.eqb Ret Ret fold (flat_map utf8 [LE'])) (flat_map utf8 [LA; LE']) = Ret false /\
    pm_matches (f_eq Nat.eqb Ret Ret fold true (flat_map utf8 [Ls; Ls; La])) (flat_map utf8 [Lss; LA]) = Ret true /\
    pm_matches (s_eq Nat.eqb Ret Ret true (flat_map utf8 [Ls; Ls; La])) (flat_map utf8 [Lss; LA]) = Ret false.
Proof.
  split; [intros a b; apply Nat.eqb_eq|]. split.
  - split; [|split].
    + intros k. destruct k; cbn [utf8]; eexists _, _; (split; [reflexivity|]); split; try reflexivity; repeat constructor.
    + intros k k' c r r'. destruct k, k'; cbn [utf8]; intros H H'; injection H as <- <-; try discriminate; injection H' as <-; reflexivity.
    + intros k k'. destruct k, k'; cbn [utf8]; intros H; try reflexivity; discriminate.
  - cbv zeta. intros dec Hd. unfold pm_matches, compare, operands. cbn [f_contains f_starts f_eq s_eq pm_predicate pm_args binary]. unfold compare, operands. cbn [obind]. rewrite !Hd. cbn [obind].
    split; [vm_compute; reflexivity|]. split; [vm_compute; reflexivity|]. split; vm_compute; reflexivity.
Qed.
Print Assumptions C90_mismatch.
