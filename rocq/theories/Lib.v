(** * Lib: lemmas about the helpers of Base.v and the standard library. *)

From Verif Require Import Base.

Lemma length_upd {A} (l : list A) i x : length (upd l i x) = length l.
Proof. revert i; induction l as [|y l IH]; intros [|i]; simpl; auto. Qed.

Lemma nth_error_upd_eq {A} (l : list A) i x : i < length l -> nth_error (upd l i x) i = Some x.
Proof.
  revert i; induction l as [|y l IH]; intros [|i] H; simpl in *; try lia; auto.
  apply IH; lia.
Qed.

Lemma nth_error_upd_neq {A} (l : list A) i j x : i <> j -> nth_error (upd l i x) j = nth_error l j.
Proof.
  revert i j; induction l as [|y l IH]; intros [|i] [|j] H; simpl; auto; try congruence.
Qed.

Lemma nth_error_upd {A} (l : list A) i j x y :
  nth_error (upd l i x) j = Some y ->
  (i = j /\ i < length l /\ y = x) \/ (i <> j /\ nth_error l j = Some y).
Proof.
  intros H. destruct (Nat.eq_dec i j) as [->|Hn].
  - left. assert (Hl : j < length l).
    { rewrite <- (length_upd l j x). apply nth_error_Some. congruence. }
    rewrite nth_error_upd_eq in H by auto. inversion H; auto.
  - right. rewrite nth_error_upd_neq in H by auto. auto.
Qed.

Lemma upd_same {A} (l : list A) i x : nth_error l i = Some x -> upd l i x = l.
Proof.
  revert i; induction l as [|y l IH]; intros [|i] H; simpl in *; auto; try congruence.
  f_equal; auto.
Qed.

Lemma upd_upd {A} (l : list A) i x y : upd (upd l i x) i y = upd l i y.
Proof. revert i; induction l as [|z l IH]; intros [|i]; simpl; auto. f_equal; auto. Qed.

Lemma map_upd {A B} (f : A -> B) l i x : map f (upd l i x) = upd (map f l) i (f x).
Proof. revert i; induction l as [|z l IH]; intros [|i]; simpl; auto. f_equal; auto. Qed.

Lemma nth_error_lt {A} (l : list A) i x : nth_error l i = Some x -> i < length l.
Proof. intros H. apply nth_error_Some. congruence. Qed.

Lemma nth_error_ex {A} (l : list A) i : i < length l -> exists x, nth_error l i = Some x.
Proof.
  intros H. destruct (nth_error l i) eqn:E; eauto.
  apply nth_error_None in E. lia.
Qed.

Lemma nth_error_app_last {A} (l : list A) x : nth_error (l ++ [x]) (length l) = Some x.
Proof. rewrite nth_error_app2, Nat.sub_diag by lia. reflexivity. Qed.

Lemma nth_error_snoc {A} (l : list A) x i y :
  nth_error (l ++ [x]) i = Some y -> (nth_error l i = Some y /\ i < length l) \/ (i = length l /\ y = x).
Proof.
  intros H. destruct (lt_eq_lt_dec i (length l)) as [[Hlt| ->]|Hgt].
  - left. rewrite nth_error_app1 in H by auto. auto.
  - right. rewrite nth_error_app_last in H. inversion H; auto.
  - assert (i < length (l ++ [x])) by (apply nth_error_Some; congruence).
    rewrite app_length in *. simpl in *. lia.
Qed.

Lemma nth_error_snoc_old {A} (l : list A) x i y : nth_error l i = Some y -> nth_error (l ++ [x]) i = Some y.
Proof. intros H. rewrite nth_error_app1; auto. eapply nth_error_lt; eauto. Qed.

Lemma nth_error_map_some {A B} (f : A -> B) l i y :
  nth_error (map f l) i = Some y -> exists x, nth_error l i = Some x /\ y = f x.
Proof.
  rewrite nth_error_map. destruct (nth_error l i); simpl; intros H; inversion H; eauto.
Qed.

Lemma forallb_firstn_skipn {A} (f : A -> bool) l a n :
  forallb f (firstn n (skipn a l)) = true <->
  (forall i x, a <= i < a + n -> nth_error l i = Some x -> f x = true).
Proof.
  revert a n; induction l as [|y l IH]; intros a n.
  - rewrite skipn_nil, firstn_nil. split; auto. intros _ [|i] x _ H; discriminate.
  - destruct a as [|a].
    + simpl. destruct n as [|n]; simpl.
      * split; auto. intros; lia.
      * rewrite andb_true_iff. specialize (IH 0 n). simpl in IH. rewrite IH. split.
        -- intros [Hy H] [|i] x Hi E; simpl in E; [congruence|]. apply (H i); auto; lia.
        -- intros H. split. { apply (H 0); auto; lia. }
           intros i x Hi E. apply (H (S i)); auto; lia.
    + simpl. rewrite IH. split.
      * intros H [|i] x Hi E; [lia|]. apply (H i); auto; lia.
      * intros H i x Hi E. apply (H (S i)); auto; lia.
Qed.

Lemma in_map_fst {A B} (x : A) (l : list (A * B)) : In x (map fst l) <-> exists y, In (x, y) l.
Proof.
  rewrite in_map_iff. split.
  - intros [[a b] [E H]]. simpl in E. subst. eauto.
  - intros [y H]. exists (x, y). auto.
Qed.

Lemma nodup_fst_inj {A B} (l : list (A * B)) a b b' : NoDup (map fst l) -> In (a, b) l -> In (a, b') l -> b = b'.
Proof.
  induction l as [|[x y] l IH]; simpl; intros Hn H1 H2; [tauto|].
  inversion Hn as [|? ? Hx Hn']; subst.
  destruct H1 as [H1|H1], H2 as [H2|H2].
  - congruence.
  - inversion H1; subst. exfalso. apply Hx. apply in_map_fst. eauto.
  - inversion H2; subst. exfalso. apply Hx. apply in_map_fst. eauto.
  - auto.
Qed.

Lemma obind_ret {A B} (m : outcome A) (k : A -> outcome B) b :
  obind m k = Ret b -> exists a, m = Ret a /\ k a = Ret b.
Proof. destruct m; simpl; intros; try discriminate; eauto. Qed.

Lemma NoDup_app_snoc {A} (l : list A) x : NoDup l -> ~ In x l -> NoDup (l ++ [x]).
Proof.
  induction l as [|a l IH]; simpl; intros Hn Hx; [constructor; auto|].
  inversion Hn; subst. constructor.
  - rewrite in_app_iff. simpl. intros [|[E|[]]]; [auto|]. apply Hx. left. auto.
  - apply IH; auto.
Qed.

Lemma nth_error_ext_eq {A} (l l' : list A) : length l = length l' ->
  (forall i x, nth_error l i = Some x -> nth_error l' i = Some x) -> l = l'.
Proof.
  revert l'. induction l as [|a l IH]; intros [|b l'] Hlen H; simpl in *; try discriminate; auto.
  f_equal.
  - specialize (H 0 a eq_refl). simpl in H. congruence.
  - apply IH; [lia|]. intros i x Hx. apply (H (S i) x Hx).
Qed.

Lemma forallb_map {A B} (f : B -> bool) (g : A -> B) l : forallb f (map g l) = forallb (fun x => f (g x)) l.
Proof. induction l; simpl; auto. rewrite IHl. reflexivity. Qed.

Lemma Forall2_weaken {A B} (R R' : A -> B -> Prop) l l' : (forall a b, R a b -> R' a b) -> Forall2 R l l' -> Forall2 R' l l'.
Proof. intros H F. induction F; constructor; auto. Qed.

Lemma nth_error_snoc_eq {A} (l : list A) x : nth_error (l ++ [x]) (length l) = Some x.
Proof. induction l; simpl; auto. Qed.

Lemma NoDup_decide (l : list nat) : NoDup l \/ ~ NoDup l.
Proof.
  induction l as [|a l [IH|IH]]; [left; constructor| |].
  - destruct (in_dec Nat.eq_dec a l); [right|left; constructor; auto]. intros H; inversion H; auto.
  - right. intros H; inversion H; auto.
Qed.

Lemma forallb_filter_id {A} (f : A -> bool) l : forallb f l = true -> filter f l = l.
Proof. induction l as [|a l IH]; simpl; auto. intros H. apply andb_true_iff in H. destruct H as [-> H]. rewrite IH; auto. Qed.
