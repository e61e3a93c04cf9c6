(** * PropTimes: C03, the documented limits of the times clauses. *)

From Verif Require Import Base Sequence Control Signature Expectation Builder BuildSpec World WorldSpec BuilderLemmas BuildProofs CountProofs Scenario.

Lemma config_case min max : 
  (times_config min max = Throw EInvalidArgument <-> (min < 0 \/ max < 0 \/ max < min)%Z) /\
  ((0 <= min <= max)%Z -> times_config min max = Ret (mkTimes min max)).
Proof.
  destruct (times_config_spec min max) as [[H E]|[H E]]; rewrite E; split; try split; intros; auto; try discriminate; try lia.
Qed.

(** The six factories, for all values of type int (indeed for all integers). *)
Theorem C03_times_range min max :
  (times_range min max = Throw EInvalidArgument <-> (min < 0 \/ max < 0 \/ max < min)%Z) /\
  ((0 <= min <= max)%Z -> times_range min max = Ret (mkTimes min max)).
Proof. exact (config_case min max). Qed.

Theorem C03_times_exactly n :
  (times_exactly n = Throw EInvalidArgument <-> (n < 0)%Z) /\ ((0 <= n)%Z -> times_exactly n = Ret (mkTimes n n)).
Proof. destruct (config_case n n) as [H1 H2]. split; [unfold times_exactly; rewrite H1; lia|intros; apply H2; lia]. Qed.

Theorem C03_times_at_least n : (n <= INT_MAX)%Z ->
  (times_at_least n = Throw EInvalidArgument <-> (n < 0)%Z) /\ ((0 <= n)%Z -> times_at_least n = Ret (mkTimes n INT_MAX)).
Proof.
  intros Hn. destruct (config_case n INT_MAX) as [H1 H2]. assert (0 < INT_MAX)%Z by reflexivity.
  split; [unfold times_at_least; rewrite H1; lia|intros; apply H2; lia].
Qed.

Theorem C03_times_at_most n :
  (times_at_most n = Throw EInvalidArgument <-> (n < 0)%Z) /\ ((0 <= n)%Z -> times_at_most n = Ret (mkTimes 0 n)).
Proof. destruct (config_case 0 n) as [H1 H2]. split; [unfold times_at_most; rewrite H1; lia|intros; apply H2; lia]. Qed.

Theorem C03_times_fixed :
  times_once = Ret (mkTimes 1 1) /\ times_twice = Ret (mkTimes 2 2) /\ times_default = mkTimes 1 1.
Proof. repeat split. Qed.

(** The numbers written in a clause; a clause can be written exactly if all of them are values of a 32 bit int. *)
Definition written_limits (t : times_expr) : list Z :=
  match t with
  | TxRange a b => [a; b]
  | TxExactly n | TxAtLeast n | TxAtMost n => [n]
  | TxOnce | TxTwice => []
  end.
Theorem C03_writable_limits w n t :
  clause_ok w n (ClTimes t) = true <-> forall z, In z (written_limits t) -> (- 2 ^ 31 <= z < 2 ^ 31)%Z.
Proof.
  assert (P : (2 ^ 31 = INT_MAX + 1)%Z) by reflexivity. rewrite P. cbn [clause_ok].
  assert (Q : forall z, is_int z = true <-> (- (INT_MAX + 1) <= z < INT_MAX + 1)%Z).
  { intros z. unfold is_int. rewrite andb_true_iff, !Z.leb_le. lia. }
  destruct t as [a b|a|a|a| |]; cbn [times_expr_int written_limits In]; rewrite ?andb_true_iff, ?Q.
  - split; [intros [A B] z [<-|[<-|[]]]; auto|intros H; split; apply H; auto].
  - split; [intros A z [<-|[]]; auto|intros H; apply H; auto].
  - split; [intros A z [<-|[]]; auto|intros H; apply H; auto].
  - split; [intros A z [<-|[]]; auto|intros H; apply H; auto].
  - split; [intros _ z []|auto].
  - split; [intros _ z []|auto].
Qed.

(** What the clause means for the created expectation, at creation and for ever after. *)
Theorem C03_limits_of_expectation ops0 w0 m ov ms cls l w1 ops w2 :
  run init ops0 w0 -> step w0 (OExpect m ov ms cls l) = Next w1 RUnit -> run w1 ops w2 ->
  exists x, exp_at w2 (length (w_exps w0)) x /\
    (x_min x, x_max x) =
      match times_clauses cls with
      | [] => (1, 1)%Z
      | TxRange a b :: _ => (a, b)
      | TxExactly n :: _ => (n, n)
      | TxAtLeast n :: _ => (n, INT_MAX)
      | TxAtMost n :: _ => (0%Z, n)
      | TxOnce :: _ => (1, 1)%Z
      | TxTwice :: _ => (2, 2)%Z
      end.
Proof.
  intros H0 H1 H2. destruct (declared_expectation _ _ _ _ _ _ _ _ _ _ H0 H1 H2) as (s & coll & x & _ & Hx & (Hmin & Hmax & _) & _).
  exists x. split; auto. rewrite Hmin, Hmax. unfold declared_limits. destruct (times_clauses cls) as [|[] rest]; reflexivity.
Qed.

(** An invalid clause: the expression throws and nothing has been changed. *)
Theorem C03_invalid_limits w m ov ms cls l w' r t :
  step w (OExpect m ov ms cls l) = Next w' r -> In t (times_clauses cls) -> ~ valid_limits t ->
  r = RThrow EInvalidArgument /\ w' = w.
Proof.
  intros H Ht Hv. destruct (expect_next _ _ _ _ _ _ _ _ H) as (s & coll & _ & _ & _ & [((V & _) & _)|(_ & -> & ->)]); auto.
  exfalso. rewrite Forall_forall in V. auto.
Qed.

(** Examples: both sides of every boundary occur. *)
Example C03_example_valid : times_range 0 0 = Ret (mkTimes 0 0) /\ times_range 2 INT_MAX = Ret (mkTimes 2 INT_MAX).
Proof. split; reflexivity. Qed.
Example C03_example_invalid : times_range 3 2 = Throw EInvalidArgument /\ times_range (-1) 2 = Throw EInvalidArgument /\ times_range 0 (-1) = Throw EInvalidArgument.
Proof. repeat split. Qed.
Example C03_example_program : results
  [ONewMock [sig_void];
   OExpect 0 0 [] [ClTimes (TxRange 2 5)] here;
   OExpect 0 0 [] [ClTimes (TxRange 5 2)] here;
   OExpect 0 0 [] [ClTimes (TxAtLeast 3)] here] = [RUnit; RUnit; RThrow EInvalidArgument; RUnit].
Proof. vm_compute. reflexivity. Qed.

Print Assumptions C03_times_range.
Print Assumptions C03_times_exactly.
Print Assumptions C03_times_at_least.
Print Assumptions C03_times_at_most.
Print Assumptions C03_times_fixed.
Print Assumptions C03_writable_limits.
Print Assumptions C03_limits_of_expectation.
Print Assumptions C03_invalid_limits.
