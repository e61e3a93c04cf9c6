(** * PropBuild: C36 (expectation expressions) and C17 (naming a sequence twice). *)

From Coq Require Import Permutation ListDec.
From Verif Require Import Base Sequence Control Signature Printer Expectation Builder BuildSpec World WorldSpec BuildProofs CountProofs Scenario.

(** ** C36 *)

(** The expression is accepted by the compiler iff it has at most one times clause and at most one finalizer; then it throws
    invalid_argument iff limits are invalid or a sequence is named twice; otherwise it has exactly the given parts. *)
Theorem C36_expression s ms cls :
  (well_formed cls -> valid_setup cls ->
     exists b, build s ms cls = BOk b /\
       t_min (b_times b) = fst (declared_limits cls) /\ t_max (b_times b) = snd (declared_limits cls) /\
       b_final b = declared_finalizer cls /\
       b_policies b = arg_requirements ms ++ overload_requirements s ++ clause_policies cls /\
       b_seqs b = clause_seqs cls) /\
  (well_formed cls -> ~ valid_setup cls -> build s ms cls = BThrow EInvalidArgument) /\
  (~ well_formed cls -> build s ms cls = BIllFormed).
Proof.
  destruct (build_spec s ms cls) as (H1 & H2 & H3). split; auto. intros W V. exists (finished s ms cls). repeat split; auto.
Qed.

(** The order of clauses of different kinds is irrelevant. *)
Theorem C36_order_independent s ms cls cls' :
  Permutation cls cls' -> clause_policies cls = clause_policies cls' -> clause_seqs cls = clause_seqs cls' ->
  build s ms cls = build s ms cls'.
Proof. exact (build_perm s ms cls cls'). Qed.

(** The expectation a program gets has these parts, for ever. *)
Theorem C36_expectation ops0 w0 m ov ms cls l w1 ops w2 :
  run init ops0 w0 -> step w0 (OExpect m ov ms cls l) = Next w1 RUnit -> run w1 ops w2 ->
  exists s coll x, find_overload w0 m ov = inr (s, coll) /\ exp_at w2 (length (w_exps w0)) x /\
    x_min x = fst (declared_limits cls) /\ x_max x = snd (declared_limits cls) /\ x_seqs x = clause_seqs cls /\
    e_policies (eo_exp x) = arg_requirements ms ++ overload_requirements s ++ clause_policies cls /\
    e_final (eo_exp x) = declared_finalizer cls /\ e_loc (eo_exp x) = l.
Proof.
  intros H0 H1 H2. destruct (declared_expectation _ _ _ _ _ _ _ _ _ _ H0 H1 H2) as (s & coll & x & Hf & Hx & Hd & _).
  destruct Hd as (A & B & C & D & E & F & _). exists s, coll, x. auto 10.
Qed.

(** A second times clause or a second finalizer, and the explicit InitFinalize, are rejected. *)
Theorem C36_second_times s ms cls : 1 < length (times_clauses cls) -> build s ms cls = BIllFormed.
Proof. intros H. apply build_spec. intros (W & _). apply (Nat.lt_irrefl 1). eapply Nat.lt_le_trans; eauto. Qed.
Theorem C36_second_finalizer s ms cls : 1 < length (final_clauses cls) -> build s ms cls = BIllFormed.
Proof. intros H. apply build_spec. intros (_ & W & _). apply (Nat.lt_irrefl 1). eapply Nat.lt_le_trans; eauto. Qed.

(** The expression of an overload which returns something needs a finalizer; without one it does not compile, whatever its other
    operands are and do at run time. One of a void overload needs none. *)
Theorem C36_finalizer_required w m ov ms cls l s coll :
  find_overload w m ov = inr (s, coll) -> sg_ret s <> 0 -> final_clauses cls = [] -> step w (OExpect m ov ms cls l) = Invalid.
Proof.
  intros Hf Hret Hfin. cbn [step]. unfold do_expect. rewrite Hf. destruct (negb _); auto.
  assert (F : finalizable s cls = false).
  { unfold finalizable. apply Nat.eqb_neq in Hret. rewrite Hret. simpl. unfold final_clauses in Hfin. induction cls as [|cl cls IH]; auto.
    simpl in *. destruct cl; simpl in *; auto. discriminate. }
  destruct (build s ms cls) as [b|x|] eqn:Hb; auto; [|rewrite F; reflexivity].
  destruct (build_inv _ _ _ _ Hb) as (_ & _ & ->). unfold finalize_ok. apply Nat.eqb_neq in Hret. rewrite Hret.
  unfold finished. cbn [b_finalized]. rewrite Hfin. reflexivity.
Qed.
Theorem C36_finalizer_given w m ov ms cls l s coll :
  find_overload w m ov = inr (s, coll) -> length ms = length (sg_params s) -> forallb (clause_ok w (length (sg_params s))) cls = true ->
  well_formed cls -> sg_ret s = 0 \/ final_clauses cls <> [] -> ~ valid_setup cls -> step w (OExpect m ov ms cls l) = Next w (RThrow EInvalidArgument).
Proof.
  intros Hf Hlen Hok Hwf Hret Hv. cbn [step]. unfold do_expect. rewrite Hf. apply Nat.eqb_eq in Hlen. rewrite Hlen, Hok. cbn [andb negb].
  destruct (build_spec s ms cls) as (_ & B & _). rewrite (B Hwf Hv).
  assert (F : finalizable s cls = true).
  { unfold finalizable. destruct Hret as [->|H]; auto. apply Bool.orb_true_iff. right. unfold final_clauses in H.
    induction cls as [|cl cls IH]; [exfalso; apply H; reflexivity|].
    clear -H. induction (cl :: cls) as [|c l IH]; [exfalso; apply H; reflexivity|]. simpl in *. destruct c; simpl in *; auto. }
  rewrite F. reflexivity.
Qed.
Example C36_finalizer_example :
  let w := after [ONewMock [sig_int]; ONewMock [sig_void]; ONewSeq Lazy] in
  reachable w /\ find_overload w 0 0 = inr (sig_int, 0) /\
  step w (OExpect 0 0 [m_any] [ClSeq [0; 0]] here) = Invalid /\
  step w (OExpect 0 0 [m_any] [ClSeq [0; 0]; ClFinal (FReturns (VInt 1))] here) = Next w (RThrow EInvalidArgument) /\
  step w (OExpect 1 0 [] [ClSeq [0; 0]] here) = Next w (RThrow EInvalidArgument).
Proof.
  cbv zeta. split; [apply after_reachable; vm_compute; reflexivity|]. do 3 (split; [vm_compute; reflexivity|]). vm_compute; reflexivity.
Qed.

(** A non trivial expression in two orders. *)
Definition clauses_a : list clause :=
  [ClTimes (TxRange 2 3); ClPolicy (PSideEffect 1); ClSeq [0; 1]; ClFinal (FReturns (VInt 4)); ClPolicy (PSideEffect 2); ClSeq [2]].
Definition clauses_b : list clause :=
  [ClSeq [0; 1]; ClFinal (FReturns (VInt 4)); ClPolicy (PSideEffect 1); ClPolicy (PSideEffect 2); ClSeq [2]; ClTimes (TxRange 2 3)].
Example C36_example :
  Permutation clauses_a clauses_b /\ well_formed clauses_a /\ valid_setup clauses_a /\
  clause_policies clauses_a = clause_policies clauses_b /\ clause_seqs clauses_a = clause_seqs clauses_b /\
  exists b, build sig_int [m_any] clauses_a = BOk b /\ length (b_policies b) = 5 /\ b_seqs b = [0; 1; 2] /\ t_min (b_times b) = 2%Z.
Proof.
  split; [|split; [|split; [|split; [|split]]]]; try reflexivity.
  - unfold clauses_a, clauses_b. 
    eapply perm_trans; [apply Permutation_cons_append|]. simpl.
    eapply perm_trans; [apply (Permutation_middle [ClSeq [0; 1]; ClFinal (FReturns (VInt 4))] _ (ClPolicy (PSideEffect 1)))|]. reflexivity.
  - unfold well_formed. simpl. repeat split; auto. intros [H|[]]; discriminate.
  - split; simpl; [repeat constructor; unfold valid_limits; simpl; discriminate|].
    repeat constructor; simpl; intros H; repeat (destruct H as [H|H]; try discriminate); auto.
  - eexists. split; [vm_compute; reflexivity|]. vm_compute. auto.
Qed.

(** ** C17 *)

Theorem C17_same_sequence_rejected w m ov ms cls l w' r :
  step w (OExpect m ov ms cls l) = Next w' r -> ~ NoDup (clause_seqs cls) -> r = RThrow EInvalidArgument /\ w' = w.
Proof.
  intros H Hn. destruct (expect_next _ _ _ _ _ _ _ _ H) as (s & coll & _ & _ & _ & [((_ & V) & _)|(_ & -> & ->)]); auto. contradiction.
Qed.

Theorem C17_distinct_sequences_accepted w m ov ms cls l w' r :
  step w (OExpect m ov ms cls l) = Next w' r -> NoDup (clause_seqs cls) -> Forall valid_limits (times_clauses cls) ->
  r = RUnit /\ exists x, exp_at w' (length (w_exps w)) x /\ x_seqs x = clause_seqs cls.
Proof.
  intros H Hn Hv. destruct (expect_next _ _ _ _ _ _ _ _ H) as (s & coll & _ & _ & _ & [(_ & -> & x & Hx & Hd & _)|(V & _)]).
  - split; auto. exists x. split; auto. apply Hd.
  - exfalso. apply V. split; auto.
Qed.

(** The check itself, for one in_sequences clause and for joining two clauses. *)
Theorem C17_config tags : config_make tags = if ListDec.NoDup_dec Nat.eq_dec tags then Ret tags else Throw EInvalidArgument.
Proof. destruct (BuilderLemmas.config_make_spec tags) as [[H ->]|[H ->]]; destruct (ListDec.NoDup_dec Nat.eq_dec tags); tauto. Qed.
Theorem C17_concat a b : config_concat a b = if ListDec.NoDup_dec Nat.eq_dec (a ++ b) then Ret (a ++ b) else Throw EInvalidArgument.
Proof. destruct (BuilderLemmas.config_concat_spec a b) as [[H ->]|[H ->]]; destruct (ListDec.NoDup_dec Nat.eq_dec (a ++ b)); tauto. Qed.

Example C17_example : let w := [ONewSeq Lazy; ONewSeq Greedy; ONewSeq Lazy; ONewMock [sig_void]] in
  results (w ++ [OExpect 0 0 [] [ClSeq [2; 0; 2]] here; OExpect 0 0 [] [ClSeq [1; 0]; ClTimes TxTwice; ClSeq [1]] here;
                 OExpect 0 0 [] [ClSeq [2; 0]; ClTimes TxTwice; ClSeq [1]] here])
  = [RUnit; RUnit; RUnit; RUnit; RThrow EInvalidArgument; RThrow EInvalidArgument; RUnit].
Proof. vm_compute. reflexivity. Qed.

Print Assumptions C36_expression.
Print Assumptions C36_order_independent.
Print Assumptions C36_finalizer_required.
Print Assumptions C36_finalizer_given.
Print Assumptions C36_expectation.
Print Assumptions C36_second_times.
Print Assumptions C36_second_finalizer.
Print Assumptions C17_same_sequence_rejected.
Print Assumptions C17_distinct_sequences_accepted.
Print Assumptions C17_config.
Print Assumptions C17_concat.
