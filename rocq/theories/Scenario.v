(** * Scenario: executing concrete programs, for examples and witnesses. *)

From Verif Require Import Base Sequence Control Signature Printer Reports Expectation Builder World.

(** Run a program; [None] if some operation does not go on. *)
Fixpoint exec (w : world) (ops : list op) : option (world * list result) :=
  match ops with
  | [] => Some (w, [])
  | o :: ops' =>
      match step w o with
      | Next w1 r =>
          match exec w1 ops' with
          | Some (w2, rs) => Some (w2, r :: rs)
          | None => None
          end
      | _ => None
      end
  end.

Lemma exec_run ops : forall w w' rs, exec w ops = Some (w', rs) -> run w ops w'.
Proof.
  induction ops as [|o ops IH]; intros w w' rs H; simpl in H.
  - inversion H; subst. constructor.
  - destruct (step w o) as [w1 r| | |] eqn:E; try discriminate.
    destruct (exec w1 ops) as [[w2 rs2]|] eqn:E2; [|discriminate]. inversion H; subst.
    econstructor; eauto.
Qed.

(** The state after a program (the initial state if it does not go on to its end) and the results of its operations. *)
Definition after (ops : list op) : world := match exec init ops with Some (w, _) => w | None => init end.
Definition results (ops : list op) : list result := match exec init ops with Some (_, rs) => rs | None => [] end.

Lemma after_run ops : (match exec init ops with Some _ => true | None => false end) = true -> run init ops (after ops).
Proof.
  unfold after. destruct (exec init ops) as [[w rs]|] eqn:E; [|discriminate]. intros _. eapply exec_run; eauto.
Qed.

Lemma after_reachable ops : (match exec init ops with Some _ => true | None => false end) = true -> reachable (after ops).
Proof. intros H. exists ops. apply after_run; auto. Qed.

(** Frequently used ingredients: void(), int(int), their const and noexcept variants, and matchers. Type 0 is void. *)
Definition sig_void : signature := mkSig 0 [] false false RefNone false.
Definition sig_int : signature := mkSig 1 [1] false false RefNone false.
Definition sig_int_const : signature := mkSig 1 [1] false true RefNone false.
Definition sig_void_noexcept : signature := mkSig 0 [] false false RefNone true.
Definition sig_unary : signature := mkSig 0 [1] false false RefNone false.

Definition here : loc := mkLoc "main.cpp" "main" 10 5.
Definition there : loc := mkLoc "main.cpp" "main" 20 5.

Definition m_any : matcher := mkMatcher (fun _ => UOk true) (UOk "has no constraints"%string).
Definition m_eq (z : Z) : matcher :=
  mkMatcher (fun v => UOk (match v with VInt y => (y =? z)%Z | _ => false end)) (UOk ("== " ++ dec_Z z)%string).
Definition m_throws (n : nat) : matcher := mkMatcher (fun _ => UThrow (EUser n)) (UOk "throws"%string).
