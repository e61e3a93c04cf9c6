(** * Builder: model of /repo/include/mimic++/ExpectationBuilder.hpp *)

From Verif Require Import Base Sequence Control Signature Printer Reports Expectation.

(** The operands which may follow expect_call(...) in an expectation expression. [ClTimes] is one of the times
    factories of the namespace expect (ControlPolicy.hpp 291-382), [ClSeq] an in_sequence / in_sequences clause with the named sequences (Sequence.hpp 439-486). *)
Inductive clause : Type :=
| ClTimes (t : times_expr)
| ClSeq (tags : list nat)
| ClFinal (f : finalizer)
| ClPolicy (p : policy).

(** BasicExpectationBuilder, template parameters and data members, ExpectationBuilder.hpp 17-24, 187-192.
    [b_finalized] stands for [FinalizePolicy != InitFinalize]. *)
Record builder : Type := mkBuilder {
  b_times_configured : bool;
  b_finalized : bool;
  b_times : times;
  b_seqs : list nat;
  b_final : finalizer;
  b_policies : list policy
}.

(** Result of applying an operand: a builder, an exception, or no viable overload of operator&& (compile error). *)
Inductive built (A : Type) : Type :=
| BOk (a : A)
| BThrow (x : exn)
| BIllFormed.
Arguments BOk {A} _.
Arguments BThrow {A} _.
Arguments BIllFormed {A}.

(** Evaluating an operand which is itself the result of a function of the library. *)
Definition of_outcome {A : Type} (m : outcome A) : built A :=
  match m with
  | Ret a => BOk a
  | Throw x => BThrow x
  | Terminate | Undef _ => BIllFormed
  end.

Definition bbind {A B : Type} (m : built A) (k : A -> built B) : built B :=
  match m with
  | BOk a => k a
  | BThrow x => BThrow x
  | BIllFormed => BIllFormed
  end.

(** operator&& with a TimesConfig (112-130), a sequence Config (132-152), a finalize policy (60-81) and an expectation
    policy (83-110). ExpectationBuilder.hpp. [ClFinal FInit] is rejected by the constraint at 62. *)
Definition builder_and (b : builder) (cl : clause) : built builder :=
  match cl with
  | ClTimes t =>
      if b_times_configured b then BIllFormed
      else bbind (of_outcome (eval_times t)) (fun t' =>
             BOk (mkBuilder true (b_finalized b) t' (b_seqs b) (b_final b) (b_policies b)))
  | ClSeq tags =>
      bbind (of_outcome (config_make tags)) (fun cfg =>
        bbind (of_outcome (config_concat (b_seqs b) cfg)) (fun cfg' =>
          BOk (mkBuilder (b_times_configured b) (b_finalized b) (b_times b) cfg' (b_final b) (b_policies b))))
  | ClFinal FInit => BIllFormed
  | ClFinal f =>
      if b_finalized b then BIllFormed
      else BOk (mkBuilder (b_times_configured b) true (b_times b) (b_seqs b) f (b_policies b))
  | ClPolicy p =>
      BOk (mkBuilder (b_times_configured b) (b_finalized b) (b_times b) (b_seqs b) (b_final b) (b_policies b ++ [p]))
  end.

Fixpoint builder_ands (b : builder) (cls : list clause) : built builder :=
  match cls with
  | [] => BOk b
  | cl :: cls' => bbind (builder_and b cl) (fun b' => builder_ands b' cls')
  end.

(** make_expectation_builder, ExpectationBuilder.hpp 264-287: the empty builder. *)
Definition builder_init : builder := mkBuilder false false times_default [] FInit [].

(** extend_builder_with_arg_policies and make_arg_policy, ExpectationBuilder.hpp 234-262: one requirement per argument. *)
Fixpoint arg_policies (i : nat) (ms : list matcher) : list clause :=
  match ms with
  | [] => []
  | m :: ms' => ClPolicy (PArg i m (fun v => UOk v)) :: arg_policies (S i) ms'
  end.

(** BasicMockFrontend::make_expectation_builder, Mock.hpp 49-59. *)
Definition frontend_builder (s : signature) (ms : list matcher) : built builder :=
  builder_ands builder_init
    (arg_policies 0 ms
     ++ [ClPolicy (PCategory (frontend_category s)); ClPolicy (PConstness (frontend_constness s))]).

(** Overload resolution of operator&& for a whole chain, decided at compile time by the template arguments
    [timesConfigured] (112-114) and [FinalizePolicy] (60-62). ExpectationBuilder.hpp 60-130. *)
Fixpoint viable (configured finalized : bool) (cls : list clause) : bool :=
  match cls with
  | [] => true
  | ClTimes _ :: cls' => negb configured && viable true finalized cls'
  | ClFinal FInit :: _ => false
  | ClFinal _ :: cls' => negb finalized && viable configured true cls'
  | _ :: cls' => viable configured finalized cls'
  end.

(** An expectation expression: expect_call(ms...) && cls... *)
Definition build (s : signature) (ms : list matcher) (cls : list clause) : built builder :=
  if viable false false cls then bbind (frontend_builder s ms) (fun b => builder_ands b cls) else BIllFormed.

(** The static_assert of finalize, ExpectationBuilder.hpp 157-159: InitFinalize::finalize_call returns void. *)
Definition finalize_ok (s : signature) (b : builder) : bool := (sg_ret s =? 0) || b_finalized b.

(** The same demand, decided at compile time by the clauses of the whole expression: it also holds for expressions whose evaluation throws.
    ExpectationBuilder.hpp 60-62, 157-159. *)
Definition finalizable (s : signature) (cls : list clause) : bool :=
  (sg_ret s =? 0) || existsb (fun cl => match cl with ClFinal _ => true | _ => false end) cls.

(** Constraint of Requirement / ApplyArgsAction (ExpectationPolicies.hpp 178-183, 331-332): the selected argument exists. *)
Definition policy_ok (nparams : nat) (p : policy) : bool :=
  match p with
  | PArg i _ _ => i <? nparams
  | _ => true
  end.
