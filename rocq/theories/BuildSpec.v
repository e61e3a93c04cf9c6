(** * BuildSpec: what the operands of an expectation expression mean, read off the documentation. *)

From Verif Require Import Base Control Signature Expectation Builder.

(** The documented limits of the times clauses. *)
Definition limits_of (t : times_expr) : Z * Z :=
  match t with
  | TxRange min max => (min, max)
  | TxExactly n => (n, n)
  | TxAtLeast n => (n, INT_MAX)
  | TxAtMost n => (0%Z, n)
  | TxOnce => (1%Z, 1%Z)
  | TxTwice => (2%Z, 2%Z)
  end.

(** The clauses of each kind, in the given order. *)
Definition times_clauses (cls : list clause) : list times_expr :=
  flat_map (fun cl => match cl with ClTimes t => [t] | _ => [] end) cls.
Definition final_clauses (cls : list clause) : list finalizer :=
  flat_map (fun cl => match cl with ClFinal f => [f] | _ => [] end) cls.
Definition clause_policies (cls : list clause) : list policy :=
  flat_map (fun cl => match cl with ClPolicy p => [p] | _ => [] end) cls.
Definition clause_seqs (cls : list clause) : list nat :=
  flat_map (fun cl => match cl with ClSeq tags => tags | _ => [] end) cls.

(** The limits an expectation expression asks for: those of its times clause, once otherwise. *)
Definition declared_limits (cls : list clause) : Z * Z :=
  match times_clauses cls with t :: _ => limits_of t | [] => (1%Z, 1%Z) end.

(** Its finalizer: the given one, otherwise none. *)
Definition declared_finalizer (cls : list clause) : finalizer :=
  match final_clauses cls with f :: _ => f | [] => FInit end.

(** One requirement per argument of expect_call, followed by the two requirements of the overload. *)
Definition arg_requirements (ms : list matcher) : list policy :=
  map (fun im => PArg (fst im) (snd im) (fun v => UOk v)) (combine (seq 0 (length ms)) ms).
Definition overload_requirements (s : signature) : list policy :=
  [PCategory (match sg_ref s with RefNone => CatAny | RefL => CatL | RefR => CatR end);
   PConstness (if sg_const s then AsConst else NonConst)].

(** Compile time demands: at most one times clause and at most one finalizer. *)
Definition well_formed (cls : list clause) : Prop :=
  length (times_clauses cls) <= 1 /\ length (final_clauses cls) <= 1 /\ ~ In FInit (final_clauses cls).

(** Run time demands: valid limits, no sequence twice. *)
Definition valid_limits (t : times_expr) : Prop := (0 <= fst (limits_of t) <= snd (limits_of t))%Z.
Definition valid_setup (cls : list clause) : Prop := Forall valid_limits (times_clauses cls) /\ NoDup (clause_seqs cls).
