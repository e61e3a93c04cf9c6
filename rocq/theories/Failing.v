(** * Failing: operations of the library which are left by an exception half-way.

    In [World] an exception comes from an operand of a declaration, from a matcher, from the reporter or from a finalizer. Here any of the other
    places may fail, too: allocations (std::bad_alloc) and the constructors of user supplied matchers, actions and values, which the library
    invokes while it moves them around. The places are those of /repo/include/mimic++/ExpectationBuilder.hpp 154-185, Expectation.hpp 258-289,
    300-352, 596-677, ControlPolicy.hpp 26-47, 169-181 and the constructors of mocks, sequences and reporters. *)

From Verif Require Import Base Sequence Control Signature Printer Reports Expectation Builder World.

(** Where a declaration fails.
    [AtOperand]: an operand, an argument of expect_call, or the concatenation of the sequences (ExpectationBuilder.hpp 136); nothing but temporaries exists.
    [InBuilder]: the copy or move of a user supplied matcher, action or finalizer into the data members of the next builder (46-48): the constructor
    of BasicExpectationBuilder is noexcept (43).
    [InControl]: BasicSequence::add (Sequence.hpp 196) inside of make_sequence_entries and ControlPolicy(), which are noexcept.
    [AfterControl]: std::make_unique of the expectation, the constructors of its members (ExpectationBuilder.hpp 176-180), or the conversion of the
    result to the std::shared_ptr parameter of ScopedExpectation (Expectation.hpp 648-651); the arguments belong to the caller, which is not noexcept.
    [InModel]: std::make_unique of the Model (653-656) or the vector of ExpectationCollection::push (266), all inside of noexcept constructors. *)
Inductive stage : Type := AtOperand | InBuilder | InControl | AfterControl | InModel.

(** The parts of a builder which contain objects of user types: matchers, projections, actions, finalizers. The policies of the overload
    (ExpectationPolicies.hpp 31-91) are empty classes. ExpectationBuilder.hpp 191-192; ExpectationPolicies.hpp 93-360. *)
Definition user_policy (p : policy) : bool :=
  match p with
  | PArg _ _ _ | PSideEffect _ => true
  | PCategory _ | PConstness _ => false
  end.
Definition user_made (b : builder) : bool := b_finalized b || existsb user_policy (b_policies b).

(** An expectation which does not exist any more and can not be described: its number in the list of expectations is all that is left. [ctl] are
    its limits and its places in sequences. *)
Definition undescribable (x : exn) : matcher := mkMatcher (fun _ => UThrow x) (UThrow x).
Definition tomb_sig : signature := mkSig 0 [0] false false RefNone false.
Definition tomb_exp (l : loc) (ctl : control) (x : exn) : expectation :=
  mkExp l ctl [PArg 0 (undescribable x) (fun v => UOk v)] FInit.

(** The control policy exists and has entered its sequences (ControlPolicy.hpp 169-181), but the expectation does not come to exist.
    ~ControlPolicy (implicit) gives the pointers to the sequences back; the entries stay (Sequence.hpp has no function removing one). The sequences
    survive because the user's sequence objects are alive. An expectation without sequences leaves nothing, hence gets no number.
    The number of the overload and of the collection are fillers. *)
Definition half_built (w : world) (l : loc) (ss : seq_store) (ctl : control) (x : exn) : world :=
  match c_seqs ctl with
  | [] => w
  | _ => set_exps (set_seqs w ss) (w_exps w ++ [mkEObj (tomb_exp l ctl x) 0 false 0 tomb_sig])
  end.

(** The declaration of [OExpect], failing with [x] at the given stage. *)
Definition do_expect_fails (w : world) (m ov : nat) (ms : list matcher) (cls : list clause) (l : loc) (st : stage) (x : exn) : stepped :=
  match find_overload w m ov with
  | inl r => r
  | inr (s, coll) =>
      if negb ((length ms =? length (sg_params s)) && forallb (clause_ok w (length (sg_params s))) cls) then Invalid
      else if negb (viable false false cls && finalizable s cls) then Invalid
      else
        match st with
        | AtOperand => Next w (RThrow x)
        | _ =>
            match build s ms cls with
            | BOk b =>
                if match st with InBuilder => true | _ => false end then (if user_made b then Stop else Invalid)
                else
                match control_new (w_seqs w) (b_times b) (b_seqs b) with
                | Ret (ss, ctl) =>
                    match nth_error (w_colls w) coll, st with
                    | None, _ => Wrong UbDangling
                    | Some _, AfterControl => Next (half_built w l ss ctl x) (RThrow x)
                    | Some _, InControl => if length (b_seqs b) =? 0 then Invalid else Stop
                    | Some _, _ => Stop
                    end
                | _ => Invalid            (* the program does not get that far *)
                end
            | _ => Invalid
            end
        end
  end.

(** A call which fails with [x] before an expectation is chosen and reported: the vectors of handle_call (Expectation.hpp 303-327) or
    make_call_report (335, 345, 350). [i] expectations were looked at. Neither reporting a match nor counting it can fail (Reporter.hpp 585-594,
    ControlPolicy.hpp 208-222, Expectation.hpp 529-534). *)
Definition do_call_fails (w : world) (m ov : nat) (args : list val) (l : loc) (i : nat) (x : exn) : stepped :=
  match find_overload w m ov with
  | inl r => r
  | inr (s, coll) =>
      if negb (length args =? length (sg_params s)) then Invalid
      else
        let c := mkCall (sg_ret s) (sg_params s) args (frontend_category s) (frontend_constness s) l in
        match nth_error (w_colls w) coll with
        | None => Wrong UbDangling
        | Some members =>
            match lookup_exps w (firstn i (rev members)) with
            | None => Wrong UbDangling
            | Some es =>
                match match_loop (w_reporter w) (w_uncaught w) (w_seqs w) c es (mkLists [] [] [] []) with
                | Ret ml => thrown (frontend_noexcept s) (emit_unhandled w c (ml_unhandled ml)) x
                | Throw y => thrown (frontend_noexcept s) w y
                | Terminate => Stop
                | Undef u => Wrong u
                end
            end
        end
  end.

(** Expectation::report fails with [x] inside of ExpectationCollection::remove (Expectation.hpp 284-288): the expectation is already taken out of
    its collection. From here on it can not be described. *)
Definition bury (w : world) (e : nat) (x : exn) : world :=
  match nth_error (w_exps w) e with
  | None => w
  | Some eo =>
      set_exps w (upd (w_exps w) e (mkEObj (tomb_exp (e_loc (eo_exp eo)) (e_ctl (eo_exp eo)) x) (eo_coll eo) (eo_alive eo) (eo_ov eo) tomb_sig))
  end.
(** [o] ends the scope of the expectation owned by handle [h]; a report is only made for an expectation which is not satisfied. *)
Definition do_end_fails (w : world) (h : nat) (o : op) (x : exn) : stepped :=
  match nth_error (w_scoped w) h with
  | Some (HOwns e) =>
      match nth_error (w_exps w) e with
      | Some eo => if eo_alive eo && negb (exp_is_satisfied (eo_exp eo)) then step (bury w e x) o else Invalid
      | None => Invalid
      end
  | _ => Invalid
  end.

(** The operations of a program in which things may fail.
    [FNothing]: the constructor of a sequence (Sequence.hpp 279-281), of a mock (Mock.hpp 616-624) or of a reporter (Reporter.hpp 634-640) throws. *)
Inductive fop : Type :=
| FDone (o : op)
| FNothing (x : exn)
| FExpect (m ov : nat) (ms : list matcher) (cls : list clause) (l : loc) (st : stage) (x : exn)
| FCall (m ov : nat) (args : list val) (l : loc) (i : nat) (x : exn)
| FEndScope (h : nat) (x : exn)
| FMoveAssign (dst src : nat) (x : exn).

Definition fstep (w : world) (o : fop) : stepped :=
  match o with
  | FDone o => step w o
  | FNothing x => Next w (RThrow x)
  | FExpect m ov ms cls l st x => do_expect_fails w m ov ms cls l st x
  | FCall m ov args l i x => do_call_fails w m ov args l i x
  | FEndScope h x => do_end_fails w h (OEndScope h) x
  | FMoveAssign dst src x => if dst =? src then Invalid else do_end_fails w dst (OMoveAssignScoped dst src) x
  end.

Inductive frun : world -> list fop -> world -> Prop :=
| frun_nil w : frun w [] w
| frun_cons w o w1 r ops w2 : fstep w o = Next w1 r -> frun w1 ops w2 -> frun w (o :: ops) w2.

(** The states of programs in which things may fail. *)
Definition freachable (w : world) : Prop := exists ops, frun init ops w.
