(** * FailingBuilders: programs which keep builders and in which operations are left by an exception half-way.

    The failures of [Failing] together with the stored builders of [Builders]: model of what the members of BasicExpectationBuilder,
    /repo/include/mimic++/ExpectationBuilder.hpp 24-193, leave behind when an allocation or a copy or move of a user supplied matcher, action or finalizer
    throws. *)

From Verif Require Import Base Sequence Control Signature Printer Reports Expectation Builder World Failing Builders.

(** expect_call (Mock.hpp 49-59) stores its matchers in builders whose constructor is noexcept (ExpectationBuilder.hpp 37-51, 249-262). *)
Definition do_bexpect_fails (b : bworld) (m ov : nat) (ms : list matcher) : bstepped :=
  match find_overload (bw b) m ov with
  | inl r => blift b r
  | inr (s, _) =>
      if negb (length ms =? length (sg_params s)) then BInvalid
      else if length ms =? 0 then BInvalid                     (* nothing which could fail *)
      else BStop
  end.

(** operator&& (60-152): the operand and the concatenated sequences exist; now the user supplied parts are stored in the new builder. Its constructor is
    noexcept (43), and it looks at m_Storage (50) later. *)
Definition do_band_fails (b : bworld) (k : nat) (cl : clause) : bstepped :=
  match nth_error (bw_builders b) k with
  | None => BInvalid
  | Some o =>
      if negb (bo_alive o && names_ok b cl && clause_ok (bw b) (length (sg_params (bo_sig o))) cl) then BInvalid
      else
        let dangling := match cl with
                        | ClSeq tags => bo_null o && negb (length (b_seqs (bo_members o)) =? 0)
                                        && match config_make tags with Ret _ => true | _ => false end
                        | _ => false
                        end in
        if dangling then BWrong UbNull
        else
          match builder_and (bo_members o) cl with
          | BOk bd => if user_made bd then BStop else BInvalid
          | _ => BInvalid                                      (* the program does not get that far *)
          end
  end.

(** The defaulted move constructor (56-57), which is not noexcept if a part is not: m_Storage, m_TimesConfig and m_SequenceConfig are moved first (188-190),
    then m_FinalizePolicy or m_ExpectationPolicies throws and the members of the new builder are destroyed, while the exception is on its way
    (std::uncaught_exceptions). The parts which were moved before stay where they are: in no object the user can reach. *)
Definition do_bmove_fails (b : bworld) (k : nat) (x : exn) : bstepped :=
  match nth_error (bw_builders b) k with
  | Some o =>
      if bo_alive o && user_made (bo_members o)
      then
        let n := w_uncaught (bw b) in
        let b1 := set_builders b (upd (bw_builders b) k (moved_from o)) in
        match release_shares (set_bw b1 (set_uncaught (bw b1) (S n))) (holds o) with
        | BNext b2 _ => BNext (set_bw b2 (set_uncaught (bw b2) n)) (RThrow x)
        | other => other
        end
      else BInvalid
  | None => BInvalid
  end.

(** The part whose assignment throws: the finalizer ([None]) or a policy. *)
Definition fails_at (bd : builder) (n : option nat) : bool :=
  match n with
  | None => b_finalized bd
  | Some j => match nth_error (b_policies bd) j with Some p => user_policy p | None => false end
  end.
(** The defaulted move assignment (58) assigns the members one by one (188-192), the policies in their order. The part which throws keeps its
    value: a simplification, as user types may do otherwise. The standard does not fix the order of the elements of a tuple; all implementations take theirs. *)
Definition mixed (d s : builder) (n : option nat) : builder :=
  mkBuilder (b_times_configured s) (b_finalized s) (b_times s) (b_seqs s)
    (match n with None => b_final d | Some _ => b_final s end)
    (match n with None => b_policies d | Some j => firstn j (b_policies s) ++ skipn j (b_policies d) end).
Definition half_assigned (d s : bobj) (n : option nat) : bobj :=
  mkBObj (bo_sig s) (bo_ov s) (bo_storage s) (mixed (bo_members d) (bo_members s) n) (bo_null s) (bo_alive d).
Definition do_bassign_fails (b : bworld) (dst src : nat) (n : option nat) (x : exn) : bstepped :=
  match nth_error (bw_builders b) dst, nth_error (bw_builders b) src with
  | Some d, Some s =>
      if negb (bo_alive d && bo_alive s && same_type d s && fails_at (bo_members s) n) then BInvalid
      else if dst =? src then BNext b (RThrow x)
      else
        match release_shares (set_builders b (upd (upd (bw_builders b) src (moved_from s)) dst (half_assigned d s n))) (holds d) with
        | BNext b' _ => BNext b' (RThrow x)
        | other => other
        end
  | _, _ => BInvalid
  end.

(** finalize (154-185): the arguments of the braced initialization (161) are evaluated from left to right, hence m_Storage is given away before
    anything can throw (162); the sequences are copied (ControlPolicy.hpp 170-173). For the stages see [stage]. *)
Definition do_bfinalize_fails (b : bworld) (k : nat) (l : loc) (st : stage) (x : exn) : bstepped :=
  match nth_error (bw_builders b) k with
  | None => BInvalid
  | Some o =>
      let bd := bo_members o in
      if negb (bo_alive o && finalize_ok (bo_sig o) bd) then BInvalid
      else if bo_null o && negb (length (b_seqs bd) =? 0) then BWrong UbNull
      else
        match control_new (w_seqs (bw b)) (b_times bd) (b_seqs bd) with
        | Ret (ss, ctl) =>
            match st with
            | AtOperand | InBuilder => BInvalid                (* there is no operand and no further builder *)
            | InControl => if length (b_seqs bd) =? 0 then BInvalid else BStop
            | AfterControl => BNext (set_bw (set_builders b (upd (bw_builders b) k (used_up o))) (half_built (bw b) l ss ctl x)) (RThrow x)
            | InModel => BStop
            end
        | _ => BInvalid
        end
  end.

(** Operations. [FBWorld]: the failing operations of [Failing]; only sequence objects which the user still has can be named. [FBNothing] is among
    them; it also covers operands of operator&& and the concatenation of sequences (136). *)
Inductive fbop : Type :=
| FBDone (o : bop)
| FBWorld (o : fop)
| FBExpect (m ov : nat) (ms : list matcher)
| FBAnd (k : nat) (cl : clause)
| FBMove (k : nat) (x : exn)
| FBMoveAssign (dst src : nat) (n : option nat) (x : exn)
| FBFinalize (k : nat) (l : loc) (st : stage) (x : exn).

Definition fbstep (b : bworld) (o : fbop) : bstepped :=
  match o with
  | FBDone o => bstep b o
  | FBWorld (FDone o) => bstep b (BOp o)
  | FBWorld (FExpect m ov ms cls l st x) =>
      if forallb (names_ok b) cls then blift b (fstep (bw b) (FExpect m ov ms cls l st x)) else BInvalid
  | FBWorld o => blift b (fstep (bw b) o)
  | FBExpect m ov ms => do_bexpect_fails b m ov ms
  | FBAnd k cl => do_band_fails b k cl
  | FBMove k x => do_bmove_fails b k x
  | FBMoveAssign dst src n x => do_bassign_fails b dst src n x
  | FBFinalize k l st x => do_bfinalize_fails b k l st x
  end.

Inductive fbrun : bworld -> list fbop -> bworld -> Prop :=
| fbrun_nil b : fbrun b [] b
| fbrun_cons b o b1 r ops b2 : fbstep b o = BNext b1 r -> fbrun b1 ops b2 -> fbrun b (o :: ops) b2.

Definition fbreachable (b : bworld) : Prop := exists ops, fbrun binit ops b.
