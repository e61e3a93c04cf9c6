(** * Builders: expectation builders which the user keeps, moves, extends and finalizes later.

    [World] only knows whole expressions ([OExpect]). Here the builder which expect_call returns is an object of its own: model of class
    BasicExpectationBuilder, /repo/include/mimic++/ExpectationBuilder.hpp 17-193, as a part of whole programs. *)

From Verif Require Import Base Sequence Control Signature Printer Reports Expectation Builder World.

(** A variable of a builder type. [bo_storage]: m_Storage (188), [None] if it is null. [bo_members]: the other data members (189-192) and the
    template arguments. [bo_null]: the pointers of m_SequenceConfig (190) were moved from. [bo_sig], [bo_ov]: the overload. *)
Record bobj : Type := mkBObj {
  bo_sig : signature;
  bo_ov : nat;
  bo_storage : option nat;
  bo_members : builder;
  bo_null : bool;
  bo_alive : bool
}.

(** The program: [bw_user] tells which sequence objects the user still has; [w_iface] of the world tells whether somebody apart from
    expectations holds the BasicSequence. *)
Record bworld : Type := mkBW {
  bw : world;
  bw_user : list bool;
  bw_builders : list bobj
}.

Inductive bstepped : Type :=
| BNext (b : bworld) (r : result)
| BStop
| BWrong (u : ub)
| BInvalid.

Definition binit : bworld := mkBW init [] [].

Definition set_bw (b : bworld) (w : world) : bworld := mkBW w (bw_user b) (bw_builders b).
Definition set_user (b : bworld) (l : list bool) : bworld := mkBW (bw b) l (bw_builders b).
Definition set_builders (b : bworld) (l : list bobj) : bworld := mkBW (bw b) (bw_user b) l.

Definition blift (b : bworld) (s : stepped) : bstepped :=
  match s with
  | Next w r => BNext (set_bw b w) r
  | Stop => BStop
  | Wrong u => BWrong u
  | Invalid => BInvalid
  end.

(** The sequences a builder holds a shared_ptr to: Config::m_Sequences, Sequence.hpp 332. *)
Definition holds (o : bobj) : list nat := if bo_alive o && negb (bo_null o) then b_seqs (bo_members o) else [].
Definition held (b : bworld) (s : nat) : bool := existsb (fun o => existsb (Nat.eqb s) (holds o)) (bw_builders b).

(** A sequence object or a builder gave up its shared_ptr to [s]: if there is no other, only expectations are left as owners, see [ODropSeq].
    The standard leaves the order in which a tuple ends its elements open; the model takes the order of the sequences, as [release_seqs]. *)
Definition release_share (b : bworld) (s : nat) : bstepped :=
  if nth s (bw_user b) false || held b s then BNext b RUnit else blift b (step (bw b) (ODropSeq s)).
Fixpoint release_shares (b : bworld) (l : list nat) : bstepped :=
  match l with
  | [] => BNext b RUnit
  | s :: l' =>
      match release_share b s with
      | BNext b' _ => release_shares b' l'
      | other => other
      end
  end.

(** Only sequence objects which the user still has can be named. *)
Definition names_ok (b : bworld) (cl : clause) : bool :=
  match cl with
  | ClSeq tags => forallb (fun s => nth s (bw_user b) false) tags
  | _ => true
  end.

(** The contents of a builder after std::move(builder) was used: the defaulted move operations (56-58) and the overloads of operator&& for
    policies (60-110) and times (112-130) move all members; the one for sequences copies the sequences (136: Config::concat is const, Sequence.hpp
    315-329), as does finalize (168-171: ControlPolicy takes its configurations by const reference, ControlPolicy.hpp 170-173). *)
Definition moved_from (o : bobj) : bobj := mkBObj (bo_sig o) (bo_ov o) None (bo_members o) true (bo_alive o).
Definition used_up (o : bobj) : bobj := mkBObj (bo_sig o) (bo_ov o) None (bo_members o) (bo_null o) (bo_alive o).
Definition after_and (cl : clause) (o : bobj) : bobj :=
  match cl with
  | ClSeq _ => used_up o
  | _ => moved_from o
  end.

(** Types of builders, as far as they are modelled: 18-24. *)
Definition same_type (o o' : bobj) : bool :=
  (if signature_eq_dec (bo_sig o) (bo_sig o') then true else false)
  && Bool.eqb (b_times_configured (bo_members o)) (b_times_configured (bo_members o'))
  && Bool.eqb (b_finalized (bo_members o)) (b_finalized (bo_members o'))
  && (length (b_seqs (bo_members o)) =? length (b_seqs (bo_members o')))
  && (length (b_policies (bo_members o)) =? length (b_policies (bo_members o'))).

(** Operations. *)
Inductive bop : Type :=
| BOp (o : op)                                     (* the operations known from World *)
| BExpect (m ov : nat) (ms : list matcher)         (* auto b = m.expect_call(ms...); *)
| BAnd (k : nat) (cl : clause)                     (* auto b2 = std::move(b) && cl; *)
| BMove (k : nat)                                  (* auto b2 = std::move(b); *)
| BMoveAssign (dst src : nat)                      (* dst = std::move(src); *)
| BDrop (k : nat)                                  (* ~BasicExpectationBuilder *)
| BFinalize (k : nat) (l : loc).                   (* ScopedExpectation e = std::move(b); *)

(** expect_call of the MockFrontends (Mock.hpp 49-59): nothing is attached yet. *)
Definition do_bexpect (b : bworld) (m ov : nat) (ms : list matcher) : bstepped :=
  match find_overload (bw b) m ov with
  | inl r => blift b r
  | inr (s, coll) =>
      if negb (length ms =? length (sg_params s)) then BInvalid
      else
        match frontend_builder s ms with
        | BOk bd => BNext (set_builders b (bw_builders b ++ [mkBObj s ov (Some coll) bd false true])) RUnit
        | BThrow x => BNext b (RThrow x)
        | BIllFormed => BInvalid
        end
  end.

(** operator&& (60-152): the operand is evaluated, then the sequences are concatenated (136), then the members are moved into the new builder whose
    constructor asserts m_Storage (50). *)
Definition do_band (b : bworld) (k : nat) (cl : clause) : bstepped :=
  match nth_error (bw_builders b) k with
  | None => BInvalid
  | Some o =>
      if negb (bo_alive o && names_ok b cl && clause_ok (bw b) (length (sg_params (bo_sig o))) cl) then BInvalid
      else
        let dangling := match cl with
                        | ClSeq tags => bo_null o && negb (length (b_seqs (bo_members o)) =? 0)
                                        && match config_make tags with Ret _ => true | _ => false end
                        | _ => false
                        end in
        if dangling then BWrong UbNull                    (* sequences->tag() of a null pointer, Sequence.hpp 341 *)
        else
          match builder_and (bo_members o) cl with
          | BIllFormed => BInvalid
          | BThrow x => BNext b (RThrow x)                (* nothing was moved yet *)
          | BOk bd =>
              match bo_storage o with
              | None => BWrong UbAssert                   (* 50 *)
              | Some coll =>
                  BNext (set_builders b (upd (bw_builders b) k (after_and cl o) ++ [mkBObj (bo_sig o) (bo_ov o) (Some coll) bd false true])) RUnit
              end
          end
  end.

(** The defaulted move constructor (56-57) and move assignment (58), which gives up what the target held, and the destructor (31). *)
Definition do_bmove (b : bworld) (k : nat) : bstepped :=
  match nth_error (bw_builders b) k with
  | Some o => if bo_alive o then BNext (set_builders b (upd (bw_builders b) k (moved_from o) ++ [o])) RUnit else BInvalid
  | None => BInvalid
  end.
Definition do_bassign (b : bworld) (dst src : nat) : bstepped :=
  match nth_error (bw_builders b) dst, nth_error (bw_builders b) src with
  | Some d, Some s =>
      if negb (bo_alive d && bo_alive s && same_type d s) then BInvalid
      else if dst =? src then BNext b RUnit
      else release_shares (set_builders b (upd (upd (bw_builders b) src (moved_from s)) dst s)) (holds d)
  | _, _ => BInvalid
  end.
Definition do_bdrop (b : bworld) (k : nat) : bstepped :=
  match nth_error (bw_builders b) k with
  | Some o =>
      if bo_alive o
      then release_shares (set_builders b (upd (bw_builders b) k (mkBObj (bo_sig o) (bo_ov o) None (bo_members o) true false))) (holds o)
      else BInvalid
  | None => BInvalid
  end.

(** finalize (154-185) and the constructors of ScopedExpectation (Expectation.hpp 605-617, 641-665): the control policy is attached to the sequences first,
    the storage is used last. *)
Definition do_bfinalize (b : bworld) (k : nat) (l : loc) : bstepped :=
  match nth_error (bw_builders b) k with
  | None => BInvalid
  | Some o =>
      let bd := bo_members o in
      if negb (bo_alive o && finalize_ok (bo_sig o) bd) then BInvalid
      else if bo_null o && negb (length (b_seqs bd) =? 0) then BWrong UbNull
      else
        let b1 := set_builders b (upd (bw_builders b) k (used_up o)) in
        let w := bw b in
        match control_new (w_seqs w) (b_times bd) (b_seqs bd) with
        | Throw x => BNext b1 (RThrow x)
        | Terminate => BStop
        | Undef u => BWrong u
        | Ret (ss, ctl) =>
            match bo_storage o with
            | None => BWrong UbAssert                     (* Expectation.hpp 613 *)
            | Some coll =>
                match nth_error (w_colls w) coll with
                | None => BWrong UbDangling
                | Some members =>
                    let e := length (w_exps w) in
                    let w1 := set_seqs w ss in
                    let w2 := set_exps w1 (w_exps w1 ++ [mkEObj (mkExp l ctl (b_policies bd) (b_final bd)) coll true (bo_ov o) (bo_sig o)]) in
                    let w3 := set_colls w2 (upd (w_colls w2) coll (members ++ [e])) in
                    BNext (set_bw b1 (set_scoped w3 (w_scoped w3 ++ [HOwns e]))) RUnit
                end
            end
        end
  end.

Definition bstep (b : bworld) (o : bop) : bstepped :=
  match o with
  | BOp (ONewSeq st) =>
      match blift b (step (bw b) (ONewSeq st)) with
      | BNext b' r => BNext (set_user b' (bw_user b ++ [true])) r
      | other => other
      end
  | BOp (ODropSeq s) =>
      if nth s (bw_user b) false then release_share (set_user b (upd (bw_user b) s false)) s else BInvalid
  | BOp (OExpect m ov ms cls l) => if forallb (names_ok b) cls then blift b (step (bw b) (OExpect m ov ms cls l)) else BInvalid
  | BOp o' => blift b (step (bw b) o')
  | BExpect m ov ms => do_bexpect b m ov ms
  | BAnd k cl => do_band b k cl
  | BMove k => do_bmove b k
  | BMoveAssign dst src => do_bassign b dst src
  | BDrop k => do_bdrop b k
  | BFinalize k l => do_bfinalize b k l
  end.

Inductive brun : bworld -> list bop -> bworld -> Prop :=
| brun_nil b : brun b [] b
| brun_cons b o b1 r ops b2 : bstep b o = BNext b1 r -> brun b1 ops b2 -> brun b (o :: ops) b2.

Definition breachable (b : bworld) : Prop := exists ops, brun binit ops b.
