(** * Watcher: model of /repo/include/mimic++/ObjectWatcher.hpp (LifetimeWatcher, RelocationWatcher, Watched)

    A program using watchers is a program of World.v in which some of the operations are issued by the special member functions of
    the watchers. A mock owned by a watcher can not be named by the program itself (it is private, ObjectWatcher.hpp 163-167, 280-281).

    If the call made by a special member function is matched, then the program runs the side effects and the finalizer of the
    expectation with the ordinary operations [OAction], [OFinal] and [OReturn] (anything may happen inside of them), and the rest of the
    special member function is executed as soon as the call has ended. *)

From Verif Require Import Base Sequence Control Signature Printer Reports Expectation Builder World.

(** The signature of the mocks of both watchers: void(). Type 0 is void. *)
Definition sig_watch : signature := mkSig 0 [] false false RefNone false.

(** LifetimeWatcher: m_HasDestructExpectation and m_DestructionMock, ObjectWatcher.hpp 164-167. [None]: null pointer; [Some m]: the
    mock number [m], which is never moved and therefore identifies the watched identity. *)
Record lwatcher : Type := mkLW { lw_flag : bool; lw_mock : option nat }.

(** The rest of a special member function, to be executed after its call on a mock. [ne]: the special member function of the
    surrounding Watched object is noexcept (ObjectWatcher.hpp 299, 306, 307, 316-323: as Base is); for a bare watcher it is not. *)
Inductive cont : Type :=
| KDestroy (m : nat) (ne : bool)         (* ~LifetimeWatcher: the local unique_ptr destroys the mock, 66-71 *)
| KReset (i m : nat)                     (* copy assignment: end of ~temp, then the move assignment from a new watcher, 117-121 *)
| KMoved (i d : nat) (ne : bool)         (* move construction from relocation watcher [i]; [d] is the mock of the new object, 249-252 *)
| KAssigned (i j : nat) (ne : bool).     (* move assignment to relocation watcher [i] from [j], 259-265 *)

Record wworld : Type := mkWW {
  ww : world;
  ww_life : list (option lwatcher);      (* all lifetime watchers ever created; None: destroyed *)
  ww_reloc : list (option nat);          (* all relocation watchers ever created, with the number of their mock; None: destroyed *)
  ww_lmocks : list nat;                  (* the mocks ever created by lifetime watchers, newest first *)
  ww_rmocks : list nat;                  (* the mocks ever created by relocation watchers, newest first *)
  ww_conts : list (nat * cont);          (* special member functions whose call is running, innermost first, with the depth of the call *)
  ww_log : list op                       (* all operations executed so far *)
}.

Definition winit : wworld := mkWW init [] [] [] [] [] [].

Inductive wstepped : Type :=
| WNext (s : wworld) (r : result)
| WStop
| WWrong (u : ub)
| WInvalid.

Definition set_life (s : wworld) (l : list (option lwatcher)) : wworld :=
  mkWW (ww s) l (ww_reloc s) (ww_lmocks s) (ww_rmocks s) (ww_conts s) (ww_log s).
Definition set_reloc (s : wworld) (l : list (option nat)) : wworld :=
  mkWW (ww s) (ww_life s) l (ww_lmocks s) (ww_rmocks s) (ww_conts s) (ww_log s).
Definition set_conts (s : wworld) (l : list (nat * cont)) : wworld :=
  mkWW (ww s) (ww_life s) (ww_reloc s) (ww_lmocks s) (ww_rmocks s) l (ww_log s).
Definition own_life (s : wworld) (m : nat) : wworld :=
  mkWW (ww s) (ww_life s) (ww_reloc s) (m :: ww_lmocks s) (ww_rmocks s) (ww_conts s) (ww_log s).
Definition own_reloc (s : wworld) (m : nat) : wworld :=
  mkWW (ww s) (ww_life s) (ww_reloc s) (ww_lmocks s) (m :: ww_rmocks s) (ww_conts s) (ww_log s).

(** Execute an operation, then go on with [k]. *)
Definition perform (s : wworld) (o : op) (k : wworld -> result -> wstepped) : wstepped :=
  match step (ww s) o with
  | Next w r => k (mkWW w (ww_life s) (ww_reloc s) (ww_lmocks s) (ww_rmocks s) (ww_conts s) (ww_log s ++ [o])) r
  | Stop => WStop
  | Wrong u => WWrong u
  | Invalid => WInvalid
  end.

(** A special member function ends like its call: normally or by an exception, which must not leave a noexcept function. *)
Definition leave (ne : bool) (s : wworld) (r : result) : wstepped :=
  match r with
  | RThrow x => if ne then WStop else WNext s (RThrow x)
  | _ => WNext s RUnit
  end.

Definition is_throw (r : result) : bool := match r with RThrow _ => true | _ => false end.

(** ~unique_ptr / unique_ptr::reset: the mock is destroyed (it is not called). *)
Definition drop_mock (s : wworld) (mo : option nat) : wstepped :=
  match mo with
  | None => WNext s RUnit
  | Some m => perform s (ODestroyMock m) (fun s1 _ => WNext s1 RUnit)
  end.

(** [*this = LifetimeWatcher{}], ObjectWatcher.hpp 121: a new watcher with a new mock is move-assigned, its remainder is empty. The mock
    which the target holds at that moment, if any, is destroyed by the assignment of the unique_ptr. *)
Definition refresh (s : wworld) (i : nat) : wstepped :=
  match nth_error (ww_life s) i with
  | Some (Some lw) =>
      let d := length (w_mocks (ww s)) in
      perform s (ONewMock [sig_watch]) (fun s1 _ =>
        drop_mock (set_life (own_life s1 d) (upd (ww_life s1) i (Some (mkLW false (Some d))))) (lw_mock lw))
  | _ => WWrong UbDangling
  end.

(** The rest of a special member function whose call ended with [r]. *)
Definition finish (s : wworld) (k : cont) (r : result) : wstepped :=
  match k with
  | KDestroy m ne => perform s (ODestroyMock m) (fun s1 _ => leave ne s1 r)
  | KReset i m => perform s (ODestroyMock m) (fun s1 _ => if is_throw r then WNext s1 r else refresh s1 i)
  | KMoved i d ne =>
      if is_throw r then perform s (ODestroyMock d) (fun s1 _ => leave ne s1 r)
      else match nth_error (ww_reloc s) i with
           | Some (Some m) => perform s (OMoveAssignMock d m) (fun s1 _ => WNext (set_reloc s1 (ww_reloc s1 ++ [Some d])) RUnit)
           | _ => WWrong UbDangling
           end
  | KAssigned i j ne =>
      if is_throw r then leave ne s r
      else match nth_error (ww_reloc s) i, nth_error (ww_reloc s) j with
           | Some (Some mi), Some (Some mj) => perform s (OMoveAssignMock mi mj) (fun s1 _ => WNext s1 RUnit)
           | _, _ => WWrong UbDangling
           end
  end.

(** Call the mock [m] and go on with [k]: at once, if the call is left by an exception, otherwise when its side effects and its
    finalizer have run. *)
Definition call_then (s : wworld) (m : nat) (l : loc) (k : cont) : wstepped :=
  perform s (OCall m 0 [] l) (fun s1 r =>
    if is_throw r then finish s1 k r
    else WNext (set_conts s1 ((length (w_frames (ww s)), k) :: ww_conts s1)) RUnit).

(** A special member function waiting for a call that has just ended goes on. *)
Definition resume (s : wworld) (r : result) : wstepped :=
  match ww_conts s with
  | (d, k) :: ks => if length (w_frames (ww s)) <=? d then finish (set_conts s ks) k r else WNext s r
  | [] => WNext s r
  end.

(** The mocks an operation names. *)
Definition named (o : op) : list nat :=
  match o with
  | OMoveMock m | ODestroyMock m | OExpect m _ _ _ _ | OCall m _ _ _ => [m]
  | OMoveAssignMock d s => [d; s]
  | _ => []
  end.

Definition is_private (s : wworld) (m : nat) : bool := existsb (Nat.eqb m) (ww_lmocks s) || existsb (Nat.eqb m) (ww_rmocks s).

(** The operations of a program with watchers: the public functions of LifetimeWatcher, 56-168, and RelocationWatcher, 200-282. [l] is the source location the compiler provides inside of the watchers. *)
Inductive wop : Type :=
| WOp (o : op)                                         (* any other operation *)
| LNew                                                 (* LifetimeWatcher w; *)
| LCopy (i : nat)                                      (* LifetimeWatcher w{i}; *)
| LMove (i : nat)                                      (* LifetimeWatcher w{std::move(i)}; *)
| LCopyAssign (i j : nat) (l : loc)                    (* i = j; *)
| LMoveAssign (i j : nat)                              (* i = std::move(j); *)
| LDestroy (i : nat) (ne : bool) (l : loc)             (* i.~LifetimeWatcher(); *)
| LExpect (i : nat) (cls : list clause) (l : loc)      (* ScopedExpectation h = i.expect_destruct() && cls...; *)
| LExpectDropped (i : nat)                             (* i.expect_destruct(); *)
| RNew                                                 (* the same for RelocationWatcher *)
| RCopy (i : nat)
| RMove (i : nat) (ne : bool) (l : loc)
| RCopyAssign (i j : nat)
| RMoveAssign (i j : nat) (ne : bool) (l : loc)
| RDestroy (i : nat)
| RExpect (i : nat) (cls : list clause) (l : loc).

(** A new lifetime watcher, ObjectWatcher.hpp 78, 165-167. *)
Definition new_life (s : wworld) : wstepped :=
  let d := length (w_mocks (ww s)) in
  perform s (ONewMock [sig_watch]) (fun s1 _ => WNext (set_life (own_life s1 d) (ww_life s1 ++ [Some (mkLW false (Some d))])) RUnit).

(** A new relocation watcher, ObjectWatcher.hpp 211, 281. *)
Definition new_reloc (s : wworld) : wstepped :=
  let d := length (w_mocks (ww s)) in
  perform s (ONewMock [sig_watch]) (fun s1 _ => WNext (set_reloc (own_reloc s1 d) (ww_reloc s1 ++ [Some d])) RUnit).

(** expect_destruct, ObjectWatcher.hpp 149-161, up to the builder; [k] uses the builder. *)
Definition expect_destruct (s : wworld) (i : nat) (k : wworld -> nat -> wstepped) : wstepped :=
  match nth_error (ww_life s) i with
  | Some (Some (mkLW fl mo)) =>
      if fl then WNext s (RThrow ELogicError)
      else match mo with
           | None => WWrong UbNull
           | Some m => k (set_life s (upd (ww_life s) i (Some (mkLW true mo)))) m
           end
  | _ => WInvalid
  end.

Definition wstep (s : wworld) (o : wop) : wstepped :=
  match o with
  | WOp o => if existsb (is_private s) (named o) then WInvalid else perform s o resume
  | LNew => new_life s
  | LCopy i =>                                         (* 90-94 *)
      match nth_error (ww_life s) i with Some (Some _) => new_life s | _ => WInvalid end
  | LMove i =>                                         (* 132, defaulted: the flag is copied, the pointer is moved *)
      match nth_error (ww_life s) i with
      | Some (Some lw) => WNext (set_life s (upd (ww_life s) i (Some (mkLW (lw_flag lw) None)) ++ [Some lw])) RUnit
      | _ => WInvalid
      end
  | LCopyAssign i j l =>                               (* 111-124 *)
      match nth_error (ww_life s) i, nth_error (ww_life s) j with
      | Some (Some lw), Some (Some _) =>
          match lw_mock lw with
          | None => refresh s i
          | Some m => call_then (set_life s (upd (ww_life s) i (Some (mkLW (lw_flag lw) None)))) m l (KReset i m)
          end
      | _, _ => WInvalid
      end
  | LMoveAssign i j =>                                 (* 139, defaulted; the old mock of the target is destroyed without a call *)
      match nth_error (ww_life s) i, nth_error (ww_life s) j with
      | Some (Some li), Some (Some lj) =>
          if i =? j then WNext s RUnit
          else drop_mock (set_life s (upd (upd (ww_life s) j (Some (mkLW (lw_flag lj) None))) i (Some lj))) (lw_mock li)
      | _, _ => WInvalid
      end
  | LDestroy i ne l =>                                 (* 64-72 *)
      match nth_error (ww_life s) i with
      | Some (Some lw) =>
          let s1 := set_life s (upd (ww_life s) i None) in
          match lw_mock lw with
          | None => WNext s1 RUnit
          | Some m => call_then s1 m l (KDestroy m ne)
          end
      | _ => WInvalid
      end
  | LExpect i cls l => expect_destruct s i (fun s1 m => perform s1 (OExpect m 0 [] (ClTimes TxOnce :: cls) l) WNext)
  | LExpectDropped i => expect_destruct s i (fun s1 _ => WNext s1 RUnit)
  | RNew => new_reloc s
  | RCopy i =>                                         (* 221-225 *)
      match nth_error (ww_reloc s) i with Some (Some _) => new_reloc s | _ => WInvalid end
  | RMove i ne l =>                                    (* 249-252 *)
      match nth_error (ww_reloc s) i with
      | Some (Some m) =>
          let d := length (w_mocks (ww s)) in
          perform s (ONewMock [sig_watch]) (fun s1 _ => call_then (own_reloc s1 d) m l (KMoved i d ne))
      | _ => WInvalid
      end
  | RCopyAssign i j =>                                 (* 234-241 *)
      match nth_error (ww_reloc s) i, nth_error (ww_reloc s) j with
      | Some (Some m), Some (Some _) =>
          let d := length (w_mocks (ww s)) in
          perform s (ONewMock [sig_watch]) (fun s1 _ =>
            perform (own_reloc s1 d) (OMoveAssignMock m d) (fun s2 _ => perform s2 (ODestroyMock d) (fun s3 _ => WNext s3 RUnit)))
      | _, _ => WInvalid
      end
  | RMoveAssign i j ne l =>                            (* 259-265 *)
      match nth_error (ww_reloc s) i, nth_error (ww_reloc s) j with
      | Some (Some _), Some (Some m) => call_then s m l (KAssigned i j ne)
      | _, _ => WInvalid
      end
  | RDestroy i =>                                      (* 206, defaulted *)
      match nth_error (ww_reloc s) i with
      | Some (Some m) => perform (set_reloc s (upd (ww_reloc s) i None)) (ODestroyMock m) (fun s1 _ => WNext s1 RUnit)
      | _ => WInvalid
      end
  | RExpect i cls l =>                                 (* 275-278 *)
      match nth_error (ww_reloc s) i with
      | Some (Some m) => perform s (OExpect m 0 [] cls l) WNext
      | _ => WInvalid
      end
  end.

Inductive wrun : wworld -> list wop -> wworld -> Prop :=
| wrun_nil s : wrun s [] s
| wrun_cons s o s1 r ops s2 : wstep s o = WNext s1 r -> wrun s1 ops s2 -> wrun s (o :: ops) s2.

Definition wreachable (s : wworld) : Prop := exists ops, wrun winit ops s.
