(** * Watched: model of Watched<Base, Watchers...>, /repo/include/mimic++/ObjectWatcher.hpp 284-412

    Two views. First the types: which special member functions exist and which of them are noexcept. Then the objects: what the special
    member functions of a Watched object do with the watchers inside of it, with exceptions.

    Simplification: the special member functions of Base itself are not observable, except that they may throw. *)

From Verif Require Import Base Sequence Control Signature Printer Reports Expectation Builder World Watcher.

(** ** Types *)

(** The special member functions of a class type as seen by the type traits used at ObjectWatcher.hpp 285-290, 299-307. [None]: the expression does not compile; [Some ne]: it does,
    and [ne] tells whether the selected function is noexcept. [m_ctor_move]: initialisation by an rvalue, whatever function it selects. *)
Record members : Type := mkMembers {
  m_ctor_copy : option bool;
  m_ctor_move : option bool;
  m_assign_copy : option bool;
  m_assign_move : option bool;
  m_dtor : bool;
  m_virtual : bool
}.

Definition both (a b : option bool) : option bool :=
  match a, b with Some x, Some y => Some (x && y) | _, _ => None end.
(** A defaulted function calls the corresponding functions of all bases: it is deleted, if one of them is missing, and its implicit
    exception specification is the conjunction of theirs ([except.spec], [class.copy.ctor]). *)
Definition defaulted (l : list (option bool)) : option bool := fold_right both (Some true) l.
(** A defaulted function with an explicit exception specification. *)
Definition specified (ne : bool) (l : list (option bool)) : option bool :=
  match defaulted l with Some _ => Some ne | None => None end.
(** A defaulted move operation that is deleted is ignored by overload resolution: rvalues are copied. *)
Definition or_copy (mv cp : option bool) : option bool := match mv with Some ne => Some ne | None => cp end.

(** std::is_nothrow_destructible, is_nothrow_move_constructible (whose expression also destroys the new object),
    is_nothrow_move_assignable; used at 299, 306, 307. *)
Definition nothrow_dtor (b : members) : bool := m_dtor b.
Definition nothrow_move (b : members) : bool := match m_ctor_move b with Some ne => ne && m_dtor b | None => false end.
Definition nothrow_assign (b : members) : bool := match m_assign_move b with Some ne => ne | None => false end.

(** LifetimeWatcher, ObjectWatcher.hpp 56-168: throwing destructor (64); user-provided copies (90, 111) and defaulted moves (132, 139) of a
    bool and a unique_ptr. *)
Definition lifetime_watcher : members := mkMembers (Some false) (Some true) (Some false) (Some true) false false.
(** RelocationWatcher, 200-282. *)
Definition relocation_watcher : members := mkMembers (Some false) (Some false) (Some false) (Some false) true false.

(** concept object_watcher, 284-290 (default construction is left out). *)
Definition object_watcher (w : members) : bool :=
  match m_ctor_copy w, m_assign_copy w, m_ctor_move w, m_assign_move w with
  | Some _, Some _, Some _, Some _ => true
  | _, _, _, _ => false
  end.

(** CombinedWatchers<Base, Watchers...>, 294-308. *)
Definition combined (b : members) (ws : list members) : members :=
  let cc := defaulted (map m_ctor_copy ws) in
  let ca := defaulted (map m_assign_copy ws) in
  mkMembers cc (or_copy (specified (nothrow_move b) (map m_ctor_move ws)) cc)
            ca (or_copy (specified (nothrow_assign b) (map m_assign_move ws)) ca)
            (nothrow_dtor b) (existsb m_virtual ws).

(** A class with the bases [bs] whose special member functions are all defaulted without exception specification; the destructor is
    virtual, if one of the bases has a virtual one. Used for 316-323, 332-339, 404-411. *)
Definition derived (bs : list members) : members :=
  let cc := defaulted (map m_ctor_copy bs) in
  let ca := defaulted (map m_assign_copy bs) in
  mkMembers cc (or_copy (defaulted (map m_ctor_move bs)) cc) ca (or_copy (defaulted (map m_assign_move bs)) ca)
            (forallb m_dtor bs) (existsb m_virtual bs).

(** BasicWatched<Base, Watchers...>, 310-340, and Watched, 396-412. The two versions of BasicWatched differ in the word override. *)
Definition basic_watched (b : members) (ws : list members) : members := derived [combined b ws; b].
Definition watched (b : members) (ws : list members) : members := derived [basic_watched b ws].

(** A destructor overriding a virtual destructor must not have a looser exception specification ([except.spec]). *)
Definition override_ok (b d : members) : bool := implb (m_virtual b && m_dtor b) (m_dtor d).

(** ** Objects *)

(** A watcher which is part of a Watched object, i.e. one of its bases (296); the number of the watcher in Watcher.v. *)
Inductive part : Type := PLife (i : nat) | PReloc (i : nat).
Inductive kind : Type := KLife | KReloc.
Definition kind_of (p : part) : kind := match p with PLife _ => KLife | PReloc _ => KReloc end.
Definition kind_eqb (a b : kind) : bool := match a, b with KLife, KLife | KReloc, KReloc => true | _, _ => false end.

(** A special member function of a Watched object (all defaulted, 299-307, 316-323, 332-339, 404-411): it executes special member functions of the watchers one after the other; how it goes
    on depends on their results. [Built]: a new object with these parts. *)
Inductive plan : Type :=
| Done (r : result)
| Built (b : members) (ps : list part)
| Do (o : wop) (k : wworld -> result -> plan).

(** ~Watched, 404, ~BasicWatched, 316 or 332, ~CombinedWatchers, 299. The parts are destroyed in the given order. [pending]: an exception is in flight (with the former number of exceptions in flight); a
    second one ends the program. [ne]: the destructor is noexcept. *)
Fixpoint destroy_plan (todo : list part) (ne : bool) (l : loc) (pending : option (exn * nat)) : plan :=
  match todo with
  | [] =>
      match pending with
      | None => Done RUnit
      | Some (x, n) => Do (WOp (OUnwind n)) (fun _ _ => Done (RThrow x))
      end
  | PReloc i :: t => Do (RDestroy i) (fun _ _ => destroy_plan t ne l pending)
  | PLife i :: t =>
      match pending with
      | Some _ => Do (LDestroy i true l) (fun _ _ => destroy_plan t ne l pending)
      | None =>
          Do (LDestroy i ne l) (fun s r =>
            match r with
            | RThrow x => Do (WOp (OUnwind (S (w_uncaught (ww s))))) (fun _ _ => destroy_plan t ne l (Some (x, w_uncaught (ww s))))
            | _ => destroy_plan t ne l None
            end)
      end
  end.

(** Construction (301, 318, 334, 406): the bases in the order of their declaration, 296, 312-313. *)
Fixpoint new_plan (b : members) (todo : list kind) (built : list part) : plan :=
  match todo with
  | [] => Built b built
  | KLife :: t => Do LNew (fun s _ => new_plan b t (built ++ [PLife (length (ww_life s) - 1)]))
  | KReloc :: t => Do RNew (fun s _ => new_plan b t (built ++ [PReloc (length (ww_reloc s) - 1)]))
  end.

(** Copy construction, 303, 320, 336, 408. *)
Fixpoint copy_plan (b : members) (todo built : list part) : plan :=
  match todo with
  | [] => Built b built
  | PLife i :: t => Do (LCopy i) (fun s _ => copy_plan b t (built ++ [PLife (length (ww_life s) - 1)]))
  | PReloc i :: t => Do (RCopy i) (fun s _ => copy_plan b t (built ++ [PReloc (length (ww_reloc s) - 1)]))
  end.

(** Move construction, 306, 322, 338, 410. If a relocation watcher throws, then the parts built so far are destroyed in reverse order ([except.ctor]). *)
Fixpoint move_plan (b : members) (todo built : list part) (l : loc) : plan :=
  match todo with
  | [] => Built b built
  | PLife i :: t => Do (LMove i) (fun s _ => move_plan b t (built ++ [PLife (length (ww_life s) - 1)]) l)
  | PReloc i :: t =>
      Do (RMove i (nothrow_move b) l) (fun s r =>
        match r with
        | RThrow x =>
            Do (WOp (OUnwind (S (w_uncaught (ww s))))) (fun _ _ => destroy_plan (rev built) true l (Some (x, w_uncaught (ww s))))
        | _ => move_plan b t (built ++ [PReloc (length (ww_reloc s) - 1)]) l
        end)
  end.

(** Copy assignment (304, 321, 337, 409; never noexcept, see [watched]) and move assignment (307, 323, 339, 411); the first exception leaves the function. *)
Fixpoint copy_assign_plan (todo : list (part * part)) (l : loc) : plan :=
  match todo with
  | (PLife i, PLife j) :: t =>
      Do (LCopyAssign i j l) (fun _ r => match r with RThrow x => Done (RThrow x) | _ => copy_assign_plan t l end)
  | (PReloc i, PReloc j) :: t => Do (RCopyAssign i j) (fun _ _ => copy_assign_plan t l)
  | _ => Done RUnit
  end.
Fixpoint move_assign_plan (b : members) (todo : list (part * part)) (l : loc) : plan :=
  match todo with
  | (PLife i, PLife j) :: t => Do (LMoveAssign i j) (fun _ _ => move_assign_plan b t l)
  | (PReloc i, PReloc j) :: t =>
      Do (RMoveAssign i j (nothrow_assign b) l) (fun _ r => match r with RThrow x => Done (RThrow x) | _ => move_assign_plan b t l end)
  | _ => Done RUnit
  end.

(** *** Functions of Base which throw

    The watchers come before Base in the list of bases (312-313, 328-329): constructors and assignments deal with the watchers first, so
    that Base throws when the watchers have already done their part; the destructor deals with Base first. *)

(** An exception of Base leaves a constructor or the destructor: the watchers [ps] are destroyed in reverse order ([except.ctor]). Their
    destructors (64-72) run while the exception is in flight; a second exception ends the program. *)
Definition unwinding (s : wworld) (ps : list part) (x : exn) (l : loc) : plan :=
  Do (WOp (OUnwind (S (w_uncaught (ww s))))) (fun _ _ => destroy_plan (rev ps) true l (Some (x, w_uncaught (ww s)))).

(** A special member function (316-323, 332-339, 404-411) in which the function of Base throws [x]: it does the same as without exception
    as long as it deals with the watchers ([p]). An exception of a watcher leaves the function before Base is reached. *)
Fixpoint base_throws (s : wworld) (p : plan) (x : exn) (l : loc) : plan :=
  match p with
  | Done (RThrow y) => Done (RThrow y)
  | Done _ => Done (RThrow x)
  | Built _ ps => unwinding s ps x l
  | Do o k => Do o (fun s1 r => base_throws s1 (k s1 r) x l)
  end.

(** The state of a program with Watched objects. [dw_tasks]: the special member functions waiting for the end of a call made by a watcher,
    innermost first, with the number of special member functions of watchers that were waiting before. *)
Record dworld : Type := mkDW {
  dw : wworld;
  dw_objs : list (option (members * list part));
  dw_tasks : list (nat * (wworld -> result -> plan))
}.
Definition dinit : dworld := mkDW winit [] [].

Inductive dstepped : Type :=
| DNext (d : dworld) (r : result)
| DStop
| DWrong (u : ub)
| DInvalid.

Definition set_dw (d : dworld) (s : wworld) : dworld := mkDW s (dw_objs d) (dw_tasks d).
Definition set_objs (d : dworld) (l : list (option (members * list part))) : dworld := mkDW (dw d) l (dw_tasks d).
Definition set_tasks (d : dworld) (l : list (nat * (wworld -> result -> plan))) : dworld := mkDW (dw d) (dw_objs d) l.

(** Execute a special member function up to its end or to a call that is matched and has user code to run. *)
Fixpoint go (d : dworld) (p : plan) : dstepped :=
  match p with
  | Done r => DNext d r
  | Built b ps => DNext (set_objs d (dw_objs d ++ [Some (b, ps)])) RUnit
  | Do o k =>
      match wstep (dw d) o with
      | WNext s r =>
          if length (ww_conts (dw d)) <? length (ww_conts s)
          then DNext (set_tasks (set_dw d s) ((length (ww_conts (dw d)), k) :: dw_tasks d)) RUnit
          else go (set_dw d s) (k s r)
      | WStop => DStop
      | WWrong u => DWrong u
      | WInvalid => DInvalid
      end
  end.

(** The operations of a program; [DUse]: everything which is not a special member function of a watcher. *)
Inductive dop : Type :=
| DUse (o : wop)
| DNew (b : members) (ks : list kind)              (* Watched<Base, ks...> w; *)
| DCopy (k : nat)                                  (* Watched w{k}; *)
| DMove (k : nat) (l : loc)                        (* Watched w{std::move(k)}; *)
| DCopyAssign (k j : nat) (l : loc)                (* k = j; *)
| DMoveAssign (k j : nat) (l : loc)                (* k = std::move(j); *)
| DDestroy (k : nat) (l : loc)                     (* k.~Watched(); *)
| DNewThrows (b : members) (ks : list kind) (x : nat) (l : loc)   (* the same; the function of Base throws its exception number x *)
| DCopyThrows (k x : nat) (l : loc)
| DMoveThrows (k x : nat) (l : loc)
| DCopyAssignThrows (k j x : nat) (l : loc)
| DMoveAssignThrows (k j x : nat) (l : loc)
| DDestroyThrows (k x : nat) (l : loc).

Definition usable (o : wop) : bool := match o with WOp _ | LExpect _ _ _ | LExpectDropped _ | RExpect _ _ _ => true | _ => false end.
(** No class is twice a direct base (296). *)
Fixpoint distinct (ks : list kind) : bool :=
  match ks with [] => true | k :: t => negb (existsb (kind_eqb k) t) && distinct t end.

(** The parameters of 409, 411: objects of different types are not assigned to each other; of the types only the watchers are compared. *)
Fixpoint same_kinds (ps qs : list part) : bool :=
  match ps, qs with
  | [], [] => true
  | p :: ps', q :: qs' => kind_eqb (kind_of p) (kind_of q) && same_kinds ps' qs'
  | _, _ => false
  end.
Definition exists_ (f : option bool) : bool := match f with Some _ => true | None => false end.
(** The function exists and may throw: a noexcept function of Base does not let exceptions out ([except.spec]; 299-307 rely on it). *)
Definition throws_ (f : option bool) : bool := match f with Some ne => negb ne | None => false end.

Definition dobj (d : dworld) (k : nat) : option (members * list part) :=
  match nth_error (dw_objs d) k with Some x => x | None => None end.

Definition dstep (d : dworld) (o : dop) : dstepped :=
  match o with
  | DUse o =>
      if negb (usable o) then DInvalid
      else
        match wstep (dw d) o with
        | WNext s r =>
            match dw_tasks d with
            | (n, k) :: ts => if length (ww_conts s) <=? n then go (set_tasks (set_dw d s) ts) (k s r) else DNext (set_dw d s) r
            | [] => DNext (set_dw d s) r
            end
        | WStop => DStop
        | WWrong u => DWrong u
        | WInvalid => DInvalid
        end
  | DNew b ks => if distinct ks then go d (new_plan b ks []) else DInvalid
  | DCopy k =>
      match dobj d k with
      | Some (b, ps) => if exists_ (m_ctor_copy b) then go d (copy_plan b ps []) else DInvalid
      | None => DInvalid
      end
  | DMove k l =>                                     (* a deleted move constructor is ignored: rvalues are copied *)
      match dobj d k with
      | Some (b, ps) =>
          if exists_ (m_ctor_move b) then go d (move_plan b ps [] l)
          else if exists_ (m_ctor_copy b) then go d (copy_plan b ps []) else DInvalid
      | None => DInvalid
      end
  | DCopyAssign k j l =>
      match dobj d k, dobj d j with
      | Some (b, ps), Some (_, qs) =>
          if same_kinds ps qs && exists_ (m_assign_copy b) then go d (copy_assign_plan (combine ps qs) l) else DInvalid
      | _, _ => DInvalid
      end
  | DMoveAssign k j l =>
      match dobj d k, dobj d j with
      | Some (b, ps), Some (_, qs) =>
          if same_kinds ps qs then
            if exists_ (m_assign_move b) then go d (move_assign_plan b (combine ps qs) l)
            else if exists_ (m_assign_copy b) then go d (copy_assign_plan (combine ps qs) l) else DInvalid
          else DInvalid
      | _, _ => DInvalid
      end
  | DDestroy k l =>
      match dobj d k with
      | Some (b, ps) => go (set_objs d (upd (dw_objs d) k None)) (destroy_plan (rev ps) (nothrow_dtor b) l None)
      | None => DInvalid
      end
  | DNewThrows b ks x l => if distinct ks then go d (base_throws (dw d) (new_plan b ks []) (EUser x) l) else DInvalid
  | DCopyThrows k x l =>
      match dobj d k with
      | Some (b, ps) => if throws_ (m_ctor_copy b) then go d (base_throws (dw d) (copy_plan b ps []) (EUser x) l) else DInvalid
      | None => DInvalid
      end
  | DMoveThrows k x l =>
      match dobj d k with
      | Some (b, ps) =>
          if exists_ (m_ctor_move b)
          then if throws_ (m_ctor_move b) then go d (base_throws (dw d) (move_plan b ps [] l) (EUser x) l) else DInvalid
          else if throws_ (m_ctor_copy b) then go d (base_throws (dw d) (copy_plan b ps []) (EUser x) l) else DInvalid
      | None => DInvalid
      end
  | DCopyAssignThrows k j x l =>
      match dobj d k, dobj d j with
      | Some (b, ps), Some (_, qs) =>
          if same_kinds ps qs && throws_ (m_assign_copy b)
          then go d (base_throws (dw d) (copy_assign_plan (combine ps qs) l) (EUser x) l) else DInvalid
      | _, _ => DInvalid
      end
  | DMoveAssignThrows k j x l =>
      match dobj d k, dobj d j with
      | Some (b, ps), Some (_, qs) =>
          if same_kinds ps qs then
            if exists_ (m_assign_move b)
            then if throws_ (m_assign_move b) then go d (base_throws (dw d) (move_assign_plan b (combine ps qs) l) (EUser x) l) else DInvalid
            else if throws_ (m_assign_copy b) then go d (base_throws (dw d) (copy_assign_plan (combine ps qs) l) (EUser x) l) else DInvalid
          else DInvalid
      | _, _ => DInvalid
      end
  | DDestroyThrows k x l =>
      match dobj d k with
      | Some (b, ps) => if m_dtor b then DInvalid else go (set_objs d (upd (dw_objs d) k None)) (unwinding (dw d) ps (EUser x) l)
      | None => DInvalid
      end
  end.

Inductive drun : dworld -> list dop -> dworld -> Prop :=
| drun_nil d : drun d [] d
| drun_cons d o d1 r ops d2 : dstep d o = DNext d1 r -> drun d1 ops d2 -> drun d (o :: ops) d2.
Definition dreachable (d : dworld) : Prop := exists ops, drun dinit ops d.
