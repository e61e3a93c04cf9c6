(** * WatchSpec: vocabulary for watched objects. *)

From Verif Require Import Base Sequence Control Signature Printer Reports Expectation Builder BuildSpec World WorldSpec CallSpec Watcher.

(** How often has the mock [m] been called by the operations [ops]? *)
Definition is_call (m : nat) (o : op) : bool := match o with OCall m' _ _ _ => m' =? m | _ => false end.
Definition calls (m : nat) (ops : list op) : nat := length (filter (is_call m) ops).

(** The lifetime watcher number [i] exists, carries the identity [m] and its expect_destruct has (not) been used. *)
Definition carries (s : wworld) (i m : nat) (fl : bool) : Prop := nth_error (ww_life s) i = Some (Some (mkLW fl (Some m))).

(** The lifetime watcher number [i] exists and is moved-from. *)
Definition moved_from (s : wworld) (i : nat) : Prop := exists fl, nth_error (ww_life s) i = Some (Some (mkLW fl None)).

(** [c] is the collection of the expectations set up on the identity [m]. *)
Definition place (w : world) (m c : nat) : Prop := nth_error (w_mocks w) m = Some (mkMock [sig_watch] (Some [c]) true).

(** Expectation [e] was set up on the identity [m]. *)
Definition destruct_expectation (w : world) (m e : nat) (x : eobj) : Prop := exists c, place w m c /\ exp_at w e x /\ eo_coll x = c.

(** The call made by a watcher. *)
Definition watcher_call (l : loc) : call_info := call_of sig_watch [] l.

(** The failing reports of a call. *)
Definition failure (w : world) (c : nat) (k : call_info) (rep : report) (who : list nat) : Prop :=
  ((exists e x, accepting w c k e x) /\ newest_first w (accepting w c k) who /\
     exists ms, rep = RInapplicable (make_call_report k) ms /\ true_reports w k who ms) \/
  ((forall e x, ~ accepting w c k e x) /\ newest_first w (rejecting w c k) who /\
     exists ms, rep = RNoMatch (make_call_report k) ms /\ true_reports w k who ms).

(** A special member function whose call ends with a failing report: the reaction of the reporter decides. [s'] is the state after it. *)
Definition violated (ne : bool) (rc : reaction) (s' : wworld) : wstepped :=
  match rc with
  | Throws => if ne then WStop else WNext s' (RThrow EReporter)
  | Terminates => WStop
  | Returns => WWrong UbUnreachable
  end.

(** Clauses which neither attach sequences nor add requirements: times, finalizer and side effects. *)
Definition plain (cls : list clause) : Prop :=
  forall cl, In cl cls -> match cl with ClSeq _ => False | ClPolicy (PSideEffect _) => True | ClPolicy _ => False | _ => True end.

(** An operation by which watcher [i] announces the destruction. *)
Definition announces (o : wop) (i : nat) : Prop := o = LExpectDropped i \/ exists cls l, o = LExpect i cls l.

(** The relocation watcher number [i] exists, and the expectations set up on it are those of the collection [c]. *)
Definition watches (s : wworld) (i c : nat) : Prop := exists m, nth_error (ww_reloc s) i = Some (Some m) /\ place (ww s) m c.

(** The relocation watcher number [i] exists and is moved-from. *)
Definition emptied (s : wworld) (i : nat) : Prop := exists m, nth_error (ww_reloc s) i = Some (Some m) /\ nth_error (w_mocks (ww s)) m = Some (mkMock [sig_watch] None true).

(** [o] moves from the relocation watcher [i]. *)
Definition relocates (s : wworld) (o : wop) (i : nat) (ne : bool) (l : loc) : Prop :=
  o = RMove i ne l \/ exists k mk, nth_error (ww_reloc s) k = Some (Some mk) /\ o = RMoveAssign k i ne l.
