(** * ScheduleSpec: what the threads of a program observe, and when their calls have nothing in common. *)

From Verif Require Import Base Sequence Control Signature Printer Reports Expectation Builder World WorldSpec Conc ConcSpec Race Lifetime Colls RaceProofs.

(** The steps of calls (matching, counting, side effects and finalizers), questions whether an expectation is satisfied, ends of
    expectations, and exceptions which start or end to leave scopes of the thread. *)
Definition of_call (a : action) : Prop :=
  match a with
  | AMatch _ _ _ _ | ACount => True
  | AOp o => match o with OAction | OActionThrows _ | OFinal | OReturn _ | OSatisfied _ | OEndScope _ | OUnwind _ => True | _ => False end
  end.

(** The entries of one thread. *)
Definition of_thread {A : Type} (t : nat) (l : list (nat * A)) : list (nat * A) := filter (fun p => fst p =? t) l.

(** How a step ends: with a result and the reports, side effects and finalizers it started, or not at all. *)
Inductive ending : Type :=
| Went (r : result) (evs : list event)
| Died
| Undefined (u : ub)
| Impossible.
Definition ending_of (release : bool) (c : cworld) (t : nat) (a : action) : ending :=
  match cstep release c t a with
  | CNext c' r => Went r (skipn (length (w_trace (cw c))) (w_trace (cw c')))
  | CStop => Died
  | CWrong u => Undefined u
  | CInvalid => Impossible
  end.

(** What happens to the threads in an execution, in order. *)
Fixpoint seen (release : bool) (c : cworld) (acts : list (nat * action)) : list (nat * ending) :=
  match acts with
  | [] => []
  | (t, a) :: acts' =>
      (t, ending_of release c t a) :: match cstep release c t a with CNext c' _ => seen release c' acts' | _ => [] end
  end.

(** Every list of expectations which is called or asked, or whose expectations end, belongs to one thread, and so does every sequence.
    Calls which are under way use lists of their thread. *)
Record apart_from (owner : nat -> nat) (c : cworld) (acts : list (nat * action)) : Prop := mkApart {
  ap_pending : forall t e, pending_exp c t e -> exists coll, listed c coll e /\ owner coll = t;
  ap_calls : forall t a, In (t, a) acts -> of_call a;
  ap_owner : forall t m ov args l coll, In (t, AMatch m ov args l) acts -> uses_coll c m ov coll -> owner coll = t;
  ap_running : forall t th f coll, nth_error (c_threads c) t = Some th -> In f (t_frames th) -> listed c coll (f_exp f) -> owner coll = t;
  ap_asked : forall t h e, In (t, AOp (OSatisfied h)) acts -> nth_error (w_scoped (cw c)) h = Some (HOwns e) -> exists coll, listed c coll e /\ owner coll = t;
  ap_ended : forall t h, In (t, AOp (OEndScope h)) acts ->
    exists e coll, nth_error (w_scoped (cw c)) h = Some (HOwns e) /\ listed c coll e /\ owner coll = t;
  ap_seqs : forall coll e x coll' e' x' q, listed c coll e -> exp_at (cw c) e x -> listed c coll' e' -> exp_at (cw c) e' x' ->
    In q (map fst (c_seqs (e_ctl (eo_exp x)))) -> In q (map fst (c_seqs (e_ctl (eo_exp x')))) -> owner coll = owner coll'
}.

(** The same objects and threads. *)
Definition same_objects (c c' : cworld) : Prop :=
  w_seqs (cw c') = w_seqs (cw c) /\ w_iface (cw c') = w_iface (cw c) /\ w_sdead (cw c') = w_sdead (cw c) /\ w_exps (cw c') = w_exps (cw c) /\
  w_colls (cw c') = w_colls (cw c) /\ w_mocks (cw c') = w_mocks (cw c) /\ w_scoped (cw c') = w_scoped (cw c) /\
  w_rid (cw c') = w_rid (cw c) /\ w_reporter (cw c') = w_reporter (cw c) /\ c_threads c' = c_threads c.

(** The calls which were counted for a thread. *)
Definition counted_for (t : nat) (c : cworld) : list (nat * call_info) :=
  map (fun '(_, n, ci) => (n, ci)) (filter (fun '(t', _, _) => t' =? t) (c_log c)).

(** The memory an event touches: what it reads or writes; the list with its mutex and its std::shared_ptrs is one place here, and so is
    the sequence with its std::shared_ptrs. *)
Inductive touched : hev -> place -> Prop :=
| to_read p : touched (HL (LE (MRead p))) p
| to_write p : touched (HL (LE (MWrite p))) p
| to_lock k : touched (HL (LE (MLock k))) (PlVector k)
| to_unlock k : touched (HL (LE (MUnlock k))) (PlVector k)
| to_end p : touched (HL (LKill p)) p
| to_release q : touched (HL (LDrop q)) (PlSeq q)
| to_release_list k : touched (HDrop k) (PlVector k)
| to_end_list k : touched (HKill k) (PlVector k).
