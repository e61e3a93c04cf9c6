(** * WorldSpec: vocabulary in which the properties of whole programs are stated.

    Nothing here looks at cursors, entry states or stored counts: the past of a program is its trace of events,
    and an expectation is characterised by its creation number, its limits and the sequences it is attached to. *)

From Verif Require Import Base Sequence Control Signature Printer Reports Expectation Builder World.

(** Is the event the full-match report of expectation [e]? *)
Definition is_accept (e : nat) (ev : event) : bool :=
  match ev with
  | EvReport _ (RFull _ _) who => if list_eq_dec Nat.eq_dec who [e] then true else false
  | _ => false
  end.

(** How many calls has expectation [e] accepted so far? *)
Definition accepted (tr : list event) (e : nat) : nat := length (filter (is_accept e) tr).

(** Is the event the unfulfilled-expectation report of expectation [e]? *)
Definition is_unfulfilled (e : nat) (ev : event) : bool :=
  match ev with
  | EvReport _ (RUnfulfilled _) who => if list_eq_dec Nat.eq_dec who [e] then true else false
  | _ => false
  end.
Definition unfulfilled_reports (tr : list event) (e : nat) : nat := length (filter (is_unfulfilled e) tr).

(** Is the event the error report of sequence [s]? *)
Definition is_seq_error (s : nat) (ev : event) : bool :=
  match ev with
  | EvReport _ (RError _ _) who => if list_eq_dec Nat.eq_dec who [s] then true else false
  | _ => false
  end.
Definition seq_error_reports (tr : list event) (s : nat) : nat := length (filter (is_seq_error s) tr).

(** The expectation with creation number [e] exists (or existed). *)
Definition exp_at (w : world) (e : nat) (x : eobj) : Prop := nth_error (w_exps w) e = Some x.

(** Its limits and sequences, as fixed at creation. *)
Definition x_min (x : eobj) : Z := c_min (e_ctl (eo_exp x)).
Definition x_max (x : eobj) : Z := c_max (e_ctl (eo_exp x)).
Definition x_seqs (x : eobj) : list nat := map fst (c_seqs (e_ctl (eo_exp x))).

(** The history-level notion of applicability (property C13). *)
Definition applicable (w : world) (e : nat) (x : eobj) : Prop :=
  (Z.of_nat (accepted (w_trace w) e) < x_max x)%Z /\
  forall s, In s (x_seqs x) ->
  forall e' x', exp_at w e' x' -> In s (x_seqs x') ->
    (e' < e -> (x_min x' <= Z.of_nat (accepted (w_trace w) e'))%Z) /\
    (e < e' -> accepted (w_trace w) e' = 0).

(** No user code of the expectation's requirements throws for this call. *)
Definition clean (x : expectation) (c : call_info) : Prop :=
  forall p, In p (e_policies x) -> (exists b, policy_matches p c = Ret b) /\ (exists d, policy_describe p = Ret d).

(** The expectation accepts / rejects the arguments; its requirements throw. *)
Definition accepts (x : expectation) (c : call_info) : Prop :=
  clean x c /\ forall p, In p (e_policies x) -> policy_matches p c = Ret true.
Definition rejects (x : expectation) (c : call_info) : Prop :=
  clean x c /\ exists p, In p (e_policies x) /\ policy_matches p c = Ret false.

(** Live expectation of a collection. *)
Definition live_in (w : world) (coll e : nat) (x : eobj) : Prop :=
  exp_at w e x /\ eo_alive x = true /\ eo_coll x = coll.

(** The call made by [OCall m ov args l], if [m] is a usable mock with such an overload. *)
Definition call_of (s : signature) (args : list val) (l : loc) : call_info :=
  mkCall (sg_ret s) (sg_params s) args (frontend_category s) (frontend_constness s) l.

(** The documented obligations of a reporter (Reporter.hpp 45-158): failures must not return, the other reports must not throw
    or end the program. *)
Definition obeys_contract (rp : reporter) : Prop :=
  (forall c l u, rp (RNoMatch c l) u <> Returns) /\
  (forall c l u, rp (RInapplicable c l) u <> Returns) /\
  (forall c m u, rp (RFull c m) u = Returns) /\
  (forall c r x u, rp (RUnhandled c r x) u = Returns).
