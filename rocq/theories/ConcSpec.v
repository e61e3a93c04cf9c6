(** * ConcSpec: vocabulary for programs with several threads. *)

From Verif Require Import Base Sequence Control Signature Printer Reports Expectation Builder World WorldSpec FrameSpec Conc.

(** How many calls have been counted for expectation [e]? *)
Definition counted (c : cworld) (e : nat) : nat := length (filter (fun '(_, n, _) => n =? e) (c_log c)).

(** The history without the starts of side effects and finalizers. *)
Definition reports_in (tr : list event) : list event := filter (fun ev => negb (is_effect ev)) tr.

(** All objects of both worlds are in the same state and the same reports were delivered to the same reporters; only running calls
    and in-flight exceptions may differ. *)
Definition agrees (w : world) (c : cworld) : Prop :=
  w_seqs w = w_seqs (cw c) /\ w_iface w = w_iface (cw c) /\ w_sdead w = w_sdead (cw c) /\ w_exps w = w_exps (cw c) /\
  w_colls w = w_colls (cw c) /\ w_mocks w = w_mocks (cw c) /\ w_scoped w = w_scoped (cw c) /\ w_rid w = w_rid (cw c) /\
  w_reporter w = w_reporter (cw c) /\ reports_in (w_trace w) = reports_in (w_trace (cw c)).

(** Executions in which each accepted call is counted right after it was matched, e.g. because the program serialises its calls. *)
Inductive serialised (release : bool) : cworld -> cworld -> Prop :=
| se_refl c : serialised release c c
| se_op c c1 t o c2 r : serialised release c c1 -> cstep release c1 t (AOp o) = CNext c2 r -> serialised release c c2
| se_failed c c1 t m ov args l c2 x : serialised release c c1 ->
    cstep release c1 t (AMatch m ov args l) = CNext c2 (RThrow x) -> serialised release c c2
| se_call c c1 t m ov args l c2 r c3 r' : serialised release c c1 ->
    cstep release c1 t (AMatch m ov args l) = CNext c2 r -> cstep release c2 t ACount = CNext c3 r' -> serialised release c c3.

(** How many of the counting steps of a list are for expectation [e]? *)
Definition times_in (l : list (nat * nat * call_info)) (e : nat) : nat := length (filter (fun '(_, n, _) => n =? e) l).

(** Expectation [n] may be counted: its limit is not reached, and in each of its sequences the calls counted so far leave it as a
    current element (cf. [applicable] in WorldSpec.v). *)
Definition open_for (c : cworld) (n : nat) (x : eobj) : Prop :=
  (Z.of_nat (counted c n) < x_max x)%Z /\
  forall s, In s (x_seqs x) -> forall e' x', exp_at (cw c) e' x' -> In s (x_seqs x') ->
    (e' < n -> (x_min x' <= Z.of_nat (counted c e'))%Z) /\ (n < e' -> counted c e' = 0).
