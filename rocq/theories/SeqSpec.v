(** * SeqSpec: vocabulary for the end of sequences. *)

From Coq Require Import Sorted.
From Verif Require Import Base Sequence Control Signature Printer Reports Expectation Builder World WorldSpec.

(** Nobody owns the sequence any more: neither the user's sequence object nor a live expectation. *)
Definition gone (w : world) (s : nat) : Prop :=
  nth s (w_iface w) false = false /\ forall e x, exp_at w e x -> In s (x_seqs x) -> eo_alive x = false.

(** Expectation [e] was attached to [s] and did not reach its minimum so far. *)
Definition missed (w : world) (s e : nat) : Prop :=
  exists x, exp_at w e x /\ In s (x_seqs x) /\ (Z.of_nat (accepted (w_trace w) e) < x_min x)%Z.

(** [l] are the expectations ever attached to [s], in the order of attachment. *)
Definition attached_numbers (w : world) (s : nat) (l : list nat) : Prop :=
  StronglySorted lt l /\ forall e, In e l <-> exists x, exp_at w e x /\ In s (x_seqs x).

(** At most [INT_MAX] expectations have ever been attached to [s]. *)
Definition below_limit (w : world) (s : nat) : Prop :=
  forall l, attached_numbers w s l -> (Z.of_nat (length l) <= INT_MAX)%Z.
