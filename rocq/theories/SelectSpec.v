(** * SelectSpec: which of several candidates is matched, in terms of attachment order and flavour of the sequences. *)

From Verif Require Import Base Sequence Control Signature Printer Reports Expectation Builder World WorldSpec CallSpec.

(** The flavour of a sequence. *)
Definition is_lazy (w : world) (s : nat) : bool :=
  match nth_error (w_seqs w) s with
  | Some q => match s_strategy q with Lazy => true | Greedy => false end
  | None => false
  end.

(** In sequence [s], matching [a] is worse than matching [b]: a LazySequence prefers the earlier attached one, a GreedySequence the
    later attached one. Expectations are attached when they are created. *)
Definition worse_in (w : world) (s : nat) (a b : nat) : bool := if is_lazy w s then b <? a else a <? b.

(** The older candidate [b] does not displace the so far best candidate [a]: [a] has a sequence in which [b] does not take part,
    or at least half of the sequences of [a] do not vote against [a]. *)
Definition keeps (w : world) (a b : nat) : Prop :=
  exists xa xb, exp_at w a xa /\ exp_at w b xb /\
    ((exists s, In s (x_seqs xa) /\ ~ In s (x_seqs xb)) \/
     2 * length (filter (fun s => worse_in w s a b) (x_seqs xa)) <= length (x_seqs xa)).

(** The candidates are compared one after another. *)
Inductive tournament (w : world) : nat -> list nat -> nat -> Prop :=
| t_end b : tournament w b [] b
| t_keep b e l n : keeps w b e -> tournament w b l n -> tournament w b (e :: l) n
| t_replace b e l n : ~ keeps w b e -> tournament w e l n -> tournament w b (e :: l) n.

(** [n] is selected of the candidates [P], which are visited from the newest to the oldest. *)
Definition selected (w : world) (P : nat -> eobj -> Prop) (n : nat) : Prop :=
  exists first others, newest_first w P (first :: others) /\ tournament w first others n.

(** Being attached to the same sequences. *)
Definition same_seqs (x y : eobj) : Prop := forall s, In s (x_seqs x) <-> In s (x_seqs y).
