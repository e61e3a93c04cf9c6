(** * UnitSpec: contracts of BasicSequence and ControlPolicy, used on their own. *)

From Verif Require Import Base Sequence Control.

(** The state of the entry with this id, if it was ever added. *)
Definition entry (q : bseq) (id : nat) : option entry_state := nth_error (s_entries q) id.

(** The entry is not saturated, was not passed, and everything between it and the cursor is satisfied or saturated. *)
Definition consumable (q : bseq) (id : nat) : Prop :=
  s_cursor q <= id /\ (entry q id = Some Unsatisfied \/ entry q id = Some Satisfied) /\
  forall k, s_cursor q <= k < id -> entry q k = Some Satisfied \/ entry q k = Some Saturated.

(** Only the state of this entry was changed, to the given state. *)
Definition entry_changed (q q' : bseq) (id : nat) (st : entry_state) : Prop :=
  s_strategy q' = s_strategy q /\ s_cursor q' = s_cursor q /\ length (s_entries q') = length (s_entries q) /\
  entry q' id = Some st /\ forall k, k <> id -> entry q' k = entry q k.

(** The member functions a ControlPolicy calls. *)
Inductive seq_op : Type := OpAdd | OpSatisfied (id : nat) | OpSaturated (id : nat) | OpConsume (id : nat).
Definition seq_apply (q : bseq) (op : seq_op) : outcome bseq :=
  match op with
  | OpAdd => obind (seq_add q) (fun '(q', _) => Ret q')
  | OpSatisfied id => seq_set_satisfied q id
  | OpSaturated id => seq_set_saturated q id
  | OpConsume id => seq_consume q id
  end.

(** A history of calls which all succeeded, on a new sequence. *)
Inductive seq_history (st : strategy) : list seq_op -> bseq -> Prop :=
| sh_new : seq_history st [] (seq_new st)
| sh_step ops q op q' : seq_history st ops q -> seq_apply q op = Ret q' -> seq_history st (ops ++ [op]) q'.

(** What a history says about an entry, about the number of entries and about the cursor. *)
Definition is_add (op : seq_op) : bool := match op with OpAdd => true | _ => false end.
Definition adds (ops : list seq_op) : nat := length (filter is_add ops).
Definition last_consumed (ops : list seq_op) : nat :=
  fold_left (fun c op => match op with OpConsume id => id | _ => c end) ops 0.

(** What the next accepted call does to the entries of the policy: Satisfied when the minimum is reached, else Saturated when the maximum
    is reached, else nothing. *)
Definition next_state (c : control) : option entry_state :=
  if (c_count c + 1 =? c_min c)%Z then Some Satisfied
  else if (c_count c + 1 =? c_max c)%Z then Some Saturated
  else None.

(** The effect of an accepted call on one sequence. *)
Definition seq_accepted (q q' : bseq) (id : nat) (st : option entry_state) : Prop :=
  s_strategy q' = s_strategy q /\ s_cursor q' = id /\ length (s_entries q') = length (s_entries q) /\
  entry q' id = match st with Some s => Some s | None => entry q id end /\
  forall k, k <> id -> entry q' k = entry q k.

(** All entries of a policy exist, in different sequences. *)
Definition entries_exist (ss : seq_store) (c : control) : Prop :=
  NoDup (map fst (c_seqs c)) /\
  forall s id, In (s, id) (c_seqs c) -> exists q, nth_error ss s = Some q /\ id < length (s_entries q).

(** The priority of a consumable entry. *)
Definition priority (q : bseq) (id : nat) : Z :=
  match s_strategy q with
  | Lazy => INT_MAX - (Z.of_nat id - Z.of_nat (s_cursor q))
  | Greedy => Z.of_nat id - Z.of_nat (s_cursor q)
  end%Z.

(** Which calls are allowed after a history, in terms of the history only. *)
Definition allowed (ops : list seq_op) (op : seq_op) : Prop :=
  match op with
  | OpAdd => (Z.of_nat (adds ops) <= INT_MAX)%Z
  | OpSatisfied id => last_consumed ops <= id < adds ops /\ ~ In (OpSatisfied id) ops /\ ~ In (OpSaturated id) ops
  | OpSaturated id => last_consumed ops <= id < adds ops /\ ~ In (OpSaturated id) ops
  | OpConsume id =>
      last_consumed ops <= id < adds ops /\ ~ In (OpSaturated id) ops /\
      forall k, last_consumed ops <= k < id -> In (OpSatisfied k) ops \/ In (OpSaturated k) ops
  end.

(** A policy may take a call: it is not saturated, all its entries are consumable, and if the call completes the minimum, its entries
    are still unsatisfied. *)
Definition may_accept (ss : seq_store) (c : control) : Prop :=
  (c_count c < c_max c)%Z /\ c_count c <> INT_MAX /\
  forall s id, In (s, id) (c_seqs c) -> exists q, nth_error ss s = Some q /\ consumable q id /\
    (next_state c = Some Satisfied -> entry q id = Some Unsatisfied).

(** The effect of an accepted call on all sequences. *)
Definition accepted_effect (ss ss' : seq_store) (c : control) : Prop :=
  length ss' = length ss /\
  (forall s id q, In (s, id) (c_seqs c) -> nth_error ss s = Some q ->
     exists q', nth_error ss' s = Some q' /\ seq_accepted q q' id (next_state c)) /\
  (forall s, ~ In s (map fst (c_seqs c)) -> nth_error ss' s = nth_error ss s).
