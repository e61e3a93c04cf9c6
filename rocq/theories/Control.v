(** * Control: model of /repo/include/mimic++/ControlPolicy.hpp *)

From Verif Require Import Base Sequence.

(** TimesConfig, ControlPolicy.hpp 49-86. *)
Record times : Type := mkTimes { t_min : Z; t_max : Z }.

(** TimesConfig() with the member initialisers, ControlPolicy.hpp 52-53, 84-85. *)
Definition times_default : times := mkTimes 1 1.

(** TimesConfig(min, max), ControlPolicy.hpp 55-69. *)
Definition times_config (min max : Z) : outcome times :=
  if (min <? 0)%Z || (max <? 0)%Z || (max <? min)%Z
  then Throw EInvalidArgument
  else Ret (mkTimes min max).

(** expect::times(min, max), ControlPolicy.hpp 291-295. *)
Definition times_range (min max : Z) : outcome times := times_config min max.
(** expect::times(exactly), ControlPolicy.hpp 306-310. *)
Definition times_exactly (n : Z) : outcome times := times_config n n.
(** expect::at_least, ControlPolicy.hpp 321-328. *)
Definition times_at_least (n : Z) : outcome times := times_config n INT_MAX.
(** expect::at_most, ControlPolicy.hpp 339-346. *)
Definition times_at_most (n : Z) : outcome times := times_config 0 n.
(** expect::once, ControlPolicy.hpp 355-364. *)
Definition times_once : outcome times := times_config 1 1.
(** expect::twice, ControlPolicy.hpp 373-382. *)
Definition times_twice : outcome times := times_config 2 2.

(** The times clauses a user can write; arguments are of type [int]. *)
Inductive times_expr : Type :=
| TxRange (min max : Z)
| TxExactly (n : Z)
| TxAtLeast (n : Z)
| TxAtMost (n : Z)
| TxOnce
| TxTwice.
Definition eval_times (t : times_expr) : outcome times :=
  match t with
  | TxRange min max => times_range min max
  | TxExactly n => times_exactly n
  | TxAtLeast n => times_at_least n
  | TxAtMost n => times_at_most n
  | TxOnce => times_once
  | TxTwice => times_twice
  end.

(** Is the number representable as [int]? *)
Definition is_int (z : Z) : bool := (- INT_MAX - 1 <=? z)%Z && (z <=? INT_MAX)%Z.
Definition times_expr_int (t : times_expr) : bool :=
  match t with
  | TxRange min max => is_int min && is_int max
  | TxExactly n | TxAtLeast n | TxAtMost n => is_int n
  | TxOnce | TxTwice => true
  end.

(** ControlPolicy, data members ControlPolicy.hpp 235-239. [c_seqs] lists (sequence identity, id in that sequence);
    the shared_ptr to the sequence is modelled by the identity of the sequence in a store of sequences. *)
Record control : Type := mkControl {
  c_min : Z;
  c_max : Z;
  c_count : Z;
  c_seqs : list (nat * nat)
}.

(** The store of all sequence objects; the index is the identity. *)
Definition seq_store : Type := list bseq.

(** control_state_t, Reports.hpp 39-76. *)
Inductive control_state : Type :=
| StInapplicable (min max count : Z) (ratings : list rating) (inapplicable : list nat)
| StApplicable (min max count : Z) (ratings : list rating)
| StSaturated (min max count : Z) (sequences : list nat).

(** Accessing a sequence through its shared_ptr (ControlPolicy.hpp 235-312, Sequence.hpp 322). *)
Definition with_seq {A : Type} (ss : seq_store) (s : nat) (k : bseq -> outcome A) : outcome A :=
  match nth_error ss s with
  | Some q => k q
  | None => Undef UbDangling
  end.

(** The loop of make_control_state, ControlPolicy.hpp 118-141: ratings and inapplicable tags in sequence order. *)
Fixpoint collect_ratings (ss : seq_store) (entries : list (nat * nat)) : outcome (list rating * list nat) :=
  match entries with
  | [] => Ret ([], [])
  | (s, id) :: rest =>
      with_seq ss s (fun q =>
        obind (seq_priority_of q id) (fun p =>
          obind (collect_ratings ss rest) (fun '(rs, ts) =>
            Ret (match p with
                 | Some prio => (mkRating prio s :: rs, ts)
                 | None => (rs, s :: ts)
                 end))))
  end.

(** make_control_state, ControlPolicy.hpp 93-160 and ControlPolicy::state, 224-232. *)
Definition control_state_of (ss : seq_store) (c : control) : outcome control_state :=
  if (c_count c =? c_max c)%Z
  then Ret (StSaturated (c_min c) (c_max c) (c_count c) (map fst (c_seqs c)))
  else obind (collect_ratings ss (c_seqs c)) (fun '(rs, ts) =>
         Ret (match ts with
              | [] => StApplicable (c_min c) (c_max c) (c_count c) rs
              | _ => StInapplicable (c_min c) (c_max c) (c_count c) rs ts
              end)).

(** ControlPolicy::is_satisfied, ControlPolicy.hpp 183-188. *)
Definition control_is_satisfied (c : control) : bool := (c_min c <=? c_count c)%Z && (c_count c <=? c_max c)%Z.

(** ControlPolicy::is_saturated, ControlPolicy.hpp 190-194. *)
Definition control_is_saturated (c : control) : bool := (c_count c =? c_max c)%Z.

(** ControlPolicy::is_applicable, ControlPolicy.hpp 196-206. *)
Definition control_is_applicable (ss : seq_store) (c : control) : bool :=
  (c_count c <? c_max c)%Z
  && forallb (fun '(s, id) => match nth_error ss s with
                              | Some q => seq_is_consumable q id
                              | None => false
                              end) (c_seqs c).

(** The fold expressions [(..., std::get<0>(entries)->f(std::get<1>(entries)))], ControlPolicy.hpp 212-217, 245-250, 254-259. *)
Fixpoint for_each_seq (f : bseq -> nat -> outcome bseq) (ss : seq_store) (entries : list (nat * nat)) : outcome seq_store :=
  match entries with
  | [] => Ret ss
  | (s, id) :: rest =>
      with_seq ss s (fun q => obind (f q id) (fun q' => for_each_seq f (upd ss s q') rest))
  end.

(** ControlPolicy::update_sequence_states, ControlPolicy.hpp 241-261. *)
Definition control_update (ss : seq_store) (c : control) : outcome seq_store :=
  if (c_count c =? c_min c)%Z then for_each_seq seq_set_satisfied ss (c_seqs c)
  else if (c_count c =? c_max c)%Z then for_each_seq seq_set_saturated ss (c_seqs c)
  else Ret ss.

(** ControlPolicy::consume, ControlPolicy.hpp 208-222. *)
Definition control_consume (ss : seq_store) (c : control) : outcome (seq_store * control) :=
  assert_ (control_is_applicable ss c)
    (obind (for_each_seq seq_consume ss (c_seqs c)) (fun ss1 =>
       if (c_count c =? INT_MAX)%Z then Undef UbOverflow
       else
         let c' := mkControl (c_min c) (c_max c) (c_count c + 1) (c_seqs c) in
         obind (control_update ss1 c') (fun ss2 => Ret (ss2, c')))).

(** The fold of make_sequence_entries, ControlPolicy.hpp 36-45. *)
Fixpoint add_entries (ss : seq_store) (tags : list nat) : outcome (seq_store * list (nat * nat)) :=
  match tags with
  | [] => Ret (ss, [])
  | s :: rest =>
      with_seq ss s (fun q =>
        obind (seq_add q) (fun '(q', id) =>
          obind (add_entries (upd ss s q') rest) (fun '(ss', entries) =>
            Ret (ss', (s, id) :: entries))))
  end.

(** make_sequence_entries, ControlPolicy.hpp 26-47 (noexcept). *)
Definition make_sequence_entries (ss : seq_store) (tags : list nat) : outcome (seq_store * list (nat * nat)) :=
  noexcept_of (add_entries ss tags).

(** ControlPolicy(timesConfig, sequenceConfig), ControlPolicy.hpp 169-181 (noexcept). *)
Definition control_new (ss : seq_store) (t : times) (tags : list nat) : outcome (seq_store * control) :=
  noexcept_of
    (obind (make_sequence_entries ss tags) (fun '(ss1, entries) =>
       let c := mkControl (t_min t) (t_max t) 0 entries in
       obind (control_update ss1 c) (fun ss2 => Ret (ss2, c)))).
