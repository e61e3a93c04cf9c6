(** * Sequence: model of /repo/include/mimic++/Sequence.hpp *)

From Verif Require Import Base.

(** BasicSequence::State, Sequence.hpp 209-214. *)
Inductive entry_state : Type := Unsatisfied | Satisfied | Saturated.

(** The two built-in priority strategies, Sequence.hpp 227-252.
    Simplification: other strategies can not be reached over the public sequence types (371-397). *)
Inductive strategy : Type := Lazy | Greedy.

(** BasicSequence, data members of Sequence.hpp 216-217 ([m_Entries], [m_Cursor]), together with the strategy,
    which is a template parameter there (79). Ids (Fwd.hpp 218-221) are modelled as the index they denote;
    [m_Cursor] is never negative. *)
Record bseq : Type := mkSeq {
  s_strategy : strategy;
  s_entries : list entry_state;
  s_cursor : nat
}.

(** BasicSequence(), Sequence.hpp 111-112, 216-217. *)
Definition seq_new (st : strategy) : bseq := mkSeq st [] 0.

(** The predicate used at Sequence.hpp 95-99 and 169-173. *)
Definition state_done (s : entry_state) : bool :=
  match s with
  | Satisfied | Saturated => true
  | Unsatisfied => false
  end.

(** BasicSequence::is_valid, Sequence.hpp 219-224. *)
Definition seq_is_valid (q : bseq) (id : nat) : bool := id <? length (s_entries q).

(** BasicSequence::is_consumable, Sequence.hpp 158-176 (without the assert, see [seq_consume], [seq_priority_of]).
    [None] stands for reading [m_Entries] out of range. *)
Definition seq_is_consumable (q : bseq) (id : nat) : bool :=
  match nth_error (s_entries q) id with
  | None => false
  | Some st =>
      (s_cursor q <=? id)
      && forallb state_done (firstn (id - s_cursor q) (skipn (s_cursor q) (s_entries q)))
      && (match st with Unsatisfied | Satisfied => true | Saturated => false end)
  end.

(** LazyStrategy::operator(), Sequence.hpp 227-239, and GreedyStrategy::operator(), Sequence.hpp 241-252. *)
Definition strategy_priority (st : strategy) (id cursor : nat) : outcome Z :=
  assert_ (cursor <=? id)
    (Ret (match st with
          | Lazy => (INT_MAX - (Z.of_nat id - Z.of_nat cursor))%Z
          | Greedy => (Z.of_nat id - Z.of_nat cursor)%Z
          end)).

(** BasicSequence::priority_of, Sequence.hpp 119-133. *)
Definition seq_priority_of (q : bseq) (id : nat) : outcome (option Z) :=
  assert_ (seq_is_valid q id)
    (if seq_is_consumable q id
     then obind (strategy_priority (s_strategy q) id (s_cursor q)) (fun p => Ret (Some p))
     else Ret None).

(** BasicSequence::set_satisfied, Sequence.hpp 135-143. *)
Definition seq_set_satisfied (q : bseq) (id : nat) : outcome bseq :=
  assert_ (seq_is_valid q id)
    (assert_ (s_cursor q <=? id)
       (match nth_error (s_entries q) id with
        | Some Unsatisfied => Ret (mkSeq (s_strategy q) (upd (s_entries q) id Satisfied) (s_cursor q))
        | _ => Undef UbAssert
        end)).

(** BasicSequence::set_saturated, Sequence.hpp 145-156. *)
Definition seq_set_saturated (q : bseq) (id : nat) : outcome bseq :=
  assert_ (seq_is_valid q id)
    (assert_ (s_cursor q <=? id)
       (match nth_error (s_entries q) id with
        | Some Unsatisfied | Some Satisfied =>
            Ret (mkSeq (s_strategy q) (upd (s_entries q) id Saturated) (s_cursor q))
        | _ => Undef UbAssert
        end)).

(** BasicSequence::consume, Sequence.hpp 178-183. *)
Definition seq_consume (q : bseq) (id : nat) : outcome bseq :=
  assert_ (seq_is_valid q id)
    (assert_ (seq_is_consumable q id)
       (Ret (mkSeq (s_strategy q) (s_entries q) id))).

(** BasicSequence::add, Sequence.hpp 185-198; [std::in_range<int>(m_Entries.size())]. *)
Definition seq_add (q : bseq) : outcome (bseq * nat) :=
  if (Z.of_nat (length (s_entries q)) <=? INT_MAX)%Z
  then Ret (mkSeq (s_strategy q) (s_entries q ++ [Unsatisfied]) (s_cursor q), length (s_entries q))
  else Throw ERuntimeError.

(** The search of the destructor, std::ranges::find_if_not at Sequence.hpp 92-99; [None] is [cend()], [Some i] the
    found position relative to the begin of the given list. *)
Fixpoint find_not_done (l : list entry_state) : option nat :=
  match l with
  | [] => None
  | s :: l' => if state_done s then option_map S (find_not_done l') else Some 0
  end.

(** BasicSequence::~BasicSequence, Sequence.hpp 90-109: [Some (k, n)] iff the error
    "Unfulfilled sequence. k out of n expectation(s) are satisfied." is reported. *)
Definition seq_dtor_error (q : bseq) : option (nat * nat) :=
  match find_not_done (skipn (s_cursor q) (s_entries q)) with
  | None => None
  | Some i => Some (s_cursor q + i, length (s_entries q))
  end.

(** sequence::rating, Fwd.hpp 223-230; the tag (an address, Sequence.hpp 200-206) is the identity of the sequence. *)
Record rating : Type := mkRating { r_priority : Z; r_tag : nat }.

(** std::ranges::find(rhs, lhsTag, &rating::tag), Sequence.hpp 411. *)
Fixpoint find_rating (tag : nat) (rs : list rating) : option rating :=
  match rs with
  | [] => None
  | r :: rs' => if r_tag r =? tag then Some r else find_rating tag rs'
  end.

(** The loop of has_better_rating, Sequence.hpp 408-424, with the running value of [rating] as accumulator.
    Simplification: the accumulator can not overflow, it is bounded by the number of sequences one expectation
    is attached to, which is a template argument count. *)
Fixpoint better_loop (acc : Z) (lhs rhs : list rating) : bool :=
  match lhs with
  | [] => (0 <=? acc)%Z
  | l :: lhs' =>
      match find_rating (r_tag l) rhs with
      | Some r => better_loop (acc + (if (r_priority l <? r_priority r)%Z then -1 else 1))%Z lhs' rhs
      | None => true
      end
  end.

(** has_better_rating, Sequence.hpp 402-425. *)
Definition has_better_rating (lhs rhs : list rating) : bool := better_loop 0 lhs rhs.

(** std::ranges::sort(tags), Sequence.hpp 344 (insertion sort as one correct instance of sorting numbers;
    the result of sorting a list of numbers is unique). *)
Fixpoint insert_tag (x : nat) (l : list nat) : list nat :=
  match l with
  | [] => [x]
  | y :: l' => if x <=? y then x :: y :: l' else y :: insert_tag x l'
  end.
Definition sort_tags (l : list nat) : list nat := fold_right insert_tag [] l.

(** !std::ranges::empty(std::ranges::unique(tags)), Sequence.hpp 345: true iff there are equal neighbours. *)
Fixpoint has_equal_neighbours (l : list nat) : bool :=
  match l with
  | x :: ((y :: _) as l') => (x =? y) || has_equal_neighbours l'
  | _ => false
  end.

(** Config(std::shared_ptr<Sequences>...), Sequence.hpp 334-356: the check is only done for more than one sequence. *)
Definition config_make (tags : list nat) : outcome (list nat) :=
  if (1 <? length tags) && has_equal_neighbours (sort_tags tags)
  then Throw EInvalidArgument
  else Ret tags.

(** Config::concat, Sequence.hpp 315-329. *)
Definition config_concat (c1 c2 : list nat) : outcome (list nat) := config_make (c1 ++ c2).
