(** * ReentrantSpec: vocabulary for programs whose reporter uses mocks. *)

From Verif Require Import Base Sequence Control Signature Printer Reports Expectation Builder World WorldSpec Conc ConcSpec Reentrant.

(** How many of the counted calls of a list are calls of expectation [e]? *)
Definition calls_in (l : list (nat * call_info)) (e : nat) : nat := length (filter (fun '(n, _) => n =? e) l).

(** The counted calls of a program with threads, without the threads. *)
Definition without_threads (log : list (nat * nat * call_info)) : list (nat * call_info) := map (fun '(_, n, ci) => (n, ci)) log.
