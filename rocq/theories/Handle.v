(** * Handle: ScopedExpectation::from, /repo/include/mimic++/Expectation.hpp 625-628, 715-723. *)

From Verif Require Import Base Sequence Control Signature Printer Reports Expectation Builder World.

(** ScopedExpectation::from, Expectation.hpp 719-723 (m_Inner is null after a move), Model::from, 625-628, and BasicExpectation::from, 550-553. *)
Definition scoped_from (w : world) (h : nat) : outcome loc :=
  match nth_error (w_scoped w) h with
  | Some (HOwns e) =>
      match nth_error (w_exps w) e with
      | Some eo => if eo_alive eo then Ret (e_loc (eo_exp eo)) else Undef UbDangling
      | None => Undef UbDangling
      end
  | Some HEmpty => Undef UbNull
  | Some HDead | None => Undef UbDangling
  end.
