(** * Recorder: reporters with a state of their own.

    In [World] a reporter is a function of the report and the number of exceptions in flight. Here its reaction may also depend on a state
    [R], which every report may change: a reporter which counts, one which throws only once, one whose behaviour the test changes. The
    functions of the library which call the reporter are modelled once more, in the order in which they call it. *)

From Verif Require Import Base Lib Sequence Control Signature Printer Reports Expectation World.

Section Reporter.
Context {R : Type}.

(** The callbacks of all reporters which are ever installed (IReporter, Reporter.hpp 55-158), by the number of the reporter. [R] is the
    state of all of them. *)
Definition recorder : Type := nat -> report -> nat -> R -> reaction * R.

(** The call of the installed reporter, Reporter.hpp 547-632. *)
Definition r_react (rp : recorder) (w : world) (r : report) (z : R) : reaction * R := rp (w_rid w) r (w_uncaught w) z.

(** make_match_report, Expectation.hpp 27-46. *)
Definition r_make_match_report (rp : report -> R -> reaction * R) (ss : seq_store) (e : expectation) (c : call_info) (z : R) : outcome match_attempt * R :=
  match exp_matches ss e c with
  | Ret m => (Ret (AttemptReport m), z)
  | Throw x =>
      match exp_report_of ss e with
      | Ret r =>
          match rp (RUnhandled (make_call_report c) r x) z with
          | (Returns, z1) => (Ret (AttemptUnhandled r x), z1)
          | (_, z1) => (Terminate, z1)
          end
      | Throw _ | Terminate => (Terminate, z)
      | Undef u => (Undef u, z)
      end
  | Terminate => (Terminate, z)
  | Undef u => (Undef u, z)
  end.

(** The loop of handle_call, Expectation.hpp 307-330. *)
Fixpoint r_match_loop (rp : report -> R -> reaction * R) (ss : seq_store) (c : call_info) (es : list (nat * expectation)) (acc : match_lists) (z : R)
  : outcome match_lists * R :=
  match es with
  | [] => (Ret acc, z)
  | (n, e) :: es' =>
      match r_make_match_report rp ss e c z with
      | (Ret (AttemptUnhandled r x), z1) =>
          r_match_loop rp ss c es' (mkLists (ml_full acc) (ml_inapplicable acc) (ml_none acc) (ml_unhandled acc ++ [(n, (r, x))])) z1
      | (Ret (AttemptReport m), z1) =>
          r_match_loop rp ss c es'
            (match evaluate_match_report m with
             | MatchNone => mkLists (ml_full acc) (ml_inapplicable acc) (ml_none acc ++ [(n, m)]) (ml_unhandled acc)
             | MatchInapplicable => mkLists (ml_full acc) (ml_inapplicable acc ++ [(n, m)]) (ml_none acc) (ml_unhandled acc)
             | MatchFull => mkLists (ml_full acc ++ [(n, m)]) (ml_inapplicable acc) (ml_none acc) (ml_unhandled acc)
             end) z1
      | (Throw x, z1) => (Throw x, z1)
      | (Terminate, z1) => (Terminate, z1)
      | (Undef u, z1) => (Undef u, z1)
      end
  end.

(** handle_call, Expectation.hpp 300-352. *)
Definition r_handle_call (rp : recorder) (w : world) (coll : nat) (c : call_info) (ne : bool) (z : R) : stepped * R :=
  match nth_error (w_colls w) coll with
  | None => (Wrong UbDangling, z)
  | Some l =>
      match lookup_exps w (rev l) with
      | None => (Wrong UbDangling, z)
      | Some es =>
          match r_match_loop (r_react rp w) (w_seqs w) c es (mkLists [] [] [] []) z with
          | (Throw x, z1) => (thrown ne w x, z1)
          | (Terminate, z1) => (Stop, z1)
          | (Undef u, z1) => (Wrong u, z1)
          | (Ret ml, z1) =>
              let w1 := emit_unhandled w c (ml_unhandled ml) in
              match ml_full ml with
              | first :: others =>
                  match pick_best first others with
                  | Throw x => (thrown ne w1 x, z1)
                  | Terminate => (Stop, z1)
                  | Undef u => (Wrong u, z1)
                  | Ret (n, m) =>
                      let rep := RFull (make_call_report c) m in
                      match r_react rp w1 rep z1 with
                      | (Throws, z2) | (Terminates, z2) => (Stop, z2)         (* noexcept, Reporter.hpp 585-594 *)
                      | (Returns, z2) =>
                          let w2 := emit_report w1 rep [n] in
                          match nth_error (w_exps w2) n with
                          | None => (Wrong UbDangling, z2)
                          | Some eo =>
                              let e := eo_exp eo in
                              match control_consume (w_seqs w2) (e_ctl e) with
                              | Throw x => (thrown ne w2 x, z2)
                              | Terminate => (Stop, z2)
                              | Undef u => (Wrong u, z2)
                              | Ret (ss, ctl) =>
                                  match consume_asserts (e_policies e) c with
                                  | Undef u => (Wrong u, z2)
                                  | Throw _ | Terminate => (Stop, z2)
                                  | Ret _ =>
                                      let w3 := set_exps (set_seqs w2 ss)
                                                  (upd (w_exps w2) n (mkEObj (with_ctl e ctl) (eo_coll eo) (eo_alive eo) (eo_ov eo) (eo_sig eo))) in
                                      (Next (set_frames w3 (mkFrame n (side_effects (e_policies e)) false false ne :: w_frames w3)) RUnit, z2)
                                  end
                              end
                          end
                      end
                  end
              | [] =>
                  let rep := match ml_inapplicable ml with
                             | [] => RNoMatch (make_call_report c) (map snd (ml_none ml))
                             | l => RInapplicable (make_call_report c) (map snd l)
                             end in
                  let who := match ml_inapplicable ml with
                             | [] => map fst (ml_none ml)
                             | l => map fst l
                             end in
                  match r_react rp w1 rep z1 with
                  | (Returns, z2) => (Wrong UbUnreachable, z2)                (* Reporter.hpp 562, 581 *)
                  | (Throws, z2) => (thrown ne (emit_report w1 rep who) EReporter, z2)
                  | (Terminates, z2) => (Stop, z2)
                  end
              end
          end
      end
  end.

(** operator() of the MockFrontends and BasicMockFrontend::handle_call, Mock.hpp 32-47, 68-519. *)
Definition r_do_call (rp : recorder) (w : world) (m ov : nat) (args : list val) (l : loc) (z : R) : stepped * R :=
  match find_overload w m ov with
  | inl r => (r, z)
  | inr (s, coll) =>
      if negb (length args =? length (sg_params s)) then (Invalid, z)
      else r_handle_call rp w coll (mkCall (sg_ret s) (sg_params s) args (frontend_category s) (frontend_constness s) l) (frontend_noexcept s) z
  end.

(** ~BasicSequence by the last owner, Sequence.hpp 90-109. *)
Definition r_release_seq (rp : recorder) (w : world) (s : nat) (z : R) : stepped * R :=
  if seq_in_use w s || nth s (w_sdead w) true then (Next w RUnit, z)
  else
    let w1 := set_sdead w (upd (w_sdead w) s true) in
    match nth_error (w_seqs w) s with
    | None => (Wrong UbDangling, z)
    | Some q =>
        match seq_dtor_error q with
        | None => (Next w1 RUnit, z)
        | Some (k, n) =>
            match r_react rp w1 (RError k n) z with
            | (Returns, z1) => (Next (emit_report w1 (RError k n) [s]) RUnit, z1)
            | (_, z1) => (Stop, z1)
            end
        end
    end.

(** The shared_ptrs to sequences of an expectation, in tuple order (ControlPolicy.hpp 239). *)
Fixpoint r_release_seqs (rp : recorder) (w : world) (l : list nat) (z : R) : stepped * R :=
  match l with
  | [] => (Next w RUnit, z)
  | s :: l' =>
      match r_release_seq rp w s z with
      | (Next w' _, z1) => r_release_seqs rp w' l' z1
      | other => other
      end
  end.

(** ~Model, Expectation.hpp 600-603, with ExpectationCollection::remove (276-289). *)
Definition r_end_expectation (rp : recorder) (w : world) (e : nat) (z : R) : stepped * R :=
  match nth_error (w_exps w) e with
  | None => (Wrong UbDangling, z)
  | Some eo =>
      let c := eo_coll eo in
      match nth_error (w_colls w) c with
      | None => (Wrong UbDangling, z)
      | Some l =>
          if negb (existsb (Nat.eqb e) l) then (Wrong UbAssert, z)
          else
            let w1 := set_colls w (upd (w_colls w) c (erase_first e l)) in
            let destroy (w : world) := set_exps w (upd (w_exps w) e (mkEObj (eo_exp eo) c false (eo_ov eo) (eo_sig eo))) in
            let seqs := map fst (c_seqs (e_ctl (eo_exp eo))) in
            if exp_is_satisfied (eo_exp eo)
            then r_release_seqs rp (destroy w1) seqs z
            else
              match exp_report_of (w_seqs w) (eo_exp eo) with
              | Undef u => (Wrong u, z)
              | Terminate => (Stop, z)
              | Throw x =>
                  match r_release_seqs rp (set_uncaught (destroy w1) (S (w_uncaught w))) seqs z with
                  | (Next w2 _, z1) => (Next (set_uncaught w2 (w_uncaught w)) (RThrow x), z1)
                  | other => other
                  end
              | Ret r =>
                  let w2 := emit_report w1 (RUnfulfilled r) [e] in
                  match r_react rp w1 (RUnfulfilled r) z with
                  | (Returns, z1) => r_release_seqs rp (destroy w2) seqs z1
                  | (Throws, z1) =>
                      match r_release_seqs rp (set_uncaught (destroy w2) (S (w_uncaught w))) seqs z1 with
                      | (Next w3 _, z2) => (Next (set_uncaught w3 (w_uncaught w)) (RThrow EReporter), z2)
                      | other => other
                      end
                  | (Terminates, z1) => (Stop, z1)
                  end
              end
      end
  end.

(** The public operations; the ones not listed do not call a reporter. install_reporter (Reporter.hpp 634-640) makes the next reporter the
    current one; the function it carries in [World] is not used here. *)
Definition r_step (rp : recorder) (w : world) (z : R) (o : op) : stepped * R :=
  match o with
  | ODropSeq s =>
      if nth s (w_iface w) false
      then r_release_seq rp (set_iface w (upd (w_iface w) s false)) s z
      else (Invalid, z)
  | OCall m ov args l => r_do_call rp w m ov args l z
  | OEndScope h =>
      match nth_error (w_scoped w) h with
      | Some (HOwns e) => r_end_expectation rp (set_scoped w (upd (w_scoped w) h HDead)) e z
      | Some HEmpty => (Next (set_scoped w (upd (w_scoped w) h HDead)) RUnit, z)
      | Some HDead | None => (Invalid, z)
      end
  | OMoveAssignScoped dst src =>
      match nth_error (w_scoped w) dst, nth_error (w_scoped w) src with
      | Some HDead, _ | _, Some HDead | None, _ | _, None => (Invalid, z)
      | Some old, Some x =>
          if dst =? src then (Next w RUnit, z)
          else
            let w1 := set_scoped w (upd (upd (w_scoped w) src HEmpty) dst x) in
            match old with
            | HOwns e =>
                match r_end_expectation rp w1 e z with
                | (Next w2 (RThrow _), z1) => (Stop, z1)
                | other => other
                end
            | _ => (Next w1 RUnit, z)
            end
      end
  | _ => (step w o, z)
  end.

(** Executions; the state of the reporters may also change between operations (e.g. a test which empties a list of reports). *)
Inductive rrun (rp : recorder) : world -> R -> list op -> world -> R -> Prop :=
| rrun_nil w z : rrun rp w z [] w z
| rrun_step w z o w1 r z1 ops w2 z2 : r_step rp w z o = (Next w1 r, z1) -> rrun rp w1 z1 ops w2 z2 -> rrun rp w z (o :: ops) w2 z2
| rrun_change w z z1 ops w2 z2 : rrun rp w z1 ops w2 z2 -> rrun rp w z ops w2 z2.

End Reporter.
Arguments recorder : clear implicits.
