(** * Custom: expectation policies written by the user.

    [m.expect_call(...) && p] takes every object whose class meets the concept expectation_policy_for (Expectation.hpp 359-372,
    ExpectationBuilder.hpp 83-110). [World] and [Stateful] only know the policies of the library, which are always satisfied. Here the functions of
    BasicExpectation and ExpectationCollection are modelled once more for any policies. *)

From Verif Require Import Base Sequence Control Signature Printer Reports Expectation Builder World Stateful.

Section User.
Context {U : Type}.

(** A policy of the user, Expectation.hpp 362-372. Its functions may read a state [U] of the user and modify it, is_satisfied (noexcept) only
    reads it. consume() is user code like a side effect: the number stands for it, and it may do whatever an action may do. *)
Record upolicy : Type := mkUPolicy {
  up_satisfied : U -> bool;
  up_matches : call_info -> scode U bool;
  up_describe : scode U (option string);
  up_consume : nat
}.

(** The policies of an expectation, in the order in which they were attached. *)
Inductive cpolicy : Type :=
| CLib (p : spolicy U)
| COwn (p : upolicy).

(** The calls at Expectation.hpp 514, 515, 472, 492. *)
Definition c_matches (p : cpolicy) (c : call_info) : sact U bool :=
  match p with
  | CLib q => s_matches q c
  | COwn q => scall (up_matches q c)
  end.
Definition c_describe (p : cpolicy) : sact U (option string) :=
  match p with
  | CLib q => s_describe q
  | COwn q => scall (up_describe q)
  end.
Definition c_satisfied (u : U) (p : cpolicy) : bool :=
  match p with
  | CLib q => policy_is_satisfied (skind q)
  | COwn q => up_satisfied q u
  end.

(** BasicExpectation::is_satisfied, Expectation.hpp 487-497. *)
Definition c_is_satisfied (e : expectation) (ps : list cpolicy) (u : U) : bool :=
  control_is_satisfied (e_ctl e) && forallb (c_satisfied u) ps.

(** One element of the braced list of BasicExpectation::matches, Expectation.hpp 512-517. *)
Definition c_report_of (c : call_info) (p : cpolicy) : sact U policy_report :=
  sbind (c_matches p c) (fun b => sbind (c_describe p) (fun d => sret (Ret (mkPolicyReport b d)))).

(** BasicExpectation::report (Expectation.hpp 457-482) and ::matches (502-521). *)
Definition c_exp_report (ss : seq_store) (e : expectation) (ps : list cpolicy) : sact U exp_report :=
  sbind (sret (control_state_of ss (e_ctl e))) (fun st =>
    sbind (somap c_describe ps) (fun ds =>
      sret (Ret (mkExpReport (Some (e_loc e)) None (Some (print_control_state st)) ds)))).
Definition c_exp_matches (ss : seq_store) (e : expectation) (ps : list cpolicy) (c : call_info) : sact U match_report :=
  sbind (sret (control_state_of ss (e_ctl e))) (fun st =>
    sbind (somap (c_report_of c) ps) (fun rs =>
      sret (Ret (mkMatchReport (Some (e_loc e)) None st rs)))).

(** make_match_report, Expectation.hpp 27-46. *)
Definition c_make_match_report (rp : reporter) (uncaught : nat) (ss : seq_store) (e : expectation) (ps : list cpolicy) (c : call_info)
  : sact U match_attempt :=
  fun u =>
    let '(o, u') :=
      match c_exp_matches ss e ps c u with
      | (Ret m, u1) => (Ret (AttemptReport m), u1)
      | (Throw x, u1) =>
          sbind (c_exp_report ss e ps) (fun r =>
            sret (match rp (RUnhandled (make_call_report c) r x) uncaught with
                  | Returns => Ret (AttemptUnhandled r x)
                  | Throws => Throw EReporter
                  | Terminates => Terminate
                  end)) u1
      | (Terminate, u1) => (Terminate, u1)
      | (Undef b, u1) => (Undef b, u1)
      end in
    (noexcept_of o, u').

(** The loop of handle_call, Expectation.hpp 307-330. *)
Fixpoint c_match_loop (rp : reporter) (uncaught : nat) (ss : seq_store) (c : call_info)
    (es : list (nat * (expectation * list cpolicy))) (acc : match_lists) : sact U match_lists :=
  match es with
  | [] => sret (Ret acc)
  | (n, (e, ps)) :: es' =>
      sbind (c_make_match_report rp uncaught ss e ps c) (fun a =>
        c_match_loop rp uncaught ss c es'
          (match a with
           | AttemptUnhandled r x =>
               mkLists (ml_full acc) (ml_inapplicable acc) (ml_none acc) (ml_unhandled acc ++ [(n, (r, x))])
           | AttemptReport m =>
               match evaluate_match_report m with
               | MatchNone => mkLists (ml_full acc) (ml_inapplicable acc) (ml_none acc ++ [(n, m)]) (ml_unhandled acc)
               | MatchInapplicable => mkLists (ml_full acc) (ml_inapplicable acc ++ [(n, m)]) (ml_none acc) (ml_unhandled acc)
               | MatchFull => mkLists (ml_full acc ++ [(n, m)]) (ml_inapplicable acc) (ml_none acc) (ml_unhandled acc)
               end
           end))
  end.

(** consume() of the policies, Expectation.hpp 526-535: the asserts of the library's policies, and the user code which runs, in order. *)
Fixpoint c_consume_asserts (ps : list cpolicy) (c : call_info) : outcome unit :=
  match ps with
  | [] => Ret tt
  | CLib p :: ps' => obind (policy_consume_assert (skind p) c) (fun _ => c_consume_asserts ps' c)
  | COwn _ :: ps' => c_consume_asserts ps' c
  end.
Fixpoint c_actions (ps : list cpolicy) : list nat :=
  match ps with
  | [] => []
  | CLib (SSideEffect n) :: ps' => n :: c_actions ps'
  | CLib _ :: ps' => c_actions ps'
  | COwn p :: ps' => up_consume p :: c_actions ps'
  end.

(** handle_call (Expectation.hpp 300-352). The policies of expectation number [e] are [pols e]; those in the world are not looked at. *)
Definition c_handle_call (w : world) (pols : nat -> list cpolicy) (coll : nat) (c : call_info) (ne : bool) (u : U) : stepped * U :=
  match nth_error (w_colls w) coll with
  | None => (Wrong UbDangling, u)
  | Some l =>
      match lookup_exps w (rev l) with
      | None => (Wrong UbDangling, u)
      | Some es =>
          match c_match_loop (w_reporter w) (w_uncaught w) (w_seqs w) c (map (fun p => (fst p, (snd p, pols (fst p)))) es) (mkLists [] [] [] []) u with
          | (Throw x, u') => (thrown ne w x, u')
          | (Terminate, u') => (Stop, u')
          | (Undef b, u') => (Wrong b, u')
          | (Ret ml, u') => (settle w c ne (fun n => c_consume_asserts (pols n) c) (fun n => c_actions (pols n)) ml, u')
          end
      end
  end.

(** The call of a mock, see [do_call]. *)
Definition c_do_call (w : world) (pols : nat -> list cpolicy) (m ov : nat) (args : list val) (l : loc) (u : U) : stepped * U :=
  match find_overload w m ov with
  | inl r => (r, u)
  | inr (s, coll) =>
      if negb (length args =? length (sg_params s)) then (Invalid, u)
      else c_handle_call w pols coll
             (mkCall (sg_ret s) (sg_params s) args (frontend_category s) (frontend_constness s) l)
             (frontend_noexcept s) u
  end.

(** ~Model (Expectation.hpp 600-603), ExpectationCollection::remove (276-289) and the destruction of the expectation, see [end_expectation]. *)
Definition c_end_expectation (w : world) (pols : nat -> list cpolicy) (e : nat) (u : U) : stepped * U :=
  match nth_error (w_exps w) e with
  | None => (Wrong UbDangling, u)
  | Some eo =>
      let c := eo_coll eo in
      match nth_error (w_colls w) c with
      | None => (Wrong UbDangling, u)
      | Some l =>
          if negb (existsb (Nat.eqb e) l) then (Wrong UbAssert, u)
          else
            let w1 := set_colls w (upd (w_colls w) c (erase_first e l)) in
            let destroy (w : world) := set_exps w (upd (w_exps w) e (mkEObj (eo_exp eo) c false (eo_ov eo) (eo_sig eo))) in
            let seqs := map fst (c_seqs (e_ctl (eo_exp eo))) in
            if c_is_satisfied (eo_exp eo) (pols e) u
            then (release_seqs (destroy w1) seqs, u)
            else
              match c_exp_report (w_seqs w) (eo_exp eo) (pols e) u with
              | (Undef b, u') => (Wrong b, u')
              | (Terminate, u') => (Stop, u')
              | (Throw x, u') =>
                  (match release_seqs (set_uncaught (destroy w1) (S (w_uncaught w))) seqs with
                   | Next w2 _ => Next (set_uncaught w2 (w_uncaught w)) (RThrow x)
                   | other => other
                   end, u')
              | (Ret r, u') =>
                  let w2 := emit_report w1 (RUnfulfilled r) [e] in
                  (match react w1 (RUnfulfilled r) with
                   | Returns => release_seqs (destroy w2) seqs
                   | Throws =>
                       match release_seqs (set_uncaught (destroy w2) (S (w_uncaught w))) seqs with
                       | Next w3 _ => Next (set_uncaught w3 (w_uncaught w)) (RThrow EReporter)
                       | other => other
                       end
                   | Terminates => Stop
                   end, u')
              end
      end
  end.

(** The operations, see [step]. *)
Definition c_step (pols : nat -> list cpolicy) (w : world) (u : U) (o : op) : stepped * U :=
  match o with
  | OCall m ov args l => c_do_call w pols m ov args l u
  | OSatisfied h =>
      match nth_error (w_scoped w) h with
      | Some (HOwns e) =>
          match nth_error (w_exps w) e with
          | Some eo => if eo_alive eo then (Next w (RBool (c_is_satisfied (eo_exp eo) (pols e) u)), u) else (Wrong UbDangling, u)
          | None => (Wrong UbDangling, u)
          end
      | Some HEmpty => (Wrong UbNull, u)
      | Some HDead | None => (Invalid, u)
      end
  | OEndScope h =>
      match nth_error (w_scoped w) h with
      | Some (HOwns e) => c_end_expectation (set_scoped w (upd (w_scoped w) h HDead)) pols e u
      | Some HEmpty => (Next (set_scoped w (upd (w_scoped w) h HDead)) RUnit, u)
      | Some HDead | None => (Invalid, u)
      end
  | OMoveAssignScoped dst src =>
      match nth_error (w_scoped w) dst, nth_error (w_scoped w) src with
      | Some HDead, _ | _, Some HDead | None, _ | _, None => (Invalid, u)
      | Some old, Some x =>
          if dst =? src then (Next w RUnit, u)
          else
            let w1 := set_scoped w (upd (upd (w_scoped w) src HEmpty) dst x) in
            match old with
            | HOwns e =>
                match c_end_expectation w1 pols e u with
                | (Next w2 (RThrow _), u') => (Stop, u')
                | other => other
                end
            | _ => (Next w1 RUnit, u)
            end
      end
  | _ => (step w o, u)
  end.

(** Executions; the user's state may change at any time in between (e.g. in consume and other user code). *)
Inductive crun (pols : nat -> list cpolicy) : world -> U -> list op -> world -> U -> Prop :=
| crun_nil w u : crun pols w u [] w u
| crun_step w u o w1 r u1 ops w2 u2 : c_step pols w u o = (Next w1 r, u1) -> crun pols w1 u1 ops w2 u2 -> crun pols w u (o :: ops) w2 u2
| crun_think w u u1 ops w2 u2 : crun pols w u1 ops w2 u2 -> crun pols w u ops w2 u2.

End User.
Arguments upolicy : clear implicits.
Arguments cpolicy : clear implicits.
