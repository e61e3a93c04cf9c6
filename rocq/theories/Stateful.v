(** * Stateful: matchers, projections and descriptions which have a state of their own.

    In [Expectation] and [World] the user code called during matching is a function. Here it may read and modify a state [U] of the user:
    the functions of the library which call it are modelled once more, in the order in which they call it. *)

From Verif Require Import Base Sequence Control Signature Printer Reports Expectation World.

Section User.
Context {U : Type}.

(** User code: it returns or throws, and leaves a state. *)
Definition scode (A : Type) : Type := U -> ures A * U.
(** Library code that calls it. *)
Definition sact (A : Type) : Type := U -> outcome A * U.

Definition sret {A} (a : outcome A) : sact A := fun u => (a, u).
Definition sbind {A B} (m : sact A) (k : A -> sact B) : sact B :=
  fun u => match m u with
           | (Ret a, u1) => k a u1
           | (Throw x, u1) => (Throw x, u1)
           | (Terminate, u1) => (Terminate, u1)
           | (Undef b, u1) => (Undef b, u1)
           end.
Definition scall {A} (m : scode A) : sact A := fun u => (of_ures (fst (m u)), snd (m u)).
Fixpoint somap {A B} (f : A -> sact B) (l : list A) : sact (list B) :=
  match l with
  | [] => sret (Ret [])
  | a :: l' => sbind (f a) (fun b => sbind (somap f l') (fun bs => sret (Ret (b :: bs))))
  end.

(** A matcher as seen through the hooks, Matcher.hpp 31-111. *)
Record smatcher : Type := mkSMatcher {
  sm_matches : val -> scode bool;
  sm_describe : scode string
}.

(** The policies, ExpectationPolicies.hpp 30-88, 150-263; see [policy]. *)
Inductive spolicy : Type :=
| SCategory (c : category)
| SConstness (c : constness)
| SArg (i : nat) (m : smatcher) (p : val -> scode val)
| SSideEffect (n : nat).

(** matches(): ExpectationPolicies.hpp 40-43, 70-73, 183-196 (projection first, then the matcher), 238-242. *)
Definition s_matches (p : spolicy) (c : call_info) : sact bool :=
  match p with
  | SCategory x => sret (Ret (is_matching_category (ci_category c) x))
  | SConstness x => sret (Ret (is_matching_constness (ci_constness c) x))
  | SArg i m proj =>
      match nth_error (ci_args c) i with
      | None => sret (Undef UbDomain)
      | Some v => sbind (scall (proj v)) (fun x => scall (sm_matches m x))
      end
  | SSideEffect _ => sret (Ret true)
  end.

(** describe(): ExpectationPolicies.hpp 51-57, 81-87, 198-203, 244-248. *)
Definition s_describe (p : spolicy) : sact (option string) :=
  match p with
  | SCategory x => sret (Ret (Some ("expect: from " ++ print_category x ++ " category overload")%string))
  | SConstness x => sret (Ret (Some ("expect: from " ++ print_constness x ++ " qualified overload")%string))
  | SArg i m _ => sbind (scall (sm_describe m)) (fun d => sret (Ret (Some ("expect: arg[" ++ dec_nat i ++ "] " ++ d)%string)))
  | SSideEffect _ => sret (Ret None)
  end.

(** One element of the braced list of BasicExpectation::matches, Expectation.hpp 512-517. *)
Definition s_report_of (c : call_info) (p : spolicy) : sact policy_report :=
  sbind (s_matches p c) (fun b => sbind (s_describe p) (fun d => sret (Ret (mkPolicyReport b d)))).

(** BasicExpectation::report (Expectation.hpp 457-482) and ::matches (502-521). The policies stand beside the expectation. *)
Definition s_exp_report (ss : seq_store) (e : expectation) (ps : list spolicy) : sact exp_report :=
  sbind (sret (control_state_of ss (e_ctl e))) (fun st =>
    sbind (somap s_describe ps) (fun ds =>
      sret (Ret (mkExpReport (Some (e_loc e)) None (Some (print_control_state st)) ds)))).
Definition s_exp_matches (ss : seq_store) (e : expectation) (ps : list spolicy) (c : call_info) : sact match_report :=
  sbind (sret (control_state_of ss (e_ctl e))) (fun st =>
    sbind (somap (s_report_of c) ps) (fun rs =>
      sret (Ret (mkMatchReport (Some (e_loc e)) None st rs)))).

(** make_match_report, Expectation.hpp 27-46: noexcept; what matching did to the user's state is not undone by the exception. *)
Definition s_make_match_report (rp : reporter) (uncaught : nat) (ss : seq_store) (e : expectation) (ps : list spolicy) (c : call_info)
  : sact match_attempt :=
  fun u =>
    let '(o, u') :=
      match s_exp_matches ss e ps c u with
      | (Ret m, u1) => (Ret (AttemptReport m), u1)
      | (Throw x, u1) =>
          sbind (s_exp_report ss e ps) (fun r =>
            sret (match rp (RUnhandled (make_call_report c) r x) uncaught with
                  | Returns => Ret (AttemptUnhandled r x)
                  | Throws => Throw EReporter
                  | Terminates => Terminate
                  end)) u1
      | (Terminate, u1) => (Terminate, u1)
      | (Undef b, u1) => (Undef b, u1)
      end in
    (noexcept_of o, u').

(** The loop of handle_call, Expectation.hpp 307-330. *)
Fixpoint s_match_loop (rp : reporter) (uncaught : nat) (ss : seq_store) (c : call_info)
    (es : list (nat * (expectation * list spolicy))) (acc : match_lists) : sact match_lists :=
  match es with
  | [] => sret (Ret acc)
  | (n, (e, ps)) :: es' =>
      sbind (s_make_match_report rp uncaught ss e ps c) (fun a =>
        s_match_loop rp uncaught ss c es'
          (match a with
           | AttemptUnhandled r x =>
               mkLists (ml_full acc) (ml_inapplicable acc) (ml_none acc) (ml_unhandled acc ++ [(n, (r, x))])
           | AttemptReport m =>
               match evaluate_match_report m with
               | MatchNone => mkLists (ml_full acc) (ml_inapplicable acc) (ml_none acc ++ [(n, m)]) (ml_unhandled acc)
               | MatchInapplicable => mkLists (ml_full acc) (ml_inapplicable acc ++ [(n, m)]) (ml_none acc) (ml_unhandled acc)
               | MatchFull => mkLists (ml_full acc ++ [(n, m)]) (ml_inapplicable acc) (ml_none acc) (ml_unhandled acc)
               end
           end))
  end.

End User.
Arguments smatcher : clear implicits.
Arguments spolicy : clear implicits.
Arguments scode : clear implicits.
Arguments sact : clear implicits.

(** What a policy is apart from its user code. *)
Definition skind {U} (p : spolicy U) : policy :=
  match p with
  | SCategory c => PCategory c
  | SConstness c => PConstness c
  | SArg i _ _ => PArg i (mkMatcher (fun _ => UOk true) (UOk ""%string)) (fun v => UOk v)
  | SSideEffect n => PSideEffect n
  end.

(** consume() (ExpectationPolicies.hpp 45-49, 75-79, 191-196, 250-256) asks no matcher: asserts and side effects only depend on the kind. *)
Definition s_consume_asserts {U} (ps : list (spolicy U)) (c : call_info) : outcome unit := consume_asserts (map skind ps) c.
Definition s_side_effects {U} (ps : list (spolicy U)) : list nat := side_effects (map skind ps).

(** The part of handle_call after its loop, Expectation.hpp 332-352; [consumed] and [effects] of the chosen expectation. *)
Definition settle (w : world) (c : call_info) (ne : bool) (consumed : nat -> outcome unit) (effects : nat -> list nat) (ml : match_lists) : stepped :=
  let w1 := emit_unhandled w c (ml_unhandled ml) in
  match ml_full ml with
  | first :: others =>
      match pick_best first others with
      | Throw x => thrown ne w1 x
      | Terminate => Stop
      | Undef u => Wrong u
      | Ret (n, m) =>
          let rep := RFull (make_call_report c) m in
          match react w1 rep with
          | Throws | Terminates => Stop
          | Returns =>
              let w2 := emit_report w1 rep [n] in
              match nth_error (w_exps w2) n with
              | None => Wrong UbDangling
              | Some eo =>
                  match control_consume (w_seqs w2) (e_ctl (eo_exp eo)) with
                  | Throw x => thrown ne w2 x
                  | Terminate => Stop
                  | Undef u => Wrong u
                  | Ret (ss, ctl) =>
                      match consumed n with
                      | Undef u => Wrong u
                      | Throw _ | Terminate => Stop
                      | Ret _ =>
                          let w3 := set_exps (set_seqs w2 ss)
                                      (upd (w_exps w2) n (mkEObj (with_ctl (eo_exp eo) ctl) (eo_coll eo) (eo_alive eo) (eo_ov eo) (eo_sig eo))) in
                          Next (set_frames w3 (mkFrame n (effects n) false false ne :: w_frames w3)) RUnit
                      end
                  end
              end
          end
      end
  | [] =>
      let rep := match ml_inapplicable ml with
                 | [] => RNoMatch (make_call_report c) (map snd (ml_none ml))
                 | l => RInapplicable (make_call_report c) (map snd l)
                 end in
      let who := match ml_inapplicable ml with [] => map fst (ml_none ml) | l => map fst l end in
      match react w1 rep with
      | Returns => Wrong UbUnreachable
      | Throws => thrown ne (emit_report w1 rep who) EReporter
      | Terminates => Stop
      end
  end.

(** handle_call (Expectation.hpp 300-352) with stateful user code. The policies of expectation number [e] are [pols e]; those in the world
    only have the same kinds. *)
Definition s_handle_call {U} (w : world) (pols : nat -> list (spolicy U)) (coll : nat) (c : call_info) (ne : bool) (u : U) : stepped * U :=
  match nth_error (w_colls w) coll with
  | None => (Wrong UbDangling, u)
  | Some l =>
      match lookup_exps w (rev l) with
      | None => (Wrong UbDangling, u)
      | Some es =>
          match s_match_loop (w_reporter w) (w_uncaught w) (w_seqs w) c (map (fun p => (fst p, (snd p, pols (fst p)))) es) (mkLists [] [] [] []) u with
          | (Throw x, u') => (thrown ne w x, u')
          | (Terminate, u') => (Stop, u')
          | (Undef b, u') => (Wrong b, u')
          | (Ret ml, u') => (settle w c ne (fun n => s_consume_asserts (pols n) c) (fun n => s_side_effects (pols n)) ml, u')
          end
      end
  end.

(** The call of a mock, see [do_call]. *)
Definition s_do_call {U} (w : world) (pols : nat -> list (spolicy U)) (m ov : nat) (args : list val) (l : loc) (u : U) : stepped * U :=
  match find_overload w m ov with
  | inl r => (r, u)
  | inr (s, coll) =>
      if negb (length args =? length (sg_params s)) then (Invalid, u)
      else s_handle_call w pols coll
             (mkCall (sg_ret s) (sg_params s) args (frontend_category s) (frontend_constness s) l)
             (frontend_noexcept s) u
  end.

(** Policies without state, seen as policies which leave it alone. *)
Definition lift {U A} (r : ures A) : scode U A := fun u => (r, u).
Definition lift_policy {U} (p : policy) : spolicy U :=
  match p with
  | PCategory c => SCategory c
  | PConstness c => SConstness c
  | PArg i m proj => SArg i (mkSMatcher (fun v => lift (m_matches m v)) (lift (m_describe m))) (fun v => lift (proj v))
  | PSideEffect n => SSideEffect n
  end.

(** ** Answers fixed in advance *)

(** A policy which answers [b] (or throws) when asked, and describes itself as [d]. *)
Definition answering {U} (p : spolicy U) (b : ures bool) (d : ures string) : policy :=
  match p with
  | SCategory c => PCategory c
  | SConstness c => PConstness c
  | SArg i _ _ => PArg i (mkMatcher (fun _ => b) d) (fun v => UOk v)
  | SSideEffect n => PSideEffect n
  end.

(** ** Who is asked what *)

Inductive question : Type := QProject | QMatch | QDescribe.
(** Policy number [j] of expectation number [e]. *)
Definition asked : Type := (nat * nat * question)%type.

(** The same user code, writing down that it was called. *)
Definition logged {U A} (q : asked) (m : scode U A) : scode (U * list asked) A :=
  fun u => let '(r, u') := m (fst u) in (r, (u', snd u ++ [q])).
Definition logged_policy {U} (e j : nat) (p : spolicy U) : spolicy (U * list asked) :=
  match p with
  | SCategory c => SCategory c
  | SConstness c => SConstness c
  | SArg i m proj =>
      SArg i (mkSMatcher (fun v => logged (e, j, QMatch) (sm_matches m v)) (logged (e, j, QDescribe) (sm_describe m)))
        (fun v => logged (e, j, QProject) (proj v))
  | SSideEffect n => SSideEffect n
  end.
Fixpoint logged_from {U} (e j : nat) (ps : list (spolicy U)) : list (spolicy (U * list asked)) :=
  match ps with
  | [] => []
  | p :: ps' => logged_policy e j p :: logged_from e (S j) ps'
  end.
