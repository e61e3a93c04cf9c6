(** * World: the state machine of a whole (single-threaded) program using mocks, expectations, sequences and reporters.

    One [op] is one public operation of the library as issued by user code. A call on a mock is split in several ops, so that
    the user code running inside of the call (side effects, finalizer) may issue any other operation in between:
    [OCall] is everything handle_call does before the first user action (matching, reporting, counting),
    [OAction] starts the next side effect of the innermost running call, [OFinal] starts its finalizer and
    [OReturn] ends it. *)

From Verif Require Import Base Sequence Control Signature Printer Reports Expectation Builder.

(** An expectation object together with its place (collection) and whether it still exists. [eo_ov], [eo_sig] only record
    the overload (number and signature) through which it was created; no operation looks at them. *)
Record eobj : Type := mkEObj {
  eo_exp : expectation;
  eo_coll : nat;
  eo_alive : bool;
  eo_ov : nat;
  eo_sig : signature
}.

(** A Mock object (Mock.hpp 595-658): its overloads and, per overload, the collection it refers to (the m_Expectations of the
    frontend, Mock.hpp 62); [None] in [mk_colls] stands for a moved-from mock, [mk_alive = false] for a destroyed one. *)
Record mock : Type := mkMock { mk_sigs : list signature; mk_colls : option (list nat); mk_alive : bool }.

(** A ScopedExpectation object (Expectation.hpp 567-727): owning, moved-from or destroyed. *)
Inductive handle : Type := HOwns (e : nat) | HEmpty | HDead.

(** A running call of handle_call (Expectation.hpp 334-339) after counting. [f_todo]: the side effects not started yet;
    [f_started]: a side effect was started; [f_final]: the finalizer was started. *)
Record frame : Type := mkFrame {
  f_exp : nat;
  f_todo : list nat;
  f_started : bool;
  f_final : bool;
  f_noexcept : bool
}.

(** Observable events. Reports carry (in addition to their content) the identities of the
    expectations they list, the sequence error the identity of the sequence. *)
Inductive event : Type :=
| EvReport (to : nat) (r : report) (who : list nat)   (* delivered to the reporter number [to] *)
| EvAction (e : nat) (n : nat)                        (* side effect [n] of expectation [e] starts *)
| EvFinal (e : nat)                                   (* finalizer of expectation [e] starts *)
| EvInstall (id : nat).                               (* reporter number [id] is installed *)

Record world : Type := mkWorld {
  w_seqs : list bseq;            (* all sequences ever created *)
  w_iface : list bool;           (* is the LazySequence / GreedySequence object alive? *)
  w_sdead : list bool;           (* has the BasicSequence been destroyed? *)
  w_exps : list eobj;            (* all expectations ever created, in creation order *)
  w_colls : list (list nat);     (* all collections ever created (m_Expectations, Expectation.hpp 355) *)
  w_mocks : list mock;
  w_scoped : list handle;
  w_frames : list frame;         (* innermost call first *)
  w_rid : nat;                   (* number of the installed reporter *)
  w_reporter : reporter;
  w_uncaught : nat;              (* std::uncaught_exceptions() *)
  w_trace : list event           (* chronological *)
}.

Definition set_seqs (w : world) (ss : list bseq) : world :=
  mkWorld ss (w_iface w) (w_sdead w) (w_exps w) (w_colls w) (w_mocks w) (w_scoped w) (w_frames w)
    (w_rid w) (w_reporter w) (w_uncaught w) (w_trace w).
Definition set_iface (w : world) (l : list bool) : world :=
  mkWorld (w_seqs w) l (w_sdead w) (w_exps w) (w_colls w) (w_mocks w) (w_scoped w) (w_frames w)
    (w_rid w) (w_reporter w) (w_uncaught w) (w_trace w).
Definition set_sdead (w : world) (l : list bool) : world :=
  mkWorld (w_seqs w) (w_iface w) l (w_exps w) (w_colls w) (w_mocks w) (w_scoped w) (w_frames w)
    (w_rid w) (w_reporter w) (w_uncaught w) (w_trace w).
Definition set_exps (w : world) (l : list eobj) : world :=
  mkWorld (w_seqs w) (w_iface w) (w_sdead w) l (w_colls w) (w_mocks w) (w_scoped w) (w_frames w)
    (w_rid w) (w_reporter w) (w_uncaught w) (w_trace w).
Definition set_colls (w : world) (l : list (list nat)) : world :=
  mkWorld (w_seqs w) (w_iface w) (w_sdead w) (w_exps w) l (w_mocks w) (w_scoped w) (w_frames w)
    (w_rid w) (w_reporter w) (w_uncaught w) (w_trace w).
Definition set_mocks (w : world) (l : list mock) : world :=
  mkWorld (w_seqs w) (w_iface w) (w_sdead w) (w_exps w) (w_colls w) l (w_scoped w) (w_frames w)
    (w_rid w) (w_reporter w) (w_uncaught w) (w_trace w).
Definition set_scoped (w : world) (l : list handle) : world :=
  mkWorld (w_seqs w) (w_iface w) (w_sdead w) (w_exps w) (w_colls w) (w_mocks w) l (w_frames w)
    (w_rid w) (w_reporter w) (w_uncaught w) (w_trace w).
Definition set_frames (w : world) (l : list frame) : world :=
  mkWorld (w_seqs w) (w_iface w) (w_sdead w) (w_exps w) (w_colls w) (w_mocks w) (w_scoped w) l
    (w_rid w) (w_reporter w) (w_uncaught w) (w_trace w).
Definition set_uncaught (w : world) (n : nat) : world :=
  mkWorld (w_seqs w) (w_iface w) (w_sdead w) (w_exps w) (w_colls w) (w_mocks w) (w_scoped w) (w_frames w)
    (w_rid w) (w_reporter w) n (w_trace w).
Definition emit (w : world) (e : event) : world :=
  mkWorld (w_seqs w) (w_iface w) (w_sdead w) (w_exps w) (w_colls w) (w_mocks w) (w_scoped w) (w_frames w)
    (w_rid w) (w_reporter w) (w_uncaught w) (w_trace w ++ [e]).

(** Delivery of a report by the functions of detail, Reporter.hpp 547-621: to the installed reporter (get_reporter, 538-545). *)
Definition emit_report (w : world) (r : report) (who : list nat) : world := emit w (EvReport (w_rid w) r who).

(** The reaction of the installed reporter, the functions of IReporter called at Reporter.hpp 565-632. *)
Definition react (w : world) (r : report) : reaction := w_reporter w r (w_uncaught w).

(** DefaultReporter, Reporter.hpp 412-529 (reaction only; the text is modelled in Reports.v). *)
Definition default_reporter : reporter := fun r uncaught =>
  match r with
  | RNoMatch _ _ | RInapplicable _ _ => Throws
  | RFull _ _ => Returns
  | RUnfulfilled _ | RError _ _ => if uncaught =? 0 then Throws else Returns
  | RUnhandled _ _ _ => Returns
  end.

(** BasicReporter, Reporter.hpp 329-404, for callbacks which obey the documented contract (323-328): the success and warning
    callbacks return and the fail callback leaves by [fail] (an exception or the end of the program). *)
Definition basic_reporter (fail : reaction) : reporter := fun r uncaught =>
  match r with
  | RNoMatch _ _ | RInapplicable _ _ => fail
  | RFull _ _ => Returns
  | RUnfulfilled _ | RError _ _ => if uncaught =? 0 then fail else Returns
  | RUnhandled _ _ _ => Returns
  end.

(** The start of the program: no objects, the DefaultReporter is installed (get_reporter, Reporter.hpp 538-545). *)
Definition init : world := mkWorld [] [] [] [] [] [] [] [] 0 default_reporter 0 [].

(** The public operations. *)
Inductive op : Type :=
| ONewSeq (st : strategy)                       (* LazySequence s; / GreedySequence s; *)
| ODropSeq (s : nat)                            (* ~BasicSequenceInterface *)
| ONewMock (sigs : list signature)              (* Mock<sigs...> m; *)
| OMoveMock (m : nat)                           (* Mock m2{std::move(m)}; *)
| OMoveAssignMock (dst src : nat)               (* dst = std::move(src); *)
| ODestroyMock (m : nat)
| OExpect (m ov : nat) (ms : list matcher) (cls : list clause) (l : loc)
                                                (* ScopedExpectation h = m.expect_call(ms...) && cls...; *)
| OCall (m ov : nat) (args : list val) (l : loc) (* m(args...) through the overload number ov *)
| OAction                                       (* the innermost call starts its next side effect *)
| OActionThrows (x : exn)                       (* the running side effect is left by an exception *)
| OFinal                                        (* the innermost call starts its finalizer *)
| OReturn (user : ures val)                     (* the innermost call ends; [user]: result of user code in the finalizer *)
| OSatisfied (h : nat)                          (* h.is_satisfied() *)
| OEndScope (h : nat)                           (* ~ScopedExpectation *)
| OMoveScoped (h : nat)                         (* ScopedExpectation h2{std::move(h)}; *)
| OMoveAssignScoped (dst src : nat)             (* dst = std::move(src); *)
| OInstall (rp : reporter)                      (* install_reporter<...>() *)
| OUnwind (n : nat).                            (* from now on std::uncaught_exceptions() == n *)

(** What an operation delivers to its caller. *)
Inductive result : Type :=
| RUnit
| RBool (b : bool)
| RVal (v : option val)      (* result of a mock call; None: void *)
| RThrow (x : exn).          (* the operation is left by an exception *)

(** [Next]: the program goes on. [Stop]: std::terminate. [Wrong]: undefined behaviour. [Invalid]: no such program
    (ill-formed, or uses an object before its construction / after its destruction). *)
Inductive stepped : Type :=
| Next (w : world) (r : result)
| Stop
| Wrong (u : ub)
| Invalid.

(** A function declared noexcept (e.g. Mock.hpp 307) was left by an exception, or not. *)
Definition thrown (ne : bool) (w : world) (x : exn) : stepped := if ne then Stop else Next w (RThrow x).

(** ** Sequences *)

(** The use of BasicSequence [s] by live expectations (shared_ptr in ControlPolicy, ControlPolicy.hpp 239). *)
Definition attached_to (s : nat) (c : control) : bool := existsb (fun '(s', _) => s' =? s) (c_seqs c).
Definition seq_in_use (w : world) (s : nat) : bool :=
  nth s (w_iface w) false
  || existsb (fun eo => eo_alive eo && attached_to s (e_ctl (eo_exp eo))) (w_exps w).

(** Releasing one shared_ptr to BasicSequence [s]: the last owner runs ~BasicSequence (Sequence.hpp 90-109) inside of
    ~shared_ptr, which is noexcept. *)
Definition release_seq (w : world) (s : nat) : stepped :=
  if seq_in_use w s || nth s (w_sdead w) true then Next w RUnit
  else
    let w1 := set_sdead w (upd (w_sdead w) s true) in
    match nth_error (w_seqs w) s with
    | None => Wrong UbDangling
    | Some q =>
        match seq_dtor_error q with
        | None => Next w1 RUnit
        | Some (k, n) =>
            match react w1 (RError k n) with
            | Returns => Next (emit_report w1 (RError k n) [s]) RUnit
            | Throws | Terminates => Stop
            end
        end
    end.

Fixpoint release_seqs (w : world) (l : list nat) : stepped :=
  match l with
  | [] => Next w RUnit
  | s :: l' =>
      match release_seq w s with
      | Next w' _ => release_seqs w' l'
      | other => other
      end
  end.

(** ** Scope end of an expectation *)

(** std::ranges::find and std::vector::erase, Expectation.hpp 280-282. *)
Fixpoint erase_first (x : nat) (l : list nat) : list nat :=
  match l with
  | [] => []
  | y :: l' => if x =? y then l' else y :: erase_first x l'
  end.

(** ~Model (Expectation.hpp 600-603) with ExpectationCollection::remove (276-289) and the destruction of the expectation
    (its shared_ptrs to sequences are released in tuple order). An exception of the reporter is in flight while the members of
    Model are destroyed. *)
Definition end_expectation (w : world) (e : nat) : stepped :=
  match nth_error (w_exps w) e with
  | None => Wrong UbDangling
  | Some eo =>
      let c := eo_coll eo in
      match nth_error (w_colls w) c with
      | None => Wrong UbDangling
      | Some l =>
          if negb (existsb (Nat.eqb e) l) then Wrong UbAssert      (* Expectation.hpp 281 *)
          else
            let w1 := set_colls w (upd (w_colls w) c (erase_first e l)) in
            let destroy (w : world) := set_exps w (upd (w_exps w) e (mkEObj (eo_exp eo) c false (eo_ov eo) (eo_sig eo))) in
            let seqs := map fst (c_seqs (e_ctl (eo_exp eo))) in
            if exp_is_satisfied (eo_exp eo)
            then release_seqs (destroy w1) seqs
            else
              match exp_report_of (w_seqs w) (eo_exp eo) with
              | Undef u => Wrong u
              | Terminate => Stop
              | Throw x =>     (* a description throws while building the report *)
                  match release_seqs (set_uncaught (destroy w1) (S (w_uncaught w))) seqs with
                  | Next w2 _ => Next (set_uncaught w2 (w_uncaught w)) (RThrow x)
                  | other => other
                  end
              | Ret r =>
                  let w2 := emit_report w1 (RUnfulfilled r) [e] in
                  match react w1 (RUnfulfilled r) with
                  | Returns => release_seqs (destroy w2) seqs
                  | Throws =>
                      match release_seqs (set_uncaught (destroy w2) (S (w_uncaught w))) seqs with
                      | Next w3 _ => Next (set_uncaught w3 (w_uncaught w)) (RThrow EReporter)
                      | other => other
                      end
                  | Terminates => Stop
                  end
              end
      end
  end.

(** ** Calls *)

Fixpoint lookup_exps (w : world) (l : list nat) : option (list (nat * expectation)) :=
  match l with
  | [] => Some []
  | n :: l' =>
      match nth_error (w_exps w) n, lookup_exps w l' with
      | Some eo, Some es => Some ((n, eo_exp eo) :: es)
      | _, _ => None
      end
  end.

(** Emission of the unhandled exception reports of the matching loop (Expectation.hpp 39-42), in order. *)
Fixpoint emit_unhandled (w : world) (c : call_info) (l : list (nat * (exp_report * exn))) : world :=
  match l with
  | [] => w
  | (n, (r, x)) :: l' => emit_unhandled (emit_report w (RUnhandled (make_call_report c) r x) [n]) c l'
  end.

(** ExpectationCollection::handle_call, Expectation.hpp 300-352, up to the first side effect; [ne]: the surrounding
    operator() is noexcept. *)
Definition handle_call (w : world) (coll : nat) (c : call_info) (ne : bool) : stepped :=
  match nth_error (w_colls w) coll with
  | None => Wrong UbDangling
  | Some l =>
      match lookup_exps w (rev l) with
      | None => Wrong UbDangling
      | Some es =>
          match match_loop (w_reporter w) (w_uncaught w) (w_seqs w) c es (mkLists [] [] [] []) with
          | Throw x => thrown ne w x
          | Terminate => Stop
          | Undef u => Wrong u
          | Ret ml =>
              let w1 := emit_unhandled w c (ml_unhandled ml) in
              match ml_full ml with
              | first :: others =>
                  match pick_best first others with
                  | Throw x => thrown ne w1 x
                  | Terminate => Stop
                  | Undef u => Wrong u
                  | Ret (n, m) =>
                      let rep := RFull (make_call_report c) m in
                      match react w1 rep with
                      | Throws | Terminates => Stop            (* report_full_match is noexcept, Reporter.hpp 585-594 *)
                      | Returns =>
                          let w2 := emit_report w1 rep [n] in
                          match nth_error (w_exps w2) n with
                          | None => Wrong UbDangling
                          | Some eo =>
                              let e := eo_exp eo in
                              match control_consume (w_seqs w2) (e_ctl e) with
                              | Throw x => thrown ne w2 x
                              | Terminate => Stop
                              | Undef u => Wrong u
                              | Ret (ss, ctl) =>
                                  match consume_asserts (e_policies e) c with
                                  | Undef u => Wrong u
                                  | Throw _ | Terminate => Stop
                                  | Ret _ =>
                                      let w3 := set_exps (set_seqs w2 ss)
                                                  (upd (w_exps w2) n (mkEObj (with_ctl e ctl) (eo_coll eo) (eo_alive eo) (eo_ov eo) (eo_sig eo))) in
                                      Next (set_frames w3 (mkFrame n (side_effects (e_policies e)) false false ne
                                                             :: w_frames w3)) RUnit
                                  end
                              end
                          end
                      end
                  end
              | [] =>
                  let rep := match ml_inapplicable ml with
                             | [] => RNoMatch (make_call_report c) (map snd (ml_none ml))
                             | l => RInapplicable (make_call_report c) (map snd l)
                             end in
                  let who := match ml_inapplicable ml with
                             | [] => map fst (ml_none ml)
                             | l => map fst l
                             end in
                  match react w1 rep with
                  | Returns => Wrong UbUnreachable              (* Reporter.hpp 562, 581 *)
                  | Throws => thrown ne (emit_report w1 rep who) EReporter
                  | Terminates => Stop
                  end
              end
          end
      end
  end.

(** The mock number [m] with overload [ov]: its signature and collection; [inl] gives the reason if there is none. *)
Definition find_overload (w : world) (m ov : nat) : stepped + (signature * nat) :=
  match nth_error (w_mocks w) m with
  | None => inl Invalid
  | Some mk =>
      if negb (mk_alive mk) then inl Invalid
      else match nth_error (mk_sigs mk) ov with
           | None => inl Invalid
           | Some s =>
               match mk_colls mk with
               | None => inl (Wrong UbNull)                     (* m_Expectations is null after a move, Mock.hpp 40, 55 *)
               | Some cs =>
                   match nth_error cs ov with
                   | None => inl Invalid
                   | Some c => inr (s, c)
                   end
               end
           end
  end.

(** operator() of the MockFrontends and BasicMockFrontend::handle_call, Mock.hpp 32-47, 68-519. *)
Definition do_call (w : world) (m ov : nat) (args : list val) (l : loc) : stepped :=
  match find_overload w m ov with
  | inl r => r
  | inr (s, coll) =>
      if negb (length args =? length (sg_params s)) then Invalid
      else handle_call w coll
             (mkCall (sg_ret s) (sg_params s) args (frontend_category s) (frontend_constness s) l)
             (frontend_noexcept s)
  end.

(** expect_call of the MockFrontends (Mock.hpp 68-519), the operands, BasicExpectationBuilder::finalize
    (ExpectationBuilder.hpp 154-185), the Model constructor and ExpectationCollection::push (Expectation.hpp 258-267, 605-617).
    Sequences named in clauses have to be alive. *)
Definition clause_ok (w : world) (nparams : nat) (cl : clause) : bool :=
  match cl with
  | ClSeq tags => forallb (fun s => nth s (w_iface w) false) tags && negb (length tags =? 0)
  | ClPolicy p => policy_ok nparams p
  | ClTimes t => times_expr_int t
  | ClFinal _ => true
  end.

Definition do_expect (w : world) (m ov : nat) (ms : list matcher) (cls : list clause) (l : loc) : stepped :=
  match find_overload w m ov with
  | inl r => r
  | inr (s, coll) =>
      if negb ((length ms =? length (sg_params s)) && forallb (clause_ok w (length (sg_params s))) cls) then Invalid
      else
        match build s ms cls with
        | BIllFormed => Invalid
        | BThrow x => if finalizable s cls then Next w (RThrow x) else Invalid
        | BOk b =>
            if negb (finalize_ok s b) then Invalid
            else
              match control_new (w_seqs w) (b_times b) (b_seqs b) with
              | Throw x => Next w (RThrow x)
              | Terminate => Stop
              | Undef u => Wrong u
              | Ret (ss, ctl) =>
                  match nth_error (w_colls w) coll with
                  | None => Wrong UbDangling
                  | Some members =>
                      let e := length (w_exps w) in
                      let w1 := set_seqs w ss in
                      let w2 := set_exps w1 (w_exps w1 ++ [mkEObj (mkExp l ctl (b_policies b) (b_final b)) coll true ov s]) in
                      let w3 := set_colls w2 (upd (w_colls w2) coll (members ++ [e])) in
                      Next (set_scoped w3 (w_scoped w3 ++ [HOwns e])) RUnit
                  end
              end
        end
  end.

Definition exp_alive (w : world) (e : nat) : bool :=
  match nth_error (w_exps w) e with
  | Some eo => eo_alive eo
  | None => false
  end.

(** The fold over the policies in BasicExpectation::consume (Expectation.hpp 529-534): the next side effect is invoked. The
    expectation is accessed through a plain reference (Expectation.hpp 322, 334-338). *)
Definition do_action (w : world) : stepped :=
  match w_frames w with
  | [] => Invalid
  | f :: fs =>
      match f_todo f with
      | [] => Invalid
      | n :: todo =>
          if negb (exp_alive w (f_exp f)) then Wrong UbDangling
          else Next (set_frames (emit w (EvAction (f_exp f) n))
                       (mkFrame (f_exp f) todo true (f_final f) (f_noexcept f) :: fs)) RUnit
      end
  end.

(** exp.finalize_call(call), Expectation.hpp 339, 540-544. *)
Definition do_final (w : world) : stepped :=
  match w_frames w with
  | [] => Invalid
  | f :: fs =>
      match f_todo f with
      | _ :: _ => Invalid
      | [] =>
          if f_final f then Invalid
          else if negb (exp_alive w (f_exp f)) then Wrong UbDangling
          else Next (set_frames (emit w (EvFinal (f_exp f)))
                       (mkFrame (f_exp f) [] (f_started f) true (f_noexcept f) :: fs)) RUnit
      end
  end.

(** Result of the finalize policies, ExpectationPolicies.hpp 21-28, 90-148. *)
Definition finalizer_result (f : finalizer) (user : ures val) : ures (option val) :=
  match f with
  | FInit => UOk None
  | FReturns v => UOk (Some v)
  | FThrows x => UThrow x
  | FAction => match user with UOk v => UOk (Some v) | UThrow x => UThrow x end
  end.

Definition do_return (w : world) (user : ures val) : stepped :=
  match w_frames w with
  | [] => Invalid
  | f :: fs =>
      if negb (f_final f) then Invalid
      else
        match nth_error (w_exps w) (f_exp f) with
        | None => Invalid
        | Some eo =>
            let w1 := set_frames w fs in
            match finalizer_result (e_final (eo_exp eo)) user with
            | UOk v => Next w1 (RVal v)
            | UThrow x => thrown (f_noexcept f) w1 x
            end
        end
  end.

Definition step (w : world) (o : op) : stepped :=
  match o with
  | ONewSeq st =>
      Next (set_sdead (set_iface (set_seqs w (w_seqs w ++ [seq_new st])) (w_iface w ++ [true])) (w_sdead w ++ [false])) RUnit
  | ODropSeq s =>
      if nth s (w_iface w) false
      then release_seq (set_iface w (upd (w_iface w) s false)) s
      else Invalid
  | ONewMock sigs =>
      (* Mock.hpp 595-597, 616-624, 648-657; no frontend exists for variadic signatures, 68-519 *)
      if is_overload_set sigs && forallb (fun s => negb (sg_variadic s)) sigs
      then
        let base := length (w_colls w) in
        let ids := map (fun s => match overload_collection sigs s with Some i => base + i | None => base end) sigs in
        Next (set_mocks (set_colls w (w_colls w ++ map (fun _ => []) (mock_collections sigs)))
                (w_mocks w ++ [mkMock sigs (Some ids) true])) RUnit
      else Invalid
  | OMoveMock m =>
      match nth_error (w_mocks w) m with
      | None => Invalid
      | Some mk =>
          if negb (mk_alive mk) then Invalid
          else Next (set_mocks w (upd (w_mocks w) m (mkMock (mk_sigs mk) None true)
                                    ++ [mkMock (mk_sigs mk) (mk_colls mk) true])) RUnit
      end
  | OMoveAssignMock dst src =>
      match nth_error (w_mocks w) dst, nth_error (w_mocks w) src with
      | Some md, Some ms =>
          if negb (mk_alive md && mk_alive ms && (if list_eq_dec signature_eq_dec (mk_sigs md) (mk_sigs ms) then true else false))
          then Invalid
          else if dst =? src then Next w RUnit
          else Next (set_mocks w (upd (upd (w_mocks w) src (mkMock (mk_sigs ms) None true))
                                    dst (mkMock (mk_sigs ms) (mk_colls ms) true))) RUnit
      | _, _ => Invalid
      end
  | ODestroyMock m =>
      match nth_error (w_mocks w) m with
      | None => Invalid
      | Some mk =>
          if negb (mk_alive mk) then Invalid
          else Next (set_mocks w (upd (w_mocks w) m (mkMock (mk_sigs mk) None false))) RUnit
      end
  | OExpect m ov ms cls l => do_expect w m ov ms cls l
  | OCall m ov args l => do_call w m ov args l
  | OAction => do_action w
  | OActionThrows _ =>
      (* the exception leaves the noexcept lambda in BasicExpectation::consume, Expectation.hpp 530 *)
      match w_frames w with
      | f :: _ => if f_started f && negb (f_final f) then Stop else Invalid
      | [] => Invalid
      end
  | OFinal => do_final w
  | OReturn user => do_return w user
  | OSatisfied h =>
      match nth_error (w_scoped w) h with
      | Some (HOwns e) =>
          match nth_error (w_exps w) e with
          | Some eo => if eo_alive eo then Next w (RBool (exp_is_satisfied (eo_exp eo))) else Wrong UbDangling
          | None => Wrong UbDangling
          end
      | Some HEmpty => Wrong UbNull                              (* m_Inner is null, Expectation.hpp 712 *)
      | Some HDead | None => Invalid
      end
  | OEndScope h =>
      match nth_error (w_scoped w) h with
      | Some (HOwns e) => end_expectation (set_scoped w (upd (w_scoped w) h HDead)) e
      | Some HEmpty => Next (set_scoped w (upd (w_scoped w) h HDead)) RUnit
      | Some HDead | None => Invalid
      end
  | OMoveScoped h =>
      match nth_error (w_scoped w) h with
      | Some HDead | None => Invalid
      | Some x => Next (set_scoped w (upd (w_scoped w) h HEmpty ++ [x])) RUnit
      end
  | OMoveAssignScoped dst src =>
      (* std::unique_ptr::operator=(unique_ptr&&): reset(u.release()), noexcept. Expectation.hpp 703 *)
      match nth_error (w_scoped w) dst, nth_error (w_scoped w) src with
      | Some HDead, _ | _, Some HDead | None, _ | _, None => Invalid
      | Some old, Some x =>
          if dst =? src then Next w RUnit
          else
            let w1 := set_scoped w (upd (upd (w_scoped w) src HEmpty) dst x) in
            match old with
            | HOwns e =>
                match end_expectation w1 e with
                | Next w2 (RThrow _) => Stop
                | other => other
                end
            | _ => Next w1 RUnit
            end
      end
  | OInstall rp =>
      (* install_reporter, Reporter.hpp 634-640 *)
      let id := S (w_rid w) in
      Next (mkWorld (w_seqs w) (w_iface w) (w_sdead w) (w_exps w) (w_colls w) (w_mocks w) (w_scoped w) (w_frames w)
              id rp (w_uncaught w) (w_trace w ++ [EvInstall id])) RUnit
  | OUnwind n => Next (set_uncaught w n) RUnit
  end.

(** Executions. *)
Inductive run : world -> list op -> world -> Prop :=
| run_nil w : run w [] w
| run_cons w o w1 r ops w2 : step w o = Next w1 r -> run w1 ops w2 -> run w (o :: ops) w2.

(** The states a single-threaded program can reach. *)
Definition reachable (w : world) : Prop := exists ops, run init ops w.
