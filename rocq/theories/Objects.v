(** * Objects: whole programs with memory

    World.v runs whole programs but treats arguments as values and side effects and finalizers as opaque; Actions.v lets one call act on memory.
    Here both are put together: programs whose calls pass expressions denoting objects, whose expectations carry user functions, and whose
    own code may change every object between (and inside of) the operations of the library.

    Each operation of the library is one operation of World.v plus its effect on memory. The body of a user function is its effect on memory
    ([PAction], [PReturn]) together with all operations which the program performs until the next side effect, the finalizer or the return.

    Simplifications, besides those of Actions.v and World.v: objects are never removed (user functions which shorten the
    memory are no programs); requirements look at the values of the arguments; that a result converts to the return type is checked when the call returns ([PInvalid]), C++ checks it when the expectation is built. *)

From Verif Require Import Base Sequence Control Signature Printer Reports Expectation Builder World Actions.

(** The C++ types of the program: what a move leaves behind, how parameters are passed and results are returned (Mock.hpp 85), and what an exception
    object looks like in World.v. *)
Record lang : Type := mkLang {
  la_residue : val -> val;
  la_pmode : ty -> pmode;
  la_rmode : ty -> rmode;
  la_exn : val -> exn
}.

(** The policies of an expectation which act on memory: m_Policies and m_Finalizer, Expectation.hpp 557-558. *)
Record acts : Type := mkActs { a_effects : list side_effect; a_fin : fin }.

(** A running call: the signature of its overload and the objects its call::Info refers to, Mock.hpp 85-92. *)
Record pframe : Type := mkPF { pf_sig : signature; pf_args : list nat }.

(** [pa]: per expectation, [pf]: per running call, innermost first. *)
Record pworld : Type := mkPW { pw : world; pm : mem; pa : list acts; pf : list pframe }.
Definition oinit : pworld := mkPW init [] [] [].

(** The operands of an expectation expression: as [clause], but with functions and objects. ExpectationPolicies.hpp 403-425 (arg), 647-731 (then),
    500-512 (returns), 598-608 (throws), 465-587 (the other finalizers). *)
Inductive pclause : Type :=
| PcTimes (t : times_expr)
| PcSeq (tags : list nat)
| PcArg (i : nat) (m : matcher) (p : val -> ures val)
| PcThen (se : side_effect)
| PcReturns (e : expr)
| PcThrows (e : expr)
| PcFinal (f : fin).

(** The same operand in World.v; [k]: the number of side effects before. *)
Definition plain (k : nat) (c : pclause) : clause :=
  match c with
  | PcTimes t => ClTimes t
  | PcSeq tags => ClSeq tags
  | PcArg i m p => ClPolicy (PArg i m p)
  | PcThen _ => ClPolicy (PSideEffect k)
  | PcReturns _ | PcThrows _ | PcFinal _ => ClFinal FAction
  end.
Definition next_effect (k : nat) (c : pclause) : nat := match c with PcThen _ => S k | _ => k end.
Fixpoint plains (k : nat) (cls : list pclause) : list clause :=
  match cls with
  | [] => []
  | c :: cls' => plain k c :: plains (next_effect k c) cls'
  end.

(** The constraints on indices (ExpectationPolicies.hpp 331-334); [PcFinal] is a finalizer calling a function or returning an argument. *)
Definition pclause_ok (n : nat) (c : pclause) : bool :=
  match c with
  | PcThen se => side_effect_ok n se
  | PcFinal f => finalizer_ok n f && match f with FinVoid | FinReturns _ | FinThrows _ => false | _ => true end
  | _ => true
  end.

(** Evaluation of one operand: returns and throws store their argument (ExpectationPolicies.hpp 505-509, 604-607), the policies are collected by the
    builder (ExpectationBuilder.hpp 60-110). *)
Definition eval_clause (la : lang) (c : pclause) (a : acts) (m : mem) : option (acts * mem) :=
  match c with
  | PcThen se => Some (mkActs (a_effects a ++ [se]) (a_fin a), m)
  | PcReturns e => match store (la_residue la) FinReturns e m with Some (f, m') => Some (mkActs (a_effects a) f, m') | None => None end
  | PcThrows e => match store (la_residue la) FinThrows e m with Some (f, m') => Some (mkActs (a_effects a) f, m') | None => None end
  | PcFinal f => Some (mkActs (a_effects a) f, m)
  | _ => Some (a, m)
  end.
Fixpoint eval_clauses (la : lang) (cls : list pclause) (a : acts) (m : mem) : option (acts * mem) :=
  match cls with
  | [] => Some (a, m)
  | c :: cls' => match eval_clause la c a m with Some (a', m') => eval_clauses la cls' a' m' | None => None end
  end.

(** The operands of operator&& are evaluated from left to right ([over.match.oper], [expr.log.and]); those following one whose evaluation or
    application throws (ExpectationBuilder.hpp 112-152) are not evaluated any more. *)
Fixpoint evaluated (b : builder) (k : nat) (cls : list pclause) : list pclause :=
  match cls with
  | [] => []
  | c :: cls' => match builder_and b (plain k c) with BOk b' => c :: evaluated b' (next_effect k c) cls' | _ => [] end
  end.

(** Outcomes; the second result is the one of a call that returned. *)
Inductive pstepped : Type :=
| PNext (p : pworld) (r : result) (c : cres)
| PStop
| PWrong (u : ub)
| PInvalid.

(** The outcome of the operation of World.v, continued. *)
Definition pbind (s : stepped) (k : world -> result -> pstepped) : pstepped :=
  match s with
  | Next w r => k w r
  | Stop => PStop
  | Wrong u => PWrong u
  | Invalid => PInvalid
  end.

Inductive pop : Type :=
| PUser (f : mem -> mem)                                                  (* the program changes objects or creates new ones *)
| POp (o : op)                                                            (* an operation without objects *)
| PExpect (m ov : nat) (ms : list matcher) (cls : list pclause) (l : loc)
| PCall (m ov : nat) (es : list expr) (l : loc)
| PAction
| PFinal
| PReturn.

Definition objectless (o : op) : bool :=
  match o with
  | OExpect _ _ _ _ _ | OCall _ _ _ _ | OAction | OActionThrows _ | OFinal | OReturn _ => false
  | _ => true
  end.

(** ScopedExpectation h = m.expect_call(ms...) && cls...; *)
Definition do_pexpect (la : lang) (p : pworld) (m ov : nat) (ms : list matcher) (cls : list pclause) (l : loc) : pstepped :=
  match find_overload (pw p) m ov with
  | inl s => pbind s (fun _ _ => PInvalid)
  | inr (s, _) =>
      if negb (forallb (pclause_ok (length (sg_params s))) cls) then PInvalid
      else pbind (step (pw p) (OExpect m ov ms (plains 0 cls) l)) (fun w' r =>
        match r with
        | RUnit =>
            match eval_clauses la cls (mkActs [] FinVoid) (pm p) with
            | Some (a, m') => PNext (mkPW w' m' (pa p ++ [a]) (pf p)) r CVoid
            | None => PInvalid
            end
        | _ =>
            match frontend_builder s ms with
            | BOk b =>
                match eval_clauses la (evaluated b 0 cls) (mkActs [] FinVoid) (pm p) with
                | Some (_, m') => PNext (mkPW w' m' (pa p) (pf p)) r CVoid
                | None => PInvalid
                end
            | _ => PInvalid
            end
        end)
  end.

(** m(es...): the parameters are initialised, call::Info refers to them (Mock.hpp 81-92), requirements and reports look at their values. *)
Definition do_pcall (la : lang) (p : pworld) (m ov : nat) (es : list expr) (l : loc) : pstepped :=
  match find_overload (pw p) m ov with
  | inl s => pbind s (fun _ _ => PInvalid)
  | inr (s, _) =>
      match bind_params (la_residue la) (map (la_pmode la) (sg_params s)) es (pm p) with
      | None => PInvalid
      | Some (ls, m1) =>
          match select ls m1 with
          | None => PInvalid
          | Some vals =>
              pbind (step (pw p) (OCall m ov vals l)) (fun w' r =>
                PNext (mkPW w' m1 (pa p) (match r with RUnit => mkPF s ls :: pf p | _ => pf p end)) r CVoid)
          end
      end
  end.

(** The next side effect of the innermost call: SideEffectAction::consume, ExpectationPolicies.hpp 250-256. *)
Definition do_paction (p : pworld) : pstepped :=
  match w_frames (pw p), pf p with
  | f :: _, fr :: _ =>
      match f_todo f, nth_error (pa p) (f_exp f) with
      | n :: _, Some a =>
          match nth_error (a_effects a) n with
          | Some se =>
              match handed se (pf_args fr) with
              | Some args =>
                  pbind (step (pw p) OAction) (fun w' r =>
                    match function_of se args (pm p) with
                    | (URet _, m') => if length (pm p) <=? length m' then PNext (mkPW w' m' (pa p) (pf p)) r CVoid else PInvalid
                    | (URaise v, _) => PStop                (* leaves the noexcept lambda, Expectation.hpp 530 *)
                    end)
              | None => PInvalid
              end
          | None => PInvalid
          end
      | _, _ => PInvalid
      end
  | _, _ => PInvalid
  end.

(** The value of a result, for World.v. *)
Definition result_value (c : cres) (m : mem) : val :=
  match c with
  | CVoid => VOpaque
  | CVal v => v
  | CRef l => nth l m VOpaque
  end.

(** The innermost call leaves its finalizer, Expectation.hpp 339, 540-544. *)
Definition ret_mode (la : lang) (s : signature) : rmode := if sg_ret s =? 0 then RetVoid else la_rmode la (sg_ret s).
Definition do_preturn (la : lang) (p : pworld) : pstepped :=
  match w_frames (pw p), pf p with
  | f :: _, fr :: frs =>
      match nth_error (pa p) (f_exp f) with
      | Some a =>
          let s := pf_sig fr in
          match finalize (la_residue la) (a_fin a) (ret_mode la s) (map (la_pmode la) (sg_params s)) (pf_args fr) [] (pm p) with
          | Returned _ c m' =>
              pbind (step (pw p) (OReturn (UOk (result_value c m')))) (fun w' r =>
                if length (pm p) <=? length m' then PNext (mkPW w' m' (pa p) frs) r c else PInvalid)
          | Threw _ v m' =>
              pbind (step (pw p) (OReturn (UThrow (la_exn la v)))) (fun w' r =>
                if length (pm p) <=? length m' then PNext (mkPW w' m' (pa p) frs) r CVoid else PInvalid)
          | Terminated | IllFormed | NoObject => PInvalid
          end
      | None => PInvalid
      end
  | _, _ => PInvalid
  end.

Definition ostep (la : lang) (p : pworld) (o : pop) : pstepped :=
  match o with
  | PUser f => if length (pm p) <=? length (f (pm p)) then PNext (mkPW (pw p) (f (pm p)) (pa p) (pf p)) RUnit CVoid else PInvalid
  | POp o' => if objectless o' then pbind (step (pw p) o') (fun w' r => PNext (mkPW w' (pm p) (pa p) (pf p)) r CVoid) else PInvalid
  | PExpect m ov ms cls l => do_pexpect la p m ov ms cls l
  | PCall m ov es l => do_pcall la p m ov es l
  | PAction => do_paction p
  | PFinal => pbind (step (pw p) OFinal) (fun w' r => PNext (mkPW w' (pm p) (pa p) (pf p)) r CVoid)
  | PReturn => do_preturn la p
  end.

Inductive orun (la : lang) : pworld -> list pop -> pworld -> Prop :=
| orun_nil p : orun la p [] p
| orun_cons p o p1 r c ops p2 : ostep la p o = PNext p1 r c -> orun la p1 ops p2 -> orun la p (o :: ops) p2.
Definition oreachable (la : lang) (p : pworld) : Prop := exists ops, orun la oinit ops p.
