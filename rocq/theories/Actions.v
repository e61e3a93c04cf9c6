(** * Actions: side effects and finalizers acting on objects

    World.v treats side effects and finalizers as opaque; here they act on memory. Sources: Mock.hpp 27-43, 81-93 (operator(), argument
    references), Call.hpp 40-59 (call::Info), Expectation.hpp 526-545 (consume, finalize_call), ExpectationPolicies.hpp 90-148, 214-357
    (policies), 465-608 (finally::...), 647-731 (then::...).

    Memory is a list of objects; a location is a position. Every object used by the program is there: variables of the caller, parameters
    of the mock's operator(), objects stored in expectations, objects captured by user functions.

    Simplifications: objects are not removed at the end of their lifetime (results referring to a dead parameter are made visible by
    their location); parameters are initialised from left to right (C++ leaves the order open); copies and moves of objects do not throw;
    argument type and return type agree apart from cv and reference qualifiers, i.e. static_cast converts between value categories only;
    constness is checked by the C++ compiler only. *)

From Verif Require Import Base Sequence Control Signature Printer Reports Expectation Builder World.

(** Locations are what the std::reference_wrapper of call::Info::args refer to, Call.hpp 44-46. *)
Definition mem : Type := list val.

(** An expression: a prvalue, or an lvalue / xvalue denoting an object. *)
Inductive expr : Type :=
| Prv (v : val)
| Lv (l : nat)
| Xv (l : nat).

(** Parameter types T, T&, const T&, T&& of a mock's operator(), Mock.hpp 85. *)
Inductive pmode : Type := ByValue | ByLref | ByCref | ByRref.

(** Return types void, T, T&, const T&, T&& of a mock's operator(), Mock.hpp 85. *)
Inductive rmode : Type := RetVoid | RetValue | RetLref | RetCref | RetRref.

(** User supplied functions (the parameters of ExpectationPolicies.hpp 465-731): they get their arguments and the memory, and may do anything with it (also by making further calls). *)
Inductive uresult : Type :=
| URet (e : expr)          (* returns; the category is that of the call expression *)
| URaise (v : val).        (* throws a copy of v *)
Definition ufun : Type := list expr -> mem -> uresult * mem.

Section Moves.
(** What the move constructor of a type leaves behind in the moved-from object. *)
Context (residue : val -> val).

(** T x(e): initialise an object from an expression ([dcl.init]); for parameters (Mock.hpp 85), stored values (ExpectationPolicies.hpp 505, 604)
    and results (117-118). *)
Definition init_from (e : expr) (m : mem) : option (val * mem) :=
  match e with
  | Prv v => Some (v, m)
  | Lv l => match nth_error m l with Some v => Some (v, m) | None => None end
  | Xv l => match nth_error m l with Some v => Some (v, upd m l (residue v)) | None => None end
  end.

Definition new_object (v : val) (m : mem) : nat * mem := (length m, m ++ [v]).

(** Initialisation of a parameter, C++ [dcl.init], [dcl.init.ref]; the result is the object which [std::ref(param)] refers to, Mock.hpp 90.
    [None]: does not compile (or [e] is no object). *)
Definition bind_param (p : pmode) (e : expr) (m : mem) : option (nat * mem) :=
  match p with
  | ByValue => match init_from e m with Some (v, m1) => Some (new_object v m1) | None => None end
  | ByLref => match e with Lv l => if l <? length m then Some (l, m) else None | _ => None end
  | ByCref => match e with Prv v => Some (new_object v m) | Lv l | Xv l => if l <? length m then Some (l, m) else None end
  | ByRref => match e with Prv v => Some (new_object v m) | Xv l => if l <? length m then Some (l, m) else None | Lv _ => None end
  end.

(** operator(): all parameters; the resulting locations are call::Info::args, Mock.hpp 87-93, Call.hpp 44-46. *)
Fixpoint bind_params (ps : list pmode) (es : list expr) (m : mem) : option (list nat * mem) :=
  match ps, es with
  | [], [] => Some ([], m)
  | p :: ps', e :: es' =>
      match bind_param p e m with
      | None => None
      | Some (l, m1) =>
          match bind_params ps' es' m1 with
          | None => None
          | Some (ls, m2) => Some (l :: ls, m2)
          end
      end
  | _, _ => None
  end.

(** Projections of an argument: add_lvalue_reference_t<Arg> yields an lvalue, add_rvalue_reference_t<Arg> an xvalue unless Arg is an
    lvalue reference (reference collapsing), ExpectationPolicies.hpp 290-304, 347-352. *)
Definition as_lvalue (l : nat) : expr := Lv l.
Definition as_forwarded (p : pmode) (l : nat) : expr := match p with ByLref | ByCref => Lv l | ByValue | ByRref => Xv l end.

(** std::get<indices>(callInfo.args).get()..., 347-352. [None]: an index is out of range, does not compile (332). *)
Fixpoint select {A} (indices : list nat) (l : list A) : option (list A) :=
  match indices with
  | [] => Some []
  | i :: is =>
      match nth_error l i, select is l with
      | Some x, Some xs => Some (x :: xs)
      | _, _ => None
      end
  end.

(** The side effects of namespace then, ExpectationPolicies.hpp 647-731. *)
Inductive side_effect : Type :=
| ApplyArgs (indices : list nat) (f : ufun)      (* apply_arg, apply_args, 647-688 *)
| ApplyAll (f : ufun)                            (* apply_all, 696-709 *)
| Invoke (f : ufun).                             (* invoke, 717-731 *)

(** The arguments handed to the user function: SideEffectAction::consume and the action adapters, 254-262, 266-357, 717-731. *)
Definition handed (se : side_effect) (ls : list nat) : option (list expr) :=
  match se with
  | ApplyArgs indices _ => match select indices ls with Some xs => Some (map as_lvalue xs) | None => None end
  | ApplyAll _ => Some (map as_lvalue ls)
  | Invoke _ => Some []
  end.
Definition function_of (se : side_effect) : ufun := match se with ApplyArgs _ f | ApplyAll f | Invoke f => f end.

(** One execution of a user function. *)
Record invocation : Type := mkInv { i_tag : nat; i_args : list expr; i_before : mem; i_after : mem }.

Inductive consumed : Type :=
| Consumed (log : list invocation) (m : mem)
| ConsumeTerminates                               (* an exception leaves the noexcept lambda, Expectation.hpp 530 *)
| ConsumeIllFormed.                               (* does not compile *)

(** BasicExpectation::consume, Expectation.hpp 526-536: (..., policies.consume(call)); the tags number the side effects as in World.v. *)
Fixpoint consume (ses : list (nat * side_effect)) (ls : list nat) (m : mem) : consumed :=
  match ses with
  | [] => Consumed [] m
  | (n, se) :: ses' =>
      match handed se ls with
      | None => ConsumeIllFormed
      | Some args =>
          match function_of se args m with
          | (URaise _, _) => ConsumeTerminates
          | (URet _, m1) =>
              match consume ses' ls m1 with
              | Consumed log m2 => Consumed (mkInv n args m m1 :: log) m2
              | other => other
              end
          end
      end
  end.

(** The finalizers of namespace finally, ExpectationPolicies.hpp 465-608. *)
Inductive fin : Type :=
| FinVoid                                         (* InitFinalizePolicy of a mock returning void *)
| FinReturns (cell : nat)                         (* returns, 500-512: the stored object, or the object a stored reference_wrapper refers to *)
| FinResultOf (f : ufun)                          (* returns_result_of, 465-481 *)
| FinApply (indices : list nat) (f : ufun)        (* returns_apply_result_of, 526-541 *)
| FinApplyAll (f : ufun)                          (* returns_apply_all_result_of, 553-566 *)
| FinArg (i : nat)                                (* returns_arg, 575-587 *)
| FinThrows (cell : nat).                         (* throws, 598-608 *)

(** returns(e) / throws(e): the object is stored in the finalizer by a copy or a move, 505-509, 604-607. *)
Definition store (mk : nat -> fin) (e : expr) (m : mem) : option (fin * mem) :=
  match init_from e m with
  | Some (v, m1) => Some (mk (length m1), m1 ++ [v])
  | None => None
  end.

(** The result of operator(), Mock.hpp 85: nothing, a value, or a reference to an object. *)
Inductive cres : Type :=
| CVoid
| CVal (v : val)
| CRef (l : nat).

Inductive outcome : Type :=
| Returned (log : list invocation) (r : cres) (m : mem)
| Threw (log : list invocation) (v : val) (m : mem)
| Terminated
| IllFormed
| NoObject.                                       (* the expression denotes no object: excluded in C++ by construction *)

(** static_cast<Return>(e), 117-118. A reference bound to a prvalue refers to a temporary that dies at the end of finalize_call; it gets a
    location of its own. *)
Definition convert (log : list invocation) (r : rmode) (e : expr) (m : mem) : outcome :=
  match r with
  | RetVoid => Returned log CVoid m
  | RetValue => match init_from e m with Some (v, m1) => Returned log (CVal v) m1 | None => NoObject end
  | RetLref => match e with Lv l => Returned log (CRef l) m | _ => IllFormed end
  | RetCref | RetRref =>
      match e with
      | Lv l | Xv l => Returned log (CRef l) m
      | Prv v => let '(l, m1) := new_object v m in Returned log (CRef l) m1
      end
  end.

(** ReturnsResultOf::finalize_call with a user function, 102-119. *)
Definition result_of (log : list invocation) (r : rmode) (f : ufun) (args : list expr) (m : mem) : outcome :=
  match f args m with
  | (URaise v, m1) => Threw log v m1
  | (URet e, m1) => convert log r e m1
  end.

(** finalize_call of the finalizers (ExpectationPolicies.hpp 20-29, 92-152, and the actions of 266-357); [ps] and [ls] are the parameter types and the arguments of the call. *)
Definition finalize (f : fin) (r : rmode) (ps : list pmode) (ls : list nat) (log : list invocation) (m : mem) : outcome :=
  match f with
  | FinVoid => match r with RetVoid => Returned log CVoid m | _ => IllFormed end
  | FinReturns cell => convert log r (Lv cell) m
  | FinResultOf g => result_of log r g [] m
  | FinApply indices g => match select indices ls with Some xs => result_of log r g (map as_lvalue xs) m | None => IllFormed end
  | FinApplyAll g => result_of log r g (map as_lvalue ls) m
  | FinArg i => match nth_error ps i, nth_error ls i with Some p, Some l => convert log r (as_forwarded p l) m | _, _ => IllFormed end
  | FinThrows cell => match nth_error m cell with Some v => Threw log v m | None => NoObject end
  end.

(** The constraints on the indices, 331-334. *)
Definition indices_ok (n : nat) (indices : list nat) : bool := forallb (fun i => i <? n) indices.
Definition side_effect_ok (n : nat) (se : side_effect) : bool := match se with ApplyArgs indices _ => indices_ok n indices | _ => true end.
Definition finalizer_ok (n : nat) (f : fin) : bool :=
  match f with FinApply indices _ => indices_ok n indices | FinArg i => indices_ok n [i] | _ => true end.

(** A call taken by an expectation with the side effects [ses] and the finalizer [f]: operator(), Mock.hpp 85-90, then consume and
    finalize_call, Expectation.hpp 335-342, 526-545. *)
Definition mock_call (ps : list pmode) (r : rmode) (ses : list (nat * side_effect)) (f : fin) (es : list expr) (m : mem) : outcome :=
  if negb (forallb (fun '(_, se) => side_effect_ok (length ps) se) ses && finalizer_ok (length ps) f) then IllFormed
  else match bind_params ps es m with
  | None => IllFormed
  | Some (ls, m1) =>
      match consume ses ls m1 with
      | ConsumeTerminates => Terminated
      | ConsumeIllFormed => IllFormed
      | Consumed log m2 => finalize f r ps ls log m2
      end
  end.

End Moves.

(** operator== of call::Info, Call.hpp 17-36, 51-58: arguments are compared by address. *)
Record minfo : Type := mkInfo { mi_args : list nat; mi_cat : category; mi_const : constness; mi_loc : loc }.
Fixpoint same_objects (a b : list nat) : bool :=
  match a, b with
  | [], [] => true
  | x :: a', y :: b' => (x =? y) && same_objects a' b'
  | _, _ => false
  end.
(** is_same_source_location, Utility.hpp 41-50. *)
Definition same_location (a b : loc) : bool :=
  (l_file a =? l_file b)%string && (l_func a =? l_func b)%string && (l_line a =? l_line b) && (l_col a =? l_col b).
Definition info_eqb (a b : minfo) : bool :=
  (category_bits (mi_cat a) =? category_bits (mi_cat b))%N && (constness_bits (mi_const a) =? constness_bits (mi_const b))%N &&
  same_objects (mi_args a) (mi_args b) && same_location (mi_loc a) (mi_loc b).
