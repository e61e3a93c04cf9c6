(** * ActionSpec: vocabulary for side effects and finalizers. *)

From Verif Require Import Base Sequence Control Signature Printer Reports Expectation Builder World Actions.

(** The object of the caller which a reference parameter is bound to, if any. *)
Definition by_reference (p : pmode) (e : expr) : option nat :=
  match p, e with
  | ByLref, Lv l | ByCref, Lv l | ByCref, Xv l | ByRref, Xv l => Some l
  | _, _ => None
  end.

(** The caller moves object [l] into a parameter of type T. *)
Definition moved_in (ps : list pmode) (es : list expr) (k l : nat) : Prop := nth_error ps k = Some ByValue /\ nth_error es k = Some (Xv l).

(** An expression denotes an object that exists (or none at all). *)
Definition denotes (m : mem) (e : expr) : Prop := match e with Prv _ => True | Lv l | Xv l => l < length m end.

(** The value of an expression. *)
Definition value_of (m : mem) (e : expr) : option val := match e with Prv v => Some v | Lv l | Xv l => nth_error m l end.

(** A user function which changes only what it gets. It may create objects (e.g. make further calls). *)
Definition modest (f : ufun) : Prop :=
  forall args m u m', f args m = (u, m') -> length m <= length m' /\ forall l, l < length m -> ~ In (Lv l) args -> nth_error m' l = nth_error m l.

(** [args] are references to the selected arguments, in this order. *)
Definition selected_by (indices ls : list nat) (args : list expr) : Prop :=
  length args = length indices /\
  forall k i, nth_error indices k = Some i -> exists l, nth_error ls i = Some l /\ nth_error args k = Some (Lv l).

(** What the user function of a side effect has to get. *)
Definition gets (se : side_effect) (ls : list nat) (args : list expr) : Prop :=
  match se with
  | ApplyArgs indices _ => selected_by indices ls args
  | ApplyAll _ => length args = length ls /\ forall k l, nth_error ls k = Some l -> nth_error args k = Some (Lv l)
  | Invoke _ => args = []
  end.

(** The argument number [i] is selected by a side effect. *)
Definition selects (se : side_effect) (i : nat) : Prop :=
  match se with
  | ApplyArgs indices _ => In i indices
  | ApplyAll _ => True
  | Invoke _ => False
  end.

(** The memory in which the finalizer starts: what the last side effect left, or what the call began with. *)
Definition left_by (m1 : mem) (log : list invocation) : mem := last (map i_after log) m1.

(** The parameters of a call: [ls] are their objects, [m1] is the memory after their initialisation. Reference parameters are bound to the
    object of the caller, all others are new, pairwise distinct objects having the value of the argument; nothing else changes except
    that the caller moves objects into parameters (which one gets the value is left open if they move an object twice). *)
Definition passed (ps : list pmode) (es : list expr) (m : mem) (ls : list nat) (m1 : mem) : Prop :=
  length ls = length ps /\ length es = length ps /\ length m <= length m1 /\
  (forall k p e, nth_error ps k = Some p -> nth_error es k = Some e ->
     exists l, nth_error ls k = Some l /\ l < length m1 /\
       match by_reference p e with
       | Some o => l = o
       | None => length m <= l /\ (forall k', nth_error ls k' = Some l -> k' = k) /\
           ((forall o k', e = Lv o \/ e = Xv o -> moved_in ps es k' o -> k' = k) -> exists v, value_of m e = Some v /\ nth_error m1 l = Some v)
       end) /\
  (forall l, l < length m -> (forall k, ~ moved_in ps es k l) -> nth_error m1 l = nth_error m l).

(** [log] is the execution of the side effects [ses]: each exactly once in order, each getting the selected arguments by reference and
    the memory its predecessor left. *)
Definition executed (ses : list (nat * side_effect)) (ls : list nat) (m1 : mem) (log : list invocation) : Prop :=
  map i_tag log = map fst ses /\
  forall k n se inv, nth_error ses k = Some (n, se) -> nth_error log k = Some inv ->
    gets se ls (i_args inv) /\ (exists e, function_of se (i_args inv) (i_before inv) = (URet e, i_after inv)) /\
    i_before inv = left_by m1 (firstn k log).

(** The arguments and the memory the finalizer gets. *)
Definition prepared (ps : list pmode) (ses : list (nat * side_effect)) (es : list expr) (m : mem) (ls : list nat) (log : list invocation) (m2 : mem) : Prop :=
  exists m1, passed ps es m ls m1 /\ executed ses ls m1 log /\ m2 = left_by m1 log.

(** Conversion of the expression [e] to the return type: values are copied from lvalues and moved from xvalues, references are bound. *)
Inductive converted (residue : val -> val) : rmode -> expr -> mem -> cres -> mem -> Prop :=
| cv_void e m : converted residue RetVoid e m CVoid m
| cv_new v m : converted residue RetValue (Prv v) m (CVal v) m
| cv_copy l v m : nth_error m l = Some v -> converted residue RetValue (Lv l) m (CVal v) m
| cv_move l v m m' :
    nth_error m l = Some v -> length m' = length m -> nth_error m' l = Some (residue v) -> (forall k, k <> l -> nth_error m' k = nth_error m k) ->
    converted residue RetValue (Xv l) m (CVal v) m'
| cv_lvalue r l m : r <> RetVoid -> r <> RetValue -> converted residue r (Lv l) m (CRef l) m
| cv_xvalue r l m : r = RetCref \/ r = RetRref -> converted residue r (Xv l) m (CRef l) m
| cv_temporary r v l m m' : r = RetCref \/ r = RetRref -> length m <= l -> nth_error m' l = Some v -> (forall k, k < length m -> nth_error m' k = nth_error m k) ->
    converted residue r (Prv v) m (CRef l) m'.

(** What a finalizer calling the user function [f] results in. *)
Definition function_result (residue : val -> val) (r : rmode) (f : ufun) (args : list expr) (m : mem) (log : list invocation) (o : outcome) : Prop :=
  (exists v m', f args m = (URaise v, m') /\ o = Threw log v m') \/
  (exists e m1 res m', f args m = (URet e, m1) /\ converted residue r e m1 res m' /\ o = Returned log res m').

(** Which expressions the C++ compiler accepts for which parameter types. *)
Definition binds (p : pmode) (e : expr) : Prop :=
  match p with
  | ByValue | ByCref => True
  | ByLref => exists l, e = Lv l
  | ByRref => forall l, e <> Lv l
  end.
Definition indices_of (se : side_effect) : list nat := match se with ApplyArgs indices _ => indices | _ => [] end.
Definition fin_indices_of (f : fin) : list nat := match f with FinApply indices _ => indices | FinArg i => [i] | _ => [] end.

(** [f] never throws. *)
Definition never_throws (f : ufun) : Prop := forall args m v m', f args m <> (URaise v, m').

(** The finalizer [f] acting on memory is one which the world model knows as [wf]; [exn_of]: how an exception object looks there. *)
Definition represents (exn_of : val -> exn) (wf : finalizer) (f : fin) (m : mem) : Prop :=
  match wf, f with
  | FInit, FinVoid => True
  | FReturns v, FinReturns cell => nth_error m cell = Some v
  | FThrows x, FinThrows cell => exists v, nth_error m cell = Some v /\ x = exn_of v
  | FAction, (FinResultOf _ | FinApply _ _ | FinApplyAll _ | FinArg _) => True
  | _, _ => False
  end.

(** The end of a call: log of the side effects and the memory. *)
Definition ends (o : outcome) : option (list invocation * mem) :=
  match o with
  | Returned log _ m | Threw log _ m => Some (log, m)
  | _ => None
  end.

(** The program calls the mock and does other things in between; everything it does leaves the object [cell] alone. *)
Inductive history (residue : val -> val) (ps : list pmode) (r : rmode) (ses : list (nat * side_effect)) (f : fin) (cell : nat) : mem -> list outcome -> mem -> Prop :=
| hist_nil m : history residue ps r ses f cell m [] m
| hist_other m m1 os m' :
    length m <= length m1 -> nth_error m1 cell = nth_error m cell -> history residue ps r ses f cell m1 os m' -> history residue ps r ses f cell m os m'
| hist_call es m o log m1 os m' :
    Forall (denotes m) es -> ~ In (Lv cell) es -> ~ In (Xv cell) es ->
    mock_call residue ps r ses f es m = o -> ends o = Some (log, m1) -> history residue ps r ses f cell m1 os m' ->
    history residue ps r ses f cell m (o :: os) m'.
