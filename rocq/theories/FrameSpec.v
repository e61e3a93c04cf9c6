(** * FrameSpec: vocabulary for what happens inside of a matched call. *)

From Verif Require Import Base Sequence Control Signature Printer Reports Expectation Builder World WorldSpec ObjInv.

(** Start of a side effect or of a finalizer. *)
Definition is_effect (ev : event) : bool :=
  match ev with
  | EvAction _ _ | EvFinal _ => true
  | _ => false
  end.

(** [during d w ops evs w']: the program executes [ops] from [w] to [w'] while the call at nesting depth [d] (the [d] calls around it
    are older) is running all the time. [evs] are the effects started while it is the innermost call, i.e. its own effects; effects of
    calls made by its side effects or finalizer are not contained. *)
Inductive during (d : nat) : world -> list op -> list event -> world -> Prop :=
| du_nil w : d < length (w_frames w) -> during d w [] [] w
| du_cons w o w1 r new ops evs w' :
    d < length (w_frames w) -> step w o = Next w1 r -> w_trace w1 = w_trace w ++ new -> during d w1 ops evs w' ->
    during d w (o :: ops) ((if length (w_frames w) =? S d then filter is_effect new else []) ++ evs) w'.

(** The call [o] made in [w] was accepted by expectation [n]; its body starts in [w']. *)
Definition handled_by (w : world) (o : op) (w' : world) (n : nat) : Prop :=
  step w o = Next w' RUnit /\ accepted (w_trace w') n = S (accepted (w_trace w) n).

(** The side effects among a list of requirements, in order. *)
Definition effects_of (ps : list policy) : list nat :=
  flat_map (fun p => match p with PSideEffect n => [n] | _ => [] end) ps.

(** What the finalizer [f] makes of the result [u] of the user code it runs. *)
Definition call_result_of (f : finalizer) (u : ures val) : ures (option val) :=
  match f, u with
  | FInit, _ => UOk None
  | FReturns v, _ => UOk (Some v)
  | FThrows y, _ => UThrow y
  | FAction, UOk v => UOk (Some v)
  | FAction, UThrow y => UThrow y
  end.

(** A running call does not need its expectation any more: it runs the function given to returns_result_of or its siblings, or returns nothing.
    (A function which ends its own life must not use its state afterwards; ExpectationPolicies.hpp 117-119, Expectation.hpp 339 do not.) *)
Definition last_use (w : world) (f : frame) : Prop :=
  f_final f = true /\ exists x, exp_at w (f_exp f) x /\ (e_final (eo_exp x) = FAction \/ e_final (eo_exp x) = FInit).

(** Use of the library as intended (C21): no moved-from mock or ScopedExpectation is used, reporters obey their contract, and no
    expectation's scope is ended while one of its own calls still needs it. *)
Definition legal (w : world) (o : op) : Prop :=
  match o with
  | OCall m _ _ _ | OExpect m _ _ _ _ => forall mk, nth_error (w_mocks w) m = Some mk -> mk_colls mk <> None
  | OSatisfied h => nth_error (w_scoped w) h <> Some HEmpty
  | OInstall rp => obeys_contract rp
  | OEndScope h => forall e f, nth_error (w_scoped w) h = Some (HOwns e) -> In f (w_frames w) -> f_exp f = e -> last_use w f
  | OMoveAssignScoped h _ => forall e f, nth_error (w_scoped w) h = Some (HOwns e) -> In f (w_frames w) -> f_exp f = e -> last_use w f
  | _ => True
  end.

Inductive legal_run : world -> list op -> world -> Prop :=
| lr_nil w : legal_run w [] w
| lr_cons w o w1 r ops w2 : legal w o -> step w o = Next w1 r -> legal_run w1 ops w2 -> legal_run w (o :: ops) w2.
