(** * TestSpec: what it means that the calls of a test are those which its expectations ask for.

    A test sets up mocks, sequences and expectations and then runs its body, in which the mocks are called. Here only the limits of the
    expectations, their matchers and their attachment to sequences occur, not the algorithm which distributes the calls. *)

From Verif Require Import Base Sequence Control Signature Printer Reports Expectation Builder World WorldSpec CallSpec.

(** A call in the source code. *)
Record call_expr : Type := mkCallExpr { ce_mock : nat; ce_overload : nat; ce_args : list val; ce_loc : loc }.
Definition call_op (c : call_expr) : op := OCall (ce_mock c) (ce_overload c) (ce_args c) (ce_loc c).

(** The operations of a body: calls (also from inside of side effects and finalizers), the parts of running calls, and is_satisfied. *)
Definition body_op (o : op) : bool :=
  match o with
  | OCall _ _ _ _ | OAction | OFinal | OReturn _ | OSatisfied _ => true
  | _ => false
  end.
Fixpoint calls_of (ops : list op) : list call_expr :=
  match ops with
  | [] => []
  | OCall m ov args l :: ops' => mkCallExpr m ov args l :: calls_of ops'
  | _ :: ops' => calls_of ops'
  end.

(** No call of the body failed. *)
Inductive passing : world -> list op -> world -> Prop :=
| passing_nil w : passing w [] w
| passing_cons w o w1 r ops w2 : step w o = Next w1 r -> (calls_of [o] <> [] -> r = RUnit) -> passing w1 ops w2 -> passing w (o :: ops) w2.

(** No expectation misses a call. *)
Definition fulfilled (w : world) : Prop := forall e x, exp_at w e x -> (x_min x <= Z.of_nat (accepted (w_trace w) e))%Z.

(** At the begin of the body no expectation has accepted a call. *)
Definition fresh (w : world) : Prop := forall e, accepted (w_trace w) e = 0.

(** The expectation [e] may take the call: it belongs to the called function and its matchers accept the arguments. *)
Definition takes (w : world) (c : call_expr) (e : nat) : Prop :=
  exists s coll x, find_overload w (ce_mock c) (ce_overload c) = inr (s, coll) /\ length (ce_args c) = length (sg_params s) /\
    live_in w coll e x /\ accepts (eo_exp x) (call_of s (ce_args c) (ce_loc c)).

(** [es]: the expectation of each call, in the order of the calls. Two expectations of one sequence take their calls in the order in which
    they were created; every expectation takes a number of calls within its limits. *)
Definition ordered (w : world) (es : list nat) : Prop :=
  forall es1 a es2 b es3 s x y, es = es1 ++ a :: es2 ++ b :: es3 -> exp_at w a x -> exp_at w b y ->
    In s (x_seqs x) -> In s (x_seqs y) -> a <= b.
Definition times_taken (es : list nat) (e : nat) : nat := count_occ Nat.eq_dec es e.
Definition within_limits (w : world) (es : list nat) : Prop :=
  forall e x, exp_at w e x -> (x_min x <= Z.of_nat (times_taken es e) <= x_max x)%Z.

(** The calls can be distributed to the expectations. *)
Definition conforms (w : world) (calls : list call_expr) : Prop :=
  exists es, Forall2 (takes w) calls es /\ ordered w es /\ within_limits w es.

(** No call may be taken by two expectations. *)
Definition unambiguous (w : world) (calls : list call_expr) : Prop :=
  forall c e e', In c calls -> takes w c e -> takes w c e' -> e = e'.

(** A state after the setup of a test: the reporter obeys its contract and the descriptions of the requirements do not throw. *)
Definition set_up (w : world) : Prop :=
  reachable w /\ obeys_contract (w_reporter w) /\ fresh w /\ forall e x, exp_at w e x -> describes (eo_exp x).

(** The end of a test: no more calls, all its expectations are destroyed. *)
Definition torn_down (w w' : world) : Prop := forall e x, exp_at w' e x -> e < length (w_exps w) -> eo_alive x = false.
Definition nothing_missed (w w' : world) : Prop := forall e, e < length (w_exps w) -> unfulfilled_reports (w_trace w') e = 0.

(** No two expectations share a sequence; all expectations are attached to the sequence [s]. *)
Definition no_shared_sequence (w : world) : Prop :=
  forall a b x y s, exp_at w a x -> exp_at w b y -> In s (x_seqs x) -> In s (x_seqs y) -> a = b.
Definition all_in_sequence (w : world) (s : nat) : Prop := forall e x, exp_at w e x -> In s (x_seqs x).

(** The calls as a word of the regular expression  e0{min0,max0} e1{min1,max1} ... : one block of calls for each expectation. *)
Definition in_blocks (w : world) (calls : list call_expr) : Prop :=
  exists blocks, length blocks = length (w_exps w) /\ calls = concat blocks /\
    forall e x b, exp_at w e x -> nth_error blocks e = Some b ->
      (x_min x <= Z.of_nat (length b) <= x_max x)%Z /\ Forall (fun c => takes w c e) b.

(** ** Whole programs

    Setting up, calling and ending of scopes may be mixed in any way: expectations may be created late and end early, mocks and
    expectations may be moved, reporters may be installed. *)

(** Nothing was reported but full matches and exceptions of matchers. *)
Definition harmless (r : report) : bool := match r with RFull _ _ | RUnhandled _ _ _ => true | _ => false end.
Definition no_failure (w : world) : Prop := forall id r who, In (EvReport id r who) (w_trace w) -> harmless r = true.

(** In a run each call is given an expectation which is able to take it at that time. *)
Inductive handed : world -> list op -> list nat -> world -> Prop :=
| handed_nil w : handed w [] [] w
| handed_call w c w1 r ops e es w2 :
    step w (call_op c) = Next w1 r -> takes w c e -> handed w1 ops es w2 -> handed w (call_op c :: ops) (e :: es) w2
| handed_other w o w1 r ops es w2 :
    calls_of [o] = [] -> step w o = Next w1 r -> handed w1 ops es w2 -> handed w (o :: ops) es w2.
Definition program_conforms (ops : list op) (w : world) : Prop := exists es, handed init ops es w /\ ordered w es /\ within_limits w es.

(** At the time of a call at most one expectation may take it. *)
Definition program_unambiguous (ops : list op) : Prop :=
  forall ops1 c ops2 w e e', ops = ops1 ++ call_op c :: ops2 -> run init ops1 w -> takes w c e -> takes w c e' -> e = e'.

(** The reporters obey their contract; all expectations are destroyed at the end; their descriptions do not throw. *)
Definition contracts (ops : list op) : Prop := forall rp, In (OInstall rp) ops -> obeys_contract rp.
Definition all_ended (w : world) : Prop := forall e x, exp_at w e x -> eo_alive x = false.
Definition all_describe (w : world) : Prop := forall e x, exp_at w e x -> describes (eo_exp x).
