(** * CallSpec: what a call on a mock has to do, in terms of the live expectations and the history. *)

From Coq Require Import Sorted.
From Verif Require Import Base Sequence Control Signature Printer Reports Expectation Builder World WorldSpec.

(** [l] are exactly the expectations with property [P], newest (highest creation number) first. *)
Definition newest_first (w : world) (P : nat -> eobj -> Prop) (l : list nat) : Prop :=
  StronglySorted (fun a b => b < a) l /\ forall e, In e l <-> exists x, exp_at w e x /\ P e x.

(** The live expectations of a collection which accept the arguments / accept and are applicable / reject / throw. *)
Definition accepting (w : world) (coll : nat) (c : call_info) (e : nat) (x : eobj) : Prop :=
  live_in w coll e x /\ accepts (eo_exp x) c.
Definition candidate (w : world) (coll : nat) (c : call_info) (e : nat) (x : eobj) : Prop :=
  live_in w coll e x /\ accepts (eo_exp x) c /\ applicable w e x.
Definition rejecting (w : world) (coll : nat) (c : call_info) (e : nat) (x : eobj) : Prop :=
  live_in w coll e x /\ rejects (eo_exp x) c.
Definition throwing (w : world) (coll : nat) (c : call_info) (e : nat) (x : eobj) : Prop :=
  live_in w coll e x /\ ~ clean (eo_exp x) c.

(** The descriptions of all requirements can be produced. *)
Definition describes (x : expectation) : Prop := forall p, In p (e_policies x) -> exists d, policy_describe p = Ret d.

(** No live expectation of the collection has a throwing description. *)
Definition tame (w : world) (coll : nat) : Prop := forall e x, live_in w coll e x -> describes (eo_exp x).

(** The exception [y] of the first throwing requirement. *)
Definition first_exception (ps : list policy) (c : call_info) (y : exn) : Prop :=
  exists pre p post, ps = pre ++ p :: post /\ policy_matches p c = Throw y /\
    forall q, In q pre -> exists b, policy_matches q c = Ret b.

(** A truthful state: the sequences in which the expectation is (not) the current element. *)
Definition current_in (w : world) (e : nat) (s : nat) : Prop :=
  forall e' x', exp_at w e' x' -> In s (x_seqs x') ->
    (e' < e -> (x_min x' <= Z.of_nat (accepted (w_trace w) e'))%Z) /\
    (e < e' -> accepted (w_trace w) e' = 0).

Definition true_state (w : world) (e : nat) (x : eobj) (st : control_state) : Prop :=
  let n := Z.of_nat (accepted (w_trace w) e) in
  match st with
  | StSaturated mn mx k seqs => mn = x_min x /\ mx = x_max x /\ k = n /\ n = x_max x /\ seqs = x_seqs x
  | StApplicable mn mx k rs =>
      mn = x_min x /\ mx = x_max x /\ k = n /\ (n < x_max x)%Z /\ map r_tag rs = x_seqs x /\
      forall s, In s (x_seqs x) -> current_in w e s
  | StInapplicable mn mx k rs ts =>
      mn = x_min x /\ mx = x_max x /\ k = n /\ (n < x_max x)%Z /\ ts <> [] /\
      length rs + length ts = length (x_seqs x) /\
      (forall s, In s ts <-> In s (x_seqs x) /\ ~ current_in w e s) /\
      (forall s, In s (map r_tag rs) <-> In s (x_seqs x) /\ current_in w e s)
  end.

(** A truthful match report: location, state and, requirement by requirement in order, result and description. *)
Definition true_report (w : world) (c : call_info) (e : nat) (x : eobj) (m : match_report) : Prop :=
  mr_loc m = Some (e_loc (eo_exp x)) /\ mr_final m = None /\ true_state w e x (mr_state m) /\
  Forall2 (fun p r => policy_matches p c = Ret (pr_matching r) /\ policy_describe p = Ret (pr_desc r))
    (e_policies (eo_exp x)) (mr_policies m).

Definition true_reports (w : world) (c : call_info) (who : list nat) (ms : list match_report) : Prop :=
  Forall2 (fun e m => exists x, exp_at w e x /\ true_report w c e x m) who ms.

(** A truthful expectation report. *)
Definition true_exp_report (w : world) (e : nat) (x : eobj) (r : exp_report) : Prop :=
  er_loc r = Some (e_loc (eo_exp x)) /\ er_final r = None /\
  (exists st, true_state w e x st /\ er_times r = Some (print_control_state st)) /\
  Forall2 (fun p d => policy_describe p = Ret d) (e_policies (eo_exp x)) (er_descs r).

(** The unhandled-exception reports of a call: one per throwing expectation, newest first. *)
Definition unhandled_reports (w : world) (coll : nat) (c : call_info) (evs : list event) : Prop :=
  exists who, newest_first w (throwing w coll c) who /\
    Forall2 (fun e ev => exists x r y, exp_at w e x /\ true_exp_report w e x r /\ first_exception (e_policies (eo_exp x)) c y /\
               ev = EvReport (w_rid w) (RUnhandled (make_call_report c) r y) [e]) who evs.

(** The world after nothing but reports happened. *)
Definition only_reports (w : world) (evs : list event) : world :=
  mkWorld (w_seqs w) (w_iface w) (w_sdead w) (w_exps w) (w_colls w) (w_mocks w) (w_scoped w) (w_frames w)
    (w_rid w) (w_reporter w) (w_uncaught w) (w_trace w ++ evs).

(** A call left by the exception of the reporter: it propagates, or ends the program if operator() is noexcept. *)
Definition failed (ne : bool) (rc : reaction) (w : world) : stepped :=
  match rc with
  | Throws => if ne then Stop else Next w (RThrow EReporter)
  | Terminates => Stop
  | Returns => Wrong UbUnreachable
  end.
