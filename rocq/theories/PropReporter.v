(** * PropReporter: the reporters of the library (C49). *)

From Verif Require Import Base Lib Sequence Control Signature Printer Reports Expectation Builder World WorldSpec CallSpec StepCases MatchLemmas
  History Scenario Reporter.
Local Open Scope string_scope.

(** The text of a report. *)
Definition text_of (tn : ty -> string) (what : exn -> option string) (r : report) : string :=
  match r with
  | RNoMatch c l => stringify_no_match tn c l
  | RInapplicable c l => stringify_inapplicable tn c l
  | RFull c m => stringify_full tn c m
  | RUnfulfilled r => stringify_unfulfilled r
  | RError k n => sequence_error_message k n
  | RUnhandled c r x => stringify_unhandled tn c r (what x)
  end.

(** Is this the report of a failure which may be thrown now? *)
Definition failure (r : report) (uncaught : nat) : bool :=
  match r with
  | RNoMatch _ _ | RInapplicable _ _ => true
  | RUnfulfilled _ | RError _ _ => Nat.eqb uncaught 0
  | RFull _ _ | RUnhandled _ _ _ => false
  end.
Definition warning (r : report) : bool := match r with RUnhandled _ _ _ => true | _ => false end.

(** The content of a report agrees with its kind. *)
Definition proper (r : report) : Prop :=
  match r with
  | RNoMatch _ l => forall m, In m l -> evaluate_match_report m = MatchNone
  | RInapplicable _ l => l <> [] /\ forall m, In m l -> evaluate_match_report m = MatchInapplicable
  | RFull _ m => evaluate_match_report m = MatchFull
  | _ => True
  end.

Definition error_text (e : error) : string :=
  match e with ErrUnmatched s _ _ _ | ErrUnfulfilled s _ | ErrMessage s => s end.

Lemma has_result_spec res m : has_result res m = true <-> evaluate_match_report m = res.
Proof. unfold has_result. destruct (evaluate_match_report m), res; split; intros; congruence. Qed.

(** DefaultReporter: throws exactly for failures, an error with the text of the report; prints this text before, and the text of unhandled
    exceptions, if it has a stream; otherwise silent. *)
Theorem C49_default_reporter tn what out r uncaught : proper r ->
  let '(written, lft) := default_report tn what out r uncaught in
  written = (if out && (failure r uncaught || warning r) then [text_of tn what r ++ nl] else []) /\
  (failure r uncaught = true -> exists e, lft = LeftError e /\ error_text e = text_of tn what r) /\
  (failure r uncaught = false -> lft = LeftReturn).
Proof.
  destruct r as [c l|c l|c m|r|k n|c r x]; cbn [proper default_report failure warning text_of orb]; intros Hp.
  - replace (forallb (has_result MatchNone) l) with true.
    + rewrite andb_true_r. split; [destruct out; reflexivity|]. split; [eexists; split; reflexivity|discriminate].
    + symmetry. apply forallb_forall. intros m Hm. apply has_result_spec. auto.
  - replace (forallb (has_result MatchInapplicable) l) with true.
    + rewrite andb_true_r. split; [destruct out; reflexivity|]. split; [eexists; split; reflexivity|discriminate].
    + symmetry. apply forallb_forall. intros m Hm. apply has_result_spec. apply Hp. auto.
  - rewrite (proj2 (has_result_spec _ _) Hp). rewrite andb_false_r. repeat split. discriminate.
  - destruct (uncaught =? 0)%nat; (split; [destruct out; reflexivity|]); (split; [|auto]); try discriminate; eexists; split; reflexivity.
  - destruct (uncaught =? 0)%nat; (split; [destruct out; reflexivity|]); (split; [|auto]); try discriminate; eexists; split; reflexivity.
  - rewrite andb_true_r. split; [destruct out; reflexivity|]. split; [discriminate|auto].
Qed.

(** The error carries the report: of failed calls the call, its place and all match reports, of expectations their report. *)
Theorem C49_error_data tn what out r uncaught written e : default_report tn what out r uncaught = (written, LeftError e) ->
  match r with
  | RNoMatch c l | RInapplicable c l => e = ErrUnmatched (text_of tn what r) c l (cr_loc c)
  | RUnfulfilled er => e = ErrUnfulfilled (text_of tn what r) er
  | RError _ _ => e = ErrMessage (text_of tn what r)
  | _ => False
  end.
Proof.
  destruct r as [c l|c l|c m|r|k n|c r x]; cbn [default_report text_of]; intros H.
  - destruct (forallb _ l); inversion H; reflexivity.
  - destruct (forallb _ l); inversion H; reflexivity.
  - destruct (has_result MatchFull m); discriminate.
  - destruct (uncaught =? 0)%nat; inversion H; reflexivity.
  - destruct (uncaught =? 0)%nat; inversion H; reflexivity.
  - inversion H.
Qed.

(** BasicReporter: exactly one callback with exactly the text of the report: fail for failures, warning for unhandled exceptions, success
    for matches; none for unfulfilled expectations and errors while an exception is in flight. *)
Theorem C49_basic_reporter tn what cb r uncaught :
  fst (basic_report tn what cb r uncaught)
  = (if failure r uncaught then [(ChFail, text_of tn what r)]
     else match r with
          | RFull _ _ => [(ChSuccess, text_of tn what r)]
          | RUnhandled _ _ _ => [(ChWarning, text_of tn what r)]
          | _ => []
          end).
Proof. destruct r as [c l|c l|c m|r|k n|c r x]; cbn; try destruct (uncaught =? 0)%nat; reflexivity. Qed.

(** How it is left, depending on the callback. *)
Theorem C49_basic_reporter_left tn what cb r uncaught :
  let lft := snd (basic_report tn what cb r uncaught) in
  (failure r uncaught = true ->
     lft = match cb ChFail (text_of tn what r) with Throws => LeftCallback | Terminates => LeftTerminate | Returns => LeftUndef UbUnreachable end) /\
  (forall c m, r = RFull c m -> lft = match cb ChSuccess (text_of tn what r) with Returns => LeftReturn | _ => LeftTerminate end) /\
  (warning r = true -> lft = match cb ChWarning (text_of tn what r) with Returns => LeftReturn | Throws => LeftCallback | Terminates => LeftTerminate end) /\
  (failure r uncaught = false -> warning r = false -> (forall c m, r <> RFull c m) -> lft = LeftReturn).
Proof.
  destruct r as [c l|c l|c m|r|k n|c r x]; cbn; try destruct (uncaught =? 0)%nat; cbn; (split; [|split; [|split]]); intros; try discriminate;
    try reflexivity; try (match goal with H : RFull _ _ = RFull _ _ |- _ => inversion H; subst end);
    try (destruct (cb _ _); reflexivity).
  all: exfalso; match goal with H : forall c m, _ <> _ |- _ => eapply H; reflexivity end.
Qed.

(** The reactions of the installed reporters in World.v are those of these two models. *)
Definition reaction_of (l : left_by) : option reaction :=
  match l with
  | LeftReturn => Some Returns
  | LeftError _ | LeftCallback => Some Throws
  | LeftTerminate => Some Terminates
  | LeftUndef _ => None
  end.

Theorem C49_default_reaction tn what out r uncaught : proper r ->
  reaction_of (snd (default_report tn what out r uncaught)) = Some (default_reporter r uncaught).
Proof.
  intros Hp. pose proof (C49_default_reporter tn what out r uncaught Hp) as H. destruct (default_report tn what out r uncaught) as [wr lft].
  destruct H as (_ & H1 & H2). cbn [snd].
  destruct r; cbn [failure default_reporter] in *; try (destruct (uncaught =? 0)%nat);
    first [destruct (H1 eq_refl) as (e & -> & _); reflexivity|rewrite (H2 eq_refl); reflexivity].
Qed.

Theorem C49_basic_reaction tn what cb fail r uncaught : fail <> Returns ->
  (forall msg, cb ChFail msg = fail /\ cb ChSuccess msg = Returns /\ cb ChWarning msg = Returns) ->
  reaction_of (snd (basic_report tn what cb r uncaught)) = Some (basic_reporter fail r uncaught).
Proof.
  intros Hf Hcb. destruct r as [c l|c l|c m|r|k n|c r x]; cbn; try destruct (uncaught =? 0)%nat; cbn; auto;
    match goal with |- context [cb _ ?msg] => destruct (Hcb msg) as (E1 & E2 & E3); rewrite ?E1, ?E2, ?E3 end; auto;
    destruct fail; auto; contradiction.
Qed.

(** The asserts of the DefaultReporter never fail: every report ever delivered is proper. *)
Definition proper_event (ev : event) : Prop := match ev with EvReport _ r _ => proper r | _ => True end.

Lemma fail_report_proper rp u ss c es ml : match_loop rp u ss c es lists0 = Ret ml -> proper (fail_report c ml).
Proof.
  intros H. apply match_loop_ret in H. destruct H as (_ & _ & Hi & Hn & _). cbn [ml_inapplicable ml_none lists0 app] in *. unfold fail_report.
  assert (G : forall want m, In m (map snd (flat_map (sel rp u ss c want) es)) -> evaluate_match_report m = want).
  { intros want m Hm. apply in_map_iff in Hm. destruct Hm as ([n m'] & <- & Hm). apply sel_in in Hm. destruct Hm as (e & _ & _ & He). exact He. }
  destruct (ml_inapplicable ml) as [|p l] eqn:El.
  - cbn [proper]. rewrite Hn. apply G.
  - cbn [proper]. split; [discriminate|]. intros m Hm. rewrite Hi in Hm. eapply G; eauto.
Qed.

Lemma full_report_proper rp u ss c es ml first others n m :
  match_loop rp u ss c es lists0 = Ret ml -> ml_full ml = first :: others -> pick_best first others = Ret (n, m) ->
  proper (RFull (make_call_report c) m).
Proof.
  intros H Hf Hp. apply match_loop_ret in H. destruct H as (_ & Hfull & _). cbn [ml_full lists0 app] in Hfull.
  apply pick_best_in in Hp. rewrite <- Hf, Hfull in Hp. apply sel_in in Hp. destruct Hp as (e & _ & _ & He). exact He.
Qed.

Lemma released_proper w l d evs d' : released w l d evs d' -> Forall proper_event evs.
Proof.
  intros H. induction H as [|s l d evs d' Hk H IH|s q l d evs d' Hu Hd Hq H IH]; auto.
  apply Forall_app. split; auto. unfold dtor_events. destruct (seq_dtor_error q) as [[k n]|]; repeat constructor.
Qed.

Lemma unhandled_proper rid c l : Forall proper_event (map (unhandled_event rid c) l).
Proof. induction l as [|x l IH]; constructor; auto. exact I. Qed.

Lemma end_proper w sc e w' r : end_expectation (set_scoped w sc) e = Next w' r ->
  exists evs, w_trace w' = (w_trace w ++ evs)%list /\ Forall proper_event evs.
Proof.
  intros H. apply end_expectation_next in H. destruct H as (eo & l & unf & evs & d' & He & Hl & Hi & Hrel & -> & Hc).
  exists (unf ++ evs)%list. split; [reflexivity|]. apply Forall_app. split; [|exact (released_proper _ _ _ _ _ Hrel)].
  destruct Hc as [(_ & -> & _)|[(_ & y & _ & -> & _)|(_ & rep & _ & -> & _)]]; repeat constructor.
Qed.

Lemma step_proper w o w' r : step w o = Next w' r -> exists evs, w_trace w' = (w_trace w ++ evs)%list /\ Forall proper_event evs.
Proof.
  assert (Same : forall w1, w_trace w1 = w_trace w -> exists evs, w_trace w1 = (w_trace w ++ evs)%list /\ Forall proper_event evs).
  { intros w1 E1. exists []. rewrite app_nil_r. auto. }
  assert (One : forall w1 ev, w_trace w1 = (w_trace w ++ [ev])%list -> proper_event ev -> exists evs, w_trace w1 = (w_trace w ++ evs)%list /\ Forall proper_event evs).
  { intros w1 ev E1 He. exists [ev]. auto. }
  intros H. destruct o; cbn [step] in H.
  - inversion H; subst. apply Same; reflexivity.
  - destruct (nth s (w_iface w) false); [|discriminate]. apply release_seq_next in H.
    destruct H as [-> [[-> _]|(_ & _ & q & _ & -> & _)]]; [apply Same; reflexivity|].
    eexists. split; [reflexivity|]. unfold dtor_events. destruct (seq_dtor_error q) as [[k n]|]; repeat constructor.
  - destruct (_ && _); [|discriminate]. inversion H; subst. apply Same; reflexivity.
  - destruct (nth_error (w_mocks w) m) as [mk|]; [|discriminate]. destruct (mk_alive mk); [|discriminate]. inversion H; subst. apply Same; reflexivity.
  - destruct (nth_error (w_mocks w) dst) as [md|]; [|discriminate]. destruct (nth_error (w_mocks w) src) as [ms|]; [|discriminate].
    destruct (negb _); [discriminate|]. destruct (_ =? src)%nat; inversion H; subst; apply Same; reflexivity.
  - destruct (nth_error (w_mocks w) m) as [mk|]; [|discriminate]. destruct (mk_alive mk); [|discriminate]. inversion H; subst. apply Same; reflexivity.
  - apply do_expect_next in H. destruct H as (s & coll & _ & _ & _ & [(y & _ & -> & _)|(b & ss & ctl & mem & _ & _ & _ & _ & _ & ->)]);
      apply Same; reflexivity.
  - apply do_call_next in H. destruct H as (s & coll & _ & _ & H). apply handle_call_next in H. destruct H as (lst & es & ml & _ & _ & Hml & Hcr).
    inversion Hcr; subst; eexists; (split; [reflexivity|]); apply Forall_app; (split; [apply unhandled_proper|]); constructor; auto.
    + eapply full_report_proper; eauto.
    + eapply fail_report_proper; eauto.
  - unfold do_action in H. destruct (w_frames w) as [|f fs]; [discriminate|]. destruct (f_todo f); [discriminate|].
    destruct (negb _); [discriminate|]. inversion H; subst. eapply One; [reflexivity|exact I].
  - destruct (w_frames w) as [|f fs]; [discriminate|]. destruct (_ && _); discriminate.
  - unfold do_final in H. destruct (w_frames w) as [|f fs]; [discriminate|]. destruct (f_todo f); [|discriminate]. destruct (f_final f); [discriminate|].
    destruct (negb _); [discriminate|]. inversion H; subst. eapply One; [reflexivity|exact I].
  - unfold do_return in H. destruct (w_frames w) as [|f fs]; [discriminate|]. destruct (negb _); [discriminate|].
    destruct (nth_error (w_exps w) (f_exp f)); [|discriminate].
    destruct (finalizer_result _ _); [|unfold thrown in H; destruct (f_noexcept f); [discriminate|]]; inversion H; subst; apply Same; reflexivity.
  - destruct (nth_error (w_scoped w) h) as [[e| |]|]; try discriminate. destruct (nth_error (w_exps w) e) as [eo|]; [|discriminate].
    destruct (eo_alive eo); [|discriminate]. inversion H; subst. apply Same; reflexivity.
  - destruct (nth_error (w_scoped w) h) as [[e| |]|]; try discriminate; [eapply end_proper; eauto|]. inversion H; subst. apply Same; reflexivity.
  - destruct (nth_error (w_scoped w) h) as [[e| |]|]; try discriminate; inversion H; subst; apply Same; reflexivity.
  - destruct (nth_error (w_scoped w) dst) as [[e| |]|]; try discriminate; destruct (nth_error (w_scoped w) src) as [[e'| |]|]; try discriminate;
      (destruct (dst =? src)%nat; [inversion H; subst; apply Same; reflexivity|]);
      try (inversion H; subst; apply Same; reflexivity);
      (match type of H with context [end_expectation (set_scoped w ?sc) e] =>
         destruct (end_expectation (set_scoped w sc) e) as [w2 r2| | |] eqn:E; try discriminate;
         destruct r2; try discriminate; inversion H; subst; eapply end_proper; exact E end).
  - inversion H; subst. eapply One; [reflexivity|exact I].
  - inversion H; subst. apply Same; reflexivity.
Qed.

Theorem C49_delivered_reports_are_proper w to r who : reachable w -> In (EvReport to r who) (w_trace w) -> proper r.
Proof.
  intros Hr Hin. assert (H : Forall proper_event (w_trace w)).
  { revert w Hr Hin. intros w Hr _. revert w Hr. apply reachable_steps; [constructor|]. intros w o w' y Hr IH Hs.
    destruct (step_proper _ _ _ _ Hs) as (evs & -> & He). apply Forall_app. auto. }
  rewrite Forall_forall in H. exact (H _ Hin).
Qed.

(** This includes the reports of calls which end the program: what a reporter would do with improper reports does not matter. *)
Definition with_reporter (w : world) (rp : reporter) : world :=
  mkWorld (w_seqs w) (w_iface w) (w_sdead w) (w_exps w) (w_colls w) (w_mocks w) (w_scoped w) (w_frames w) (w_rid w) rp (w_uncaught w) (w_trace w).
Definition stepped_with (rp : reporter) (s : stepped) : stepped := match s with Next w r => Next (with_reporter w rp) r | other => other end.

Theorem C49_calls_send_proper_reports w rp m ov args l :
  (forall r, proper r -> rp r (w_uncaught w) = w_reporter w r (w_uncaught w)) ->
  step (with_reporter w rp) (OCall m ov args l) = stepped_with rp (step w (OCall m ov args l)).
Proof.
  intros Hag. cbn [step].
  assert (A : forall e c, make_match_report rp (w_uncaught w) (w_seqs w) e c = make_match_report (w_reporter w) (w_uncaught w) (w_seqs w) e c).
  { intros e c. unfold make_match_report. destruct (exp_matches (w_seqs w) e c); auto. destruct (exp_report_of (w_seqs w) e); auto. cbn [obind].
    rewrite Hag by exact I. reflexivity. }
  assert (B : forall c es acc, match_loop rp (w_uncaught w) (w_seqs w) c es acc = match_loop (w_reporter w) (w_uncaught w) (w_seqs w) c es acc).
  { intros c es. induction es as [|[n e] es IH]; intros acc; auto. cbn [match_loop]. rewrite A. destruct (make_match_report _ _ _ _ _); auto.
    cbn [obind]. apply IH. }
  assert (C : forall coll c ne, handle_call (with_reporter w rp) coll c ne = stepped_with rp (handle_call w coll c ne)).
  { intros coll c ne. unfold handle_call. change (w_colls (with_reporter w rp)) with (w_colls w).
    destruct (nth_error (w_colls w) coll) as [lst|]; auto.
    replace (lookup_exps (with_reporter w rp) (rev lst)) with (lookup_exps w (rev lst)).
    2:{ generalize (rev lst). induction l0 as [|n k IH]; auto. cbn [lookup_exps]. rewrite IH. reflexivity. }
    destruct (lookup_exps w (rev lst)) as [es|]; auto.
    change (w_reporter (with_reporter w rp)) with rp. change (w_uncaught (with_reporter w rp)) with (w_uncaught w).
    change (w_seqs (with_reporter w rp)) with (w_seqs w). rewrite B. fold lists0.
    destruct (match_loop (w_reporter w) (w_uncaught w) (w_seqs w) c es lists0) as [ml|x| |u] eqn:Hml; auto.
    2:{ exfalso. eapply match_loop_nothrow; eauto. }
    rewrite !emit_unhandled_add. change (w_rid (with_reporter w rp)) with (w_rid w).
    destruct (ml_full ml) as [|first others] eqn:Ef.
    - fold (fail_report c ml). fold (fail_who ml). unfold react.
      change (w_reporter (add_trace (with_reporter w rp) ?e)) with rp.
      cbn [w_reporter w_uncaught add_trace with_reporter]. rewrite Hag by (eapply fail_report_proper; eauto).
      destruct (w_reporter w (fail_report c ml) (w_uncaught w)); auto. unfold thrown. destruct ne; reflexivity.
    - destruct (pick_best first others) as [[n mr]|x| |u] eqn:Hp; auto.
      2:{ exfalso. eapply pick_best_nothrow; eauto. }
      unfold react. cbn [w_reporter w_uncaught add_trace with_reporter]. rewrite Hag by (eapply full_report_proper; eauto).
      destruct (w_reporter w (RFull (make_call_report c) mr) (w_uncaught w)); auto.
      cbn [w_exps w_seqs w_reporter w_uncaught add_trace with_reporter emit_report emit].
      destruct (nth_error (w_exps w) n) as [eo|]; auto.
      destruct (control_consume (w_seqs w) (e_ctl (eo_exp eo))) as [[ss ctl]|x| |u]; auto.
      + destruct (consume_asserts (e_policies (eo_exp eo)) c); auto.
      + unfold thrown. destruct ne; reflexivity. }
  unfold do_call. replace (find_overload (with_reporter w rp) m ov) with (find_overload w m ov) by reflexivity.
  destruct (find_overload w m ov) as [r|[s coll]] eqn:Ef; [|destruct (negb _); auto].
  unfold find_overload in Ef. destruct (nth_error (w_mocks w) m) as [mk|]; [|inversion Ef; reflexivity].
  destruct (negb (mk_alive mk)); [inversion Ef; reflexivity|]. destruct (nth_error (mk_sigs mk) ov); [|inversion Ef; reflexivity].
  destruct (mk_colls mk) as [cs|]; [destruct (nth_error cs ov)|]; inversion Ef; reflexivity.
Qed.

(** Consequences for the installed DefaultReporter: its asserts hold in every reachable program. *)
Theorem C49_no_assert tn what out w to r who uncaught : reachable w -> In (EvReport to r who) (w_trace w) ->
  forall u, snd (default_report tn what out r uncaught) <> LeftUndef u.
Proof.
  intros Hr Hin u H. pose proof (C49_default_reaction tn what out r uncaught (C49_delivered_reports_are_proper _ _ _ _ Hr Hin)) as E.
  rewrite H in E. discriminate.
Qed.

(** A call without expectations, an unfulfilled expectation, an unfulfilled expectation while unwinding, a match. *)
Definition names (t : ty) : string := "void".
Definition no_what (x : exn) : option string := None.
Definition lonely : call_report := make_call_report (mkCall 0 [] [] CatAny NonConst here).
Definition unful : exp_report := mkExpReport (Some here) None (Some "matched never - exactly once is expected") [].
Example C49_example :
  default_report names no_what true (RNoMatch lonely []) 3
  = ([stringify_no_match names lonely [] ++ nl], LeftError (ErrUnmatched (stringify_no_match names lonely []) lonely [] here)) /\
  default_report names no_what false (RUnfulfilled unful) 0 = ([], LeftError (ErrUnfulfilled (stringify_unfulfilled unful) unful)) /\
  default_report names no_what true (RUnfulfilled unful) 1 = ([], LeftReturn) /\
  basic_report names no_what (fun ch _ => match ch with ChFail => Throws | _ => Returns end) (RError 1 2) 0
  = ([(ChFail, "Unfulfilled sequence. 1 out of 2 expectation(s) are satisfied.")], LeftCallback) /\
  basic_report names no_what (fun _ _ => Throws) (RFull lonely (mkMatchReport (Some here) None (StApplicable 1 1 0 []) [])) 0
  = ([(ChSuccess, stringify_full names lonely (mkMatchReport (Some here) None (StApplicable 1 1 0 []) []))], LeftTerminate).
Proof. repeat split. Qed.

(** A program with all kinds of proper reports; the list shows the kinds delivered. *)
Definition prog_kinds : list op :=
  [ONewMock [sig_void]; OCall 0 0 [] here; OExpect 0 0 [] [] here; OCall 0 0 [] here; OFinal; OReturn (UOk VOpaque); OCall 0 0 [] here].
Example C49_proper_example : reachable (after prog_kinds) /\
  map (fun ev => match ev with
                 | EvReport _ (RNoMatch _ l) _ => (1, List.length l)
                 | EvReport _ (RInapplicable _ l) _ => (2, List.length l)
                 | EvReport _ (RFull _ _) _ => (3, 1)
                 | _ => (0, 0)
                 end) (w_trace (after prog_kinds)) = [(1, 0); (3, 1); (0, 0); (2, 1)].
Proof. split; [apply after_reachable; reflexivity|vm_compute; reflexivity]. Qed.

Print Assumptions C49_default_reporter.
Print Assumptions C49_error_data.
Print Assumptions C49_basic_reporter.
Print Assumptions C49_basic_reporter_left.
Print Assumptions C49_default_reaction.
Print Assumptions C49_basic_reaction.
Print Assumptions C49_delivered_reports_are_proper.
Print Assumptions C49_calls_send_proper_reports.
Print Assumptions C49_no_assert.
