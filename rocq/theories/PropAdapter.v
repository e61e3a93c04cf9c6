(** * PropAdapter: the adapters for test frameworks (C73) and the lifetime of the installed reporter (C74). *)

From Verif Require Import Base Signature Sequence Control Printer Reports Expectation World Scenario Reporter PropReporter Adapter.
Local Open Scope string_scope.

(** ** C73: what the frameworks are told *)

(** The specification as a table: failures are failures of the framework, matches are successes if the framework knows them, and unhandled
    exceptions are warnings if the framework knows them; Boost.Test gets both as log messages, told apart by a prefix. *)
Definition told (a : adapter) (r : report) (uncaught : nat) (text : string) : option (facility * string) :=
  if failure r uncaught then Some (FFail, text)
  else match r, a with
       | RFull _ _, BoostTest => Some (FMessage, text)
       | RFull _ _, _ => Some (FSucceed, text)
       | RUnhandled _ _ _, Catch2 => Some (FWarn, text)
       | RUnhandled _ _ _, Doctest => Some (FMessage, text)
       | RUnhandled _ _ _, BoostTest => Some (FMessage, "warning: " ++ text)
       | _, _ => None
       end.

(** Exactly one use of the framework with the text of the report, or none at all. *)
Theorem C73_framework_uses fw tn what a r uncaught :
  fst (adapter_report fw tn what a r uncaught)
  = match told a r uncaught (text_of tn what r) with Some u => [u] | None => [] end.
Proof.
  unfold adapter_report. pose proof (C49_basic_reporter tn what (adapter_callback fw a) r uncaught) as H.
  destruct (basic_report tn what (adapter_callback fw a) r uncaught) as [calls lft]. cbn [fst] in *. subst calls.
  unfold told. destruct (failure r uncaught); [destruct a; reflexivity|].
  destruct r; destruct a; reflexivity.
Qed.

(** How the report is left. A failure: as FAIL is left, but never by returning: gtest's adapter throws then, for the others it is undefined.
    A match: by returning or the program ends. An unhandled exception: as the macro is left; all other reports just return. *)
Theorem C73_left fw tn what a r uncaught :
  let text := text_of tn what r in
  snd (adapter_report fw tn what a r uncaught)
  = match told a r uncaught text with
    | None => LeftReturn
    | Some (f, m) =>
        match fw f m with
        | Terminates => LeftTerminate
        | Throws => match r with RFull _ _ => LeftTerminate | _ => LeftCallback end
        | Returns => if failure r uncaught then match a with GTest => LeftCallback | _ => LeftUndef UbUnreachable end else LeftReturn
        end
    end.
Proof.
  cbn zeta. unfold adapter_report, told.
  destruct r as [c l|c l|c m|r|k n|c r x]; cbn [basic_report failure text_of]; try (destruct (uncaught =? 0)%nat);
    unfold send_fail, send, adapter_callback; destruct a; cbn [adapter_uses snd no_throw]; try reflexivity;
    match goal with |- context [fw ?f ?m] => destruct (fw f m) end; reflexivity.
Qed.

(** So with a framework whose failing macro never returns (Catch2, doctest, Boost.Test) or with gtest, whose macro may, and whose other
    macros return, the adapter behaves as the reporter of the world model: all theorems about programs apply to it. *)
Theorem C73_world_reporter fw tn what a fail r uncaught :
  (forall msg, fw FFail msg = fail) -> (forall f msg, f <> FFail -> fw f msg = Returns) ->
  (fail = Returns -> a = GTest) ->
  reaction_of (snd (adapter_report fw tn what a r uncaught))
  = Some (basic_reporter (match fail with Returns => Throws | other => other end) r uncaught).
Proof.
  intros Hf Ho Hg. unfold adapter_report.
  pose proof (C49_basic_reaction tn what (adapter_callback fw a) (match fail with Returns => Throws | other => other end) r uncaught) as H.
  destruct (basic_report tn what (adapter_callback fw a) r uncaught) as [calls lft]. cbn [snd] in *. apply H.
  - destruct fail; discriminate.
  - intros msg. unfold adapter_callback. destruct a; cbn [adapter_uses]; rewrite ?Hf, ?(Ho FSucceed), ?(Ho FWarn), ?(Ho FMessage) by discriminate;
      destruct fail; auto; specialize (Hg eq_refl); discriminate.
Qed.

(** Undefined behaviour arises from a report iff it is a failure, the macro for failures returns, and the framework is not gtest. *)
Theorem C73_undefined fw tn what a r uncaught u :
  snd (adapter_report fw tn what a r uncaught) = LeftUndef u <->
  u = UbUnreachable /\ failure r uncaught = true /\ fw FFail (text_of tn what r) = Returns /\ a <> GTest.
Proof.
  rewrite C73_left. cbn zeta. unfold told. destruct (failure r uncaught) eqn:Ef.
  - destruct (fw FFail (text_of tn what r)) eqn:Er.
    + destruct a; split; intros H; try discriminate; try (inversion H; subst; repeat split; auto; discriminate);
        try (destruct H as (-> & _); reflexivity). destruct H as (_ & _ & _ & H). contradiction.
    + split; [destruct r; discriminate|]. intros (_ & _ & H & _). discriminate.
    + split; [destruct r; discriminate|]. intros (_ & _ & H & _). discriminate.
  - split; [|intros (_ & H & _); discriminate].
    destruct r; destruct a; try discriminate;
      match goal with |- context [fw ?f ?m] => destruct (fw f m); discriminate end.
Qed.

(** In the log of Boost.Test matches and unhandled exceptions are told apart: no message is both. *)
Theorem C73_boost_messages_distinct tn what c m c' r x :
  told BoostTest (RFull c m) 0 (text_of tn what (RFull c m)) <> told BoostTest (RUnhandled c' r x) 0 (text_of tn what (RUnhandled c' r x)).
Proof. cbn. unfold stringify_full, stringify_unhandled. cbn. intros H. inversion H. Qed.

(** False: every report except of matches reaches the user. gtest's adapter drops the unhandled exceptions. *)
Theorem C73_unhandled_reported_refuted :
  exists a r, warning r = true /\ forall fw tn what uncaught, adapter_report fw tn what a r uncaught = ([], LeftReturn).
Proof. exists GTest, (RUnhandled lonely unful (EUser 7)). split; reflexivity. Qed.

(** The four adapters with a failing and a matching call, with frameworks as they are; and Catch2's with a FAIL that returns. *)
Definition usual (f : facility) (_ : string) : reaction := match f with FFail => Throws | _ => Returns end.
Definition returning (_ : facility) (_ : string) : reaction := Returns.
Definition matched : report := RFull lonely (mkMatchReport (Some here) None (StApplicable 1 1 0 []) []).
Example C73_example :
  let text r := text_of names no_what r in
  (forall a, adapter_report usual names no_what a (RNoMatch lonely []) 0 = ([(FFail, text (RNoMatch lonely []))], LeftCallback)) /\
  adapter_report returning names no_what Catch2 (RNoMatch lonely []) 0 = ([(FFail, text (RNoMatch lonely []))], LeftUndef UbUnreachable) /\
  adapter_report returning names no_what GTest (RNoMatch lonely []) 0 = ([(FFail, text (RNoMatch lonely []))], LeftCallback) /\
  adapter_report usual names no_what BoostTest matched 0 = ([(FMessage, text matched)], LeftReturn) /\
  adapter_report usual names no_what Doctest matched 0 = ([(FSucceed, text matched)], LeftReturn) /\
  adapter_report (fun _ _ => Throws) names no_what Catch2 matched 0 = ([(FSucceed, text matched)], LeftTerminate) /\
  (forall a, adapter_report usual names no_what a (RUnfulfilled unful) 1 = ([], LeftReturn)) /\
  adapter_report usual names no_what BoostTest (RUnhandled lonely unful (EUser 7)) 0
  = ([(FMessage, "warning: " ++ text (RUnhandled lonely unful (EUser 7)))], LeftReturn).
Proof. repeat split; intros []; reflexivity. Qed.

(** ** C74: the lifetime of the reporter *)

Definition touches (e : life) : bool := match e with LStatic _ => false | _ => true end.
Definition installs (e : life) : option adapter := match e with LInstaller a | LInstall a => Some a | _ => None end.
Definition unquiet (e : life) : bool := match e with LStatic q => negb q | _ => false end.
Definition lived (es : list life) : lifetime := fold_left live es life0.

Lemma lived_snoc es e : lived (es ++ [e])%list = live (lived es) e.
Proof. unfold lived. rewrite fold_left_app. reflexivity. Qed.

Lemma lived_untouched es : Forall (fun e => touches e = false) es ->
  lf_reporter (lived es) = None /\ lf_statics (lived es) = map (fun e => match e with LStatic q => StChecked q | _ => StReporter end) es.
Proof.
  induction es as [|e es IH] using rev_ind; [split; reflexivity|]. intros H. apply Forall_app in H. destruct H as [H1 H2].
  inversion H2; subst. destruct (IH H1) as [E1 E2]. rewrite lived_snoc, map_app.
  destruct e; try discriminate. cbn. rewrite E1, E2. auto.
Qed.

(** The reporter in use is the one installed last; before that the default one; it does not exist before it is needed. *)
Theorem C74_last_installed es1 e es2 a : installs e = Some a -> Forall (fun e' => installs e' = None) es2 ->
  lf_reporter (lived (es1 ++ e :: es2)%list) = Some (Some a).
Proof.
  intros He H. induction es2 as [|e' es2 IH] using rev_ind.
  - rewrite lived_snoc. destruct e; inversion He; subst; reflexivity.
  - apply Forall_app in H. destruct H as [H1 H2]. inversion H2; subst.
    replace (es1 ++ e :: es2 ++ [e'])%list with ((es1 ++ e :: es2) ++ [e'])%list by (rewrite <- app_assoc; reflexivity).
    rewrite lived_snoc. specialize (IH H1). destruct e'; try discriminate; cbn [live]; unfold get_reporter; rewrite ?IH; auto.
Qed.

Theorem C74_default es : Forall (fun e => installs e = None) es ->
  lf_reporter (lived es) = if existsb touches es then Some None else None.
Proof.
  induction es as [|e es IH] using rev_ind; [reflexivity|]. intros H. apply Forall_app in H. destruct H as [H1 H2]. inversion H2; subst.
  rewrite lived_snoc, existsb_app. specialize (IH H1). destruct e; try discriminate; cbn [live existsb touches]; unfold get_reporter.
  - cbn. rewrite IH, orb_false_r. reflexivity.
  - rewrite IH. destruct (existsb touches es); [cbn; rewrite IH|]; reflexivity.
Qed.

(** The objects: the reporter is constructed once, at the first event needing it. *)
Lemma statics_after es1 e es2 : Forall (fun e' => touches e' = false) es1 -> touches e = true ->
  lf_reporter (lived (es1 ++ e :: es2)%list) <> None /\
  lf_statics (lived (es1 ++ e :: es2)%list)
  = (map (fun e => match e with LStatic q => StChecked q | _ => StReporter end) es1 ++ StReporter ::
     flat_map (fun e => match e with LStatic q => [StChecked q] | _ => [] end) es2)%list.
Proof.
  intros H1 He. destruct (lived_untouched es1 H1) as [E1 E2]. induction es2 as [|e' es2 IH] using rev_ind.
  - rewrite lived_snoc. destruct e; try discriminate; cbn [live]; unfold install, get_reporter; rewrite E1; cbn; rewrite E2; split; auto; discriminate.
  - replace (es1 ++ e :: es2 ++ [e'])%list with ((es1 ++ e :: es2) ++ [e'])%list by (rewrite <- app_assoc; reflexivity).
    rewrite lived_snoc, flat_map_app. destruct IH as [I1 I2].
    destruct (lf_reporter (lived (es1 ++ e :: es2)%list)) as [rp|] eqn:Er; [|contradiction].
    destruct e'; cbn [live flat_map]; unfold install, get_reporter; rewrite ?Er; cbn [lf_reporter lf_statics];
      rewrite ?app_nil_r, I2; (split; [congruence|]); rewrite <- ?app_assoc; reflexivity.
Qed.

Lemma end_quiet dead l rest : Forall (fun o => o <> StReporter) l ->
  end_statics dead (l ++ rest) =
  if existsb (fun o => match o with StChecked false => true | _ => false end) l then (if dead then Broken UbDangling else Terminated)
  else end_statics dead rest.
Proof.
  induction l as [|o l IH]; auto. intros H. inversion H; subst. destruct o as [|[]]; [contradiction| |reflexivity].
  cbn. apply IH. auto.
Qed.

Lemma existsb_rev {A} (p : A -> bool) l : existsb p (rev l) = existsb p l.
Proof.
  induction l as [|x l IH]; auto. cbn [rev existsb]. rewrite existsb_app, IH. cbn [existsb]. rewrite orb_false_r. apply orb_comm.
Qed.

(** The end of the program. No report was ever made and no reporter installed: an unfulfilled static object terminates. *)
Theorem C74_end_untouched es : Forall (fun e => touches e = false) es ->
  terminate_program (lived es) = if existsb unquiet es then Terminated else Clean.
Proof.
  intros H. destruct (lived_untouched es H) as [_ E]. unfold terminate_program. rewrite E, <- map_rev, <- (app_nil_r (map _ (rev es))).
  rewrite end_quiet.
  - rewrite <- (existsb_rev unquiet). cbn [end_statics]. assert (Hr : Forall (fun e => touches e = false) (rev es)) by (apply Forall_rev; auto).
    clear E. induction Hr as [|e l He Hl IH]; auto. cbn [map existsb]. destruct e as [| |[]|]; try discriminate; cbn; auto.
  - apply Forall_forall. intros o Ho. apply in_map_iff in Ho. destruct Ho as (e & <- & Hin). apply in_rev in Hin.
    rewrite Forall_forall in H. specialize (H e Hin). destruct e; discriminate.
Qed.

(** Otherwise only the objects constructed after the first use of the reporter are checked while it exists. *)
Theorem C74_end es1 e es2 : Forall (fun e' => touches e' = false) es1 -> touches e = true ->
  terminate_program (lived (es1 ++ e :: es2)%list)
  = if existsb unquiet es2 then Terminated else if existsb unquiet es1 then Broken UbDangling else Clean.
Proof.
  intros H1 He. destruct (statics_after es1 e es2 H1 He) as [_ E]. unfold terminate_program. rewrite E, rev_app_distr.
  cbn [rev]. rewrite <- app_assoc, end_quiet.
  - rewrite existsb_rev.
    replace (existsb _ (flat_map _ es2)) with (existsb unquiet es2).
    2:{ induction es2 as [|e' l IH]; auto. cbn [flat_map existsb]. rewrite existsb_app. f_equal.
        - destruct e' as [| |[]|]; reflexivity.
        - apply IH. destruct (statics_after es1 e l H1 He) as [_ E']. exact E'. }
    destruct (existsb unquiet es2); [reflexivity|]. cbn [app end_statics]. rewrite <- (app_nil_r (rev (map _ es1))), end_quiet.
    + rewrite existsb_rev. replace (existsb _ (map _ es1)) with (existsb unquiet es1); [reflexivity|].
      clear E. induction H1 as [|e' l He' Hl IH]; auto. cbn [map existsb]. rewrite IH. destruct e' as [| |[]|]; try discriminate; reflexivity.
    + apply Forall_rev. apply Forall_forall. intros o Ho. apply in_map_iff in Ho. destruct Ho as (e' & <- & Hin).
      rewrite Forall_forall in H1. specialize (H1 e' Hin). destruct e'; discriminate.
  - apply Forall_rev. apply Forall_forall. intros o Ho. apply in_flat_map in Ho. destruct Ho as (e' & _ & Hin).
    destruct e'; cbn in Hin; try contradiction; destruct Hin as [<-|[]]; discriminate.
Qed.

(** So it ends cleanly iff all of them are fulfilled, however the events are ordered. *)
Lemma split_touch es : Forall (fun e => touches e = false) es \/
  exists es1 e es2, es = (es1 ++ e :: es2)%list /\ Forall (fun e' => touches e' = false) es1 /\ touches e = true.
Proof.
  induction es as [|e es [IH|(es1 & e' & es2 & -> & H1 & H2)]]; [left; constructor| |];
    (destruct (touches e) eqn:Et; [right; exists [], e; eexists; split; [reflexivity|]; auto|]).
  - left. constructor; auto.
  - right. exists (e :: es1), e', es2. split; [reflexivity|]. split; auto.
Qed.

Theorem C74_clean_iff es : terminate_program (lived es) = Clean <-> existsb unquiet es = false.
Proof.
  destruct (split_touch es) as [H|(es1 & e & es2 & -> & H1 & H2)].
  - rewrite C74_end_untouched by auto. destruct (existsb unquiet es); split; intros; congruence.
  - rewrite C74_end by auto. rewrite existsb_app. cbn [existsb]. replace (unquiet e) with false by (destruct e; try reflexivity; discriminate).
    destruct (existsb unquiet es1), (existsb unquiet es2); cbn; split; intros; congruence.
Qed.

(** Objects defined behind the inclusion of an adapter are always checked properly: its installer is initialised before them. *)
Theorem C74_adapter_first a es : terminate_program (lived (LInstaller a :: es)) = if existsb unquiet es then Terminated else Clean.
Proof. exact (C74_end [] (LInstaller a) es (Forall_nil _) eq_refl). Qed.

(** False: a static expectation may be checked after everything else. Without an adapter (or before its inclusion) it may use a destroyed
    reporter: here it is constructed first, then some other call is reported. *)
Theorem C74_static_expectations_refuted :
  exists es, ~ In (LStatic true) es /\ terminate_program (lived es) = Broken UbDangling.
Proof. exists [LStatic false; LReport]. split; [intros [H|[H|[]]]; discriminate|reflexivity]. Qed.

(** Two adapters and several objects. *)
Example C74_example :
  lf_reporter (lived [LInstaller Catch2; LStatic true; LInstaller GTest; LReport; LStatic false]) = Some (Some GTest) /\
  terminate_program (lived [LInstaller Catch2; LStatic true; LInstaller GTest; LReport; LStatic false]) = Terminated /\
  terminate_program (lived [LStatic true; LReport; LStatic true]) = Clean /\
  terminate_program (lived [LStatic false; LReport; LStatic false]) = Terminated /\
  terminate_program (lived [LStatic false; LStatic true; LInstaller Doctest; LStatic true]) = Broken UbDangling.
Proof. repeat split. Qed.

Print Assumptions C73_framework_uses.
Print Assumptions C73_left.
Print Assumptions C73_world_reporter.
Print Assumptions C73_undefined.
Print Assumptions C73_boost_messages_distinct.
Print Assumptions C73_unhandled_reported_refuted.
Print Assumptions C74_last_installed.
Print Assumptions C74_default.
Print Assumptions C74_end_untouched.
Print Assumptions C74_end.
Print Assumptions C74_clean_iff.
Print Assumptions C74_adapter_first.
Print Assumptions C74_static_expectations_refuted.
