(** * RecorderProofs: operations with reporters with a state are operations of [World] with reporters without. *)

From Verif Require Import Base Lib Sequence Control Signature Printer Reports Expectation Builder World WorldSpec StepCases MatchLemmas Recorder.

(** Another reporter, another number of it, another past. *)
Definition dress (w : world) (i : nat) (f : reporter) (t : list event) : world :=
  mkWorld (w_seqs w) (w_iface w) (w_sdead w) (w_exps w) (w_colls w) (w_mocks w) (w_scoped w) (w_frames w) i f (w_uncaught w) t.

Lemma lookup_dress w i f t l : lookup_exps (dress w i f t) l = lookup_exps w l.
Proof. induction l as [|n l IH]; cbn [lookup_exps]; [reflexivity|]. rewrite IH. reflexivity. Qed.
Lemma find_dress w i f t m ov : find_overload (dress w i f t) m ov = find_overload w m ov.
Proof. reflexivity. Qed.

(** Reactions of [f] which only depend on the kind of the report. *)
Definition by_kind (aU aF aE aM : reaction) : reporter := fun r _ =>
  match r with
  | RUnhandled _ _ _ => aU
  | RUnfulfilled _ => aF
  | RError _ _ => aE
  | _ => aM
  end.

Section Loop.
Context {R : Type}.

Lemma attempt_frozen (rp : report -> R -> reaction * R) ss e c z f un :
  match r_make_match_report rp ss e c z with
  | (Ret (AttemptUnhandled r x), z1) => rp (RUnhandled (make_call_report c) r x) z = (Returns, z1) /\
      (f (RUnhandled (make_call_report c) r x) un = Returns -> make_match_report f un ss e c = Ret (AttemptUnhandled r x)) /\
      (f (RUnhandled (make_call_report c) r x) un = Terminates -> make_match_report f un ss e c = Terminate)
  | (Terminate, z1) =>
      make_match_report f un ss e c = Terminate /\ z1 = z \/
      exists r x a, rp (RUnhandled (make_call_report c) r x) z = (a, z1) /\ a <> Returns /\
        (f (RUnhandled (make_call_report c) r x) un = Terminates -> make_match_report f un ss e c = Terminate)
  | (o, z1) => make_match_report f un ss e c = o /\ z1 = z
  end.
Proof.
  unfold r_make_match_report, make_match_report. destruct (exp_matches ss e c) as [m|x| |b]; auto.
  destruct (exp_report_of ss e) as [r|y| |b]; cbn [obind noexcept_of]; auto.
  destruct (rp _ z) as [[] z1] eqn:E.
  - split; auto. split; intros ->; reflexivity.
  - right. exists r, x, Throws. split; auto. split; [discriminate|]. intros ->; reflexivity.
  - right. exists r, x, Terminates. split; auto. split; [discriminate|]. intros ->; reflexivity.
Qed.

Lemma loop_frozen (rp : report -> R -> reaction * R) ss c es : forall acc z, exists a,
  (a = Returns \/ a = Terminates /\ fst (r_match_loop rp ss c es acc z) = Terminate) /\
  forall f un, (forall k r x, f (RUnhandled k r x) un = a) -> match_loop f un ss c es acc = fst (r_match_loop rp ss c es acc z).
Proof.
  induction es as [|[n e] es IH]; intros acc z; cbn [r_match_loop match_loop]; [exists Returns; auto|].
  pose proof (fun f un => attempt_frozen rp ss e c z f un) as H.
  destruct (r_make_match_report rp ss e c z) as [[[m|r x]|y| |b] z1].
  - match goal with |- context [r_match_loop rp ss c es ?acc1 z1] => destruct (IH acc1 z1) as (a & Ha & Hf) end. exists a. split; auto.
    intros f un Hk. destruct (H f un) as [-> ->]. cbn [obind]. auto.
  - match goal with |- context [r_match_loop rp ss c es ?acc1 z1] => destruct (IH acc1 z1) as (a & Ha & Hf) end. exists a. split; auto.
    intros f un Hk. destruct (H f un) as (_ & H1 & H2). destruct Ha as [->|[-> Ht]].
    + rewrite H1 by auto. cbn [obind]. auto.
    + rewrite H2 by auto. cbn [obind]. auto.
  - exists Returns. split; auto. intros f un _. destruct (H f un) as [-> _]. reflexivity.
  - exists Terminates. split; auto. intros f un Hk. destruct (H f un) as [[-> _]|(r & x & a & _ & _ & Ht)]; [reflexivity|]. rewrite Ht by auto. reflexivity.
  - exists Returns. split; auto. intros f un _. destruct (H f un) as [-> _]. reflexivity.
Qed.
End Loop.

Section Sim.
Context {R : Type} (rp : recorder R) (I : nat -> nat -> Prop) (T : list event -> list event -> Prop).
Context (T_report : forall i i' t t' r who, I i i' -> T t t' -> T (t ++ [EvReport i r who]) (t' ++ [EvReport i' r who]))
  (T_action : forall t t' e n, T t t' -> T (t ++ [EvAction e n]) (t' ++ [EvAction e n]))
  (T_final : forall t t' e, T t t' -> T (t ++ [EvFinal e]) (t' ++ [EvFinal e]))
  (T_install : forall i i' t t', I i i' -> T t t' -> I (S i) (S i') /\ T (t ++ [EvInstall (S i)]) (t' ++ [EvInstall (S i')])).

(** Equal up to the reporter, its number and the past. *)
Definition sim (w w' : world) : Prop := exists i f t, w' = dress w i f t /\ I (w_rid w) i /\ T (w_trace w) t.
Definition ssim (s s' : stepped) : Prop :=
  match s, s' with
  | Next w r, Next w' r' => sim w w' /\ r = r'
  | Stop, Stop => True
  | Wrong u, Wrong u' => u = u'
  | Invalid, Invalid => True
  | _, _ => False
  end.

Lemma sim_dress w i f t : I (w_rid w) i -> T (w_trace w) t -> sim w (dress w i f t).
Proof. intros. exists i, f, t. auto. Qed.

Lemma sim_unhandled c l : forall t t' i i', I i i' -> T t t' -> T (t ++ map (unhandled_event i c) l) (t' ++ map (unhandled_event i' c) l).
Proof.
  induction l as [|[n [r x]] l IH]; intros t t' i i' Hi Ht; cbn [map]; [rewrite !app_nil_r; auto|].
  change (unhandled_event i c (n, (r, x)) :: map (unhandled_event i c) l) with ([unhandled_event i c (n, (r, x))] ++ map (unhandled_event i c) l).
  change (unhandled_event i' c (n, (r, x)) :: map (unhandled_event i' c) l) with ([unhandled_event i' c (n, (r, x))] ++ map (unhandled_event i' c) l).
  rewrite !app_assoc. apply IH; auto. apply T_report; auto.
Qed.

Lemma call_frozen w coll c ne z : exists aU aM, forall i t, I (w_rid w) i -> T (w_trace w) t ->
  forall f, (forall k r x, f (RUnhandled k r x) (w_uncaught w) = aU) ->
  (forall r, (match r with RNoMatch _ _ | RInapplicable _ _ | RFull _ _ => True | _ => False end) -> f r (w_uncaught w) = aM) ->
  ssim (fst (r_handle_call rp w coll c ne z)) (handle_call (dress w i f t) coll c ne).
Proof.
  unfold r_handle_call, handle_call. cbn [dress w_colls].
  destruct (nth_error (w_colls w) coll) as [l|]; [|exists Returns, Returns; intros; cbn; auto].
  destruct (lookup_exps w (rev l)) as [es|] eqn:Hl; [|exists Returns, Returns; intros i t Hi Ht f Hu Hm; rewrite lookup_dress, Hl; cbn; auto].
  destruct (loop_frozen (r_react rp w) (w_seqs w) c es lists0 z) as (a & _ & Hf). fold lists0.
  destruct (r_match_loop (r_react rp w) (w_seqs w) c es lists0 z) as [o z1]. cbn [fst] in Hf.
  assert (G : forall i f t, (forall k r x, f (RUnhandled k r x) (w_uncaught w) = a) ->
    match_loop (w_reporter (dress w i f t)) (w_uncaught (dress w i f t)) (w_seqs (dress w i f t)) c es lists0 = o) by (intros; apply Hf; auto).
  destruct o as [ml|x| |b].
  2:{ exists a, Returns. intros i t Hi Ht f Hu Hm. rewrite lookup_dress, Hl. cbv zeta. rewrite G by auto. unfold thrown. cbn [fst]. destruct ne; cbn; auto. split; auto. apply sim_dress; auto. }
  2-3: exists a, Returns; intros i t Hi Ht f Hu Hm; rewrite lookup_dress, Hl; cbv zeta; rewrite G by auto; cbn; auto.
  cbv zeta. rewrite emit_unhandled_add. destruct (ml_full ml) as [|first others] eqn:Hfull.
  - set (rep := match ml_inapplicable ml with [] => _ | _ => _ end). set (who := match ml_inapplicable ml with [] => _ | _ => _ end).
    destruct (r_react rp (add_trace w (map (unhandled_event (w_rid w) c) (ml_unhandled ml))) rep z1) as [aM z2]. exists a, aM. intros i t Hi Ht f Hu Hm.
    rewrite lookup_dress, Hl. rewrite G by auto. rewrite Hfull, emit_unhandled_add. unfold react. cbn [add_trace dress w_reporter w_uncaught w_rid]. fold rep. fold who.
    rewrite (Hm rep) by (unfold rep; destruct (ml_inapplicable ml); exact Logic.I).
    destruct aM; cbn [fst]; cbn [ssim]; auto. unfold thrown. destruct ne; cbn; auto. split; auto.
    exists i, f, ((t ++ map (unhandled_event i c) (ml_unhandled ml)) ++ [EvReport i rep who]). split; [reflexivity|]. split; auto. cbn.
    apply T_report; auto. apply sim_unhandled; auto.
  - destruct (pick_best first others) as [[n m]|x| |b] eqn:Hp.
    2:{ exists a, Returns. intros i t Hi Ht f Hu Hm. rewrite lookup_dress, Hl, G by auto. rewrite Hfull, Hp, emit_unhandled_add. unfold thrown. destruct ne; cbn; auto.
        split; auto. exists i, f, (t ++ map (unhandled_event i c) (ml_unhandled ml)). split; [reflexivity|]. split; auto. apply sim_unhandled; auto. }
    2-3: exists a, Returns; intros i t Hi Ht f Hu Hm; rewrite lookup_dress, Hl, G by auto; rewrite Hfull, Hp; cbn; auto.
    set (rep := RFull (make_call_report c) m).
    destruct (r_react rp (add_trace w (map (unhandled_event (w_rid w) c) (ml_unhandled ml))) rep z1) as [aM z2]. exists a, aM. intros i t Hi Ht f Hu Hm.
    rewrite lookup_dress, Hl, G by auto. rewrite Hfull, Hp, emit_unhandled_add. unfold react. cbn [add_trace dress w_reporter w_uncaught w_rid]. fold rep.
    rewrite (Hm rep) by exact Logic.I.
    destruct aM; cbn [fst]; cbn [ssim]; auto. unfold emit_report. cbn [emit add_trace dress w_exps w_seqs w_rid].
    assert (HT : T ((w_trace w ++ map (unhandled_event (w_rid w) c) (ml_unhandled ml)) ++ [EvReport (w_rid w) rep [n]])
                   ((t ++ map (unhandled_event i c) (ml_unhandled ml)) ++ [EvReport i rep [n]])) by (apply T_report; auto; apply sim_unhandled; auto).
    destruct (nth_error (w_exps w) n) as [eo|]; cbn [fst ssim]; auto.
    destruct (control_consume (w_seqs w) (e_ctl (eo_exp eo))) as [[ss ctl]|x| |b]; cbn [fst ssim]; auto.
    + destruct (consume_asserts (e_policies (eo_exp eo)) c); cbv zeta; cbn [fst ssim]; auto. split; auto.
      exists i, f, ((t ++ map (unhandled_event i c) (ml_unhandled ml)) ++ [EvReport i rep [n]]). split; [reflexivity|]. split; auto.
    + unfold thrown. destruct ne; cbn [ssim]; auto. split; auto.
      exists i, f, ((t ++ map (unhandled_event i c) (ml_unhandled ml)) ++ [EvReport i rep [n]]). split; [reflexivity|]. split; auto.
Qed.

(** Sequences: with a silent or a fatal reporter. *)
Definition follows (w : world) (f : reporter) (s s' : stepped) : Prop :=
  match s with
  | Next w1 r => exists i1 t1, s' = Next (dress w1 i1 f t1) r /\ w_uncaught w1 = w_uncaught w /\ I (w_rid w1) i1 /\ T (w_trace w1) t1
  | _ => s' = s
  end.
Definition errors (f : reporter) (un : nat) (a : reaction) : Prop := forall k n, f (RError k n) un = a.

Lemma release_frozen w s z : exists a, (a = Returns \/ a = Terminates /\ fst (r_release_seq rp w s z) = Stop) /\
  forall i t f, I (w_rid w) i -> T (w_trace w) t ->
    (errors f (w_uncaught w) a -> follows w f (fst (r_release_seq rp w s z)) (release_seq (dress w i f t) s)) /\
    (errors f (w_uncaught w) Terminates -> release_seq (dress w i f t) s = Stop \/ follows w f (fst (r_release_seq rp w s z)) (release_seq (dress w i f t) s)).
Proof.
  unfold r_release_seq.
  assert (G : forall i t f, release_seq (dress w i f t) s = if seq_in_use w s || nth s (w_sdead w) true then Next (dress w i f t) RUnit else
    match nth_error (w_seqs w) s with
    | None => Wrong UbDangling
    | Some q => match seq_dtor_error q with
                | None => Next (dress (set_sdead w (upd (w_sdead w) s true)) i f t) RUnit
                | Some (k, n) => match f (RError k n) (w_uncaught w) with
                                 | Returns => Next (dress (set_sdead w (upd (w_sdead w) s true)) i f (t ++ [EvReport i (RError k n) [s]])) RUnit
                                 | _ => Stop
                                 end
                end
    end) by reflexivity.
  destruct (seq_in_use w s || nth s (w_sdead w) true).
  { exists Returns. split; auto. intros i t f Hi Ht. rewrite G. cbn [fst follows]. split; [|right]; exists i, t; auto. }
  destruct (nth_error (w_seqs w) s) as [q|]. 2:{ exists Returns. split; auto. intros i t f Hi Ht. rewrite G. cbn. auto. }
  destruct (seq_dtor_error q) as [[k n]|].
  2:{ exists Returns. split; auto. intros i t f Hi Ht. rewrite G. cbn [fst follows]. split; [|right]; exists i, t; auto. }
  cbv zeta. destruct (r_react rp (set_sdead w (upd (w_sdead w) s true)) (RError k n) z) as [a0 z1].
  exists (match a0 with Returns => Returns | _ => Terminates end). split; [destruct a0; auto|]. intros i t f Hi Ht. rewrite G. split.
  - intros Hf. rewrite Hf. destruct a0; cbn [fst follows]; auto. exists i, (t ++ [EvReport i (RError k n) [s]]). split; [reflexivity|]. split; [reflexivity|]. split; [exact Hi|].
    apply T_report; auto.
  - intros Hf. rewrite Hf. auto.
Qed.

Lemma releases_frozen l : forall w z, exists a, (a = Returns \/ a = Terminates /\ fst (r_release_seqs rp w l z) = Stop) /\
  forall i t f, I (w_rid w) i -> T (w_trace w) t -> errors f (w_uncaught w) a ->
    follows w f (fst (r_release_seqs rp w l z)) (release_seqs (dress w i f t) l).
Proof.
  induction l as [|s l IH]; intros w z; cbn [r_release_seqs release_seqs].
  { exists Returns. split; auto. intros i t f Hi Ht _. exists i, t. auto. }
  destruct (release_frozen w s z) as (a & Ha & Hf). destruct (r_release_seq rp w s z) as [[w1 r1| |b|] z1]; cbn [fst] in *.
  - destruct Ha as [->|[_ ?]]; [|discriminate]. destruct (IH w1 z1) as (a1 & Ha1 & Hf1). exists a1. split; auto. intros i t f Hi Ht He.
    destruct Ha1 as [->|[-> Hs]].
    + destruct (Hf i t f Hi Ht) as [(i1 & t1 & E & Hu & Hi1 & Ht1) _]; auto. rewrite E. assert (Hg : follows w1 f (fst (r_release_seqs rp w1 l z1)) (release_seqs (dress w1 i1 f t1) l)) by (apply Hf1; auto; rewrite Hu; auto).
      unfold follows in *. destruct (fst (r_release_seqs rp w1 l z1)); auto. rewrite Hu in Hg. exact Hg.
    + destruct (Hf i t f Hi Ht) as [_ [E|(i1 & t1 & E & Hu & Hi1 & Ht1)]]; auto; rewrite E; [rewrite Hs; reflexivity|].
      rewrite Hs. assert (Hg : follows w1 f (fst (r_release_seqs rp w1 l z1)) (release_seqs (dress w1 i1 f t1) l)) by (apply Hf1; auto; rewrite Hu; auto).
      rewrite Hs in Hg. exact Hg.
  - exists a. split; [destruct Ha as [->|[-> _]]; auto|]. intros i t f Hi Ht He. destruct (Hf i t f Hi Ht) as [E _]. rewrite (E He). reflexivity.
  - exists a. split; [destruct Ha as [->|[-> ?]]; [auto|discriminate]|]. intros i t f Hi Ht He. destruct (Hf i t f Hi Ht) as [E _]. rewrite (E He). reflexivity.
  - exists a. split; [destruct Ha as [->|[-> ?]]; [auto|discriminate]|]. intros i t f Hi Ht He. destruct (Hf i t f Hi Ht) as [E _]. rewrite (E He). reflexivity.
Qed.

Lemma follows_ssim w f s s' : follows w f s s' -> ssim s s'.
Proof.
  unfold follows, ssim. destruct s as [w1 r| |b|]; [|intros ->; auto..]. intros (i & t & -> & _ & H1 & H2). split; auto. apply sim_dress; auto.
Qed.

Lemma end_frozen w e z : exists aF aE, forall i t f, I (w_rid w) i -> T (w_trace w) t ->
  (forall r, f (RUnfulfilled r) (w_uncaught w) = aF) -> (forall un, errors f un aE) ->
  ssim (fst (r_end_expectation rp w e z)) (end_expectation (dress w i f t) e).
Proof.
  unfold r_end_expectation, end_expectation. cbn [dress w_exps w_colls w_seqs w_uncaught].
  destruct (nth_error (w_exps w) e) as [eo|]; [|exists Returns, Returns; cbn; auto].
  destruct (nth_error (w_colls w) (eo_coll eo)) as [l|]; [|exists Returns, Returns; cbn; auto].
  destruct (negb _); [exists Returns, Returns; cbn; auto|]. cbv zeta.
  set (w1 := set_colls w (upd (w_colls w) (eo_coll eo) (erase_first e l))).
  set (x0 := mkEObj (eo_exp eo) (eo_coll eo) false (eo_ov eo) (eo_sig eo)).
  set (seqs := map fst (c_seqs (e_ctl (eo_exp eo)))).
  destruct (exp_is_satisfied (eo_exp eo)).
  { destruct (releases_frozen seqs (set_exps w1 (upd (w_exps w1) e x0)) z) as (a & _ & Hf). exists Returns, a. intros i t f Hi Ht _ He.
    apply follows_ssim with (w := set_exps w1 (upd (w_exps w1) e x0)) (f := f).
    match goal with |- context [release_seqs ?a seqs] => change a with (dress (set_exps w1 (upd (w_exps w1) e x0)) i f t) end. apply Hf; auto. }
  destruct (exp_report_of (w_seqs w) (eo_exp eo)) as [r|x| |b].
  4: exists Returns, Returns; cbn; auto.
  3: exists Returns, Returns; cbn; auto.
  2:{ set (w2 := set_uncaught (set_exps w1 (upd (w_exps w1) e x0)) (S (w_uncaught w))).
      destruct (releases_frozen seqs w2 z) as (a & _ & Hf). exists Returns, a. intros i t f Hi Ht _ He.
      specialize (Hf i t f Hi Ht (He _)). match goal with |- context [release_seqs ?a seqs] => change a with (dress w2 i f t) end.
      destruct (r_release_seqs rp w2 seqs z) as [[w3 r3| |b|] z3]; cbn [fst follows] in *.
      - destruct Hf as (i1 & t1 & -> & Hu & H1 & H2). cbn [ssim]. split; auto. exists i1, f, t1. split; [reflexivity|]. split; auto.
      - rewrite Hf. exact Logic.I.
      - rewrite Hf. reflexivity.
      - rewrite Hf. exact Logic.I. }
  destruct (r_react rp w1 (RUnfulfilled r) z) as [aF z1]. set (w2 := emit_report w1 (RUnfulfilled r) [e]). destruct aF.
  - destruct (releases_frozen seqs (set_exps w2 (upd (w_exps w2) e x0)) z1) as (a & _ & Hf). exists Returns, a. intros i t f Hi Ht HF He.
    unfold react. cbn [set_colls dress w_reporter w_uncaught]. rewrite HF. apply follows_ssim with (w := set_exps w2 (upd (w_exps w2) e x0)) (f := f).
    match goal with |- context [release_seqs ?a seqs] => change a with (dress (set_exps w2 (upd (w_exps w2) e x0)) i f (t ++ [EvReport i (RUnfulfilled r) [e]])) end.
    apply Hf; auto. apply T_report; auto.
  - set (w3 := set_uncaught (set_exps w2 (upd (w_exps w2) e x0)) (S (w_uncaught w))).
    destruct (releases_frozen seqs w3 z1) as (a & _ & Hf). exists Throws, a. intros i t f Hi Ht HF He.
    unfold react. cbn [set_colls dress w_reporter w_uncaught]. rewrite HF.
    specialize (Hf i (t ++ [EvReport i (RUnfulfilled r) [e]]) f Hi). match goal with |- context [release_seqs ?a seqs] => change a with (dress w3 i f (t ++ [EvReport i (RUnfulfilled r) [e]])) end.
    assert (HT : T (w_trace w3) (t ++ [EvReport i (RUnfulfilled r) [e]])) by (apply T_report; auto). specialize (Hf HT (He _)).
    destruct (r_release_seqs rp w3 seqs z1) as [[w4 r4| |b|] z4]; cbn [fst follows] in *.
    + destruct Hf as (i1 & t1 & -> & Hu & H1 & H2). cbn [ssim]. split; auto. exists i1, f, t1. split; [reflexivity|]. split; auto.
    + rewrite Hf. exact Logic.I.
    + rewrite Hf. reflexivity.
    + rewrite Hf. exact Logic.I.
  - exists Terminates, Returns. intros i t f Hi Ht HF He. unfold react. cbn [set_colls dress w_reporter w_uncaught]. rewrite HF. exact Logic.I.
Qed.

Lemma sim_next w i f t w1 w1' r : I (w_rid w) i -> T (w_trace w) t -> w1' = dress w1 i f t -> w_rid w1 = w_rid w -> w_trace w1 = w_trace w -> ssim (Next w1 r) (Next w1' r).
Proof. intros Hi Ht -> E1 E2. split; auto. exists i, f, t. rewrite E1, E2. auto. Qed.

Ltac nx N := match goal with |- ssim (Next ?w1 ?r) _ => exact (N w1 r eq_refl eq_refl) end.
(** Operations which call no reporter. *)
Lemma plain_frozen w i f t o : I (w_rid w) i -> T (w_trace w) t ->
  match o with ODropSeq _ | OCall _ _ _ _ | OEndScope _ | OMoveAssignScoped _ _ => True | _ => ssim (step w o) (step (dress w i f t) o) end.
Proof.
  intros Hi Ht. assert (N : forall w1 r, w_rid w1 = w_rid w -> w_trace w1 = w_trace w -> ssim (Next w1 r) (Next (dress w1 i f t) r)).
  { intros w1 r E1 E2. eapply sim_next; eauto. }
  destruct o; auto; cbn [step].
  - nx N.
  - destruct (_ && _); [|exact Logic.I]. nx N.
  - cbn [dress w_mocks]. destruct (nth_error (w_mocks w) m) as [mk|]; [|exact Logic.I]. destruct (negb _); [exact Logic.I|]. nx N.
  - cbn [dress w_mocks]. destruct (nth_error (w_mocks w) dst) as [md|]; [|exact Logic.I]. destruct (nth_error (w_mocks w) src) as [ms|]; [|exact Logic.I].
    destruct (negb _); [exact Logic.I|]. destruct (dst =? src); nx N.
  - cbn [dress w_mocks]. destruct (nth_error (w_mocks w) m) as [mk|]; [|exact Logic.I]. destruct (negb _); [exact Logic.I|]. nx N.
  - unfold do_expect. rewrite find_dress. destruct (find_overload w m ov) as [s0|[s coll]] eqn:Ef.
    { unfold find_overload in Ef. repeat match type of Ef with context [match ?x with _ => _ end] => destruct x end; try discriminate; injection Ef as <-; cbn; auto. }
    change (clause_ok (dress w i f t)) with (clause_ok w). destruct (negb _); [exact Logic.I|]. destruct (build s ms cls) as [b|x|]; [|destruct (finalizable s cls); [nx N|exact Logic.I]|exact Logic.I].
    destruct (negb (finalize_ok s b)); [exact Logic.I|]. cbn [dress w_seqs w_colls]. destruct (control_new (w_seqs w) (b_times b) (b_seqs b)) as [[ss ctl]|x| |u]; [|nx N|exact Logic.I|reflexivity].
    destruct (nth_error (w_colls w) coll) as [mem|]; [|reflexivity]. nx N.
  - unfold do_action. cbn [dress w_frames]. destruct (w_frames w) as [|fr fs]; [exact Logic.I|]. destruct (f_todo fr) as [|n todo]; [exact Logic.I|].
    change (exp_alive (dress w i f t) (f_exp fr)) with (exp_alive w (f_exp fr)). destruct (negb _); [reflexivity|]. split; auto. exists i, f, (t ++ [EvAction (f_exp fr) n]).
    split; [reflexivity|]. split; auto. apply T_action; auto.
  - cbn [dress w_frames]. destruct (w_frames w) as [|fr fs]; [exact Logic.I|]. destruct (_ && _); exact Logic.I.
  - unfold do_final. cbn [dress w_frames]. destruct (w_frames w) as [|fr fs]; [exact Logic.I|]. destruct (f_todo fr) as [|n todo]; [|exact Logic.I].
    destruct (f_final fr); [exact Logic.I|].
    change (exp_alive (dress w i f t) (f_exp fr)) with (exp_alive w (f_exp fr)). destruct (negb _); [reflexivity|]. split; auto. exists i, f, (t ++ [EvFinal (f_exp fr)]).
    split; [reflexivity|]. split; auto. apply T_final; auto.
  - unfold do_return. cbn [dress w_frames w_exps]. destruct (w_frames w) as [|fr fs]; [exact Logic.I|]. destruct (negb _); [exact Logic.I|].
    destruct (nth_error (w_exps w) (f_exp fr)) as [eo|]; [|exact Logic.I]. destruct (finalizer_result _ user) as [v|x]; [nx N|].
    unfold thrown. destruct (f_noexcept fr); [exact Logic.I|]. nx N.
  - cbn [dress w_scoped w_exps]. destruct (nth_error (w_scoped w) h) as [[e| |]|]; try exact Logic.I; [|reflexivity].
    destruct (nth_error (w_exps w) e) as [eo|]; [|reflexivity]. destruct (eo_alive eo); [nx N|reflexivity].
  - cbn [dress w_scoped]. destruct (nth_error (w_scoped w) h) as [[e| |]|]; try exact Logic.I; nx N.
  - cbn [dress w_rid]. split; auto. destruct (T_install _ _ _ _ Hi Ht) as [H1 H2]. exists (S i), rp0, (t ++ [EvInstall (S i)]). split; [reflexivity|]. split; auto.
  - nx N.
Qed.

Lemma step_frozen w z o : exists f, forall i t, I (w_rid w) i -> T (w_trace w) t -> ssim (fst (r_step rp w z o)) (step (dress w i f t) o).
Proof.
  destruct o; try (exists default_reporter; intros i t Hi Ht; match goal with |- ssim (fst (r_step rp w z ?o)) _ => exact (plain_frozen w i default_reporter t o Hi Ht) end).
  - cbn [r_step step]. destruct (nth s (w_iface w) false) eqn:Ei; [|exists default_reporter; intros i t Hi Ht; cbn [dress w_iface]; rewrite Ei; exact Logic.I].
    destruct (release_frozen (set_iface w (upd (w_iface w) s false)) s z) as (a & _ & Hf). exists (by_kind a a a a). intros i t Hi Ht. cbn [dress w_iface]. rewrite Ei.
    destruct (Hf i t (by_kind a a a a) Hi Ht) as [Hg _]. apply follows_ssim with (w := set_iface w (upd (w_iface w) s false)) (f := by_kind a a a a). apply Hg. intros k n. reflexivity.
  - cbn [r_step step]. unfold r_do_call, do_call. destruct (find_overload w m ov) as [s0|[s coll]] eqn:Ef.
    { exists default_reporter. intros i t Hi Ht. rewrite find_dress, Ef.
      unfold find_overload in Ef. repeat match type of Ef with context [match ?x with _ => _ end] => destruct x end; try discriminate; injection Ef as <-; cbn; auto. }
    destruct (negb _) eqn:En; [exists default_reporter; intros i t Hi Ht; rewrite find_dress, Ef, En; exact Logic.I|].
    match goal with |- context [r_handle_call rp w coll ?c ?ne z] => destruct (call_frozen w coll c ne z) as (aU & aM & H) end. exists (by_kind aU aM aM aM).
    intros i t Hi Ht. rewrite find_dress, Ef, En. apply H; auto. intros r Hr. destruct r; try reflexivity; destruct Hr.
  - cbn [r_step step]. destruct (nth_error (w_scoped w) h) as [[e| |]|] eqn:Eh.
    2:{ exists default_reporter. intros i t Hi Ht. cbn [dress w_scoped]. rewrite Eh. cbn [fst ssim]. split; auto. exists i, default_reporter, t. split; [reflexivity|]. auto. }
    2-3: exists default_reporter; intros i t Hi Ht; cbn [dress w_scoped]; rewrite Eh; exact Logic.I.
    destruct (end_frozen (set_scoped w (upd (w_scoped w) h HDead)) e z) as (aF & aE & H). exists (by_kind aF aF aE aF). intros i t Hi Ht. cbn [dress w_scoped]. rewrite Eh.
    apply (H i t (by_kind aF aF aE aF) Hi Ht); [reflexivity|]. intros un k n. reflexivity.
  - cbn [r_step step]. destruct (nth_error (w_scoped w) dst) as [old|] eqn:Ed; [|exists default_reporter; intros i t Hi Ht; cbn [dress w_scoped]; rewrite Ed; destruct (nth_error (w_scoped w) src) as [[| |]|]; exact Logic.I].
    destruct (nth_error (w_scoped w) src) as [x|] eqn:Es; [|exists default_reporter; intros i t Hi Ht; cbn [dress w_scoped]; rewrite Ed, Es; destruct old; exact Logic.I].
    destruct (dst =? src) eqn:Eds.
    { exists default_reporter. intros i t Hi Ht. cbn [dress w_scoped]. rewrite Ed, Es. destruct old, x; cbn [fst ssim]; try exact Logic.I; split; auto; exists i, default_reporter, t; auto. }
    assert (G : forall e, exists f, forall i t, I (w_rid w) i -> T (w_trace w) t ->
      ssim (fst (match r_end_expectation rp (set_scoped w (upd (upd (w_scoped w) src HEmpty) dst x)) e z with (Next w2 (RThrow _), z1) => (Stop, z1) | other => other end))
           (match end_expectation (set_scoped (dress w i f t) (upd (upd (w_scoped w) src HEmpty) dst x)) e with Next w2 (RThrow _) => Stop | other => other end)).
    { intros e. destruct (end_frozen (set_scoped w (upd (upd (w_scoped w) src HEmpty) dst x)) e z) as (aF & aE & H). exists (by_kind aF aF aE aF). intros i t Hi Ht.
      specialize (H i t (by_kind aF aF aE aF) Hi Ht (fun r => eq_refl) (fun un k n => eq_refl)).
      change (set_scoped (dress w i _ t) _) with (dress (set_scoped w (upd (upd (w_scoped w) src HEmpty) dst x)) i (by_kind aF aF aE aF) t).
      destruct (r_end_expectation rp _ e z) as [[w2 r2| |b|] z2]; cbn [fst] in *; destruct (end_expectation (dress _ _ _ _) e) as [w3 r3| |b3|]; cbn [ssim] in *; try contradiction; auto.
      destruct H as [H <-]. destruct r2; cbn [fst ssim]; auto. }
    destruct old as [e| |].
    + destruct (G e) as [f Hf]. exists f. intros i t Hi Ht. specialize (Hf i t Hi Ht). cbn [dress w_scoped] in *. rewrite Ed, Es. destruct x; try exact Logic.I; exact Hf.
    + exists default_reporter. intros i t Hi Ht. cbn [dress w_scoped]. rewrite Ed, Es. destruct x; cbn [fst ssim]; try exact Logic.I; split; auto; exists i, default_reporter, t; (split; [reflexivity|auto]).
    + exists default_reporter. intros i t Hi Ht. cbn [dress w_scoped]. rewrite Ed. exact Logic.I.
Qed.
End Sim.
