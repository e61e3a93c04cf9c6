(** * StepCases: what each operation does to the world (inversion lemmas). *)

From Verif Require Import Base Lib Sequence Control Signature Printer Reports Expectation Builder World WorldSpec.

Definition add_trace (w : world) (evs : list event) : world :=
  mkWorld (w_seqs w) (w_iface w) (w_sdead w) (w_exps w) (w_colls w) (w_mocks w) (w_scoped w) (w_frames w)
    (w_rid w) (w_reporter w) (w_uncaught w) (w_trace w ++ evs).

Lemma add_trace_nil w : add_trace w [] = w.
Proof. destruct w; unfold add_trace; simpl. rewrite app_nil_r. reflexivity. Qed.

Lemma add_trace_app w a b : add_trace (add_trace w a) b = add_trace w (a ++ b).
Proof. unfold add_trace; simpl. rewrite app_assoc. reflexivity. Qed.

Lemma emit_add w e : emit w e = add_trace w [e].
Proof. reflexivity. Qed.

Definition unhandled_event (rid : nat) (c : call_info) (p : nat * (exp_report * exn)) : event :=
  EvReport rid (RUnhandled (make_call_report c) (fst (snd p)) (snd (snd p))) [fst p].

Lemma emit_unhandled_add c l : forall w,
  emit_unhandled w c l = add_trace w (map (unhandled_event (w_rid w) c) l).
Proof.
  induction l as [|[n [r x]] l IH]; intros w; simpl.
  - rewrite add_trace_nil. reflexivity.
  - rewrite IH. unfold emit_report. rewrite emit_add, add_trace_app. reflexivity.
Qed.

(** ** Sequences *)

Definition set_sdead_trace (w : world) (d : list bool) (evs : list event) : world :=
  add_trace (set_sdead w d) evs.

(** The error reports emitted for sequence [s] when it dies. *)
Definition dtor_events (rid : nat) (s : nat) (q : bseq) : list event :=
  match seq_dtor_error q with
  | None => []
  | Some (k, n) => [EvReport rid (RError k n) [s]]
  end.

Lemma release_seq_next w s w' r : release_seq w s = Next w' r ->
  r = RUnit /\
  ((w' = w /\ (seq_in_use w s || nth s (w_sdead w) true = true)) \/
   (seq_in_use w s = false /\ nth s (w_sdead w) true = false /\
    exists q, nth_error (w_seqs w) s = Some q /\
      w' = set_sdead_trace w (upd (w_sdead w) s true) (dtor_events (w_rid w) s q) /\
      forall k n, seq_dtor_error q = Some (k, n) -> react w (RError k n) = Returns)).
Proof.
  unfold release_seq. intros H.
  destruct (seq_in_use w s || nth s (w_sdead w) true) eqn:Hu.
  { inversion H; subst. auto. }
  apply orb_false_iff in Hu. destruct Hu as [Hu Hd].
  destruct (nth_error (w_seqs w) s) as [q|] eqn:Hq; [|discriminate].
  destruct (seq_dtor_error q) as [[k n]|] eqn:Hk.
  - unfold react in H; simpl in H.
    destruct (w_reporter w (RError k n) (w_uncaught w)) eqn:Hr; try discriminate.
    inversion H; subst. split; auto. right. split; auto. split; auto. exists q. split; auto.
    unfold set_sdead_trace, dtor_events, emit_report. rewrite Hk, emit_add. split; auto.
    intros k0 n0 E. inversion E; subst. exact Hr.
  - inversion H; subst. split; auto. right. split; auto. split; auto. exists q. split; auto.
    unfold set_sdead_trace, dtor_events. rewrite Hk, add_trace_nil. split; auto. discriminate.
Qed.

(** Releasing several sequences: [dies] are the sequences which die, in order. *)
Inductive released (w : world) : list nat -> list bool -> list event -> list bool -> Prop :=
| rel_nil d : released w [] d [] d
| rel_keep s l d evs d' : (seq_in_use w s = true \/ nth s d true = true) ->
    released w l d evs d' -> released w (s :: l) d evs d'
| rel_die s q l d evs d' : seq_in_use w s = false -> nth s d true = false -> nth_error (w_seqs w) s = Some q ->
    released w l (upd d s true) evs d' ->
    released w (s :: l) d (dtor_events (w_rid w) s q ++ evs) d'.

Lemma seq_in_use_dead w d evs s : seq_in_use (set_sdead_trace w d evs) s = seq_in_use w s.
Proof. reflexivity. Qed.

Lemma released_ext w w' l d evs d' :
  (forall s, seq_in_use w s = seq_in_use w' s) -> w_seqs w = w_seqs w' -> w_rid w = w_rid w' ->
  released w l d evs d' -> released w' l d evs d'.
Proof.
  intros Hu Hs Hr H. induction H.
  - constructor.
  - apply rel_keep; auto. rewrite <- Hu. auto.
  - rewrite Hr. apply rel_die; auto; rewrite <- ?Hu, <- ?Hs; auto.
Qed.

Lemma release_seqs_next l : forall w w' r, release_seqs w l = Next w' r ->
  r = RUnit /\ exists evs d', released w l (w_sdead w) evs d' /\ w' = set_sdead_trace w d' evs.
Proof.
  induction l as [|s l IH]; intros w w' r H; simpl in H.
  - inversion H; subst. split; auto. exists [], (w_sdead w'). split; [constructor|].
    unfold set_sdead_trace. rewrite add_trace_nil. destruct w'; reflexivity.
  - destruct (release_seq w s) as [w1 r1| | |] eqn:H1; try discriminate.
    apply release_seq_next in H1. destruct H1 as [-> [[-> Hk]|(Hu & Hd & q & Hq & -> & _)]].
    + destruct (IH _ _ _ H) as (-> & evs & d' & Hr & ->). split; auto. exists evs, d'. split; auto.
      apply rel_keep; auto. apply orb_true_iff in Hk. auto.
    + destruct (IH _ _ _ H) as (-> & evs & d' & Hr & ->). split; auto.
      exists (dtor_events (w_rid w) s q ++ evs), d'. split.
      * apply rel_die; auto. eapply released_ext; [| | |exact Hr]; auto.
      * unfold set_sdead_trace, add_trace, set_sdead. simpl. rewrite app_assoc. reflexivity.
Qed.

(** ** End of an expectation *)

Definition kill (w : world) (e : nat) (eo : eobj) (l : list nat) : world :=
  set_exps (set_colls w (upd (w_colls w) (eo_coll eo) (erase_first e l)))
    (upd (w_exps w) e (mkEObj (eo_exp eo) (eo_coll eo) false (eo_ov eo) (eo_sig eo))).

Lemma end_expectation_next w e w' r : end_expectation w e = Next w' r ->
  exists eo l unf evs d',
    nth_error (w_exps w) e = Some eo /\ nth_error (w_colls w) (eo_coll eo) = Some l /\ In e l /\
    released (kill w e eo l) (map fst (c_seqs (e_ctl (eo_exp eo)))) (w_sdead w) evs d' /\
    w' = add_trace (set_sdead (kill w e eo l) d') (unf ++ evs) /\
    ((exp_is_satisfied (eo_exp eo) = true /\ unf = [] /\ r = RUnit) \/
     (exp_is_satisfied (eo_exp eo) = false /\ exists x, exp_report_of (w_seqs w) (eo_exp eo) = Throw x /\ unf = [] /\ r = RThrow x) \/
     (exp_is_satisfied (eo_exp eo) = false /\ exists rep, exp_report_of (w_seqs w) (eo_exp eo) = Ret rep /\
        unf = [EvReport (w_rid w) (RUnfulfilled rep) [e]] /\
        ((react w (RUnfulfilled rep) = Returns /\ r = RUnit) \/ (react w (RUnfulfilled rep) = Throws /\ r = RThrow EReporter)))).
Proof.
  unfold end_expectation. intros H.
  destruct (nth_error (w_exps w) e) as [eo|] eqn:He; [|discriminate].
  destruct (nth_error (w_colls w) (eo_coll eo)) as [l|] eqn:Hl; [|discriminate].
  destruct (existsb (Nat.eqb e) l) eqn:Hin; [|discriminate].
  assert (Hin' : In e l).
  { apply existsb_exists in Hin. destruct Hin as (x & Hx & Heq). apply Nat.eqb_eq in Heq. subst. auto. }
  simpl in H.
  destruct (exp_is_satisfied (eo_exp eo)) eqn:Hsat.
  - destruct (release_seqs_next _ _ _ _ H) as (-> & evs & d' & Hr & ->).
    exists eo, l, [], evs, d'. repeat split; auto.
  - destruct (exp_report_of (w_seqs w) (eo_exp eo)) as [rep|x| |u] eqn:Hrep; try discriminate.
    + unfold react in H; simpl in H.
      destruct (w_reporter w (RUnfulfilled rep) (w_uncaught w)) eqn:Hre; try discriminate.
      * destruct (release_seqs_next _ _ _ _ H) as (-> & evs & d' & Hr & ->).
        exists eo, l, [EvReport (w_rid w) (RUnfulfilled rep) [e]], evs, d'. split; auto. split; auto. split; auto. split.
        { eapply released_ext; [| | |exact Hr]; auto. }
        split.
        { unfold set_sdead_trace, add_trace, emit_report, emit, set_sdead, kill. simpl. rewrite <- app_assoc. reflexivity. }
        right. right. split; auto. exists rep. split; auto.
      * destruct (release_seqs _ _) as [w3 r3| | |] eqn:Hrel in H; try discriminate.
        destruct (release_seqs_next _ _ _ _ Hrel) as (-> & evs & d' & Hr & ->).
        inversion H; subst w' r. exists eo, l, [EvReport (w_rid w) (RUnfulfilled rep) [e]], evs, d'.
        split; auto. split; auto. split; auto. split.
        { eapply released_ext; [| | |exact Hr]; auto. }
        split.
        { unfold set_sdead_trace, add_trace, emit_report, emit, set_sdead, kill, set_uncaught. simpl. rewrite <- app_assoc. reflexivity. }
        right. right. split; auto. exists rep. split; auto.
    + destruct (release_seqs _ _) as [w3 r3| | |] eqn:Hrel in H; try discriminate.
      destruct (release_seqs_next _ _ _ _ Hrel) as (-> & evs & d' & Hr & ->).
      inversion H; subst w' r. exists eo, l, [], evs, d'.
      split; auto. split; auto. split; auto. split.
      { eapply released_ext; [| | |exact Hr]; auto. }
      split.
      { reflexivity. }
      right. left. split; auto. exists x. auto.
Qed.

(** ** Calls *)

Definition lists0 : match_lists := mkLists [] [] [] [].

Definition fail_report (c : call_info) (ml : match_lists) : report :=
  match ml_inapplicable ml with
  | [] => RNoMatch (make_call_report c) (map snd (ml_none ml))
  | l => RInapplicable (make_call_report c) (map snd l)
  end.
Definition fail_who (ml : match_lists) : list nat :=
  match ml_inapplicable ml with
  | [] => map fst (ml_none ml)
  | l => map fst l
  end.

Definition accept_world (w : world) (n : nat) (eo : eobj) (ss : seq_store) (ctl : control) (ne : bool) (evs : list event) : world :=
  add_trace
    (set_frames
       (set_exps (set_seqs w ss) (upd (w_exps w) n (mkEObj (with_ctl (eo_exp eo) ctl) (eo_coll eo) (eo_alive eo) (eo_ov eo) (eo_sig eo))))
       (mkFrame n (side_effects (e_policies (eo_exp eo))) false false ne :: w_frames w))
    evs.

Inductive call_result (w : world) (coll : nat) (c : call_info) (ne : bool) (ml : match_lists) : world -> result -> Prop :=
| CrMatched n m first others eo ss ctl :
    ml_full ml = first :: others -> pick_best first others = Ret (n, m) ->
    react w (RFull (make_call_report c) m) = Returns ->
    nth_error (w_exps w) n = Some eo ->
    control_consume (w_seqs w) (e_ctl (eo_exp eo)) = Ret (ss, ctl) ->
    consume_asserts (e_policies (eo_exp eo)) c = Ret tt ->
    call_result w coll c ne ml
      (accept_world w n eo ss ctl ne
         (map (unhandled_event (w_rid w) c) (ml_unhandled ml) ++ [EvReport (w_rid w) (RFull (make_call_report c) m) [n]])) RUnit
| CrFailed :
    ml_full ml = [] -> react w (fail_report c ml) = Throws -> ne = false ->
    call_result w coll c ne ml
      (add_trace w (map (unhandled_event (w_rid w) c) (ml_unhandled ml) ++ [EvReport (w_rid w) (fail_report c ml) (fail_who ml)]))
      (RThrow EReporter).

Lemma pick_best_nothrow rest : forall best x, pick_best best rest <> Throw x.
Proof.
  induction rest as [|y rest IH]; intros best x; simpl; [discriminate|].
  unfold ratings_of. destruct (mr_state (snd best)); simpl; try discriminate.
  destruct (mr_state (snd y)); simpl; try discriminate. apply IH.
Qed.

Lemma noexcept_nothrow {A} (m : outcome A) x : noexcept_of m <> Throw x.
Proof. destruct m; simpl; discriminate. Qed.

Lemma match_loop_nothrow rp u ss c es : forall acc x, match_loop rp u ss c es acc <> Throw x.
Proof.
  induction es as [|[n e] es IH]; intros acc x; simpl; [discriminate|].
  destruct (make_match_report rp u ss e c) eqn:Hm; simpl; try discriminate.
  - apply IH.
  - exfalso. eapply noexcept_nothrow; eauto.
Qed.

Lemma for_each_nothrow f l : (forall q id x, f q id <> Throw x) -> forall ss x, for_each_seq f ss l <> Throw x.
Proof.
  intros Hf. induction l as [|[s id] l IH]; intros ss x; simpl; [discriminate|].
  unfold with_seq. destruct (nth_error ss s) as [q|]; [|discriminate].
  destruct (f q id) eqn:E; simpl; try discriminate.
  - apply IH.
  - exfalso. eapply Hf; eauto.
Qed.

Lemma control_consume_nothrow ss c x : control_consume ss c <> Throw x.
Proof.
  unfold control_consume, assert_. destruct (control_is_applicable ss c); [|discriminate].
  destruct (for_each_seq seq_consume ss (c_seqs c)) eqn:E; simpl; try discriminate.
  - destruct (c_count c =? INT_MAX)%Z; [discriminate|].
    unfold control_update. simpl.
    assert (Hs : forall q id x, seq_set_satisfied q id <> Throw x).
    { intros q id y. unfold seq_set_satisfied, assert_. destruct (seq_is_valid q id), (s_cursor q <=? id); try discriminate.
      destruct (nth_error (s_entries q) id) as [[]|]; discriminate. }
    assert (Hs' : forall q id x, seq_set_saturated q id <> Throw x).
    { intros q id y. unfold seq_set_saturated, assert_. destruct (seq_is_valid q id), (s_cursor q <=? id); try discriminate.
      destruct (nth_error (s_entries q) id) as [[]|]; discriminate. }
    destruct (c_count c + 1 =? c_min c)%Z; [|destruct (c_count c + 1 =? c_max c)%Z; simpl; [|discriminate]].
    + destruct (for_each_seq seq_set_satisfied a (c_seqs c)) eqn:E2; simpl; try discriminate.
      exfalso. eapply for_each_nothrow; [|exact E2]; auto.
    + destruct (for_each_seq seq_set_saturated a (c_seqs c)) eqn:E2; simpl; try discriminate.
      exfalso. eapply for_each_nothrow; [|exact E2]; auto.
  - exfalso. eapply for_each_nothrow; [|eauto]. intros q id y. unfold seq_consume, assert_.
    destruct (seq_is_valid q id), (seq_is_consumable q id); discriminate.
Qed.

Lemma handle_call_next w coll c ne w' r : handle_call w coll c ne = Next w' r ->
  exists l es ml, nth_error (w_colls w) coll = Some l /\ lookup_exps w (rev l) = Some es /\
    match_loop (w_reporter w) (w_uncaught w) (w_seqs w) c es lists0 = Ret ml /\
    call_result w coll c ne ml w' r.
Proof.
  unfold handle_call. intros H.
  destruct (nth_error (w_colls w) coll) as [l|] eqn:Hl; [|discriminate].
  destruct (lookup_exps w (rev l)) as [es|] eqn:Hes; [|discriminate].
  destruct (match_loop _ _ _ _ _ _) as [ml|x| |u] eqn:Hml; try discriminate.
  2:{ exfalso. eapply match_loop_nothrow; eauto. }
  exists l, es, ml. split; auto. split; auto. split; auto.
  rewrite emit_unhandled_add in H.
  destruct (ml_full ml) as [|first others] eqn:Hf.
  - fold (fail_report c ml) in H. fold (fail_who ml) in H.
    unfold react in H. simpl in H. 
    destruct (w_reporter w (fail_report c ml) (w_uncaught w)) eqn:Hr; try discriminate.
    unfold thrown in H. destruct ne eqn:Hne; [discriminate|]. inversion H; subst.
    unfold emit_report. rewrite emit_add, add_trace_app. exact (CrFailed w coll c false ml Hf Hr eq_refl).
  - destruct (pick_best first others) as [[n m]|x| |u] eqn:Hp; try discriminate.
    2:{ exfalso. eapply pick_best_nothrow; eauto. }
    unfold react in H. simpl in H.
    destruct (w_reporter w (RFull (make_call_report c) m) (w_uncaught w)) eqn:Hr; try discriminate.
    destruct (nth_error (w_exps w) n) as [eo|] eqn:He; [|discriminate].
    destruct (control_consume (w_seqs w) (e_ctl (eo_exp eo))) as [[ss ctl]|x| |u] eqn:Hc; try discriminate.
    2:{ exfalso. eapply control_consume_nothrow; eauto. }
    destruct (consume_asserts (e_policies (eo_exp eo)) c) as [[]|x| |u] eqn:Ha; try discriminate.
    inversion H; subst.
    replace (set_frames _ _) with
      (accept_world w n eo ss ctl ne
         (map (unhandled_event (w_rid w) c) (ml_unhandled ml) ++ [EvReport (w_rid w) (RFull (make_call_report c) m) [n]])).
    + eapply CrMatched; eauto.
    + unfold accept_world, add_trace, set_frames, set_exps, set_seqs, emit_report, emit. simpl. rewrite app_assoc. reflexivity.
Qed.

Lemma do_call_next w m ov args l w' r : do_call w m ov args l = Next w' r ->
  exists s coll, find_overload w m ov = inr (s, coll) /\ length args = length (sg_params s) /\
    handle_call w coll (call_of s args l) (frontend_noexcept s) = Next w' r.
Proof.
  unfold do_call, find_overload. intros H.
  destruct (nth_error (w_mocks w) m) as [mk|]; [|discriminate].
  destruct (mk_alive mk); simpl in *; [|discriminate].
  destruct (nth_error (mk_sigs mk) ov) as [s|]; [|discriminate].
  destruct (mk_colls mk) as [cs|]; [|discriminate].
  destruct (nth_error cs ov) as [coll|]; [|discriminate].
  destruct (Nat.eqb_spec (length args) (length (sg_params s))); [|discriminate].
  exists s, coll. auto.
Qed.

(** ** Creating an expectation *)

Lemma control_new_nothrow ss t tags x : control_new ss t tags <> Throw x.
Proof. apply noexcept_nothrow. Qed.

Definition new_world (w : world) (coll : nat) (members : list nat) (ss : seq_store) (eo : eobj) : world :=
  mkWorld ss (w_iface w) (w_sdead w) (w_exps w ++ [eo]) (upd (w_colls w) coll (members ++ [length (w_exps w)]))
    (w_mocks w) (w_scoped w ++ [HOwns (length (w_exps w))]) (w_frames w) (w_rid w) (w_reporter w) (w_uncaught w) (w_trace w).

Lemma do_expect_next w m ov ms cls l w' r : do_expect w m ov ms cls l = Next w' r ->
  exists s coll, find_overload w m ov = inr (s, coll) /\ length ms = length (sg_params s) /\
    forallb (clause_ok w (length (sg_params s))) cls = true /\
    ((exists x, build s ms cls = BThrow x /\ w' = w /\ r = RThrow x) \/
     (exists b ss ctl members, build s ms cls = BOk b /\ finalize_ok s b = true /\
        control_new (w_seqs w) (b_times b) (b_seqs b) = Ret (ss, ctl) /\
        nth_error (w_colls w) coll = Some members /\ r = RUnit /\
        w' = new_world w coll members ss (mkEObj (mkExp l ctl (b_policies b) (b_final b)) coll true ov s))).
Proof.
  unfold do_expect, find_overload. intros H.
  destruct (nth_error (w_mocks w) m) as [mk|]; [|discriminate].
  destruct (mk_alive mk); simpl in *; [|discriminate].
  destruct (nth_error (mk_sigs mk) ov) as [s|]; [|discriminate].
  destruct (mk_colls mk) as [cs|]; [|discriminate].
  destruct (nth_error cs ov) as [coll|]; [|discriminate].
  destruct (Nat.eqb_spec (length ms) (length (sg_params s))); [|discriminate].
  destruct (forallb (clause_ok w (length (sg_params s))) cls) eqn:Hok; [|discriminate]. simpl in H.
  exists s, coll. split; auto. split; auto. split; auto.
  destruct (build s ms cls) as [b|x|] eqn:Hb; try discriminate.
  - destruct (finalize_ok s b) eqn:Hf; [|discriminate]. simpl in H.
    destruct (control_new _ _ _) as [[ss ctl]|x| |u] eqn:Hc in H; try discriminate.
    2:{ exfalso. eapply control_new_nothrow; eauto. }
    destruct (nth_error (w_colls w) coll) as [members|] eqn:Hm; [|discriminate].
    inversion H; subst. right. exists b, ss, ctl, members. repeat split; auto.
  - destruct (finalizable s cls); [|discriminate]. inversion H; subst. left. exists x. auto.
Qed.

(** ** Classification of all operations *)

Definition quiet (ev : event) : bool :=
  match ev with
  | EvReport _ (RFull _ _) _ | EvReport _ (RUnfulfilled _) _ | EvReport _ (RError _ _) _ => false
  | _ => true
  end.

Inductive change (w : world) (o : op) (r : result) (w' : world) : Prop :=
| ChAdmin evs :
    w_seqs w' = w_seqs w -> w_iface w' = w_iface w -> w_sdead w' = w_sdead w -> w_exps w' = w_exps w ->
    (w_colls w' = w_colls w \/ exists k, w_colls w' = w_colls w ++ repeat [] k) ->
    w_trace w' = w_trace w ++ evs -> forallb quiet evs = true -> change w o r w'
| ChNewSeq st :
    w' = set_sdead (set_iface (set_seqs w (w_seqs w ++ [seq_new st])) (w_iface w ++ [true])) (w_sdead w ++ [false]) ->
    change w o r w'
| ChDropSeq s evs d' :
    o = ODropSeq s -> nth s (w_iface w) false = true ->
    released (set_iface w (upd (w_iface w) s false)) [s] (w_sdead w) evs d' ->
    w' = set_sdead_trace (set_iface w (upd (w_iface w) s false)) d' evs -> change w o r w'
| ChNew m ov ms cls l s coll b ss ctl members :
    o = OExpect m ov ms cls l -> find_overload w m ov = inr (s, coll) ->
    length ms = length (sg_params s) -> forallb (clause_ok w (length (sg_params s))) cls = true ->
    build s ms cls = BOk b -> finalize_ok s b = true ->
    control_new (w_seqs w) (b_times b) (b_seqs b) = Ret (ss, ctl) ->
    nth_error (w_colls w) coll = Some members ->
    w' = new_world w coll members ss (mkEObj (mkExp l ctl (b_policies b) (b_final b)) coll true ov s) ->
    change w o r w'
| ChAccept m ov args l s coll lst es ml n mr first others eo ss ctl :
    o = OCall m ov args l -> find_overload w m ov = inr (s, coll) -> length args = length (sg_params s) ->
    nth_error (w_colls w) coll = Some lst -> lookup_exps w (rev lst) = Some es ->
    match_loop (w_reporter w) (w_uncaught w) (w_seqs w) (call_of s args l) es lists0 = Ret ml ->
    ml_full ml = first :: others -> pick_best first others = Ret (n, mr) ->
    nth_error (w_exps w) n = Some eo ->
    control_consume (w_seqs w) (e_ctl (eo_exp eo)) = Ret (ss, ctl) ->
    consume_asserts (e_policies (eo_exp eo)) (call_of s args l) = Ret tt ->
    w' = accept_world w n eo ss ctl (frontend_noexcept s)
           (map (unhandled_event (w_rid w) (call_of s args l)) (ml_unhandled ml)
            ++ [EvReport (w_rid w) (RFull (make_call_report (call_of s args l)) mr) [n]]) ->
    change w o r w'
| ChEnd e w1 eo l unf evs d' :
    (exists sc, w1 = set_scoped w sc) ->
    nth_error (w_exps w) e = Some eo -> nth_error (w_colls w) (eo_coll eo) = Some l -> In e l ->
    released (kill w1 e eo l) (map fst (c_seqs (e_ctl (eo_exp eo)))) (w_sdead w) evs d' ->
    w' = add_trace (set_sdead (kill w1 e eo l) d') (unf ++ evs) ->
    ((exp_is_satisfied (eo_exp eo) = true /\ unf = []) \/
     (exp_is_satisfied (eo_exp eo) = false /\ exists x, exp_report_of (w_seqs w) (eo_exp eo) = Throw x /\ unf = []) \/
     (exp_is_satisfied (eo_exp eo) = false /\ exists rep, exp_report_of (w_seqs w) (eo_exp eo) = Ret rep /\
        unf = [EvReport (w_rid w) (RUnfulfilled rep) [e]])) ->
    change w o r w'.

Lemma quiet_unhandled rid c l : forallb quiet (map (unhandled_event rid c) l) = true.
Proof. induction l; simpl; auto. Qed.

Lemma quiet_fail rid c ml who : quiet (EvReport rid (fail_report c ml) who) = true.
Proof. unfold fail_report. destruct (ml_inapplicable ml); reflexivity. Qed.

Ltac admin := apply (ChAdmin _ _ _ _ []); simpl; auto; rewrite ?app_nil_r; auto.

Lemma step_change w o w' r : step w o = Next w' r -> change w o r w'.
Proof.
  intros H. destruct o; simpl in H.
  - inversion H; subst. eapply ChNewSeq. reflexivity.
  - destruct (nth s (w_iface w) false) eqn:Hi; [|discriminate].
    apply release_seq_next in H. destruct H as [-> [[-> Hk]|(Hu & Hd & q & Hq & -> & _)]].
    + eapply (ChDropSeq _ _ _ _ s [] (w_sdead w)); auto.
      * apply rel_keep; [|constructor]. apply orb_true_iff in Hk. auto.
      * unfold set_sdead_trace. rewrite add_trace_nil. reflexivity.
    + eapply (ChDropSeq _ _ _ _ s); auto.
      * rewrite <- (app_nil_r (dtor_events _ _ _)). eapply rel_die; eauto. constructor.
  - destruct (is_overload_set sigs && _); [|discriminate]. inversion H; subst.
    apply (ChAdmin _ _ _ _ []); simpl; auto; rewrite ?app_nil_r; auto.
    right. exists (length (mock_collections sigs)). f_equal.
    induction (mock_collections sigs); simpl; f_equal; auto.
  - destruct (nth_error (w_mocks w) m) as [mk|]; [|discriminate]. destruct (mk_alive mk); [|discriminate].
    inversion H; subst. admin.
  - destruct (nth_error (w_mocks w) dst) as [md|]; [|discriminate].
    destruct (nth_error (w_mocks w) src) as [msr|]; [|discriminate].
    destruct (negb _); [discriminate|]. destruct (dst =? src); inversion H; subst; admin.
  - destruct (nth_error (w_mocks w) m) as [mk|]; [|discriminate]. destruct (mk_alive mk); [|discriminate].
    inversion H; subst. admin.
  - apply do_expect_next in H. destruct H as (s & coll & Hf & Hlen & Hok & [(x & Hb & -> & ->)|(b & ss & ctl & members & Hb & Hfin & Hc & Hm & -> & ->)]).
    + admin.
    + eapply ChNew; eauto.
  - apply do_call_next in H. destruct H as (s & coll & Hf & Hlen & H).
    apply handle_call_next in H. destruct H as (lst & es & ml & Hl & Hes & Hml & Hcr).
    inversion Hcr; subst.
    + eapply ChAccept; eauto.
    + apply (ChAdmin _ _ _ _ (map (unhandled_event (w_rid w) (call_of s args l)) (ml_unhandled ml)
                ++ [EvReport (w_rid w) (fail_report (call_of s args l) ml) (fail_who ml)])); simpl; auto.
      rewrite forallb_app, quiet_unhandled. cbn [forallb]. rewrite quiet_fail. reflexivity.
  - unfold do_action in H. destruct (w_frames w) as [|f fs]; [discriminate|].
    destruct (f_todo f); [discriminate|]. destruct (negb _); [discriminate|]. inversion H; subst.
    eapply (ChAdmin _ _ _ _ [_]); simpl; eauto.
  - destruct (w_frames w); [discriminate|]. destruct (_ && _); discriminate.
  - unfold do_final in H. destruct (w_frames w) as [|f fs]; [discriminate|].
    destruct (f_todo f); [|discriminate]. destruct (f_final f); [discriminate|]. destruct (negb _); [discriminate|].
    inversion H; subst. eapply (ChAdmin _ _ _ _ [_]); simpl; eauto.
  - unfold do_return in H. destruct (w_frames w) as [|f fs]; [discriminate|].
    destruct (negb _); [discriminate|]. destruct (nth_error _ _); [|discriminate].
    destruct (finalizer_result _ _); [|unfold thrown in H; destruct (f_noexcept f); [discriminate|]]; inversion H; subst; admin.
  - destruct (nth_error (w_scoped w) h) as [[e| |]|]; try discriminate.
    destruct (nth_error (w_exps w) e) as [eo|]; [|discriminate]. destruct (eo_alive eo); [|discriminate].
    inversion H; subst. admin.
  - destruct (nth_error (w_scoped w) h) as [[e| |]|]; try discriminate.
    + apply end_expectation_next in H.
      destruct H as (eo & l & unf & evs & d' & He & Hl & Hin & Hrel & -> & Hcase).
      eapply (ChEnd _ _ _ _ e); eauto; simpl; auto.
      destruct Hcase as [(H1 & H2 & _)|[(H1 & x & H2 & H3 & _)|(H1 & rep & H2 & H3 & _)]]; eauto 8.
    + inversion H; subst. admin.
  - destruct (nth_error (w_scoped w) h) as [[e| |]|]; try discriminate; inversion H; subst; admin.
  - destruct (nth_error (w_scoped w) dst) as [old|]; [|destruct (nth_error (w_scoped w) src) as [[]|]; discriminate].
    destruct (nth_error (w_scoped w) src) as [x|]; [|destruct old; discriminate].
    assert (Hx : old <> HDead /\ x <> HDead) by (destruct old, x; try discriminate; split; discriminate).
    assert (H' : (if dst =? src then Next w RUnit
                  else match old with
                       | HOwns e => match end_expectation (set_scoped w (upd (upd (w_scoped w) src HEmpty) dst x)) e with
                                    | Next w2 (RThrow _) => Stop
                                    | other => other
                                    end
                       | _ => Next (set_scoped w (upd (upd (w_scoped w) src HEmpty) dst x)) RUnit
                       end) = Next w' r).
    { destruct Hx as [Hx1 Hx2]. destruct old, x; try congruence; exact H. }
    clear H. destruct (dst =? src). { inversion H'; subst. admin. }
    destruct old as [e| |].
    + destruct (end_expectation _ e) as [w2 r2| | |] eqn:He in H'; try discriminate.
      assert (w2 = w' /\ r2 = r) as [-> ->] by (destruct r2; inversion H'; auto).
      apply end_expectation_next in He.
      destruct He as (eo & l & unf & evs & d' & He & Hl & Hin & Hrel & -> & Hcase).
      eapply (ChEnd _ _ _ _ e); eauto; simpl; auto.
      destruct Hcase as [(H1 & H2 & _)|[(H1 & y & H2 & H3 & _)|(H1 & rep & H2 & H3 & _)]]; eauto 8.
    + inversion H'; subst. admin.
    + destruct Hx; congruence.
  - inversion H; subst. eapply (ChAdmin _ _ _ _ [_]); simpl; eauto.
  - inversion H; subst. admin.
Qed.
