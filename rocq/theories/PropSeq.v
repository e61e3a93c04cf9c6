(** * PropSeq: C12, C13, C18, C19, C20, C22, C55 and C59, sequences. *)

From Verif Require Import Base Lib Sequence Control Signature Printer Reports Expectation Builder World WorldSpec CallSpec SeqSpec
  SeqInv BuildSpec BuilderLemmas StepCases WorldInv ObjInv BuildProofs CountProofs History SeqEnd PropCalls Scenario.

(** ** C12: sequences enforce their order *)

(** In the trace of every program, the accepted calls of the expectations of one sequence occur in the order of attachment. *)
Theorem C12_calls_in_attachment_order w t1 ev1 t2 ev2 t3 e1 e2 x1 x2 s :
  reachable w -> w_trace w = t1 ++ ev1 :: t2 ++ ev2 :: t3 ->
  is_accept e1 ev1 = true -> is_accept e2 ev2 = true ->
  exp_at w e1 x1 -> exp_at w e2 x2 -> In s (x_seqs x1) -> In s (x_seqs x2) ->
  e1 <= e2.
Proof. exact (in_order w t1 ev1 t2 ev2 t3 e1 e2 x1 x2 s). Qed.

(** At each of these moments the expectations attached earlier have reached their minimum. *)
Theorem C12_earlier_reached_min w t ev t' e x e' x' s :
  reachable w -> w_trace w = t ++ ev :: t' -> is_accept e ev = true ->
  exp_at w e x -> exp_at w e' x' -> In s (x_seqs x) -> In s (x_seqs x') -> e' < e ->
  (x_min x' <= Z.of_nat (accepted t e'))%Z.
Proof. exact (mins_reached w t ev t' e x e' x' s). Qed.

(** Once an expectation has been matched, no earlier one is matched again, whatever the program does. *)
Theorem C12_earlier_never_again w ops w' e x e' x' s :
  reachable w -> exp_at w e x -> exp_at w e' x' -> In s (x_seqs x) -> In s (x_seqs x') ->
  0 < accepted (w_trace w) e -> e' < e -> run w ops w' ->
  accepted (w_trace w') e' = accepted (w_trace w) e'.
Proof.
  intros Hr Hx Hx' Hs Hs' Ha Hlt H. revert Hr x x' Hx Hx' Hs Hs' Ha.
  induction H as [|w o w1 r ops w2 Hst Hrun IH]; intros Hr x x' Hx Hx' Hs Hs' Ha; auto.
  pose proof (winv_reachable _ Hr) as I.
  destruct (step_exps _ _ _ _ I Hst _ _ Hx) as (x1 & Hx1 & S1 & _). destruct (step_exps _ _ _ _ I Hst _ _ Hx') as (x2 & Hx2 & S2 & _).
  rewrite (IH (reachable_step _ _ _ _ Hr Hst) x1 x2 Hx1 Hx2).
  - apply (step_stuck _ _ _ _ _ Hr Hst). intros coll c y ((L & _) & _ & Ap1 & Ap2).
    unfold exp_at in *. rewrite L in Hx'. inversion Hx'; subst y. destruct (Ap2 s Hs' e x Hx Hs) as [_ B]. specialize (B Hlt). lia.
  - rewrite (static_seqs _ _ S1). auto.
  - rewrite (static_seqs _ _ S2). auto.
  - pose proof (accepted_mono _ _ _ e (run_one _ _ _ _ Hst)). lia.
Qed.

(** Two mocks share a sequence: 0 (twice), 1 (at most once) and 2; the calls are accepted in this order although others are tried. *)
Definition prog_order : list op :=
  [ONewSeq Lazy; ONewMock [sig_unary]; ONewMock [sig_void];
   OExpect 0 0 [m_eq 7] [ClSeq [0]; ClTimes (TxExactly 2)] here;
   OExpect 1 0 [] [ClSeq [0]; ClTimes (TxAtMost 1)] there;
   OExpect 0 0 [m_eq 9] [ClSeq [0]] there;
   OCall 0 0 [VInt 9] here;
   OCall 0 0 [VInt 7] here; OFinal; OReturn (UOk (VInt 0));
   OCall 0 0 [VInt 7] here; OFinal; OReturn (UOk (VInt 0));
   OCall 0 0 [VInt 9] here; OFinal; OReturn (UOk (VInt 0));
   OCall 1 0 [] here].
Example C12_example :
  results prog_order =
    [RUnit; RUnit; RUnit; RUnit; RUnit; RUnit; RThrow EReporter; RUnit; RUnit; RVal None; RUnit; RUnit; RVal None;
     RUnit; RUnit; RVal None; RThrow EReporter] /\
  map (fun e => accepted (w_trace (after prog_order)) e) [0; 1; 2] = [2; 0; 1].
Proof. vm_compute. auto. Qed.

(** ** C13: applicability is determined by the history *)

(** The test made by the library (times and sequence cursors) is the predicate on the history. *)
Theorem C13_applicable_iff_history w e x :
  reachable w -> exp_at w e x -> (control_is_applicable (w_seqs w) (e_ctl (eo_exp x)) = true <-> applicable w e x).
Proof. intros Hr Hx. exact (applicable_iff _ _ _ (winv_reachable _ Hr) Hx). Qed.

(** Observed by a call: the only live expectation of a mock function, if it accepts the arguments, takes the call iff it is
    applicable. *)
Theorem C13_sole_expectation w m ov args l s coll e x :
  legal_call w m ov args s coll -> live_in w coll e x -> (forall e' x', live_in w coll e' x' -> e' = e) ->
  accepts (eo_exp x) (call_of s args l) ->
  ((exists w', step w (OCall m ov args l) = Next w' RUnit) <-> applicable w e x).
Proof.
  intros Hl Hlive Honly Hacc. rewrite (C04_matched_iff_candidate w m ov args l s coll Hl).
  - split.
    + intros (e' & x' & Hlv & _ & Ap). specialize (Honly _ _ Hlv). subst e'. destruct Hlv as (Hx' & _), Hlive as (Hx & _).
      unfold exp_at in *. rewrite Hx in Hx'. inversion Hx'; subst. auto.
    + intros Ap. exists e, x. split; auto.
  - intros e' x' [Hlv Hnc]. exfalso. specialize (Honly _ _ Hlv). subst e'. destruct Hlv as (Hx' & _), Hlive as (Hx & _).
    unfold exp_at in *. rewrite Hx in Hx'. inversion Hx'; subst. destruct Hacc as [Hc _]. auto.
Qed.

(** Nothing else matters: two programs with the same limits, attachments and numbers of accepted calls have the same applicable
    expectations, whatever is alive and whichever strategies the sequences have. *)
Theorem C13_nothing_else_matters w1 w2 :
  reachable w1 -> reachable w2 ->
  (forall e x1, exp_at w1 e x1 -> exists x2, exp_at w2 e x2 /\ x_min x1 = x_min x2 /\ x_max x1 = x_max x2 /\ x_seqs x1 = x_seqs x2) ->
  length (w_exps w1) = length (w_exps w2) ->
  (forall e, accepted (w_trace w1) e = accepted (w_trace w2) e) ->
  forall e x1 x2, exp_at w1 e x1 -> exp_at w2 e x2 ->
    control_is_applicable (w_seqs w1) (e_ctl (eo_exp x1)) = control_is_applicable (w_seqs w2) (e_ctl (eo_exp x2)).
Proof.
  intros R1 R2 Hst Hlen Hacc e x1 x2 H1 H2. apply negb_iff. rewrite (C13_applicable_iff_history _ _ _ R1 H1), (C13_applicable_iff_history _ _ _ R2 H2).
  assert (Hback : forall k y2, exp_at w2 k y2 -> exists y1, exp_at w1 k y1 /\ x_min y1 = x_min y2 /\ x_max y1 = x_max y2 /\ x_seqs y1 = x_seqs y2).
  { intros k y2 Hk. pose proof (nth_error_lt _ _ _ Hk) as Hl. rewrite <- Hlen in Hl. destruct (nth_error_ex _ _ Hl) as [y1 Hy1].
    destruct (Hst _ _ Hy1) as (z & Hz & A & B & C). unfold exp_at in *. rewrite Hk in Hz. inversion Hz; subst z. eauto. }
  destruct (Hst _ _ H1) as (z & Hz & A & B & C). unfold exp_at in Hz, H2. rewrite H2 in Hz. inversion Hz; subst z.
  unfold applicable. rewrite <- B, <- C, <- Hacc. split; intros [P Q]; split; auto; intros s Hs k y Hk Hks.
  - destruct (Hback _ _ Hk) as (y1 & Hy1 & A1 & B1 & C1). rewrite <- C1 in Hks. rewrite <- A1, <- Hacc. exact (Q s Hs k y1 Hy1 Hks).
  - destruct (Hst _ _ Hk) as (y2 & Hy2 & A1 & B1 & C1). rewrite C1 in Hks. rewrite A1, Hacc. exact (Q s Hs k y2 Hy2 Hks).
Qed.

(** A greedy and a lazy sequence, with and without the first expectation alive: the second expectation is applicable. *)
Definition prog_history (st : strategy) (last : list op) : list op :=
  [ONewSeq st; ONewMock [sig_void]; OExpect 0 0 [] [ClSeq [0]; ClTimes (TxAtMost 3)] here; OExpect 0 0 [] [ClSeq [0]] there] ++ last.
Example C13_example :
  let w1 := after (prog_history Lazy []) in
  let w2 := after (prog_history Greedy [OEndScope 0]) in
  (forall e, accepted (w_trace w1) e = accepted (w_trace w2) e) /\
  map (fun x => control_is_applicable (w_seqs w1) (e_ctl (eo_exp x))) (w_exps w1) = [true; true] /\
  map (fun x => control_is_applicable (w_seqs w2) (e_ctl (eo_exp x))) (w_exps w2) = [true; true] /\
  map eo_alive (w_exps w1) = [true; true] /\ map eo_alive (w_exps w2) = [false; true].
Proof. vm_compute. auto. Qed.

(** ** C18: the end of a sequence *)

(** At every moment of every program: one error report for the sequence if nobody owns it any more and some expectation ever
    attached missed its minimum, none otherwise. *)
Theorem C18_error_iff w s :
  reachable w -> s < length (w_seqs w) ->
  (seq_error_reports (w_trace w) s = 1 /\ gone w s /\ exists e, missed w s e) \/
  (seq_error_reports (w_trace w) s = 0 /\ ~ (gone w s /\ exists e, missed w s e)).
Proof. exact (errors_iff w s). Qed.

(** It is emitted by the operation which takes away the last owner. *)
Theorem C18_error_at_last_owner w o w' r s ev :
  reachable w -> step w o = Next w' r -> (exists evs, w_trace w' = w_trace w ++ evs /\ In ev evs) -> is_seq_error s ev = true ->
  gone w' s /\ ~ gone w s /\ exists e, missed w s e /\ missed w' s e.
Proof.
  intros Hr Hs (evs & Ht & Hin) Hev. destruct (error_event _ _ _ _ Hr Hs) as (evs' & Ht' & H).
  rewrite Ht in Ht'. apply app_inv_head in Ht'. subst evs'. destruct (in_split _ _ Hin) as (u & v & E).
  destruct (H _ _ _ _ E Hev) as (q & k & n & Hq & Hd & _ & Hg & Hng & Hm & _). do 2 (split; auto).
  pose proof (winv_reachable _ Hr) as I.
  destruct (proj1 (all_met_spec w s I)) as (e & He).
  - pose proof (dtor_all_met _ _ _ I Hq) as E'. rewrite Hd in E'. symmetry in E'. apply negb_true_iff in E'. auto.
  - exists e. split; auto. apply Hm; auto.
Qed.

(** Before it in the trace comes the unfulfilled report of one of its expectations (whose description must be obtainable). *)
Theorem C18_unfulfilled_before w t ev t' s :
  reachable w -> w_trace w = t ++ ev :: t' -> is_seq_error s ev = true ->
  exists e x, exp_at w e x /\ In s (x_seqs x) /\ eo_alive x = false /\ (Z.of_nat (accepted (w_trace w) e) < x_min x)%Z /\
    (describes (eo_exp x) -> unfulfilled_reports t e = 1).
Proof. intros Hr. exact (error_after_unfulfilled w Hr t ev t' s). Qed.

(** A program in which the sequence object dies before its expectations; a reporter which only records (as while an exception is in
    flight). *)
Definition prog_end (calls : list op) : list op :=
  [ONewSeq Lazy; ONewMock [sig_void]; OExpect 0 0 [] [ClSeq [0]] here; OExpect 0 0 [] [ClSeq [0]; ClTimes (TxAtMost 1)] there;
   OExpect 0 0 [] [ClSeq [0]] there] ++ calls ++ [OUnwind 1; ODropSeq 0; OEndScope 1; OEndScope 0; OEndScope 2].
Definition seq_errors (w : world) : list (nat * nat) :=
  flat_map (fun ev => match ev with EvReport _ (RError k n) _ => [(k, n)] | _ => [] end) (w_trace w).
Example C18_example :
  seq_error_reports (w_trace (after (prog_end []))) 0 = 1 /\ seq_errors (after (prog_end [])) = [(0, 3)] /\
  seq_errors (after (prog_end [OCall 0 0 [] here; OFinal; OReturn (UOk (VInt 0)); OCall 0 0 [] here; OFinal; OReturn (UOk (VInt 0));
                               OCall 0 0 [] here; OFinal; OReturn (UOk (VInt 0))])) = [] /\
  seq_errors (after (prog_end [OCall 0 0 [] here; OFinal; OReturn (UOk (VInt 0))])) = [(2, 3)] /\
  length (results (prog_end [])) = 10.
Proof. vm_compute. auto 10. Qed.

(** ** C19: the numbers in the message *)

Theorem C19_numbers w o w' r s ev :
  reachable w -> step w o = Next w' r -> (exists evs, w_trace w' = w_trace w ++ evs /\ In ev evs) -> is_seq_error s ev = true ->
  exists k n l, ev = EvReport (w_rid w) (RError k n) [s] /\ attached_numbers w s l /\ n = length l /\
    (exists e, nth_error l k = Some e /\ missed w s e) /\
    (forall i e, i < k -> nth_error l i = Some e -> ~ missed w s e).
Proof.
  intros Hr Hs (evs & Ht & Hin) Hev. destruct (error_event _ _ _ _ Hr Hs) as (evs' & Ht' & H).
  rewrite Ht in Ht'. apply app_inv_head in Ht'. subst evs'. destruct (in_split _ _ Hin) as (u & v & E).
  destruct (H _ _ _ _ E Hev) as (q & k & n & Hq & Hd & He & _).
  destruct (error_numbers _ _ _ _ _ (winv_reachable _ Hr) Hq Hd) as (l & H1 & H2 & H3 & H4). exists k, n, l. auto.
Qed.

(** Read literally the text is wrong: here two of the three expectations are satisfied when the sequence ends, but the message
    says 0 out of 3. *)
Definition satisfied_in (w : world) (e : nat) : bool :=
  match nth_error (w_exps w) e with
  | Some x => (x_min x <=? Z.of_nat (accepted (w_trace w) e))%Z
  | None => false
  end.
Definition prog_literal : list op :=
  [ONewSeq Lazy; ONewMock [sig_void]; OExpect 0 0 [] [ClSeq [0]] here; OExpect 0 0 [] [ClSeq [0]; ClTimes (TxAtMost 1)] there;
   OExpect 0 0 [] [ClSeq [0]; ClTimes (TxAtMost 2)] there; OUnwind 1; ODropSeq 0; OEndScope 1; OEndScope 2; OEndScope 0].
Theorem C19_literal_reading_refuted :
  exists w rid k n l, reachable w /\ In (EvReport rid (RError k n) [0]) (w_trace w) /\ attached_numbers w 0 l /\
    k <> length (filter (satisfied_in w) l).
Proof.
  exists (after prog_literal), 0, 0, 3, (numbers (ctls (after prog_literal)) 0).
  split; [apply after_reachable; vm_compute; reflexivity|]. split; [vm_compute; auto|].
  split; [apply numbers_attached|]. vm_compute. discriminate.
Qed.
Example C19_example :
  sequence_error_message 0 3 = "Unfulfilled sequence. 0 out of 3 expectation(s) are satisfied."%string /\
  filter (satisfied_in (after prog_literal)) [0; 1; 2] = [1; 2] /\ numbers (ctls (after prog_literal)) 0 = [0; 1; 2].
Proof. vm_compute. auto. Qed.

(** ** C20: attaching late only appends *)

Theorem C20_appended w m ov ms cls l w' :
  reachable w -> step w (OExpect m ov ms cls l) = Next w' RUnit ->
  let e := length (w_exps w) in
  (exists x, exp_at w' e x /\ x_seqs x = clause_seqs cls /\
     (applicable w' e x <-> (0 < x_max x)%Z /\ forall s k y, In s (clause_seqs cls) -> exp_at w k y -> In s (x_seqs y) ->
                                               (x_min y <= Z.of_nat (accepted (w_trace w) k))%Z)) /\
  forall k y, exp_at w k y -> k < e /\ exp_at w' k y /\ (applicable w k y <-> applicable w' k y) /\
    control_is_applicable (w_seqs w') (e_ctl (eo_exp y)) = control_is_applicable (w_seqs w) (e_ctl (eo_exp y)).
Proof.
  intros Hr Hs e. pose proof (winv_reachable _ Hr) as I. pose proof (reachable_step _ _ _ _ Hr Hs) as Hr'.
  destruct (expect_next _ _ _ _ _ _ _ _ Hs) as (s & coll & Hf & _ & _ & [(_ & _ & x & Hx & Hd & _ & _ & Hlen & Ht & _)|(_ & E & _)]); [|discriminate].
  assert (Hold : forall k y, exp_at w k y -> exp_at w' k y).
  { intros k y Hk. pose proof Hs as Hs'. simpl in Hs'. apply do_expect_next in Hs'.
    destruct Hs' as (s' & coll' & _ & _ & _ & [(z & _ & _ & E)|(b & ss & ctl & mem & _ & _ & _ & _ & _ & ->)]); [discriminate|].
    apply nth_error_snoc_old; auto. }
  split.
  - exists x. split; auto. assert (Hsq : x_seqs x = clause_seqs cls) by (destruct Hd; tauto). split; auto.
    assert (H0 : accepted (w_trace w') e = 0) by (rewrite Ht; apply (wi_fresh _ I); unfold e; lia).
    unfold applicable. rewrite H0, Hsq. split.
    + intros [A B]. split; auto. intros t k y Hin Hk Hy. pose proof (nth_error_lt _ _ _ Hk) as Hl.
      destruct (B t Hin k y (Hold _ _ Hk) Hy) as [C _]. rewrite <- Ht. apply C. unfold e. lia.
    + intros [A B]. split; auto. intros t Hin k y Hk Hy. pose proof (nth_error_lt _ _ _ Hk) as Hl. rewrite Hlen in Hl. split; [|unfold e; lia].
      intros Hlt. rewrite Ht. destruct (nth_error_ex (w_exps w) k Hlt) as [z Hz]. pose proof (Hold _ _ Hz) as Hz'.
      unfold exp_at in *. rewrite Hk in Hz'. inversion Hz'; subst z. eauto.
  - intros k y Hk. pose proof (nth_error_lt _ _ _ Hk) as Hl. split; auto. split; auto.
    destruct (applicable_step _ _ _ _ _ _ Hr Hs Hk) as (z & Hz & _ & Hiff); [intros; rewrite Ht; auto|].
    pose proof (Hold _ _ Hk) as Hk'. unfold exp_at in Hz, Hk'. rewrite Hk' in Hz. inversion Hz; subst z. split; auto.
    apply negb_iff. rewrite (C13_applicable_iff_history _ _ _ Hr' Hk'), (C13_applicable_iff_history _ _ _ Hr Hk). tauto.
Qed.

(** The sequence has progressed past its first expectation; the new one is applicable only after the second one. *)
Definition prog_late : list op :=
  [ONewSeq Greedy; ONewMock [sig_void]; OExpect 0 0 [] [ClSeq [0]] here; OExpect 0 0 [] [ClSeq [0]] here;
   OCall 0 0 [] here; OFinal; OReturn (UOk (VInt 0))].
Example C20_example :
  let w := after (prog_late ++ [OExpect 0 0 [] [ClSeq [0]] there]) in
  map (fun x => control_is_applicable (w_seqs (after prog_late)) (e_ctl (eo_exp x))) (w_exps (after prog_late)) = [false; true] /\
  map (fun x => control_is_applicable (w_seqs w) (e_ctl (eo_exp x))) (w_exps w) = [false; true; false].
Proof. vm_compute. auto. Qed.

(** ** C22: an unmet element blocks its successors forever *)

Theorem C22_blocks_forever w e x ops w' e' x' s :
  reachable w -> exp_at w e x -> eo_alive x = false -> (Z.of_nat (accepted (w_trace w) e) < x_min x)%Z -> In s (x_seqs x) ->
  run w ops w' -> exp_at w' e' x' -> In s (x_seqs x') -> e < e' ->
  ~ applicable w' e' x' /\ accepted (w_trace w') e' = accepted (w_trace w) e'.
Proof. intros. eapply blocked; eauto. Qed.

(** Ending a scope (of an expectation that reached its minimum or of any other) does not make anything inapplicable. *)
Theorem C22_ending_does_not_block w h w' r k y :
  reachable w -> step w (OEndScope h) = Next w' r -> exp_at w k y ->
  exists y', exp_at w' k y' /\ same_static y y' /\ (applicable w k y <-> applicable w' k y').
Proof.
  intros Hr Hs Hk. apply (applicable_step _ _ _ _ _ _ Hr Hs Hk).
  destruct (step_accepted _ _ _ _ Hr Hs) as [(evs & -> & H)|(m & ov & args & l & s & coll & n & x & mr & unh & E & _)]; [|discriminate].
  intros e. rewrite accepted_app, H. lia.
Qed.

(** The same two expectations; the scope of the first one ends with or without a call before. *)
Definition prog_ends (calls : list op) : list op :=
  [ONewSeq Lazy; ONewMock [sig_void]; OExpect 0 0 [] [ClSeq [0]] here; OExpect 0 0 [] [ClSeq [0]] there; OUnwind 1] ++ calls ++
  [OEndScope 0; OCall 0 0 [] here].
Example C22_example :
  results (prog_ends []) = [RUnit; RUnit; RUnit; RUnit; RUnit; RUnit; RThrow EReporter] /\
  results (prog_ends [OCall 0 0 [] here; OFinal; OReturn (UOk (VInt 0))]) =
    [RUnit; RUnit; RUnit; RUnit; RUnit; RUnit; RUnit; RVal None; RUnit; RUnit].
Proof. vm_compute. auto. Qed.

(** ** C55: the limit on the number of attached expectations *)

Theorem C55_below_limit_succeeds w m ov ms cls l s coll :
  reachable w -> find_overload w m ov = inr (s, coll) -> length ms = length (sg_params s) ->
  forallb (clause_ok w (length (sg_params s))) cls = true -> (exists b, build s ms cls = BOk b /\ finalize_ok s b = true) ->
  (forall t, In t (clause_seqs cls) -> below_limit w t) ->
  exists w', step w (OExpect m ov ms cls l) = Next w' RUnit.
Proof. exact (expect_below w m ov ms cls l s coll). Qed.

Theorem C55_over_limit_terminates w m ov ms cls l s coll t :
  reachable w -> find_overload w m ov = inr (s, coll) -> length ms = length (sg_params s) ->
  forallb (clause_ok w (length (sg_params s))) cls = true -> (exists b, build s ms cls = BOk b /\ finalize_ok s b = true) ->
  In t (clause_seqs cls) -> ~ below_limit w t -> step w (OExpect m ov ms cls l) = Stop.
Proof. exact (expect_over w m ov ms cls l s coll t). Qed.

(** Programs attaching any number of expectations up to one more than the limit. *)
Lemma attach_many n : (Z.of_nat n <= INT_MAX + 1)%Z ->
  exists w, reachable w /\ find_overload w 0 0 = inr (sig_void, 0) /\ nth 0 (w_iface w) false = true /\
    length (numbers (ctls w) 0) = n.
Proof.
  induction n as [|n IH]; intros Hn.
  - exists (after [ONewSeq Lazy; ONewMock [sig_void]]). split; [apply after_reachable; reflexivity|]. vm_compute. auto.
  - destruct IH as (w & Hr & Hf & Hi & Hl); [lia|].
    assert (Hok : forallb (clause_ok w (length (sg_params sig_void))) [ClSeq [0]] = true) by (cbn; rewrite Hi; reflexivity).
    destruct (expect_below w 0 0 [] [ClSeq [0]] here sig_void 0 Hr Hf eq_refl Hok) as [w' Hs].
    + eexists. split; vm_compute; reflexivity.
    + intros t Ht l Hat. destruct Ht as [<-|[]]. rewrite (numbers_unique _ _ _ Hat), Hl. lia.
    + exists w'. split; [eapply reachable_step; eauto|].
      pose proof Hs as Hs'. simpl in Hs'. apply do_expect_next in Hs'.
      destruct Hs' as (s & coll & Hf' & _ & _ & [(x & _ & _ & E)|(b & ss & ctl & mem & Hb & _ & Hc & _ & _ & ->)]); [discriminate|].
      split; [exact Hf|]. split; [exact Hi|].
      rewrite Hf in Hf'. inversion Hf'; subst s coll. clear Hf'.
      assert (Hbs : b_seqs b = [0]) by (vm_compute in Hb; inversion Hb; reflexivity).
      apply control_new_parts in Hc. destruct Hc as (_ & _ & _ & Hsq). rewrite Hbs in Hsq.
      unfold new_world, ctls. cbn [w_exps]. rewrite map_app. cbn [map]. fold (ctls w). rewrite numbers_snoc, app_length, Hl.
      unfold ctl_of at 1. cbn [eo_exp e_ctl]. replace (attached_in 0 ctl) with true; [simpl; lia|].
      symmetry. apply attached_in_spec. rewrite Hsq. left. reflexivity.
Qed.

(** The exception of BasicSequence::add never reaches the user. *)
Theorem C55_runtime_error_refuted :
  exists w cls, reachable w /\ find_overload w 0 0 = inr (sig_void, 0) /\ forallb (clause_ok w 0) cls = true /\
    (exists b, build sig_void [] cls = BOk b /\ finalize_ok sig_void b = true) /\
    step w (OExpect 0 0 [] cls here) = Stop /\ ~ (exists w', step w (OExpect 0 0 [] cls here) = Next w' (RThrow ERuntimeError)).
Proof.
  destruct (attach_many (Z.to_nat (INT_MAX + 1))) as (w & Hr & Hf & Hi & Hl); [unfold INT_MAX; lia|].
  exists w, [ClSeq [0]].
  assert (Hok : forallb (clause_ok w 0) [ClSeq [0]] = true) by (cbn [forallb clause_ok length]; rewrite Hi; reflexivity).
  assert (Hb : exists b, build sig_void [] [ClSeq [0]] = BOk b /\ finalize_ok sig_void b = true) by (eexists; split; vm_compute; reflexivity).
  assert (Hs : step w (OExpect 0 0 [] [ClSeq [0]] here) = Stop).
  { apply (expect_over w 0 0 [] [ClSeq [0]] here sig_void 0 0 Hr Hf eq_refl Hok Hb); [left; auto|].
    intros Hlim. specialize (Hlim _ (numbers_attached w 0)). rewrite Hl in Hlim. unfold INT_MAX in Hlim. lia. }
  do 5 (split; auto). rewrite Hs. intros [w' E]. discriminate.
Qed.

(** ** C59: unfulfilled sequences as exceptions *)

Lemma release_seqs_stop s l : forall w q k n, In s l -> seq_in_use w s = false -> nth s (w_sdead w) true = false ->
  nth_error (w_seqs w) s = Some q -> seq_dtor_error q = Some (k, n) -> (forall k n, react w (RError k n) <> Returns) ->
  (forall t, In t l -> exists p, nth_error (w_seqs w) t = Some p) -> release_seqs w l = Stop.
Proof.
  induction l as [|t l IH]; intros w q k n Hin Hu Hd Hq Hdt Hre Hall; [contradiction|]. cbn [release_seqs].
  destruct (release_seq w t) as [w1 r| |u|] eqn:E; auto.
  - apply release_seq_next in E. destruct E as [_ [[-> Hk]|(Hu' & Hd' & p & Hp & -> & Hret)]].
    + destruct Hin as [->|Hin]; [rewrite Hu, Hd in Hk; discriminate|]. eapply IH; eauto. intros t' Ht'. apply Hall. right; auto.
    + destruct (Nat.eq_dec t s) as [->|Hne].
      * exfalso. rewrite Hq in Hp. inversion Hp; subst p. apply (Hre k n). eapply Hret; eauto.
      * destruct Hin as [->|Hin]; [congruence|]. eapply (IH _ q k n); eauto.
        -- simpl. rewrite nth_upd_true. destruct (Nat.eqb_spec t s); [congruence|]. auto.
        -- intros t' Ht'. apply Hall. right; auto.
  - exfalso. unfold release_seq in E. destruct (_ || _); [discriminate|]. destruct (Hall t (or_introl eq_refl)) as [p Hp]. rewrite Hp in E.
    destruct (seq_dtor_error p) as [[a b]|]; [|discriminate]. destruct (react _ _) in E; discriminate.
  - exfalso. unfold release_seq in E. destruct (_ || _); [discriminate|]. destruct (Hall t (or_introl eq_refl)) as [p Hp]. rewrite Hp in E.
    destruct (seq_dtor_error p) as [[a b]|]; [|discriminate]. destruct (react _ _) in E; discriminate.
Qed.

Lemma missed_dtor w s e q : WInv w -> missed w s e -> nth_error (w_seqs w) s = Some q -> exists k n, seq_dtor_error q = Some (k, n).
Proof.
  intros I Hm Hq. pose proof (dtor_all_met _ _ _ I Hq) as E. rewrite (proj2 (all_met_spec w s I)) in E by eauto.
  destruct (seq_dtor_error q) as [[k n]|]; [eauto|discriminate].
Qed.

(** The sequence object is the last owner: if the reporter does not swallow the error, the program ends. *)
Theorem C59_drop_terminates w s e :
  reachable w -> nth s (w_iface w) false = true -> (forall k x, exp_at w k x -> In s (x_seqs x) -> eo_alive x = false) ->
  missed w s e -> (forall k n, react w (RError k n) <> Returns) -> step w (ODropSeq s) = Stop.
Proof.
  intros Hr Hi Hdead Hm Hre. pose proof (winv_reachable _ Hr) as I. destruct (wi_len _ I) as [Li Ld].
  assert (Hs : s < length (w_seqs w)) by (rewrite <- Li; apply nth_true_lt; auto).
  destruct (nth_error_ex _ _ Hs) as [q Hq]. destruct (missed_dtor _ _ _ _ I Hm Hq) as (k & n & Hd).
  simpl. rewrite Hi. set (w1 := set_iface w (upd (w_iface w) s false)).
  assert (Hu : seq_in_use w1 s = false).
  { apply gone_spec. split; [|exact Hdead]. unfold w1. simpl. rewrite nth_iface_upd by lia. rewrite Nat.eqb_refl. auto. }
  assert (Hsd : nth s (w_sdead w1) true = false).
  { unfold w1. simpl. rewrite (wi_dead _ I _ Hs). replace (seq_in_use w s) with true; auto. symmetry. apply in_use_spec. auto. }
  pose proof (release_seqs_stop s [s] w1 q k n (or_introl eq_refl) Hu Hsd Hq Hd Hre) as R. cbn [release_seqs] in R.
  destruct (release_seq w1 s) as [w2 r| |u|]; auto; exfalso.
  - discriminate R. intros t [<-|[]]. eauto.
  - discriminate R. intros t [<-|[]]. eauto.
  - discriminate R. intros t [<-|[]]. eauto.
Qed.

(** An expectation which is itself satisfied is the last owner. *)
Theorem C59_last_expectation_terminates w h e x s e' :
  reachable w -> nth_error (w_scoped w) h = Some (HOwns e) -> exp_at w e x -> (x_min x <= Z.of_nat (accepted (w_trace w) e))%Z ->
  In s (x_seqs x) -> nth s (w_iface w) false = false -> (forall k y, exp_at w k y -> In s (x_seqs y) -> k <> e -> eo_alive y = false) ->
  missed w s e' -> (forall k n, react w (RError k n) <> Returns) -> step w (OEndScope h) = Stop.
Proof.
  intros Hr Hh Hx Hmet Hin Hi Hdead Hm Hre. pose proof (winv_reachable _ Hr) as I. pose proof (oinv_reachable _ Hr) as O.
  destruct (wi_len _ I) as [Li Ld]. destruct (oi_own _ O _ _ Hh) as (x' & Hx' & Ha). unfold exp_at in Hx, Hx'. rewrite Hx in Hx'. inversion Hx'; subst x'.
  simpl. rewrite Hh. unfold end_expectation. simpl. rewrite Hx.
  pose proof (wi_collr _ I _ _ Hx) as Hc. destruct (nth_error_ex _ _ Hc) as [l Hl]. rewrite Hl.
  assert (Hinl : existsb (Nat.eqb e) l = true).
  { apply existsb_exists. exists e. split; [|apply Nat.eqb_refl]. rewrite (wi_coll _ I _ _ Hl). apply members_in. eauto. }
  rewrite Hinl. simpl.
  assert (Hsat : exp_is_satisfied (eo_exp x) = true).
  { rewrite (satisfied_met x _ _ _ (wi_s _ I) (ctls_nth _ _ _ Hx)). apply negb_true_iff. apply not_true_iff_false. intros E.
    apply (unmet_count _ _ _ I Hx) in E. lia. }
  rewrite Hsat.
  assert (Hall : forall t, In t (map fst (c_seqs (e_ctl (eo_exp x)))) -> exists p, nth_error (w_seqs w) t = Some p).
  { intros t Ht. apply in_map_fst in Ht. destruct Ht as [id Hid].
    destruct (si_entry _ _ (wi_s _ I) _ _ _ _ (ctls_nth _ _ _ Hx) Hid) as (q & Hq & _). eauto. }
  destruct (Hall s Hin) as [q Hq]. destruct (missed_dtor _ _ _ _ I Hm Hq) as (k & n & Hd).
  eapply (release_seqs_stop s _ _ q k n); eauto.
  - apply gone_spec. split; [exact Hi|]. intros j y Hj Hs. unfold exp_at in Hj. simpl in Hj. apply nth_error_upd in Hj.
    destruct Hj as [(_ & _ & ->)|(Hne & Hj)]; auto. eapply Hdead; eauto.
  - simpl. rewrite (wi_dead _ I) by (eapply nth_error_lt; eauto). replace (seq_in_use w s) with true; auto.
    symmetry. apply in_use_spec. right. exists e, x. auto.
Qed.

(** With the DefaultReporter: after the exception of the expectation was handled, the sequence ends the program. *)
Definition prog_seq_end : list op :=
  [ONewSeq Lazy; ONewMock [sig_void]; OExpect 0 0 [] [ClSeq [0]] here; OEndScope 0].
Theorem C59_catchable_refuted :
  exists w s, reachable w /\ w_uncaught w = 0 /\ w_reporter w = default_reporter /\ step w (ODropSeq s) = Stop.
Proof.
  exists (after prog_seq_end), 0. split; [apply after_reachable; vm_compute; reflexivity|].
  split; [reflexivity|]. split; [reflexivity|]. vm_compute. reflexivity.
Qed.
Example C59_example : results prog_seq_end = [RUnit; RUnit; RUnit; RThrow EReporter].
Proof. vm_compute. reflexivity. Qed.

Print Assumptions C12_calls_in_attachment_order.
Print Assumptions C12_earlier_reached_min.
Print Assumptions C12_earlier_never_again.
Print Assumptions C13_applicable_iff_history.
Print Assumptions C13_sole_expectation.
Print Assumptions C13_nothing_else_matters.
Print Assumptions C18_error_iff.
Print Assumptions C18_error_at_last_owner.
Print Assumptions C18_unfulfilled_before.
Print Assumptions C19_numbers.
Print Assumptions C19_literal_reading_refuted.
Print Assumptions C20_appended.
Print Assumptions C22_blocks_forever.
Print Assumptions C22_ending_does_not_block.
Print Assumptions C55_below_limit_succeeds.
Print Assumptions C55_over_limit_terminates.
Print Assumptions C55_runtime_error_refuted.
Print Assumptions C59_drop_terminates.
Print Assumptions C59_last_expectation_terminates.
Print Assumptions C59_catchable_refuted.
