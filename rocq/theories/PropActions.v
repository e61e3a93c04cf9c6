(** * PropActions: C53, C54, C66: side effects and finalizers acting on objects, equality of calls. *)

From Verif Require Import Base Lib Sequence Control Signature Printer Reports Expectation Builder BuildSpec World WorldSpec CallSpec ObjInv
  Scenario FrameSpec PropFrames Actions ActionSpec ActionProofs.

(** ** C53: side effects act on the selected arguments by reference. *)

(** Every call which ends: its parameters are passed as C++ demands; every side effect runs exactly once, in the order of attachment; its
    function gets references to exactly the selected arguments in the given order and the memory left by its predecessor. *)
Theorem C53_side_effects residue ps r ses f es m o log m' :
  Forall (denotes m) es -> mock_call residue ps r ses f es m = o -> ends o = Some (log, m') ->
  exists ls m1, passed ps es m ls m1 /\ executed ses ls m1 log.
Proof.
  intros Hd Hc He. destruct (call_parts _ _ _ _ _ _ _ _ _ _ Hc He) as (ls & m1 & m2 & Hb & Hco & _ & _). exists ls, m1. rewrite Forall_forall in Hd.
  destruct (bind_length _ _ _ _ _ _ Hb) as (L1 & L2 & L3). destruct (bind_memory _ _ _ _ _ _ Hb) as [B1 B2]. split.
  - split; auto. split; auto. split; auto. split; auto. intros k p e Hp Hke. destruct (bind_spec _ _ _ _ _ _ Hb _ _ _ Hp Hke) as (l & Hl & Hlt & Hr).
    exists l. split; auto. split; auto. destruct (by_reference p e) eqn:Eb; auto. destruct Hr as [Hr1 Hr2]. split; auto. split; [auto|].
    intros Hu. eapply B2; eauto.
  - destruct (consume_spec _ _ _ _ _ Hco) as (A & B & C). split; auto.
Qed.

(** The finalizer gets the memory as left by the last side effect. *)
Lemma call_prepared residue ps r ses f es m o log m' :
  Forall (denotes m) es -> mock_call residue ps r ses f es m = o -> ends o = Some (log, m') ->
  exists ls m2, prepared ps ses es m ls log m2 /\ finalize residue f r ps ls log m2 = o.
Proof.
  intros Hd Hc He. destruct (call_parts _ _ _ _ _ _ _ _ _ _ Hc He) as (ls & m1 & m2 & Hb & Hco & Hf & _). exists ls, m2. split; auto.
  destruct (C53_side_effects _ _ _ _ _ _ _ _ _ _ Hd Hc He) as (ls' & m1' & Hp & Hex). exists m1.
  rewrite Forall_forall in Hd. destruct (bind_length _ _ _ _ _ _ Hb) as (L1 & L2 & L3). destruct (bind_memory _ _ _ _ _ _ Hb) as [B1 B2].
  destruct (consume_spec _ _ _ _ _ Hco) as (A & B & C). split; [|split; [split|]; auto].
  split; auto. split; auto. split; auto. split; auto. intros k p e Hpk Hke. destruct (bind_spec _ _ _ _ _ _ Hb _ _ _ Hpk Hke) as (l & Hl & Hlt & Hr).
  exists l. split; auto. split; auto. destruct (by_reference p e) eqn:Eb; auto. destruct Hr as [Hr1 Hr2]. split; auto. split; [auto|]. intros Hu. eapply B2; eauto.
Qed.

(** If the functions of the side effects change nothing but what they get, then nothing but the selected arguments is modified before the
    finalizer starts. *)
Theorem C53_nothing_else_is_modified residue ps r ses f es m o log m' l :
  Forall (denotes m) es -> mock_call residue ps r ses f es m = o -> ends o = Some (log, m') ->
  (forall n se, In (n, se) ses -> modest (function_of se)) -> l < length m -> (forall k, ~ moved_in ps es k l) ->
  (forall k p e n se, nth_error ps k = Some p -> nth_error es k = Some e -> by_reference p e = Some l -> In (n, se) ses -> ~ selects se k) ->
  exists ls m2, prepared ps ses es m ls log m2 /\ nth_error m2 l = nth_error m l.
Proof.
  intros Hd Hc He Hm Hl Hmv Hs. destruct (call_prepared _ _ _ _ _ _ _ _ _ _ Hd Hc He) as (ls & m2 & Hp & _).
  destruct (call_parts _ _ _ _ _ _ _ _ _ _ Hc He) as (ls0 & m1 & m2' & Hb & Hco & Hf & _).
  pose proof (consume_spec _ _ _ _ _ Hco) as (A & B & C). destruct (bind_length _ _ _ _ _ _ Hb) as (L1 & L2 & L3). destruct (bind_memory _ _ _ _ _ _ Hb) as [B1 B2].
  exists ls0, m2'. split.
  { rewrite Forall_forall in Hd. exists m1. split; [|split; [split|]; auto]. split; auto. split; auto. split; auto. split; auto.
    intros k p e Hpk Hke. destruct (bind_spec _ _ _ _ _ _ Hb _ _ _ Hpk Hke) as (l0 & Hl0 & Hlt & Hr).
    exists l0. split; auto. split; auto. destruct (by_reference p e) eqn:Eb; auto. destruct Hr as [Hr1 Hr2]. split; auto. split; [auto|]. intros Hu. eapply B2; eauto. }
  destruct (consume_modest _ _ _ _ _ Hco Hm) as [_ Hk]. rewrite Hk; [auto|lia|]. intros n se i Hin Hsel Hi.
  assert (i < length ps) as Hip by (apply nth_error_lt in Hi; lia). destruct (nth_error_ex _ _ Hip) as [p Hpi]. assert (i < length es) as Hie by lia. destruct (nth_error_ex _ _ Hie) as [e Hei].
  destruct (bind_spec _ _ _ _ _ _ Hb _ _ _ Hpi Hei) as (l0 & Hl0 & _ & Hr). rewrite Hi in Hl0. inversion Hl0; subst l0.
  destruct (by_reference p e) eqn:Eb; [|lia]. subst n0. exact (Hs _ _ _ _ _ Hpi Hei Eb Hin Hsel).
Qed.

(** Indices out of range do not compile. *)
Theorem C53_index_out_of_range residue ps r ses f es m i :
  (exists n se, In (n, se) ses /\ In i (indices_of se)) \/ In i (fin_indices_of f) -> length ps <= i -> mock_call residue ps r ses f es m = IllFormed.
Proof.
  intros H Hi. unfold mock_call. assert (forallb (fun '(_, se) => side_effect_ok (length ps) se) ses && finalizer_ok (length ps) f = false) as ->; [|reflexivity].
  assert (K : forall is, In i is -> indices_ok (length ps) is = false).
  { intros is Hin. unfold indices_ok. destruct (forallb _ is) eqn:E; auto. rewrite forallb_forall in E. specialize (E _ Hin). apply Nat.ltb_lt in E. lia. }
  apply andb_false_iff. destruct H as [(n & se & Hin & Hse)|H].
  - left. destruct (forallb _ ses) eqn:E; auto. rewrite forallb_forall in E. specialize (E _ Hin). simpl in E. destruct se; simpl in *; try contradiction. rewrite (K _ Hse) in E. discriminate.
  - right. destruct f; simpl in *; try contradiction; [apply K; auto|]. destruct H as [->|[]]. destruct (Nat.ltb_spec i (length ps)); auto. lia.
Qed.

(** A side effect that throws terminates the program, and nothing else in the side effects does. *)
Theorem C53_throwing_side_effect_terminates residue ps r f es m pre n se post log m2 :
  (forall n' se' i, In (n', se') (pre ++ (n, se) :: post) -> In i (indices_of se') -> i < length ps) -> (forall i, In i (fin_indices_of f) -> i < length ps) ->
  mock_call residue ps RetVoid pre FinVoid es m = Returned log CVoid m2 -> (forall args, exists v m3, function_of se args m2 = (URaise v, m3)) ->
  mock_call residue ps r (pre ++ (n, se) :: post) f es m = Terminated.
Proof.
  intros Hi Hfi Hpre Hf.
  assert (K : forall is, (forall i, In i is -> i < length ps) -> indices_ok (length ps) is = true).
  { intros is H. unfold indices_ok. apply forallb_forall. intros i Hin. apply Nat.ltb_lt. auto. }
  destruct (call_parts _ _ _ _ _ _ _ _ log m2 Hpre eq_refl) as (ls & m1 & m2' & Hb & Hco & Hfin & _). simpl in Hfin. inversion Hfin; subst m2'. unfold mock_call.
  assert (forallb (fun '(_, se0) => side_effect_ok (length ps) se0) (pre ++ (n, se) :: post) = true) as ->.
  { apply forallb_forall. intros [n' se'] Hin. destruct se'; simpl; auto. apply K. intros i Hii. eapply Hi; eauto. }
  assert (finalizer_ok (length ps) f = true) as ->. { destruct f; simpl in *; auto. rewrite andb_true_r. apply Nat.ltb_lt. auto. }
  simpl. rewrite Hb. assert (Hh : exists args, handed se ls = Some args).
  { assert (In (n, se) (pre ++ (n, se) :: post)) as Hin by (apply in_or_app; right; left; auto). specialize (Hi n se). destruct se; simpl in *; eauto.
    destruct (select_ok indices ls) as [xs ->]; [|eauto]. destruct (bind_length _ _ _ _ _ _ Hb) as (-> & _). apply K. intros. eapply Hi; eauto. }
  destruct Hh as [args Hh]. destruct (Hf args) as (v & m3 & Hv).
  assert (consume (pre ++ (n, se) :: post) ls m1 = ConsumeTerminates) as ->; [|reflexivity].
  clear - Hco Hh Hv. revert m1 log Hco. induction pre as [|[n1 s1] pre IH]; intros m1 log Hco; simpl in *.
  - inversion Hco; subst. rewrite Hh, Hv. reflexivity.
  - destruct (handed s1 ls); [|discriminate]. destruct (function_of s1 l m1) as [[e|x] m4]; [|discriminate]. destruct (consume pre ls m4) as [lg mm| |] eqn:E; try discriminate.
    inversion Hco; subst. rewrite (IH _ _ E). reflexivity.
Qed.

Lemma consume_terminates ses : forall ls m, consume ses ls m = ConsumeTerminates ->
  exists pre n se post log, ses = pre ++ (n, se) :: post /\ consume pre ls m = Consumed log (left_by m log) /\
  exists args v m3, handed se ls = Some args /\ function_of se args (left_by m log) = (URaise v, m3).
Proof.
  induction ses as [|[n se] ses IH]; intros ls m H; simpl in H; [discriminate|]. destruct (handed se ls) as [args|] eqn:Eh; [|discriminate].
  destruct (function_of se args m) as [[e|v] m1] eqn:Ef.
  - destruct (consume ses ls m1) eqn:Ec; try discriminate. destruct (IH _ _ Ec) as (pre & n' & se' & post & log & -> & Hp & args' & v & m3 & Ha & Hv).
    exists ((n, se) :: pre), n', se', post, (mkInv n args m m1 :: log).
    assert (Hl : left_by m (mkInv n args m m1 :: log) = left_by m1 log).
    { unfold left_by. simpl. clear. revert m m1. induction log as [|x [|y l] IH]; intros; auto. simpl in *. apply IH; auto. }
    split; [reflexivity|]. simpl. rewrite Eh, Ef, Hp, Hl. split; auto. exists args', v, m3. auto.
  - exists [], n, se, ses, []. split; auto. split; auto. exists args, v, m1. auto.
Qed.
Theorem C53_terminates_only_by_throwing residue ps r ses f es m :
  Forall (denotes m) es -> mock_call residue ps r ses f es m = Terminated ->
  exists ls m1 pre n se post log args v m3, passed ps es m ls m1 /\ ses = pre ++ (n, se) :: post /\ executed pre ls m1 log /\
    gets se ls args /\ function_of se args (left_by m1 log) = (URaise v, m3).
Proof.
  intros Hd Hc. unfold mock_call in Hc. destruct (negb _); [discriminate|]. destruct (bind_params residue ps es m) as [[ls m1]|] eqn:Hb; [|discriminate].
  destruct (consume ses ls m1) as [log m2| |] eqn:Hco; [|clear Hc|discriminate].
  { exfalso. unfold finalize, result_of, convert in Hc. destruct f; repeat (destruct r; try discriminate); repeat match type of Hc with context [match ?x with _ => _ end] => destruct x; try discriminate end. }
  destruct (consume_terminates _ _ _ Hco) as (pre & n & se & post & log & -> & Hp & args & v & m3 & Ha & Hv). exists ls, m1, pre, n, se, post, log, args, v, m3.
  rewrite Forall_forall in Hd. destruct (bind_length _ _ _ _ _ _ Hb) as (L1 & L2 & L3). destruct (bind_memory _ _ _ _ _ _ Hb) as [B1 B2].
  destruct (consume_spec _ _ _ _ _ Hp) as (A & _ & C). split; [|split; [reflexivity|split; [split; auto|split; [apply handed_gets; auto|auto]]]].
  split; auto. split; auto. split; auto. split; auto. intros k p e Hpk Hke. destruct (bind_spec _ _ _ _ _ _ Hb _ _ _ Hpk Hke) as (l & Hl & Hlt & Hr).
  exists l. split; auto. split; auto. destruct (by_reference p e) eqn:Eb; auto. destruct Hr as [Hr1 Hr2]. split; auto. split; [auto|]. intros Hu. eapply B2; eauto.
Qed.

(** A call with arguments the compiler accepts and side effects which do not throw gets to its finalizer. *)
Theorem C53_completes residue ps ses es m :
  Forall (denotes m) es -> Forall2 binds ps es -> (forall n se i, In (n, se) ses -> In i (indices_of se) -> i < length ps) ->
  (forall n se, In (n, se) ses -> never_throws (function_of se)) ->
  exists log m', mock_call residue ps RetVoid ses FinVoid es m = Returned log CVoid m'.
Proof.
  intros Hd Hb Hi Hn. unfold mock_call.
  assert (forallb (fun '(_, se0) => side_effect_ok (length ps) se0) ses = true) as Hok.
  { apply forallb_forall. intros [n' se'] Hin. destruct se'; simpl; auto. unfold indices_ok. apply forallb_forall. intros i Hii. apply Nat.ltb_lt. eapply Hi; eauto. }
  rewrite Hok. simpl.
  assert (exists ls m1, bind_params residue ps es m = Some (ls, m1)) as (ls & m1 & Hbp).
  { clear - Hd Hb. revert m Hd. induction Hb as [|p e ps es Hpe Hb IH]; intros m Hd; simpl; [eauto|]. inversion Hd as [|? ? Hde Hdes]; subst.
    assert (exists l m1, bind_param residue p e m = Some (l, m1) /\ length m <= length m1) as (l & m1 & E & L).
    { unfold bind_param, new_object, init_from. destruct p, e as [v|l|l]; simpl in *; try (destruct Hpe; discriminate); try (exfalso; eapply Hpe; reflexivity);
        try (destruct (nth_error_ex _ _ Hde) as [v ->]); try (destruct (Nat.ltb_spec l (length m)); [|lia]);
        do 2 eexists; (split; [reflexivity|]); rewrite ?app_length, ?length_upd; simpl; lia. }
    rewrite E. destruct (IH m1) as (ls & m2 & ->); [|eauto]. eapply Forall_impl; [|exact Hdes]. intros [v|k|k]; simpl; auto; lia. }
  rewrite Hbp. destruct (bind_length _ _ _ _ _ _ Hbp) as (L & _). rewrite <- L in Hok. pose proof (consume_ok ses ls m1 Hok) as Hill.
  destruct (consume ses ls m1) as [log m2| |] eqn:Hco; [eauto| |congruence]. exfalso.
  destruct (consume_terminates _ _ _ Hco) as (pre & n & se & post & log & -> & _ & args & v & m3 & _ & Hv). eapply (Hn n se); [apply in_or_app; right; left; reflexivity|exact Hv].
Qed.

(** The side effects of this model are those of the world model: their invocations are the effects of the matched call, in order. *)
Theorem C53_in_world w mk ov vals l w1 n x ops evs w2 user w3 res residue ps r ses f es m log m' :
  reachable w -> handled_by w (OCall mk ov vals l) w1 n -> exp_at w n x -> effects_of (e_policies (eo_exp x)) = map fst ses ->
  during (length (w_frames w)) w1 ops evs w2 -> length (w_frames w2) = S (length (w_frames w)) -> step w2 (OReturn user) = Next w3 res ->
  Forall (denotes m) es -> ends (mock_call residue ps r ses f es m) = Some (log, m') ->
  evs = map (fun i => EvAction n (i_tag i)) log ++ [EvFinal n].
Proof.
  intros Hr Hh Hx Hse Hdu Hl Hs Hd He. destruct (C23_effects_in_order _ _ _ _ _ _ _ _ _ _ _ Hr Hh Hx Hdu) as [_ H]. destruct (H _ _ _ Hl Hs) as (-> & _).
  destruct (C53_side_effects _ _ _ _ _ _ _ _ _ _ Hd eq_refl He) as (ls & m1 & _ & (Ht & _)). unfold script. rewrite Hse, <- Ht, map_map. reflexivity.
Qed.

(** ** C54: finalizers. *)

Lemma convert_converted residue log r e m o : convert residue log r e m = o -> forall lg m', ends o = Some (lg, m') ->
  exists res m', converted residue r e m res m' /\ o = Returned log res m'.
Proof.
  intros <- lg m' He. unfold convert in *. destruct r.
  - exists CVoid, m. split; [constructor|reflexivity].
  - destruct e as [v|l|l]; simpl in *.
    + do 2 eexists. split; [constructor|reflexivity].
    + destruct (nth_error m l) eqn:E; [|discriminate]. do 2 eexists. split; [constructor; eauto|reflexivity].
    + destruct (nth_error m l) eqn:E; [|discriminate]. do 2 eexists. split; [|reflexivity]. apply cv_move; auto; [apply length_upd| |].
      * apply nth_error_upd_eq. eapply nth_error_lt; eauto.
      * intros k Hk. apply nth_error_upd_neq. auto.
  - destruct e as [v|l|l]; try discriminate. do 2 eexists. split; [constructor; discriminate|reflexivity].
  - destruct e as [v|l|l]; do 2 eexists; (split; [|reflexivity]).
    + apply cv_temporary; auto; [apply nth_error_app_last|]. intros. apply nth_error_app1. auto.
    + constructor; discriminate.
    + constructor; auto.
  - destruct e as [v|l|l]; do 2 eexists; (split; [|reflexivity]).
    + apply cv_temporary; auto; [apply nth_error_app_last|]. intros. apply nth_error_app1. auto.
    + constructor; discriminate.
    + constructor; auto.
Qed.
Lemma result_of_function residue log r f args m o lg m' : result_of residue log r f args m = o -> ends o = Some (lg, m') -> function_result residue r f args m log o.
Proof.
  unfold result_of, function_result. destruct (f args m) as [[e|v] m1] eqn:E; intros H He.
  - right. destruct (convert_converted _ _ _ _ _ _ H _ _ He) as (res & m2 & Hc & Ho). exists e, m1, res, m2. auto.
  - left. exists v, m1. auto.
Qed.

(** returns(v): the value is that of the stored object; the call does not change anything further. *)
Theorem C54_returns residue ps r ses cell es m o log m' :
  Forall (denotes m) es -> mock_call residue ps r ses (FinReturns cell) es m = o -> ends o = Some (log, m') ->
  exists ls, prepared ps ses es m ls log m' /\
  match r with
  | RetVoid => o = Returned log CVoid m'
  | RetValue => exists v, nth_error m' cell = Some v /\ o = Returned log (CVal v) m'
  | _ => o = Returned log (CRef cell) m'
  end.
Proof.
  intros Hd Hc He. destruct (call_prepared _ _ _ _ _ _ _ _ _ _ Hd Hc He) as (ls & m2 & Hp & Hf). exists ls. simpl in Hf.
  destruct (convert_converted _ _ _ _ _ _ Hf _ _ He) as (res & m3 & Hcv & ->). simpl in He. inversion He; subst m3. inversion Hcv; subst; split; auto; try (destruct r; congruence); eauto.
Qed.

(** throws(e): a copy of the stored object is thrown; the call does not change anything further. *)
Theorem C54_throws residue ps r ses cell es m o log m' :
  Forall (denotes m) es -> mock_call residue ps r ses (FinThrows cell) es m = o -> ends o = Some (log, m') ->
  exists ls v, prepared ps ses es m ls log m' /\ nth_error m' cell = Some v /\ o = Threw log v m'.
Proof.
  intros Hd Hc He. destruct (call_prepared _ _ _ _ _ _ _ _ _ _ Hd Hc He) as (ls & m2 & Hp & Hf). simpl in Hf. destruct (nth_error m2 cell) as [v|] eqn:E; [|subst; rewrite <- Hf in He; discriminate].
  rewrite <- Hf in He. simpl in He. inversion He; subst. exists ls, v. rewrite <- Hf. auto.
Qed.

(** A mock returning void without a finalizer. *)
Theorem C54_void residue ps r ses es m o log m' :
  Forall (denotes m) es -> mock_call residue ps r ses FinVoid es m = o -> ends o = Some (log, m') ->
  r = RetVoid /\ o = Returned log CVoid m' /\ exists ls, prepared ps ses es m ls log m'.
Proof.
  intros Hd Hc He. destruct (call_prepared _ _ _ _ _ _ _ _ _ _ Hd Hc He) as (ls & m2 & Hp & Hf). simpl in Hf. rewrite <- Hf in *. destruct r; simpl in He; inversion He; subst. eauto.
Qed.

(** returns_apply_result_of<indices...>(f): f of references to the selected arguments, as left by the side effects. *)
Theorem C54_apply residue ps r ses indices f es m o log m' :
  Forall (denotes m) es -> mock_call residue ps r ses (FinApply indices f) es m = o -> ends o = Some (log, m') ->
  exists ls m2 args, prepared ps ses es m ls log m2 /\ selected_by indices ls args /\ function_result residue r f args m2 log o.
Proof.
  intros Hd Hc He. destruct (call_prepared _ _ _ _ _ _ _ _ _ _ Hd Hc He) as (ls & m2 & Hp & Hf). simpl in Hf. destruct (select indices ls) as [xs|] eqn:Es.
  - exists ls, m2, (map as_lvalue xs). split; auto. split; [apply selected_lvalues; auto|]. eapply result_of_function; eauto.
  - rewrite <- Hf in He. discriminate.
Qed.

(** returns_apply_all_result_of(f): f of references to all arguments. *)
Theorem C54_apply_all residue ps r ses f es m o log m' :
  Forall (denotes m) es -> mock_call residue ps r ses (FinApplyAll f) es m = o -> ends o = Some (log, m') ->
  exists ls m2 args, prepared ps ses es m ls log m2 /\ (length args = length ls /\ forall k l, nth_error ls k = Some l -> nth_error args k = Some (Lv l)) /\
    function_result residue r f args m2 log o.
Proof.
  intros Hd Hc He. destruct (call_prepared _ _ _ _ _ _ _ _ _ _ Hd Hc He) as (ls & m2 & Hp & Hf). simpl in Hf. exists ls, m2, (map as_lvalue ls). split; auto. split.
  - split; [apply map_length|]. intros k l Hl. rewrite (map_nth_error _ _ _ Hl). reflexivity.
  - eapply result_of_function; eauto.
Qed.

(** returns_result_of(f): f without arguments. *)
Theorem C54_result_of residue ps r ses f es m o log m' :
  Forall (denotes m) es -> mock_call residue ps r ses (FinResultOf f) es m = o -> ends o = Some (log, m') ->
  exists ls m2, prepared ps ses es m ls log m2 /\ function_result residue r f [] m2 log o.
Proof.
  intros Hd Hc He. destruct (call_prepared _ _ _ _ _ _ _ _ _ _ Hd Hc He) as (ls & m2 & Hp & Hf). simpl in Hf. exists ls, m2. split; auto. eapply result_of_function; eauto.
Qed.

(** returns_arg<i>: the selected argument as left by the side effects; parameters of type T and T&& are moved from, the others copied. *)
Theorem C54_arg residue ps r ses i es m o log m' :
  Forall (denotes m) es -> mock_call residue ps r ses (FinArg i) es m = o -> ends o = Some (log, m') ->
  exists ls m2 p l res, prepared ps ses es m ls log m2 /\ nth_error ps i = Some p /\ nth_error ls i = Some l /\
    converted residue r (match p with ByLref | ByCref => Lv l | ByValue | ByRref => Xv l end) m2 res m' /\ o = Returned log res m'.
Proof.
  intros Hd Hc He. destruct (call_prepared _ _ _ _ _ _ _ _ _ _ Hd Hc He) as (ls & m2 & Hp & Hf). simpl in Hf.
  destruct (nth_error ps i) as [p|] eqn:Ep; [|rewrite <- Hf in He; discriminate]. destruct (nth_error ls i) as [l|] eqn:El; [|rewrite <- Hf in He; discriminate].
  destruct (convert_converted _ _ _ _ _ _ Hf _ _ He) as (res & m3 & Hcv & ->). inversion He; subst m3. exists ls, m2, p, l, res. auto 10.
Qed.

(** Returning and throwing a stored object always succeeds once the side effects have run. *)
Theorem C54_stored_completes residue ps r ses es m log m2 cell v :
  mock_call residue ps RetVoid ses FinVoid es m = Returned log CVoid m2 -> nth_error m2 cell = Some v ->
  mock_call residue ps RetValue ses (FinReturns cell) es m = Returned log (CVal v) m2 /\ mock_call residue ps r ses (FinThrows cell) es m = Threw log v m2.
Proof.
  intros H Hv. destruct (call_parts _ _ _ _ _ _ _ _ log m2 H eq_refl) as (ls & m1 & m2' & Hb & Hco & Hfin & Hok & _). simpl in Hfin. inversion Hfin; subst m2'.
  unfold mock_call. rewrite Hok. simpl. rewrite Hb, Hco. simpl. rewrite Hv. auto.
Qed.

(** In particular: by value, the result is the value of the argument. *)
Theorem C54_arg_value residue ps ses i es m o log m' :
  Forall (denotes m) es -> mock_call residue ps RetValue ses (FinArg i) es m = o -> ends o = Some (log, m') ->
  exists ls m2 l v, prepared ps ses es m ls log m2 /\ nth_error ls i = Some l /\ nth_error m2 l = Some v /\ o = Returned log (CVal v) m'.
Proof.
  intros Hd Hc He. destruct (C54_arg _ _ _ _ _ _ _ _ _ _ Hd Hc He) as (ls & m2 & p & l & res & Hp & H1 & H2 & Hcv & ->). exists ls, m2, l.
  destruct p; inversion Hcv; subst; try congruence; try (match goal with H : _ \/ _ |- _ => destruct H; discriminate end);
  eexists; (split; [exact Hp|]); eauto.
Qed.

Lemma history_keeps residue ps r ses f cell v m os m' :
  history residue ps r ses f cell m os m' -> (f = FinReturns cell \/ f = FinThrows cell) -> (forall n se, In (n, se) ses -> modest (function_of se)) ->
  nth_error m cell = Some v ->
  forall o, In o os -> exists log mm, nth_error mm cell = Some v /\ ends o = Some (log, mm) /\ exists es m0, Forall (denotes m0) es /\ mock_call residue ps r ses f es m0 = o.
Proof.
  intros H Hf Hm. induction H as [m|m m1 os m' L K H IH|es m o log m1 os m' Hd Hn1 Hn2 Hc He H IH]; intros Hv o0 Hin; [contradiction|apply IH; auto; congruence|].
  assert (Hv1 : nth_error m1 cell = Some v).
  { assert (cell < length m) as Hlt by (eapply nth_error_lt; eauto).
    assert (exists ls, prepared ps ses es m ls log m1) as [ls Hp].
    { destruct Hf as [->| ->]; [destruct (C54_returns _ _ _ _ _ _ _ _ _ _ Hd Hc He) as (ls & Hp & _)|destruct (C54_throws _ _ _ _ _ _ _ _ _ _ Hd Hc He) as (ls & w & Hp & _)]; eauto. }
    destruct (call_parts _ _ _ _ _ _ _ _ _ _ Hc He) as (ls0 & m0 & m2 & Hb & Hco & Hfin & _).
    destruct (consume_modest _ _ _ _ _ Hco Hm) as [L Hk]. destruct (bind_memory _ _ _ _ _ _ Hb) as [B1 _]. destruct (bind_length _ _ _ _ _ _ Hb) as (L1 & L2 & L3).
    assert (m1 = m2) as ->.
    { destruct Hf as [->| ->]; simpl in Hfin.
      - unfold convert in Hfin. destruct r; simpl in Hfin; try (rewrite <- Hfin in He; inversion He; reflexivity). destruct (nth_error m2 cell); rewrite <- Hfin in He; inversion He; reflexivity.
      - destruct (nth_error m2 cell); rewrite <- Hfin in He; inversion He; reflexivity. }
    rewrite Hk; [rewrite B1; auto|lia|].
    - intros k [_ A]. apply Hn2. eapply nth_error_In; eauto.
    - intros n se i Hin' Hsel Hi. assert (i < length ps) as Hip by (apply nth_error_lt in Hi; lia). destruct (nth_error_ex _ _ Hip) as [p Hpi].
      assert (i < length es) as Hie by lia. destruct (nth_error_ex _ _ Hie) as [e Hei]. destruct (bind_spec _ _ _ _ _ _ Hb _ _ _ Hpi Hei) as (l0 & Hl0 & _ & Hr).
      rewrite Hi in Hl0. inversion Hl0; subst l0. apply nth_error_In in Hei. destruct (by_reference p e) eqn:Eb; [|lia]. subst n0. destruct p, e; simpl in Eb; try discriminate; inversion Eb; subst; auto. }
  destruct Hin as [<-|Hin]; [|apply IH; auto]. exists log, m1. split; auto. split; auto. eauto.
Qed.

(** returns(v) yields v on every accepted call: over every history in which nobody else gets hold of the stored object. *)
Theorem C54_returns_every_time residue ps ses e m0 v f m1 cell os m' :
  value_of m0 e = Some v -> store residue FinReturns e m0 = Some (f, m1) -> f = FinReturns cell -> (forall n se, In (n, se) ses -> modest (function_of se)) ->
  history residue ps RetValue ses f cell m1 os m' -> forall o, In o os -> exists log m, o = Returned log (CVal v) m.
Proof.
  intros Hv Hs -> Hm Hh o Hin. unfold store in Hs. destruct (init_from residue e m0) as [[v' m2]|] eqn:E; [|discriminate]. inversion Hs; subst.
  destruct (init_inv _ _ _ _ _ E) as (Hv' & _ & _). assert (v' = v) as -> by congruence.
  destruct (history_keeps _ _ _ _ _ _ v _ _ _ Hh (or_introl eq_refl) Hm (nth_error_app_last _ _) _ Hin) as (log & mm & Hmm & He & es & mb & Hd & Hc).
  destruct (C54_returns _ _ _ _ _ _ _ _ _ _ Hd Hc He) as (ls & _ & w & Hw & ->). exists log, mm. congruence.
Qed.

(** The same for a reference to the stored object: it refers to the same object every time, whose value is v. *)
Theorem C54_returns_reference_every_time residue ps r ses e m0 v f m1 cell os m' :
  r = RetLref \/ r = RetCref \/ r = RetRref ->
  value_of m0 e = Some v -> store residue FinReturns e m0 = Some (f, m1) -> f = FinReturns cell -> (forall n se, In (n, se) ses -> modest (function_of se)) ->
  history residue ps r ses f cell m1 os m' -> forall o, In o os -> exists log m, o = Returned log (CRef cell) m /\ nth_error m cell = Some v.
Proof.
  intros Hr Hv Hs -> Hm Hh o Hin. unfold store in Hs. destruct (init_from residue e m0) as [[v' m2]|] eqn:E; [|discriminate]. inversion Hs; subst.
  destruct (init_inv _ _ _ _ _ E) as (Hv' & _ & _). assert (v' = v) as -> by congruence.
  destruct (history_keeps _ _ _ _ _ _ v _ _ _ Hh (or_introl eq_refl) Hm (nth_error_app_last _ _) _ Hin) as (log & mm & Hmm & He & es & mb & Hd & Hc).
  destruct (C54_returns _ _ _ _ _ _ _ _ _ _ Hd Hc He) as (ls & _ & Ho). exists log, mm. split; auto. destruct Hr as [->|[->| ->]]; auto.
Qed.

(** throws(e) throws a copy of e on every accepted call. *)
Theorem C54_throws_every_time residue ps r ses e m0 v f m1 cell os m' :
  value_of m0 e = Some v -> store residue FinThrows e m0 = Some (f, m1) -> f = FinThrows cell -> (forall n se, In (n, se) ses -> modest (function_of se)) ->
  history residue ps r ses f cell m1 os m' -> forall o, In o os -> exists log m, o = Threw log v m.
Proof.
  intros Hv Hs -> Hm Hh o Hin. unfold store in Hs. destruct (init_from residue e m0) as [[v' m2]|] eqn:E; [|discriminate]. inversion Hs; subst.
  destruct (init_inv _ _ _ _ _ E) as (Hv' & _ & _). assert (v' = v) as -> by congruence.
  destruct (history_keeps _ _ _ _ _ _ v _ _ _ Hh (or_intror eq_refl) Hm (nth_error_app_last _ _) _ Hin) as (log & mm & Hmm & He & es & mb & Hd & Hc).
  destruct (C54_throws _ _ _ _ _ _ _ _ _ _ Hd Hc He) as (ls & w & _ & Hw & ->). exists log, mm. congruence.
Qed.

(** The object stored by returns and throws is a new one: nobody else has it. *)
Theorem C54_stored_apart residue mk e m f m1 :
  store residue mk e m = Some (f, m1) -> exists cell v, f = mk cell /\ length m <= cell /\ value_of m e = Some v /\ nth_error m1 cell = Some v /\
  length m < length m1 /\ forall l, l < length m -> e <> Xv l -> nth_error m1 l = nth_error m l.
Proof.
  unfold store. destruct (init_from residue e m) as [[v m2]|] eqn:E; [|discriminate]. intros H; inversion H; subst. destruct (init_inv _ _ _ _ _ E) as (Hv & L & K).
  exists (length m2), v. split; auto. split; [lia|]. split; auto. split; [apply nth_error_app_last|]. rewrite app_length. simpl. split; [lia|].
  intros l Hl Hne. rewrite nth_error_app1 by lia. apply K. auto.
Qed.

(** The result of the call is the one the world model gives. *)
Theorem C54_in_world exn_of w mk ov vals l w1 n x ops evs w2 w3 res residue ps r ses f es m m' log o :
  reachable w -> handled_by w (OCall mk ov vals l) w1 n -> exp_at w n x ->
  during (length (w_frames w)) w1 ops evs w2 -> length (w_frames w2) = S (length (w_frames w)) ->
  Forall (denotes m) es -> mock_call residue ps r ses f es m = o -> ends o = Some (log, m') -> represents exn_of (e_final (eo_exp x)) f m' ->
  (forall v, o = Returned log (CVal v) m' -> step w2 (OReturn (UOk v)) = Next w3 res -> res = RVal (Some v)) /\
  (forall v, o = Threw log v m' -> step w2 (OReturn (UThrow (exn_of v))) = Next w3 res -> res = RThrow (exn_of v)) /\
  (forall u, f = FinVoid -> step w2 (OReturn u) = Next w3 res -> o = Returned log CVoid m' /\ res = RVal None).
Proof.
  intros Hr Hh Hx Hdu Hl Hd Hc He Hrep. destruct (C23_effects_in_order _ _ _ _ _ _ _ _ _ _ _ Hr Hh Hx Hdu) as [_ H].
  split; [|split].
  - intros v Ho Hs. destruct (H _ _ _ Hl Hs) as (_ & _ & ->). destruct (e_final (eo_exp x)), f; simpl in Hrep; try contradiction; simpl; auto.
    + destruct (C54_void _ _ _ _ _ _ _ _ _ Hd Hc He) as (_ & Ho2 & _). congruence.
    + destruct (C54_returns _ _ _ _ _ _ _ _ _ _ Hd Hc He) as (ls & _ & Hm). destruct r; try congruence. destruct Hm as (y & Hy & Ho2). congruence.
    + destruct (C54_throws _ _ _ _ _ _ _ _ _ _ Hd Hc He) as (ls & y & _ & _ & Ho2). congruence.
  - intros v Ho Hs. destruct (H _ _ _ Hl Hs) as (_ & _ & ->). destruct (e_final (eo_exp x)), f; simpl in Hrep; try contradiction; simpl; auto.
    + destruct (C54_void _ _ _ _ _ _ _ _ _ Hd Hc He) as (_ & Ho2 & _). congruence.
    + destruct (C54_returns _ _ _ _ _ _ _ _ _ _ Hd Hc He) as (ls & _ & Hm). destruct r; try congruence. destruct Hm as (y & Hy & Ho2). congruence.
    + destruct (C54_throws _ _ _ _ _ _ _ _ _ _ Hd Hc He) as (ls & y & _ & Hy & Ho2). destruct Hrep as (z & Hz & ->). congruence.
  - intros u -> Hs. destruct (C54_void _ _ _ _ _ _ _ _ _ Hd Hc He) as (_ & Ho2 & _). split; auto. destruct (H _ _ _ Hl Hs) as (_ & _ & ->).
    destruct (e_final (eo_exp x)); simpl in Hrep; try contradiction. reflexivity.
Qed.

(** ** Where the intuition fails. *)

(** The argument given to returns is not what a later call yields if the mock returns a reference and the program writes through it. *)
Theorem C54_returns_reference_refuted :
  exists residue m0 v f m1 l m2 m3 log m4, value_of m0 (Prv v) = Some v /\ store residue FinReturns (Prv v) m0 = Some (f, m1) /\
    mock_call residue [] RetLref [] f [] m1 = Returned [] (CRef l) m2 /\
    m3 = upd m2 l (VInt 9) /\ mock_call residue [] RetLref [] f [] m3 = Returned log (CRef l) m4 /\ nth_error m4 l <> Some v.
Proof. exists (fun v => v), [VInt 0], (VInt 5), (FinReturns 1), [VInt 0; VInt 5], 1, [VInt 0; VInt 5]. do 3 eexists. repeat split. discriminate. Qed.

(** returns_arg with a reference return type on a parameter of type T: the reference refers to the parameter itself, which is gone when the
    call has returned; i.e. not every returned reference refers to an object that existed before the call. *)
Theorem C54_arg_outlives_call_refuted :
  exists residue ps r i es m log l m', Forall (denotes m) es /\ mock_call residue ps r [] (FinArg i) es m = Returned log (CRef l) m' /\ length m <= l.
Proof. exists (fun v => v), [ByValue], RetRref, 0, [Lv 0], [VInt 4], [], 1, [VInt 4; VInt 4]. repeat split; auto. constructor; simpl; auto. Qed.
(** For reference parameters it is the object of the caller. *)
Theorem C54_arg_reference residue ps r ses i es m o log m' p e l0 :
  Forall (denotes m) es -> mock_call residue ps r ses (FinArg i) es m = o -> ends o = Some (log, m') -> r <> RetVoid -> r <> RetValue ->
  nth_error ps i = Some p -> nth_error es i = Some e -> by_reference p e = Some l0 -> o = Returned log (CRef l0) m'.
Proof.
  intros Hd Hc He R1 R2 Hp Hei Hb. destruct (C54_arg _ _ _ _ _ _ _ _ _ _ Hd Hc He) as (ls & m2 & p' & l & res & Hpr & H1 & H2 & Hcv & ->).
  destruct Hpr as (m1 & (_ & _ & _ & Hpass & _) & _). destruct (Hpass _ _ _ Hp Hei) as (l' & Hl' & _ & Hr). rewrite Hb in Hr. rewrite H2 in Hl'. inversion Hl'; subst. f_equal. f_equal.
  destruct p'; inversion Hcv; subst; try congruence; auto.
Qed.

(** ** Examples. *)

(** The value which a moved-from object has. *)
Definition hollow : val -> val := fun _ => VOpaque.
(** Assign [v] to the first argument. *)
Definition assign (v : val) : ufun := fun args m => match args with Lv l :: _ => (URet (Prv VOpaque), upd m l v) | _ => (URet (Prv VOpaque), m) end.
(** Swap the first two arguments. *)
Definition swap : ufun := fun args m =>
  match args with
  | [Lv a; Lv b] => match nth_error m a, nth_error m b with Some x, Some y => (URet (Prv VOpaque), upd (upd m a y) b x) | _, _ => (URet (Prv VOpaque), m) end
  | _ => (URet (Prv VOpaque), m)
  end.
(** Collect the values of the arguments. *)
Definition collect : ufun := fun args m => (URet (Prv (VTuple (map (fun e => match value_of m e with Some v => v | None => VOpaque end) args))), m).
Definition raise : ufun := fun _ m => (URaise (VInt 13), m).

Lemma modest_assign v : modest (assign v).
Proof.
  intros args m u m' H. unfold assign in H. destruct args as [|[x|l|l] args]; inversion H; subst; rewrite ?length_upd; split; auto.
  intros k Hk Hn. apply nth_error_upd_neq. intros ->. apply Hn. left. reflexivity.
Qed.
Lemma modest_swap : modest swap.
Proof.
  intros args m u m' H. unfold swap in H. destruct args as [|[x|a|a] [|[y|b|b] [|z args]]]; try (inversion H; subst; split; auto; fail).
  destruct (nth_error m a), (nth_error m b); inversion H; subst; rewrite ?length_upd; split; auto. intros k Hk Hn. simpl in Hn.
  rewrite !nth_error_upd_neq; auto; intros ->; tauto.
Qed.
Lemma modest_collect : modest collect.
Proof. intros args m u m' H. inversion H; subst. auto. Qed.

(** Two reference parameters, one by value; the arguments are swapped, then the parameter by value is overwritten; the finalizer sees it. *)
Example C53_example :
  let ses := [(1, ApplyArgs [0; 1] swap); (2, ApplyArgs [2] (assign (VInt 7))); (3, ApplyAll collect)] in
  mock_call hollow [ByLref; ByLref; ByValue] RetValue ses (FinApply [2; 0; 0] collect) [Lv 0; Lv 1; Lv 1] [VInt 10; VInt 20; VInt 30]
  = Returned [mkInv 1 [Lv 0; Lv 1] [VInt 10; VInt 20; VInt 30; VInt 20] [VInt 20; VInt 10; VInt 30; VInt 20];
              mkInv 2 [Lv 3] [VInt 20; VInt 10; VInt 30; VInt 20] [VInt 20; VInt 10; VInt 30; VInt 7];
              mkInv 3 [Lv 0; Lv 1; Lv 3] [VInt 20; VInt 10; VInt 30; VInt 7] [VInt 20; VInt 10; VInt 30; VInt 7]]
      (CVal (VTuple [VInt 7; VInt 20; VInt 20])) [VInt 20; VInt 10; VInt 30; VInt 7].
Proof. reflexivity. Qed.
(** Aliasing: two parameters refer to the same object. *)
Example C53_example_aliasing :
  mock_call hollow [ByLref; ByCref] RetValue [(1, ApplyArgs [0] (assign (VInt 7)))] (FinArg 1) [Lv 0; Lv 0] [VInt 10]
  = Returned [mkInv 1 [Lv 0] [VInt 10] [VInt 7]] (CVal (VInt 7)) [VInt 7].
Proof. reflexivity. Qed.
Example C53_example_wrong :
  mock_call hollow [ByLref] RetVoid [(1, ApplyArgs [1] swap)] FinVoid [Lv 0] [VInt 10] = IllFormed /\
  mock_call hollow [ByLref] RetVoid [(1, Invoke collect); (2, ApplyAll raise)] FinVoid [Lv 0] [VInt 10] = Terminated /\
  mock_call hollow [ByLref] RetVoid [] (FinApplyAll raise) [Lv 0] [VInt 10] = Threw [] (VInt 13) [VInt 10] /\
  mock_call hollow [ByLref] RetVoid [] FinVoid [Prv (VInt 10)] [] = IllFormed /\ mock_call hollow [ByRref] RetVoid [] FinVoid [Lv 0] [VInt 10] = IllFormed /\
  mock_call hollow [ByLref] RetVoid [] FinVoid [] [VInt 10] = IllFormed /\ mock_call hollow [] RetValue [] FinVoid [] [] = IllFormed.
Proof. repeat split; reflexivity. Qed.
(** The hypotheses of C53_nothing_else_is_modified are met: object 1 is passed by value, 2 not at all, 0 is not selected. *)
Example C53_example_frame :
  let ses := [(2, ApplyArgs [2] (assign (VInt 7)))] in let ps := [ByLref; ByLref; ByValue] in let es := [Lv 0; Lv 1; Lv 1] in
  (forall n se, In (n, se) ses -> modest (function_of se)) /\ (forall k l, ~ moved_in ps es k l) /\
  (forall l k p e n se, nth_error ps k = Some p -> nth_error es k = Some e -> by_reference p e = Some l -> In (n, se) ses -> ~ selects se k) /\
  ends (mock_call hollow ps RetVoid ses FinVoid es [VInt 10; VInt 20; VInt 30]) =
    Some ([mkInv 2 [Lv 3] [VInt 10; VInt 20; VInt 30; VInt 20] [VInt 10; VInt 20; VInt 30; VInt 7]], [VInt 10; VInt 20; VInt 30; VInt 7]).
Proof.
  split; [|split; [|split; [|reflexivity]]].
  - intros n se [H|[]]. inversion H; subst. apply modest_assign.
  - intros k l [H1 H2]. destruct k as [|[|[|[|k]]]]; simpl in *; discriminate.
  - intros l k p e n se H1 H2 H3 [H|[]]. inversion H; subst. destruct k as [|[|[|k]]]; simpl in *; inversion H1; inversion H2; subst; simpl in *; try discriminate; lia.
Qed.
(** The hypotheses of C53_completes. *)
Example C53_example_completes :
  Forall (denotes [VInt 10]) [Lv 0; Prv (VInt 3); Xv 0] /\ Forall2 binds [ByLref; ByRref; ByCref] [Lv 0; Prv (VInt 3); Xv 0] /\ never_throws swap /\ never_throws collect /\ ~ never_throws raise /\
  mock_call hollow [ByLref; ByRref; ByCref] RetVoid [(4, ApplyArgs [1; 0] swap); (5, Invoke collect)] FinVoid [Lv 0; Prv (VInt 3); Xv 0] [VInt 10]
  = Returned [mkInv 4 [Lv 1; Lv 0] [VInt 10; VInt 3] [VInt 3; VInt 10]; mkInv 5 [] [VInt 3; VInt 10] [VInt 3; VInt 10]] CVoid [VInt 3; VInt 10].
Proof.
  split; [repeat constructor|]. split; [repeat constructor; [exists 0; reflexivity|discriminate]|]. split; [|split; [|split; [|reflexivity]]].
  - intros args m v m'. unfold swap. destruct args as [|[x|a|a] [|[y|b|b] [|z args]]]; try discriminate. destruct (nth_error m a), (nth_error m b); discriminate.
  - intros args m v m'. discriminate.
  - intros H. apply (H [] [] (VInt 13) []). reflexivity.
Qed.
(** The world of C23_example: its expectation has the side effects 7 and 8 and returns 5. *)
Example C53_example_in_world :
  let ses := [(7, ApplyArgs [0] (assign (VInt 2))); (8, ApplyAll collect)] in let m := [VInt 1; VInt 5] in
  exists x log, exp_at (after prog_effects) 0 x /\ effects_of (e_policies (eo_exp x)) = map fst ses /\ represents (fun _ => EUser 0) (e_final (eo_exp x)) (FinReturns 1) m /\
    mock_call hollow [ByValue] RetValue ses (FinReturns 1) [Lv 0] m = Returned log (CVal (VInt 5)) (m ++ [VInt 2]) /\ length log = 2.
Proof. do 2 eexists. split; [vm_compute; reflexivity|]. repeat split; reflexivity. Qed.

(** Moves: the caller's object is moved into the parameter, and the parameter into the result. *)
Example C54_example_moves :
  mock_call hollow [ByValue] RetValue [] (FinArg 0) [Xv 0] [VInt 10] = Returned [] (CVal (VInt 10)) [VOpaque; VOpaque] /\
  mock_call hollow [ByRref] RetValue [] (FinArg 0) [Xv 0] [VInt 10] = Returned [] (CVal (VInt 10)) [VOpaque] /\
  mock_call hollow [ByCref] RetValue [] (FinArg 0) [Xv 0] [VInt 10] = Returned [] (CVal (VInt 10)) [VInt 10] /\
  mock_call hollow [ByRref] RetRref [] (FinArg 0) [Xv 0] [VInt 10] = Returned [] (CRef 0) [VInt 10] /\
  mock_call hollow [ByRref] RetCref [] (FinArg 0) [Prv (VInt 3)] [VInt 10] = Returned [] (CRef 1) [VInt 10; VInt 3] /\
  mock_call hollow [ByCref] RetCref [] (FinResultOf collect) [Prv (VInt 3)] [VInt 10] = Returned [] (CRef 2) [VInt 10; VInt 3; VTuple []] /\
  mock_call hollow [ByValue] RetLref [] (FinArg 0) [Lv 0] [VInt 10] = IllFormed /\ store hollow FinThrows (Xv 0) [VInt 10] = Some (FinThrows 1, [VOpaque; VInt 10]).
Proof. repeat split; reflexivity. Qed.
(** A history with two calls and a write of the program in between. *)
Example C54_example_history :
  let ses := [(1, ApplyAll (assign (VInt 7)))] in
  store hollow FinReturns (Lv 0) [VInt 5] = Some (FinReturns 1, [VInt 5; VInt 5]) /\
  history hollow [ByLref] RetValue ses (FinReturns 1) 1 [VInt 5; VInt 5]
    [Returned [mkInv 1 [Lv 0] [VInt 5; VInt 5] [VInt 7; VInt 5]] (CVal (VInt 5)) [VInt 7; VInt 5];
     Returned [mkInv 1 [Lv 0] [VInt 8; VInt 5] [VInt 7; VInt 5]] (CVal (VInt 5)) [VInt 7; VInt 5]] [VInt 7; VInt 5].
Proof.
  split; [reflexivity|]. eapply (hist_call _ _ _ _ _ _ [Lv 0]); [constructor; [simpl; lia|constructor]|intros [H|[]]; discriminate|intros [H|[]]; discriminate|reflexivity|reflexivity|].
  apply hist_other with (m1 := [VInt 8; VInt 5]); [auto|reflexivity|].
  eapply (hist_call _ _ _ _ _ _ [Lv 0]); [constructor; [simpl; lia|constructor]|intros [H|[]]; discriminate|intros [H|[]]; discriminate|reflexivity|reflexivity|]. constructor.
Qed.

(** ** C66: two call infos are equal iff they describe the same call. *)
Lemma category_bits_inj a b : category_bits a = category_bits b -> a = b.
Proof. destruct a, b; simpl; intros H; auto; discriminate. Qed.
Lemma constness_bits_inj a b : constness_bits a = constness_bits b -> a = b.
Proof. destruct a, b; simpl; intros H; auto; discriminate. Qed.
Lemma same_objects_iff a : forall b, same_objects a b = true <-> a = b.
Proof.
  induction a as [|x a IH]; intros [|y b]; simpl; split; intros H; try discriminate; auto.
  - apply andb_prop in H. destruct H as [H1 H2]. apply Nat.eqb_eq in H1. apply IH in H2. congruence.
  - inversion H; subst. rewrite Nat.eqb_refl. apply IH. reflexivity.
Qed.
(** Arguments are the same iff they are the same objects: equal values do not suffice. *)
Theorem C66_info_equality a b : info_eqb a b = true <-> a = b.
Proof.
  unfold info_eqb, same_location. destruct a as [a1 c1 k1 [f1 g1 n1 m1]], b as [a2 c2 k2 [f2 g2 n2 m2]]. simpl. rewrite !andb_true_iff, !N.eqb_eq, !String.eqb_eq, !Nat.eqb_eq, same_objects_iff. split.
  - intros (((A & B) & C) & ((D & E) & F) & G). apply category_bits_inj in A. apply constness_bits_inj in B. congruence.
  - intros H. inversion H; subst. auto 10.
Qed.
(** Equal values in different objects: not equal. *)
Example C66_example :
  let m := [VInt 4; VInt 4] in
  nth_error m 0 = nth_error m 1 /\ info_eqb (mkInfo [0] CatAny AsConst here) (mkInfo [1] CatAny AsConst here) = false /\
  info_eqb (mkInfo [0] CatAny AsConst here) (mkInfo [0] CatAny AsConst here) = true /\ info_eqb (mkInfo [0] CatAny AsConst here) (mkInfo [0] CatAny AsConst there) = false /\
  info_eqb (mkInfo [0] CatAny AsConst here) (mkInfo [0] CatL AsConst here) = false /\ info_eqb (mkInfo [0] CatAny AsConst here) (mkInfo [0] CatAny NonConst here) = false.
Proof. repeat split; reflexivity. Qed.

Print Assumptions C53_side_effects.
Print Assumptions C53_nothing_else_is_modified.
Print Assumptions C53_index_out_of_range.
Print Assumptions C53_throwing_side_effect_terminates.
Print Assumptions C53_terminates_only_by_throwing.
Print Assumptions C53_completes.
Print Assumptions C53_in_world.
Print Assumptions C54_returns.
Print Assumptions C54_throws.
Print Assumptions C54_void.
Print Assumptions C54_apply.
Print Assumptions C54_apply_all.
Print Assumptions C54_result_of.
Print Assumptions C54_arg.
Print Assumptions C54_arg_value.
Print Assumptions C54_stored_completes.
Print Assumptions C54_returns_every_time.
Print Assumptions C54_returns_reference_every_time.
Print Assumptions C54_throws_every_time.
Print Assumptions C54_stored_apart.
Print Assumptions C54_in_world.
Print Assumptions C54_returns_reference_refuted.
Print Assumptions C54_arg_outlives_call_refuted.
Print Assumptions C54_arg_reference.
Print Assumptions C66_info_equality.
