(** * PropMacro: the texts generated by the interface mock macros (C57). *)

From Verif Require Import Base Macro MacroSpec MacroLemmas MacroProofs MacroLists MacroPublic.
Local Open Scope string_scope.
Local Open Scope list_scope.

Lemma plain_name_free : forall s, ~ macro_name s -> lookup s = None.
Proof. intros s H. apply in_assoc_none, H. Qed.

(** Runs the preprocessor. *)
Definition run (l : list tok) : option (list tok) := scan (N.to_nat 20000) [] (map T l).
Lemma scan_expands : forall n l out, scan n [] (map T l) = Some out -> expands l out.
Proof. intros n l out H. exists n. exact H. Qed.

(** The result of macro replacement is unique. *)
Theorem C57_expansion_unique : forall l out out', expands l out -> expands l out' -> out = out'.
Proof. intros l out out' H H'. apply (ex_det [] (map T l)); assumption. Qed.

(** The arguments which a macro takes: as many as it has parameters, of which the variable ones may be left out; empty parentheses are
    no argument for a macro without parameters. *)
Inductive taken (named : nat) : bool -> list (list tok) -> list (list tok) -> Prop :=
| taken_exactly args : length args = named -> taken named false args args
| taken_none : named = 0 -> taken named false [[]] []
| taken_all args va : length args = named -> taken named true (args ++ [va]) (args ++ [va])
| taken_omitted args : length args = named -> taken named true args (args ++ [[]]).
Theorem C57_arguments : forall named va args raw, arity named va args = Some raw <-> taken named va args raw.
Proof.
  intros named va args raw. unfold arity. split.
  - destruct va.
    + destruct (Nat.eqb_spec (length args) named) as [E|N]; [intros [= <-]; apply taken_omitted, E|].
      destruct (Nat.eqb_spec (length args) (S named)) as [E|N2]; [|discriminate]. intros [= <-].
      destruct (exists_last (l := args)) as (l & x & ->); [intros ->; discriminate E|]. apply taken_all. rewrite app_length in E. simpl in E. lia.
    + destruct named as [|n].
      * destruct args as [|[|t0 a] [|b l]]; simpl; try discriminate; intros [= <-]; [apply taken_exactly; reflexivity|apply taken_none; reflexivity].
      * destruct (Nat.eqb_spec (length args) (S n)) as [E|]; [|discriminate]. intros [= <-]. apply taken_exactly, E.
  - intros [a E|E|a v E|a E].
    + destruct named as [|n]; [destruct a; [reflexivity|discriminate E]|]. rewrite (proj2 (Nat.eqb_eq _ _) E). reflexivity.
    + rewrite E. reflexivity.
    + rewrite app_length. simpl. destruct (Nat.eqb_spec (length a + 1) named); [lia|]. destruct (Nat.eqb_spec (length a + 1) (S named)); [reflexivity|lia].
    + rewrite (proj2 (Nat.eqb_eq _ _) E). reflexivity.
Qed.

(** A pair of parentheses in front of the argument is removed, everything else is kept. *)
Theorem C57_strip_parens : forall a b,
  plain a -> group false a -> strips a b -> expands (invoke "MIMICPP_DETAIL_STRIP_PARENS" a) b.
Proof. intros a b P G S. apply becomes_expands. apply (b_strip_plain [] a b (free_nil _) P G S). Qed.

(** ** Lists of types *)

Lemma types_ty : forall types types', Forall type_toks types -> Forall2 strips types types' ->
  exists l, Forall ty_ok l /\ map fst l = types /\ map snd l = types' /\ length l = length types.
Proof.
  intros types types' F S. induction S as [|a b la lb S SS IH].
  - exists []. repeat split; constructor.
  - inversion F; subst. destruct (IH H2) as (l & A & B & C & D). exists ((a, b) :: l).
    split; [constructor; [split; assumption|exact A]|]. simpl. rewrite B, C, D. repeat split.
Qed.

Lemma types_unmarked : forall l, Forall ty_ok l -> unmarked [] (commas (map fst l)).
Proof. intros l F. apply unmarked_plain, types_plain, F. Qed.

(** The parameter list for up to 86 types: each type without its parentheses, followed by the name belonging to its position. *)
Theorem C57_param_list : forall types types',
  Forall type_toks types -> Forall2 strips types types' -> length types <= 86 ->
  expands (invoke "MIMICPP_DETAIL_MAKE_PARAM_LIST" (commas types)) (commas (params 1 types')).
Proof.
  intros types types' F S L. destruct (types_ty _ _ F S) as (l & A & <- & <- & D). rewrite <- D in L.
  apply becomes_expands. rewrite <- (param_out l L).
  apply (b_param_list [] _ l (free_nil _) (types_unmarked l A) (types_group l A)); [apply b_plain, types_plain, A|exact A].
Qed.

(** The forwarded arguments for up to 86 types. *)
Theorem C57_forward_args : forall types types',
  Forall type_toks types -> Forall2 strips types types' -> length types <= 86 ->
  expands (invoke "MIMICPP_DETAIL_FORWARD_ARGS" (commas types)) (commas (forwards 1 types')).
Proof.
  intros types types' F S L. destruct (types_ty _ _ F S) as (l & A & <- & <- & D). rewrite <- D in L.
  apply becomes_expands. rewrite <- (forward_out l L).
  apply (b_forward_args [] _ l (free_nil _) (types_unmarked l A) (types_group l A)); [apply b_plain, types_plain, A|exact A].
Qed.

(** What is left behind for the elements beyond the capacity: the continuation which is never scanned again. *)
Definition leftover (macro : string) (k : nat) (types : list (list tok)) : list tok :=
  ident "MIMICPP_FOR_EACH_EXT_AGAIN" :: Lp :: Rp :: Lp
  :: [ident macro; Comma; ident "i"; Comma; ident (is_ k); Comma; ident "MIMICPP_DETAIL_COMMA_DELIMITER"; Comma;
      ident "MIMICPP_DETAIL_IDENTITY"; Comma; Comma] ++ commas types ++ [Rp].

Lemma firstn_map_snd : forall (l : list ty) n, map snd (firstn n l) = firstn n (map snd l).
Proof. intros l n. symmetry. apply firstn_map. Qed.

(** With more than 86 types, 86 parameters are generated and the remaining types are left in an unexpanded helper invocation. *)
Theorem C57_param_list_overflow : forall types types',
  Forall type_toks types -> Forall2 strips types types' -> 86 < length types ->
  expands (invoke "MIMICPP_DETAIL_MAKE_PARAM_LIST" (commas types))
    (concat (map (fun p => p ++ [Comma]) (params 1 (firstn 86 types'))) ++ leftover "MIMICPP_DETAIL_MAKE_PARAM" 87 (skipn 86 types)).
Proof.
  intros types types' F S L. destruct (types_ty _ _ F S) as (l & A & <- & <- & D). rewrite <- D in L.
  apply becomes_expands.
  replace (concat (map (fun p => p ++ [Comma]) (params 1 (firstn 86 (map snd l)))) ++ leftover "MIMICPP_DETAIL_MAKE_PARAM" 87 (skipn 86 (map fst l)))
    with (types_out MAKE_PARAM E_param l).
  - apply (b_param_list [] _ l (free_nil _) (types_unmarked l A) (types_group l A)); [apply b_plain, types_plain, A|exact A].
  - unfold types_out. rewrite it_part by exact L. rewrite elems_param, firstn_map_snd, skipn_map.
    cbn [app]. f_equal. unfold tail_toks, args_toks, leftover. destruct (skipn 86 l) as [|t l'] eqn:E; [|rewrite <- E; reflexivity].
    exfalso. pose proof (skipn_length 86 l) as K. rewrite E in K. simpl in K. lia.
Qed.

Theorem C57_forward_args_overflow : forall types types',
  Forall type_toks types -> Forall2 strips types types' -> 86 < length types ->
  expands (invoke "MIMICPP_DETAIL_FORWARD_ARGS" (commas types))
    (concat (map (fun p => p ++ [Comma]) (forwards 1 (firstn 86 types'))) ++ leftover "MIMICPP_DETAIL_FORWARD_ARG" 87 (skipn 86 types)).
Proof.
  intros types types' F S L. destruct (types_ty _ _ F S) as (l & A & <- & <- & D). rewrite <- D in L.
  apply becomes_expands.
  replace (concat (map (fun p => p ++ [Comma]) (forwards 1 (firstn 86 (map snd l)))) ++ leftover "MIMICPP_DETAIL_FORWARD_ARG" 87 (skipn 86 (map fst l)))
    with (types_out FORWARD_ARG E_forward l).
  - apply (b_forward_args [] _ l (free_nil _) (types_unmarked l A) (types_group l A)); [apply b_plain, types_plain, A|exact A].
  - unfold types_out. rewrite it_part by exact L. rewrite elems_forward, firstn_map_snd, skipn_map.
    cbn [app]. f_equal. unfold tail_toks, args_toks, leftover. destruct (skipn 86 l) as [|t l'] eqn:E; [|rewrite <- E; reflexivity].
    exfalso. pose proof (skipn_length 86 l) as K. rewrite E in K. simpl in K. lia.
Qed.

(** The names of the parameters: parameter number [k] has the name for [k], and different numbers have different names. *)
Theorem C57_names : forall types,
  (forall k t, nth_error types k = Some t -> nth_error (params 1 types) k = Some (t ++ [ident (arg_name (S k))]) /\
                                              nth_error (forwards 1 types) k = Some (forward (S k) t)) /\
  length (params 1 types) = length types /\ length (forwards 1 types) = length types /\
  (forall i j, arg_name i = arg_name j -> i = j).
Proof.
  intros types.
  assert (A : forall types k j t, nth_error types k = Some t ->
            nth_error (params j types) k = Some (t ++ [ident (arg_name (j + k))]) /\ nth_error (forwards j types) k = Some (forward (j + k) t)).
  { clear. induction types as [|u types IH]; intros k j t H; [destruct k; discriminate|].
    destruct k as [|k]; simpl in *.
    - injection H as ->. rewrite Nat.add_0_r. split; reflexivity.
    - replace (j + S k) with (S j + k) by lia. apply IH, H. }
  assert (L : forall types j, length (params j types) = length types /\ length (forwards j types) = length types).
  { clear. induction types as [|u types IH]; intros j; simpl; [split; reflexivity|]. destruct (IH (S j)) as [-> ->]. split; reflexivity. }
  split; [intros k t H; apply (A types k 1 t H)|]. split; [apply L|]. split; [apply L|].
  intros i j H. unfold arg_name in H. cbn [String.append] in H. injection H as H.
  revert j H. induction i as [|i IH]; intros [|j] H; try discriminate; [reflexivity|]. f_equal. apply IH. injection H as H. exact H.
Qed.

(** ** Overloads *)

(** What ADD_OVERLOAD makes of an overload. *)
Definition overload_text (o : overload) : list tok :=
  Lp :: o_ret o ++ [Comma; Lp] ++ commas (o_types o) ++ [Rp; Comma] ++ o_specs o
  ++ [Comma; Lp] ++ commas (params 1 (o_types' o)) ++ [Rp; Comma; Lp] ++ commas (forwards 1 (o_types' o)) ++ [Rp; Rp].

Lemma overload_text_info : forall o, overload_text o = info o.
Proof.
  intros o. unfold overload_text, info, parts. rewrite !commas_cons. change (commas [Lp :: commas (forwards 1 (o_types' o)) ++ [Rp]]) with (Lp :: commas (forwards 1 (o_types' o)) ++ [Rp]).
  repeat (rewrite <- app_assoc; cbn [app]). reflexivity.
Qed.

Theorem C57_add_overload : forall o src, overload_ok o -> overload_source o src ->
  expands (invoke "MIMICPP_ADD_OVERLOAD" src) (overload_text o) /\ expands (invoke "ADD_OVERLOAD" src) (overload_text o).
Proof.
  intros o src H W. rewrite overload_text_info.
  pose proof (b_add_overload [] o src H W (free_nil _)) as B. split; apply becomes_expands; [exact B|].
  eapply (b_short [] "ADD_OVERLOAD" ADD_OVERLOAD); try reflexivity; [discriminate|exact B].
Qed.

Theorem C57_signature_list : forall os, Forall overload_ok os -> length os <= 86 ->
  expands (invoke "MIMICPP_DETAIL_MAKE_SIGNATURE_LIST" (commas (map overload_text os))) (commas (map raw_signature_text os)).
Proof.
  intros os F L. rewrite (map_ext _ _ overload_text_info). apply becomes_expands. rewrite <- (sigs_out_short os L).
  destruct (infos_both os F) as [P G].
  apply b_signature_list; [apply free_nil|apply unmarked_plain, P|exact G|apply b_plain, P|exact F].
Qed.

(** The names used by the generated text do not collide with the macros. *)
Definition method_name_ok (fn : string) : Prop := ~ macro_name fn /\ ~ macro_name (String.append fn "_").

(** One overriding method per overload, in order, followed by the mock with one signature per overload, in order. *)
Theorem C57_mock_overloaded_method : forall fn os srcs,
  method_name_ok fn -> Forall overload_ok os -> Forall2 overload_source os srcs -> length os <= 86 ->
  let out := concat (map (method_text fn) os) ++ mock_text fn (map raw_signature_text os) in
  expands (invoke "MIMICPP_MOCK_OVERLOADED_METHOD" (ident fn :: Comma :: commas (map (invoke "ADD_OVERLOAD") srcs))) out /\
  expands (invoke "MOCK_OVERLOADED_METHOD" (ident fn :: Comma :: commas (map (invoke "ADD_OVERLOAD") srcs))) out.
Proof.
  intros fn os srcs [N1 N2] F S L out. apply plain_name_free in N1. apply plain_name_free in N2.
  destruct (b_overloads [] os srcs F S (free_nil _)) as (A & B & C).
  pose proof (b_mock_overloaded fn N1 N2 [] _ os (free_nil _) B C A F L) as D. fold out in D.
  split; apply becomes_expands; [exact D|].
  eapply (b_short [] "MOCK_OVERLOADED_METHOD" MOCK_OVERLOADED_METHOD); try reflexivity; [discriminate|exact D].
Qed.

Theorem C57_mock_method : forall fn o src,
  method_name_ok fn -> overload_ok o -> overload_source o src ->
  let out := method_text fn o ++ mock_text fn [raw_signature_text o] in
  expands (invoke "MIMICPP_MOCK_METHOD" (ident fn :: Comma :: src)) out /\
  expands (invoke "MOCK_METHOD" (ident fn :: Comma :: src)) out.
Proof.
  intros fn o src [N1 N2] H W out. apply plain_name_free in N1. apply plain_name_free in N2.
  pose proof (b_mock_method [] fn o src N1 N2 H W (free_nil _)) as D.
  unfold class_text in D. cbn [map concat] in D. rewrite app_nil_r in D.
  split; apply becomes_expands; [exact D|].
  eapply (b_short [] "MOCK_METHOD" MOCK_METHOD); try reflexivity; [discriminate|exact D].
Qed.

(** Without parentheses around types, the mock has exactly the signature of the method. *)
Theorem C57_signature_without_parens : forall fn o src,
  method_name_ok fn -> overload_ok o -> overload_source o src ->
  hd_error (o_ret o) <> Some Lp -> hd_error (o_specs o) <> Some Lp -> Forall (fun t => hd_error t <> Some Lp) (o_types o) ->
  expands (invoke "MIMICPP_MOCK_METHOD" (ident fn :: Comma :: src)) (method_text fn o ++ mock_text fn [signature_text o]).
Proof.
  intros fn o src N H W R S T.
  replace (signature_text o) with (raw_signature_text o); [apply (C57_mock_method fn o src N H W)|].
  destruct H as (_ & _ & R' & _ & _ & S' & _ & T' & _).
  assert (K : forall a b, hd_error a <> Some Lp -> strips a b -> a = b).
  { intros a b Ha Hs. destruct Hs as [c _|c d _]; [reflexivity|]. destruct (Ha eq_refl). }
  unfold raw_signature_text, signature_text. rewrite (K _ _ R R'), (K _ _ S S'). f_equal. f_equal. f_equal. f_equal.
  clear - K T T'. induction T' as [|a b la lb H HH IH]; [reflexivity|]. inversion T; subst. rewrite (K _ _ H2 H). f_equal. apply IH. assumption.
Qed.

(** ** What the macros do not support *)

(** The second macro for overloads is never chosen: one specifier, also an empty one, selects the first. *)
Theorem C57_selection : forall specs, plain specs -> group false specs ->
  expands (invoke "MIMICPP_DETAIL_SELECT_MAKE_OVERLOAD_INFOS"
    (specs ++ [Comma; ident "MIMICPP_DETAIL_MAKE_OVERLOAD_INFOS_SPECS"; Comma; ident "MIMICPP_DETAIL_MAKE_OVERLOAD_INFOS_BASIC"]))
    [ident "MIMICPP_DETAIL_MAKE_OVERLOAD_INFOS_SPECS"].
Proof.
  intros specs P G. set (sargs := [specs; [Id INFOS_SPECS false]; [Id INFOS_BASIC false]]).
  change (ex [] (map T (invoke SELECT_INFOS (specs ++ Comma :: [Id INFOS_SPECS false] ++ Comma :: [Id INFOS_BASIC false]))) [Id INFOS_SPECS false]).
  set (toks := specs ++ Comma :: [Id INFOS_SPECS false] ++ Comma :: [Id INFOS_BASIC false]). unfold invoke. cbn [map].
  eapply (ex_call [] SELECT_INFOS 2 true _ _ _ [] _ sargs [] [] sargs sargs [Id INFOS_SPECS false]).
  - reflexivity.
  - reflexivity.
  - reflexivity.
  - rewrite map_app. assert (A : args_from 2 true [] toks sargs).
    { apply (args_next 2 true [] specs); [exact G|reflexivity|].
      apply (args_next 2 true _ [Id INFOS_SPECS false]); [apply group_id; constructor|reflexivity|].
      apply (args_va 2 [specs; [Id INFOS_SPECS false]] [Id INFOS_BASIC false] eq_refl). apply group_id; constructor. }
    apply A. apply unmarked_app; split; [apply unmarked_plain, P|]. apply unmarked_other; [exact Logic.I|].
    apply unmarked_id; [reflexivity|]. apply unmarked_other; [exact Logic.I|]. apply unmarked_id; [reflexivity|apply unmarked_nil].
  - reflexivity.
  - unfold sargs. constructor; [apply becomes_ex, b_plain, P|].
    constructor; [eapply ex_nocall; [reflexivity|reflexivity|reflexivity|apply ex_nil]|].
    constructor; [eapply ex_nocall; [reflexivity|reflexivity|reflexivity|apply ex_nil]|constructor].
  - reflexivity.
  - cbn [map app]. eapply ex_nocall; [reflexivity|reflexivity|reflexivity|]. apply ex_pop, ex_nil.
Qed.

(** A comma between specifiers is fatal: the text after it is taken for the name of the macro which makes the overload. *)
Theorem C57_specifier_commas : forall ret types s1 s2 more,
  plain ret -> group false ret -> plain types -> group true types -> plain s1 -> group false s1 -> plain s2 -> group false s2 ->
  more = [] \/ (exists m, more = Comma :: m /\ plain m /\ group true m) ->
  let specs := s1 ++ Comma :: s2 ++ more in
  expands (invoke "MIMICPP_ADD_OVERLOAD" (ret ++ Comma :: (Lp :: types ++ [Rp]) ++ Comma :: specs))
    (s2 ++ Lp :: ret ++ Comma :: (Lp :: types ++ [Rp]) ++ Comma :: specs ++ [Comma; Rp]).
Proof.
  intros ret types s1 s2 more R1 R2 T1 T2 P1 G1 P2 G2 M specs. apply becomes_expands.
  set (tl_ := Lp :: types ++ [Rp]). destruct (parens_ok _ T1 T2) as [LP LG]. fold tl_ in LP, LG.
  assert (PM : plain more) by (destruct M as [->|(m & -> & Pm & _)]; [apply plain_nil|apply plain_sym; [exact Logic.I|exact Pm]]).
  assert (GM : group true more) by (destruct M as [->|(m & -> & _ & Gm)]; [constructor|apply group_comma, Gm]).
  assert (PS : plain specs) by (apply plain_app; split; [exact P1|apply plain_sym; [exact Logic.I|apply plain_app; auto]]).
  assert (GS : group true specs).
  { apply group_app; [apply (group_weaken _ _ G1)|]. apply group_comma. apply group_app; [apply (group_weaken _ _ G2)|exact GM]. }
  set (raw := [ret; tl_; specs]). set (rest := ret ++ Comma :: tl_ ++ Comma :: specs ++ [Comma]).
  assert (PR : plain rest).
  { apply plain_app; split; [exact R1|]. apply plain_sym; [exact Logic.I|]. apply plain_app; split; [exact LP|]. apply plain_sym; [exact Logic.I|].
    apply plain_app; split; [exact PS|]. apply plain_comma. }
  set (names := [Id INFOS_SPECS false; Comma; Id INFOS_BASIC false]).
  eapply (b_call [] ADD_OVERLOAD 2 true _ _ raw raw raw (invoke SELECT_INFOS (specs ++ Comma :: names) ++ Lp :: rest ++ [Rp])).
  - reflexivity.
  - reflexivity.
  - apply unmarked_plain. apply plain_app; split; [exact R1|]. apply plain_sym; [exact Logic.I|]. apply plain_app; split; [exact LP|].
    apply plain_sym; [exact Logic.I|exact PS].
  - apply (args_next 2 true [] ret); [exact R2|reflexivity|]. apply (args_next 2 true _ tl_); [exact LG|reflexivity|].
    apply (args_va 2 [ret; tl_] specs eq_refl GS).
  - reflexivity.
  - unfold raw. repeat (constructor; [apply becomes_ex, b_plain; assumption|]). constructor.
  - unfold raw, rest, names, invoke, ident, call_item, I_, C_. cbn [subst subst_item app nth operand_toks].
    f_equal. repeat (rewrite <- app_assoc; cbn [app]). reflexivity.
  - replace (s2 ++ Lp :: ret ++ Comma :: tl_ ++ Comma :: specs ++ [Comma; Rp]) with (s2 ++ Lp :: rest ++ [Rp])
      by (unfold rest; repeat (rewrite <- app_assoc; cbn [app]); reflexivity).
    apply b_app; [|apply b_plain; apply plain_sym; [exact Logic.I|]; apply plain_app; split; [exact PR|apply plain_sym; [exact Logic.I|apply plain_nil]]].
    set (dis' := [ADD_OVERLOAD]).
    assert (H : exists m, specs ++ Comma :: names = s1 ++ Comma :: s2 ++ Comma :: m ++ names /\ plain m /\ group true m).
    { unfold specs. destruct M as [->|(m & -> & Pm & Gm)].
      - exists []. rewrite app_nil_r, <- app_assoc. split; [reflexivity|]. split; [apply plain_nil|constructor].
      - exists (m ++ [Comma]). split; [repeat (rewrite <- app_assoc; cbn [app]); reflexivity|].
        split; [apply plain_app; split; [exact Pm|apply plain_comma]|apply group_app; [exact Gm|apply group_comma; constructor]]. }
    destruct H as (m & -> & Pm & Gm).
    set (sargs := [s1; s2; m ++ names]).
    eapply (b_call dis' SELECT_INFOS 2 true _ _ sargs sargs sargs s2).
    + reflexivity.
    + reflexivity.
    + apply unmarked_app; split; [apply unmarked_plain, P1|]. apply unmarked_other; [exact Logic.I|].
      apply unmarked_app; split; [apply unmarked_plain, P2|]. apply unmarked_other; [exact Logic.I|].
      apply unmarked_app; split; [apply unmarked_plain, Pm|]. intros t [<-|[<-|[<-|[]]]]; reflexivity.
    + apply (args_next 2 true [] s1); [exact G1|reflexivity|]. apply (args_next 2 true _ s2); [exact G2|reflexivity|].
      apply (args_va 2 [s1; s2] (m ++ names) eq_refl). apply group_app; [exact Gm|]. unfold names.
      apply group_id, group_comma, group_id. constructor.
    + reflexivity.
    + unfold sargs. constructor; [apply becomes_ex, b_plain, P1|]. constructor; [apply becomes_ex, b_plain, P2|].
      constructor; [|constructor]. rewrite map_app. apply b_plain; [exact Pm|].
      eapply ex_nocall; [reflexivity|reflexivity|reflexivity|]. apply ex_keep; [discriminate|].
      eapply ex_nocall; [reflexivity|reflexivity|reflexivity|apply ex_nil].
    + unfold sargs. cbn [subst subst_item app nth]. rewrite app_nil_r. reflexivity.
    + apply b_plain, P2.
Qed.

(** [cpp.concat]: the last token of the left operand and the first one of the right operand become one identifier, the others stay; an empty
    operand leaves the other one alone. *)
Theorem C57_paste : forall l x y r,
  paste (l ++ [x]) (y :: r) = match x, y with Id s _, Id s' _ => Some (l ++ Id (s ++ s')%string false :: r) | _, _ => None end /\
  paste [] r = Some r /\ paste l [] = Some l.
Proof.
  intros l x y r. split; [|split; [reflexivity|]].
  - induction l as [|z l IH]; [destruct x, y; reflexivity|]. cbn [app paste].
    destruct (l ++ [x]) as [|u l'] eqn:E; [destruct l; discriminate E|]. rewrite IH. destruct x, y; reflexivity.
  - induction l as [|z [|u l] IH]; [reflexivity|reflexivity|]. cbn [paste] in *. rewrite IH. reflexivity.
Qed.
Print Assumptions C57_paste.

(** [fn_name##_] needs an identifier: a name whose last token is something else, such as [operator+] or [operator()], cannot be mocked;
    the replacement of the macros does not exist. *)
Lemma paste_not_ident : forall l t s, match t with Id _ _ => False | _ => True end -> paste (l ++ [t]) [Id s false] = None.
Proof.
  intros l t s N. induction l as [|x l IH]; [destruct t; [destruct N|reflexivity..]|].
  cbn [app paste]. destruct (l ++ [t]) as [|z l'] eqn:E; [destruct l; discriminate E|]. rewrite IH. reflexivity.
Qed.

Definition no_identifier (t : tok) : Prop := match t with Id _ _ => False | _ => True end.

Lemma no_paste : forall dis fn t rest r o, no_identifier t -> group false (fn ++ [t]) -> group true rest ->
  mem MOCK_OVERLOADED_METHOD dis = false -> unmarked dis ((fn ++ [t]) ++ Comma :: rest) ->
  ~ ex dis (map T (invoke MOCK_OVERLOADED_METHOD ((fn ++ [t]) ++ Comma :: rest)) ++ r) o.
Proof.
  intros dis fn t rest r o N G Gr M U [n H].
  assert (A : args_from 1 true [] ((fn ++ [t]) ++ Comma :: rest) [fn ++ [t]; rest]).
  { apply (args_next 1 true [] (fn ++ [t])); [exact G|reflexivity|]. apply (args_va 1 [fn ++ [t]] rest eq_refl Gr). }
  destruct n as [|n]; [discriminate H|].
  set (toks := (fn ++ [t]) ++ Comma :: rest) in *. unfold invoke, ident in H. cbn [map app scan] in H. rewrite M in H.
  change (lookup MOCK_OVERLOADED_METHOD) with (Some (Fun 1 true
                  (call_item MAKE_METHOD_OVERRIDES [Paste (OArg 0) (OTok (Id "_" false)); C_; Arg 0; C_; Arg 1]
                   ++ call_item MAKE_OVERLOADED_MOCK
                        ([Paste (OArg 0) (OTok (Id "_" false)); C_; Tk Lp] ++ call_item MAKE_SIGNATURE_LIST [Arg 1] ++ [Tk Rp])))) in H.
  cbv iota beta in H. cbn [lparen] in H. rewrite map_app, <- app_assoc in H. cbn [map app] in H. rewrite (A dis r U) in H.
  change (arity 1 true [fn ++ [t]; rest]) with (Some [fn ++ [t]; rest]) in H. cbv iota beta in H.
  destruct (oall _ [fn ++ [t]; rest]) as [exp|]; [|discriminate H].
  cbn [call_item app subst subst_item operand_toks nth I_ C_] in H. rewrite (paste_not_ident fn t "_" N) in H. discriminate H.
Qed.

Theorem C57_operator_names : forall fn t rest out, no_identifier t -> group false (fn ++ [t]) -> group true rest ->
  ~ expands (invoke "MIMICPP_MOCK_OVERLOADED_METHOD" ((fn ++ [t]) ++ Comma :: rest)) out.
Proof.
  intros fn t rest out N G Gr H. apply (no_paste [] fn t rest [] out N G Gr).
  - reflexivity.
  - intros [s [|]| | | |] _; try reflexivity. apply mark_free. reflexivity.
  - rewrite app_nil_r. exact H.
Qed.

(** The inverse of the lemma for invocations. *)
Lemma call_inv : forall dis s named va body toks args raw exp b r o,
  lookup s = Some (Fun named va body) -> mem s dis = false -> unmarked dis toks ->
  args_from named va [] toks args -> arity named va args = Some raw ->
  Forall2 (fun a e => ex dis (map T a) e) raw exp ->
  subst raw exp (va && negb (is_nil (nth named exp []))) body = Some b ->
  ex dis (map T (invoke s toks) ++ r) o -> ex (s :: dis) (map T b ++ Pop :: r) o.
Proof.
  intros dis s named va body toks args raw exp b r o L M U A R F S [n H].
  destruct n as [|n]; [discriminate H|]. unfold invoke, ident in H. cbn [map app scan] in H. rewrite L, M in H. cbn [lparen] in H.
  rewrite map_app, <- app_assoc in H. cbn [map app] in H. rewrite (A dis r U), R in H.
  destruct (oall (fun a => scan n dis (map T a)) raw) as [exp'|] eqn:O; [|discriminate H].
  assert (E : exp' = exp).
  { clear - O F. revert exp' O. induction F as [|a e raw exp E F IH]; intros exp' O; cbn [oall] in O; [injection O as <-; reflexivity|].
    destruct (scan n dis (map T a)) as [e'|] eqn:Ea; [|discriminate O]. destruct (oall _ raw) as [es|] eqn:Eo; [|discriminate O].
    injection O as <-. rewrite (IH _ eq_refl). f_equal. apply (ex_det dis (map T a)); [exists n; exact Ea|exact E]. }
  subst exp'. rewrite S in H. exists n. exact H.
Qed.

Theorem C57_operator_names_method : forall fn t ret types specs out, no_identifier t -> group false (fn ++ [t]) -> plain (fn ++ [t]) ->
  plain ret -> group false ret -> plain types -> group true types -> plain specs -> group true specs ->
  ~ expands (invoke "MIMICPP_MOCK_METHOD" ((fn ++ [t]) ++ Comma :: ret ++ Comma :: (Lp :: types ++ [Rp]) ++ Comma :: specs)) out /\
  ~ expands (invoke "MIMICPP_MOCK_METHOD" ((fn ++ [t]) ++ Comma :: ret ++ Comma :: (Lp :: types ++ [Rp]))) out.
Proof.
  intros fn t ret types specs out N G P R1 R2 T1 T2 S1 S2.
  destruct (parens_ok _ T1 T2) as [LP LG]. set (tl_ := Lp :: types ++ [Rp]) in *. set (a1 := fn ++ [t]) in *.
  assert (Main : forall sp toks args, plain sp -> group true sp -> unmarked [] toks -> args_from 3 true [] toks args ->
    arity 3 true args = Some [a1; ret; tl_; sp] -> ~ expands (invoke "MIMICPP_MOCK_METHOD" toks) out).
  2:{ split.
      - apply (Main specs _ [a1; ret; tl_; specs] S1 S2).
        + intros [s [|]| | | |] _; try reflexivity. apply mark_free. reflexivity.
        + apply (args_next 3 true [] a1); [exact G|reflexivity|]. apply (args_next 3 true _ ret); [exact R2|reflexivity|].
          apply (args_next 3 true _ tl_); [exact LG|reflexivity|]. apply (args_va 3 [a1; ret; tl_] specs eq_refl S2).
        + reflexivity.
      - apply (Main [] _ [a1; ret; tl_] plain_nil (group_nil _)).
        + intros [s [|]| | | |] _; try reflexivity. apply mark_free. reflexivity.
        + apply (args_next 3 true [] a1); [exact G|reflexivity|]. apply (args_next 3 true _ ret); [exact R2|reflexivity|].
          apply (args_last 3 true [a1; ret] tl_ LG).
        + reflexivity. }
  clear S1 S2 specs. intros specs toks args S1 S2 U A1 A2 H.
  set (raw := [a1; ret; tl_; specs]) in *.
  set (rest := invoke ADD_OVERLOAD (ret ++ Comma :: tl_ ++ (if is_nil specs then [] else [Comma]) ++ specs)).
  assert (K : ex [MOCK_METHOD] (map T (invoke MOCK_OVERLOADED_METHOD (a1 ++ Comma :: rest)) ++ Pop :: []) out).
  { eapply (call_inv [] MOCK_METHOD 3 true _ toks args raw raw).
    - reflexivity.
    - reflexivity.
    - exact U.
    - exact A1.
    - exact A2.
    - unfold raw. repeat (constructor; [apply becomes_ex, b_plain; assumption|]). constructor.
    - unfold raw, rest, invoke, ident, call_item, I_, C_. cbn [nth andb].
      destruct specs as [|z l]; cbn [is_nil negb]; cbn [subst subst_item app nth operand_toks];
        f_equal; rewrite ?app_nil_r; repeat (rewrite <- app_assoc; cbn [app]); rewrite ?app_nil_r; reflexivity.
    - rewrite app_nil_r. exact H. }
  revert K. apply no_paste; try assumption.
  - unfold rest. apply group_invoke. apply group_app; [apply (group_weaken _ _ R2)|]. apply group_comma.
    apply group_app; [apply (group_weaken _ _ LG)|]. destruct specs as [|z l]; [constructor|]. apply group_comma, S2.
  - reflexivity.
  - apply unmarked_app; split; [apply unmarked_plain, P|]. apply unmarked_other; [exact Logic.I|]. unfold rest. apply unmarked_invoke; [reflexivity|].
    apply unmarked_plain. apply plain_app; split; [exact R1|]. apply plain_sym; [exact Logic.I|]. apply plain_app; split; [exact LP|].
    destruct specs as [|z l]; [apply plain_nil|]. cbn [is_nil app]. apply plain_sym; [exact Logic.I|exact S1].
Qed.

(** ** Examples *)

Definition w (s : string) : tok := ident s.
Definition y (s : string) : tok := Sym s.
Definition tuple_toks : list tok := [w "std"; y "::"; w "tuple"; y "<"; w "int"; Comma; w "float"; y ">"].

(** test/unit-tests/InterfaceMock.cpp 24-56 *)
Example strip_examples :
  run (invoke STRIP_PARENS []) = Some [] /\
  run (invoke STRIP_PARENS [Lp; Rp]) = Some [] /\
  run (invoke STRIP_PARENS [Lp; Lp; Rp; Rp]) = Some [Lp; Rp] /\
  run (invoke STRIP_PARENS [w "Test"; Lp; Rp]) = Some [w "Test"; Lp; Rp] /\
  run (invoke STRIP_PARENS [Lp; w "Test"; Lp; Rp; Rp]) = Some [w "Test"; Lp; Rp] /\
  run (invoke STRIP_PARENS [Lp; Lp; w "Test"; Lp; Rp; Rp; Rp]) = Some [Lp; w "Test"; Lp; Rp; Rp] /\
  run (invoke STRIP_PARENS [Lp; Lp; Comma; w "Test"; Lp; Rp; Comma; Rp; Rp]) = Some [Lp; Comma; w "Test"; Lp; Rp; Comma; Rp].
Proof. repeat split; vm_compute; reflexivity. Qed.

(** test/unit-tests/InterfaceMock.cpp 104-166 *)
Example list_examples :
  run (invoke MAKE_PARAM_LIST []) = Some [] /\
  run (invoke MAKE_PARAM_LIST [w "const"; w "int"; y "&"; Comma; w "int"; y "&&"])
    = Some [w "const"; w "int"; y "&"; w "arg_i"; Comma; w "int"; y "&&"; w "arg_ii"] /\
  run (invoke MAKE_PARAM_LIST (Lp :: tuple_toks ++ [Rp])) = Some (tuple_toks ++ [w "arg_i"]) /\
  run (invoke FORWARD_ARGS [w "int"]) = Some [y "::"; w "std"; y "::"; w "forward"; y "<"; y "::"; w "std"; y "::"; w "add_rvalue_reference_t"; y "<"; w "int"; y ">>"; Lp; w "arg_i"; Rp] /\
  run (invoke FORWARD_ARGS []) = Some [] /\
  run (invoke MAKE_SIGNATURE_LIST []) = Some [] /\
  run (invoke MAKE_SIGNATURE_LIST [Lp; w "void"; Comma; Lp; Rp; Comma; Rp]) = Some [w "void"; Lp; Rp] /\
  run (invoke "MIMICPP_DETAIL_MAKE_OVERLOADED_MOCK" [w "mock"; Comma; Lp; w "void"; Lp; Rp; Rp])
    = Some [y "::"; w "mimicpp"; y "::"; w "Mock"; y "<"; w "void"; Lp; Rp; y ">"; w "mock"; y "{"; y "}"] /\
  run (invoke "MIMICPP_ADD_OVERLOAD" [w "void"; Comma; Lp; Rp]) = Some [Lp; w "void"; Comma; Lp; Rp; Comma; Comma; Lp; Rp; Comma; Lp; Rp; Rp].
Proof. repeat split; vm_compute; reflexivity. Qed.

(** [int foo(float&&) const noexcept], test/unit-tests/InterfaceMock.cpp 290-312 *)
Definition ov_foo : overload :=
  mkOverload [w "int"] [[w "float"; y "&&"]] [w "const"; w "noexcept"] [w "int"] [[w "float"; y "&&"]] [w "const"; w "noexcept"].
(** [std::tuple<int, float> foo(std::tuple<int, float>)], in parentheses because of the commas *)
Definition ov_tuple : overload :=
  mkOverload (Lp :: tuple_toks ++ [Rp]) [Lp :: tuple_toks ++ [Rp]] [] tuple_toks [tuple_toks] [].

Lemma not_macro : forall s, lookup s = None -> ~ macro_name s.
Proof.
  intros s H M. unfold lookup in H. unfold macro_name in M. revert M. revert H. generalize table.
  induction l as [|[n m] l IH]; intros H M; [exact M|]. simpl in *. destruct (String.eqb_spec s n) as [->|N]; [discriminate|].
  destruct M as [M|M]; [congruence|apply (IH H M)].
Qed.

Ltac plain_tac := repeat first [apply plain_sym; [exact Logic.I|] | apply plain_ident; [reflexivity|] | apply plain_nil].
Ltac group_tac := repeat first [apply group_id | apply group_sym | apply group_comma | apply group_nil].

Lemma tuple_group : group true tuple_toks.
Proof. unfold tuple_toks, w, y. group_tac. Qed.
Lemma tuple_plain : plain tuple_toks.
Proof. unfold tuple_toks, w, y. plain_tac. Qed.

Lemma strips_id : forall t l, t <> Lp -> strips (t :: l) (t :: l).
Proof. intros t l N. apply strips_not. simpl. congruence. Qed.

Example ov_foo_ok : overload_ok ov_foo.
Proof.
  unfold ov_foo, overload_ok, w, y. cbn [o_ret o_types o_specs o_ret' o_types' o_specs'].
  split; [plain_tac|]. split; [group_tac|]. split; [apply strips_id; discriminate|].
  split; [plain_tac|]. split; [group_tac|]. split; [apply strips_id; discriminate|].
  split; [constructor; [split; [discriminate|split; [plain_tac|group_tac]]|constructor]|].
  split; [constructor; [apply strips_id; discriminate|constructor]|]. simpl. lia.
Qed.

Example ov_tuple_ok : overload_ok ov_tuple.
Proof.
  unfold ov_tuple, overload_ok. cbn [o_ret o_types o_specs o_ret' o_types' o_specs'].
  destruct (parens_ok _ tuple_plain tuple_group) as [P G].
  assert (S : strips (Lp :: tuple_toks ++ [Rp]) tuple_toks) by (rewrite <- (app_nil_r tuple_toks) at 2; apply strips_paren, tuple_group).
  split; [exact P|]. split; [exact G|]. split; [exact S|].
  split; [apply plain_nil|]. split; [constructor|]. split; [apply strips_nil|].
  split; [constructor; [split; [discriminate|split; assumption]|constructor]|].
  split; [constructor; [exact S|constructor]|]. simpl. lia.
Qed.

(** A mock with both overloads. *)
Example mock_example :
  expands (invoke "MOCK_OVERLOADED_METHOD" (w "foo" :: Comma
             :: invoke "ADD_OVERLOAD" [w "int"; Comma; Lp; w "float"; y "&&"; Rp; Comma; w "const"; w "noexcept"] ++ Comma
             :: invoke "ADD_OVERLOAD" ((Lp :: tuple_toks ++ [Rp]) ++ [Comma; Lp] ++ (Lp :: tuple_toks ++ [Rp]) ++ [Rp])))
    ([w "inline"; w "int"; w "foo"; Lp; w "float"; y "&&"; w "arg_i"; Rp; w "const"; w "noexcept"; w "override"; y "{"; w "return"; w "foo_"; Lp]
     ++ forward 1 [w "float"; y "&&"] ++ [Rp; y ";"; y "}"]
     ++ [w "inline"] ++ tuple_toks ++ [w "foo"; Lp] ++ tuple_toks ++ [w "arg_i"; Rp; w "override"; y "{"; w "return"; w "foo_"; Lp]
     ++ forward 1 tuple_toks ++ [Rp; y ";"; y "}"]
     ++ [y "::"; w "mimicpp"; y "::"; w "Mock"; y "<"; w "int"; Lp; w "float"; y "&&"; Rp; w "const"; w "noexcept"; Comma; Lp] ++ tuple_toks
     ++ [Rp; Lp; Lp] ++ tuple_toks ++ [Rp; Rp; y ">"; w "foo_"; y "{"; y "}"]).
Proof.
  apply (C57_mock_overloaded_method "foo" [ov_foo; ov_tuple]
           [[w "int"; Comma; Lp; w "float"; y "&&"; Rp; Comma; w "const"; w "noexcept"];
            (Lp :: tuple_toks ++ [Rp]) ++ [Comma; Lp] ++ (Lp :: tuple_toks ++ [Rp]) ++ [Rp]]).
  - split; apply not_macro; reflexivity.
  - constructor; [exact ov_foo_ok|]. constructor; [exact ov_tuple_ok|constructor].
  - constructor; [apply (source_specs ov_foo)|]. constructor; [apply (source_basic ov_tuple eq_refl)|constructor].
  - simpl. lia.
Qed.

Example mock_example_run :
  run (invoke "MOCK_METHOD" [w "foo"; Comma; w "int"; Comma; Lp; w "float"; y "&&"; Rp; Comma; w "const"; w "noexcept"])
  = Some (method_text "foo" ov_foo ++ mock_text "foo" [signature_text ov_foo]).
Proof. vm_compute. reflexivity. Qed.

(** The parentheses around a return type or a parameter type are not removed from the signature of the mock. [(T)(...)] is not a
    type, hence such a method cannot be mocked, although the overriding method handles the parentheses. ([R((T))] with a single parameter
    and no specifiers is a type by chance: there the parentheses are those of an abstract declarator. With several parameters or with
    specifiers it is none.) *)
Theorem C57_signature_parens_refuted : exists fn o src,
  method_name_ok fn /\ overload_ok o /\ overload_source o src /\
  exists out, expands (invoke "MIMICPP_MOCK_METHOD" (ident fn :: Comma :: src)) out /\
    out = method_text fn o ++ mock_text fn [raw_signature_text o] /\
    out <> method_text fn o ++ mock_text fn [signature_text o].
Proof.
  exists "foo", ov_tuple, (o_ret ov_tuple ++ [Comma; Lp] ++ commas (o_types ov_tuple) ++ [Rp]).
  assert (N : method_name_ok "foo") by (split; apply not_macro; reflexivity).
  split; [exact N|]. split; [exact ov_tuple_ok|]. split; [apply (source_basic ov_tuple eq_refl)|].
  eexists. split; [apply (C57_mock_method "foo" ov_tuple _ N ov_tuple_ok (source_basic ov_tuple eq_refl))|].
  split; [reflexivity|]. vm_compute. intros H. repeat (injection H as H; try discriminate H).
Qed.

(** 86 parameters are handled, 87 are not. *)
Definition ints (n : nat) : list (list tok) := repeat [w "int"] n.
Lemma ints_ok : forall n, Forall type_toks (ints n) /\ Forall2 strips (ints n) (ints n) /\ length (ints n) = n.
Proof.
  intros n. split; [|split].
  - unfold ints. induction n; simpl; constructor; [|assumption]. split; [discriminate|]. unfold w. split; [plain_tac|group_tac].
  - unfold ints. induction n; simpl; constructor; [|assumption]. apply strips_id. discriminate.
  - apply repeat_length.
Qed.
Example capacity_86 : expands (invoke MAKE_PARAM_LIST (commas (ints 86))) (commas (params 1 (ints 86))).
Proof. destruct (ints_ok 86) as (A & B & C). apply C57_param_list; [exact A|exact B|]. rewrite C. lia. Qed.
Example capacity_87 :
  ~ expands (invoke MAKE_PARAM_LIST (commas (ints 87))) (commas (params 1 (ints 87))) /\
  expands (invoke MAKE_PARAM_LIST (commas (ints 87)))
    (concat (map (fun p => p ++ [Comma]) (params 1 (ints 86))) ++ leftover MAKE_PARAM 87 [[w "int"]]).
Proof.
  destruct (ints_ok 87) as (A & B & C).
  assert (H : expands (invoke MAKE_PARAM_LIST (commas (ints 87)))
                (concat (map (fun p => p ++ [Comma]) (params 1 (ints 86))) ++ leftover MAKE_PARAM 87 [[w "int"]])).
  { apply (C57_param_list_overflow (ints 87) (ints 87) A B). rewrite C. lia. }
  split; [|exact H]. intros H'. pose proof (C57_expansion_unique _ _ _ H H') as E. apply (f_equal (@length tok)) in E.
  revert E. vm_compute. discriminate.
Qed.
Example names_example : map arg_name [1; 2; 3] = ["arg_i"; "arg_ii"; "arg_iii"].
Proof. reflexivity. Qed.

(** [MIMICPP_ADD_OVERLOAD(void, (int), const, noexcept)] becomes [noexcept(void, (int), const, noexcept,)]. *)
Example specifier_commas_example :
  run (invoke "MIMICPP_ADD_OVERLOAD" [w "void"; Comma; Lp; w "int"; Rp; Comma; w "const"; Comma; w "noexcept"])
  = Some [w "noexcept"; Lp; w "void"; Comma; Lp; w "int"; Rp; Comma; w "const"; Comma; w "noexcept"; Comma; Rp].
Proof. vm_compute. reflexivity. Qed.
Example specifier_commas_hypotheses : plain [w "const"] /\ group false [w "const"] /\ plain [w "noexcept"] /\ group false [w "noexcept"].
Proof. split; [plain_tac|]. split; [group_tac|]. split; [plain_tac|group_tac]. Qed.
(** [MIMICPP_MOCK_METHOD(operator(), void, (int), const)] *)
Example call_operator : forall out,
  ~ expands (invoke "MIMICPP_MOCK_METHOD" [w "operator"; Lp; Rp; Comma; w "void"; Comma; Lp; w "int"; Rp; Comma; w "const"]) out.
Proof.
  intros out. apply (C57_operator_names_method [w "operator"; Lp] Rp [w "void"] [w "int"] [w "const"] out).
  - exact Logic.I.
  - apply group_id. apply (group_paren false [] []); constructor.
  - plain_tac.
  - plain_tac.
  - group_tac.
  - plain_tac.
  - group_tac.
  - plain_tac.
  - group_tac.
Qed.

Print Assumptions C57_selection.
Print Assumptions C57_specifier_commas.
Print Assumptions C57_operator_names.
Print Assumptions C57_operator_names_method.
Print Assumptions C57_expansion_unique.
Print Assumptions C57_arguments.
Print Assumptions C57_strip_parens.
Print Assumptions C57_param_list.
Print Assumptions C57_forward_args.
Print Assumptions C57_param_list_overflow.
Print Assumptions C57_forward_args_overflow.
Print Assumptions C57_names.
Print Assumptions C57_add_overload.
Print Assumptions C57_signature_list.
Print Assumptions C57_mock_overloaded_method.
Print Assumptions C57_mock_method.
Print Assumptions C57_signature_without_parens.
Print Assumptions C57_signature_parens_refuted.
