(** * MacroPublic: the overriding methods and the public macros. *)

From Verif Require Import Base Macro MacroSpec MacroLemmas MacroProofs MacroLists.
Local Open Scope string_scope.
Local Open Scope list_scope.

(** ** Methods *)

Section Methods.
  Context (fn : string) (Nfn : lookup fn = None) (Nfn_ : lookup (String.append fn "_") = None).

  Definition names2 : list tok := [ident (String.append fn "_"); Comma; ident fn].
  Definition bound2 : list tok := Lp :: names2 ++ [Rp].
  Definition E_method (k : nat) (o : overload) : list tok := method_text fn o.

  Lemma names2_both : plain names2 /\ group true names2.
  Proof.
    split.
    - apply plain_ident; [exact Nfn_|]. apply plain_sym; [exact Logic.I|]. apply plain_ident; [exact Nfn|apply plain_nil].
    - apply group_id, group_comma, group_id. constructor.
  Qed.

  Lemma strips_both : forall a b, plain a -> group false a -> strips a b -> plain b /\ group true b.
  Proof. intros a b P G S. split; [apply (strips_plain _ _ P S)|apply (strips_group _ _ G S)]. Qed.

  Lemma lists_both : forall o, overload_ok o ->
    (plain (commas (params 1 (o_types' o))) /\ group true (commas (params 1 (o_types' o)))) /\
    (plain (commas (forwards 1 (o_types' o))) /\ group true (commas (forwards 1 (o_types' o)))).
  Proof.
    intros o H. destruct (pairs_ok o H) as (A & _ & B & _). destruct (params_ok (pairs o) 1 A) as [C D]. rewrite B in C, D.
    split; apply commas_both; assumption.
  Qed.

  Lemma method_both : forall o, overload_ok o -> plain (method_text fn o) /\ group true (method_text fn o).
  Proof.
    intros o H. destruct (lists_both o H) as [[A1 A2] [B1 B2]].
    destruct H as (R1 & R2 & R3 & S1 & S2 & S3 & _).
    destruct (strips_both _ _ R1 R2 R3) as [R4 R5]. destruct (strips_both _ _ S1 S2 S3) as [S4 S5].
    unfold method_text. split.
    - apply plain_ident; [reflexivity|]. apply plain_app; split; [exact R4|]. apply plain_ident; [exact Nfn|].
      apply plain_sym; [exact Logic.I|]. apply plain_app; split; [exact A1|]. apply plain_sym; [exact Logic.I|].
      apply plain_app; split; [exact S4|]. cbn [app]. apply plain_ident; [reflexivity|]. apply plain_sym; [exact Logic.I|].
      apply plain_ident; [reflexivity|]. apply plain_ident; [exact Nfn_|]. apply plain_sym; [exact Logic.I|].
      apply plain_app; split; [exact B1|]. do 3 (apply plain_sym; [exact Logic.I|]). apply plain_nil.
    - apply group_id. apply group_app; [exact R5|]. apply group_id. apply group_paren; [exact A2|].
      apply group_app; [exact S5|]. cbn [app]. apply group_id, group_sym, group_id, group_id.
      apply group_paren; [exact B2|]. apply group_sym, group_sym. constructor.
  Qed.

  Lemma b_method : forall dis o, overload_ok o -> free dis inner2 ->
    becomes dis (invoke MAKE_METHOD_OVERRIDE ([] ++ Comma :: names2 ++ Comma :: commas (parts o))) (method_text fn o).
  Proof.
    intros dis o H F. pose proof (parts_ok o H) as Ps. pose proof (parts_both o H) as [PP _].
    destruct (lists_both o H) as [[A1 A2] [B1 B2]]. destruct names2_both as [N1 N2].
    pose proof H as (R1 & R2 & R3 & S1 & S2 & S3 & _).
    unfold parts in Ps. set (pl := Lp :: commas (params 1 (o_types' o)) ++ [Rp]) in *. set (fl := Lp :: commas (forwards 1 (o_types' o)) ++ [Rp]) in *.
    set (tl_ := Lp :: commas (o_types o) ++ [Rp]) in *.
    inversion Ps as [|? ? [P1 G1] Ps1]; subst. inversion Ps1 as [|? ? [P2 G2] Ps2]; subst. inversion Ps2 as [|? ? [P3 G3] Ps3]; subst.
    inversion Ps3 as [|? ? [P4 G4] Ps4]; subst. inversion Ps4 as [|? ? [P5 G5] Ps5]; subst. clear Ps Ps1 Ps2 Ps3 Ps4 Ps5.
    set (a0 := [ident (String.append fn "_")]). set (a1 := [ident fn]).
    set (args := [[]; a0; a1; o_ret o; tl_; o_specs o; pl; fl]).
    set (raw := args ++ [[]]).
    eapply (b_call dis MAKE_METHOD_OVERRIDE 8 true _ _ args raw raw
      (ident "inline" :: invoke STRIP_PARENS (o_ret o) ++ ident fn :: pl ++ invoke STRIP_PARENS (o_specs o)
       ++ [ident "override"; Sym "{"; ident "return"; ident (String.append fn "_"); Lp] ++ invoke STRIP_PARENS fl ++ [Rp; Sym ";"; Sym "}"])).
    - reflexivity.
    - apply (free_in _ _ _ F); reflexivity.
    - apply unmarked_plain. cbn [app]. apply plain_sym; [exact Logic.I|]. apply (proj2 (plain_app names2 (Comma :: commas (parts o)))).
      split; [exact N1|]. apply plain_sym; [exact Logic.I|]. exact PP.
    - apply (args_next 8 true [] []); [constructor|reflexivity|].
      apply (args_next 8 true _ a0); [apply group_id; constructor|reflexivity|].
      apply (args_next 8 true _ a1); [apply group_id; constructor|reflexivity|].
      unfold parts. rewrite !commas_cons. fold pl fl tl_.
      apply (args_next 8 true _ (o_ret o)); [exact G1|reflexivity|].
      apply (args_next 8 true _ tl_); [exact G2|reflexivity|].
      apply (args_next 8 true _ (o_specs o)); [exact G3|reflexivity|].
      apply (args_next 8 true _ pl); [exact G4|reflexivity|].
      apply (args_last 8 true [[]; a0; a1; o_ret o; tl_; o_specs o; pl] fl G5).
    - reflexivity.
    - unfold raw, args. cbn [app].
      assert (Pa0 : plain a0) by (apply plain_ident; [exact Nfn_|apply plain_nil]).
      assert (Pa1 : plain a1) by (apply plain_ident; [exact Nfn|apply plain_nil]).
      constructor; [apply becomes_ex, b_nil|]. do 7 (constructor; [apply becomes_ex, b_plain; assumption|]).
      constructor; [apply becomes_ex, b_nil|constructor].
    - unfold raw, args, a0, a1, invoke, ident, call_item, I_. cbn [subst subst_item app nth operand_toks].
      f_equal. repeat (rewrite <- app_assoc; cbn [app]). reflexivity.
    - assert (Fs : free (MAKE_METHOD_OVERRIDE :: dis) strip_names) by (apply strip_free; [exact F|reflexivity]).
      unfold method_text.
      change (ident "inline" :: invoke STRIP_PARENS (o_ret o) ++ ident fn :: pl ++ invoke STRIP_PARENS (o_specs o)
       ++ [ident "override"; Sym "{"; ident "return"; ident (String.append fn "_"); Lp] ++ invoke STRIP_PARENS fl ++ [Rp; Sym ";"; Sym "}"])
      with ([ident "inline"] ++ invoke STRIP_PARENS (o_ret o) ++ (ident fn :: pl) ++ invoke STRIP_PARENS (o_specs o)
       ++ [ident "override"; Sym "{"; ident "return"; ident (String.append fn "_"); Lp] ++ invoke STRIP_PARENS fl ++ [Rp; Sym ";"; Sym "}"]).
      replace (ident "inline" :: o_ret' o ++ ident fn :: Lp :: commas (params 1 (o_types' o)) ++ Rp :: o_specs' o
        ++ [ident "override"; Sym "{"; ident "return"; ident (String.append fn "_"); Lp] ++ commas (forwards 1 (o_types' o)) ++ [Rp; Sym ";"; Sym "}"])
      with ([ident "inline"] ++ o_ret' o ++ (ident fn :: pl) ++ o_specs' o
        ++ [ident "override"; Sym "{"; ident "return"; ident (String.append fn "_"); Lp] ++ commas (forwards 1 (o_types' o)) ++ [Rp; Sym ";"; Sym "}"])
        by (unfold pl; cbn [app]; rewrite <- app_assoc; reflexivity).
      apply b_app; [apply b_plain, plain_ident; [reflexivity|apply plain_nil]|].
      apply b_app; [apply b_strip_plain; assumption|].
      apply b_app; [apply b_plain, plain_ident; [exact Nfn|exact P4]|].
      apply b_app; [apply b_strip_plain; assumption|].
      apply b_app.
      { apply b_plain. apply plain_ident; [reflexivity|]. apply plain_sym; [exact Logic.I|].
        apply plain_ident; [reflexivity|]. apply plain_ident; [exact Nfn_|]. apply plain_sym; [exact Logic.I|apply plain_nil]. }
      apply b_app; [|apply b_plain; do 3 (apply plain_sym; [exact Logic.I|]); apply plain_nil].
      apply b_strip_plain; [exact Fs|exact P5|exact G5|].
      rewrite <- (app_nil_r (commas (forwards 1 (o_types' o)))). unfold fl. apply strips_paren. exact B2.
  Qed.

  Definition methods_out (l : list overload) : list tok :=
    st_toks MAKE_METHOD_OVERRIDE NO_DELIMITER STRIP_PARENS [] (fun _ => []) bound2 info (it [] E_method 86 ([], 1, l)).

  Lemma b_each_method : forall dis l, free dis for_each_names -> Forall overload_ok l ->
    becomes dis (invoke FOR_EACH_EXT (Id MAKE_METHOD_OVERRIDE false :: Comma :: [] ++ Comma :: Id NO_DELIMITER false :: Comma
                   :: Id STRIP_PARENS false :: Comma :: bound2 ++ Comma :: commas (map info l)))
      (methods_out l).
  Proof.
    intros dis l F G. unfold methods_out. destruct names2_both as [N1 N2]. destruct (parens_ok _ N1 N2) as [B1 B2].
    eapply (b_for_each MAKE_METHOD_OVERRIDE NO_DELIMITER STRIP_PARENS) with (good := overload_ok) (B' := names2) (proj := fun o => commas (parts o));
      try reflexivity; try assumption.
    - apply plain_nil.
    - constructor.
    - intros k. apply plain_nil.
    - intros k. constructor.
    - rewrite <- (app_nil_r names2). unfold bound2. apply (strips_paren names2 []). exact N2.
    - apply plain_nil.
    - apply b_nodelim.
    - intros o H. discriminate.
    - apply info_plain.
    - apply info_group.
    - intros k o H. apply (method_both o H).
    - intros k o H. apply (method_both o H).
    - constructor.
    - intros d o H Fd. apply b_strip_info; assumption.
    - intros d k o H Fd. apply b_method; assumption.
  Qed.

  Lemma elems_method : forall l k, elems E_method k l = map (method_text fn) l.
  Proof. induction l as [|o l IH]; intros k; simpl; [reflexivity|]. rewrite IH. reflexivity. Qed.
  Lemma separate_nil : forall l, separate [] l = concat l.
  Proof.
    induction l as [|x l IH]; [reflexivity|]. destruct l as [|y l]; [simpl; symmetry; apply app_nil_r|].
    cbn [separate concat app] in *. rewrite IH. reflexivity.
  Qed.
  Lemma methods_out_short : forall l, length l <= 86 -> methods_out l = concat (map (method_text fn) l).
  Proof. intros l L. unfold methods_out. rewrite it_all by exact L. rewrite elems_method. apply separate_nil. Qed.

  Lemma infos_both : forall l, Forall overload_ok l -> plain (commas (map info l)) /\ group true (commas (map info l)).
  Proof.
    intros l F. apply commas_both. apply Forall_map. eapply Forall_impl; [|exact F]. intros o H. split; [apply info_plain, H|].
    apply (group_weaken _ _ (info_group o H)).
  Qed.

  Lemma b_methods : forall dis l, free dis (MAKE_METHOD_OVERRIDES :: for_each_names) -> Forall overload_ok l ->
    becomes dis (invoke MAKE_METHOD_OVERRIDES (names2 ++ Comma :: commas (map info l))) (methods_out l).
  Proof.
    intros dis l F L. destruct (infos_both l L) as [IP IG]. destruct names2_both as [N1 N2].
    set (a0 := [ident (String.append fn "_")]). set (a1 := [ident fn]).
    assert (Pa0 : plain a0) by (apply plain_ident; [exact Nfn_|apply plain_nil]).
    assert (Pa1 : plain a1) by (apply plain_ident; [exact Nfn|apply plain_nil]).
    set (args := [a0; a1; commas (map info l)]).
    eapply (b_call dis MAKE_METHOD_OVERRIDES 2 true _ _ args args args).
    - reflexivity.
    - apply F; left; reflexivity.
    - apply unmarked_plain, plain_app; split; [exact N1|]. apply plain_sym; [exact Logic.I|exact IP].
    - apply (args_next 2 true _ a0); [apply group_id; constructor|reflexivity|].
      apply (args_next 2 true _ a1); [apply group_id; constructor|reflexivity|].
      apply (args_va 2 [a0; a1] (commas (map info l)) eq_refl IG).
    - reflexivity.
    - unfold args. repeat (constructor; [apply becomes_ex, b_plain; assumption|]). constructor.
    - unfold args, a0, a1, for_each_item, call_item, I_, C_. cbn [subst subst_item app nth operand_toks]. reflexivity.
    - change (becomes (MAKE_METHOD_OVERRIDES :: dis) (invoke FOR_EACH_EXT (Id MAKE_METHOD_OVERRIDE false :: Comma :: [] ++ Comma :: Id NO_DELIMITER false :: Comma
                   :: Id STRIP_PARENS false :: Comma :: bound2 ++ Comma :: commas (map info l))) (methods_out l)).
      apply b_each_method; [|exact L]. apply free_cons; [|reflexivity]. intros s Hs. apply F. right. exact Hs.
  Qed.

  (** ** The mock *)

  Lemma b_mock : forall dis l, free dis (MAKE_OVERLOADED_MOCK :: sig_names) -> Forall overload_ok l -> length l <= 86 ->
    becomes dis (invoke MAKE_OVERLOADED_MOCK ([ident (String.append fn "_")] ++ Comma :: Lp :: invoke MAKE_SIGNATURE_LIST (commas (map info l)) ++ [Rp]))
      (mock_text fn (map raw_signature_text l)).
  Proof.
    intros dis l F L Len. destruct (infos_both l L) as [IP IG].
    set (a0 := [ident (String.append fn "_")]).
    assert (Pa0 : plain a0) by (apply plain_ident; [exact Nfn_|apply plain_nil]).
    set (sl := invoke MAKE_SIGNATURE_LIST (commas (map info l))).
    set (sg := commas (map raw_signature_text l)).
    assert (SG : plain sg /\ group true sg).
    { apply commas_both. apply Forall_map. eapply Forall_impl; [|exact L]. intros o H. destruct (signature_both o H) as [A B].
      split; [exact A|apply (group_weaken _ _ B)]. }
    destruct SG as [SP SGr].
    assert (FL : mem MAKE_SIGNATURE_LIST dis = false) by (apply F; right; left; reflexivity).
    assert (Fsig : free dis sig_names) by (intros s Hs; apply F; right; exact Hs).
    assert (Usl : unmarked dis sl) by (apply unmarked_invoke; [exact FL|apply unmarked_plain, IP]).
    assert (Gsl : group true sl) by (apply group_invoke, IG).
    assert (BL : becomes dis sl sg).
    { unfold sg. rewrite <- (sigs_out_short l Len). apply b_signature_list; [exact Fsig|apply unmarked_plain, IP|exact IG|apply b_plain, IP|exact L]. }
    eapply (b_call dis MAKE_OVERLOADED_MOCK 2 false _ _ [a0; Lp :: sl ++ [Rp]] [a0; Lp :: sl ++ [Rp]] [a0; Lp :: sg ++ [Rp]]
      ([Sym "::"; ident "mimicpp"; Sym "::"; ident "Mock"; Sym "<"] ++ invoke STRIP_PARENS (Lp :: sg ++ [Rp])
       ++ [Sym ">"; ident (String.append fn "_"); Sym "{"; Sym "}"])).
    - reflexivity.
    - apply F; left; reflexivity.
    - apply unmarked_app; split; [apply unmarked_plain, Pa0|]. do 2 (apply unmarked_other; [exact Logic.I|]).
      apply unmarked_app; split; [exact Usl|]. apply unmarked_other; [exact Logic.I|apply unmarked_nil].
    - apply (args_next 2 false [] a0); [apply group_id; constructor|reflexivity|].
      apply (args_last 2 false [a0] (Lp :: sl ++ [Rp])). apply group_parens, Gsl.
    - reflexivity.
    - constructor; [apply becomes_ex, b_plain, Pa0|]. constructor; [|constructor].
      apply becomes_ex. apply b_keep; [discriminate|]. apply b_app; [exact BL|]. apply b_keep; [discriminate|apply b_nil].
    - unfold a0, invoke, ident, call_item, I_. cbn [subst subst_item app nth operand_toks].
      f_equal. repeat (rewrite <- app_assoc; cbn [app]). reflexivity.
    - unfold mock_text. fold sg. apply b_app.
      { apply b_plain. repeat first [apply plain_sym; [exact Logic.I|] | apply plain_ident; [reflexivity|]]. apply plain_nil. }
      apply b_app.
      2:{ apply b_plain. apply plain_sym; [exact Logic.I|]. apply plain_ident; [exact Nfn_|]. do 2 (apply plain_sym; [exact Logic.I|]). apply plain_nil. }
      destruct (parens_ok sg SP SGr) as [P1 G1].
      apply b_strip_plain; [|exact P1|exact G1|].
      + apply free_cons; [|reflexivity]. apply (free_sub _ _ _ Fsig). reflexivity.
      + rewrite <- (app_nil_r sg) at 2. apply strips_paren. exact SGr.
  Qed.

  Definition mock_names : list string := MOCK_OVERLOADED_METHOD :: MAKE_METHOD_OVERRIDES :: MAKE_OVERLOADED_MOCK :: sig_names.

  Definition class_text (l : list overload) : list tok :=
    concat (map (method_text fn) l) ++ mock_text fn (map raw_signature_text l).

  Lemma b_mock_overloaded : forall dis X l,
    free dis mock_names -> unmarked dis X -> group true X -> becomes dis X (commas (map info l)) -> Forall overload_ok l -> length l <= 86 ->
    becomes dis (invoke MOCK_OVERLOADED_METHOD (ident fn :: Comma :: X)) (class_text l).
  Proof.
    intros dis X l F U G H L Len. destruct (infos_both l L) as [IP IG].
    set (a1 := [ident fn]).
    assert (Pa1 : plain a1) by (apply plain_ident; [exact Nfn|apply plain_nil]).
    eapply (b_call dis MOCK_OVERLOADED_METHOD 1 true _ _ [a1; X] [a1; X] [a1; commas (map info l)]
      (invoke MAKE_METHOD_OVERRIDES (names2 ++ Comma :: commas (map info l))
       ++ invoke MAKE_OVERLOADED_MOCK ([ident (String.append fn "_")] ++ Comma :: Lp :: invoke MAKE_SIGNATURE_LIST (commas (map info l)) ++ [Rp]))).
    - reflexivity.
    - apply F; left; reflexivity.
    - change (ident fn :: Comma :: X) with (a1 ++ Comma :: X). apply unmarked_app; split; [apply unmarked_plain, Pa1|].
      apply unmarked_other; [exact Logic.I|exact U].
    - apply (args_next 1 true [] a1); [apply group_id; constructor|reflexivity|]. apply (args_va 1 [a1] X eq_refl G).
    - reflexivity.
    - constructor; [apply becomes_ex, b_plain, Pa1|]. constructor; [apply becomes_ex, H|constructor].
    - unfold a1, names2, invoke, ident, call_item, I_, C_. cbn [subst subst_item app nth operand_toks paste paste_tok option_map].
      f_equal. repeat (rewrite <- app_assoc; cbn [app]). reflexivity.
    - unfold class_text. apply b_app.
      + rewrite <- (methods_out_short l Len). apply b_methods; [|exact L].
        apply free_cons; [|reflexivity]. apply (free_sub _ _ _ F). reflexivity.
      + apply b_mock; [|exact L|exact Len]. apply free_cons; [|reflexivity]. apply (free_sub _ _ _ F). reflexivity.
  Qed.
End Methods.

(** ** ADD_OVERLOAD *)

Definition overload_names : list string := ADD_OVERLOAD :: SELECT_INFOS :: INFOS_SPECS :: INFOS_BASIC :: list_names.

Lemma b_infos_specs : forall dis o, overload_ok o -> free dis (INFOS_SPECS :: list_names) ->
  becomes dis (invoke INFOS_SPECS (o_ret o ++ Comma :: (Lp :: commas (o_types o) ++ [Rp]) ++ Comma :: o_specs o ++ Comma :: [])) (info o).
Proof.
  intros dis o H F. pose proof (types_both o H) as [TP TG].
  destruct (pairs_ok o H) as (A & B & C & D).
  pose proof H as (R1 & R2 & R3 & S1 & S2 & S3 & _).
  set (tl_ := Lp :: commas (o_types o) ++ [Rp]).
  destruct (parens_ok _ TP TG) as [LP LG]. fold tl_ in LP, LG.
  set (args := [o_ret o; tl_; o_specs o; []]).
  set (dis' := INFOS_SPECS :: dis).
  assert (Fl : free dis' list_names) by (apply free_cons; [|reflexivity]; intros s Hs; apply F; right; exact Hs).
  assert (Fs : free dis' strip_names) by (apply (free_sub _ _ _ Fl); reflexivity).
  set (X := invoke STRIP_PARENS tl_).
  assert (UX : unmarked dis' X) by (apply unmarked_invoke; [apply (free_in _ _ _ Fs); reflexivity|apply unmarked_plain, LP]).
  assert (GX : group true X) by (apply group_invoke, (group_weaken _ _ LG)).
  assert (BX : becomes dis' X (commas (map fst (pairs o)))).
  { rewrite B. unfold X. apply b_strip_plain; [exact Fs|exact LP|exact LG|].
    rewrite <- (app_nil_r (commas (o_types o))). unfold tl_. apply strips_paren. exact TG. }
  eapply (b_call dis INFOS_SPECS 3 true _ _ args args args
    (Lp :: o_ret o ++ Comma :: tl_ ++ Comma :: o_specs o ++ [Comma; Lp] ++ invoke MAKE_PARAM_LIST X ++ [Rp; Comma; Lp] ++ invoke FORWARD_ARGS X ++ [Rp; Rp])).
  - reflexivity.
  - apply F; left; reflexivity.
  - apply unmarked_plain. apply plain_app; split; [exact R1|]. apply plain_sym; [exact Logic.I|]. apply plain_app; split; [exact LP|].
    apply plain_sym; [exact Logic.I|]. apply plain_app; split; [exact S1|apply plain_comma].
  - apply (args_next 3 true [] (o_ret o)); [exact R2|reflexivity|].
    apply (args_next 3 true _ tl_); [exact LG|reflexivity|].
    apply (args_next 3 true _ (o_specs o)); [exact S2|reflexivity|].
    apply (args_va 3 [o_ret o; tl_; o_specs o] [] eq_refl). constructor.
  - reflexivity.
  - unfold args. do 3 (constructor; [apply becomes_ex, b_plain; assumption|]). constructor; [apply becomes_ex, b_nil|constructor].
  - unfold args, X, tl_, invoke, ident, call_item, I_, C_. cbn [subst subst_item app nth operand_toks].
    f_equal. repeat (rewrite <- app_assoc; cbn [app]). reflexivity.
  - replace (info o) with (Lp :: o_ret o ++ Comma :: tl_ ++ Comma :: o_specs o ++ [Comma; Lp] ++ commas (params 1 (o_types' o)) ++ [Rp; Comma; Lp]
                             ++ commas (forwards 1 (o_types' o)) ++ [Rp; Rp]).
    2:{ unfold info, parts. rewrite !commas_cons. fold tl_. change (commas [Lp :: commas (forwards 1 (o_types' o)) ++ [Rp]]) with (Lp :: commas (forwards 1 (o_types' o)) ++ [Rp]).
        repeat (rewrite <- app_assoc; cbn [app]). reflexivity. }
    rewrite <- C. rewrite <- (param_out (pairs o) D), <- (forward_out (pairs o) D).
    apply b_keep; [discriminate|]. apply b_app; [apply b_plain, R1|]. apply b_keep; [discriminate|]. apply b_app; [apply b_plain, LP|].
    apply b_keep; [discriminate|]. apply b_app; [apply b_plain, S1|]. apply b_app; [apply b_plain; do 2 (apply plain_sym; [exact Logic.I|]); apply plain_nil|].
    apply b_app; [apply b_param_list; assumption|]. apply b_app; [apply b_plain; do 3 (apply plain_sym; [exact Logic.I|]); apply plain_nil|].
    apply b_app; [apply b_forward_args; assumption|]. apply b_plain; do 2 (apply plain_sym; [exact Logic.I|]); apply plain_nil.
Qed.

Lemma source_args : forall o src, overload_ok o -> overload_source o src ->
  plain src /\ group true src /\
  exists args, args_from 2 true [] src args /\ arity 2 true args = Some [o_ret o; Lp :: commas (o_types o) ++ [Rp]; o_specs o].
Proof.
  intros o src H W. pose proof (types_both o H) as [TP TG]. pose proof H as (R1 & R2 & R3 & S1 & S2 & S3 & _).
  set (tl_ := Lp :: commas (o_types o) ++ [Rp]). destruct (parens_ok _ TP TG) as [LP LG]. fold tl_ in LP, LG.
  destruct W as [|N].
  - replace (o_ret o ++ [Comma; Lp] ++ commas (o_types o) ++ [Rp; Comma] ++ o_specs o) with (o_ret o ++ Comma :: tl_ ++ Comma :: o_specs o)
      by (unfold tl_; cbn [app]; rewrite <- app_assoc; reflexivity).
    split; [|split].
    + apply plain_app; split; [exact R1|]. apply plain_sym; [exact Logic.I|]. apply plain_app; split; [exact LP|].
      apply plain_sym; [exact Logic.I|exact S1].
    + apply group_app; [apply (group_weaken _ _ R2)|]. apply group_comma. apply group_app; [apply (group_weaken _ _ LG)|].
      apply group_comma, (group_weaken _ _ S2).
    + exists [o_ret o; tl_; o_specs o]. split; [|reflexivity].
      apply (args_next 2 true [] (o_ret o)); [exact R2|reflexivity|].
      apply (args_next 2 true _ tl_); [exact LG|reflexivity|].
      apply (args_va 2 [o_ret o; tl_] (o_specs o) eq_refl). apply (group_weaken _ _ S2).
  - change (o_ret o ++ [Comma; Lp] ++ commas (o_types o) ++ [Rp]) with (o_ret o ++ Comma :: tl_).
    split; [|split].
    + apply plain_app; split; [exact R1|]. apply plain_sym; [exact Logic.I|exact LP].
    + apply group_app; [apply (group_weaken _ _ R2)|]. apply group_comma. apply (group_weaken _ _ LG).
    + exists [o_ret o; tl_]. split; [|rewrite N; reflexivity].
      apply (args_next 2 true [] (o_ret o)); [exact R2|reflexivity|].
      apply (args_last 2 true [o_ret o] tl_ LG).
Qed.

Lemma b_add_overload : forall dis o src, overload_ok o -> overload_source o src -> free dis overload_names ->
  becomes dis (invoke ADD_OVERLOAD src) (info o).
Proof.
  intros dis o src H W F. destruct (source_args o src H W) as (P & G & args & A1 & A2).
  pose proof (types_both o H) as [TP TG]. pose proof H as (R1 & R2 & R3 & S1 & S2 & S3 & _).
  set (tl_ := Lp :: commas (o_types o) ++ [Rp]) in *. destruct (parens_ok _ TP TG) as [LP LG]. fold tl_ in LP, LG.
  set (raw := [o_ret o; tl_; o_specs o]) in *.
  set (rest := o_ret o ++ Comma :: tl_ ++ Comma :: o_specs o ++ Comma :: []).
  eapply (b_call dis ADD_OVERLOAD 2 true _ src args raw raw
    (invoke SELECT_INFOS (o_specs o ++ Comma :: [Id INFOS_SPECS false] ++ Comma :: [Id INFOS_BASIC false]) ++ Lp :: rest ++ [Rp])).
  - reflexivity.
  - apply F; left; reflexivity.
  - apply unmarked_plain, P.
  - exact A1.
  - exact A2.
  - unfold raw. repeat (constructor; [apply becomes_ex, b_plain; assumption|]). constructor.
  - unfold raw, rest, invoke, ident, call_item, I_, C_. cbn [subst subst_item app nth operand_toks].
    f_equal. repeat (rewrite <- app_assoc; cbn [app]). reflexivity.
  - set (dis' := ADD_OVERLOAD :: dis).
    assert (F' : free dis' (SELECT_INFOS :: INFOS_SPECS :: INFOS_BASIC :: list_names)).
    { apply free_cons; [|reflexivity]. intros s Hs. apply F. right. exact Hs. }
    assert (MS : mem INFOS_SPECS dis' = false) by (apply (free_in _ _ _ F'); reflexivity).
    assert (MB : mem INFOS_BASIC dis' = false) by (apply (free_in _ _ _ F'); reflexivity).
    set (sargs := [o_specs o; [Id INFOS_SPECS false]; [Id INFOS_BASIC false]]).
    eapply (b_call_name dis' SELECT_INFOS 2 true _ _ sargs sargs sargs INFOS_SPECS).
    + reflexivity.
    + apply F'; left; reflexivity.
    + apply unmarked_app; split; [apply unmarked_plain, S1|]. apply unmarked_other; [exact Logic.I|].
      apply unmarked_id; [exact MS|]. apply unmarked_other; [exact Logic.I|]. apply unmarked_id; [exact MB|apply unmarked_nil].
    + apply (args_next 2 true [] (o_specs o)); [exact S2|reflexivity|].
      apply (args_next 2 true _ [Id INFOS_SPECS false]); [apply group_id; constructor|reflexivity|].
      apply (args_va 2 [o_specs o; [Id INFOS_SPECS false]] [Id INFOS_BASIC false] eq_refl). apply group_id; constructor.
    + reflexivity.
    + unfold sargs. constructor; [apply becomes_ex, b_plain, S1|].
      constructor; [eapply ex_nocall; [reflexivity|exact MS|reflexivity|apply ex_nil]|].
      constructor; [eapply ex_nocall; [reflexivity|exact MB|reflexivity|apply ex_nil]|constructor].
    + reflexivity.
    + reflexivity.
    + discriminate.
    + exact MS.
    + apply b_infos_specs; [exact H|]. apply (free_sub _ _ _ F'). reflexivity.
Qed.

(** ** The short names *)

Lemma b_short : forall dis s g named va body rest y,
  lookup s = Some (Obj [I_ g]) -> mem s dis = false -> lookup g = Some (Fun named va body) -> g <> s ->
  becomes dis (invoke g rest) y -> mem g dis = false -> becomes dis (invoke s rest) y.
Proof.
  intros dis s g named va body rest y L M G N H Mg r o E.
  unfold invoke, ident. cbn [map app]. eapply ex_obj; [exact L|exact M|reflexivity|]. cbn [map app].
  specialize (H r o E). unfold invoke in H. cbn [map app] in H.
  destruct (ex_cross s dis g _ _ _ _ _ G N H) as [K|K]; [exact K|congruence].
Qed.

Definition short_names : list string := ["ADD_OVERLOAD"; "MOCK_METHOD"; "MOCK_OVERLOADED_METHOD"].

(** A list of overloads as the user writes them. *)
Lemma b_overloads : forall dis os srcs,
  Forall overload_ok os -> Forall2 overload_source os srcs -> free dis ("ADD_OVERLOAD" :: overload_names) ->
  becomes dis (commas (map (invoke "ADD_OVERLOAD") srcs)) (commas (map info os)) /\
  unmarked dis (commas (map (invoke "ADD_OVERLOAD") srcs)) /\ group true (commas (map (invoke "ADD_OVERLOAD") srcs)).
Proof.
  intros dis os srcs O S F.
  assert (M1 : mem "ADD_OVERLOAD" dis = false) by (apply F; left; reflexivity).
  assert (One : forall o src, overload_ok o -> overload_source o src ->
            becomes dis (invoke "ADD_OVERLOAD" src) (info o) /\ unmarked dis (invoke "ADD_OVERLOAD" src) /\ group true (invoke "ADD_OVERLOAD" src)).
  { intros o src H W. destruct (source_args o src H W) as (P & G & _). split; [|split].
    - eapply (b_short dis "ADD_OVERLOAD" ADD_OVERLOAD); [reflexivity|exact M1|reflexivity|discriminate| |apply F; right; left; reflexivity].
      apply (b_add_overload dis o src H W). intros s Hs; apply F; right; exact Hs.
    - apply unmarked_invoke; [exact M1|apply unmarked_plain, P].
    - apply group_invoke, G. }
  induction S as [|o src os srcs W S IH].
  - split; [apply b_nil|]. split; [apply unmarked_nil|constructor].
  - inversion O as [|o' os' Ho Hos]; subst. destruct (One o src Ho W) as (A & B & C). destruct (IH Hos) as (D & E & G).
    destruct S as [|o2 src2 os2 srcs2 W2 S2].
    + split; [exact A|]. split; [exact B|exact C].
    + cbn [map] in *. rewrite !commas_cons. split; [|split].
      * apply b_app; [exact A|]. apply b_keep; [discriminate|exact D].
      * apply unmarked_app; split; [exact B|]. apply unmarked_other; [exact Logic.I|exact E].
      * apply group_app; [exact C|]. apply group_comma, G.
Qed.

(** ** MOCK_METHOD *)

Lemma b_mock_method : forall dis fn o src,
  lookup fn = None -> lookup (String.append fn "_") = None -> overload_ok o -> overload_source o src ->
  free dis (MOCK_METHOD :: mock_names ++ overload_names) ->
  becomes dis (invoke MOCK_METHOD (ident fn :: Comma :: src)) (class_text fn [o]).
Proof.
  intros dis fn o src Nfn Nfn_ H W F.
  destruct (source_args o src H W) as (P & G & _).
  pose proof (types_both o H) as [TP TG]. pose proof H as (R1 & R2 & R3 & S1 & S2 & S3 & _).
  set (tl_ := Lp :: commas (o_types o) ++ [Rp]). destruct (parens_ok _ TP TG) as [LP LG]. fold tl_ in LP, LG.
  set (a1 := [ident fn]).
  assert (Pa1 : plain a1) by (apply plain_ident; [exact Nfn|apply plain_nil]).
  set (raw := [a1; o_ret o; tl_; o_specs o]).
  assert (A : exists args, args_from 3 true [] (a1 ++ Comma :: src) args /\ arity 3 true args = Some raw).
  { destruct W as [|N].
    - replace (o_ret o ++ [Comma; Lp] ++ commas (o_types o) ++ [Rp; Comma] ++ o_specs o) with (o_ret o ++ Comma :: tl_ ++ Comma :: o_specs o)
        by (unfold tl_; cbn [app]; rewrite <- app_assoc; reflexivity).
      exists raw. split; [|reflexivity].
      apply (args_next 3 true [] a1); [apply group_id; constructor|reflexivity|].
      apply (args_next 3 true _ (o_ret o)); [exact R2|reflexivity|].
      apply (args_next 3 true _ tl_); [exact LG|reflexivity|].
      apply (args_va 3 [a1; o_ret o; tl_] (o_specs o) eq_refl). apply (group_weaken _ _ S2).
    - change (o_ret o ++ [Comma; Lp] ++ commas (o_types o) ++ [Rp]) with (o_ret o ++ Comma :: tl_).
      exists [a1; o_ret o; tl_]. split; [|unfold raw; rewrite N; reflexivity].
      apply (args_next 3 true [] a1); [apply group_id; constructor|reflexivity|].
      apply (args_next 3 true _ (o_ret o)); [exact R2|reflexivity|].
      apply (args_last 3 true [a1; o_ret o] tl_ LG). }
  destruct A as (args & A1 & A2).
  set (src' := if is_nil (o_specs o) then o_ret o ++ Comma :: tl_ else o_ret o ++ Comma :: tl_ ++ Comma :: o_specs o).
  assert (W' : overload_source o src').
  { unfold src'. destruct (o_specs o) as [|t l] eqn:E; cbn [is_nil].
    - apply source_basic, E.
    - pose proof (source_specs o) as K. rewrite E in K. cbn [app] in K.
      unfold tl_. cbn [app]. rewrite <- app_assoc. exact K. }
  destruct (source_args o src' H W') as (P' & G' & _).
  eapply (b_call dis MOCK_METHOD 3 true _ (a1 ++ Comma :: src) args raw raw (invoke MOCK_OVERLOADED_METHOD (ident fn :: Comma :: invoke ADD_OVERLOAD src'))).
  - reflexivity.
  - apply F; left; reflexivity.
  - apply unmarked_plain. apply plain_app; split; [exact Pa1|]. apply plain_sym; [exact Logic.I|exact P].
  - exact A1.
  - exact A2.
  - unfold raw. repeat (constructor; [apply becomes_ex, b_plain; assumption|]). constructor.
  - unfold raw, a1, src', invoke, ident, call_item, I_, C_. cbn [nth andb].
    destruct (o_specs o) as [|t l]; cbn [is_nil negb]; cbn [subst subst_item app nth operand_toks];
      f_equal; rewrite ?app_nil_r; repeat (rewrite <- app_assoc; cbn [app]); rewrite ?app_nil_r; reflexivity.
  - set (dis' := MOCK_METHOD :: dis).
    assert (F' : free dis' (mock_names ++ overload_names)).
    { apply free_cons; [|reflexivity]. intros s Hs. apply F. right. exact Hs. }
    apply b_mock_overloaded; try assumption.
    + intros s Hs. apply F', in_or_app. left. exact Hs.
    + apply unmarked_invoke; [|apply unmarked_plain, P']. apply (free_in _ _ _ F'); reflexivity.
    + apply group_invoke, G'.
    + apply b_add_overload; [exact H|exact W'|]. intros s Hs. apply F', in_or_app. right. exact Hs.
    + constructor; [exact H|constructor].
    + simpl. lia.
Qed.

Lemma free_nil : forall names, free [] names.
Proof. intros names s _. reflexivity. Qed.

Lemma becomes_expands : forall x y, becomes [] x y -> expands x y.
Proof. intros x y H. apply becomes_ex in H. exact H. Qed.
