(** * MacroLists: the lists of parameters, forwards, signatures and methods, and the public macros. *)

From Verif Require Import Base Macro MacroSpec MacroLemmas MacroProofs.
Local Open Scope string_scope.
Local Open Scope list_scope.

(** ** Small facts *)

Lemma look_is : forall k, lookup (is_ k) = None.
Proof. destruct k; reflexivity. Qed.
Lemma look_arg : forall k, lookup (arg_name k) = None.
Proof. destruct k; reflexivity. Qed.

Lemma is_succ : forall k, String.append (is_ k) "i" = is_ (S k).
Proof. induction k as [|k IH]; [reflexivity|]. simpl in *. rewrite IH. reflexivity. Qed.

Definition seq_i (k : nat) : list tok := [ident (is_ k)].
Lemma seq_i_paste : forall k, paste (seq_i k) [ident "i"] = Some (seq_i (S k)).
Proof. intros k. unfold seq_i, ident. simpl. rewrite is_succ. reflexivity. Qed.
Lemma seq_i_plain : forall k, plain (seq_i k).
Proof. intros k. apply plain_ident; [apply look_is|apply plain_nil]. Qed.
Lemma seq_i_group : forall k, group false (seq_i k).
Proof. intros k. apply group_id. constructor. Qed.

Lemma strips_nil : strips [] [].
Proof. apply strips_not. discriminate. Qed.

Lemma group_nil' : forall c, group c [].
Proof. constructor. Qed.

Lemma b_comma : forall dis, free dis inner2 -> becomes dis (invoke COMMA_DELIMITER []) [Comma].
Proof.
  intros dis F. eapply (b_call dis COMMA_DELIMITER 0 false _ [] [[]] [] [] [Comma]).
  - reflexivity.
  - apply (free_in _ _ _ F); reflexivity.
  - apply unmarked_nil.
  - apply (args_last 0 false [] []). constructor.
  - reflexivity.
  - constructor.
  - reflexivity.
  - apply b_plain, plain_comma.
Qed.

Lemma b_nodelim : forall dis, free dis inner2 -> becomes dis (invoke NO_DELIMITER []) [].
Proof.
  intros dis F. eapply (b_call dis NO_DELIMITER 0 false _ [] [[]] [] [] []).
  - reflexivity.
  - apply (free_in _ _ _ F); reflexivity.
  - apply unmarked_nil.
  - apply (args_last 0 false [] []). constructor.
  - reflexivity.
  - constructor.
  - reflexivity.
  - apply b_nil.
Qed.

Lemma b_identity : forall dis a, free dis inner2 -> plain a -> group true a -> becomes dis (invoke IDENTITY a) a.
Proof.
  intros dis a F P G. eapply (b_call dis IDENTITY 0 true _ a [a] [a] [a] a).
  - reflexivity.
  - apply (free_in _ _ _ F); reflexivity.
  - apply unmarked_plain, P.
  - apply (args_va 0 [] a eq_refl G).
  - reflexivity.
  - constructor; [apply becomes_ex, b_plain, P|constructor].
  - simpl. rewrite app_nil_r. reflexivity.
  - apply b_plain, P.
Qed.

(** ** Parameters *)

(** A type as written and without its parentheses. *)
Definition ty : Type := (list tok * list tok)%type.
Definition ty_ok (t : ty) : Prop := type_toks (fst t) /\ strips (fst t) (snd t).
Definition E_param (k : nat) (t : ty) : list tok := snd t ++ [ident (arg_name k)].
Definition E_forward (k : nat) (t : ty) : list tok := forward k (snd t).

Lemma ty_stripped : forall t, ty_ok t -> plain (snd t) /\ group true (snd t).
Proof. intros t [[N [P G]] S]. split; [apply (strips_plain _ _ P S)|apply (strips_group _ _ G S)]. Qed.

Lemma E_param_plain : forall k t, ty_ok t -> plain (E_param k t).
Proof. intros k t H. apply ty_stripped in H as [P G]. apply plain_app; split; [exact P|apply plain_ident; [apply look_arg|apply plain_nil]]. Qed.
Lemma E_param_group : forall k t, ty_ok t -> group true (E_param k t).
Proof. intros k t H. apply ty_stripped in H as [P G]. apply group_app; [exact G|apply group_id; constructor]. Qed.

Lemma E_forward_plain : forall k t, ty_ok t -> plain (E_forward k t).
Proof.
  intros k t H. apply ty_stripped in H as [P G]. unfold E_forward, forward. cbn [app].
  repeat first [apply plain_sym; [exact Logic.I|] | apply plain_ident; [reflexivity|]].
  apply plain_app; split; [exact P|].
  repeat first [apply plain_sym; [exact Logic.I|] | apply plain_ident; [apply look_arg|]]. apply plain_nil.
Qed.
Lemma E_forward_group : forall k t, ty_ok t -> group true (E_forward k t).
Proof.
  intros k t H. apply ty_stripped in H as [P G]. unfold E_forward, forward. cbn [app].
  repeat first [apply group_sym | apply group_id].
  apply group_app; [exact G|]. apply group_sym. apply (group_parens true [ident (arg_name k)]). apply group_id. constructor.
Qed.

Lemma strip_free : forall dis s, free dis inner2 -> mem s strip_names = false -> free (s :: dis) strip_names.
Proof. intros dis s F M. apply free_cons; [|exact M]. apply (free_sub _ _ _ F). reflexivity. Qed.

Lemma b_make_param : forall dis k t, ty_ok t -> free dis inner2 ->
  becomes dis (invoke MAKE_PARAM (seq_i k ++ Comma :: [] ++ Comma :: fst t)) (E_param k t).
Proof.
  intros dis k t [[N [P G]] S] F. set (args := [seq_i k; []; fst t]).
  eapply (b_call dis MAKE_PARAM 3 false _ _ args args args (invoke STRIP_PARENS (fst t) ++ [ident (arg_name k)])).
  - reflexivity.
  - apply (free_in _ _ _ F); reflexivity.
  - apply unmarked_plain. apply plain_app; split; [apply seq_i_plain|]. cbn [app]. do 2 (apply plain_sym; [exact Logic.I|]). exact P.
  - apply (args_next 3 false [] (seq_i k)); [apply seq_i_group|reflexivity|].
    apply (args_next 3 false _ []); [constructor|reflexivity|].
    apply (args_last 3 false [seq_i k; []] (fst t) G).
  - reflexivity.
  - unfold args. constructor; [apply becomes_ex, b_plain, seq_i_plain|]. constructor; [apply becomes_ex, b_nil|].
    constructor; [apply becomes_ex, b_plain, P|constructor].
  - unfold args, seq_i, invoke, ident, call_item, I_. cbn [subst subst_item app nth operand_toks paste paste_tok option_map].
    f_equal. repeat (rewrite <- app_assoc; cbn [app]). reflexivity.
  - apply b_app; [|apply b_plain, plain_ident; [apply look_arg|apply plain_nil]].
    apply b_strip_plain; [apply strip_free; [exact F|reflexivity]|exact P|exact G|exact S].
Qed.

Lemma b_forward_arg : forall dis k t, ty_ok t -> free dis inner2 ->
  becomes dis (invoke FORWARD_ARG (seq_i k ++ Comma :: [] ++ Comma :: fst t)) (E_forward k t).
Proof.
  intros dis k t [[N [P G]] S] F. set (args := [seq_i k; []; fst t]).
  set (pre := [Sym "::"; ident "std"; Sym "::"; ident "forward"; Sym "<"; Sym "::"; ident "std"; Sym "::"; ident "add_rvalue_reference_t"; Sym "<"]).
  set (post := [Sym ">>"; Lp; ident (arg_name k); Rp]).
  eapply (b_call dis FORWARD_ARG 3 false _ _ args args args (pre ++ invoke STRIP_PARENS (fst t) ++ post)).
  - reflexivity.
  - apply (free_in _ _ _ F); reflexivity.
  - apply unmarked_plain. apply plain_app; split; [apply seq_i_plain|]. cbn [app]. do 2 (apply plain_sym; [exact Logic.I|]). exact P.
  - apply (args_next 3 false [] (seq_i k)); [apply seq_i_group|reflexivity|].
    apply (args_next 3 false _ []); [constructor|reflexivity|].
    apply (args_last 3 false [seq_i k; []] (fst t) G).
  - reflexivity.
  - unfold args. constructor; [apply becomes_ex, b_plain, seq_i_plain|]. constructor; [apply becomes_ex, b_nil|].
    constructor; [apply becomes_ex, b_plain, P|constructor].
  - unfold args, seq_i, invoke, ident, call_item, I_, pre, post. cbn [subst subst_item app nth operand_toks paste paste_tok option_map].
    f_equal. repeat (rewrite <- app_assoc; cbn [app]). reflexivity.
  - unfold E_forward, forward. fold pre post. apply b_app.
    + apply b_plain. unfold pre. repeat first [apply plain_sym; [exact Logic.I|] | apply plain_ident; [reflexivity|]]. apply plain_nil.
    + apply b_app.
      * apply b_strip_plain; [apply strip_free; [exact F|reflexivity]|exact P|exact G|exact S].
      * apply b_plain. unfold post. repeat first [apply plain_sym; [exact Logic.I|] | apply plain_ident; [apply look_arg|]]. apply plain_nil.
Qed.

(** The result of a for-each loop with the given macro over types. *)
Definition types_out (M : string) (E : nat -> ty -> list tok) (l : list ty) : list tok :=
  st_toks M COMMA_DELIMITER IDENTITY [ident "i"] seq_i [] fst (it [Comma] E 86 ([], 1, l)).

Lemma b_each_param : forall dis l, free dis for_each_names -> Forall ty_ok l ->
  becomes dis (invoke FOR_EACH_EXT (Id MAKE_PARAM false :: Comma :: [ident "i"] ++ Comma :: Id COMMA_DELIMITER false :: Comma
                 :: Id IDENTITY false :: Comma :: [] ++ Comma :: commas (map fst l)))
    (types_out MAKE_PARAM E_param l).
Proof.
  intros dis l F G. unfold types_out.
  eapply (b_for_each MAKE_PARAM COMMA_DELIMITER IDENTITY) with (good := ty_ok) (B' := []) (proj := fst); try reflexivity; try assumption.
  - apply seq_i_paste.
  - apply (seq_i_plain 1).
  - apply (seq_i_group 1).
  - apply seq_i_plain.
  - apply seq_i_group.
  - apply plain_nil.
  - constructor.
  - apply strips_nil.
  - apply plain_comma.
  - apply b_comma.
  - intros t [[N _] _]. exact N.
  - intros t [[_ [P _]] _]. exact P.
  - intros t [[_ [_ Gt]] _]. exact Gt.
  - apply E_param_plain.
  - apply E_param_group.
  - apply group_comma. constructor.
  - intros d t [[_ [P Gt]] _] Fd. apply b_identity; [exact Fd|exact P|apply (group_weaken _ _ Gt)].
  - intros d k t T Fd. apply b_make_param; assumption.
Qed.

Lemma b_each_forward : forall dis l, free dis for_each_names -> Forall ty_ok l ->
  becomes dis (invoke FOR_EACH_EXT (Id FORWARD_ARG false :: Comma :: [ident "i"] ++ Comma :: Id COMMA_DELIMITER false :: Comma
                 :: Id IDENTITY false :: Comma :: [] ++ Comma :: commas (map fst l)))
    (types_out FORWARD_ARG E_forward l).
Proof.
  intros dis l F G. unfold types_out.
  eapply (b_for_each FORWARD_ARG COMMA_DELIMITER IDENTITY) with (good := ty_ok) (B' := []) (proj := fst); try reflexivity; try assumption.
  - apply seq_i_paste.
  - apply (seq_i_plain 1).
  - apply (seq_i_group 1).
  - apply seq_i_plain.
  - apply seq_i_group.
  - apply plain_nil.
  - constructor.
  - apply strips_nil.
  - apply plain_comma.
  - apply b_comma.
  - intros t [[N _] _]. exact N.
  - intros t [[_ [P _]] _]. exact P.
  - intros t [[_ [_ Gt]] _]. exact Gt.
  - apply E_forward_plain.
  - apply E_forward_group.
  - apply group_comma. constructor.
  - intros d t [[_ [P Gt]] _] Fd. apply b_identity; [exact Fd|exact P|apply (group_weaken _ _ Gt)].
  - intros d k t T Fd. apply b_forward_arg; assumption.
Qed.

Lemma types_plain : forall l, Forall ty_ok l -> plain (commas (map fst l)).
Proof.
  intros l F. apply separate_plain; [apply plain_comma|]. apply Forall_map. eapply Forall_impl; [|exact F].
  intros t [[_ [P _]] _]. exact P.
Qed.
Lemma types_group : forall l, Forall ty_ok l -> group true (commas (map fst l)).
Proof.
  intros l F. apply commas_group. apply Forall_map. eapply Forall_impl; [|exact F].
  intros t [[_ [_ G]] _]. exact G.
Qed.

Definition list_names : list string := MAKE_PARAM_LIST :: FORWARD_ARGS :: for_each_names.

Lemma b_param_list : forall dis X l,
  free dis list_names -> unmarked dis X -> group true X -> becomes dis X (commas (map fst l)) -> Forall ty_ok l ->
  becomes dis (invoke MAKE_PARAM_LIST X) (types_out MAKE_PARAM E_param l).
Proof.
  intros dis X l F U G H L.
  eapply (b_call dis MAKE_PARAM_LIST 0 true _ X [X] [X] [commas (map fst l)]).
  - reflexivity.
  - apply F; left; reflexivity.
  - exact U.
  - apply (args_va 0 [] X eq_refl G).
  - reflexivity.
  - constructor; [apply becomes_ex, H|constructor].
  - unfold for_each_item, call_item, I_, C_. cbn [subst subst_item app nth operand_toks]. reflexivity.
  - change (becomes (MAKE_PARAM_LIST :: dis) (invoke FOR_EACH_EXT (Id MAKE_PARAM false :: Comma :: [ident "i"] ++ Comma :: Id COMMA_DELIMITER false :: Comma
                 :: Id IDENTITY false :: Comma :: [] ++ Comma :: commas (map fst l))) (types_out MAKE_PARAM E_param l)).
    apply b_each_param; [|exact L]. apply free_cons; [|reflexivity]. intros s Hs. apply F. do 2 right. exact Hs.
Qed.

Lemma b_forward_args : forall dis X l,
  free dis list_names -> unmarked dis X -> group true X -> becomes dis X (commas (map fst l)) -> Forall ty_ok l ->
  becomes dis (invoke FORWARD_ARGS X) (types_out FORWARD_ARG E_forward l).
Proof.
  intros dis X l F U G H L.
  eapply (b_call dis FORWARD_ARGS 0 true _ X [X] [X] [commas (map fst l)]).
  - reflexivity.
  - apply F; right; left; reflexivity.
  - exact U.
  - apply (args_va 0 [] X eq_refl G).
  - reflexivity.
  - constructor; [apply becomes_ex, H|constructor].
  - unfold for_each_item, call_item, I_, C_. cbn [subst subst_item app nth operand_toks]. reflexivity.
  - change (becomes (FORWARD_ARGS :: dis) (invoke FOR_EACH_EXT (Id FORWARD_ARG false :: Comma :: [ident "i"] ++ Comma :: Id COMMA_DELIMITER false :: Comma
                 :: Id IDENTITY false :: Comma :: [] ++ Comma :: commas (map fst l))) (types_out FORWARD_ARG E_forward l)).
    apply b_each_forward; [|exact L]. apply free_cons; [|reflexivity]. intros s Hs. apply F. do 2 right. exact Hs.
Qed.

Lemma elems_param : forall l k, elems E_param k l = params k (map snd l).
Proof. induction l as [|t l IH]; intros k; simpl; [reflexivity|]. rewrite IH. reflexivity. Qed.
Lemma elems_forward : forall l k, elems E_forward k l = forwards k (map snd l).
Proof. induction l as [|t l IH]; intros k; simpl; [reflexivity|]. rewrite IH. reflexivity. Qed.

Lemma param_out : forall l, length l <= 86 -> types_out MAKE_PARAM E_param l = commas (params 1 (map snd l)).
Proof. intros l L. unfold types_out. rewrite it_all by exact L. rewrite elems_param. reflexivity. Qed.
Lemma forward_out : forall l, length l <= 86 -> types_out FORWARD_ARG E_forward l = commas (forwards 1 (map snd l)).
Proof. intros l L. unfold types_out. rewrite it_all by exact L. rewrite elems_forward. reflexivity. Qed.

(** ** Overloads *)

Definition pairs (o : overload) : list ty := combine (o_types o) (o_types' o).

Lemma pairs_ok : forall o, overload_ok o -> Forall ty_ok (pairs o) /\ map fst (pairs o) = o_types o /\ map snd (pairs o) = o_types' o /\ length (pairs o) <= 86.
Proof.
  intros o (_ & _ & _ & _ & _ & _ & T & S & L). unfold pairs.
  assert (LL : length (combine (o_types o) (o_types' o)) = length (o_types o)).
  { clear - S. induction S as [|a b la lb _ _ IH]; [reflexivity|]. simpl. f_equal. exact IH. }
  split; [|split; [|split; [|rewrite <- LL in L; exact L]]].
  - clear L LL. revert T. induction S as [|a b la lb S SS IH]; intros T; [constructor|].
    inversion T; subst. constructor; [split; assumption|apply IH; assumption].
  - clear - S. induction S; simpl; [reflexivity|]. f_equal. assumption.
  - clear - S. induction S; simpl; [reflexivity|]. f_equal. assumption.
Qed.

(** The five parts by which an overload is represented. *)
Definition parts (o : overload) : list (list tok) :=
  [o_ret o; Lp :: commas (o_types o) ++ [Rp]; o_specs o;
   Lp :: commas (params 1 (o_types' o)) ++ [Rp]; Lp :: commas (forwards 1 (o_types' o)) ++ [Rp]].
Definition info (o : overload) : list tok := Lp :: commas (parts o) ++ [Rp].

Lemma params_ok : forall l k, Forall ty_ok l ->
  Forall (fun x => plain x /\ group true x) (params k (map snd l)) /\ Forall (fun x => plain x /\ group true x) (forwards k (map snd l)).
Proof.
  induction l as [|t l IH]; intros k F; [split; constructor|]. inversion F; subst. destruct (IH (S k) H2) as [A B].
  split; simpl; constructor; try assumption.
  - split; [apply (E_param_plain k t H1)|apply (E_param_group k t H1)].
  - split; [apply (E_forward_plain k t H1)|apply (E_forward_group k t H1)].
Qed.

Lemma separate_group : forall d l, group true d -> Forall (group true) l -> group true (separate d l).
Proof.
  intros d l P F. induction F as [|x l G F IH]; [constructor|].
  destruct l as [|y l]; [exact G|].
  apply group_app; [exact G|]. apply group_app; [exact P|exact IH].
Qed.

Lemma commas_both : forall l, Forall (fun x => plain x /\ group true x) l -> plain (commas l) /\ group true (commas l).
Proof.
  intros l F. split.
  - apply separate_plain; [apply plain_comma|]. eapply Forall_impl; [|exact F]. intros x H; apply H.
  - apply separate_group; [apply group_comma; constructor|]. eapply Forall_impl; [|exact F]. intros x H; apply H.
Qed.

Lemma parens_ok : forall x, plain x -> group true x -> plain (Lp :: x ++ [Rp]) /\ group false (Lp :: x ++ [Rp]).
Proof.
  intros x P G. split; [|apply group_parens, G].
  apply plain_sym; [exact Logic.I|]. apply plain_app; split; [exact P|]. apply plain_sym; [exact Logic.I|apply plain_nil].
Qed.

Lemma types_both : forall o, overload_ok o -> plain (commas (o_types o)) /\ group true (commas (o_types o)).
Proof.
  intros o H. destruct (pairs_ok o H) as (A & B & _). rewrite <- B. split; [apply types_plain, A|apply types_group, A].
Qed.

Lemma parts_ok : forall o, overload_ok o -> Forall (fun x => plain x /\ group false x) (parts o).
Proof.
  intros o H. pose proof (types_both o H) as [TP TG]. destruct (pairs_ok o H) as (A & _ & B & _).
  destruct (params_ok (pairs o) 1 A) as [C D]. rewrite B in C, D. apply commas_both in C as [CP CG]. apply commas_both in D as [DP DG].
  destruct H as (R1 & R2 & _ & S1 & S2 & _).
  unfold parts. constructor; [split; assumption|]. constructor; [apply parens_ok; assumption|]. constructor; [split; assumption|].
  constructor; [apply parens_ok; assumption|]. constructor; [apply parens_ok; assumption|constructor].
Qed.

Lemma parts_both : forall o, overload_ok o -> plain (commas (parts o)) /\ group true (commas (parts o)).
Proof.
  intros o H. pose proof (parts_ok o H) as F. apply commas_both. eapply Forall_impl; [|exact F].
  intros x [P G]. split; [exact P|apply (group_weaken _ _ G)].
Qed.
Lemma info_plain : forall o, overload_ok o -> plain (info o).
Proof. intros o H. destruct (parts_both o H) as [P G]. apply parens_ok; assumption. Qed.
Lemma info_group : forall o, overload_ok o -> group false (info o).
Proof. intros o H. destruct (parts_both o H) as [P G]. apply parens_ok; assumption. Qed.

(** ** Signatures *)

Definition E_signature (k : nat) (o : overload) : list tok := raw_signature_text o.

Lemma signature_both : forall o, overload_ok o -> plain (raw_signature_text o) /\ group false (raw_signature_text o).
Proof.
  intros o H. pose proof (types_both o H) as [TP TG]. destruct H as (R1 & R2 & _ & S1 & S2 & _).
  unfold raw_signature_text. split.
  - apply plain_app; split; [exact R1|]. apply plain_sym; [exact Logic.I|]. apply plain_app; split; [exact TP|].
    apply plain_sym; [exact Logic.I|exact S1].
  - apply group_app; [exact R2|]. apply group_paren; assumption.
Qed.

Lemma b_signature : forall dis o, overload_ok o -> free dis inner2 ->
  becomes dis (invoke MAKE_SIGNATURE ([] ++ Comma :: [] ++ Comma :: commas (parts o))) (raw_signature_text o).
Proof.
  intros dis o H F. pose proof (parts_ok o H) as Ps. pose proof (parts_both o H) as [PP _].
  pose proof (types_both o H) as [TP TG].
  unfold parts in Ps. set (pl := Lp :: commas (params 1 (o_types' o)) ++ [Rp]) in *. set (fl := Lp :: commas (forwards 1 (o_types' o)) ++ [Rp]) in *.
  set (tl_ := Lp :: commas (o_types o) ++ [Rp]) in *.
  inversion Ps as [|? ? [P1 G1] Ps1]; subst. inversion Ps1 as [|? ? [P2 G2] Ps2]; subst. inversion Ps2 as [|? ? [P3 G3] Ps3]; subst.
  inversion Ps3 as [|? ? [P4 G4] Ps4]; subst. inversion Ps4 as [|? ? [P5 G5] Ps5]; subst. clear Ps Ps1 Ps2 Ps3 Ps4 Ps5.
  set (args := [[]; []; o_ret o; tl_; o_specs o; pl ++ Comma :: fl]).
  eapply (b_call dis MAKE_SIGNATURE 5 true _ _ args args args (raw_signature_text o)).
  - reflexivity.
  - apply (free_in _ _ _ F); reflexivity.
  - apply unmarked_plain. cbn [app]. do 2 (apply plain_sym; [exact Logic.I|]). exact PP.
  - apply (args_next 5 true [] []); [constructor|reflexivity|].
    apply (args_next 5 true _ []); [constructor|reflexivity|].
    unfold parts. rewrite !commas_cons. fold pl fl tl_.
    apply (args_next 5 true _ (o_ret o)); [exact G1|reflexivity|].
    apply (args_next 5 true _ tl_); [exact G2|reflexivity|].
    apply (args_next 5 true _ (o_specs o)); [exact G3|reflexivity|].
    apply (args_va 5 [[]; []; o_ret o; tl_; o_specs o] (pl ++ Comma :: fl) eq_refl).
    apply group_app; [apply (group_weaken _ _ G4)|]. apply group_comma, (group_weaken _ _ G5).
  - reflexivity.
  - unfold args. do 2 (constructor; [apply becomes_ex, b_nil|]). do 3 (constructor; [apply becomes_ex, b_plain; assumption|]).
    constructor; [|constructor]. apply becomes_ex, b_plain. apply plain_app; split; [exact P4|]. apply plain_sym; [exact Logic.I|exact P5].
  - unfold args, tl_, raw_signature_text. cbn [subst subst_item app nth]. rewrite app_nil_r, <- app_assoc. reflexivity.
  - apply b_plain. apply signature_both, H.
Qed.

Definition sigs_out (l : list overload) : list tok :=
  st_toks MAKE_SIGNATURE COMMA_DELIMITER STRIP_PARENS [] (fun _ => []) [] info (it [Comma] E_signature 86 ([], 1, l)).

Lemma b_strip_info : forall dis o, overload_ok o -> free dis inner2 -> becomes dis (invoke STRIP_PARENS (info o)) (commas (parts o)).
Proof.
  intros dis o H F. apply b_strip_plain.
  - apply (free_sub _ _ _ F). reflexivity.
  - apply info_plain, H.
  - apply info_group, H.
  - rewrite <- (app_nil_r (commas (parts o))). unfold info. apply strips_paren. apply (parts_both o H).
Qed.

Lemma b_each_signature : forall dis l, free dis for_each_names -> Forall overload_ok l ->
  becomes dis (invoke FOR_EACH_EXT (Id MAKE_SIGNATURE false :: Comma :: [] ++ Comma :: Id COMMA_DELIMITER false :: Comma
                 :: Id STRIP_PARENS false :: Comma :: [] ++ Comma :: commas (map info l)))
    (sigs_out l).
Proof.
  intros dis l F G. unfold sigs_out.
  eapply (b_for_each MAKE_SIGNATURE COMMA_DELIMITER STRIP_PARENS) with (good := overload_ok) (B' := []) (proj := fun o => commas (parts o));
    try reflexivity; try assumption.
  - apply plain_nil.
  - constructor.
  - intros k. apply plain_nil.
  - intros k. constructor.
  - apply plain_nil.
  - constructor.
  - apply strips_nil.
  - apply plain_comma.
  - apply b_comma.
  - intros o H. discriminate.
  - apply info_plain.
  - apply info_group.
  - intros k o H. apply signature_both, H.
  - intros k o H. apply (group_weaken _ _ (proj2 (signature_both o H))).
  - apply group_comma. constructor.
  - intros d o H Fd. apply b_strip_info; assumption.
  - intros d k o H Fd. apply b_signature; assumption.
Qed.

Definition sig_names : list string := MAKE_SIGNATURE_LIST :: for_each_names.

Lemma b_signature_list : forall dis X l,
  free dis sig_names -> unmarked dis X -> group true X -> becomes dis X (commas (map info l)) -> Forall overload_ok l ->
  becomes dis (invoke MAKE_SIGNATURE_LIST X) (sigs_out l).
Proof.
  intros dis X l F U G H L.
  eapply (b_call dis MAKE_SIGNATURE_LIST 0 true _ X [X] [X] [commas (map info l)]).
  - reflexivity.
  - apply F; left; reflexivity.
  - exact U.
  - apply (args_va 0 [] X eq_refl G).
  - reflexivity.
  - constructor; [apply becomes_ex, H|constructor].
  - unfold for_each_item, call_item, I_, C_. cbn [subst subst_item app nth operand_toks]. reflexivity.
  - change (becomes (MAKE_SIGNATURE_LIST :: dis) (invoke FOR_EACH_EXT (Id MAKE_SIGNATURE false :: Comma :: [] ++ Comma :: Id COMMA_DELIMITER false :: Comma
                 :: Id STRIP_PARENS false :: Comma :: [] ++ Comma :: commas (map info l))) (sigs_out l)).
    apply b_each_signature; [|exact L]. apply free_cons; [|reflexivity]. intros s Hs. apply F. right. exact Hs.
Qed.

Lemma elems_signature : forall l k, elems E_signature k l = map raw_signature_text l.
Proof. induction l as [|o l IH]; intros k; simpl; [reflexivity|]. rewrite IH. reflexivity. Qed.
Lemma sigs_out_short : forall l, length l <= 86 -> sigs_out l = commas (map raw_signature_text l).
Proof. intros l L. unfold sigs_out. rewrite it_all by exact L. rewrite elems_signature. reflexivity. Qed.
