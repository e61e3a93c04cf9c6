(** * MacroProofs: the for-each machinery and the public macros. *)

From Verif Require Import Base Macro MacroSpec MacroLemmas.
Local Open Scope list_scope.

Lemma group_app : forall c a b, group c a -> group c b -> group c (a ++ b).
Proof.
  intros c a b G H. induction G as [c|c t l N1 N2 NC G IH|c a l Ga IHa G IH]; [exact H| |].
  - simpl. apply group_tok; auto.
  - simpl. rewrite <- app_assoc. simpl. apply group_paren; auto.
Qed.

Lemma group_weaken : forall c a, group c a -> group true a.
Proof.
  intros c a G. induction G as [c|c t l N1 N2 NC G IH|c a l Ga IHa G IH]; [constructor| |].
  - apply group_tok; auto.
  - apply group_paren; auto.
Qed.

Lemma group_parens : forall c a, group true a -> group c (Lp :: a ++ [Rp]).
Proof. intros c a G. apply group_paren; [exact G|constructor]. Qed.

Lemma group_id : forall c s u l, group c l -> group c (Id s u :: l).
Proof. intros. apply group_tok; [discriminate|discriminate|discriminate|assumption]. Qed.

Lemma group_sym : forall c s l, group c l -> group c (Sym s :: l).
Proof. intros. apply group_tok; [discriminate|discriminate|discriminate|assumption]. Qed.

Lemma group_comma : forall l, group true l -> group true (Comma :: l).
Proof. intros. apply group_tok; [discriminate|discriminate|reflexivity|assumption]. Qed.

Lemma group_invoke : forall c s a, group true a -> group c (invoke s a).
Proof. intros c s a G. unfold invoke. apply group_id, group_parens, G. Qed.

Lemma unmarked_id : forall dis s l, mem s dis = false -> unmarked dis l -> unmarked dis (Id s false :: l).
Proof. intros dis s l M U. apply unmarked_cons. split; [apply mark_free, M|exact U]. Qed.

Lemma unmarked_other : forall dis t l, match t with Id _ false => False | _ => True end -> unmarked dis l -> unmarked dis (t :: l).
Proof. intros dis t l N U. apply unmarked_cons. split; [|exact U]. destruct t as [s [|]| | | |]; try reflexivity. destruct N. Qed.

Lemma unmarked_invoke : forall dis s a, mem s dis = false -> unmarked dis a -> unmarked dis (invoke s a).
Proof.
  intros dis s a M U. unfold invoke, ident. apply unmarked_id; [exact M|]. apply unmarked_other; [exact I|].
  apply unmarked_app. split; [exact U|]. apply unmarked_other; [exact I|apply unmarked_nil].
Qed.

(** ** STRIP_PARENS *)

Definition STRIPPED_INNER : string := "MIMICPP_DETAIL_STRIP_PARENS_STRIPPED_MIMICPP_DETAIL_STRIP_PARENS_INNER"%string.
Definition strip_names : list string := [STRIP_PARENS; STRIP_OUTER; STRIP_OUTER_; STRIP_INNER; STRIPPED_INNER].

Lemma look_strip_parens : lookup STRIP_PARENS = Some (Fun 1 false (call_item STRIP_OUTER [I_ STRIP_INNER; Arg 0])).
Proof. reflexivity. Qed.
Lemma look_strip_inner : lookup STRIP_INNER = Some (Fun 0 true [I_ STRIP_INNER; Arg 0]).
Proof. reflexivity. Qed.
Lemma look_strip_outer : lookup STRIP_OUTER = Some (Fun 0 true (call_item STRIP_OUTER_ [Arg 0])).
Proof. reflexivity. Qed.
Lemma look_strip_outer_ : lookup STRIP_OUTER_ = Some (Fun 0 true [Paste (OTok (Id STRIPPED_ false)) (OArg 0)]).
Proof. reflexivity. Qed.
Lemma look_stripped_inner : lookup STRIPPED_INNER = Some (Obj []).
Proof. reflexivity. Qed.

(** The result of scanning [INNER a]. *)
Lemma inner_ex : forall dis a b,
  mem STRIP_INNER dis = false -> plain a -> group false a -> strips a b ->
  exists u, ex dis (map T (Id STRIP_INNER false :: a)) (Id STRIP_INNER u :: b) /\ (u = true \/ hd_error b <> Some Lp).
Proof.
  intros dis a b M P G S.
  destruct S as [a N|a c Ga].
  - exists false. split; [|right; exact N]. cbn [map]. eapply ex_nocall; [exact look_strip_inner|exact M| |].
    + destruct a as [|t a]; [reflexivity|]. destruct t; try reflexivity. destruct (N eq_refl).
    + apply becomes_ex, b_plain, P.
  - exists true. split; [|left; reflexivity].
    apply plain_cons in P as [_ P]. apply plain_app in P as [Pa P]. apply plain_cons in P as [_ Pc].
    cbn [map]. rewrite map_app. cbn [map].
    apply (ex_call dis STRIP_INNER 0 true [I_ STRIP_INNER; Arg 0] _ _ dis (map T a ++ T Rp :: map T c) [a] dis (map T c) [a] [a]
             (Id STRIP_INNER false :: a ++ [])); [exact look_strip_inner|exact M|reflexivity| |reflexivity| |reflexivity|].
    + apply (args_va 0 [] a eq_refl Ga dis). apply unmarked_plain, Pa.
    + constructor; [|constructor]. apply becomes_ex, b_plain, Pa.
    + rewrite app_nil_r. cbn [map app]. eapply ex_marked; [exact look_strip_inner| |].
      * unfold mem. cbn [existsb]. rewrite String.eqb_refl. reflexivity.
      * apply (b_plain _ a Pa). apply ex_pop. apply becomes_ex, b_plain, Pc.
Qed.

Lemma strips_group : forall a b, group false a -> strips a b -> group true b.
Proof.
  intros a b G S. destruct S as [a N|a c Ga]; [apply (group_weaken _ _ G)|].
  apply group_app; [exact Ga|].
  (* the tokens after the first pair *)
  assert (H : forall c l, group c l -> forall a' l', group true a' -> l = Lp :: a' ++ Rp :: l' -> group c l').
  { assert (pre : forall c a1, group c a1 -> forall c' a2 r1 r2, group c' a2 -> a1 ++ Rp :: r1 = a2 ++ Rp :: r2 -> a1 = a2).
    { clear. intros c a1 G1. induction G1 as [c|c t l N1 N2 NC G1 IH|c a1 l Ga IHa G1 IH]; intros c' a2 r1 r2 G2 E.
      - destruct G2 as [|c' t l N1 N2 NC G2|c' a2 l Ga2 G2]; [reflexivity| |]; simpl in E; [injection E as E _; congruence|discriminate].
      - destruct G2 as [|c' t' l' N1' N2' NC' G2|c' a2 l' Ga2 G2]; simpl in E.
        + injection E as E _; congruence.
        + injection E as -> E. f_equal. apply (IH c' l' r1 r2 G2 E).
        + injection E as E _; congruence.
      - destruct G2 as [|c' t' l' N1' N2' NC' G2|c' a2 l' Ga2 G2]; simpl in E.
        + discriminate.
        + injection E as E _; congruence.
        + injection E as E. rewrite <- !app_assoc in E. simpl in E.
          pose proof (IHa _ _ _ _ Ga2 E) as ->. f_equal. f_equal. apply app_inv_head in E. injection E as E. f_equal.
          apply (IH c' l' r1 r2 G2 E). }
    intros c' l G' a' l' Ga' E. destruct G' as [|c' t l N1 N2 NC G'|c' a1 l1 Ga1 G'].
    - discriminate.
    - injection E as E _; congruence.
    - injection E as E. pose proof (pre _ _ Ga1 _ _ _ _ Ga' E) as ->. apply app_inv_head in E. injection E as ->. exact G'. }
  eapply group_weaken, (H _ _ G a c Ga eq_refl).
Qed.

Lemma strips_plain : forall a b, plain a -> strips a b -> plain b.
Proof.
  intros a b P S. destruct S as [a N|a c Ga]; [exact P|].
  apply plain_cons in P as [_ P]. apply plain_app in P as [Pa P]. apply plain_cons in P as [_ Pc].
  apply plain_app; split; assumption.
Qed.

Lemma b_strip : forall dis a a' b,
  free dis strip_names -> unmarked dis a -> group false a -> ex dis (map T a) a' ->
  plain a' -> group false a' -> strips a' b -> becomes dis (invoke STRIP_PARENS a) b.
Proof.
  intros dis a a' b F U Ga X P G S.
  eapply (b_call dis STRIP_PARENS 1 false _ a [a] [a] [a']).
  - exact look_strip_parens.
  - apply (free_in _ _ _ F); reflexivity.
  - exact U.
  - apply (args_last 1 false [] a Ga).
  - destruct a; reflexivity.
  - constructor; [exact X|constructor].
  - reflexivity.
  - change (becomes (STRIP_PARENS :: dis) (invoke STRIP_OUTER (Id STRIP_INNER false :: a')) b).
    assert (F1 : free (STRIP_PARENS :: dis) [STRIP_OUTER; STRIP_OUTER_; STRIP_INNER; STRIPPED_INNER]).
    { apply free_cons; [|reflexivity]. apply (free_sub _ _ _ F). reflexivity. }
    assert (MI : mem STRIP_INNER (STRIP_PARENS :: dis) = false) by (apply (free_in _ _ _ F1); reflexivity).
    assert (X1 : exists u, ex (STRIP_PARENS :: dis) (map T (Id STRIP_INNER false :: a')) (Id STRIP_INNER u :: b) /\ (u = true \/ hd_error b <> Some Lp)).
    { apply inner_ex; assumption. }
    destruct X1 as [u [X1 Hu]].
    pose proof (strips_group _ _ G S) as Gb. pose proof (strips_plain _ _ P S) as Pb.
    eapply (b_call _ STRIP_OUTER 0 true _ (Id STRIP_INNER false :: a') [Id STRIP_INNER false :: a'] _ [Id STRIP_INNER u :: b]).
    + exact look_strip_outer.
    + apply (free_in _ _ _ F1); reflexivity.
    + apply unmarked_id; [exact MI|apply unmarked_plain, P].
    + apply (args_va 0 [] _ eq_refl). apply group_id, (group_weaken _ _ G).
    + reflexivity.
    + constructor; [exact X1|constructor].
    + reflexivity.
    + assert (F2 : free (STRIP_OUTER :: STRIP_PARENS :: dis) [STRIP_OUTER_; STRIP_INNER; STRIPPED_INNER]).
      { apply free_cons; [|reflexivity]. apply (free_sub _ _ _ F1). reflexivity. }
      change (becomes (STRIP_OUTER :: STRIP_PARENS :: dis) (invoke STRIP_OUTER_ (Id STRIP_INNER u :: b)) b).
      eapply (b_call _ STRIP_OUTER_ 0 true _ (Id STRIP_INNER u :: b) [Id STRIP_INNER u :: b] _ [Id STRIP_INNER u :: b]).
      * exact look_strip_outer_.
      * apply (free_in _ _ _ F2); reflexivity.
      * destruct u; [apply unmarked_other; [exact I|]|apply unmarked_id; [apply (free_in _ _ _ F2); reflexivity|]]; apply unmarked_plain, Pb.
      * apply (args_va 0 [] _ eq_refl). apply group_id, Gb.
      * reflexivity.
      * constructor; [|constructor]. destruct u.
        -- cbn [map]. apply ex_keep; [discriminate|]. apply becomes_ex, b_plain, Pb.
        -- cbn [map]. destruct Hu as [Hu|Hu]; [discriminate|].
           eapply ex_nocall; [exact look_strip_inner|apply (free_in _ _ _ F2); reflexivity| |apply becomes_ex, b_plain, Pb].
           destruct b as [|t b]; [reflexivity|]. destruct t; try reflexivity. destruct (Hu eq_refl).
      * reflexivity.
      * change (becomes (STRIP_OUTER_ :: STRIP_OUTER :: STRIP_PARENS :: dis) ([Id STRIPPED_INNER false] ++ b ++ []) ([] ++ b)).
        rewrite app_nil_r.
        apply b_app; [|apply b_plain, Pb].
        eapply b_obj; [exact look_stripped_inner| |reflexivity|apply b_nil].
        assert (F3 : free (STRIP_OUTER_ :: STRIP_OUTER :: STRIP_PARENS :: dis) [STRIPPED_INNER]).
        { apply free_cons; [|reflexivity]. apply (free_sub _ _ _ F2). reflexivity. }
        apply (free_in _ _ _ F3); reflexivity.
Qed.

Lemma b_strip_plain : forall dis a b,
  free dis strip_names -> plain a -> group false a -> strips a b -> becomes dis (invoke STRIP_PARENS a) b.
Proof.
  intros dis a b F P G S. apply (b_strip dis a a b F (unmarked_plain _ _ P) G); [apply becomes_ex, b_plain, P|exact P|exact G|exact S].
Qed.

(** ** The for-each machinery *)

Definition inner2 : list string :=
  strip_names ++ [PARENS; COMMA_DELIMITER; NO_DELIMITER; IDENTITY; AGAIN; MAKE_SIGNATURE; MAKE_PARAM; FORWARD_ARG; MAKE_METHOD_OVERRIDE].
Definition inner : list string := HELPER :: INDIRECT :: inner2.

Lemma look_indirect : lookup INDIRECT = Some (Fun 2 true [Arg 0; Tk Lp; Arg 1; C_; Arg 2; Tk Rp]).
Proof. reflexivity. Qed.
Lemma look_parens : lookup PARENS = Some (Obj [Tk Lp; Tk Rp]).
Proof. reflexivity. Qed.
Lemma look_again : lookup AGAIN = Some (Fun 0 false [I_ HELPER]).
Proof. reflexivity. Qed.
Definition helper_body : list item :=
  call_item INDIRECT ([Arg 0; C_; Arg 2; C_] ++ call_item STRIP_PARENS [Arg 5] ++ [C_; Arg 4; Tk Lp; Arg 6; Tk Rp])
  ++ [VaOpt [Arg 3; Tk Lp; Tk Rp; I_ AGAIN; I_ PARENS;
             Tk Lp; Arg 0; C_; Arg 1; C_; Paste (OArg 2) (OArg 1); C_; Arg 3; C_; Arg 4; C_; Arg 5; C_; Arg 7; Tk Rp]].
Lemma look_helper : lookup HELPER = Some (Fun 7 true helper_body).
Proof. reflexivity. Qed.

Lemma commas_group : forall l, Forall (group false) l -> group true (commas l).
Proof.
  intros l F. unfold commas. induction F as [|x l G F IH]; [constructor|].
  destruct l as [|y l]; [apply (group_weaken _ _ G)|].
  apply group_app; [apply (group_weaken _ _ G)|]. simpl. apply group_comma. exact IH.
Qed.

Lemma separate_plain : forall d l, plain d -> Forall plain l -> plain (separate d l).
Proof.
  intros d l P F. induction F as [|x l G F IH]; [apply plain_nil|].
  destruct l as [|y l]; [exact G|].
  apply plain_app; split; [exact G|]. apply plain_app; split; [exact P|exact IH].
Qed.

Lemma plain_comma : plain [Comma].
Proof. apply plain_sym; [exact Logic.I|apply plain_nil]. Qed.

Lemma commas_cons : forall x y l, commas (x :: y :: l) = x ++ Comma :: commas (y :: l).
Proof. reflexivity. Qed.

Section ForEach.
  Context (M D P : string) (Mn Pn : nat) (Mva Pva : bool) (Mb Db Pb : list item).
  Context (HM : lookup M = Some (Fun Mn Mva Mb)) (HD : lookup D = Some (Fun 0 false Db)) (HP : lookup P = Some (Fun Pn Pva Pb)).
  Context (IM : mem M inner2 = true) (ID : mem D inner2 = true) (IP : mem P inner2 = true).
  Context (tk : list tok) (seqs : nat -> list tok).
  Context (Hseq : forall k, paste (seqs k) tk = Some (seqs (S k))).
  Context (Ptk : plain tk) (Gtk : group false tk) (Pseq : forall k, plain (seqs k)) (Gseq : forall k, group false (seqs k)).
  Context (B B' : list tok) (PB : plain B) (GB : group false B) (SB : strips B B').
  Context (dl : list tok) (Pdl : plain dl) (Hdl : forall dis, free dis inner2 -> becomes dis (invoke D []) dl).
  Context {El : Type} (raw proj : El -> list tok) (E : nat -> El -> list tok) (good : El -> Prop).
  Context (Nraw : forall a, good a -> raw a <> []) (Praw : forall a, good a -> plain (raw a)) (Graw : forall a, good a -> group false (raw a)).
  Context (PE : forall k a, good a -> plain (E k a)) (GE : forall k a, good a -> group true (E k a)) (Gdl : group true dl).
  Context (Hproj : forall dis a, good a -> free dis inner2 -> becomes dis (invoke P (raw a)) (proj a)).
  Context (Helem : forall dis k a, good a -> free dis inner2 ->
             becomes dis (invoke M (seqs k ++ Comma :: B' ++ Comma :: proj a)) (E k a)).

  Definition args_toks (k : nat) (l : list El) : list tok :=
    Id M false :: Comma :: tk ++ Comma :: seqs k ++ Comma :: Id D false :: Comma :: Id P false :: Comma :: B ++ Comma :: commas (map raw l).

  Lemma raws_plain : forall l, Forall good l -> plain (commas (map raw l)).
  Proof. intros l F. apply separate_plain; [apply plain_comma|]. apply Forall_map. eapply Forall_impl; [|exact F]. exact Praw. Qed.
  Lemma raws_group : forall l, Forall good l -> group true (commas (map raw l)).
  Proof. intros l F. apply commas_group. apply Forall_map. eapply Forall_impl; [|exact F]. exact Graw. Qed.

  Lemma raws_nonempty : forall a l, Forall good (a :: l) -> is_nil (commas (map raw (a :: l))) = false.
  Proof.
    intros a l F. inversion F as [|a' l' Ga Fl]; subst. specialize (Nraw a Ga).
    destruct l as [|b l].
    - cbn [map commas separate]. destruct (raw a); [contradiction|reflexivity].
    - cbn [map]. rewrite commas_cons. destruct (raw a); [contradiction|reflexivity].
  Qed.

  Lemma args_unmarked : forall dis k l, free dis inner2 -> Forall good l -> unmarked dis (args_toks k l).
  Proof.
    intros dis k l F G. unfold args_toks.
    apply unmarked_id; [apply (free_in _ _ _ F IM)|]. apply unmarked_other; [exact Logic.I|].
    apply unmarked_app; split; [apply unmarked_plain, Ptk|]. apply unmarked_other; [exact Logic.I|].
    apply unmarked_app; split; [apply unmarked_plain, Pseq|]. apply unmarked_other; [exact Logic.I|].
    apply unmarked_id; [apply (free_in _ _ _ F ID)|]. apply unmarked_other; [exact Logic.I|].
    apply unmarked_id; [apply (free_in _ _ _ F IP)|]. apply unmarked_other; [exact Logic.I|].
    apply unmarked_app; split; [apply unmarked_plain, PB|]. apply unmarked_other; [exact Logic.I|].
    apply unmarked_plain, raws_plain, G.
  Qed.

  Lemma args_group : forall k l, Forall good l -> group true (args_toks k l).
  Proof.
    intros k l G. unfold args_toks.
    apply group_id, group_comma, group_app; [apply (group_weaken _ _ Gtk)|].
    apply group_comma, group_app; [apply (group_weaken _ _ (Gseq k))|].
    apply group_comma, group_id, group_comma, group_id, group_comma, group_app; [apply (group_weaken _ _ GB)|].
    apply group_comma, raws_group, G.
  Qed.

  Lemma b_args : forall dis k l, free dis inner2 -> Forall good l -> becomes dis (args_toks k l) (args_toks k l).
  Proof.
    intros dis k l F G. unfold args_toks.
    eapply b_name; [exact HM|apply (free_in _ _ _ F IM)|discriminate|]. apply b_keep; [discriminate|].
    apply b_app; [apply b_plain, Ptk|]. apply b_keep; [discriminate|].
    apply b_app; [apply b_plain, Pseq|]. apply b_keep; [discriminate|].
    eapply b_name; [exact HD|apply (free_in _ _ _ F ID)|discriminate|]. apply b_keep; [discriminate|].
    eapply b_name; [exact HP|apply (free_in _ _ _ F IP)|discriminate|]. apply b_keep; [discriminate|].
    apply b_app; [apply b_plain, PB|]. apply b_keep; [discriminate|].
    apply b_plain, raws_plain, G.
  Qed.

  Lemma ex_name : forall dis s n va body, lookup s = Some (Fun n va body) -> mem s dis = false -> ex dis (map T [Id s false]) [Id s false].
  Proof. intros dis s n va body L F. cbn [map]. eapply ex_nocall; [exact L|exact F|reflexivity|apply ex_nil]. Qed.

  Lemma b_indirect : forall dis k a,
    good a -> free dis (INDIRECT :: inner2) ->
    becomes dis (invoke INDIRECT (Id M false :: Comma :: seqs k ++ Comma :: invoke STRIP_PARENS B ++ Comma :: invoke P (raw a))) (E k a).
  Proof.
    intros dis k a G F.
    assert (F2 : free dis inner2) by (intros s H; apply F; right; exact H).
    assert (FS : free dis strip_names) by (apply (free_sub _ _ _ F2); reflexivity).
    assert (FP : mem P dis = false) by (apply (free_in _ _ _ F2 IP)).
    assert (FM : mem M dis = false) by (apply (free_in _ _ _ F2 IM)).
    set (va := invoke STRIP_PARENS B ++ Comma :: invoke P (raw a)).
    eapply (b_call dis INDIRECT 2 true _ _ [[Id M false]; seqs k; va] [[Id M false]; seqs k; va] [[Id M false]; seqs k; B' ++ Comma :: proj a]
              (invoke M (seqs k ++ Comma :: B' ++ Comma :: proj a))).
    - exact look_indirect.
    - apply F; left; reflexivity.
    - apply unmarked_id; [exact FM|]. apply unmarked_other; [exact Logic.I|].
      apply unmarked_app; split; [apply unmarked_plain, Pseq|]. apply unmarked_other; [exact Logic.I|].
      apply unmarked_app; split; [apply unmarked_invoke; [apply FS; left; reflexivity|apply unmarked_plain, PB]|].
      apply unmarked_other; [exact Logic.I|]. apply unmarked_invoke; [exact FP|apply unmarked_plain, Praw, G].
    - apply (args_next 2 true [] [Id M false]); [apply group_id; constructor|reflexivity|].
      apply (args_next 2 true _ (seqs k)); [apply Gseq|reflexivity|].
      apply (args_va 2 [[Id M false]; seqs k] va eq_refl). apply group_app; [apply group_invoke, (group_weaken _ _ GB)|].
      apply group_comma, group_invoke, (group_weaken _ _ (Graw a G)).
    - reflexivity.
    - constructor; [|constructor; [|constructor; [|constructor]]].
      + apply (ex_name _ _ _ _ _ HM FM).
      + apply becomes_ex, b_plain, Pseq.
      + apply becomes_ex. apply b_app; [apply (b_strip_plain _ _ _ FS PB GB SB)|]. apply b_keep; [discriminate|].
        apply Hproj; assumption.
    - unfold invoke, ident. simpl. f_equal. f_equal. f_equal. rewrite <- !app_assoc. simpl. rewrite <- !app_assoc. reflexivity.
    - apply Helem; [exact G|]. apply free_cons; [exact F2|reflexivity].
  Qed.

  Definition tail_toks (k : nat) (l : list El) : list tok :=
    match l with
    | [] => []
    | _ :: _ => Id AGAIN false :: Lp :: Rp :: Lp :: args_toks k l ++ [Rp]
    end.

  Lemma round : forall dis k a l,
    Forall good (a :: l) -> free dis inner ->
    becomes dis (invoke HELPER (args_toks k (a :: l))) (E k a ++ match l with [] => [] | _ => dl ++ tail_toks (S k) l end).
  Proof.
    intros dis k a l G F. inversion G as [|a' l' Ga Gl]; subst.
    assert (F2 : free dis inner2) by (intros s H; apply F; right; right; exact H).
    assert (FM : mem M dis = false) by (apply (free_in _ _ _ F2 IM)).
    assert (FD : mem D dis = false) by (apply (free_in _ _ _ F2 ID)).
    assert (FP : mem P dis = false) by (apply (free_in _ _ _ F2 IP)).
    assert (Fh : free (HELPER :: dis) (INDIRECT :: inner2)).
    { apply free_cons; [|reflexivity]. intros s H; apply F; right; exact H. }
    assert (Fh2 : free (HELPER :: dis) inner2) by (intros s H; apply Fh; right; exact H).
    set (six := [[Id M false]; tk; seqs k; [Id D false]; [Id P false]; B]).
    assert (X : Forall2 (fun a e => ex dis (map T a) e) six six).
    { unfold six. repeat constructor; try (apply becomes_ex, b_plain; auto; fail).
      - apply (ex_name _ _ _ _ _ HM FM).
      - apply (ex_name _ _ _ _ _ HD FD).
      - apply (ex_name _ _ _ _ _ HP FP). }
    set (ind := invoke INDIRECT (Id M false :: Comma :: seqs k ++ Comma :: invoke STRIP_PARENS B ++ Comma :: invoke P (raw a))).
    assert (A : forall va args, args_from 7 true (six ++ [raw a]) va args ->
              args_from 7 true [] (Id M false :: Comma :: tk ++ Comma :: seqs k ++ Comma :: Id D false :: Comma :: Id P false :: Comma :: B ++ Comma :: raw a ++ Comma :: va) args).
    { intros va args A. unfold six in A. simpl in A.
      apply (args_next 7 true [] [Id M false]); [apply group_id; constructor|reflexivity|].
      apply (args_next 7 true _ tk); [exact Gtk|reflexivity|].
      apply (args_next 7 true _ (seqs k)); [apply Gseq|reflexivity|].
      apply (args_next 7 true _ [Id D false]); [apply group_id; constructor|reflexivity|].
      apply (args_next 7 true _ [Id P false]); [apply group_id; constructor|reflexivity|].
      apply (args_next 7 true _ B); [exact GB|reflexivity|].
      apply (args_next 7 true _ (raw a)); [apply Graw, Ga|reflexivity|]. exact A. }
    destruct l as [|b l].
    - rewrite app_nil_r.
      eapply (b_call dis HELPER 7 true _ _ (six ++ [raw a]) (six ++ [raw a; []]) (six ++ [raw a; []]) ind).
      + exact look_helper.
      + apply F; left; reflexivity.
      + apply args_unmarked; assumption.
      + unfold args_toks, six. cbn [map commas separate].
        apply (args_next 7 true [] [Id M false]); [apply group_id; constructor|reflexivity|].
        apply (args_next 7 true _ tk); [exact Gtk|reflexivity|].
        apply (args_next 7 true _ (seqs k)); [apply Gseq|reflexivity|].
        apply (args_next 7 true _ [Id D false]); [apply group_id; constructor|reflexivity|].
        apply (args_next 7 true _ [Id P false]); [apply group_id; constructor|reflexivity|].
        apply (args_next 7 true _ B); [exact GB|reflexivity|].
        apply (args_last 7 true _ (raw a)). apply Graw, Ga.
      + reflexivity.
      + apply Forall2_app; [exact X|]. constructor; [apply becomes_ex, b_plain, Praw, Ga|]. constructor; [apply ex_nil|constructor].
      + unfold ind, invoke, ident. simpl. do 5 f_equal. rewrite <- ?app_assoc. simpl. rewrite <- ?app_assoc. simpl. rewrite <- ?app_assoc. reflexivity.
      + apply b_indirect; assumption.
    - set (rest := commas (map raw (b :: l))).
      eapply (b_call dis HELPER 7 true _ _ (six ++ [raw a; rest]) (six ++ [raw a; rest]) (six ++ [raw a; rest])
                (ind ++ invoke D [] ++ (Id AGAIN false :: Id PARENS false :: []) ++ Lp :: args_toks (S k) (b :: l) ++ [Rp])).
      + exact look_helper.
      + apply F; left; reflexivity.
      + apply args_unmarked; assumption.
      + unfold args_toks. cbn [map]. rewrite commas_cons. apply A.
        replace (six ++ [raw a; rest]) with ((six ++ [raw a]) ++ [rest]) by (rewrite <- app_assoc; reflexivity).
        apply (args_va 7); [reflexivity|]. apply (raws_group (b :: l) Gl).
      + reflexivity.
      + apply Forall2_app; [exact X|]. constructor; [apply becomes_ex, b_plain, Praw, Ga|].
        constructor; [apply becomes_ex, b_plain, (raws_plain (b :: l) Gl)|constructor].
      + assert (N : is_nil rest = false) by (apply raws_nonempty; exact Gl).
        unfold six. cbn [nth app andb]. rewrite N. cbn [negb]. unfold helper_body, ind, invoke, ident, args_toks, call_item, I_, C_.
        cbn [subst subst_item app nth operand_toks]. rewrite Hseq. cbn [subst subst_item app nth operand_toks].
        f_equal. fold rest. rewrite ?app_nil_r. repeat (rewrite <- app_assoc; cbn [app]). rewrite ?app_nil_r. reflexivity.
      + apply b_app; [apply b_indirect; assumption|]. apply b_app; [apply Hdl; exact Fh2|].
        unfold tail_toks.
        change (Id AGAIN false :: Lp :: Rp :: Lp :: args_toks (S k) (b :: l) ++ [Rp])
          with ((Id AGAIN false :: [Lp; Rp]) ++ (Lp :: args_toks (S k) (b :: l) ++ [Rp])).
        apply b_app.
        * eapply b_name; [exact look_again|apply (free_in _ _ _ Fh2); reflexivity|discriminate|].
          eapply b_obj; [exact look_parens|apply (free_in _ _ _ Fh2); reflexivity|reflexivity|].
          apply b_plain. apply plain_sym; [exact Logic.I|]. apply plain_sym; [exact Logic.I|apply plain_nil].
        * apply b_keep; [discriminate|]. apply b_app; [apply b_args; assumption|].
          apply b_keep; [discriminate|apply b_nil].
  Qed.

  (** The state between two scans: the finished text, the number of the next element and the remaining elements. *)
  Definition st : Type := (list tok * nat * list El)%type.
  Definition st_toks (s : st) : list tok := let '(out, k, l) := s in out ++ tail_toks k l.
  Definition next (s : st) : st :=
    let '(out, k, l) := s in
    match l with
    | [] => s
    | [a] => (out ++ E k a, S k, [])
    | a :: l' => (out ++ E k a ++ dl, S k, l')
    end.
  Definition st_ok (s : st) : Prop := let '(out, k, l) := s in (plain out /\ group true out) /\ Forall good l.

  Lemma next_ok : forall s, st_ok s -> st_ok (next s).
  Proof.
    intros [[out k] l] [[Po Go] Gl]. destruct l as [|a l]; [split; [split|]; assumption|].
    inversion Gl as [|a' l' Ga Gl']; subst.
    destruct l as [|b l]; simpl; (split; [split|assumption]).
    - apply plain_app; split; [exact Po|apply PE, Ga].
    - apply group_app; [exact Go|apply GE, Ga].
    - apply plain_app; split; [exact Po|]. apply plain_app; split; [apply PE, Ga|exact Pdl].
    - apply group_app; [exact Go|]. apply group_app; [apply GE, Ga|exact Gdl].
  Qed.

  Lemma step_st : forall dis s, free dis inner -> st_ok s -> becomes dis (st_toks s) (st_toks (next s)).
  Proof.
    intros dis [[out k] l] F [[Po Go] Gl].
    assert (F2 : free dis inner2) by (intros s H; apply F; right; right; exact H).
    destruct l as [|a l].
    - simpl. rewrite app_nil_r. apply b_plain, Po.
    - assert (R : becomes dis (tail_toks k (a :: l)) (E k a ++ match l with [] => [] | _ => dl ++ tail_toks (S k) l end)).
      { change (tail_toks k (a :: l)) with (invoke AGAIN [] ++ Lp :: args_toks k (a :: l) ++ [Rp]).
        eapply (b_call_name dis AGAIN 0 false _ [] [[]] [] []);
          [exact look_again|apply (free_in _ _ _ F2); reflexivity|apply unmarked_nil|apply (args_last 0 false [] []); constructor
          |reflexivity|constructor|reflexivity|exact look_helper|discriminate|apply F; left; reflexivity|apply round; assumption]. }
      replace (st_toks (next (out, k, a :: l))) with (out ++ (E k a ++ match l with [] => [] | _ => dl ++ tail_toks (S k) l end)).
      + apply b_app; [apply b_plain, Po|exact R].
      + destruct l as [|b l]; unfold next, st_toks; rewrite <- ?app_assoc; reflexivity.
  Qed.

  Lemma st_group : forall s, st_ok s -> group true (st_toks s).
  Proof.
    intros [[out k] l] [[Po Go] Gl]. simpl. apply group_app; [exact Go|].
    destruct l as [|a l]; [constructor|]. unfold tail_toks. apply group_id.
    apply (group_paren true []); [constructor|]. apply group_parens, args_group, Gl.
  Qed.

  Lemma st_unmarked : forall dis s, free dis inner -> st_ok s -> unmarked dis (st_toks s).
  Proof.
    intros dis [[out k] l] F [[Po Go] Gl].
    assert (F2 : free dis inner2) by (intros s H; apply F; right; right; exact H).
    simpl. apply unmarked_app; split; [apply unmarked_plain, Po|].
    destruct l as [|a l]; [apply unmarked_nil|]. unfold tail_toks.
    apply unmarked_id; [apply (free_in _ _ _ F2); reflexivity|]. do 3 (apply unmarked_other; [exact Logic.I|]).
    apply unmarked_app; split; [apply args_unmarked; assumption|]. apply unmarked_other; [exact Logic.I|apply unmarked_nil].
  Qed.

  (** Several scans. *)
  Fixpoint it (n : nat) (s : st) : st :=
    match n with
    | 0 => s
    | S n' => it n' (next s)
    end.

  Lemma it_S : forall n s, it (S n) s = next (it n s).
  Proof. induction n as [|n IH]; intros s; [reflexivity|]. change (it (S n) (next s) = next (it n (next s))). apply IH. Qed.

  Lemma it_ok : forall n s, st_ok s -> st_ok (it n s).
  Proof. induction n as [|n IH]; intros s H; [exact H|]. apply (IH (next s)), next_ok, H. Qed.

  Fixpoint elems (k : nat) (l : list El) : list (list tok) :=
    match l with
    | [] => []
    | a :: l' => E k a :: elems (S k) l'
    end.

  Lemma it_done : forall n out k, it n (out, k, []) = (out, k, []).
  Proof. induction n as [|n IH]; intros; [reflexivity|]. apply (IH out k). Qed.

  Lemma it_all : forall l n out k, length l <= n -> st_toks (it n (out, k, l)) = out ++ separate dl (elems k l).
  Proof.
    induction l as [|a l IH]; intros n out k L.
    - rewrite it_done. reflexivity.
    - destruct n as [|n]; [simpl in L; lia|]. simpl in L.
      destruct l as [|b l].
      + cbn [it next]. rewrite it_done. simpl. apply app_nil_r.
      + cbn [it next]. rewrite IH by (simpl in *; lia). rewrite <- !app_assoc. reflexivity.
  Qed.

  Lemma it_part : forall n l out k, n < length l ->
    st_toks (it n (out, k, l)) = out ++ concat (map (fun e => e ++ dl) (elems k (firstn n l))) ++ tail_toks (k + n) (skipn n l).
  Proof.
    induction n as [|n IH]; intros l out k L.
    - rewrite Nat.add_0_r. reflexivity.
    - destruct l as [|a l]; [simpl in L; lia|]. simpl in L.
      destruct l as [|b l]; [simpl in L; lia|].
      cbn [it next]. rewrite IH by (simpl in *; lia).
      replace (k + S n) with (S k + n) by lia. cbn [firstn skipn elems map concat]. rewrite <- !app_assoc. reflexivity.
  Qed.

  (** [F(...)] makes [c] additional scans. *)
  Definition adds (F : string) (needs : list string) (c : nat) : Prop :=
    forall dis Y j s, free dis (needs ++ inner) -> st_ok s -> group true Y -> unmarked dis Y ->
      becomes dis Y (st_toks (it j s)) -> becomes dis (invoke F Y) (st_toks (it (j + c) s)).

  Lemma adds_base : forall F, lookup F = Some (Fun 0 true [Arg 0]) -> mem F inner = false -> adds F [F] 1.
  Proof.
    intros F L N dis Y j s Fr Ok G U H.
    assert (Fi : free dis inner) by (intros x Hx; apply Fr; right; exact Hx).
    eapply (b_call dis F 0 true _ Y [Y] [Y] [st_toks (it j s)] (st_toks (it j s))).
    - exact L.
    - apply Fr; left; reflexivity.
    - exact U.
    - apply (args_va 0 [] Y eq_refl G).
    - reflexivity.
    - constructor; [apply becomes_ex, H|constructor].
    - simpl. rewrite app_nil_r. reflexivity.
    - replace (j + 1) with (S j) by lia. rewrite it_S. apply step_st; [apply free_cons; assumption|apply it_ok, Ok].
  Qed.

  Lemma adds_nest : forall F G needs g,
    lookup F = Some (Fun 0 true (call_item G (call_item G (call_item G (call_item G [Arg 0]))))) ->
    mem F (G :: needs ++ inner) = false -> adds G (G :: needs) g -> adds F (F :: G :: needs) (1 + (g + g + g + g)).
  Proof.
    intros F G needs g L N A dis Y j s Fr Ok Gy U H.
    assert (Fg : free (F :: dis) ((G :: needs) ++ inner)).
    { apply free_cons; [|exact N]. intros x Hx. apply Fr. right. exact Hx. }
    assert (Fi : free (F :: dis) inner) by (intros x Hx; apply Fg, in_or_app; right; exact Hx).
    assert (MG : mem G (F :: dis) = false) by (apply Fg; left; reflexivity).
    set (x := st_toks (it j s)).
    assert (Gx : group true x) by (apply st_group, it_ok, Ok).
    assert (Ux : unmarked (F :: dis) x) by (apply st_unmarked; [exact Fi|apply it_ok, Ok]).
    eapply (b_call dis F 0 true _ Y [Y] [Y] [x] (invoke G (invoke G (invoke G (invoke G x))))).
    - exact L.
    - apply Fr; left; reflexivity.
    - exact U.
    - apply (args_va 0 [] Y eq_refl Gy).
    - reflexivity.
    - constructor; [apply becomes_ex, H|constructor].
    - unfold invoke, ident, call_item, I_. cbn [app subst subst_item nth]. f_equal. repeat (rewrite <- app_assoc; cbn [app]). reflexivity.
    - replace (j + (1 + (g + g + g + g))) with (S j + g + g + g + g) by lia.
      do 3 (apply A; [exact Fg|exact Ok|repeat (apply group_invoke); exact Gx|repeat (apply unmarked_invoke; [exact MG|]); exact Ux|]).
      apply A; [exact Fg|exact Ok|exact Gx|exact Ux|].
      unfold x. rewrite it_S. apply step_st; [exact Fi|apply it_ok, Ok].
  Qed.

  Definition expand_names : list string := [EXPAND; EXPAND3; EXPAND2; EXPAND1].

  Lemma adds_expand : adds EXPAND expand_names 85.
  Proof.
    change 85 with (1 + (21 + 21 + 21 + 21)).
    apply adds_nest; [reflexivity|reflexivity|].
    change 21 with (1 + (5 + 5 + 5 + 5)).
    apply adds_nest; [reflexivity|reflexivity|].
    change 5 with (1 + (1 + 1 + 1 + 1)).
    apply adds_nest; [reflexivity|reflexivity|].
    apply adds_base; reflexivity.
  Qed.

  Definition for_each_names : list string := FOR_EACH_EXT :: expand_names ++ inner.
  Context (Hseq1 : seqs 1 = tk).

  (** FOR_EACH_EXT(M, tk, D, P, B, elements) *)
  Lemma b_for_each : forall dis l,
    free dis for_each_names -> Forall good l ->
    becomes dis
      (invoke FOR_EACH_EXT (Id M false :: Comma :: tk ++ Comma :: Id D false :: Comma :: Id P false :: Comma :: B ++ Comma :: commas (map raw l)))
      (st_toks (it 86 ([], 1, l))).
  Proof.
    intros dis l F Gl.
    assert (Fi : free dis inner) by (intros x Hx; apply F; do 5 right; exact Hx).
    assert (F2 : free dis inner2) by (intros s H; apply Fi; right; right; exact H).
    assert (FM : mem M dis = false) by (apply (free_in _ _ _ F2 IM)).
    assert (FD : mem D dis = false) by (apply (free_in _ _ _ F2 ID)).
    assert (FP : mem P dis = false) by (apply (free_in _ _ _ F2 IP)).
    set (rest := commas (map raw l)).
    set (args := [[Id M false]; tk; [Id D false]; [Id P false]; B; rest]).
    set (hlp := invoke HELPER (args_toks 1 l)).
    eapply (b_call dis FOR_EACH_EXT 5 true _ _ args args args (if is_nil rest then [] else invoke EXPAND hlp)).
    - reflexivity.
    - apply F; left; reflexivity.
    - apply unmarked_id; [exact FM|]. apply unmarked_other; [exact Logic.I|].
      apply unmarked_app; split; [apply unmarked_plain, Ptk|]. apply unmarked_other; [exact Logic.I|].
      apply unmarked_id; [exact FD|]. apply unmarked_other; [exact Logic.I|].
      apply unmarked_id; [exact FP|]. apply unmarked_other; [exact Logic.I|].
      apply unmarked_app; split; [apply unmarked_plain, PB|]. apply unmarked_other; [exact Logic.I|].
      apply unmarked_plain, raws_plain, Gl.
    - apply (args_next 5 true [] [Id M false]); [apply group_id; constructor|reflexivity|].
      apply (args_next 5 true _ tk); [exact Gtk|reflexivity|].
      apply (args_next 5 true _ [Id D false]); [apply group_id; constructor|reflexivity|].
      apply (args_next 5 true _ [Id P false]); [apply group_id; constructor|reflexivity|].
      apply (args_next 5 true _ B); [exact GB|reflexivity|].
      apply (args_va 5 [[Id M false]; tk; [Id D false]; [Id P false]; B] rest eq_refl). apply raws_group, Gl.
    - reflexivity.
    - unfold args. constructor; [apply (ex_name _ _ _ _ _ HM FM)|]. constructor; [apply becomes_ex, b_plain, Ptk|].
      constructor; [apply (ex_name _ _ _ _ _ HD FD)|]. constructor; [apply (ex_name _ _ _ _ _ HP FP)|].
      constructor; [apply becomes_ex, b_plain, PB|]. constructor; [apply becomes_ex, b_plain, raws_plain, Gl|constructor].
    - unfold args. cbn [nth andb]. unfold hlp, invoke, ident, args_toks. fold rest. rewrite Hseq1.
      destruct (is_nil rest); cbn [negb]; unfold call_item, I_, C_; cbn [subst subst_item app nth operand_toks];
        [reflexivity|]. f_equal. rewrite ?app_nil_r. repeat (rewrite <- app_assoc; cbn [app]). rewrite ?app_nil_r. reflexivity.
    - destruct l as [|a l].
      + apply b_nil.
      + unfold rest. rewrite (raws_nonempty a l Gl).
        assert (Ok : st_ok ([], 1, a :: l)) by (split; [split; [apply plain_nil|constructor]|exact Gl]).
        change 86 with (1 + 85). apply adds_expand.
        * apply free_cons; [|reflexivity]. intros x Hx; apply F; right; exact Hx.
        * exact Ok.
        * unfold hlp. apply group_invoke, args_group, Gl.
        * unfold hlp. apply unmarked_invoke.
          -- assert (Fc : free (FOR_EACH_EXT :: dis) [HELPER]) by (apply free_cons; [apply (free_sub _ _ _ Fi); reflexivity|reflexivity]).
             apply Fc; left; reflexivity.
          -- apply args_unmarked; [apply free_cons; [exact F2|reflexivity]|exact Gl].
        * replace (st_toks (it 1 ([], 1, a :: l))) with (E 1 a ++ match l with [] => [] | _ => dl ++ tail_toks 2 l end)
            by (destruct l; cbn [it next st_toks tail_toks app]; rewrite <- ?app_assoc, ?app_nil_r; reflexivity).
          apply round; [exact Gl|]. apply free_cons; [exact Fi|reflexivity].
  Qed.
End ForEach.
