(** * DispatchProofs: lemmas about the choice of printers. *)

From Verif Require Import Base Lib Signature Printer Dispatch DispatchSpec.
Local Open Scope string_scope.

Lemma clash_choose tr : clashing tr -> choose_special tr = BadSpecial.
Proof.
  destruct tr as [c l n o tu p s r f]. unfold clashing. cbn. intros (-> & -> & H).
  destruct s; cbn.
  - destruct H as [H|(-> & -> & H)]; [discriminate|]. destruct p; reflexivity.
  - destruct H as [H|(-> & -> & [H| ->])]; [discriminate|discriminate|]. reflexivity.
  - reflexivity.
Qed.

Lemma choose_iff tr s : ~ clashing tr -> (choose_special tr = OneSpecial s <-> internally tr s).
Proof.
  intros Hc. destruct tr as [c l n o tu p st r f]. unfold clashing in Hc. cbn in Hc.
  destruct l.
  { cbn. split; intro H; [injection H as <-; constructor; reflexivity|inversion H; cbn in *; congruence]. }
  destruct n.
  { cbn. split; intro H; [injection H as <-; constructor; reflexivity|inversion H; cbn in *; congruence]. }
  destruct st; [| |exfalso; apply Hc; auto].
  - destruct o.
    { cbn. split; intro H; [injection H as <-; constructor; reflexivity|inversion H; cbn in *; congruence]. }
    destruct tu; [exfalso; apply Hc; intuition|].
    destruct p; unfold choose_special; cbn; (split; intro H; [injection H as <-; constructor; reflexivity|inversion H; cbn in *; congruence]).
  - destruct o.
    { cbn. split; intro H; [injection H as <-; constructor; reflexivity|inversion H; cbn in *; congruence]. }
    destruct tu; [destruct p; [exfalso; apply Hc; intuition|]|destruct p]; unfold choose_special; cbn.
    + split; intro H; [injection H as <-; apply in_tuple; reflexivity|inversion H; cbn in *; congruence].
    + split; intro H; [injection H as <-; apply in_pointer; cbn; congruence|inversion H; cbn in *; congruence].
    + split; intro H; [discriminate|inversion H; cbn in *; congruence].
Qed.

Lemma choose_not_bad tr : ~ clashing tr -> choose_special tr <> BadSpecial.
Proof.
  intros Hc. destruct tr as [c l n o tu p st r f]. unfold clashing in Hc. cbn in Hc.
  destruct l; [discriminate|]. destruct n; [discriminate|]. destruct st; [| |exfalso; apply Hc; auto].
  - destruct o; [discriminate|]. destruct tu; [exfalso; apply Hc; intuition|]. destruct p; discriminate.
  - destruct o; [discriminate|]. destruct tu; [destruct p; [exfalso; apply Hc; intuition|]|destruct p]; discriminate.
Qed.

Lemma choose_primary tr : ~ clashing tr -> (choose_special tr = Primary <-> no_internal tr).
Proof.
  intros Hc. split.
  - intros H s Hs. apply (choose_iff tr s Hc) in Hs. congruence.
  - intros H. destruct (choose_special tr) as [s| |] eqn:E; auto; exfalso.
    + apply (H s). apply choose_iff; auto.
    + eapply choose_not_bad; eauto.
Qed.

Lemma resolve_clash tr : clashing tr -> resolve tr = None.
Proof. intros H. unfold resolve. cbn. rewrite (clash_choose tr H). destruct (tr_custom tr); reflexivity. Qed.

Lemma resolve_value tr : ~ clashing tr ->
  resolve tr = Some (if tr_custom tr then OvCustom
                     else match choose_special tr with
                          | OneSpecial _ => OvInternal
                          | _ => if tr_range tr then OvRange else if tr_formattable tr then OvFormat else OvFallback
                          end).
Proof.
  intros Hc. pose proof (choose_not_bad tr Hc) as Hb. unfold resolve. cbn.
  destruct (tr_custom tr), (choose_special tr), (tr_range tr), (tr_formattable tr); try reflexivity; contradiction.
Qed.

Lemma resolve_iff tr o : ~ clashing tr -> (resolve tr = Some o <-> documented tr o).
Proof.
  intros Hc. rewrite (resolve_value tr Hc). split.
  - intros H. injection H as <-. destruct (tr_custom tr) eqn:Ec; [constructor; auto|].
    destruct (choose_special tr) as [s| |] eqn:E.
    + eapply doc_internal; eauto. apply choose_iff; eauto.
    + apply choose_primary in E; auto. destruct (tr_range tr) eqn:Er; [constructor; auto|]. destruct (tr_formattable tr) eqn:Ef; constructor; auto.
    + exfalso. eapply choose_not_bad; eauto.
  - intros H. destruct H as [tr H|tr s H1 H2|tr H1 H2 H3|tr H1 H2 H3 H4|tr H1 H2 H3 H4].
    + rewrite H. reflexivity.
    + rewrite H1. apply choose_iff in H2; auto. rewrite H2. reflexivity.
    + rewrite H1. apply choose_primary in H2; auto. rewrite H2, H3. reflexivity.
    + rewrite H1. apply choose_primary in H2; auto. rewrite H2, H3, H4. reflexivity.
    + rewrite H1. apply choose_primary in H2; auto. rewrite H2, H3, H4. reflexivity.
Qed.

(** ** Strings *)

Lemma until_zero_iff m l : until_zero m = Ret l <-> exists rest, m = (l ++ 0%N :: rest)%list /\ Forall (fun u => u <> 0%N) l.
Proof.
  revert l. induction m as [|u m IH]; intros l; cbn [until_zero].
  - split; [discriminate|]. intros (rest & H & _). destruct l; discriminate.
  - destruct (N.eqb_spec u 0) as [->|Hu].
    + split.
      * intro H. injection H as <-. exists m. split; [reflexivity|constructor].
      * intros (rest & H & HF). destruct l as [|a l]; [reflexivity|]. injection H as <- _. inversion HF. congruence.
    + split.
      * intro H. destruct (until_zero m) as [l'| | |]; try discriminate. cbn in H. injection H as <-.
        destruct (proj1 (IH l') eq_refl) as (rest & -> & HF). exists rest. split; [reflexivity|constructor; auto].
      * intros (rest & H & HF). destruct l as [|a l]; [injection H as -> _; congruence|]. injection H as <- H. inversion HF; subst.
        rewrite (proj2 (IH l)); [reflexivity|]. exists rest. auto.
Qed.

Lemma until_zero_undef m : until_zero m = Undef UbDomain <-> ~ In 0%N m.
Proof.
  induction m as [|u m IH]; cbn [until_zero In].
  - split; auto.
  - destruct (N.eqb_spec u 0) as [->|Hu].
    + split; [discriminate|]. intro H. exfalso. apply H. left. reflexivity.
    + split.
      * intro H. destruct (until_zero m) as [l'| | |]; try discriminate. cbn in H. injection H as ->. intros [H|H]; [congruence|]. revert H. apply IH. reflexivity.
      * intro H. assert (H' : ~ In 0%N m) by (intro; apply H; auto). apply IH in H'. rewrite H'. reflexivity.
Qed.

Lemma units_iff c l : units_of c = Ret l <-> has_units c l.
Proof.
  destruct c as [u|m|]; cbn.
  - split; intro H; [injection H as <-; constructor|inversion H; reflexivity].
  - rewrite until_zero_iff. split.
    + intros (rest & -> & HF). constructor. exact HF.
    + intro H. inversion H; subst. eauto.
  - split; intro H; [discriminate|inversion H].
Qed.

Lemma join_concat l : join l = String.concat ", " l.
Proof.
  destruct l as [|s l]; [reflexivity|]. cbn [join]. revert s. induction l as [|a l IH]; intros s.
  - cbn. induction s; cbn; congruence.
  - cbn [join_rest String.concat]. rewrite (IH a). reflexivity.
Qed.

Lemma concat_text_concat l : concat_text l = String.concat "" l.
Proof.
  induction l as [|s l IH]; [reflexivity|]. cbn [concat_text fold_right]. fold (concat_text l). rewrite IH. destruct l as [|a l]; cbn.
  - induction s; cbn; congruence.
  - reflexivity.
Qed.

Lemma print_units_iff t l s : unit_text t l s -> print_units t l = (literal_prefix (tx_type t) ++ quote ++ s ++ quote)%string.
Proof.
  intro H. destruct H as [p c l|t p c l Ht|t c l Ht]; unfold print_units; cbn [tx_type tx_printer].
  - reflexivity.
  - destruct t; try congruence; rewrite concat_text_concat; reflexivity.
  - destruct t; try congruence; rewrite join_concat; reflexivity.
Qed.

Lemma unit_text_exists t l : exists s, unit_text t l s.
Proof.
  destruct t as [t [p|] c]; destruct t; try (eexists; constructor; congruence); eexists; apply ut_char.
Qed.

(** ** Texts *)

Lemma all_texts_ret l r : all_texts l = Some (Ret r) <-> l = map (fun s => Some (Ret s)) r.
Proof.
  revert r. induction l as [|x l IH]; intros r; cbn [all_texts].
  - split; intro H; [injection H as <-; reflexivity|destruct r; [reflexivity|discriminate]].
  - destruct x as [[s|e| |u]|].
    + split.
      * destruct (all_texts l) as [[r'| | |]|]; try discriminate. cbn. intro H. injection H as <-. cbn. f_equal. apply IH. reflexivity.
      * intro H. destruct r as [|s' r]; [discriminate|]. cbn in H. injection H as <- H. apply IH in H. rewrite H. reflexivity.
    + split; [discriminate|]. intro H. destruct r; discriminate.
    + split; [discriminate|]. intro H. destruct r; discriminate.
    + split; [discriminate|]. intro H. destruct r; discriminate.
    + split; [discriminate|]. intro H. destruct r; discriminate.
Qed.

Section Texts.
  Context (env : objects) (Hok : forall n, ~ clashing (ob_traits (obj_at env n))).

  Lemma shown_sound f : forall n s, print_object f env n = Some (Ret s) -> shown env n s.
  Proof.
    induction f as [|f IH]; intros n s H; [discriminate|]. cbn [print_object] in H.
    assert (HL : forall l t, match all_texts (map (print_object f env) l) with
                             | Some r => Some (obind r (fun ts => Ret ("{ " ++ join ts ++ " }")))
                             | None => None end = Some (Ret t) -> exists ss, shown_all env l ss /\ t = "{ " ++ String.concat ", " ss ++ " }").
    { intros l t Ht. destruct (all_texts (map (print_object f env) l)) as [[ts| | |]|] eqn:E; try discriminate. cbn in Ht. injection Ht as <-.
      apply all_texts_ret in E. exists ts. rewrite join_concat. split; [|reflexivity]. revert ts E. induction l as [|m l IHl]; intros [|t ts] E; try discriminate; [constructor|].
      cbn in E. injection E as E1 E2. constructor; auto. }
    pose proof (Hok n) as Hn. set (tr := ob_traits (obj_at env n)) in *.
    destruct (resolve tr) as [o|] eqn:E; [|discriminate]. apply (resolve_iff tr o Hn) in E.
    destruct o.
    - injection H as <-. apply sh_custom. exact E.
    - destruct (choose_special tr) as [sp| |] eqn:Es; try discriminate. apply (choose_iff tr sp Hn) in Es. destruct sp.
      + injection H as <-. apply sh_location; auto.
      + injection H as <-. apply sh_nullopt; auto.
      + destruct (ob_optional (obj_at env n)) as [m|] eqn:Eo.
        * destruct (print_object f env m) as [[t| | |]|] eqn:Em; try discriminate. cbn in H. injection H as <-. eapply sh_some; eauto.
        * eapply sh_none; eauto.
      + apply HL in H. destruct H as (ss & Hss & ->). apply sh_tuple; auto.
      + injection H as <-. apply sh_pointer; auto.
      + destruct (units_of (tx_chars (ob_text (obj_at env n)))) as [l| | |] eqn:Eu; try discriminate. apply units_iff in Eu. cbn [obind] in H.
        destruct (unit_text_exists (ob_text (obj_at env n)) l) as [t Ht]. rewrite (print_units_iff _ _ _ Ht) in H. injection H as <-. eapply sh_string; eauto.
    - apply HL in H. destruct H as (ss & Hss & ->). apply sh_range; auto.
    - injection H as <-. apply sh_format. exact E.
    - injection H as <-. apply sh_fallback. exact E.
  Qed.

  Lemma print_more_list f : (forall n s, print_object f env n = Some (Ret s) -> print_object (S f) env n = Some (Ret s)) ->
    forall l ss, map (print_object f env) l = map (fun s => Some (Ret s)) ss -> map (print_object (S f) env) l = map (fun s => Some (Ret s)) ss.
  Proof.
    intros IH l. induction l as [|n l IHl]; intros [|s ss] H; try discriminate; [reflexivity|]. cbn [map] in *. injection H as H1 H2.
    rewrite (IH n s H1), (IHl ss H2). reflexivity.
  Qed.

  Lemma print_more f : forall n s, print_object f env n = Some (Ret s) -> print_object (S f) env n = Some (Ret s).
  Proof.
    induction f as [|f IH]; intros n s H; [discriminate|].
    assert (HL : forall l t, match all_texts (map (print_object f env) l) with
                             | Some r => Some (obind r (fun ts => Ret ("{ " ++ join ts ++ " }")))
                             | None => None end = Some (Ret t) ->
                 match all_texts (map (print_object (S f) env) l) with
                             | Some r => Some (obind r (fun ts => Ret ("{ " ++ join ts ++ " }")))
                             | None => None end = Some (Ret t)).
    { intros l t Ht. destruct (all_texts (map (print_object f env) l)) as [[ts| | |]|] eqn:E; try discriminate.
      apply all_texts_ret in E. apply (print_more_list f IH) in E. apply all_texts_ret in E. rewrite E. exact Ht. }
    cbn [print_object] in H. revert H. change (print_object (S (S f)) env n) with
      (let o := obj_at env n in
       let listed l := match all_texts (map (print_object (S f) env) l) with
                      | Some r => Some (obind r (fun ts => Ret ("{ " ++ join ts ++ " }")))
                      | None => None
                      end in
       match resolve (ob_traits o) with
       | None => Some (Undef UbDomain)
       | Some OvCustom => Some (Ret (ob_custom o))
       | Some OvInternal =>
          match choose_special (ob_traits o) with
          | OneSpecial SpLocation => Some (Ret (print_loc (ob_location o)))
          | OneSpecial SpNullopt => Some (Ret "nullopt")
          | OneSpecial SpOptional =>
              match ob_optional o with
              | Some m => match print_object (S f) env m with
                          | Some r => Some (obind r (fun t => Ret ("{ value: " ++ t ++ " }")))
                          | None => None
                          end
              | None => print_object (S f) env (nullopt_object env)
              end
          | OneSpecial SpTuple => listed (ob_elements o)
          | OneSpecial SpPointer => Some (Ret ("0x" ++ hex16 (ob_address o)))
          | OneSpecial SpString => Some (obind (units_of (tx_chars (ob_text o))) (fun l => Ret (print_units (ob_text o) l)))
          | Primary | BadSpecial => Some (Undef UbDomain)
          end
       | Some OvRange => listed (ob_range o)
       | Some OvFormat => Some (Ret (ob_formatted o))
       | Some OvFallback => Some (Ret "{?}")
       end : option (outcome string)).
    cbv zeta. destruct (resolve (ob_traits (obj_at env n))) as [[]|]; auto.
    destruct (choose_special (ob_traits (obj_at env n))) as [[]| |]; auto.
    destruct (ob_optional (obj_at env n)) as [m|]; [|apply IH].
    intros H. destruct (print_object f env m) as [[t| | |]|] eqn:Em; try discriminate. rewrite (IH m t Em). exact H.
  Qed.

  Lemma print_mono f g n s : f <= g -> print_object f env n = Some (Ret s) -> print_object g env n = Some (Ret s).
  Proof. induction 1; auto. intros H'. apply print_more. auto. Qed.

  Lemma shown_complete :
    (forall n s, shown env n s -> exists f, print_object f env n = Some (Ret s)) /\
    (forall l ss, shown_all env l ss -> exists f, map (print_object f env) l = map (fun s => Some (Ret s)) ss).
  Proof.
    assert (R : forall n o, documented (ob_traits (obj_at env n)) o -> resolve (ob_traits (obj_at env n)) = Some o) by (intros; apply resolve_iff; auto).
    assert (C : forall n s, internally (ob_traits (obj_at env n)) s -> choose_special (ob_traits (obj_at env n)) = OneSpecial s) by (intros; apply choose_iff; auto).
    apply shown_mut.
    - intros n H. exists 1. cbn. rewrite (R n _ H). reflexivity.
    - intros n H H'. exists 1. cbn. rewrite (R n _ H), (C n _ H'). reflexivity.
    - intros n H H'. exists 1. cbn. rewrite (R n _ H), (C n _ H'). reflexivity.
    - intros n m s H H' Ho _ [f IH]. exists (S f). cbn. rewrite (R n _ H), (C n _ H'), Ho, IH. reflexivity.
    - intros n s H H' Ho _ [f IH]. exists (S f). cbn. rewrite (R n _ H), (C n _ H'), Ho. exact IH.
    - intros n ss H H' _ [f IH]. exists (S f). cbn. rewrite (R n _ H), (C n _ H'). apply all_texts_ret in IH. rewrite IH. cbn. rewrite join_concat. reflexivity.
    - intros n H H'. exists 1. cbn. rewrite (R n _ H), (C n _ H'). reflexivity.
    - intros n l s H H' Hu Ht. exists 1. cbn. rewrite (R n _ H), (C n _ H'). apply units_iff in Hu. rewrite Hu. cbn. rewrite (print_units_iff _ _ _ Ht). reflexivity.
    - intros n ss H _ [f IH]. exists (S f). cbn. rewrite (R n _ H). apply all_texts_ret in IH. rewrite IH. cbn. rewrite join_concat. reflexivity.
    - intros n H. exists 1. cbn. rewrite (R n _ H). reflexivity.
    - intros n H. exists 1. cbn. rewrite (R n _ H). reflexivity.
    - exists 0. reflexivity.
    - intros n l s ss _ [f IH] _ [g IHl]. exists (f + g). cbn [map]. rewrite (print_mono f (f + g) n s) by (auto; lia). f_equal.
      assert (G : forall k, g <= k -> map (print_object k env) l = map (fun s => Some (Ret s)) ss).
      { intros k Hk. induction Hk; auto. apply (print_more_list m (print_more m)). exact IHHk. }
      apply G. lia.
  Qed.

  Lemma shown_unique n s s' : shown env n s -> shown env n s' -> s = s'.
  Proof.
    intros H H'. apply (proj1 shown_complete) in H. apply (proj1 shown_complete) in H'. destruct H as [f H], H' as [g H'].
    apply (print_mono f (f + g)) in H; [|lia]. apply (print_mono g (f + g)) in H'; [|lia]. congruence.
  Qed.

  Lemma shown_exists : well_founded (part_of env) ->
    (forall n c, c = tx_chars (ob_text (obj_at env n)) -> exists l, has_units c l) -> forall n, exists s, shown env n s.
  Proof.
    intros Hwf Hstr n. induction n as [n IH] using (well_founded_induction Hwf).
    assert (HL : forall l, (forall m, In m l -> part_of env m n) -> exists ss, shown_all env l ss).
    { induction l as [|m l IHl]; intros Hl; [exists []; constructor|]. destruct (IH m (Hl m (or_introl eq_refl))) as [s Hs].
      destruct IHl as [ss Hss]; [intros k Hk; apply Hl; right; auto|]. exists (s :: ss). constructor; auto. }
    pose proof (Hok n) as Hn. pose proof (resolve_value _ Hn) as Hr. pose proof (fun o => resolve_iff _ o Hn) as Hi.
    destruct (resolve (ob_traits (obj_at env n))) as [o|] eqn:E; [|discriminate]. clear Hr. pose proof (proj1 (Hi o) eq_refl) as Hd. clear Hi.
    destruct o.
    - eexists. apply sh_custom. exact Hd.
    - inversion Hd as [|tr s Hc Hs| | |]; subst. destruct s.
      + eexists. apply sh_location; eauto.
      + eexists. apply sh_nullopt; eauto.
      + destruct (ob_optional (obj_at env n)) as [m|] eqn:Eo.
        * destruct (IH m) as [t Ht]; [right; right; left; exact Eo|]. eexists. eapply sh_some; eauto.
        * destruct (IH (nullopt_object env)) as [t Ht]; [right; right; right; repeat split; auto; inversion Hs; auto|]. eexists. eapply sh_none; eauto.
      + destruct (HL (ob_elements (obj_at env n))) as [ss Hss]; [intros m Hm; left; exact Hm|]. eexists. apply sh_tuple; eauto.
      + eexists. apply sh_pointer; eauto.
      + destruct (Hstr n _ eq_refl) as [l Hl]. destruct (unit_text_exists (ob_text (obj_at env n)) l) as [t Ht]. eexists. eapply sh_string; eauto.
    - destruct (HL (ob_range (obj_at env n))) as [ss Hss]; [intros m Hm; right; left; exact Hm|]. eexists. apply sh_range; eauto.
    - eexists. apply sh_format. exact Hd.
    - eexists. apply sh_fallback. exact Hd.
  Qed.

  Lemma in_itself f : forall n s, documented (ob_traits (obj_at env n)) OvRange -> In n (ob_range (obj_at env n)) -> print_object f env n <> Some (Ret s).
  Proof.
    induction f as [|f IH]; intros n s Hd Hin H; [discriminate|]. cbn in H. rewrite (proj2 (resolve_iff _ _ (Hok n)) Hd) in H.
    destruct (all_texts (map (print_object f env) (ob_range (obj_at env n)))) as [[ts| | |]|] eqn:E; try discriminate.
    apply all_texts_ret in E. assert (Hm : In (print_object f env n) (map (print_object f env) (ob_range (obj_at env n)))) by (apply in_map; exact Hin).
    rewrite E in Hm. apply in_map_iff in Hm. destruct Hm as (t & Ht & _). eapply IH; eauto.
  Qed.

  Lemma stands_shown :
    (forall n v, stands_for env n v -> shown env n (print v)) /\ (forall l vs, stand_for env l vs -> shown_all env l (map print vs)).
  Proof.
    apply stands_mut.
    - intros n z Hd Hf. cbn [print]. rewrite <- Hf. apply sh_format. exact Hd.
    - intros n b Hd Hf. cbn [print]. rewrite <- Hf. apply sh_format. exact Hd.
    - intros n s p c l Hd Hi Ht Hu ->. cbn [print]. pose proof (sh_string env n l (string_of_list_ascii (map ascii_of_N l)) Hd Hi) as H.
      rewrite Ht in H. cbn [tx_chars tx_type literal_prefix] in H. apply H; [exact Hu|constructor].
    - intros n t c units Hd Hi Hc Ht Hu. cbn [print]. rewrite join_concat. pose proof (sh_string env n units (String.concat ", " (map (fun u => "0x" ++ hex u) units)) Hd Hi) as H.
      rewrite Ht in H. cbn [tx_chars tx_type] in H. apply H; [exact Hu|constructor; exact Hc].
    - intros n l Hd _ IH. cbn [print]. rewrite join_concat. apply sh_range; auto.
    - intros n l Hd Hi _ IH. cbn [print]. rewrite join_concat. apply sh_tuple; auto.
    - intros n m v Hd Hi Ho _ IH. cbn [print]. eapply sh_some; eauto.
    - intros n Hd Hi Ho Ht. cbn [print]. eapply sh_none; eauto. apply sh_nullopt; rewrite Ht; [eapply doc_internal; [reflexivity|]|]; apply in_nullopt; reflexivity.
    - intros n Hd Hi. cbn [print]. apply sh_pointer; auto.
    - intros n Hd. cbn [print]. apply sh_fallback; auto.
    - intros n Hd. cbn [print]. apply sh_format; auto.
    - intros n Hd. cbn [print]. apply sh_custom; auto.
    - intros n t p c l Hd Hi Hc Ht Hu. cbn [print]. pose proof (sh_string env n l (String.concat "" (map p l)) Hd Hi) as H.
      rewrite Ht in H. cbn [tx_chars tx_type] in H. apply H; [exact Hu|constructor; exact Hc].
    - intros n Hd Hi. cbn [print]. apply sh_location; auto.
    - intros n Hd Hi. cbn [print]. apply sh_nullopt; auto.
    - constructor.
    - intros n l v vs _ IH _ IHl. cbn [map]. constructor; auto.
  Qed.

  (** Everything with a text is one of the values. *)
  Lemma shown_stands : ob_traits (obj_at env (nullopt_object env)) = traits_of TyNullopt ->
    (forall n s, shown env n s -> exists v, stands_for env n v /\ print v = s) /\
    (forall l ss, shown_all env l ss -> exists vs, stand_for env l vs /\ map print vs = ss).
  Proof.
    intros Hnull. assert (HL : forall l ss, (exists vs, stand_for env l vs /\ map print vs = ss) -> exists vs, stand_for env l vs /\ join (map print vs) = String.concat ", " ss).
    { intros l ss (vs & H1 & <-). exists vs. split; [auto|apply join_concat]. }
    apply shown_mut.
    - intros n Hd. eexists. split; [apply sf_custom; auto|reflexivity].
    - intros n Hd Hi. eexists. split; [apply sf_location; auto|reflexivity].
    - intros n Hd Hi. eexists. split; [apply sf_nullopt; auto|reflexivity].
    - intros n m s Hd Hi Ho _ (v & Hv & <-). eexists. split; [eapply sf_some; eauto|reflexivity].
    - intros n s Hd Hi Ho Hs _. eexists. split; [apply sf_none; eauto|]. cbn [print].
      eapply shown_unique; [|exact Hs]. apply sh_nullopt; rewrite Hnull; [eapply doc_internal; [reflexivity|]|]; apply in_nullopt; reflexivity.
    - intros n ss Hd Hi _ IH. apply HL in IH as (vs & H1 & <-). exists (VTuple vs). split; [apply sf_tuple; auto|reflexivity].
    - intros n Hd Hi. eexists. split; [apply sf_pointer; auto|reflexivity].
    - intros n l s Hd Hi Hu Ht. remember (ob_text (obj_at env n)) as x eqn:Ex. destruct Ht as [p c l|t p c l Hc|t c l Hc]; cbn [tx_chars tx_type] in *.
      + eexists. split; [eapply sf_str; eauto|reflexivity].
      + eexists. split; [eapply sf_units; eauto|reflexivity].
      + eexists. split; [eapply sf_wstr; eauto|]. cbn [print]. rewrite join_concat. reflexivity.
    - intros n ss Hd _ IH. apply HL in IH as (vs & H1 & <-). exists (VRange vs). split; [apply sf_range; auto|reflexivity].
    - intros n Hd. eexists. split; [apply sf_formatted; auto|reflexivity].
    - intros n Hd. eexists. split; [apply sf_opaque; auto|reflexivity].
    - exists []. split; [constructor|reflexivity].
    - intros n l s ss _ (v & Hv & <-) _ (vs & Hvs & <-). exists (v :: vs). split; [constructor; auto|reflexivity].
  Qed.
End Texts.
