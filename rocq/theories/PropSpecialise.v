(** * PropSpecialise: C91 and C92, the template specialisations one by one, and the signatures a mock can be called through *)

From Verif Require Import Base Signature Specialise World.

(** ** C91 *)

(** The function type of a signature. *)
Definition fun_type (s : signature) : targ := TFun (sg_ret s) (sg_params s) (mkQuals (sg_variadic s) (sg_const s) false (sg_ref s) (sg_noexcept s)).

Ltac all_quals q := destruct q as [[] [] [] [] []].

(** Every function type which is not volatile is matched by exactly one specialisation of each trait, which changes nothing but what the
    name of the trait says. *)
Theorem C91_add_noexcept : forall r ps q, q_volatile q = false ->
  t_add_noexcept (TFun r ps q) = Has (TFun r ps (mkQuals (q_variadic q) (q_const q) false (q_ref q) true)).
Proof. intros r ps q. all_quals q; intros [=]; reflexivity. Qed.
Theorem C91_remove_noexcept : forall r ps q, q_volatile q = false ->
  t_remove_noexcept (TFun r ps q) = Has (TFun r ps (mkQuals (q_variadic q) (q_const q) false (q_ref q) false)).
Proof. intros r ps q. all_quals q; intros [=]; reflexivity. Qed.
Theorem C91_decay : forall r ps q, q_volatile q = false ->
  t_decay (TFun r ps q) = Has (TFun r ps (mkQuals (q_variadic q) false false RefNone false)).
Proof. intros r ps q. all_quals q; intros [=]; reflexivity. Qed.
Theorem C91_one_specialisation : forall rows q, In rows [add_noexcept_rows; remove_noexcept_rows; decay_rows] ->
  (q_volatile q = false -> exists r, filter (fun x => quals_eqb (fst x) q) rows = [r] /\ fst r = q /\ q_variadic (snd r) = q_variadic q /\ q_volatile (snd r) = false) /\
  (q_volatile q = true -> filter (fun x => quals_eqb (fst x) q) rows = []).
Proof.
  intros rows q [<-|[<-|[<-|[]]]]; split; all_quals q; intros [=]; try reflexivity; eexists; (split; [vm_compute; reflexivity|]); repeat split.
Qed.
(** All other types have none. *)
Theorem C91_no_specialisation : forall trait t, In trait [t_add_noexcept; t_remove_noexcept; t_decay] ->
  match t with TFun _ _ q => q_volatile q = true | TOther _ => True end -> trait t = NoMember.
Proof. intros trait t [<-|[<-|[<-|[]]]]; destruct t as [r ps q|t]; try reflexivity; all_quals q; intros [=]; reflexivity. Qed.

(** The specialisations compute what Signature.v says. *)
Theorem C91_as_modelled : forall s,
  t_add_noexcept (fun_type s) = Has (fun_type (add_noexcept s)) /\ t_remove_noexcept (fun_type s) = Has (fun_type (remove_noexcept s)) /\
  t_decay (fun_type s) = Has (fun_type (decay s)) /\ t_return_type (fun_type s) = Has (return_type s).
Proof. intros [r ps v c f n]. destruct v, c, f, n; repeat split. Qed.

(** Parameter types and the call information exist for signatures which are not variadic; the trait of a variadic signature inherits from itself. *)
Theorem C91_params : forall s,
  (sg_variadic s = false ->
    t_param_list (fun_type s) = Has (sg_params s) /\ t_info (fun_type s) = Has (sg_ret s, sg_params s) /\
    forall i, t_param_type i (fun_type s) = match nth_error (sg_params s) i with Some p => Has p | None => HardError end) /\
  (sg_variadic s = true -> t_param_list (fun_type s) = HardError /\ t_info (fun_type s) = HardError /\ forall i, t_param_type i (fun_type s) = HardError) /\
  (forall i t, t_param_list (TOther t) = NoMember /\ t_return_type (TOther t) = NoMember /\ t_param_type i (TOther t) = NoMember /\ t_info (TOther t) = HardError).
Proof.
  intros [r ps v c f n]. split; [|split]; intros; [| |repeat split].
  - cbn in H. subst v. destruct c, f, n; repeat split.
  - cbn in H. subst v. destruct c, f, n; repeat split.
Qed.

(** A volatile function type is a function type without decayed type. *)
Theorem C91_volatile : forall r ps q i, q_volatile q = true ->
  t_return_type (TFun r ps q) = HardError /\ t_param_list (TFun r ps q) = HardError /\ t_param_type i (TFun r ps q) = HardError /\
  t_info (TFun r ps q) = HardError.
Proof. intros r ps q i. all_quals q; intros [=]; repeat split. Qed.

(** The specialisations for pairs of signatures. *)
Lemma list_ty_eqb_refl a : list_ty_eqb a a = true.
Proof. unfold list_ty_eqb. destruct (list_eq_dec Nat.eq_dec a a); congruence. Qed.
Lemma list_ty_eqb_sym a b : list_ty_eqb a b = list_ty_eqb b a.
Proof. unfold list_ty_eqb. destruct (list_eq_dec Nat.eq_dec a b), (list_eq_dec Nat.eq_dec b a); congruence. Qed.

Definition usable (t : targ) : bool := match t with TFun _ _ q => negb (q_volatile q) | TOther _ => false end.
Definition variadic (t : targ) : bool := match t with TFun _ _ q => q_variadic q | TOther _ => false end.
Definition params_of (t : targ) : list ty := match t with TFun _ ps _ => ps | TOther _ => [] end.
(** The constraint which compares the parameters: types without a decayed type do not satisfy it, variadic ones are an error. *)
Theorem C91_constraint : forall a b,
  t_params_differ a b =
    if negb (usable a && usable b) then Has false
    else if variadic a || variadic b then HardError
    else Has (if list_eq_dec Nat.eq_dec (params_of a) (params_of b) then false else true).
Proof.
  assert (D : forall t, usable t = true -> exists ps v, t_decay t = Has (TFun (match t with TFun r _ _ => r | _ => 0 end) ps (qs v false RefNone false)) /\
    ps = params_of t /\ v = variadic t).
  { intros [r ps q|t] U; [|discriminate U]. apply negb_true_iff in U. exists ps, (q_variadic q). rewrite (C91_decay r ps q U). auto. }
  assert (N : forall t, usable t = false -> t_decay t = NoMember).
  { intros t U. apply (C91_no_specialisation t_decay t); [right; right; left; reflexivity|]. destruct t as [r ps q|t]; [|exact Logic.I].
    cbn [usable] in U. apply negb_false_iff, U. }
  assert (H : forall t, usable t = true -> t_decay t <> HardError) by (intros t U; destruct (D t U) as (? & ? & -> & _); discriminate).
  intros a b. unfold t_params_differ. destruct (usable a) eqn:A, (usable b) eqn:B; cbn [andb negb].
  - destruct (D a A) as (ps & v & -> & -> & ->), (D b B) as (ps' & v' & -> & -> & ->).
    destruct (variadic a), (variadic b); cbn [orb]; try reflexivity.
    change (Has (negb (list_ty_eqb (params_of a) (params_of b))) = Has (if list_eq_dec Nat.eq_dec (params_of a) (params_of b) then false else true)).
    f_equal. destruct (list_eq_dec Nat.eq_dec (params_of a) (params_of b)) as [->|Y]; [rewrite list_ty_eqb_refl; reflexivity|].
    destruct (list_ty_eqb (params_of a) (params_of b)) eqn:Z; [|reflexivity]. destruct Y. unfold list_ty_eqb in Z. destruct (list_eq_dec Nat.eq_dec (params_of a) (params_of b)); [assumption|discriminate Z].
  - rewrite (N b B). destruct (D a A) as (ps & v & -> & _). reflexivity.
  - rewrite (N a A). destruct (D b B) as (ps & v & -> & _). reflexivity.
  - rewrite (N a A), (N b B). reflexivity.
Qed.

Theorem C91_overloadable : forall a b,
  (sg_variadic a = false -> sg_variadic b = false -> t_overloadable (fun_type a) (fun_type b) = Has (is_overloadable_with a b)) /\
  (sg_variadic a = true \/ sg_variadic b = true -> t_overloadable (fun_type a) (fun_type b) = HardError) /\
  (forall x y, is_function x = false \/ is_function y = false -> t_overloadable x y = HardError).
Proof.
  intros [r ps v c f n] [r' ps' v' c' f' n']. split; [|split].
  - intros V V'. cbn in V, V'. subst v v'. unfold t_overloadable, is_overloadable_with, fun_type, sg_variadic, sg_const, sg_ref, sg_noexcept, sg_ret, sg_params.
    rewrite !C91_remove_noexcept by reflexivity. unfold needed, t_detail_overloadable, t_params_differ.
    rewrite !C91_decay by reflexivity. unfold t_overloadable_reversed, matching_rows, detail_overloadable, detail_overloadable_reversed, overloadable_table_applies, remove_noexcept, decay.
    cbn [q_variadic q_const q_volatile q_ref q_noexcept sg_params sg_variadic sg_const sg_ref sg_noexcept sg_ret].
    unfold t_param_list, is_function, by_decay. cbn [plain quals_eqb].
    change (plain (mkQuals false false false RefNone false)) with true. cbv iota beta.
    rewrite (list_ty_eqb_sym ps' ps). destruct (list_ty_eqb ps ps'); destruct c, f, c', f'; reflexivity.
  - intros V. unfold t_overloadable, fun_type. rewrite !C91_remove_noexcept by reflexivity. unfold needed, t_detail_overloadable, t_params_differ.
    rewrite !C91_decay by reflexivity. cbn in V. cbn [q_variadic sg_variadic sg_const sg_ref sg_noexcept sg_ret sg_params].
    destruct v, v'; try reflexivity; destruct V; discriminate.
  - intros x y H. unfold t_overloadable. destruct x as [? ? q|]; [|reflexivity]. destruct y as [? ? q'|]; [destruct H; discriminate|].
    destruct (t_remove_noexcept _); reflexivity.
Qed.

Theorem C91_overload_set : forall l,
  Forall (fun s => sg_variadic s = false) l -> l <> [] -> t_overload_set (map fun_type l) = Has (is_overload_set l).
Proof.
  intros [|s l] F N; [congruence|]. clear N. simpl map. cbn [t_overload_set is_overload_set]. revert s F.
  induction l as [|t l IH]; intros s F; [reflexivity|]. inversion F as [|? ? Fs F']; subst. inversion F' as [|? ? Ft F'']; subst.
  cbn [map t_overload_set_from overload_set_from]. cbn [conjunction].
  rewrite (IH s) by (constructor; assumption). rewrite (IH t) by (constructor; assumption).
  destruct (C91_overloadable s t) as (O & _). rewrite (O Fs Ft). cbn [needed].
  destruct (is_overloadable_with s t), (overload_set_from s l), (overload_set_from t l); reflexivity.
Qed.
(** With a variadic signature (and another one) the answer is never [true]. *)
Lemma conjunction_true a b c : conjunction [a; b; c] = Has true -> a = Has true /\ b = Has true /\ c = Has true.
Proof. destruct a as [[]| |], b as [[]| |], c as [[]| |]; cbn; intros [=]; auto. Qed.
Lemma set_from_cons s t l :
  t_overload_set_from s (t :: l) = conjunction [t_overloadable s t; t_overload_set_from s l; t_overload_set_from t l].
Proof. reflexivity. Qed.
Lemma overloadable_true s t : t_overloadable (fun_type s) (fun_type t) = Has true -> sg_variadic s = false /\ sg_variadic t = false.
Proof.
  intros E. destruct (C91_overloadable s t) as (_ & V & _). destruct (sg_variadic s); [rewrite (V (or_introl eq_refl)) in E; discriminate E|].
  destruct (sg_variadic t); [rewrite (V (or_intror eq_refl)) in E; discriminate E|]. auto.
Qed.
Lemma set_cons s l : t_overload_set (s :: l) = t_overload_set_from s l.
Proof. reflexivity. Qed.
Lemma set_from_true l : forall s, t_overload_set_from (fun_type s) (map fun_type l) = Has true -> l <> [] -> Forall (fun s => sg_variadic s = false) (s :: l).
Proof.
  induction l as [|t l IH]; intros s H N; [congruence|]. rewrite map_cons, set_from_cons in H. apply conjunction_true in H. destruct H as (A & B & C).
  apply overloadable_true in A. destruct A as [A A']. destruct l as [|u l]; [repeat constructor; assumption|].
  constructor; [exact A|]. apply IH; [exact C|intros [=]].
Qed.
Theorem C91_variadic_sets : forall l, 1 < length l -> t_overload_set (map fun_type l) = Has true -> Forall (fun s => sg_variadic s = false) l.
Proof. intros [|s [|t l]] L H; simpl in L; [lia|lia|]. rewrite map_cons, set_cons in H. apply set_from_true; [exact H|intros [=]]. Qed.

(** SuperT names the base class exactly if its category and its constness are those of the class itself. *)
Theorem C91_super : forall f, super_ok f = true <-> fe_category f = fe_super_category f /\ fe_constness f = fe_super_constness f.
Proof.
  intros [p c k c' k' x y z]. unfold super_ok. cbn [fe_category fe_super_category fe_constness fe_super_constness].
  destruct c, c'; destruct k, k'; (split; [intros H; try discriminate H; split; reflexivity|intros [H H']; try discriminate H; try discriminate H'; reflexivity]).
Qed.

(** The specialisations of MockFrontend: there is exactly one for each signature which is not variadic. It hands on the value category and
    constness which its qualifiers stand for, and operator() and expect_call have the qualifiers of the signature; only operator() is noexcept. *)
Inductive category_of : refq -> category -> Prop :=
| any_category : category_of RefNone CatAny
| lvalue_category : category_of RefL CatL
| rvalue_category : category_of RefR CatR.
Theorem C91_frontend : forall s,
  match t_frontend (fun_type s) with
  | Has f => sg_variadic s = false /\ category_of (sg_ref s) (fe_category f) /\ fe_constness f = (if sg_const s then AsConst else NonConst) /\
      fe_super_category f = fe_category f /\ fe_super_constness f = fe_constness f /\
      fun_type s = TFun (sg_ret s) (sg_params s) (fe_signature f) /\
      fe_call f = fe_signature f /\
      fe_expect f = mkQuals false (sg_const s) false (sg_ref s) false
  | NoMember => sg_variadic s = true
  | HardError => False
  end.
Proof. intros [r ps v c f n]. destruct v, c, f, n; vm_compute; repeat split; constructor. Qed.
Theorem C91_frontend_as_modelled : forall s f, t_frontend (fun_type s) = Has f ->
  fe_category f = frontend_category s /\ fe_constness f = frontend_constness s /\ q_noexcept (fe_call f) = frontend_noexcept s.
Proof. intros [r ps v c f n] fe. destruct v, c, f, n; vm_compute; intros [= <-]; repeat split. Qed.
Theorem C91_no_frontend : forall t, match t with TFun _ _ q => q_volatile q = true | TOther _ => True end -> t_frontend t = NoMember.
Proof. intros [r ps q|t]; [|reflexivity]. all_quals q; intros [=]; reflexivity. Qed.

(** The class Mock<sigs...> exists iff the model creates such mocks (World.v). *)
Lemma fun_type_inj a b : fun_type a = fun_type b -> a = b.
Proof. destruct a, b. unfold fun_type. cbn. intros [= -> -> -> -> -> ->]. reflexivity. Qed.
Lemma overloadable_irrefl s : is_overloadable_with s s = false.
Proof.
  destruct s as [r ps v c f n]. unfold is_overloadable_with, detail_overloadable, detail_overloadable_reversed, overloadable_table_applies, remove_noexcept, decay.
  cbn [sg_params sg_variadic sg_const sg_ref sg_noexcept]. rewrite list_ty_eqb_refl. destruct v, c, f; reflexivity.
Qed.
Lemma set_from_distinct l : forall s, overload_set_from s l = true -> distinct (map fun_type (s :: l)) = true.
Proof.
  induction l as [|t l IH]; intros s H; [reflexivity|]. cbn [overload_set_from] in H. apply andb_prop in H as [H C]. apply andb_prop in H as [A B].
  specialize (IH t C) as D. specialize (IH s B) as D'. cbn [map distinct] in *. rewrite D. apply andb_prop in D' as [D' _].
  apply andb_true_intro. split; [|reflexivity]. cbn [existsb]. apply negb_true_iff. apply orb_false_iff. split.
  - destruct (targ_eq_dec (fun_type s) (fun_type t)) as [E|]; [|reflexivity]. apply fun_type_inj in E. subst t. rewrite overloadable_irrefl in A. discriminate.
  - apply negb_true_iff in D'. exact D'.
Qed.
Lemma frontends_all l : Forall (fun s => sg_variadic s = false) l ->
  exists fs, all_inst t_frontend (map fun_type l) = Has fs /\ Forall2 (fun s f => t_frontend (fun_type s) = Has f) l fs /\ forallb super_ok fs = true.
Proof.
  induction 1 as [|s l V F (fs & E & G & K)]; [exists []; repeat constructor|].
  pose proof (C91_frontend s) as C. destruct (t_frontend (fun_type s)) as [f| |] eqn:D; [|congruence|contradiction].
  exists (f :: fs). cbn [map all_inst]. rewrite D. cbn [needed]. rewrite E. split; [reflexivity|]. split; [constructor; assumption|].
  cbn [forallb]. rewrite K. unfold super_ok. destruct C as (_ & _ & _ & -> & -> & _). rewrite !N.eqb_refl. reflexivity.
Qed.
(** Bases are distinct iff no type occurs twice; sets of overloads always are. *)
Theorem C91_distinct : forall l, (distinct l = true <-> NoDup l) /\ (forall sigs, is_overload_set sigs = true -> NoDup (map fun_type sigs)).
Proof.
  assert (D : forall l, distinct l = true <-> NoDup l).
  { induction l as [|t l IH]; [split; [constructor|reflexivity]|]. cbn [distinct]. rewrite andb_true_iff, IH, negb_true_iff. split.
    - intros [A B]. constructor; [|exact B]. intros I. rewrite <- not_true_iff_false in A. apply A. apply existsb_exists. exists t. split; [exact I|].
      destruct (targ_eq_dec t t); [reflexivity|contradiction].
    - intros H. inversion H as [|t' l' A B]; subst. split; [|exact B]. apply not_true_iff_false. intros E. apply existsb_exists in E as (u & I & E).
      destruct (targ_eq_dec t u) as [->|]; [contradiction|discriminate]. }
  intros l. split; [apply D|]. intros [|s sigs] H; [constructor|]. apply D. apply set_from_distinct. exact H.
Qed.
Print Assumptions C91_distinct.
Theorem C91_mock : forall l,
  (is_overload_set l && forallb (fun s => negb (sg_variadic s)) l = true ->
    exists fs, t_mock (map fun_type l) = Has fs /\ Forall2 (fun s f => t_frontend (fun_type s) = Has f) l fs) /\
  (is_overload_set l && forallb (fun s => negb (sg_variadic s)) l = false -> t_mock (map fun_type l) = HardError).
Proof.
  intros l. split.
  - intros H. apply andb_prop in H as [S V]. assert (F : Forall (fun s => sg_variadic s = false) l).
    { apply Forall_forall. intros s I. rewrite forallb_forall in V. specialize (V s I). destruct (sg_variadic s); [discriminate|reflexivity]. }
    destruct l as [|s l]; [discriminate S|]. destruct (frontends_all _ F) as (fs & E & G & K). exists fs. split; [|exact G].
    unfold t_mock. rewrite C91_overload_set by (try assumption; discriminate). cbn [needed]. rewrite S.
    rewrite (set_from_distinct l s S). cbn [andb]. rewrite E. cbn [needed]. rewrite K. reflexivity.
  - intros H. unfold t_mock. destruct l as [|s l]; [reflexivity|].
    destruct (t_overload_set (map fun_type (s :: l))) as [[]| |] eqn:E; cbn [needed]; try reflexivity.
    assert (D : exists t, In t (s :: l) /\ sg_variadic t = true).
    { destruct (forallb (fun s => negb (sg_variadic s)) (s :: l)) eqn:V.
      - rewrite andb_true_r in H. rewrite C91_overload_set in E; [congruence| |discriminate].
        apply Forall_forall. intros t I. rewrite forallb_forall in V. specialize (V t I). destruct (sg_variadic t); [discriminate|reflexivity].
      - apply not_true_iff_false in V. rewrite forallb_forall in V.
        assert (X : existsb (fun s => sg_variadic s) (s :: l) = true).
        { apply not_false_iff_true. intros N. apply V. intros t I. destruct (sg_variadic t) eqn:T; [|reflexivity].
          exfalso. assert (existsb (fun s => sg_variadic s) (s :: l) = true) by (apply existsb_exists; exists t; auto). congruence. }
        apply existsb_exists in X. destruct X as (t & I & T). exists t. auto. }
    destruct D as (t & I & T).
    assert (L : l = []).
    { destruct l as [|u l]; [reflexivity|]. assert (F : Forall (fun s => sg_variadic s = false) (s :: u :: l)) by (apply C91_variadic_sets; [simpl; lia|exact E]).
      rewrite Forall_forall in F. specialize (F t I). congruence. }
    subst l. destruct I as [->|[]]. pose proof (C91_frontend t) as C. cbn [map]. 
    destruct (t_frontend (fun_type t)) as [f| |] eqn:Q; [destruct C as (C & _); congruence| |contradiction].
    cbn [all_inst]. rewrite Q. cbn [needed]. destruct (true && distinct [fun_type t]); reflexivity.
Qed.
Theorem C91_new_mock : forall w l, step w (ONewMock l) = Invalid <-> t_mock (map fun_type l) = HardError.
Proof.
  intros w l. destruct (C91_mock l) as [Y N]. cbn [step].
  destruct (is_overload_set l && forallb (fun s => negb (sg_variadic s)) l) eqn:E; [|tauto].
  destruct (Y eq_refl) as (fs & -> & _). split; discriminate.
Qed.

(** Exactly the unsigned types of 1, 2, 4 and 8 bytes. *)
Theorem C91_uint : forall n m, t_uint_with_size n = Has m <-> m = n /\ (n = 1 \/ n = 2 \/ n = 4 \/ n = 8).
Proof. intros n m. do 9 (destruct n as [|n]; [cbv; split; [intros [=]; subst; auto|intros [-> H]; repeat destruct H as [H|H]; try discriminate H; reflexivity]|]). 
  split; [discriminate|]. intros [_ H]. lia. Qed.

(** ** C92 *)

(** A parameter whose type is std::reference_wrapper<T>, or a reference to one, const or not. *)
Inductive takes_wrapper : ptype -> Prop :=
| takes_itself t : takes_wrapper (PWrapper t)
| takes_const t : takes_wrapper (PConst (PWrapper t))
| takes_lref t : takes_wrapper (PLRef (PWrapper t))
| takes_const_lref t : takes_wrapper (PLRef (PConst (PWrapper t)))
| takes_rref t : takes_wrapper (PRRef (PWrapper t))
| takes_const_rref t : takes_wrapper (PRRef (PConst (PWrapper t))).

Fixpoint depth (t : ptype) : nat := match t with PNamed _ => 0 | PWrapper u | PConst u | PLRef u | PRRef u => S (depth u) end.
Lemma smaller_wrapper t : t <> PWrapper t.
Proof. intros E. apply (f_equal depth) in E. cbn in E. lia. Qed.
Lemma smaller_const t : t <> PConst (PWrapper t).
Proof. intros E. apply (f_equal depth) in E. cbn in E. lia. Qed.

(** operator() of a mock can be instantiated iff no parameter takes a reference wrapper; then the arguments are handed on as references to
    the parameters themselves. *)
Theorem C92_call_compiles : forall params,
  call_compiles params = true <-> Forall (fun p => ~ takes_wrapper p) params.
Proof.
  intros params. unfold call_compiles, arg_list. destruct (list_eq_dec ptype_eq_dec (map std_ref params) (map remove_reference params)) as [E|N].
  - split; [intros _|reflexivity]. induction params as [|p ps IH]; [constructor|]. injection E as E E'. constructor; [|apply IH, E'].
    intros W. destruct W; unfold std_ref in E; cbn in E; try (apply (smaller_wrapper t E)); apply (smaller_const t E).
  - split; [discriminate|]. intros F. exfalso. apply N. clear N. induction F as [|p ps H F IH]; [reflexivity|]. cbn [map]. f_equal; [|exact IH].
    unfold std_ref. destruct (remove_const (remove_reference p)) as [n|t|t|t|t] eqn:E; try reflexivity. exfalso. apply H.
    destruct p as [n|u|u|u|u]; cbn in E.
    + discriminate.
    + constructor.
    + subst u. constructor.
    + destruct u; cbn in E; try discriminate; [constructor|subst; constructor].
    + destruct u; cbn in E; try discriminate; [constructor|subst; constructor].
Qed.

(** A mock "accepts any valid signature" (Mock.hpp 567): the class exists for all of them which are not variadic, but it cannot be called
    if a parameter is a std::reference_wrapper. *)
Theorem C92_any_signature_refuted :
  exists params (s : signature), sg_params s = seq 1 (length params) /\ sg_variadic s = false /\ (exists fs, t_mock [fun_type s] = Has fs) /\ call_compiles params = false.
Proof.
  exists [PNamed 0; PLRef (PConst (PWrapper (PNamed 0)))], (mkSig 0 [1; 2] false false RefNone false).
  split; [reflexivity|]. split; [reflexivity|]. split; [|reflexivity]. eexists. vm_compute. reflexivity.
Qed.

(** ** Examples *)

Example traits_of_a_type :
  t_decay (TFun 3 [1; 2] (mkQuals true true false RefR true)) = Has (TFun 3 [1; 2] (mkQuals true false false RefNone false)) /\
  t_decay (TFun 3 [1; 2] (mkQuals true true true RefR true)) = NoMember /\
  t_param_type 1 (TFun 3 [1; 2] (mkQuals false true false RefR true)) = Has 2 /\ t_param_type 2 (TFun 3 [1; 2] (mkQuals false true false RefR true)) = HardError.
Proof. repeat split. Qed.
(** The README's kind of overload set: [void(int)], [void(int) const], [int(int, int) noexcept]. *)
Example mock_of_three :
  exists fs, t_mock (map fun_type [mkSig 0 [1] false false RefNone false; mkSig 0 [1] false true RefNone false; mkSig 1 [1; 1] false false RefNone true]) = Has fs /\
    map (fun f => (fe_category f, fe_constness f, q_noexcept (fe_call f))) fs = [(CatAny, NonConst, false); (CatAny, AsConst, false); (CatAny, NonConst, true)].
Proof. eexists. split; vm_compute; reflexivity. Qed.
Example variadic_pair : t_overload_set (map fun_type [mkSig 0 [1] true false RefNone false; mkSig 0 [] false false RefNone false]) = HardError.
Proof. reflexivity. Qed.
Example mixed_params : call_compiles [PNamed 1; PLRef (PNamed 2); PRRef (PConst (PNamed 3)); PLRef (PConst (PNamed 4))] = true.
Proof. reflexivity. Qed.

Print Assumptions C91_add_noexcept.
Print Assumptions C91_remove_noexcept.
Print Assumptions C91_decay.
Print Assumptions C91_one_specialisation.
Print Assumptions C91_no_specialisation.
Print Assumptions C91_as_modelled.
Print Assumptions C91_params.
Print Assumptions C91_volatile.
Print Assumptions C91_overloadable.
Print Assumptions C91_overload_set.
Print Assumptions C91_variadic_sets.
Print Assumptions C91_frontend.
Print Assumptions C91_frontend_as_modelled.
Print Assumptions C91_super.
Print Assumptions C91_constraint.
Print Assumptions C91_no_frontend.
Print Assumptions C91_mock.
Print Assumptions C91_new_mock.
Print Assumptions C91_uint.
Print Assumptions C92_call_compiles.
Print Assumptions C92_any_signature_refuted.
