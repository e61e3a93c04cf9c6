(** * MacroLemmas: reasoning rules for macro expansion. *)

From Verif Require Import Base Macro MacroSpec.
Local Open Scope list_scope.

(** ** Fuel *)

Lemma oall_mono : forall {A B} (f g : A -> option B) l ys,
  (forall x y, f x = Some y -> g x = Some y) -> oall f l = Some ys -> oall g l = Some ys.
Proof.
  intros A B f g l; induction l as [|x l IH]; simpl; intros ys H E; [exact E|].
  destruct (f x) eqn:Ef; [|discriminate]. destruct (oall f l) eqn:El; [|discriminate].
  rewrite (H _ _ Ef), (IH _ H eq_refl). exact E.
Qed.

Lemma scan_S : forall n dis l o, scan n dis l = Some o -> scan (Datatypes.S n) dis l = Some o.
Proof.
  induction n as [|n IH]; intros dis l o H; [discriminate|].
  remember (Datatypes.S n) as m. rewrite Heqm in H. cbn [scan] in H |- *.
  assert (K : forall t l' dis' o', option_map (cons t) (scan n dis' l') = Some o' -> option_map (cons t) (scan m dis' l') = Some o').
  { intros t l' dis' o' K. destruct (scan n dis' l') eqn:E; [|discriminate]. apply IH in E. rewrite E. exact K. }
  destruct l as [|[t|] l']; [exact H| |apply IH; exact H].
  destruct t as [s [|]| | | |]; try (apply K; exact H).
  destruct (lookup s) as [mc|]; [|apply K; exact H].
  destruct (mem s dis); [apply K; exact H|].
  destruct mc as [body|named va body].
  - destruct (subst [] [] false body); [|discriminate]. apply IH; exact H.
  - destruct (lparen dis l') as [[dis1 l1]|]; [|apply K; exact H].
    destruct (collect named va dis1 0 [] [] l1) as [[args [dis2 l2]]|]; [|discriminate].
    destruct (arity named va args) as [raw|]; [|discriminate].
    destruct (oall (fun a => scan n dis2 (map T a)) raw) as [exp|] eqn:Eo; [|discriminate].
    rewrite (oall_mono _ (fun a => scan m dis2 (map T a)) _ _ (fun x y E => IH _ _ _ E) Eo).
    destruct (subst raw exp _ body); [|discriminate]. apply IH; exact H.
Qed.

Lemma scan_mono : forall n m dis l o, n <= m -> scan n dis l = Some o -> scan m dis l = Some o.
Proof. intros n m dis l o L H. induction L; [exact H|]. apply scan_S; exact IHL. Qed.

Definition ex (dis : list string) (l : list inp) (o : list tok) : Prop := exists n, scan n dis l = Some o.

Lemma ex_det : forall dis l o o', ex dis l o -> ex dis l o' -> o = o'.
Proof.
  intros dis l o o' [n H] [m H'].
  apply (scan_mono n (Nat.max n m)) in H; [|lia]. apply (scan_mono m (Nat.max n m)) in H'; [|lia]. congruence.
Qed.

Lemma ex_nil : forall dis, ex dis [] [].
Proof. intros; exists 1; reflexivity. Qed.

Lemma ex_pop : forall s dis l o, ex dis l o -> ex (s :: dis) (Pop :: l) o.
Proof. intros s dis l o [n H]; exists (Datatypes.S n); exact H. Qed.

Lemma ex_keep : forall dis t l o,
  (forall s, t = Id s false -> lookup s = None) -> ex dis l o -> ex dis (T t :: l) (t :: o).
Proof.
  intros dis t l o K [n H]. exists (Datatypes.S n). cbn [scan].
  destruct t as [s [|]| | | |]; try (rewrite H; reflexivity).
  rewrite (K s eq_refl), H. reflexivity.
Qed.

Lemma ex_marked : forall dis s m l o,
  lookup s = Some m -> mem s dis = true -> ex dis l o -> ex dis (T (Id s false) :: l) (Id s true :: o).
Proof. intros dis s m l o L M [n H]. exists (Datatypes.S n). cbn [scan]. rewrite L, M, H. reflexivity. Qed.

Lemma ex_obj : forall dis s body b l o,
  lookup s = Some (Obj body) -> mem s dis = false -> subst [] [] false body = Some b ->
  ex (s :: dis) (map T b ++ Pop :: l) o -> ex dis (T (Id s false) :: l) o.
Proof. intros dis s body b l o L M S [n H]. exists (Datatypes.S n). cbn [scan]. rewrite L, M, S. exact H. Qed.

Lemma ex_nocall : forall dis s named va body l o,
  lookup s = Some (Fun named va body) -> mem s dis = false -> lparen dis l = None ->
  ex dis l o -> ex dis (T (Id s false) :: l) (Id s false :: o).
Proof. intros dis s named va body l o L M P [n H]. exists (Datatypes.S n). cbn [scan]. rewrite L, M, P, H. reflexivity. Qed.

Lemma oall_ex : forall dis raw exp,
  Forall2 (fun a e => ex dis (map T a) e) raw exp -> exists n, oall (fun a => scan n dis (map T a)) raw = Some exp.
Proof.
  intros dis raw exp F. induction F as [|a e raw exp [n H] F [m IH]]; [exists 0; reflexivity|].
  exists (Nat.max n m). cbn [oall].
  rewrite (scan_mono n (Nat.max n m) _ _ _ ltac:(lia) H).
  rewrite (oall_mono _ (fun a => scan (Nat.max n m) dis (map T a)) _ _ (fun x y E => scan_mono m (Nat.max n m) _ _ _ ltac:(lia) E) IH).
  reflexivity.
Qed.

Lemma ex_call : forall dis s named va body l o dis1 l1 args dis2 l2 raw exp b,
  lookup s = Some (Fun named va body) -> mem s dis = false -> lparen dis l = Some (dis1, l1) ->
  collect named va dis1 0 [] [] l1 = Some (args, (dis2, l2)) -> arity named va args = Some raw ->
  Forall2 (fun a e => ex dis2 (map T a) e) raw exp ->
  subst raw exp (va && negb (is_nil (nth named exp []))) body = Some b ->
  ex (s :: dis2) (map T b ++ Pop :: l2) o ->
  ex dis (T (Id s false) :: l) o.
Proof.
  intros dis s named va body l o dis1 l1 args dis2 l2 raw exp b L M P C A F S [n H].
  destruct (oall_ex _ _ _ F) as [m Hm].
  exists (Datatypes.S (Nat.max n m)). cbn [scan]. rewrite L, M, P, C, A.
  rewrite (oall_mono _ (fun a => scan (Nat.max n m) dis2 (map T a)) _ _ (fun x y E => scan_mono m (Nat.max n m) _ _ _ ltac:(lia) E) Hm).
  rewrite S. apply (scan_mono n); [lia|exact H].
Qed.

(** A macro name which ends a replacement list is invoked with the tokens after it. *)
Lemma ex_cross : forall s dis g named va body l o,
  lookup g = Some (Fun named va body) -> g <> s ->
  ex dis (T (Id g false) :: T Lp :: l) o -> ex (s :: dis) (T (Id g false) :: Pop :: T Lp :: l) o \/ mem g dis = true.
Proof.
  intros s dis g named va body l o L N [n H]. destruct (mem g dis) eqn:M; [right; reflexivity|left].
  destruct n as [|n]; [discriminate|]. exists (Datatypes.S n). cbn [scan] in H |- *.
  assert (E : mem g (s :: dis) = false).
  { unfold mem in *; cbn [existsb]. rewrite M. destruct (String.eqb_spec g s); [contradiction|reflexivity]. }
  rewrite L, E. rewrite L, M in H. cbn [lparen tl] in *. exact H.
Qed.

(** ** Compositional form *)

Definition becomes (dis : list string) (x y : list tok) : Prop :=
  forall r o, ex dis r o -> ex dis (map T x ++ r) (y ++ o).

Lemma becomes_ex : forall dis x y, becomes dis x y -> ex dis (map T x) y.
Proof. intros dis x y H. specialize (H [] [] (ex_nil dis)). rewrite !app_nil_r in H. exact H. Qed.

Lemma b_nil : forall dis, becomes dis [] [].
Proof. intros dis r o H; exact H. Qed.

Lemma b_app : forall dis x y x' y', becomes dis x y -> becomes dis x' y' -> becomes dis (x ++ x') (y ++ y').
Proof. intros dis x y x' y' H H' r o E. rewrite map_app, <- !app_assoc. apply H, H', E. Qed.

Lemma b_keep : forall dis t x y, (forall s, t = Id s false -> lookup s = None) -> becomes dis x y -> becomes dis (t :: x) (t :: y).
Proof. intros dis t x y K H r o E. cbn [map app]. apply ex_keep; [exact K|]. apply H, E. Qed.

Lemma in_assoc_none : forall s l, ~ In s (map fst l) -> assoc s l = None.
Proof.
  intros s l; induction l as [|[s' m] l IH]; simpl; intros H; [reflexivity|].
  destruct (String.eqb_spec s s'); [subst; tauto|]. apply IH; tauto.
Qed.

Lemma plain_cons : forall t l, plain (t :: l) -> (forall s, t = Id s false -> lookup s = None) /\ plain l.
Proof.
  intros t l H. split.
  - intros s ->. apply in_assoc_none. apply (H s false). left; reflexivity.
  - intros s u K. apply (H s u). right; exact K.
Qed.

Lemma plain_app : forall a b, plain (a ++ b) <-> plain a /\ plain b.
Proof.
  intros a b. split.
  - intros H. split; intros s u K; apply (H s u), in_or_app; tauto.
  - intros [H H'] s u K. apply in_app_or in K as [K|K]; [apply (H s u K)|apply (H' s u K)].
Qed.

Lemma plain_nil : plain [].
Proof. intros s u []. Qed.

Lemma plain_sym : forall t l, match t with Id _ _ => False | _ => True end -> plain l -> plain (t :: l).
Proof. intros t l N H s u [K|K]; [subst; destruct N|apply (H s u K)]. Qed.

Lemma plain_ident : forall s l, lookup s = None -> plain l -> plain (ident s :: l).
Proof.
  intros s l N H s' u [K|K]; [|apply (H s' u K)]. injection K as <- <-. split; [reflexivity|].
  intros C. revert N C. unfold lookup, macro_name. induction table as [|[x m] tb IH]; simpl; [tauto|].
  destruct (String.eqb_spec s x); [discriminate|]. intros N [C|C]; [congruence|exact (IH N C)].
Qed.

Lemma b_plain : forall dis x, plain x -> becomes dis x x.
Proof.
  intros dis x; induction x as [|t x IH]; intros H; [apply b_nil|].
  apply plain_cons in H as [K H]. apply b_keep; [exact K|apply IH, H].
Qed.

(** The name of a function-like macro without an argument list. *)
Lemma b_name : forall dis s named va body t x y,
  lookup s = Some (Fun named va body) -> mem s dis = false -> t <> Lp ->
  becomes dis (t :: x) y -> becomes dis (Id s false :: t :: x) (Id s false :: y).
Proof.
  intros dis s named va body t x y L M N H r o E. cbn [map app].
  eapply ex_nocall; [exact L|exact M| |apply (H r o E)].
  destruct t; try reflexivity. contradiction.
Qed.

Lemma b_obj : forall dis s body b y,
  lookup s = Some (Obj body) -> mem s dis = false -> subst [] [] false body = Some b ->
  becomes (s :: dis) b y -> becomes dis [Id s false] y.
Proof.
  intros dis s body b y L M S H r o E. cbn [map app]. eapply ex_obj; [exact L|exact M|exact S|].
  apply H. apply ex_pop, E.
Qed.

(** ** Arguments *)

Definition unmarked (dis : list string) (l : list tok) : Prop := forall t, In t l -> mark dis t = t.

Lemma unmarked_app : forall dis a b, unmarked dis (a ++ b) <-> unmarked dis a /\ unmarked dis b.
Proof.
  intros dis a b. unfold unmarked. split.
  - intros H; split; intros t K; apply H, in_or_app; tauto.
  - intros [H H'] t K. apply in_app_or in K as [K|K]; auto.
Qed.

Lemma unmarked_cons : forall dis t l, unmarked dis (t :: l) <-> mark dis t = t /\ unmarked dis l.
Proof. intros dis t l. unfold unmarked. split; [intros H; split; [apply H; left; reflexivity|intros; apply H; right; assumption]|intros [H H'] x [<-|K]; auto]. Qed.

Lemma unmarked_nil : forall dis, unmarked dis [].
Proof. intros dis t []. Qed.

Lemma unmarked_plain : forall dis l, plain l -> unmarked dis l.
Proof.
  intros dis l H t K. destruct t as [s [|]| | | |]; try reflexivity.
  simpl. destruct (H s false K) as [_ N]. rewrite (in_assoc_none s table N : lookup s = None). reflexivity.
Qed.

Lemma mark_free : forall dis s, mem s dis = false -> mark dis (Id s false) = Id s false.
Proof. intros dis s M. simpl. rewrite M. destruct (lookup s); reflexivity. Qed.

Lemma collect_group : forall c a, group c a ->
  forall named va dis d cur args r,
    (c = true -> d <> 0 \/ (va = true /\ length args = named)) -> unmarked dis a ->
    collect named va dis d cur args (map T a ++ r) = collect named va dis d (cur ++ a) args r.
Proof.
  intros c a G; induction G as [c|c t l N1 N2 NC G IH|c a l Ga IHa G IH]; intros named va dis d cur args r H U.
  - rewrite app_nil_r. reflexivity.
  - apply unmarked_cons in U as [Ut U].
    replace (cur ++ t :: l) with ((cur ++ [t]) ++ l) by (rewrite <- app_assoc; reflexivity).
    rewrite <- (IH named va dis d (cur ++ [t]) args r H U).
    destruct t; try congruence; cbn [map app collect].
    + rewrite Ut. reflexivity.
    + destruct (H (NC eq_refl)) as [D|[-> D]].
      * destruct d; [contradiction|]. reflexivity.
      * rewrite D, Nat.eqb_refl. simpl andb. rewrite andb_false_r. reflexivity.
    + reflexivity.
  - apply unmarked_cons in U as [_ U]. apply unmarked_app in U as [Ua U]. apply unmarked_cons in U as [_ U].
    cbn [map app collect]. rewrite map_app, <- app_assoc. rewrite IHa; [|intros; left; discriminate|exact Ua].
    cbn [map app collect]. rewrite (IH named va dis d _ args r H U).
    rewrite <- !app_assoc. reflexivity.
Qed.

(** [args_of named va toks args]: the tokens between the parentheses of an invocation are split into [args]. *)
Definition args_of (named : nat) (va : bool) (toks : list tok) (args : list (list tok)) : Prop :=
  forall dis r, unmarked dis toks -> collect named va dis 0 [] [] (map T toks ++ T Rp :: r) = Some (args, (dis, r)).

(** The same in the middle of the collection. *)
Definition args_from (named : nat) (va : bool) (done : list (list tok)) (toks : list tok) (args : list (list tok)) : Prop :=
  forall dis r, unmarked dis toks -> collect named va dis 0 [] done (map T toks ++ T Rp :: r) = Some (args, (dis, r)).

Lemma args_last : forall named va done a, group false a -> args_from named va done a (done ++ [a]).
Proof. intros named va done a G dis r U. rewrite (collect_group false a G); [reflexivity|discriminate|exact U]. Qed.

Lemma args_va : forall named done a, length done = named -> group true a -> args_from named true done a (done ++ [a]).
Proof. intros named done a L G dis r U. rewrite (collect_group true a G); [reflexivity|right; tauto|exact U]. Qed.

Lemma args_next : forall named va done a toks args,
  group false a -> (va && (length done =? named)) = false -> args_from named va (done ++ [a]) toks args ->
  args_from named va done (a ++ Comma :: toks) args.
Proof.
  intros named va done a toks args G L H dis r U. apply unmarked_app in U as [Ua U]. apply unmarked_cons in U as [_ U].
  rewrite map_app, <- app_assoc. rewrite (collect_group false a G); [|discriminate|exact Ua].
  cbn [map app collect]. rewrite L. simpl. apply (H dis r U).
Qed.

(** ** Invocations *)

Lemma b_call : forall dis s named va body toks args raw exp b y,
  lookup s = Some (Fun named va body) -> mem s dis = false -> unmarked dis toks ->
  args_from named va [] toks args -> arity named va args = Some raw ->
  Forall2 (fun a e => ex dis (map T a) e) raw exp ->
  subst raw exp (va && negb (is_nil (nth named exp []))) body = Some b ->
  becomes (s :: dis) b y -> becomes dis (invoke s toks) y.
Proof.
  intros dis s named va body toks args raw exp b y L M U A R F S H r o E.
  unfold invoke. cbn [map app]. eapply ex_call; [exact L|exact M|reflexivity| |exact R|exact F|exact S|].
  - rewrite map_app, <- app_assoc. apply A. exact U.
  - apply H. apply ex_pop, E.
Qed.

(** An invocation which is replaced by the name of a function-like macro, followed by an argument list. *)
Lemma b_call_name : forall dis s named va body toks args raw exp g gnamed gva gbody rest y,
  lookup s = Some (Fun named va body) -> mem s dis = false -> unmarked dis toks ->
  args_from named va [] toks args -> arity named va args = Some raw ->
  Forall2 (fun a e => ex dis (map T a) e) raw exp ->
  subst raw exp (va && negb (is_nil (nth named exp []))) body = Some [Id g false] ->
  lookup g = Some (Fun gnamed gva gbody) -> g <> s -> mem g dis = false ->
  becomes dis (invoke g rest) y ->
  becomes dis (invoke s toks ++ Lp :: rest ++ [Rp]) y.
Proof.
  intros dis s named va body toks args raw exp g gnamed gva gbody rest y L M U A R F S G N Mg H r o E.
  unfold invoke. cbn [map app]. eapply ex_call; [exact L|exact M|reflexivity| |exact R|exact F|exact S|].
  - rewrite !map_app, <- !app_assoc. apply A. exact U.
  - specialize (H r o E). unfold invoke in H. cbn [map app] in H.
    cbn [map app].
    destruct (ex_cross s dis g _ _ _ _ _ G N H) as [K|K]; [exact K|congruence].
Qed.

(** ** The macros being replaced *)

Definition free (dis names : list string) : Prop := forall s, In s names -> mem s dis = false.

Lemma free_in : forall dis names s, free dis names -> mem s names = true -> mem s dis = false.
Proof.
  intros dis names s F H. apply F. unfold mem in H. apply existsb_exists in H as [x [K E]].
  apply String.eqb_eq in E. subst. exact K.
Qed.

Lemma free_sub : forall dis names names', free dis names -> forallb (fun s => mem s names) names' = true -> free dis names'.
Proof. intros dis names names' F H s K. apply (free_in dis names s F). rewrite forallb_forall in H. apply H, K. Qed.

Lemma free_cons : forall dis names s, free dis names -> mem s names = false -> free (s :: dis) names.
Proof.
  intros dis names s F H x K. pose proof (F x K) as Fx. unfold mem in *. cbn [existsb]. rewrite Fx, orb_false_r.
  destruct (String.eqb_spec x s) as [->|N]; [|reflexivity].
  rewrite <- H. symmetry. apply existsb_exists. exists s. split; [exact K|apply String.eqb_refl].
Qed.
