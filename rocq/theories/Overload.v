(** * Overload: which overload of a mock a call expression and an expect_call expression select.
    Model of the operator() and expect_call declarations of the twelve MockFrontend specialisations (Mock.hpp 64-519) and of their
    combination by using-declarations (Mock.hpp 595-606), together with the part of the language's overload resolution ([over.match])
    which decides between them. *)

From Verif Require Import Base Signature Printer Strings.

(** The object expression a mock is used through (the qualifiers of operator() and expect_call, Mock.hpp 85-566): is its type const, is it an rvalue. Simplification: no volatile. *)
Record object_expr : Type := mkObject {
  ob_const : bool;
  ob_rvalue : bool
}.

(** What the program's types say about an argument expression (numbered like types) and a parameter type: is there an implicit conversion,
    is the conversion to the first type better than the one to the second ([over.ics.rank]), and the facts make_arg_matcher
    (ExpectationBuilder.hpp 197-221) looks at. [la_location]: the type [const std::source_location&]. Simplification: an argument which
    satisfies make_arg_matcher yields a matcher for the parameter, i.e. the second half of requirement_for (ExpectationBuilder.hpp 231)
    holds. *)
Record language : Type := mkLanguage {
  la_converts : nat -> ty -> bool;
  la_better : nat -> ty -> ty -> bool;
  la_traits : nat -> ty -> arg_traits;
  la_location : ty
}.

(** Binding of the implicit object parameter ([over.match.funcs]): the functions introduced by using-declarations (Mock.hpp 602-605) are
    members of the mock for this purpose. Without ref-qualifier rvalues bind as well; a [const &] function accepts rvalues too. *)
Definition binds (o : object_expr) (s : signature) : bool :=
  implb (ob_const o) (sg_const s)
  && match sg_ref s with
     | RefNone => true
     | RefL => negb (ob_rvalue o) || sg_const s
     | RefR => ob_rvalue o
     end.

(** Ranking of two bindings of the implicit object parameter ([over.ics.rank] 3.2.3, then 3.2.6): a binding of an rvalue reference to an
    rvalue is better than the one of an lvalue reference, unless one of them has no ref-qualifier; else the less qualified is better. *)
Definition rvalue_rule (o : object_expr) (a b : signature) : bool :=
  ob_rvalue o && refq_eqb (sg_ref a) RefR && refq_eqb (sg_ref b) RefL.
Definition better_object (o : object_expr) (a b : signature) : bool :=
  if rvalue_rule o a b then true
  else if rvalue_rule o b a then false
  else negb (sg_const a) && sg_const b.

(** The parameters of operator(): the ones of the signature, then the defaulted location; Mock.hpp 83, 120, 157, 194, 231, 268, 305, 345, 382,
    422, 459, 499. *)
Definition call_params (la : language) (s : signature) : list ty := sg_params s ++ [la_location la].

(** Each argument can be converted to its parameter; parameters may be left over. *)
Fixpoint converts_all (la : language) (args : list nat) (ps : list ty) : bool :=
  match args, ps with
  | [], _ => true
  | a :: args', p :: ps' => la_converts la a p && converts_all la args' ps'
  | _ :: _, [] => false
  end.

(** Some argument is converted better to its parameter in the first list. *)
Fixpoint some_better (la : language) (args : list nat) (ps qs : list ty) : bool :=
  match args, ps, qs with
  | a :: args', p :: ps', q :: qs' => la_better la a p q || some_better la args' ps' qs'
  | _, _, _ => false
  end.

(** Viable functions for a call (operator() brought together by the using declarations, Mock.hpp 602, 604; [over.match.viable]): only the location may be left out. *)
Definition call_viable (la : language) (o : object_expr) (args : list nat) (s : signature) : bool :=
  binds o s && (length (sg_params s) <=? length args)%nat && converts_all la args (call_params la s).

(** A better function for a call ([over.match.best]): the object counts like a further argument; none is a template. *)
Definition call_better (la : language) (o : object_expr) (args : list nat) (a b : signature) : bool :=
  negb (better_object o b a) && negb (some_better la args (call_params la b) (call_params la a))
  && (better_object o a b || some_better la args (call_params la a) (call_params la b)).

(** [requires (... && requirement_for<Args, Params>)], Mock.hpp 91-95 etc.: packs of different lengths are a substitution failure. *)
Fixpoint requirements (la : language) (args : list nat) (ps : list ty) : list arg_rule :=
  match args, ps with
  | a :: args', p :: ps' => make_arg_matcher (la_traits la a p) :: requirements la args' ps'
  | _, _ => []
  end.
Definition rule_ok (r : arg_rule) : bool :=
  match r with UseMatcher | UseStrEq | UseEq => true | NoOverload | HardError => false end.
Definition rule_hard (r : arg_rule) : bool :=
  match r with HardError => true | _ => false end.

(** Viable specialisations of expect_call, Mock.hpp 92-94 and its siblings, brought together at 603, 605. *)
Definition expect_viable (la : language) (o : object_expr) (args : list nat) (s : signature) : bool :=
  binds o s && (length args =? length (sg_params s))%nat && forallb rule_ok (requirements la args (sg_params s)).

(** Checking the constraint is a hard error for strings of different character types (C56). The constraint is checked during
    deduction, before the object is looked at. *)
Definition expect_hard (la : language) (args : list nat) (s : signature) : bool :=
  (length args =? length (sg_params s))%nat && existsb rule_hard (requirements la args (sg_params s)).

(** All specialisations have the parameters [Args&&...], so only the object distinguishes them. None of the templates is more
    specialised; their constraints are atomic and about different [Params], so none is more constrained. *)
Definition expect_better (o : object_expr) (a b : signature) : bool := better_object o a b.

Inductive resolution : Type :=
| Chosen (i : nat)      (* this overload *)
| Ambiguous             (* ill-formed: several viable functions, none of them best *)
| NotViable             (* ill-formed: no viable function *)
| IllFormed.            (* a hard error during the resolution *)

(** The best viable function ([over.match.best]): better than every other viable function. *)
Definition is_best (viable : signature -> bool) (better : signature -> signature -> bool) (sigs : list signature) (i : nat) : bool :=
  match nth_error sigs i with
  | None => false
  | Some a =>
      viable a
      && forallb (fun j => (j =? i)%nat || match nth_error sigs j with
                                           | None => true
                                           | Some b => negb (viable b) || better a b
                                           end)
           (seq 0 (length sigs))
  end.
Definition select (viable : signature -> bool) (better : signature -> signature -> bool) (sigs : list signature) : resolution :=
  if existsb viable sigs
  then match find (is_best viable better sigs) (seq 0 (length sigs)) with
       | Some i => Chosen i
       | None => Ambiguous
       end
  else NotViable.

(** The expression [mock(args...)] for a [Mock<sigs...>], Mock.hpp 595-606. *)
Definition resolve_call (la : language) (o : object_expr) (args : list nat) (sigs : list signature) : resolution :=
  select (call_viable la o args) (call_better la o args) sigs.

(** The expression [mock.expect_call(args...)] for a [Mock<sigs...>], Mock.hpp 595-606. *)
Definition resolve_expect (la : language) (o : object_expr) (args : list nat) (sigs : list signature) : resolution :=
  if existsb (expect_hard la args) sigs then IllFormed
  else select (expect_viable la o args) (expect_better o) sigs.
