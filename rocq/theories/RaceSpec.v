(** * RaceSpec: happens-before, data races and deadlocks ([intro.multithread], [thread.mutex] of C++20). *)

From Verif Require Import Base Race.

(** A trace of events of threads; positions are times. Happens-before: the order within a thread, and unlocking a mutex before locking
    it again. *)
Definition mtrace : Type := list (nat * mev).

Inductive hb (tr : mtrace) : nat -> nat -> Prop :=
| hb_program i j t x y : i < j -> nth_error tr i = Some (t, x) -> nth_error tr j = Some (t, y) -> hb tr i j
| hb_mutex i j t t' m : i < j -> nth_error tr i = Some (t, MUnlock m) -> nth_error tr j = Some (t', MLock m) -> hb tr i j
| hb_trans i j k : hb tr i j -> hb tr j k -> hb tr i k.

Definition conflict (p : place) (x y : mev) : Prop :=
  (x = MWrite p /\ (y = MRead p \/ y = MWrite p)) \/ (x = MRead p /\ y = MWrite p).

(** Two threads access the same place, one of them writes, and neither happens before the other: undefined behaviour. *)
Definition race_on (tr : mtrace) (p : place) : Prop :=
  exists i j t t' x y, nth_error tr i = Some (t, x) /\ nth_error tr j = Some (t', y) /\ t <> t' /\ conflict p x y /\ ~ hb tr i j /\ ~ hb tr j i.

(** All ways to interleave two lists. *)
Inductive interleaved {A : Type} : list A -> list A -> list A -> Prop :=
| il_nil : interleaved [] [] []
| il_left x l r s : interleaved l r s -> interleaved (x :: l) r (x :: s)
| il_right x l r s : interleaved l r s -> interleaved l (x :: r) (x :: s).

(** Mutexes: which thread owns which mutex? *)
Definition owners : Type := nat -> option nat.
Definition give (o : owners) (m : nat) (t : option nat) : owners := fun m' => if m' =? m then t else o m'.

(** What a thread may do next: [Blocked]: another thread owns the mutex. [Broken]: it locks a mutex it owns or unlocks one it does not own;
    both are undefined behaviour for std::mutex. *)
Inductive may : Type := Go (o : owners) | Blocked | Broken.
Definition attempt (o : owners) (t : nat) (x : mev) : may :=
  match x with
  | MLock m => match o m with
               | None => Go (give o m (Some t))
               | Some t' => if t' =? t then Broken else Blocked
               end
  | MUnlock m => match o m with
                 | Some t' => if t' =? t then Go (give o m None) else Broken
                 | None => Broken
                 end
  | _ => Go o
  end.

(** Threads executing their lists of events. *)
Definition lstate : Type := (owners * list (list mev))%type.
Inductive lstep : lstate -> lstate -> Prop :=
| lstep_go o ps t x rest o' : nth_error ps t = Some (x :: rest) -> attempt o t x = Go o' -> lstep (o, ps) (o', upd ps t rest).
Inductive lsteps : lstate -> lstate -> Prop :=
| ls_refl s : lsteps s s
| ls_step s s1 s2 : lstep s s1 -> lsteps s1 s2 -> lsteps s s2.
Definition lstart (ps : list (list mev)) : lstate := (fun _ => None, ps).

Definition all_done (s : lstate) : Prop := forall t p, nth_error (snd s) t = Some p -> p = [].
Definition broken (s : lstate) : Prop := exists t x rest, nth_error (snd s) t = Some (x :: rest) /\ attempt (fst s) t x = Broken.
Definition deadlocked (s : lstate) : Prop := ~ all_done s /\ ~ broken s /\ forall s', ~ lstep s s'.

(** The mutexes held after a list of events of one thread, innermost first. *)
Fixpoint held (l : list mev) (acc : list nat) : list nat :=
  match l with
  | [] => acc
  | MLock m :: l' => held l' (m :: acc)
  | MUnlock m :: l' => held l' (remove Nat.eq_dec m acc)
  | _ :: l' => held l' acc
  end.

(** The user code which is executed with a mutex held. *)
Definition runs_locked (u : user_code) : bool :=
  match u with
  | UMatches _ _ | UDescribe _ _ | UReport KUnhandled | UReport KUnfulfilled => true
  | UReport _ | USideEffect | UFinalizer => false
  end.

(** No mutex is involved. *)
Definition lockless (x : mev) : Prop := match x with MLock _ | MUnlock _ => False | _ => True end.

(** A list of events of one thread which never holds more than one mutex and holds none at the end. *)
Inductive plain : list mev -> Prop :=
| pl_nil : plain []
| pl_free x l : lockless x -> plain l -> plain (x :: l)
| pl_lock m body l : Forall lockless body -> plain l -> plain (MLock m :: body ++ MUnlock m :: l).

(** A list of events of one thread, which holds the mutexes [h] at its start, locks further mutexes only in ascending order of [rank],
    unlocks only what it holds, and holds nothing at its end. *)
Fixpoint ascending (rank : nat -> nat) (h : list nat) (l : list mev) : Prop :=
  match l with
  | [] => h = []
  | MLock m :: l' => (forall k, In k h -> rank k < rank m) /\ ascending rank (m :: h) l'
  | MUnlock m :: l' => In m h /\ ascending rank (remove Nat.eq_dec m h) l'
  | _ :: l' => ascending rank h l'
  end.

(** What thread [t] does in a trace. *)
Definition by_thread (t : nat) (tr : mtrace) : list mev := map snd (filter (fun x => fst x =? t) tr).

(** User code may itself use mocks: [user u] is the list of what the code [u] does. *)
Fixpoint with_user (user : user_code -> list mev) (l : list mev) : list mev :=
  match l with
  | [] => []
  | MUser u :: l' => user u ++ with_user user l'
  | x :: l' => x :: with_user user l'
  end.
