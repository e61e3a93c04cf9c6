(** * FootSpec: the objects an operation may touch, and programs which lock them. *)

From Verif Require Import Base Sequence Control Signature Expectation Builder World WorldSpec Conc ConcSpec Race Lifetime Colls RaceProofs Guarded GuardedSpec ScheduleSpec.

(** An expectation and its sequences. *)
Inductive part_of (c : cworld) (e : nat) : place -> Prop :=
| po_count : part_of c e (PlCount e)
| po_seq x q : exp_at (cw c) e x -> In q (map fst (c_seqs (e_ctl (eo_exp x)))) -> part_of c e (PlSeq q).

(** The expectation a ScopedExpectation owns, its sequences, and its list. *)
Inductive part_of_handle (c : cworld) (h : nat) : place -> Prop :=
| ph_exp e p : nth_error (w_scoped (cw c)) h = Some (HOwns e) -> part_of c e p -> part_of_handle c h p
| ph_list e x : nth_error (w_scoped (cw c)) h = Some (HOwns e) -> exp_at (cw c) e x -> part_of_handle c h (PlVector (eo_coll x)).

(** What thread [t] may touch by [a], besides the reporter:
    - a call: the list of the overload with all its expectations and their sequences; counting it: the chosen expectation and its sequences;
    - a new expectation, unless it is rejected: the list of the overload, and the sequences given to it;
    - a question: the expectation; the end of a handle, or an assignment to it: its expectation with the sequences, and their list;
    - the end of a Sequence: the sequence; the end of a mock, or an assignment to it: its lists. *)
Inductive footprint (c : cworld) (t : nat) : action -> place -> Prop :=
| fp_call m ov args l k : uses_coll c m ov k -> footprint c t (AMatch m ov args l) (PlVector k)
| fp_member m ov args l k e p : uses_coll c m ov k -> listed c k e -> part_of c e p -> footprint c t (AMatch m ov args l) p
| fp_count e p : pending_exp c t e -> part_of c e p -> footprint c t ACount p
| fp_expect m ov ms cls l s k b : find_overload (cw c) m ov = inr (s, k) -> build s ms cls = BOk b -> footprint c t (AOp (OExpect m ov ms cls l)) (PlVector k)
| fp_attach m ov ms cls l s k b q : find_overload (cw c) m ov = inr (s, k) -> build s ms cls = BOk b -> In q (b_seqs b) ->
    footprint c t (AOp (OExpect m ov ms cls l)) (PlSeq q)
| fp_ask h e : nth_error (w_scoped (cw c)) h = Some (HOwns e) -> footprint c t (AOp (OSatisfied h)) (PlCount e)
| fp_end h p : part_of_handle c h p -> footprint c t (AOp (OEndScope h)) p
| fp_assign dst src p : dst <> src -> part_of_handle c dst p -> footprint c t (AOp (OMoveAssignScoped dst src)) p
| fp_drop s : footprint c t (AOp (ODropSeq s)) (PlSeq s)
| fp_destroy m k : In k (mock_colls (cw c) m) -> footprint c t (AOp (ODestroyMock m)) (PlVector k)
| fp_replace dst src k : dst <> src -> In k (mock_colls (cw c) dst) -> footprint c t (AOp (OMoveAssignMock dst src)) (PlVector k).

(** A program with a mutex [f p] for each object [p] of those which are [covered]: whoever may touch the object holds its mutex. *)
Inductive locks (release : bool) (covered : place -> Prop) (f : place -> nat) : gworld -> list (nat * gaction) -> Prop :=
| lo_nil g : locks release covered f g []
| lo_cons g t x g1 r acts : gstep release g t x = GNext g1 r ->
    (forall a p, x = GDo a -> footprint (gc g) t a p -> covered p -> has g (f p) t) ->
    locks release covered f g1 acts -> locks release covered f g ((t, x) :: acts).

(** What an object holds: the expectations of a list, the number of calls of an expectation, the state of a sequence. *)
Definition same_at (c c' : cworld) (p : place) : Prop :=
  match p with
  | PlVector k => nth_error (w_colls (cw c)) k = nth_error (w_colls (cw c')) k
  | PlCount e => option_map (fun x => c_count (e_ctl (eo_exp x))) (nth_error (w_exps (cw c)) e) = option_map (fun x => c_count (e_ctl (eo_exp x))) (nth_error (w_exps (cw c')) e)
  | PlSeq q => nth_error (w_seqs (cw c)) q = nth_error (w_seqs (cw c')) q
  | PlReporter => True
  end.

(** The object exists. *)
Definition exists_at (c : cworld) (p : place) : Prop :=
  match p with
  | PlVector k => k < length (w_colls (cw c))
  | PlCount e => e < length (w_exps (cw c))
  | PlSeq q => q < length (w_seqs (cw c))
  | PlReporter => True
  end.

(** Nobody unlocks mutexes of the expectation of a call of theirs, or of its sequences, while the call is not counted yet. *)
Inductive keeps (release : bool) (covered : place -> Prop) (f : place -> nat) : gworld -> list (nat * gaction) -> Prop :=
| ke_nil g : keeps release covered f g []
| ke_cons g t x g1 r acts : gstep release g t x = GNext g1 r ->
    (forall m e p, x = GUnlock m -> pending_exp (gc g) t e -> part_of (gc g) e p -> covered p -> f p <> m) ->
    keeps release covered f g1 acts -> keeps release covered f g ((t, x) :: acts).
