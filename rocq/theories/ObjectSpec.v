(** * ObjectSpec: vocabulary for programs with memory. *)

From Verif Require Import Base Sequence Control Signature Printer Reports Expectation Builder World WorldSpec Actions ActionSpec Objects.

(** The operation of World.v behind an operation. *)
Definition shadow (o : pop) (o' : op) : Prop :=
  match o with
  | PUser _ => False
  | POp x => o' = x /\ objectless x = true
  | PExpect m ov ms cls l => o' = OExpect m ov ms (plains 0 cls) l
  | PCall m ov es l => exists vals, o' = OCall m ov vals l
  | PAction => o' = OAction
  | PFinal => o' = OFinal
  | PReturn => exists u, o' = OReturn u
  end.

(** The side effects and the finalizers written in an expectation expression. *)
Definition effects_in (cls : list pclause) : list side_effect := flat_map (fun c => match c with PcThen se => [se] | _ => [] end) cls.
Definition finals_in (cls : list pclause) : list pclause :=
  filter (fun c => match c with PcReturns _ | PcThrows _ | PcFinal _ => true | _ => false end) cls.

(** A finalizer as written: returns and throws have stored the value of their argument in a new object. *)
Definition as_written (cls : list pclause) (m : mem) (f : fin) (m' : mem) : Prop :=
  match finals_in cls with
  | [] => f = FinVoid
  | [PcReturns e] => exists cell v, f = FinReturns cell /\ length m <= cell /\ value_of m e = Some v /\ nth_error m' cell = Some v
  | [PcThrows e] => exists cell v, f = FinThrows cell /\ length m <= cell /\ value_of m e = Some v /\ nth_error m' cell = Some v
  | [PcFinal g] => f = g
  | _ => False
  end.

(** The program itself says that object [l] is to be moved from. *)
Definition moves (la : lang) (p : pworld) (o : pop) (l : nat) : Prop :=
  match o with
  | PCall m ov es _ => exists s coll k, find_overload (pw p) m ov = inr (s, coll) /\ moved_in (map (la_pmode la) (sg_params s)) es k l
  | PExpect _ _ _ cls _ => In (PcReturns (Xv l)) cls \/ In (PcThrows (Xv l)) cls
  | _ => False
  end.

(** [o] runs user code which is given to the program by itself. *)
Definition user_code (o : pop) : Prop := (exists f, o = PUser f) \/ o = PAction \/ o = PReturn.

(** The program executes [ops] while the call at nesting depth [d] is running all the time; it executes [k] side effects of its own in doing so. *)
Definition own_action (d : nat) (p : pworld) (o : pop) : bool := match o with PAction => length (w_frames (pw p)) =? S d | _ => false end.
Inductive oduring (la : lang) (d : nat) (p : pworld) : list pop -> nat -> pworld -> Prop :=
| od_nil : d < length (w_frames (pw p)) -> oduring la d p [] 0 p
| od_snoc ops k p1 o p2 r c : oduring la d p ops k p1 -> ostep la p1 o = PNext p2 r c -> d < length (w_frames (pw p2)) ->
    oduring la d p (ops ++ [o]) (if own_action d p1 o then S k else k) p2.

(** How a call returning [rm] ends if its finalizer calls [f]: with the exception or with the converted result. *)
Definition concludes_by (la : lang) (rm : rmode) (f : ufun) (args : list expr) (m m' : mem) (r : result) (c : cres) : Prop :=
  (exists v, f args m = (URaise v, m') /\ r = RThrow (la_exn la v) /\ c = CVoid) \/
  (exists e m1, f args m = (URet e, m1) /\ converted (la_residue la) rm e m1 c m' /\ r = RVal (Some (result_value c m'))).

(** The end of a call with finalizer [f]: signature [s], arguments [ls], memory before and after, result. *)
Definition concludes (la : lang) (s : signature) (f : fin) (ls : list nat) (m m' : mem) (r : result) (c : cres) : Prop :=
  let rm := if sg_ret s =? 0 then RetVoid else la_rmode la (sg_ret s) in
  match f with
  | FinVoid => rm = RetVoid /\ m' = m /\ r = RVal None /\ c = CVoid
  | FinReturns cell => converted (la_residue la) rm (Lv cell) m c m' /\ r = RVal (Some (result_value c m'))
  | FinThrows cell => exists v, nth_error m cell = Some v /\ m' = m /\ r = RThrow (la_exn la v) /\ c = CVoid
  | FinResultOf g => concludes_by la rm g [] m m' r c
  | FinApply indices g => exists args, selected_by indices ls args /\ concludes_by la rm g args m m' r c
  | FinApplyAll g => exists args, (length args = length ls /\ forall k l, nth_error ls k = Some l -> nth_error args k = Some (Lv l)) /\ concludes_by la rm g args m m' r c
  | FinArg i => exists t l, nth_error (sg_params s) i = Some t /\ nth_error ls i = Some l /\
      converted (la_residue la) rm (match la_pmode la t with ByLref | ByCref => Lv l | ByValue | ByRref => Xv l end) m c m' /\
      r = RVal (Some (result_value c m'))
  end.

(** A user function which keeps its hands off the object [cell] unless it gets it. *)
Definition keeps_off (cell : nat) (f : ufun) : Prop :=
  forall args m u m', f args m = (u, m') -> ~ In (Lv cell) args -> cell < length m -> nth_error m' cell = nth_error m cell /\ u <> URet (Xv cell).
Definition fin_function (f : fin) : option ufun :=
  match f with FinResultOf g | FinApply _ g | FinApplyAll g => Some g | _ => None end.
Definition functions_keep_off (cell : nat) (p : pworld) : Prop :=
  forall a, In a (pa p) -> (forall se, In se (a_effects a) -> keeps_off cell (function_of se)) /\ (forall g, fin_function (a_fin a) = Some g -> keeps_off cell g).

(** The code of the program leaves the object [cell] alone, too. *)
Definition discreet (cell : nat) (p : pworld) (o : pop) : Prop :=
  match o with
  | PUser f => nth_error (f (pm p)) cell = nth_error (pm p) cell
  | PExpect _ _ _ cls _ => ~ In (PcReturns (Xv cell)) cls /\ ~ In (PcThrows (Xv cell)) cls
  | PCall _ _ es _ => ~ In (Lv cell) es /\ ~ In (Xv cell) es
  | _ => True
  end.
Inductive undisturbed (la : lang) (cell : nat) : pworld -> list pop -> pworld -> Prop :=
| un_nil p : undisturbed la cell p [] p
| un_cons p o p1 r c ops p2 : discreet cell p o -> ostep la p o = PNext p1 r c -> undisturbed la cell p1 ops p2 -> undisturbed la cell p (o :: ops) p2.
