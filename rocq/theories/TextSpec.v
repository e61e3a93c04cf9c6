(** * TextSpec: vocabulary for the properties of printed text. *)

From Verif Require Import Base Signature Sequence Control Printer Reports.
Local Open Scope string_scope.

(** The value of a decimal digit, and of a string of decimal digits read from left to right. *)
Definition digit (c : ascii) : option N :=
  let n := N_of_ascii c in if ((48 <=? n) && (n <=? 57))%N then Some (n - 48)%N else None.
Fixpoint read_decimal (acc : N) (s : string) : option N :=
  match s with
  | "" => Some acc
  | String c s' => match digit c with Some d => read_decimal (10 * acc + d) s' | None => None end
  end.

(** [s] starts with [p]. *)
Definition starts (p s : string) : Prop := exists rest, s = p ++ rest.

(** [l] joined by [sep]. *)
Definition joined (sep : string) (l : list string) : string := String.concat sep l.

(** All lines of a list. *)
Fixpoint all_of (l : list string) : string := match l with [] => "" | s :: l' => s ++ all_of l' end.

(** Tuples print like ranges. *)
Fixpoint shape (v : val) : val :=
  match v with
  | VRange l | VTuple l => VRange (map shape l)
  | VOpt (Some x) => VOpt (Some (shape x))
  | other => other
  end.

(** Values without narrow strings and without values of unknown or foreign types. Prefixes as of string literals. *)
Fixpoint plain (v : val) : bool :=
  match v with
  | VStr _ | VOpaque | VText _ => false
  | VWStr p _ => existsb (String.eqb p) ["L"; "u8"; "u"; "U"]
  | VRange l | VTuple l => forallb plain l
  | VOpt (Some x) => plain x
  | _ => true
  end.

(** The descriptions of the requirements with the given verdict, in order. *)
Definition described (verdict : bool) (l : list policy_report) : list string :=
  flat_map (fun p => if Bool.eqb (pr_matching p) verdict then match pr_desc p with Some s => [s] | None => [] end else []) l.

(** A titled list, nothing if the list is empty. *)
Definition section (title : string) (lines : list string) : string :=
  match lines with
  | [] => ""
  | _ => title ++ nl ++ all_of (map (fun s => tab ++ s ++ "," ++ nl) lines)
  end.

(** English for "n times". *)
Definition often (n : Z) : string :=
  if (n =? 0)%Z then "never" else if (n =? 1)%Z then "once" else if (n =? 2)%Z then "twice" else dec_Z n ++ " times".

(** What a report has to say about an expectation with limits [mn], [mx] which accepted [n] calls. *)
Definition times_sentence (mn mx n : Z) : string :=
  if (n =? mx)%Z then "already saturated (matched " ++ often n ++ ")"
  else if (mn <=? n)%Z then "accepts further matches (matched " ++ dec_Z n ++ " out of " ++ dec_Z mx ++ " times)"
  else if (mn =? mx)%Z then "matched " ++ often n ++ " - exactly " ++ often mx ++ " is expected"
  else "matched " ++ often n ++ " - between " ++ dec_Z mn ++ " and " ++ dec_Z mx ++ " times is expected".

(** The i-th argument in a printed call. *)
Definition arg_block (i : nat) (type value : string) : string :=
  tab ++ "arg[" ++ dec_nat i ++ "]: {" ++ nl ++ tab ++ tab ++ "type: " ++ type ++ "," ++ nl
  ++ tab ++ tab ++ "value: " ++ value ++ nl ++ tab ++ "}," ++ nl.
