(** * PropSig: C29, C30, C31, C32. *)

From Coq Require Import Permutation.
From Verif Require Import Base Sequence Control Signature Printer Reports Expectation Builder BuildSpec World WorldSpec CallSpec
  CountProofs SigSpec SigProofs Scenario.

(** ** C29: expectations only match calls through their own overload. *)

(** Every expectation which could be matched by a call was created through the overload the call goes through. *)
Theorem C29_candidates_have_own_overload w m ov args l s coll e x :
  reachable w -> find_overload w m ov = inr (s, coll) -> candidate w coll (call_of s args l) e x ->
  eo_ov x = ov /\ eo_sig x = s.
Proof. exact (candidate_overload w m ov args l s coll e x). Qed.

(** In terms of programs: an expectation created by [OExpect m ov ...] which is matched by the call [OCall m' ov' ...] (the mock may
    have been moved in between) was created through the same overload. *)
Theorem C29_matched_only_through_own_overload ops0 w0 m ov ms cls l w1 ops w2 m' ov' args l' w3 :
  run init ops0 w0 -> step w0 (OExpect m ov ms cls l) = Next w1 RUnit -> run w1 ops w2 ->
  step w2 (OCall m' ov' args l') = Next w3 RUnit ->
  accepted (w_trace w3) (length (w_exps w0)) <> accepted (w_trace w2) (length (w_exps w0)) ->
  ov' = ov /\ exists s coll coll', find_overload w0 m ov = inr (s, coll) /\ find_overload w2 m' ov' = inr (s, coll').
Proof. exact (matched_overload ops0 w0 m ov ms cls l w1 ops w2 m' ov' args l' w3). Qed.

(** Two overloads int(int) and int(int) const share a collection; still the const call does not match the non-const expectation. *)
Example C29_example :
  let prog0 := [ONewMock [sig_int; sig_int_const]; OExpect 0 0 [m_any] [ClFinal (FReturns (VInt 1))] here] in
  results (prog0 ++ [OCall 0 1 [VInt 5] here]) = [RUnit; RUnit; RThrow EReporter] /\
  results (prog0 ++ [OCall 0 0 [VInt 5] here]) = [RUnit; RUnit; RUnit] /\
  accepted (w_trace (after (prog0 ++ [OCall 0 0 [VInt 5] here]))) 0 = 1 /\
  length (w_colls (after prog0)) = 1.
Proof. vm_compute. auto. Qed.

(** ** C30: is_overload_set is the language rule. *)

Theorem C30_overloadable_iff_language_rule a b : sg_variadic a = false -> sg_variadic b = false ->
  (is_overloadable_with a b = true <-> may_overload a b).
Proof. exact (overloadable_spec a b). Qed.

Theorem C30_overload_set_iff_language_rule sigs : forallb (fun s => negb (sg_variadic s)) sigs = true ->
  (is_overload_set sigs = true <-> sigs <> [] /\ pairwise may_overload sigs).
Proof. exact (overload_set_spec sigs). Qed.

Theorem C30_symmetric a b : sg_variadic a = false -> sg_variadic b = false -> is_overloadable_with a b = is_overloadable_with b a.
Proof.
  intros Ha Hb. apply Bool.eq_true_iff_eq. rewrite (overloadable_spec _ _ Ha Hb), (overloadable_spec _ _ Hb Ha).
  split; apply may_overload_sym.
Qed.

Theorem C30_order_independent sigs sigs' : forallb (fun s => negb (sg_variadic s)) sigs = true -> Permutation sigs sigs' ->
  is_overload_set sigs = is_overload_set sigs'.
Proof. exact (overload_set_perm sigs sigs'). Qed.

(** The return types and noexcept are ignored. *)
Theorem C30_return_type_and_noexcept_ignored a b r r' ne ne' : sg_variadic a = false -> sg_variadic b = false ->
  is_overloadable_with (mkSig r (sg_params a) false (sg_const a) (sg_ref a) ne) (mkSig r' (sg_params b) false (sg_const b) (sg_ref b) ne')
  = is_overloadable_with a b.
Proof.
  intros Ha Hb. apply Bool.eq_true_iff_eq. rewrite (overloadable_spec _ _ Ha Hb), overloadable_spec by reflexivity. reflexivity.
Qed.

(** A set using all four ref-qualified variants and one with other parameters; and pairs which must not be overloaded. *)
Example C30_example :
  let s c r := mkSig 1 [1] false c r false in
  is_overload_set [s false RefL; s true RefL; s false RefR; s true RefR; sig_void] = true /\
  is_overload_set [sig_void; s true RefNone; s false RefNone] = true /\
  is_overload_set [s false RefNone; s false RefL] = false /\
  is_overload_set [sig_void; s false RefNone; mkSig 0 [1] false false RefNone true] = false.
Proof. vm_compute. auto. Qed.

(** ** C31: laws of the signature traits. *)

(** A signature is determined by these six parts. *)
Definition parts (s : signature) : ty * list ty * bool * bool * refq * bool :=
  (sg_ret s, sg_params s, sg_variadic s, sg_const s, sg_ref s, sg_noexcept s).

Theorem C31_parts_determine a b : parts a = parts b -> a = b.
Proof. destruct a, b. unfold parts. simpl. intros H. inversion H. reflexivity. Qed.

Theorem C31_decay_removes_qualifiers_only s :
  parts (decay s) = (sg_ret s, sg_params s, sg_variadic s, false, RefNone, false) /\ decay (decay s) = decay s.
Proof. split; reflexivity. Qed.

Theorem C31_noexcept_laws s :
  parts (add_noexcept s) = (sg_ret s, sg_params s, sg_variadic s, sg_const s, sg_ref s, true) /\
  parts (remove_noexcept s) = (sg_ret s, sg_params s, sg_variadic s, sg_const s, sg_ref s, false) /\
  add_noexcept (add_noexcept s) = add_noexcept s /\ remove_noexcept (remove_noexcept s) = remove_noexcept s /\
  (sg_noexcept s = false -> remove_noexcept (add_noexcept s) = s) /\ (sg_noexcept s = true -> add_noexcept (remove_noexcept s) = s).
Proof. repeat split; destruct s; simpl; intros; subst; reflexivity. Qed.

(** Equal up to qualifiers iff equal after decay. *)
Theorem C31_decay_equal_iff a b : decay a = decay b <-> sg_ret a = sg_ret b /\ sg_params a = sg_params b /\ sg_variadic a = sg_variadic b.
Proof.
  split.
  - intros H. unfold decay in H. inversion H. auto.
  - intros (H1 & H2 & H3). unfold decay. rewrite H1, H2, H3. reflexivity.
Qed.

Theorem C31_accessors_ignore_qualifiers s i :
  return_type s = sg_ret s /\ return_type (decay s) = return_type s /\
  (sg_variadic s = false -> param_list s = Some (sg_params s) /\ param_type i s = nth_error (sg_params s) i) /\
  (sg_variadic s = true -> param_list s = None /\ param_type i s = None) /\
  param_list (decay s) = param_list s /\ param_type i (decay s) = param_type i s /\
  param_list (add_noexcept s) = param_list s /\ param_list (remove_noexcept s) = param_list s.
Proof.
  repeat split; intros; unfold param_list, param_type; simpl; try rewrite H; reflexivity.
Qed.

Example C31_example : let s := mkSig 3 [1; 2] false true RefR true in
  decay s = mkSig 3 [1; 2] false false RefNone false /\ param_type 1 s = Some 2 /\ param_type 2 s = None /\
  remove_noexcept s = mkSig 3 [1; 2] false true RefR false.
Proof. repeat split. Qed.

(** ** C32: one collection per decayed signature. *)

Theorem C32_each_decayed_signature_once sigs :
  NoDup (mock_collections sigs) /\ forall d, In d (mock_collections sigs) <-> exists s, In s sigs /\ decay s = d.
Proof. exact (collections_spec sigs). Qed.

Theorem C32_shared_iff_decay_equal sigs s s' : In s sigs -> In s' sigs ->
  exists i i', overload_collection sigs s = Some i /\ overload_collection sigs s' = Some i' /\
    nth_error (mock_collections sigs) i = Some (decay s) /\ (i = i' <-> decay s = decay s').
Proof. exact (overload_collection_spec sigs s s'). Qed.

(** In a running program: two overloads of usable mocks refer to the same collection iff it is the same mock and the decayed signatures
    are equal. *)
Theorem C32_collections_in_programs w m ov s coll m' ov' s' coll' :
  reachable w -> find_overload w m ov = inr (s, coll) -> find_overload w m' ov' = inr (s', coll') ->
  (coll = coll' <-> m = m' /\ decay s = decay s').
Proof. exact (collections_in_programs w m ov s coll m' ov' s' coll'). Qed.

Example C32_example :
  mock_collections [sig_int; sig_void; sig_int_const; sig_void_noexcept] = [sig_int; sig_void] /\
  overload_collection [sig_int; sig_void; sig_int_const; sig_void_noexcept] sig_int_const = Some 0 /\
  overload_collection [sig_int; sig_void; sig_int_const; sig_void_noexcept] sig_void_noexcept = Some 1 /\
  map mk_colls (w_mocks (after [ONewMock [sig_void]; ONewMock [sig_int; sig_int_const; sig_void]])) = [Some [0]; Some [1; 1; 2]].
Proof. vm_compute. auto. Qed.

Print Assumptions C29_candidates_have_own_overload.
Print Assumptions C29_matched_only_through_own_overload.
Print Assumptions C30_overloadable_iff_language_rule.
Print Assumptions C30_overload_set_iff_language_rule.
Print Assumptions C30_symmetric.
Print Assumptions C30_order_independent.
Print Assumptions C30_return_type_and_noexcept_ignored.
Print Assumptions C31_parts_determine.
Print Assumptions C31_decay_removes_qualifiers_only.
Print Assumptions C31_noexcept_laws.
Print Assumptions C31_decay_equal_iff.
Print Assumptions C31_accessors_ignore_qualifiers.
Print Assumptions C32_each_decayed_signature_once.
Print Assumptions C32_shared_iff_decay_equal.
Print Assumptions C32_collections_in_programs.
