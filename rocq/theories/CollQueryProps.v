(** Property theorems: C96-C99 (what a ParamCollection reports). *)
From Coq Require Import List Bool String ZArith SpecFloat Permutation Relations.
From Verif Require Import Prelude PreludeFacts Float Param Expr ExprProofs Coll CollGraph CollSpec CollProofs
  CollLast CollProps CollQuery CollQuerySpec CollQueryProofs.
Import ListNotations.
Open Scope string_scope.
Open Scope list_scope.

(** C96. *)
Theorem C96_all_set : forall (A : alg) (st : cst A), reach_any st ->
  (allParametersSet st = true <-> forall n, registered st n -> exists x, getParameterValue st n = Ok (Some x)).
Proof. exact @allSet_spec. Qed.
Print Assumptions C96_all_set.
Theorem C96_not_parametric : forall (A : alg) (st : cst A) p, ~ parametric st p -> parameterisationParametersSet st p = Err ValueError.
Proof. exact @notParametric. Qed.
Print Assumptions C96_not_parametric.
(** The parameters consulted are those of getParameterisationParameters, *)
Theorem C96_inputs_exact : forall (A : alg), alg_ok A -> forall sg (st : cst A) ow p, reach sg st ow -> parametric st p ->
  exists b, parameterisationParametersSet st p = Ok b /\ (b = true <-> forall q, depends st p q -> value_of st q <> None).
Proof. intros A L sg. exact (inputs_exact L sg). Qed.
Print Assumptions C96_inputs_exact.
(** which include those that occur in the expression. *)
Theorem C96_inputs_partial : forall (A : alg), alg_ok A -> forall sg (st : cst A) ow p, (forall a b, sg a = sg b -> a = b) ->
  reach sg st ow -> parameterisationParametersSet st p = Ok true -> forall q, mentions st p q -> value_of st q <> None.
Proof. intros A L sg. exact (inputs_mentioned L sg). Qed.
Print Assumptions C96_inputs_partial.
Example C96_nonvacuous : reach dsg ex_st [] /\ parametric ex_st "b" /\ allParametersSet ex_st = false /\
  parameterisationParametersSet ex_st "b" = Ok false /\
  (let st' := fst (setParameterValue idord 50 ex_st "x" (PInt 2)) in parameterisationParametersSet st' "b" = Ok true /\ allParametersSet st' = false /\
     allParametersSet (fst (setParameterValue idord 50 st' "u" (PInt 1))) = true) /\ ~ parametric ex_st "a".
Proof.
  split; [exact ex_reach|]. split; [apply dmem_par; vmr|]. split; [vmr|]. split; [vmr|]. split; [split; [vmr|split; vmr]|].
  apply dmem_par_false. vmr.
Qed.
(** False for the parameters in the expression: a factor 0 cancels them, *)
Theorem C96_cancelled_refuted : exists (st : cst simp_alg) p, reach dsg st [] /\ parametric st p /\
  parameterisationParametersSet st p = Ok false /\ (forall q, ~ mentions st p q).
Proof.
  exists (hist ["a"; "b"] [CAddP "b" (ss "a" : E simp_alg); CPre "b" (TNum 0 : E simp_alg)]), "b".
  split; [reach_lit; [oks; intros e ns _ x []|vmr]|]. split; [apply dmem_par; vmr|]. split; [vmr|].
  intros q (e & ns & t & G & Ht & _). vm_compute in G. injection G as <- <-. destruct Ht.
Qed.
Print Assumptions C96_cancelled_refuted.
(** a factor with another symbol is not noticed, *)
Theorem C96_prefactor_refuted : exists (st : cst tree_alg) p q, reach_any st /\
  parameterisationParametersSet st p = Ok true /\ mentions st p q /\ getParameterValue st q = Ok None.
Proof.
  exists (hist ["a"; "b"; "x"] [CAddP "b" (s "a" : E tree_alg); CPre "b" (s "x" : E tree_alg); CSet "a" (PInt 1)]), "b", "x".
  split; [reach_lit|]. split; [vmr|]. split; [|vmr].
  exists (TMul (s "a") (s "x")), ["a"], (dsg "x"). split; [vmr|]. split; [vm_compute; tauto|vmr].
Qed.
Print Assumptions C96_prefactor_refuted.
(** and after rmParameter the parametric name is reported as unknown. *)
Theorem C96_removed_refuted : exists (st : cst tree_alg) p, reach_rm dsg st /\ registered st p /\ parametric st p /\
  parameterisationParametersSet st p = Err ValueError.
Proof.
  exists (hist ["a"; "b"] [CAddP "b" (s "a" : E tree_alg); CRm "a"]), "b".
  split; [reach_lit; oks|]. split; [vm_compute; tauto|]. split; [apply dmem_par; vmr|vmr].
Qed.
Print Assumptions C96_removed_refuted.

(** C97. *)
Theorem C97_direct_exact : forall (A : alg) (st : cst A) names, (forall n, In n names -> independent st n) ->
  exists l, getParameterisationsInvolvingAll st names = Ok l /\ NoDup l /\ forall p, In p l <-> exists n, In n names /\ depends st p n.
Proof. exact @involving_ok. Qed.
Print Assumptions C97_direct_exact.
Theorem C97_parametric_empty_partial : forall (A : alg) (st : cst A) pre n post, (forall m, In m pre -> independent st m) ->
  registered st n -> parametric st n -> getParameterisationsInvolvingAll st (pre ++ n :: post) = Ok [].
Proof. exact @involving_parametric. Qed.
Print Assumptions C97_parametric_empty_partial.
Theorem C97_unknown_name_partial : forall (A : alg) (st : cst A) pre n post, (forall m, In m pre -> independent st m) ->
  ~ registered st n -> getParameterisationsInvolvingAll st (pre ++ n :: post) = Err ValueError.
Proof. exact @involving_missing. Qed.
Print Assumptions C97_unknown_name_partial.
Example C97_nonvacuous : independent ex_st "a" /\ independent ex_st "x" /\ ~ registered ex_st "new" /\ registered ex_st "b" /\ parametric ex_st "b" /\
  getParameterisationsInvolvingAll ex_st ["x"; "a"] = Ok ["b"; "p"] /\ getParameterisationsInvolvingAll ex_st ["a"; "b"] = Ok [] /\
  getParameterisationsInvolvingAll ex_st ["a"; "new"] = Err ValueError.
Proof.
  split; [split; [vm_compute; tauto|apply dmem_par_false; vmr]|]. split; [split; [vm_compute; tauto|apply dmem_par_false; vmr]|].
  split; [vm_compute; intuition discriminate|]. split; [vm_compute; tauto|]. split; [apply dmem_par; vmr|]. split; [vmr|]. split; vmr.
Qed.
(** False for nested dependencies: *)
Theorem C97_nested_refuted : exists (st : cst tree_alg) n p l, reach dsg st [] /\ independent st n /\ depends_tr st p n /\ mentions_tr st p n /\
  getParameterisationsInvolvingAll st [n] = Ok l /\ ~ In p l.
Proof.
  exists (hist ["a"; "b"; "c"] [CAddP "b" (s "a" : E tree_alg); CAddP "c" (s "b" : E tree_alg)]), "a", "c", ["b"].
  split; [reach_lit; [oks|vmr]|]. split; [split; [vm_compute; tauto|apply dmem_par_false; vmr]|].
  split; [|split; [|split; [vmr|cbn; intuition discriminate]]].
  - eapply t_trans with (y := "b"); apply t_step; eexists; (split; [vmr|now left]).
  - eapply t_trans with (y := "b"); apply t_step; [exists (s "b"), ["b"], (dsg "b")|exists (s "a"), ["a"], (dsg "a")];
      (split; [vmr|]); (split; [now left|vmr]).
Qed.
Print Assumptions C97_nested_refuted.
(** an unknown name after a parametric one is not reported. *)
Theorem C97_unknown_name_refuted : exists (st : cst tree_alg) n m, reach dsg st [] /\ ~ registered st m /\
  getParameterisationsInvolvingAll st [n; m] = Ok [].
Proof.
  exists ex_st, "b", "new". split; [exact ex_reach|]. split; [vm_compute; intuition discriminate|vmr].
Qed.
Print Assumptions C97_unknown_name_refuted.

(** C98. *)
Theorem C98_symbols : forall (A : alg) (st : cst A) names ov st' d, reach_any st -> getSymbols st names ov = (st', Ok d) ->
  (forall n, In n names -> exists t, getSymbol st' n = Ok t /\ dget d n = Some t) /\
  (forall n, ~ In n names -> dget d n = None) /\
  (forall n, registered st' n <-> registered st n \/ In n names) /\
  (forall n, registered st n -> dget (c_coll st') n = dget (c_coll st) n /\ getSymbol st' n = getSymbol st n) /\
  (forall p, getParameterisationParameters st' p = getParameterisationParameters st p) /\
  (forall a b, In (a, b) (c_edges st') <-> In (a, b) (c_edges st)) /\
  (forall k n, nth_error names k = Some n -> ~ In n (firstn k names) -> ~ registered st n ->
     getParameterValue st' n = Ok None /\ getSymbol st' n = symbol_for (given ov k) n).
Proof. exact @getSymbols_ok. Qed.
Print Assumptions C98_symbols.
Theorem C98_succeeds : forall (A : alg) (st : cst A) names ov, reach_any st -> enough_ov ov (List.length names) ->
  (forall n, In n names -> registered st n \/ valid_name n) -> exists st' d, getSymbols st names ov = (st', Ok d).
Proof. exact @getSymbols_succeeds. Qed.
Print Assumptions C98_succeeds.
(** The first name that cannot be served stops the call, after the names before
    it have been added. *)
Theorem C98_too_few_overrides_exact : forall (A : alg) (st : cst A) pre n post ov st1 d, reach_any st ->
  getSymbols st pre ov = (st1, Ok d) -> ~ enough_ov ov (S (List.length pre)) ->
  getSymbols st (pre ++ n :: post) ov = (st1, Err IndexError).
Proof. exact @getSymbols_stops. Qed.
Print Assumptions C98_too_few_overrides_exact.
Theorem C98_invalid_name_exact : forall (A : alg) (st : cst A) pre n post ov st1 d, reach_any st ->
  getSymbols st pre ov = (st1, Ok d) -> enough_ov ov (S (List.length pre)) -> ~ registered st n -> ~ In n pre -> ~ valid_name n ->
  getSymbols st (pre ++ n :: post) ov = (st1, Err (if has_space n then ValueError else IndexError)).
Proof. exact @getSymbols_invalid. Qed.
Print Assumptions C98_invalid_name_exact.
Example C98_nonvacuous : reach_any ex_st /\ (exists st', getSymbols ex_st ["n"; "a"; "m"; "n"] (Some [Some "N"; None; None; Some "Q"]) =
    (st', Ok [("n", "N"); ("a", dsg "a"); ("m", dsg "m")]) /\ registered st' "n" /\ ~ registered ex_st "n") /\
  valid_name "n" /\ ~ valid_name "m n" /\ ~ enough_ov (Some [None]) 2 /\ enough_ov (Some [None; None]) 2.
Proof.
  split; [unfold ex_st; reach_lit|]. split; [|split; [split; [discriminate|reflexivity]|split; [intros [_ H]; discriminate|split; cbn; auto]]].
  - eexists. split; [apply pair_res; vm_compute; reflexivity|]. split; [vm_compute; tauto|vm_compute; intuition discriminate].
  - intros H. inversion H as [|? H']. inversion H'.
Qed.
(** False: the symbol given for an existing parameter is not used, *)
Theorem C98_override_refuted : exists (st st' : cst tree_alg) n t d, reach dsg st [] /\ getSymbols st [n] (Some [Some t]) = (st', Ok d) /\
  dget d n <> Some t.
Proof.
  exists ex_st. eexists. exists "a", "A". eexists. split; [exact ex_reach|]. split; [apply pair_res; vm_compute; reflexivity|].
  vm_compute. intros H. discriminate H.
Qed.
Print Assumptions C98_override_refuted.
(** and a call that raises has added the names before the offending one. *)
Theorem C98_atomic_refuted : exists (st st' : cst tree_alg) names n, reach dsg st [] /\ getSymbols st names None = (st', Err ValueError) /\
  registered st' n /\ ~ registered st n.
Proof.
  exists ex_st. eexists. exists ["n"; "m n"], "n". split; [exact ex_reach|]. split; [apply pair_res; vm_compute; reflexivity|].
  split; [vm_compute; tauto|vm_compute; intuition discriminate].
Qed.
Print Assumptions C98_atomic_refuted.

(** C99. *)
Theorem C99_values : forall (A : alg) (st : cst A) names, (forall n, In n names -> registered st n) ->
  exists d, getParameterValues st names = Ok d /\ (forall n, In n names -> dget d n = Some (value_of st n)) /\ (forall n, ~ In n names -> dget d n = None).
Proof. exact @values_ok. Qed.
Print Assumptions C99_values.
Theorem C99_unknown : forall (A : alg) (st : cst A) names n, In n names -> ~ registered st n -> getParameterValues st names = Err ValueError.
Proof. exact @values_missing. Qed.
Print Assumptions C99_unknown.
Theorem C99_values_dict : forall (A : alg) (st : cst A) n, dget (getParameterValuesDict st) n = option_map p_value (dget (c_coll st) n).
Proof. exact @valuesDict_get. Qed.
Print Assumptions C99_values_dict.
(** When different names have different symbols, *)
Theorem C99_symbol_values_partial : forall (A : alg), alg_ok A -> forall sg (st : cst A), (forall a b, sg a = sg b -> a = b) -> reach_rm sg st ->
  exists d, getSymbolValuesDict st = Ok d /\
    (forall n t, getSymbol st n = Ok t -> dget d t = Some (value_of st n)) /\
    (forall t, (forall n, getSymbol st n <> Ok t) -> dget d t = None).
Proof. intros A L sg. exact (symvals_reach L sg). Qed.
Print Assumptions C99_symbol_values_partial.
Example C99_nonvacuous : reach_rm dsg ex_st /\ (forall a b, dsg a = dsg b -> a = b) /\ registered ex_st "a" /\ ~ registered ex_st "new" /\
  getParameterValues ex_st ["b"; "a"] = Ok [("b", None); ("a", Some (fz 3))] /\
  (exists d, getSymbolValuesDict ex_st = Ok d /\ dget d (dsg "a") = Some (Some (fz 3))).
Proof.
  split; [reach_lit; cbn; tauto|]. split; [exact dsg_inj|]. split; [vm_compute; tauto|]. split; [vm_compute; intuition discriminate|].
  split; [vmr|]. eexists. split; vmr.
Qed.
(** False otherwise: the value of the last parameter with the symbol is
    returned. *)
Theorem C99_symbol_values_refuted : exists (st : cst tree_alg) n t d, reach_any st /\ getSymbol st n = Ok t /\ getSymbolValuesDict st = Ok d /\
  dget d t = Some (Some (fz 2)) /\ getParameterValue st n = Ok (Some (fz 1)).
Proof.
  exists (hist ["a"] [CAdd "b" (Some (dsg "a")); CSet "a" (PInt 1); CSet "b" (PInt 2)]), "a", (dsg "a"). eexists.
  split; [reach_lit|]. split; [vmr|]. split; [vmr|]. split; vmr.
Qed.
Print Assumptions C99_symbol_values_refuted.
