(** Property theorems: C06-C18 (ParamCollection). Expressions come from any
    structure with the laws [alg_ok] of Expr.v; [alg_plain] adds that
    substitution never cancels. Every [ord] is the iteration order of Python's
    sets; [fuel] bounds the rounds of the expansion loop. *)
From Coq Require Import List Bool String ZArith SpecFloat Permutation Relations Lia.
From Verif Require Import Prelude PreludeFacts Float Param Expr ExprProofs Coll CollGraph CollSpec CollProofs
  CollExpand CollMain CollFinal CollLast.
Import ListNotations.
Open Scope string_scope.
Open Scope list_scope.

(** Witness data: [s n] the symbol of [n]. *)
Definition s (n : string) : E tree_alg := TSym (dsg n).
Definition ss (n : string) : E simp_alg := TSym (dsg n).
Definition fz (z : Z) : f64 := round_Z z.
(** b = a*x, p = b*b + a with a = 3, x = 2 *)
Definition ex_names := ["a"; "x"; "b"; "p"; "u"].
Definition ex_ops : list (cop tree_alg) :=
  [CAddP "p" (TAdd (TMul (s "b") (s "b")) (s "a") : E tree_alg); CAddP "b" (TMul (s "a") (s "x") : E tree_alg); CSet "a" (PInt 3)].
Definition ex_st : cst tree_alg := hist ex_names ex_ops.
Ltac splits := repeat match goal with |- _ /\ _ => split end.
Ltac vmr := lazymatch goal with |- _ = (_, _) => apply pair_res; vm_compute; reflexivity | |- _ => vm_compute; reflexivity end.
Lemma ex_reach : reach dsg ex_st [].
Proof. unfold ex_st. reach_lit; [unfold ex_ops; oks|vmr]. Qed.
Definition ex_sol : string -> option Z := fun t =>
  if String.eqb t (dsg "a") then Some 3%Z else if String.eqb t (dsg "x") then Some 2%Z else
  if String.eqb t (dsg "b") then Some 6%Z else if String.eqb t (dsg "p") then Some 39%Z else None.
Ltac solve_lit :=
  let q := fresh "q" in let t := fresh "t" in let H := fresh "H" in
  intros q t H; apply dget_In in H; vm_compute in H;
  repeat (destruct H as [H|H]; [injection H as <- <-; vm_compute; reflexivity|]); destruct H.

(** C06. *)
Theorem C06_registries_in_step : forall (A : alg) (st : cst A), reach_any st ->
  dkeys (c_coll st) = dkeys (c_sym st) /\ NoDup (dkeys (c_coll st)) /\ incl (dkeys (c_coll st)) (c_nodes st).
Proof. exact @C06_registries. Qed.
Print Assumptions C06_registries_in_step.
Theorem C06_add_existing_changes_nothing : forall (A : alg) (st : cst A) n override,
  registered st n -> addParameter st n override = (st, Ok tt).
Proof. exact @C06_existing. Qed.
Print Assumptions C06_add_existing_changes_nothing.
Theorem C06_add_new_registers_unset : forall (A : alg) (st : cst A) n override st',
  ~ registered st n -> addParameter st n override = (st', Ok tt) ->
  registered st' n /\ getParameterValue st' n = Ok None /\
  (match override with Some x => getSymbol st' n = Ok x | None => getSymbol st' n = default_symbol n end) /\
  In n (c_nodes st') /\ (forall a b, In (a, b) (c_edges st') <-> In (a, b) (c_edges st)) /\
  (forall m, m <> n -> dget (c_coll st') m = dget (c_coll st) m /\ getSymbol st' m = getSymbol st m) /\
  (forall m, getParameterisationParameters st' m = getParameterisationParameters st m).
Proof. exact @C06_fresh. Qed.
Print Assumptions C06_add_new_registers_unset.
Theorem C06_add_rejected_changes_nothing : forall (A : alg) (st : cst A) n override st' e,
  addParameter st n override = (st', Err e) -> st' = st.
Proof. exact @C06_reject. Qed.
Print Assumptions C06_add_rejected_changes_nothing.
Example C06_nonvacuous :
  reach_any ex_st /\ registered ex_st "b" /\ getParameterValue ex_st "a" = Ok (Some (fz 3)) /\ ~ registered ex_st "new" /\
  snd (addParameter ex_st "new" (Some "N")) = Ok tt /\ snd (addParameter ex_st "" None) = Err IndexError.
Proof.
  split; [unfold ex_st; reach_lit|]. split; [vm_compute; tauto|]. split; [vmr|].
  split; [vm_compute; intuition discriminate|]. split; vmr.
Qed.

(** C07. [gives a kvs]: the arguments [a] give the entries [kvs], as one dict
    or positionally. *)
Theorem C07_setParameterValue_skips : forall (A : alg) (st : cst A) ord fuel n v,
  registered st n -> parametric st n -> setParameterValue ord fuel st n v = (st, Ok tt).
Proof. exact @C07_one. Qed.
Print Assumptions C07_setParameterValue_skips.
Theorem C07_setParameterValues_skips : forall (A : alg) (st : cst A) ord fuel a a' kvs,
  gives a kvs -> gives a' (skip st kvs) -> setParameterValues ord fuel st a = setParameterValues ord fuel st a'.
Proof. exact @C07_many. Qed.
Print Assumptions C07_setParameterValues_skips.
Theorem C07_skipped_entries : forall (A : alg) (st : cst A) kvs n v,
  In (n, v) (skip st kvs) <-> In (n, v) kvs /\ ~ (parametric st n /\ registered st n).
Proof. exact @skip_spec. Qed.
Print Assumptions C07_skipped_entries.
Example C07_nonvacuous :
  registered ex_st "b" /\ parametric ex_st "b" /\
  gives (SVPos ["a"; "b"; "x"] [PInt 1; PInt 7; PInt 2]) [("a", PInt 1); ("b", PInt 7); ("x", PInt 2)] /\
  skip ex_st [("a", PInt 1); ("b", PInt 7); ("x", PInt 2)] = [("a", PInt 1); ("x", PInt 2)] /\
  (let st' := fst (setParameterValues idord 50 ex_st (SVPos ["a"; "b"; "x"] [PInt 1; PInt 7; PInt 2])) in
   getParameterValue st' "b" = Ok (Some (fz 2)) /\ getParameterValue st' "p" = Ok (Some (fz 5))).
Proof.
  split; [vm_compute; tauto|]. split; [apply dmem_par; vmr|].
  split; [right; split; [discriminate|reflexivity]|]. split; [vmr|]. split; vmr.
Qed.

(** C08. *)
Theorem C08_acyclic_always : forall (A : alg) (st : cst A), reach_any st ->
  forall x, ~ clos_trans string (fun a b => In (a, b) (c_edges st)) x x.
Proof. exact @C08_acyclic. Qed.
Print Assumptions C08_acyclic_always.
Theorem C08_cycle_check_exact : forall (A : alg) (st : cst A) ord name e, reach_any st -> good_ord ord ->
  (snd (addParameterisation ord st name e) = Err AssertionError <->
     registered st name /\ (forall t, In t (free e) -> exists n, names_symbol st t n) /\
     exists x, clos_trans string (fun a b => In (a, b) (c_edges st) \/ (b = name /\ exists t, In t (free e) /\ names_symbol st t a)) x x) /\
  (snd (addParameterisation ord st name e) <> Ok tt -> fst (addParameterisation ord st name e) = st).
Proof. exact @C08_iff. Qed.
Print Assumptions C08_cycle_check_exact.
Example C08_nonvacuous :
  reach_any ex_st /\ snd (addParameterisation idord ex_st "a" (s "p")) = Err AssertionError /\
  snd (addParameterisation idord ex_st "u" (s "p")) = Ok tt /\ snd (addParameterisation idord ex_st "u" (TSym "zz")) = Err ValueError.
Proof. split; [unfold ex_st; reach_lit|]. splits; vmr. Qed.

(** C09. False for arbitrary histories: a prefactor containing the
    parameter's own symbol is accepted, and the expansion then never ends. *)
Theorem C09_terminates_refuted : exists (st : cst tree_alg) name, reach_any st /\ parametric st name /\
  forall ord tag fuel, good_ord ord -> getParametricExpression ord tag fuel st name true = Err Diverges.
Proof.
  exists w9, "b". split; [unfold w9; reach_lit|]. split; [apply dmem_par; vmr|]. intros. now apply w9_diverges.
Qed.
Print Assumptions C09_terminates_refuted.
(** Missing: histories with prefactors that bring in new symbols or with
    clashing symbols. *)
Theorem C09_terminates_partial : forall (A : alg), alg_ok A -> forall sg, (forall a b, sg a = sg b -> a = b) ->
  forall st : cst A, reach_rm sg st -> exists n, forall ord fuel, good_ord ord -> n <= fuel ->
    (forall tag name expand, getParametricExpression ord tag fuel st name expand <> Err Diverges) /\
    (forall name v, snd (setParameterValue ord fuel st name v) <> Err Diverges) /\
    (forall a, snd (setParameterValues ord fuel st a) <> Err Diverges).
Proof. intros A L sg I st. exact (C09_lemma L sg I st). Qed.
Print Assumptions C09_terminates_partial.
(** Once a call returns, more rounds change nothing. *)
Theorem C09_fuel_irrelevant : forall (A : alg) (st : cst A) o fuel fuel', fuel <= fuel' ->
  snd (cstep fuel st o) <> Err Diverges -> cstep fuel' st o = cstep fuel st o.
Proof. exact @cstep_mono. Qed.
Print Assumptions C09_fuel_irrelevant.
Example C09_nonvacuous :
  alg_ok tree_alg /\ alg_ok simp_alg /\ (forall a b, dsg a = dsg b -> a = b) /\
  reach_rm dsg (hist ex_names (ex_ops ++ [CPre "p" (s "a"); CRm "u"]) : cst tree_alg).
Proof.
  split; [exact tree_alg_ok|]. split; [exact simp_alg_ok|]. split; [exact dsg_inj|]. reach_lit.
  unfold ex_ops. oks.
  intros e ns H. vm_compute in H. injection H as <- <-. vm_compute. tauto.
Qed.

(** C10. False in two cases: an expression without symbols is never
    evaluated, and a call that names a parametric parameter returns at once. *)
Theorem C10_constant_expression_refuted : exists (st st' : cst tree_alg) r, reach dsg st [] /\
  cstep 50 st (idord, CSet "a" (PInt 1)) = (st', Ok tt) /\ solution st' r /\ r (dsg "b") = Some 5%Z /\
  getParameterValue st' "b" = Ok None.
Proof.
  pose (st := hist ["a"; "b"] [CAddP "b" (TNum 5 : E tree_alg)]).
  exists st, (fst (cstep 50 st (idord, CSet "a" (PInt 1)))).
  exists (fun t => if String.eqb t (dsg "b") then Some 5%Z else Some 1%Z). split; [reach_lit; [oks|reflexivity]|].
  split; [vmr|]. split; [unfold solution; solve_lit|]. split; reflexivity.
Qed.
Print Assumptions C10_constant_expression_refuted.
Theorem C10_no_refresh_refuted : exists (st st' : cst tree_alg) r, reach dsg st [] /\
  cstep 50 st (idord, CSet "b" (PInt 1)) = (st', Ok tt) /\ solution st' r /\ r (dsg "b") = Some 2%Z /\
  getParameterValue st' "b" = Ok None.
Proof.
  pose (st := hist ["a"; "b"] [CSet "a" (PInt 2); CAddP "b" (s "a")]).
  exists st, (fst (cstep 50 st (idord, CSet "b" (PInt 1)))).
  exists (fun t => Some 2%Z). split; [reach_lit; [oks|reflexivity]|].
  split; [vmr|]. split; [unfold solution; solve_lit|]. split; reflexivity.
Qed.
Print Assumptions C10_no_refresh_refuted.
(** [solution st' r]: [r] assigns to each symbol its value, nested expressions
    being evaluated under [r]. [sets st o]: [o] is setParameterValues, or
    setParameterValue of a parameter without expression. Missing: expressions
    without symbols, histories with rmParameter, or removal of a
    parameterisation that had been overwritten. *)
Theorem C10_values_follow_partial : forall (A : alg), alg_ok A -> forall sg, (forall a b, sg a = sg b -> a = b) ->
  forall (st : cst A) ow ord fuel o st', reach sg st ow -> good_ord ord -> sets st o -> cstep fuel st (ord, o) = (st', Ok tt) ->
  forall r p q v x p', solution st' r -> dget (c_coll st') p = Some p' ->
    depends_tr st' p q -> independent st' q -> value_of st' q <> None ->
    r (sg p) = Some v -> toF v = Ok x -> snd (setValue p' (PFloat x)) = Ok tt ->
    getParameterValue st' p = Ok (Some x).
Proof. intros A L sg I. exact (C10_lemma L sg I). Qed.
Print Assumptions C10_values_follow_partial.
Example C10_nonvacuous : exists st', reach dsg ex_st [] /\ sets ex_st (CSet "x" (PInt 2)) /\
  cstep 50 ex_st (idord, CSet "x" (PInt 2)) = (st', Ok tt) /\ solution st' ex_sol /\ 
  depends_tr st' "p" "x" /\ independent st' "x" /\ value_of st' "x" = Some (fz 2) /\ ex_sol (dsg "p") = Some 39%Z /\
  @toF tree_alg 39%Z = Ok (fz 39) /\ match dget (c_coll st') "p" with Some p' => snd (setValue p' (PFloat (fz 39))) = Ok tt | None => False end /\ getParameterValue st' "p" = Ok (Some (fz 39)).
Proof.
  exists (fst (cstep 50 ex_st (idord, CSet "x" (PInt 2)))). split; [exact ex_reach|]. split; [intros (e & ns & H); vm_compute in H; discriminate|].
  split; [vmr|]. split; [unfold solution; solve_lit|].
  split; [eapply t_trans with "b"; apply t_step; eexists; (split; [vmr|cbn; tauto])|].
  split; [split; [vm_compute; tauto|intros (e & ns & H); vm_compute in H; discriminate]|].
  splits; vmr.
Qed.

(** C11. False in general: with p = y/x, x = 0 and y = 0 the result depends on
    which of the two is substituted first. *)
Theorem C11_order_refuted : exists (st : cst simp_alg) o, reach dsg st [] /\ sets st o /\
  snd (cstep 50 st (idord, o)) = Ok tt /\ snd (cstep 50 st (revord, o)) = Ok tt /\
  getParameterValue (fst (cstep 50 st (idord, o))) "p" <> getParameterValue (fst (cstep 50 st (revord, o))) "p".
Proof.
  exists (hist ["x"; "y"; "p"] [CAddP "p" (TMul (ss "y") (TInv (ss "x")) : E simp_alg)]), (CSets (SVDict [("x", PInt 0); ("y", PInt 0)])).
  split; [reach_lit; [oks|reflexivity]|]. split; [exact I|]. split; [vmr|]. split; [vmr|].
  vm_compute. discriminate.
Qed.
Print Assumptions C11_order_refuted.
(** Without cancellation the whole resulting state is the same. *)
Theorem C11_order_irrelevant_partial : forall (A : alg), alg_ok A -> forall sg, (forall a b, sg a = sg b -> a = b) ->
  forall (st : cst A) ow o, alg_plain A -> reach sg st ow -> sets st o ->
  exists n, forall fuel fuel' ord ord', n <= fuel -> n <= fuel' -> good_ord ord -> good_ord ord' ->
    cstep fuel st (ord, o) = cstep fuel' st (ord', o).
Proof. intros A L sg I. exact (C11_lemma L sg I). Qed.
Print Assumptions C11_order_irrelevant_partial.
(** With any algebra, the parameters whose expression has a value end with
    that value under both orders. *)
Theorem C11_defined_values_agree_partial : forall (A : alg), alg_ok A -> forall sg, (forall a b, sg a = sg b -> a = b) ->
  forall (st : cst A) ow ord ord' fuel fuel' o st1 st2, reach sg st ow -> good_ord ord -> good_ord ord' -> sets st o ->
  cstep fuel st (ord, o) = (st1, Ok tt) -> cstep fuel' st (ord', o) = (st2, Ok tt) ->
  forall r p q v x p1 p2, solution st1 r -> solution st2 r ->
    dget (c_coll st1) p = Some p1 -> dget (c_coll st2) p = Some p2 ->
    depends_tr st1 p q -> independent st1 q -> value_of st1 q <> None ->
    depends_tr st2 p q -> independent st2 q -> value_of st2 q <> None ->
    r (sg p) = Some v -> toF v = Ok x -> snd (setValue p1 (PFloat x)) = Ok tt -> snd (setValue p2 (PFloat x)) = Ok tt ->
    getParameterValue st1 p = getParameterValue st2 p.
Proof.
  intros A L sg I st ow ord ord' fuel fuel' o st1 st2 RE G1 G2 S E1 E2 r p q v x p1 p2 S1 S2 D1 D2 T1 I1 V1 T2 I2 V2 R F A1 A2.
  now rewrite (C10_lemma L sg I _ _ _ _ _ _ RE G1 S E1 r p q v x p1), (C10_lemma L sg I _ _ _ _ _ _ RE G2 S E2 r p q v x p2).
Qed.
Print Assumptions C11_defined_values_agree_partial.
Example C11_nonvacuous : alg_plain tree_alg /\ alg_ok tree_alg /\ reach dsg ex_st [] /\ sets ex_st (CSet "x" (PInt 2)) /\
  good_ord idord /\ good_ord revord /\
  getParameterValue (fst (cstep 50 ex_st (idord, CSet "x" (PInt 2)))) "p" = Ok (Some (fz 39)) /\
  getParameterValue (fst (cstep 50 ex_st (revord, CSet "x" (PInt 2)))) "p" = Ok (Some (fz 39)).
Proof.
  split; [exact tree_alg_plain|]. split; [exact tree_alg_ok|]. split; [exact ex_reach|].
  split; [intros (e & ns & H); vm_compute in H; discriminate|]. split; [exact idord_good|]. split; [exact revord_good|].
  split; vmr.
Qed.

(** C12. False with sympy's 0*x = 0: p = a*x, a = 0, x without value. *)
Theorem C12_missing_input_refuted : exists (st st' : cst simp_alg), reach dsg st [] /\
  cstep 50 st (idord, CSet "a" (PInt 0)) = (st', Ok tt) /\ mentions_tr st' "p" "x" /\ independent st' "x" /\ value_of st' "x" = None /\
  value_of st "p" = None /\ value_of st' "p" = Some (fz 0).
Proof.
  pose (st := hist ["a"; "x"; "p"] [CAddP "p" (TMul (ss "a") (ss "x") : E simp_alg)]).
  exists st, (fst (cstep 50 st (idord, CSet "a" (PInt 0)))).
  split; [reach_lit; [oks|reflexivity]|]. split; [vmr|].
  split; [apply t_step; do 3 eexists; split; [vmr|]; split; [|vmr]; vm_compute; tauto|].
  split; [split; [vm_compute; tauto|intros (e & ns & H); vm_compute in H; discriminate]|].
  splits; vmr.
Qed.
Print Assumptions C12_missing_input_refuted.
Theorem C12_missing_input_partial : forall (A : alg), alg_ok A -> forall sg, (forall a b, sg a = sg b -> a = b) ->
  forall (st : cst A) ow ord fuel o st', alg_plain A -> reach sg st ow -> good_ord ord -> sets st o -> cstep fuel st (ord, o) = (st', Ok tt) ->
  forall p u, mentions_tr st' p u -> independent st' u -> value_of st' u = None -> value_of st' p = value_of st p.
Proof. intros A L sg I. exact (C12_lemma L sg I). Qed.
Print Assumptions C12_missing_input_partial.
Example C12_nonvacuous : exists st', alg_plain tree_alg /\ reach dsg ex_st [] /\ sets ex_st (CSet "a" (PInt 4)) /\
  cstep 50 ex_st (idord, CSet "a" (PInt 4)) = (st', Ok tt) /\ mentions_tr st' "p" "x" /\ independent st' "x" /\ value_of st' "x" = None.
Proof.
  exists (fst (cstep 50 ex_st (idord, CSet "a" (PInt 4)))).
  split; [exact tree_alg_plain|]. split; [exact ex_reach|]. split; [intros (e & ns & H); vm_compute in H; discriminate|].
  split; [vmr|].
  split; [eapply t_trans with "b"; apply t_step; do 3 eexists; (split; [vmr|]; split; [|vmr]; vm_compute; tauto)|].
  split; [split; [vm_compute; tauto|intros (e & ns & H); vm_compute in H; discriminate]|]. vmr.
Qed.

(** C13. False: edges of the replaced expression stay in the graph. *)
Theorem C13_stale_cycle_refuted : exists (st : cst tree_alg), reach dsg st ["q"] /\
  getParameterisationParameters st "q" = Ok ["z"] /\ snd (addParameterisation idord st "x" (s "q")) = Err AssertionError.
Proof.
  exists (hist ["x"; "z"; "q"] [CAddP "q" (s "x"); CAddP "q" (s "z")]).
  split; [reach_lit; [oks|reflexivity]|]. split; vmr.
Qed.
Print Assumptions C13_stale_cycle_refuted.
Theorem C13_stale_edge_set_refuted : exists (st st' : cst tree_alg), reach dsg st ["q"] /\
  rmParameterisation st "q" = (st', Ok tt) /\ independent st' "x" /\ snd (setParameterValue idord 50 st' "x" (PInt 1)) = Err ValueError.
Proof.
  pose (st := hist ["x"; "z"; "q"] [CAddP "q" (s "x"); CAddP "q" (s "z")]).
  exists st, (fst (rmParameterisation st "q")).
  split; [reach_lit; [oks|reflexivity]|]. split; [vmr|].
  split; [split; [vm_compute; tauto|intros (e & ns & H); vm_compute in H; discriminate]|]. vmr.
Qed.
Print Assumptions C13_stale_edge_set_refuted.
(** What does hold: the new expression and its parameter list replace the old
    ones (and C10_values_follow_partial then applies to the new state).
    Missing: the cycle check and rmParameterisation. *)
Theorem C13_replaced_partial : forall (A : alg), alg_ok A -> forall sg, (forall a b, sg a = sg b -> a = b) ->
  forall (st : cst A) ow ord name e st1, reach sg st ow -> good_ord ord -> addParameterisation ord st name e = (st1, Ok tt) ->
  (exists ns, getParameterisationParameters st1 name = Ok ns /\ forall n, In n ns <-> registered st n /\ In (sg n) (free e)) /\
  getParametricExpression ord [] 0 st1 name false = Ok e /\
  (forall m, m <> name -> getParameterisationParameters st1 m = getParameterisationParameters st m /\
             forall o t f, getParametricExpression o t f st1 m false = getParametricExpression o t f st m false) /\
  c_coll st1 = c_coll st.
Proof. intros A L sg I. exact (C13_lemma L sg I). Qed.
Print Assumptions C13_replaced_partial.
Example C13_nonvacuous : exists st1 st2, reach dsg ex_st [] /\ parametric ex_st "b" /\ 
  addParameterisation idord ex_st "b" (TMul (s "u") (s "u")) = (st1, Ok tt) /\
  setParameterValue idord 50 st1 "u" (PInt 2) = (st2, Ok tt) /\
  getParameterValue st2 "b" = Ok (Some (fz 4)) /\ getParameterValue st2 "p" = Ok (Some (fz 19)).
Proof.
  pose (st1 := fst (addParameterisation idord ex_st "b" (TMul (s "u") (s "u") : E tree_alg))).
  exists st1, (fst (setParameterValue idord 50 st1 "u" (PInt 2))). split; [exact ex_reach|]. split; [apply dmem_par; vmr|].
  split; [vmr|]. split; [vmr|]. split; vmr.
Qed.

(** C14. False for a parameter without expression: it stays a node of the
    graph and every later set looks up its deleted symbol. *)
Theorem C14_remove_root_refuted : exists (st st1 : cst tree_alg), reach dsg st [] /\ rmParameter st "a" = (st1, Ok tt) /\
  (forall p, ~ parametric st p) /\ snd (setParameterValue idord 50 st "b" (PInt 1)) = Ok tt /\
  snd (setParameterValue idord 50 st1 "b" (PInt 1)) = Err KeyError.
Proof.
  pose (st := hist ["a"; "b"] [] : cst tree_alg). exists st, (fst (rmParameter st "a")).
  split; [reach_lit; [oks|reflexivity]|]. split; [vmr|].
  split; [intros p (e & ns & H); vm_compute in H; discriminate|]. split; vmr.
Qed.
Print Assumptions C14_remove_root_refuted.
(** For a parameter [x] with an expression that depends on something, and
    whose symbol [sx] is used by no expression, removing it commutes with
    setting any other parameter. Missing: parameters without expression. *)
Theorem C14_remove_parametric_partial : forall (A : alg), alg_ok A -> forall sg,
  forall (st : cst A) x sx q st1 ord fuel, reach_rm sg st -> rmParameter st x = (st1, Ok tt) ->
  getSymbol st x = Ok sx -> (forall p e, getParametricExpression ord [] fuel st p false = Ok e -> ~ In sx (free e)) ->
  depends st x q -> good_ord ord ->
  (forall n v, n <> x -> setParameterValue ord fuel st1 n v =
     (fst (rmParameter (fst (setParameterValue ord fuel st n v)) x), snd (setParameterValue ord fuel st n v))) /\
  (forall a kvs, gives a kvs -> ~ In x (map fst kvs) -> setParameterValues ord fuel st1 a =
     (fst (rmParameter (fst (setParameterValues ord fuel st a)) x), snd (setParameterValues ord fuel st a))).
Proof. intros A L sg. exact (C14_lemma L sg). Qed.
Print Assumptions C14_remove_parametric_partial.
Example C14_nonvacuous : exists st1, reach_rm dsg ex_st /\ rmParameter ex_st "p" = (st1, Ok tt) /\ getSymbol ex_st "p" = Ok (dsg "p") /\
  (forall p e, getParametricExpression idord [] 50 ex_st p false = Ok e -> ~ In (dsg "p") (free e)) /\ depends ex_st "p" "b" /\
  getParameterValue (fst (setParameterValue idord 50 st1 "x" (PInt 2))) "b" = Ok (Some (fz 6)).
Proof.
  exists (fst (rmParameter ex_st "p")). split; [unfold ex_st; reach_lit; unfold ex_ops; oks|]. split; [vmr|]. split; [vmr|].
  split; [|split; [eexists; split; [vmr|cbn; tauto]|vmr]].
  intros p e. unfold getParametricExpression. destruct (dget (c_par ex_st) p) as [[e0 ns]|] eqn:G; [|discriminate].
  intros [= <-]. apply dget_In in G. vm_compute in G.
  destruct G as [G|[G|[]]]; injection G as <- <- <-; vm_compute; intuition discriminate.
Qed.

(** C15. The part about failures is false: entries before the failing one stay
    set. *)
Theorem C15_not_atomic_refuted : exists (st st' : cst tree_alg), reach dsg st [] /\
  setParameterValues idord 50 st (SVDict [("a", PInt 1); ("zz", PInt 2)]) = (st', Err ValueError) /\
  getParameterValue st "a" = Ok None /\ getParameterValue st' "a" = Ok (Some (fz 1)).
Proof.
  pose (st := hist ["a"; "b"] [] : cst tree_alg).
  exists st, (fst (setParameterValues idord 50 st (SVDict [("a", PInt 1); ("zz", PInt 2)]))).
  split; [reach_lit; [oks|reflexivity]|]. splits; vmr.
Qed.
Print Assumptions C15_not_atomic_refuted.
(** [entries_ok]: all names are registered and every value is accepted by its
    parameter unless that is parametric; [last_given kvs q v]: the last entry
    for [q] is [v]. *)
Theorem C15_last_wins_partial : forall (A : alg), alg_ok A -> forall sg, (forall a b, sg a = sg b -> a = b) ->
  forall (st : cst A) ow kvs a, reach sg st ow -> gives a kvs -> entries_ok st kvs ->
  exists n, forall ord fuel, good_ord ord -> n <= fuel -> exists st', setParameterValues ord fuel st a = (st', Ok tt) /\
    (forall q v, independent st q -> last_given kvs q v -> exists x, to_float v = Ok x /\ getParameterValue st' q = Ok (Some x)) /\
    (forall q, independent st q -> ~ In q (map fst kvs) -> getParameterValue st' q = getParameterValue st q).
Proof. intros A L sg I st ow kvs a. exact (C15_lemma L sg I st ow kvs a). Qed.
Print Assumptions C15_last_wins_partial.
Definition ex_kvs : list (string * pyval) := [("a", PInt 1); ("b", PStr "ignored"); ("x", PInt 5); ("a", PInt 2)].
Example C15_nonvacuous : reach dsg ex_st [] /\ gives (SVPos (map fst ex_kvs) (map snd ex_kvs)) ex_kvs /\ entries_ok ex_st ex_kvs /\
  last_given ex_kvs "a" (PInt 2) /\ independent ex_st "a" /\ independent ex_st "u" /\ ~ In "u" (map fst ex_kvs).
Proof.
  split; [exact ex_reach|]. split; [right; split; [discriminate|reflexivity]|]. split.
  { intros n v H. cbn in H. destruct H as [H|[H|[H|[H|[]]]]]; injection H as <- <-; eexists; (split; [vmr|]);
      intros N; try (vmr). exfalso. apply N. apply dmem_par; vmr. }
  split; [exists [("a", PInt 1); ("b", PStr "ignored"); ("x", PInt 5)], []; split; [reflexivity|intros []]|].
  split; [split; [vm_compute; tauto|intros (e & ns & H); vm_compute in H; discriminate]|].
  split; [split; [vm_compute; tauto|intros (e & ns & H); vm_compute in H; discriminate]|]. cbn. intuition discriminate.
Qed.

(** C16. *)
Theorem C16_default_symbols_distinct : forall n m t, default_symbol n = Ok t -> default_symbol m = Ok t -> n = m.
Proof. exact default_symbol_inj. Qed.
Print Assumptions C16_default_symbols_distinct.
(** [sg]: the symbol used for each name throughout the history. *)
Theorem C16_symbol_roundtrip : forall (A : alg), alg_ok A -> forall sg, (forall a b, sg a = sg b -> a = b) ->
  forall (st : cst A) n, reach_rm sg st -> registered st n ->
  exists t, getSymbol st n = Ok t /\ getParameterFromSymbol st t = Ok n.
Proof. intros A L sg I. exact (C16_lemma L sg I). Qed.
Print Assumptions C16_symbol_roundtrip.
Example C16_nonvacuous : default_symbol "Cab" = Ok "C_{ab}" /\ reach_rm dsg ex_st /\ registered ex_st "b".
Proof. split; [reflexivity|]. split; [reach_lit; cbn; tauto|vm_compute; tauto]. Qed.

(** C17. *)
Theorem C17_expansion : forall (A : alg), alg_ok A ->
  forall (st : cst A) ord tag fuel name F, reach_any st -> good_ord ord ->
  getParametricExpression ord tag fuel st name true = Ok F ->
  (forall t, In t (free F) -> exists q, getParameterFromSymbol st t = Ok q /\ independent st q) /\
  (forall e ind r v, getParametricExpression ord tag fuel st name false = Ok e -> solves st ind r ->
     eval e r = Some v -> eval F r = Some v) /\
  (alg_plain A -> forall e ind r, getParametricExpression ord tag fuel st name false = Ok e -> solves st ind r ->
     eval F r = eval e r).
Proof. intros A L. exact (C17_lemma L). Qed.
Print Assumptions C17_expansion.
(** For all values [ind] of the independent parameters there is exactly one
    way to evaluate the nested expressions. *)
Theorem C17_meaning_unique : forall (A : alg), alg_ok A -> forall sg, (forall a b, sg a = sg b -> a = b) ->
  forall (st : cst A) ow ind, reach sg st ow ->
  exists r, solves st ind r /\ forall r', solves st ind r' -> forall q, registered st q -> r' (sg q) = r (sg q).
Proof. intros A L sg I. exact (C17_solution L sg I). Qed.
Print Assumptions C17_meaning_unique.
Theorem C17_expansion_returns : forall (A : alg), alg_ok A -> forall sg, (forall a b, sg a = sg b -> a = b) ->
  forall (st : cst A) ow, reach sg st ow -> exists n, forall ord tag fuel name, n <= fuel -> good_ord ord -> parametric st name ->
  exists F, getParametricExpression ord tag fuel st name true = Ok F.
Proof. intros A L sg I. exact (C17_total L sg I). Qed.
Print Assumptions C17_expansion_returns.
Example C17_nonvacuous : reach_any ex_st /\ reach dsg ex_st [] /\
  getParametricExpression revord [] 50 ex_st "p" true =
    Ok (TAdd (TMul (TMul (s "a") (s "x")) (TMul (s "a") (s "x"))) (s "a")) /\
  solves ex_st (fun q => if String.eqb q "a" then Some 3%Z else if String.eqb q "x" then Some 2%Z else None) ex_sol.
Proof. split; [unfold ex_st; reach_lit|]. split; [exact ex_reach|]. split; [vmr|]. solve_lit. Qed.

(** C18. False after an overwritten parameterisation. *)
Theorem C18_stale_edge_refuted : exists (st : cst tree_alg) d, reach dsg st ["q"] /\ independent st "x" /\
  getSweepParametersDict idord st ["x"] = Ok d /\ In (dsg "q") (dkeys d) /\ ~ depends_tr st "q" "x".
Proof.
  exists (hist ["x"; "z"; "p"; "q"] [CAddP "p" (s "x"); CAddP "q" (s "p"); CAddP "q" (s "z")]). eexists.
  split; [reach_lit; [oks|reflexivity]|].
  split; [split; [vm_compute; tauto|intros (e & ns & H); vm_compute in H; discriminate]|]. split; [vmr|].
  split; [vm_compute; tauto|]. intros D. apply clos_trans_t1n in D.
  inversion D as [y (ns & H & Hy)|y z (ns & H & Hy) T]; subst; vm_compute in H; injection H as <-; destruct Hy as [Hy|[]]; [discriminate|].
  subst. inversion T as [y (ns & H & Hy)|y z' (ns & H & Hy) T']; subst; vm_compute in H; discriminate.
Qed.
Print Assumptions C18_stale_edge_refuted.
(** In histories without overwritten parameterisations: *)
Theorem C18_partition_partial : forall (A : alg), alg_ok A -> forall sg, (forall a b, sg a = sg b -> a = b) ->
  forall (st : cst A) swept ord ord', reach sg st [] -> good_ord ord -> good_ord ord' -> (forall n, In n swept -> independent st n) ->
  exists d d', getSweepParametersDict ord st swept = Ok d /\ getNonSweepParametersDict ord' st swept = Ok d' /\
    (forall t v, dget d t = Some v <->
       exists n, registered st n /\ (In n swept \/ exists r, In r swept /\ depends_tr st n r) /\ t = sg n /\ v = value_of st n) /\
    (forall t v, dget d' t = Some v <->
       exists n, registered st n /\ ~ (In n swept \/ exists r, In r swept /\ depends_tr st n r) /\ t = sg n /\ v = value_of st n).
Proof. intros A L sg I. exact (C18_lemma L sg I). Qed.
Print Assumptions C18_partition_partial.
Example C18_nonvacuous : reach dsg ex_st [] /\ independent ex_st "x" /\
  (exists d, getSweepParametersDict idord ex_st ["x"] = Ok d /\ dkeys d = map dsg ["x"; "b"; "p"]) /\
  (exists d, getNonSweepParametersDict revord ex_st ["x"] = Ok d /\ dkeys d = map dsg ["u"; "a"] /\ dget d (dsg "a") = Some (Some (fz 3))).
Proof.
  split; [exact ex_reach|]. split; [split; [vm_compute; tauto|intros (e & ns & H); vm_compute in H; discriminate]|].
  split; eexists; [split; vmr|splits; vmr].
Qed.
