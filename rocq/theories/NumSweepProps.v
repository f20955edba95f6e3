(** C58-C61, C79: parameter sweeps of a NumericalSystem. *)
From Coq Require Import List Bool String Arith NArith ZArith Reals SpecFloat.
From Coquelicot Require Import Complex.
From Verif Require Import Prelude Symbolic Float Param Expr ExprProofs Sweep Coll CollSpec CollFinal CollLast Temp
  NumOp NumSweep NumSweepSpec NumSweepFinal NumSweepWit NumSweepRef NumReady.
Import ListNotations.
Open Scope string_scope.
Open Scope list_scope.
Open Scope nat_scope.

(** C58. With all values set and up to date, swept parameters independent and
    no oscillator impedance depending on them, paramSweep and the loop that
    calls setParameterValues and evaluates at every grid point give the same
    results or raise the same error: for every set order, every order of
    substitution and any evaluables. Expressions are numbers along the sweep,
    or the algebra never cancels (else C59_order_refuted applies). *)
Theorem C58_sweep_partial : forall (A : alg) (LAW : alg_ok A) (sg : string -> string) (INJ : forall a b, sg a = sg b -> a = b)
    (D K : Type) (meth : string -> K -> option (D * D) -> view -> res (value D)) (diagonalize : value D -> res (value D))
    (s : nsys A) specs s1 o_set o_sw o_non o_re fuel sq_exp sq_post sq_pre kw0 evals f t,
  sreach sg (n_cst s) [] -> settled sg (n_cst s) -> (forall q, registered (n_cst s) q -> value_of (n_cst s) q <> None) ->
  (forall n, In n (map sp_name specs) -> independent (n_cst s) n) ->
  in_sync s -> fixed_impedances s (map sp_name specs) -> with_grid s specs = Ok s1 -> can_write f t ->
  (forall i, good_ord (o_set i)) -> (forall i, good_ord (o_sw i)) -> good_ord o_non -> good_ord o_re ->
  (forall i, good_sq (sq_exp i)) -> (forall i, good_sq (sq_post i)) -> good_sq sq_pre ->
  let points := seq 0 (Z.to_nat (s_npts (n_sw s1))) in
  numbers_along sg o_set fuel sq_exp s1 points \/ alg_plain A ->
  match explicit meth diagonalize o_set fuel sq_exp (requested kw0 evals) s1 points with
  | Ok l => exists w, paramSweep meth diagonalize o_set o_sw fuel sq_post kw0 o_non o_re sq_pre s specs evals f t = Ok w /\
              mapM (readPart (w_fs w)) (w_files w) = Ok (map snd l)
  | Err x => paramSweep meth diagonalize o_set o_sw fuel sq_post kw0 o_non o_re sq_pre s specs evals f t = Err x
  end.
Proof. exact @C58_lemma. Qed.
Print Assumptions C58_sweep_partial.
(** The operators are in step with the values after every successful
    setParameterValues. *)
Theorem C58_in_sync : forall (A : alg) ord fuel sq (s s' : nsys A) a,
  NoDup (dkeys (n_data s)) -> ns_set ord fuel sq s a = Ok s' -> in_sync s'.
Proof. exact @ns_set_sync. Qed.
Print Assumptions C58_in_sync.
(** A successful setParameterValues establishes what C58_sweep_partial asks of
    the values, if every parametric parameter depends on an independent one and
    its expression has a value its bounds admit. *)
Theorem C58_ready : forall (A : alg) (LAW : alg_ok A) (sg : string -> string) (INJ : forall a b, sg a = sg b -> a = b)
    ord fuel sq (s s' : nsys A) a, sreach sg (n_cst s) [] -> good_ord ord -> NoDup (dkeys (n_data s)) -> ns_set ord fuel sq s a = Ok s' ->
  (forall q, parametric (n_cst s') q -> exists i, depends_tr (n_cst s') q i /\ independent (n_cst s') i) ->
  (forall q, parametric (n_cst s') q -> exists r v x p, solution (n_cst s') r /\ r (sg q) = Some v /\ toF v = Ok x /\
     dget (c_coll (n_cst s')) q = Some p /\ snd (setValue p (PFloat x)) = Ok tt) ->
  sreach sg (n_cst s') [] /\ settled sg (n_cst s') /\ (forall q, registered (n_cst s') q -> value_of (n_cst s') q <> None) /\ in_sync s'.
Proof. exact @C58_ready_lemma. Qed.
Print Assumptions C58_ready.
Example C58_ready_witness : sreach dsg (n_cst w_sys0) [] /\ NoDup (dkeys (n_data w_sys0)) /\
  ns_set idord 50 idsq w_sys0 (SVDict [("y", PInt 3)]) = Ok wsys /\ parametric (n_cst wsys) "p" /\
  (forall q, parametric (n_cst wsys) q -> exists i, depends_tr (n_cst wsys) q i /\ independent (n_cst wsys) i) /\
  (forall q, parametric (n_cst wsys) q -> exists r v x p, solution (n_cst wsys) r /\ r (dsg q) = Some v /\ toF v = Ok x /\
     dget (c_coll (n_cst wsys)) q = Some p /\ snd (setValue p (PFloat x)) = Ok tt).
Proof. exact ready_wit. Qed.
(** A charge node and an oscillator node with impedance y; x is swept over 1, 2, 3. *)
Example C58_witness : alg_ok tree_alg /\ (forall a b, dsg a = dsg b -> a = b) /\ sreach dsg (n_cst wsys) [] /\ settled dsg (n_cst wsys) /\
  (forall q, registered (n_cst wsys) q -> value_of (n_cst wsys) q <> None) /\
  (forall n, In n (map sp_name wspecs) -> independent (n_cst wsys) n) /\
  in_sync wsys /\ fixed_impedances wsys (map sp_name wspecs) /\ with_grid wsys wspecs = Ok wgrid /\
  numbers_along dsg (fun _ => idord) 50 (fun _ => revsq) wgrid (seq 0 (Z.to_nat (s_npts (n_sw wgrid)))) /\ s_npts (n_sw wgrid) = 3%Z.
Proof.
  exact (conj tree_alg_ok (conj dsg_inj (conj w_sreach (conj w_settled (conj w_given (conj w_ind (conj w_sync (conj w_imp (conj w_grid (conj w_numbers w_npts)))))))))).
Qed.
(** Sweeping a parameter an oscillator impedance depends on: all other
    hypotheses hold, but the sweep keeps the operator vectors of the first
    values, and its Hamiltonian is wrong (1/4 for 1/8). *)
Theorem C58_refuted : sreach dsg (n_cst zsys) [] /\ settled dsg (n_cst zsys) /\ (forall q, registered (n_cst zsys) q -> value_of (n_cst zsys) q <> None) /\
  (forall n, In n (map sp_name zspecs) -> independent (n_cst zsys) n) /\ in_sync zsys /\
  exists l w rs, with_grid zsys zspecs = Ok zgrid /\ dependents (n_cst zsys) ["x"] "Zosc1" /\
  numbers_along dsg (fun _ => idord) 50 (fun _ => idsq) zgrid (seq 0 (Z.to_nat (s_npts (n_sw zgrid)))) /\
  explicit (zmeth zg) (zdiag eye) (fun _ => idord) 50 (fun _ => idsq) (requested tt []) zgrid (seq 0 (Z.to_nat (s_npts (n_sw zgrid)))) = Ok l /\
  paramSweep (zmeth zg) (zdiag eye) (fun _ => idord) (fun _ => idord) 50 (fun _ => idsq) tt idord idord idsq zsys zspecs [] fs0 temp0 = Ok w /\
  mapM (readPart (w_fs w)) (w_files w) = Ok rs /\
  exists H1 H2, nth_error (map snd l) 1 = Some (PVal (VPair H1 eye)) /\ nth_error rs 1 = Some (PVal (VPair H2 eye)) /\
    H1 0%nat 0%nat = RtoC (1 / 8) /\ H2 0%nat 0%nat = RtoC (1 / 4).
Proof. exact (conj z_sreach (conj z_settled (conj z_given (conj z_ind (conj z_sync c58_stale))))). Qed.
Print Assumptions C58_refuted.

(** C59. *)
Theorem C59_two_stage_partial : forall (A : alg) (LAW : alg_ok A) (sg : string -> string) (INJ : forall a b, sg a = sg b -> a = b)
    (s : nsys A) swept st' o1 o2 (sq1 sq2 sq3 : sq_t),
  sreach sg (n_cst s) [] -> settled sg (n_cst s) -> (forall q, registered (n_cst s) q -> value_of (n_cst s) q <> None) ->
  s_params (n_sw s) = swept -> (forall n, In n swept -> independent (n_cst s) n) -> swept_sets swept (n_cst s) st' ->
  good_ord o1 -> good_ord o2 -> good_sq sq1 -> good_sq sq2 -> good_sq sq3 ->
  (forall e, In e (n_exprs s) -> has_number sg st' e) \/ alg_plain A ->
  exists pre d d', presub o1 sq1 s = Ok pre /\ getSweepParametersDict o2 st' swept = Ok d /\ getSymbolValuesDict st' = Ok d' /\
    mapM (fun e => bind (subs_dict sq2 e d) tofloat) pre = mapM (fun e => bind (subs_dict sq3 e d') tofloat) (n_exprs s).
Proof. exact @C59_lemma. Qed.
Print Assumptions C59_two_stage_partial.
(** p = y still holds 5, the value it was set to before it was parameterised;
    y is 1. Setting the swept x refreshes it, but the first stage has used
    5. *)
Theorem C59_refuted : sreach dsg t_cst [] /\ (forall q, registered t_cst q -> value_of t_cst q <> None) /\
  n_cst tsys = t_cst /\ s_params (n_sw tsys) = ["x"] /\ independent t_cst "x" /\ swept_sets ["x"] t_cst t_cst' /\
  (forall e, In e (n_exprs tsys) -> has_number dsg t_cst' e) /\
  exists pre d d', presub idord idsq tsys = Ok pre /\ getSweepParametersDict idord t_cst' ["x"] = Ok d /\ getSymbolValuesDict t_cst' = Ok d' /\
    mapM (fun e => bind (subs_dict idsq e d) tofloat) pre = Ok [fz 5] /\
    mapM (fun e => bind (subs_dict idsq e d') tofloat) (n_exprs tsys) = Ok [fz 1].
Proof.
  exact (conj t_reach (conj t_given (conj eq_refl (conj t_params (conj t_ind (conj t_sets (conj t_numbers c59_stale))))))).
Qed.
Print Assumptions C59_refuted.
(** y*(1/x) with y = 0, swept to x = 0: 0 in two stages, no number in one. *)
Theorem C59_order_refuted : alg_ok simp_alg /\ sreach dsg u_cst [] /\ settled dsg u_cst /\ (forall q, registered u_cst q -> value_of u_cst q <> None) /\
  n_cst usys = u_cst /\ s_params (n_sw usys) = ["x"] /\ independent u_cst "x" /\ swept_sets ["x"] u_cst u_cst' /\
  exists pre d d', presub idord idsq usys = Ok pre /\ getSweepParametersDict idord u_cst' ["x"] = Ok d /\ getSymbolValuesDict u_cst' = Ok d' /\
    mapM (fun e => bind (subs_dict idsq e d) tofloat) pre = Ok [fz 0] /\
    isok (mapM (fun e => bind (subs_dict idsq e d') tofloat) (n_exprs usys)) = false.
Proof. exact (conj simp_alg_ok (conj u_reach (conj u_settled (conj u_given (conj eq_refl (conj u_params (conj u_ind (conj u_sets c59_order)))))))). Qed.
Print Assumptions C59_order_refuted.
Example C59_witness : sreach dsg (n_cst wgrid) [] /\ settled dsg (n_cst wgrid) /\ (forall q, registered (n_cst wgrid) q -> value_of (n_cst wgrid) q <> None) /\
  s_params (n_sw wgrid) = ["x"] /\ independent (n_cst wgrid) "x" /\
  swept_sets ["x"] (n_cst wgrid) (fst (setParameterValues idord 50 (n_cst wgrid) (SVDict [("x", PFloat (fz 2))]))) /\
  alg_plain tree_alg.
Proof. exact c59_wit. Qed.

(** C60. When diagonalize returns pairs: at every grid point there is one state
    with the parameters of that point such that every evaluation was called on
    it, and every evaluation depending on the Hamiltonian with the eigenvalues
    and eigenvectors of a Hamiltonian computed on it. *)
Theorem C60_own_pairs_partial : forall (A : alg) (D K : Type) (meth : string -> K -> option (D * D) -> view -> res (value D))
    (diagonalize : value D -> res (value D)) (o_set o_sw : nat -> ordr) fuel sq_post (LAW : alg_ok A) sg
    (s : nsys A) ow specs kw0 o_non o_re sq_pre evals f t w,
  sreach sg (n_cst s) ow -> (forall i, good_ord (o_set i)) -> 2 <= List.length evals -> built evals ->
  (forall H v, diagonalize H = Ok v -> exists E V, v = VPair E V) ->
  paramSweep meth diagonalize o_set o_sw fuel sq_post kw0 o_non o_re sq_pre s specs evals f t = Ok w ->
  forall i, i < Z.to_nat (s_npts (n_sw (w_sys w))) -> exists (si : nsys A) file results outs,
    n_sw si = n_sw (w_sys w) /\ at_point si i /\ nth_error (w_files w) i = Some file /\ readPart (w_fs w) file = Ok (PDict results) /\
    received meth diagonalize (view_of si) evals outs /\ stored evals outs results /\
    forall j e k dep v, nth_error evals j = Some e -> nth_error outs j = Some (dep, v) -> e_dep e = Some k ->
      exists H E V kw, meth "getHamiltonian" kw None (view_of si) = Ok H /\ diagonalize H = Ok (VPair E V) /\ dep = Some (E, V).
Proof. exact @C60_lemma. Qed.
Print Assumptions C60_own_pairs_partial.
Example C60_witness : exists w, sreach dsg (n_cst wsys) [] /\ built cevals /\
  paramSweep cmeth cdiagz (fun _ => idord) (fun _ => idord) 50 (fun _ => idsq) 0%nat idord idord idsq wsys wspecs cevals fs0 temp0 = Ok w /\
  s_npts (n_sw (w_sys w)) = 3%Z.
Proof. exact c60_wit. Qed.
(** With get_vectors=False and two eigenvalues the evaluation is called with
    the eigenvalues in place of E and V. *)
Theorem C60_refuted : built [hentry tt; centry tt] /\
  exists w rs, paramSweep emeth ediag (fun _ => idord) (fun _ => idord) 50 (fun _ => idsq) tt idord idord idsq wsys wspecs
    [hentry tt; centry tt] fs0 temp0 = Ok w /\
  mapM (readPart (w_fs w)) (w_files w) = Ok rs /\
  exists d, nth_error rs 0 = Some (PDict d) /\ dget d "getHamiltonian" = Some (VSeq ["E0"; "E1"]) /\
    dget d "getCurrentMatrixElement" = Some (VPair "E0" "E1").
Proof. exact (conj e_built c60_values). Qed.
Print Assumptions C60_refuted.

(** C61. The last requested evaluation of each evaluable: getSweep returns
    exactly its values. *)
Theorem C61_retrievable_partial : forall (A : alg) (D K : Type) (meth : string -> K -> option (D * D) -> view -> res (value D))
    (diagonalize : value D -> res (value D)) (o_set o_sw : nat -> ordr) fuel sq_post (LAW : alg_ok A) sg
    (s : nsys A) ow specs kw0 o_non o_re sq_pre evals f t w m e name dg dp,
  sreach sg (n_cst s) ow -> (forall i, good_ord (o_set i)) -> 2 <= List.length evals ->
  (forall m' e', m < m' -> nth_error evals m' = Some e' -> e_eval e' <> e_eval e) ->
  nth_error evals m = Some e -> dget eval_spec name = Some (e_eval e, dg, dp) ->
  paramSweep meth diagonalize o_set o_sw fuel sq_post kw0 o_non o_re sq_pre s specs evals f t = Ok w ->
  exists vals, List.length vals = Z.to_nat (s_npts (n_sw (w_sys w))) /\
    (forall i v, nth_error vals i = Some v -> exists (si : nsys A) outs dep, n_sw si = n_sw (w_sys w) /\ at_point si i /\
       received meth diagonalize (view_of si) evals outs /\ nth_error outs m = Some (dep, v)) /\
    (forall iv static, getSweep (w_fs w) (n_sw (w_sys w)) (w_files w) iv static name =
       getSweepResult1 (fun v => Ok v) (n_sw (w_sys w)) iv static vals) /\
    (forall ivs static, getSweepN (w_fs w) (n_sw (w_sys w)) (w_files w) ivs static name =
       getSweepResultN (fun v => Ok v) (n_sw (w_sys w)) ivs static vals).
Proof. exact @C61_lemma. Qed.
Print Assumptions C61_retrievable_partial.
Example C61_witness : forall m' e', 2 < m' -> nth_error cevals m' = Some e' -> e_eval e' <> "getCurrentMatrixElement".
Proof. exact c61_wit. Qed.
(** addEvaluation appends the method the evaluable stands for (only the
    Hamiltonian is diagonalised) and refuses other
    names; different evaluables never overwrite each other's results. *)
Theorem C61_add : forall K (l : list (entry K)) name kw,
  (forall m eig, stands_for name m eig -> addEvaluation l name kw = Ok (l ++ [mkentry m (String.eqb name "Hamiltonian") (if eig then Some "getHamiltonian" else None) kw])) /\
  ((forall m eig, ~ stands_for name m eig) -> addEvaluation l name kw = Err PlainException).
Proof. exact @add_stands. Qed.
Print Assumptions C61_add.
Theorem C61_distinct : forall K (l : list (entry K)) n1 n2 kw1 kw2 e1 e2, addEvaluation l n1 kw1 = Ok (l ++ [e1]) -> addEvaluation l n2 kw2 = Ok (l ++ [e2]) -> n1 <> n2 -> e_eval e1 <> e_eval e2.
Proof. exact @add_distinct. Qed.
Print Assumptions C61_distinct.
(** Current matrix elements requested twice: the first one's result is
    nowhere to be found. *)
Theorem C61_refuted : (forall name dep vw, cmeth name 1 dep vw = Ok (VObj 1)) /\ nth_error cevals 1 = Some (mkentry "getCurrentMatrixElement" false (Some "getHamiltonian") 1) /\
  exists w, paramSweep cmeth cdiagz (fun _ => idord) (fun _ => idord) 50 (fun _ => idsq) 0%nat idord idord idsq wsys wspecs cevals fs0 temp0 = Ok w /\
  forall name iv static arr vals st, getSweep (w_fs w) (n_sw (w_sys w)) (w_files w) iv static name = Ok (arr, vals, st) -> ~ In (VObj 1%nat) vals.
Proof. exact (conj (fun _ _ _ => eq_refl) (conj eq_refl c61_collision)). Qed.
Print Assumptions C61_refuted.

(** C79. One requested evaluation (or none, then the Hamiltonian): retrievable
    unless it returns dicts. *)
Theorem C79_single_partial : forall (A : alg) (D K : Type) (meth : string -> K -> option (D * D) -> view -> res (value D))
    (diagonalize : value D -> res (value D)) (o_set o_sw : nat -> ordr) fuel sq_post (LAW : alg_ok A) sg
    (s : nsys A) ow specs kw0 o_non o_re sq_pre evals e f t w name dg dp,
  sreach sg (n_cst s) ow -> (forall i, good_ord (o_set i)) -> requested kw0 evals = [e] ->
  (forall vw l, call meth diagonalize vw e None <> Ok (VMap l)) -> dget eval_spec name = Some (e_eval e, dg, dp) ->
  paramSweep meth diagonalize o_set o_sw fuel sq_post kw0 o_non o_re sq_pre s specs evals f t = Ok w ->
  exists vals, List.length vals = Z.to_nat (s_npts (n_sw (w_sys w))) /\
    (forall i v, nth_error vals i = Some v -> exists si : nsys A, n_sw si = n_sw (w_sys w) /\ at_point si i /\
       call meth diagonalize (view_of si) e None = Ok v) /\
    (forall iv static, getSweep (w_fs w) (n_sw (w_sys w)) (w_files w) iv static name =
       getSweepResult1 (fun v => Ok v) (n_sw (w_sys w)) iv static vals) /\
    (forall ivs static, getSweepN (w_fs w) (n_sw (w_sys w)) (w_files w) ivs static name =
       getSweepResultN (fun v => Ok v) (n_sw (w_sys w)) ivs static vals).
Proof. exact @C79_lemma. Qed.
Print Assumptions C79_single_partial.
(** If it returns dicts (charging energies of all nodes), getSweep never
    returns one of them, and raises KeyError on a plain sweep. *)
Theorem C79_dict_lost : forall (A : alg) (D K : Type) (meth : string -> K -> option (D * D) -> view -> res (value D))
    (diagonalize : value D -> res (value D)) (o_set o_sw : nat -> ordr) fuel sq_post (LAW : alg_ok A) sg
    (s : nsys A) ow specs kw0 o_non o_re sq_pre evals e f t w name iv static arr vals st,
  sreach sg (n_cst s) ow -> (forall i, good_ord (o_set i)) -> requested kw0 evals = [e] ->
  (forall vw v, call meth diagonalize vw e None = Ok v -> exists l, v = VMap l) ->
  paramSweep meth diagonalize o_set o_sw fuel sq_post kw0 o_non o_re sq_pre s specs evals f t = Ok w ->
  getSweep (w_fs w) (n_sw (w_sys w)) (w_files w) iv static name = Ok (arr, vals, st) -> vals = [].
Proof. exact @C79_dict_lemma. Qed.
Print Assumptions C79_dict_lost.
Theorem C79_refuted : dget eval_spec "ChargingEnergy" = Some (e_eval chentry, e_diag chentry, e_dep chentry) /\
  exists w, paramSweep dmeth (fun v => Ok v) (fun _ => idord) (fun _ => idord) 50 (fun _ => idsq) tt idord idord idsq wsys wspecs
    [chentry] fs0 temp0 = Ok w /\
  getSweep (w_fs w) (n_sw (w_sys w)) (w_files w) "x" [] "ChargingEnergy" = Err KeyError.
Proof. exact (conj eq_refl c79_keyerror). Qed.
Print Assumptions C79_refuted.
