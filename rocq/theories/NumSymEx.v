(** Definedness, counterexample and witness for C119-C121. *)
From Coq Require Import List Bool String Ascii Arith ZArith Reals Permutation Lra Lia.
From Coquelicot Require Import Complex.
From Verif Require Import Prelude PreludeFacts Mat MatFacts Util UtilLinProofs Graph GraphSpec GraphView GraphForest GraphWf GraphCircuit GraphState GraphMaps GraphOps GraphProofs CollLast Sweep SweepProofs SweepResultProofs Symbolic SymbolicSpec RSum SymbolicInv SymbolicCap SymbolicCap2 SymbolicFlux SymbolicNew NumOp NumOpSpec NumKron NumSpectral NumCharge NumExpand NumHerm NumOpProofs NumSweepRef
  SymHam SymHamSpec SymHamProofs SymHamQ SymHamT SymHamEx SymbolicProofs SymTotal SymTotalSpec SymTotalProofs SymTotalMain MoveSpec NumSubst NumSymSpec NumSymProofs NumSymHam NumSymNode NumSymMain.
Import ListNotations.
Open Scope string_scope.
Open Scope list_scope.
Open Scope nat_scope.

Lemma sys_nodup y : system y -> NoDup (ss_nodes y).
Proof. intros Hy. exact (nodes_NoDup (ss_nodes y) (ss_cg y) (circuit_derived _ (m_circ y (system_inv y Hy))) (system_nodes y Hy)). Qed.
Lemma substitute_ok y w Cinv P ec el ej ep : system y -> exists h, substitute y w Cinv P ec el ej ep = Ok h.
Proof.
  intros Hy. unfold substitute, getJosephsonVector, getPhaseSlipVector. rewrite !(vector_ok y Hy), <- (m_red y (system_inv y Hy)), (bias_ok y Hy). cbn [bind]. eauto.
Qed.
Lemma vectors_ok eigh inv z ka kb pmax chg flx nodes data circ0 circ : NoDup nodes ->
  getExpandedOperatorsMap (getOperatorList eigh inv z ka kb pmax chg flx) nodes data None circ0 = Ok circ ->
  (forall f, exists l, op_vector f nodes circ = Ok l) /\ forall n, In n nodes -> exists c, dget circ n = Some c.
Proof.
  intros ND E. set (gen := getOperatorList eigh inv z ka kb pmax chg flx) in *.
  pose proof (map_usable gen nodes data (gen_dim_list eigh inv z ka kb pmax chg flx) circ0 circ E) as U.
  destruct (map_ok gen nodes data U None circ0 ND) as (circ' & E' & K & _). rewrite E in E'. injection E' as <-.
  assert (G : forall n, In n nodes -> exists c, dget circ n = Some c).
  { intros n Hn. apply In_nth_error in Hn as [i Hi]. destruct (U n (nth_error_In _ _ Hi)) as (d & o & Ed & Eo & _). rewrite (K i n d o Hi Ed Eo eq_refl). eauto. }
  split; [|exact G]. intros f. apply mapM_exists. intros n Hn. destruct (G n Hn) as [c ->]. eauto.
Qed.
(** Everything is defined for a system whose nodes are all in the charge or
    oscillator basis. *)
Lemma all_defined eigh inv z ka kb pmax chg flx y w Cinv P ec el ej ep data argord : system y -> (forall l, Permutation (argord l) l) ->
  (forall m, In m (ss_nodes y) -> exists d, dget data m = Some d /\ (od_basis d = BCharge \/ od_basis d = BOscillator)) ->
  ~ self_branch "I" (ss_cg y) (ss_edges y) -> ~ self_branch "V" (ss_cg y) (ss_edges y) ->
  exists circ Qnp Pnp h, getExpandedOperatorsMap (getOperatorList eigh inv z ka kb pmax chg flx) (ss_nodes y) data None [] = Ok circ /\
    op_vector cQ (ss_nodes y) circ = Ok Qnp /\ op_vector cP (ss_nodes y) circ = Ok Pnp /\ (forall n, In n (ss_nodes y) -> exists c, dget circ n = Some c) /\
    substitute y w Cinv P ec el ej ep = Ok h /\ forall N, exists H, getHamiltonian N argord (ss_nodes y) (ss_edges y) h Qnp Pnp circ = Ok H.
Proof.
  intros Hy Hp Hd SI SV. pose proof (sys_nodup y Hy) as ND. set (gen := getOperatorList eigh inv z ka kb pmax chg flx).
  assert (U : usable gen (ss_nodes y) data).
  { intros n Hn. destruct (Hd n Hn) as (d & E & B). destruct B as [B|B]; exists d; unfold gen, getOperatorList, ident_dim; rewrite B; eexists; repeat split; auto. }
  destruct (map_ok gen (ss_nodes y) data U None [] ND) as (circ & E & _).
  destruct (vectors_ok eigh inv z ka kb pmax chg flx (ss_nodes y) data [] circ ND E) as [V G]. destruct (V cQ) as [Qnp HQ], (V cP) as [Pnp HP].
  destruct (substitute_ok y w Cinv P ec el ej ep Hy) as [h Hh]. exists circ, Qnp, Pnp, h. repeat (split; [assumption|]). intros N.
  apply (c57_total eigh inv z ka kb pmax chg flx (ss_nodes y) data [] circ Qnp Pnp argord (ss_edges y) h N ND Hp E).
  intros i e Hi Ha. revert Hh. unfold substitute, getJosephsonVector, getPhaseSlipVector. rewrite !(vector_ok y Hy), <- (m_red y (system_inv y Hy)), (bias_ok y Hy). cbn [bind]. intros Hh. injection Hh as <-.
  cbn [h_J h_Ps] in Ha. unfold amp in Ha.
  assert (L : forall p, nth i (map (lname y p) (ss_edges y)) None = lname y p e). { intros p. apply (map_nth_error (lname y p)) in Hi. apply nth_error_nth with (d := None) in Hi. exact Hi. }
  rewrite !L in Ha. assert (HD := circuit_derived _ (m_circ y (system_inv y Hy))).
  assert (He : In e (wcs (ss_cg y))) by (rewrite <- (y_edges y Hy); now apply nth_error_In in Hi).
  assert (Se : src e <> dst e).
  { intros Hs. destruct Ha as [Ha|Ha]; [apply SI|apply SV]; unfold lname in Ha; destruct (dget (c_map (ss_cg y)) e) as [c|] eqn:Ec; try lra;
      (match type of Ha with context [starts ?p ?c] => destruct (starts p c) eqn:St; [|lra] end); exists e, c; (split; [now apply nth_error_In in Hi|]); (split; [now apply (map_get (ss_cg y) HD)|]); auto. }
  split; [exact Se|]. rewrite (system_nodes y Hy). destruct (wcs_ends (ss_cg y) HD e He) as [[A|A] [B|B]]; auto. congruence.
Qed.

(** ** An inductor's flux bias *)
Definition z1 : nat -> R := fun _ => 1%R.
Definition gen1 := getOperatorList eigh0 (fun _ A => A) z1 z1 z1 z1 1%R 1%R.
Definition osc1 : dict nat opdata := [(1, mkod 1 BOscillator)].
Lemma small_atol : (atol <= 1 / 100)%R.
Proof. unfold atol. apply Rmult_le_reg_l with (10 ^ 12)%R; [apply pow_lt; lra|]. rewrite Rinv_r by (apply pow_nonzero; lra). cbn. lra. Qed.
Lemma sanC_kept (x : R) : (x = 0 \/ 1 / 100 <= Rabs x)%R -> sanC atol (RtoC x) = RtoC x.
Proof.
  intros H. unfold sanC, RtoC. cbn [fst snd]. f_equal; apply sanR_kept.
  - destruct H as [->|H]; [left; reflexivity|right]. pose proof small_atol. lra.
  - left; reflexivity.
Qed.
Lemma eigh0_right A : A 0 0 = RtoC 0 -> right_on eigh0 (fun _ A => A) 1 A.
Proof.
  intros HA. unfold right_on, eigen_ok, same, mul, csum, eigh0. cbn [fst snd].
  split; [|split]; intros i j Hi Hj; destruct i as [|i]; try lia; destruct j as [|j]; try lia; unfold diagonal, identity, eye; cbn; rewrite ?HA; apply injective_projections; cbn; ring.
Qed.
Lemma D1_00 : oD (oscillator_basis eigh0 (fun _ A => A) 1 1 1 1 1 1) 0 0 = RtoC 1 /\ oDd (oscillator_basis eigh0 (fun _ A => A) 1 1 1 1 1 1) 0 0 = RtoC 1.
Proof.
  assert (M : forall A, matfun eigh0 (fun _ A => A) 1 cis A 0 0 = RtoC 1).
  { intros A. unfold matfun, eigh0, mm, mmul. cbn [sumn kadd kmul k0 C_rng]. unfold cdiag, eye. cbn [Nat.eqb]. unfold cis. rewrite cos_0, sin_0. apply injective_projections; cbn; ring. }
  unfold oscillator_basis. cbn [oD oDd]. unfold tidyup. rewrite M. unfold mdag. rewrite M. replace (Cconj (RtoC 1)) with (RtoC 1) by (apply injective_projections; cbn; ring).
  split; apply sanC_kept; right; rewrite Rabs_R1; lra.
Qed.
Lemma QP1_00 : oQ (oscillator_basis eigh0 (fun _ A => A) 1 1 1 1 1 1) 0 0 = RtoC 0 /\ oP (oscillator_basis eigh0 (fun _ A => A) 1 1 1 1 1 1) 0 0 = RtoC 0.
Proof.
  unfold oscillator_basis. cbn [oQ oP]. unfold tidyup, oscQ, oscP, create, destroy. cbn [Nat.eqb Nat.add].
  split; (match goal with |- sanC _ ?a = _ => replace a with (RtoC 0) by (apply injective_projections; cbn; ring) end); apply sanC_0.
Qed.
Lemma rf_value argord : (forall l, Permutation (argord l) l) ->
  exists circ c Qnp Pnp, getExpandedOperatorsMap gen1 [1] osc1 None [] = Ok circ /\ dget circ 1 = Some c /\ op_vector cQ [1] circ = Ok Qnp /\ op_vector cP [1] circ = Ok Pnp /\
    c_dims c = [1] /\ forall h, h_J h 0 = 0%R -> h_J h 1 = 1%R -> h_Ps h 0 = 0%R -> h_Ps h 1 = 0%R -> h_pb h 1 = 0%R -> h_Qb h 0 = 0%R -> h_El h = 1%R -> h_Ej h = 1%R ->
    exists H, getHamiltonian 1 argord [1] [(0, 1, 0); (1, 0, 1)] h Qnp Pnp circ = Ok H /\ H 0 0 = sanC atol (RtoC (1 / 2 * (h_Pbi h 0 * h_Linv h 0 0 * h_Pbi h 0) - 1)).
Proof.
  intros Hp. set (o := oscillator_basis eigh0 (fun _ A => A) 1 1 1 1 1 1).
  set (c := mkcops [1] (tensor [(1, oQ o)]) (tensor [(1, oP o)]) (tensor [(1, oD o)]) (tensor [(1, oDd o)]) (tensor [(1, oS o)]) (tensor [(1, oSd o)])).
  exists [(1, c)], c, [cQ c], [cP c]. do 5 (split; [reflexivity|]). intros h J0 J1 P0 P1 b1 q0 El Ej.
  assert (T : forall A, tensor [(1, A)] 0 0 = A 0 0). { intros A. cbn [tensor]. unfold kron. cbn. apply injective_projections; cbn; ring. }
  assert (X : forall x : nat * bool, argord [x] = [x]). { intros x. exact (Permutation_length_1_inv (Permutation_sym (Hp [x]))). }
  unfold getHamiltonian. change (op_vector cD [1] [(1, c)]) with (Ok [cD c]). change (op_vector cDd [1] [(1, c)]) with (Ok [cDd c]). change (op_vector cS [1] [(1, c)]) with (Ok [cS c]). change (op_vector cSd [1] [(1, c)]) with (Ok [cSd c]). cbn [bind].
  unfold cosine_part. cbn [List.length seq foldM]. rewrite J0, J1, P0, P1. 
  destruct (Req_EM_T 0 0) as [_|]; [|lra]. destruct (Req_EM_T 1 0) as [|_]; [lra|]. cbn [bind].
  change (branch_terms [1] [(0, 1, 0); (1, 0, 1)] 1) with [(0, true)]. rewrite X. cbn [map snd fst product bind fold_left].
  eexists. split; [reflexivity|]. unfold tidyup. f_equal. rewrite b1, El, Ej.
  unfold mplus, msc, quadform, mm, mmul, shifted, mplus, msc, eye, mzero. cbn [List.length sumn kadd kmul k0 C_rng opn nth Nat.eqb].
  destruct D1_00 as [d1 d2], QP1_00 as [d3 d4]. fold o in d1, d2, d3, d4. cbn [c cQ cP cD cDd]. rewrite !T, d1, d2, d3, d4, q0. unfold cis. rewrite !Rmult_0_r, cos_0, sin_0.
  apply injective_projections; cbn; field.
Qed.
Lemma spectrum_1 A E : spectrum 1 A E <-> A 0 0 = RtoC (E 0).
Proof.
  split.
  - intros (V & (U1 & _) & S). specialize (S 0 0 ltac:(lia) ltac:(lia)). specialize (U1 0 0 ltac:(lia) ltac:(lia)). unfold mul, csum, diagonal, identity, adjoint in *. cbn [Nat.eqb] in *.
    assert (N0 : V 0 0 <> RtoC 0). { intros Z. rewrite Z in U1. apply (f_equal fst) in U1. cbn in U1. lra. }
    assert (Z : ((A 0 0 - RtoC (E 0)) * V 0 0 = RtoC 0)%C). { replace ((A 0 0 - RtoC (E 0)) * V 0 0)%C with ((RtoC 0 + A 0 0 * V 0 0) - (RtoC 0 + V 0 0 * RtoC (E 0)))%C by ring. rewrite S. ring. }
    destruct (Ceq_dec (A 0 0) (RtoC (E 0))) as [|Hne]; [assumption|]. exfalso. refine (Cmult_neq_0 _ _ _ N0 Z). intros Q. apply Hne.
    replace (A 0 0) with ((A 0 0 - RtoC (E 0)) + RtoC (E 0))%C by ring. rewrite Q. ring.
  - intros H. exists identity. split; [split|]; intros i j Hi Hj; destruct i as [|i]; try lia; destruct j as [|j]; try lia; unfold mul, csum, diagonal, identity, adjoint; cbn [Nat.eqb]; rewrite ?H; apply injective_projections; cbn; ring.
Qed.
Lemma Lrf_values : exists y, system y /\ ss_nodes y = [1] /\ ss_edges y = [(0, 1, 0); (1, 0, 1)] /\ ss_flux y = [((0, 1, 0), ["a"]); ((1, 0, 1), [])] /\
  (exists P, inverted y (fun _ => 1%R) id_mat P /\ ideal y (fun _ => 1%R)) /\ getJosephsonVector y = Ok [None; Some "I1"] /\ getPhaseSlipVector y = Ok [None; None] /\ josephson_bias y (ss_flux y) = Ok [[]; []] /\
  ss_charge y = [(1, None)] /\ g_edges (c_graph (ss_cg y)) = [((0, 1, 0), "L1"); ((0, 1, 1), "I1"); ((0, 1, 2), "C1")] /\ dget (c_map (ss_cg y)) (0, 1, 0) = Some "L1" /\ dget (c_map (ss_cg y)) (1, 0, 1) = Some "I1".
Proof.
  assert (H : exists y, new_system idord noor (grun cg_new Lrf) = Some (Ok y) /\ ss_nodes y = [1] /\ ss_edges y = [(0, 1, 0); (1, 0, 1)] /\ ss_flux y = [((0, 1, 0), ["a"]); ((1, 0, 1), [])] /\
    getJosephsonVector y = Ok [None; Some "I1"] /\ getPhaseSlipVector y = Ok [None; None] /\ josephson_bias y (ss_flux y) = Ok [[]; []] /\ ss_charge y = [(1, None)] /\
    g_edges (c_graph (ss_cg y)) = [((0, 1, 0), "L1"); ((0, 1, 1), "I1"); ((0, 1, 2), "C1")] /\ dget (c_map (ss_cg y)) (0, 1, 0) = Some "L1" /\ dget (c_map (ss_cg y)) (1, 0, 1) = Some "I1" /\
    c_coupled (ss_cg y) = [] /\ c_fbias (ss_cg y) = [((0, 1, 0), mkfb None "a")] /\ (exists M, capacitance_matrix (ss_cg y) = Ok M /\ M 0 0 = [(TmC "C1", 1%Z)])).
  { eexists. split; [vm_compute; reflexivity|]. do 12 (split; [reflexivity|]). eexists. split; [vm_compute; reflexivity|]. reflexivity. }
  destruct H as (y & Hn & E1 & E2 & E3 & E4 & E5 & E6 & E7 & E8 & E9 & E10 & E11 & E12 & M & HM & M0).
  assert (Hy : system y) by (eapply system_new; [apply Lrf_circuit|exact Hn]).
  destruct (inverted_ones y 0 Hy E11) as (P & HP).
  { rewrite E12. intros e f. cbn [dget]. destruct (eqb e (0, 1, 0)); [|discriminate]. intros E. injection E as <-. reflexivity. }
  { exists M. split; auto. rewrite E1. cbn [List.length]. intros i j Hi Hj. destruct i as [|i]; try lia; destruct j as [|j]; try lia; rewrite M0; unfold id_mat; cbn; ring. }
  exists y. do 4 (split; [assumption|]). split; [exists P; split; [exact HP|]|repeat (split; [assumption|]); assumption].
  split; [|split; [exact E11|]]; [intros x Hx; unfold branches_of in Hx; rewrite E8 in Hx; cbn in Hx; destruct Hx as [<-|[]]; discriminate|intros x _; lra].
Qed.
Definition wb (b : R) : vals := mkvals (fun _ => 1%R) (fun _ => 0%R) (fun _ => b) (fun _ => 0%R) (fun _ => 0%R).
Lemma inductor_period argord : (forall l, Permutation (argord l) l) ->
  exists eigh inv z ka kb pmax chg flx y w w' Cinv P data circ Qnp Pnp c n h h' H H', let gen := getOperatorList eigh inv z ka kb pmax chg flx in let N := fold_right Nat.mul 1 (c_dims c) in
  system y /\ ideal y (v_par w) /\ inverted y (v_par w) Cinv P /\ (forall m d, In m (ss_nodes y) -> dget data m = Some d -> solved eigh inv z ka kb chg flx m d) /\
  getExpandedOperatorsMap gen (ss_nodes y) data None [] = Ok circ /\ op_vector cQ (ss_nodes y) circ = Ok Qnp /\ op_vector cP (ss_nodes y) circ = Ok Pnp /\ In n (ss_nodes y) /\ dget circ n = Some c /\
  substitute y w Cinv P 1 1 1 1 = Ok h /\ substitute y w' Cinv P 1 1 1 1 = Ok h' /\
  v_par w' = v_par w /\ v_charge w' = v_charge w /\ (forall x, v_flux w' x = (v_flux w x + 1)%R) /\
  getHamiltonian N argord (ss_nodes y) (ss_edges y) h Qnp Pnp circ = Ok H /\ getHamiltonian N argord (ss_nodes y) (ss_edges y) h' Qnp Pnp circ = Ok H' /\
  exists E, spectrum N H E /\ ~ spectrum N H' E.
Proof.
  intros Hp. destruct Lrf_values as (y & Hy & E1 & E2 & E3 & (P & HP & HI) & E4 & E5 & E6 & E7 & E8 & E9 & E10).
  destruct (rf_value argord Hp) as (circ & c & Qnp & Pnp & C1 & C2 & C3 & C4 & C5 & CH).
  assert (S : forall b, exists h, substitute y (wb b) id_mat P 1 1 1 1 = Ok h /\ exists H, getHamiltonian 1 argord [1] [(0, 1, 0); (1, 0, 1)] h Qnp Pnp circ = Ok H /\ H 0 0 = sanC atol (RtoC (1 / 2 * (b * b) - 1))).
  { intros b. unfold substitute. rewrite E4, E5, E6. cbn [bind]. eexists. split; [reflexivity|].
    match goal with |- context [getHamiltonian _ _ _ _ ?h _ _ _] => destruct (CH h) as (H & G1 & G2) end; try reflexivity.
    { cbn [h_Qb]. unfold charge_bias. rewrite E1, E7. reflexivity. }
    exists H. split; [exact G1|]. rewrite G2. f_equal. f_equal. cbn [h_Pbi h_Linv].
    destruct (flux_energy_at y Hy (wb b) id_mat P (fun _ => 0%R) HI HP eq_refl) as [A _]. revert A.
    unfold sym_getFluxEnergies, flux_energy. rewrite <- (system_nodes y Hy), E1. cbn [List.length sumn]. cbn [kadd k0 R_rng]. set (nb := node_bias _ _ _ 0). set (li := inverse_inductance _ _ _ 0 0). intros A.
    replace (1 / 2 * (nb * li * nb))%R with (1 / 2 * (b * b))%R; [reflexivity|]. rewrite !Rplus_0_l in A. rewrite A. f_equal.
    unfold inductive_form, branches_of. rewrite E8. cbn [filter letter snd Ascii.eqb Bool.eqb map]. rewrite Rsum_cons, Rsum_nil. unfold SymbolicSpec.shift. rewrite E2. cbn [map Nat.eqb]. rewrite E9, E10. cbn [letter snd Ascii.eqb Bool.eqb src dst fst Nat.eqb].
    rewrite !Rsum_cons, Rsum_nil. unfold branch_bias. rewrite E3. cbn. field. }
  destruct (S 0%R) as (h & h1 & H & H1 & H2), (S 1%R) as (h' & h1' & H' & H1' & H2').
  exists eigh0, (fun _ A => A), z1, z1, z1, z1, 1%R, 1%R, y, (wb 0), (wb 1), id_mat, P, osc1, circ, Qnp, Pnp, c, 1, h, h', H, H'. cbv zeta. rewrite C5, E1, E2. cbn [fold_right Nat.mul Nat.add].
  split; [exact Hy|]. split; [exact HI|]. split; [exact HP|]. split.
  { intros m d [<-|[]] Ed. cbn in Ed. injection Ed as <-. unfold solved. cbn [od_basis od_trunc]. split; apply eigh0_right; unfold oscP, oscQ, create, destroy; cbn [Nat.eqb Nat.add]; apply injective_projections; cbn; field. }
  do 3 (split; [assumption|]). split; [now left|]. do 3 (split; [assumption|]). do 2 (split; [reflexivity|]). split; [intros x; cbn; ring|]. do 2 (split; [assumption|]).
  exists (fun _ => (-1)%R). rewrite !spectrum_1, H2, H2'. rewrite !sanC_kept.
  - split; [f_equal; lra|]. intros Q. apply RtoC_inj in Q. lra.
  - right. rewrite Rabs_left; lra.
  - right. rewrite Rabs_left; lra.
Qed.

(** ** Two nodes in the charge basis, joined by biased junctions *)
Definition wsym (a g : R) : vals := mkvals (fun _ => 1%R) (fun _ => g) (fun _ => a) (fun _ => 0%R) (fun _ => 0%R).
Lemma sym_witness argord : (forall l, Permutation (argord l) l) ->
  exists eigh inv y data circ Qnp Pnp c h, system y /\ (forall m d, In m (ss_nodes y) -> dget data m = Some d -> solved eigh inv z1 z1 z1 1 1 m d) /\
  getExpandedOperatorsMap (getOperatorList eigh inv z1 z1 z1 z1 1 1) (ss_nodes y) data None [] = Ok circ /\ op_vector cQ (ss_nodes y) circ = Ok Qnp /\ op_vector cP (ss_nodes y) circ = Ok Pnp /\
  In 1 (ss_nodes y) /\ dget circ 1 = Some c /\ substitute y (wsym (1 / 4) (1 / 3)) id_mat id_mat 1 1 1 1 = Ok h /\
  (exists H, getHamiltonian (fold_right Nat.mul 1 (c_dims c)) argord (ss_nodes y) (ss_edges y) h Qnp Pnp circ = Ok H) /\
  branches_of "I" (c_graph (ss_cg y)) = [((1, 2, 0), "I2"); ((1, 2, 1), "I3")] /\ dget (ss_flux y) (2, 1, 0) = Some ["a"] /\ dget (ss_charge y) 1 = Some (Some "g") /\
  flux_shifted y (wsym (1 / 4) (1 / 3)) (wsym (1 / 4 + 3) (1 / 3)) /\ flux_reversed y (wsym (1 / 4) (1 / 3)) (wsym (3 / 4) (1 / 3)) /\ charge_reversed (wsym (1 / 4) (1 / 3)) (wsym (1 / 4) (- (1 / 3))).
Proof.
  intros Hp. destruct Lmix_facts as (y & Hy & E1 & E2 & E3 & E4 & E5 & E6 & _ & SI & SV). destruct (c56_witness 1) as (eigh & inv & HE).
  set (data := [(1, mkod 1 BCharge); (2, mkod 1 BCharge)]).
  destruct (all_defined eigh inv z1 z1 z1 z1 1 1 y (wsym (1 / 4) (1 / 3)) id_mat id_mat 1 1 1 1 data argord Hy Hp) as (circ & Qnp & Pnp & h & D1 & D2 & D3 & D4 & D5 & D6); auto.
  { rewrite E1. intros m [<-|[<-|[]]]; eexists; (split; [reflexivity|left; reflexivity]). }
  destruct (D4 1) as [c Hc]; [rewrite E1; now left|].
  assert (HF : ss_flux y = ss_red y) by (symmetry; exact (m_red y (system_inv y Hy))).
  assert (NB : forall x, ~ biases_inductor y x).
  { intros x (e & l & K & Hl & Hx). rewrite HF, E3 in Hl. destruct K as (He & c0 & Ec & HL). rewrite E2 in He. destruct He as [<-|[<-|[<-|[<-|[]]]]]; cbn in Hl; injection Hl as <-; try easy.
    assert (HB : In ((1, 2, 0), "I2") (branches_of "I" (c_graph (ss_cg y)))) by (rewrite E5; now left). apply filter_In in HB as [HB _].
    assert (HD := circuit_derived _ (m_circ y (system_inv y Hy))).
    apply (map_get _ HD) in Ec. assert (K2 : carries (c_graph (ss_cg y)) (2, 1, 0) "I2") by (eexists; split; [exact HB|]; split; [reflexivity|right; reflexivity]).
    apply (map_get _ HD) in K2. apply (map_get _ HD) in Ec. rewrite Ec in K2. injection K2 as ->. discriminate HL. }
  exists eigh, inv, y, data, circ, Qnp, Pnp, c, h. split; [exact Hy|]. split.
  { rewrite E1. intros m d [<-|[<-|[]]] Ed; cbn in Ed; injection Ed as <-; exact HE. }
  do 3 (split; [assumption|]). split; [rewrite E1; now left|]. do 2 (split; [assumption|]). split; [apply D6|]. split; [assumption|]. split; [rewrite HF, E3; reflexivity|]. split; [rewrite E4; reflexivity|].
  split; [|split]; (split; [reflexivity|]); (split; [reflexivity|]); intros x; cbn.
  - exists 3%Z. split; [lra|]. intros B. now apply NB in B.
  - exists 1%Z. split; [lra|]. intros B. now apply NB in B.
  - lra.
Qed.

Lemma flux_system eigh inv z ka kb pmax chg flx y w w' Cinv P ec el ej ep data circ0 circ Qnp Pnp argord c n h h' H :
  let gen := getOperatorList eigh inv z ka kb pmax chg flx in let N := fold_right Nat.mul 1 (c_dims c) in
  system y -> (forall l, Permutation (argord l) l) ->
  getExpandedOperatorsMap gen (ss_nodes y) data None circ0 = Ok circ -> op_vector cQ (ss_nodes y) circ = Ok Qnp -> op_vector cP (ss_nodes y) circ = Ok Pnp ->
  (forall m d, In m (ss_nodes y) -> dget data m = Some d -> solved eigh inv z ka kb chg flx m d) -> In n (ss_nodes y) -> dget circ n = Some c ->
  substitute y w Cinv P ec el ej ep = Ok h -> substitute y w' Cinv P ec el ej ep = Ok h' -> flux_reversed y w w' ->
  getHamiltonian N argord (ss_nodes y) (ss_edges y) h Qnp Pnp circ = Ok H ->
  exists H', getHamiltonian N argord (ss_nodes y) (ss_edges y) h' Qnp Pnp circ = Ok H' /\ mirror N H H' /\ forall E, spectrum N H E <-> spectrum N H' E.
Proof. intros gen N Hy. apply flux_main. now apply sys_nodup. Qed.
Lemma charge_system eigh inv z ka kb pmax chg flx y w w' Cinv P ec el ej ep data circ0 circ Qnp Pnp argord c n h h' H :
  let gen := getOperatorList eigh inv z ka kb pmax chg flx in let N := fold_right Nat.mul 1 (c_dims c) in
  system y -> (forall l, Permutation (argord l) l) ->
  getExpandedOperatorsMap gen (ss_nodes y) data None circ0 = Ok circ -> op_vector cQ (ss_nodes y) circ = Ok Qnp -> op_vector cP (ss_nodes y) circ = Ok Pnp ->
  (forall m d, In m (ss_nodes y) -> dget data m = Some d -> solved eigh inv z ka kb chg flx m d) -> In n (ss_nodes y) -> dget circ n = Some c ->
  substitute y w Cinv P ec el ej ep = Ok h -> substitute y w' Cinv P ec el ej ep = Ok h' -> charge_reversed w w' ->
  getHamiltonian N argord (ss_nodes y) (ss_edges y) h Qnp Pnp circ = Ok H ->
  exists H', getHamiltonian N argord (ss_nodes y) (ss_edges y) h' Qnp Pnp circ = Ok H' /\ mirror N H H' /\ forall E, spectrum N H E <-> spectrum N H' E.
Proof. intros gen N Hy. apply charge_main. now apply sys_nodup. Qed.
