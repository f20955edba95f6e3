(** C122: the Hamiltonian depends on the flux biases of junctions through the
    fluxes of the loops. *)
From Coq Require Import List Bool String Ascii Arith ZArith Reals Permutation Lra Lia.
From Coquelicot Require Import Complex.
From Verif Require Import Prelude Sweep Mat Graph GraphSpec Symbolic SymbolicSpec SymbolicFlux NumOp NumOpSpec SymHam SymHamSpec SymHamT SymTotal SymTotalSpec SymTotalMain MoveSpec NumSubst NumSymSpec NumSymEx NumGaugeSpec NumGaugeMain NumGaugeEx.
Import ListNotations.
Open Scope string_scope.
Open Scope list_scope.
Open Scope nat_scope.

(** C122. Two systems of one circuit whose loops have the same fluxes up to whole
    flux quanta, and whose inductors have the same flux biases, have the same
    Hamiltonian up to rounding and a unitary, if each node is in the charge
    basis and has no inductor, or is joined to ground by inductors. *)
Theorem C122_loops_partial : forall eigh inv z ka kb pmax chg flx y y' w w' Cinv P ec el ej ep data circ0 circ Qnp Pnp argord c n h h' H,
  let N := fold_right Nat.mul 1 (c_dims c) in
  system y -> system y' -> same_circuit y y' -> (forall l, Permutation (argord l) l) -> inverted y (v_par w) Cinv P ->
  getExpandedOperatorsMap (getOperatorList eigh inv z ka kb pmax chg flx) (ss_nodes y) data None circ0 = Ok circ -> op_vector cQ (ss_nodes y) circ = Ok Qnp -> op_vector cP (ss_nodes y) circ = Ok Pnp ->
  (forall m, In m (ss_nodes y) -> free_node eigh inv y data m \/ grounded y m) -> In n (ss_nodes y) -> dget circ n = Some c ->
  substitute y w Cinv P ec el ej ep = Ok h -> substitute y' w' Cinv P ec el ej ep = Ok h' -> same_fluxes y y' w w' ->
  getHamiltonian N argord (ss_nodes y) (ss_edges y) h Qnp Pnp circ = Ok H ->
  exists H', getHamiltonian N argord (ss_nodes y') (ss_edges y') h' Qnp Pnp circ = Ok H' /\ equivalent N H H'.
Proof. exact loops_main. Qed.
Print Assumptions C122_loops_partial.
(** So moveFluxBias between junctions that are in the same loops, in the same
    direction, keeps the Hamiltonian up to rounding and a unitary. *)
Theorem C122_move_partial : forall eigh inv z ka kb pmax chg flx y a b x w Cinv P ec el ej ep data circ0 circ Qnp Pnp argord c n h h' H,
  let gen := getOperatorList eigh inv z ka kb pmax chg flx in let N := fold_right Nat.mul 1 (c_dims c) in let y' := fst (moveFluxBias y a b) in
  system y -> kind_at y "I" a -> kind_at y "I" b -> a <> b -> dget (ss_flux y) a = Some x -> x <> [] -> dget (ss_flux y) b = Some [] -> same_loops y a b ->
  (forall l, Permutation (argord l) l) -> inverted y (v_par w) Cinv P ->
  getExpandedOperatorsMap gen (ss_nodes y) data None circ0 = Ok circ -> op_vector cQ (ss_nodes y) circ = Ok Qnp -> op_vector cP (ss_nodes y) circ = Ok Pnp ->
  (forall m, In m (ss_nodes y) -> free_node eigh inv y data m \/ grounded y m) -> In n (ss_nodes y) -> dget circ n = Some c ->
  substitute y w Cinv P ec el ej ep = Ok h -> substitute y' w Cinv P ec el ej ep = Ok h' ->
  getHamiltonian N argord (ss_nodes y) (ss_edges y) h Qnp Pnp circ = Ok H ->
  exists H', getHamiltonian N argord (ss_nodes y') (ss_edges y') h' Qnp Pnp circ = Ok H' /\ equivalent N H H'.
Proof. exact move_main. Qed.
Print Assumptions C122_move_partial.
(** It does not in the oscillator basis: two junctions in parallel. *)
Theorem C122_oscillator_refuted : forall argord, (forall l, Permutation (argord l) l) ->
  exists eigh inv z ka kb pmax chg flx y a b w Cinv P data circ Qnp Pnp c n h h' H H', let gen := getOperatorList eigh inv z ka kb pmax chg flx in let N := fold_right Nat.mul 1 (c_dims c) in let y' := fst (moveFluxBias y a b) in
  system y /\ kind_at y "I" a /\ kind_at y "I" b /\ same_loops y a b /\ dget (ss_flux y) a = Some ["a"] /\ dget (ss_flux y) b = Some [] /\ same_circuit y y' /\ same_fluxes y y' w w /\
  ideal y (v_par w) /\ inverted y (v_par w) Cinv P /\ (forall m d, In m (ss_nodes y) -> dget data m = Some d -> solved eigh inv z ka kb chg flx m d) /\
  getExpandedOperatorsMap gen (ss_nodes y) data None [] = Ok circ /\ op_vector cQ (ss_nodes y) circ = Ok Qnp /\ op_vector cP (ss_nodes y) circ = Ok Pnp /\ In n (ss_nodes y) /\ dget circ n = Some c /\
  substitute y w Cinv P 1 1 1 1 = Ok h /\ substitute y' w Cinv P 1 1 1 1 = Ok h' /\
  getHamiltonian N argord (ss_nodes y) (ss_edges y) h Qnp Pnp circ = Ok H /\ getHamiltonian N argord (ss_nodes y') (ss_edges y') h' Qnp Pnp circ = Ok H' /\ ~ equivalent N H H'.
Proof. exact oscillator_counter. Qed.
Print Assumptions C122_oscillator_refuted.
(** An inductor to ground and two junctions in one loop; the node of the inductor
    in the oscillator basis, the other in the charge basis *)
Example C122_witness : exists eigh inv y data circ Qnp Pnp c P h h' H, let a := (0, 2, 1) in let b := (2, 1, 0) in let w := wv (1 / 4) in let y' := fst (moveFluxBias y a b) in
  system y /\ kind_at y "I" a /\ kind_at y "I" b /\ dget (ss_flux y) a = Some ["a"] /\ dget (ss_flux y) b = Some [] /\ same_loops y a b /\ inverted y (v_par w) id_mat P /\ same_circuit y y' /\ same_fluxes y y' w w /\
  data = [(1, mkod 1 BOscillator); (2, mkod 1 BCharge)] /\ grounded y 1 /\ free_node eigh inv y data 2 /\ ss_nodes y = [1; 2] /\ branch_bias y (v_flux w) a = (1 / 4)%R /\ branch_bias y' (v_flux w) b = (1 / 4)%R /\
  getExpandedOperatorsMap (getOperatorList eigh inv z1 z1 z1 z1 1 1) (ss_nodes y) data None [] = Ok circ /\ op_vector cQ (ss_nodes y) circ = Ok Qnp /\ op_vector cP (ss_nodes y) circ = Ok Pnp /\
  In 2 (ss_nodes y) /\ dget circ 2 = Some c /\ substitute y w id_mat P 1 1 1 1 = Ok h /\ substitute y' w id_mat P 1 1 1 1 = Ok h' /\
  getHamiltonian (fold_right Nat.mul 1 (c_dims c)) (fun l => l) (ss_nodes y) (ss_edges y) h Qnp Pnp circ = Ok H.
Proof. exact (gauge_witness (fun l => l) (fun l => Permutation_refl l)). Qed.
