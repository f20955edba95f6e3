(** C119-C121: the Hamiltonian of a NumericalSystem under changes of the
    biases. *)
From Coq Require Import List Bool String Ascii Arith ZArith Reals Permutation Lra Lia.
From Coquelicot Require Import Complex.
From Verif Require Import Prelude Sweep Mat Graph GraphSpec Symbolic SymbolicSpec SymbolicFlux NumOp NumOpSpec SymHam SymHamSpec SymHamT SymTotal SymTotalSpec NumSubst NumSymSpec NumSymMain NumSymEx.
Import ListNotations.
Open Scope string_scope.
Open Scope list_scope.
Open Scope nat_scope.

(** C119. Whole flux quanta on the flux biases of junctions do not change the
    Hamiltonian, in any basis and also when it raises; *)
Theorem C119_period_partial : forall N argord y w w' Cinv P ec el ej ep h h' Qnp Pnp circ,
  flux_shifted y w w' -> substitute y w Cinv P ec el ej ep = Ok h -> substitute y w' Cinv P ec el ej ep = Ok h' ->
  getHamiltonian N argord (ss_nodes y) (ss_edges y) h' Qnp Pnp circ = getHamiltonian N argord (ss_nodes y) (ss_edges y) h Qnp Pnp circ.
Proof. exact period. Qed.
Print Assumptions C119_period_partial.
(** one flux quantum on the bias of an inductor changes its spectrum. *)
Theorem C119_inductor_refuted : forall argord, (forall l, Permutation (argord l) l) ->
  exists eigh inv z ka kb pmax chg flx y w w' Cinv P data circ Qnp Pnp c n h h' H H', let gen := getOperatorList eigh inv z ka kb pmax chg flx in let N := fold_right Nat.mul 1 (c_dims c) in
  system y /\ ideal y (v_par w) /\ inverted y (v_par w) Cinv P /\ (forall m d, In m (ss_nodes y) -> dget data m = Some d -> solved eigh inv z ka kb chg flx m d) /\
  getExpandedOperatorsMap gen (ss_nodes y) data None [] = Ok circ /\ op_vector cQ (ss_nodes y) circ = Ok Qnp /\ op_vector cP (ss_nodes y) circ = Ok Pnp /\ In n (ss_nodes y) /\ dget circ n = Some c /\
  substitute y w Cinv P 1 1 1 1 = Ok h /\ substitute y w' Cinv P 1 1 1 1 = Ok h' /\
  v_par w' = v_par w /\ v_charge w' = v_charge w /\ (forall x, v_flux w' x = (v_flux w x + 1)%R) /\
  getHamiltonian N argord (ss_nodes y) (ss_edges y) h Qnp Pnp circ = Ok H /\ getHamiltonian N argord (ss_nodes y) (ss_edges y) h' Qnp Pnp circ = Ok H' /\
  exists E, spectrum N H E /\ ~ spectrum N H' E.
Proof. exact inductor_period. Qed.
Print Assumptions C119_inductor_refuted.
(** For a system with every node in the charge or oscillator basis, and no
    junction or nanowire from a node to itself, everything here is defined. *)
Theorem C119_defined : forall eigh inv z ka kb pmax chg flx y w Cinv P ec el ej ep data argord, system y -> (forall l, Permutation (argord l) l) ->
  (forall m, In m (ss_nodes y) -> exists d, dget data m = Some d /\ (od_basis d = BCharge \/ od_basis d = BOscillator)) ->
  ~ self_branch "I" (ss_cg y) (ss_edges y) -> ~ self_branch "V" (ss_cg y) (ss_edges y) ->
  exists circ Qnp Pnp h, getExpandedOperatorsMap (getOperatorList eigh inv z ka kb pmax chg flx) (ss_nodes y) data None [] = Ok circ /\
    op_vector cQ (ss_nodes y) circ = Ok Qnp /\ op_vector cP (ss_nodes y) circ = Ok Pnp /\ (forall n, In n (ss_nodes y) -> exists c, dget circ n = Some c) /\
    substitute y w Cinv P ec el ej ep = Ok h /\ forall N, exists H, getHamiltonian N argord (ss_nodes y) (ss_edges y) h Qnp Pnp circ = Ok H.
Proof. exact all_defined. Qed.
Print Assumptions C119_defined.

(** C120. With every node in the charge or oscillator basis, reversing all flux
    biases (up to whole flux quanta, except on inductors) transforms the
    Hamiltonian by an antiunitary, and it keeps its spectrum. *)
Theorem C120_flux : forall eigh inv z ka kb pmax chg flx y w w' Cinv P ec el ej ep data circ0 circ Qnp Pnp argord c n h h' H,
  let gen := getOperatorList eigh inv z ka kb pmax chg flx in let N := fold_right Nat.mul 1 (c_dims c) in
  system y -> (forall l, Permutation (argord l) l) ->
  getExpandedOperatorsMap gen (ss_nodes y) data None circ0 = Ok circ -> op_vector cQ (ss_nodes y) circ = Ok Qnp -> op_vector cP (ss_nodes y) circ = Ok Pnp ->
  (forall m d, In m (ss_nodes y) -> dget data m = Some d -> solved eigh inv z ka kb chg flx m d) -> In n (ss_nodes y) -> dget circ n = Some c ->
  substitute y w Cinv P ec el ej ep = Ok h -> substitute y w' Cinv P ec el ej ep = Ok h' -> flux_reversed y w w' ->
  getHamiltonian N argord (ss_nodes y) (ss_edges y) h Qnp Pnp circ = Ok H ->
  exists H', getHamiltonian N argord (ss_nodes y) (ss_edges y) h' Qnp Pnp circ = Ok H' /\ mirror N H H' /\ forall E, spectrum N H E <-> spectrum N H' E.
Proof. exact flux_system. Qed.
Print Assumptions C120_flux.

(** C121. The same for reversing all charge biases. *)
Theorem C121_charge : forall eigh inv z ka kb pmax chg flx y w w' Cinv P ec el ej ep data circ0 circ Qnp Pnp argord c n h h' H,
  let gen := getOperatorList eigh inv z ka kb pmax chg flx in let N := fold_right Nat.mul 1 (c_dims c) in
  system y -> (forall l, Permutation (argord l) l) ->
  getExpandedOperatorsMap gen (ss_nodes y) data None circ0 = Ok circ -> op_vector cQ (ss_nodes y) circ = Ok Qnp -> op_vector cP (ss_nodes y) circ = Ok Pnp ->
  (forall m d, In m (ss_nodes y) -> dget data m = Some d -> solved eigh inv z ka kb chg flx m d) -> In n (ss_nodes y) -> dget circ n = Some c ->
  substitute y w Cinv P ec el ej ep = Ok h -> substitute y w' Cinv P ec el ej ep = Ok h' -> charge_reversed w w' ->
  getHamiltonian N argord (ss_nodes y) (ss_edges y) h Qnp Pnp circ = Ok H ->
  exists H', getHamiltonian N argord (ss_nodes y) (ss_edges y) h' Qnp Pnp circ = Ok H' /\ mirror N H H' /\ forall E, spectrum N H E <-> spectrum N H' E.
Proof. exact charge_system. Qed.
Print Assumptions C121_charge.

(** Two nodes in the charge basis joined by two junctions, one with a flux bias,
    and a charge bias *)
Example C119_witness : exists eigh inv y data circ Qnp Pnp c h, system y /\ (forall m d, In m (ss_nodes y) -> dget data m = Some d -> solved eigh inv z1 z1 z1 1 1 m d) /\
  getExpandedOperatorsMap (getOperatorList eigh inv z1 z1 z1 z1 1 1) (ss_nodes y) data None [] = Ok circ /\ op_vector cQ (ss_nodes y) circ = Ok Qnp /\ op_vector cP (ss_nodes y) circ = Ok Pnp /\
  In 1 (ss_nodes y) /\ dget circ 1 = Some c /\ substitute y (wsym (1 / 4) (1 / 3)) id_mat id_mat 1 1 1 1 = Ok h /\
  (exists H, getHamiltonian (fold_right Nat.mul 1 (c_dims c)) (fun l => l) (ss_nodes y) (ss_edges y) h Qnp Pnp circ = Ok H) /\
  branches_of "I" (c_graph (ss_cg y)) = [((1, 2, 0), "I2"); ((1, 2, 1), "I3")] /\ dget (ss_flux y) (2, 1, 0) = Some ["a"] /\ dget (ss_charge y) 1 = Some (Some "g") /\
  flux_shifted y (wsym (1 / 4) (1 / 3)) (wsym (1 / 4 + 3) (1 / 3)) /\ flux_reversed y (wsym (1 / 4) (1 / 3)) (wsym (3 / 4) (1 / 3)) /\ charge_reversed (wsym (1 / 4) (1 / 3)) (wsym (1 / 4) (- (1 / 3))).
Proof. exact (sym_witness (fun l => l) (fun l => Permutation_refl l)). Qed.
