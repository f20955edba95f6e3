(** Property theorems C130. *)
From Coq Require Import List Bool String Ascii Arith Lia ZArith Reals Permutation.
From Coquelicot Require Import Complex.
From Verif Require Import Prelude Mat Util Graph GraphSpec Sweep Symbolic SymbolicSpec NumOp NumOpSpec SymHam SymHamSpec SymHamT SymTotal SymTotalSpec MoveSpec NumSubst NumSymSpec NumGaugeSpec NumSymEx NumTruncEx NumTruncBox IslandSpec NumIsland NumIslandEx.
Import ListNotations.
Open Scope nat_scope.

Theorem C130_charge eigh inv z ka kb pmax chg flx y w Cinv P ec el ej ep data circ0 circ Qnp Pnp argord c n h H l :
  let gen := getOperatorList eigh inv z ka kb pmax chg flx in let N := fold_right Nat.mul 1 (c_dims c) in
  system y -> (forall l, Permutation (argord l) l) -> inverted y (v_par w) Cinv P ->
  getExpandedOperatorsMap gen (ss_nodes y) data None circ0 = Ok circ -> op_vector cQ (ss_nodes y) circ = Ok Qnp -> op_vector cP (ss_nodes y) circ = Ok Pnp ->
  island y l -> (forall m, In m l -> free_node eigh inv y data m) -> In n (ss_nodes y) -> dget circ n = Some c ->
  substitute y w Cinv P ec el ej ep = Ok h -> getHamiltonian N argord (ss_nodes y) (ss_edges y) h Qnp Pnp circ = Ok H ->
  commute N (charge_on l (ss_nodes y) Qnp) H.
Proof. exact (island_main eigh inv z ka kb pmax chg flx y w Cinv P ec el ej ep data circ0 circ Qnp Pnp argord c n h H l). Qed.
Print Assumptions C130_charge.
(** A three-node circuit: a junction joins nodes 1 and 2, capacitors the rest *)
Example C130_witness argord : (forall l, Permutation (argord l) l) ->
  exists eigh inv y w Cinv P circ Qnp Pnp c h H, let gen := getOperatorList eigh inv z1 z1 z1 z1 1 1 in
  system y /\ ss_nodes y = [1; 2; 3] /\ inverted y (v_par w) Cinv P /\ Cinv 1 2 = (1 / 3)%R /\
  getExpandedOperatorsMap gen (ss_nodes y) idata None [] = Ok circ /\ op_vector cQ (ss_nodes y) circ = Ok Qnp /\ op_vector cP (ss_nodes y) circ = Ok Pnp /\
  island y [1; 2] /\ ~ island y [1] /\ ~ island y [3] /\ (forall m, In m [1; 2] -> free_node eigh inv y idata m) /\ In 1 (ss_nodes y) /\ dget circ 1 = Some c /\
  substitute y w Cinv P 1 1 1 1 = Ok h /\ getHamiltonian (fold_right Nat.mul 1 (c_dims c)) argord (ss_nodes y) (ss_edges y) h Qnp Pnp circ = Ok H.
Proof. exact (island_witness argord). Qed.

(** A junction that leaves the node changes its charge. *)
Theorem C130_junction_leaves argord : (forall l, Permutation (argord l) l) ->
  exists eigh inv y circ Qnp Pnp c h H, let gen := getOperatorList eigh inv z1 z1 z1 z1 1 1 in let P := fun _ _ => 0%R in
  system y /\ ss_nodes y = [1] /\ inverted y (v_par (wg 0)) id_mat P /\
  getExpandedOperatorsMap gen (ss_nodes y) (cdata 1) None [] = Ok circ /\ op_vector cQ (ss_nodes y) circ = Ok Qnp /\ op_vector cP (ss_nodes y) circ = Ok Pnp /\
  free_node eigh inv y (cdata 1) 1 /\ dget circ 1 = Some c /\ c_dims c = [3] /\
  substitute y (wg 0) id_mat P 2 1 2 1 = Ok h /\ getHamiltonian 3 argord (ss_nodes y) (ss_edges y) h Qnp Pnp circ = Ok H /\ ~ commute 3 (charge_on [1] (ss_nodes y) Qnp) H.
Proof. exact (box_leaves argord). Qed.
Print Assumptions C130_junction_leaves.
