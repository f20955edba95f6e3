(** Property theorems C132. *)
From Coq Require Import List Bool String Ascii Arith Lia ZArith Reals Permutation.
From Coquelicot Require Import Complex.
From Verif Require Import Prelude Mat Util Graph GraphSpec Sweep Symbolic SymbolicSpec NumOp NumOpSpec SymHam SymHamSpec SymHamT SymTotal SymTotalSpec MoveSpec NumSubst NumSymSpec NumGaugeSpec NumSymEx NumTruncEx NumTruncBox LevMoveSpec RedrawSpec ParallelSpec NumParallel NumParallelEx.
Import ListNotations.
Open Scope nat_scope.

Theorem C132_same eigh inv z ka kb pmax chg flx y y' w w' Cinv P Cinv' P' ec el ej ep data circ0 circ Qnp Pnp argord argord' c n h h' H H' :
  let gen := getOperatorList eigh inv z ka kb pmax chg flx in let N := fold_right Nat.mul 1 (c_dims c) in
  system y -> system y' -> (forall l, Permutation (argord l) l) -> (forall l, Permutation (argord' l) l) -> alike y w y' w' -> ideal y (v_par w) -> ideal y' (v_par w') ->
  inverted y (v_par w) Cinv P -> inverted y' (v_par w') Cinv' P' ->
  getExpandedOperatorsMap gen (ss_nodes y) data None circ0 = Ok circ -> op_vector cQ (ss_nodes y) circ = Ok Qnp -> op_vector cP (ss_nodes y) circ = Ok Pnp -> In n (ss_nodes y) -> dget circ n = Some c ->
  substitute y w Cinv P ec el ej ep = Ok h -> substitute y' w' Cinv' P' ec el ej ep = Ok h' ->
  getHamiltonian N argord (ss_nodes y) (ss_edges y) h Qnp Pnp circ = Ok H -> getHamiltonian N argord' (ss_nodes y') (ss_edges y') h' Qnp Pnp circ = Ok H' ->
  same N H' H.
Proof. exact (alike_same eigh inv z ka kb pmax chg flx y y' w w' Cinv P Cinv' P' ec el ej ep data circ0 circ Qnp Pnp argord argord' c n h h' H H'). Qed.
Print Assumptions C132_same.
(** Two capacitors, two junctions (half a flux quantum in their loop) and two
    inductors in parallel, and one of each *)
Example C132_witness argord argord' : (forall l, Permutation (argord l) l) -> (forall l, Permutation (argord' l) l) ->
  exists y y' w w' Cinv P P' circ Qnp Pnp c h h' H H', let gen := getOperatorList ceigh cinv z1 z1 z1 z1 1 1 in let N := fold_right Nat.mul 1 (c_dims c) in
  system y /\ system y' /\ alike y w y' w' /\ ss_edges y = [(0, 1, 2); (1, 0, 3); (1, 0, 4); (1, 0, 5)] /\ ss_edges y' = [(1, 0, 1); (0, 1, 2)] /\
  map (value_of y w "I"%char) (ss_edges y) = [3; 2; 0; 0]%R /\ map (value_of y' w' "I"%char) (ss_edges y') = [1; 0]%R /\ map (branch_bias y (v_flux w)) (ss_edges y) = [0; 1 / 2; 0; 0]%R /\
  map (value_of y w "L"%char) (ss_edges y) = [0; 0; 2; 2]%R /\ map (value_of y' w' "L"%char) (ss_edges y') = [0; 1]%R /\
  ideal y (v_par w) /\ ideal y' (v_par w') /\ inverted y (v_par w) Cinv P /\ inverted y' (v_par w') Cinv P' /\
  getExpandedOperatorsMap gen (ss_nodes y) [(1, mkod 2 BOscillator)] None [] = Ok circ /\ op_vector cQ (ss_nodes y) circ = Ok Qnp /\ op_vector cP (ss_nodes y) circ = Ok Pnp /\
  In 1 (ss_nodes y) /\ dget circ 1 = Some c /\ substitute y w Cinv P 1 1 1 1 = Ok h /\ substitute y' w' Cinv P' 1 1 1 1 = Ok h' /\
  getHamiltonian N argord (ss_nodes y) (ss_edges y) h Qnp Pnp circ = Ok H /\ getHamiltonian N argord' (ss_nodes y') (ss_edges y') h' Qnp Pnp circ = Ok H'.
Proof. exact (parallel_witness argord argord'). Qed.
