(** Property theorems C131. *)
From Coq Require Import List Bool String Ascii Arith Lia ZArith Reals Permutation.
From Coquelicot Require Import Complex.
From Verif Require Import Prelude Mat Util Graph GraphSpec Sweep Symbolic SymbolicSpec NumOp NumOpSpec SymHam SymHamSpec SymHamT SymTotal SymTotalSpec MoveSpec NumSubst NumSymSpec NumGaugeSpec NumSymEx NumTruncEx NumTruncBox LevMoveSpec RedrawSpec NumRedraw NumRedrawEx.
Import ListNotations.
Open Scope nat_scope.

Theorem C131_same eigh inv z ka kb pmax chg flx y y' w w' Cinv P Cinv' P' ec el ej ep data circ0 circ Qnp Pnp argord argord' c n h h' H H' :
  let gen := getOperatorList eigh inv z ka kb pmax chg flx in let N := fold_right Nat.mul 1 (c_dims c) in
  system y -> system y' -> (forall l, Permutation (argord l) l) -> (forall l, Permutation (argord' l) l) -> redrawn y w y' w' -> ideal y (v_par w) -> ideal y' (v_par w') ->
  inverted y (v_par w) Cinv P -> inverted y' (v_par w') Cinv' P' ->
  getExpandedOperatorsMap gen (ss_nodes y) data None circ0 = Ok circ -> op_vector cQ (ss_nodes y) circ = Ok Qnp -> op_vector cP (ss_nodes y) circ = Ok Pnp -> In n (ss_nodes y) -> dget circ n = Some c ->
  substitute y w Cinv P ec el ej ep = Ok h -> substitute y' w' Cinv' P' ec el ej ep = Ok h' ->
  getHamiltonian N argord (ss_nodes y) (ss_edges y) h Qnp Pnp circ = Ok H -> getHamiltonian N argord' (ss_nodes y') (ss_edges y') h' Qnp Pnp circ = Ok H' ->
  same N H' H.
Proof. exact (redrawn_same eigh inv z ka kb pmax chg flx y y' w w' Cinv P Cinv' P' ec el ej ep data circ0 circ Qnp Pnp argord argord' c n h h' H H'). Qed.
Print Assumptions C131_same.
(** Three junctions and a capacitor in parallel, one junction biased, drawn twice *)
Example C131_witness argord argord' : (forall l, Permutation (argord l) l) -> (forall l, Permutation (argord' l) l) ->
  exists y y' w w' Cinv P circ Qnp Pnp c h h' H H', let gen := getOperatorList ceigh cinv z1 z1 z1 z1 1 1 in let N := fold_right Nat.mul 1 (c_dims c) in
  system y /\ system y' /\ redrawn y w y' w' /\ ss_edges y = [(0, 1, 1); (1, 0, 2); (1, 0, 3)] /\ ss_edges y' = [(1, 0, 1); (0, 1, 2); (0, 1, 3)] /\
  map (value_of y w "I"%char) (ss_edges y) = [1; 2; 3]%R /\ map (value_of y' w' "I"%char) (ss_edges y') = [1; 3; 2]%R /\ map (branch_bias y (v_flux w)) (ss_edges y) = [1 / 4; 0; 0]%R /\ map (branch_bias y' (v_flux w')) (ss_edges y') = [- (1 / 4); 0; 0]%R /\
  ideal y (v_par w) /\ ideal y' (v_par w') /\ inverted y (v_par w) Cinv P /\ inverted y' (v_par w') Cinv P /\
  getExpandedOperatorsMap gen (ss_nodes y) [(1, mkod 2 BCharge)] None [] = Ok circ /\ op_vector cQ (ss_nodes y) circ = Ok Qnp /\ op_vector cP (ss_nodes y) circ = Ok Pnp /\
  In 1 (ss_nodes y) /\ dget circ 1 = Some c /\ substitute y w Cinv P 1 1 1 1 = Ok h /\ substitute y' w' Cinv P 1 1 1 1 = Ok h' /\
  getHamiltonian N argord (ss_nodes y) (ss_edges y) h Qnp Pnp circ = Ok H /\ getHamiltonian N argord' (ss_nodes y') (ss_edges y') h' Qnp Pnp circ = Ok H'.
Proof. exact (redraw_witness argord argord'). Qed.
