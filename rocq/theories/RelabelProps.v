(** Property theorems C133. *)
From Coq Require Import List Bool String Ascii Arith Lia ZArith Reals Permutation.
From Coquelicot Require Import Complex.
From Verif Require Import Prelude Mat Util Graph GraphSpec Sweep Symbolic SymbolicSpec NumOp NumOpSpec SymHam SymHamSpec SymHamT SymTotal SymTotalSpec MoveSpec NumSubst NumSymSpec NumGaugeSpec NumSymEx NumTruncEx NumTruncBox LevMoveSpec RedrawSpec ParallelSpec RelabelSpec NumTruncSpec NumReorder NumReorderEx.
Import ListNotations.
Open Scope nat_scope.

Theorem C133_same eigh inv z ka kb pmax chg flx y y' w w' Cinv P Cinv' P' ec el ej ep data circ0 circ circ0' circ' Qnp Pnp Qnp' Pnp' argord argord' c c' n n' h h' H H' :
  let gen := getOperatorList eigh inv z ka kb pmax chg flx in let N := fold_right Nat.mul 1 (c_dims c) in let N' := fold_right Nat.mul 1 (c_dims c') in
  system y -> system y' -> (forall l, Permutation (argord l) l) -> (forall l, Permutation (argord' l) l) -> reordered y w y' w' -> ideal y (v_par w) -> ideal y' (v_par w') ->
  inverted y (v_par w) Cinv P -> inverted y' (v_par w') Cinv' P' ->
  getExpandedOperatorsMap gen (ss_nodes y) data None circ0 = Ok circ -> op_vector cQ (ss_nodes y) circ = Ok Qnp -> op_vector cP (ss_nodes y) circ = Ok Pnp -> In n (ss_nodes y) -> dget circ n = Some c ->
  getExpandedOperatorsMap gen (ss_nodes y') data None circ0' = Ok circ' -> op_vector cQ (ss_nodes y') circ' = Ok Qnp' -> op_vector cP (ss_nodes y') circ' = Ok Pnp' -> In n' (ss_nodes y') -> dget circ' n' = Some c' ->
  substitute y w Cinv P ec el ej ep = Ok h -> substitute y' w' Cinv' P' ec el ej ep = Ok h' ->
  getHamiltonian N argord (ss_nodes y) (ss_edges y) h Qnp Pnp circ = Ok H -> getHamiltonian N' argord' (ss_nodes y') (ss_edges y') h' Qnp' Pnp' circ' = Ok H' ->
  N' = N /\ exists f, embedding N N f /\ restricts N f H' H /\
    forall i j m A A', nth_error (ss_nodes y) i = Some m -> nth_error (ss_nodes y') j = Some m ->
      (nth_error Qnp i = Some A /\ nth_error Qnp' j = Some A' \/ nth_error Pnp i = Some A /\ nth_error Pnp' j = Some A') -> restricts N f A' A.
Proof. exact (reordered_same eigh inv z ka kb pmax chg flx y y' w w' Cinv P Cinv' P' ec el ej ep data circ0 circ circ0' circ' Qnp Pnp Qnp' Pnp' argord argord' c c' n n' h h' H H'). Qed.
Print Assumptions C133_same.
Theorem C133_levels eigh inv z ka kb pmax chg flx y y' w w' Cinv P Cinv' P' ec el ej ep data circ0 circ circ0' circ' Qnp Pnp Qnp' Pnp' argord argord' c c' n n' h h' H H' E E' :
  let gen := getOperatorList eigh inv z ka kb pmax chg flx in let N := fold_right Nat.mul 1 (c_dims c) in let N' := fold_right Nat.mul 1 (c_dims c') in
  system y -> system y' -> (forall l, Permutation (argord l) l) -> (forall l, Permutation (argord' l) l) -> reordered y w y' w' -> ideal y (v_par w) -> ideal y' (v_par w') ->
  inverted y (v_par w) Cinv P -> inverted y' (v_par w') Cinv' P' ->
  getExpandedOperatorsMap gen (ss_nodes y) data None circ0 = Ok circ -> op_vector cQ (ss_nodes y) circ = Ok Qnp -> op_vector cP (ss_nodes y) circ = Ok Pnp -> In n (ss_nodes y) -> dget circ n = Some c ->
  getExpandedOperatorsMap gen (ss_nodes y') data None circ0' = Ok circ' -> op_vector cQ (ss_nodes y') circ' = Ok Qnp' -> op_vector cP (ss_nodes y') circ' = Ok Pnp' -> In n' (ss_nodes y') -> dget circ' n' = Some c' ->
  substitute y w Cinv P ec el ej ep = Ok h -> substitute y' w' Cinv' P' ec el ej ep = Ok h' ->
  getHamiltonian N argord (ss_nodes y) (ss_edges y) h Qnp Pnp circ = Ok H -> getHamiltonian N' argord' (ss_nodes y') (ss_edges y') h' Qnp' Pnp' circ' = Ok H' ->
  spectrum N H E -> ascending N E -> spectrum N' H' E' -> ascending N' E' -> forall k, k < N -> E' k = E k.
Proof. exact (reordered_levels eigh inv z ka kb pmax chg flx y y' w w' Cinv P Cinv' P' ec el ej ep data circ0 circ circ0' circ' Qnp Pnp Qnp' Pnp' argord argord' c c' n n' h h' H H' E E'). Qed.
Print Assumptions C133_levels.
(** Two nodes joined by a junction, each with a capacitor and a junction to
    ground, with truncations 2 and 3, added in either order *)
Example C133_witness argord argord' : (forall l, Permutation (argord l) l) -> (forall l, Permutation (argord' l) l) ->
  exists y y' w Cinv Cinv' P circ circ' Qnp Pnp Qnp' Pnp' c c' h h' H H', let gen := getOperatorList ceigh cinv z1 z1 z1 z1 1 1 in let data := [(1, mkod 2 BOscillator); (2, mkod 3 BOscillator)] in let N := fold_right Nat.mul 1 (c_dims c) in let N' := fold_right Nat.mul 1 (c_dims c') in
  system y /\ system y' /\ reordered y w y' w /\ ss_nodes y = [1; 2] /\ ss_nodes y' = [2; 1] /\ ss_edges y = [(0, 1, 1); (0, 2, 1); (2, 1, 0)] /\ ss_edges y' = [(0, 2, 1); (0, 1, 1); (1, 2, 0)] /\
  map (value_of y w "I"%char) (ss_edges y) = [1; 2; 3]%R /\ map (value_of y' w "I"%char) (ss_edges y') = [2; 1; 3]%R /\
  ideal y (v_par w) /\ ideal y' (v_par w) /\ inverted y (v_par w) Cinv P /\ inverted y' (v_par w) Cinv' P /\
  getExpandedOperatorsMap gen (ss_nodes y) data None [] = Ok circ /\ op_vector cQ (ss_nodes y) circ = Ok Qnp /\ op_vector cP (ss_nodes y) circ = Ok Pnp /\ In 1 (ss_nodes y) /\ dget circ 1 = Some c /\
  getExpandedOperatorsMap gen (ss_nodes y') data None [] = Ok circ' /\ op_vector cQ (ss_nodes y') circ' = Ok Qnp' /\ op_vector cP (ss_nodes y') circ' = Ok Pnp' /\ In 1 (ss_nodes y') /\ dget circ' 1 = Some c' /\
  substitute y w Cinv P 1 1 1 1 = Ok h /\ substitute y' w Cinv' P 1 1 1 1 = Ok h' /\
  getHamiltonian N argord (ss_nodes y) (ss_edges y) h Qnp Pnp circ = Ok H /\ getHamiltonian N' argord' (ss_nodes y') (ss_edges y') h' Qnp' Pnp' circ' = Ok H'.
Proof. exact (reorder_witness argord argord'). Qed.
