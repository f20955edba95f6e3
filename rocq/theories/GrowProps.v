(** C129. Levels fall when capacitances or inductances grow. *)
From Coq Require Import List String Ascii Arith ZArith Reals Permutation.
From Verif Require Import Prelude Mat Sweep Graph GraphSpec Symbolic SymbolicSpec NumOp NumOpSpec SymHam SymHamSpec SymHamEx SymTotal SymTotalSpec SymTotalMain MoveSpec NumSubst NumSymSpec NumSymEx NumGaugeSpec NumGaugeEx NumTruncSpec SymHamT NumTruncEx NumTruncBox LevMoveSpec NumBoundMain GrowSpec NumGrow NumGrowEx.
Import ListNotations.
Open Scope nat_scope.

(** All nodes in the charge basis. The last term is rounding (tidyup). The second
    run generates its own operators, with its own oscillator impedances z' etc. *)
Theorem C129_levels : forall eigh inv z z' ka ka' kb kb' pmax pmax' chg chg' flx flx' y w w' Cinv P Cinv' P' ec el ej ep data circ0 circ circ0' circ' Qnp Pnp Qnp' Pnp' argord c n h h' H H' E E',
  let gen := getOperatorList eigh inv z ka kb pmax chg flx in let gen' := getOperatorList eigh inv z' ka' kb' pmax' chg' flx' in let N := fold_right Nat.mul 1 (c_dims c) in
  system y -> (forall l, Permutation (argord l) l) -> inverted y (v_par w) Cinv P -> inverted y (v_par w') Cinv' P' -> positive_components y (v_par w) -> grown y w w' -> (0 <= ec)%R -> (0 <= el)%R ->
  (forall m, In m (ss_nodes y) -> charge_node eigh inv data m) -> In n (ss_nodes y) -> dget circ n = Some c ->
  getExpandedOperatorsMap gen (ss_nodes y) data None circ0 = Ok circ -> op_vector cQ (ss_nodes y) circ = Ok Qnp -> op_vector cP (ss_nodes y) circ = Ok Pnp ->
  getExpandedOperatorsMap gen' (ss_nodes y) data None circ0' = Ok circ' -> op_vector cQ (ss_nodes y) circ' = Ok Qnp' -> op_vector cP (ss_nodes y) circ' = Ok Pnp' ->
  substitute y w Cinv P ec el ej ep = Ok h -> substitute y w' Cinv' P' ec el ej ep = Ok h' ->
  getHamiltonian N argord (ss_nodes y) (ss_edges y) h Qnp Pnp circ = Ok H -> getHamiltonian N argord (ss_nodes y) (ss_edges y) h' Qnp' Pnp' circ' = Ok H' ->
  spectrum N H E -> ascending N E -> spectrum N H' E' -> ascending N E' -> forall k, k < N -> (E' k <= E k + 4 * INR N / 10 ^ 12)%R.
Proof. exact levels_fall. Qed.
Print Assumptions C129_levels.

(** A Cooper pair box with three charge states and its capacitor enlarged from
    2/7 to 1: the levels -1/2, 7/2, 4 become -1, 1, 2. *)
Example C129_witness : forall argord, (forall l, Permutation (argord l) l) ->
  exists eigh inv y circ Qnp Pnp c h h' H H' E E', let gen := getOperatorList eigh inv z1 z1 z1 z1 1 1 in let P := fun _ _ => 0%R in
  let w := wcap (2 / 7) in let w' := wcap 1 in let Cinv := fun _ _ => (/ (2 / 7))%R in let Cinv' := fun _ _ => (/ 1)%R in
  system y /\ ss_nodes y = [1] /\ inverted y (v_par w) Cinv P /\ inverted y (v_par w') Cinv' P /\ positive_components y (v_par w) /\ grown y w w' /\
  (forall m, In m (ss_nodes y) -> charge_node eigh inv (cdata 1) m) /\ In 1 (ss_nodes y) /\ dget circ 1 = Some c /\ c_dims c = [3] /\
  getExpandedOperatorsMap gen (ss_nodes y) (cdata 1) None [] = Ok circ /\ op_vector cQ (ss_nodes y) circ = Ok Qnp /\ op_vector cP (ss_nodes y) circ = Ok Pnp /\
  substitute y w Cinv P 2 1 2 1 = Ok h /\ substitute y w' Cinv' P 2 1 2 1 = Ok h' /\
  getHamiltonian 3 argord (ss_nodes y) (ss_edges y) h Qnp Pnp circ = Ok H /\ getHamiltonian 3 argord (ss_nodes y) (ss_edges y) h' Qnp Pnp circ = Ok H' /\
  spectrum 3 H E /\ ascending 3 E /\ spectrum 3 H' E' /\ ascending 3 E' /\ E 0 = (- (1 / 2))%R /\ E 1 = (7 / 2)%R /\ E 2 = 4%R /\ E' 0 = (-1)%R /\ E' 1 = 1%R /\ E' 2 = 2%R.
Proof. exact grow_witness. Qed.
