(** C127: charge biases moved by whole Cooper pairs. *)
From Coq Require Import List Bool String Ascii Arith ZArith Reals Permutation Lra Lia.
From Coquelicot Require Import Complex.
From Verif Require Import Prelude Sweep Mat Graph GraphSpec Symbolic SymbolicSpec NumOp NumOpSpec SymHam SymHamSpec SymHamT SymTotal SymTotalSpec SymTotalMain MoveSpec NumSubst NumSymSpec NumSymEx NumGaugeSpec NumGaugeEx NumTruncSpec NumTruncMain NumTruncEx NumTruncBox.
Import ListNotations.
Open Scope string_scope.
Open Scope list_scope.
Open Scope nat_scope.

(** C127. If charge biases of nodes in the charge basis, without inductors, are
    moved by integers, and their truncations raised by as much or more, the
    Hamiltonian exists again, and there is one embedding of the old basis states
    in the new ones between which it has the old matrix elements and the
    charge operators have the old ones lowered by those integers. *)
Theorem C127_states : forall eigh inv z ka kb pmax chg flx y w w' Cinv P ec el ej ep data data' circ0 circ circ0' circ' Qnp Pnp Qnp' Pnp' argord c c' n h h' H,
  let gen := getOperatorList eigh inv z ka kb pmax chg flx in let N := fold_right Nat.mul 1 (c_dims c) in let N' := fold_right Nat.mul 1 (c_dims c') in
  system y -> (forall l, Permutation (argord l) l) -> inverted y (v_par w) Cinv P -> only_charges w w' ->
  getExpandedOperatorsMap gen (ss_nodes y) data None circ0 = Ok circ -> op_vector cQ (ss_nodes y) circ = Ok Qnp -> op_vector cP (ss_nodes y) circ = Ok Pnp ->
  getExpandedOperatorsMap gen (ss_nodes y) data' None circ0' = Ok circ' -> op_vector cQ (ss_nodes y) circ' = Ok Qnp' -> op_vector cP (ss_nodes y) circ' = Ok Pnp' ->
  (forall m, In m (ss_nodes y) -> follows eigh inv y w w' data data' m) -> In n (ss_nodes y) -> dget circ n = Some c -> dget circ' n = Some c' ->
  substitute y w Cinv P ec el ej ep = Ok h -> substitute y w' Cinv P ec el ej ep = Ok h' -> getHamiltonian N argord (ss_nodes y) (ss_edges y) h Qnp Pnp circ = Ok H ->
  exists H' f, getHamiltonian N' argord (ss_nodes y) (ss_edges y) h' Qnp' Pnp' circ' = Ok H' /\ embedding N N' f /\ restricts N f H' H /\
    forall i m k A A', nth_error (ss_nodes y) i = Some m -> raised_by y w w' m k -> nth_error Qnp i = Some A -> nth_error Qnp' i = Some A' -> restricts N f (plus_number (IZR k) A') A.
Proof. exact charge_main. Qed.
Print Assumptions C127_states.
(** So the k-th energy level is not above the old one, for each k. As the same
    holds for the way back, the levels at a bias and at that bias plus an
    integer enclose each other as the truncations grow. *)
Theorem C127_levels : forall eigh inv z ka kb pmax chg flx y w w' Cinv P ec el ej ep data data' circ0 circ circ0' circ' Qnp Pnp Qnp' Pnp' argord c c' n h h' H H' E E',
  let gen := getOperatorList eigh inv z ka kb pmax chg flx in let N := fold_right Nat.mul 1 (c_dims c) in let N' := fold_right Nat.mul 1 (c_dims c') in
  system y -> (forall l, Permutation (argord l) l) -> inverted y (v_par w) Cinv P -> only_charges w w' ->
  getExpandedOperatorsMap gen (ss_nodes y) data None circ0 = Ok circ -> op_vector cQ (ss_nodes y) circ = Ok Qnp -> op_vector cP (ss_nodes y) circ = Ok Pnp ->
  getExpandedOperatorsMap gen (ss_nodes y) data' None circ0' = Ok circ' -> op_vector cQ (ss_nodes y) circ' = Ok Qnp' -> op_vector cP (ss_nodes y) circ' = Ok Pnp' ->
  (forall m, In m (ss_nodes y) -> follows eigh inv y w w' data data' m) -> In n (ss_nodes y) -> dget circ n = Some c -> dget circ' n = Some c' ->
  substitute y w Cinv P ec el ej ep = Ok h -> substitute y w' Cinv P ec el ej ep = Ok h' ->
  getHamiltonian N argord (ss_nodes y) (ss_edges y) h Qnp Pnp circ = Ok H -> getHamiltonian N' argord (ss_nodes y) (ss_edges y) h' Qnp' Pnp' circ' = Ok H' ->
  spectrum N H E -> ascending N E -> spectrum N' H' E' -> ascending N' E' -> forall k, k < N -> (E' k <= E k)%R.
Proof. exact charge_levels. Qed.
Print Assumptions C127_levels.
(** With the truncation left as it is the levels are not those of the bias
    before: a Cooper pair box, bias 0 and 1. *)
Theorem C127_period_refuted : forall argord, (forall l, Permutation (argord l) l) ->
  exists eigh inv y circ Qnp Pnp c h h' H H' E E', let gen := getOperatorList eigh inv z1 z1 z1 z1 1 1 in let P := fun _ _ => 0%R in
  system y /\ ss_nodes y = [1] /\ inverted y (v_par (wg 0)) id_mat P /\ only_charges (wg 0) (wg 1) /\ raised_by y (wg 0) (wg 1) 1 1 /\ free_node eigh inv y (cdata 0) 1 /\
  getExpandedOperatorsMap gen (ss_nodes y) (cdata 0) None [] = Ok circ /\ op_vector cQ (ss_nodes y) circ = Ok Qnp /\ op_vector cP (ss_nodes y) circ = Ok Pnp /\
  dget circ 1 = Some c /\ c_dims c = [1] /\ substitute y (wg 0) id_mat P 2 1 2 1 = Ok h /\ substitute y (wg 1) id_mat P 2 1 2 1 = Ok h' /\
  getHamiltonian 1 argord (ss_nodes y) (ss_edges y) h Qnp Pnp circ = Ok H /\ getHamiltonian 1 argord (ss_nodes y) (ss_edges y) h' Qnp Pnp circ = Ok H' /\
  spectrum 1 H E /\ spectrum 1 H' E' /\ E 0 = 0%R /\ E' 0 = 1%R.
Proof. exact box_period. Qed.
Print Assumptions C127_period_refuted.

(** A Cooper pair box: the bias moved from 1 to 0 and the truncation from 0 to 1;
    the ground level falls from 1 to -1. *)
Example C127_witness : forall argord, (forall l, Permutation (argord l) l) ->
  exists eigh inv y circ circ' Qnp Pnp Qnp' Pnp' c c' h h' H H' E E', let gen := getOperatorList eigh inv z1 z1 z1 z1 1 1 in let P := fun _ _ => 0%R in
  system y /\ ss_nodes y = [1] /\ inverted y (v_par (wg 1)) id_mat P /\ only_charges (wg 1) (wg 0) /\ raised_by y (wg 1) (wg 0) 1 (-1) /\
  (forall m, In m (ss_nodes y) -> follows eigh inv y (wg 1) (wg 0) (cdata 0) (cdata 1) m) /\
  getExpandedOperatorsMap gen (ss_nodes y) (cdata 0) None [] = Ok circ /\ op_vector cQ (ss_nodes y) circ = Ok Qnp /\ op_vector cP (ss_nodes y) circ = Ok Pnp /\
  getExpandedOperatorsMap gen (ss_nodes y) (cdata 1) None [] = Ok circ' /\ op_vector cQ (ss_nodes y) circ' = Ok Qnp' /\ op_vector cP (ss_nodes y) circ' = Ok Pnp' /\
  In 1 (ss_nodes y) /\ dget circ 1 = Some c /\ dget circ' 1 = Some c' /\ c_dims c = [1] /\ c_dims c' = [3] /\ substitute y (wg 1) id_mat P 2 1 2 1 = Ok h /\ substitute y (wg 0) id_mat P 2 1 2 1 = Ok h' /\
  getHamiltonian 1 argord (ss_nodes y) (ss_edges y) h Qnp Pnp circ = Ok H /\ getHamiltonian 3 argord (ss_nodes y) (ss_edges y) h' Qnp' Pnp' circ' = Ok H' /\
  spectrum 1 H E /\ ascending 1 E /\ spectrum 3 H' E' /\ ascending 3 E' /\ E 0 = 1%R /\ E' 0 = (-1)%R.
Proof. exact box_witness. Qed.
