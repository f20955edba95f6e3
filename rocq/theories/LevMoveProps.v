(** C128. Energy levels are continuous in the junctions and phase slips, and
    bounded from below. *)
From Coq Require Import List String Ascii Arith ZArith Reals Permutation.
From Verif Require Import Prelude Mat Sweep Graph GraphSpec Symbolic SymbolicSpec NumOp NumOpSpec SymHam SymHamSpec SymHamEx SymTotal SymTotalSpec SymTotalMain MoveSpec NumSubst NumSymSpec NumSymEx NumGaugeSpec NumGaugeEx NumTruncSpec SymHamT NumTruncEx NumTruncBox LevMoveSpec NumBoundMain NumBoundEx.
Import ListNotations.
Open Scope nat_scope.

(** w and w' differ in critical currents, phase slip amplitudes and flux biases
    of junctions only. The last term is rounding (tidyup), as is what excesses
    differs from 1. *)
Theorem C128_continuous : forall eigh inv z ka kb pmax chg flx y w w' Cinv P ec el ej ep data circ0 circ Qnp Pnp argord c n h h' H H' E E',
  let gen := getOperatorList eigh inv z ka kb pmax chg flx in let N := fold_right Nat.mul 1 (c_dims c) in
  system y -> (forall l, Permutation (argord l) l) -> same_quadratic y w w' ->
  getExpandedOperatorsMap gen (ss_nodes y) data None circ0 = Ok circ -> op_vector cQ (ss_nodes y) circ = Ok Qnp -> op_vector cP (ss_nodes y) circ = Ok Pnp ->
  (forall m, In m (ss_nodes y) -> exists d, dget data m = Some d /\ solved eigh inv z ka kb chg flx m d) -> In n (ss_nodes y) -> dget circ n = Some c ->
  substitute y w Cinv P ec el ej ep = Ok h -> substitute y w' Cinv P ec el ej ep = Ok h' ->
  getHamiltonian N argord (ss_nodes y) (ss_edges y) h Qnp Pnp circ = Ok H -> getHamiltonian N argord (ss_nodes y) (ss_edges y) h' Qnp Pnp circ = Ok H' ->
  spectrum N H E -> ascending N E -> spectrum N H' E' -> ascending N E' -> forall k, k < N ->
  (Rabs (E' k - E k) <= excesses data (ss_nodes y) * (Rabs ej * josephson_change y w w' + Rabs ep * slip_change y w w') + 4 * INR N / 10 ^ 12)%R.
Proof. exact levels_move. Qed.
Print Assumptions C128_continuous.
(** When flux biases of junctions only are changed *)
Theorem C128_flux : forall eigh inv z ka kb pmax chg flx y w w' Cinv P ec el ej ep data circ0 circ Qnp Pnp argord c n h h' H H' E E',
  let gen := getOperatorList eigh inv z ka kb pmax chg flx in let N := fold_right Nat.mul 1 (c_dims c) in
  system y -> (forall l, Permutation (argord l) l) -> same_quadratic y w w' -> v_par w' = v_par w ->
  getExpandedOperatorsMap gen (ss_nodes y) data None circ0 = Ok circ -> op_vector cQ (ss_nodes y) circ = Ok Qnp -> op_vector cP (ss_nodes y) circ = Ok Pnp ->
  (forall m, In m (ss_nodes y) -> exists d, dget data m = Some d /\ solved eigh inv z ka kb chg flx m d) -> In n (ss_nodes y) -> dget circ n = Some c ->
  substitute y w Cinv P ec el ej ep = Ok h -> substitute y w' Cinv P ec el ej ep = Ok h' ->
  getHamiltonian N argord (ss_nodes y) (ss_edges y) h Qnp Pnp circ = Ok H -> getHamiltonian N argord (ss_nodes y) (ss_edges y) h' Qnp Pnp circ = Ok H' ->
  spectrum N H E -> ascending N E -> spectrum N H' E' -> ascending N E' -> forall k, k < N ->
  (Rabs (E' k - E k) <= excesses data (ss_nodes y) * (Rabs ej * flux_change y w w') + 4 * INR N / 10 ^ 12)%R.
Proof. exact levels_flux. Qed.
Print Assumptions C128_flux.
(** With positive capacitances and inductances no level is below minus the sum of
    all Josephson and phase slip energies. *)
Theorem C128_floor : forall eigh inv z ka kb pmax chg flx y w Cinv P ec el ej ep data circ0 circ Qnp Pnp argord c n h H E,
  let gen := getOperatorList eigh inv z ka kb pmax chg flx in let N := fold_right Nat.mul 1 (c_dims c) in
  system y -> (forall l, Permutation (argord l) l) -> inverted y (v_par w) Cinv P -> positive_components y (v_par w) -> (0 <= ec)%R -> (0 <= el)%R ->
  getExpandedOperatorsMap gen (ss_nodes y) data None circ0 = Ok circ -> op_vector cQ (ss_nodes y) circ = Ok Qnp -> op_vector cP (ss_nodes y) circ = Ok Pnp ->
  (forall m, In m (ss_nodes y) -> exists d, dget data m = Some d /\ solved eigh inv z ka kb chg flx m d) -> In n (ss_nodes y) -> dget circ n = Some c ->
  substitute y w Cinv P ec el ej ep = Ok h -> getHamiltonian N argord (ss_nodes y) (ss_edges y) h Qnp Pnp circ = Ok H ->
  spectrum N H E -> ascending N E -> forall k, k < N ->
  (- (excesses data (ss_nodes y) * (Rabs ej * josephson_total y w + Rabs ep * slip_total y w) + 2 * INR N / 10 ^ 12) <= E k)%R.
Proof. exact levels_floor. Qed.
Print Assumptions C128_floor.

(** A Cooper pair box with three charge states, its critical current switched
    off: the ground level rises from -1 to 0; the bound is 2. *)
Example C128_witness : forall argord, (forall l, Permutation (argord l) l) ->
  exists eigh inv y circ Qnp Pnp c h h' H H' E E', let gen := getOperatorList eigh inv z1 z1 z1 z1 1 1 in let P := fun _ _ => 0%R in
  system y /\ ss_nodes y = [1] /\ same_quadratic y (wg 0) woff /\ inverted y (v_par (wg 0)) id_mat P /\ positive_components y (v_par (wg 0)) /\
  getExpandedOperatorsMap gen (ss_nodes y) (cdata 1) None [] = Ok circ /\ op_vector cQ (ss_nodes y) circ = Ok Qnp /\ op_vector cP (ss_nodes y) circ = Ok Pnp /\
  (forall m, In m (ss_nodes y) -> exists d, dget (cdata 1) m = Some d /\ solved eigh inv z1 z1 z1 1 1 m d) /\ In 1 (ss_nodes y) /\ dget circ 1 = Some c /\ c_dims c = [3] /\
  substitute y (wg 0) id_mat P 2 1 2 1 = Ok h /\ substitute y woff id_mat P 2 1 2 1 = Ok h' /\
  getHamiltonian 3 argord (ss_nodes y) (ss_edges y) h Qnp Pnp circ = Ok H /\ getHamiltonian 3 argord (ss_nodes y) (ss_edges y) h' Qnp Pnp circ = Ok H' /\
  spectrum 3 H E /\ ascending 3 E /\ spectrum 3 H' E' /\ ascending 3 E' /\ E 0 = (-1)%R /\ E' 0 = 0%R /\
  excesses (cdata 1) (ss_nodes y) = 1%R /\ josephson_change y (wg 0) woff = 1%R /\ slip_change y (wg 0) woff = 0%R /\ josephson_total y (wg 0) = 1%R /\ slip_total y (wg 0) = 0%R.
Proof. exact move_witness. Qed.
