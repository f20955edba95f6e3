(** C126: a higher truncation of the charge basis keeps the Hamiltonian between
    the states there were, and no energy level rises. *)
From Coq Require Import List Bool String Ascii Arith ZArith Reals Permutation Lra Lia.
From Coquelicot Require Import Complex.
From Verif Require Import Prelude Sweep Mat Graph GraphSpec Symbolic SymbolicSpec NumOp NumOpSpec SymHam SymHamSpec SymHamT SymTotal SymTotalSpec SymTotalMain MoveSpec NumSubst NumSymSpec NumSymEx NumGaugeSpec NumGaugeEx NumTruncSpec NumTruncMain NumTruncEx.
Import ListNotations.
Open Scope string_scope.
Open Scope list_scope.
Open Scope nat_scope.

(** C126. If nodes in the charge basis, without inductors, get higher truncations
    and all else stays, the Hamiltonian exists again, and there is one
    embedding of the old basis states in the new ones between which it and all
    charge operators have the old matrix elements. *)
Theorem C126_states : forall eigh inv z ka kb pmax chg flx y w Cinv P ec el ej ep data data' circ0 circ circ0' circ' Qnp Pnp Qnp' Pnp' argord c c' n h H,
  let gen := getOperatorList eigh inv z ka kb pmax chg flx in let N := fold_right Nat.mul 1 (c_dims c) in let N' := fold_right Nat.mul 1 (c_dims c') in
  system y -> (forall l, Permutation (argord l) l) -> inverted y (v_par w) Cinv P ->
  getExpandedOperatorsMap gen (ss_nodes y) data None circ0 = Ok circ -> op_vector cQ (ss_nodes y) circ = Ok Qnp -> op_vector cP (ss_nodes y) circ = Ok Pnp ->
  getExpandedOperatorsMap gen (ss_nodes y) data' None circ0' = Ok circ' -> op_vector cQ (ss_nodes y) circ' = Ok Qnp' -> op_vector cP (ss_nodes y) circ' = Ok Pnp' ->
  (forall m, In m (ss_nodes y) -> refined eigh inv y data data' m) -> In n (ss_nodes y) -> dget circ n = Some c -> dget circ' n = Some c' ->
  substitute y w Cinv P ec el ej ep = Ok h -> getHamiltonian N argord (ss_nodes y) (ss_edges y) h Qnp Pnp circ = Ok H ->
  exists H' f, getHamiltonian N' argord (ss_nodes y) (ss_edges y) h Qnp' Pnp' circ' = Ok H' /\ embedding N N' f /\ restricts N f H' H /\
    forall i A A', nth_error Qnp i = Some A -> nth_error Qnp' i = Some A' -> restricts N f A' A.
Proof. exact trunc_main. Qed.
Print Assumptions C126_states.
(** So the k-th energy level does not rise, for each k. *)
Theorem C126_levels : forall eigh inv z ka kb pmax chg flx y w Cinv P ec el ej ep data data' circ0 circ circ0' circ' Qnp Pnp Qnp' Pnp' argord c c' n h H H' E E',
  let gen := getOperatorList eigh inv z ka kb pmax chg flx in let N := fold_right Nat.mul 1 (c_dims c) in let N' := fold_right Nat.mul 1 (c_dims c') in
  system y -> (forall l, Permutation (argord l) l) -> inverted y (v_par w) Cinv P ->
  getExpandedOperatorsMap gen (ss_nodes y) data None circ0 = Ok circ -> op_vector cQ (ss_nodes y) circ = Ok Qnp -> op_vector cP (ss_nodes y) circ = Ok Pnp ->
  getExpandedOperatorsMap gen (ss_nodes y) data' None circ0' = Ok circ' -> op_vector cQ (ss_nodes y) circ' = Ok Qnp' -> op_vector cP (ss_nodes y) circ' = Ok Pnp' ->
  (forall m, In m (ss_nodes y) -> refined eigh inv y data data' m) -> In n (ss_nodes y) -> dget circ n = Some c -> dget circ' n = Some c' ->
  substitute y w Cinv P ec el ej ep = Ok h -> getHamiltonian N argord (ss_nodes y) (ss_edges y) h Qnp Pnp circ = Ok H -> getHamiltonian N' argord (ss_nodes y) (ss_edges y) h Qnp' Pnp' circ' = Ok H' ->
  spectrum N H E -> ascending N E -> spectrum N' H' E' -> ascending N' E' -> forall k, k < N -> (E' k <= E k)%R.
Proof. exact trunc_levels. Qed.
Print Assumptions C126_levels.
(** In the oscillator basis the ground level can rise when the truncation does:
    two junctions in parallel, an exact eigensolver, truncations 1 and 2. *)
Theorem C126_oscillator_refuted : forall argord, (forall l, Permutation (argord l) l) ->
  exists eigh inv z ka kb y circ circ' Qnp Pnp Qnp' Pnp' c c' h H H' E E', let gen := getOperatorList eigh inv z ka kb z1 1 1 in let P := fun _ _ => 0%R in
  system y /\ ss_nodes y = [1] /\ inverted y (v_par (wq 0)) id_mat P /\ (forall e, ~ kind_at y "L" e) /\
  solved eigh inv z ka kb 1 1 1 (mkod 1 BOscillator) /\ solved eigh inv z ka kb 1 1 1 (mkod 2 BOscillator) /\
  getExpandedOperatorsMap gen (ss_nodes y) (odata 1) None [] = Ok circ /\ op_vector cQ (ss_nodes y) circ = Ok Qnp /\ op_vector cP (ss_nodes y) circ = Ok Pnp /\
  getExpandedOperatorsMap gen (ss_nodes y) (odata 2) None [] = Ok circ' /\ op_vector cQ (ss_nodes y) circ' = Ok Qnp' /\ op_vector cP (ss_nodes y) circ' = Ok Pnp' /\
  dget circ 1 = Some c /\ dget circ' 1 = Some c' /\ c_dims c = [1] /\ c_dims c' = [2] /\ substitute y (wq 0) id_mat P 1 1 1 1 = Ok h /\
  getHamiltonian 1 argord (ss_nodes y) (ss_edges y) h Qnp Pnp circ = Ok H /\ getHamiltonian 2 argord (ss_nodes y) (ss_edges y) h Qnp' Pnp' circ' = Ok H' /\
  spectrum 1 H E /\ ascending 1 E /\ spectrum 2 H' E' /\ ascending 2 E' /\ (E 0%nat < E' 0%nat)%R.
Proof. exact oscillator_rises. Qed.
Print Assumptions C126_oscillator_refuted.

(** Two junctions in parallel in the charge basis with truncations 0 and 1: the
    ground level falls from 0 to -1. *)
Example C126_witness : forall argord, (forall l, Permutation (argord l) l) ->
  exists eigh inv y circ circ' Qnp Pnp Qnp' Pnp' c c' h H H' E E', let gen := getOperatorList eigh inv z1 z1 z1 z1 1 1 in let P := fun _ _ => 0%R in
  system y /\ ss_nodes y = [1] /\ inverted y (v_par (wq 0)) id_mat P /\ (forall m, In m (ss_nodes y) -> refined eigh inv y (cdata 0) (cdata 1) m) /\
  getExpandedOperatorsMap gen (ss_nodes y) (cdata 0) None [] = Ok circ /\ op_vector cQ (ss_nodes y) circ = Ok Qnp /\ op_vector cP (ss_nodes y) circ = Ok Pnp /\
  getExpandedOperatorsMap gen (ss_nodes y) (cdata 1) None [] = Ok circ' /\ op_vector cQ (ss_nodes y) circ' = Ok Qnp' /\ op_vector cP (ss_nodes y) circ' = Ok Pnp' /\
  In 1 (ss_nodes y) /\ dget circ 1 = Some c /\ dget circ' 1 = Some c' /\ c_dims c = [1] /\ c_dims c' = [3] /\ substitute y (wq 0) id_mat P 2 1 (2 / 3) 1 = Ok h /\
  getHamiltonian 1 argord (ss_nodes y) (ss_edges y) h Qnp Pnp circ = Ok H /\ getHamiltonian 3 argord (ss_nodes y) (ss_edges y) h Qnp' Pnp' circ' = Ok H' /\
  spectrum 1 H E /\ ascending 1 E /\ spectrum 3 H' E' /\ ascending 3 E' /\ E 0 = 0%R /\ E' 0 = (-1)%R.
Proof. exact trunc_witness. Qed.
