(** C113, C114: pauliCoefficients as a whole. *)
From Coq Require Import List Bool ZArith Reals.
From Coquelicot Require Import Complex.
From Verif Require Import Prelude Mat Util NumOp NumEval Pauli PauliSpec PauliProofs PauliMain.
Import ListNotations.
Open Scope list_scope.
Open Scope nat_scope.

(** C113. The coefficients at every sweep point, for any diagonaliser. *)
Theorem C113_coefficients_partial : forall eigh, (forall M, hermitian2 M -> eigen2 M (fst (eigh M)) (snd (eigh M))) ->
  forall rE cE fE rV cV fV n O, 2 <= rE -> 2 <= rV -> cE <= cV ->
    (forall i j, i < n -> j < n -> O i j = Cconj (O j i)) -> (forall i, i < cE -> matrix_element n O (fV 0 i) (fV 1 i) <> RtoC 0) ->
    pauliCoefficients eigh (AArr rE cE fE) (AArr rV cV fV) (BQobj n O) =
      Ok (map (fun i => Some (local_pauli (fE 0 i) (fE 1 i) (get_subspace_operator n (fV 0 i) (fV 1 i) O))) (seq 0 cE)).
Proof. exact run_qobj. Qed.
Print Assumptions C113_coefficients_partial.
(** They are those of diag(E0, E1) in an orthonormal basis of eigenvectors of
    the operator between the two levels, the smaller eigenvalue first. *)
Theorem C113_basis_partial : forall E0 E1 M l V, eigen2 M l V -> M 0 1 <> RtoC 0 -> exists W, eigen2 M l W /\
  let '(hx, hy, hz) := local_pauli E0 E1 M in
  forall i j, i < 2 -> j < 2 -> @mmul C_rng 2 (mdag W) (@mmul C_rng 2 (mk2 (RtoC E0) (RtoC 0) (RtoC 0) (RtoC E1)) W) i j =
    (RtoC ((E0 + E1) / 2) * @mid C_rng i j + RtoC hx * sigma_x i j + RtoC hy * sigma_y i j + RtoC hz * sigma_z i j)%C.
Proof. exact pauli_hamiltonian. Qed.
Print Assumptions C113_basis_partial.
(** The phases of the eigenvectors and the diagonaliser do not matter. *)
Theorem C113_phases_partial : forall eigh eigh' rE cE fE rV cV fV n O u,
  (forall M, hermitian2 M -> eigen2 M (fst (eigh M)) (snd (eigh M))) -> (forall M, hermitian2 M -> eigen2 M (fst (eigh' M)) (snd (eigh' M))) ->
  2 <= rE -> 2 <= rV -> cE <= cV ->
  (forall i j, i < n -> j < n -> O i j = Cconj (O j i)) -> (forall i, i < cE -> matrix_element n O (fV 0 i) (fV 1 i) <> RtoC 0) ->
  (forall r i, Cmod (u r i) = 1%R) ->
  pauliCoefficients eigh' (AArr rE cE fE) (AArr rV cV (fun r i a => (u r i * fV r i a)%C)) (BQobj n O) =
  pauliCoefficients eigh (AArr rE cE fE) (AArr rV cV fV) (BQobj n O).
Proof. exact pauli_phase. Qed.
Print Assumptions C113_phases_partial.
(** The operator is diagonal in the two levels: NaN, for every diagonaliser. *)
Theorem C113_nan : forall eigh, (forall M, hermitian2 M -> eigen2 M (fst (eigh M)) (snd (eigh M))) ->
  forall rE cE fE rV cV fV n O i, 2 <= rE -> 2 <= rV -> cE <= cV -> i < cE ->
    (forall i j, i < n -> j < n -> O i j = Cconj (O j i)) -> matrix_element n O (fV 0 i) (fV 1 i) = RtoC 0 ->
    matrix_element n O (fV 0 i) (fV 0 i) <> matrix_element n O (fV 1 i) (fV 1 i) ->
    exists l, pauliCoefficients eigh (AArr rE cE fE) (AArr rV cV fV) (BQobj n O) = Ok l /\ nth_error l i = Some None.
Proof. exact run_nan. Qed.
Print Assumptions C113_nan.
Theorem C113_refuted : forall eigh, (forall M, hermitian2 M -> eigen2 M (fst (eigh M)) (snd (eigh M))) ->
  pauliCoefficients eigh (AArr 2 1 (fun r _ => INR r)) (AArr 2 1 e2) (BQobj 2 sigma_z) = Ok [None].
Proof. exact nan_ref. Qed.
Print Assumptions C113_refuted.
(** Lists pass the type check and raise TypeError. *)
Theorem C113_lists_refuted : forall eigh V b, b <> BNeither -> V <> AOther -> pauliCoefficients eigh (AList [[0%R]; [1%R]]) V b = Err TypeError.
Proof. exact list_ref. Qed.
Print Assumptions C113_lists_refuted.
(** There is such a diagonaliser, and a qubit. *)
Example C113_witness : (forall M, hermitian2 M -> eigen2 M (fst (eigh2 M)) (snd (eigh2 M))) /\
  pauliCoefficients eigh2 (AArr 2 1 (fun r _ => INR r)) (AArr 2 1 e2) (BQobj 2 sigma_x) = Ok [Some ((- (1 / 2))%R, 0%R, 0%R)].
Proof. exact pauli_wit. Qed.

(** C114. The list of createSubspaceOperators of the matrix elements in place
    of the operator. *)
Theorem C114_list : forall eigh rE cE fE rV cV fV n O, cE <= cV -> let m r s := map (fun i => matrix_element n O (fV r i) (fV s i)) (seq 0 cE) in
  exists l, createSubspaceOperators (m 0 0) (m 0 1) (m 1 0) (m 1 1) = Ok l /\
    pauliCoefficients eigh (AArr rE cE fE) (AArr rV cV fV) (BOps l) = pauliCoefficients eigh (AArr rE cE fE) (AArr rV cV fV) (BQobj n O).
Proof. exact pauli_list. Qed.
Print Assumptions C114_list.
(** Too short a list of matrix elements raises. *)
Theorem C114_short : forall m00 m01 m10 m11,
  List.length m01 < List.length m00 \/ List.length m10 < List.length m00 \/ List.length m11 < List.length m00 ->
  createSubspaceOperators m00 m01 m10 m11 = Err IndexError.
Proof. exact create_short. Qed.
Print Assumptions C114_short.
Example C114_witness : exists l, createSubspaceOperators [RtoC 0] [RtoC 1] [RtoC 1] [RtoC 0] = Ok l /\
  pauliCoefficients eigh2 (AArr 2 1 (fun r _ => INR r)) (AArr 2 1 e2) (BOps l) = Ok [Some ((- (1 / 2))%R, 0%R, 0%R)].
Proof.
  destruct (C114_list eigh2 2 1 (fun r _ => INR r) 2 1 e2 2 sigma_x (le_n 1)) as (l & E & P). exists l. split.
  - rewrite <- E. cbn [seq map]. now rewrite !melem_e2 by auto.
  - rewrite P. apply pauli_wit.
Qed.
