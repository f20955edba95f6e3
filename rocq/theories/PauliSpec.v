(** What pauliCoefficients is to compute. *)
From Coq Require Import List Reals.
From Coquelicot Require Import Complex.
From Verif Require Import Prelude Mat Util.
Open Scope nat_scope.

(** A 2 by 2 Hermitian matrix. *)
Definition hermitian2 (M : nat -> nat -> C) : Prop := forall i j, i < 2 -> j < 2 -> M i j = Cconj (M j i).
(** [l], [V]: its eigenvalues in ascending order and orthonormal eigenvectors,
    the columns of V. *)
Definition eigen2 (M : nat -> nat -> C) (l : nat -> R) (V : nat -> nat -> C) : Prop :=
  (l 0%nat <= l 1%nat)%R /\ (forall i j, i < 2 -> j < 2 -> @mmul C_rng 2 (mdag V) V i j = @mid C_rng i j) /\
  (forall i j, i < 2 -> j < 2 -> @mmul C_rng 2 M V i j = (V i j * RtoC (l j))%C).
(** The coefficients in terms of the matrix elements of the operator. *)
Definition local_pauli (E0 E1 : R) (M : nat -> nat -> C) : R * R * R :=
  let d := (fst (M 0%nat 0%nat) - fst (M 1%nat 1%nat))%R in let D := sqrt (d ^ 2 + 4 * Cmod (M 0%nat 1%nat) ^ 2)%R in
  ((- (E1 - E0) * Cmod (M 0%nat 1%nat) / D)%R, 0%R, ((E1 - E0) * d / (2 * D))%R).
