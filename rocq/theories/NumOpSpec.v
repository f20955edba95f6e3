(** Notions used in the statements about the numerical part; independent of
    the model. *)
From Coq Require Import List Bool Arith ZArith Reals Permutation Sorted.
From Coquelicot Require Import Complex.
Import ListNotations.
Open Scope nat_scope.

Definition matrix := nat -> nat -> C.
(** f 0 + ... + f (n-1) *)
Fixpoint csum (n : nat) (f : nat -> C) : C := match n with O => RtoC 0 | S n => (csum n f + f n)%C end.
Definition mul (n : nat) (A B : matrix) : matrix := fun i j => csum n (fun k => (A i k * B k j)%C).
Definition same (n : nat) (A B : matrix) : Prop := forall i j, i < n -> j < n -> A i j = B i j.
Definition commute (n : nat) (A B : matrix) : Prop := same n (mul n A B) (mul n B A).
Definition hermitian (n : nat) (A : matrix) : Prop := forall i j, i < n -> j < n -> A i j = Cconj (A j i).
Definition identity : matrix := fun i j => if Nat.eqb i j then RtoC 1 else RtoC 0.
Definition diagonal (f : nat -> C) : matrix := fun i j => if Nat.eqb i j then f i else RtoC 0.
(** A V = V diag(E) and W is the inverse of V *)
Definition eigen_ok (n : nat) (A : matrix) (E : nat -> R) (V W : matrix) : Prop :=
  same n (mul n A V) (mul n V (diagonal (fun k => RtoC (E k)))) /\
  same n (mul n V W) identity /\ same n (mul n W V) identity.
(** action on a vector *)
Definition apply (n : nat) (A : matrix) (v : nat -> C) : nat -> C := fun i => csum n (fun k => (A i k * v k)%C).
(** The state with charge c in a space truncated at t (basis state t - c) *)
Definition charge_state (t : nat) (c : Z) : nat -> C := fun i => if Z.eqb (Z.of_nat i) (Z.of_nat t - c) then RtoC 1 else RtoC 0.
(** eigvalsh of a diagonal matrix returns its entries in ascending order *)
Definition eigvalsh_diag (eigvalsh : nat -> (nat -> nat -> R) -> nat -> R) : Prop :=
  forall n M f, (forall i j, i < n -> j < n -> M i j = if Nat.eqb i j then f i else 0%R) ->
    StronglySorted Rle (map (eigvalsh n M) (seq 0 n)) /\ Permutation (map (eigvalsh n M) (seq 0 n)) (map f (seq 0 n)).
(** The potential energy at node fluxes [x] (in flux quanta): inductive energy
    minus the Josephson cosines. [el], [ej]: energy units, [L]: inverse
    inductances, [nb]: bias by node, [J]: critical currents by branch, [bf]:
    branch flux from node fluxes, [b]: bias by branch. *)
Fixpoint rsum (n : nat) (f : nat -> R) : R := match n with O => 0%R | S n => (rsum n f + f n)%R end.
Definition potential (n m : nat) (el ej : R) (L : nat -> nat -> R) (J : nat -> R) (bf : (nat -> R) -> nat -> R) (x nb b : nat -> R) : R :=
  (el / 2 * rsum n (fun i => rsum n (fun j => (x i + nb i) * L i j * (x j + nb j))) -
   ej * rsum m (fun e => J e * cos (2 * PI * (bf x e + b e))))%R.
(** B = exp(i c A), by a decomposition of A *)
Definition exp_of (n : nat) (A : matrix) (c : R) (B : matrix) : Prop :=
  exists E V W, eigen_ok n A E V W /\ same n B (mul n (mul n V (diagonal (fun k => (cos (c * E k), sin (c * E k))))) W).
(** The vector that is 1 at i and 0 elsewhere *)
Definition unit_at (i : nat) : nat -> C := fun k => if Nat.eqb k i then RtoC 1 else RtoC 0.
(** Real and imaginary parts differ by less than 10^-12 *)
Definition close (a b : C) : Prop := (Rabs (fst a - fst b) < / 10 ^ 12)%R /\ (Rabs (snd a - snd b) < / 10 ^ 12)%R.
