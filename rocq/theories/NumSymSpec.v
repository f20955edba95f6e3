(** Notions for the symmetries of the Hamiltonian (C119-C121). *)
From Coq Require Import List String Ascii Arith ZArith Reals.
From Coquelicot Require Import Complex.
From Verif Require Import Prelude Graph Symbolic NumOp NumOpSpec SymTotal MoveSpec.
Open Scope nat_scope.

Definition adjoint (A : matrix) : matrix := fun i j => Cconj (A j i).
Definition unitary (n : nat) (U : matrix) : Prop := same n (mul n U (adjoint U)) identity /\ same n (mul n (adjoint U) U) identity.
(** E 0, ..., E (n-1) are the eigenvalues of A with their multiplicities, for
    orthonormal eigenvectors *)
Definition spectrum (n : nat) (A : matrix) (E : nat -> R) : Prop :=
  exists V, unitary n V /\ same n (mul n A V) (mul n V (diagonal (fun k => RtoC (E k)))).
(** B = U A* U^dagger: A transformed by the antiunitary v |-> U v* *)
Definition mirror (n : nat) (A B : matrix) : Prop :=
  exists U, unitary n U /\ same n B (mul n (mul n U (fun i j => Cconj (A i j))) (adjoint U)).

(** The eigensolver and the inverse are right on A. *)
Definition right_on (eigh : nat -> matrix -> (nat -> R) * matrix) (inv : nat -> matrix -> matrix) (n : nat) (A : matrix) : Prop :=
  eigen_ok n A (fst (eigh n A)) (snd (eigh n A)) (inv n (snd (eigh n A))).
(** A node in the charge or in the oscillator basis, with an eigensolver that
    is right on the matrices it is called on for that node *)
Definition solved eigh inv (z ka kb : nat -> R) (chg flx : R) (m : nat) (d : opdata) : Prop :=
  let t := od_trunc d in
  match od_basis d with
  | BCharge => right_on eigh inv (2 * t + 1) (chargeP t)
  | BOscillator => right_on eigh inv t (fun i j => (RtoC (ka m) * oscP (z m) flx i j / RtoC flx)%C) /\
                   right_on eigh inv t (fun i j => (RtoC (kb m) * oscQ (z m) chg i j / RtoC chg)%C)
  | _ => False
  end.
(** A flux bias called x is on an inductor. *)
Definition biases_inductor (y : ssys) (x : string) : Prop := exists e l, kind_at y "L"%char e /\ dget (ss_flux y) e = Some l /\ In x l.
(** Other values of the symbols: flux biases shifted by whole flux quanta, those
    of inductors kept; *)
Definition flux_shifted (y : ssys) (w w' : vals) : Prop := v_par w' = v_par w /\ v_charge w' = v_charge w /\
  forall x, exists k, v_flux w' x = (v_flux w x + IZR k)%R /\ (biases_inductor y x -> k = 0%Z).
(** flux biases reversed, up to whole flux quanta except at inductors; *)
Definition flux_reversed (y : ssys) (w w' : vals) : Prop := v_par w' = v_par w /\ v_charge w' = v_charge w /\
  forall x, exists k, v_flux w' x = (IZR k - v_flux w x)%R /\ (biases_inductor y x -> k = 0%Z).
(** charge biases reversed. *)
Definition charge_reversed (w w' : vals) : Prop := v_par w' = v_par w /\ v_flux w' = v_flux w /\ forall x, v_charge w' x = (- v_charge w x)%R.
