(** Notions for C126: raising truncations. *)
From Coq Require Import List String Ascii Arith ZArith Reals.
From Coquelicot Require Import Complex.
From Verif Require Import Prelude Graph Symbolic NumOp NumOpSpec SymTotal MoveSpec NumSymSpec NumGaugeSpec.
Open Scope nat_scope.

(** Another configuration of the operators of node m: the same, or a charge
    basis with a higher truncation, where the node has no inductor. *)
Definition refined eigh inv (y : ssys) (data data' : dict nat opdata) (m : nat) : Prop :=
  dget data' m = dget data m \/
  exists t t', t <= t' /\ dget data m = Some (mkod t BCharge) /\ dget data' m = Some (mkod t' BCharge) /\
    free_node eigh inv y data m /\ free_node eigh inv y data' m.
(** f embeds the n basis states of a space in the n' of another. *)
Definition embedding (n n' : nat) (f : nat -> nat) : Prop :=
  (forall i, i < n -> f i < n') /\ (forall i j, i < n -> j < n -> f i = f j -> i = j).
(** The matrix elements of A' between embedded states are those of A. *)
Definition restricts (n : nat) (f : nat -> nat) (A' A : matrix) : Prop := forall i j, i < n -> j < n -> A' (f i) (f j) = A i j.
(** E 0 <= E 1 <= ... *)
Definition ascending (n : nat) (E : nat -> R) : Prop := forall i j, i <= j -> j < n -> (E i <= E j)%R.

(** Notions for C127: moving charge biases by whole Cooper pairs. *)
(** Other values of the charge biases, all else the same *)
Definition only_charges (w w' : vals) : Prop := v_par w' = v_par w /\ v_flux w' = v_flux w.
(** The charge bias of node m is higher by k. *)
Definition raised_by (y : ssys) (w w' : vals) (m : nat) (k : Z) : Prop :=
  match dget (ss_charge y) m with Some (Some x) => v_charge w' x = (v_charge w x + IZR k)%R | _ => k = 0%Z end.
(** The charge bias of m is moved by some k, and if the operators of m change or
    k is not 0 it is in a charge basis, without inductors, the truncation
    raised by |k| or more. *)
Definition follows eigh inv (y : ssys) (w w' : vals) (data data' : dict nat opdata) (m : nat) : Prop :=
  exists k, raised_by y w w' m k /\
    ((k = 0%Z /\ dget data' m = dget data m) \/
     exists t t', t + Z.abs_nat k <= t' /\ dget data m = Some (mkod t BCharge) /\ dget data' m = Some (mkod t' BCharge) /\
       free_node eigh inv y data m /\ free_node eigh inv y data' m).
(** A with x added on the diagonal *)
Definition plus_number (x : R) (A : matrix) : matrix := fun i j => (A i j + if Nat.eqb i j then RtoC x else RtoC 0)%C.
