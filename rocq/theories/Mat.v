(** Finite sums and matrices over a commutative ring. Matrices are functions
    of two indices; dimensions are given where they matter. Nothing here is
    specific to one file of /repo. *)
From Coq Require Import List Bool Arith Lia Ring_theory Ring Reals ZArith.
From Coquelicot Require Complex.
Import ListNotations.

Record rng := mkrng {
  K :> Type; k0 : K; k1 : K; kadd : K -> K -> K; kmul : K -> K -> K; ksub : K -> K -> K; kopp : K -> K;
  krt : ring_theory k0 k1 kadd kmul ksub kopp (@eq K)
}.
Arguments k0 {r}. Arguments k1 {r}. Arguments kadd {r}. Arguments kmul {r}. Arguments ksub {r}. Arguments kopp {r}.
Definition R_rng : rng := mkrng R _ _ _ _ _ _ RTheory.
Definition C_rng : rng := mkrng Complex.C _ _ _ _ _ _ Complex.C_ring_theory.
Definition Z_rng : rng := mkrng Z _ _ _ _ _ _ InitialRing.Zth.

Section Sums.
  Context {A : rng}.
  Implicit Types f g : nat -> A.
  (** f 0 + ... + f (n-1) *)
  Fixpoint sumn (n : nat) (f : nat -> A) : A :=
    match n with O => k0 | S n => kadd (sumn n f) (f n) end.
  Definition sumI (l : list A) : A := fold_right kadd k0 l.
  Definition delta (i j : nat) : A := if Nat.eqb i j then k1 else k0.
  Definition mmul (p : nat) (X Y : nat -> nat -> A) : nat -> nat -> A := fun i j => sumn p (fun k => kmul (X i k) (Y k j)).
  Definition mid : nat -> nat -> A := delta.
  Definition mtr (X : nat -> nat -> A) : nat -> nat -> A := fun i j => X j i.
  Definition madd (X Y : nat -> nat -> A) : nat -> nat -> A := fun i j => kadd (X i j) (Y i j).
  Definition mscale (c : A) (X : nat -> nat -> A) : nat -> nat -> A := fun i j => kmul c (X i j).
End Sums.
