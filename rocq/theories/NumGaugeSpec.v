(** Notions for C122: loops and their fluxes. *)
From Coq Require Import List Bool String Ascii Arith ZArith Reals.
From Coquelicot Require Import Complex.
From Verif Require Import Prelude Graph Symbolic SymbolicSpec NumOp NumOpSpec SymTotal MoveSpec NumSymSpec.
Import ListNotations.
Open Scope nat_scope.

(** Two systems of the same circuit with the same charge biases: their flux
    biases may be on different branches. *)
Definition same_circuit (y y' : ssys) : Prop :=
  ss_cg y' = ss_cg y /\ ss_nodes y' = ss_nodes y /\ ss_edges y' = ss_edges y /\ ss_charge y' = ss_charge y.
Definition conducting (y : ssys) (l : list (bool * edge)) : Prop := forall x, In x l -> kind_at y "I" (snd x) \/ kind_at y "L" (snd x).
(** The flux biases along a walk, in flux quanta *)
Fixpoint loop_flux (y : ssys) (fb : string -> R) (l : list (bool * edge)) : R :=
  match l with [] => 0%R | (d, e) :: l => ((if d then branch_bias y fb e else - branch_bias y fb e) + loop_flux y fb l)%R end.
(** Every loop of junctions and inductors has the same flux, up to whole flux
    quanta, and inductors have the same biases. *)
Definition same_fluxes (y y' : ssys) (w w' : vals) : Prop := v_par w' = v_par w /\ v_charge w' = v_charge w /\
  (forall l p, conducting y l -> walk l p p -> exists k, loop_flux y' (v_flux w') l = (loop_flux y (v_flux w) l + IZR k)%R) /\
  forall e, kind_at y "L" e -> branch_bias y' (v_flux w') e = branch_bias y (v_flux w) e.
(** A node in the charge basis with no inductor, and a node that inductors join
    to ground *)
Definition free_node eigh inv (y : ssys) (data : dict nat opdata) (m : nat) : Prop :=
  (exists d, dget data m = Some d /\ od_basis d = BCharge /\ right_on eigh inv (2 * od_trunc d + 1) (chargeP (od_trunc d))) /\
  forall e, kind_at y "L" e -> ~ touches m e.
Definition grounded (y : ssys) (m : nat) : Prop := exists l, (forall x, In x l -> kind_at y "L" (snd x)) /\ walk l 0 m.

(** B = U A U^dagger, and entries that differ by less than 2e-12 *)
Definition rotated (n : nat) (A B : matrix) : Prop := exists U, unitary n U /\ same n B (mul n (mul n U A) (adjoint U)).
Definition near (n : nat) (A B : matrix) : Prop := forall i j, i < n -> j < n -> (Cmod (A i j - B i j)%C < 2 / 10 ^ 12)%R.
(** Up to rounding, H' is H in another orthonormal basis. *)
Definition equivalent (n : nat) (H H' : matrix) : Prop := exists A A', near n H A /\ near n H' A' /\ rotated n A A' /\ forall E, spectrum n A E <-> spectrum n A' E.
