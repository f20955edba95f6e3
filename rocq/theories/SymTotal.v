(** Model of pyscqed/symbolic_system.py lines 526-551: the Hamiltonians as a
    whole. As in SymHam.v an expression is represented by its value for given
    values of the symbols; no coordinate transform except in the Josephson and phase slip terms. *)
From Coq Require Import List Bool String Ascii Arith ZArith Reals.
From Coquelicot Require Import Complex.
From Verif Require Import Prelude Mat Graph Sweep Symbolic SymbolicFlux NumOp SymHam.
Import ListNotations.
Open Scope string_scope.
Open Scope list_scope.
Open Scope nat_scope.

(** The values of the symbols: parameters, charge biases, flux biases, reduced
    flux biases and reduced charge biases. *)
Record vals := mkvals { v_par : string -> R; v_charge : string -> R; v_flux : string -> R; v_redflux : string -> R; v_redcharge : string -> R }.
(** lines 127-135 [getChargeBiasVector]: charge_bias[node], 0 if there is no
    bias *)
Definition charge_bias (y : ssys) (cb : string -> R) (i : nat) : R :=
  match dget (ss_charge y) (nth i (ss_nodes y) 0) with Some (Some x) => cb x | _ => 0%R end.
(** flux_bias[edge], with prefactor 1 (line 760) *)
Definition branch_bias (y : ssys) (fb : string -> R) (e : edge) : R :=
  match dget (ss_flux y) e with Some l => SymHam.total fb l | None => 0%R end.
(** lines 529-533; [Cinv]: the value of getInverseCapacitanceMatrix(); [Q]: of
    the symbol Q_{node} *)
Definition sym_getChargingEnergies (y : ssys) (w : vals) (Cinv : nat -> nat -> R) (Q : nat -> R) : R :=
  half_form (List.length (ss_nodes y)) Cinv (fun i => Q (nth i (ss_nodes y) 0)) (charge_bias y (v_charge w)).
(** lines 535-540; [P]: the value of the pseudo-inverse of
    getInductanceMatrix("branch"), [F]: of the symbol Phi_{node} *)
Definition sym_getFluxEnergies (y : ssys) (w : vals) (P : nat -> nat -> R) (F : nat -> R) : R :=
  flux_energy (ss_cg y) (ss_edges y) P (fun j => branch_bias y (v_flux w) (nth j (ss_edges y) noedge)) (fun i => F (nth i (ss_nodes y) 0)).
(** lines 542-545 [getClassicalHamiltonian]; [phi]: the value of phi_{node} *)
Definition getClassicalHamiltonian (y : ssys) (w : vals) (Cinv P : nat -> nat -> R) (Q F phi : nat -> R) : res R :=
  bind (getClassicalJosephsonEnergies y (v_par w) (v_redflux w) phi) (fun j =>
  Ok (sym_getChargingEnergies y w Cinv Q + sym_getFluxEnergies y w P F + j)%R).
(** lines 547-551 [getQuantumHamiltonian], as a sum of numbers and terms with
    displacement operators *)
Definition getQuantumHamiltonian (argord : list (nat * bool) -> list (nat * bool)) (y : ssys) (w : vals) (Ri Cinv P : nat -> nat -> R) (Q F : nat -> R) : res (R * list qterm * list qterm) :=
  bind (getQuantumJosephsonEnergies argord y Ri) (fun j => bind (getQuantumPhaseSlipEnergies argord y Ri) (fun p =>
  Ok ((sym_getChargingEnergies y w Cinv Q + sym_getFluxEnergies y w P F)%R, j, p))).
(** Its value for numbers in place of all operators *)
Definition quantum_value (w : vals) (X Xd Y Yd : nat -> C) (h : R * list qterm * list qterm) : C :=
  let '(r, j, p) := h in (RtoC r + qval (v_par w) (v_redflux w) X Xd j + qval (v_par w) (v_redcharge w) Y Yd p)%C.
