(** Notions for C128: changes of amplitudes and phases of the branches. *)
From Coq Require Import List String Ascii Arith ZArith Reals.
From Coquelicot Require Import Complex.
From Verif Require Import Prelude Mat Graph GraphSpec Symbolic SymbolicSpec NumOp NumOpSpec SymHam SymHamSpec SymTotal SymTotalSpec MoveSpec.
Import ListNotations.
Open Scope nat_scope.

(** The value of the component of branch e if its name starts with p, 0
    otherwise *)
Definition value_of (y : ssys) (w : vals) (p : ascii) (e : edge) : R :=
  match dget (c_map (ss_cg y)) e with Some c => if letter p (e, c) then v_par w c else 0%R | None => 0%R end.
(** Critical current times exp(2 pi i f), where f is the flux bias of the branch in
    flux quanta *)
Definition phasor (y : ssys) (w : vals) (e : edge) : C :=
  (RtoC (value_of y w "I"%char e) * (cos (2 * PI * branch_bias y (v_flux w) e), sin (2 * PI * branch_bias y (v_flux w) e)))%C.
Definition over (l : list edge) (f : edge -> R) : R := fold_right (fun e r => (f e + r)%R) 0%R l.
(** How far two sets of values are apart *)
Definition josephson_change (y : ssys) (w w' : vals) : R := over (ss_edges y) (fun e => Cmod (phasor y w' e - phasor y w e)%C).
Definition slip_change (y : ssys) (w w' : vals) : R := over (ss_edges y) (fun e => Rabs (value_of y w' "V"%char e - value_of y w "V"%char e)).
(** Charge biases and the flux biases of inductors are the same. *)
Definition same_quadratic (y : ssys) (w w' : vals) : Prop :=
  v_charge w' = v_charge w /\ forall e, kind_at y "L"%char e -> branch_bias y (v_flux w') e = branch_bias y (v_flux w) e.
(** How far the flux biases of junctions are apart, in radians and weighted with the
    critical currents *)
Definition flux_change (y : ssys) (w w' : vals) : R := over (ss_edges y) (fun e =>
  (Rabs (value_of y w "I"%char e) * (2 * PI * Rabs (branch_bias y (v_flux w') e - branch_bias y (v_flux w) e)))%R).
(** Rounding of the operators of a node: nothing in the charge basis *)
Definition excess (data : dict nat opdata) (m : nat) : R :=
  match dget data m with
  | Some d => match od_basis d with BOscillator => (1 + 2 * INR (od_trunc d) / 10 ^ 12)%R | _ => 1%R end
  | None => 1%R
  end.
Definition excesses (data : dict nat opdata) (nodes : list nat) : R := fold_right (fun m r => (excess data m * r)%R) 1%R nodes.
(** Positive components: capacitances and inductances above 0, besides what
    [ideal] says (no capacitor from a node to itself, no mutual inductances) *)
Definition positive_components (y : ssys) (val : string -> R) : Prop :=
  ideal y val /\ positive_caps val (ss_cg y) /\ forall b, In b (branches_of "L"%char (c_graph (ss_cg y))) -> (0 < val (snd b))%R.
(** All amplitudes *)
Definition josephson_total (y : ssys) (w : vals) : R := over (ss_edges y) (fun e => Rabs (value_of y w "I"%char e)).
Definition slip_total (y : ssys) (w : vals) : R := over (ss_edges y) (fun e => Rabs (value_of y w "V"%char e)).
