(** Notions for C132: components in parallel. *)
From Coq Require Import List String Ascii Arith Reals.
From Verif Require Import Prelude Mat Graph GraphSpec Symbolic SymbolicSpec NumOp NumOpSpec SymHam SymTotal NumSymSpec LevMoveSpec RedrawSpec.
Import ListNotations.
Open Scope nat_scope.

(** A quantity of a component between two nodes, ground being 0 *)
Definition link : Type := nat * nat * R.
(** The sum of the quantity over the components between a and b, those drawn
    from b to a multiplied by s (1 or -1) *)
Definition between (s : R) (l : list link) (a b : nat) : R :=
  fold_right Rplus 0%R (map (fun k : link => let '(p, q, x) := k in if Nat.eqb p a && Nat.eqb q b then x else if Nat.eqb p b && Nat.eqb q a then (s * x)%R else 0%R)%bool l).
Definition agree (s : R) (l l' : list link) : Prop := forall a b, between s l a b = between s l' a b.
Definition links (y : ssys) (f : edge -> R) : list link := map (fun e => (src e, dst e, f e)) (ss_edges y).
(** Capacitors, with the gate capacitors and the resonators (coupling and resonator
    capacitance in series) as capacitors to ground *)
Definition capacitors (y : ssys) (w : vals) : list link :=
  map (capacitor_of w) (branches_of "C"%char (c_graph (ss_cg y))) ++ map (fun g => (fst g, 0, v_par w (snd g))) (gates (ss_cg y)) ++
  map (fun r => (fst r, 0, series (v_par w (r_coupling (snd r))) (v_par w (r_Cr (snd r))))) (coupled_resonators (ss_cg y)).
(** Inverse inductance and bias of an inductor, 0 for other branches; the
    critical current times cosine and sine of the bias *)
Definition inverse_L (y : ssys) (w : vals) (e : edge) : R := if Req_EM_T (value_of y w "L"%char e) 0 then 0%R else (/ value_of y w "L"%char e)%R.
Definition inductor_bias (y : ssys) (w : vals) (e : edge) : R := if Req_EM_T (value_of y w "L"%char e) 0 then 0%R else branch_bias y (v_flux w) e.
Definition current_cos (y : ssys) (w : vals) (e : edge) : R := (value_of y w "I"%char e * cos (2 * PI * branch_bias y (v_flux w) e))%R.
Definition current_sin (y : ssys) (w : vals) (e : edge) : R := (value_of y w "I"%char e * sin (2 * PI * branch_bias y (v_flux w) e))%R.
(** Two systems with the same nodes and charge biases in which, between any two
    nodes, the total capacitances, inverse inductances, inductor biases, critical
    currents with their phases and phase slip amplitudes are the same *)
Definition alike (y : ssys) (w : vals) (y' : ssys) (w' : vals) : Prop :=
  ss_nodes y' = ss_nodes y /\
  agree 1 (capacitors y w) (capacitors y' w') /\
  agree 1 (links y (inverse_L y w)) (links y' (inverse_L y' w')) /\ agree (-1) (links y (inductor_bias y w)) (links y' (inductor_bias y' w')) /\
  agree 1 (links y (current_cos y w)) (links y' (current_cos y' w')) /\ agree (-1) (links y (current_sin y w)) (links y' (current_sin y' w')) /\
  agree 1 (links y (value_of y w "V"%char)) (links y' (value_of y' w' "V"%char)) /\
  forall i, i < List.length (ss_nodes y) -> charge_bias y' (v_charge w') i = charge_bias y (v_charge w) i.
