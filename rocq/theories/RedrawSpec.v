(** Notions for C131: one circuit drawn in two ways. *)
From Coq Require Import List String Ascii Arith Reals Permutation.
From Verif Require Import Prelude Mat Graph GraphSpec Symbolic SymbolicSpec NumOp NumOpSpec SymHam SymTotal NumSymSpec LevMoveSpec.
Import ListNotations.
Open Scope nat_scope.

(** Lists with the same elements in another order, some of them turned round *)
Definition same_up_to {A} (turn : A -> A) (l l' : list A) : Prop := exists m, Permutation l m /\ Forall2 (fun a b => b = a \/ b = turn a) m l'.
(** A branch that is not a capacitor: its two ends, its critical current, phase slip
    amplitude and inductance (0 if it is of another type) and its flux bias, which
    changes sign with the direction *)
Definition part : Type := nat * nat * (R * R * R) * R.
Definition part_of (y : ssys) (w : vals) (e : edge) : part :=
  (src e, dst e, (value_of y w "I"%char e, value_of y w "V"%char e, value_of y w "L"%char e), branch_bias y (v_flux w) e).
Definition turned (p : part) : part := let '(a, b, v, f) := p in (b, a, v, (- f)%R).
(** A capacitor: its two ends and its capacitance *)
Definition capacitor_of (w : vals) (b : branch) : nat * nat * R := (src (fst b), dst (fst b), v_par w (snd b)).
Definition swapped (c : nat * nat * R) : nat * nat * R := let '(a, b, v) := c in (b, a, v).
(** Two systems with the same nodes and the same components and biases; the order
    of the branches, their directions and names, and so the spanning trees, may
    differ. *)
Definition redrawn (y : ssys) (w : vals) (y' : ssys) (w' : vals) : Prop :=
  ss_nodes y' = ss_nodes y /\
  same_up_to turned (map (part_of y w) (ss_edges y)) (map (part_of y' w') (ss_edges y')) /\
  same_up_to swapped (map (capacitor_of w) (branches_of "C"%char (c_graph (ss_cg y)))) (map (capacitor_of w') (branches_of "C"%char (c_graph (ss_cg y')))) /\
  Permutation (map (fun g => (fst g, v_par w (snd g))) (gates (ss_cg y))) (map (fun g => (fst g, v_par w' (snd g))) (gates (ss_cg y'))) /\
  Permutation (map (fun r => (fst r, (v_par w (r_coupling (snd r)), v_par w (r_Cr (snd r))))) (coupled_resonators (ss_cg y)))
    (map (fun r => (fst r, (v_par w' (r_coupling (snd r)), v_par w' (r_Cr (snd r))))) (coupled_resonators (ss_cg y'))) /\
  forall i, i < List.length (ss_nodes y) -> charge_bias y' (v_charge w') i = charge_bias y (v_charge w) i.
