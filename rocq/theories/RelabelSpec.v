(** Notions for C133: nodes and branches in another order. *)
From Coq Require Import List String Ascii Arith Reals Permutation.
From Verif Require Import Prelude Mat Graph GraphSpec Symbolic SymbolicSpec NumOp NumOpSpec SymHam SymTotal NumSymSpec LevMoveSpec RedrawSpec ParallelSpec.
Open Scope nat_scope.

(** The charge bias of a node *)
Definition node_charge (y : ssys) (w : vals) (m : nat) : R := match dget (ss_charge y) m with Some (Some x) => v_charge w x | _ => 0%R end.
(** Two systems with the same nodes, in any order, the same charge biases of the
    nodes and the same totals of components between any two nodes *)
Definition reordered (y : ssys) (w : vals) (y' : ssys) (w' : vals) : Prop :=
  Permutation (ss_nodes y) (ss_nodes y') /\
  agree 1 (capacitors y w) (capacitors y' w') /\
  agree 1 (links y (inverse_L y w)) (links y' (inverse_L y' w')) /\ agree (-1) (links y (inductor_bias y w)) (links y' (inductor_bias y' w')) /\
  agree 1 (links y (current_cos y w)) (links y' (current_cos y' w')) /\ agree (-1) (links y (current_sin y w)) (links y' (current_sin y' w')) /\
  agree 1 (links y (value_of y w "V"%char)) (links y' (value_of y' w' "V"%char)) /\
  forall m, In m (ss_nodes y) -> node_charge y' w' m = node_charge y w m.
