(** Specification of the Hamiltonians (C116, C117). *)
From Coq Require Import List Bool String Ascii Arith ZArith Reals.
From Verif Require Import Prelude Mat Graph GraphSpec Symbolic SymbolicSpec RSum SymHamSpec.
Import ListNotations.
Open Scope string_scope.
Open Scope list_scope.
Open Scope nat_scope.

(** What sympy computes from the two matrices of the circuit: the inverse of
    the capacitance matrix, a pseudo-inverse of the inductance matrix. *)
Definition inverted (y : ssys) (val : string -> R) (Cinv P : nat -> nat -> R) : Prop :=
  (exists M, capacitance_matrix (ss_cg y) = Ok M /\ inverses (List.length (ss_nodes y)) (fun i j => lval val (M i j)) Cinv) /\
  exists L, inductance_matrix (ss_cg y) (ss_edges y) = Ok L /\ penrose (List.length (ss_edges y)) (imat_val val L) P.
(** Ideal components: no capacitor from a node to itself, no mutual
    inductances, no inductance of value 0. *)
Definition ideal (y : ssys) (val : string -> R) : Prop :=
  no_capacitor_loop (c_graph (ss_cg y)) /\ c_coupled (ss_cg y) = [] /\ forall b, In b (branches_of "L" (c_graph (ss_cg y))) -> val (snd b) <> 0%R.
(** A biased inductor goes to ground and no other inductor is at its node. *)
Definition biases_alone (y : ssys) (bias : edge -> R) : Prop :=
  forall e, In e (ss_edges y) -> inductor_at (ss_cg y) e -> bias e = 0%R \/ alone (ss_cg y) (ss_edges y) e.
(** v: node voltages (0 at ground) for which the charge on the capacitors of
    each node, the sum of C (v_n - v_m) over them, is q n. *)
Definition at_node (n : nat) (e : edge) : R := ((if Nat.eqb (src e) n then 1 else 0) - (if Nat.eqb (dst e) n then 1 else 0))%R.
Definition capacitor_charge (val : string -> R) (s : cg) (v : nat -> R) (n : nat) : R :=
  (Rsum (map (fun b => at_node n (fst b) * (val (snd b) * (v (src (fst b)) - v (dst (fst b))))) (branches_of "C" (c_graph s))) +
   Rsum (map (fun g => if Nat.eqb (fst g) n then val (snd g) * v n else 0) (gates s)) +
   Rsum (map (fun r => if Nat.eqb (fst r) n then series (val (r_coupling (snd r))) (val (r_Cr (snd r))) * v n else 0) (coupled_resonators s)))%R.
Definition voltages (val : string -> R) (y : ssys) (q v : nat -> R) : Prop :=
  v 0 = 0%R /\ forall n, In n (ss_nodes y) -> capacitor_charge val (ss_cg y) v n = q n.
(** The coordinate of node n set to t *)
Definition upd (f : nat -> R) (n : nat) (t : R) : nat -> R := fun k => if Nat.eqb k n then t else f k.
(** Sum of the currents leaving node n through the junctions: amplitude times
    sine of phase difference plus bias. *)
Definition junction_current (val ph : string -> R) (d : dict edge (list string)) (g : mgraph) (phi : nat -> R) (n : nat) : R :=
  Rsum (map (fun b => at_node n (fst b) * (val (snd b) * sin (phi (src (fst b)) - phi (dst (fst b)) + signed_bias d ph (fst b))))%R (branches_of "I" g)).
(** ... through the inductors: flux plus bias over inductance. *)
Definition inductor_current (val : string -> R) (s : cg) (edges : list edge) (bias : edge -> R) (f : nat -> R) (n : nat) : R :=
  Rsum (map (fun e => match dget (c_map s) e with
                      | Some c => if letter "L" (e, c) then at_node n e * ((f (src e) - f (dst e) + bias e) / val c) else 0
                      | None => 0 end)%R edges).
