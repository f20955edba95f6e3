(** C116, C117: the Hamiltonians of a SymbolicSystem as a whole. *)
From Coq Require Import List Bool String Ascii Arith ZArith Reals Permutation Lra Lia.
From Coquelicot Require Import Complex Derive Hierarchy.
From Verif Require Import Prelude Mat Graph GraphSpec GraphProofs GraphMaps Sweep Symbolic SymbolicSpec RSum SymbolicFlux NumOp SymHam SymHamSpec SymHamT SymTotal SymTotalSpec SymTotalMain.
Import ListNotations.
Open Scope string_scope.
Open Scope list_scope.
Open Scope nat_scope.

(** C116. getClassicalHamiltonian is the energy of the capacitors at the
    voltages that belong to the node charges, plus that of the inductors and of
    the junctions; up to a constant if a branch that joins a node to itself is
    alone at it. *)
Theorem C116_classical_partial : forall y w Cinv P, system y -> ideal y (v_par w) -> inverted y (v_par w) Cinv P -> biases_alone y (branch_bias y (v_flux w)) ->
  exists K, (no_lone_selfloop (noncap (c_graph (ss_cg y))) -> K = 0%R) /\
  forall Q F phi v, voltages (v_par w) y (fun k => Q k + charge_offset (ss_charge y) (v_charge w) k)%R v -> F 0 = 0%R -> phi 0 = 0%R ->
  getClassicalHamiltonian y w Cinv P Q F phi =
  Ok (1 / 2 * electrostatic (v_par w) (ss_cg y) v v + 1 / 2 * biased_form (v_par w) (ss_cg y) (ss_edges y) (branch_bias y (v_flux w)) F +
      junction_energy (v_par w) (v_redflux w) (ss_red y) (c_graph (ss_cg y)) phi + K)%R.
Proof. exact classical_alone. Qed.
Print Assumptions C116_classical_partial.
(** For other biases of inductors see C49: they enter as shifts of the node
    fluxes. *)
Theorem C116_classical_exact : forall y w Cinv P, system y -> ideal y (v_par w) -> inverted y (v_par w) Cinv P ->
  exists K, (no_lone_selfloop (noncap (c_graph (ss_cg y))) -> K = 0%R) /\
  forall Q F phi v, voltages (v_par w) y (fun k => Q k + charge_offset (ss_charge y) (v_charge w) k)%R v -> F 0 = 0%R -> phi 0 = 0%R ->
  getClassicalHamiltonian y w Cinv P Q F phi =
  Ok (1 / 2 * electrostatic (v_par w) (ss_cg y) v v + 1 / 2 * inductive_form (v_par w) (c_graph (ss_cg y)) (fun k => F k + shift (ss_cg y) (ss_edges y) (branch_bias y (v_flux w)) k) +
      junction_energy (v_par w) (v_redflux w) (ss_red y) (c_graph (ss_cg y)) phi + K)%R.
Proof. exact classical_exact. Qed.
Print Assumptions C116_classical_exact.
(** getQuantumHamiltonian with numbers in place of the operators is the
    classical Hamiltonian plus the energy of the phase slip nanowires, *)
Theorem C116_quantum_partial : forall y w argord Cinv P Q F h, system y -> (forall l, Permutation (argord l) l) -> getQuantumHamiltonian argord y w id_mat Cinv P Q F = Ok h ->
  exists K, (no_lone_selfloop (noncap (c_graph (ss_cg y))) -> K = 0%R) /\
  forall phi th, phi 0 = 0%R -> th 0 = 0%R -> exists r, getClassicalHamiltonian y w Cinv P Q F phi = Ok r /\
  quantum_value w (fun k => expi (phi (nth k (ss_nodes y) 0))) (fun k => expi (- phi (nth k (ss_nodes y) 0))) (fun k => expi (th (nth k (ss_nodes y) 0))) (fun k => expi (- th (nth k (ss_nodes y) 0))) h =
  RtoC (r + slip_energy (v_par w) (v_redcharge w) (ss_charge y) (c_graph (ss_cg y)) th + K)%R.
Proof. exact quantum_total. Qed.
Print Assumptions C116_quantum_partial.
(** so the two differ for a circuit with a nanowire: getClassicalHamiltonian
    leaves it out. *)
Theorem C116_slip_refuted : forall argord, (forall l, Permutation (argord l) l) -> exists y w Cinv P h r, system y /\ ideal y (v_par w) /\ inverted y (v_par w) Cinv P /\ no_lone_selfloop (noncap (c_graph (ss_cg y))) /\
  getQuantumHamiltonian argord y w id_mat Cinv P (fun _ => 0%R) (fun _ => 0%R) = Ok h /\ getClassicalHamiltonian y w Cinv P (fun _ => 0%R) (fun _ => 0%R) (fun _ => 0%R) = Ok r /\
  quantum_value w (fun _ => expi 0) (fun _ => expi (- 0)) (fun _ => expi 0) (fun _ => expi (- 0)) h <> RtoC r.
Proof. exact slip_counter. Qed.
Print Assumptions C116_slip_refuted.
(** When they are defined *)
Theorem C116_defined_exact : forall y w argord Cinv P Q F, system y -> (forall l, Permutation (argord l) l) ->
  (forall phi, exists r, getClassicalHamiltonian y w Cinv P Q F phi = Ok r) /\
  (~ self_branch "I" (ss_cg y) (ss_edges y) /\ ~ self_branch "V" (ss_cg y) (ss_edges y) <-> exists h, getQuantumHamiltonian argord y w id_mat Cinv P Q F = Ok h) /\
  (self_branch "I" (ss_cg y) (ss_edges y) \/ self_branch "V" (ss_cg y) (ss_edges y) -> getQuantumHamiltonian argord y w id_mat Cinv P Q F = Err IndexError).
Proof. exact total_defined. Qed.
Print Assumptions C116_defined_exact.
(** A biased inductor and a junction in a loop, with a capacitor *)
Example C116_witness : exists y w P, system y /\ ideal y (v_par w) /\ inverted y (v_par w) id_mat P /\ biases_alone y (branch_bias y (v_flux w)) /\ branch_bias y (v_flux w) (0, 1, 0) = 2%R /\
  g_edges (c_graph (ss_cg y)) = [((0, 1, 0), "L1"); ((0, 1, 1), "I1"); ((0, 1, 2), "C1")] /\
  (forall Q, voltages (v_par w) y (fun k => Q k + charge_offset (ss_charge y) (v_charge w) k)%R (fun k => match k with 1 => Q 1 | _ => 0%R end)) /\
  (exists h, getQuantumHamiltonian (fun l => l) y w id_mat id_mat P (fun _ => 0%R) (fun _ => 0%R) = Ok h).
Proof.
  destruct (Lrf_system 2%R) as (y & P & Hy & E1 & E2 & E3 & E4 & E5 & E6 & HI & HV & HB & E7 & E8). exists y, (wv 2), P. do 6 (split; [assumption|]). split; [apply E8|].
  apply (total_defined y (wv 2) (fun l => l) id_mat P (fun _ => 0%R) (fun _ => 0%R) Hy (fun l => Permutation_refl l)). split; intros (e & c & He & _ & _ & Hs); rewrite E2 in He; destruct He as [<-|[<-|[]]]; discriminate Hs.
Qed.

(** C117. Hamilton's equations. The derivative by the charge of a node is its
    voltage; *)
Theorem C117_voltage_partial : forall y w Cinv P Q F phi v n, system y -> ideal y (v_par w) -> inverted y (v_par w) Cinv P -> voltages (v_par w) y (fun k => Q k + charge_offset (ss_charge y) (v_charge w) k)%R v -> In n (ss_nodes y) ->
  exists h, (forall t, getClassicalHamiltonian y w Cinv P (upd Q n t) F phi = Ok (h t)) /\ is_derive h (Q n) (v n).
Proof. exact voltage_derivative. Qed.
Print Assumptions C117_voltage_partial.
(** the derivative by the flux of a node, for phases kap times fluxes, is the
    current that leaves it through the inductors and kap times the one through
    the junctions. *)
Theorem C117_currents_partial : forall y w Cinv P Q F kap n, system y -> ideal y (v_par w) -> inverted y (v_par w) Cinv P -> biases_alone y (branch_bias y (v_flux w)) -> F 0 = 0%R -> n <> 0 ->
  exists h, (forall t, getClassicalHamiltonian y w Cinv P Q (upd F n t) (fun k => kap * upd F n t k)%R = Ok (h t)) /\
  is_derive h (F n) (inductor_current (v_par w) (ss_cg y) (ss_edges y) (branch_bias y (v_flux w)) F n + kap * junction_current (v_par w) (v_redflux w) (ss_red y) (c_graph (ss_cg y)) (fun k => kap * F k) n)%R.
Proof. exact currents_alone. Qed.
Print Assumptions C117_currents_partial.
Theorem C117_currents_exact : forall y w Cinv P Q F kap n, system y -> ideal y (v_par w) -> inverted y (v_par w) Cinv P -> F 0 = 0%R -> n <> 0 ->
  exists h, (forall t, getClassicalHamiltonian y w Cinv P Q (upd F n t) (fun k => kap * upd F n t k)%R = Ok (h t)) /\
  is_derive h (F n) (Rsum (map (fun b => at_node n (fst b) * (((F (src (fst b)) + shift (ss_cg y) (ss_edges y) (branch_bias y (v_flux w)) (src (fst b))) - (F (dst (fst b)) + shift (ss_cg y) (ss_edges y) (branch_bias y (v_flux w)) (dst (fst b)))) / v_par w (snd b)))%R
      (branches_of "L" (c_graph (ss_cg y)))) + kap * junction_current (v_par w) (v_redflux w) (ss_red y) (c_graph (ss_cg y)) (fun k => kap * F k) n)%R.
Proof. exact currents_exact. Qed.
Print Assumptions C117_currents_exact.
(** It is not the sum of the currents if a biased inductor is not alone, *)
Theorem C117_bias_refuted : exists y w Cinv P F n, system y /\ ideal y (v_par w) /\ inverted y (v_par w) Cinv P /\ F 0 = 0%R /\ In n (ss_nodes y) /\
  forall Q h, (forall t, getClassicalHamiltonian y w Cinv P Q (upd F n t) (fun k => 1 * upd F n t k)%R = Ok (h t)) ->
  ~ is_derive h (F n) (inductor_current (v_par w) (ss_cg y) (ss_edges y) (branch_bias y (v_flux w)) F n + junction_current (v_par w) (v_redflux w) (ss_red y) (c_graph (ss_cg y)) (fun k => 1 * F k) n)%R.
Proof. exact bias_counter. Qed.
Print Assumptions C117_bias_refuted.
(** nor, for any flux quantum other than 2 pi, with the junctions' parameters
    as critical currents. *)
Theorem C117_units_refuted : forall kap, kap <> 0%R -> kap <> 1%R -> exists y w Cinv P F n, system y /\ ideal y (v_par w) /\ inverted y (v_par w) Cinv P /\ biases_alone y (branch_bias y (v_flux w)) /\ F 0 = 0%R /\ In n (ss_nodes y) /\
  forall Q h, (forall t, getClassicalHamiltonian y w Cinv P Q (upd F n t) (fun k => kap * upd F n t k)%R = Ok (h t)) ->
  ~ is_derive h (F n) (inductor_current (v_par w) (ss_cg y) (ss_edges y) (branch_bias y (v_flux w)) F n + junction_current (v_par w) (v_redflux w) (ss_red y) (c_graph (ss_cg y)) (fun k => kap * F k) n)%R.
Proof. exact units_counter. Qed.
Print Assumptions C117_units_refuted.
Example C117_witness : exists y w P Q F v, system y /\ ideal y (v_par w) /\ inverted y (v_par w) id_mat P /\ biases_alone y (branch_bias y (v_flux w)) /\ branch_bias y (v_flux w) (0, 1, 0) = 2%R /\
  voltages (v_par w) y (fun k => Q k + charge_offset (ss_charge y) (v_charge w) k)%R v /\ v 1 = 3%R /\ F 0 = 0%R /\ In 1 (ss_nodes y).
Proof.
  destruct (Lrf_system 2%R) as (y & P & Hy & E1 & E2 & E3 & E4 & E5 & E6 & HI & HV & HB & E7 & E8). exists y, (wv 2), P, (fun _ => 3%R), (fun _ => 0%R). eexists. do 5 (split; [eassumption|]). split; [apply (E8 (fun _ => 3%R))|].
  split; [reflexivity|]. split; [reflexivity|]. rewrite E1. left. reflexivity.
Qed.
