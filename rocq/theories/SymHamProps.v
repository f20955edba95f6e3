(** C90-C95: the Josephson and phase slip terms of the symbolic Hamiltonian and
    coordinate transforms. *)
From Coq Require Import List Bool String Ascii Arith ZArith Reals Permutation Lra Lia.
From Coquelicot Require Import Complex.
From Verif Require Import Prelude Mat Graph GraphSpec GraphCircuit GraphMaps GraphProofs CollLast Sweep Symbolic SymbolicSpec RSum SymbolicInv SymbolicProofs NumOp SymHam SymHamSpec SymHamT SymHamEx.
Import ListNotations.
Open Scope string_scope.
Open Scope list_scope.
Open Scope nat_scope.

(** C90. getClassicalJosephsonEnergies is the energy of the junctions, and
    getQuantumJosephsonEnergies is for numbers exp(i phi) in place of the
    displacement operators; up to a constant if a branch that joins a node to
    itself is alone at it. *)
Theorem C90_classical : forall y val ph, system y -> exists K, (no_lone_selfloop (noncap (c_graph (ss_cg y))) -> K = 0%R) /\
  forall phi, phi 0 = 0%R -> getClassicalJosephsonEnergies y val ph phi = Ok (junction_energy val ph (ss_red y) (c_graph (ss_cg y)) phi + K)%R.
Proof. exact josephson_classical. Qed.
Print Assumptions C90_classical.
Theorem C90_quantum_partial : forall y argord l val ph, system y -> (forall l, Permutation (argord l) l) -> getQuantumJosephsonEnergies argord y id_mat = Ok l ->
  exists K, (no_lone_selfloop (noncap (c_graph (ss_cg y))) -> K = 0%R) /\
  forall phi, phi 0 = 0%R -> qval val ph (fun k => expi (phi (nth k (ss_nodes y) 0))) (fun k => expi (- phi (nth k (ss_nodes y) 0))) l = RtoC (junction_energy val ph (ss_red y) (c_graph (ss_cg y)) phi + K)%R.
Proof. exact josephson_quantum. Qed.
Print Assumptions C90_quantum_partial.
(** getQuantumPhaseSlipEnergies, likewise *)
Theorem C90_slips_partial : forall y argord l val ph, system y -> (forall l, Permutation (argord l) l) -> getQuantumPhaseSlipEnergies argord y id_mat = Ok l ->
  exists K, (no_lone_selfloop (noncap (c_graph (ss_cg y))) -> K = 0%R) /\
  forall q, q 0 = 0%R -> qval val ph (fun k => expi (q (nth k (ss_nodes y) 0))) (fun k => expi (- q (nth k (ss_nodes y) 0))) l = RtoC (slip_energy val ph (ss_charge y) (c_graph (ss_cg y)) q + K)%R.
Proof. exact slips_quantum. Qed.
Print Assumptions C90_slips_partial.
(** They are defined exactly if no such branch joins a node to itself. *)
Theorem C90_defined_exact : forall y argord Rm Ri, system y -> (forall l, Permutation (argord l) l) -> inverses (List.length (ss_nodes y)) Rm Ri ->
  (~ self_branch "I" (ss_cg y) (ss_edges y) -> exists l, getQuantumJosephsonEnergies argord y Ri = Ok l) /\ (self_branch "I" (ss_cg y) (ss_edges y) -> getQuantumJosephsonEnergies argord y Ri = Err IndexError) /\
  (~ self_branch "V" (ss_cg y) (ss_edges y) -> exists l, getQuantumPhaseSlipEnergies argord y Ri = Ok l) /\ (self_branch "V" (ss_cg y) (ss_edges y) -> getQuantumPhaseSlipEnergies argord y Ri = Err IndexError).
Proof. exact junctions_defined. Qed.
Print Assumptions C90_defined_exact.
Theorem C90_self_refuted : forall argord, (forall l, Permutation (argord l) l) -> exists y phi, system y /\ (forall val ph, exists r, getClassicalJosephsonEnergies y val ph phi = Ok r) /\ getQuantumJosephsonEnergies argord y id_mat = Err IndexError.
Proof. exact self_counter. Qed.
Print Assumptions C90_self_refuted.
Example C90_witness : exists y, system y /\ no_lone_selfloop (noncap (c_graph (ss_cg y))) /\ inverses (List.length (ss_nodes y)) id_mat id_mat /\ (exists l, getQuantumJosephsonEnergies (fun l => l) y id_mat = Ok l) /\ (exists l, getQuantumPhaseSlipEnergies (fun l => l) y id_mat = Ok l) /\
  (forall val ph phi, junction_energy val ph (ss_red y) (c_graph (ss_cg y)) phi = (- val "I2" * cos (phi 1%nat - phi 2%nat - ph "a") - val "I3" * cos (phi 1%nat - phi 2%nat))%R) /\
  (forall val ph q, q 0 = 0%R -> slip_energy val ph (ss_charge y) (c_graph (ss_cg y)) q = (- val "V1" * cos (q 1%nat + ph "g"))%R).
Proof.
  destruct Lmix_facts as (y & Hy & E1 & E2 & E3 & E4 & E5 & E6 & E7 & S1 & S2). exists y. split; [exact Hy|]. split; [exact E7|]. split; [apply id_inverses|].
  destruct (junctions_defined y (fun l => l) id_mat id_mat Hy (fun l => Permutation_refl l) (id_inverses _)) as (A & _ & A' & _). split; [exact (A S1)|]. split; [exact (A' S2)|]. split.
  - intros val ph phi. unfold junction_energy. rewrite E5. cbn [map fst snd]. rewrite !Rsum_cons, Rsum_nil. unfold signed_bias. rewrite E3. cbn. rewrite ?Rsum_cons, ?Rsum_nil. unfold src, dst. cbn.
    replace (phi 1%nat - phi 2%nat + - (ph "a" + 0))%R with (phi 1%nat - phi 2%nat - ph "a")%R by ring. replace (phi 1%nat - phi 2%nat + - 0)%R with (phi 1%nat - phi 2%nat)%R by ring. ring.
  - intros val ph q Hq. unfold slip_energy. rewrite E6. cbn [map fst snd]. rewrite Rsum_cons, Rsum_nil. unfold charge_offset. rewrite E4. unfold src, dst. cbn. rewrite Hq. replace (0 + 0 - (q 1%nat + ph "g"))%R with (- (q 1%nat + ph "g"))%R by ring. rewrite cos_neg. ring.
Qed.

(** C91. The values of the symbolic getJosephsonEnergies. *)
Theorem C91_energies_exact : forall y val phi0 e c, system y -> In e (ss_edges y) -> carries (c_graph (ss_cg y)) e c -> exists d, sym_getJosephsonEnergies y val phi0 = Ok d /\
  dget d e = Some (if starts "I" c then phi0 * val c / (2 * PI) else 0)%R.
Proof. exact energies_of. Qed.
Print Assumptions C91_energies_exact.
(** It is the coefficient of the cosine in the Hamiltonian only for a flux
    quantum of 2 pi. *)
Theorem C91_coefficient_exact : forall y val phi0 e c, system y -> In e (ss_edges y) -> carries (c_graph (ss_cg y)) e c -> starts "I" c = true -> val c <> 0%R ->
  exists d a, sym_getJosephsonEnergies y val phi0 = Ok d /\ dget d e = Some a /\ (a = val c <-> phi0 = 2 * PI)%R.
Proof. exact energies_equal. Qed.
Print Assumptions C91_coefficient_exact.
Theorem C91_coefficient_refuted : exists y val phi0 d e a r, system y /\ (0 < phi0)%R /\ branches_of "I" (c_graph (ss_cg y)) = [(e, "I1")] /\ sym_getJosephsonEnergies y val phi0 = Ok d /\ dget d e = Some a /\
  getClassicalJosephsonEnergies y val (fun _ => 0%R) (fun _ => 0%R) = Ok r /\ r <> (- a)%R.
Proof. exact energies_counter. Qed.
Print Assumptions C91_coefficient_refuted.
(** The numerical Josephson and phase slip operators are the symbolic ones with
    the matrices in place of the symbols, errors included. *)
Theorem C91_numerical : forall N argord y v B val ph X Xd, getJosephsonVector y = Ok v -> josephson_bias y (ss_red y) = Ok B -> (forall i c, nth i v None = Some c -> val c <> 0%R) ->
  cosine_part N argord (ss_nodes y) (ss_edges y) (amp val v) (fun i => Rsum (map ph (nth i B [])) / (2 * PI))%R X Xd = bind (getQuantumJosephsonEnergies argord y id_mat) (qmat N val ph X Xd).
Proof. exact josephson_numeric. Qed.
Print Assumptions C91_numerical.
Theorem C91_numerical_slips : forall N argord y v val ph X Xd, getPhaseSlipVector y = Ok v -> (forall i c, nth i v None = Some c -> val c <> 0%R) ->
  cosine_part N argord (ss_nodes y) (ss_edges y) (amp val v) (fun i => bias_val ph (slip_bias y i) / (2 * PI))%R X Xd = bind (getQuantumPhaseSlipEnergies argord y id_mat) (qmat N val ph X Xd).
Proof. exact slips_numeric. Qed.
Print Assumptions C91_numerical_slips.
Example C91_witness : exists y v B w, system y /\ In (0, 1, 0) (ss_edges y) /\ carries (c_graph (ss_cg y)) (0, 1, 0) "I1" /\ getJosephsonVector y = Ok v /\ v = [Some "I1"] /\ josephson_bias y (ss_red y) = Ok B /\ getPhaseSlipVector y = Ok w.
Proof.
  assert (H : exists y v B w, new_system idord noor (grun cg_new Lone) = Some (Ok y) /\ In (0, 1, 0) (ss_edges y) /\ carries (c_graph (ss_cg y)) (0, 1, 0) "I1" /\ getJosephsonVector y = Ok v /\ v = [Some "I1"] /\ josephson_bias y (ss_red y) = Ok B /\ getPhaseSlipVector y = Ok w).
  { do 4 eexists. split; [vm_compute; reflexivity|]. split; [left; reflexivity|]. split; [exists ((0, 1, 0), "I1"); split; [left; reflexivity|split; [reflexivity|left; reflexivity]]|]. repeat (split; [vm_compute; reflexivity|]). vm_compute. reflexivity. }
  destruct H as (y & v & B & w & Hn & H). exists y, v, B, w. split; [eapply system_new; [apply Lone_circuit|exact Hn]|exact H].
Qed.

(** C92. With a transform the charging and inductive energies at transformed
    charges and fluxes are those at the old ones, except that the biases enter
    as R^T b and R^-1 b. *)
Theorem C92_charging_exact : forall n t Ci Q b, inverses n (t_R t) (t_Rinv t) ->
  half_form n (transformed_Cinv n t Ci) (times n (transpose (t_Rinv t)) Q) b = energy n Ci (fun i => Q i + times n (transpose (t_R t)) b i)%R.
Proof. exact charging_invariant. Qed.
Print Assumptions C92_charging_exact.
Theorem C92_flux_exact : forall n t Li P b, inverses n (t_R t) (t_Rinv t) ->
  half_form n (transformed_Linv n t Li) (times n (t_R t) P) b = energy n Li (fun i => P i + times n (t_Rinv t) b i)%R.
Proof. exact flux_invariant. Qed.
Print Assumptions C92_flux_exact.
Theorem C92_charging_partial : forall n t Ci Q b, inverses n (t_R t) (t_Rinv t) -> (forall i, i < n -> times n (transpose (t_R t)) b i = b i) ->
  half_form n (transformed_Cinv n t Ci) (times n (transpose (t_Rinv t)) Q) b = half_form n Ci Q b.
Proof. exact charging_fixed. Qed.
Print Assumptions C92_charging_partial.
Theorem C92_flux_partial : forall n t Li P b, inverses n (t_R t) (t_Rinv t) -> (forall i, i < n -> times n (t_Rinv t) b i = b i) ->
  half_form n (transformed_Linv n t Li) (times n (t_R t) P) b = half_form n Li P b.
Proof. exact flux_fixed. Qed.
Print Assumptions C92_flux_partial.
Theorem C92_charging_refuted : exists n t Ci Q b, inverses n (t_R t) (t_Rinv t) /\ half_form n (transformed_Cinv n t Ci) (times n (transpose (t_Rinv t)) Q) b <> half_form n Ci Q b.
Proof. exact charging_counter. Qed.
Print Assumptions C92_charging_refuted.
Theorem C92_flux_refuted : exists n t Li P b, inverses n (t_R t) (t_Rinv t) /\ half_form n (transformed_Linv n t Li) (times n (t_R t) P) b <> half_form n Li P b.
Proof. exact flux_counter. Qed.
Print Assumptions C92_flux_refuted.
(** The junctions, if each new coordinate enters all of them with the same
    weight or not at all: kap k is the phase of the displacement operator of
    coordinate k per unit of the coordinate. *)
Theorem C92_junctions_partial : forall y argord l Rm Ri X kap val ph, system y -> (forall l, Permutation (argord l) l) -> inverses (List.length (ss_nodes y)) Rm Ri -> node_phases (ss_nodes y) Ri X ->
  uniform "I" (ss_cg y) (ss_edges y) (List.length (ss_nodes y)) X kap -> getQuantumJosephsonEnergies argord y Ri = Ok l ->
  exists K, (no_lone_selfloop (noncap (c_graph (ss_cg y))) -> K = 0%R) /\
  forall th, qval val ph (fun k => expi (kap k * th k)) (fun k => expi (- (kap k * th k))) l = RtoC (junction_energy val ph (ss_red y) (c_graph (ss_cg y)) (phases_at (List.length (ss_nodes y)) X th) + K)%R.
Proof. exact junctions_transformed. Qed.
Print Assumptions C92_junctions_partial.
(** Otherwise no weights give the energy of the junctions: the coefficients of
    a transformed coordinate are dropped except for their sign. *)
Theorem C92_junctions_refuted : exists y Rm Ri X l, system y /\ inverses (List.length (ss_nodes y)) Rm Ri /\ node_phases (ss_nodes y) Ri X /\ no_lone_selfloop (noncap (c_graph (ss_cg y))) /\
  getQuantumJosephsonEnergies (fun l => l) y Ri = Ok l /\ forall kap, exists val th,
  qval val (fun _ => 0%R) (fun k => expi (kap k * th k)) (fun k => expi (- (kap k * th k))) l <> RtoC (junction_energy val (fun _ => 0%R) (ss_red y) (c_graph (ss_cg y)) (phases_at (List.length (ss_nodes y)) X th)).
Proof. exact transform_counter. Qed.
Print Assumptions C92_junctions_refuted.
Example C92_witness : exists y X l, system y /\ inverses (List.length (ss_nodes y)) (S2 1) (S2 (1 / 2)) /\ node_phases (ss_nodes y) (S2 (1 / 2)) X /\ uniform "I" (ss_cg y) (ss_edges y) (List.length (ss_nodes y)) X (fun _ => (1 / 2)%R) /\
  getQuantumJosephsonEnergies (fun l => l) y (S2 (1 / 2)) = Ok l /\ List.length (branches_of "I" (c_graph (ss_cg y))) = 2.
Proof. exact uniform_witness. Qed.
Example C92_fixed_witness : inverses 2 R2 Ri2 /\ (exists b, (forall i, i < 2 -> times 2 (transpose R2) b i = b i) /\ b 0 = 1%R) /\ (exists b, (forall i, i < 2 -> times 2 Ri2 b i = b i) /\ b 1 = 1%R).
Proof. exact fixed_witness. Qed.

(** C93. Linv V = V D: with R = V the transformed matrix is diagonal if V is
    symmetric and V V a multiple of 1. *)
Theorem C93_modes_partial : forall n V W D Li c, inverses n V W -> (forall i j, i < n -> j < n -> V i j = V j i) ->
  (forall i j, i < n -> j < n -> sumn (A := R_rng) n (fun k => V i k * V k j)%R = if Nat.eqb i j then c else 0%R) ->
  (forall i j, i < n -> j < n -> sumn (A := R_rng) n (fun k => Li i k * V k j)%R = (V i j * D j)%R) -> (exists i, i < n) ->
  c <> 0%R /\ forall i j, i < n -> j < n -> transformed_Linv n (mkt V W true) Li i j = if Nat.eqb i j then (D i / c)%R else 0%R.
Proof. exact mode_diagonal. Qed.
Print Assumptions C93_modes_partial.
Example C93_witness : inverses 2 (S2 1) (S2 (1 / 2)) /\ (forall i j, i < 2 -> j < 2 -> S2 1 i j = S2 1 j i) /\ (forall i j, i < 2 -> j < 2 -> sumn (A := R_rng) 2 (fun k => S2 1 i k * S2 1 k j)%R = if Nat.eqb i j then 2%R else 0%R) /\
  let Li := fun i j : nat => if Nat.eqb i j then 1%R else (-1)%R in let D := fun j : nat => match j with 0 => 0%R | _ => 2%R end in
  forall i j, i < 2 -> j < 2 -> sumn (A := R_rng) 2 (fun k => Li i k * S2 1 k j)%R = (S2 1 i j * D j)%R.
Proof.
  split; [exact S2_inverses|]. split; [|split]; cbv zeta; intros i j Hi Hj; destruct i as [|[|i]]; try lia; destruct j as [|[|j]]; try lia; unfold S2; cbn; try reflexivity; ring.
Qed.
(** In general it is not: an inductor between two nodes and a third node. *)
Theorem C93_modes_refuted : exists s M val V W D, circuit s /\ inductance_matrix s (wcs s) = Ok M /\ (forall c, 0 < val c)%R /\ let n := List.length (sys_nodes s) in
  inverses n V W /\ (forall i j, i < n -> j < n -> sumn (A := R_rng) n (fun k => node_linv s M val i k * V k j)%R = (V i j * D j)%R) /\ ~ diagonal_upto n (transformed_Linv n (mkt V W true) (node_linv s M val)).
Proof. exact mode_counter. Qed.
Print Assumptions C93_modes_refuted.

(** C94. The displacements of a transform given in floats: defined, and each
    the size of some coefficient of the row. *)
Theorem C94_cooper_partial : forall ord, (forall l, Permutation (ord l) l) -> forall n t, t_exact t = false -> inverses n (t_R t) (t_Rinv t) ->
  exists l, cooper_disp ord n t = Ok l /\ List.length l = n /\ forall i, i < n -> exists k, k < n /\ t_R t i k <> 0%R /\ nth i l 0%R = Rabs (t_R t i k).
Proof. exact SymHamD.cooper_ok. Qed.
Print Assumptions C94_cooper_partial.
Theorem C94_fluxon_partial : forall ord, (forall l, Permutation (ord l) l) -> forall n t, t_exact t = false -> inverses n (t_R t) (t_Rinv t) ->
  exists l, fluxon_disp ord n t = Ok l /\ List.length l = n /\ forall i, i < n -> exists k, k < n /\ t_Rinv t k i <> 0%R /\ nth i l 0%R = Rabs (t_Rinv t k i).
Proof. exact SymHamD.fluxon_ok. Qed.
Print Assumptions C94_fluxon_partial.
Theorem C94_identity : forall ord n, (forall l, Permutation (ord l) l) -> exists l l', cooper_disp ord n (mkt id_mat id_mat false) = Ok l /\ fluxon_disp ord n (mkt id_mat id_mat false) = Ok l' /\ l = repeat 1%R n /\ l' = repeat 1%R n.
Proof. exact displacement_identity. Qed.
Print Assumptions C94_identity.
(** For a scaling of the coordinates the displacement of coordinate k per
    Cooper pair is the k-th entry of R^-1; cooper_disp is right only if all
    scales are 1 or -1. *)
Theorem C94_scaling_exact : forall ord, (forall l, Permutation (ord l) l) -> forall n t l, t_exact t = false -> inverses n (t_R t) (t_Rinv t) -> diagonal_upto n (t_R t) -> cooper_disp ord n t = Ok l ->
  ((forall k, k < n -> Rabs (t_Rinv t k k) = nth k l 0%R) <-> forall k, k < n -> Rabs (t_R t k k) = 1%R).
Proof. exact SymHamD.scaling. Qed.
Print Assumptions C94_scaling_exact.
Theorem C94_scaling_refuted : exists t l, t_exact t = false /\ inverses 1 (t_R t) (t_Rinv t) /\ (forall ord, (forall l, Permutation (ord l) l) -> cooper_disp ord 1 t = Ok l) /\ Rabs (t_Rinv t 0 0) <> nth 0 l 0%R.
Proof. exact displacement_counter. Qed.
Print Assumptions C94_scaling_refuted.
Example C94_witness : inverses 1 (R1 2) (R1 (/ 2)) /\ diagonal_upto 1 (R1 2) /\ inverses 2 (S2 1) (S2 (1 / 2)).
Proof. split; [apply R1_inverses; lra|]. split; [intros i j Hi Hj; lia|exact S2_inverses]. Qed.
(** An integer matrix makes setTransform raise. *)
Theorem C94_integer_refuted : exists n t, inverses n (t_R t) (t_Rinv t) /\ forall ord, (forall l, Permutation (ord l) l) -> cooper_disp ord n t = Err TypeError.
Proof. exact integer_counter. Qed.
Print Assumptions C94_integer_refuted.

(** C95. A coordinate that becomes a charge mode stores no energy in the
    inductors. *)
Theorem C95_charge_partial : forall s M t i phi, circuit s -> c_coupled s = [] -> inductance_matrix s (wcs s) = Ok M -> List.length (sys_nodes s) <= 111 -> phi 0 = 0%R -> (forall k, k < List.length (sys_nodes s) -> phi (nth k (sys_nodes s) 0) = t_Rinv t k i) ->
  transformed_mode (List.length (sys_nodes s)) t (linv_entries (sys_nodes s) (wcs s) M) i = Charge -> forall b, In b (branches_of "L" (c_graph s)) -> phi (src (fst b)) = phi (dst (fst b)).
Proof. exact charge_mode. Qed.
Print Assumptions C95_charge_partial.
(** The converse, if each entry of the matrix has at most one inductor. *)
Theorem C95_oscillator_partial : forall s M t i phi, circuit s -> c_coupled s = [] -> inductance_matrix s (wcs s) = Ok M -> (forall k l, k < List.length (sys_nodes s) -> l < List.length (sys_nodes s) -> List.length (linv_diag (sys_nodes s) (wcs s) M k l) <= 1) ->
  phi 0 = 0%R -> (forall k, k < List.length (sys_nodes s) -> phi (nth k (sys_nodes s) 0) = t_Rinv t k i) ->
  (forall b, In b (branches_of "L" (c_graph s)) -> phi (src (fst b)) = phi (dst (fst b))) -> transformed_mode (List.length (sys_nodes s)) t (linv_entries (sys_nodes s) (wcs s) M) i = Charge.
Proof. exact no_energy_mode. Qed.
Print Assumptions C95_oscillator_partial.
Example C95_witness : exists s M t, circuit s /\ c_coupled s = [] /\ inductance_matrix s (wcs s) = Ok M /\ List.length (sys_nodes s) <= 111 /\ inverses (List.length (sys_nodes s)) (t_R t) (t_Rinv t) /\
  (forall k l, k < List.length (sys_nodes s) -> l < List.length (sys_nodes s) -> List.length (linv_diag (sys_nodes s) (wcs s) M k l) <= 1) /\
  transformed_mode (List.length (sys_nodes s)) t (linv_entries (sys_nodes s) (wcs s) M) 0 = Charge /\ transformed_mode (List.length (sys_nodes s)) t (linv_entries (sys_nodes s) (wcs s) M) 2 = Oscillator.
Proof. exact L51_modes_after. Qed.
(** Two parallel inductors: the sum of two nodes stores no energy, but becomes
    an oscillator. *)
Theorem C95_parallel_refuted : exists s M t phi, circuit s /\ c_coupled s = [] /\ inductance_matrix s (wcs s) = Ok M /\ inverses (List.length (sys_nodes s)) (t_R t) (t_Rinv t) /\ phi 0 = 0%R /\ (forall k, k < List.length (sys_nodes s) -> phi (nth k (sys_nodes s) 0) = t_Rinv t k 0) /\
  (forall b, In b (branches_of "L" (c_graph s)) -> phi (src (fst b)) = phi (dst (fst b))) /\ transformed_mode (List.length (sys_nodes s)) t (linv_entries (sys_nodes s) (wcs s) M) 0 = Oscillator.
Proof. exact parallel_counter. Qed.
Print Assumptions C95_parallel_refuted.

(** C104. getSingleParticleChargingEnergies: for each node the electrostatic
    energy of the potentials V that put one Cooper pair on this node and no
    charge on the others. [Cm]: the capacitance matrix, [Ci]: its inverse. *)
Theorem C104_single_particle : forall y e Cm Ci, system y -> inverses (List.length (ss_nodes y)) Cm Ci ->
  let d := getSingleParticleChargingEnergies y e Ci in dkeys d = ss_nodes y /\
  forall i n V, nth_error (ss_nodes y) i = Some n ->
    (forall k, k < List.length (ss_nodes y) -> times (List.length (ss_nodes y)) Cm V k = if Nat.eqb k i then (2 * e)%R else 0%R) ->
    dget d n = Some (energy (List.length (ss_nodes y)) Cm V).
Proof. exact single_particle_system. Qed.
Print Assumptions C104_single_particle.
Example C104_witness : exists y, system y /\ inverses (List.length (ss_nodes y)) C2 K2 /\ nth_error (ss_nodes y) 1 = Some 2 /\
  exists V, forall k, k < List.length (ss_nodes y) -> times (List.length (ss_nodes y)) C2 V k = if Nat.eqb k 1 then (2 * 1)%R else 0%R.
Proof. exact single_particle_ex. Qed.
