(** C118: moveFluxBias as a change of node coordinates. *)
From Coq Require Import List Bool String Ascii Arith ZArith Reals.
From Coquelicot Require Import Complex.
From Verif Require Import Prelude Mat Graph GraphSpec GraphProofs Sweep Symbolic SymbolicSpec SymbolicFlux NumOp SymHam SymHamSpec SymHamT SymTotal SymTotalSpec SymTotalMain MoveSpec MoveProofs MoveEx.
Import ListNotations.
Open Scope string_scope.
Open Scope list_scope.
Open Scope nat_scope.

(** C118. Moving the bias of a junction to a junction without bias that is in
    the same loops, in the same direction: the Hamiltonian afterwards is the
    one before, at node fluxes and phases shifted by a multiple of the bias that
    does not depend on the values. *)
Theorem C118_shift_partial : forall y a b x, system y -> kind_at y "I" a -> kind_at y "I" b -> a <> b -> dget (ss_flux y) a = Some x -> x <> [] -> dget (ss_flux y) b = Some [] ->
  same_loops y a b ->
  exists y' f, moveFluxBias y a b = (y', Ok tt) /\ f 0 = 0%R /\ forall w Cinv P Q F phi, ideal y (v_par w) -> inverted y (v_par w) Cinv P -> F 0 = 0%R -> phi 0 = 0%R ->
  getClassicalHamiltonian y' w Cinv P Q F phi = getClassicalHamiltonian y w Cinv P Q (fun k => F k + SymHam.total (v_flux w) x * f k)%R (fun k => phi k + SymHam.total (v_redflux w) x * f k)%R.
Proof.
  intros y a b x Hy Ka Kb N Hx Hn Hz HS. destruct (full_gauge y a b x Hy Ka Kb N Hx Hn Hz HS) as (f & F0 & Hf).
  exact (ex_intro _ _ (ex_intro _ f (conj (proj1 (move_done y a b x Hy Ka Kb Hx Hn Hz)) (conj F0 Hf)))).
Qed.
Print Assumptions C118_shift_partial.
(** The same with inductors, when the phases are the fluxes in units of 1 / kap
    and the biases of inductors before and after the call are of the kind of
    C49. *)
Theorem C118_inductors_partial : forall y a b x, system y -> kind_at y "I" a \/ kind_at y "L" a -> kind_at y "I" b \/ kind_at y "L" b -> a <> b -> dget (ss_flux y) a = Some x -> x <> [] -> dget (ss_flux y) b = Some [] ->
  same_loops y a b ->
  let y' := fst (moveFluxBias y a b) in snd (moveFluxBias y a b) = Ok tt /\
  exists f, f 0 = 0%R /\ forall w kap Cinv P Q F,
  (forall z, v_redflux w z = kap * v_flux w z)%R -> ideal y (v_par w) -> inverted y (v_par w) Cinv P -> biases_alone y (branch_bias y (v_flux w)) -> biases_alone y' (branch_bias y' (v_flux w)) -> F 0 = 0%R ->
  getClassicalHamiltonian y' w Cinv P Q F (fun k => kap * F k)%R =
  getClassicalHamiltonian y w Cinv P Q (fun k => F k + SymHam.total (v_flux w) x * f k)%R (fun k => kap * (F k + SymHam.total (v_flux w) x * f k))%R.
Proof.
  intros y a b x Hy Ka Kb N Hx Hn Hz HS.
  exact (conj (f_equal snd (proj1 (any_done y a b x Hy Ka Kb Hx Hn Hz))) (any_gauge y a b x Hy Ka Kb N Hx Hn Hz HS)).
Qed.
Print Assumptions C118_inductors_partial.
(** A shift of the phases that undoes the move exists, for all values of the
    biases, just for such branches. *)
Theorem C118_loops_exact : forall y a b x, system y -> kind_at y "I" a -> kind_at y "I" b -> a <> b -> dget (ss_flux y) a = Some x -> x <> [] -> dget (ss_flux y) b = Some [] ->
  (same_loops y a b <-> forall ph, exists dl, gauge y (fst (moveFluxBias y a b)) ph dl).
Proof. exact gauge_exact. Qed.
Print Assumptions C118_loops_exact.
(** The code does not check the direction: two junctions of the only loop, in
    opposite directions, *)
Theorem C118_direction_refuted : exists y a b y' w p val ph, system y /\ kind_at y "I" a /\ kind_at y "I" b /\ dget (ss_flux y) a = Some ["a"] /\ dget (ss_flux y) b = Some [] /\
  (forall z, In z w -> kind_at y "I" (snd z)) /\ walk w p p /\ net a w = 1%Z /\ net b w = (-1)%Z /\ NoDup (map snd w) /\ List.length (ss_edges y) = List.length w /\
  moveFluxBias y a b = (y', Ok tt) /\ forall dl, dl 0 = 0%R -> exists phi, phi 0 = 0%R /\ getClassicalJosephsonEnergies y' val ph phi <> getClassicalJosephsonEnergies y val ph (fun k => phi k + dl k)%R.
Proof. exact direction_counter. Qed.
Print Assumptions C118_direction_refuted.
(** nor that no other loop has b: two junctions of one loop in the same
    direction, in parallel with a third. *)
Theorem C118_shared_refuted : exists y a b y' w p val ph, system y /\ kind_at y "I" a /\ kind_at y "I" b /\ dget (ss_flux y) a = Some ["a"] /\ dget (ss_flux y) b = Some [] /\
  (forall z, In z w -> kind_at y "I" (snd z)) /\ walk w p p /\ net a w = 1%Z /\ net b w = 1%Z /\ NoDup (map snd w) /\
  moveFluxBias y a b = (y', Ok tt) /\ forall dl, dl 0 = 0%R -> exists phi, phi 0 = 0%R /\ getClassicalJosephsonEnergies y' val ph phi <> getClassicalJosephsonEnergies y val ph (fun k => phi k + dl k)%R.
Proof. exact shared_counter. Qed.
Print Assumptions C118_shared_refuted.
(** An inductor and two junctions in a loop *)
Example C118_witness : exists y P, system y /\ g_edges (c_graph (ss_cg y)) = [((0, 1, 0), "C1"); ((0, 2, 0), "C2"); ((0, 1, 1), "L1"); ((1, 2, 0), "I2"); ((0, 2, 1), "I3")] /\
  dget (ss_flux y) (0, 2, 1) = Some ["a"] /\ dget (ss_flux y) (2, 1, 0) = Some [] /\ kind_at y "I" (0, 2, 1) /\ kind_at y "I" (2, 1, 0) /\ kind_at y "L" (0, 1, 1) /\
  same_loops y (0, 2, 1) (2, 1, 0) /\ ideal y (v_par (wv 2)) /\ inverted y (v_par (wv 2)) id_mat P.
Proof. destruct (Ltl_system 2) as (y & P & Hy & _ & H). exact (ex_intro _ y (ex_intro _ P (conj Hy H))). Qed.
(** The bias of an inductor moved to the junction in parallel *)
Example C118_inductors_witness : let w := mkvals (fun _ => 1%R) (fun _ => 0%R) (fun _ => 2%R) (fun _ => 6%R) (fun _ => 0%R) in (forall z, v_redflux w z = 3 * v_flux w z)%R /\ exists y P, system y /\ g_edges (c_graph (ss_cg y)) = [((0, 1, 0), "L1"); ((0, 1, 1), "I1"); ((0, 1, 2), "C1")] /\ kind_at y "L" (0, 1, 0) /\ kind_at y "I" (1, 0, 1) /\
  dget (ss_flux y) (0, 1, 0) = Some ["a"] /\ dget (ss_flux y) (1, 0, 1) = Some [] /\ same_loops y (0, 1, 0) (1, 0, 1) /\ ideal y (v_par w) /\ inverted y (v_par w) id_mat P /\
  biases_alone y (branch_bias y (v_flux w)) /\ let y' := fst (moveFluxBias y (0, 1, 0) (1, 0, 1)) in biases_alone y' (branch_bias y' (v_flux w)).
Proof. split; [intros z; cbn; ring|]. exact (Lrf_moved 2). Qed.
