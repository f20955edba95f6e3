(** Main lemmas, witnesses and counterexamples for C116 and C117. *)
From Coq Require Import List Bool String Ascii Arith ZArith Reals Permutation Lra Lia.
From Coquelicot Require Import Complex Derive Hierarchy ElemFct AutoDerive.
From Verif Require Import Prelude PreludeFacts Mat MatFacts Graph GraphSpec GraphView GraphForest GraphWf GraphCircuit GraphState GraphMaps GraphOps GraphProofs CollLast Sweep Symbolic SymbolicSpec RSum SymbolicInv SymbolicCap SymbolicFlux SymbolicNew SymbolicProofs MutualProofs NumOp SymHam SymHamSpec SymHamProofs SymHamQ SymHamT SymHamEx SymTotal SymTotalSpec SymTotalProofs.
Import ListNotations.
Open Scope string_scope.
Open Scope list_scope.
Open Scope nat_scope.

Lemma classical_exact y w Cinv P : system y -> ideal y (v_par w) -> inverted y (v_par w) Cinv P ->
  exists K, (no_lone_selfloop (noncap (c_graph (ss_cg y))) -> K = 0%R) /\
  forall Q F phi v, voltages (v_par w) y (fun k => Q k + charge_offset (ss_charge y) (v_charge w) k)%R v -> F 0 = 0%R -> phi 0 = 0%R ->
  getClassicalHamiltonian y w Cinv P Q F phi =
  Ok (1 / 2 * electrostatic (v_par w) (ss_cg y) v v + 1 / 2 * inductive_form (v_par w) (c_graph (ss_cg y)) (fun k => F k + shift (ss_cg y) (ss_edges y) (branch_bias y (v_flux w)) k) +
      junction_energy (v_par w) (v_redflux w) (ss_red y) (c_graph (ss_cg y)) phi + K)%R.
Proof.
  intros Hy HI HV. destruct (josephson_classical y (v_par w) (v_redflux w) Hy) as (K & K0 & HK). exists K. split; auto. intros Q F phi v Hv F0 P0.
  unfold getClassicalHamiltonian. rewrite (HK phi P0). cbn [bind]. rewrite (proj1 (charging_energy y Hy w Cinv P Q v HI HV Hv)), (proj1 (flux_energy_at y Hy w Cinv P F HI HV F0)). f_equal. ring.
Qed.
Lemma classical_alone y w Cinv P : system y -> ideal y (v_par w) -> inverted y (v_par w) Cinv P -> biases_alone y (branch_bias y (v_flux w)) ->
  exists K, (no_lone_selfloop (noncap (c_graph (ss_cg y))) -> K = 0%R) /\
  forall Q F phi v, voltages (v_par w) y (fun k => Q k + charge_offset (ss_charge y) (v_charge w) k)%R v -> F 0 = 0%R -> phi 0 = 0%R ->
  getClassicalHamiltonian y w Cinv P Q F phi =
  Ok (1 / 2 * electrostatic (v_par w) (ss_cg y) v v + 1 / 2 * biased_form (v_par w) (ss_cg y) (ss_edges y) (branch_bias y (v_flux w)) F +
      junction_energy (v_par w) (v_redflux w) (ss_red y) (c_graph (ss_cg y)) phi + K)%R.
Proof.
  intros Hy HI HV HB. destruct (classical_exact y w Cinv P Hy HI HV) as (K & K0 & HK). exists K. split; auto. intros Q F phi v Hv F0 P0. rewrite (HK Q F phi v Hv F0 P0).
  destruct (flux_energy_at y Hy w Cinv P F HI HV F0) as [A B]. rewrite <- A, (B HB). reflexivity.
Qed.
Lemma quantum_total y w argord Cinv P Q F h : system y -> (forall l, Permutation (argord l) l) -> getQuantumHamiltonian argord y w id_mat Cinv P Q F = Ok h ->
  exists K, (no_lone_selfloop (noncap (c_graph (ss_cg y))) -> K = 0%R) /\
  forall phi th, phi 0 = 0%R -> th 0 = 0%R -> exists r, getClassicalHamiltonian y w Cinv P Q F phi = Ok r /\
  quantum_value w (fun k => expi (phi (nth k (ss_nodes y) 0))) (fun k => expi (- phi (nth k (ss_nodes y) 0))) (fun k => expi (th (nth k (ss_nodes y) 0))) (fun k => expi (- th (nth k (ss_nodes y) 0))) h =
  RtoC (r + slip_energy (v_par w) (v_redcharge w) (ss_charge y) (c_graph (ss_cg y)) th + K)%R.
Proof.
  intros Hy Hp Hh. unfold getQuantumHamiltonian in Hh. destruct (getQuantumJosephsonEnergies argord y id_mat) as [j|] eqn:Ej; [|discriminate]. cbn [bind] in Hh.
  destruct (getQuantumPhaseSlipEnergies argord y id_mat) as [p|] eqn:Ep; [|discriminate]. cbn [bind] in Hh. injection Hh as <-.
  destruct (josephson_classical y (v_par w) (v_redflux w) Hy) as (K1 & Z1 & H1). destruct (josephson_quantum y argord j (v_par w) (v_redflux w) Hy Hp Ej) as (K2 & Z2 & H2).
  destruct (slips_quantum y argord p (v_par w) (v_redcharge w) Hy Hp Ep) as (K3 & Z3 & H3).
  exists (K2 - K1 + K3)%R. split; [intros N; rewrite (Z1 N), (Z2 N), (Z3 N); ring|]. intros phi th P0 T0. eexists. split; [unfold getClassicalHamiltonian; rewrite (H1 phi P0); cbn [bind]; reflexivity|].
  unfold quantum_value. rewrite (H2 phi P0), (H3 th T0), <- !RtoC_plus. f_equal. ring.
Qed.
Lemma total_defined y w argord Cinv P Q F : system y -> (forall l, Permutation (argord l) l) ->
  (forall phi, exists r, getClassicalHamiltonian y w Cinv P Q F phi = Ok r) /\
  (~ self_branch "I" (ss_cg y) (ss_edges y) /\ ~ self_branch "V" (ss_cg y) (ss_edges y) <-> exists h, getQuantumHamiltonian argord y w id_mat Cinv P Q F = Ok h) /\
  (self_branch "I" (ss_cg y) (ss_edges y) \/ self_branch "V" (ss_cg y) (ss_edges y) -> getQuantumHamiltonian argord y w id_mat Cinv P Q F = Err IndexError).
Proof.
  intros Hy Hp. destruct (junctions_defined y argord id_mat id_mat Hy Hp (id_inverses _)) as (A & A' & B & B'). split; [|split; [split|]].
  - intros phi. unfold getClassicalHamiltonian. assert (E : exists r, getClassicalJosephsonEnergies y (v_par w) (v_redflux w) phi = Ok r).
    { unfold getClassicalJosephsonEnergies, getJosephsonVector. rewrite (vector_ok y Hy). cbn [bind]. rewrite (bias_ok y Hy). cbn [bind]. eauto. }
    destruct E as (r & ->). cbn [bind]. eauto.
  - intros [S1 S2]. destruct (A S1) as (j & Ej), (B S2) as (p & Ep). unfold getQuantumHamiltonian. rewrite Ej, Ep. cbn [bind]. eauto.
  - intros (h & Hh). unfold getQuantumHamiltonian in Hh. split; intros S.
    + rewrite (A' S) in Hh. discriminate.
    + rewrite (B' S) in Hh. destruct (getQuantumJosephsonEnergies argord y id_mat); discriminate.
  - intros H. unfold getQuantumHamiltonian. destruct (Classical_Prop.classic (self_branch "I" (ss_cg y) (ss_edges y))) as [S1|S1]; [rewrite (A' S1); reflexivity|].
    destruct H as [S|S]; [contradiction|]. destruct (A S1) as (j & ->). cbn [bind]. rewrite (B' S). reflexivity.
Qed.

(** ** Hamilton's equations *)
Lemma voltage_derivative y w Cinv P Q F phi v n : system y -> ideal y (v_par w) -> inverted y (v_par w) Cinv P -> voltages (v_par w) y (fun k => Q k + charge_offset (ss_charge y) (v_charge w) k)%R v -> In n (ss_nodes y) ->
  exists h, (forall t, getClassicalHamiltonian y w Cinv P (upd Q n t) F phi = Ok (h t)) /\ is_derive h (Q n) (v n).
Proof.
  intros Hy HI HV Hv Hn. apply (In_nth _ _ 0) in Hn as (i & Hi & <-). destruct (charging_energy y Hy w Cinv P Q v HI HV Hv) as [_ E].
  destruct (total_defined y w (fun l => l) Cinv P Q F Hy (fun l => Permutation_refl l)) as [D _]. specialize (D phi) as (r & D). revert D. unfold getClassicalHamiltonian.
  destruct (getClassicalJosephsonEnergies y (v_par w) (v_redflux w) phi) as [j|]; [|discriminate]. cbn [bind]. intros _.
  exists (fun t => sym_getChargingEnergies y w Cinv (upd Q (nth i (ss_nodes y) 0%nat) t) + sym_getFluxEnergies y w P F + j)%R. split; [reflexivity|].
  assert (E' := fun t => E i t Hi). clear E. set (m := nth i (ss_nodes y) 0) in *. set (a := sym_getChargingEnergies y w Cinv Q) in *. set (b := sym_getFluxEnergies y w P F).
  apply (is_derive_ext (fun t => (a + (t - Q m) * v m + 1 / 2 * ((t - Q m) * (t - Q m) * Cinv i i)) + b + j)%R).
  - intros t. rewrite (E' t). reflexivity.
  - auto_derive; auto. ring.
Qed.
Lemma junction_derivative val ph d g kap F n : is_derive (fun t => junction_energy val ph d g (fun k => kap * upd F n t k)%R) (F n) (kap * junction_current val ph d g (fun k => kap * F k)%R n)%R.
Proof.
  unfold junction_energy, junction_current. rewrite <- Rsum_map_mul. apply derive_sum. intros b _.
  set (e := fst b). set (z := signed_bias d ph e). set (c := val (snd b)). set (dl := (kap * F (src e) - kap * F (dst e))%R).
  apply (is_derive_ext (fun t => - c * cos (dl + kap * (at_node n e * (t - F n)) + z))%R).
  - intros t. f_equal. f_equal. f_equal. transitivity (kap * (upd F n t (src e) - upd F n t (dst e)))%R; [rewrite upd_diff; unfold dl; ring|ring].
  - auto_derive; auto. replace (dl + kap * (at_node n e * (F n + - F n)) + z)%R with (dl + z)%R by ring. ring.
Qed.
Lemma square_derivative (h : R -> R) c A D n0 : c <> 0%R -> (forall t, h t = A + D * (t - n0))%R -> is_derive (fun t => 1 / 2 * (h t * h t / c))%R n0 (D * (A / c))%R.
Proof.
  intros Hc Hh. apply (is_derive_ext (fun t => 1 / 2 * ((A + D * (t - n0)) * (A + D * (t - n0)) / c))%R); [intros t; rewrite !Hh; reflexivity|]. auto_derive; auto. field. auto.
Qed.
Lemma inductive_derivative val s edges bias F n : (forall e c, In e edges -> dget (c_map s) e = Some c -> letter "L" (e, c) = true -> val c <> 0%R) ->
  is_derive (fun t => 1 / 2 * biased_form val s edges bias (upd F n t))%R (F n) (inductor_current val s edges bias F n).
Proof.
  intros HZ. unfold biased_form, inductor_current.
  apply (is_derive_ext (fun t => Rsum (map (fun e => 1 / 2 * match dget (c_map s) e with
                      | Some c => if letter "L" (e, c) then (upd F n t (src e) - upd F n t (dst e) + bias e) * (upd F n t (src e) - upd F n t (dst e) + bias e) / val c else 0
                      | None => 0 end)%R edges))); [intros t; apply Rsum_map_mul|].
  apply derive_sum. intros e He. destruct (dget (c_map s) e) as [c|] eqn:Ec.
  - destruct (letter "L" (e, c)) eqn:El.
    + eapply (square_derivative (fun t => upd F n t (src e) - upd F n t (dst e) + bias e)%R); [eapply HZ; eauto|]. intros t. rewrite upd_diff. ring.
    + apply (is_derive_ext (fun _ => 0)%R); [intros; rring|]. apply (is_derive_const (K := R_AbsRing) (V := R_NormedModule)).
  - apply (is_derive_ext (fun _ => 0)%R); [intros; rring|]. apply (is_derive_const (K := R_AbsRing) (V := R_NormedModule)).
Qed.
Lemma shifted_derivative val g sh F n : (forall b, In b (branches_of "L" g) -> val (snd b) <> 0%R) ->
  is_derive (fun t => 1 / 2 * inductive_form val g (fun k => upd F n t k + sh k))%R (F n)
    (Rsum (map (fun b => at_node n (fst b) * (((F (src (fst b)) + sh (src (fst b))) - (F (dst (fst b)) + sh (dst (fst b)))) / val (snd b)))%R (branches_of "L" g))).
Proof.
  intros HZ. unfold inductive_form.
  apply (is_derive_ext (fun t => Rsum (map (fun b => 1 / 2 * (((upd F n t (src (fst b)) + sh (src (fst b))) - (upd F n t (dst (fst b)) + sh (dst (fst b)))) * ((upd F n t (src (fst b)) + sh (src (fst b))) - (upd F n t (dst (fst b)) + sh (dst (fst b)))) / val (snd b)))%R (branches_of "L" g)))).
  - intros t. rewrite <- Rsum_map_mul. apply Rsum_ext. intros [[[p q] k] c] _. reflexivity.
  - apply derive_sum. intros b Hb. eapply (square_derivative (fun t => (upd F n t (src (fst b)) + sh (src (fst b))) - (upd F n t (dst (fst b)) + sh (dst (fst b))))%R); [apply HZ; auto|].
    intros t. assert (E := upd_diff F n t (fst b)). transitivity ((upd F n t (src (fst b)) - upd F n t (dst (fst b))) + (sh (src (fst b)) - sh (dst (fst b))))%R; [ring|rewrite E; ring].
Qed.
Lemma flux_slope y w Cinv P Q F kap n (dF : R -> R) DF : system y -> ideal y (v_par w) -> inverted y (v_par w) Cinv P -> F 0 = 0%R -> n <> 0 ->
  (forall t, sym_getFluxEnergies y w P (upd F n t) = dF t) -> is_derive dF (F n) DF ->
  exists h, (forall t, getClassicalHamiltonian y w Cinv P Q (upd F n t) (fun k => kap * upd F n t k)%R = Ok (h t)) /\
  is_derive h (F n) (DF + kap * junction_current (v_par w) (v_redflux w) (ss_red y) (c_graph (ss_cg y)) (fun k => kap * F k) n)%R.
Proof.
  intros Hy HI HV F0 Hn Hd HD. destruct (josephson_classical y (v_par w) (v_redflux w) Hy) as (K & _ & HK).
  exists (fun t => (sym_getChargingEnergies y w Cinv Q + dF t) + (junction_energy (v_par w) (v_redflux w) (ss_red y) (c_graph (ss_cg y)) (fun k => kap * upd F n t k) + K))%R. split.
  - intros t. unfold getClassicalHamiltonian. rewrite HK; [cbn [bind]; rewrite Hd; reflexivity|]. rewrite upd_neq by auto. rewrite F0. ring.
  - apply (is_derive_plus (K := R_AbsRing) (V := R_NormedModule)).
    + eapply derive_eq; [apply (is_derive_plus (K := R_AbsRing) (V := R_NormedModule)); [apply (is_derive_const (K := R_AbsRing) (V := R_NormedModule))|exact HD]|]. apply Rplus_0_l.
    + eapply derive_eq; [apply (is_derive_plus (K := R_AbsRing) (V := R_NormedModule)); [apply junction_derivative|apply (is_derive_const (K := R_AbsRing) (V := R_NormedModule))]|]. apply Rplus_0_r.
Qed.
Lemma currents_exact y w Cinv P Q F kap n : system y -> ideal y (v_par w) -> inverted y (v_par w) Cinv P -> F 0 = 0%R -> n <> 0 ->
  exists h, (forall t, getClassicalHamiltonian y w Cinv P Q (upd F n t) (fun k => kap * upd F n t k)%R = Ok (h t)) /\
  is_derive h (F n) (Rsum (map (fun b => at_node n (fst b) * (((F (src (fst b)) + shift (ss_cg y) (ss_edges y) (branch_bias y (v_flux w)) (src (fst b))) - (F (dst (fst b)) + shift (ss_cg y) (ss_edges y) (branch_bias y (v_flux w)) (dst (fst b)))) / v_par w (snd b)))%R
      (branches_of "L" (c_graph (ss_cg y)))) + kap * junction_current (v_par w) (v_redflux w) (ss_red y) (c_graph (ss_cg y)) (fun k => kap * F k) n)%R.
Proof.
  intros Hy HI HV F0 Hn. eapply flux_slope; eauto; [|apply shifted_derivative; apply HI].
  intros t. apply (flux_energy_at y Hy w Cinv P (upd F n t) HI HV). rewrite upd_neq by auto. exact F0.
Qed.
Lemma currents_alone y w Cinv P Q F kap n : system y -> ideal y (v_par w) -> inverted y (v_par w) Cinv P -> biases_alone y (branch_bias y (v_flux w)) -> F 0 = 0%R -> n <> 0 ->
  exists h, (forall t, getClassicalHamiltonian y w Cinv P Q (upd F n t) (fun k => kap * upd F n t k)%R = Ok (h t)) /\
  is_derive h (F n) (inductor_current (v_par w) (ss_cg y) (ss_edges y) (branch_bias y (v_flux w)) F n + kap * junction_current (v_par w) (v_redflux w) (ss_red y) (c_graph (ss_cg y)) (fun k => kap * F k) n)%R.
Proof.
  intros Hy HI HV HB F0 Hn. eapply flux_slope; eauto; [|].
  - intros t. apply (flux_energy_at y Hy w Cinv P (upd F n t) HI HV); auto. rewrite upd_neq by auto. exact F0.
  - apply inductive_derivative. intros e c He Hc Hl. destruct HI as (_ & _ & HZ).
    apply (map_get (ss_cg y) (circuit_derived _ (m_circ y (system_inv y Hy)))) in Hc. destruct Hc as (b & Hb & Hs & _). subst c. apply HZ. unfold branches_of. apply filter_In. split; auto.
Qed.

(** ** Examples *)
Definition Lall := [B 0 1 "C1"; B 0 2 "C2"; B 0 1 "L1"; B 1 2 "L2"; B 1 2 "I1"; B 0 1 "V1"] ++ [GFlux "L2" (PStr "a") None].
Lemma Lall_circuit : circuit (grun cg_new Lall).
Proof. apply circuit_more; [last_branch [B 0 1 "C1"; B 0 2 "C2"; B 0 1 "L1"; B 1 2 "L2"; B 1 2 "I1"] 0 1 "V1"|other]. Qed.
(** every value 1, the flux biases b *)
Definition wv (b : R) : vals := mkvals (fun _ => 1%R) (fun _ => 0%R) (fun _ => b) (fun _ => 0%R) (fun _ => 0%R).
Lemma inverted_ones y b : system y -> c_coupled (ss_cg y) = [] -> (forall e f, dget (c_fbias (ss_cg y)) e = Some f -> fb_mutual f = None) ->
  (exists M, capacitance_matrix (ss_cg y) = Ok M /\ forall i j, i < List.length (ss_nodes y) -> j < List.length (ss_nodes y) -> lval (fun _ => 1%R) (M i j) = id_mat i j) ->
  exists P, inverted y (v_par (wv b)) id_mat P.
Proof.
  intros Hy HK HB (M & HM & HE). assert (HI := system_inv y Hy). destruct (c_inductance_defined (ss_cg y) (m_circ y HI) (ss_edges y) (m_edges y HI) HK HB) as (L & HL & HP).
  destruct (HP (fun _ => 1%R)) as (P & HPv). exists P. split; [|exists L; auto]. exists M. split; auto. intros i j Hi Hj. destruct (id_inverses (List.length (ss_nodes y)) i j Hi Hj) as [A B].
  split; (etransitivity; [|eassumption]); apply sR_ext; intros k Hk; cbn [v_par wv]; rewrite HE by auto; reflexivity.
Qed.
Lemma Lall_facts : exists y, system y /\ ss_nodes y = [1; 2] /\ ss_edges y = [(0, 1, 1); (1, 2, 0); (1, 0, 2); (2, 1, 1)] /\ ss_flux y = [((0, 1, 1), []); ((1, 2, 0), ["a"]); ((1, 0, 2), []); ((2, 1, 1), [])] /\
  ss_charge y = [(1, None); (2, None)] /\ g_edges (c_graph (ss_cg y)) = [((0, 1, 0), "C1"); ((0, 2, 0), "C2"); ((0, 1, 1), "L1"); ((1, 2, 0), "L2"); ((1, 2, 1), "I1"); ((0, 1, 2), "V1")] /\
  c_coupled (ss_cg y) = [] /\ (forall e f, dget (c_fbias (ss_cg y)) e = Some f -> fb_mutual f = None) /\
  dget (c_map (ss_cg y)) (0, 1, 1) = Some "L1" /\ dget (c_map (ss_cg y)) (1, 2, 0) = Some "L2" /\ dget (c_map (ss_cg y)) (1, 0, 2) = Some "V1" /\ dget (c_map (ss_cg y)) (2, 1, 1) = Some "I1" /\
  (exists M, capacitance_matrix (ss_cg y) = Ok M /\ M 0 0 = [(TmC "C1", 1%Z)] /\ M 0 1 = [] /\ M 1 0 = [] /\ M 1 1 = [(TmC "C2", 1%Z)]).
Proof.
  assert (H : exists y, new_system idord noor (grun cg_new Lall) = Some (Ok y) /\ ss_nodes y = [1; 2] /\ ss_edges y = [(0, 1, 1); (1, 2, 0); (1, 0, 2); (2, 1, 1)] /\ ss_flux y = [((0, 1, 1), []); ((1, 2, 0), ["a"]); ((1, 0, 2), []); ((2, 1, 1), [])] /\
    ss_charge y = [(1, None); (2, None)] /\ g_edges (c_graph (ss_cg y)) = [((0, 1, 0), "C1"); ((0, 2, 0), "C2"); ((0, 1, 1), "L1"); ((1, 2, 0), "L2"); ((1, 2, 1), "I1"); ((0, 1, 2), "V1")] /\
    c_coupled (ss_cg y) = [] /\ c_fbias (ss_cg y) = [((1, 2, 0), mkfb None "a")] /\
    dget (c_map (ss_cg y)) (0, 1, 1) = Some "L1" /\ dget (c_map (ss_cg y)) (1, 2, 0) = Some "L2" /\ dget (c_map (ss_cg y)) (1, 0, 2) = Some "V1" /\ dget (c_map (ss_cg y)) (2, 1, 1) = Some "I1" /\
    (exists M, capacitance_matrix (ss_cg y) = Ok M /\ M 0 0 = [(TmC "C1", 1%Z)] /\ M 0 1 = [] /\ M 1 0 = [] /\ M 1 1 = [(TmC "C2", 1%Z)])).
  { eexists. split; [vm_compute; reflexivity|]. do 11 (split; [reflexivity|]). eexists. split; [vm_compute; reflexivity|]. repeat split; reflexivity. }
  destruct H as (y & Hn & E1 & E2 & E3 & E4 & E5 & E6 & E7 & H). exists y. split; [eapply system_new; [apply Lall_circuit|exact Hn]|]. do 6 (split; [assumption|]).
  split; [|exact H]. rewrite E7. intros e f. cbn [dget]. destruct (eqb e (1, 2, 0)); [|discriminate]. intros E. injection E as <-. reflexivity.
Qed.
Lemma Lall_system b : exists y P, system y /\ ss_nodes y = [1; 2] /\ ss_edges y = [(0, 1, 1); (1, 2, 0); (1, 0, 2); (2, 1, 1)] /\ ss_flux y = [((0, 1, 1), []); ((1, 2, 0), ["a"]); ((1, 0, 2), []); ((2, 1, 1), [])] /\
  ss_charge y = [(1, None); (2, None)] /\ g_edges (c_graph (ss_cg y)) = [((0, 1, 0), "C1"); ((0, 2, 0), "C2"); ((0, 1, 1), "L1"); ((1, 2, 0), "L2"); ((1, 2, 1), "I1"); ((0, 1, 2), "V1")] /\
  ideal y (v_par (wv b)) /\ inverted y (v_par (wv b)) id_mat P /\
  dget (c_map (ss_cg y)) (0, 1, 1) = Some "L1" /\ dget (c_map (ss_cg y)) (1, 2, 0) = Some "L2" /\ dget (c_map (ss_cg y)) (1, 0, 2) = Some "V1" /\ dget (c_map (ss_cg y)) (2, 1, 1) = Some "I1".
Proof.
  destruct Lall_facts as (y & Hy & E1 & E2 & E3 & E4 & E5 & E6 & E7 & D1 & D2 & D3 & D4 & M & HM & M0 & M1 & M2 & M3).
  destruct (inverted_ones y b Hy E6 E7) as (P & HP).
  { exists M. split; auto. rewrite E1. cbn [List.length]. intros i j Hi Hj. destruct i as [|[|i]]; try lia; destruct j as [|[|j]]; try lia; rewrite ?M0, ?M1, ?M2, ?M3; unfold id_mat; cbn; ring. }
  exists y, P. do 6 (split; [assumption|]). split; [|auto 8]. split; [|split; [exact E6|]].
  - intros x Hx. unfold branches_of in Hx. rewrite E5 in Hx. cbn in Hx. destruct Hx as [<-|[<-|[]]]; discriminate.
  - intros x _. cbn. lra.
Qed.
Lemma no_selfs y l : noncap (c_graph (ss_cg y)) = l -> forallb (fun e => negb (Nat.eqb (src e) (dst e))) l = true -> no_lone_selfloop (noncap (c_graph (ss_cg y))).
Proof. intros E H e He Hs. rewrite forallb_forall in H. rewrite E in He. specialize (H e He). rewrite Hs, Nat.eqb_refl in H. discriminate H. Qed.
Lemma slip_counter argord : (forall l, Permutation (argord l) l) -> exists y w Cinv P h r, system y /\ ideal y (v_par w) /\ inverted y (v_par w) Cinv P /\ no_lone_selfloop (noncap (c_graph (ss_cg y))) /\
  getQuantumHamiltonian argord y w id_mat Cinv P (fun _ => 0%R) (fun _ => 0%R) = Ok h /\ getClassicalHamiltonian y w Cinv P (fun _ => 0%R) (fun _ => 0%R) (fun _ => 0%R) = Ok r /\
  quantum_value w (fun _ => expi 0) (fun _ => expi (- 0)) (fun _ => expi 0) (fun _ => expi (- 0)) h <> RtoC r.
Proof.
  intros Hp. destruct (Lall_system 0%R) as (y & P & Hy & E1 & E2 & E3 & E4 & E5 & HI & HV & D1 & D2 & D3 & D4).
  assert (S : forall p, ~ self_branch p (ss_cg y) (ss_edges y)) by (intros p (e & c & He & _ & _ & Hs); rewrite E2 in He; destruct He as [<-|[<-|[<-|[<-|[]]]]]; discriminate Hs).
  assert (NL : no_lone_selfloop (noncap (c_graph (ss_cg y)))). { eapply no_selfs; [unfold noncap; rewrite E5; reflexivity|reflexivity]. }
  destruct (proj1 (proj1 (proj2 (total_defined y (wv 0) argord id_mat P (fun _ => 0%R) (fun _ => 0%R) Hy Hp))) (conj (S "I"%char) (S "V"%char))) as (h & Hh).
  destruct (quantum_total y (wv 0) argord id_mat P (fun _ => 0%R) (fun _ => 0%R) h Hy Hp Hh) as (K & K0 & HK). destruct (HK (fun _ => 0%R) (fun _ => 0%R) eq_refl eq_refl) as (r & Hr & HQ).
  exists y, (wv 0), id_mat, P, h, r. do 6 (split; [assumption|]). rewrite HQ, (K0 NL). intros E. apply (f_equal fst) in E. cbn [fst RtoC] in E. unfold slip_energy, branches_of in E. rewrite E5 in E. cbn [filter letter snd Ascii.eqb] in E. cbn in E.
  revert E. unfold charge_offset, src, dst. rewrite E4. cbn. replace (0 + 0 - (0 + 0))%R with 0%R by ring. rewrite cos_0. rewrite Rsum_cons, Rsum_nil. lra.
Qed.
Lemma derive_clash (h h' : R -> R) x a b : (forall t, Ok (h t) = Ok (h' t)) -> is_derive h x a -> is_derive h' x b -> a = b.
Proof.
  intros H Ha Hb. assert (E : forall t, h' t = h t) by (intros t; specialize (H t); injection H as ->; reflexivity). apply (is_derive_ext _ _ _ _ E) in Hb.
  rewrite <- (is_derive_unique _ _ _ Ha). exact (is_derive_unique _ _ _ Hb).
Qed.
Lemma bias_counter : exists y w Cinv P F n, system y /\ ideal y (v_par w) /\ inverted y (v_par w) Cinv P /\ F 0 = 0%R /\ In n (ss_nodes y) /\
  forall Q h, (forall t, getClassicalHamiltonian y w Cinv P Q (upd F n t) (fun k => 1 * upd F n t k)%R = Ok (h t)) ->
  ~ is_derive h (F n) (inductor_current (v_par w) (ss_cg y) (ss_edges y) (branch_bias y (v_flux w)) F n + junction_current (v_par w) (v_redflux w) (ss_red y) (c_graph (ss_cg y)) (fun k => 1 * F k) n)%R.
Proof.
  destruct (Lall_system 1%R) as (y & P & Hy & E1 & E2 & E3 & E4 & E5 & HI & HV & D1 & D2 & D3 & D4).
  exists y, (wv 1), id_mat, P, (fun _ => 0%R), 1. do 3 (split; [assumption|]). split; [reflexivity|]. split; [rewrite E1; left; reflexivity|]. intros Q h Hh HD.
  destruct (currents_exact y (wv 1) id_mat P Q (fun _ => 0%R) 1%R 1 Hy HI HV eq_refl) as (h' & Hh' & HD'); [discriminate|].
  assert (E := derive_clash h h' _ _ _ (fun t => eq_trans (eq_sym (Hh t)) (Hh' t)) HD HD'). revert E. rewrite Rmult_1_l.
  set (J := junction_current _ _ _ _ _ _). unfold inductor_current, branches_of. rewrite E2, E5. cbn [filter letter snd Ascii.eqb]. cbn [map Ascii.eqb Bool.eqb]. rewrite D1, D2, D3, D4. cbn [letter snd Ascii.eqb Bool.eqb].
  unfold shift. cbn [map fst snd src dst Nat.eqb]. rewrite D1, D2, D3, D4. cbn [letter snd Ascii.eqb Bool.eqb src dst Nat.eqb]. unfold branch_bias. rewrite E3. rewrite ?Rsum_cons, ?Rsum_nil. cbn. unfold at_node. cbn. lra.
Qed.
Lemma Lrf_system b : exists y P, system y /\ ss_nodes y = [1] /\ ss_edges y = [(0, 1, 0); (1, 0, 1)] /\ ss_flux y = [((0, 1, 0), ["a"]); ((1, 0, 1), [])] /\ ss_red y = ss_flux y /\
  g_edges (c_graph (ss_cg y)) = [((0, 1, 0), "L1"); ((0, 1, 1), "I1"); ((0, 1, 2), "C1")] /\ no_lone_selfloop (noncap (c_graph (ss_cg y))) /\
  ideal y (v_par (wv b)) /\ inverted y (v_par (wv b)) id_mat P /\ biases_alone y (branch_bias y (v_flux (wv b))) /\ branch_bias y (v_flux (wv b)) (0, 1, 0) = b /\
  (forall Q, gates (ss_cg y) = [] /\ coupled_resonators (ss_cg y) = [] /\ voltages (v_par (wv b)) y (fun k => Q k + charge_offset (ss_charge y) (v_charge (wv b)) k)%R (fun k => match k with 1 => Q 1 | _ => 0%R end)).
Proof.
  assert (H : exists y, new_system idord noor (grun cg_new Lrf) = Some (Ok y) /\ ss_nodes y = [1] /\ ss_edges y = [(0, 1, 0); (1, 0, 1)] /\ ss_flux y = [((0, 1, 0), ["a"]); ((1, 0, 1), [])] /\ ss_red y = ss_flux y /\
    g_edges (c_graph (ss_cg y)) = [((0, 1, 0), "L1"); ((0, 1, 1), "I1"); ((0, 1, 2), "C1")] /\ c_coupled (ss_cg y) = [] /\ c_fbias (ss_cg y) = [((0, 1, 0), mkfb None "a")] /\
    ss_charge y = [(1, None)] /\ gates (ss_cg y) = [] /\ coupled_resonators (ss_cg y) = [] /\ dget (c_map (ss_cg y)) (1, 0, 1) = Some "I1" /\ (exists M, capacitance_matrix (ss_cg y) = Ok M /\ M 0 0 = [(TmC "C1", 1%Z)])).
  { eexists. split; [vm_compute; reflexivity|]. do 11 (split; [reflexivity|]). eexists. split; [vm_compute; reflexivity|]. reflexivity. }
  destruct H as (y & Hn & E1 & E2 & E3 & E4 & E5 & E6 & E7 & E8 & E9 & E10 & E11 & M & HM & M0).
  assert (Hy : system y) by (eapply system_new; [apply Lrf_circuit|exact Hn]).
  destruct (inverted_ones y b Hy E6) as (P & HP).
  { rewrite E7. intros e f. cbn [dget]. destruct (eqb e (0, 1, 0)); [|discriminate]. intros E. injection E as <-. reflexivity. }
  { exists M. split; auto. rewrite E1. cbn [List.length]. intros i j Hi Hj. destruct i as [|i]; try lia; destruct j as [|j]; try lia; rewrite M0; unfold id_mat; cbn; ring. }
  exists y, P. do 6 (split; [assumption|]). split; [eapply no_selfs; [unfold noncap; rewrite E5; reflexivity|reflexivity]|].
  split; [split; [|split; [exact E6|]]; [intros x Hx; unfold branches_of in Hx; rewrite E5 in Hx; cbn in Hx; destruct Hx as [<-|[]]; discriminate|intros x _; cbn; lra]|]. split; [exact HP|].
  split. { intros e He Hi. rewrite E2 in He. destruct He as [<-|[<-|[]]].
    - right. split; [left; split; [reflexivity|discriminate]|]. rewrite E2. intros e' [<-|[<-|[]]] Hne; [congruence|]. intros (c & Ec & HL). rewrite E11 in Ec. injection Ec as <-. discriminate HL.
    - destruct Hi as (c & Ec & HL). rewrite E11 in Ec. injection Ec as <-. discriminate HL. }
  split; [unfold branch_bias; rewrite E3; cbn; ring|]. intros Q. split; [exact E9|]. split; [exact E10|]. split; [reflexivity|]. rewrite E1. intros n [<-|[]]. unfold capacitor_charge. rewrite E9, E10. unfold branches_of. rewrite E5. cbn [filter letter snd Ascii.eqb Bool.eqb].
  cbn [map fst snd]. rewrite !Rsum_nil, Rsum_cons, Rsum_nil. unfold at_node, charge_offset. rewrite E8. cbn. ring.
Qed.
Lemma units_counter kap : kap <> 0%R -> kap <> 1%R -> exists y w Cinv P F n, system y /\ ideal y (v_par w) /\ inverted y (v_par w) Cinv P /\ biases_alone y (branch_bias y (v_flux w)) /\ F 0 = 0%R /\ In n (ss_nodes y) /\
  forall Q h, (forall t, getClassicalHamiltonian y w Cinv P Q (upd F n t) (fun k => kap * upd F n t k)%R = Ok (h t)) ->
  ~ is_derive h (F n) (inductor_current (v_par w) (ss_cg y) (ss_edges y) (branch_bias y (v_flux w)) F n + junction_current (v_par w) (v_redflux w) (ss_red y) (c_graph (ss_cg y)) (fun k => kap * F k) n)%R.
Proof.
  intros K0 K1. destruct (Lrf_system 0%R) as (y & P & Hy & E1 & E2 & E3 & E4 & E5 & _ & HI & HV & HB & _ & _).
  exists y, (wv 0), id_mat, P, (fun k => match k with 1 => PI / 2 / kap | _ => 0 end)%R, 1. do 4 (split; [assumption|]). split; [reflexivity|]. split; [rewrite E1; left; reflexivity|]. intros Q h Hh HD.
  set (F := fun k : nat => _) in *. destruct (currents_alone y (wv 0) id_mat P Q F kap 1 Hy HI HV HB eq_refl) as (h' & Hh' & HD'); [discriminate|].
  assert (E := derive_clash h h' _ _ _ (fun t => eq_trans (eq_sym (Hh t)) (Hh' t)) HD HD').
  assert (J : junction_current (v_par (wv 0)) (v_redflux (wv 0)) (ss_red y) (c_graph (ss_cg y)) (fun k => (kap * F k)%R) 1 = 1%R).
  { unfold junction_current, branches_of. rewrite E5. cbn [filter letter snd Ascii.eqb Bool.eqb]. cbn [map fst snd]. rewrite Rsum_cons, Rsum_nil. unfold signed_bias. rewrite E4, E3. unfold at_node, F. cbn.
    rewrite Rsum_nil. replace (kap * 0 - kap * (PI / 2 / kap) + - 0)%R with (- (PI / 2))%R by (field; auto). rewrite sin_neg, sin_PI2. ring. }
  unfold F in J, E. cbv beta in J, E. rewrite !J in E. apply K1. lra.
Qed.
