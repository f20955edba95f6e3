(** Property theorems: SymbolicSystem (C45-C53, C78). *)
From Coq Require Import List Bool String Ascii Arith ZArith Reals Permutation Lia Lra.
From Verif Require Import Prelude PreludeFacts Param Expr Coll CollSpec CollLast Mat Graph GraphSpec GraphState GraphProofs Symbolic SymbolicSpec SymbolicFlux SymbolicNew SymbolicMat SymbolicProofs.
Import ListNotations.
Open Scope string_scope.
Open Scope list_scope.
Open Scope nat_scope.

(** C45. The capacitance matrix exists for accepted histories; *)
Theorem C45_defined : forall l, accepted cg_new l -> circuit (grun cg_new l) -> exists M, capacitance_matrix (grun cg_new l) = Ok M.
Proof. exact c_cap_defined. Qed.
Print Assumptions C45_defined.
(** it is symmetric; *)
Theorem C45_symmetric : forall s M val i j, circuit s -> capacitance_matrix s = Ok M -> i < List.length (sys_nodes s) -> j < List.length (sys_nodes s) ->
  lval val (M i j) = lval val (M j i).
Proof. intros s M val i j H. exact (c_cap_sym s H M val i j). Qed.
Print Assumptions C45_symmetric.
(** its form is exactly the electrostatic form minus the capacitors from a node
    to itself; *)
Theorem C45_form_exact : forall s M val y x, circuit s -> capacitance_matrix s = Ok M -> y 0 = 0%R -> x 0 = 0%R ->
  form (sys_nodes s) (fun i j => lval val (M i j)) y x = (electrostatic val s y x - self_capacitors val s y x)%R.
Proof. intros s M val y x H. exact (c_cap_exact s H M val y x). Qed.
Print Assumptions C45_form_exact.
(** so the full statement holds without such capacitors, *)
Theorem C45_energy_partial : forall s M val y x, circuit s -> capacitance_matrix s = Ok M -> no_capacitor_loop (c_graph s) -> y 0 = 0%R -> x 0 = 0%R ->
  form (sys_nodes s) (fun i j => lval val (M i j)) y x = electrostatic val s y x.
Proof. intros s M val y x H. exact (c_cap_energy s H M val y x). Qed.
Print Assumptions C45_energy_partial.
(** and is false otherwise. *)
Theorem C45_energy_refuted : exists s M val x, circuit s /\ capacitance_matrix s = Ok M /\ positive_caps val s /\ x 0 = 0%R /\
  form (sys_nodes s) (fun i j => lval val (M i j)) x x <> electrostatic val s x x.
Proof. exact C45_counter. Qed.
Print Assumptions C45_energy_refuted.
Example C45_witness : circuit (grun cg_new L78ok) /\ no_capacitor_loop (c_graph (grun cg_new L78ok)) /\ exists M, capacitance_matrix (grun cg_new L78ok) = Ok M /\
  M 1 1 = [(TmC "Cc", 1%Z)] /\ M 0 0 = [(TmC "Ca", 1%Z); (TmC "Cb", 1%Z)].
Proof. split; [apply L78ok_regular|]. split; [apply L78ok_regular|]. eexists. split; [vm_compute; reflexivity|]. split; vm_compute; reflexivity. Qed.

(** C46. For positive capacitances and no capacitor from a node to itself, the
    matrix is positive definite, and M x = 0 only for x = 0, exactly if every
    node is joined to ground, a gate or a resonator by capacitors. *)
Theorem C46_positive_definite_partial : forall s M val, circuit s -> capacitance_matrix s = Ok M -> no_capacitor_loop (c_graph s) -> positive_caps val s ->
  ((forall n, In n (sys_nodes s) -> grounded s n) <->
     (forall x, (exists n, In n (sys_nodes s) /\ x n <> 0%R) -> (0 < form (sys_nodes s) (fun i j => lval val (M i j)) x x)%R)) /\
  ((forall n, In n (sys_nodes s) -> grounded s n) <->
     (forall x, (forall i, i < List.length (sys_nodes s) -> applied (sys_nodes s) (fun i j => lval val (M i j)) x i = 0%R) -> forall n, In n (sys_nodes s) -> x n = 0%R)).
Proof. intros s M val H. exact (c_cap_pos s H M val). Qed.
Print Assumptions C46_positive_definite_partial.
(** Full statement, false: with a capacitor from a node to itself the form can
    be negative although the node is joined to ground. *)
Theorem C46_positive_definite_refuted : exists s M val x, circuit s /\ capacitance_matrix s = Ok M /\ positive_caps val s /\ (forall n, In n (sys_nodes s) -> grounded s n) /\
  (exists n, In n (sys_nodes s) /\ x n <> 0%R) /\ (form (sys_nodes s) (fun i j => lval val (M i j)) x x < 0)%R.
Proof. exact C46_counter. Qed.
Print Assumptions C46_positive_definite_refuted.
Example C46_witness : circuit (grun cg_new L78ok) /\ no_capacitor_loop (c_graph (grun cg_new L78ok)) /\ positive_caps (fun _ => 1%R) (grun cg_new L78ok).
Proof. split; [apply L78ok_regular|]. split; [apply L78ok_regular|]. split; [|split]; intros; cbn beta; try lra. Qed.

(** C47 *)
Theorem C47_branch_flux : forall s edges f j e, circuit s -> c_wc s = Some edges -> f 0 = 0%R -> nth_error edges j = Some e ->
  branch_flux (sys_nodes s) edges (fun i => f (nth i (sys_nodes s) 0)) j = (f (src e) - f (dst e))%R.
Proof. intros s edges f j e H. exact (c_branch_flux s H f j e edges). Qed.
Print Assumptions C47_branch_flux.
(** The signed sum over a walk depends on its ends only; it is zero over a
    closed walk. *)
Theorem C47_walk_sum : forall s edges (f : nat -> R) (u : edge -> R) w a b, circuit s -> c_wc s = Some edges -> f 0 = 0%R ->
  (forall j e, nth_error edges j = Some e -> u e = branch_flux (sys_nodes s) edges (fun i => f (nth i (sys_nodes s) 0)) j) ->
  walk w a b -> (forall q, In q w -> In (snd q) edges) ->
  Rsum (map (fun q : bool * edge => if fst q then u (snd q) else (- u (snd q))%R) w) = (f a - f b)%R.
Proof. intros s edges f u w a b H. exact (c_loop_sum s H f u edges w a b). Qed.
Print Assumptions C47_walk_sum.
Example C47_witness : circuit (grun cg_new Lsq) /\ exists edges, c_wc (grun cg_new Lsq) = Some edges /\
  walk [(true, (1, 2, 0)); (true, (2, 1, 1))] 1 1 /\ (forall q, In q [(true, (1, 2, 0)); (true, (2, 1, 1))] -> In (snd q) edges).
Proof.
  split; [apply Lsq_circuit|]. eexists. split; [vm_compute; reflexivity|]. split; [cbn; auto|]. intros q [<-|[<-|[]]]; cbn; auto.
Qed.

(** C48. Without mutual inductances, for any real pseudo-inverse P of the
    inductance matrix. *)
Theorem C48_defined : forall s edges, circuit s -> c_wc s = Some edges -> c_coupled s = [] -> (forall e b, dget (c_fbias s) e = Some b -> fb_mutual b = None) ->
  exists M, inductance_matrix s edges = Ok M /\ forall val, exists P, penrose (List.length edges) (imat_val val M) P.
Proof. intros s edges H. exact (c_inductance_defined s H edges). Qed.
Print Assumptions C48_defined.
Theorem C48_symmetric : forall s edges val M P i j, circuit s -> c_wc s = Some edges -> c_coupled s = [] -> inductance_matrix s edges = Ok M ->
  penrose (List.length edges) (imat_val val M) P -> (forall b, In b (branches_of "L" (c_graph s)) -> val (snd b) <> 0%R) ->
  inverse_inductance (sys_nodes s) edges P i j = inverse_inductance (sys_nodes s) edges P j i.
Proof. intros s edges val M P i j H H1 H2 H3 H4 H5. exact (c_linv_sym s H val M P edges H1 H2 H3 H4 H5 i j). Qed.
Print Assumptions C48_symmetric.
Theorem C48_form : forall s edges val M P x, circuit s -> c_wc s = Some edges -> c_coupled s = [] -> inductance_matrix s edges = Ok M ->
  penrose (List.length edges) (imat_val val M) P -> (forall b, In b (branches_of "L" (c_graph s)) -> val (snd b) <> 0%R) -> x 0 = 0%R ->
  form (sys_nodes s) (inverse_inductance (sys_nodes s) edges P) x x = inductive_form val (c_graph s) x.
Proof. intros s edges val M P x H H1 H2 H3 H4 H5. exact (c_linv_form s H val M P edges H1 H2 H3 H4 H5 x). Qed.
Print Assumptions C48_form.
Theorem C48_semidefinite : forall s edges val M P x, circuit s -> c_wc s = Some edges -> c_coupled s = [] -> inductance_matrix s edges = Ok M ->
  penrose (List.length edges) (imat_val val M) P -> (forall b, In b (branches_of "L" (c_graph s)) -> (0 < val (snd b))%R) -> x 0 = 0%R ->
  (0 <= form (sys_nodes s) (inverse_inductance (sys_nodes s) edges P) x x)%R.
Proof.
  intros s edges val M P x H H1 H2 H3 H4 H5. exact (c_linv_psd s H val M P edges H1 H2 H3 H4 (fun b Hb => Rgt_not_eq _ _ (H5 b Hb)) x H5).
Qed.
Print Assumptions C48_semidefinite.
Example C48_witness : circuit (grun cg_new Lbias) /\ c_wc (grun cg_new Lbias) = Some [(0, 1, 0); (1, 2, 0); (2, 1, 1)] /\ c_coupled (grun cg_new Lbias) = [] /\
  branches_of "L" (c_graph (grun cg_new Lbias)) = [((0, 1, 0), "L1"); ((1, 2, 0), "L2")].
Proof. split; [exact Lbias_circuit|]. split; [apply Lbias_facts|]. split; apply Lbias_facts. Qed.

(** C49. The biases of the inductors enter as shifts of the node fluxes: every
    inductor sees the biases of all inductors at its two nodes. *)
Theorem C49_exact : forall s edges val M P bias x, circuit s -> c_wc s = Some edges -> c_coupled s = [] -> inductance_matrix s edges = Ok M ->
  penrose (List.length edges) (imat_val val M) P -> (forall b, In b (branches_of "L" (c_graph s)) -> val (snd b) <> 0%R) -> x 0 = 0%R ->
  flux_energy s edges P (fun j => bias (nth j edges noedge)) (fun i => x (nth i (sys_nodes s) 0)) =
  (1 / 2 * inductive_form val (c_graph s) (fun n => x n + shift s edges bias n))%R.
Proof. intros s edges val M P bias x H H1 H2 H3 H4 H5. exact (c_flux_exact s H val M P edges H1 H2 H3 H4 H5 bias x). Qed.
Print Assumptions C49_exact.
(** The full statement holds if the biased inductors are alone at a node whose
    other end is ground; *)
Theorem C49_bias_partial : forall s edges val M P bias x, circuit s -> c_wc s = Some edges -> c_coupled s = [] -> inductance_matrix s edges = Ok M ->
  penrose (List.length edges) (imat_val val M) P -> (forall b, In b (branches_of "L" (c_graph s)) -> val (snd b) <> 0%R) ->
  (forall e, In e edges -> inductor_at s e -> bias e = 0%R \/ alone s edges e) -> x 0 = 0%R ->
  flux_energy s edges P (fun j => bias (nth j edges noedge)) (fun i => x (nth i (sys_nodes s) 0)) = (1 / 2 * biased_form val s edges bias x)%R.
Proof. intros s edges val M P bias x H H1 H2 H3 H4 H5. exact (c_flux_alone s H val M P edges H1 H2 H3 H4 H5 bias x). Qed.
Print Assumptions C49_bias_partial.
(** it is false in general. *)
Theorem C49_bias_refuted : exists s edges M P val bias x, circuit s /\ c_coupled s = [] /\ c_wc s = Some edges /\ inductance_matrix s edges = Ok M /\
  penrose (List.length edges) (imat_val val M) P /\ (forall b, In b (branches_of "L" (c_graph s)) -> (0 < val (snd b))%R) /\
  (forall e, dget (c_fbias s) e = None -> bias e = 0%R) /\ x 0 = 0%R /\
  flux_energy s edges P (fun j => bias (nth j edges noedge)) (fun i => x (nth i (sys_nodes s) 0)) <> (1 / 2 * biased_form val s edges bias x)%R.
Proof. exact C49_counter. Qed.
Print Assumptions C49_bias_refuted.
Example C49_witness : circuit (grun cg_new Lrf) /\ exists edges, c_wc (grun cg_new Lrf) = Some edges /\ In (0, 1, 0) edges /\ dget (c_fbias (grun cg_new Lrf)) (0, 1, 0) <> None /\
  alone (grun cg_new Lrf) edges (0, 1, 0).
Proof.
  split; [exact Lrf_circuit|]. exists [(0, 1, 0); (1, 0, 1)]. split; [vm_compute; reflexivity|]. split; [left; reflexivity|]. split; [vm_compute; discriminate|].
  split; [left; split; [reflexivity|discriminate]|]. intros e' [<-|[<-|[]]] Hn; [congruence|].
  assert (D : dget (c_map (grun cg_new Lrf)) (1, 0, 1) = Some "I1") by (vm_compute; reflexivity). intros (c & E & HL). rewrite D in E. injection E as <-. discriminate HL.
Qed.

(** C50. Full statement, false: all these calls are accepted, node 0 is a node,
    and SymbolicSystem raises. A mutual inductance of a flux bias; a flux bias
    before the last branch; a space in a name; a component named like a
    matrix entry; a coupling before the last branch. *)
Theorem C50_refuted : forall l x,
  In (l, x) [([B 0 1 "L1"; B 1 2 "L2"; B 1 2 "I1"; GFlux "L2" (PStr "a") (Some "M1")], TypeError);
             ([B 0 1 "L1"; B 1 2 "L2"; B 1 2 "I1"; GFlux "L2" (PStr "a") None; B 0 2 "L3"], KeyError);
             ([B 0 1 "C 1"], ValueError);
             ([B 0 1 "L00i"; B 1 2 "L2"], AssertionError);
             ([B 0 1 "L1"; B 1 2 "L2"; B 1 2 "I1"; GCouple "L1" "L2" "M1"; B 0 2 "L3"], ValueError)] ->
  Forall valid_op l /\ accepted cg_new l /\ In 0 (g_nodes (c_graph (grun cg_new l))) /\ new_system idord noor (grun cg_new l) = Some (Err x).
Proof. exact C50_counters. Qed.
Print Assumptions C50_refuted.
(** A mutual inductance of a biased inductor always raises. *)
Theorem C50_mutual_fails : forall ord oracle s edges e b, circuit s -> c_wc s = Some edges -> In 0 (g_nodes (c_graph s)) -> has_resonators s = false ->
  (forall e, In e (dkeys (c_fbias s)) -> In e edges) -> (forall c, In c (registered_names s) -> c <> "" /\ has_space c = false) ->
  (forall b, In b (dvals (c_fbias s)) -> has_space (fb_suffix b) = false) -> (forall b, In b (dvals (c_cbias s)) -> has_space (cb_suffix b) = false) ->
  dget (c_fbias s) e = Some b -> fb_mutual b <> None -> inductor_at s e -> new_system ord oracle s = Some (Err TypeError).
Proof. exact mutual_raises. Qed.
Print Assumptions C50_mutual_fails.
(** Without node 0 it raises. *)
Theorem C50_no_ground : forall ord oracle s, ~ In 0 (g_nodes (c_graph s)) -> new_system ord oracle s = Some (Err PlainException).
Proof. exact no_ground. Qed.
Print Assumptions C50_no_ground.
(** It succeeds after accepted calls in which all branches come first, followed
    by biases without mutual inductances, no string has a space, and no
    component is called L..i with two numbers below the number of nodes other
    than ground. Missing: couplings and resonators. *)
Theorem C50_partial : forall ord oracle l1 l2, good_ord ord -> l1 <> [] -> Forall valid_op l1 -> Forall (fun o => is_branch o = true) l1 -> Forall bias_call l2 ->
  Forall (fun o => Forall spaceless (call_strings o)) (l1 ++ l2) -> accepted cg_new (l1 ++ l2) -> In 0 (g_nodes (c_graph (grun cg_new (l1 ++ l2)))) ->
  unnumbered (grun cg_new (l1 ++ l2)) "L" "i" -> exists y, new_system ord oracle (grun cg_new (l1 ++ l2)) = Some (Ok y) /\
    ss_cg y = grun cg_new (l1 ++ l2) /\ ss_nodes y = sys_nodes (grun cg_new (l1 ++ l2)).
Proof.
  intros ord oracle l1 l2 H H1 H2 H3 H4 H5 H6 H7 H8. destruct (regular_init ord oracle _ H (history_regular l1 l2 H1 H2 H3 H4 H5 H6 H7 H8)) as (y & E & E1 & E2 & _).
  exact (ex_intro _ y (conj E (conj E1 E2))).
Qed.
Print Assumptions C50_partial.
Example C50_witness : let l1 := [B 0 1 "I1"; B 0 1 "I2"; B 0 1 "L3"] in
  let l2 := [GFlux "I1" (PStr "a") None; GFlux "I2" (PStr "b") None; GCharge 1 (PStr "g") (Some "Cg")] in
  l1 <> [] /\ Forall valid_op l1 /\ Forall (fun o => is_branch o = true) l1 /\ Forall bias_call l2 /\ Forall (fun o => Forall spaceless (call_strings o)) (l1 ++ l2) /\
  accepted cg_new (l1 ++ l2) /\ In 0 (g_nodes (c_graph (grun cg_new (l1 ++ l2)))) /\ unnumbered (grun cg_new (l1 ++ l2)) "L" "i".
Proof. cbv zeta. destruct L50_conditions as (A1 & A2 & A3 & A4 & A5 & A6 & A7). exact (conj A1 (conj A2 (conj A3 (conj A4 (conj A5 (conj A6 (conj A7 (proj1 L50_unnumbered)))))))). Qed.

(** C51. Every node has one mode. A node in oscillator mode is touched by an
    inductor and is not joined to a node added after it; a node in charge mode
    is untouched or joined to another node. *)
Theorem C51_modes_partial : forall ord oracle s y, circuit s -> c_coupled s = [] -> new_system ord oracle s = Some (Ok y) ->
  NoDup (dkeys (ss_modes y)) /\ (forall n, In n (dkeys (ss_modes y)) <-> In n (g_nodes (c_graph s)) /\ n <> 0) /\
  (forall n, dget (ss_modes y) n = Some Oscillator -> (exists x, In x (branches_of "L" (c_graph s)) /\ src (fst x) <> dst (fst x) /\ touches n (fst x)) /\
     forall m, m <> 0 -> m <> n -> before (g_nodes (c_graph s)) n m -> ~ joined s n m) /\
  (forall n, dget (ss_modes y) n = Some Charge -> (forall x, In x (branches_of "L" (c_graph s)) -> src (fst x) <> dst (fst x) -> ~ touches n (fst x)) \/
     exists m, In m (g_nodes (c_graph s)) /\ m <> 0 /\ m <> n /\ joined s n m).
Proof. exact circuit_modes. Qed.
Print Assumptions C51_modes_partial.
(** Full statement, false: an oscillator node can be joined to another node. *)
Theorem C51_modes_refuted : exists s y n m, circuit s /\ new_system idord noor s = Some (Ok y) /\ dget (ss_modes y) n = Some Oscillator /\ m <> 0 /\ m <> n /\ joined s n m.
Proof. exact C51_counter. Qed.
Print Assumptions C51_modes_refuted.
Example C51_witness : circuit (grun cg_new L51) /\ exists y, new_system idord noor (grun cg_new L51) = Some (Ok y) /\ ss_modes y = [(2, Oscillator); (1, Charge); (3, Charge)].
Proof. split; [exact L51_circuit|exact L51_modes]. Qed.

(** C52. The names of a matrix are distinct exactly up to 111 nodes. *)
Theorem C52_distinct_partial : forall p sfx n, n <= 111 ->
  forall i j i' j', i <= j -> j < n -> i' <= j' -> j' < n -> mat_name p sfx i j = mat_name p sfx i' j' -> i = i' /\ j = j'.
Proof. intros p sfx n. exact (proj2 (names_distinct p sfx n)). Qed.
Print Assumptions C52_distinct_partial.
Theorem C52_distinct_refuted : forall p sfx n, 111 < n ->
  ~ (forall i j i' j', i <= j -> j < n -> i' <= j' -> j' < n -> mat_name p sfx i j = mat_name p sfx i' j' -> i = i' /\ j = j').
Proof. intros p sfx n H H1. exact (Nat.lt_irrefl _ (Nat.lt_le_trans _ _ _ H (proj1 (names_distinct p sfx n) H1))). Qed.
Print Assumptions C52_distinct_refuted.
Example C52_witness : mat_name "L" "i" 3 14 = "L314i" /\ 3 <= 14 /\ 14 < 111 /\ mat_name "C" "" 1 111 = "C1111" /\ mat_name "C" "" 11 11 = "C1111".
Proof. split; [reflexivity|]. split; [lia|]. split; [lia|]. split; reflexivity. Qed.

(** C53. moveFluxBias between two branches of the system: branch b has the
    terms of a, a has none, other branches are as before; the terms b had
    before are the ones lost. *)
Theorem C53_move : forall y a b x z, system y -> In a (ss_edges y) -> In b (ss_edges y) -> dget (ss_flux y) a = Some x -> x <> [] -> dget (ss_flux y) b = Some z ->
  exists y', moveFluxBias y a b = (y', Ok tt) /\ ss_edges y' = ss_edges y /\
    (forall e, dget (ss_flux y') e = if eqb e b then Some x else if eqb e a then Some [] else dget (ss_flux y) e) /\
    Permutation (bias_terms y) (bias_terms y' ++ if eqb a b then [] else z).
Proof.
  intros y a b x z H Ha Hb Hx Hn Hz. destruct (move_ok y a b x (system_inv y H) Ha Hb Hx Hn) as (y' & H1 & _ & H2 & H3 & H4).
  exact (ex_intro _ y' (conj H1 (conj H2 (conj H3 (H4 z Hz))))).
Qed.
Print Assumptions C53_move.
(** So nothing is lost if b has no bias, *)
Theorem C53_conserves_partial : forall y a b x, system y -> In a (ss_edges y) -> In b (ss_edges y) -> dget (ss_flux y) a = Some x -> x <> [] -> dget (ss_flux y) b = Some [] ->
  exists y', moveFluxBias y a b = (y', Ok tt) /\ Permutation (bias_terms y) (bias_terms y').
Proof. exact move_conserves. Qed.
Print Assumptions C53_conserves_partial.
(** and a term is lost otherwise. *)
Theorem C53_conserves_refuted : exists y a b t, system y /\ a <> b /\ snd (moveFluxBias y a b) = Ok tt /\ In t (bias_terms y) /\ ~ In t (bias_terms (fst (moveFluxBias y a b))).
Proof. exact C53_counter. Qed.
Print Assumptions C53_conserves_refuted.
(** Unknown branches and a without bias: an exception, nothing changes. *)
Theorem C53_rejected : forall y a b, system y -> (~ In a (ss_edges y) \/ ~ In b (ss_edges y) \/ dget (ss_flux y) a = Some []) -> moveFluxBias y a b = (y, Err PlainException).
Proof. intros y a b H. exact (move_rejected y a b (system_inv y H)). Qed.
Print Assumptions C53_rejected.
Example C53_witness : exists y, system y /\ ss_edges y = [(0, 1, 0); (1, 0, 1); (1, 0, 2)] /\ ss_flux y = [((0, 1, 0), ["a"]); ((1, 0, 1), ["b"]); ((1, 0, 2), [])].
Proof. destruct L50_system as (y & Hy & E1 & E2 & _). exists y. split; [exact (system_new _ _ _ _ L50_circuit Hy)|]. split; auto. Qed.

(** C78. The matrix returned by getCapacitanceMatrix, with its entries replaced
    by parameters, has the electrostatic form for all values consistent with
    the parameterisations (any component values extend to such values), and no
    component's parameter has changed. Missing:
    couplings and resonators; more than 111 nodes other than ground. *)
Theorem C78_parameterised_partial : forall ord oracle s y, good_ord ord -> regular s -> no_capacitor_loop (c_graph s) -> unnumbered s "C" "" ->
  List.length (g_nodes (c_graph s)) <= 112 -> new_system ord oracle s = Some (Ok y) ->
  exists y' T, getCapacitanceMatrix ord y = (y', Ok T) /\
  (forall c, In c (component_names (c_graph s)) -> dget (c_par (ss_par y')) c = dget (c_par (ss_par y)) c /\ dget (c_coll (ss_par y')) c = dget (c_coll (ss_par y)) c) /\
  (forall v, consistent v (ss_par y') -> forall a b, a 0 = 0%R -> b 0 = 0%R ->
     form (sys_nodes s) (fun i j => entry_val v (T i j)) a b = electrostatic (fun c => v (sym_of c)) s a b) /\
  (forall w, exists v, consistent v (ss_par y') /\ (forall c, In c (component_names (c_graph s)) -> v (sym_of c) = w c) /\ (forall g, In g (gates s) -> v (sym_of (snd g)) = w (snd g))).
Proof. exact cap_matrix_form. Qed.
Print Assumptions C78_parameterised_partial.
Theorem C78_parameterised_refuted : exists s y y' T c, circuit s /\ new_system idord noor s = Some (Ok y) /\ getCapacitanceMatrix idord y = (y', Ok T) /\ In c (component_names (c_graph s)) /\
  dget (c_par (ss_par y)) c = None /\ dget (c_par (ss_par y')) c <> None.
Proof. exact C78_counter. Qed.
Print Assumptions C78_parameterised_refuted.
Example C78_witness : regular (grun cg_new L78ok) /\ no_capacitor_loop (c_graph (grun cg_new L78ok)) /\ unnumbered (grun cg_new L78ok) "C" "" /\
  exists y y' T, new_system idord noor (grun cg_new L78ok) = Some (Ok y) /\ getCapacitanceMatrix idord y = (y', Ok T) /\ T 0 0 = Some (TSym "C_{00}") /\
  dget (c_par (ss_par y')) "C00" <> None.
Proof.
  split; [apply L78ok_regular|]. split; [apply L78ok_regular|]. split; [apply L78ok_regular|]. do 3 eexists. split; [vm_compute; reflexivity|]. split; [vm_compute; reflexivity|]. split; [reflexivity|].
  vm_compute. discriminate.
Qed.
