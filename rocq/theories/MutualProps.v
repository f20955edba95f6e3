(** C89: mutual inductances in the inductance matrix of the symbolic system. *)
From Coq Require Import List Bool String Ascii Arith ZArith Reals Lra Lia.
From Verif Require Import Prelude Mat Graph GraphSpec GraphCircuit GraphMaps GraphProofs Symbolic SymbolicSpec RSum SymbolicInv SymbolicProofs MutualSpec MutualProofs MutualEx.
Import ListNotations.
Open Scope string_scope.
Open Scope list_scope.
Open Scope nat_scope.

(** C89. The matrix is symmetric. *)
Theorem C89_symmetric : forall s edges M i j, circuit s -> c_wc s = Some edges -> inductance_matrix s edges = Ok M -> i < List.length edges -> j < List.length edges -> M i j = M j i.
Proof. exact mutual_symmetric. Qed.
Print Assumptions C89_symmetric.
(** Its entries are the inductances and the mutual inductances. *)
Theorem C89_values_partial : forall s edges M val i j, circuit s -> c_wc s = Some edges -> no_self_coupling s -> inductance_matrix s edges = Ok M -> i < List.length edges -> j < List.length edges ->
  imat_val val M i j = if Nat.eqb i j then inductance_at val (c_graph s) (nth i edges (0, 0, 0)) else mutual val s (nth i edges (0, 0, 0)) (nth j edges (0, 0, 0)).
Proof. exact mutual_values. Qed.
Print Assumptions C89_values_partial.
(** The inductive term of the Hamiltonian, the form of Rbn pinv(L) Rnb at the
    node fluxes x, is the energy of the magnetic field of the currents I whose
    flux through each inductor is the difference of x across it. *)
Theorem C89_energy_partial : forall s edges M val P I x, circuit s -> c_wc s = Some edges -> no_self_coupling s -> inductance_matrix s edges = Ok M ->
  penrose (List.length edges) (imat_val val M) P -> x 0 = 0%R -> (forall e, In e edges -> holds_inductor s e -> (x (src e) - x (dst e) = flux_of val s I e)%R) ->
  form (sys_nodes s) (inverse_inductance (sys_nodes s) edges P) x x = magnetic val s edges I.
Proof. exact mutual_energy. Qed.
Print Assumptions C89_energy_partial.
Example C89_witness : circuit (grun cg_new Lm) /\ c_wc (grun cg_new Lm) = Some em /\ no_self_coupling (grun cg_new Lm) /\ (exists M, inductance_matrix (grun cg_new Lm) em = Ok M /\ penrose 3 (imat_val vm M) Pm) /\
  (forall e, In e em -> holds_inductor (grun cg_new Lm) e -> (xm (src e) - xm (dst e) = flux_of vm (grun cg_new Lm) (fun _ => 1) e)%R) /\ magnetic vm (grun cg_new Lm) em (fun _ => 1%R) = 6%R.
Proof.
  split; [exact Lm_circuit|]. split; [apply Lm_facts|]. split; [exact Lm_self|]. split; [|split; [exact Lm_flux|exact Lm_magnetic]].
  destruct Lm_matrix as (M & H1 & H2). exists M. split; [exact H1|exact (Lm_penrose M H2)].
Qed.
(** The matrix is defined exactly if no inductor has a mutual inductance to
    its bias line and both branches of every coupling are still in the list of
    branches. *)
Theorem C89_defined_exact : forall s edges, circuit s -> c_wc s = Some edges ->
  ((exists M, inductance_matrix s edges = Ok M) <->
   (forall e b m, In e edges -> holds_inductor s e -> dget (c_fbias s) e = Some b -> fb_mutual b <> Some m) /\
   (forall m p q, In (m, (p, q)) (c_coupled s) -> In p edges /\ In q edges)).
Proof. exact mutual_defined_exact. Qed.
Print Assumptions C89_defined_exact.
(** Couplings made after the last branch was added are. *)
Theorem C89_defined_partial : forall s l edges, circuit s -> c_coupled s = [] -> no_lone_selfloop (noncap (c_graph s)) -> Forall (fun o => is_branch o = false) l -> c_wc (grun s l) = Some edges ->
  (forall e b, dget (c_fbias (grun s l)) e = Some b -> fb_mutual b = None) -> exists M, inductance_matrix (grun s l) edges = Ok M.
Proof. exact mutual_defined. Qed.
Print Assumptions C89_defined_partial.
Example C89_defined_witness : circuit (grun cg_new Lsq) /\ c_coupled (grun cg_new Lsq) = [] /\ no_lone_selfloop (noncap (c_graph (grun cg_new Lsq))) /\
  c_coupled (grun (grun cg_new Lsq) [GCouple "L1" "L2" "M1"]) <> [] /\ c_fbias (grun (grun cg_new Lsq) [GCouple "L1" "L2" "M1"]) = [].
Proof.
  split; [exact Lsq_circuit|]. split; [vm_compute; reflexivity|]. split; [|split; [vm_compute; discriminate|vm_compute; reflexivity]].
  intros e He Hs. exfalso. assert (E : noncap (c_graph (grun cg_new Lsq)) = [(0, 1, 0); (1, 2, 0); (1, 2, 1)]) by (vm_compute; reflexivity). rewrite E in He.
  destruct He as [<-|[<-|[<-|[]]]]; discriminate Hs.
Qed.
(** An inductor may be coupled to itself: the mutual inductance replaces its
    inductance. *)
Theorem C89_self_refuted : exists s edges M val, circuit s /\ accepted cg_new Lself2 /\ s = grun cg_new Lself2 /\ c_wc s = Some edges /\ inductance_matrix s edges = Ok M /\
  nth 0 edges (0, 0, 0) = (0, 1, 0) /\ imat_val val M 0 0 <> inductance_at val (c_graph s) (0, 1, 0).
Proof. exact C89_self. Qed.
Print Assumptions C89_self_refuted.
(** A branch added after the coupling. *)
Theorem C89_stale_refuted : exists s edges, circuit s /\ s = grun cg_new (Lm ++ [B 0 2 "L3"]) /\ accepted cg_new (Lm ++ [B 0 2 "L3"]) /\ c_wc s = Some edges /\ inductance_matrix s edges = Err ValueError.
Proof. exact C89_stale. Qed.
Print Assumptions C89_stale_refuted.
(** A flux bias with a mutual inductance. *)
Theorem C89_bias_refuted : exists s edges, circuit s /\ s = grun cg_new (Lsq ++ [GFlux "L2" (PStr "a") (Some "M1")]) /\ accepted cg_new (Lsq ++ [GFlux "L2" (PStr "a") (Some "M1")]) /\
  c_wc s = Some edges /\ inductance_matrix s edges = Err TypeError.
Proof. exact C89_bias. Qed.
Print Assumptions C89_bias_refuted.
