(** C86-C88: circuits with resonators. *)
From Coq Require Import List Bool String Ascii Arith Reals Lra.
From Verif Require Import Prelude Param Expr Coll CollLast Mat Graph GraphSpec GraphProofs Symbolic SymbolicSpec SymbolicProofs Sweep Reson ResonSpec ResonProofs ResonBuild ResonEx.
Import ListNotations.
Open Scope string_scope.
Open Scope list_scope.
Open Scope nat_scope.

(** C86. The copy of the circuit in which the resonators are branches has the
    branches of the circuit, and for each resonator a new node. *)
Theorem C86_extended : forall o s st e st', circuit s -> In 0 (g_nodes (c_graph s)) -> (forall k, valid_orders (o k)) -> extended o s st = ((e, st'), Ok tt) ->
  circuit e /\ coupled_resonators e = [] /\ c_cbias e = c_cbias s /\ c_fbias e = c_fbias s /\ c_coupled e = c_coupled s /\
  exists more new, g_nodes (c_graph e) = g_nodes (c_graph s) ++ more /\ List.length more = List.length (coupled_resonators s) /\ NoDup more /\ ends (c_graph e) = ends (c_graph s) ++ new /\
    forall a b c, In (a, b, c) new -> exists n r m, In (n, r) (coupled_resonators s) /\ In m more /\ In (a, b, c) [(n, m, r_coupling r); (m, 0, r_Cr r); (m, 0, r_Lr r)].
Proof. exact ext_branches. Qed.
Print Assumptions C86_extended.
(** The indices by which the loaded values are read are those of the coupled
    node and of the resonator's node, to which exactly the coupling capacitor,
    the capacitor and the inductor of the resonator are connected. *)
Theorem C86_indices : forall o s st e st' d n i j r, circuit s -> In 0 (g_nodes (c_graph s)) -> (forall k, valid_orders (o k)) -> extended o s st = ((e, st'), Ok tt) ->
  coupled_indices s e = Ok d -> In (n, (i, j)) d -> In (n, r) (coupled_resonators s) ->
  i < List.length (sys_nodes s) /\ nth i (sys_nodes s) 0 = n /\
  exists m, j < List.length (sys_nodes e) /\ nth j (sys_nodes e) 0 = m /\ ~ In m (g_nodes (c_graph s)) /\
    at_node m (ends (c_graph e)) = [(n, m, r_coupling r); (m, 0, r_Cr r); (m, 0, r_Lr r)].
Proof. exact indices_place. Qed.
Print Assumptions C86_indices.
Theorem C86_indices_total : forall o s st e st', circuit s -> In 0 (g_nodes (c_graph s)) -> (forall k, valid_orders (o k)) -> extended o s st = ((e, st'), Ok tt) ->
  exists d, coupled_indices s e = Ok d /\ map fst d = map fst (coupled_resonators s).
Proof. intros o s st e st' Hc H0 Ho He. exact (indices_total o s st e st' Ho Hc H0 He). Qed.
Print Assumptions C86_indices_total.
(** The inverse capacitance matrix of the extended circuit, restricted to the
    nodes of the circuit, is the inverse of its own capacitance matrix, in
    which getCapacitanceMatrix accounts for the resonators. *)
Theorem C86_loading : forall o s st e st' val Me K M, circuit s -> In 0 (g_nodes (c_graph s)) -> (forall k, valid_orders (o k)) -> extended o s st = ((e, st'), Ok tt) ->
  (forall n r, In (n, r) (coupled_resonators s) -> (val (r_coupling r) + val (r_Cr r) <> 0)%R) ->
  capacitance_matrix e = Ok Me -> inverse (List.length (sys_nodes e)) (fun i j => lval val (Me i j)) K -> capacitance_matrix s = Ok M ->
  firstn (List.length (sys_nodes s)) (sys_nodes e) = sys_nodes s /\ inverse (List.length (sys_nodes s)) (fun i j => lval val (M i j)) K.
Proof. intros o s st e st' val Me K M Hc H0 Ho He Hs HMe HK. exact (f_loading o s st e st' Ho Hc H0 He val Me K HMe HK M Hs). Qed.
Print Assumptions C86_loading.
Example C86_witness : circuit sR /\ In 0 (g_nodes (c_graph sR)) /\ (forall k : nat, valid_orders sorto) /\ extended (fun _ => sorto) sR stR = ((eR, stR'), Ok tt) /\
  coupled_indices sR eR = Ok [(1, (0, 1))] /\ coupled_resonators sR = [(1, rR)] /\ (one (r_coupling rR) + one (r_Cr rR) <> 0)%R /\
  capacitance_matrix eR = Ok MeR /\ inverse (List.length (sys_nodes eR)) (fun i j => lval one (MeR i j)) KR /\ capacitance_matrix sR = Ok sR_M /\ sys_nodes eR = [1; 2].
Proof.
  split; [exact LR_circuit|]. split; [exact LR_ground|]. split; [exact (proj1 LR_ok)|]. split; [exact LR_extended|]. split; [exact LR_indices|]. split; [exact LR_resonators|]. split; [unfold one; lra|].
  split; [exact LR_cap|]. split; [exact LR_inverse|]. split; [exact sR_cap|exact (proj2 LR_nodes)].
Qed.

(** C87. The elements of the inverse matrices of the extended circuit from
    which the loaded values are read. *)
Theorem C87_elements : forall o s st e st' val Me K edges ML P d n i j r, circuit s -> In 0 (g_nodes (c_graph s)) -> (forall k, valid_orders (o k)) -> extended o s st = ((e, st'), Ok tt) ->
  capacitance_matrix e = Ok Me -> inverse (List.length (sys_nodes e)) (fun i j => lval val (Me i j)) K ->
  c_wc e = Some edges -> c_coupled s = [] -> inductance_matrix e edges = Ok ML -> penrose (List.length edges) (imat_val val ML) P -> (forall b, In b (branches_of "L"%char (c_graph e)) -> val (snd b) <> 0%R) ->
  coupled_indices s e = Ok d -> In (n, (i, j)) d -> In (n, r) (coupled_resonators s) -> (forall n r, In (n, r) (coupled_resonators s) -> (val (r_coupling r) + val (r_Cr r) <> 0)%R) ->
  let cc := val (r_coupling r) in let cr := val (r_Cr r) in
  (K i j = cc / (cc + cr) * K i i /\ K j j = 1 / (cc + cr) + (cc / (cc + cr)) * (cc / (cc + cr)) * K i i /\ inverse_inductance (sys_nodes e) edges P j j = / val (r_Lr r))%R.
Proof.
  intros o s st e st' val Me K edges ML P d n i j r Hc H0 Ho He HMe HK Hwc Hcoup HML HP HL Hd Hi Hr Hs.
  exact (f_elements o s st e st' Ho Hc H0 He val Me K HMe HK edges ML P Hwc Hcoup HML HP HL d n i j r Hd Hi Hr Hs).
Qed.
Print Assumptions C87_elements.
(** For positive capacitances and no capacitor from a node to itself the loaded
    frequency and impedance are between those of the resonator with and without
    the coupling capacitor to ground; fr is an angular frequency here. *)
Theorem C87_loaded : forall o s st e st' val Me K edges ML P d n i j r, circuit s -> In 0 (g_nodes (c_graph s)) -> (forall k, valid_orders (o k)) -> extended o s st = ((e, st'), Ok tt) ->
  capacitance_matrix e = Ok Me -> inverse (List.length (sys_nodes e)) (fun i j => lval val (Me i j)) K ->
  c_wc e = Some edges -> c_coupled s = [] -> inductance_matrix e edges = Ok ML -> penrose (List.length edges) (imat_val val ML) P -> (forall b, In b (branches_of "L"%char (c_graph e)) -> val (snd b) <> 0%R) ->
  coupled_indices s e = Ok d -> In (n, (i, j)) d -> In (n, r) (coupled_resonators s) -> no_capacitor_loop (c_graph s) -> positive_caps val s -> (0 < val (r_Lr r))%R ->
  let cc := val (r_coupling r) in let cr := val (r_Cr r) in let lr := val (r_Lr r) in
  let q := loaded_of K (inverse_inductance (sys_nodes e) edges P) i j in
  (sqrt (/ (lr * (cc + cr))) <= ld_fr q <= sqrt (/ (lr * cr)) /\ sqrt (lr / (cc + cr)) <= ld_Zr q <= sqrt (lr / cr) /\ 0 < ld_Zr q /\
   ld_fr q * ld_Zr q = K j j /\ ld_Zr q = ld_fr q * lr /\ ld_g q = cc / (cc + cr) * K i i / sqrt (2 * ld_Zr q))%R.
Proof.
  intros o s st e st' val Me K edges ML P d n i j r Hc H0 Ho He HMe HK Hwc Hcoup HML HP HL Hd Hi Hr Hlp Hpos Hlr.
  exact (f_loaded o s st e st' Ho Hc H0 He val Me K HMe HK edges ML P Hwc Hcoup HML HP HL d n i j r Hd Hi Hr Hlp Hpos Hlr).
Qed.
Print Assumptions C87_loaded.
(** So with the elements computed from a design frequency and impedance the
    loaded frequency and impedance are at most those. *)
Theorem C87_design : forall o s st e st' val Me K edges ML P d n i j r, circuit s -> In 0 (g_nodes (c_graph s)) -> (forall k, valid_orders (o k)) -> extended o s st = ((e, st'), Ok tt) ->
  capacitance_matrix e = Ok Me -> inverse (List.length (sys_nodes e)) (fun i j => lval val (Me i j)) K ->
  c_wc e = Some edges -> c_coupled s = [] -> inductance_matrix e edges = Ok ML -> penrose (List.length edges) (imat_val val ML) P -> (forall b, In b (branches_of "L"%char (c_graph e)) -> val (snd b) <> 0%R) ->
  coupled_indices s e = Ok d -> In (n, (i, j)) d -> In (n, r) (coupled_resonators s) -> no_capacitor_loop (c_graph s) -> positive_caps val s -> (0 < val (r_Lr r))%R ->
  forall fr Zr, (0 < fr)%R -> (0 < Zr)%R -> val (r_Cr r) = design_C fr Zr -> val (r_Lr r) = design_L fr Zr ->
  let q := loaded_of K (inverse_inductance (sys_nodes e) edges P) i j in (ld_fr q / (2 * PI) <= fr /\ ld_Zr q <= Zr)%R.
Proof.
  intros o s st e st' val Me K edges ML P d n i j r Hc H0 Ho He HMe HK Hwc Hcoup HML HP HL Hd Hi Hr Hlp Hpos Hlr.
  exact (f_design o s st e st' Ho Hc H0 He val Me K HMe HK edges ML P Hwc Hcoup HML HP HL d n i j r Hd Hi Hr Hlp Hpos Hlr).
Qed.
Print Assumptions C87_design.
(** With C86_witness the hypotheses of C87. *)
Example C87_witness : c_wc eR = Some edgesR /\ c_coupled sR = [] /\ inductance_matrix eR edgesR = Ok MLR /\ penrose (List.length edgesR) (imat_val one MLR) PR /\
  (forall b, In b (branches_of "L"%char (c_graph eR)) -> one (snd b) <> 0%R) /\ no_capacitor_loop (c_graph sR) /\ positive_caps one sR /\ (0 < one (r_Lr rR))%R /\
  one (r_Cr rR) = design_C (/ (2 * PI)) 1 /\ one (r_Lr rR) = design_L (/ (2 * PI)) 1.
Proof.
  split; [exact (proj1 LR_ind)|]. split; [exact (proj2 (proj2 LR_positive))|]. split; [exact (proj1 (proj2 LR_ind))|]. split; [exact LR_penrose|]. split; [intros b _; unfold one; lra|].
  split; [exact (proj1 (proj2 LR_positive))|]. split; [exact (proj1 LR_positive)|]. split; [unfold one; lra|exact LR_design].
Qed.

(** C88. Not for every circuit built by accepted calls the constructor gets past
    the resonators: it raises if two resonators have the same coupling name, *)
Theorem C88_same_coupling_refuted : exists l, accepted cg_new l /\ circuit (grun cg_new l) /\ In 0 (g_nodes (c_graph (grun cg_new l))) /\ NoDup (component_names (c_graph (grun cg_new l))) /\
  map (fun x => r_coupling (snd x)) (coupled_resonators (grun cg_new l)) = ["Cc"; "Cc"] /\ init_resonators idord noor (fun _ => ido) (grun cg_new l) = Some ValueError.
Proof. destruct C88_same_coupling as (H1 & H2 & H3 & H4 & H5). exists same_coupling. repeat (split; [assumption|]). split; [vm_compute; reflexivity|assumption]. Qed.
Print Assumptions C88_same_coupling_refuted.
(** or a component has the name given to the capacitor of a resonator, *)
Theorem C88_component_refuted : exists l, accepted cg_new l /\ circuit (grun cg_new l) /\ In 0 (g_nodes (c_graph (grun cg_new l))) /\
  component_names (c_graph (grun cg_new l)) = ["C1r"; "I1"] /\ map (fun x => r_coupling (snd x)) (coupled_resonators (grun cg_new l)) = ["Cc"] /\
  init_resonators idord noor (fun _ => ido) (grun cg_new l) = Some ValueError.
Proof. destruct C88_taken_name as (H1 & H2 & H3 & H4 & H5). exists taken_name. repeat (split; [assumption|]). do 2 (split; [vm_compute; reflexivity|]). assumption. Qed.
Print Assumptions C88_component_refuted.
(** or another coupling capacitor has it. *)
Theorem C88_coupling_refuted : exists l, accepted cg_new l /\ circuit (grun cg_new l) /\ In 0 (g_nodes (c_graph (grun cg_new l))) /\
  component_names (c_graph (grun cg_new l)) = ["C1"; "I1"; "C2"; "I2"] /\ map (fun x => r_coupling (snd x)) (coupled_resonators (grun cg_new l)) = ["Cc"; "C1r"] /\
  init_resonators idord noor (fun _ => ido) (grun cg_new l) = Some ValueError.
Proof. destruct C88_taken_coupling as (H1 & H2 & H3 & H4 & H5). exists taken_coupling. repeat (split; [assumption|]). do 2 (split; [vm_compute; reflexivity|]). assumption. Qed.
Print Assumptions C88_coupling_refuted.
(** The extended circuit exists if all these names differ, each connected part
    was built outwards from its first node and sets of nodes are iterated in
    the order in which they were added. Missing: the rest of the
    constructor, other orders. *)
Theorem C88_extended_partial : forall o s st, circuit s -> In 0 (g_nodes (c_graph s)) -> (forall k, valid_orders (o k)) ->
  (forall k, in_order (o k) (g_nodes (c_graph s) ++ seq (S (list_max (sys_nodes s))) (List.length (coupled_resonators s)))) ->
  rooted (g_nodes (c_graph s)) (noncap (c_graph s)) ->
  NoDup (component_names (c_graph s) ++ flat_map (fun x => res_names (snd x)) (coupled_resonators s)) ->
  (forall n r, In (n, r) (coupled_resonators s) -> has_space (r_coupling r) = false) -> coupled_resonators s <> [] ->
  exists e st', extended o s st = ((e, st'), Ok tt).
Proof. exact ext_success. Qed.
Print Assumptions C88_extended_partial.
Example C88_witness : circuit sR /\ In 0 (g_nodes (c_graph sR)) /\ (forall k : nat, valid_orders sorto) /\
  (forall k : nat, in_order sorto (g_nodes (c_graph sR) ++ seq (S (list_max (sys_nodes sR))) (List.length (coupled_resonators sR)))) /\ rooted (g_nodes (c_graph sR)) (noncap (c_graph sR)) /\
  NoDup (component_names (c_graph sR) ++ flat_map (fun x => res_names (snd x)) (coupled_resonators sR)) /\
  coupled_resonators sR = [(1, rR)] /\ has_space (r_coupling rR) = false.
Proof.
  split; [exact LR_circuit|]. split; [exact LR_ground|]. destruct LR_ok as (A & B & C & D). split; [exact A|]. split; [exact B|]. split; [exact C|]. split; [exact D|]. split; [exact LR_resonators|reflexivity].
Qed.
