(** Property theorems: CircuitGraph (C32-C44). *)
From Coq Require Import List Bool String Ascii Arith Permutation Lia.
From Verif Require Import Prelude PreludeFacts Graph GraphSpec GraphState GraphRooted GraphMaps GraphOps GraphProofs.
Import ListNotations.
Open Scope string_scope.
Open Scope list_scope.
Open Scope nat_scope.

(** C32. An accepted addBranch adds exactly one branch, numbered by the branches
    already between the two nodes; the component map has the earlier entries and
    the new branch in both directions. *)
Theorem C32_accepted_branch : forall s o a b c s', reachable s -> valid_orders o -> addBranch o s a b c = (s', Ok tt) ->
  g_edges (c_graph s') = g_edges (c_graph s) ++ [((a, b, parallel (c_graph s) a b), c)] /\
  (forall n, In n (g_nodes (c_graph s')) <-> In n (g_nodes (c_graph s)) \/ n = a \/ n = b) /\
  (forall e c0, dget (c_map s') e = Some c0 <-> carries (c_graph s) e c0 \/ (c0 = c /\ same_branch (a, b, parallel (c_graph s) a b) e)).
Proof. exact accepted_branch. Qed.
Print Assumptions C32_accepted_branch.
(** Wrong first letters raise and change nothing. *)
Theorem C32_wrong_prefix : forall s o a b c, branch_name c = false ->
  addBranch o s a b c = (s, Err (match c with EmptyString => IndexError | String x _ => if Ascii.eqb x "M" then TypeError else ValueError end)).
Proof. exact wrong_prefix. Qed.
Print Assumptions C32_wrong_prefix.
Example C32_witness : exists s', reachable (grun cg_new Lsq) /\ addBranch ido (grun cg_new Lsq) 2 1 "V1" = (s', Ok tt) /\ parallel (c_graph (grun cg_new Lsq)) 2 1 = 2.
Proof. eexists. split; [apply circuit_reachable, Lsq_circuit|]. split; vm_compute; reflexivity. Qed.
Example C32_witness_prefix : branch_name "M1" = false /\ branch_name "" = false /\ branch_name "X" = false.
Proof. auto. Qed.

(** C33. Full statement, false: a duplicate name raises after the branch was
    stored, and from then on every addBranch raises. *)
Theorem C33_refuted : exists s a b c o, circuit s /\ valid_orders o /\ snd (addBranch o s a b c) = Err ValueError /\ fst (addBranch o s a b c) <> s /\
  forall l, Forall valid_op l -> forall o' a' b' c', exists e, snd (addBranch o' (grun (fst (addBranch o s a b c)) l) a' b' c') = Err e.
Proof. exact C33_counter. Qed.
Print Assumptions C33_refuted.
(** It is so for every circuit and every duplicate name. *)
Theorem C33_every_duplicate_blocks : forall s a b c o, circuit s -> valid_orders o -> branch_name c = true -> In c (component_names (c_graph s)) ->
  snd (addBranch o s a b c) = Err ValueError /\ fst (addBranch o s a b c) <> s /\
  forall l, Forall valid_op l -> forall o' a' b' c', exists e, snd (addBranch o' (grun (fst (addBranch o s a b c)) l) a' b' c') = Err e.
Proof. exact C33_general. Qed.
Print Assumptions C33_every_duplicate_blocks.
(** Part that holds: a call rejected for its first letter changes nothing. *)
Theorem C33_wrong_prefix_partial : forall s o a b c, branch_name c = false -> fst (addBranch o s a b c) = s.
Proof. intros s o a b c H. rewrite (wrong_prefix s o a b c H). reflexivity. Qed.
Print Assumptions C33_wrong_prefix_partial.
Example C33_witness : circuit (grun cg_new Lsq) /\ branch_name "L1" = true /\ In "L1" (component_names (c_graph (grun cg_new Lsq))).
Proof. split; [apply Lsq_circuit|]. split; [reflexivity|exact Lsq_name]. Qed.

(** C34. Every branch has exactly one type. *)
Theorem C34_one_type : forall s e c, circuit s -> carries (c_graph s) e c ->
  exists p, In p letters /\ begins p c /\ forall q, In q letters -> is_type q s e = Ok (Ascii.eqb p q).
Proof. exact one_type. Qed.
Print Assumptions C34_one_type.
Theorem C34_lookup_sound : forall s c e, circuit s -> getComponentEdge s c = Ok e -> carries (c_graph s) e c.
Proof. intros s c e Hc H. exact (proj1 (component_edge_sound s (circuit_derived s Hc) c e H)). Qed.
Print Assumptions C34_lookup_sound.
Theorem C34_lookup_missing : forall s c, circuit s -> ~ In c (component_names (c_graph s)) -> getComponentEdge s c = Err ValueError.
Proof. intros s c Hc. exact (component_edge_missing s (circuit_derived s Hc) c). Qed.
Print Assumptions C34_lookup_missing.
(** Without lone self-loops every component is found, and the four listings
    partition the components. *)
Theorem C34_lookup_total_partial : forall s c, circuit s -> no_lone_selfloop (noncap (c_graph s)) -> In c (component_names (c_graph s)) ->
  exists e, getComponentEdge s c = Ok e /\ carries (c_graph s) e c.
Proof.
  intros s c Hc Hl Hi. destruct (component_edge_total s (circuit_derived s Hc) c Hi (or_intror Hl)) as (e & He).
  exact (ex_intro _ e (conj He (proj1 (component_edge_sound s (circuit_derived s Hc) c e He)))).
Qed.
Print Assumptions C34_lookup_total_partial.
Theorem C34_listings_partial : forall s, circuit s -> no_lone_selfloop (noncap (c_graph s)) -> exists L J V,
  getInductiveEdges s = Ok L /\ getJosephsonEdges s = Ok J /\ getPhaseSlipEdges s = Ok V /\
  Permutation (dkeys (getCapacitiveEdges s) ++ dkeys L ++ dkeys J ++ dkeys V) (component_names (c_graph s)) /\
  (forall c e, dget L c = Some e \/ dget J c = Some e \/ dget V c = Some e \/ dget (getCapacitiveEdges s) c = Some e -> carries (c_graph s) e c) /\
  (forall c, In c (dkeys (getCapacitiveEdges s)) -> begins "C" c) /\ (forall c, In c (dkeys L) -> begins "L" c) /\
  (forall c, In c (dkeys J) -> begins "I" c) /\ (forall c, In c (dkeys V) -> begins "V" c).
Proof. exact listing. Qed.
Print Assumptions C34_listings_partial.
(** Full statement, false: an inductor from a node to itself alone. *)
Theorem C34_refuted : exists s e, circuit s /\ carries (c_graph s) e "L1" /\ getComponentEdge s "L1" = Err KeyError /\ getInductiveEdges s = Ok [].
Proof. exact C34_counter. Qed.
Print Assumptions C34_refuted.
Example C34_witness : circuit (grun cg_new Lnet) /\ no_lone_selfloop (noncap (c_graph (grun cg_new Lnet))) /\ In "L2" (component_names (c_graph (grun cg_new Lnet))).
Proof.
  split; [apply Lnet_circuit|]. split; [|vm_compute; auto 10].
  set (l := noncap _). vm_compute in l. subst l. intros e He H. cbn in He. decompose [or] He; subst; try discriminate; contradiction.
Qed.

(** C35. The spanning tree is a spanning tree. *)
Theorem C35_tree : forall s, circuit s -> acyclic (c_tree s) /\ forall x y, conn (c_tree s) x y <-> conn (noncap (c_graph s)) x y.
Proof. intros s Hc. exact (conj (tree_acyclic s (circuit_derived s Hc)) (tree_conn s (circuit_derived s Hc))). Qed.
Print Assumptions C35_tree.
Theorem C35_loop_count : forall s, circuit s -> exists ls, c_loops s = Some ls /\ dkeys ls = seq 0 (List.length (c_closures s)).
Proof. exact loops_len. Qed.
Print Assumptions C35_loop_count.
(** No branch is counted twice, and exactly the non-capacitive branches that are
    not lone self-loops are in the tree or close a loop. *)
Theorem C35_split_exact : forall s, circuit s -> NoDup (map norm (c_tree s ++ c_closures s)) /\ forall e,
  In (norm e) (map norm (c_tree s ++ c_closures s)) <->
  In (norm e) (map norm (noncap (c_graph s))) /\ (src e <> dst e \/ exists f, In f (noncap (c_graph s)) /\ src f <> dst f /\ (src f = src e \/ dst f = src e)).
Proof. intros s Hc. exact (conj (split_norm_nodup s (circuit_derived s Hc)) (split_exact s Hc)). Qed.
Print Assumptions C35_split_exact.
Theorem C35_split_partial : forall s, circuit s -> no_lone_selfloop (noncap (c_graph s)) ->
  Permutation (map norm (c_tree s ++ c_closures s)) (map norm (noncap (c_graph s))) /\
  forall R, parts (noncap (c_graph s)) (g_nodes (c_graph s)) R ->
    List.length (c_closures s) + List.length (g_nodes (c_graph s)) = List.length (noncap (c_graph s)) + List.length R.
Proof. exact split_partial. Qed.
Print Assumptions C35_split_partial.
(** Full statement, false for a lone self-loop. *)
Theorem C35_refuted : exists s, circuit s /\ List.length (noncap (c_graph s)) = 1 /\ c_tree s ++ c_closures s = [] /\ parts (noncap (c_graph s)) (g_nodes (c_graph s)) [0] /\
  List.length (c_closures s) + List.length (g_nodes (c_graph s)) <> List.length (noncap (c_graph s)) + List.length [0].
Proof. exact C35_counter. Qed.
Print Assumptions C35_refuted.
Example C35_witness : circuit (grun cg_new Lnet) /\ List.length (c_tree (grun cg_new Lnet)) = 2 /\ List.length (c_closures (grun cg_new Lnet)) = 2.
Proof. split; [apply Lnet_circuit|vm_compute; auto]. Qed.

(** C36. Loop k has the k-th closure branch, which is in no other loop and
    not a tree branch; its other branches are tree branches. *)
Theorem C36_own_branch : forall s, circuit s -> exists ls, c_loops s = Some ls /\
  (forall k, dget (c_loop_closures s) k = nth_error (c_closures s) k) /\
  forall k l, dget ls k = Some l -> exists e body,
    dget (c_loop_closures s) k = Some e /\ l = body ++ [e] /\ (forall f, In f body -> In f (c_tree s)) /\
    (forall f, In f body -> ~ same_branch e f) /\
    forall k' l' f, dget ls k' = Some l' -> k' <> k -> In f l' -> ~ same_branch e f.
Proof. exact own_branch. Qed.
Print Assumptions C36_own_branch.
Example C36_witness : exists ls, circuit (grun cg_new Lnet) /\ c_loops (grun cg_new Lnet) = Some ls /\ List.length ls = 2.
Proof. eexists. split; [apply Lnet_circuit|]. split; vm_compute; reflexivity. Qed.

(** C37. Full statement, false. *)
Theorem C37_refuted : exists s ls k l, circuit s /\ c_loops s = Some ls /\ dget ls k = Some l /\ ~ closed l.
Proof. exact C37_counter. Qed.
Print Assumptions C37_refuted.
(** Circuits grown by attaching each new node with a non-capacitive branch have
    closed loops, whatever the iteration order of sets. *)
Theorem C37_grown_partial : forall s, grown s -> forall ls k l, c_loops s = Some ls -> dget ls k = Some l -> closed l.
Proof. exact grown_closed. Qed.
Print Assumptions C37_grown_partial.
(** C37 and C38. A valid new name is accepted, and all loops are closed, whenever
    each connected part was built outwards from its first node and small parts
    are iterated in that order. *)
Theorem C37_C38_rooted_partial : forall s o a b c, reachable s -> valid_orders o -> NoDup (component_names (c_graph s)) ->
  branch_name c = true -> ~ In c (component_names (c_graph s)) ->
  agrees o (g_nodes (with_branch (c_graph s) a b c)) (noncap (with_branch (c_graph s) a b c)) ->
  rooted (g_nodes (with_branch (c_graph s) a b c)) (noncap (with_branch (c_graph s) a b c)) ->
  exists s', addBranch o s a b c = (s', Ok tt) /\ forall ls k l, c_loops s' = Some ls -> dget ls k = Some l -> closed l.
Proof. exact rooted_success. Qed.
Print Assumptions C37_C38_rooted_partial.
(** C38. Full statement, false in two ways. *)
Theorem C38_refuted : exists s a b c o, circuit s /\ valid_orders o /\ branch_name c = true /\ ~ In c (component_names (c_graph s)) /\ a <> b /\
  snd (addBranch o s a b c) = Err UnboundLocalError.
Proof. exact C38_counter. Qed.
Print Assumptions C38_refuted.
Theorem C38_key_refuted : exists s a b c o, circuit s /\ valid_orders o /\ branch_name c = true /\ ~ In c (component_names (c_graph s)) /\ a <> b /\
  snd (addBranch o s a b c) = Err KeyError.
Proof. exact C38_counter_key. Qed.
Print Assumptions C38_key_refuted.
Theorem C38_grown_partial : forall s o a b c, grown s -> valid_orders o -> branch_name c = true -> ~ In c (component_names (c_graph s)) -> attaches s a b c ->
  snd (addBranch o s a b c) = Ok tt.
Proof. exact grown_success. Qed.
Print Assumptions C38_grown_partial.
Example C38_witness_grown : grown (grun cg_new [B 0 1 "I1"; GFlux "x" PNotStr None; B 2 1 "L1"]) /\
  attaches (grun cg_new [B 0 1 "I1"; GFlux "x" PNotStr None; B 2 1 "L1"]) 0 2 "C1" /\ attaches (grun cg_new [B 0 1 "I1"; GFlux "x" PNotStr None; B 2 1 "L1"]) 0 7 "V1".
Proof.
  split; [|split].
  - assert (H0 := grown_new). apply (grown_branch cg_new ido 0 1 "I1") in H0; [|exact ido_valid|reflexivity|easy|right; split; [intros (r & H); discriminate|left; reflexivity]].
    apply (grown_other _ (GFlux "x" PNotStr None)) in H0; [|reflexivity].
    assert (Hn : ~ In "L1" (component_names (c_graph (fst (gstep (fst (addBranch ido cg_new 0 1 "I1")) (GFlux "x" PNotStr None)))))) by (vm_compute; intuition discriminate).
    assert (Ha : In 1 (g_nodes (c_graph (fst (gstep (fst (addBranch ido cg_new 0 1 "I1")) (GFlux "x" PNotStr None)))))) by (vm_compute; auto).
    apply (grown_branch _ ido 2 1 "L1") in H0; [exact H0|exact ido_valid|reflexivity|exact Hn|]. right. split; [intros (r & H); discriminate|]. right; right. exact Ha.
  - left. vm_compute. auto.
  - right. split; [intros (r & H); discriminate|]. right; left. vm_compute. auto.
Qed.
(** the rooted condition also admits capacitively coupled parts *)
Example C38_witness_rooted : let s := grun cg_new [B 0 1 "L1"; B 1 2 "C1"] in let g := with_branch (c_graph s) 2 3 "L2" in
  reachable s /\ NoDup (component_names (c_graph s)) /\ agrees rvo (g_nodes g) (noncap g) /\ rooted (g_nodes g) (noncap g) /\ noncap g = [(0, 1, 0); (2, 3, 0)] /\ g_nodes g = [0; 1; 2; 3].
Proof.
  intros s g. assert (En : g_nodes g = [0; 1; 2; 3]) by (vm_compute; reflexivity). assert (Ec : noncap g = [(0, 1, 0); (2, 3, 0)]) by (vm_compute; reflexivity).
  split; [apply reach; vops|]. split; [vm_compute; repeat constructor; cbn; intuition discriminate|]. rewrite En, Ec.
  split; [apply agrees_small; [exact rvo_valid|repeat constructor; cbn; intuition lia|cbn; lia]|]. split; [|auto].
  assert (Hlab : forall x y, conn [(0, 1, 0); (2, 3, 0)] x y -> x / 2 = y / 2).
  { induction 1; auto; rewrite <- IHconn; destruct H as [<-|[<-|[]]]; reflexivity. }
  assert (B1 : before [0; 1; 2; 3] 0 1) by (exists [], [1; 2; 3]; cbn; auto).
  assert (B3 : before [0; 1; 2; 3] 2 3) by (exists [0; 1], [3]; cbn; auto).
  intros v u Hv Hb Hne Hc. apply Hlab in Hc. assert (Hu : In u [0; 1; 2; 3]) by (destruct Hb as (l1 & l2 & -> & _); apply in_or_app; right; left; auto).
  destruct Hv as [<-|[<-|[<-|[<-|[]]]]], Hu as [<-|[<-|[<-|[<-|[]]]]]; try discriminate Hc; try congruence.
  - exfalso. destruct Hb as ([|? [|? [|? [|? [|? ?]]]]] & l2 & E & Hi); cbn in E; try discriminate E; injection E; intros; subst; cbn in Hi; intuition lia.
  - exists (0, 1, 0), 0. cbn. auto 10.
  - exfalso. destruct Hb as ([|? [|? [|? [|? [|? ?]]]]] & l2 & E & Hi); cbn in E; try discriminate E; injection E; intros; subst; cbn in Hi; intuition lia.
  - exists (2, 3, 0), 2. cbn. auto 10.
Qed.

(** C39. addFluxBias returns exactly under [flux_allowed], and then adds that
    entry. *)
Theorem C39_accepts_partial : forall s comp suffix m, circuit s ->
  (forall e sfx, flux_allowed s comp suffix m e sfx -> addFluxBias s comp suffix m = (set_fbias s (c_fbias s ++ [(e, mkfb m sfx)]), Ok tt)) /\
  (snd (addFluxBias s comp suffix m) = Ok tt -> exists e sfx, flux_allowed s comp suffix m e sfx) /\
  (forall x, snd (addFluxBias s comp suffix m) = Err x -> fst (addFluxBias s comp suffix m) = s).
Proof.
  intros s comp suffix m Hc. pose proof (flux_spec s comp suffix m (circuit_derived s Hc) (reachable_Inv s (circuit_reachable s Hc))) as [H1 H2].
  exact (conj H1 (conj H2 (flux_fail s comp suffix m))).
Qed.
Print Assumptions C39_accepts_partial.
Theorem C39_suffixes_distinct : forall s, reachable s -> forall e e' b b',
  dget (c_fbias s) e = Some b -> dget (c_fbias s) e' = Some b' -> fb_suffix b = fb_suffix b' -> e = e'.
Proof. exact flux_suffixes. Qed.
Print Assumptions C39_suffixes_distinct.
(** Full statement ("on a branch without bias"), false: a branch whose direction
    was reversed by a later addBranch gets a second bias. *)
Theorem C39_refuted : exists s comp sfx e e', circuit s /\ carries (c_graph s) e comp /\ carries (c_graph s) e' comp /\
  dget (c_fbias s) e <> None /\ snd (addFluxBias s comp (PStr sfx) None) = Ok tt /\
  e <> e' /\ dget (c_fbias (fst (addFluxBias s comp (PStr sfx) None))) e <> None /\ dget (c_fbias (fst (addFluxBias s comp (PStr sfx) None))) e' <> None.
Proof. exact C39_counter. Qed.
Print Assumptions C39_refuted.
Example C39_witness : circuit (grun cg_new Lsq) /\ exists e, flux_allowed (grun cg_new Lsq) "L2" (PStr "a") (Some "M1") e "a".
Proof.
  split; [apply Lsq_circuit|]. exists (1, 2, 0). split; [apply carries_fwd; vm_compute; auto|].
  split; [eexists _, 0, _; split; [vm_compute; reflexivity|]; split; [reflexivity|cbn; auto]|]. split; [reflexivity|]. split; [cbn; lia|].
  split; [vm_compute; discriminate|]. split; [reflexivity|]. right. exists "1". split; [reflexivity|exists "2"; reflexivity].
Qed.

(** C40 *)
Theorem C40_accepts : forall s n suffix c, circuit s ->
  (forall sfx, charge_allowed s n suffix c sfx -> addChargeBias s n suffix c = (set_cbias s (c_cbias s ++ [(n, mkcb c sfx)]), Ok tt)) /\
  (snd (addChargeBias s n suffix c) = Ok tt -> exists sfx, charge_allowed s n suffix c sfx) /\
  (forall x, snd (addChargeBias s n suffix c) = Err x -> fst (addChargeBias s n suffix c) = s).
Proof.
  intros s n suffix c Hc. pose proof (charge_spec s n suffix c (circuit_derived s Hc) (reachable_Inv s (circuit_reachable s Hc))) as [H1 H2].
  exact (conj H1 (conj H2 (charge_fail s n suffix c))).
Qed.
Print Assumptions C40_accepts.
Theorem C40_suffixes_distinct : forall s, reachable s -> forall n n' b b',
  dget (c_cbias s) n = Some b -> dget (c_cbias s) n' = Some b' -> cb_suffix b = cb_suffix b' -> n = n'.
Proof. exact charge_suffixes. Qed.
Print Assumptions C40_suffixes_distinct.
Example C40_witness : charge_allowed (grun cg_new Lsq) 1 (PStr "12345678") (Some "Cg") "12345678".
Proof.
  split; [vm_compute; auto|]. split; [reflexivity|]. split; [cbn; lia|]. split; [vm_compute; discriminate|]. split; [reflexivity|].
  right. exists "g". split; [reflexivity|vm_compute; intuition discriminate].
Qed.

(** C41. The entry is kept by every later history and its branch still carries
    the component, in one of its two directions. *)
Theorem C41_flux_partial : forall s comp suffix m l, circuit s -> snd (addFluxBias s comp suffix m) = Ok tt ->
  let s' := grun (fst (addFluxBias s comp suffix m)) l in
  exists e sfx, suffix = PStr sfx /\ dget (c_fbias s') e = Some (mkfb m sfx) /\ carries (c_graph s') e comp.
Proof. exact flux_survives. Qed.
Print Assumptions C41_flux_partial.
Theorem C41_coupling_partial : forall s i1 i2 m l, circuit s -> snd (coupleBranches s i1 i2 m) = Ok tt ->
  let s' := grun (fst (coupleBranches s i1 i2 m)) l in
  exists e1 e2, dget (c_coupled s') m = Some (e1, e2) /\ carries (c_graph s') e1 i1 /\ carries (c_graph s') e2 i2.
Proof. exact couple_survives. Qed.
Print Assumptions C41_coupling_partial.
(** Full statement, false: after growth getComponentEdge reports the branch in
    the other direction, and no bias is found there. *)
Theorem C41_refuted : exists s o a b c e, circuit s /\ snd (addFluxBias s "L2" (PStr "a") None) = Ok tt /\ valid_orders o /\
  snd (addBranch o (fst (addFluxBias s "L2" (PStr "a") None)) a b c) = Ok tt /\
  getComponentEdge (fst (addBranch o (fst (addFluxBias s "L2" (PStr "a") None)) a b c)) "L2" = Ok e /\
  dget (c_fbias (fst (addBranch o (fst (addFluxBias s "L2" (PStr "a") None)) a b c))) e = None.
Proof. exact C41_counter. Qed.
Print Assumptions C41_refuted.
Example C41_witness : circuit (grun cg_new Lsq) /\ snd (addFluxBias (grun cg_new Lsq) "L2" (PStr "a") None) = Ok tt /\ snd (coupleBranches (grun cg_new Lsq) "L1" "L2" "M1") = Ok tt.
Proof. split; [apply Lsq_circuit|]. split; vm_compute; reflexivity. Qed.

(** C42. coupleBranchesInductively returns exactly under [couple_allowed]. *)
Theorem C42_accepts_partial : forall s i1 i2 m, circuit s ->
  (forall e1 e2, couple_allowed s i1 i2 m e1 e2 -> coupleBranches s i1 i2 m = (set_coupled s (c_coupled s ++ [(m, (e1, e2))]), Ok tt)) /\
  (snd (coupleBranches s i1 i2 m) = Ok tt -> exists e1 e2, couple_allowed s i1 i2 m e1 e2) /\
  (forall x, snd (coupleBranches s i1 i2 m) = Err x -> fst (coupleBranches s i1 i2 m) = s).
Proof.
  intros s i1 i2 m Hc. pose proof (couple_spec s i1 i2 m (circuit_derived s Hc) (reachable_Inv s (circuit_reachable s Hc))) as [H1 H2].
  exact (conj H1 (conj H2 (couple_fail s i1 i2 m))).
Qed.
Print Assumptions C42_accepts_partial.
(** Full statement, false: an inductor can be coupled to itself; *)
Theorem C42_self_refuted : exists s i m, circuit s /\ snd (coupleBranches s i i m) = Ok tt.
Proof. exact C42_counter_self. Qed.
Print Assumptions C42_self_refuted.
(** and a coupled pair can be coupled again after the circuit has grown. *)
Theorem C42_twice_refuted : exists s e1 e2 m, circuit s /\ dget (c_coupled s) "M1" = Some (e1, e2) /\ carries (c_graph s) e1 "L1" /\ carries (c_graph s) e2 "L2" /\
  m <> "M1" /\ snd (coupleBranches s "L1" "L2" m) = Ok tt.
Proof. exact C42_counter_twice. Qed.
Print Assumptions C42_twice_refuted.
Example C42_witness : circuit (grun cg_new Lsq) /\ couple_allowed (grun cg_new Lsq) "L1" "L2" "M1" (0, 1, 0) (1, 2, 0).
Proof.
  split; [apply Lsq_circuit|]. split; [exists "1"; reflexivity|]. split; [reflexivity|]. split; [exists "1"; reflexivity|]. split; [exists "2"; reflexivity|].
  split; [eexists; split; [vm_compute; reflexivity|cbn; auto]|]. split; [apply carries_fwd; vm_compute; auto|]. split; [apply carries_fwd; vm_compute; auto|].
  vm_compute. discriminate.
Qed.

(** C43 *)
Theorem C43_accepts : forall s n c, circuit s ->
  (res_allowed s n c -> coupleResonator s n c = (set_res s (dset (c_res s) n (Some (mkres c ("f" ++ nat_str n ++ "r") ("Z" ++ nat_str n ++ "r") ("C" ++ nat_str n ++ "r")
                    ("L" ++ nat_str n ++ "r") ("g" ++ nat_str n ++ "r") ("f" ++ nat_str n ++ "rl") ("Z" ++ nat_str n ++ "rl"))%string)), Ok tt)) /\
  (snd (coupleResonator s n c) = Ok tt -> res_allowed s n c) /\
  (forall x, snd (coupleResonator s n c) = Err x -> fst (coupleResonator s n c) = s).
Proof.
  intros s n c Hc. pose proof (res_spec s n c (circuit_derived s Hc)) as [H1 H2].
  exact (conj H1 (conj H2 (res_fail s n c))).
Qed.
Print Assumptions C43_accepts.
Theorem C43_remove_all : forall s n r, reachable s -> dget (c_res (removeAllResonators s)) n = Some r -> r = None.
Proof. intros s n r Hr. exact (remove_res s n r (reachable_Inv s Hr)). Qed.
Print Assumptions C43_remove_all.
Example C43_witness : circuit (grun cg_new Lsq) /\ res_allowed (grun cg_new Lsq) 2 "Cc".
Proof.
  split; [apply Lsq_circuit|]. split; [vm_compute; auto|]. split; [lia|]. split; [reflexivity|]. split; [exists "c"; reflexivity|vm_compute; intuition discriminate].
Qed.

(** C44. Full statement, false: the name of a bias capacitor can be given to a
    branch later. *)
Theorem C44_refuted : exists s o c, circuit s /\ valid_orders o /\ snd (addChargeBias s 1 (PStr "a") (Some c)) = Ok tt /\
  snd (addBranch o (fst (addChargeBias s 1 (PStr "a") (Some c))) 0 2 c) = Ok tt /\
  ~ NoDup (element_names (fst (addBranch o (fst (addChargeBias s 1 (PStr "a") (Some c))) 0 2 c))).
Proof. exact C44_counter. Qed.
Print Assumptions C44_refuted.
(** Branches and mutual inductances have different names. *)
Theorem C44_branches_and_mutuals_partial : forall s, circuit s -> NoDup (component_names (c_graph s) ++ dkeys (c_coupled s)).
Proof. exact names_partial. Qed.
Print Assumptions C44_branches_and_mutuals_partial.
Example C44_witness : circuit (grun cg_new Lsq) /\ List.length (component_names (c_graph (grun cg_new Lsq))) = 3.
Proof. split; [apply Lsq_circuit|reflexivity]. Qed.
