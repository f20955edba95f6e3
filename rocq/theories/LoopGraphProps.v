(** Property theorems: the loop graph (C100-C102) and the branches shared with a
    loop (C103). *)
From Coq Require Import List Bool String Arith Permutation.
From Verif Require Import Prelude Graph GraphSpec GraphWf GraphState GraphProofs LoopGraph LoopGraphSpec LoopGraphProofs LoopGraphLast.
Import ListNotations.
Open Scope string_scope.
Open Scope list_scope.
Open Scope nat_scope.

(** C100. Every loop in loops_map consists of different branches of the circuit
    and is closed, whatever cycles networkx reports. *)
Theorem C100_loops_closed : forall s cb l, circuit s -> (forall c, In c cb -> is_cycle (c_graph s) c) -> In l (loops_map s cb) ->
  NoDup (map norm l) /\ (forall e, In e l -> In (norm e) (branches (c_graph s))) /\ closed l.
Proof. exact (fun s cb l HC => loop_valid (c_graph s) (d_wf s (circuit_derived s HC)) cb l). Qed.
Print Assumptions C100_loops_closed.
Example C100_witness : circuit (grun cg_new Lpar) /\ is_cycle (c_graph (grun cg_new Lpar)) [0; 1; 2] /\
  loops_map (grun cg_new Lpar) [[0; 1; 2]] = [[(0, 1, 0); (0, 1, 1)]; [(0, 1, 0); (1, 2, 0); (0, 2, 0)]].
Proof. split; [exact Lpar_circuit|]. split; [apply Lpar_basis; now left|vm_compute; reflexivity]. Qed.
(** a parallel branch used by two cycles: the second one takes the next branch *)
Example C100_witness_used : loops_map (grun cg_new (Lpar ++ [B 1 3 "L3"; B 0 3 "L4"])) [[0; 1; 2]; [0; 1; 3]] =
  [[(0, 1, 0); (0, 1, 1)]; [(0, 1, 0); (1, 2, 0); (0, 2, 0)]; [(0, 1, 1); (1, 3, 0); (0, 3, 0)]].
Proof. vm_compute. reflexivity. Qed.

(** C101. loops_map is a basis of the closed sets of branches when networkx
    reports a basis for the graph without parallel branches. *)
Theorem C101_loops_basis : forall s cb, circuit s -> is_cycle_basis (c_graph s) cb ->
  cycle_space_basis fst (branches (c_graph s)) (map (map norm) (loops_map s cb)).
Proof. exact (fun s cb HC => loops_basis (c_graph s) cb (d_wf s (circuit_derived s HC))). Qed.
Print Assumptions C101_loops_basis.
(** Its size: one loop for each reported cycle and one for each branch beyond
    the first between two nodes. *)
Theorem C101_loops_number : forall s cb, circuit s ->
  List.length (loops_map s cb) + List.length (node_pairs (c_graph s)) = List.length (branches (c_graph s)) + List.length cb.
Proof. exact (fun s cb HC => loops_number (c_graph s) (d_wf s (circuit_derived s HC)) cb). Qed.
Print Assumptions C101_loops_number.
Example C101_witness : circuit (grun cg_new Lpar) /\ is_cycle_basis (c_graph (grun cg_new Lpar)) [[0; 1; 2]] /\
  List.length (branches (c_graph (grun cg_new Lpar))) = 4 /\ List.length (node_pairs (c_graph (grun cg_new Lpar))) = 3.
Proof. split; [exact Lpar_circuit|]. split; [exact Lpar_basis|]. split; vm_compute; reflexivity. Qed.

(** C102. Full statement, false: two loops share a branch and have no entry in
    loop_adjacency_map, because a loop of two parallel branches keeps the order
    in which the nodes were added and the cycles are sorted. *)
Theorem C102_refuted : exists s cb i j li lj e f, circuit s /\ is_cycle_basis (c_graph s) cb /\ i < j /\
  nth_error (loops_map s cb) i = Some li /\ nth_error (loops_map s cb) j = Some lj /\ In e li /\ In f lj /\ same_branch e f /\
  dget (adjacency (loops_map s cb)) (i, j) = None.
Proof. exact C102_counter. Qed.
Print Assumptions C102_refuted.
(** What is listed is shared. *)
Theorem C102_sound : forall s cb i j es, dget (adjacency (loops_map s cb)) (i, j) = Some es ->
  exists li lj, i < j /\ nth_error (loops_map s cb) i = Some li /\ nth_error (loops_map s cb) j = Some lj /\ es <> [] /\
    forall e, In e es <-> In e li /\ In e lj.
Proof. exact (fun s cb => adjacency_sound (loops_map s cb)). Qed.
Print Assumptions C102_sound.
(** Everything shared is listed when, of two nodes with parallel branches, the
    smaller was added first. *)
Theorem C102_partial : forall s cb i j li lj, circuit s -> (forall c, In c cb -> is_cycle (c_graph s) c) ->
  (forall a b, 2 <= parallel (c_graph s) a b -> before (g_nodes (c_graph s)) a b -> a <= b) ->
  i < j -> nth_error (loops_map s cb) i = Some li -> nth_error (loops_map s cb) j = Some lj ->
  match dget (adjacency (loops_map s cb)) (i, j) with
  | Some es => es <> [] /\ forall e, In e es <-> In e li /\ exists f, In f lj /\ same_branch e f
  | None => forall e f, In e li -> In f lj -> ~ same_branch e f
  end.
Proof. exact (fun s cb i j li lj HC => adjacency_exact (c_graph s) cb i j li lj (d_wf s (circuit_derived s HC))). Qed.
Print Assumptions C102_partial.
Example C102_witness : circuit (grun cg_new Lpar) /\ (forall a b, 2 <= parallel (c_graph (grun cg_new Lpar)) a b -> before (g_nodes (c_graph (grun cg_new Lpar))) a b -> a <= b) /\
  dget (adjacency (loops_map (grun cg_new Lpar) [[0; 1; 2]])) (0, 1) = Some [(0, 1, 0)].
Proof. split; [exact Lpar_circuit|]. split; [exact Lpar_ascending|vm_compute; reflexivity]. Qed.

(** C103. getEdgesSharedWithLoop: ValueError for a key that is not one of
    sc_loops; otherwise the branches of the loop and of every loop that shares
    a branch with it, each once. *)
Theorem C103_shared_branches : forall s k, circuit s -> exists ls, c_loops s = Some ls /\
  match dget ls k with
  | None => getEdgesSharedWithLoop s k = Err ValueError
  | Some l => exists r, getEdgesSharedWithLoop s k = Ok r /\ NoDup r /\
      forall e, In e r <-> In e l \/ exists k' l', dget ls k' = Some l' /\ In e l' /\ exists f f', In f l /\ In f' l' /\ same_branch f f'
  end.
Proof. exact shared_spec. Qed.
Print Assumptions C103_shared_branches.
Example C103_witness : circuit (grun cg_new Lshare) /\ exists ls l, c_loops (grun cg_new Lshare) = Some ls /\ List.length ls = 3 /\ dget ls 0 = Some l /\
  exists r, getEdgesSharedWithLoop (grun cg_new Lshare) 0 = Ok r /\ List.length r = 5 /\ List.length l = 3.
Proof. exact Lshare_ok. Qed.
