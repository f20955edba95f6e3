(** Model of pyscqed/circuit_graph.py (class CircuitGraph) and of the parts of
    networkx 3.3 it uses. Nodes are natural numbers (simplification: the code
    accepts any hashable node; the "%i" messages presuppose integers).
    Component names are strings. *)
From Coq Require Import List Bool String Ascii Arith NArith.
From Verif Require Import Prelude.
Import ListNotations.
Open Scope string_scope.
Open Scope list_scope.
Open Scope nat_scope.

(** An edge as networkx reports it: (n1, n2, key). *)
Definition edge := (nat * nat * nat)%type.
Definition src (e : edge) : nat := fst (fst e).
Definition dst (e : edge) : nat := snd (fst e).
Definition ekey (e : edge) : nat := snd e.
Definition rev_edge (e : edge) : edge := (dst e, src e, ekey e).

(** nx.MultiGraph: node order and edges in order of insertion, with the
    direction of the first insertion. *)
Section Views.
  Context {X : Type} (ed : X -> edge) (flip : X -> X).
  Definition joins (a b : nat) (x : X) : bool :=
    (Nat.eqb (src (ed x)) a && Nat.eqb (dst (ed x)) b) || (Nat.eqb (src (ed x)) b && Nat.eqb (dst (ed x)) a).
  (** G._adj[n]: neighbours in order of first insertion *)
  Definition nbrs (n : nat) (es : list X) : list nat :=
    dedup (flat_map (fun x => if Nat.eqb (src (ed x)) n then [dst (ed x)] else if Nat.eqb (dst (ed x)) n then [src (ed x)] else []) es).
  (** networkx MultiEdgeView.__iter__: for each node in order, its neighbours
      not treated before, all parallel edges; reported from that node *)
  Definition orient (n : nat) (x : X) : X := if Nat.eqb (src (ed x)) n then x else flip x.
  Fixpoint uview_from (seen : list nat) (ns : list nat) (es : list X) : list X :=
    match ns with
    | [] => []
    | n :: ns => flat_map (fun m => if mem m seen then [] else map (orient n) (filter (joins n m) es)) (nbrs n es)
                 ++ uview_from (n :: seen) ns es
    end.
  Definition uview := uview_from [].
  (** OutMultiEdgeView.__iter__ of a MultiDiGraph *)
  Definition succs (n : nat) (es : list X) : list nat :=
    dedup (map (fun x => dst (ed x)) (filter (fun x => Nat.eqb (src (ed x)) n) es)).
  Definition dview (ns : list nat) (es : list X) : list X :=
    flat_map (fun n => flat_map (fun m => filter (fun x => Nat.eqb (src (ed x)) n && Nat.eqb (dst (ed x)) m) es) (succs n es)) ns.
End Views.
Definition branch := (edge * string)%type.
Definition flip_branch (b : branch) : branch := (rev_edge (fst b), snd b).
Definition bview := uview (fst (A := edge) (B := string)) flip_branch.
Definition eview := uview (fun e : edge => e) rev_edge.
Definition deview := dview (fun e : edge => e).

Record mgraph := mkg { g_nodes : list nat; g_edges : list branch }.
Definition add_node (n : nat) (ns : list nat) : list nat := if mem n ns then ns else ns ++ [n].
(** MultiGraph.add_edge without a key: the key is the number of parallel
    edges, which are keyed 0, 1, ... as edges are never removed. *)
Definition add_edge (g : mgraph) (n1 n2 : nat) (c : string) : mgraph * nat :=
  let k := List.length (filter (joins (fst (A := edge) (B := string)) n1 n2) (g_edges g)) in
  (mkg (add_node n2 (add_node n1 (g_nodes g))) (g_edges g ++ [((n1, n2, k), c)]), k).

(** Connected components as a labelling; [union] merges two labels. Stands for
    networkx's breadth-first search and its UnionFind. *)
Definition labelling := dict nat nat.
Definition lget (l : labelling) (x : nat) : nat := match dget l x with Some y => y | None => x end.
Definition union (l : labelling) (u v : nat) : labelling :=
  map (fun p => if Nat.eqb (snd p) (lget l u) then (fst p, lget l v) else p) l.
Definition lab0 (ns : list nat) : labelling := map (fun n => (n, n)) ns.
(** networkx kruskal_mst_edges; all weights are the default 1, so the stable
    sort keeps the order of the view. *)
Fixpoint kruskal (l : labelling) (es : list edge) : list edge :=
  match es with
  | [] => []
  | e :: es => if Nat.eqb (lget l (src e)) (lget l (dst e)) then kruskal l es
               else e :: kruskal (union l (src e) (dst e)) es
  end.
Definition components (ns : list nat) (es : list edge) : labelling :=
  fold_left (fun l e => union l (src e) (dst e)) es (lab0 ns).

(** The iteration orders of Python sets are not determined by the code: the
    order of a set of nodes (networkx's subgraph view iterates the node set
    itself when it is less than half of the graph) and of a set of edges. *)
Record orders := mko { o_nodes : list nat -> list nat; o_edges : list edge -> list edge }.

(** networkx: nodes of [G.subgraph(c).copy()] in order *)
Definition sub_order (o : orders) (ns c : list nat) : list nat :=
  if 2 * List.length c <? List.length ns then o_nodes o c else filter (fun n => mem n c) ns.

(** networkx.all_simple_edge_paths (3.3): the simple directed paths from s to
    t, the trivial one if s = t. *)
Fixpoint paths (fuel : nat) (es : list edge) (vis : list nat) (s t : nat) : list (list edge) :=
  if Nat.eqb s t then [[]] else
  match fuel with
  | 0 => []
  | S fuel => flat_map (fun e => if negb (Nat.eqb (src e) s) || mem (dst e) vis then []
                                 else map (cons e) (paths fuel es (dst e :: vis) (dst e) t)) es
  end.
(** Python's order on lists of integer triples *)
Definition edge_lt (a b : edge) : bool :=
  (src a <? src b) || ((src a =? src b) && ((dst a <? dst b) || ((dst a =? dst b) && (ekey a <? ekey b)))).
Fixpoint path_le (p q : list edge) : bool :=
  match p, q with
  | [], _ => true
  | _, [] => false
  | a :: p, b :: q => if edge_lt a b then true else if edge_lt b a then false else path_le p q
  end.
(** sorted(...)[0], None for IndexError *)
Definition first_sorted (l : list (list edge)) : option (list edge) :=
  match l with [] => None | p :: l => Some (fold_left (fun m q => if path_le m q then m else q) l p) end.
Definition first_path (ns : list nat) (es : list edge) (s t : nat) : option (list edge) :=
  first_sorted (paths (List.length ns) es [s] s t).
Definition symdiff (p q : list edge) : list edge :=
  filter (fun e => negb (mem e q)) p ++ filter (fun e => negb (mem e p)) q.

Record fbias := mkfb { fb_mutual : option string; fb_suffix : string }.
Record cbias := mkcb { cb_cap : option string; cb_suffix : string }.
Record resonator := mkres { r_coupling : string; r_fr : string; r_Zr : string; r_Cr : string; r_Lr : string; r_gC : string; r_frl : string; r_Zrl : string }.
(** virtual_grounds: ground node -> (closure branches, oriented tree) *)
Definition grounds := dict nat (list edge * (list nat * list edge)).

(** CircuitGraph. [None]: the attribute does not exist yet. loops_map,
    loop_adjacency_map and loop_graph (lines 514-594) are in LoopGraph.v; with
    integer nodes computing them raises nothing. *)
Record cg := mkcg {
  c_graph : mgraph;
  c_map : dict edge string;
  c_vg : grounds;
  c_tree : list edge;                      (* sc_spanning_tree.edges *)
  c_wc : option (list edge);               (* sc_spanning_tree_wc.edges *)
  c_closures : list edge;                  (* closure_branches *)
  c_loops : option (dict nat (list edge)); (* sc_loops; the order inside a loop (a set) is not modelled *)
  c_loop_closures : dict nat edge;
  c_cbias : dict nat cbias;
  c_fbias : dict edge fbias;
  c_res : dict nat (option resonator);
  c_coupled : dict string (edge * edge)
}.
(** lines 38-63 [__init__] *)
Definition cg_new : cg := mkcg (mkg [] []) [] [] [] None [] None [] [] [] [] [].

Definition starts (c : ascii) (s : string) : bool := match s with EmptyString => false | String a _ => Ascii.eqb a c end.
Definition capacitive := starts "C".
Definition inductive := starts "L".
Definition josephson := starts "I".
Definition phaseslip := starts "V".

(** lines 396-409 [_update_components_map] *)
Definition edge_map (g : mgraph) : dict edge string := bview (g_nodes g) (g_edges g).
Definition has_duplicates (l : list string) : bool := negb (List.length (dedup l) =? List.length l).
Definition both_ways (m : dict edge string) : dict edge string :=
  fold_left (fun d kv => dset d (rev_edge (fst kv)) (snd kv)) m m.

(** lines 418-430 [_get_conductive_graph]: edges in order of insertion *)
Definition conductive (g : mgraph) : list edge := map fst (filter (fun b => negb (capacitive (snd b))) (edge_map g)).

(** lines 432-468 [_get_virtual_grounds], one component *)
Definition in_degree (es : list edge) (n : nat) : nat := List.length (filter (fun e => Nat.eqb (dst e) n) es).
Definition tree_of (sub : list nat) (sube : list edge) : list edge := eview sub (kruskal (lab0 sub) (eview sub sube)).
Definition one_ground (o : orders) (ns : list nat) (labels : list edge) (c : list nat) (vg : grounds) : grounds * res unit :=
  let sub := sub_order o ns c in
  let sube := filter (fun e => mem (src e) c && mem (dst e) c) labels in
  let vg := match sub with [n] => dset vg n ([], ([n], [])) | _ => vg end in
  let t := tree_of sub sube in
  if forallb (fun e => mem e labels) t then
    let sn := dedup (flat_map (fun e => [src e; dst e]) t) in
    let cl := map rev_edge (o_edges o (filter (fun e => negb (mem e t)) (eview sub sube))) in
    (match find (fun n => in_degree t n =? 0) sn with Some n => dset vg n (cl, (sn, t)) | None => vg end, Ok tt)
  else (vg, Err KeyError).
(** the connected components, in the order networkx yields them *)
Definition component_list (ns : list nat) (es : list edge) : list (list nat) :=
  let l := components ns es in
  map (fun r => filter (fun n => Nat.eqb (lget l n) r) ns) (dedup (map (lget l) ns)).
Definition get_grounds (o : orders) (ns : list nat) (ce : list edge) : grounds * res unit :=
  let labels := eview ns ce in
  fold_left (fun acc c => match snd acc with Ok _ => one_ground o ns labels c (fst acc) | Err _ => acc end)
    (component_list ns ce) ([], Ok tt).

(** lines 470-477 [_get_spanning_tree]; the labels were looked up before *)
Definition spanning_tree (ns : list nat) (vg : grounds) : list edge :=
  deview ns (flat_map (fun x => deview (fst (snd (snd x))) (snd (snd (snd x)))) vg).
(** lines 479-487 [_get_sc_circuit]; 509-512 [_get_closure_branches] *)
Definition closure_branches (vg : grounds) : list edge := flat_map (fun x => fst (snd x)) vg.
Definition sc_circuit (ns : list nat) (tree : list edge) (vg : grounds) : list edge := deview ns (tree ++ closure_branches vg).

(** lines 489-507 [_get_sc_loops]. [p1] is the local variable, which survives
    from one closure branch to the next. *)
Record loopst := mkl { l_c : nat; l_p1 : option (list edge); l_loops : dict nat (list edge); l_clos : dict nat edge }.
Definition one_loop (s : nat) (S : list nat * list edge) (acc : loopst * res unit) (e : edge) : loopst * res unit :=
  match acc with
  | (st, Err x) => (st, Err x)
  | (st, Ok _) =>
      let put p1 l := (mkl (l_c st + 1) p1 (dset (l_loops st) (l_c st) (l ++ [e])) (dset (l_clos st) (l_c st) e), Ok tt) in
      match first_path (fst S) (snd S) s (src e) with
      | None => match l_p1 st with
                | Some p => put (Some p) p
                | None => (mkl (l_c st) None (dset (l_loops st) (l_c st) []) (l_clos st), Err UnboundLocalError)
                end
      | Some p1 => match first_path (fst S) (snd S) s (dst e) with
                   | None => put (Some p1) p1
                   | Some p2 => put (Some p1) (symdiff p1 p2)
                   end
      end
  end.
Definition get_loops (vg : grounds) : loopst * res unit :=
  fold_left (fun acc x => fold_left (one_loop (fst x) (snd (snd x))) (fst (snd x)) acc) vg (mkl 0 None [] [], Ok tt).

Definition set_graph (s : cg) g m : cg :=
  mkcg g m (c_vg s) (c_tree s) (c_wc s) (c_closures s) (c_loops s) (c_loop_closures s) (c_cbias s) (c_fbias s) (c_res s) (c_coupled s).
Definition set_vg (s : cg) vg : cg :=
  mkcg (c_graph s) (c_map s) vg (c_tree s) (c_wc s) (c_closures s) (c_loops s) (c_loop_closures s) (c_cbias s) (c_fbias s) (c_res s) (c_coupled s).
Definition set_loops (s : cg) t w cl l lc : cg :=
  mkcg (c_graph s) (c_map s) (c_vg s) t w cl l lc (c_cbias s) (c_fbias s) (c_res s) (c_coupled s).
Definition set_res (s : cg) r : cg :=
  mkcg (c_graph s) (c_map s) (c_vg s) (c_tree s) (c_wc s) (c_closures s) (c_loops s) (c_loop_closures s) (c_cbias s) (c_fbias s) r (c_coupled s).
Definition set_cbias (s : cg) b : cg :=
  mkcg (c_graph s) (c_map s) (c_vg s) (c_tree s) (c_wc s) (c_closures s) (c_loops s) (c_loop_closures s) b (c_fbias s) (c_res s) (c_coupled s).
Definition set_fbias (s : cg) b : cg :=
  mkcg (c_graph s) (c_map s) (c_vg s) (c_tree s) (c_wc s) (c_closures s) (c_loops s) (c_loop_closures s) (c_cbias s) b (c_res s) (c_coupled s).
Definition set_coupled (s : cg) b : cg :=
  mkcg (c_graph s) (c_map s) (c_vg s) (c_tree s) (c_wc s) (c_closures s) (c_loops s) (c_loop_closures s) (c_cbias s) (c_fbias s) (c_res s) b.

(** lines 387-394 [_update_graphs] *)
Definition update_graphs (o : orders) (s : cg) : cg * res unit :=
  let ns := g_nodes (c_graph s) in
  match get_grounds o ns (conductive (c_graph s)) with
  | (vg, Err e) => (set_vg s vg, Err e)
  | (vg, Ok _) =>
      let s := set_vg s vg in
      let t := spanning_tree ns vg in
      match get_loops vg with
      | (l, r) => (set_loops s t (Some (sc_circuit ns t vg)) (closure_branches vg) (Some (l_loops l)) (l_clos l), r)
      end
  end.
(** lines 411-416 [_update_couplings_map] *)
Definition ensure_res (d : dict nat (option resonator)) (n : nat) : dict nat (option resonator) := if dmem d n then d else dset d n None.

(** lines 65-83 [addBranch] *)
Definition addBranch (o : orders) (s : cg) (n1 n2 : nat) (component : string) : cg * res unit :=
  match component with
  | EmptyString => (s, Err IndexError)
  | String p _ =>
      if Ascii.eqb p "M" then (s, Err TypeError)
      else if negb (existsb (Ascii.eqb p) ["C"%char; "L"%char; "I"%char; "V"%char; "M"%char]) then (s, Err ValueError)
      else
        let g := fst (add_edge (c_graph s) n1 n2 component) in
        let m := edge_map g in
        if has_duplicates (dvals m) then (set_graph s g m, Err ValueError)
        else
          let s := set_graph s g (both_ways m) in
          match update_graphs o s with
          | (s, Err e) => (s, Err e)
          | (s, Ok _) => (set_res s (ensure_res (ensure_res (c_res s) n1) n2), Ok tt)
          end
  end.

(** [{self.components_map[k]: k for k in edges}]: a later key replaces an
    earlier one *)
Definition by_component (l : list (edge * string)) : dict string edge := fold_left (fun d kv => dset d (snd kv) (fst kv)) l [].
Definition wc_by_component (s : cg) : res (dict string edge) :=
  match c_wc s with
  | None => Err AttributeError
  | Some es => fold_left (fun acc e => bind acc (fun d => match dget (c_map s) e with Some c => Ok (dset d c e) | None => Err KeyError end)) es (Ok [])
  end.
(** lines 325-338 [getComponentEdge] *)
Definition getComponentEdge (s : cg) (component : string) : res edge :=
  if negb (mem component (dvals (c_map s))) then Err ValueError
  else match component with
       | EmptyString => Err IndexError
       | _ => if capacitive component then
                match dget (by_component (c_map s)) component with Some e => Ok e | None => Err KeyError end
              else bind (wc_by_component s) (fun d => match dget d component with Some e => Ok e | None => Err KeyError end)
       end.
(** lines 242-251 [isEdgeInSuperconductingLoop] *)
Definition isEdgeInLoop (s : cg) (e : edge) : res bool :=
  if negb (dmem (c_map s) e) then Err ValueError
  else match c_loops s with None => Err AttributeError | Some l => Ok (existsb (fun x => mem e (snd x)) l) end.
(** lines 253-283 [isCapacitiveEdge] ... [isPhaseSlipEdge] *)
Definition is_type (p : ascii) (s : cg) (e : edge) : res bool :=
  match dget (c_map s) e with
  | None => Err KeyError
  | Some EmptyString => Err IndexError
  | Some c => Ok (starts p c)
  end.
Definition isInductiveEdge := is_type "L".
(** lines 285-323 [getCapacitiveEdges] ... [getPhaseSlipEdges] *)
Definition getCapacitiveEdges (s : cg) : dict string edge := filter (fun x => capacitive (fst x)) (by_component (c_map s)).
Definition get_edges_of (p : ascii) (s : cg) : res (dict string edge) :=
  bind (wc_by_component s) (fun d => Ok (filter (fun x => starts p (fst x)) d)).
Definition getInductiveEdges := get_edges_of "L".
Definition getJosephsonEdges := get_edges_of "I".
Definition getPhaseSlipEdges := get_edges_of "V".

(** a Python argument that should be a string *)
Inductive pyarg := PStr (s : string) | PNotStr.

(** lines 85-113 [coupleBranchesInductively] *)
Definition to_wc (s : cg) (e : edge) : res edge :=
  match c_wc s with None => Err AttributeError | Some es => Ok (if mem e es then e else rev_edge e) end.
Definition same_pair (a b : edge * edge) : bool :=
  (mem (fst a) [fst b; snd b]) && (mem (snd a) [fst b; snd b]) && (mem (fst b) [fst a; snd a]) && (mem (snd b) [fst a; snd a]).
Definition coupleBranches (s : cg) (i1 i2 m : string) : cg * res unit :=
  match m with
  | EmptyString => (s, Err IndexError)
  | _ =>
    let r :=
      if negb (starts "M" m) then Err TypeError
      else if dmem (c_coupled s) m then Err ValueError
      else bind (getComponentEdge s i1) (fun e1 => bind (getComponentEdge s i2) (fun e2 =>
           bind (isInductiveEdge s e1) (fun b1 => if negb b1 then Err TypeError else
           bind (isInductiveEdge s e2) (fun b2 => if negb b2 then Err TypeError else
           bind (to_wc s e1) (fun e1 => bind (to_wc s e2) (fun e2 =>
           if existsb (fun x => same_pair (e1, e2) (snd x)) (c_coupled s) then Err ValueError else Ok (e1, e2))))))) in
    match r with Ok p => (set_coupled s (dset (c_coupled s) m p), Ok tt) | Err e => (s, Err e) end
  end.

Definition nat_str (n : nat) : string := dec (N.of_nat n).
(** lines 115-159 [coupleResonatorCapacitively] *)
Definition coupleResonator (s : cg) (node : nat) (component : string) : cg * res unit :=
  if negb (mem node (g_nodes (c_graph s))) then (s, Err ValueError)
  else if Nat.eqb node 0 then (s, Err ValueError)
  else match dget (c_res s) node with
       | None => (s, Err KeyError)
       | Some (Some _) => (s, Err ValueError)
       | Some None =>
           match component with
           | EmptyString => (s, Err IndexError)
           | _ =>
               if negb (capacitive component) then (s, Err TypeError)
               else if mem component (dvals (c_map s)) then (s, Err ValueError)
               else
                 let n := nat_str node in
                 (set_res s (dset (c_res s) node (Some (mkres component ("f" ++ n ++ "r") ("Z" ++ n ++ "r") ("C" ++ n ++ "r")
                    ("L" ++ n ++ "r") ("g" ++ n ++ "r") ("f" ++ n ++ "rl") ("Z" ++ n ++ "rl"))%string)), Ok tt)
           end
       end.
(** lines 161-165 [removeAllResonators] *)
Definition removeAllResonators (s : cg) : cg := set_res s (fold_left (fun d n => dset d n None) (g_nodes (c_graph s)) (c_res s)).

(** lines 172-212 [addFluxBias] *)
Definition addFluxBias (s : cg) (comp : string) (suffix : pyarg) (m : option string) : cg * res unit :=
  let r :=
    bind (getComponentEdge s comp) (fun e => bind (isEdgeInLoop s e) (fun b => if negb b then Err TypeError else
    match suffix with
    | PNotStr => Err TypeError
    | PStr sfx =>
        if 8 <? String.length sfx then Err ValueError
        else match c_wc s with
        | None => Err AttributeError
        | Some wc =>
            if negb (mem e wc) && negb (mem (rev_edge e) wc) then Err TypeError
            else
              let e := if mem e wc then e else rev_edge e in
              bind (match m with
                    | None => Ok tt
                    | Some EmptyString => Err IndexError
                    | Some m => if negb (starts "M" m) then Err TypeError
                                else bind (isInductiveEdge s e) (fun b => if negb b then Err TypeError
                                else if mem m (dvals (c_map s)) then Err ValueError else Ok tt)
                    end) (fun _ =>
              if dmem (c_fbias s) e then Err ValueError
              else if mem sfx (map fb_suffix (dvals (c_fbias s))) then Err ValueError
              else Ok (e, mkfb m sfx))
        end
    end)) in
  match r with Ok (e, b) => (set_fbias s (dset (c_fbias s) e b), Ok tt) | Err x => (s, Err x) end.

(** lines 214-240 [addChargeBias] *)
Definition addChargeBias (s : cg) (node : nat) (suffix : pyarg) (c : option string) : cg * res unit :=
  let r :=
    if negb (mem node (g_nodes (c_graph s))) then Err ValueError
    else match suffix with
    | PNotStr => Err TypeError
    | PStr sfx =>
        if 8 <? String.length sfx then Err ValueError
        else
          bind (match c with
                | None => Ok tt
                | Some EmptyString => Err IndexError
                | Some c => if negb (capacitive c) then Err TypeError
                            else if mem c (dvals (c_map s)) then Err ValueError else Ok tt
                end) (fun _ =>
          if dmem (c_cbias s) node then Err ValueError
          else if mem sfx (map cb_suffix (dvals (c_cbias s))) then Err ValueError
          else Ok (mkcb c sfx))
    end in
  match r with Ok b => (set_cbias s (dset (c_cbias s) node b), Ok tt) | Err x => (s, Err x) end.

(** lines 340-353 [getEdgesSharedWithLoop] *)
Definition getEdgesSharedWithLoop (s : cg) (k : nat) : res (list edge) :=
  match c_loops s with
  | None => Err AttributeError
  | Some ls =>
      match dget ls k with
      | None => Err ValueError
      | Some l => Ok (fold_left (fun acc x => if Nat.eqb (fst x) k then acc
                                              else if existsb (fun e => mem e (snd x)) l then acc ++ filter (fun e => negb (mem e acc)) (dedup (snd x)) else acc) ls (dedup l))
      end
  end.

(** Histories of calls. *)
Inductive gop :=
| GBranch (o : orders) (n1 n2 : nat) (c : string)
| GCouple (i1 i2 m : string)
| GRes (n : nat) (c : string)
| GRemoveRes
| GFlux (c : string) (suffix : pyarg) (m : option string)
| GCharge (n : nat) (suffix : pyarg) (c : option string).
Definition gstep (s : cg) (o : gop) : cg * res unit :=
  match o with
  | GBranch o n1 n2 c => addBranch o s n1 n2 c
  | GCouple i1 i2 m => coupleBranches s i1 i2 m
  | GRes n c => coupleResonator s n c
  | GRemoveRes => (removeAllResonators s, Ok tt)
  | GFlux c sfx m => addFluxBias s c sfx m
  | GCharge n sfx c => addChargeBias s n sfx c
  end.
Definition grun (s : cg) (l : list gop) : cg := fold_left (fun s o => fst (gstep s o)) l s.
(** every call returned *)
Fixpoint accepted (s : cg) (l : list gop) : Prop :=
  match l with [] => True | o :: l => snd (gstep s o) = Ok tt /\ accepted (fst (gstep s o)) l end.
