(** Model of pyscqed/circuit_graph.py:514-594 [_get_loop_graph]. *)
From Coq Require Import List Bool String Arith.
From Verif Require Import Prelude Graph.
Import ListNotations.
Open Scope list_scope.
Open Scope nat_scope.

(** lines 521-529: branches by the ordered pair of nodes they are reported
    with. *)
Definition by_nodes (es : list edge) : dict (nat * nat) (list edge) :=
  fold_left (fun d e =>
    match dget d (fst e) with
    | Some l => dset d (fst e) (l ++ [e])
    | None => dset d (fst e) [e]
    end) es [].
(** line 530 *)
Definition duplicates (es : list edge) : dict (nat * nat) (list edge) :=
  filter (fun kv => 1 <? List.length (snd kv)) (by_nodes es).
(** lines 535-537: the loops of two neighbours in a list of parallel branches *)
Fixpoint pairs {X} (v : list X) : list (list X) :=
  match v with
  | a :: (b :: _) as r => [a; b] :: pairs r
  | _ => []
  end.
Definition two_node_loops (es : list edge) : list (list edge) := flat_map (fun kv => pairs (snd kv)) (duplicates es).
(** line 540 *)
Definition multi_edges (es : list edge) : list edge := flat_map snd (duplicates es).

(** lines 552 and 555: the branches of a cycle of nodes, key 0, smaller node
    first. *)
Definition sort_nodes (e : edge) : edge := if src e <? dst e then e else (dst e, src e, ekey e).
Definition cycle_edges (c : list nat) : list edge :=
  match c with
  | [] => []
  | a :: r => map sort_nodes (map (fun p => (p, 0)) (combine c r) ++ [(a, last r a, 0)])
  end.
(** lines 558-566: a parallel branch already used is replaced by the next one.
    State: multi_edges_used, multi_edges. *)
Definition use_edge (st : list edge * list edge) (e : edge) : (list edge * list edge) * edge :=
  let (used, multi) := st in
  if mem e used then (st, (src e, dst e, ekey e + 1))
  else if mem e multi then ((used ++ [e], filter (fun f => negb (eqb f e)) multi), e)
  else (st, e).
Fixpoint use_edges (st : list edge * list edge) (es : list edge) : (list edge * list edge) * list edge :=
  match es with
  | [] => (st, [])
  | e :: r => let (st1, e') := use_edge st e in let (st2, r') := use_edges st1 r in (st2, e' :: r')
  end.
Fixpoint use_cycles (st : list edge * list edge) (cs : list (list nat)) : list (list edge) :=
  match cs with
  | [] => []
  | c :: r => let (st1, es) := use_edges st (cycle_edges c) in es :: use_cycles st1 r
  end.
(** lines 533-569: the values of loops_map, whose keys count from 0. [cb] is
    what networkx.cycle_basis returns for the graph with at most one edge for
    each two nodes. *)
Definition loops_of (es : list edge) (cb : list (list nat)) : list (list edge) :=
  two_node_loops es ++ use_cycles ([], multi_edges es) cb.
(** lines 573-584: loop_adjacency_map *)
Definition adjacency (ls : list (list edge)) : dict (nat * nat) (list edge) :=
  filter (fun kv => match snd kv with [] => false | _ => true end)
    (flat_map (fun i => map (fun j => ((i, j), filter (fun k => mem k (nth j ls [])) (nth i ls [])))
                            (seq (i + 1) (List.length ls - (i + 1))))
              (seq 0 (List.length ls - 1))).
Definition loops_map (s : cg) (cb : list (list nat)) : list (list edge) :=
  loops_of (map fst (edge_map (c_graph s))) cb.
