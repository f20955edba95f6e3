(** Vocabulary for stating the properties of CircuitGraph: multigraph notions
    defined on plain lists of branches, without the model's algorithms. *)
From Coq Require Import List Bool String Ascii Arith Permutation.
From Verif Require Import Prelude Graph.
Import ListNotations.
Open Scope string_scope.
Open Scope list_scope.
Open Scope nat_scope.

(** Two reports of the same branch: up to direction. *)
Definition same_branch (e f : edge) : Prop := f = e \/ f = (dst e, src e, ekey e).
(** A direction-free name of a branch. *)
Definition norm (e : edge) : edge := (Nat.min (src e) (dst e), Nat.max (src e) (dst e), ekey e).

(** Nodes joined by a chain of branches. *)
Inductive conn (E : list edge) : nat -> nat -> Prop :=
| conn_refl x : conn E x x
| conn_fwd e y : In e E -> conn E (dst e) y -> conn E (src e) y
| conn_bwd e y : In e E -> conn E (src e) y -> conn E (dst e) y.

(** No loops: the ends of a branch are not joined by the others. *)
Definition acyclic (E : list edge) : Prop :=
  forall l1 e l2, E = l1 ++ e :: l2 -> ~ conn (l1 ++ l2) (src e) (dst e).

(** R contains exactly one node of every connected part. *)
Definition parts (E : list edge) (nodes R : list nat) : Prop :=
  NoDup R /\ (forall r, In r R -> In r nodes) /\
  (forall x, In x nodes -> exists r, In r R /\ conn E r x) /\
  (forall r r', In r R -> In r' R -> conn E r r' -> r = r').

(** Number of branch ends at a node. *)
Definition degree (E : list edge) (x : nat) : nat :=
  fold_right (fun e n => (if Nat.eqb (src e) x then 1 else 0) + (if Nat.eqb (dst e) x then 1 else 0) + n) 0 E.
Definition closed (E : list edge) : Prop := forall x, Nat.even (degree E x) = true.

(** The branches of the circuit that are not capacitors. *)
Definition noncap (g : mgraph) : list edge :=
  map fst (filter (fun b => match snd b with String "C" _ => false | _ => true end) (g_edges g)).
(** Every non-capacitive branch from a node to itself sits on a node with
    another non-capacitive branch leading elsewhere. *)
Definition no_lone_selfloop (E : list edge) : Prop :=
  forall e, In e E -> src e = dst e -> exists f, In f E /\ src f <> dst f /\ (src f = src e \/ dst f = src e).

(** Orders in which Python may iterate a set: any permutation. *)
Definition valid_orders (o : orders) : Prop :=
  (forall l, Permutation (o_nodes o l) l) /\ (forall l, Permutation (o_edges o l) l).
Definition valid_op (o : gop) : Prop := match o with GBranch o _ _ _ => valid_orders o | _ => True end.
Definition is_branch (o : gop) : bool := match o with GBranch _ _ _ _ => true | _ => false end.

(** States of a CircuitGraph object after any calls, also failed ones. *)
Inductive reachable : cg -> Prop :=
| reach_new : reachable cg_new
| reach_step s o : reachable s -> valid_op o -> reachable (fst (gstep s o)).
(** "A circuit": the last addBranch that was called returned (other calls may
    follow, failing or not). *)
Inductive circuit : cg -> Prop :=
| circ_branch s o a b c s' : reachable s -> valid_orders o -> addBranch o s a b c = (s', Ok tt) -> circuit s'
| circ_other s o : circuit s -> is_branch o = false -> circuit (fst (gstep s o)).

(** a occurs before b in the list, or a = b *)
Definition before (ns : list nat) (a b : nat) : Prop := exists l1 l2, ns = l1 ++ a :: l2 /\ In b (a :: l2).
(** Every node has been attached to an earlier node of its connected part,
    except the first node of each part. *)
Definition rooted (ns : list nat) (E : list edge) : Prop :=
  forall v u, In v ns -> before ns u v -> u <> v -> conn E u v ->
    exists e w, In e E /\ before ns w v /\ w <> v /\ ((src e = w /\ dst e = v) \/ (src e = v /\ dst e = w)).
(** A connected part of fewer than half of the nodes is iterated (as a Python
    set) in the order in which its nodes were added to the circuit. *)
Definition agrees (o : orders) (ns : list nat) (E : list edge) : Prop :=
  forall c, NoDup c -> c <> [] -> (forall x, In x c -> In x ns) -> (forall x y, In x c -> In y ns -> (In y c <-> conn E x y)) ->
    2 * List.length c < List.length ns -> o_nodes o c = filter (fun n => mem n c) ns.

(** Number of branches between two nodes, in either direction. *)
Definition parallel (g : mgraph) (a b : nat) : nat :=
  List.length (filter (fun x => let '((u, v, _), _) := x in ((u =? a) && (v =? b)) || ((u =? b) && (v =? a))) (g_edges g)).
(** Branch e (in either direction) carries component c. *)
Definition carries (g : mgraph) (e : edge) (c : string) : Prop := exists b, In b (g_edges g) /\ snd b = c /\ same_branch (fst b) e.
Definition component_names (g : mgraph) : list string := map snd (g_edges g).
(** First letter C, L, I or V. *)
Definition branch_name (c : string) : bool :=
  match c with String a _ => Ascii.eqb a "C" || Ascii.eqb a "L" || Ascii.eqb a "I" || Ascii.eqb a "V" | EmptyString => false end.
Definition begins (a : ascii) (c : string) : Prop := exists r, c = String a r.

(** e is one of the branches of a loop in sc_loops *)
Definition in_loop (s : cg) (e : edge) : Prop := exists ls k l, c_loops s = Some ls /\ dget ls k = Some l /\ In e l.
Definition flux_allowed (s : cg) (comp : string) (suffix : pyarg) (m : option string) (e : edge) (sfx : string) : Prop :=
  carries (c_graph s) e comp /\ in_loop s e /\ suffix = PStr sfx /\ String.length sfx <= 8 /\
  (forall e' b, dget (c_fbias s) e' = Some b -> fb_suffix b <> sfx) /\ dget (c_fbias s) e = None /\
  (m = None \/ exists r, m = Some (String "M" r) /\ begins "L" comp).
Definition charge_allowed (s : cg) (n : nat) (suffix : pyarg) (c : option string) (sfx : string) : Prop :=
  In n (g_nodes (c_graph s)) /\ suffix = PStr sfx /\ String.length sfx <= 8 /\
  (forall n' b, dget (c_cbias s) n' = Some b -> cb_suffix b <> sfx) /\ dget (c_cbias s) n = None /\
  (c = None \/ exists r, c = Some (String "C" r) /\ ~ In (String "C" r) (component_names (c_graph s))).
(** i1 and i2 are inductors of the conductive circuit, on branches e1 and e2,
    with no coupling entry for these two branches. *)
Definition couple_allowed (s : cg) (i1 i2 m : string) (e1 e2 : edge) : Prop :=
  begins "M" m /\ dget (c_coupled s) m = None /\ begins "L" i1 /\ begins "L" i2 /\
  (exists wc, c_wc s = Some wc /\ In e1 wc /\ In e2 wc) /\ carries (c_graph s) e1 i1 /\ carries (c_graph s) e2 i2 /\
  forall m' p, dget (c_coupled s) m' = Some p -> p <> (e1, e2) /\ p <> (e2, e1).
Definition res_allowed (s : cg) (n : nat) (c : string) : Prop :=
  In n (g_nodes (c_graph s)) /\ n <> 0 /\ dget (c_res s) n = Some None /\ begins "C" c /\ ~ In c (component_names (c_graph s)).

(** The graph with one more branch. *)
Definition plus_node (ns : list nat) (n : nat) : list nat := if existsb (Nat.eqb n) ns then ns else ns ++ [n].
Definition with_branch (g : mgraph) (a b : nat) (c : string) : mgraph :=
  mkg (plus_node (plus_node (g_nodes g) a) b) (g_edges g ++ [((a, b, parallel g a b), c)]).
(** The branch c from a to b joins two nodes of the circuit, or is a
    non-capacitive branch with at most one new node (or the first branch). *)
Definition attaches (s : cg) (a b : nat) (c : string) : Prop :=
  (In a (g_nodes (c_graph s)) /\ In b (g_nodes (c_graph s))) \/
  (~ begins "C" c /\ (g_nodes (c_graph s) = [] \/ In a (g_nodes (c_graph s)) \/ In b (g_nodes (c_graph s)))).
(** Histories in which every addBranch call attaches a branch with a valid new
    name. Other calls are not restricted. *)
Inductive grown : cg -> Prop :=
| grown_new : grown cg_new
| grown_branch s o a b c : grown s -> valid_orders o -> branch_name c = true -> ~ In c (component_names (c_graph s)) -> attaches s a b c ->
    grown (fst (addBranch o s a b c))
| grown_other s o : grown s -> is_branch o = false -> grown (fst (gstep s o)).

(** Names of all elements: branches, mutual inductances, couplings of flux
    biases, charge biases and resonators. *)
Definition opt_list {A} (o : option A) : list A := match o with Some x => [x] | None => [] end.
Definition element_names (s : cg) : list string :=
  component_names (c_graph s) ++ dkeys (c_coupled s) ++ flat_map (fun b => opt_list (fb_mutual b)) (dvals (c_fbias s)) ++
  flat_map (fun b => opt_list (cb_cap b)) (dvals (c_cbias s)) ++ flat_map (fun r => match r with Some r => [r_coupling r] | None => [] end) (dvals (c_res s)).
