(** Vocabulary of C100-C102: sets of branches as elements of a vector space
    over the field with two elements. *)
From Coq Require Import List Bool Arith.
From Verif Require Import Prelude Graph GraphSpec.
Import ListNotations.
Open Scope list_scope.
Open Scope nat_scope.

Fixpoint xsum {X} (l : list X) (f : X -> bool) : bool :=
  match l with [] => false | x :: r => xorb (f x) (xsum r f) end.
Definition touches (v : nat) (p : nat * nat) : bool := xorb (fst p =? v) (snd p =? v).
(** the number of chosen elements that end at [v] is even, for every node *)
Definition even_at_nodes {X} (ends : X -> nat * nat) (U : list X) (f : X -> bool) : Prop :=
  forall v, xsum U (fun e => f e && touches v (ends e)) = false.
(** the symmetric difference of the sets chosen by [cs] *)
Fixpoint comb {X} `{EqB X} (cs : list bool) (L : list (list X)) (x : X) : bool :=
  match cs, L with
  | c :: cs, l :: L => xorb (c && mem x l) (comb cs L x)
  | _, _ => false
  end.
(** each closed subset of [U] is the symmetric difference of exactly one choice
    of members of [L] *)
Definition generates {X} `{EqB X} (ends : X -> nat * nat) (U : list X) (L : list (list X)) : Prop :=
  forall f, even_at_nodes ends U f ->
    exists cs, List.length cs = List.length L /\ (forall x, In x U -> f x = comb cs L x) /\
      forall cs', List.length cs' = List.length L -> (forall x, In x U -> f x = comb cs' L x) -> cs' = cs.

(** [L] is a basis of the closed subsets of [U]. *)
Definition cycle_space_basis {X} `{EqB X} (ends : X -> nat * nat) (U : list X) (L : list (list X)) : Prop :=
  (forall l, In l L -> even_at_nodes ends U (fun x => mem x l)) /\ generates ends U L.

(** the pair of nodes of a branch, smaller first *)
Definition unordered (p : nat * nat) : nat * nat := (Nat.min (fst p) (snd p), Nat.max (fst p) (snd p)).
Definition node_pairs (g : mgraph) : list (nat * nat) := dedup (map (fun b => unordered (fst (fst b))) (g_edges g)).
(** the pairs of neighbours along a closed chain of nodes *)
Definition around (c : list nat) : list (nat * nat) :=
  match c with [] => [] | a :: r => combine c (r ++ [a]) end.
(** a cycle of the graph: distinct nodes, neighbours joined; a node joined to
    itself, or at least three nodes *)
Definition is_cycle (g : mgraph) (c : list nat) : Prop :=
  NoDup c /\ (List.length c = 1 \/ 3 <= List.length c) /\ forall p, In p (around c) -> In (unordered p) (node_pairs g).
(** what networkx.cycle_basis promises *)
Definition is_cycle_basis (g : mgraph) (cb : list (list nat)) : Prop :=
  (forall c, In c cb -> is_cycle g c) /\
  cycle_space_basis (fun p => p) (node_pairs g) (map (fun c => map unordered (around c)) cb).
(** the branches of the circuit, without direction *)
Definition branches (g : mgraph) : list edge := map (fun b => norm (fst b)) (g_edges g).
