(** Specification for circuits with resonators. *)
From Coq Require Import List Bool String Arith.
From Verif Require Import Prelude Graph.
Import ListNotations.
Open Scope list_scope.
Open Scope nat_scope.

(** The branches of a graph without their keys: end nodes and component. *)
Definition ends (g : mgraph) : list (nat * nat * string) := map (fun b => (src (fst b), dst (fst b), snd b)) (g_edges g).
(** The branches with an end at m. *)
Definition at_node (m : nat) (l : list (nat * nat * string)) : list (nat * nat * string) :=
  filter (fun b => Nat.eqb (fst (fst b)) m || Nat.eqb (snd (fst b)) m) l.
(** The components of a coupled resonator. *)
Definition res_names (r : resonator) : list string := [r_coupling r; r_Cr r; r_Lr r].
(** Sets of nodes are iterated in the order of the list ns. *)
Definition in_order (o : orders) (ns : list nat) : Prop :=
  forall c, NoDup c -> (forall x, In x c -> In x ns) -> o_nodes o c = filter (fun n => mem n c) ns.
