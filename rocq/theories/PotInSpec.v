(** Specification of the classical potential function (C124). *)
From Coq Require Import List Bool String Ascii Arith ZArith Reals.
From Verif Require Import Prelude Mat Graph GraphSpec Coll Symbolic SymbolicSpec SymHam SymHamSpec MoveSpec.
Import ListNotations.
Open Scope string_scope.
Open Scope list_scope.
Open Scope nat_scope.

(** The elements of a set, in some order *)
Definition set_order (sord : list string -> list string) : Prop := forall l, NoDup (sord l) /\ forall x, In x (sord l) <-> In x l.
(** The bias x is on the branch e, which has a component of this letter. *)
Definition biased_at (y : ssys) (p : ascii) (e : edge) (x : string) : Prop := kind_at y p e /\ exists l, dget (ss_flux y) e = Some l /\ In x l.
(** Every parameter has a value. *)
Definition all_values (y : ssys) (val : string -> option R) : Prop := forall k, In k (dkeys (c_coll (ss_par y))) -> val k <> None.
Definition value_of (val : string -> option R) (k : string) : R := match val k with Some x => x | None => 0%R end.
Definition input (d : dict string R) (k : string) : R := match dget d k with Some x => x | None => 0%R end.
(** The fluxes of the nodes in the inputs; ground is 0. *)
Definition node_input (d : dict string R) (n : nat) : R := match n with 0 => 0%R | _ => input d ("phi" ++ number_str n) end.
(** The names of the inputs: one for each node and each bias of a junction. *)
Definition input_name (y : ssys) (k : string) : Prop :=
  (exists n, In n (ss_nodes y) /\ k = ("phi" ++ number_str n)%string) \/ (exists e x, biased_at y "I" e x /\ k = ("phi" ++ x)%string).
