(** Specification of a change of node coordinates (C118). *)
From Coq Require Import List Bool String Ascii Arith ZArith Reals.
From Verif Require Import Prelude Mat Graph GraphSpec Symbolic SymbolicSpec SymHam.
Import ListNotations.
Open Scope string_scope.
Open Scope list_scope.
Open Scope nat_scope.

(** The branches of the system whose energy depends on the node fluxes. *)
Definition kind_at (y : ssys) (p : ascii) (e : edge) : Prop := In e (ss_edges y) /\ exists c, dget (c_map (ss_cg y)) e = Some c /\ letter p (e, c) = true.
(** How often a walk passes the branch a in its direction, less how often
    against it. *)
Fixpoint net (a : edge) (w : list (bool * edge)) : Z :=
  match w with [] => 0%Z | (d, e) :: w => ((if eqb e a then if d then 1 else -1 else 0) + net a w)%Z end.
(** Every closed walk through junctions and inductors passes a and b equally
    often: a loop has neither of them, or both in the same direction. *)
Definition same_loops (y : ssys) (a b : edge) : Prop :=
  forall w p, (forall x, In x w -> kind_at y "I" (snd x) \/ kind_at y "L" (snd x)) -> walk w p p -> net a w = net b w.
(** dl: a shift of the node phases, 0 at ground and on no inductor, that turns
    the Josephson energy of y into the one of y', whatever the component values. *)
Definition gauge (y y' : ssys) (ph : string -> R) (dl : nat -> R) : Prop :=
  dl 0 = 0%R /\ (forall e, kind_at y "L" e -> dl (src e) = dl (dst e)) /\
  forall val phi, phi 0 = 0%R -> getClassicalJosephsonEnergies y' val ph phi = getClassicalJosephsonEnergies y val ph (fun k => phi k + dl k)%R.
