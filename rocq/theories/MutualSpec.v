(** Specification of mutual inductances (C89). *)
From Coq Require Import List Bool String Ascii Arith Reals.
From Verif Require Import Prelude Param Expr Coll Graph GraphSpec Symbolic SymbolicSpec RSum.
Import ListNotations.
Open Scope string_scope.
Open Scope list_scope.
Open Scope nat_scope.

Section Mutual.
  Variable val : string -> R.
  (** The inductance of the inductor on a branch, 0 if there is none. *)
  Definition inductance_at (g : mgraph) (e : edge) : R := Rsum (map (fun b => if eqb (norm (fst b)) (norm e) then val (snd b) else 0%R) (branches_of "L" g)).
  (** The mutual inductance between two branches. *)
  Definition joins (x : string * (edge * edge)) (a b : edge) : bool := (eqb (fst (snd x)) a && eqb (snd (snd x)) b) || (eqb (fst (snd x)) b && eqb (snd (snd x)) a).
  Definition mutual (s : cg) (a b : edge) : R := Rsum (map (fun x => if joins x a b then val (fst x) else 0%R) (c_coupled s)).
  (** The flux through the inductor on branch e for branch currents I. *)
  Definition flux_of (s : cg) (I : edge -> R) (e : edge) : R :=
    (inductance_at (c_graph s) e * I e +
     Rsum (map (fun x => let '(m, (p, q)) := x in val m * ((if eqb p e then I q else 0) + (if eqb q e then I p else 0))) (c_coupled s)))%R.
  (** Twice the energy of the magnetic field of the currents. *)
  Definition magnetic (s : cg) (edges : list edge) (I : edge -> R) : R :=
    (Rsum (map (fun e => inductance_at (c_graph s) e * (I e * I e)) edges) + 2 * Rsum (map (fun x => let '(m, (p, q)) := x in val m * (I p * I q)) (c_coupled s)))%R.
End Mutual.
(** No inductor is coupled to itself. *)
Definition no_self_coupling (s : cg) : Prop := forall m p q, In (m, (p, q)) (c_coupled s) -> p <> q.
(** The branch is an inductor. *)
Definition holds_inductor (s : cg) (e : edge) : Prop := exists c, carries (c_graph s) e c /\ starts "L" c = true.
(** What is assumed of sympy's simplified pseudo-inverse of an n by n matrix of
    symbols: its entries mention only symbols of the matrix. *)
Definition symbols_from (n : nat) (oracle : imat -> nat -> nat -> option tree) : Prop :=
  forall M i j e sy, oracle M i j = Some e -> In sy (tfree e) -> exists k l c, k < n /\ l < n /\ M k l = Some c /\ sy = sym_of c.
(** Calls other than new branches, without mutual inductances to bias lines. *)
Definition late_call (o : gop) : Prop := match o with GBranch _ _ _ _ => False | GFlux _ _ m => m = None | _ => True end.
