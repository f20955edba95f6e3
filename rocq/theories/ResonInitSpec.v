(** Specification of the constructor of a circuit with resonators (C88). *)
From Coq Require Import List Bool String Arith Reals.
From Verif Require Import Prelude Param Expr Coll Mat Graph Symbolic SymbolicSpec Sweep Reson ResonInit.
Import ListNotations.
Open Scope list_scope.
Open Scope nat_scope.

(** What is assumed of sympy: no expression has symbols that its arguments do
    not have, and where the n x n matrix of values has an inverse, the computed
    inverse has its values. *)
Record sympy_ok (X : sympy) (n : nat) : Prop := {
  so_C : forall f z x, In x (tfree (sy_C X f z)) -> x = f \/ x = z;
  so_L : forall f z x, In x (tfree (sy_L X f z)) -> x = f \/ x = z;
  so_f : forall a b l x, In x (tfree (sy_f X a b l)) -> In x (tfree a) \/ In x (tfree b) \/ In x (tfree l);
  so_Z : forall a b l x, In x (tfree (sy_Z X a b l)) -> In x (tfree a) \/ In x (tfree b) \/ In x (tfree l);
  so_g : forall a b l x, In x (tfree (sy_g X a b l)) -> In x (tfree a) \/ In x (tfree b) \/ In x (tfree l);
  so_inv : forall M K, sy_inv X n M = Ok K ->
    (forall i j t x, i < n -> j < n -> K i j = Some t -> In x (tfree t) -> exists k l u, k < n /\ l < n /\ M k l = Some u /\ In x (tfree u)) /\
    (forall v W, inverse n (fun i j => entry_val v (M i j)) W -> forall i j, i < n -> j < n -> entry_val v (K i j) = W i j)
}.
(** The inverse of the capacitance matrix of the extended circuit is found, and
    the elements that are read have at least two symbols each. *)
Definition inverse_found (ord : ordr) (X : sympy) (e : cg) (d : list (nat * (nat * nat))) : Prop :=
  forall y y' M, new_system ord (sy_pinv X) e = Some (Ok y) -> getCapacitanceMatrix ord y = (y', Ok M) ->
  exists K, sy_inv X (List.length (sys_nodes e)) M = Ok K /\
    forall n i j, In (n, (i, j)) d -> exists t u, K j j = Some t /\ 2 <= List.length (tfree t) /\ K i j = Some u /\ 2 <= List.length (tfree u).
(** [e] is the stored expression of the parameter [k]. *)
Definition stored (y : ssys) (k : string) (e : tree) : Prop := exists names, dget (c_par (ss_par y)) k = Some (e, names).
