(** Property theorem: expressions over a sweep (C109). *)
From Coq Require Import List Bool String Arith ZArith.
From Verif Require Import Prelude Float Param Expr ExprProofs Sweep SweepProofs SweepResultProofs SweepProps NumSweep NumSweepSpec NumSweepWit ExprSweep ExprSweepProofs.
Import ListNotations.
Open Scope string_scope.
Open Scope nat_scope.

(** C109. One result for each point of the grid; the one at an index tuple has,
    for all values [r] of the other symbols, the value the expression has when
    every swept symbol has its value at that tuple ([r']). *)
Theorem C109_expr_sweep : forall (A : alg), alg_ok A -> forall sq old syparams (expr : E A) st specs st',
  good_sq sq -> ndSweep st specs = (st', Ok tt) -> specs <> [] -> NoDup (map sp_name specs) ->
  (forall n, In n (map sp_name specs) -> dget syparams n <> None) ->
  (forall n m s, In n (map sp_name specs) -> In m (map sp_name specs) -> dget syparams n = Some s -> dget syparams m = Some s -> n = m) ->
  exists sweeps results, grid_of st' (map sp_name specs) sweeps /\
    computeExprSweep sq old (Some syparams) (Some (Ok expr)) st specs = (st', results, Ok tt) /\
    List.length results = prodn (map (@List.length f64) sweeps) /\
    forall idx, inr (map (@List.length f64) sweeps) idx ->
      exists j e, collapsedIndices st' (map Z.of_nat idx) = Ok (Z.of_nat j) /\ nth_error results j = Some e /\
        forall r r' v,
          (forall k name sw s x, nth_error (map sp_name specs) k = Some name -> nth_error sweeps k = Some sw -> dget syparams name = Some s ->
             nth_error sw (nth k idx 0) = Some x -> r' s = Some (ofF x)) ->
          (forall s, (forall name, In name (map sp_name specs) -> dget syparams name <> Some s) -> r' s = r s) ->
          eval expr r' = Some v -> eval e r = Some v.
Proof. exact @c109. Qed.
Print Assumptions C109_expr_sweep.
(** sa + sb * free over the 2 x 3 x 2 grid, with free = 10 *)
Example C109_witness : alg_ok tree_alg /\ good_sq idsq /\
  let sy := [("a", "sa"); ("b", "sb"); ("c", "sc"); ("d", "free")] in
  ndSweep ex_st0 ex_specs = (ex_st, Ok tt) /\ NoDup (map sp_name ex_specs) /\
  match computeExprSweep idsq [] (Some sy) (Some (Ok ex_expr)) ex_st0 ex_specs with
  | (_, l, Ok tt) => map (fun e => @eval tree_alg e (fun s => if String.eqb s "free" then Some 10%Z else None)) l =
      map Some [0; 0; 20; 20; 40; 40; 1; 1; 21; 21; 41; 41]%Z
  | _ => False
  end.
Proof.
  split; [exact tree_alg_ok|]. split; [exact idsq_good|]. cbv zeta. split; [vm_compute; reflexivity|].
  split; [repeat constructor; cbn; intuition discriminate|]. vm_compute. reflexivity.
Qed.
