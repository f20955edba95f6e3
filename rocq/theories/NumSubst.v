(** Model of pyscqed/numerical_system.py lines 280-297 and 316-355
    [getSymbolicExpressions], [substitute]: the numbers that getHamiltonian
    uses, for given values of the symbols. *)
From Coq Require Import List Bool String Ascii Arith ZArith Reals.
From Verif Require Import Prelude Mat Graph Sweep Symbolic SymbolicFlux NumOp SymHam SymTotal.
Import ListNotations.
Open Scope nat_scope.

(** [Cinv]: the value of getInverseCapacitanceMatrix(); [P]: of the
    pseudo-inverse of getInductanceMatrix("branch"); [ec el ej ep]: the unit
    prefactors of the four kinds of energy. The flux bias prefactors are 1
    (symbolic_system.py line 760). Line 330: Pbsm[i,i] is the entry of
    getFluxBiasMatrix("branch"), so flux_bias of the Josephson edges; line 329:
    Qbt is Rnb * Qb. *)
Definition substitute (y : ssys) (w : vals) (Cinv P : nat -> nat -> R) (ec el ej ep : R) : res hin :=
  bind (getJosephsonVector y) (fun J => bind (getPhaseSlipVector y) (fun V => bind (josephson_bias y (ss_flux y)) (fun B =>
  Ok (mkhin Cinv (inverse_inductance (ss_nodes y) (ss_edges y) P)
        (charge_bias y (v_charge w))
        (node_bias (ss_nodes y) (ss_edges y) (ind_bias (ss_cg y) (ss_edges y) (fun j => branch_bias y (v_flux w) (nth j (ss_edges y) noedge))))
        (amp (v_par w) J) (amp (v_par w) V)
        (fun i => SymHam.total (v_flux w) (nth i B [])) (fun i => bias_val (v_charge w) (slip_bias y i))
        ec el ej ep)))).
