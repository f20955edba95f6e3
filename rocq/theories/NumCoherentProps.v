(** C112: the numbers and operators of a NumericalSystem are those of the
    parameter values it reports. *)
From Coq Require Import List Bool String Arith NArith ZArith SpecFloat.
From Verif Require Import Prelude Symbolic Float Param Expr Sweep Coll CollSpec CollFinal CollLast Temp
  NumOp NumSweep NumSweepSpec NumSweepWit NumSweepRef NumShared NumCoherentSpec NumCoherent.
Import ListNotations.
Open Scope string_scope.
Open Scope list_scope.
Open Scope nat_scope.

(** After a setParameterValues that did not raise, whatever the system was
    before. *)
Theorem C112_set_partial : forall (A : alg) (LAW : alg_ok A) (sg : string -> string) (INJ : forall a b, sg a = sg b -> a = b)
    ord fuel sq (s s' : nsys A) a,
  sreach sg (n_cst s) [] -> good_ord ord -> good_sq sq -> NoDup (dkeys (n_data s)) ->
  ns_set_st ord fuel sq s a = (s', Ok tt) -> coherent sg s'.
Proof. exact @set_coherent. Qed.
Print Assumptions C112_set_partial.
(** After a sweep, if it was so before and no impedance depends on a swept
    parameter. *)
Theorem C112_sweep_partial : forall (A : alg) (LAW : alg_ok A) (sg : string -> string) (INJ : forall a b, sg a = sg b -> a = b)
    (D K : Type) (meth : string -> K -> option (D * D) -> view -> res (value D)) (diagonalize : value D -> res (value D))
    (s : nsys A) specs s1 (o_set o_sw : nat -> ordr) (o_non o_re : ordr) fuel sqx sq_post sq_pre (kw0 : K) evals f t w,
  sreach sg (n_cst s) [] -> settled sg (n_cst s) -> (forall q, registered (n_cst s) q -> value_of (n_cst s) q <> None) ->
  (forall n, In n (map sp_name specs) -> independent (n_cst s) n) -> NoDup (dkeys (n_data s)) ->
  coherent sg s -> fixed_impedances s (map sp_name specs) -> with_grid s specs = Ok s1 -> can_write f t ->
  (forall i, good_ord (o_set i)) -> (forall i, good_ord (o_sw i)) -> good_ord o_non -> good_ord o_re ->
  (forall i, good_sq (sqx i)) -> (forall i, good_sq (sq_post i)) -> good_sq sq_pre ->
  numbers_along sg o_set fuel sqx s1 (seq 0 (Z.to_nat (s_npts (n_sw s1)))) \/ alg_plain A ->
  paramSweep meth diagonalize o_set o_sw fuel sq_post kw0 o_non o_re sq_pre s specs evals f t = Ok w -> coherent sg (w_sys w).
Proof. exact @sweep_coherent. Qed.
Print Assumptions C112_sweep_partial.
(** setParameterValues({"x": 2, "nope": 1}) raises, x is 2 and the numbers are
    those of x = 1. *)
Theorem C112_raise_refuted : coherent dsg wsys /\ (exists e, snd half = Err e) /\
  value_of (n_cst (fst half)) "x" = Some (fz 2) /\ n_nums (fst half) = n_nums wsys /\ ~ current_numbers dsg (fst half).
Proof. exact half_ref. Qed.
Print Assumptions C112_raise_refuted.
(** Two systems of one SymbolicSystem: setting x through one leaves the other
    with the numbers of the old x. *)
Theorem C112_shared_refuted : coherent dsg wsys /\ ns_set idord 50 idsq wsys (SVDict [("x", PInt 2)]) = Ok wother /\
  coherent dsg wother /\ ~ current_numbers dsg (shared wother wsys).
Proof. exact shared_ref. Qed.
Print Assumptions C112_shared_refuted.
(** A sweep of the impedance of a node leaves the operators of its first
    value. *)
Theorem C112_sweep_refuted : coherent dsg zsys /\ exists w,
  paramSweep cmeth cdiagz (fun _ => idord) (fun _ => idord) 50 (fun _ => idsq) 0%nat idord idord idsq zsys zspecs [] fs0 temp0 = Ok w /\
  value_of (n_cst (w_sys w)) "Zosc1" = Some (fz 2) /\ n_qp (w_sys w) = [osc 1] /\ ~ in_sync (w_sys w).
Proof. exact z_ref. Qed.
Print Assumptions C112_sweep_refuted.
(** A system and a sweep that meet what the theorems ask: the number is 12
    before and 18 after. *)
Example C112_witness : sreach dsg (n_cst wsys) [] /\ settled dsg (n_cst wsys) /\ (forall q, registered (n_cst wsys) q -> value_of (n_cst wsys) q <> None) /\
  (forall n, In n (map sp_name wspecs) -> independent (n_cst wsys) n) /\ NoDup (dkeys (n_data wsys)) /\ coherent dsg wsys /\
  fixed_impedances wsys (map sp_name wspecs) /\ with_grid wsys wspecs = Ok wgrid /\ @can_write nat fs0 temp0 /\
  numbers_along dsg (fun _ => idord) 50 (fun _ => revsq) wgrid (seq 0 (Z.to_nat (s_npts (n_sw wgrid)))) /\
  exists w, paramSweep cmeth cdiagz (fun _ => idord) (fun _ => idord) 50 (fun _ => idsq) 0%nat idord idord idsq wsys wspecs cevals fs0 temp0 = Ok w /\
    n_nums wsys = [fz 12] /\ n_nums (w_sys w) = [fz 18].
Proof. exact c112_wit. Qed.
