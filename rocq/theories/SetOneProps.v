(** Property theorems C134. *)
From Coq Require Import List Bool String Arith NArith ZArith SpecFloat.
From Verif Require Import Prelude Symbolic Float Param Expr Sweep Coll CollSpec CollFinal CollLast Temp
  NumOp NumSweep NumSweepSpec NumSweepWit NumSweepRef NumShared NumCoherentSpec NumSetOne NumSetOneProofs.
Import ListNotations.
Open Scope string_scope.
Open Scope list_scope.
Open Scope nat_scope.

Theorem C134_current : forall (A : alg) (LAW : alg_ok A) (sg : string -> string) (INJ : forall a b, sg a = sg b -> a = b) ord fuel sq (s s' : nsys A) n v,
  sreach sg (n_cst s) [] -> good_ord ord -> good_sq sq -> NoDup (dkeys (n_data s)) ->
  ns_set_one_st ord fuel sq s n v = (s', Ok tt) -> coherent sg s' /\ n_exprs s' = n_exprs s /\ n_data s' = n_data s.
Proof. exact @one_current. Qed.
Print Assumptions C134_current.
Theorem C134_same : forall (A : alg) ord fuel sq (s : nsys A) n v, independent (n_cst s) n ->
  ns_set_one_st ord fuel sq s n v = ns_set_st ord fuel sq s (SVDict [(n, v)]) /\ ns_set_one_st ord fuel sq s n v = ns_set_st ord fuel sq s (SVPos [n] [v]).
Proof. exact @one_many. Qed.
Print Assumptions C134_same.
Theorem C134_ignored : forall (A : alg) ord fuel sq (s : nsys A) n v s' r,
  registered (n_cst s) n -> parametric (n_cst s) n -> ns_set_one_st ord fuel sq s n v = (s', r) -> n_cst s' = n_cst s.
Proof. exact @one_ignored. Qed.
Print Assumptions C134_ignored.
Theorem C134_unset : forall (A : alg) (LAW : alg_ok A) (sg : string -> string) (INJ : forall a b, sg a = sg b -> a = b) sq (s : nsys A) n q v p p',
  sreach sg (n_cst s) [] -> independent (n_cst s) n -> independent (n_cst s) q -> q <> n -> value_of (n_cst s) q = None ->
  dget (c_coll (n_cst s)) n = Some p -> setValue p v = (p', Ok tt) ->
  exists m, forall ord fuel, good_ord ord -> m <= fuel -> exists s', ns_set_one_st ord fuel sq s n v = (s', Err AssertionError) /\
    value_of (n_cst s') n = p_value p' /\ (forall i, independent (n_cst s) i -> i <> n -> value_of (n_cst s') i = value_of (n_cst s) i) /\
    n_nums s' = n_nums s /\ n_circ s' = n_circ s /\ n_qp s' = n_qp s.
Proof. exact @one_unset. Qed.
Print Assumptions C134_unset.
(** One call after the other, whether or not each returns *)
Theorem C134_one_by_one : forall (A : alg) (LAW : alg_ok A) (sg : string -> string) (INJ : forall a b, sg a = sg b -> a = b) fuel sq (calls : list (ordr * string * pyval)) (s : nsys A),
  sreach sg (n_cst s) [] -> NoDup (map (fun c => snd (fst c)) calls) ->
  (forall o n v, In (o, n, v) calls -> good_ord o /\ independent (n_cst s) n /\ exists p p', dget (c_coll (n_cst s)) n = Some p /\ setValue p v = (p', Ok tt)) ->
  let s' := fold_left (fun s c => fst (ns_set_one_st (fst (fst c)) fuel sq s (snd (fst c)) (snd c))) calls s in
  sreach sg (n_cst s') [] /\
  (forall o n v p p', In (o, n, v) calls -> dget (c_coll (n_cst s)) n = Some p -> setValue p v = (p', Ok tt) -> value_of (n_cst s') n = p_value p') /\
  (forall i, independent (n_cst s) i -> ~ In i (map (fun c => snd (fst c)) calls) -> value_of (n_cst s') i = value_of (n_cst s) i).
Proof. exact @one_by_one. Qed.
Print Assumptions C134_one_by_one.
(** x and y without values: setting x raises and x is 1; setting y returns and
    the number x + y is 4. *)
Example C134_witness : sreach dsg (n_cst u_sys) [] /\ independent (n_cst u_sys) "x" /\ independent (n_cst u_sys) "y" /\ value_of (n_cst u_sys) "y" = None /\
  (exists p p', dget (c_coll (n_cst u_sys)) "x" = Some p /\ setValue p (PInt 1) = (p', Ok tt)) /\
  snd u_x = Err AssertionError /\ value_of (n_cst (fst u_x)) "x" = Some (fz 1) /\ n_nums (fst u_x) = [] /\
  NoDup (dkeys (n_data (fst u_x))) /\ snd u_xy = Ok tt /\ n_nums (fst u_xy) = [fz 4].
Proof. exact one_wit. Qed.
(** A parametric parameter: p = y * y in the system of C112 *)
Example C134_witness_ignored : registered (n_cst wsys) "p" /\ parametric (n_cst wsys) "p" /\ snd (ns_set_one_st idord 50 idsq wsys "p" (PInt 2)) = Ok tt.
Proof. exact one_wit_par. Qed.
Example C134_witness_one_by_one : let calls := [(idord, "x", PInt 1); (idord, "y", PInt 3)] in NoDup (map (fun c => snd (fst c)) calls) /\
  (forall o n v, In (o, n, v) calls -> good_ord o /\ independent (n_cst u_sys) n /\ exists p p', dget (c_coll (n_cst u_sys)) n = Some p /\ setValue p v = (p', Ok tt)) /\
  n_nums (fold_left (fun s c => fst (ns_set_one_st (fst (fst c)) 50 idsq s (snd (fst c)) (snd c))) calls u_sys) = [fz 4].
Proof. exact one_wit_calls. Qed.
