(** C110, C111: what parameter sweeps leave behind. *)
From Coq Require Import List Bool String Arith NArith ZArith SpecFloat.
From Verif Require Import Prelude Symbolic Float Param Expr Sweep Coll CollSpec CollFinal CollLast Temp
  NumOp NumSweep NumSweepSpec NumSweepWit NumSweepRef NumAfter SweepConf SweepConfSpec SweepConfProofs.
Import ListNotations.
Open Scope string_scope.
Open Scope list_scope.
Open Scope nat_scope.

(** C110. After a sweep the swept parameters hold the values of the last grid
    point, and every parameter that does not depend on them holds the value it
    had. *)
Theorem C110_after_partial : forall (A : alg) (LAW : alg_ok A) (sg : string -> string) (INJ : forall a b, sg a = sg b -> a = b)
    (D K : Type) (meth : string -> K -> option (D * D) -> view -> res (value D)) (diagonalize : value D -> res (value D))
    (o_set o_sw : nat -> ordr) fuel sq_post (s : nsys A) specs kw0 o_non o_re sq_pre evals f t w,
  sreach sg (n_cst s) [] -> settled sg (n_cst s) -> (forall i, good_ord (o_set i)) ->
  paramSweep meth diagonalize o_set o_sw fuel sq_post kw0 o_non o_re sq_pre s specs evals f t = Ok w ->
  (forall q, registered (n_cst (w_sys w)) q <-> registered (n_cst s) q) /\
  steady (n_cst s) (n_cst (w_sys w)) (map sp_name specs) /\
  (0 < Z.to_nat (s_npts (n_sw (w_sys w))) -> at_point (w_sys w) (Z.to_nat (s_npts (n_sw (w_sys w))) - 1)).
Proof. exact @after_lemma. Qed.
Print Assumptions C110_after_partial.
(** Setting the swept parameters to the values they had (which their bounds
    admit) succeeds and gives every parameter the value it had. *)
Theorem C110_restore : forall (A : alg) (LAW : alg_ok A) (sg : string -> string) (INJ : forall a b, sg a = sg b -> a = b)
    (D K : Type) (meth : string -> K -> option (D * D) -> view -> res (value D)) (diagonalize : value D -> res (value D))
    (o_set o_sw : nat -> ordr) fuel sq_post (s : nsys A) specs kw0 o_non o_re sq_pre evals f t w ord olds,
  sreach sg (n_cst s) [] -> settled sg (n_cst s) -> (forall i, good_ord (o_set i)) ->
  (forall n, In n (map sp_name specs) -> independent (n_cst s) n /\
     exists p x, dget (c_coll (n_cst s)) n = Some p /\ p_value p = Some x /\ snd (setValue p (PFloat x)) = Ok tt) ->
  paramSweep meth diagonalize o_set o_sw fuel sq_post kw0 o_non o_re sq_pre s specs evals f t = Ok w -> good_ord ord ->
  NoDup (map fst olds) -> (forall n x, In (n, x) olds <-> In n (map sp_name specs) /\ value_of (n_cst s) n = Some x) ->
  exists fuel0, forall fuel2, fuel0 <= fuel2 -> exists st',
    setParameterValues ord fuel2 (n_cst (w_sys w)) (SVDict (map (fun kv => (fst kv, PFloat (snd kv))) olds)) = (st', Ok tt) /\
    forall q, registered (n_cst s) q -> value_of st' q = value_of (n_cst s) q.
Proof. exact @restore_total. Qed.
Print Assumptions C110_restore.
(** x is 1 before the sweep and 3 after it. *)
Theorem C110_refuted : exists w, sreach dsg (n_cst wsys) [] /\ settled dsg (n_cst wsys) /\
  paramSweep cmeth cdiagz (fun _ => idord) (fun _ => idord) 50 (fun _ => idsq) 0%nat idord idord idsq wsys wspecs cevals fs0 temp0 = Ok w /\
  getParameterValue (n_cst wsys) "x" = Ok (Some (fz 1)) /\ getParameterValue (n_cst (w_sys w)) "x" = Ok (Some (fz 3)) /\ fz 1 <> fz 3.
Proof. exact after_ref. Qed.
Print Assumptions C110_refuted.
(** The same system meets what the two theorems ask. *)
Example C110_witness : alg_ok tree_alg /\ (forall a b, dsg a = dsg b -> a = b) /\
  (forall n, In n (map sp_name wspecs) -> independent (n_cst wsys) n /\
     exists p x, dget (c_coll (n_cst wsys)) n = Some p /\ p_value p = Some x /\ snd (setValue p (PFloat x)) = Ok tt) /\
  (forall n x, In (n, x) [("x", fz 1)] <-> In n (map sp_name wspecs) /\ value_of (n_cst wsys) n = Some x).
Proof. exact after_wit. Qed.

(** C111. After newSweep or a successful paramSweep, paramSweep sweeps what has
    been added since, and nothing else. *)
Theorem C111_asked_partial : forall (A : alg) (D K : Type) (meth : string -> K -> option (D * D) -> view -> res (value D))
    (diagonalize : value D -> res (value D)) (o_set o_sw : nat -> ordr) fuel sq_post (kw0 : K) o_non o_re sq_pre (a : api A D K) before ops sp ev,
  let sweep := runSweep meth diagonalize o_set o_sw fuel sq_post kw0 o_non o_re sq_pre in
  let step := astep meth diagonalize o_set o_sw fuel sq_post kw0 o_non o_re sq_pre in
  before = ANew \/ (before = ARun /\ exists files, snd (sweep a) = Ok files) ->
  let a1 := step a before in asked (a_sys a1) ops sp ev ->
  let a2 := fold_left step ops a1 in
  match paramSweep meth diagonalize o_set o_sw fuel sq_post kw0 o_non o_re sq_pre (a_sys a2) sp ev (a_fs a2) (a_temp a2) with
  | Ok w => snd (sweep a2) = Ok (w_files w) /\ a_sys (fst (sweep a2)) = w_sys w
  | Err e => snd (sweep a2) = Err e
  end.
Proof. exact @C111_lemma. Qed.
Print Assumptions C111_asked_partial.
(** The sweep with a negative number of points raises; so does every later one,
    though the sweep asked for since would succeed; the default evaluation has
    also stayed. *)
Theorem C111_refuted : snd (wsweep wfail) = Err ValueError /\ let a1 := wstep wfail ARun in
  asked (a_sys a1) wagain [mkspec "x" (PInt 1) (PInt 3) (PInt 3)] [mkentry "getChargingEnergies" false None 0%nat] /\
  let a2 := fold_left wstep wagain a1 in
  snd (wsweep a2) = Err ValueError /\ a_evals a2 = [mkentry "getHamiltonian" true None 0%nat; mkentry "getChargingEnergies" false None 0%nat] /\
  exists w, paramSweep cmeth cdiagz (fun _ => idord) (fun _ => idord) 50 (fun _ => idsq) 0%nat idord idord idsq (a_sys a2)
    [mkspec "x" (PInt 1) (PInt 3) (PInt 3)] [mkentry "getChargingEnergies" false None 0%nat] (a_fs a2) (a_temp a2) = Ok w.
Proof. exact c111_ref. Qed.
Print Assumptions C111_refuted.
(** With newSweep in between it runs. *)
Example C111_witness : asked (a_sys (wstep wfail ANew)) wagain [mkspec "x" (PInt 1) (PInt 3) (PInt 3)] [mkentry "getChargingEnergies" false None 0%nat] /\
  exists files, snd (wsweep (fold_left wstep wagain (wstep wfail ANew))) = Ok files /\ List.length files = 3.
Proof. exact c111_wit. Qed.
