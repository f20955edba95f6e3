(** Property theorems: operators, Hamiltonian, classical potential and resonator
    response of NumericalSystem (C54-C57, C62-C64). *)
From Coq Require Import List Bool Arith ZArith Reals Permutation Lra Lia.
From Coquelicot Require Import Complex.
From Verif Require Import Prelude Sweep Mat Graph Symbolic NumOp NumOpSpec NumExpand NumOpProofs.
Import ListNotations.
Open Scope nat_scope.

(** C54. With every node in the charge or oscillator basis the operators can be
    generated, have the dimension of the node in its place, and the size is the
    product of the dimensions; *)
Theorem C54_size_partial : forall eigh inv z ka kb pmax chg flx nodes cmds,
  let gen := getOperatorList eigh inv z ka kb pmax chg flx in
  let data := configure_all nodes cmds in
  NoDup nodes -> (forall n, In n nodes -> exists d, dget data n = Some d /\ (od_basis d = BCharge \/ od_basis d = BOscillator)) ->
  exists circ, getExpandedOperatorsMap gen nodes data None [] = Ok circ /\
  forall i n, nth_error nodes i = Some n -> exists d o c, dget data n = Some d /\ gen n d = Ok o /\ dget circ n = Some c /\
    nth_error (c_dims c) i = Some (o_dim o) /\ List.length (c_dims c) = List.length nodes /\
    fold_right Nat.mul 1 (c_dims c) = getHilbertSpaceSize data.
Proof. exact c54_size. Qed.
Print Assumptions C54_size_partial.
(** a node in the flux basis is not counted. *)
Theorem C54_size_refuted : forall eigh inv z ka kb pmax chg flx t,
  let gen := getOperatorList eigh inv z ka kb pmax chg flx in
  let data := configure_all [1] [(1, (t, BFlux))] in
  exists circ c, getExpandedOperatorsMap gen [1] data None [] = Ok circ /\ dget circ 1 = Some c /\
    fold_right Nat.mul 1 (c_dims c) = 2 * t + 1 /\ getHilbertSpaceSize data = 1.
Proof. exact c54_flux. Qed.
Print Assumptions C54_size_refuted.
Example C54_witness : let data := configure_all [1; 2; 3] [(1, (5, BCharge)); (3, (4, BCharge)); (2, (7, BOscillator)); (9, (1, BCharge)); (3, (2, BCharge))] in
  (forall n, In n [1; 2; 3] -> exists d, dget data n = Some d /\ (od_basis d = BCharge \/ od_basis d = BOscillator)) /\ getHilbertSpaceSize data = 11 * 7 * 5.
Proof. split; [|reflexivity]. intros n [<-|[<-|[<-|[]]]]; eexists; (split; [reflexivity | cbn; auto]). Qed.

(** C55. All operators of two different nodes commute; *)
Theorem C55_commute : forall eigh inv z ka kb pmax chg flx nodes data circ0 circ,
  let gen := getOperatorList eigh inv z ka kb pmax chg flx in
  NoDup nodes -> getExpandedOperatorsMap gen nodes data None circ0 = Ok circ ->
  forall n m c c', In n nodes -> In m nodes -> n <> m -> dget circ n = Some c -> dget circ m = Some c' ->
  c_dims c = c_dims c' /\
  forall A B, In A [cQ c; cP c; cD c; cDd c; cS c; cSd c] -> In B [cQ c'; cP c'; cD c'; cDd c'; cS c'; cSd c'] ->
    commute (fold_right Nat.mul 1 (c_dims c)) A B.
Proof. exact c55_commute. Qed.
Print Assumptions C55_commute.
(** products on one node expand to products. *)
Theorem C55_product : forall il i d A B la lb lab, i < List.length il -> olist il i d A = Ok la -> olist il i d B = Ok lb -> olist il i d (mul d A B) = Ok lab ->
  map fst la = map fst lab /\ nth_error (map fst la) i = Some d /\
  let N := fold_right Nat.mul 1 (map fst la) in same N (mul N (tensor la) (tensor lb)) (tensor lab).
Proof. exact c55_product. Qed.
Print Assumptions C55_product.
Example C55_witness : forall eigh inv, let gen := getOperatorList eigh inv (fun _ => 1%R) (fun _ => 1%R) (fun _ => 1%R) (fun _ => 1%R) 1%R 1%R in
  exists circ, getExpandedOperatorsMap gen [1; 2; 5] (configure_all [1; 2; 5] [(1, (1, BCharge)); (2, (2, BOscillator)); (5, (3, BCharge))]) None [] = Ok circ /\
  List.length circ = 3.
Proof. intros. eexists. split; reflexivity. Qed.

(** C56. The charge basis, for an eigensolver and an inverse that are right on
    the flux operator: the charge operator measures the charge, D raises it and
    annihilates the top state, its adjoint lowers it, [Q, D] = D, S is the
    identity. *)
Theorem C56_charge : forall eigh inv t, let N := 2 * t + 1 in let P := chargeP t in
  eigen_ok N P (fst (eigh N P)) (snd (eigh N P)) (inv N (snd (eigh N P))) ->
  let o := charge_basis eigh inv t in
  o_dim o = N /\
  (forall c i, (Z.abs c <= Z.of_nat t)%Z -> i < N -> apply N (oQ o) (charge_state t c) i = (RtoC (IZR c) * charge_state t c i)%C) /\
  (forall c i, (- Z.of_nat t <= c < Z.of_nat t)%Z -> i < N -> apply N (oD o) (charge_state t c) i = charge_state t (c + 1) i) /\
  (forall i, i < N -> apply N (oD o) (charge_state t (Z.of_nat t)) i = RtoC 0) /\
  (forall c i, (- Z.of_nat t < c <= Z.of_nat t)%Z -> i < N -> apply N (oDd o) (charge_state t c) i = charge_state t (c - 1) i) /\
  (forall i, i < N -> apply N (oDd o) (charge_state t (- Z.of_nat t)) i = RtoC 0) /\
  same N (fun i j => (mul N (oQ o) (oD o) i j - mul N (oD o) (oQ o) i j)%C) (oD o) /\
  same N (oS o) identity /\ same N (oSd o) identity.
Proof. exact c56_charge. Qed.
Print Assumptions C56_charge.
Example C56_witness : forall t, exists eigh inv, let N := 2 * t + 1 in let P := chargeP t in
  eigen_ok N P (fst (eigh N P)) (snd (eigh N P)) (inv N (snd (eigh N P))).
Proof. exact c56_witness. Qed.

(** C57. What getHamiltonian returns is Hermitian; *)
Theorem C57_hermitian_partial : forall eigh inv z ka kb pmax chg flx nodes data circ0 circ Qnp Pnp argord edges h H,
  let gen := getOperatorList eigh inv z ka kb pmax chg flx in
  NoDup nodes -> (forall l, Permutation (argord l) l) ->
  getExpandedOperatorsMap gen nodes data None circ0 = Ok circ ->
  op_vector cQ nodes circ = Ok Qnp -> op_vector cP nodes circ = Ok Pnp ->
  forall c n, In n nodes -> dget circ n = Some c ->
    getHamiltonian (fold_right Nat.mul 1 (c_dims c)) argord nodes edges h Qnp Pnp circ = Ok H -> hermitian (fold_right Nat.mul 1 (c_dims c)) H.
Proof. exact c57_herm. Qed.
Print Assumptions C57_hermitian_partial.
(** it returns if no branch with a junction or a phase slip joins a node to
    itself; *)
Theorem C57_total_partial : forall eigh inv z ka kb pmax chg flx nodes data circ0 circ Qnp Pnp argord edges h N,
  let gen := getOperatorList eigh inv z ka kb pmax chg flx in
  NoDup nodes -> (forall l, Permutation (argord l) l) ->
  getExpandedOperatorsMap gen nodes data None circ0 = Ok circ ->
  (forall i e, nth_error edges i = Some e -> h_J h i <> 0%R \/ h_Ps h i <> 0%R -> src e <> dst e /\ (In (src e) nodes \/ In (dst e) nodes)) ->
  exists H, getHamiltonian N argord nodes edges h Qnp Pnp circ = Ok H.
Proof. exact c57_total. Qed.
Print Assumptions C57_total_partial.
(** a junction from node 1 to itself raises IndexError. *)
Theorem C57_hermitian_refuted : forall eigh inv z ka kb pmax chg flx t,
  let gen := getOperatorList eigh inv z ka kb pmax chg flx in
  let data := configure_all [1] [(1, (t, BCharge))] in
  exists circ Qnp Pnp,
  getExpandedOperatorsMap gen [1] data None [] = Ok circ /\
  op_vector cQ [1] circ = Ok Qnp /\ op_vector cP [1] circ = Ok Pnp /\
  getHamiltonian (2 * t + 1) (fun l => l) [1] [((1, 1), 0)] hin1 Qnp Pnp circ = Err IndexError.
Proof. exact c57_self_loop. Qed.
Print Assumptions C57_hermitian_refuted.
Example C57_witness : forall eigh inv, let gen := getOperatorList eigh inv (fun _ => 1%R) (fun _ => 1%R) (fun _ => 1%R) (fun _ => 1%R) 1%R 1%R in
  let nodes := [1; 2] in let edges := [((0, 1), 0); ((1, 2), 0)] in
  exists circ Qnp Pnp H, getExpandedOperatorsMap gen nodes (configure_all nodes [(1, (1, BCharge)); (2, (2, BOscillator))]) None [] = Ok circ /\
  op_vector cQ nodes circ = Ok Qnp /\ op_vector cP nodes circ = Ok Pnp /\
  getHamiltonian 6 (fun l => l) nodes edges hin1 Qnp Pnp circ = Ok H.
Proof.
  intros. eexists _, _, _, _. split; [reflexivity|]. split; [reflexivity|]. split; [reflexivity|].
  unfold getHamiltonian, cosine_part. cbn [op_vector mapM dget bind List.length edges seq foldM hin1 h_J h_Ps].
  destruct (Req_EM_T 1 0) as [B|_]; [exfalso; lra|]. destruct (Req_EM_T 0 0) as [_|B]; [|exfalso; lra]. reflexivity.
Qed.

(** C62. For entries above the tolerance of tidyup and a right inverse of the
    correction, the commutator is i * ChgOsc * FlxOsc times the identity; *)
Theorem C62_commutator_partial : forall eigh inv dims n z chg flx ka kb, 2 <= n -> (0 < z)%R ->
  (/ 10 ^ 12 <= Rabs (sqrt (z / 2) * flx))%R -> (/ 10 ^ 12 <= Rabs (sqrt (1 / (2 * z)) * chg))%R ->
  same n (mul n (correction n) (inv n (correction n))) identity ->
  let o := oscillator_basis eigh inv n z chg flx ka kb in
  exists A, getCommutator inv dims n (oQ o) (oP o) BOscillator = Some A /\ same n A (fun i j => (Ci * RtoC (chg * flx) * identity i j)%C).
Proof. exact c62_canonical. Qed.
Print Assumptions C62_commutator_partial.
(** with a smaller prefactor it need not be a multiple of the identity. *)
Theorem C62_commutator_refuted : forall eigh inv dims ka kb, same 3 (mul 3 (inv 3 (correction 3)) (correction 3)) identity ->
  let o := oscillator_basis eigh inv 3 2 2 (4 / 5 * / 10 ^ 12) ka kb in
  exists A, getCommutator inv dims 3 (oQ o) (oP o) BOscillator = Some A /\ ~ exists c, same 3 A (fun i j => (c * identity i j)%C).
Proof. exact c62_tiny. Qed.
Print Assumptions C62_commutator_refuted.
(** the correction is invertible for every truncation from 2 *)
Example C62_witness : forall n, 2 <= n -> same n (mul n (correction n) (correction_inverse n)) identity /\ same n (mul n (correction_inverse n) (correction n)) identity.
Proof. exact c62_inverse. Qed.

(** C63. The potential of the Hamiltonian: on a joint eigenvector of the flux
    and displacement operators, H without charge and phase-slip energy (before
    rounding by tidyup) is the potential energy. *)
Theorem C63_quantum_partial : forall N argord nodes edges h Qnp Pnp circ v x H,
  (forall l, Permutation (argord l) l) -> h_Ec h = 0%R -> (forall i, h_Ps h i = 0%R) -> List.length Pnp = List.length nodes ->
  (forall i A k, nth_error Pnp i = Some A -> k < N -> apply N A v k = (RtoC (x i) * v k)%C) ->
  (forall i n c k, nth_error nodes i = Some n -> dget circ n = Some c -> k < N ->
     apply N (cD c) v k = (cis (2 * PI * x i) * v k)%C /\ apply N (cDd c) v k = (cis (- (2 * PI * x i)) * v k)%C) ->
  getHamiltonian N argord nodes edges h Qnp Pnp circ = Ok H ->
  exists H0, H = tidyup H0 /\ forall k, k < N ->
    apply N H0 v k = (RtoC (potential (List.length nodes) (List.length edges) (h_El h) (h_Ej h) (h_Linv h) (h_J h) (branch_flux nodes edges) x (h_Pbi h) (h_pb h)) * v k)%C.
Proof. exact c63_quantum. Qed.
Print Assumptions C63_quantum_partial.
(** The classical function exceeds it by twice the Josephson cosines: their sign
    is wrong; *)
Theorem C63_classical_partial : forall nodes edges h x b nb, let n := List.length nodes in let m := List.length edges in
  classical_potential nodes edges h x b nb =
  (potential n m (h_El h) (h_Ej h) (h_Linv h) (h_J h) (branch_flux nodes edges) x nb b +
   2 * (h_Ej h * rsum m (fun e => h_J h e * cos (2 * PI * (branch_flux nodes edges x e + b e)))))%R.
Proof. exact c63_classical. Qed.
Print Assumptions C63_classical_partial.
(** one junction and one inductor at zero flux: 1 instead of -1. *)
Theorem C63_classical_refuted : let h := mkhin (fun _ _ => 1%R) (fun _ _ => 1%R) (fun _ => 0%R) (fun _ => 0%R) (fun _ => 1%R) (fun _ => 0%R) (fun _ => 0%R) (fun _ => 0%R) 1%R 1%R 1%R 1%R in
  let nodes := [1] in let edges := [((0, 1), 0)] in
  classical_potential nodes edges h (fun _ => 0%R) (fun _ => 0%R) (fun _ => 0%R) = 1%R /\
  potential 1 1 (h_El h) (h_Ej h) (h_Linv h) (h_J h) (branch_flux nodes edges) (fun _ => 0%R) (fun _ => 0%R) (fun _ => 0%R) = (-1)%R.
Proof. exact c63_sign. Qed.
Print Assumptions C63_classical_refuted.
(** two levels of flux 0 and 1/2, one junction to ground *)
Example C63_witness : let v := basis 1 in let x := fun _ : nat => (1 / 2)%R in
  h_Ec w_h = 0%R /\ (forall i, h_Ps w_h i = 0%R) /\ List.length w_P = 1 /\
  (forall i A k, nth_error w_P i = Some A -> k < 2 -> apply 2 A v k = (RtoC (x i) * v k)%C) /\
  (forall i n c k, nth_error [1] i = Some n -> dget w_circ n = Some c -> k < 2 ->
     apply 2 (cD c) v k = (cis (2 * PI * x i) * v k)%C /\ apply 2 (cDd c) v k = (cis (- (2 * PI * x i)) * v k)%C) /\
  exists H, getHamiltonian 2 (fun l => l) [1] [((0, 1), 0)] w_h [] w_P w_circ = Ok H.
Proof. exact c63_witness. Qed.

(** C64. Without coupling, in whatever order the levels are: *)
Theorem C64_bare_partial : forall eigvalsh wrl E0 tmax nmax me, eigvalsh_diag eigvalsh -> 2 <= tmax -> me 0 1 <> RtoC 0 ->
  exists rows, getResonatorResponse eigvalsh true 0 wrl E0 tmax nmax me = Some (Ok rows) /\ List.length rows = nmax + 1 + tmax /\
  forall n i, n < nmax + 1 + tmax -> i < tmax ->
    exists row, nth_error rows n = Some row /\ List.length row = tmax /\
    nth_error row i = Some ((E0 i - E0 0%nat) + IZR (Z.of_nat n - Z.of_nat i) * wrl)%R.
Proof. exact NumOsc.resonator_bare. Qed.
Print Assumptions C64_bare_partial.
(** It fails when the matrix element of the lowest two levels is zero. *)
Theorem C64_bare_refuted : forall eigvalsh wrl E0 tmax nmax me, eigvalsh_diag eigvalsh -> 2 <= tmax -> me 0 1 = RtoC 0 ->
  getResonatorResponse eigvalsh true 0 wrl E0 tmax nmax me = Some (Err ValueError).
Proof. exact c64_zero_element. Qed.
Print Assumptions C64_bare_refuted.
Example C64_witness : exists eigvalsh, eigvalsh_diag eigvalsh.
Proof. exists diag_eig. exact diag_eig_ok. Qed.
