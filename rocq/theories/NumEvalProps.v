(** C80-C85: the split Hamiltonian, currents, voltages, matrix elements and
    energies. *)
From Coq Require Import List Bool Ascii String Arith Lia ZArith Reals Lra Permutation.
From Coquelicot Require Import Complex.
From Verif Require Import Prelude Sweep Mat Util Graph Symbolic Units UnitsSpec UnitsRealProofs UnitsPhysProofs NumOp NumOpSpec NumExpand NumOpProofs NumEval NumEvalSpec NumEvalProofs NumEvalProofs2 NumEvalProofs3 NumEvalUnits.
Import ListNotations.
Open Scope list_scope.
Open Scope nat_scope.

(** C80. Without phase slips, the linear part plus the static Josephson parts
    recombined with the flux biases is the Hamiltonian before tidyup, and the
    lists have one entry per junction. *)
Theorem C80_split : forall N argord nodes edges h Qnp Pnp circ H,
  (forall i, h_Ps h i = 0%R) -> getHamiltonian N argord nodes edges h Qnp Pnp circ = Ok H ->
  exists L Rr, getStaticJosephsonPart N argord nodes edges h circ = Ok (L, Rr) /\
    List.length L = List.length (junctions (List.length edges) (h_J h)) /\ List.length Rr = List.length L /\
  exists H0, H = tidyup H0 /\
  forall r c, H0 r c = (getLinearPart N h Qnp Pnp r c + recombine (h_pb h) (junctions (List.length edges) (h_J h)) L Rr r c)%C.
Proof. exact c80_split. Qed.
Print Assumptions C80_split.
Example C80_witness : forall eigh inv, let gen := getOperatorList eigh inv (fun _ => 1%R) (fun _ => 1%R) (fun _ => 1%R) (fun _ => 1%R) 1%R 1%R in
  let nodes := [1; 2] in let edges := [((0, 1), 0); ((1, 2), 0)] in
  (forall i, h_Ps hin1 i = 0%R) /\
  exists circ Qnp Pnp H, getExpandedOperatorsMap gen nodes (configure_all nodes [(1, (1, BCharge)); (2, (2, BOscillator))]) None [] = Ok circ /\
  getHamiltonian 6 (fun l => l) nodes edges hin1 Qnp Pnp circ = Ok H.
Proof.
  intros. split; [reflexivity|]. eexists _, [], [], _. split; [reflexivity|].
  unfold getHamiltonian, cosine_part. cbn [op_vector mapM dget bind List.length edges seq foldM hin1 h_J h_Ps].
  destruct (Req_EM_T 1 0) as [B|_]; [exfalso; lra|]. destruct (Req_EM_T 0 0) as [_|B]; [|exfalso; lra]. reflexivity.
Qed.

(** C81. On a common eigenvector of the charge operators the voltage operator
    has the eigenvalue dE/dQ_n for a node coupled to no other; *)
Theorem C81_voltage_partial : forall N nodes h k Qnp n i A v x kap d,
  NoDup nodes -> nth_error nodes i = Some n -> List.length Qnp = List.length nodes ->
  (forall j, j < List.length nodes -> j <> i -> h_Cinv h i j = 0%R /\ h_Cinv h j i = 0%R) ->
  (forall j B, nth_error Qnp j = Some B -> eigenvector N B v (RtoC (x j))) ->
  e_Vop k = (kap * h_Ec h)%R ->
  partial_at (fun y => quad_energy (List.length nodes) (h_Ec h) (h_Cinv h) y (h_Qb h)) x i d ->
  getVoltageOperator nodes h k Qnp (Some n) = Ok A ->
  eigenvector N A v (RtoC (kap * d)).
Proof. exact c81_diag. Qed.
Print Assumptions C81_voltage_partial.
(** in general the terms of the other nodes are missing; *)
Theorem C81_voltage_exact_partial : forall N nodes h k Qnp n i A v x kap d,
  NoDup nodes -> nth_error nodes i = Some n -> List.length Qnp = List.length nodes ->
  (forall j B, nth_error Qnp j = Some B -> eigenvector N B v (RtoC (x j))) ->
  e_Vop k = (kap * h_Ec h)%R ->
  partial_at (fun y => quad_energy (List.length nodes) (h_Ec h) (h_Cinv h) y (h_Qb h)) x i d ->
  getVoltageOperator nodes h k Qnp (Some n) = Ok A ->
  eigenvector N A v (RtoC (kap * (d - h_Ec h / 2 * rsum (List.length nodes) (fun j => if Nat.eqb j i then 0 else (h_Cinv h i j + h_Cinv h j i) * (x j + h_Qb h j)))))%R.
Proof. exact c81_exact. Qed.
Print Assumptions C81_voltage_exact_partial.
(** two coupled nodes for which it is wrong. *)
Theorem C81_voltage_refuted : forall eigh inv z ka kb pmax chg flx, let gen := getOperatorList eigh inv z ka kb pmax chg flx in
  let nodes := [1; 2] in let x := fun j => INR j in
  exists circ Qnp A d,
    getExpandedOperatorsMap gen nodes (configure_all nodes [(1, (1, BCharge)); (2, (1, BCharge))]) None [] = Ok circ /\
    op_vector cQ nodes circ = Ok Qnp /\
    (forall j B, nth_error Qnp j = Some B -> eigenvector 9 B (basis 3) (RtoC (x j))) /\
    e_Vop k1 = h_Ec h2 /\ partial_at (fun y => quad_energy 2 (h_Ec h2) (h_Cinv h2) y (h_Qb h2)) x 0 d /\
    getVoltageOperator nodes h2 k1 Qnp (Some 1) = Ok A /\ ~ eigenvector 9 A (basis 3) (RtoC d).
Proof. exact c81_counter. Qed.
Print Assumptions C81_voltage_refuted.
Theorem C81_errors : forall nodes h k Qnp n, getVoltageOperator nodes h k Qnp None = Err PlainException /\
  (~ In n nodes -> getVoltageOperator nodes h k Qnp (Some n) = Err PlainException) /\
  (In n nodes -> exists A, getVoltageOperator nodes h k Qnp (Some n) = Ok A).
Proof. exact c81_errors. Qed.
Print Assumptions C81_errors.
Example C81_witness : forall eigh inv z ka kb pmax chg flx, let gen := getOperatorList eigh inv z ka kb pmax chg flx in
  exists circ Qnp, getExpandedOperatorsMap gen [1; 2] (configure_all [1; 2] [(1, (1, BCharge)); (2, (1, BCharge))]) None [] = Ok circ /\
    op_vector cQ [1; 2] circ = Ok Qnp /\ List.length Qnp = 2 /\
    (forall j B, nth_error Qnp j = Some B -> eigenvector 9 B (basis 3) (RtoC (INR j))) /\
    (exists d, partial_at (fun y => quad_energy 2 1 (e_Lb k1) y (fun _ => 1%R)) INR 0 d) /\
    (forall j, j < 2 -> j <> 0 -> e_Lb k1 0 j = 0%R /\ e_Lb k1 j 0 = 0%R).
Proof.
  intros. destruct (c81_counter eigh inv z ka kb pmax chg flx) as (circ & Q & A & d & E1 & E2 & E3 & _ & E4 & _). exists circ, Q. split; [exact E1|]. split; [exact E2|].
  split. { revert E2. unfold op_vector. cbn [mapM]. do 2 (destruct (dget circ _); [cbn [bind mapM]|discriminate]). intros E. injection E as <-. reflexivity. }
  split; [exact E3|]. split; [eexists; apply quad_partial; lia|]. intros [|[|j]] Hj Nj; try lia. split; reflexivity.
Qed.

(** C82. On a common eigenvector of the flux operators the current of an
    unbiased inductive branch coupled to no other has the eigenvalue
    kap * dE/dflux; *)
Theorem C82_inductive_partial : forall N argord s nodes edges h k circ e i A v x kap b d,
  (forall l, Permutation (argord l) l) -> index_of e edges = Ok i -> isInductiveEdge s e = Ok true ->
  (forall j n c, nth_error nodes j = Some n -> dget circ n = Some c -> eigenvector N (cP c) v (RtoC (x j))) ->
  e_IopL k = (kap * h_El h)%R -> h_J h i = 0%R -> b i = 0%R ->
  (forall j, j < List.length edges -> j <> i -> e_Lb k i j = 0%R /\ e_Lb k j i = 0%R) ->
  partial_at (fun y => branch_energy (List.length edges) (h_El h) (h_Ej h) (e_Lb k) (h_J h) y b) (branch_flux nodes edges x) i d ->
  getCurrentOperator N argord s nodes edges h k circ (Some e) = Ok A ->
  eigenvector N A v (RtoC (kap * d)).
Proof. exact c82_inductive_plain. Qed.
Print Assumptions C82_inductive_partial.
(** in general the bias and the mutual inductances are missing; *)
Theorem C82_inductive_exact_partial : forall N argord s nodes edges h k circ e i A v x kap b d,
  (forall l, Permutation (argord l) l) -> index_of e edges = Ok i -> isInductiveEdge s e = Ok true ->
  (forall j n c, nth_error nodes j = Some n -> dget circ n = Some c -> eigenvector N (cP c) v (RtoC (x j))) ->
  e_IopL k = (kap * h_El h)%R -> h_J h i = 0%R ->
  partial_at (fun y => branch_energy (List.length edges) (h_El h) (h_Ej h) (e_Lb k) (h_J h) y b) (branch_flux nodes edges x) i d ->
  getCurrentOperator N argord s nodes edges h k circ (Some e) = Ok A ->
  eigenvector N A v (RtoC (kap * (d - h_El h * e_Lb k i i * b i - h_El h / 2 * rsum (List.length edges) (fun j =>
     if Nat.eqb j i then 0 else (e_Lb k i j + e_Lb k j i) * (branch_flux nodes edges x j + b j)))))%R.
Proof. exact c82_inductive. Qed.
Print Assumptions C82_inductive_exact_partial.
(** a biased branch for which it is wrong. *)
Theorem C82_inductive_refuted : forall eigh inv ka kb pmax, let gen := getOperatorList eigh inv (fun _ => 2%R) ka kb pmax 1 1 in
  let v := fun _ : nat => RtoC 1 in let x := fun _ : nat => 1%R in let b := fun _ : nat => 1%R in
  exists circ A d,
    getExpandedOperatorsMap gen [1] (configure_all [1] [(1, (2, BOscillator))]) None [] = Ok circ /\
    (forall n c, dget circ n = Some c -> eigenvector 2 (cP c) v (RtoC (x n))) /\
    isInductiveEdge gL e01 = Ok true /\ e_IopL k1 = h_El h1 /\ h_J h1 0 = 0%R /\
    partial_at (fun y => branch_energy 1 (h_El h1) (h_Ej h1) (e_Lb k1) (h_J h1) y b) (branch_flux [1] [e01] x) 0 d /\
    getCurrentOperator 2 (fun l => l) gL [1] [e01] h1 k1 circ (Some e01) = Ok A /\ ~ eigenvector 2 A v (RtoC d).
Proof. exact c82_bias_counter. Qed.
Print Assumptions C82_inductive_refuted.
Example C82_witness : forall eigh inv ka kb pmax, let gen := getOperatorList eigh inv (fun _ => 2%R) ka kb pmax 1 1 in
  let v := fun _ : nat => RtoC 1 in let x := fun _ : nat => 1%R in let b := fun _ : nat => 0%R in
  index_of e01 [e01] = Ok 0 /\ isInductiveEdge gL e01 = Ok true /\ e_IopL k1 = (1 * h_El h1)%R /\
  (exists circ A, getExpandedOperatorsMap gen [1] (configure_all [1] [(1, (2, BOscillator))]) None [] = Ok circ /\
    (forall j n c, nth_error [1] j = Some n -> dget circ n = Some c -> eigenvector 2 (cP c) v (RtoC 1)) /\
    getCurrentOperator 2 (fun l => l) gL [1] [e01] h1 k1 circ (Some e01) = Ok A) /\
  exists d, partial_at (fun y => branch_energy 1 (h_El h1) (h_Ej h1) (e_Lb k1) (h_J h1) y b) (branch_flux [1] [e01] x) 0 d.
Proof.
  intros. split; [reflexivity|]. split; [exact gL_ind|]. split; [cbn; ring|]. split; [apply osc2_circ|]. eexists. apply branch_partial; lia.
Qed.
(** For a junction the sign is the opposite one: the current operator is minus
    kap times the derivative of the Josephson part by the branch bias, entry by
    entry; *)
Theorem C82_junction_partial : forall N argord s nodes edges h k circ e i A L Rr kap,
  index_of e edges = Ok i -> isInductiveEdge s e = Ok false -> h_J h i <> 0%R ->
  e_IopJ k = (kap * (2 * PI * h_Ej h))%R ->
  getStaticJosephsonPart N argord nodes edges h circ = Ok (L, Rr) ->
  getCurrentOperator N argord s nodes edges h k circ (Some e) = Ok A ->
  forall r c,
  derivable_pt_lim (fun t => kap * fst (recombine (put (h_pb h) i t) (junctions (List.length edges) (h_J h)) L Rr r c))%R (h_pb h i) (- fst (A r c))%R /\
  derivable_pt_lim (fun t => kap * snd (recombine (put (h_pb h) i t) (junctions (List.length edges) (h_J h)) L Rr r c))%R (h_pb h i) (- snd (A r c))%R.
Proof. exact c82_operator. Qed.
Print Assumptions C82_junction_partial.
(** the same on common eigenvectors of the displacement operators. *)
Theorem C82_junction_state_partial : forall N argord s nodes edges h k circ e i A v x kap d,
  (forall l, Permutation (argord l) l) -> index_of e edges = Ok i -> isInductiveEdge s e = Ok false ->
  (forall j n c, nth_error nodes j = Some n -> dget circ n = Some c ->
     eigenvector N (cD c) v (phase (2 * PI * x j)) /\ eigenvector N (cDd c) v (phase (- (2 * PI * x j)))) ->
  e_IopJ k = (kap * (2 * PI * h_Ej h))%R -> (forall j, j < List.length edges -> e_Lb k i j = 0%R /\ e_Lb k j i = 0%R) ->
  partial_at (fun y => branch_energy (List.length edges) (h_El h) (h_Ej h) (e_Lb k) (h_J h) y (h_pb h)) (branch_flux nodes edges x) i d ->
  getCurrentOperator N argord s nodes edges h k circ (Some e) = Ok A ->
  eigenvector N A v (RtoC (- (kap * d))).
Proof. exact c82_josephson. Qed.
Print Assumptions C82_junction_state_partial.
Example C82_junction_witness : forall x, let circ := [(1, w_cD x)] in let k := mkein (fun _ _ => 0%R) 1%R (2 * PI)%R 1%R in
  isInductiveEdge gI e01 = Ok false /\ e_IopJ k = (1 * (2 * PI * h_Ej hJ))%R /\
  (forall j n c, nth_error [1] j = Some n -> dget circ n = Some c ->
     eigenvector 2 (cD c) (basis 0) (phase (2 * PI * x)) /\ eigenvector 2 (cDd c) (basis 0) (phase (- (2 * PI * x)))) /\
  (exists A, getCurrentOperator 2 (fun l => l) gI [1] [e01] hJ k1 circ (Some e01) = Ok A) /\
  exists d, partial_at (fun y => branch_energy 1 (h_El hJ) (h_Ej hJ) (e_Lb k) (h_J hJ) y (h_pb hJ)) (branch_flux [1] [e01] (fun _ => x)) 0 d.
Proof. intros. split; [exact gI_ind|]. split; [cbn; ring|]. destruct (josephson_circ x) as [H1 H2]. split; [exact H1|]. split; [exact H2|]. eexists. apply branch_partial; lia. Qed.
(** one junction to ground in the charge basis. *)
Theorem C82_junction_refuted : exists eigh inv, forall z ka kb pmax chg flx, let gen := getOperatorList eigh inv z ka kb pmax chg flx in
  exists circ L Rr A,
    getExpandedOperatorsMap gen [1] (configure_all [1] [(1, (1, BCharge))]) None [] = Ok circ /\
    isInductiveEdge gI e01 = Ok false /\ e_IopJ k1 = (2 * PI * h_Ej hJ)%R /\
    getStaticJosephsonPart 3 (fun l => l) [1] [e01] hJ circ = Ok (L, Rr) /\
    getCurrentOperator 3 (fun l => l) gI [1] [e01] hJ k1 circ (Some e01) = Ok A /\
    ~ derivable_pt_lim (fun t => snd (recombine (put (h_pb hJ) 0 t) (junctions 1 (h_J hJ)) L Rr 0 1)) (h_pb hJ 0) (snd (A 0 1)).
Proof. exact c82_junction_counter. Qed.
Print Assumptions C82_junction_refuted.
(** the unit factor kap is that of output energy per flux quantum in output
    current, for inductors and junctions alike; the one of the voltage is per
    charge. *)
Theorem C82_units : forall (h : rheap) (u : runits) (s : usys R) el ej ec il ij vo, refreshed h u -> has_factors h u s -> positive s ->
  getPrefactor u "El" = Ok el -> getPrefactor u "Ej" = Ok ej -> getPrefactor u "Ec" = Ok ec ->
  getPrefactor u "IopL" = Ok il -> getPrefactor u "IopJ" = Ok ij -> getPrefactor u "Vop" = Ok vo ->
  il = (oI s / (oE s * sWb s) * el)%R /\ ij = (oI s / (oE s * sWb s) * (2 * PI * ej))%R /\ vo = (oU s / (oE s * sC s) * ec)%R.
Proof. exact units_kappa. Qed.
Print Assumptions C82_units.
Example C82_units_witness : exists (w : @world R_num) (u : runits) (s : usys R), nth_error (w_units w) 0 = Some u /\
  refreshed (w_heap w) u /\ has_factors (w_heap w) u s /\ positive s /\
  forall n, In n ["El"; "Ej"; "Ec"; "IopL"; "IopJ"; "Vop"]%string -> exists x, getPrefactor u n = Ok x.
Proof.
  destruct world0_cqed1 as [h [u [E [_ [W [C F]]]]]]. exists world0, u, cqed1_sys. rewrite E. pose proof (refreshed_consistent h u W C) as Rf.
  split; [reflexivity|]. split; [exact Rf|]. split; [exact F|]. split; [apply cqed1_positive|].
  intros n Hn. cbn in Hn. repeat (destruct Hn as [<-|Hn]; [eexists; eapply refreshed_get; eauto; reflexivity|]). easy.
Qed.

(** C83. The current and voltage operators are Hermitian. *)
Theorem C83_hermitian : forall eigh inv z ka kb pmax chg flx nodes data circ0 circ Qnp argord s edges h k n c,
  let gen := getOperatorList eigh inv z ka kb pmax chg flx in
  NoDup nodes -> (forall l, Permutation (argord l) l) ->
  getExpandedOperatorsMap gen nodes data None circ0 = Ok circ -> op_vector cQ nodes circ = Ok Qnp ->
  In n nodes -> dget circ n = Some c ->
  let N := fold_right Nat.mul 1 (c_dims c) in
  (forall e A, getCurrentOperator N argord s nodes edges h k circ (Some e) = Ok A -> hermitian N A) /\
  (forall m A, getVoltageOperator nodes h k Qnp (Some m) = Ok A -> hermitian N A).
Proof. exact c83_herm. Qed.
Print Assumptions C83_hermitian.
Example C83_witness : forall eigh inv, let gen := getOperatorList eigh inv (fun _ => 1%R) (fun _ => 1%R) (fun _ => 1%R) (fun _ => 1%R) 1%R 1%R in
  let nodes := [1; 2] in let edges := [e01; ((1, 2), 0)] in
  exists circ Qnp c A B B', getExpandedOperatorsMap gen nodes (configure_all nodes [(1, (1, BCharge)); (2, (2, BOscillator))]) None [] = Ok circ /\
  op_vector cQ nodes circ = Ok Qnp /\ dget circ 1 = Some c /\ fold_right Nat.mul 1 (c_dims c) = 6 /\
  getCurrentOperator 6 (fun l => l) gI nodes edges hin1 k1 circ (Some e01) = Ok A /\
  getCurrentOperator 6 (fun l => l) gL nodes edges hin1 k1 circ (Some e01) = Ok B /\ getVoltageOperator nodes hin1 k1 Qnp (Some 2) = Ok B'.
Proof.
  intros. eexists _, _, _, _, _, _. split; [reflexivity|]. split; [reflexivity|]. split; [reflexivity|]. split; [reflexivity|].
  unfold getCurrentOperator. rewrite gI_ind, gI_jos, gL_ind. split; [reflexivity|]. split; reflexivity.
Qed.

(** C84. What is returned for (i, j) is the real part of <v_i|O|v_j>, *)
Theorem C84_real_part_partial : forall N op V l out O, op = Ok O -> matrix_elements N op V (Some l) = Ok out ->
  List.length out = List.length l /\
  forall m i j u v, nth_error l m = Some (i, j) -> indexes V i u -> indexes V j v ->
    nth_error out m = Some (fst (inner N u (apply N O v))).
Proof. exact c84_real. Qed.
Print Assumptions C84_real_part_partial.
(** which for i = j and a Hermitian operator is the matrix element itself. *)
Theorem C84_diagonal_partial : forall N V l out O, hermitian N O -> matrix_elements N (Ok O) V (Some l) = Ok out ->
  forall m i j v, nth_error l m = Some (i, j) -> indexes V i v -> indexes V j v ->
    exists x, nth_error out m = Some x /\ RtoC x = inner N v (apply N O v).
Proof. exact c84_diag. Qed.
Print Assumptions C84_diagonal_partial.
(** Every list of valid indices, also negative ones, is answered. *)
Theorem C84_defined : forall N O V l, (forall i j, In (i, j) l -> exists u v, indexes V i u /\ indexes V j v) ->
  exists out, matrix_elements N (Ok O) V (Some l) = Ok out.
Proof. exact c84_defined. Qed.
Print Assumptions C84_defined.
(** An oscillator: <0|V|1> = -i, the result is 0. *)
Theorem C84_refuted : forall eigh inv ka kb pmax flx, let gen := getOperatorList eigh inv (fun _ => (1 / 2)%R) ka kb pmax 1 flx in
  exists circ Qnp A, getExpandedOperatorsMap gen [1] (configure_all [1] [(1, (2, BOscillator))]) None [] = Ok circ /\
    op_vector cQ [1] circ = Ok Qnp /\ getVoltageOperator [1] h1 k1 Qnp (Some 1) = Ok A /\ hermitian 2 A /\
    getVoltageMatrixElement 2 [1] h1 k1 Qnp [basis 0; basis 1] (Some 1) (Some [(0, 1)%Z]) = Ok [0%R] /\
    inner 2 (basis 0) (apply 2 A (basis 1)) = (- Ci)%C.
Proof. exact c84_counter. Qed.
Print Assumptions C84_refuted.
Theorem C84_errors : forall N op V l, matrix_elements N op V None = (match op with Ok _ => Err PlainException | Err e => Err e end) /\
  (forall e, op = Err e -> matrix_elements N op V l = Err e) /\
  (forall O i j r, op = Ok O -> (i >= Z.of_nat (List.length V) \/ i < - Z.of_nat (List.length V))%Z -> matrix_elements N op V (Some ((i, j) :: r)) = Err IndexError).
Proof. exact c84_errors. Qed.
Print Assumptions C84_errors.
Example C84_witness_index : indexes [basis 0; basis 1] (-1) (basis 1) /\ indexes [basis 0; basis 1] 1 (basis 1).
Proof. split; exists 1%nat; cbn; auto. Qed.
Example C84_witness : hermitian 2 (diagonal windex) /\
  matrix_elements 2 (Ok (diagonal windex)) [basis 0; basis 1] (Some [(0, 1)%Z; (1, 1)%Z]) = Ok [0%R; 1%R].
Proof.
  split.
  - intros i j Hi Hj. unfold diagonal, windex. rewrite (Nat.eqb_sym j i). destruct (Nat.eqb_spec i j) as [->|]; apply injective_projections; cbn; ring.
  - unfold matrix_elements. cbn [bind]. transitivity (@Ok (list R) [fst (matrix_element 2 (diagonal windex) (basis 0) (basis 1)); fst (matrix_element 2 (diagonal windex) (basis 1) (basis 1))]); [reflexivity|].
    do 2 f_equal; [|f_equal]; unfold matrix_element, diagonal, windex, basis; cbn; ring.
Qed.

(** C85. The charging and inductive energies are the coefficients of the node
    variables in the quadratic energies; the Josephson and phase slip energies
    half the height of the cosines. With no argument all are returned. *)
Theorem C85_energies : forall (nodes : list nat) (edges : list edge) h, NoDup nodes -> NoDup edges ->
  (exists dc df, getChargingEnergies nodes h None = Ok (Datatypes.inl dc) /\ getFluxEnergies nodes h None = Ok (Datatypes.inl df) /\ dkeys dc = nodes /\ dkeys df = nodes /\
   forall i n, nth_error nodes i = Some n -> exists ec ef, getChargingEnergies nodes h (Some n) = Ok (Datatypes.inr ec) /\ getFluxEnergies nodes h (Some n) = Ok (Datatypes.inr ef) /\
     dget dc n = Some ec /\ dget df n = Some ef /\
     forall x e, (quad_energy (List.length nodes) (h_Ec h) (h_Cinv h) (put x i (x i + e)) (h_Qb h) + quad_energy (List.length nodes) (h_Ec h) (h_Cinv h) (put x i (x i - e)) (h_Qb h)
                  - 2 * quad_energy (List.length nodes) (h_Ec h) (h_Cinv h) x (h_Qb h) = 2 * (e * e) * ec)%R /\
                 (quad_energy (List.length nodes) (h_El h) (h_Linv h) (put x i (x i + e)) (h_Pbi h) + quad_energy (List.length nodes) (h_El h) (h_Linv h) (put x i (x i - e)) (h_Pbi h)
                  - 2 * quad_energy (List.length nodes) (h_El h) (h_Linv h) x (h_Pbi h) = 2 * (e * e) * ef)%R) /\
  (exists dj dp, getJosephsonEnergies edges h None = Ok (Datatypes.inl dj) /\ getPhaseSlipEnergies edges h None = Ok (Datatypes.inl dp) /\ dkeys dj = edges /\ dkeys dp = edges /\
   forall i e, nth_error edges i = Some e -> exists ej ep, getJosephsonEnergies edges h (Some e) = Ok (Datatypes.inr ej) /\ getPhaseSlipEnergies edges h (Some e) = Ok (Datatypes.inr ep) /\
     dget dj e = Some ej /\ dget dp e = Some ep /\
     forall f b, (cosine_energy (List.length edges) (h_Ej h) (h_J h) (put f i (1 / 2 - b i)) b - cosine_energy (List.length edges) (h_Ej h) (h_J h) (put f i (- b i)) b = 2 * ej)%R /\
                 (cosine_energy (List.length edges) (h_Ep h) (h_Ps h) (put f i (1 / 2 - b i)) b - cosine_energy (List.length edges) (h_Ep h) (h_Ps h) (put f i (- b i)) b = 2 * ep)%R).
Proof. exact c85. Qed.
Print Assumptions C85_energies.
Theorem C85_errors : forall (nodes : list nat) (edges : list edge) h n e, ~ In n nodes -> ~ In e edges ->
  getChargingEnergies nodes h (Some n) = Err ValueError /\ getFluxEnergies nodes h (Some n) = Err ValueError /\
  getJosephsonEnergies edges h (Some e) = Err ValueError /\ getPhaseSlipEnergies edges h (Some e) = Err ValueError.
Proof. exact c85_errors. Qed.
Print Assumptions C85_errors.
Example C85_witness : NoDup [1; 2; 5] /\ NoDup [e01; ((1, 2), 0)] /\ ~ In 3 [1; 2; 5] /\ ~ In ((1, 2), 1) [e01; ((1, 2), 0)].
Proof. repeat split; repeat constructor; unfold e01; cbn; intuition discriminate. Qed.
