(** Energies, unit prefactors and the witnesses beside C80-C85. *)
From Coq Require Import List Bool Ascii String Arith Lia ZArith Reals Lra Setoid Morphisms Permutation.
From Coquelicot Require Import Complex.
From Verif Require Import Prelude PreludeFacts Sweep SweepProofs SweepResultProofs Mat MatFacts Util UtilProofs Graph Symbolic SymbolicCap NumOp NumOpSpec NumKron NumSpectral NumCharge NumExpand NumHerm NumOsc NumPot NumOpProofs NumEval NumEvalSpec NumEvalProofs NumEvalProofs2.
Import ListNotations.
Open Scope list_scope.
Open Scope nat_scope.

Lemma quad_ext n c M x y b : (forall i, i < n -> x i = y i) -> quad_energy n c M x b = quad_energy n c M y b.
Proof. intros H. unfold quad_energy. f_equal. apply rsum_ext. intros i Hi. apply rsum_ext. intros j Hj. now rewrite !H. Qed.
Lemma quad_second n c M x b i e : i < n ->
  (quad_energy n c M (put x i (x i + e)) b + quad_energy n c M (put x i (x i - e)) b - 2 * quad_energy n c M x b = 2 * (e * e) * (1 / 2 * M i i * c))%R.
Proof.
  intros Hi. unfold Rminus at 2. rewrite !quad_put by easy. rewrite (quad_ext n c M (put x i (x i)) x) by (intros; apply put_at). field.
Qed.
Lemma cosine_swing m ej J f b i : i < m ->
  (cosine_energy m ej J (put f i (1 / 2 - b i)) b - cosine_energy m ej J (put f i (- b i)) b = 2 * (J i * ej))%R.
Proof.
  intros Hi. unfold cosine_energy.
  assert (G : forall t, rsum m (fun e => J e * cos (2 * PI * (put f i t e + b e)))%R = (J i * cos (2 * PI * (t + b i)) + rsum m (fun e => if Nat.eqb e i then 0 else J e * cos (2 * PI * (f e + b e))))%R).
  { intros t. rewrite (rsum_ext m _ (fun e => (if Nat.eqb e i then J e * cos (2 * PI * (t + b e)) else 0) + (if Nat.eqb e i then 0 else J e * cos (2 * PI * (f e + b e))))%R).
    - now rewrite rsum_plus, rsum_delta.
    - intros e _. unfold put. destruct (Nat.eqb e i); ring. }
  rewrite !G. replace (2 * PI * (1 / 2 - b i + b i))%R with PI by field. replace (2 * PI * (- b i + b i))%R with 0%R by ring. rewrite cos_PI, cos_0. ring.
Qed.
Lemma c85 (nodes : list nat) (edges : list edge) h : NoDup nodes -> NoDup edges ->
  (exists dc df, getChargingEnergies nodes h None = Ok (Datatypes.inl dc) /\ getFluxEnergies nodes h None = Ok (Datatypes.inl df) /\ dkeys dc = nodes /\ dkeys df = nodes /\
   forall i n, nth_error nodes i = Some n -> exists ec ef, getChargingEnergies nodes h (Some n) = Ok (Datatypes.inr ec) /\ getFluxEnergies nodes h (Some n) = Ok (Datatypes.inr ef) /\
     dget dc n = Some ec /\ dget df n = Some ef /\
     forall x e, (quad_energy (List.length nodes) (h_Ec h) (h_Cinv h) (put x i (x i + e)) (h_Qb h) + quad_energy (List.length nodes) (h_Ec h) (h_Cinv h) (put x i (x i - e)) (h_Qb h)
                  - 2 * quad_energy (List.length nodes) (h_Ec h) (h_Cinv h) x (h_Qb h) = 2 * (e * e) * ec)%R /\
                 (quad_energy (List.length nodes) (h_El h) (h_Linv h) (put x i (x i + e)) (h_Pbi h) + quad_energy (List.length nodes) (h_El h) (h_Linv h) (put x i (x i - e)) (h_Pbi h)
                  - 2 * quad_energy (List.length nodes) (h_El h) (h_Linv h) x (h_Pbi h) = 2 * (e * e) * ef)%R) /\
  (exists dj dp, getJosephsonEnergies edges h None = Ok (Datatypes.inl dj) /\ getPhaseSlipEnergies edges h None = Ok (Datatypes.inl dp) /\ dkeys dj = edges /\ dkeys dp = edges /\
   forall i e, nth_error edges i = Some e -> exists ej ep, getJosephsonEnergies edges h (Some e) = Ok (Datatypes.inr ej) /\ getPhaseSlipEnergies edges h (Some e) = Ok (Datatypes.inr ep) /\
     dget dj e = Some ej /\ dget dp e = Some ep /\
     forall f b, (cosine_energy (List.length edges) (h_Ej h) (h_J h) (put f i (1 / 2 - b i)) b - cosine_energy (List.length edges) (h_Ej h) (h_J h) (put f i (- b i)) b = 2 * ej)%R /\
                 (cosine_energy (List.length edges) (h_Ep h) (h_Ps h) (put f i (1 / 2 - b i)) b - cosine_energy (List.length edges) (h_Ep h) (h_Ps h) (put f i (- b i)) b = 2 * ep)%R).
Proof.
  intros NN NE. split.
  - destruct (energies_all nodes (fun i => (1 / 2 * h_Cinv h i i * h_Ec h)%R) NN) as (dc & E1 & K1 & G1).
    destruct (energies_all nodes (fun i => (1 / 2 * h_Linv h i i * h_El h)%R) NN) as (df & E2 & K2 & G2).
    exists dc, df. repeat (split; [assumption|]). intros i n Hi. assert (Li : i < List.length nodes) by (apply nth_error_Some; congruence).
    eexists _, _. split; [exact (energies_at nodes _ i n NN Hi)|]. split; [exact (energies_at nodes _ i n NN Hi)|]. split; [now apply G1|]. split; [now apply G2|].
    intros x e. split; now apply quad_second.
  - destruct (energies_all edges (fun i => (h_J h i * h_Ej h)%R) NE) as (dj & E1 & K1 & G1).
    destruct (energies_all edges (fun i => (h_Ps h i * h_Ep h)%R) NE) as (dp & E2 & K2 & G2).
    exists dj, dp. repeat (split; [assumption|]). intros i n Hi. assert (Li : i < List.length edges) by (apply nth_error_Some; congruence).
    eexists _, _. split; [exact (energies_at edges _ i n NE Hi)|]. split; [exact (energies_at edges _ i n NE Hi)|]. split; [now apply G1|]. split; [now apply G2|].
    intros f b. split; now apply cosine_swing.
Qed.
Lemma c85_errors (nodes : list nat) (edges : list edge) h n e : ~ In n nodes -> ~ In e edges ->
  getChargingEnergies nodes h (Some n) = Err ValueError /\ getFluxEnergies nodes h (Some n) = Err ValueError /\
  getJosephsonEnergies edges h (Some e) = Err ValueError /\ getPhaseSlipEnergies edges h (Some e) = Err ValueError.
Proof.
  assert (G : forall K `(EqB K) (l : list K) (x : K), ~ In x l -> index_of x l = Err ValueError).
  { intros K H l x. induction l as [|y l IH]; [easy|]. cbn [index_of]. intros Nx. destruct (eqb x y) eqn:E.
    - apply (proj1 (eqb_eq _ _)) in E. subst. destruct Nx. now left.
    - rewrite IH; [easy|]. intros Hx. apply Nx. now right. }
  intros Nn Ne. unfold getChargingEnergies, getFluxEnergies, getJosephsonEnergies, getPhaseSlipEnergies, energies. rewrite !G by assumption. easy.
Qed.

(** ** Witnesses *)
Lemma csum_zero n f : (forall i, i < n -> f i = RtoC 0) -> csum n f = RtoC 0.
Proof. induction n as [|n IH]; intros H; cbn; [easy|]. rewrite IH, (H n) by auto. apply Cplus_0_l. Qed.
Lemma apply_basis N A j k : j < N -> apply N A (basis j) k = A k j.
Proof.
  unfold apply, basis. induction N as [|N IH]; intros Hj; [lia|]. cbn [csum]. destruct (Nat.eqb_spec N j) as [->|Nj].
  - rewrite csum_zero; [rewrite Cplus_0_l; apply Cmult_1_r|]. intros i Hi. destruct (Nat.eqb_spec i j); [lia|]. apply Cmult_0_r.
  - rewrite IH by lia. rewrite Cmult_0_r. apply Cplus_0_r.
Qed.
Definition h2 : hin := mkhin (fun i j => if Nat.eqb i j then 2%R else 1%R) (fun _ _ => 0%R) (fun _ => 0%R) (fun _ => 0%R) (fun _ => 1%R) (fun _ => 0%R) (fun _ => 0%R) (fun _ => 0%R) 1%R 1%R 1%R 1%R.
Definition k1 : ein := mkein (fun i j => if Nat.eqb i j then 1%R else 0%R) 1%R (2 * PI)%R 1%R.
(** charges 0 and 1 on two coupled nodes *)
Lemma c81_counter eigh inv z ka kb pmax chg flx : let gen := getOperatorList eigh inv z ka kb pmax chg flx in
  let nodes := [1; 2] in let x := fun j => INR j in
  exists circ Qnp A d,
    getExpandedOperatorsMap gen nodes (configure_all nodes [(1, (1, BCharge)); (2, (1, BCharge))]) None [] = Ok circ /\
    op_vector cQ nodes circ = Ok Qnp /\
    (forall j B, nth_error Qnp j = Some B -> eigenvector 9 B (basis 3) (RtoC (x j))) /\
    e_Vop k1 = h_Ec h2 /\ partial_at (fun y => quad_energy 2 (h_Ec h2) (h_Cinv h2) y (h_Qb h2)) x 0 d /\
    getVoltageOperator nodes h2 k1 Qnp (Some 1) = Ok A /\ ~ eigenvector 9 A (basis 3) (RtoC d).
Proof.
  intros gen nodes x. eexists _, _, _, _. split; [reflexivity|]. split; [reflexivity|]. 
  assert (Q : forall j B, nth_error [tensor [(3, oQ (charge_basis eigh inv 1)); (3, eye)]; tensor [(3, eye); (3, oQ (charge_basis eigh inv 1))]] j = Some B -> eigenvector 9 B (basis 3) (RtoC (x j))).
  { assert (E := charge_oQ eigh inv 1). revert E. generalize (oQ (charge_basis eigh inv 1)). intros O E. intros [|[|[|j]]] B HB; cbn [nth_error] in HB; try discriminate; injection HB as <-; intros k Hk; rewrite apply_basis by lia.
    all: do 9 (destruct k as [|k]; [cbn [tensor map fst prodn fold_right]; unfold kron; cbn -[INR IZR]; rewrite ?E; cbn -[INR]; unfold x, eye, basis; cbn -[INR]; rewrite ?INR_IZR_INZ; apply injective_projections; cbn; ring|]); lia. }
  split; [exact Q|]. split; [reflexivity|]. split; [apply quad_partial; lia|]. split; [reflexivity|].
  intros HA. specialize (HA 3 ltac:(lia)). rewrite apply_basis in HA by lia.
  unfold shifted, msc, mplus in HA.
  assert (Q0 := Q 0 _ eq_refl 3 ltac:(lia)). rewrite apply_basis in Q0 by lia.
  match type of HA with (_ * (?q + _))%C = _ => change q with (tensor [(3, oQ (charge_basis eigh inv 1)); (3, eye)] 3 3) in HA end. rewrite Q0 in HA.
  apply (f_equal fst) in HA. revert HA. unfold qgrad, basis, x. cbn. lra.
Qed.
Definition gord : orders := mko (fun l => l) (fun l => l).
Definition gL : cg := fst (addBranch gord cg_new 0 1 "L1").
Definition gI : cg := fst (addBranch gord cg_new 0 1 "I1").
Definition h1 : hin := mkhin (fun _ _ => 1%R) (fun _ _ => 1%R) (fun _ => 0%R) (fun _ => 0%R) (fun _ => 0%R) (fun _ => 0%R) (fun _ => 0%R) (fun _ => 0%R) 1%R 1%R 1%R 1%R.
Definition hJ : hin := mkhin (fun _ _ => 1%R) (fun _ _ => 0%R) (fun _ => 0%R) (fun _ => 0%R) (fun _ => 1%R) (fun _ => 0%R) (fun _ => 0%R) (fun _ => 0%R) 1%R 1%R 1%R 1%R.
Definition e01 : edge := ((0, 1), 0).
Lemma gL_ind : isInductiveEdge gL e01 = Ok true. Proof. vm_compute. reflexivity. Qed.
Lemma gI_ind : isInductiveEdge gI e01 = Ok false. Proof. vm_compute. reflexivity. Qed.
Lemma gI_jos : is_type "I"%char gI e01 = Ok true. Proof. vm_compute. reflexivity. Qed.
Lemma sqrt_half : sqrt (2 / 2) = 1%R. Proof. replace (2 / 2)%R with 1%R by field. apply sqrt_1. Qed.
(** two oscillator states, z = 2, FlxOsc = 1: the flux operator exchanges them *)
Lemma osc2_P eigh inv ka kb i j : i < 2 -> j < 2 -> oP (oscillator_basis eigh inv 2 2 1 1 ka kb) i j = if Nat.eqb i j then RtoC 0 else RtoC 1.
Proof.
  intros Hi Hj. cbn [oP oscillator_basis]. rewrite tidy_oscP; unfold oscP; rewrite sqrt_half.
  - unfold create, destroy. destruct i as [|[|i]], j as [|[|j]]; try lia; cbn -[sqrt INR]; rewrite ?sqrt_1; apply injective_projections; cbn; rewrite ?sqrt_1; ring.
  - rewrite Rmult_1_l, Rabs_R1. pose proof atol_small. lra.
Qed.
Lemma c82_bias_counter eigh inv ka kb pmax : let gen := getOperatorList eigh inv (fun _ => 2%R) ka kb pmax 1 1 in
  let v := fun _ : nat => RtoC 1 in let x := fun _ : nat => 1%R in let b := fun _ : nat => 1%R in
  exists circ A d,
    getExpandedOperatorsMap gen [1] (configure_all [1] [(1, (2, BOscillator))]) None [] = Ok circ /\
    (forall n c, dget circ n = Some c -> eigenvector 2 (cP c) v (RtoC (x n))) /\
    isInductiveEdge gL e01 = Ok true /\ e_IopL k1 = h_El h1 /\ h_J h1 0 = 0%R /\
    partial_at (fun y => branch_energy 1 (h_El h1) (h_Ej h1) (e_Lb k1) (h_J h1) y b) (branch_flux [1] [e01] x) 0 d /\
    getCurrentOperator 2 (fun l => l) gL [1] [e01] h1 k1 circ (Some e01) = Ok A /\ ~ eigenvector 2 A v (RtoC d).
Proof.
  intros gen v x b.
  assert (W : eigenvector 2 (tensor [(2, oP (oscillator_basis eigh inv 2 2 1 1 (ka 1) (kb 1)))]) v (RtoC 1)).
  { assert (E := osc2_P eigh inv (ka 1) (kb 1)). revert E. generalize (oP (oscillator_basis eigh inv 2 2 1 1 (ka 1) (kb 1))). intros O E k Hk.
    unfold apply. cbn [csum tensor map fst prodn fold_right]. unfold kron. rewrite !Nat.div_1_r. rewrite !E by lia. destruct k as [|[|k]]; [| |lia]; cbn; apply injective_projections; cbn; ring. }
  assert (X : exists circ, getExpandedOperatorsMap gen [1] (configure_all [1] [(1, (2, BOscillator))]) None [] = Ok circ /\
     exists c, circ = [(1, c)] /\ cP c = tensor [(2, oP (oscillator_basis eigh inv 2 2 1 1 (ka 1) (kb 1)))]).
  { eexists. split; [reflexivity|]. eexists. split; reflexivity. }
  destruct X as (circ & EX & c & -> & Ec). rewrite <- Ec in W. clear Ec.
  assert (Y : exists A, getCurrentOperator 2 (fun l => l) gL [1] [e01] h1 k1 [(1, c)] (Some e01) = Ok A).
  { unfold getCurrentOperator. rewrite gL_ind. eexists. reflexivity. }
  destruct Y as [A EA]. eexists [(1, c)], A, _. split; [exact EX|].
  assert (K0 : forall n c', dget [(1, c)] n = Some c' -> eigenvector 2 (cP c') v (RtoC (x n))).
  { intros n c'. cbn [dget]. destruct (eqb n 1) eqn:En; [|discriminate]. intros Hc. injection Hc as <-. exact W. }
  split; [exact K0|]. split; [exact gL_ind|]. split; [reflexivity|]. split; [reflexivity|]. split; [apply branch_partial; lia|]. split; [exact EA|]. intros HA.
  assert (K := c82_inductive 2 (fun l => l) gL [1] [e01] h1 k1 [(1, c)] e01 0 A v x 1 b _ (fun l => Permutation_refl l) eq_refl gL_ind
     (fun j n c' _ H => K0 n c' H) ltac:(cbn; ring) eq_refl (branch_partial 1 (h_El h1) (h_Ej h1) (e_Lb k1) (h_J h1) _ b 0 ltac:(lia)) EA 0 ltac:(lia)).
  specialize (HA 0 ltac:(lia)). rewrite HA in K. apply (f_equal fst) in K. revert K. clear. unfold b, v.
  match goal with |- context [RtoC (?q + ?r)] => generalize (q + r)%R end. intros d. cbn. lra.
Qed.
(** one junction to ground in the charge basis *)
Lemma c82_junction_counter : exists eigh inv, forall z ka kb pmax chg flx, let gen := getOperatorList eigh inv z ka kb pmax chg flx in
  exists circ L Rr A,
    getExpandedOperatorsMap gen [1] (configure_all [1] [(1, (1, BCharge))]) None [] = Ok circ /\
    isInductiveEdge gI e01 = Ok false /\ e_IopJ k1 = (2 * PI * h_Ej hJ)%R /\
    getStaticJosephsonPart 3 (fun l => l) [1] [e01] hJ circ = Ok (L, Rr) /\
    getCurrentOperator 3 (fun l => l) gI [1] [e01] hJ k1 circ (Some e01) = Ok A /\
    ~ derivable_pt_lim (fun t => snd (recombine (put (h_pb hJ) 0 t) (junctions 1 (h_J hJ)) L Rr 0 1)) (h_pb hJ 0) (snd (A 0 1)).
Proof.
  destruct (c56_witness 1) as (eigh & inv & HE). exists eigh, inv. intros z ka kb pmax chg flx gen.
  destruct (charge_oD eigh inv 1 HE) as [HD HDd]. cbn [Nat.mul Nat.add] in HD, HDd.
  assert (X : exists circ, getExpandedOperatorsMap gen [1] (configure_all [1] [(1, (1, BCharge))]) None [] = Ok circ /\
     exists c, circ = [(1, c)] /\ cD c = tensor [(3, oD (charge_basis eigh inv 1))] /\ cDd c = tensor [(3, oDd (charge_basis eigh inv 1))]).
  { eexists. split; [reflexivity|]. eexists. split; [reflexivity|]. split; reflexivity. }
  destruct X as (circ & EX & c & -> & ED & EDd).
  assert (D01 : cD c 0 1 = RtoC 1). { rewrite ED. revert HD. generalize (oD (charge_basis eigh inv 1)). intros O H. specialize (H 0 1 ltac:(lia) ltac:(lia)). unfold shift in H. cbn [Nat.eqb Nat.add] in H. cbn [tensor map fst prodn fold_right]. unfold kron. cbn [prodn fold_right map Nat.mul Nat.div Nat.modulo Nat.divmod fst snd Nat.sub]. rewrite H. apply injective_projections; cbn; ring. }
  assert (Dd01 : cDd c 0 1 = RtoC 0). { rewrite EDd. revert HDd. generalize (oDd (charge_basis eigh inv 1)). intros O H. specialize (H 0 1 ltac:(lia) ltac:(lia)). unfold mdag, shift in H. cbn [Nat.eqb Nat.add] in H. cbn [tensor map fst prodn fold_right]. unfold kron. cbn [prodn fold_right map Nat.mul Nat.div Nat.modulo Nat.divmod fst snd Nat.sub]. rewrite H. apply injective_projections; cbn; ring. }
  clear ED EDd HD HDd HE.
  assert (Y : exists A, getCurrentOperator 3 (fun l => l) gI [1] [e01] hJ k1 [(1, c)] (Some e01) = Ok A /\ snd (A 0 1) = (- PI)%R).
  { unfold getCurrentOperator. rewrite gI_ind, gI_jos. eexists. split; [reflexivity|]. unfold msc, mminus, msc. cbn [opn nth].
    cbn [fold_left fst snd]. rewrite D01, Dd01. cbn [h_pb hJ]. unfold cis. rewrite !Rmult_0_r, cos_0, sin_0. cbn. field. }
  assert (Z : exists L Rr, getStaticJosephsonPart 3 (fun l => l) [1] [e01] hJ [(1, c)] = Ok (L, Rr)).
  { unfold getStaticJosephsonPart. cbn [op_vector mapM dget bind List.length seq foldM hJ h_J].
    destruct (Req_EM_T 1 0) as [B|_]; [exfalso; lra|]. eexists _, _. reflexivity. }
  destruct Y as (A & EA & VA). destruct Z as (L & Rr & EL). exists [(1, c)], L, Rr, A. split; [exact EX|]. split; [exact gI_ind|].
  split; [cbn; ring|]. split; [exact EL|]. split; [exact EA|]. intros HL.
  destruct (c82_operator 3 (fun l => l) gI [1] [e01] hJ k1 [(1, c)] e01 0 A L Rr 1 eq_refl gI_ind ltac:(cbn; lra) ltac:(cbn; ring) EL EA 0 1) as [_ K].
  cbn [List.length] in K. rewrite VA in K, HL. pose proof (uniqueness_limite _ _ _ _ HL (lim_ext _ _ _ _ (fun t => Rmult_1_l _) K)). pose proof PI_RGT_0. lra.
Qed.
(** two oscillator states with z = 1/2, ChgOsc = 1: the charge operator is
    i (create - destroy) *)
Lemma c84_counter eigh inv ka kb pmax flx : let gen := getOperatorList eigh inv (fun _ => (1 / 2)%R) ka kb pmax 1 flx in
  exists circ Qnp A, getExpandedOperatorsMap gen [1] (configure_all [1] [(1, (2, BOscillator))]) None [] = Ok circ /\
    op_vector cQ [1] circ = Ok Qnp /\ getVoltageOperator [1] h1 k1 Qnp (Some 1) = Ok A /\ hermitian 2 A /\
    getVoltageMatrixElement 2 [1] h1 k1 Qnp [basis 0; basis 1] (Some 1) (Some [(0, 1)%Z]) = Ok [0%R] /\
    inner 2 (basis 0) (apply 2 A (basis 1)) = (- Ci)%C.
Proof.
  intros gen.
  assert (X : exists circ, getExpandedOperatorsMap gen [1] (configure_all [1] [(1, (2, BOscillator))]) None [] = Ok circ /\
     exists c, circ = [(1, c)] /\ cQ c = tensor [(2, oQ (oscillator_basis eigh inv 2 (1 / 2) 1 flx (ka 1) (kb 1)))]).
  { eexists. split; [reflexivity|]. eexists. split; reflexivity. }
  destruct X as (circ & EX & c & -> & EQ). exists [(1, c)].
  assert (E0 : forall i j, oQ (oscillator_basis eigh inv 2 (1 / 2) 1 flx (ka 1) (kb 1)) i j = (Ci * (create i j - destroy i j))%C).
  { assert (S1 : sqrt (1 / (2 * (1 / 2))) = 1%R) by (replace (1 / (2 * (1 / 2)))%R with 1%R by field; apply sqrt_1).
    intros i j. cbn [oQ oscillator_basis]. rewrite tidy_oscQ; unfold oscQ; rewrite S1; [|rewrite Rmult_1_l, Rabs_R1; pose proof atol_small; lra].
    apply injective_projections; cbn; ring. }
  assert (Q : forall i j, i < 2 -> j < 2 -> cQ c i j = if Nat.eqb i j then RtoC 0 else if Nat.eqb i 0 then (- Ci)%C else Ci).
  { rewrite EQ. revert E0. generalize (oQ (oscillator_basis eigh inv 2 (1 / 2) 1 flx (ka 1) (kb 1))). intros O E i j Hi Hj.
    cbn [tensor map fst prodn fold_right]. unfold kron. rewrite !Nat.div_1_r, !E. unfold create, destroy.
    destruct i as [|[|i]], j as [|[|j]]; try lia; cbn -[sqrt INR]; rewrite ?sqrt_1; apply injective_projections; cbn; rewrite ?sqrt_1; ring. }
  clear EQ E0.
  exists [cQ c]. eexists. split; [exact EX|]. split; [reflexivity|]. split; [reflexivity|].
  set (A := msc (RtoC (e_Vop k1 * h_Cinv h1 0 0)) (shifted [cQ c] (h_Qb h1) 0)).
  assert (EA : forall i j, i < 2 -> j < 2 -> A i j = if Nat.eqb i j then RtoC 0 else if Nat.eqb i 0 then (- Ci)%C else Ci).
  { intros i j Hi Hj. unfold A, msc, shifted, mplus, msc. cbn [opn nth]. rewrite Q by easy. destruct i as [|[|i]], j as [|[|j]]; try lia; cbn; apply injective_projections; cbn; ring. }
  split. { intros i j Hi Hj. rewrite !EA by easy. destruct i as [|[|i]], j as [|[|j]]; try lia; cbn; apply injective_projections; cbn; ring. }
  split.
  - unfold getVoltageMatrixElement, matrix_elements. change (getVoltageOperator [1] h1 k1 [cQ c] (Some 1)) with (@Ok cmat A). clearbody A.
    transitivity (@Ok (list R) [fst (matrix_element 2 A (basis 0) (basis 1))]); [reflexivity|]. do 2 f_equal. unfold matrix_element. cbn [sumn kadd k0 C_rng]. rewrite !EA by lia. unfold basis. cbn. ring.
  - clearbody A. unfold inner, apply. cbn [csum]. rewrite !EA by lia. unfold basis. cbn. apply injective_projections; cbn; ring.
Qed.
Lemma osc2_circ eigh inv ka kb pmax : let gen := getOperatorList eigh inv (fun _ => 2%R) ka kb pmax 1 1 in let v := fun _ : nat => RtoC 1 in
  exists circ A, getExpandedOperatorsMap gen [1] (configure_all [1] [(1, (2, BOscillator))]) None [] = Ok circ /\
    (forall j n c, nth_error [1] j = Some n -> dget circ n = Some c -> eigenvector 2 (cP c) v (RtoC 1)) /\
    getCurrentOperator 2 (fun l => l) gL [1] [e01] h1 k1 circ (Some e01) = Ok A.
Proof.
  intros gen v. destruct (c82_bias_counter eigh inv ka kb pmax) as (circ & A & d & E & V & _ & _ & _ & _ & EA & _). exists circ, A. split; [exact E|]. split; [|exact EA].
  intros j n c _ H. exact (V n c H).
Qed.
Definition w_cD (x : R) : cops := mkcops [2] mzero mzero (cdiag (fun i => if Nat.eqb i 0 then phase (2 * PI * x) else RtoC 1)) (cdiag (fun i => if Nat.eqb i 0 then phase (- (2 * PI * x)) else RtoC 1)) mzero mzero.
Lemma josephson_circ x : let circ := [(1, w_cD x)] in
  (forall j n c, nth_error [1] j = Some n -> dget circ n = Some c ->
     eigenvector 2 (cD c) (basis 0) (phase (2 * PI * x)) /\ eigenvector 2 (cDd c) (basis 0) (phase (- (2 * PI * x)))) /\
  exists A, getCurrentOperator 2 (fun l => l) gI [1] [e01] hJ k1 circ (Some e01) = Ok A.
Proof.
  intros circ. split.
  - intros j n c _. unfold circ. cbn [dget]. destruct (eqb n 1); [|discriminate]. intros E. injection E as <-. cbn [cD cDd w_cD].
    split; intros k Hk; rewrite apply_basis by lia; unfold cdiag, basis; destruct k as [|[|k]]; try lia; cbn [Nat.eqb]; ring.
  - unfold getCurrentOperator. rewrite gI_ind, gI_jos. eexists. reflexivity.
Qed.
Definition windex (k : nat) : C := RtoC (INR k).
