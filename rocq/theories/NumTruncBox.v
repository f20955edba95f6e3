(** Examples for C127: a junction with a charge bias (Cooper pair box). *)
From Coq Require Import List Bool String Ascii Arith Lia ZArith Reals Lra Permutation.
From Coquelicot Require Import Complex.
From Verif Require Import Prelude PreludeFacts Mat MatFacts Util UtilProofs Graph GraphSpec GraphView GraphForest GraphWf GraphCircuit GraphState GraphMaps GraphOps GraphProofs CollLast Sweep SweepProofs SweepResultProofs Symbolic SymbolicSpec RSum SymbolicInv SymbolicCap SymbolicCap2 SymbolicFlux SymbolicNew SymbolicProofs MutualSpec MutualProofs NumOp NumOpSpec NumKron NumSpectral NumCharge NumExpand NumHerm NumPot NumFlux NumOpProofs NumSweepRef
  SymHam SymHamSpec SymHamProofs SymHamQ SymHamT SymHamEx SymTotal SymTotalSpec SymTotalProofs SymTotalMain MoveSpec MoveProofs MoveEx NumSubst NumSymSpec NumSymProofs NumSymHam NumSymNode NumSymMain NumSymEx NumGaugeSpec NumGauge NumGaugeHam NumGaugeMain NumGaugeEx NumOsc NumTruncSpec NumTrunc NumTruncLevels NumTruncEx.
Import ListNotations.
Open Scope string_scope.
Open Scope list_scope.
Open Scope nat_scope.

Definition Lbox := [B 0 1 "C1"; B 0 1 "I1"] ++ [GCharge 1 (PStr "g") None].
Lemma Lbox_circuit : circuit (grun cg_new Lbox).
Proof. apply circuit_more; [last_branch [B 0 1 "C1"] 0 1 "I1"|other]. Qed.
Definition wg (g : R) : vals := mkvals (fun _ => 1%R) (fun _ => g) (fun _ => 0%R) (fun _ => 0%R) (fun _ => 0%R).
Lemma Lbox_values : exists y, system y /\ ss_nodes y = [1] /\ ss_edges y = [(0, 1, 1)] /\ ss_flux y = [((0, 1, 1), [])] /\ ss_charge y = [(1, Some "g")] /\
  kind_at y "I" (0, 1, 1) /\ inverted y (v_par (wg 0)) id_mat (fun _ _ => 0%R) /\
  lname y "I" (0, 1, 1) = Some "I1" /\ lname y "V" (0, 1, 1) = None.
Proof.
  assert (H : exists y, new_system idord noor (grun cg_new Lbox) = Some (Ok y) /\ ss_nodes y = [1] /\ ss_edges y = [(0, 1, 1)] /\ ss_flux y = [((0, 1, 1), [])] /\ ss_charge y = [(1, Some "g")] /\
    dget (c_map (ss_cg y)) (0, 1, 1) = Some "I1" /\
    (exists L, inductance_matrix (ss_cg y) (ss_edges y) = Ok L /\ forall i j, L i j = None) /\ (exists M, capacitance_matrix (ss_cg y) = Ok M /\ M 0 0 = [(TmC "C1", 1%Z)])).
  { eexists. split; [vm_compute; reflexivity|]. do 5 (split; [reflexivity|]). split; eexists; (split; [vm_compute; reflexivity|]); reflexivity. }
  destruct H as (y & Hn & E1 & E2 & E3 & E4 & E5 & (L & HL & L0) & M & HM & M0).
  assert (Hy : system y) by (eapply system_new; [apply Lbox_circuit|exact Hn]).
  exists y. do 5 (split; [assumption|]). split; [split; [rewrite E2; left; reflexivity|eauto]|].
  split.
  { split.
    - exists M. split; [exact HM|]. rewrite E1. cbn [List.length]. intros i j Hi Hj. destruct i as [|i]; try lia; destruct j as [|j]; try lia. split; unfold mmul; cbn [sumn]; rewrite M0; unfold id_mat; cbn; ring.
    - exists L. split; [exact HL|]. rewrite E2. intros i j _ _. unfold imat_val, mmul. repeat split; cbn [List.length sumn]; rewrite ?L0; cbn; ring. }
  unfold lname. rewrite E5. repeat split; reflexivity.
Qed.

Definition one : list edge := [(0, 1, 1)].
Lemma box_ham argord o h : (forall l, Permutation (argord l) l) ->
  h_J h 0 = 1%R -> h_Ps h 0 = 0%R -> h_Linv h 0 0 = 0%R -> h_pb h 0 = 0%R -> h_Cinv h 0 0 = 1%R ->
  let c := one_cops o in let n := o_dim o in
  exists H, getHamiltonian n argord [1] one h [cQ c] [cP c] [(1, c)] = Ok H /\
    forall i j, H i j = sanC atol (RtoC (h_Ec h / 2) * S n (fun k => (oQ o i k + RtoC (h_Qb h 0) * eye i k) * (oQ o k j + RtoC (h_Qb h 0) * eye k j)) - RtoC (1 / 2 * h_Ej h) * (oD o i j + oDd o i j))%C.
Proof.
  intros Hp J0 P0 l0 b0 c0 c n.
  assert (TQ : forall i j, cQ c i j = oQ o i j) by (intros; apply tensor_1). assert (TD : forall i j, cD c i j = oD o i j) by (intros; apply tensor_1). assert (TDd : forall i j, cDd c i j = oDd o i j) by (intros; apply tensor_1).
  assert (X : forall x : nat * bool, argord [x] = [x]). { intros x. exact (Permutation_length_1_inv (Permutation_sym (Hp [x]))). }
  unfold getHamiltonian, one. change (op_vector cD [1] [(1, c)]) with (Ok [cD c]). change (op_vector cDd [1] [(1, c)]) with (Ok [cDd c]). change (op_vector cS [1] [(1, c)]) with (Ok [cS c]). change (op_vector cSd [1] [(1, c)]) with (Ok [cSd c]). cbn [bind].
  unfold cosine_part. cbn [List.length seq foldM]. rewrite J0, P0.
  destruct (Req_EM_T 0 0) as [_|]; [|lra]. destruct (Req_EM_T 1 0) as [|_]; [lra|]. cbn [bind].
  change (branch_terms [1] [(0, 1, 1)] 0) with [(0, false)]. rewrite !X. cbn [map snd fst product bind fold_left].
  eexists. split; [reflexivity|]. intros i j. unfold tidyup. f_equal. rewrite b0.
  unfold mplus, msc, mzero. rewrite !NumHerm.quadform_eq. cbn [List.length sumn kadd kmul k0 C_rng opn nth]. rewrite l0, c0.
  assert (M : mm n (shifted [cQ c] (h_Qb h) 0) (shifted [cQ c] (h_Qb h) 0) i j = S n (fun k => ((oQ o i k + RtoC (h_Qb h 0) * eye i k) * (oQ o k j + RtoC (h_Qb h 0) * eye k j))%C)).
  { unfold mm, mmul. apply S_ext. intros k _. cbn [kmul C_rng]. unfold shifted, mplus, msc. unfold opn. cbn [nth]. rewrite !TQ. cring. }
  rewrite M. unfold opn. cbn [nth]. rewrite !TD, !TDd. replace (2 * PI * 0)%R with 0%R by ring. replace (-2 * PI * 0)%R with 0%R by ring. rewrite !cis_0.
  generalize (S n (fun k => ((oQ o i k + RtoC (h_Qb h 0) * eye i k) * (oQ o k j + RtoC (h_Qb h 0) * eye k j))%C)). intros q. generalize (mm n (shifted [cP c] (h_Pbi h) 0) (shifted [cP c] (h_Pbi h) 0) i j). intros p.
  apply injective_projections; cbn; field.
Qed.
Lemma box_inputs : exists y, system y /\ ss_nodes y = [1] /\ ss_edges y = one /\ ss_charge y = [(1, Some "g")] /\ inverted y (v_par (wg 0)) id_mat (fun _ _ => 0%R) /\ (forall e, ~ kind_at y "L" e) /\
  forall g, exists h, substitute y (wg g) id_mat (fun _ _ => 0%R) 2 1 2 1 = Ok h /\ h_Ec h = 2%R /\ h_Ej h = 2%R /\
    h_J h 0 = 1%R /\ h_Ps h 0 = 0%R /\ h_Qb h 0 = g /\ h_Linv h 0 0 = 0%R /\ h_pb h 0 = 0%R /\ h_Cinv h 0 0 = 1%R.
Proof.
  destruct Lbox_values as (y & Hy & E1 & E2 & E3 & E4 & K1 & HV & L1 & V1). exists y. do 5 (split; [assumption|]). split.
  { intros e (He & c & Ec & HL). rewrite E2 in He. unfold lname in L1. destruct He as [<-|[]]; rewrite Ec in *; destruct (starts "I" c) eqn:S1; try discriminate;
      destruct c as [|q c]; try discriminate; unfold starts, letter in *; cbn in S1, HL; apply Ascii.eqb_eq in S1, HL; subst; discriminate. }
  intros g. eexists. unfold substitute, getJosephsonVector, getPhaseSlipVector. rewrite !(vector_ok y Hy), <- (m_red y (system_inv y Hy)), (bias_ok y Hy), E2. cbn [map bind]. rewrite L1, V1. split; [reflexivity|].
  cbn [h_Ec h_Ej h_J h_Ps h_Qb h_Linv h_pb h_Cinv]. split; [reflexivity|]. split; [reflexivity|]. do 2 (split; [reflexivity|]).
  split; [unfold charge_bias; rewrite E1, E4; reflexivity|]. split; [unfold inverse_inductance; apply sumR_0; intros k _; apply sumR_0; intros l _; ring|].
  assert (T : forall l, SymHam.total (v_flux (wg g)) l = 0%R). { intros l. unfold SymHam.total. cbn [v_flux wg]. induction l as [|x l IH]; cbn in *; [reflexivity|]. rewrite ?IH. lra. }
  split; [apply T|]. reflexivity.
Qed.
Lemma box_matrix argord h g t : (forall l, Permutation (argord l) l) ->
  h_Ec h = 2%R /\ h_Ej h = 2%R /\ h_J h 0 = 1%R /\ h_Ps h 0 = 0%R /\ h_Qb h 0 = g /\ h_Linv h 0 0 = 0%R /\ h_pb h 0 = 0%R /\ h_Cinv h 0 0 = 1%R ->
  let c := one_cops (charge_basis ceigh cinv t) in
  exists H, getHamiltonian (2 * t + 1) argord [1] one h [cQ c] [cP c] [(1, c)] = Ok H /\ forall i j, i < 2 * t + 1 -> j < 2 * t + 1 ->
    H i j = sanC atol (S (2 * t + 1) (fun k => ((if Nat.eqb i k then RtoC (IZR (Z.of_nat t - Z.of_nat i)) else RtoC 0) + RtoC g * eye i k) * ((if Nat.eqb k j then RtoC (IZR (Z.of_nat t - Z.of_nat k)) else RtoC 0) + RtoC g * eye k j))
      - ((if Nat.eqb j (i + 1) then RtoC 1 else RtoC 0) + (if Nat.eqb i (j + 1) then RtoC 1 else RtoC 0)))%C.
Proof.
  intros Hp (h1 & h2 & h3 & h4 & h5 & h6 & h7 & h8) c. set (o := charge_basis ceigh cinv t) in *. destruct (box_ham argord o h Hp h3 h4 h6 h7 h8) as (H & EH & VH). cbv zeta in EH. change (o_dim o) with (2 * t + 1) in *. exists H. split; [exact EH|]. intros i j Hi Hj. rewrite VH, h1, h2, h5.
  destruct (charge_oD ceigh cinv t (ceigh_right t)) as [D1 D2]. fold o in D1, D2. rewrite (D1 i j Hi Hj), (D2 i j Hi Hj). unfold mdag, shift.
  assert (X : Cconj (if Nat.eqb i (j + 1) then RtoC 1 else RtoC 0) = if Nat.eqb i (j + 1) then RtoC 1 else RtoC 0) by (destruct (Nat.eqb i (j + 1)); apply conj_R). rewrite X.
  f_equal. replace (2 / 2)%R with 1%R by field. replace (1 / 2 * 2)%R with 1%R by field. f_equal; [|ring]. rewrite Cmult_1_l. apply S_ext. intros k _. unfold o. rewrite !charge_oQ. reflexivity.
Qed.
Lemma box_free y t : (forall e, ~ kind_at y "L" e) -> free_node ceigh cinv y (cdata t) 1.
Proof. intros HL. split; [exists (mkod t BCharge); split; [reflexivity|]; split; [reflexivity | apply ceigh_right]|]. intros e He. destruct (HL e He). Qed.
Lemma box_witness argord : (forall l, Permutation (argord l) l) ->
  exists eigh inv y circ circ' Qnp Pnp Qnp' Pnp' c c' h h' H H' E E', let gen := getOperatorList eigh inv z1 z1 z1 z1 1 1 in let P := fun _ _ => 0%R in
  system y /\ ss_nodes y = [1] /\ inverted y (v_par (wg 1)) id_mat P /\ only_charges (wg 1) (wg 0) /\ raised_by y (wg 1) (wg 0) 1 (-1) /\
  (forall m, In m (ss_nodes y) -> follows eigh inv y (wg 1) (wg 0) (cdata 0) (cdata 1) m) /\
  getExpandedOperatorsMap gen (ss_nodes y) (cdata 0) None [] = Ok circ /\ op_vector cQ (ss_nodes y) circ = Ok Qnp /\ op_vector cP (ss_nodes y) circ = Ok Pnp /\
  getExpandedOperatorsMap gen (ss_nodes y) (cdata 1) None [] = Ok circ' /\ op_vector cQ (ss_nodes y) circ' = Ok Qnp' /\ op_vector cP (ss_nodes y) circ' = Ok Pnp' /\
  In 1 (ss_nodes y) /\ dget circ 1 = Some c /\ dget circ' 1 = Some c' /\ c_dims c = [1] /\ c_dims c' = [3] /\ substitute y (wg 1) id_mat P 2 1 2 1 = Ok h /\ substitute y (wg 0) id_mat P 2 1 2 1 = Ok h' /\
  getHamiltonian 1 argord (ss_nodes y) (ss_edges y) h Qnp Pnp circ = Ok H /\ getHamiltonian 3 argord (ss_nodes y) (ss_edges y) h' Qnp' Pnp' circ' = Ok H' /\
  spectrum 1 H E /\ ascending 1 E /\ spectrum 3 H' E' /\ ascending 3 E' /\ E 0 = 1%R /\ E' 0 = (-1)%R.
Proof.
  intros Hp. destruct box_inputs as (y & Hy & E1 & E2 & E3 & HV & HL & HS). destruct (HS 1%R) as (h & Sh & Hh), (HS 0%R) as (h' & Sh' & Hh').
  destruct (box_matrix argord h 1 0 Hp Hh) as (H & EH & VH), (box_matrix argord h' 0 1 Hp Hh') as (H' & EH' & VH'). cbn [Nat.mul Nat.add] in EH, EH', VH, VH'. set (o := fun t => charge_basis ceigh cinv t).
  exists ceigh, cinv, y, [(1, one_cops (o 0))], [(1, one_cops (o 1))], [cQ (one_cops (o 0))], [cP (one_cops (o 0))], [cQ (one_cops (o 1))], [cP (one_cops (o 1))], (one_cops (o 0)), (one_cops (o 1)), h, h', H, H', (fun _ => 1%R), lv3. cbv zeta. rewrite E1, E2.
  assert (RB : raised_by y (wg 1) (wg 0) 1 (-1)). { unfold raised_by. rewrite E3. change (0 = 1 + IZR (-1))%R. lra. }
  split; [exact Hy|]. split; [reflexivity|]. split; [exact HV|]. split; [split; reflexivity|]. split; [exact RB|]. split. { intros m [<-|[]]. exists (-1)%Z. split; [exact RB|]. right. exists 0, 1. split; [cbn; lia|]. split; [reflexivity|]. split; [reflexivity|]. split; now apply box_free. }
  split; [apply one_circ; reflexivity|]. split; [reflexivity|]. split; [reflexivity|]. split; [apply one_circ; reflexivity|]. split; [reflexivity|]. split; [reflexivity|]. split; [now left|]. do 4 (split; [reflexivity|]). split; [exact Sh|]. split; [exact Sh'|]. split; [exact EH|]. split; [exact EH'|].
  split. { apply spectrum_1. rewrite VH by lia. unfold S. cbn [sumn Nat.eqb Nat.add kadd k0 C_rng]. unfold eye. cbn [Nat.eqb]. match goal with |- sanC _ ?a = _ => replace a with (RtoC 1) by (apply injective_projections; cbn; ring) end. apply sanC_kept. right. unfold Rabs; destruct (Rcase_abs _); lra. }
  split; [intros i j _ _; lra|]. split.
  { apply m3_spectrum. intros i j Hi Hj. rewrite VH' by easy. unfold S. cbn [sumn kadd k0 C_rng]. unfold eye. (destruct i as [|[|[|i]]]; [| | |lia]); (destruct j as [|[|[|j]]]; [| | |lia]); cbn [Nat.eqb Nat.add m3];
      (match goal with |- sanC _ ?a = RtoC ?b => replace a with (RtoC b) by (apply injective_projections; cbn; ring) end); apply sanC_kept; try (left; reflexivity); right; unfold Rabs; destruct (Rcase_abs _); lra. }
  split. { intros i j Hij Hj. destruct j as [|[|[|j]]]; [| | |lia]; (destruct i as [|[|[|i]]]; try lia); cbn; lra. }
  split; [reflexivity|]. reflexivity.
Qed.
Lemma box_period argord : (forall l, Permutation (argord l) l) ->
  exists eigh inv y circ Qnp Pnp c h h' H H' E E', let gen := getOperatorList eigh inv z1 z1 z1 z1 1 1 in let P := fun _ _ => 0%R in
  system y /\ ss_nodes y = [1] /\ inverted y (v_par (wg 0)) id_mat P /\ only_charges (wg 0) (wg 1) /\ raised_by y (wg 0) (wg 1) 1 1 /\ free_node eigh inv y (cdata 0) 1 /\
  getExpandedOperatorsMap gen (ss_nodes y) (cdata 0) None [] = Ok circ /\ op_vector cQ (ss_nodes y) circ = Ok Qnp /\ op_vector cP (ss_nodes y) circ = Ok Pnp /\
  dget circ 1 = Some c /\ c_dims c = [1] /\ substitute y (wg 0) id_mat P 2 1 2 1 = Ok h /\ substitute y (wg 1) id_mat P 2 1 2 1 = Ok h' /\
  getHamiltonian 1 argord (ss_nodes y) (ss_edges y) h Qnp Pnp circ = Ok H /\ getHamiltonian 1 argord (ss_nodes y) (ss_edges y) h' Qnp Pnp circ = Ok H' /\
  spectrum 1 H E /\ spectrum 1 H' E' /\ E 0 = 0%R /\ E' 0 = 1%R.
Proof.
  intros Hp. destruct box_inputs as (y & Hy & E1 & E2 & E3 & HV & HL & HS). destruct (HS 0%R) as (h & Sh & Hh), (HS 1%R) as (h' & Sh' & Hh').
  destruct (box_matrix argord h 0 0 Hp Hh) as (H & EH & VH), (box_matrix argord h' 1 0 Hp Hh') as (H' & EH' & VH'). cbn [Nat.mul Nat.add] in EH, EH', VH, VH'. set (o := charge_basis ceigh cinv 0).
  exists ceigh, cinv, y, [(1, one_cops o)], [cQ (one_cops o)], [cP (one_cops o)], (one_cops o), h, h', H, H', (fun _ => 0%R), (fun _ => 1%R). cbv zeta. rewrite E1, E2.
  split; [exact Hy|]. split; [reflexivity|]. split; [exact HV|]. split; [split; reflexivity|]. split. { unfold raised_by. rewrite E3. change (1 = 0 + IZR 1)%R. lra. }
  split; [now apply box_free|]. split; [apply one_circ; reflexivity|]. do 4 (split; [reflexivity|]). split; [exact Sh|]. split; [exact Sh'|]. split; [exact EH|]. split; [exact EH'|].
  split; [|split; [|split; reflexivity]].
  - apply spectrum_1. rewrite VH by lia. unfold S. cbn [sumn Nat.eqb Nat.add kadd k0 C_rng]. unfold eye. cbn [Nat.eqb]. match goal with |- sanC _ ?a = _ => replace a with (RtoC 0) by (apply injective_projections; cbn; ring) end. apply sanC_kept. now left.
  - apply spectrum_1. rewrite VH' by lia. unfold S. cbn [sumn Nat.eqb Nat.add kadd k0 C_rng]. unfold eye. cbn [Nat.eqb]. match goal with |- sanC _ ?a = _ => replace a with (RtoC 1) by (apply injective_projections; cbn; ring) end. apply sanC_kept. right. unfold Rabs; destruct (Rcase_abs _); lra.
Qed.
