(** Examples for C128: a Cooper pair box, its critical current switched off. *)
From Coq Require Import List Bool String Ascii Arith Lia ZArith Reals Lra Permutation.
From Coquelicot Require Import Complex.
From Verif Require Import Prelude PreludeFacts Mat MatFacts Util UtilProofs Graph GraphSpec GraphView GraphForest GraphWf GraphCircuit GraphState GraphMaps GraphOps GraphProofs CollLast Sweep SweepProofs SweepResultProofs Symbolic SymbolicSpec RSum SymbolicInv SymbolicCap SymbolicCap2 SymbolicFlux SymbolicNew SymbolicProofs MutualSpec MutualProofs NumOp NumOpSpec NumKron NumSpectral NumCharge NumExpand NumHerm NumPot NumFlux NumOpProofs NumSweepRef
  SymHam SymHamSpec SymHamProofs SymHamQ SymHamT SymHamEx SymTotal SymTotalSpec SymTotalProofs SymTotalMain MoveSpec MoveProofs MoveEx NumSubst NumSymSpec NumSymProofs NumSymHam NumSymNode NumSymMain NumSymEx NumGaugeSpec NumGauge NumGaugeHam NumGaugeMain NumGaugeEx NumOsc NumTruncSpec NumTrunc NumTruncLevels NumTruncEx NumTruncBox LevMoveSpec NumBound NumBoundHam NumBoundMain.
Import ListNotations.
Open Scope string_scope.
Open Scope list_scope.
Open Scope nat_scope.

Definition woff : vals := mkvals (fun s => if String.eqb s "I1" then 0%R else 1%R) (fun _ => 0%R) (fun _ => 0%R) (fun _ => 0%R) (fun _ => 0%R).
Lemma box_values : exists y, system y /\ ss_nodes y = [1] /\ ss_edges y = [(0, 1, 1)] /\ ss_flux y = [((0, 1, 1), [])] /\ ss_charge y = [(1, Some "g")] /\
  dget (c_map (ss_cg y)) (0, 1, 1) = Some "I1" /\ inverted y (v_par (wg 0)) id_mat (fun _ _ => 0%R) /\ positive_components y (v_par (wg 0)).
Proof.
  assert (H : exists y, new_system idord noor (grun cg_new Lbox) = Some (Ok y) /\ ss_nodes y = [1] /\ ss_edges y = [(0, 1, 1)] /\ ss_flux y = [((0, 1, 1), [])] /\ ss_charge y = [(1, Some "g")] /\
    dget (c_map (ss_cg y)) (0, 1, 1) = Some "I1" /\ c_coupled (ss_cg y) = [] /\ branches_of "C" (c_graph (ss_cg y)) = [((0, 1, 0), "C1")] /\ branches_of "L" (c_graph (ss_cg y)) = [] /\
    (exists L, inductance_matrix (ss_cg y) (ss_edges y) = Ok L /\ forall i j, L i j = None) /\ (exists M, capacitance_matrix (ss_cg y) = Ok M /\ M 0 0 = [(TmC "C1", 1%Z)])).
  { eexists. split; [vm_compute; reflexivity|]. do 8 (split; [reflexivity|]). split; eexists; (split; [vm_compute; reflexivity|]); reflexivity. }
  destruct H as (y & Hn & E1 & E2 & E3 & E4 & E5 & K1 & K2 & K3 & (L & HL & L0) & M & HM & M0).
  assert (Hy : system y) by (eapply system_new; [apply Lbox_circuit|exact Hn]).
  exists y. do 6 (split; [assumption|]). split.
  { split.
    - exists M. split; [exact HM|]. rewrite E1. cbn [List.length]. intros i j Hi Hj. destruct i as [|i]; try lia; destruct j as [|j]; try lia. split; unfold mmul; cbn [sumn]; rewrite M0; unfold id_mat; cbn; ring.
    - exists L. split; [exact HL|]. rewrite E2. intros i j _ _. unfold imat_val, mmul. repeat split; cbn [List.length sumn]; rewrite ?L0; cbn; ring. }
  split; [split; [|split; [exact K1|]]|split; [|rewrite K3; easy]].
  - unfold no_capacitor_loop. rewrite K2. intros b [<-|[]]. cbn. lia.
  - rewrite K3. easy.
  - split; [|split]; intros; cbn [wg v_par]; try split; lra.
Qed.
Lemma off_ham argord o h : h_J h 0 = 0%R -> h_Ps h 0 = 0%R -> h_Linv h 0 0 = 0%R -> h_Cinv h 0 0 = 1%R -> h_Qb h 0 = 0%R -> h_Ec h = 2%R ->
  let c := one_cops o in let n := o_dim o in
  exists H, getHamiltonian n argord [1] one h [cQ c] [cP c] [(1, c)] = Ok H /\
    forall i j, H i j = sanC atol (S n (fun k => oQ o i k * oQ o k j))%C.
Proof.
  intros J0 P0 l0 c0 q0 e0 c n.
  assert (TQ : forall i j, cQ c i j = oQ o i j) by (intros; apply tensor_1).
  unfold getHamiltonian, one. change (op_vector cD [1] [(1, c)]) with (Ok [cD c]). change (op_vector cDd [1] [(1, c)]) with (Ok [cDd c]). change (op_vector cS [1] [(1, c)]) with (Ok [cS c]). change (op_vector cSd [1] [(1, c)]) with (Ok [cSd c]). cbn [bind].
  unfold cosine_part. cbn [List.length seq foldM]. rewrite J0, P0.
  destruct (Req_EM_T 0 0) as [_|]; [|lra]. cbn [bind].
  eexists. split; [reflexivity|]. intros i j. unfold tidyup. f_equal.
  unfold mplus, msc, mzero. rewrite !NumHerm.quadform_eq. cbn [List.length sumn kadd kmul k0 C_rng opn nth]. rewrite l0, c0, e0.
  assert (M : mm n (shifted [cQ c] (h_Qb h) 0) (shifted [cQ c] (h_Qb h) 0) i j = S n (fun k => (oQ o i k * oQ o k j)%C)).
  { unfold mm, mmul. apply S_ext. intros k _. cbn [kmul C_rng]. unfold shifted, mplus, msc. unfold opn. cbn [nth]. rewrite !TQ, q0. cring. }
  rewrite M. generalize (S n (fun k => (oQ o i k * oQ o k j)%C)). intros q. generalize (mm n (shifted [cP c] (h_Pbi h) 0) (shifted [cP c] (h_Pbi h) 0) i j). intros p.
  apply injective_projections; cbn; field.
Qed.
Definition d3 (i j : nat) : R := match i, j with 0, 0 => 1 | 2, 2 => 1 | _, _ => 0 end%R.
Definition dv3 (k : nat) : R := match k with 0 => 0 | _ => 1 end%R.
Definition dp3 : matrix := fun i k => RtoC (match i, k with 1, 0 => 1 | 0, 1 => 1 | 2, 2 => 1 | _, _ => 0 end)%R.
Lemma d3_spectrum H : (forall i j, i < 3 -> j < 3 -> H i j = RtoC (d3 i j)) -> spectrum 3 H dv3.
Proof.
  intros HH. exists dp3. split; [split|]; intros i j Hi Hj; (destruct i as [|[|[|i]]]; [| | |lia]); (destruct j as [|[|[|j]]]; [| | |lia]); unfold mul, csum, adjoint, identity, diagonal, dp3; cbn [Nat.eqb]; rewrite ?HH by lia; unfold d3, dv3; clear HH Hi Hj;
    apply injective_projections; cbn; ring.
Qed.
Lemma move_witness argord : (forall l, Permutation (argord l) l) ->
  exists eigh inv y circ Qnp Pnp c h h' H H' E E', let gen := getOperatorList eigh inv z1 z1 z1 z1 1 1 in let P := fun _ _ => 0%R in
  system y /\ ss_nodes y = [1] /\ same_quadratic y (wg 0) woff /\ inverted y (v_par (wg 0)) id_mat P /\ positive_components y (v_par (wg 0)) /\
  getExpandedOperatorsMap gen (ss_nodes y) (cdata 1) None [] = Ok circ /\ op_vector cQ (ss_nodes y) circ = Ok Qnp /\ op_vector cP (ss_nodes y) circ = Ok Pnp /\
  (forall m, In m (ss_nodes y) -> exists d, dget (cdata 1) m = Some d /\ solved eigh inv z1 z1 z1 1 1 m d) /\ In 1 (ss_nodes y) /\ dget circ 1 = Some c /\ c_dims c = [3] /\
  substitute y (wg 0) id_mat P 2 1 2 1 = Ok h /\ substitute y woff id_mat P 2 1 2 1 = Ok h' /\
  getHamiltonian 3 argord (ss_nodes y) (ss_edges y) h Qnp Pnp circ = Ok H /\ getHamiltonian 3 argord (ss_nodes y) (ss_edges y) h' Qnp Pnp circ = Ok H' /\
  spectrum 3 H E /\ ascending 3 E /\ spectrum 3 H' E' /\ ascending 3 E' /\ E 0 = (-1)%R /\ E' 0 = 0%R /\
  excesses (cdata 1) (ss_nodes y) = 1%R /\ josephson_change y (wg 0) woff = 1%R /\ slip_change y (wg 0) woff = 0%R /\ josephson_total y (wg 0) = 1%R /\ slip_total y (wg 0) = 0%R.
Proof.
  intros Hp. destruct box_values as (y & Hy & E1 & E2 & E3 & E4 & E5 & HV & HPC).
  assert (L1 : lname y "I" (0, 1, 1) = Some "I1") by (unfold lname; rewrite E5; reflexivity). assert (V1 : lname y "V" (0, 1, 1) = None) by (unfold lname; rewrite E5; reflexivity).
  assert (HL : forall e, ~ kind_at y "L" e). { intros e (He & c & Ec & HL). rewrite E2 in He. destruct He as [<-|[]]. rewrite E5 in Ec. injection Ec as <-. discriminate HL. }
  assert (HS : forall w, v_charge w = (fun _ => 0%R) -> v_flux w = (fun _ => 0%R) -> exists h, substitute y w id_mat (fun _ _ => 0%R) 2 1 2 1 = Ok h /\ h_Ec h = 2%R /\ h_Ej h = 2%R /\ h_J h 0 = v_par w "I1" /\ h_Ps h 0 = 0%R /\ h_Qb h 0 = 0%R /\ h_Linv h 0 0 = 0%R /\ h_pb h 0 = 0%R /\ h_Cinv h 0 0 = 1%R).
  { intros w W1 W2. eexists. unfold substitute, getJosephsonVector, getPhaseSlipVector. rewrite !(vector_ok y Hy), <- (m_red y (system_inv y Hy)), (bias_ok y Hy), E2. cbn [map bind]. rewrite L1, V1. split; [reflexivity|].
    cbn [h_Ec h_Ej h_J h_Ps h_Qb h_Linv h_pb h_Cinv]. do 4 (split; [reflexivity|]).
    split; [unfold charge_bias; rewrite E1, E4, W1; reflexivity|]. split; [unfold inverse_inductance; apply sumR_0; intros k _; apply sumR_0; intros l _; ring|].
    assert (T : forall l, SymHam.total (v_flux w) l = 0%R). { intros l. unfold SymHam.total. rewrite W2. induction l as [|x l IH]; cbn in *; [reflexivity|]. rewrite ?IH. lra. }
    split; [apply T|]. reflexivity. }
  destruct (HS (wg 0) eq_refl eq_refl) as (h & Sh & Hh), (HS woff eq_refl eq_refl) as (h' & Sh' & Hh').
  destruct (box_matrix argord h 0 1 Hp Hh) as (H & EH & VH). destruct Hh' as (e1 & e2 & e3 & e4 & e5 & e6 & e7 & e8). set (o := charge_basis ceigh cinv 1).
  destruct (off_ham argord o h' e3 e4 e6 e8 e5 e1) as (H' & EH' & VH'). cbv zeta in EH'. change (o_dim o) with 3 in *. cbn [Nat.mul Nat.add] in EH, VH.
  exists ceigh, cinv, y, [(1, one_cops o)], [cQ (one_cops o)], [cP (one_cops o)], (one_cops o), h, h', H, H', lv3, dv3. cbv zeta. rewrite E1, E2.
  split; [exact Hy|]. split; [reflexivity|]. split; [split; [reflexivity|]; intros e He; destruct (HL e He)|]. split; [exact HV|]. split; [exact HPC|].
  split; [apply one_circ; reflexivity|]. split; [reflexivity|]. split; [reflexivity|]. split. { intros m [<-|[]]. exists (mkod 1 BCharge). split; [reflexivity|]. apply ceigh_right. }
  split; [now left|]. split; [reflexivity|]. split; [reflexivity|]. split; [exact Sh|]. split; [exact Sh'|]. split; [exact EH|]. split; [exact EH'|]. split.
  { apply m3_spectrum. intros i j Hi Hj. rewrite VH by easy. unfold S. cbn [sumn kadd k0 C_rng]. unfold eye. (destruct i as [|[|[|i]]]; [| | |lia]); (destruct j as [|[|[|j]]]; [| | |lia]); cbn [Nat.eqb Nat.add m3];
      (match goal with |- sanC _ ?a = RtoC ?b => replace a with (RtoC b) by (apply injective_projections; cbn; ring) end); apply sanC_kept; try (left; reflexivity); right; unfold Rabs; destruct (Rcase_abs _); lra. }
  split. { intros i j Hij Hj. destruct j as [|[|[|j]]]; [| | |lia]; (destruct i as [|[|[|i]]]; try lia); cbn; lra. }
  split.
  { apply d3_spectrum. intros i j Hi Hj. rewrite VH'. unfold S. cbn [sumn kadd k0 C_rng]. unfold o. rewrite !charge_oQ. (destruct i as [|[|[|i]]]; [| | |lia]); (destruct j as [|[|[|j]]]; [| | |lia]); cbn [Nat.eqb Nat.add d3 Z.of_nat];
      (match goal with |- sanC _ ?a = RtoC ?b => replace a with (RtoC b) by (apply injective_projections; cbn; ring) end); apply sanC_kept; try (left; reflexivity); right; unfold Rabs; destruct (Rcase_abs _); lra. }
  split. { intros i j Hij Hj. destruct j as [|[|[|j]]]; [| | |lia]; (destruct i as [|[|[|i]]]; try lia); cbn; lra. }
  split; [reflexivity|]. split; [reflexivity|]. split; [unfold excesses, excess; cbn; ring|].
  assert (B0 : branch_bias y (fun _ => 0%R) (0, 1, 1) = 0%R) by (unfold branch_bias; rewrite E3; reflexivity).
  assert (VI : forall w, value_of y w "I" (0, 1, 1) = v_par w "I1") by (intros; now rewrite value_lname, L1). assert (VV : forall w, value_of y w "V" (0, 1, 1) = 0%R) by (intros; now rewrite value_lname, V1).
  unfold josephson_change, slip_change, josephson_total, slip_total, over. rewrite E2. cbn [fold_right]. rewrite !VV, !VI. unfold phasor. rewrite !VI. cbn [wg woff v_par v_flux]. rewrite B0. cbn [String.eqb Ascii.eqb Bool.eqb].
  rewrite Rmult_0_r, cos_0, sin_0, Rminus_0_r, Rabs_R0, Rabs_R1, !Rplus_0_r. split; [|auto].
  replace (_ - _)%C with (- RtoC 1)%C by (apply injective_projections; cbn; ring). rewrite Cmod_opp, Cmod_R, Rabs_R1. reflexivity.
Qed.
