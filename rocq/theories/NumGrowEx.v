(** Examples for C129: a Cooper pair box with a larger capacitor. *)
From Coq Require Import List Bool String Ascii Arith Lia ZArith Reals Lra Permutation.
From Coquelicot Require Import Complex.
From Verif Require Import Prelude PreludeFacts Mat MatFacts Util UtilProofs Graph GraphSpec GraphView GraphForest GraphWf GraphCircuit GraphState GraphMaps GraphOps GraphProofs CollLast Sweep SweepProofs SweepResultProofs Symbolic SymbolicSpec RSum SymbolicInv SymbolicCap SymbolicCap2 SymbolicFlux SymbolicNew SymbolicProofs MutualSpec MutualProofs NumOp NumOpSpec NumKron NumSpectral NumCharge NumExpand NumHerm NumPot NumFlux NumOpProofs NumSweepRef
  SymHam SymHamSpec SymHamProofs SymHamQ SymHamT SymHamEx SymTotal SymTotalSpec SymTotalProofs SymTotalMain MoveSpec MoveProofs MoveEx NumSubst NumSymSpec NumSymProofs NumSymHam NumSymNode NumSymMain NumSymEx NumGaugeSpec NumGauge NumGaugeHam NumGaugeMain NumGaugeEx NumOsc NumTruncSpec NumTrunc NumTruncLevels NumTruncEx NumTruncBox LevMoveSpec NumBound NumBoundHam NumBoundMain GrowSpec NumGrow.
Import ListNotations.
Open Scope string_scope.
Open Scope list_scope.
Open Scope nat_scope.

(** the capacitor has the value a *)
Definition wcap (a : R) : vals := mkvals (fun s => if String.eqb s "C1" then a else 1%R) (fun _ => 0%R) (fun _ => 0%R) (fun _ => 0%R) (fun _ => 0%R).
Lemma cap_values : exists y, system y /\ ss_nodes y = [1] /\ ss_edges y = [(0, 1, 1)] /\ ss_charge y = [(1, Some "g")] /\
  dget (c_map (ss_cg y)) (0, 1, 1) = Some "I1" /\ (forall a, a <> 0%R -> inverted y (v_par (wcap a)) (fun _ _ => / a)%R (fun _ _ => 0%R)) /\ (forall a, (0 < a)%R -> positive_components y (v_par (wcap a))) /\
  forall a a', (a <= a')%R -> grown y (wcap a) (wcap a').
Proof.
  assert (H : exists y, new_system idord noor (grun cg_new Lbox) = Some (Ok y) /\ ss_nodes y = [1] /\ ss_edges y = [(0, 1, 1)] /\ ss_charge y = [(1, Some "g")] /\
    dget (c_map (ss_cg y)) (0, 1, 1) = Some "I1" /\ c_map (ss_cg y) = [((0, 1, 0), "C1"); ((0, 1, 1), "I1"); ((1, 0, 0), "C1"); ((1, 0, 1), "I1")] /\ c_coupled (ss_cg y) = [] /\ branches_of "C" (c_graph (ss_cg y)) = [((0, 1, 0), "C1")] /\ branches_of "L" (c_graph (ss_cg y)) = [] /\ gates (ss_cg y) = [] /\ coupled_resonators (ss_cg y) = [] /\
    (exists L, inductance_matrix (ss_cg y) (ss_edges y) = Ok L /\ forall i j, L i j = None) /\ (exists M, capacitance_matrix (ss_cg y) = Ok M /\ M 0 0 = [(TmC "C1", 1%Z)])).
  { eexists. split; [vm_compute; reflexivity|]. do 10 (split; [reflexivity|]). split; eexists; (split; [vm_compute; reflexivity|]); reflexivity. }
  destruct H as (y & Hn & E1 & E2 & E4 & E5 & E6 & K1 & K2 & K3 & K4 & K5 & (L & HL & L0) & M & HM & M0).
  assert (Hy : system y) by (eapply system_new; [apply Lbox_circuit|exact Hn]).
  exists y. do 5 (split; [assumption|]). split; [intros a Ha|split; [intros a Ha|intros a a' Ha]].
  { split.
    - exists M. split; [exact HM|]. rewrite E1. cbn [List.length]. intros i j Hi Hj. destruct i as [|i]; try lia; destruct j as [|j]; try lia. split; unfold mmul; cbn [sumn]; rewrite M0; cbn; field; easy.
    - exists L. split; [exact HL|]. rewrite E2. intros i j _ _. unfold imat_val, mmul. repeat split; cbn [List.length sumn]; rewrite ?L0; cbn; ring. }
  { split; [split; [|split; [exact K1|]]|split; [|rewrite K3; easy]].
    - unfold no_capacitor_loop. rewrite K2. intros b [<-|[]]. cbn. lia.
    - rewrite K3. easy.
    - split; [|split]; rewrite ?K2, ?K4, ?K5; [intros b [<-|[]]; exact Ha | easy | easy]. }
  split; [reflexivity|]. split; [reflexivity|]. split; [|split; [rewrite K2; intros b [<-|[]]; exact Ha | rewrite K3, K4, K5; repeat split; easy]].
  intros e. unfold value_of. rewrite E6. cbn [dget]. repeat (match goal with |- context [if ?b then _ else _] => destruct b end; [split; reflexivity|]). split; reflexivity.
Qed.
Lemma cap_ham argord o h a : (forall l, Permutation (argord l) l) ->
  h_J h 0 = 1%R -> h_Ps h 0 = 0%R -> h_Linv h 0 0 = 0%R -> h_pb h 0 = 0%R -> h_Cinv h 0 0 = a ->
  let c := one_cops o in let n := o_dim o in
  exists H, getHamiltonian n argord [1] one h [cQ c] [cP c] [(1, c)] = Ok H /\
    forall i j, H i j = sanC atol (RtoC (h_Ec h * a / 2) * S n (fun k => (oQ o i k + RtoC (h_Qb h 0) * eye i k) * (oQ o k j + RtoC (h_Qb h 0) * eye k j)) - RtoC (1 / 2 * h_Ej h) * (oD o i j + oDd o i j))%C.
Proof.
  intros Hp J0 P0 l0 b0 c0 c n.
  assert (TQ : forall i j, cQ c i j = oQ o i j) by (intros; apply tensor_1). assert (TD : forall i j, cD c i j = oD o i j) by (intros; apply tensor_1). assert (TDd : forall i j, cDd c i j = oDd o i j) by (intros; apply tensor_1).
  assert (X : forall x : nat * bool, argord [x] = [x]). { intros x. exact (Permutation_length_1_inv (Permutation_sym (Hp [x]))). }
  unfold getHamiltonian, one. change (op_vector cD [1] [(1, c)]) with (Ok [cD c]). change (op_vector cDd [1] [(1, c)]) with (Ok [cDd c]). change (op_vector cS [1] [(1, c)]) with (Ok [cS c]). change (op_vector cSd [1] [(1, c)]) with (Ok [cSd c]). cbn [bind].
  unfold cosine_part. cbn [List.length seq foldM]. rewrite J0, P0.
  destruct (Req_EM_T 0 0) as [_|]; [|lra]. destruct (Req_EM_T 1 0) as [|_]; [lra|]. cbn [bind].
  change (branch_terms [1] [(0, 1, 1)] 0) with [(0, false)]. rewrite !X. cbn [map snd fst product bind fold_left].
  eexists. split; [reflexivity|]. intros i j. unfold tidyup. f_equal. rewrite b0.
  unfold mplus, msc, mzero. rewrite !NumHerm.quadform_eq. cbn [List.length sumn kadd kmul k0 C_rng opn nth]. rewrite l0, c0.
  assert (M : mm n (shifted [cQ c] (h_Qb h) 0) (shifted [cQ c] (h_Qb h) 0) i j = S n (fun k => ((oQ o i k + RtoC (h_Qb h 0) * eye i k) * (oQ o k j + RtoC (h_Qb h 0) * eye k j))%C)).
  { unfold mm, mmul. apply S_ext. intros k _. cbn [kmul C_rng]. unfold shifted, mplus, msc. unfold opn. cbn [nth]. rewrite !TQ. cring. }
  rewrite M. unfold opn. cbn [nth]. rewrite !TD, !TDd. replace (2 * PI * 0)%R with 0%R by ring. replace (-2 * PI * 0)%R with 0%R by ring. rewrite !cis_0.
  generalize (S n (fun k => ((oQ o i k + RtoC (h_Qb h 0) * eye i k) * (oQ o k j + RtoC (h_Qb h 0) * eye k j))%C)). intros q. generalize (mm n (shifted [cP c] (h_Pbi h) 0) (shifted [cP c] (h_Pbi h) 0) i j). intros p.
  apply injective_projections; cbn; field.
Qed.
Definition a3 (i j : nat) : R := match i, j with 0, 0 => 7 / 2 | 2, 2 => 7 / 2 | 0, 1 => -1 | 1, 0 => -1 | 1, 2 => -1 | 2, 1 => -1 | _, _ => 0 end%R.
Definition av3 (k : nat) : R := match k with 0 => - (1 / 2) | 1 => 7 / 2 | _ => 4 end%R.
Definition ap3 : matrix := fun i k => RtoC (match k, i with
  | 0, 1 => 4 / 3 / sqrt 2 | 0, _ => 1 / 3 / sqrt 2 | 1, 0 => 1 / sqrt 2 | 1, 1 => 0 | 1, _ => - (1 / sqrt 2) | _, 1 => - (1 / 3) | _, _ => 2 / 3 end)%R.
Lemma a3_spectrum H : (forall i j, i < 3 -> j < 3 -> H i j = RtoC (a3 i j)) -> spectrum 3 H av3.
Proof.
  intros HH. assert (A2 : (sqrt 2 * sqrt 2 = 2)%R) by (apply sqrt_sqrt; lra). assert (N2 : (0 < sqrt 2)%R) by (apply sqrt_lt_R0; lra).
  assert (B2 : (/ sqrt 2 * / sqrt 2 = / 2)%R) by (rewrite <- Rinv_mult, A2; reflexivity). assert (C2 : (2 * (/ sqrt 2 * / sqrt 2) = 1)%R) by (rewrite B2; field).
  exists ap3. clear - HH C2. split; [split|]; intros i j Hi Hj; (destruct i as [|[|[|i]]]; [| | |lia]); (destruct j as [|[|[|j]]]; [| | |lia]); unfold mul, csum, adjoint, identity, diagonal, ap3; cbn [Nat.eqb]; rewrite ?HH by lia; unfold a3, av3; clear HH Hi Hj;
    unfold Rdiv; revert C2; generalize (/ sqrt 2)%R; intros b C2; apply injective_projections; cbn; try field; nra.
Qed.
Lemma cap_matrix argord h a : (forall l, Permutation (argord l) l) ->
  h_Ec h = 2%R /\ h_Ej h = 2%R /\ h_J h 0 = 1%R /\ h_Ps h 0 = 0%R /\ h_Qb h 0 = 0%R /\ h_Linv h 0 0 = 0%R /\ h_pb h 0 = 0%R /\ h_Cinv h 0 0 = a ->
  let c := one_cops (charge_basis ceigh cinv 1) in
  exists H, getHamiltonian 3 argord [1] one h [cQ c] [cP c] [(1, c)] = Ok H /\ forall i j, i < 3 -> j < 3 ->
    H i j = sanC atol (RtoC (match i, j with 0, 0 => a | 2, 2 => a | 0, 1 => -1 | 1, 0 => -1 | 1, 2 => -1 | 2, 1 => -1 | _, _ => 0 end))%R.
Proof.
  intros Hp (h1 & h2 & h3 & h4 & h5 & h6 & h7 & h8) c. set (o := charge_basis ceigh cinv 1) in *. destruct (cap_ham argord o h a Hp h3 h4 h6 h7 h8) as (H & EH & VH). cbv zeta in EH. change (o_dim o) with 3 in *. exists H. split; [exact EH|]. intros i j Hi Hj. rewrite VH, h1, h2, h5.
  destruct (charge_oD ceigh cinv 1 (ceigh_right 1)) as [D1 D2]. cbn [Nat.mul Nat.add] in D1, D2. fold o in D1, D2. rewrite (D1 i j Hi Hj), (D2 i j Hi Hj). unfold mdag, shift.
  assert (X : Cconj (if Nat.eqb i (j + 1) then RtoC 1 else RtoC 0) = if Nat.eqb i (j + 1) then RtoC 1 else RtoC 0) by (destruct (Nat.eqb i (j + 1)); apply conj_R). rewrite X.
  f_equal. unfold S. cbn [sumn kadd k0 C_rng]. unfold o. rewrite !charge_oQ. unfold eye. (destruct i as [|[|[|i]]]; [| | |lia]); (destruct j as [|[|[|j]]]; [| | |lia]); cbn [Nat.eqb Nat.add Z.of_nat]; apply injective_projections; cbn; field.
Qed.
Lemma grow_witness argord : (forall l, Permutation (argord l) l) ->
  exists eigh inv y circ Qnp Pnp c h h' H H' E E', let gen := getOperatorList eigh inv z1 z1 z1 z1 1 1 in let P := fun _ _ => 0%R in
  let w := wcap (2 / 7) in let w' := wcap 1 in let Cinv := fun _ _ => (/ (2 / 7))%R in let Cinv' := fun _ _ => (/ 1)%R in
  system y /\ ss_nodes y = [1] /\ inverted y (v_par w) Cinv P /\ inverted y (v_par w') Cinv' P /\ positive_components y (v_par w) /\ grown y w w' /\
  (forall m, In m (ss_nodes y) -> charge_node eigh inv (cdata 1) m) /\ In 1 (ss_nodes y) /\ dget circ 1 = Some c /\ c_dims c = [3] /\
  getExpandedOperatorsMap gen (ss_nodes y) (cdata 1) None [] = Ok circ /\ op_vector cQ (ss_nodes y) circ = Ok Qnp /\ op_vector cP (ss_nodes y) circ = Ok Pnp /\
  substitute y w Cinv P 2 1 2 1 = Ok h /\ substitute y w' Cinv' P 2 1 2 1 = Ok h' /\
  getHamiltonian 3 argord (ss_nodes y) (ss_edges y) h Qnp Pnp circ = Ok H /\ getHamiltonian 3 argord (ss_nodes y) (ss_edges y) h' Qnp Pnp circ = Ok H' /\
  spectrum 3 H E /\ ascending 3 E /\ spectrum 3 H' E' /\ ascending 3 E' /\ E 0 = (- (1 / 2))%R /\ E 1 = (7 / 2)%R /\ E 2 = 4%R /\ E' 0 = (-1)%R /\ E' 1 = 1%R /\ E' 2 = 2%R.
Proof.
  intros Hp. destruct cap_values as (y & Hy & E1 & E2 & E4 & E5 & HV & HPC & HG).
  assert (L1 : lname y "I" (0, 1, 1) = Some "I1") by (unfold lname; rewrite E5; reflexivity). assert (V1 : lname y "V" (0, 1, 1) = None) by (unfold lname; rewrite E5; reflexivity).
  assert (HS : forall a, exists h, substitute y (wcap a) (fun _ _ => / a)%R (fun _ _ => 0%R) 2 1 2 1 = Ok h /\ h_Ec h = 2%R /\ h_Ej h = 2%R /\ h_J h 0 = 1%R /\ h_Ps h 0 = 0%R /\ h_Qb h 0 = 0%R /\ h_Linv h 0 0 = 0%R /\ h_pb h 0 = 0%R /\ h_Cinv h 0 0 = (/ a)%R).
  { intros a. eexists. unfold substitute, getJosephsonVector, getPhaseSlipVector. rewrite !(vector_ok y Hy), <- (m_red y (system_inv y Hy)), (bias_ok y Hy), E2. cbn [map bind]. rewrite L1, V1. split; [reflexivity|].
    cbn [h_Ec h_Ej h_J h_Ps h_Qb h_Linv h_pb h_Cinv]. do 4 (split; [reflexivity|]).
    split; [unfold charge_bias; rewrite E1, E4; reflexivity|]. split; [unfold inverse_inductance; apply sumR_0; intros k _; apply sumR_0; intros l _; ring|].
    assert (T : forall l, SymHam.total (v_flux (wcap a)) l = 0%R). { intros l. unfold SymHam.total. cbn [v_flux wcap]. induction l as [|x l IH]; cbn in *; [reflexivity|]. rewrite ?IH. lra. }
    split; [apply T|]. reflexivity. }
  destruct (HS (2 / 7)%R) as (h & Sh & Hh), (HS 1%R) as (h' & Sh' & Hh').
  destruct (cap_matrix argord h _ Hp Hh) as (H & EH & VH), (cap_matrix argord h' _ Hp Hh') as (H' & EH' & VH'). set (o := charge_basis ceigh cinv 1) in *. cbv zeta in EH, EH'.
  exists ceigh, cinv, y, [(1, one_cops o)], [cQ (one_cops o)], [cP (one_cops o)], (one_cops o), h, h', H, H', av3, lv3. cbv zeta. rewrite E1, E2.
  split; [exact Hy|]. split; [reflexivity|]. split; [apply HV; lra|]. split; [apply HV; lra|]. split; [apply HPC; lra|]. split; [apply HG; lra|].
  split. { intros m [<-|[]]. exists 1. split; [reflexivity|]. apply ceigh_right. }
  split; [now left|]. split; [reflexivity|]. split; [reflexivity|]. split; [apply one_circ; reflexivity|]. split; [reflexivity|]. split; [reflexivity|]. split; [exact Sh|]. split; [exact Sh'|]. split; [exact EH|]. split; [exact EH'|]. split.
  { apply a3_spectrum. intros i j Hi Hj. rewrite VH by easy. replace (/ (2 / 7))%R with (7 / 2)%R by field. (destruct i as [|[|[|i]]]; [| | |lia]); (destruct j as [|[|[|j]]]; [| | |lia]); cbn [a3];
      apply sanC_kept; try (left; reflexivity); right; unfold Rabs; destruct (Rcase_abs _); lra. }
  split. { intros i j Hij Hj. destruct j as [|[|[|j]]]; [| | |lia]; (destruct i as [|[|[|i]]]; try lia); cbn; lra. }
  split.
  { apply m3_spectrum. intros i j Hi Hj. rewrite VH' by easy. replace (/ 1)%R with 1%R by field. (destruct i as [|[|[|i]]]; [| | |lia]); (destruct j as [|[|[|j]]]; [| | |lia]); cbn [m3];
      apply sanC_kept; try (left; reflexivity); right; unfold Rabs; destruct (Rcase_abs _); lra. }
  split. { intros i j Hij Hj. destruct j as [|[|[|j]]]; [| | |lia]; (destruct i as [|[|[|i]]]; try lia); cbn; lra. }
  repeat split.
Qed.
