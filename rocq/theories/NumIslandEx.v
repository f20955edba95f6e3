(** Examples for C130: two nodes that only a capacitor joins to the rest, and a
    Cooper pair box. *)
From Coq Require Import List Bool String Ascii Arith Lia ZArith Reals Lra Permutation.
From Coquelicot Require Import Complex.
From Verif Require Import Prelude PreludeFacts Mat MatFacts Util UtilProofs Graph GraphSpec GraphView GraphForest GraphWf GraphCircuit GraphState GraphMaps GraphOps GraphProofs CollLast Sweep SweepProofs SweepResultProofs Symbolic SymbolicSpec RSum SymbolicInv SymbolicCap SymbolicCap2 SymbolicFlux SymbolicNew SymbolicProofs MutualSpec MutualProofs NumOp NumOpSpec NumKron NumSpectral NumCharge NumExpand NumHerm NumPot NumFlux NumOpProofs NumSweepRef
  SymHam SymHamSpec SymHamProofs SymHamQ SymHamT SymHamEx SymTotal SymTotalSpec SymTotalProofs SymTotalMain MoveSpec MoveProofs MoveEx NumSubst NumSymSpec NumSymProofs NumSymHam NumSymNode NumSymMain NumSymEx NumGaugeSpec NumGauge NumGaugeHam NumGaugeMain NumGaugeEx NumOsc NumTruncSpec NumTrunc NumTruncLevels NumTruncEx NumTruncBox LevMoveSpec NumBound NumBoundHam NumBoundMain IslandSpec NumIsland.
Import ListNotations.
Open Scope string_scope.
Open Scope list_scope.
Open Scope nat_scope.

Definition Lisl := [B 0 1 "C1"; B 0 2 "C2"; B 0 3 "C3"; B 2 3 "C4"; B 0 3 "I2"; B 1 2 "I1"].
Lemma Lisl_circuit : circuit (grun cg_new Lisl).
Proof. last_branch [B 0 1 "C1"; B 0 2 "C2"; B 0 3 "C3"; B 2 3 "C4"; B 0 3 "I2"] 1 2 "I1". Qed.
Definition icinv (i j : nat) : R := match i, j with 0, 0 => 1 | 1, 1 => 2 / 3 | 1, 2 => 1 / 3 | 2, 1 => 1 / 3 | 2, 2 => 2 / 3 | _, _ => 0 end%R.
Lemma Lisl_values : exists y, system y /\ ss_nodes y = [1; 2; 3] /\ ss_edges y = [(0, 3, 1); (1, 2, 0)] /\ dget (c_map (ss_cg y)) (0, 3, 1) = Some "I2" /\ dget (c_map (ss_cg y)) (1, 2, 0) = Some "I1" /\
  inverted y (v_par (wg 0)) icinv (fun _ _ => 0%R).
Proof.
  assert (H : exists y, new_system idord noor (grun cg_new Lisl) = Some (Ok y) /\ ss_nodes y = [1; 2; 3] /\ ss_edges y = [(0, 3, 1); (1, 2, 0)] /\ dget (c_map (ss_cg y)) (0, 3, 1) = Some "I2" /\ dget (c_map (ss_cg y)) (1, 2, 0) = Some "I1" /\
    (exists L, inductance_matrix (ss_cg y) (ss_edges y) = Ok L /\ forall i j, L i j = None) /\ (exists M, capacitance_matrix (ss_cg y) = Ok M /\ map (fun i => map (M i) [0; 1; 2]) [0; 1; 2] = [[[(TmC "C1", 1%Z)]; []; []];
           [[]; [(TmC "C2", 1%Z); (TmC "C4", 1%Z)]; [(TmC "C4", (-1)%Z)]];
           [[]; [(TmC "C4", (-1)%Z)]; [(TmC "C3", 1%Z); (TmC "C4", 1%Z)]]])).
  { eexists. split; [vm_compute; reflexivity|]. do 4 (split; [reflexivity|]). split; eexists; (split; [vm_compute; reflexivity|]); reflexivity. }
  destruct H as (y & Hn & E1 & E2 & E4 & E5 & (L & HL & L0) & M & HM & M0).
  assert (Hy : system y) by (eapply system_new; [apply Lisl_circuit|exact Hn]).
  exists y. do 5 (split; [assumption|]). split.
  - exists M. split; [exact HM|]. rewrite E1. cbn [List.length]. cbn [map] in M0. injection M0 as m0 m1 m2 m3 m4 m5 m6 m7 m8. intros i j Hi Hj.
    (destruct i as [|[|[|i]]]; [| | |lia]); (destruct j as [|[|[|j]]]; [| | |lia]); (split; unfold mmul; cbn [sumn]; rewrite ?m0, ?m1, ?m2, ?m3, ?m4, ?m5, ?m6, ?m7, ?m8; cbn; field).
  - exists L. split; [exact HL|]. rewrite E2. intros i j _ _. unfold imat_val, mmul. repeat split; cbn [List.length sumn]; rewrite ?L0; cbn; ring.
Qed.
Definition idata : dict nat opdata := [(1, mkod 1 BCharge); (2, mkod 1 BCharge); (3, mkod 2 BOscillator)].
Lemma island_witness argord : (forall l, Permutation (argord l) l) ->
  exists eigh inv y w Cinv P circ Qnp Pnp c h H, let gen := getOperatorList eigh inv z1 z1 z1 z1 1 1 in
  system y /\ ss_nodes y = [1; 2; 3] /\ inverted y (v_par w) Cinv P /\ Cinv 1 2 = (1 / 3)%R /\
  getExpandedOperatorsMap gen (ss_nodes y) idata None [] = Ok circ /\ op_vector cQ (ss_nodes y) circ = Ok Qnp /\ op_vector cP (ss_nodes y) circ = Ok Pnp /\
  island y [1; 2] /\ ~ island y [1] /\ ~ island y [3] /\ (forall m, In m [1; 2] -> free_node eigh inv y idata m) /\ In 1 (ss_nodes y) /\ dget circ 1 = Some c /\
  substitute y w Cinv P 1 1 1 1 = Ok h /\ getHamiltonian (fold_right Nat.mul 1 (c_dims c)) argord (ss_nodes y) (ss_edges y) h Qnp Pnp circ = Ok H.
Proof.
  intros Hp. destruct Lisl_values as (y & Hy & E1 & E2 & E4 & E5 & HV).
  assert (HD := circuit_derived _ (m_circ y (system_inv y Hy))).
  assert (SB : forall p, ~ self_branch p (ss_cg y) (ss_edges y)). { intros p (e & c & He & _ & _ & Hs). rewrite E2 in He. destruct He as [<-|[<-|[]]]; cbn in Hs; lia. }
  assert (NL : forall e, ~ kind_at y "L" e). { intros e (He & c & Ec & HL). rewrite E2 in He. destruct He as [<-|[<-|[]]]; [rewrite E4 in Ec | rewrite E5 in Ec]; injection Ec as <-; discriminate HL. }
  assert (K1 : kind_at y "I" (1, 2, 0)) by (split; [rewrite E2; right; now left | exists "I1"; split; [exact E5 | reflexivity]]).
  assert (K2 : kind_at y "I" (0, 3, 1)) by (split; [rewrite E2; now left | exists "I2"; split; [exact E4 | reflexivity]]).
  destruct (all_defined ceigh cinv z1 z1 z1 z1 1 1 y (wg 0) icinv (fun _ _ => 0%R) 1 1 1 1 idata argord Hy Hp) as (circ & Qnp & Pnp & h & D1 & D2 & D3 & D4 & D5 & D6); auto.
  { rewrite E1. intros m [<-|[<-|[<-|[]]]]; eexists; (split; [reflexivity|]); [left|left|right]; reflexivity. }
  destruct (D4 1) as [c Hc]; [rewrite E1; now left|]. destruct (D6 (fold_right Nat.mul 1 (c_dims c))) as [H HH].
  exists ceigh, cinv, y, (wg 0), icinv, (fun _ _ => 0%R), circ, Qnp, Pnp, c, h, H. cbv zeta.
  do 2 (split; [assumption|]). split; [exact HV|]. split; [reflexivity|]. do 3 (split; [assumption|]). split.
  { split; [rewrite E1; intros m [<-|[<-|[]]]; [now left | right; now left]|]. intros e (He & _). rewrite E2 in He. destruct He as [<-|[<-|[]]]; cbn; split; intros X; repeat (destruct X as [X|X]; try discriminate X; auto). }
  split. { intros [_ X]. destruct (X _ K1) as [X1 _]. cbn in X1. destruct (X1 (or_introl eq_refl)) as [Y|[]]. discriminate Y. }
  split. { intros [_ X]. destruct (X _ K2) as [_ X1]. cbn in X1. destruct (X1 (or_introl eq_refl)) as [Y|[]]. discriminate Y. }
  split. { intros m Hm. split; [|intros e He; destruct (NL e He)]. exists (mkod 1 BCharge). destruct Hm as [<-|[<-|[]]]; (split; [reflexivity|]; split; [reflexivity | apply ceigh_right]). }
  split; [rewrite E1; now left|]. repeat (split; [assumption|]). exact HH.
Qed.
(** With a junction to ground the charge is not conserved. *)
Lemma box_leaves argord : (forall l, Permutation (argord l) l) ->
  exists eigh inv y circ Qnp Pnp c h H, let gen := getOperatorList eigh inv z1 z1 z1 z1 1 1 in let P := fun _ _ => 0%R in
  system y /\ ss_nodes y = [1] /\ inverted y (v_par (wg 0)) id_mat P /\
  getExpandedOperatorsMap gen (ss_nodes y) (cdata 1) None [] = Ok circ /\ op_vector cQ (ss_nodes y) circ = Ok Qnp /\ op_vector cP (ss_nodes y) circ = Ok Pnp /\
  free_node eigh inv y (cdata 1) 1 /\ dget circ 1 = Some c /\ c_dims c = [3] /\
  substitute y (wg 0) id_mat P 2 1 2 1 = Ok h /\ getHamiltonian 3 argord (ss_nodes y) (ss_edges y) h Qnp Pnp circ = Ok H /\ ~ commute 3 (charge_on [1] (ss_nodes y) Qnp) H.
Proof.
  intros Hp. destruct box_inputs as (y & Hy & E1 & E2 & E3 & HV & HL & HS). destruct (HS 0%R) as (h & Sh & Hh).
  destruct (box_matrix argord h 0 1 Hp Hh) as (H & EH & VH). cbn [Nat.mul Nat.add] in EH, VH. set (o := charge_basis ceigh cinv 1).
  exists ceigh, cinv, y, [(1, one_cops o)], [cQ (one_cops o)], [cP (one_cops o)], (one_cops o), h, H. cbv zeta. rewrite E1, E2.
  split; [exact Hy|]. split; [reflexivity|]. split; [exact HV|]. split; [apply one_circ; reflexivity|]. do 2 (split; [reflexivity|]).
  split; [now apply box_free|]. do 2 (split; [reflexivity|]). split; [exact Sh|]. split; [exact EH|].
  intros X. specialize (X 0 1 ltac:(lia) ltac:(lia)). unfold mul, csum, charge_on in X. cbn [existsb Nat.eqb orb] in X.
  assert (TQ : forall i j, cQ (one_cops o) i j = oQ o i j) by (intros; apply tensor_1). rewrite !TQ in X. unfold o in X. rewrite !charge_oQ in X. cbn [Nat.eqb Nat.mul Nat.add Z.of_nat] in X.
  assert (H01 : H 0 1 = RtoC (-1)%R). { rewrite VH by lia. unfold S. cbn [sumn kadd k0 C_rng]. unfold eye. cbn [Nat.eqb Nat.add].
    match goal with |- sanC _ ?a = RtoC ?b => replace a with (RtoC b) by (apply injective_projections; cbn; ring) end. apply sanC_kept. right. unfold Rabs; destruct (Rcase_abs _); lra. }
  rewrite H01 in X. revert X. generalize (H 1 1) (H 2 1) (H 0 0) (H 0 2). intros a b c d X. apply (f_equal fst) in X. revert X. cbn. intros X. lra.
Qed.
