(** Example for C133: two coupled nodes, added in either order. *)
From Coq Require Import List Bool String Ascii Arith Lia ZArith Reals Lra Permutation.
From Coquelicot Require Import Complex.
From Verif Require Import Prelude PreludeFacts Mat MatFacts Util UtilProofs Graph GraphSpec GraphView GraphForest GraphWf GraphCircuit GraphState GraphMaps GraphOps GraphProofs CollLast Sweep SweepProofs SweepResultProofs Symbolic SymbolicSpec RSum SymbolicInv SymbolicCap SymbolicCap2 SymbolicFlux SymbolicNew SymbolicProofs MutualSpec MutualProofs NumOp NumOpSpec NumKron NumSpectral NumCharge NumExpand NumHerm NumPot NumFlux NumOpProofs NumSweepRef
  SymHam SymHamSpec SymHamProofs SymHamQ SymHamT SymHamEx SymTotal SymTotalSpec SymTotalProofs SymTotalMain MoveSpec MoveProofs MoveEx NumSubst NumSymSpec NumSymProofs NumSymHam NumSymNode NumSymMain NumSymEx NumGaugeSpec NumGauge NumGaugeHam NumGaugeMain NumGaugeEx NumOsc NumTruncSpec NumTrunc NumTruncLevels NumTruncEx NumTruncBox LevMoveSpec NumBound NumBoundHam NumBoundMain RedrawSpec NumRedraw ParallelSpec NumParallel RelabelSpec NumRelabel NumReorder.
Import ListNotations.
Open Scope string_scope.
Open Scope list_scope.
Open Scope nat_scope.
Definition Lra := [B 0 1 "C1"; B 0 2 "C2"; B 0 1 "I1"; B 0 2 "I2"; B 1 2 "I3"].
Definition Lrb := [B 0 2 "C2"; B 0 1 "C1"; B 1 2 "I3"; B 0 2 "I2"; B 0 1 "I1"].
Lemma Lra_circuit : circuit (grun cg_new Lra).
Proof. last_branch [B 0 1 "C1"; B 0 2 "C2"; B 0 1 "I1"; B 0 2 "I2"] 1 2 "I3". Qed.
Lemma Lrb_circuit : circuit (grun cg_new Lrb).
Proof. last_branch [B 0 2 "C2"; B 0 1 "C1"; B 1 2 "I3"; B 0 2 "I2"] 0 1 "I1". Qed.
Definition wr : vals := mkvals (fun x => if String.eqb x "C2" then 2%R else if String.eqb x "I2" then 2%R else if String.eqb x "I3" then 3%R else 1%R) (fun _ => 0%R) (fun _ => 0%R) (fun _ => 0%R) (fun _ => 0%R).
Definition cra (i j : nat) : R := match i, j with 0, 0 => 1 | 1, 1 => 1 / 2 | _, _ => 0 end%R.
Definition crb (i j : nat) : R := match i, j with 0, 0 => 1 / 2 | 1, 1 => 1 | _, _ => 0 end%R.
Definition no_P (i j : nat) : R := 0%R.
Lemma Lra_values : exists y, system y /\ ss_nodes y = [1; 2] /\ ss_edges y = [(0, 1, 1); (0, 2, 1); (2, 1, 0)] /\ ss_flux y = map (fun e => (e, [])) [(0, 1, 1); (0, 2, 1); (2, 1, 0)] /\ ss_charge y = map (fun m => (m, None)) [1; 2] /\
    g_edges (c_graph (ss_cg y)) = [((0, 1, 0), "C1"); ((0, 2, 0), "C2"); ((0, 1, 1), "I1"); ((0, 2, 1), "I2"); ((1, 2, 0), "I3")] /\ map (dget (c_map (ss_cg y))) [(0, 1, 1); (0, 2, 1); (2, 1, 0)] = [Some "I1"; Some "I2"; Some "I3"] /\ gates (ss_cg y) = [] /\ coupled_resonators (ss_cg y) = [] /\ inverted y (v_par wr) cra no_P /\ ideal y (v_par wr).
Proof.
  assert (H : exists y, new_system idord noor (grun cg_new Lra) = Some (Ok y) /\ ss_nodes y = [1; 2] /\ ss_edges y = [(0, 1, 1); (0, 2, 1); (2, 1, 0)] /\ ss_flux y = map (fun e => (e, [])) [(0, 1, 1); (0, 2, 1); (2, 1, 0)] /\ ss_charge y = map (fun m => (m, None)) [1; 2] /\
    g_edges (c_graph (ss_cg y)) = [((0, 1, 0), "C1"); ((0, 2, 0), "C2"); ((0, 1, 1), "I1"); ((0, 2, 1), "I2"); ((1, 2, 0), "I3")] /\ map (dget (c_map (ss_cg y))) [(0, 1, 1); (0, 2, 1); (2, 1, 0)] = [Some "I1"; Some "I2"; Some "I3"] /\ gates (ss_cg y) = [] /\ coupled_resonators (ss_cg y) = [] /\ c_coupled (ss_cg y) = [] /\
    (exists L, inductance_matrix (ss_cg y) (ss_edges y) = Ok L /\ forall i j, i < 3 -> j < 3 -> L i j = None) /\ (exists M, capacitance_matrix (ss_cg y) = Ok M /\ M 0 0 = [(TmC "C1", 1%Z)] /\ M 1 1 = [(TmC "C2", 1%Z)] /\ M 0 1 = [] /\ M 1 0 = [])).
  { eexists. split; [vm_compute; reflexivity|]. do 9 (split; [reflexivity|]). split; eexists; (split; [vm_compute; reflexivity|]); [|repeat split]. intros i j Hi Hj. destruct i as [|[|[|i]]]; destruct j as [|[|[|j]]]; try lia; reflexivity. }
  destruct H as (y & Hn & E1 & E2 & E3 & E4 & E5 & E6 & E7 & E8 & E9 & (L & HL & L0) & M & HM & M00 & M11 & M01 & M10).
  assert (Hy : system y) by (eapply system_new; [apply Lra_circuit|exact Hn]).
  exists y. do 9 (split; [assumption|]). split.
  - split.
    + exists M. split; [exact HM|]. rewrite E1. cbn [List.length]. intros i j Hi Hj. destruct i as [|[|i]]; try lia; destruct j as [|[|j]]; try lia; (split; unfold mmul; cbn [sumn]; rewrite ?M00, ?M11, ?M01, ?M10; unfold cra; cbn; lra).
    + exists L. split; [exact HL|]. rewrite E2. cbn [List.length]. intros i j Hi Hj. unfold imat_val, mmul, no_P. cbn [sumn]. rewrite !L0 by lia. repeat split; cbn; lra.
  - split; [|split; [exact E9|]]; intros x Hx; unfold branches_of in Hx; rewrite E5 in Hx; cbn in Hx; [destruct Hx as [<-|[<-|[]]]; discriminate | destruct Hx].
Qed.
Lemma Lrb_values : exists y, system y /\ ss_nodes y = [2; 1] /\ ss_edges y = [(0, 2, 1); (0, 1, 1); (1, 2, 0)] /\ ss_flux y = map (fun e => (e, [])) [(0, 2, 1); (0, 1, 1); (1, 2, 0)] /\ ss_charge y = map (fun m => (m, None)) [2; 1] /\
    g_edges (c_graph (ss_cg y)) = [((0, 2, 0), "C2"); ((0, 1, 0), "C1"); ((1, 2, 0), "I3"); ((0, 2, 1), "I2"); ((0, 1, 1), "I1")] /\ map (dget (c_map (ss_cg y))) [(0, 2, 1); (0, 1, 1); (1, 2, 0)] = [Some "I2"; Some "I1"; Some "I3"] /\ gates (ss_cg y) = [] /\ coupled_resonators (ss_cg y) = [] /\ inverted y (v_par wr) crb no_P /\ ideal y (v_par wr).
Proof.
  assert (H : exists y, new_system idord noor (grun cg_new Lrb) = Some (Ok y) /\ ss_nodes y = [2; 1] /\ ss_edges y = [(0, 2, 1); (0, 1, 1); (1, 2, 0)] /\ ss_flux y = map (fun e => (e, [])) [(0, 2, 1); (0, 1, 1); (1, 2, 0)] /\ ss_charge y = map (fun m => (m, None)) [2; 1] /\
    g_edges (c_graph (ss_cg y)) = [((0, 2, 0), "C2"); ((0, 1, 0), "C1"); ((1, 2, 0), "I3"); ((0, 2, 1), "I2"); ((0, 1, 1), "I1")] /\ map (dget (c_map (ss_cg y))) [(0, 2, 1); (0, 1, 1); (1, 2, 0)] = [Some "I2"; Some "I1"; Some "I3"] /\ gates (ss_cg y) = [] /\ coupled_resonators (ss_cg y) = [] /\ c_coupled (ss_cg y) = [] /\
    (exists L, inductance_matrix (ss_cg y) (ss_edges y) = Ok L /\ forall i j, i < 3 -> j < 3 -> L i j = None) /\ (exists M, capacitance_matrix (ss_cg y) = Ok M /\ M 0 0 = [(TmC "C2", 1%Z)] /\ M 1 1 = [(TmC "C1", 1%Z)] /\ M 0 1 = [] /\ M 1 0 = [])).
  { eexists. split; [vm_compute; reflexivity|]. do 9 (split; [reflexivity|]). split; eexists; (split; [vm_compute; reflexivity|]); [|repeat split]. intros i j Hi Hj. destruct i as [|[|[|i]]]; destruct j as [|[|[|j]]]; try lia; reflexivity. }
  destruct H as (y & Hn & E1 & E2 & E3 & E4 & E5 & E6 & E7 & E8 & E9 & (L & HL & L0) & M & HM & M00 & M11 & M01 & M10).
  assert (Hy : system y) by (eapply system_new; [apply Lrb_circuit|exact Hn]).
  exists y. do 9 (split; [assumption|]). split.
  - split.
    + exists M. split; [exact HM|]. rewrite E1. cbn [List.length]. intros i j Hi Hj. destruct i as [|[|i]]; try lia; destruct j as [|[|j]]; try lia; (split; unfold mmul; cbn [sumn]; rewrite ?M00, ?M11, ?M01, ?M10; unfold crb; cbn; lra).
    + exists L. split; [exact HL|]. rewrite E2. cbn [List.length]. intros i j Hi Hj. unfold imat_val, mmul, no_P. cbn [sumn]. rewrite !L0 by lia. repeat split; cbn; lra.
  - split; [|split; [exact E9|]]; intros x Hx; unfold branches_of in Hx; rewrite E5 in Hx; cbn in Hx; [destruct Hx as [<-|[<-|[]]]; discriminate | destruct Hx].
Qed.
Lemma reorder_witness argord argord' : (forall l, Permutation (argord l) l) -> (forall l, Permutation (argord' l) l) ->
  exists y y' w Cinv Cinv' P circ circ' Qnp Pnp Qnp' Pnp' c c' h h' H H', let gen := getOperatorList ceigh cinv z1 z1 z1 z1 1 1 in let data := [(1, mkod 2 BOscillator); (2, mkod 3 BOscillator)] in let N := fold_right Nat.mul 1 (c_dims c) in let N' := fold_right Nat.mul 1 (c_dims c') in
  system y /\ system y' /\ reordered y w y' w /\ ss_nodes y = [1; 2] /\ ss_nodes y' = [2; 1] /\ ss_edges y = [(0, 1, 1); (0, 2, 1); (2, 1, 0)] /\ ss_edges y' = [(0, 2, 1); (0, 1, 1); (1, 2, 0)] /\
  map (value_of y w "I") (ss_edges y) = [1; 2; 3]%R /\ map (value_of y' w "I") (ss_edges y') = [2; 1; 3]%R /\
  ideal y (v_par w) /\ ideal y' (v_par w) /\ inverted y (v_par w) Cinv P /\ inverted y' (v_par w) Cinv' P /\
  getExpandedOperatorsMap gen (ss_nodes y) data None [] = Ok circ /\ op_vector cQ (ss_nodes y) circ = Ok Qnp /\ op_vector cP (ss_nodes y) circ = Ok Pnp /\ In 1 (ss_nodes y) /\ dget circ 1 = Some c /\
  getExpandedOperatorsMap gen (ss_nodes y') data None [] = Ok circ' /\ op_vector cQ (ss_nodes y') circ' = Ok Qnp' /\ op_vector cP (ss_nodes y') circ' = Ok Pnp' /\ In 1 (ss_nodes y') /\ dget circ' 1 = Some c' /\
  substitute y w Cinv P 1 1 1 1 = Ok h /\ substitute y' w Cinv' P 1 1 1 1 = Ok h' /\
  getHamiltonian N argord (ss_nodes y) (ss_edges y) h Qnp Pnp circ = Ok H /\ getHamiltonian N' argord' (ss_nodes y') (ss_edges y') h' Qnp' Pnp' circ' = Ok H'.
Proof.
  intros Hp Hp'. destruct Lra_values as (y & Hy & E1 & E2 & E3 & E4 & E5 & E6 & E7 & E8 & HV & HI). destruct Lrb_values as (y' & Hy' & F1 & F2 & F3 & F4 & F5 & F6 & F7 & F8 & HV' & HI').
  cbn [map] in E3, F3, E4, F4, E6, F6. injection E6 as e1 e2 e3. injection F6 as f1 f2 f3.
  assert (SB : forall p, ~ self_branch p (ss_cg y) (ss_edges y)). { intros p (e & c & He & _ & _ & Hs). rewrite E2 in He. repeat (destruct He as [<-|He]; [cbn in Hs; lia|]). destruct He. }
  assert (SB' : forall p, ~ self_branch p (ss_cg y') (ss_edges y')). { intros p (e & c & He & _ & _ & Hs). rewrite F2 in He. repeat (destruct He as [<-|He]; [cbn in Hs; lia|]). destruct He. }
  destruct (all_defined ceigh cinv z1 z1 z1 z1 1 1 y wr cra no_P 1 1 1 1 [(1, mkod 2 BOscillator); (2, mkod 3 BOscillator)] argord Hy Hp) as (circ & Qnp & Pnp & h & D1 & D2 & D3 & D4 & D5 & D6); auto.
  { rewrite E1. intros m [<-|[<-|[]]]; eexists; (split; [reflexivity|]); right; reflexivity. }
  destruct (all_defined ceigh cinv z1 z1 z1 z1 1 1 y' wr crb no_P 1 1 1 1 [(1, mkod 2 BOscillator); (2, mkod 3 BOscillator)] argord' Hy' Hp') as (circ' & Qnp' & Pnp' & h' & D1' & D2' & D3' & D4' & D5' & D6'); auto.
  { rewrite F1. intros m [<-|[<-|[]]]; eexists; (split; [reflexivity|]); right; reflexivity. }
  destruct (D4 1) as [c Hc]; [rewrite E1; now left|]. destruct (D4' 1) as [c' Hc']; [rewrite F1; right; now left|]. destruct (D6 (fold_right Nat.mul 1 (c_dims c))) as [H HH]. destruct (D6' (fold_right Nat.mul 1 (c_dims c'))) as [H' HH'].
  assert (v1I : value_of y wr "I" (0, 1, 1) = 1%R) by (unfold value_of; rewrite e1; reflexivity).
  assert (v1V : value_of y wr "V" (0, 1, 1) = 0%R) by (unfold value_of; rewrite e1; reflexivity).
  assert (v1L : value_of y wr "L" (0, 1, 1) = 0%R) by (unfold value_of; rewrite e1; reflexivity).
  assert (b1 : branch_bias y (v_flux wr) (0, 1, 1) = 0%R) by (unfold branch_bias; rewrite E3; cbn; lra).
  assert (v2I : value_of y wr "I" (0, 2, 1) = 2%R) by (unfold value_of; rewrite e2; reflexivity).
  assert (v2V : value_of y wr "V" (0, 2, 1) = 0%R) by (unfold value_of; rewrite e2; reflexivity).
  assert (v2L : value_of y wr "L" (0, 2, 1) = 0%R) by (unfold value_of; rewrite e2; reflexivity).
  assert (b2 : branch_bias y (v_flux wr) (0, 2, 1) = 0%R) by (unfold branch_bias; rewrite E3; cbn; lra).
  assert (v3I : value_of y wr "I" (2, 1, 0) = 3%R) by (unfold value_of; rewrite e3; reflexivity).
  assert (v3V : value_of y wr "V" (2, 1, 0) = 0%R) by (unfold value_of; rewrite e3; reflexivity).
  assert (v3L : value_of y wr "L" (2, 1, 0) = 0%R) by (unfold value_of; rewrite e3; reflexivity).
  assert (b3 : branch_bias y (v_flux wr) (2, 1, 0) = 0%R) by (unfold branch_bias; rewrite E3; cbn; lra).
  assert (v4I : value_of y' wr "I" (0, 2, 1) = 2%R) by (unfold value_of; rewrite f1; reflexivity).
  assert (v4V : value_of y' wr "V" (0, 2, 1) = 0%R) by (unfold value_of; rewrite f1; reflexivity).
  assert (v4L : value_of y' wr "L" (0, 2, 1) = 0%R) by (unfold value_of; rewrite f1; reflexivity).
  assert (b4 : branch_bias y' (v_flux wr) (0, 2, 1) = 0%R) by (unfold branch_bias; rewrite F3; cbn; lra).
  assert (v5I : value_of y' wr "I" (0, 1, 1) = 1%R) by (unfold value_of; rewrite f2; reflexivity).
  assert (v5V : value_of y' wr "V" (0, 1, 1) = 0%R) by (unfold value_of; rewrite f2; reflexivity).
  assert (v5L : value_of y' wr "L" (0, 1, 1) = 0%R) by (unfold value_of; rewrite f2; reflexivity).
  assert (b5 : branch_bias y' (v_flux wr) (0, 1, 1) = 0%R) by (unfold branch_bias; rewrite F3; cbn; lra).
  assert (v6I : value_of y' wr "I" (1, 2, 0) = 3%R) by (unfold value_of; rewrite f3; reflexivity).
  assert (v6V : value_of y' wr "V" (1, 2, 0) = 0%R) by (unfold value_of; rewrite f3; reflexivity).
  assert (v6L : value_of y' wr "L" (1, 2, 0) = 0%R) by (unfold value_of; rewrite f3; reflexivity).
  assert (b6 : branch_bias y' (v_flux wr) (1, 2, 0) = 0%R) by (unfold branch_bias; rewrite F3; cbn; lra).
  assert (Z0 : forall a b : R, (if Req_EM_T 0 0 then a else b) = a) by (intros; destruct (Req_EM_T 0 0); [reflexivity|lra]).
  exists y, y', wr, cra, crb, no_P, circ, circ', Qnp, Pnp, Qnp', Pnp', c, c', h, h', H, H'. cbv zeta. do 2 (split; [assumption|]). split.
  { split; [rewrite E1, F1; apply perm_swap|].
    assert (AG : forall (s x1 x2 x3 u1 u2 u3 : R), x1 = u2 -> x2 = u1 -> x3 = (s * u3)%R -> u3 = (s * x3)%R -> agree s [(0, 1, x1); (0, 2, x2); (2, 1, x3)] [(0, 2, u1); (0, 1, u2); (1, 2, u3)]).
    { intros s x1 x2 x3 u1 u2 u3 K1 K2 K3 K4 a b. unfold between. cbn [map fold_right]. destruct a as [|[|[|a]]], b as [|[|[|b]]]; cbn [Nat.eqb andb]; subst; lra. }
    split. { unfold capacitors, branches_of. rewrite E5, F5, E7, E8, F7, F8. cbn. intros a b. unfold between. cbn [map fold_right]. unfold capacitor_of, src, dst. cbn [fst snd]. destruct a as [|[|[|a]]], b as [|[|[|b]]]; cbn; lra. }
    unfold links. rewrite E2, F2. cbn [map]. unfold inverse_L, inductor_bias, current_cos, current_sin. rewrite ?v1I, ?v1V, ?v1L, ?b1, ?v2I, ?v2V, ?v2L, ?b2, ?v3I, ?v3V, ?v3L, ?b3, ?v4I, ?v4V, ?v4L, ?b4, ?v5I, ?v5V, ?v5L, ?b5, ?v6I, ?v6V, ?v6L, ?b6. rewrite ?Z0, ?Rmult_0_r, ?cos_0, ?sin_0.
    do 5 (split; [apply AG; cbn; lra|]).
    intros m _. unfold node_charge. rewrite E4, F4. destruct m as [|[|[|m]]]; reflexivity. }
  do 4 (split; [assumption|]). split; [rewrite E2; cbn [map]; rewrite v1I, v2I, v3I; reflexivity|]. split; [rewrite F2; cbn [map]; rewrite v4I, v5I, v6I; reflexivity|].
  do 7 (split; [assumption|]). split; [rewrite E1; now left|]. do 4 (split; [assumption|]). split; [rewrite F1; right; now left|]. do 3 (split; [assumption|]). split; assumption.
Qed.
