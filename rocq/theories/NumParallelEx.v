(** Example for C132: two capacitors, two junctions and two inductors in parallel,
    and one of each. *)
From Coq Require Import List Bool String Ascii Arith Lia ZArith Reals Lra Permutation.
From Coquelicot Require Import Complex.
From Verif Require Import Prelude PreludeFacts Mat MatFacts Util UtilProofs Graph GraphSpec GraphView GraphForest GraphWf GraphCircuit GraphState GraphMaps GraphOps GraphProofs CollLast Sweep SweepProofs SweepResultProofs Symbolic SymbolicSpec RSum SymbolicInv SymbolicCap SymbolicCap2 SymbolicFlux SymbolicNew SymbolicProofs MutualSpec MutualProofs NumOp NumOpSpec NumKron NumSpectral NumCharge NumExpand NumHerm NumPot NumFlux NumOpProofs NumSweepRef
  SymHam SymHamSpec SymHamProofs SymHamQ SymHamT SymHamEx SymTotal SymTotalSpec SymTotalProofs SymTotalMain MoveSpec MoveProofs MoveEx NumSubst NumSymSpec NumSymProofs NumSymHam NumSymNode NumSymMain NumSymEx NumGaugeSpec NumGauge NumGaugeHam NumGaugeMain NumGaugeEx NumOsc NumTruncSpec NumTrunc NumTruncLevels NumTruncEx NumTruncBox LevMoveSpec NumBound NumBoundHam NumBoundMain RedrawSpec NumRedraw ParallelSpec NumParallel.
Import ListNotations.
Open Scope string_scope.
Open Scope list_scope.
Open Scope nat_scope.

Definition Lpa := [B 0 1 "C1"; B 0 1 "C2"; B 0 1 "I1"; B 0 1 "I2"; B 0 1 "L1"; B 0 1 "L2"] ++ [GFlux "I2" (PStr "a") None].
Definition Lpb := [B 1 0 "C1"; B 1 0 "I1"; B 1 0 "L1"].
Lemma Lpa_circuit : circuit (grun cg_new Lpa).
Proof. apply circuit_more; [last_branch [B 0 1 "C1"; B 0 1 "C2"; B 0 1 "I1"; B 0 1 "I2"; B 0 1 "L1"] 0 1 "L2"|other]. Qed.
Lemma Lpb_circuit : circuit (grun cg_new Lpb).
Proof. last_branch [B 1 0 "C1"; B 1 0 "I1"] 1 0 "L1". Qed.
Definition wpa : vals := mkvals (fun x => if String.eqb x "C1" then (1 / 2)%R else if String.eqb x "C2" then (1 / 2)%R else if String.eqb x "I1" then 3%R else 2%R) (fun _ => 0%R) (fun _ => (1 / 2)%R) (fun _ => 0%R) (fun _ => 0%R).
Definition wpb : vals := mkvals (fun x => 1%R) (fun _ => 0%R) (fun _ => 0%R) (fun _ => 0%R) (fun _ => 0%R).
Definition ppa (i j : nat) : R := match i, j with 2, 2 => 1 / 2 | 3, 3 => 1 / 2 | _, _ => 0 end%R.
Definition ppb (i j : nat) : R := match i, j with 1, 1 => 1 | _, _ => 0 end%R.
Lemma Lpa_values : exists y, system y /\ ss_nodes y = [1] /\ ss_edges y = [(0, 1, 2); (1, 0, 3); (1, 0, 4); (1, 0, 5)] /\ ss_flux y = [((0, 1, 2), []); ((1, 0, 3), ["a"]); ((1, 0, 4), []); ((1, 0, 5), [])] /\ ss_charge y = [(1, None)] /\
  g_edges (c_graph (ss_cg y)) = [((0, 1, 0), "C1"); ((0, 1, 1), "C2"); ((0, 1, 2), "I1"); ((0, 1, 3), "I2"); ((0, 1, 4), "L1"); ((0, 1, 5), "L2")] /\ map (dget (c_map (ss_cg y))) [(0, 1, 2); (1, 0, 3); (1, 0, 4); (1, 0, 5)] = [Some "I1"; Some "I2"; Some "L1"; Some "L2"] /\ gates (ss_cg y) = [] /\ coupled_resonators (ss_cg y) = [] /\ inverted y (v_par wpa) id_mat ppa /\ ideal y (v_par wpa).
Proof.
  assert (H : exists y, new_system idord noor (grun cg_new Lpa) = Some (Ok y) /\ ss_nodes y = [1] /\ ss_edges y = [(0, 1, 2); (1, 0, 3); (1, 0, 4); (1, 0, 5)] /\ ss_flux y = [((0, 1, 2), []); ((1, 0, 3), ["a"]); ((1, 0, 4), []); ((1, 0, 5), [])] /\ ss_charge y = [(1, None)] /\
    g_edges (c_graph (ss_cg y)) = [((0, 1, 0), "C1"); ((0, 1, 1), "C2"); ((0, 1, 2), "I1"); ((0, 1, 3), "I2"); ((0, 1, 4), "L1"); ((0, 1, 5), "L2")] /\ map (dget (c_map (ss_cg y))) [(0, 1, 2); (1, 0, 3); (1, 0, 4); (1, 0, 5)] = [Some "I1"; Some "I2"; Some "L1"; Some "L2"] /\ gates (ss_cg y) = [] /\ coupled_resonators (ss_cg y) = [] /\ c_coupled (ss_cg y) = [] /\
    (exists L, inductance_matrix (ss_cg y) (ss_edges y) = Ok L /\ forall i j, i < 4 -> j < 4 -> L i j = match i, j with 2, 2 => Some "L1" | 3, 3 => Some "L2" | _, _ => None end) /\ (exists M, capacitance_matrix (ss_cg y) = Ok M /\ M 0 0 = [(TmC "C1", 1%Z); (TmC "C2", 1%Z)])).
  { eexists. split; [vm_compute; reflexivity|]. do 9 (split; [reflexivity|]). split; eexists; (split; [vm_compute; reflexivity|]); [|reflexivity]. intros i j Hi Hj. destruct i as [|[|[|[|i]]]]; destruct j as [|[|[|[|j]]]]; try lia; reflexivity. }
  destruct H as (y & Hn & E1 & E2 & E3 & E4 & E5 & E6 & E7 & E8 & E9 & (L & HL & L0) & M & HM & M0).
  assert (Hy : system y) by (eapply system_new; [apply Lpa_circuit|exact Hn]).
  exists y. do 9 (split; [assumption|]). split.
  - split.
    + exists M. split; [exact HM|]. rewrite E1. cbn [List.length]. intros i j Hi Hj. destruct i as [|i]; try lia; destruct j as [|j]; try lia. split; unfold mmul; cbn [sumn]; rewrite M0; unfold id_mat; cbn; lra.
    + exists L. split; [exact HL|]. rewrite E2. cbn [List.length]. intros i j Hi Hj. unfold imat_val, mmul. cbn [sumn]. rewrite !L0 by lia.
      destruct i as [|[|[|[|i]]]]; try lia; destruct j as [|[|[|[|j]]]]; try lia; repeat split; cbn; lra.
  - split; [|split; [exact E9|]]; intros x Hx; unfold branches_of in Hx; rewrite E5 in Hx; cbn in Hx; [destruct Hx as [<-|[<-|[]]]; discriminate | destruct Hx as [<-|[<-|[]]]; cbn; lra].
Qed.
Lemma Lpb_values : exists y, system y /\ ss_nodes y = [1] /\ ss_edges y = [(1, 0, 1); (0, 1, 2)] /\ ss_flux y = [((1, 0, 1), []); ((0, 1, 2), [])] /\ ss_charge y = [(1, None)] /\
  g_edges (c_graph (ss_cg y)) = [((1, 0, 0), "C1"); ((1, 0, 1), "I1"); ((1, 0, 2), "L1")] /\ map (dget (c_map (ss_cg y))) [(1, 0, 1); (0, 1, 2)] = [Some "I1"; Some "L1"] /\ gates (ss_cg y) = [] /\ coupled_resonators (ss_cg y) = [] /\ inverted y (v_par wpb) id_mat ppb /\ ideal y (v_par wpb).
Proof.
  assert (H : exists y, new_system idord noor (grun cg_new Lpb) = Some (Ok y) /\ ss_nodes y = [1] /\ ss_edges y = [(1, 0, 1); (0, 1, 2)] /\ ss_flux y = [((1, 0, 1), []); ((0, 1, 2), [])] /\ ss_charge y = [(1, None)] /\
    g_edges (c_graph (ss_cg y)) = [((1, 0, 0), "C1"); ((1, 0, 1), "I1"); ((1, 0, 2), "L1")] /\ map (dget (c_map (ss_cg y))) [(1, 0, 1); (0, 1, 2)] = [Some "I1"; Some "L1"] /\ gates (ss_cg y) = [] /\ coupled_resonators (ss_cg y) = [] /\ c_coupled (ss_cg y) = [] /\
    (exists L, inductance_matrix (ss_cg y) (ss_edges y) = Ok L /\ forall i j, i < 2 -> j < 2 -> L i j = match i, j with 1, 1 => Some "L1" | _, _ => None end) /\ (exists M, capacitance_matrix (ss_cg y) = Ok M /\ M 0 0 = [(TmC "C1", 1%Z)])).
  { eexists. split; [vm_compute; reflexivity|]. do 9 (split; [reflexivity|]). split; eexists; (split; [vm_compute; reflexivity|]); [|reflexivity]. intros i j Hi Hj. destruct i as [|[|[|[|i]]]]; destruct j as [|[|[|[|j]]]]; try lia; reflexivity. }
  destruct H as (y & Hn & E1 & E2 & E3 & E4 & E5 & E6 & E7 & E8 & E9 & (L & HL & L0) & M & HM & M0).
  assert (Hy : system y) by (eapply system_new; [apply Lpb_circuit|exact Hn]).
  exists y. do 9 (split; [assumption|]). split.
  - split.
    + exists M. split; [exact HM|]. rewrite E1. cbn [List.length]. intros i j Hi Hj. destruct i as [|i]; try lia; destruct j as [|j]; try lia. split; unfold mmul; cbn [sumn]; rewrite M0; unfold id_mat; cbn; lra.
    + exists L. split; [exact HL|]. rewrite E2. cbn [List.length]. intros i j Hi Hj. unfold imat_val, mmul. cbn [sumn]. rewrite !L0 by lia.
      destruct i as [|[|[|[|i]]]]; try lia; destruct j as [|[|[|[|j]]]]; try lia; repeat split; cbn; lra.
  - split; [|split; [exact E9|]]; intros x Hx; unfold branches_of in Hx; rewrite E5 in Hx; cbn in Hx; [destruct Hx as [<-|[]]; discriminate | destruct Hx as [<-|[]]; cbn; lra].
Qed.
Lemma half_turn : cos (2 * PI * (1 / 2)) = (-1)%R /\ sin (2 * PI * (1 / 2)) = 0%R.
Proof. replace (2 * PI * (1 / 2))%R with PI by field. split; [apply cos_PI | apply sin_PI]. Qed.
Lemma parallel_witness argord argord' : (forall l, Permutation (argord l) l) -> (forall l, Permutation (argord' l) l) ->
  exists y y' w w' Cinv P P' circ Qnp Pnp c h h' H H', let gen := getOperatorList ceigh cinv z1 z1 z1 z1 1 1 in let N := fold_right Nat.mul 1 (c_dims c) in
  system y /\ system y' /\ alike y w y' w' /\ ss_edges y = [(0, 1, 2); (1, 0, 3); (1, 0, 4); (1, 0, 5)] /\ ss_edges y' = [(1, 0, 1); (0, 1, 2)] /\
  map (value_of y w "I") (ss_edges y) = [3; 2; 0; 0]%R /\ map (value_of y' w' "I") (ss_edges y') = [1; 0]%R /\ map (branch_bias y (v_flux w)) (ss_edges y) = [0; 1 / 2; 0; 0]%R /\
  map (value_of y w "L") (ss_edges y) = [0; 0; 2; 2]%R /\ map (value_of y' w' "L") (ss_edges y') = [0; 1]%R /\
  ideal y (v_par w) /\ ideal y' (v_par w') /\ inverted y (v_par w) Cinv P /\ inverted y' (v_par w') Cinv P' /\
  getExpandedOperatorsMap gen (ss_nodes y) [(1, mkod 2 BOscillator)] None [] = Ok circ /\ op_vector cQ (ss_nodes y) circ = Ok Qnp /\ op_vector cP (ss_nodes y) circ = Ok Pnp /\
  In 1 (ss_nodes y) /\ dget circ 1 = Some c /\ substitute y w Cinv P 1 1 1 1 = Ok h /\ substitute y' w' Cinv P' 1 1 1 1 = Ok h' /\
  getHamiltonian N argord (ss_nodes y) (ss_edges y) h Qnp Pnp circ = Ok H /\ getHamiltonian N argord' (ss_nodes y') (ss_edges y') h' Qnp Pnp circ = Ok H'.
Proof.
  intros Hp Hp'. destruct Lpa_values as (y & Hy & E1 & E2 & E3 & E4 & E5 & E6 & E7 & E8 & HV & HI). destruct Lpb_values as (y' & Hy' & F1 & F2 & F3 & F4 & F5 & F6 & F7 & F8 & HV' & HI').
  cbn [map] in E6, F6. injection E6 as e1 e2 e3 e4. injection F6 as f1 f2.
  assert (SB : forall p, ~ self_branch p (ss_cg y) (ss_edges y)). { intros p (e & c & He & _ & _ & Hs). rewrite E2 in He. repeat (destruct He as [<-|He]; [cbn in Hs; lia|]). destruct He. }
  assert (SB' : forall p, ~ self_branch p (ss_cg y') (ss_edges y')). { intros p (e & c & He & _ & _ & Hs). rewrite F2 in He. repeat (destruct He as [<-|He]; [cbn in Hs; lia|]). destruct He. }
  destruct (all_defined ceigh cinv z1 z1 z1 z1 1 1 y wpa id_mat ppa 1 1 1 1 [(1, mkod 2 BOscillator)] argord Hy Hp) as (circ & Qnp & Pnp & h & D1 & D2 & D3 & D4 & D5 & D6); auto.
  { rewrite E1. intros m [<-|[]]; eexists; (split; [reflexivity|]); right; reflexivity. }
  destruct (all_defined ceigh cinv z1 z1 z1 z1 1 1 y' wpb id_mat ppb 1 1 1 1 [(1, mkod 2 BOscillator)] argord' Hy' Hp') as (circ' & Qnp' & Pnp' & h' & D1' & D2' & D3' & D4' & D5' & D6'); auto.
  { rewrite F1. intros m [<-|[]]; eexists; (split; [reflexivity|]); right; reflexivity. }
  rewrite F1 in D1', D2', D3'. rewrite E1 in D1, D2, D3. rewrite D1 in D1'. injection D1' as <-. rewrite D2 in D2'. injection D2' as <-. rewrite D3 in D3'. injection D3' as <-.
  destruct (D4 1) as [c Hc]; [rewrite E1; now left|]. destruct (D6 (fold_right Nat.mul 1 (c_dims c))) as [H HH]. destruct (D6' (fold_right Nat.mul 1 (c_dims c))) as [H' HH'].
  assert (va1I : value_of y wpa "I" (0, 1, 2) = 3%R) by (unfold value_of; rewrite e1; reflexivity).
  assert (va1V : value_of y wpa "V" (0, 1, 2) = 0%R) by (unfold value_of; rewrite e1; reflexivity).
  assert (va1L : value_of y wpa "L" (0, 1, 2) = 0%R) by (unfold value_of; rewrite e1; reflexivity).
  assert (ba1 : branch_bias y (v_flux wpa) (0, 1, 2) = (0)%R) by (unfold branch_bias; rewrite E3; cbn; lra).
  assert (va2I : value_of y wpa "I" (1, 0, 3) = 2%R) by (unfold value_of; rewrite e2; reflexivity).
  assert (va2V : value_of y wpa "V" (1, 0, 3) = 0%R) by (unfold value_of; rewrite e2; reflexivity).
  assert (va2L : value_of y wpa "L" (1, 0, 3) = 0%R) by (unfold value_of; rewrite e2; reflexivity).
  assert (ba2 : branch_bias y (v_flux wpa) (1, 0, 3) = (1 / 2)%R) by (unfold branch_bias; rewrite E3; cbn; lra).
  assert (va3I : value_of y wpa "I" (1, 0, 4) = 0%R) by (unfold value_of; rewrite e3; reflexivity).
  assert (va3V : value_of y wpa "V" (1, 0, 4) = 0%R) by (unfold value_of; rewrite e3; reflexivity).
  assert (va3L : value_of y wpa "L" (1, 0, 4) = 2%R) by (unfold value_of; rewrite e3; reflexivity).
  assert (ba3 : branch_bias y (v_flux wpa) (1, 0, 4) = (0)%R) by (unfold branch_bias; rewrite E3; cbn; lra).
  assert (va4I : value_of y wpa "I" (1, 0, 5) = 0%R) by (unfold value_of; rewrite e4; reflexivity).
  assert (va4V : value_of y wpa "V" (1, 0, 5) = 0%R) by (unfold value_of; rewrite e4; reflexivity).
  assert (va4L : value_of y wpa "L" (1, 0, 5) = 2%R) by (unfold value_of; rewrite e4; reflexivity).
  assert (ba4 : branch_bias y (v_flux wpa) (1, 0, 5) = (0)%R) by (unfold branch_bias; rewrite E3; cbn; lra).
  assert (vb1I : value_of y' wpb "I" (1, 0, 1) = 1%R) by (unfold value_of; rewrite f1; reflexivity).
  assert (vb1V : value_of y' wpb "V" (1, 0, 1) = 0%R) by (unfold value_of; rewrite f1; reflexivity).
  assert (vb1L : value_of y' wpb "L" (1, 0, 1) = 0%R) by (unfold value_of; rewrite f1; reflexivity).
  assert (bb1 : branch_bias y' (v_flux wpb) (1, 0, 1) = (0)%R) by (unfold branch_bias; rewrite F3; cbn; lra).
  assert (vb2I : value_of y' wpb "I" (0, 1, 2) = 0%R) by (unfold value_of; rewrite f2; reflexivity).
  assert (vb2V : value_of y' wpb "V" (0, 1, 2) = 0%R) by (unfold value_of; rewrite f2; reflexivity).
  assert (vb2L : value_of y' wpb "L" (0, 1, 2) = 1%R) by (unfold value_of; rewrite f2; reflexivity).
  assert (bb2 : branch_bias y' (v_flux wpb) (0, 1, 2) = (0)%R) by (unfold branch_bias; rewrite F3; cbn; lra).
  assert (Z0 : forall a b : R, (if Req_EM_T 0 0 then a else b) = a) by (intros; destruct (Req_EM_T 0 0); [reflexivity|lra]). assert (Z1 : forall a b : R, (if Req_EM_T 1 0 then a else b) = b) by (intros; destruct (Req_EM_T 1 0); [lra|reflexivity]). assert (Z2 : forall a b : R, (if Req_EM_T 2 0 then a else b) = b) by (intros; destruct (Req_EM_T 2 0); [lra|reflexivity]).
  destruct half_turn as [hc hs].
  exists y, y', wpa, wpb, id_mat, ppa, ppb, circ, Qnp, Pnp, c, h, h', H, H'. cbv zeta. do 2 (split; [assumption|]). split.
  { split; [congruence|].
    assert (AG : forall (s x1 x2 x3 x4 z1 z2 : R), (x1 + s * (x2 + x3 + x4) = s * z1 + z2)%R -> (s * x1 + (x2 + x3 + x4) = z1 + s * z2)%R -> agree s [(0, 1, x1); (1, 0, x2); (1, 0, x3); (1, 0, x4)] [(1, 0, z1); (0, 1, z2)]).
    { intros s x1 x2 x3 x4 q1 q2 K1 K2 a b. unfold between. cbn [map fold_right]. destruct a as [|[|a]], b as [|[|b]]; cbn [Nat.eqb andb]; lra. }
    split. { unfold capacitors, branches_of. rewrite E5, F5, E7, E8, F7, F8. cbn. intros a b. unfold between. cbn [map fold_right]. unfold capacitor_of, src, dst. cbn [fst snd]. destruct a as [|[|a]], b as [|[|b]]; cbn; lra. }
    unfold links. rewrite E2, F2. cbn [map]. unfold inverse_L, inductor_bias, current_cos, current_sin. rewrite ?va1I, ?va1V, ?va1L, ?va2I, ?va2V, ?va2L, ?va3I, ?va3V, ?va3L, ?va4I, ?va4V, ?va4L, ?vb1I, ?vb1V, ?vb1L, ?vb2I, ?vb2V, ?vb2L, ?ba1, ?ba2, ?ba3, ?ba4, ?bb1, ?bb2. rewrite ?Z0, ?Z1, ?Z2, ?Rmult_0_r, ?cos_0, ?sin_0, ?hc, ?hs.
    do 5 (split; [apply AG; cbn; lra|]).
    intros i _. unfold charge_bias. rewrite E4, F4, E1, F1. destruct i as [|[|i]]; reflexivity. }
  do 2 (split; [assumption|]). split; [rewrite E2; cbn [map]; rewrite va1I, va2I, va3I, va4I; reflexivity|]. split; [rewrite F2; cbn [map]; rewrite vb1I, vb2I; reflexivity|]. split; [rewrite E2; cbn [map]; rewrite ba1, ba2, ba3, ba4; reflexivity|].
  split; [rewrite E2; cbn [map]; rewrite va1L, va2L, va3L, va4L; reflexivity|]. split; [rewrite F2; cbn [map]; rewrite vb1L, vb2L; reflexivity|].
  do 4 (split; [assumption|]). rewrite E1 in *. do 3 (split; [assumption|]). split; [now left|]. do 3 (split; [assumption|]). split; assumption.
Qed.
