(** Example for C131: three junctions and a capacitor in parallel, drawn twice. *)
From Coq Require Import List Bool String Ascii Arith Lia ZArith Reals Lra Permutation.
From Coquelicot Require Import Complex.
From Verif Require Import Prelude PreludeFacts Mat MatFacts Util UtilProofs Graph GraphSpec GraphView GraphForest GraphWf GraphCircuit GraphState GraphMaps GraphOps GraphProofs CollLast Sweep SweepProofs SweepResultProofs Symbolic SymbolicSpec RSum SymbolicInv SymbolicCap SymbolicCap2 SymbolicFlux SymbolicNew SymbolicProofs MutualSpec MutualProofs NumOp NumOpSpec NumKron NumSpectral NumCharge NumExpand NumHerm NumPot NumFlux NumOpProofs NumSweepRef
  SymHam SymHamSpec SymHamProofs SymHamQ SymHamT SymHamEx SymTotal SymTotalSpec SymTotalProofs SymTotalMain MoveSpec MoveProofs MoveEx NumSubst NumSymSpec NumSymProofs NumSymHam NumSymNode NumSymMain NumSymEx NumGaugeSpec NumGauge NumGaugeHam NumGaugeMain NumGaugeEx NumOsc NumTruncSpec NumTrunc NumTruncLevels NumTruncEx NumTruncBox LevMoveSpec NumBound NumBoundHam NumBoundMain RedrawSpec NumRedraw.
Import ListNotations.
Open Scope string_scope.
Open Scope list_scope.
Open Scope nat_scope.

Definition Lda := [B 0 1 "C1"; B 0 1 "I1"; B 0 1 "I2"; B 0 1 "I3"] ++ [GFlux "I1" (PStr "a") None].
Definition Ldb := [B 1 0 "C9"; B 1 0 "I7"; B 0 1 "I6"; B 0 1 "I8"] ++ [GFlux "I7" (PStr "f") None].
Lemma Lda_circuit : circuit (grun cg_new Lda).
Proof. apply circuit_more; [last_branch [B 0 1 "C1"; B 0 1 "I1"; B 0 1 "I2"] 0 1 "I3"|other]. Qed.
Lemma Ldb_circuit : circuit (grun cg_new Ldb).
Proof. apply circuit_more; [last_branch [B 1 0 "C9"; B 1 0 "I7"; B 0 1 "I6"] 0 1 "I8"|other]. Qed.
Definition wda : vals := mkvals (fun x => if String.eqb x "I2" then 2%R else if String.eqb x "I3" then 3%R else 1%R) (fun _ => 0%R) (fun _ => (1 / 4)%R) (fun _ => 0%R) (fun _ => 0%R).
Definition wdb : vals := mkvals (fun x => if String.eqb x "I8" then 2%R else if String.eqb x "I6" then 3%R else 1%R) (fun _ => 0%R) (fun _ => (- (1 / 4))%R) (fun _ => 0%R) (fun _ => 0%R).
Lemma Lda_values : exists y, system y /\ ss_nodes y = [1] /\ ss_edges y = [(0, 1, 1); (1, 0, 2); (1, 0, 3)] /\ ss_flux y = [((0, 1, 1), ["a"]); ((1, 0, 2), []); ((1, 0, 3), [])] /\ ss_charge y = [(1, None)] /\
  g_edges (c_graph (ss_cg y)) = [((0, 1, 0), "C1"); ((0, 1, 1), "I1"); ((0, 1, 2), "I2"); ((0, 1, 3), "I3")] /\ map (dget (c_map (ss_cg y))) [(0, 1, 1); (1, 0, 2); (1, 0, 3)] = [Some "I1"; Some "I2"; Some "I3"] /\ gates (ss_cg y) = [] /\ coupled_resonators (ss_cg y) = [] /\ inverted y (v_par wda) id_mat (fun _ _ => 0%R) /\ ideal y (v_par wda).
Proof.
  assert (H : exists y, new_system idord noor (grun cg_new Lda) = Some (Ok y) /\ ss_nodes y = [1] /\ ss_edges y = [(0, 1, 1); (1, 0, 2); (1, 0, 3)] /\ ss_flux y = [((0, 1, 1), ["a"]); ((1, 0, 2), []); ((1, 0, 3), [])] /\ ss_charge y = [(1, None)] /\
    g_edges (c_graph (ss_cg y)) = [((0, 1, 0), "C1"); ((0, 1, 1), "I1"); ((0, 1, 2), "I2"); ((0, 1, 3), "I3")] /\ map (dget (c_map (ss_cg y))) [(0, 1, 1); (1, 0, 2); (1, 0, 3)] = [Some "I1"; Some "I2"; Some "I3"] /\ gates (ss_cg y) = [] /\ coupled_resonators (ss_cg y) = [] /\ c_coupled (ss_cg y) = [] /\
    (exists L, inductance_matrix (ss_cg y) (ss_edges y) = Ok L /\ forall i j, L i j = None) /\ (exists M, capacitance_matrix (ss_cg y) = Ok M /\ M 0 0 = [(TmC "C1", 1%Z)])).
  { eexists. split; [vm_compute; reflexivity|]. do 9 (split; [reflexivity|]). split; eexists; (split; [vm_compute; reflexivity|]); reflexivity. }
  destruct H as (y & Hn & E1 & E2 & E3 & E4 & E5 & E6 & E7 & E8 & E9 & (L & HL & L0) & M & HM & M0).
  assert (Hy : system y) by (eapply system_new; [apply Lda_circuit|exact Hn]).
  exists y. do 9 (split; [assumption|]). split.
  - split.
    + exists M. split; [exact HM|]. rewrite E1. cbn [List.length]. intros i j Hi Hj. destruct i as [|i]; try lia; destruct j as [|j]; try lia. split; unfold mmul; cbn [sumn]; rewrite M0; unfold id_mat; cbn; ring.
    + exists L. split; [exact HL|]. rewrite E2. intros i j _ _. unfold imat_val, mmul. repeat split; cbn [List.length sumn]; rewrite ?L0; cbn; ring.
  - split; [|split; [exact E9|]]; intros x Hx; unfold branches_of in Hx; rewrite E5 in Hx; cbn in Hx; [destruct Hx as [<-|[]]; discriminate | destruct Hx].
Qed.
Lemma Ldb_values : exists y, system y /\ ss_nodes y = [1] /\ ss_edges y = [(1, 0, 1); (0, 1, 2); (0, 1, 3)] /\ ss_flux y = [((1, 0, 1), ["f"]); ((0, 1, 2), []); ((0, 1, 3), [])] /\ ss_charge y = [(1, None)] /\
  g_edges (c_graph (ss_cg y)) = [((1, 0, 0), "C9"); ((1, 0, 1), "I7"); ((0, 1, 2), "I6"); ((0, 1, 3), "I8")] /\ map (dget (c_map (ss_cg y))) [(1, 0, 1); (0, 1, 2); (0, 1, 3)] = [Some "I7"; Some "I6"; Some "I8"] /\ gates (ss_cg y) = [] /\ coupled_resonators (ss_cg y) = [] /\ inverted y (v_par wdb) id_mat (fun _ _ => 0%R) /\ ideal y (v_par wdb).
Proof.
  assert (H : exists y, new_system idord noor (grun cg_new Ldb) = Some (Ok y) /\ ss_nodes y = [1] /\ ss_edges y = [(1, 0, 1); (0, 1, 2); (0, 1, 3)] /\ ss_flux y = [((1, 0, 1), ["f"]); ((0, 1, 2), []); ((0, 1, 3), [])] /\ ss_charge y = [(1, None)] /\
    g_edges (c_graph (ss_cg y)) = [((1, 0, 0), "C9"); ((1, 0, 1), "I7"); ((0, 1, 2), "I6"); ((0, 1, 3), "I8")] /\ map (dget (c_map (ss_cg y))) [(1, 0, 1); (0, 1, 2); (0, 1, 3)] = [Some "I7"; Some "I6"; Some "I8"] /\ gates (ss_cg y) = [] /\ coupled_resonators (ss_cg y) = [] /\ c_coupled (ss_cg y) = [] /\
    (exists L, inductance_matrix (ss_cg y) (ss_edges y) = Ok L /\ forall i j, L i j = None) /\ (exists M, capacitance_matrix (ss_cg y) = Ok M /\ M 0 0 = [(TmC "C9", 1%Z)])).
  { eexists. split; [vm_compute; reflexivity|]. do 9 (split; [reflexivity|]). split; eexists; (split; [vm_compute; reflexivity|]); reflexivity. }
  destruct H as (y & Hn & E1 & E2 & E3 & E4 & E5 & E6 & E7 & E8 & E9 & (L & HL & L0) & M & HM & M0).
  assert (Hy : system y) by (eapply system_new; [apply Ldb_circuit|exact Hn]).
  exists y. do 9 (split; [assumption|]). split.
  - split.
    + exists M. split; [exact HM|]. rewrite E1. cbn [List.length]. intros i j Hi Hj. destruct i as [|i]; try lia; destruct j as [|j]; try lia. split; unfold mmul; cbn [sumn]; rewrite M0; unfold id_mat; cbn; ring.
    + exists L. split; [exact HL|]. rewrite E2. intros i j _ _. unfold imat_val, mmul. repeat split; cbn [List.length sumn]; rewrite ?L0; cbn; ring.
  - split; [|split; [exact E9|]]; intros x Hx; unfold branches_of in Hx; rewrite E5 in Hx; cbn in Hx; [destruct Hx as [<-|[]]; discriminate | destruct Hx].
Qed.
Lemma redraw_witness argord argord' : (forall l, Permutation (argord l) l) -> (forall l, Permutation (argord' l) l) ->
  exists y y' w w' Cinv P circ Qnp Pnp c h h' H H', let gen := getOperatorList ceigh cinv z1 z1 z1 z1 1 1 in let N := fold_right Nat.mul 1 (c_dims c) in
  system y /\ system y' /\ redrawn y w y' w' /\ ss_edges y = [(0, 1, 1); (1, 0, 2); (1, 0, 3)] /\ ss_edges y' = [(1, 0, 1); (0, 1, 2); (0, 1, 3)] /\
  map (value_of y w "I") (ss_edges y) = [1; 2; 3]%R /\ map (value_of y' w' "I") (ss_edges y') = [1; 3; 2]%R /\ map (branch_bias y (v_flux w)) (ss_edges y) = [1 / 4; 0; 0]%R /\ map (branch_bias y' (v_flux w')) (ss_edges y') = [- (1 / 4); 0; 0]%R /\
  ideal y (v_par w) /\ ideal y' (v_par w') /\ inverted y (v_par w) Cinv P /\ inverted y' (v_par w') Cinv P /\
  getExpandedOperatorsMap gen (ss_nodes y) [(1, mkod 2 BCharge)] None [] = Ok circ /\ op_vector cQ (ss_nodes y) circ = Ok Qnp /\ op_vector cP (ss_nodes y) circ = Ok Pnp /\
  In 1 (ss_nodes y) /\ dget circ 1 = Some c /\ substitute y w Cinv P 1 1 1 1 = Ok h /\ substitute y' w' Cinv P 1 1 1 1 = Ok h' /\
  getHamiltonian N argord (ss_nodes y) (ss_edges y) h Qnp Pnp circ = Ok H /\ getHamiltonian N argord' (ss_nodes y') (ss_edges y') h' Qnp Pnp circ = Ok H'.
Proof.
  intros Hp Hp'. destruct Lda_values as (y & Hy & E1 & E2 & E3 & E4 & E5 & E6 & E7 & E8 & HV & HI). destruct Ldb_values as (y' & Hy' & F1 & F2 & F3 & F4 & F5 & F6 & F7 & F8 & HV' & HI').
  cbn [map] in E6, F6. injection E6 as e1 e2 e3. injection F6 as f1 f2 f3.
  assert (SB : forall p, ~ self_branch p (ss_cg y) (ss_edges y)). { intros p (e & c & He & _ & _ & Hs). rewrite E2 in He. destruct He as [<-|[<-|[<-|[]]]]; cbn in Hs; lia. }
  assert (SB' : forall p, ~ self_branch p (ss_cg y') (ss_edges y')). { intros p (e & c & He & _ & _ & Hs). rewrite F2 in He. destruct He as [<-|[<-|[<-|[]]]]; cbn in Hs; lia. }
  destruct (all_defined ceigh cinv z1 z1 z1 z1 1 1 y wda id_mat (fun _ _ => 0%R) 1 1 1 1 [(1, mkod 2 BCharge)] argord Hy Hp) as (circ & Qnp & Pnp & h & D1 & D2 & D3 & D4 & D5 & D6); auto.
  { rewrite E1. intros m [<-|[]]; eexists; (split; [reflexivity|]); left; reflexivity. }
  destruct (all_defined ceigh cinv z1 z1 z1 z1 1 1 y' wdb id_mat (fun _ _ => 0%R) 1 1 1 1 [(1, mkod 2 BCharge)] argord' Hy' Hp') as (circ' & Qnp' & Pnp' & h' & D1' & D2' & D3' & D4' & D5' & D6'); auto.
  { rewrite F1. intros m [<-|[]]; eexists; (split; [reflexivity|]); left; reflexivity. }
  rewrite F1 in D1', D2', D3'. rewrite E1 in D1, D2, D3. rewrite D1 in D1'. injection D1' as <-. rewrite D2 in D2'. injection D2' as <-. rewrite D3 in D3'. injection D3' as <-.
  destruct (D4 1) as [c Hc]; [rewrite E1; now left|]. destruct (D6 (fold_right Nat.mul 1 (c_dims c))) as [H HH]. destruct (D6' (fold_right Nat.mul 1 (c_dims c))) as [H' HH'].
  assert (B1 : map (branch_bias y (v_flux wda)) (ss_edges y) = [1 / 4; 0; 0]%R). { rewrite E2. cbn [map]. unfold branch_bias. rewrite E3. cbn. f_equal. lra. }
  assert (B2 : map (branch_bias y' (v_flux wdb)) (ss_edges y') = [- (1 / 4); 0; 0]%R). { rewrite F2. cbn [map]. unfold branch_bias. rewrite F3. cbn. f_equal. lra. }
  assert (I1 : map (value_of y wda "I") (ss_edges y) = [1; 2; 3]%R). { rewrite E2. cbn [map]. unfold value_of. rewrite e1, e2, e3. reflexivity. }
  assert (I2 : map (value_of y' wdb "I") (ss_edges y') = [1; 3; 2]%R). { rewrite F2. cbn [map]. unfold value_of. rewrite f1, f2, f3. reflexivity. }
  exists y, y', wda, wdb, id_mat, (fun _ _ => 0%R), circ, Qnp, Pnp, c, h, h', H, H'. cbv zeta. do 2 (split; [assumption|]). split.
  { split; [congruence|]. split.
    { assert (Z1 : forall e p, p = "V"%char \/ p = "L"%char -> In e (ss_edges y) -> value_of y wda p e = 0%R). { intros e p Hq He. rewrite E2 in He. unfold value_of. destruct He as [<-|[<-|[<-|[]]]]; rewrite ?e1, ?e2, ?e3; destruct Hq as [-> | ->]; reflexivity. }
      assert (Z2 : forall e p, p = "V"%char \/ p = "L"%char -> In e (ss_edges y') -> value_of y' wdb p e = 0%R). { intros e p Hq He. rewrite F2 in He. unfold value_of. destruct He as [<-|[<-|[<-|[]]]]; rewrite ?f1, ?f2, ?f3; destruct Hq as [-> | ->]; reflexivity. }
      assert (P1 : map (part_of y wda) (ss_edges y) = [(0, 1, (1, 0, 0)%R, (1 / 4)%R); (1, 0, (2, 0, 0)%R, 0%R); (1, 0, (3, 0, 0)%R, 0%R)]).
      { rewrite E2 in *. cbn [map] in *. injection B1 as b1 b2 b3. injection I1 as i1 i2 i3. unfold part_of. change (v_flux wda) with (fun _ : string => (1 / 4)%R). rewrite b1, b2, b3, i1, i2, i3, !Z1 by (cbn; tauto). reflexivity. }
      assert (P2 : map (part_of y' wdb) (ss_edges y') = [(1, 0, (1, 0, 0)%R, (- (1 / 4))%R); (0, 1, (3, 0, 0)%R, 0%R); (0, 1, (2, 0, 0)%R, 0%R)]).
      { rewrite F2 in *. cbn [map] in *. injection B2 as b1 b2 b3. injection I2 as i1 i2 i3. unfold part_of. change (v_flux wdb) with (fun _ : string => (- (1 / 4))%R). rewrite b1, b2, b3, i1, i2, i3, !Z2 by (cbn; tauto). reflexivity. }
      rewrite P1, P2. eexists. split; [apply perm_skip, perm_swap|]. repeat (apply Forall2_cons; [right; unfold turned; rewrite ?Ropp_0; reflexivity|]). apply Forall2_nil. }
    split.
    { unfold branches_of. rewrite E5, F5. cbn. eexists. split; [apply Permutation_refl|]. apply Forall2_cons; [right; reflexivity | apply Forall2_nil]. }
    rewrite E7, E8, F7, F8. split; [apply Permutation_refl|]. split; [apply Permutation_refl|].
    intros i _. unfold charge_bias. rewrite E4, F4, E1, F1. destruct i as [|[|i]]; reflexivity. }
  do 10 (split; [assumption|]). rewrite E1 in *. do 3 (split; [assumption|]). split; [now left|]. do 3 (split; [assumption|]). split; assumption.
Qed.
