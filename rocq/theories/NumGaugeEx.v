(** moveFluxBias, counterexample and witness for C122. *)
From Coq Require Import List Bool String Ascii Arith Lia ZArith Reals Lra Permutation.
From Coquelicot Require Import Complex.
From Verif Require Import Prelude PreludeFacts Mat MatFacts Util UtilProofs Graph GraphSpec GraphView GraphForest GraphWf GraphCircuit GraphState GraphMaps GraphOps GraphProofs CollLast Sweep SweepProofs SweepResultProofs Symbolic SymbolicSpec RSum SymbolicInv SymbolicCap SymbolicCap2 SymbolicFlux SymbolicNew SymbolicProofs MutualSpec MutualProofs NumOp NumOpSpec NumKron NumSpectral NumCharge NumExpand NumHerm NumPot NumFlux NumOpProofs NumSweepRef
  SymHam SymHamSpec SymHamProofs SymHamQ SymHamT SymHamEx SymTotal SymTotalSpec SymTotalProofs SymTotalMain MoveSpec MoveProofs MoveEx NumSubst NumSymSpec NumSymProofs NumSymHam NumSymNode NumSymMain NumSymEx NumGaugeSpec NumGauge NumGaugeHam NumGaugeMain.
Import ListNotations.
Open Scope string_scope.
Open Scope list_scope.
Open Scope nat_scope.

Lemma move_circuit y a b : same_circuit y (fst (moveFluxBias y a b)).
Proof. destruct (move_frame y a b) as (A & B & C & D). split; [exact A|]. split; [exact B|]. split; [exact C | exact D]. Qed.
Lemma move_fluxes y a b x w : system y -> kind_at y "I" a -> kind_at y "I" b -> a <> b -> dget (ss_flux y) a = Some x -> x <> [] -> dget (ss_flux y) b = Some [] -> same_loops y a b ->
  same_fluxes y (fst (moveFluxBias y a b)) w w.
Proof.
  intros Hy Ka Kb N Hx Hn Hz HS. destruct (move_done y a b x Hy Ka Kb Hx Hn Hz) as [_ HB]. split; [easy|]. split; [easy|]. split.
  - intros l p Hl W. exists 0%Z. rewrite Rplus_0_r. apply Rminus_diag_uniq. rewrite loop_wsum.
    assert (E : forall l, wsum (fun e => branch_bias (fst (moveFluxBias y a b)) (v_flux w) e - branch_bias y (v_flux w) e)%R l = (SymHam.total (v_flux w) x * wsum (fun e => if eqb e b then 1 else if eqb e a then -1 else 0) l)%R).
    { clear l Hl W. induction l as [|[[] e] l IH]; cbn [wsum]; [ring|..]; rewrite IH, HB; ring. }
    rewrite E, (wsum_net a b l N), (HS l p Hl W). ring.
  - intros e He. rewrite HB, (not_inductor y a b Hy Ka Kb e He). ring.
Qed.

(** ** Two junctions in parallel, in the oscillator basis *)
Definition Lsq := [B 0 1 "C1"; B 0 1 "I1"; B 0 1 "I2"] ++ [GFlux "I1" (PStr "a") None].
Lemma Lsq_circuit : circuit (grun cg_new Lsq).
Proof. apply circuit_more; [last_branch [B 0 1 "C1"; B 0 1 "I1"] 0 1 "I2"|other]. Qed.
Definition wq (b : R) : vals := mkvals (fun x => if String.eqb x "I2" then 2%R else 1%R) (fun _ => 0%R) (fun _ => b) (fun _ => 0%R) (fun _ => 0%R).
Lemma Lsq_values : exists y, system y /\ ss_nodes y = [1] /\ ss_edges y = [(0, 1, 1); (1, 0, 2)] /\ ss_flux y = [((0, 1, 1), ["a"]); ((1, 0, 2), [])] /\ ss_charge y = [(1, None)] /\
  kind_at y "I" (0, 1, 1) /\ kind_at y "I" (1, 0, 2) /\ same_loops y (0, 1, 1) (1, 0, 2) /\ inverted y (v_par (wq 0)) id_mat (fun _ _ => 0%R) /\ ideal y (v_par (wq 0)) /\
  lname y "I" (0, 1, 1) = Some "I1" /\ lname y "I" (1, 0, 2) = Some "I2" /\ lname y "V" (0, 1, 1) = None /\ lname y "V" (1, 0, 2) = None.
Proof.
  assert (H : exists y, new_system idord noor (grun cg_new Lsq) = Some (Ok y) /\ ss_nodes y = [1] /\ ss_edges y = [(0, 1, 1); (1, 0, 2)] /\ ss_flux y = [((0, 1, 1), ["a"]); ((1, 0, 2), [])] /\ ss_charge y = [(1, None)] /\
    dget (c_map (ss_cg y)) (0, 1, 1) = Some "I1" /\ dget (c_map (ss_cg y)) (1, 0, 2) = Some "I2" /\ c_coupled (ss_cg y) = [] /\ g_edges (c_graph (ss_cg y)) = [((0, 1, 0), "C1"); ((0, 1, 1), "I1"); ((0, 1, 2), "I2")] /\
    (exists L, inductance_matrix (ss_cg y) (ss_edges y) = Ok L /\ forall i j, L i j = None) /\ (exists M, capacitance_matrix (ss_cg y) = Ok M /\ M 0 0 = [(TmC "C1", 1%Z)])).
  { eexists. split; [vm_compute; reflexivity|]. do 8 (split; [reflexivity|]). split; eexists; (split; [vm_compute; reflexivity|]); reflexivity. }
  destruct H as (y & Hn & E1 & E2 & E3 & E4 & E5 & E6 & E7 & E8 & (L & HL & L0) & M & HM & M0).
  assert (Hy : system y) by (eapply system_new; [apply Lsq_circuit|exact Hn]).
  exists y. do 5 (split; [assumption|]). split; [split; [rewrite E2; left; reflexivity|eauto]|]. split; [split; [rewrite E2; right; left; reflexivity|eauto]|].
  split. { apply (same_by_potential y _ _ (fun n => match n with 1 => 1%R | _ => 0%R end)); [discriminate|]. rewrite E2. intros e [<-|[<-|[]]]; cbn; ring. }
  split.
  { split.
    - exists M. split; [exact HM|]. rewrite E1. cbn [List.length]. intros i j Hi Hj. destruct i as [|i]; try lia; destruct j as [|j]; try lia. split; unfold mmul; cbn [sumn]; rewrite M0; unfold id_mat; cbn; ring.
    - exists L. split; [exact HL|]. rewrite E2. intros i j _ _. unfold imat_val, mmul. repeat split; cbn [List.length sumn]; rewrite ?L0; cbn; ring. }
  split. { split; [|split; [exact E7|]]; [intros x Hx; unfold branches_of in Hx; rewrite E8 in Hx; cbn in Hx; destruct Hx as [<-|[]]; discriminate | intros x _; cbn; destruct (String.eqb (snd x) "I2"); lra]. }
  unfold lname. rewrite E5, E6. repeat split; reflexivity.
Qed.
Lemma sq_value argord : (forall l, Permutation (argord l) l) ->
  exists circ c Qnp Pnp, getExpandedOperatorsMap gen1 [1] osc1 None [] = Ok circ /\ dget circ 1 = Some c /\ op_vector cQ [1] circ = Ok Qnp /\ op_vector cP [1] circ = Ok Pnp /\
    c_dims c = [1] /\ forall h, h_J h 0 = 1%R -> h_J h 1 = 2%R -> h_Ps h 0 = 0%R -> h_Ps h 1 = 0%R -> h_Qb h 0 = 0%R -> h_Linv h 0 0 = 0%R -> h_Ej h = 1%R ->
    exists H, getHamiltonian 1 argord [1] [(0, 1, 1); (1, 0, 2)] h Qnp Pnp circ = Ok H /\ H 0 0 = sanC atol (RtoC (- cos (2 * PI * h_pb h 0) - 2 * cos (2 * PI * h_pb h 1))).
Proof.
  intros Hp. set (o := oscillator_basis eigh0 (fun _ A => A) 1 1 1 1 1 1).
  set (c := mkcops [1] (tensor [(1, oQ o)]) (tensor [(1, oP o)]) (tensor [(1, oD o)]) (tensor [(1, oDd o)]) (tensor [(1, oS o)]) (tensor [(1, oSd o)])).
  exists [(1, c)], c, [cQ c], [cP c]. do 5 (split; [reflexivity|]). intros h J0 J1 P0 P1 q0 l0 Ej.
  assert (T : forall A, tensor [(1, A)] 0 0 = A 0 0). { intros A. cbn [tensor]. unfold kron. cbn. apply injective_projections; cbn; ring. }
  assert (X : forall x : nat * bool, argord [x] = [x]). { intros x. exact (Permutation_length_1_inv (Permutation_sym (Hp [x]))). }
  unfold getHamiltonian. change (op_vector cD [1] [(1, c)]) with (Ok [cD c]). change (op_vector cDd [1] [(1, c)]) with (Ok [cDd c]). change (op_vector cS [1] [(1, c)]) with (Ok [cS c]). change (op_vector cSd [1] [(1, c)]) with (Ok [cSd c]). cbn [bind].
  unfold cosine_part. cbn [List.length seq foldM]. rewrite J0, J1, P0, P1.
  destruct (Req_EM_T 0 0) as [_|]; [|lra]. destruct (Req_EM_T 1 0) as [|_]; [lra|]. destruct (Req_EM_T 2 0) as [|_]; [lra|]. cbn [bind].
  change (branch_terms [1] [(0, 1, 1); (1, 0, 2)] 0) with [(0, false)]. change (branch_terms [1] [(0, 1, 1); (1, 0, 2)] 1) with [(0, true)]. rewrite !X. cbn [map snd fst product bind fold_left].
  eexists. split; [reflexivity|]. unfold tidyup. f_equal. rewrite Ej.
  unfold mplus, msc, quadform, mm, mmul, shifted, mplus, msc, eye, mzero. cbn [List.length sumn kadd kmul k0 C_rng opn nth Nat.eqb].
  destruct D1_00 as [d1 d2], QP1_00 as [d3 d4]. fold o in d1, d2, d3, d4. cbn [c cQ cP cD cDd]. rewrite !T, d1, d2, d3, d4, q0, l0. unfold cis.
  replace (- 2 * PI * h_pb h 0)%R with (- (2 * PI * h_pb h 0))%R by ring. replace (- 2 * PI * h_pb h 1)%R with (- (2 * PI * h_pb h 1))%R by ring. rewrite !cos_neg, !sin_neg.
  apply injective_projections; cbn; field.
Qed.
Lemma re_le (v : C) : (Rabs (fst v) <= Cmod v)%R.
Proof. eapply Rle_trans; [apply Rmax_l | apply Rmax_Cmod]. Qed.
Lemma far_apart H H' (x x' : R) : H 0 0 = RtoC x -> H' 0 0 = RtoC x' -> (1 <= Rabs (x - x'))%R -> ~ equivalent 1 H H'.
Proof.
  intros E E' D (A & A' & N1 & N2 & (U & (U1 & _) & R) & _). specialize (N1 0 0 ltac:(lia) ltac:(lia)). specialize (N2 0 0 ltac:(lia) ltac:(lia)). specialize (R 0 0 ltac:(lia) ltac:(lia)). specialize (U1 0 0 ltac:(lia) ltac:(lia)).
  unfold mul, csum, identity, adjoint in R, U1. cbn [Nat.eqb] in U1.
  assert (Q : A' 0 0 = A 0 0). { rewrite R. transitivity ((RtoC 0 + U 0%nat 0%nat * Cconj (U 0%nat 0%nat)) * A 0 0)%C; [ring|]. rewrite U1. ring. }
  rewrite E in N1. rewrite E', Q in N2. set (a := A 0 0) in *. pose proof (re_le (RtoC x - a)%C) as M1. pose proof (re_le (RtoC x' - a)%C) as M2. cbn in M1, M2.
  pose proof (Rabs_triang (x + - fst a) (- (x' + - fst a))) as T. rewrite Rabs_Ropp in T. replace (x + - fst a + - (x' + - fst a))%R with (x - x')%R in T by ring.
  assert (P : (2 / 10 ^ 12 < 1 / 2)%R) by (apply Rmult_lt_reg_r with (10 ^ 12)%R; [apply pow_lt; lra|]; unfold Rdiv; rewrite Rmult_assoc, Rinv_l by (apply pow_nonzero; lra); lra). lra.
Qed.
Lemma oscillator_counter argord : (forall l, Permutation (argord l) l) ->
  exists eigh inv z ka kb pmax chg flx y a b w Cinv P data circ Qnp Pnp c n h h' H H', let gen := getOperatorList eigh inv z ka kb pmax chg flx in let N := fold_right Nat.mul 1 (c_dims c) in let y' := fst (moveFluxBias y a b) in
  system y /\ kind_at y "I" a /\ kind_at y "I" b /\ same_loops y a b /\ dget (ss_flux y) a = Some ["a"] /\ dget (ss_flux y) b = Some [] /\ same_circuit y y' /\ same_fluxes y y' w w /\
  ideal y (v_par w) /\ inverted y (v_par w) Cinv P /\ (forall m d, In m (ss_nodes y) -> dget data m = Some d -> solved eigh inv z ka kb chg flx m d) /\
  getExpandedOperatorsMap gen (ss_nodes y) data None [] = Ok circ /\ op_vector cQ (ss_nodes y) circ = Ok Qnp /\ op_vector cP (ss_nodes y) circ = Ok Pnp /\ In n (ss_nodes y) /\ dget circ n = Some c /\
  substitute y w Cinv P 1 1 1 1 = Ok h /\ substitute y' w Cinv P 1 1 1 1 = Ok h' /\
  getHamiltonian N argord (ss_nodes y) (ss_edges y) h Qnp Pnp circ = Ok H /\ getHamiltonian N argord (ss_nodes y') (ss_edges y') h' Qnp Pnp circ = Ok H' /\ ~ equivalent N H H'.
Proof.
  intros Hp. destruct Lsq_values as (y & Hy & E1 & E2 & E3 & E4 & K1 & K2 & HS & HV & HI & L1 & L2 & V1 & V2).
  destruct (sq_value argord Hp) as (circ & c & Qnp & Pnp & C1 & C2 & C3 & C4 & C5 & CH).
  assert (Fa : dget (ss_flux y) (0, 1, 1) = Some ["a"]) by (rewrite E3; reflexivity). assert (Fb : dget (ss_flux y) (1, 0, 2) = Some []) by (rewrite E3; reflexivity).
  set (y' := fst (moveFluxBias y (0, 1, 1) (1, 0, 2))). pose proof (move_circuit y (0, 1, 1) (1, 0, 2)) as SC. assert (SF := move_fluxes y (0, 1, 1) (1, 0, 2) ["a"] (wq (1 / 2)) Hy K1 K2 ltac:(discriminate) Fa ltac:(discriminate) Fb HS). fold y' in SC, SF.
  assert (Hy' : system y') by (apply system_move; exact Hy). destruct SC as (S1 & S2 & S3 & S4).
  destruct (move_done y (0, 1, 1) (1, 0, 2) ["a"] Hy K1 K2 Fa ltac:(discriminate) Fb) as [_ HB]. fold y' in HB.
  assert (G : forall q, system q -> ss_cg q = ss_cg y -> ss_nodes q = [1] -> ss_edges q = [(0, 1, 1); (1, 0, 2)] -> ss_charge q = [(1, None)] ->
    exists h, substitute q (wq (1 / 2)) id_mat (fun _ _ => 0%R) 1 1 1 1 = Ok h /\ exists H, getHamiltonian 1 argord [1] [(0, 1, 1); (1, 0, 2)] h Qnp Pnp circ = Ok H /\
      H 0 0 = sanC atol (RtoC (- cos (2 * PI * branch_bias q (fun _ => 1 / 2)%R (0, 1, 1)) - 2 * cos (2 * PI * branch_bias q (fun _ => 1 / 2)%R (1, 0, 2))))).
  { intros q Hq Q1 Q2 Q3 Q4. unfold substitute, getJosephsonVector, getPhaseSlipVector. rewrite !(vector_ok q Hq), <- (m_red q (system_inv q Hq)), (bias_ok q Hq), Q3. cbn [map bind].
    rewrite !(lname_cg y q _ _ Q1), L1, L2, V1, V2. eexists. split; [reflexivity|].
    match goal with |- context [getHamiltonian _ _ _ _ ?h _ _ _] => destruct (CH h) as (H & G1 & G2) end; try reflexivity.
    { cbn [h_Qb]. unfold charge_bias. rewrite Q2, Q4. reflexivity. }
    { cbn [h_Linv]. unfold inverse_inductance. apply sumR_0. intros k _. apply sumR_0. intros l _. ring. }
    exists H. split; [exact G1|]. rewrite G2. cbn [h_pb nth]. unfold branch_bias. rewrite (m_red q (system_inv q Hq)).
    assert (X : forall l, SymHam.total (v_flux (wq (1 / 2))) (match l with Some l => l | None => [] end) = match l with Some l => SymHam.total (fun _ => (1 / 2)%R) l | None => 0%R end) by (intros [l|]; reflexivity).
    rewrite !X. reflexivity. }
  destruct (G y Hy eq_refl E1 E2 E4) as (h & h1 & H & H1 & H2). destruct (G y' Hy' S1 ltac:(now rewrite S2) ltac:(now rewrite S3) ltac:(now rewrite S4)) as (h' & h1' & H' & H1' & H2').
  exists eigh0, (fun _ A => A), z1, z1, z1, z1, 1%R, 1%R, y, (0, 1, 1), (1, 0, 2), (wq (1 / 2)), id_mat, (fun _ _ => 0%R), osc1, circ, Qnp, Pnp, c, 1, h, h', H, H'. cbv zeta. fold y'. rewrite C5, S2, S3, E1, E2. cbn [fold_right Nat.mul Nat.add].
  do 6 (split; [assumption|]). split; [split; [exact S1|]; split; [exact S2|]; split; [exact S3|exact S4]|]. split; [exact SF|]. split; [exact HI|]. split; [exact HV|]. split.
  { intros m d [<-|[]] Ed. cbn in Ed. injection Ed as <-. unfold solved. cbn [od_basis od_trunc]. split; apply eigh0_right; unfold oscP, oscQ, create, destroy; cbn [Nat.eqb Nat.add]; apply injective_projections; cbn; field. }
  do 3 (split; [assumption|]). split; [now left|]. do 5 (split; [assumption|]).
  assert (B1 : branch_bias y (fun _ => (1 / 2)%R) (0, 1, 1) = (1 / 2)%R) by (unfold branch_bias; rewrite Fa; cbn; ring). assert (B2 : branch_bias y (fun _ => (1 / 2)%R) (1, 0, 2) = 0%R) by (unfold branch_bias; rewrite Fb; reflexivity).
  rewrite !HB, B1, B2 in H2'. rewrite B1, B2 in H2. cbn [eqb] in H2'.
  assert (T : SymHam.total (fun _ => (1 / 2)%R) ["a"] = (1 / 2)%R) by (cbn; ring). rewrite T in H2'. clear T.
  assert (W1 : cos (2 * PI * (1 / 2)) = (-1)%R) by (replace (2 * PI * (1 / 2))%R with PI by field; apply cos_PI). assert (W0 : cos (2 * PI * 0) = 1%R) by (rewrite Rmult_0_r; apply cos_0).
  match type of H2' with context [(1 / 2 + 1 / 2 * ?k)%R] => replace (1 / 2 + 1 / 2 * k)%R with 0%R in H2' by (cbn; lra) end. match type of H2' with context [(0 + 1 / 2 * ?k)%R] => replace (0 + 1 / 2 * k)%R with (1 / 2)%R in H2' by (cbn; lra) end.
  rewrite W0, W1, sanC_kept in H2, H2'; try (right; rewrite Rabs_right || rewrite Rabs_left; lra).
  - apply (far_apart H H' _ _ H2 H2'). rewrite Rabs_left; lra.
  - right. rewrite Rabs_left; lra.
Qed.
Lemma move_main eigh inv z ka kb pmax chg flx y a b x w Cinv P ec el ej ep data circ0 circ Qnp Pnp argord c n h h' H :
  let gen := getOperatorList eigh inv z ka kb pmax chg flx in let N := fold_right Nat.mul 1 (c_dims c) in let y' := fst (moveFluxBias y a b) in
  system y -> kind_at y "I" a -> kind_at y "I" b -> a <> b -> dget (ss_flux y) a = Some x -> x <> [] -> dget (ss_flux y) b = Some [] -> same_loops y a b ->
  (forall l, Permutation (argord l) l) -> inverted y (v_par w) Cinv P ->
  getExpandedOperatorsMap gen (ss_nodes y) data None circ0 = Ok circ -> op_vector cQ (ss_nodes y) circ = Ok Qnp -> op_vector cP (ss_nodes y) circ = Ok Pnp ->
  (forall m, In m (ss_nodes y) -> free_node eigh inv y data m \/ grounded y m) -> In n (ss_nodes y) -> dget circ n = Some c ->
  substitute y w Cinv P ec el ej ep = Ok h -> substitute y' w Cinv P ec el ej ep = Ok h' ->
  getHamiltonian N argord (ss_nodes y) (ss_edges y) h Qnp Pnp circ = Ok H ->
  exists H', getHamiltonian N argord (ss_nodes y') (ss_edges y') h' Qnp Pnp circ = Ok H' /\ equivalent N H H'.
Proof.
  intros gen N y' Hy Ka Kb Nab Hx Hxn Hz HS Hp HV Hc HQ HP Hn Hin Hd Sh Sh' HH.
  exact (loops_main eigh inv z ka kb pmax chg flx y y' w w Cinv P ec el ej ep data circ0 circ Qnp Pnp argord c n h h' H Hy (system_move y a b Hy) (move_circuit y a b) Hp HV Hc HQ HP Hn Hin Hd Sh Sh' (move_fluxes y a b x w Hy Ka Kb Nab Hx Hxn Hz HS) HH).
Qed.
Lemma gauge_witness argord : (forall l, Permutation (argord l) l) ->
  exists eigh inv y data circ Qnp Pnp c P h h' H, let a := (0, 2, 1) in let b := (2, 1, 0) in let w := wv (1 / 4) in let y' := fst (moveFluxBias y a b) in
  system y /\ kind_at y "I" a /\ kind_at y "I" b /\ dget (ss_flux y) a = Some ["a"] /\ dget (ss_flux y) b = Some [] /\ same_loops y a b /\ inverted y (v_par w) id_mat P /\ same_circuit y y' /\ same_fluxes y y' w w /\
  data = [(1, mkod 1 BOscillator); (2, mkod 1 BCharge)] /\ grounded y 1 /\ free_node eigh inv y data 2 /\ ss_nodes y = [1; 2] /\ branch_bias y (v_flux w) a = (1 / 4)%R /\ branch_bias y' (v_flux w) b = (1 / 4)%R /\
  getExpandedOperatorsMap (getOperatorList eigh inv z1 z1 z1 z1 1 1) (ss_nodes y) data None [] = Ok circ /\ op_vector cQ (ss_nodes y) circ = Ok Qnp /\ op_vector cP (ss_nodes y) circ = Ok Pnp /\
  In 2 (ss_nodes y) /\ dget circ 2 = Some c /\ substitute y w id_mat P 1 1 1 1 = Ok h /\ substitute y' w id_mat P 1 1 1 1 = Ok h' /\
  getHamiltonian (fold_right Nat.mul 1 (c_dims c)) argord (ss_nodes y) (ss_edges y) h Qnp Pnp circ = Ok H.
Proof.
  intros Hp. destruct (Ltl_full (1 / 4)) as (y & P & E1 & Hy & E2 & E3 & Fa & Fb & Ka & Kb & Kl & HS & HI & HV). destruct (c56_witness 1) as (eigh & inv & HE).
  set (data := [(1, mkod 1 BOscillator); (2, mkod 1 BCharge)]).
  assert (SB : forall p, ~ self_branch p (ss_cg y) (ss_edges y)). { intros p (e & c & He & _ & _ & Hs). rewrite E2 in He. destruct He as [<-|[<-|[<-|[]]]]; discriminate Hs. }
  destruct (all_defined eigh inv z1 z1 z1 z1 1 1 y (wv (1 / 4)) id_mat P 1 1 1 1 data argord Hy Hp) as (circ & Qnp & Pnp & h & D1 & D2 & D3 & D4 & D5 & D6); auto.
  { rewrite E1. intros m [<-|[<-|[]]]; eexists; (split; [reflexivity|auto]). }
  destruct (D4 2) as [c Hc]; [rewrite E1; right; now left|]. destruct (D6 (fold_right Nat.mul 1 (c_dims c))) as [H HH].
  destruct (substitute_ok (fst (moveFluxBias y (0, 2, 1) (2, 1, 0))) (wv (1 / 4)) id_mat P 1 1 1 1 (system_move y _ _ Hy)) as [h' Hh'].
  destruct (move_done y (0, 2, 1) (2, 1, 0) ["a"] Hy Ka Kb Fa ltac:(discriminate) Fb) as [_ HB].
  exists eigh, inv, y, data, circ, Qnp, Pnp, c, P, h, h', H. cbv zeta. do 7 (split; [assumption|]). split; [apply move_circuit|]. split; [now apply (move_fluxes _ _ _ ["a"])|]. split; [reflexivity|].
  split. { exists [(true, (0, 1, 1))]. split; [intros x [<-|[]]; exact Kl | split; reflexivity]. }
  split. { split; [exists (mkod 1 BCharge); split; [reflexivity|]; split; [reflexivity | exact HE]|].
    intros e (He & cn & Ec & HL) T. rewrite E2 in He. destruct He as [<-|[<-|[<-|[]]]].
    - destruct T as [T|T]; discriminate T.
    - destruct Ka as (_ & c1 & Ec1 & L1). rewrite Ec in Ec1. injection Ec1 as <-. destruct cn as [|q cn]; [discriminate|]. unfold letter in HL, L1. cbn [snd] in HL, L1. apply Ascii.eqb_eq in HL, L1. subst q. discriminate.
    - destruct Kb as (_ & c1 & Ec1 & L1). rewrite Ec in Ec1. injection Ec1 as <-. destruct cn as [|q cn]; [discriminate|]. unfold letter in HL, L1. cbn [snd] in HL, L1. apply Ascii.eqb_eq in HL, L1. subst q. discriminate. }
  split; [exact E1|]. split; [unfold branch_bias; rewrite Fa; cbn; lra|]. split; [rewrite HB; unfold branch_bias; rewrite Fb; cbn; lra|].
  do 3 (split; [assumption|]). split; [rewrite E1; right; now left|]. do 3 (split; [assumption|]). exact HH.
Qed.
