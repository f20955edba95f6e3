(** Witness and counterexamples for C118. *)
From Coq Require Import List Bool String Ascii Arith ZArith Reals Permutation Lra Lia.
From Coquelicot Require Import Complex Hierarchy.
From Verif Require Import Prelude PreludeFacts Mat MatFacts Graph GraphSpec GraphView GraphForest GraphWf GraphCircuit GraphState GraphMaps GraphOps GraphProofs CollLast Sweep Symbolic SymbolicSpec RSum SymbolicInv SymbolicCap SymbolicCap2 SymbolicFlux SymbolicNew SymbolicProofs MutualProofs NumOp SymHam SymHamSpec SymHamProofs SymHamQ SymHamT SymHamEx SymTotal SymTotalSpec SymTotalProofs SymTotalMain MoveSpec MoveProofs.
Import ListNotations.
Open Scope string_scope.
Open Scope list_scope.
Open Scope nat_scope.

Lemma same_by_potential y a b (f : nat -> R) : a <> b -> (forall e, In e (ss_edges y) -> (f (src e) - f (dst e) = if eqb e b then 1 else if eqb e a then -1 else 0)%R) -> same_loops y a b.
Proof.
  intros Hab Hf w p Hw W. assert (E := wsum_net a b w Hab). rewrite (wsum_diff f _ w p p) in E; [|intros x Hx; symmetry; apply Hf; destruct (Hw x Hx) as [[]|[]]; auto|exact W].
  apply eq_IZR. lra.
Qed.
Definition Ltl := [B 0 1 "C1"; B 0 2 "C2"; B 0 1 "L1"; B 1 2 "I2"; B 0 2 "I3"] ++ [GFlux "I3" (PStr "a") None].
Lemma Ltl_circuit : circuit (grun cg_new Ltl).
Proof. apply circuit_more; [last_branch [B 0 1 "C1"; B 0 2 "C2"; B 0 1 "L1"; B 1 2 "I2"] 0 2 "I3"|other]. Qed.
Lemma Ltl_full b : exists y P, ss_nodes y = [1; 2] /\ system y /\ ss_edges y = [(0, 1, 1); (0, 2, 1); (2, 1, 0)] /\ g_edges (c_graph (ss_cg y)) = [((0, 1, 0), "C1"); ((0, 2, 0), "C2"); ((0, 1, 1), "L1"); ((1, 2, 0), "I2"); ((0, 2, 1), "I3")] /\
  dget (ss_flux y) (0, 2, 1) = Some ["a"] /\ dget (ss_flux y) (2, 1, 0) = Some [] /\ kind_at y "I" (0, 2, 1) /\ kind_at y "I" (2, 1, 0) /\ kind_at y "L" (0, 1, 1) /\
  same_loops y (0, 2, 1) (2, 1, 0) /\ ideal y (v_par (wv b)) /\ inverted y (v_par (wv b)) id_mat P.
Proof.
  assert (H : exists y, new_system idord noor (grun cg_new Ltl) = Some (Ok y) /\ ss_nodes y = [1; 2] /\ ss_edges y = [(0, 1, 1); (0, 2, 1); (2, 1, 0)] /\
    g_edges (c_graph (ss_cg y)) = [((0, 1, 0), "C1"); ((0, 2, 0), "C2"); ((0, 1, 1), "L1"); ((1, 2, 0), "I2"); ((0, 2, 1), "I3")] /\
    dget (ss_flux y) (0, 2, 1) = Some ["a"] /\ dget (ss_flux y) (2, 1, 0) = Some [] /\ c_coupled (ss_cg y) = [] /\ c_fbias (ss_cg y) = [((0, 2, 1), mkfb None "a")] /\
    dget (c_map (ss_cg y)) (0, 1, 1) = Some "L1" /\ dget (c_map (ss_cg y)) (0, 2, 1) = Some "I3" /\ dget (c_map (ss_cg y)) (2, 1, 0) = Some "I2" /\
    (exists M, capacitance_matrix (ss_cg y) = Ok M /\ M 0 0 = [(TmC "C1", 1%Z)] /\ M 0 1 = [] /\ M 1 0 = [] /\ M 1 1 = [(TmC "C2", 1%Z)])).
  { eexists. split; [vm_compute; reflexivity|]. do 10 (split; [reflexivity|]). eexists. split; [vm_compute; reflexivity|]. repeat split; reflexivity. }
  destruct H as (y & Hn & E1 & E2 & E3 & E4 & E5 & E6 & E7 & D1 & D2 & D3 & M & HM & M0 & M1 & M2 & M3).
  assert (Hy : system y) by (eapply system_new; [apply Ltl_circuit|exact Hn]).
  destruct (inverted_ones y b Hy E6) as (P & HP).
  { rewrite E7. intros e f. cbn [dget]. destruct (eqb e (0, 2, 1)); [|discriminate]. intros E. injection E as <-. reflexivity. }
  { exists M. split; auto. rewrite E1. cbn [List.length]. intros i j Hi Hj. destruct i as [|[|i]]; try lia; destruct j as [|[|j]]; try lia; rewrite ?M0, ?M1, ?M2, ?M3; unfold id_mat; cbn; ring. }
  exists y, P. do 6 (split; [assumption|]). split; [split; [rewrite E2; right; left; reflexivity|eauto]|]. split; [split; [rewrite E2; right; right; left; reflexivity|eauto]|]. split; [split; [rewrite E2; left; reflexivity|eauto]|].
  split. { apply (same_by_potential y _ _ (fun n => match n with 2 => 1%R | _ => 0%R end)); [discriminate|]. rewrite E2. intros e [<-|[<-|[<-|[]]]]; cbn; ring. }
  split; [|exact HP]. split; [|split; [exact E6|]].
  - intros x Hx. unfold branches_of in Hx. rewrite E3 in Hx. cbn in Hx. destruct Hx as [<-|[<-|[]]]; discriminate.
  - intros x _. cbn. lra.
Qed.
Lemma Ltl_system b : exists y P, system y /\ ss_edges y = [(0, 1, 1); (0, 2, 1); (2, 1, 0)] /\ g_edges (c_graph (ss_cg y)) = [((0, 1, 0), "C1"); ((0, 2, 0), "C2"); ((0, 1, 1), "L1"); ((1, 2, 0), "I2"); ((0, 2, 1), "I3")] /\
  dget (ss_flux y) (0, 2, 1) = Some ["a"] /\ dget (ss_flux y) (2, 1, 0) = Some [] /\ kind_at y "I" (0, 2, 1) /\ kind_at y "I" (2, 1, 0) /\ kind_at y "L" (0, 1, 1) /\
  same_loops y (0, 2, 1) (2, 1, 0) /\ ideal y (v_par (wv b)) /\ inverted y (v_par (wv b)) id_mat P.
Proof. destruct (Ltl_full b) as (y & P & _ & H). exists y, P. exact H. Qed.

(** Three junctions in one loop, two of them in opposite directions *)
Definition Ltri := [B 0 1 "C1"; B 0 2 "C2"; B 0 1 "I1"; B 1 2 "I2"; B 0 2 "I3"] ++ [GFlux "I1" (PStr "a") None].
Lemma Ltri_circuit : circuit (grun cg_new Ltri).
Proof. apply circuit_more; [last_branch [B 0 1 "C1"; B 0 2 "C2"; B 0 1 "I1"; B 1 2 "I2"] 0 2 "I3"|other]. Qed.
Lemma terms_move y a b x val ph phi : system y -> kind_at y "I" a -> kind_at y "I" b -> a <> b -> dget (ss_flux y) a = Some x -> x <> [] -> dget (ss_flux y) b = Some [] -> phi 0 = 0%R ->
  getClassicalJosephsonEnergies (fst (moveFluxBias y a b)) val ph phi =
  Ok (Rsum (map (fun e => - match lname y "I" e with Some c => val c | None => 0 end * cos (phi (src e) - phi (dst e) + (branch_bias y ph e + SymHam.total ph x * (if eqb e b then 1 else if eqb e a then -1 else 0))))%R (ss_edges y))).
Proof.
  intros Hy Ka Kb Hab Ha Hx Hb P0. rewrite (josephson_terms _ val ph phi (system_move y a b Hy) P0). destruct (move_frame y a b) as (E1 & _ & E3 & _). rewrite E3. f_equal. apply Rsum_ext. intros e _.
  unfold jterm. rewrite (lname_cg y _ _ _ E1), (proj2 (move_done y a b x Hy Ka Kb Ha Hx Hb)). reflexivity.
Qed.
Definition pt (p q : R) (k : nat) : R := match k with 1 => p | 2 => q | _ => 0%R end.
Lemma direction_counter : exists y a b y' w p val ph, system y /\ kind_at y "I" a /\ kind_at y "I" b /\ dget (ss_flux y) a = Some ["a"] /\ dget (ss_flux y) b = Some [] /\
  (forall z, In z w -> kind_at y "I" (snd z)) /\ walk w p p /\ net a w = 1%Z /\ net b w = (-1)%Z /\ NoDup (map snd w) /\ List.length (ss_edges y) = List.length w /\
  moveFluxBias y a b = (y', Ok tt) /\ forall dl, dl 0 = 0%R -> exists phi, phi 0 = 0%R /\ getClassicalJosephsonEnergies y' val ph phi <> getClassicalJosephsonEnergies y val ph (fun k => phi k + dl k)%R.
Proof.
  assert (H : exists y, new_system idord noor (grun cg_new Ltri) = Some (Ok y) /\ ss_edges y = [(0, 1, 1); (0, 2, 1); (2, 1, 0)] /\ ss_flux y = [((0, 1, 1), ["a"]); ((0, 2, 1), []); ((2, 1, 0), [])] /\
    dget (c_map (ss_cg y)) (0, 1, 1) = Some "I1" /\ dget (c_map (ss_cg y)) (0, 2, 1) = Some "I3" /\ dget (c_map (ss_cg y)) (2, 1, 0) = Some "I2").
  { eexists. split; [vm_compute; reflexivity|]. repeat split; reflexivity. }
  destruct H as (y & Hn & E2 & E3 & D1 & D2 & D3). assert (Hy : system y) by (eapply system_new; [apply Ltri_circuit|exact Hn]). clear Hn.
  assert (K1 : kind_at y "I" (0, 1, 1)) by (split; [rewrite E2; left; reflexivity|eauto]). assert (K2 : kind_at y "I" (0, 2, 1)) by (split; [rewrite E2; right; left; reflexivity|eauto]).
  assert (K3 : kind_at y "I" (2, 1, 0)) by (split; [rewrite E2; right; right; left; reflexivity|eauto]).
  assert (F1 : dget (ss_flux y) (0, 1, 1) = Some ["a"]) by (rewrite E3; reflexivity). assert (F3 : dget (ss_flux y) (2, 1, 0) = Some []) by (rewrite E3; reflexivity).
  assert (N : (0, 1, 1) <> (2, 1, 0) :> edge) by discriminate. assert (NX : ["a"] <> @nil string) by discriminate.
  exists y, (0, 1, 1), (2, 1, 0), (fst (moveFluxBias y (0, 1, 1) (2, 1, 0))), [(true, (0, 1, 1)); (false, (2, 1, 0)); (false, (0, 2, 1))], 0, (fun _ => 1%R), (fun _ => (PI / 2)%R).
  do 5 (split; [assumption|]). split; [intros z [<-|[<-|[<-|[]]]]; assumption|]. split; [repeat split|]. split; [reflexivity|]. split; [reflexivity|].
  split; [repeat constructor; cbn; intuition discriminate|]. split; [rewrite E2; reflexivity|]. split; [apply (move_done y _ _ ["a"] Hy K1 K3 F1 NX F3)|].
  intros dl D0.
  assert (HE : forall p q, getClassicalJosephsonEnergies (fst (moveFluxBias y (0, 1, 1) (2, 1, 0))) (fun _ => 1%R) (fun _ => (PI / 2)%R) (pt p q) = Ok (- cos p - cos q - cos (q - p + PI / 2))%R).
  { intros p q. rewrite (terms_move y _ _ ["a"] _ _ _ Hy K1 K3 N F1 NX F3 eq_refl), E2. f_equal. cbn [map]. unfold lname. rewrite D1, D2, D3. cbn [starts]. rewrite !Rsum_cons, Rsum_nil. unfold branch_bias. rewrite E3. cbn -[cos PI].
    replace (0 - p + (PI / 2 + 0 + (PI / 2 + 0) * -1))%R with (- p)%R by ring. replace (0 - q + (0 + (PI / 2 + 0) * 0))%R with (- q)%R by ring. replace (q - p + (0 + (PI / 2 + 0) * 1))%R with (q - p + PI / 2)%R by ring. rewrite !cos_neg. ring. }
  assert (HF : forall p q, getClassicalJosephsonEnergies y (fun _ => 1%R) (fun _ => (PI / 2)%R) (fun k => pt p q k + dl k)%R = Ok (- cos (p + dl 1%nat - PI / 2) - cos (q + dl 2%nat) - cos (q + dl 2%nat - (p + dl 1%nat)))%R).
  { intros p q. rewrite (josephson_terms y _ _ _ Hy) by (cbn; rewrite D0; ring). rewrite E2. f_equal. cbn [map]. unfold jterm, lname. rewrite D1, D2, D3. cbn [starts]. rewrite !Rsum_cons, Rsum_nil. unfold branch_bias. rewrite E3. cbn -[cos PI]. rewrite D0.
    replace (0 + 0 - (p + dl 1%nat) + (PI / 2 + 0))%R with (- (p + dl 1%nat - PI / 2))%R by ring. replace (0 + 0 - (q + dl 2%nat) + 0)%R with (- (q + dl 2%nat))%R by ring. replace (q + dl 2%nat - (p + dl 1%nat) + 0)%R with (q + dl 2%nat - (p + dl 1%nat))%R by ring. rewrite !cos_neg. ring. }
  apply Classical_Prop.NNPP. intros HN.
  assert (E : forall p q, (cos p + cos q + cos (q - p + PI / 2) = cos (p + dl 1%nat - PI / 2) + cos (q + dl 2%nat) + cos (q + dl 2%nat - (p + dl 1%nat)))%R).
  { intros p q. destruct (Req_dec (- cos p - cos q - cos (q - p + PI / 2)) (- cos (p + dl 1%nat - PI / 2) - cos (q + dl 2%nat) - cos (q + dl 2%nat - (p + dl 1%nat)))) as [Q|Q]; [lra|].
    exfalso. apply HN. exists (pt p q). split; [reflexivity|]. rewrite HE, HF. intros C. injection C. exact Q. }
  clear HE HF HN. set (u := dl 1%nat) in *. set (v := dl 2%nat) in *. assert (Ep := fun p q => E (p + PI)%R (q + PI)%R). 
  assert (S : forall p q, (cos p + cos q = cos (p + u - PI / 2) + cos (q + v) /\ cos (q - p + PI / 2) = cos (q + v - (p + u)))%R).
  { intros p q. assert (A := E p q). assert (A' := Ep p q). rewrite !neg_cos in A'. replace (q + PI - (p + PI) + PI / 2)%R with (q - p + PI / 2)%R in A' by ring. replace (p + PI + u - PI / 2)%R with (p + u - PI / 2 + PI)%R in A' by ring.
    replace (q + PI + v)%R with (q + v + PI)%R in A' by ring. replace (q + v + PI - (p + PI + u))%R with (q + v - (p + u))%R in A' by ring. rewrite !neg_cos in A'. lra. }
  destruct (S 0 0)%R as [A _]. rewrite !cos_0, !Rplus_0_l in A. assert (B1 := COS_bound (u - PI / 2)). assert (B2 := COS_bound v).
  assert (C1 : cos (u - PI / 2) = 1%R) by lra. assert (C2 : cos v = 1%R) by lra. destruct (S 0 (- (PI / 2)))%R as [_ C3]. replace (- (PI / 2) - 0 + PI / 2)%R with 0%R in C3 by ring. rewrite cos_0, Rplus_0_l in C3. symmetry in C3.
  apply cos_one in C1 as (i & C1). apply cos_one in C2 as (j & C2). apply cos_one in C3 as (k & C3). assert (P0 := PI_RGT_0).
  assert (Q : (1 + 2 * (IZR k - IZR j + IZR i) = 0)%R) by (apply (Rmult_eq_reg_l PI); lra). rewrite <- minus_IZR, <- plus_IZR in Q. change 1%R with (IZR 1) in Q. change 2%R with (IZR 2) in Q. rewrite <- mult_IZR, <- plus_IZR in Q. apply eq_IZR in Q. lia.
Qed.
(** Three junctions in parallel: a branch that is part of two loops *)
Definition Lpar := [B 0 1 "C1"; B 0 1 "I1"; B 0 1 "I2"; B 0 1 "I3"] ++ [GFlux "I2" (PStr "a") None].
Lemma Lpar_circuit : circuit (grun cg_new Lpar).
Proof. apply circuit_more; [last_branch [B 0 1 "C1"; B 0 1 "I1"; B 0 1 "I2"] 0 1 "I3"|other]. Qed.
Lemma shared_counter : exists y a b y' w p val ph, system y /\ kind_at y "I" a /\ kind_at y "I" b /\ dget (ss_flux y) a = Some ["a"] /\ dget (ss_flux y) b = Some [] /\
  (forall z, In z w -> kind_at y "I" (snd z)) /\ walk w p p /\ net a w = 1%Z /\ net b w = 1%Z /\ NoDup (map snd w) /\
  moveFluxBias y a b = (y', Ok tt) /\ forall dl, dl 0 = 0%R -> exists phi, phi 0 = 0%R /\ getClassicalJosephsonEnergies y' val ph phi <> getClassicalJosephsonEnergies y val ph (fun k => phi k + dl k)%R.
Proof.
  assert (H : exists y, new_system idord noor (grun cg_new Lpar) = Some (Ok y) /\ ss_edges y = [(0, 1, 1); (1, 0, 2); (1, 0, 3)] /\ ss_flux y = [((0, 1, 1), []); ((1, 0, 2), ["a"]); ((1, 0, 3), [])] /\
    dget (c_map (ss_cg y)) (0, 1, 1) = Some "I1" /\ dget (c_map (ss_cg y)) (1, 0, 2) = Some "I2" /\ dget (c_map (ss_cg y)) (1, 0, 3) = Some "I3").
  { eexists. split; [vm_compute; reflexivity|]. repeat split; reflexivity. }
  destruct H as (y & Hn & E2 & E3 & D1 & D2 & D3). assert (Hy : system y) by (eapply system_new; [apply Lpar_circuit|exact Hn]). clear Hn.
  assert (K1 : kind_at y "I" (0, 1, 1)) by (split; [rewrite E2; left; reflexivity|eauto]). assert (K2 : kind_at y "I" (1, 0, 2)) by (split; [rewrite E2; right; left; reflexivity|eauto]).
  assert (F1 : dget (ss_flux y) (0, 1, 1) = Some []) by (rewrite E3; reflexivity). assert (F2 : dget (ss_flux y) (1, 0, 2) = Some ["a"]) by (rewrite E3; reflexivity).
  assert (N : (1, 0, 2) <> (0, 1, 1) :> edge) by discriminate. assert (NX : ["a"] <> @nil string) by discriminate.
  set (val := fun c : string => if String.eqb c "I1" then 2%R else 1%R).
  exists y, (1, 0, 2), (0, 1, 1), (fst (moveFluxBias y (1, 0, 2) (0, 1, 1))), [(true, (0, 1, 1)); (true, (1, 0, 2))], 0, val, (fun _ => PI).
  do 5 (split; [assumption|]). split; [intros z [<-|[<-|[]]]; assumption|]. split; [repeat split|]. split; [reflexivity|]. split; [reflexivity|].
  split; [repeat constructor; cbn; intuition discriminate|]. split; [apply (move_done y _ _ ["a"] Hy K2 K1 F2 NX F1)|].
  intros dl D0. exists (pt (- dl 1%nat) 0). split; [reflexivity|].
  rewrite (terms_move y _ _ ["a"] _ _ _ Hy K2 K1 N F2 NX F1 eq_refl), (josephson_terms y _ _ _ Hy) by (cbn; rewrite D0; ring). rewrite E2. cbn [map]. unfold jterm, lname. rewrite D1, D2, D3. cbn [starts]. rewrite !Rsum_cons, !Rsum_nil. unfold branch_bias. rewrite E3. cbn -[cos PI]. rewrite D0.
  unfold val. cbn -[cos PI]. set (u := dl 1%nat).
  replace (0 - - u + (0 + (PI + 0) * 1))%R with (u + PI)%R by ring. replace (- u - 0 + (PI + 0 + (PI + 0) * -1))%R with (- u)%R by ring. replace (- u - 0 + (0 + (PI + 0) * 0))%R with (- u)%R by ring.
  replace (0 + 0 - (- u + u) + 0)%R with 0%R by ring. replace (- u + u - (0 + 0) + (PI + 0))%R with (0 + PI)%R by ring. replace (- u + u - (0 + 0) + 0)%R with 0%R by ring. rewrite !neg_cos, cos_neg, cos_0. intros C. injection C as C. lra.
Qed.
(** The bias of an inductor moved to the junction in parallel *)
Lemma Lrf_moved b : exists y P, system y /\ g_edges (c_graph (ss_cg y)) = [((0, 1, 0), "L1"); ((0, 1, 1), "I1"); ((0, 1, 2), "C1")] /\ kind_at y "L" (0, 1, 0) /\ kind_at y "I" (1, 0, 1) /\
  dget (ss_flux y) (0, 1, 0) = Some ["a"] /\ dget (ss_flux y) (1, 0, 1) = Some [] /\ same_loops y (0, 1, 0) (1, 0, 1) /\ ideal y (v_par (wv b)) /\ inverted y (v_par (wv b)) id_mat P /\
  biases_alone y (branch_bias y (v_flux (wv b))) /\ let y' := fst (moveFluxBias y (0, 1, 0) (1, 0, 1)) in biases_alone y' (branch_bias y' (v_flux (wv b))).
Proof.
  destruct (Lrf_system b) as (y & P & Hy & E1 & E2 & E3 & E4 & E5 & _ & HI & HV & HB & _ & _).
  assert (HD := circuit_derived _ (m_circ y (system_inv y Hy))).
  assert (D1 : dget (c_map (ss_cg y)) (0, 1, 0) = Some "L1") by (apply (map_get _ HD); apply carries_fwd; rewrite E5; left; reflexivity).
  assert (D2 : dget (c_map (ss_cg y)) (1, 0, 1) = Some "I1") by (apply (map_get _ HD); apply carries_bwd; rewrite E5; right; left; reflexivity).
  assert (K1 : kind_at y "L" (0, 1, 0)) by (split; [rewrite E2; left; reflexivity|eauto]). assert (K2 : kind_at y "I" (1, 0, 1)) by (split; [rewrite E2; right; left; reflexivity|eauto]).
  assert (F1 : dget (ss_flux y) (0, 1, 0) = Some ["a"]) by (rewrite E3; reflexivity). assert (F2 : dget (ss_flux y) (1, 0, 1) = Some []) by (rewrite E3; reflexivity).
  exists y, P. do 6 (split; [assumption|]). split. { apply (same_by_potential y _ _ (fun n => match n with 1 => 1%R | _ => 0%R end)); [discriminate|]. rewrite E2. intros e [<-|[<-|[]]]; cbn; ring. }
  do 3 (split; [assumption|]). cbv zeta. destruct (move_frame y (0, 1, 0) (1, 0, 1)) as (M1 & _ & M3 & _). unfold biases_alone. rewrite M1, M3, E2. intros e [<-|[<-|[]]] HL.
  - left. rewrite (proj2 (any_done y _ _ ["a"] Hy (or_intror K1) (or_introl K2) F1 ltac:(discriminate) F2)). unfold branch_bias. rewrite F1. cbn. ring.
  - destruct HL as (c & Ec & HL). rewrite D2 in Ec. injection Ec as <-. discriminate HL.
Qed.
