(** Witnesses and counterexamples for C90-C95. *)
From Coq Require Import List Bool String Ascii Arith ZArith Reals Permutation Lra Lia.
From Coquelicot Require Import Complex.
From Verif Require Import Prelude PreludeFacts Mat MatFacts Graph GraphSpec GraphView GraphForest GraphWf GraphCircuit GraphState GraphMaps GraphOps GraphProofs CollLast Sweep Symbolic SymbolicSpec RSum SymbolicInv SymbolicCap SymbolicCap2 SymbolicFlux SymbolicNew SymbolicParam SymbolicInit SymbolicProofs NumOp NumOpSpec NumSpectral NumPot MutualProofs SymHam SymHamSpec SymHamProofs SymHamQ SymHamT SymHamD.
Import ListNotations.
Open Scope string_scope.
Open Scope list_scope.
Open Scope nat_scope.

Lemma id_inverses n : inverses n id_mat id_mat.
Proof.
  intros i j Hi Hj. enough (G : sumn (A := R_rng) n (fun k => id_mat i k * id_mat k j)%R = (if Nat.eqb i j then 1 else 0)%R) by auto.
  rewrite sumn_Rsum, (Rsum_single _ i); [|apply seq_NoDup|apply in_seq; lia|].
  - unfold id_mat. rewrite Nat.eqb_refl. apply Rmult_1_l.
  - intros k _ Hne. unfold id_mat. destruct (Nat.eqb_spec i k); [congruence|apply Rmult_0_l].
Qed.
Lemma times_id n x k : k < n -> times n id_mat x k = x k.
Proof.
  intros Hk. unfold times. rewrite sumn_Rsum, (Rsum_single _ k); [|apply seq_NoDup|apply in_seq; lia|].
  - unfold id_mat. rewrite Nat.eqb_refl. ring.
  - intros l _ Hne. unfold id_mat. destruct (Nat.eqb_spec k l); [congruence|ring].
Qed.
Lemma id_signs nodes edges i : signs nodes edges id_mat (fun _ => 1%R) i.
Proof.
  intros k Hk. rewrite coef_id by auto. destruct (rbn_vals nodes edges k i) as [E|[E|E]]; rewrite E; [left; auto|right; apply Rabs_R1|right; change (-1)%R with (- (1))%R; rewrite Rabs_Ropp; apply Rabs_R1].
Qed.
Lemma phases_signs y X p kap i : system y -> node_phases (ss_nodes y) (fun l k => X k (nth l (ss_nodes y) 0)) X -> uniform p (ss_cg y) (ss_edges y) (List.length (ss_nodes y)) X kap ->
  forall Ri, node_phases (ss_nodes y) Ri X -> i < List.length (ss_edges y) -> lname y p (nth i (ss_edges y) noedge) <> None -> signs (ss_nodes y) (ss_edges y) Ri kap i.
Proof.
  intros Hy _ Hu Ri (X0 & XR) Hi Hn k Hk. apply (lname_carries y Hy) in Hn as (c & Hc & Hs).
  assert (E : coef (ss_nodes y) (ss_edges y) Ri i k = (X k (src (nth i (ss_edges y) noedge)) - X k (dst (nth i (ss_edges y) noedge)))%R).
  { rewrite <- (branch_flux_diff (ss_nodes y) (ss_edges y) (X k)) with (j := i).
    - unfold coef, branch_flux. apply (sR_ext (List.length (ss_nodes y))). intros l Hl. rewrite XR by auto. auto.
    - apply (nodes_NoDup (ss_nodes y) (ss_cg y) (circuit_derived _ (m_circ y (system_inv y Hy))) (system_nodes y Hy)).
    - apply (edge_ends y Hy).
    - auto.
    - apply nth_error_nth'; auto. }
  rewrite E. apply (Hu _ c); auto. apply nth_In; auto.
Qed.
Lemma phases_times nodes Ri X th k : node_phases nodes Ri X -> k < List.length nodes -> phases_at (List.length nodes) X th (nth k nodes 0) = times (List.length nodes) Ri th k.
Proof. intros (_ & XR) Hk. apply (sR_ext (List.length nodes)). intros l Hl. rewrite XR by auto. auto. Qed.
Lemma phases_0 nodes Ri X th : node_phases nodes Ri X -> phases_at (List.length nodes) X th 0 = 0%R.
Proof. intros (X0 & _). apply (sR_0 (List.length nodes)). intros l Hl. rewrite X0. ring. Qed.

(** C90 *)
Lemma josephson_classical y val ph : system y -> exists K, (no_lone_selfloop (noncap (c_graph (ss_cg y))) -> K = 0%R) /\
  forall phi, phi 0 = 0%R -> getClassicalJosephsonEnergies y val ph phi = Ok (junction_energy val ph (ss_red y) (c_graph (ss_cg y)) phi + K)%R.
Proof. intros Hy. exists (jrest y val ph). split; [apply (rest_0 y val "I"); discriminate|]. intros phi H. apply (classical_energy y Hy); auto. Qed.
Lemma josephson_quantum y argord l val ph : system y -> (forall l, Permutation (argord l) l) -> getQuantumJosephsonEnergies argord y id_mat = Ok l ->
  exists K, (no_lone_selfloop (noncap (c_graph (ss_cg y))) -> K = 0%R) /\
  forall phi, phi 0 = 0%R -> qval val ph (fun k => expi (phi (nth k (ss_nodes y) 0))) (fun k => expi (- phi (nth k (ss_nodes y) 0))) l = RtoC (junction_energy val ph (ss_red y) (c_graph (ss_cg y)) phi + K)%R.
Proof.
  intros Hy Hp Hl. exists (jrest y val ph). split; [apply (rest_0 y val "I"); discriminate|]. intros phi H.
  assert (E := junction_terms y Hy argord Hp id_mat id_mat (id_inverses _) (fun _ => 1%R) (fun k => phi (nth k (ss_nodes y) 0)) phi H (fun k Hk => eq_sym (times_id _ _ k Hk)) val ph l Hl (fun i _ _ => id_signs _ _ i)).
  rewrite <- E. unfold qval. clear E Hl. induction l as [|t l IH]; auto. cbn [fold_right]. rewrite IH. f_equal. unfold qterm_val.
  assert (G : forall k, (1 * phi (nth k (ss_nodes y) 0%nat) = phi (nth k (ss_nodes y) 0%nat))%R) by (intros; ring).
  f_equal. f_equal; f_equal; f_equal; apply map_ext; intros [k []]; cbn [fst snd]; rewrite G; auto.
Qed.
Lemma slips_quantum y argord l val ph : system y -> (forall l, Permutation (argord l) l) -> getQuantumPhaseSlipEnergies argord y id_mat = Ok l ->
  exists K, (no_lone_selfloop (noncap (c_graph (ss_cg y))) -> K = 0%R) /\
  forall q, q 0 = 0%R -> qval val ph (fun k => expi (q (nth k (ss_nodes y) 0))) (fun k => expi (- q (nth k (ss_nodes y) 0))) l = RtoC (slip_energy val ph (ss_charge y) (c_graph (ss_cg y)) q + K)%R.
Proof.
  intros Hy Hp Hl. exists (rest y val "V" (slip_signed y ph)). split; [apply (rest_0 y val "V"); discriminate|]. intros phi H.
  assert (E := slip_terms y Hy argord Hp id_mat id_mat (id_inverses _) (fun _ => 1%R) (fun k => phi (nth k (ss_nodes y) 0)) phi H (fun k Hk => eq_sym (times_id _ _ k Hk)) val ph l Hl (fun i _ _ => id_signs _ _ i)).
  rewrite <- E. unfold qval. clear E Hl. induction l as [|t l IH]; auto. cbn [fold_right]. rewrite IH. f_equal. unfold qterm_val.
  assert (G : forall k, (1 * phi (nth k (ss_nodes y) 0%nat) = phi (nth k (ss_nodes y) 0%nat))%R) by (intros; ring).
  f_equal. f_equal; f_equal; f_equal; apply map_ext; intros [k []]; cbn [fst snd]; rewrite G; auto.
Qed.
Lemma junctions_defined y argord Rm Ri : system y -> (forall l, Permutation (argord l) l) -> inverses (List.length (ss_nodes y)) Rm Ri ->
  (~ self_branch "I" (ss_cg y) (ss_edges y) -> exists l, getQuantumJosephsonEnergies argord y Ri = Ok l) /\ (self_branch "I" (ss_cg y) (ss_edges y) -> getQuantumJosephsonEnergies argord y Ri = Err IndexError) /\
  (~ self_branch "V" (ss_cg y) (ss_edges y) -> exists l, getQuantumPhaseSlipEnergies argord y Ri = Ok l) /\ (self_branch "V" (ss_cg y) (ss_edges y) -> getQuantumPhaseSlipEnergies argord y Ri = Err IndexError).
Proof.
  intros Hy Hp Hi. rewrite (quantum_def y Hy), (slip_def y Hy).
  destruct (terms_dec y Hy argord Hp Rm Ri Hi "I" (fun i => map (fun x => (1%Z, x)) (nth i (map (fun e => match lname y "I" e, dget (ss_red y) e with Some _, Some l => l | _, _ => [] end) (ss_edges y)) []))) as [A1 A2].
  destruct (terms_dec y Hy argord Hp Rm Ri Hi "V" (slip_bias y)) as [B1 B2].
  split; [intros H; eexists; apply A1; auto|]. split; [exact A2|]. split; [intros H; eexists; apply B1; auto|exact B2].
Qed.
Definition Lself := [B 0 1 "I1"; B 1 1 "I2"].
Lemma Lself_circuit : circuit (grun cg_new Lself).
Proof. last_branch [B 0 1 "I1"] 1 1 "I2". Qed.
Lemma self_counter argord : (forall l, Permutation (argord l) l) -> exists y phi, system y /\ (forall val ph, exists r, getClassicalJosephsonEnergies y val ph phi = Ok r) /\ getQuantumJosephsonEnergies argord y id_mat = Err IndexError.
Proof.
  intros Hp. assert (H : exists y, new_system idord noor (grun cg_new Lself) = Some (Ok y) /\ ss_cg y = grun cg_new Lself /\ ss_edges y = [(0, 1, 0); (1, 1, 0)]) by (eexists; split; [vm_compute; reflexivity|]; split; reflexivity).
  destruct H as (y & Hn & Ec & Ee). assert (Hy : system y) by (eapply system_new; [apply Lself_circuit|exact Hn]). exists y, (fun _ => 0%R). split; auto. split.
  - intros val ph. destruct (josephson_classical y val ph Hy) as (K & _ & H). eexists. apply H. auto.
  - apply (junctions_defined y argord id_mat id_mat Hy Hp (id_inverses _)). rewrite Ec, Ee. exists (1, 1, 0), "I2". split; [right; left; auto|]. split; [|split; auto].
    exists ((1, 1, 0), "I2"). split; [vm_compute; auto|]. split; auto. left; auto.
Qed.
(** C91 *)
Lemma energies_exact y val phi0 e : system y -> In e (ss_edges y) -> exists d, sym_getJosephsonEnergies y val phi0 = Ok d /\
  dget d e = Some (match lname y "I" e with Some c => phi0 * val c / (2 * PI) | None => 0 end)%R.
Proof.
  intros Hy He. unfold sym_getJosephsonEnergies, getJosephsonVector. rewrite (vector_ok y Hy). cbn [bind]. eexists. split; [reflexivity|].
  unfold enumerate. set (v := map (lname y "I") (ss_edges y)).
  assert (G : forall l k, (forall i, i < List.length l -> nth (k + i) v None = lname y "I" (nth i l noedge)) -> In e l ->
    dget (map (fun x : nat * edge => (snd x, (phi0 * amp val v (fst x) / (2 * PI))%R)) (combine (seq k (List.length l)) l)) e = Some (match lname y "I" e with Some c => phi0 * val c / (2 * PI) | None => 0 end)%R).
  { induction l as [|f l IH]; intros k Hk Hl; [destruct Hl|]. cbn [List.length seq combine map fst snd dget]. destruct (eqb e f) eqn:Ef.
    - apply (proj1 (eqb_eq _ _)) in Ef. subst f. f_equal. unfold amp. specialize (Hk 0 ltac:(cbn; lia)). rewrite Nat.add_0_r in Hk. rewrite Hk. cbn [nth]. destruct (lname y "I" e); auto. unfold Rdiv. ring.
    - destruct Hl as [->|Hl]; [rewrite (proj2 (eqb_eq e e) eq_refl) in Ef; discriminate Ef|]. apply IH; auto. intros i Hi. specialize (Hk (S i) ltac:(cbn; lia)). cbn [nth] in Hk. rewrite <- Hk. f_equal. lia. }
  apply G; auto. intros i Hi. cbn [Nat.add]. unfold v. apply name_some; auto.
Qed.
Lemma lname_of y e c p : system y -> carries (c_graph (ss_cg y)) e c -> lname y p e = if starts p c then Some c else None.
Proof. intros Hy Hc. apply (map_get _ (circuit_derived _ (m_circ y (system_inv y Hy)))) in Hc. unfold lname. rewrite Hc. auto. Qed.
Lemma energies_of y val phi0 e c : system y -> In e (ss_edges y) -> carries (c_graph (ss_cg y)) e c -> exists d, sym_getJosephsonEnergies y val phi0 = Ok d /\
  dget d e = Some (if starts "I" c then phi0 * val c / (2 * PI) else 0)%R.
Proof. intros Hy He Hc. destruct (energies_exact y val phi0 e Hy He) as (d & H1 & H2). exists d. split; auto. rewrite H2, (lname_of y e c "I" Hy Hc). destruct (starts "I" c); auto. Qed.
(** one junction *)
Definition Lone := [B 0 1 "I1"].
Lemma Lone_circuit : circuit (grun cg_new Lone).
Proof. last_branch (@nil gop) 0 1 "I1". Qed.
Lemma Lone_system : exists y, system y /\ ss_cg y = grun cg_new Lone /\ ss_nodes y = [1] /\ ss_edges y = [(0, 1, 0)] /\ ss_red y = [((0, 1, 0), [])] /\ branches_of "I" (c_graph (ss_cg y)) = [((0, 1, 0), "I1")].
Proof.
  assert (H : exists y, new_system idord noor (grun cg_new Lone) = Some (Ok y) /\ ss_cg y = grun cg_new Lone /\ ss_nodes y = [1] /\ ss_edges y = [(0, 1, 0)] /\ ss_red y = [((0, 1, 0), [])] /\ branches_of "I" (c_graph (ss_cg y)) = [((0, 1, 0), "I1")]) by (eexists; split; [vm_compute; reflexivity|]; repeat split; reflexivity).
  destruct H as (y & Hn & H). exists y. split; auto. eapply system_new; [apply Lone_circuit|exact Hn].
Qed.
Lemma energies_counter : exists y val phi0 d e a r, system y /\ (0 < phi0)%R /\ branches_of "I" (c_graph (ss_cg y)) = [(e, "I1")] /\ sym_getJosephsonEnergies y val phi0 = Ok d /\ dget d e = Some a /\
  getClassicalJosephsonEnergies y val (fun _ => 0%R) (fun _ => 0%R) = Ok r /\ r <> (- a)%R.
Proof.
  destruct Lone_system as (y & Hy & Ec & En & Ee & Er & Eb). destruct (energies_of y (fun _ => 1%R) 1%R (0, 1, 0) "I1" Hy) as (d & H1 & H2).
  - rewrite Ee. left; auto.
  - rewrite Ec. exists ((0, 1, 0), "I1"). split; [vm_compute; auto|]. split; auto. left; auto.
  - cbv iota beta in H2. change (starts "I" "I1") with true in H2. cbv iota in H2.
    destruct (josephson_classical y (fun _ => 1%R) (fun _ => 0%R) Hy) as (K & HK & H). specialize (H (fun _ => 0%R) eq_refl).
    assert (K0 : K = 0%R). { apply HK. rewrite Ec. intros e He. vm_compute in He. destruct He as [<-|[]]. intros E. discriminate E. }
    exists y, (fun _ => 1%R), 1%R, d, (0, 1, 0). do 2 eexists. split; auto. split; [lra|]. split; auto. split; [exact H1|]. split; [exact H2|]. split; [exact H|].
    rewrite K0. unfold junction_energy. rewrite Eb. cbn [map fst snd]. rewrite Rsum_cons, Rsum_nil. unfold signed_bias. rewrite Er. change (dget [((0, 1, 0), [])] (0, 1, 0)) with (Some (@nil string)). cbn [map]. rewrite Rsum_nil.
    replace (0 - 0 + 0)%R with 0%R by ring. rewrite cos_0. intros Heq. assert (HPI := PI_RGT_0). assert (P3 := PI2_3_2).
    assert (1 * 1 / (2 * PI) < 1)%R; [|lra]. apply (Rmult_lt_reg_r (2 * PI)); [lra|]. unfold Rdiv. rewrite Rmult_assoc, Rinv_l by lra. lra.
Qed.
Lemma energies_equal y val phi0 e c : system y -> In e (ss_edges y) -> carries (c_graph (ss_cg y)) e c -> starts "I" c = true -> val c <> 0%R -> exists d a, sym_getJosephsonEnergies y val phi0 = Ok d /\ dget d e = Some a /\ (a = val c <-> phi0 = 2 * PI)%R.
Proof.
  intros Hy He Hc Hs Hv. destruct (energies_of y val phi0 e c Hy He Hc) as (d & H1 & H2). rewrite Hs in H2. exists d. eexists. split; [exact H1|]. split; [exact H2|]. assert (HPI := PI_RGT_0). split; intros E.
  - assert (F : (phi0 * val c = 2 * PI * val c)%R) by (rewrite <- E at 2; field; lra). apply Rmult_eq_reg_r in F; auto.
  - rewrite E. field. lra.
Qed.
(** C92 *)
Lemma junctions_transformed y argord l Rm Ri X kap val ph : system y -> (forall l, Permutation (argord l) l) -> inverses (List.length (ss_nodes y)) Rm Ri -> node_phases (ss_nodes y) Ri X ->
  uniform "I" (ss_cg y) (ss_edges y) (List.length (ss_nodes y)) X kap -> getQuantumJosephsonEnergies argord y Ri = Ok l ->
  exists K, (no_lone_selfloop (noncap (c_graph (ss_cg y))) -> K = 0%R) /\
  forall th, qval val ph (fun k => expi (kap k * th k)) (fun k => expi (- (kap k * th k))) l = RtoC (junction_energy val ph (ss_red y) (c_graph (ss_cg y)) (phases_at (List.length (ss_nodes y)) X th) + K)%R.
Proof.
  intros Hy Hp Hi HX Hu Hl. exists (jrest y val ph). split; [apply (rest_0 y val "I"); discriminate|]. intros th.
  apply (junction_terms y Hy argord Hp Rm Ri Hi kap th (phases_at (List.length (ss_nodes y)) X th) (phases_0 _ Ri X th HX) (fun k Hk => phases_times _ Ri X th k HX Hk) val ph l Hl).
  intros i H1 H2. apply (phases_signs y X "I" kap i Hy); auto. destruct HX as [X0 XR]. split; auto.
Qed.
Definition Ltwo := [B 0 1 "I1"; B 0 2 "I2"].
Lemma Ltwo_circuit : circuit (grun cg_new Ltwo).
Proof. last_branch [B 0 1 "I1"] 0 2 "I2". Qed.
Lemma Ltwo_system : exists y, system y /\ ss_cg y = grun cg_new Ltwo /\ ss_nodes y = [1; 2] /\ ss_edges y = [(0, 1, 0); (0, 2, 0)] /\ ss_red y = [((0, 1, 0), []); ((0, 2, 0), [])] /\
  branches_of "I" (c_graph (ss_cg y)) = [((0, 1, 0), "I1"); ((0, 2, 0), "I2")] /\ lname y "I" (0, 1, 0) = Some "I1" /\ lname y "I" (0, 2, 0) = Some "I2".
Proof.
  assert (H : exists y, new_system idord noor (grun cg_new Ltwo) = Some (Ok y) /\ ss_cg y = grun cg_new Ltwo /\ ss_nodes y = [1; 2] /\ ss_edges y = [(0, 1, 0); (0, 2, 0)] /\ ss_red y = [((0, 1, 0), []); ((0, 2, 0), [])] /\
    branches_of "I" (c_graph (ss_cg y)) = [((0, 1, 0), "I1"); ((0, 2, 0), "I2")] /\ lname y "I" (0, 1, 0) = Some "I1" /\ lname y "I" (0, 2, 0) = Some "I2") by (eexists; split; [vm_compute; reflexivity|]; repeat split; reflexivity).
  destruct H as (y & Hn & H). exists y. split; auto. eapply system_new; [apply Ltwo_circuit|exact Hn].
Qed.
Definition R2 (i j : nat) : R := match i, j with 0, 0 => 1 | 1, 0 => -2 | 1, 1 => 1 | _, _ => 0 end%R.
Definition Ri2 (i j : nat) : R := match i, j with 0, 0 => 1 | 1, 0 => 2 | 1, 1 => 1 | _, _ => 0 end%R.
Definition X2 (k a : nat) : R := match a with 0 => 0 | S l => Ri2 l k end%R.
Lemma R2_inverses : inverses 2 R2 Ri2.
Proof. intros i j Hi Hj. destruct i as [|[|i]]; try lia; destruct j as [|[|j]]; try lia; unfold R2, Ri2; cbn; split; ring. Qed.
Lemma X2_phases : node_phases [1; 2] Ri2 X2.
Proof. split; auto. intros k l Hk Hl. cbn in Hl. destruct l as [|[|l]]; try lia; reflexivity. Qed.
Definition v2 (b : bool) (c : string) : R := if String.eqb c (if b then "I1" else "I2") then 1%R else 0%R.
Lemma pt0 : pterms [1; 2] [(0, 1, 0); (0, 2, 0)] Ri2 0 = [(0, false)].
Proof.
  unfold pterms. cbn [List.length seq flat_map].
  assert (E0 : coef [1; 2] [(0, 1, 0); (0, 2, 0)] Ri2 0 0 = (-1)%R) by (unfold coef, Ri2; cbn; ring). assert (E1 : coef [1; 2] [(0, 1, 0); (0, 2, 0)] Ri2 0 1 = 0%R) by (unfold coef, Ri2; cbn; ring).
  rewrite E0, E1. destruct (Req_EM_T (-1) 0); [lra|]. destruct (Req_EM_T 0 0); [|lra]. destruct (Rlt_dec 0 (-1)); [lra|]. reflexivity.
Qed.
Lemma pt1 : pterms [1; 2] [(0, 1, 0); (0, 2, 0)] Ri2 1 = [(0, false); (1, false)].
Proof.
  unfold pterms. cbn [List.length seq flat_map].
  assert (E0 : coef [1; 2] [(0, 1, 0); (0, 2, 0)] Ri2 1 0 = (-2)%R) by (unfold coef, Ri2; cbn; ring). assert (E1 : coef [1; 2] [(0, 1, 0); (0, 2, 0)] Ri2 1 1 = (-1)%R) by (unfold coef, Ri2; cbn; ring).
  rewrite E0, E1. destruct (Req_EM_T (-2) 0); [lra|]. destruct (Req_EM_T (-1) 0); [lra|]. destruct (Rlt_dec 0 (-2)); [lra|]. destruct (Rlt_dec 0 (-1)); [lra|]. reflexivity.
Qed.
Lemma transform_counter : exists y Rm Ri X l, system y /\ inverses (List.length (ss_nodes y)) Rm Ri /\ node_phases (ss_nodes y) Ri X /\ no_lone_selfloop (noncap (c_graph (ss_cg y))) /\
  getQuantumJosephsonEnergies (fun l => l) y Ri = Ok l /\ forall kap, exists val th,
  qval val (fun _ => 0%R) (fun k => expi (kap k * th k)) (fun k => expi (- (kap k * th k))) l <> RtoC (junction_energy val (fun _ => 0%R) (ss_red y) (c_graph (ss_cg y)) (phases_at (List.length (ss_nodes y)) X th)).
Proof.
  destruct Ltwo_system as (y & Hy & Ec & En & Ee & Er & Eb & L1 & L2). exists y, R2, Ri2, X2, [mkq "I1" [] [(0, false)]; mkq "I2" [] [(0, false); (1, false)]]. split; auto. rewrite En. split; [apply R2_inverses|]. split; [apply X2_phases|].
  split. { rewrite Ec. intros e He. vm_compute in He. destruct He as [<-|[<-|[]]]; intros E; discriminate E. }
  split.
  { rewrite (quantum_def y Hy). rewrite Ee. cbn [map]. rewrite L1, L2, Er. unfold quantum_terms. rewrite Ee, En. cbn [List.length seq foldM nth]. rewrite pt0, pt1. reflexivity. }
  intros kap.
  assert (V1 : forall th, qval (v2 true) (fun _ => 0%R) (fun k => expi (kap k * th k)) (fun k => expi (- (kap k * th k))) [mkq "I1" [] [(0, false)]; mkq "I2" [] [(0, false); (1, false)]] = RtoC (- cos (kap 0%nat * th 0%nat))).
  { intros th. unfold qval, qterm_val, bias_val, cprod, v2, expi, cis. cbn. apply injective_projections; cbn; rewrite ?cos_neg, ?sin_neg, ?Ropp_0, ?cos_0, ?sin_0; field. }
  assert (V2 : forall th, th 1 = 0%R -> qval (v2 false) (fun _ => 0%R) (fun k => expi (kap k * th k)) (fun k => expi (- (kap k * th k))) [mkq "I1" [] [(0, false)]; mkq "I2" [] [(0, false); (1, false)]] = RtoC (- cos (kap 0%nat * th 0%nat))).
  { intros th H. unfold qval, qterm_val, bias_val, cprod, v2, expi, cis. cbn. rewrite H, !(Rmult_0_r (kap 1%nat)). apply injective_projections; cbn; rewrite ?Ropp_0, ?cos_neg, ?sin_neg, ?Ropp_0, ?cos_0, ?sin_0; field. }
  assert (J : forall b th, th 1 = 0%R -> junction_energy (v2 b) (fun _ => 0%R) (ss_red y) (c_graph (ss_cg y)) (phases_at (List.length [1; 2]) X2 th) = (- cos ((if b then 1 else 2) * th 0%nat))%R).
  { intros b th H. unfold junction_energy. rewrite Eb. cbn [map fst snd]. rewrite !Rsum_cons, Rsum_nil. unfold signed_bias. rewrite Er. change (dget [((0, 1, 0), []); ((0, 2, 0), [])] (0, 1, 0)) with (Some (@nil string)). change (dget [((0, 1, 0), []); ((0, 2, 0), [])] (0, 2, 0)) with (Some (@nil string)). cbn [map].
    rewrite !Rsum_nil. unfold phases_at, src, dst, X2, Ri2, v2. cbn. rewrite H.
    destruct b; cbn; [replace (0 + 0 * th 0%nat + 0 * 0 - (0 + 1 * th 0%nat + 0 * 0) + 0)%R with (- (1 * th 0%nat))%R by ring|replace (0 + 0 * th 0%nat + 0 * 0 - (0 + 2 * th 0%nat + 1 * 0) + 0)%R with (- (2 * th 0%nat))%R by ring]; rewrite cos_neg; ring. }
  set (th := fun k : nat => if Nat.eqb k 0 then PI else 0%R).
  destruct (Req_EM_T (cos (kap 0%nat * PI)) (-1)) as [E|E].
  - exists (v2 false), th. rewrite V2, J by reflexivity. intros F. apply RtoC_inj in F. unfold th in F. cbn in F. rewrite E, cos_2PI in F. lra.
  - exists (v2 true), th. rewrite V1, J by reflexivity. intros F. apply RtoC_inj in F. unfold th in F. cbn in F. rewrite Rmult_1_l, cos_PI in F. lra.
Qed.
Lemma bias_plain ph l : bias_val ph (map (fun x => (1%Z, x)) l) = Rsum (map ph l).
Proof. induction l as [|x l IH]; [reflexivity|]. cbn [map]. rewrite Rsum_cons, <- IH. unfold bias_val. cbn [fold_right fst snd]. ring. Qed.
Lemma foldM_same {A B} (f g : A -> B -> res A) l : (forall a b, f a b = g a b) -> forall a, foldM f l a = foldM g l a.
Proof. intros H. induction l as [|b l IH]; intros a; cbn [foldM]; auto. rewrite H. destruct (g a b); cbn [bind]; auto. Qed.
Lemma cosine_bias N argord nodes edges a b b' X Xd : (forall i, b i = b' i) -> cosine_part N argord nodes edges a b X Xd = cosine_part N argord nodes edges a b' X Xd.
Proof. intros H. unfold cosine_part. apply foldM_same. intros A i. rewrite H. auto. Qed.
Lemma josephson_numeric N argord y v B val ph X Xd : getJosephsonVector y = Ok v -> josephson_bias y (ss_red y) = Ok B -> (forall i c, nth i v None = Some c -> val c <> 0%R) ->
  cosine_part N argord (ss_nodes y) (ss_edges y) (amp val v) (fun i => Rsum (map ph (nth i B [])) / (2 * PI))%R X Xd = bind (getQuantumJosephsonEnergies argord y id_mat) (qmat N val ph X Xd).
Proof.
  intros Hv HB Hval. unfold getQuantumJosephsonEnergies. rewrite Hv, HB. cbn [bind].
  rewrite <- (numeric_terms N argord y v (fun i => map (fun x => (1%Z, x)) (nth i B [])) val ph X Xd Hval). apply cosine_bias. intros i. rewrite bias_plain. auto.
Qed.
Lemma slips_numeric N argord y v val ph X Xd : getPhaseSlipVector y = Ok v -> (forall i c, nth i v None = Some c -> val c <> 0%R) ->
  cosine_part N argord (ss_nodes y) (ss_edges y) (amp val v) (fun i => bias_val ph (slip_bias y i) / (2 * PI))%R X Xd = bind (getQuantumPhaseSlipEnergies argord y id_mat) (qmat N val ph X Xd).
Proof. intros Hv Hval. unfold getQuantumPhaseSlipEnergies. rewrite Hv. cbn [bind]. apply numeric_terms; auto. Qed.
(** C92: a scaled coordinate with a bias *)
Definition R1 (c : R) (i j : nat) : R := match i, j with 0, 0 => c | _, _ => 0%R end.
Lemma R1_inverses c : c <> 0%R -> inverses 1 (R1 c) (R1 (/ c)).
Proof. intros H i j Hi Hj. destruct i; [|lia]. destruct j; [|lia]. cbn. split; field; auto. Qed.
Lemma charging_counter : exists n t Ci Q b, inverses n (t_R t) (t_Rinv t) /\ half_form n (transformed_Cinv n t Ci) (times n (transpose (t_Rinv t)) Q) b <> half_form n Ci Q b.
Proof.
  exists 1, (mkt (R1 2) (R1 (/ 2)) false), (fun _ _ => 1%R), (fun _ => 0%R), (fun _ => 1%R). split; [apply R1_inverses; lra|].
  unfold half_form, transformed_Cinv, times, transpose. cbn. lra.
Qed.
Lemma flux_counter : exists n t Li P b, inverses n (t_R t) (t_Rinv t) /\ half_form n (transformed_Linv n t Li) (times n (t_R t) P) b <> half_form n Li P b.
Proof.
  exists 1, (mkt (R1 2) (R1 (/ 2)) false), (fun _ _ => 1%R), (fun _ => 0%R), (fun _ => 1%R). split; [apply R1_inverses; lra|].
  unfold half_form, transformed_Linv, times. cbn. lra.
Qed.
Lemma charging_fixed n t Ci Q b : inverses n (t_R t) (t_Rinv t) -> (forall i, i < n -> times n (transpose (t_R t)) b i = b i) -> half_form n (transformed_Cinv n t Ci) (times n (transpose (t_Rinv t)) Q) b = half_form n Ci Q b.
Proof. intros H Hb. rewrite charging_invariant by auto. unfold half_form, energy. f_equal. apply (sR_ext n). intros i Hi. apply (sR_ext n). intros j Hj. rewrite !Hb by auto. auto. Qed.
Lemma flux_fixed n t Li P b : inverses n (t_R t) (t_Rinv t) -> (forall i, i < n -> times n (t_Rinv t) b i = b i) -> half_form n (transformed_Linv n t Li) (times n (t_R t) P) b = half_form n Li P b.
Proof. intros H Hb. rewrite flux_invariant by auto. unfold half_form, energy. f_equal. apply (sR_ext n). intros i Hi. apply (sR_ext n). intros j Hj. rewrite !Hb by auto. auto. Qed.
(** C93 *)
Definition V51 (i j : nat) : R := match i, j with 0, 0 => 1 | 0, 2 => -1 | 1, 0 => 1 | 1, 2 => 1 | 2, 1 => 1 | _, _ => 0 end%R.
Definition W51 (i j : nat) : R := match i, j with 0, 0 => 1/2 | 0, 1 => 1/2 | 1, 2 => 1 | 2, 0 => -1/2 | 2, 1 => 1/2 | _, _ => 0 end%R.
Lemma V51_inverses : inverses 3 V51 W51.
Proof. intros i j Hi Hj. destruct i as [|[|[|i]]]; try lia; destruct j as [|[|[|j]]]; try lia; unfold V51, W51; cbn; split; field. Qed.
Definition D51 (l : R) (j : nat) : R := match j with 2 => 2 / l | _ => 0 end%R.
Definition node_linv (s : cg) (M : imat) (val : string -> R) (i j : nat) : R := lval val (linv_diag (sys_nodes s) (wcs s) M i j).
Lemma L51_matrix : exists M, inductance_matrix (grun cg_new L51) (wcs (grun cg_new L51)) = Ok M /\ c_coupled (grun cg_new L51) = [] /\ sys_nodes (grun cg_new L51) = [1; 2; 3] /\
  forall val i j, i < 3 -> j < 3 -> node_linv (grun cg_new L51) M val i j = match i, j with 0, 0 => / val "L1" | 0, 1 => - / val "L1" | 1, 0 => - / val "L1" | 1, 1 => / val "L1" | _, _ => 0 end%R.
Proof.
  eexists. split; [vm_compute; reflexivity|]. split; [vm_compute; reflexivity|]. split; [vm_compute; reflexivity|].
  intros val i j Hi Hj. unfold node_linv.
  match goal with |- lval val ?x = _ => assert (E : x = match i, j with 0, 0 => [(TmL "L1", 1%Z)] | 0, 1 => [(TmL "L1", (-1)%Z)] | 1, 0 => [(TmL "L1", (-1)%Z)] | 1, 1 => [(TmL "L1", 1%Z)] | _, _ => [] end) end.
  { destruct i as [|[|[|i]]]; try lia; destruct j as [|[|[|j]]]; try lia; vm_compute; reflexivity. }
  rewrite E. destruct i as [|[|[|i]]]; try lia; destruct j as [|[|[|j]]]; try lia; cbn; ring.
Qed.
Lemma mode_counter : exists s M val V W D, circuit s /\ inductance_matrix s (wcs s) = Ok M /\ (forall c, 0 < val c)%R /\ let n := List.length (sys_nodes s) in
  inverses n V W /\ (forall i j, i < n -> j < n -> sumn (A := R_rng) n (fun k => node_linv s M val i k * V k j)%R = (V i j * D j)%R) /\ ~ diagonal_upto n (transformed_Linv n (mkt V W true) (node_linv s M val)).
Proof.
  destruct L51_matrix as (M & HM & _ & En & E). exists (grun cg_new L51), M, (fun _ => 1%R), V51, W51, (D51 1). split; [apply L51_circuit|]. split; [exact HM|]. split; [intros; lra|]. rewrite En. cbv zeta. change (List.length [1; 2; 3]) with 3. split; [apply V51_inverses|]. split.
  - intros i j Hi Hj. cbn [sumn]. rewrite !E by lia. destruct i as [|[|[|i]]]; try lia; destruct j as [|[|[|j]]]; try lia; unfold V51, D51; cbn; field.
  - intros H. specialize (H 0 1 ltac:(lia) ltac:(lia) ltac:(lia)). unfold transformed_Linv in H. cbn [sumn t_Rinv] in H. rewrite !E in H by lia. unfold W51 in H. cbn in H. lra.
Qed.
(** C94 *)
Lemma displacement_counter : exists t l, t_exact t = false /\ inverses 1 (t_R t) (t_Rinv t) /\ (forall ord, (forall l, Permutation (ord l) l) -> cooper_disp ord 1 t = Ok l) /\ Rabs (t_Rinv t 0 0) <> nth 0 l 0%R.
Proof.
  exists (mkt (R1 2) (R1 (/ 2)) false), [2%R]. split; auto. split; [apply R1_inverses; lra|]. split.
  - intros ord Hord. destruct (cooper_ok ord Hord 1 (mkt (R1 2) (R1 (/ 2)) false) eq_refl (R1_inverses 2 ltac:(lra))) as (l & Hl & Hn & H). rewrite Hl. destruct (H 0 ltac:(lia)) as (k & Hk & _ & E). assert (k = 0) by lia. subst k. cbn in E. rewrite Rabs_pos_eq in E by lra.
    destruct l as [|x [|z l]]; try discriminate Hn. cbn in E. subst x. auto.
  - cbn. rewrite Rabs_pos_eq; lra.
Qed.
Definition S2 (c : R) (i j : nat) : R := match i, j with 0, 0 => c | 0, 1 => c | 1, 0 => c | 1, 1 => - c | _, _ => 0 end%R.
Lemma S2_inverses : inverses 2 (S2 1) (S2 (1 / 2)).
Proof. intros i j Hi Hj. destruct i as [|[|i]]; try lia; destruct j as [|[|j]]; try lia; unfold S2; cbn; split; field. Qed.
Lemma integer_counter : exists n t, inverses n (t_R t) (t_Rinv t) /\ forall ord, (forall l, Permutation (ord l) l) -> cooper_disp ord n t = Err TypeError.
Proof.
  exists 2, (mkt (S2 1) (S2 (1 / 2)) true). split; [apply S2_inverses|]. intros ord Hord. unfold cooper_disp, displacements. cbn [t_exact t_R seq mapM].
  assert (Er : row_terms 2 (S2 1) 0 = [1; 1]%R). { unfold row_terms, S2. cbn [seq flat_map]. destruct (Req_EM_T 1 0); [lra|reflexivity]. }
  assert (Eo : ord [1; 1]%R = [1; 1]%R).
  { assert (P := Hord [1; 1]%R). assert (L := Permutation_length P). destruct (ord [1; 1]%R) as [|a [|b [|c r]]]; try discriminate L. assert (a = 1%R) by (assert (I : In a [1; 1]%R) by (apply (Permutation_in _ P); left; auto); destruct I as [<-|[<-|[]]]; auto).
    assert (b = 1%R) by (assert (I : In b [1; 1]%R) by (apply (Permutation_in _ P); right; left; auto); destruct I as [<-|[<-|[]]]; auto). subst. auto. }
  unfold displacement. rewrite Er, Eo. cbv zeta. assert (Eb : bare true 1 = true) by (unfold bare; destruct (Req_EM_T 1 1); [auto|lra]). cbn [filter]. rewrite Eb. cbn. reflexivity.
Qed.
Lemma displacement_identity ord n : (forall l, Permutation (ord l) l) -> exists l l', cooper_disp ord n (mkt id_mat id_mat false) = Ok l /\ fluxon_disp ord n (mkt id_mat id_mat false) = Ok l' /\ l = repeat 1%R n /\ l' = repeat 1%R n.
Proof.
  intros Hord. destruct (cooper_ok ord Hord n (mkt id_mat id_mat false) eq_refl (id_inverses n)) as (l & Hl & Ln & H). destruct (fluxon_ok ord Hord n (mkt id_mat id_mat false) eq_refl (id_inverses n)) as (l' & Hl' & Ln' & H').
  assert (G : forall l : list R, List.length l = n -> (forall i, i < n -> nth i l 0%R = 1%R) -> l = repeat 1%R n).
  { intros m Hm Hi. apply (nth_ext _ _ 0%R 0%R); [rewrite repeat_length; auto|]. intros i Hlt. rewrite Hi by lia. rewrite Hm in Hlt. clear - Hlt. revert i Hlt. induction n as [|n IH]; intros i Hlt; [lia|]. destruct i; cbn; auto. apply IH. lia. }
  exists l, l'. split; auto. split; auto. cbn [t_R t_Rinv] in *. split; apply G; auto; intros i Hi.
  - destruct (H i Hi) as (k & _ & Hne & ->). unfold id_mat in *. destruct (Nat.eqb i k); [apply Rabs_R1|congruence].
  - destruct (H' i Hi) as (k & _ & Hne & ->). unfold id_mat in *. destruct (Nat.eqb k i); [apply Rabs_R1|congruence].
Qed.
(** C95 *)
Lemma mode_phi s t i phi : circuit s -> phi 0 = 0%R -> (forall k, k < List.length (sys_nodes s) -> phi (nth k (sys_nodes s) 0) = t_Rinv t k i) -> forall b, In b (branches_of "L" (c_graph s)) -> phi (src (fst b)) = mode_flux s t i (src (fst b)) /\ phi (dst (fst b)) = mode_flux s t i (dst (fst b)).
Proof.
  intros Hc P0 HP b Hb. assert (HD := circuit_derived s Hc). unfold branches_of in Hb. apply filter_In in Hb as [Hb _]. apply (w_ends _ (d_wf s HD)) in Hb.
  assert (G : forall a, In a (g_nodes (c_graph s)) -> phi a = mode_flux s t i a).
  { intros a Ha. destruct (Nat.eq_dec a 0) as [->|Hne]; [rewrite mode_flux_0 by auto; auto|]. assert (I : In a (sys_nodes s)) by (apply (nodes_In _ s HD eq_refl); auto). apply (In_nth _ _ 0) in I as (k & Hk & <-). rewrite mode_flux_nth, HP by auto. auto. }
  split; apply G; apply Hb.
Qed.
Lemma charge_mode s M t i phi : circuit s -> c_coupled s = [] -> inductance_matrix s (wcs s) = Ok M -> List.length (sys_nodes s) <= 111 -> phi 0 = 0%R -> (forall k, k < List.length (sys_nodes s) -> phi (nth k (sys_nodes s) 0) = t_Rinv t k i) ->
  transformed_mode (List.length (sys_nodes s)) t (linv_entries (sys_nodes s) (wcs s) M) i = Charge -> forall b, In b (branches_of "L" (c_graph s)) -> phi (src (fst b)) = phi (dst (fst b)).
Proof. intros Hc Hcc HM Hn P0 HP Hm b Hb. destruct (mode_phi s t i phi Hc P0 HP b Hb) as [-> ->]. eapply charge_no_energy; eauto. Qed.
Lemma no_energy_mode s M t i phi : circuit s -> c_coupled s = [] -> inductance_matrix s (wcs s) = Ok M -> (forall k l, k < List.length (sys_nodes s) -> l < List.length (sys_nodes s) -> List.length (linv_diag (sys_nodes s) (wcs s) M k l) <= 1) ->
  phi 0 = 0%R -> (forall k, k < List.length (sys_nodes s) -> phi (nth k (sys_nodes s) 0) = t_Rinv t k i) ->
  (forall b, In b (branches_of "L" (c_graph s)) -> phi (src (fst b)) = phi (dst (fst b))) -> transformed_mode (List.length (sys_nodes s)) t (linv_entries (sys_nodes s) (wcs s) M) i = Charge.
Proof. intros Hc Hcc HM Hs P0 HP H. eapply no_energy_charge; eauto. intros b Hb. destruct (mode_phi s t i phi Hc P0 HP b Hb) as [<- <-]. auto. Qed.
Definition Lpar := [B 0 1 "C1"; B 0 2 "C2"; B 1 2 "L1"; B 1 2 "L2"].
Lemma Lpar_circuit : circuit (grun cg_new Lpar).
Proof. last_branch [B 0 1 "C1"; B 0 2 "C2"; B 1 2 "L1"] 1 2 "L2". Qed.
Lemma parallel_counter : exists s M t phi, circuit s /\ c_coupled s = [] /\ inductance_matrix s (wcs s) = Ok M /\ inverses (List.length (sys_nodes s)) (t_R t) (t_Rinv t) /\ phi 0 = 0%R /\ (forall k, k < List.length (sys_nodes s) -> phi (nth k (sys_nodes s) 0) = t_Rinv t k 0) /\
  (forall b, In b (branches_of "L" (c_graph s)) -> phi (src (fst b)) = phi (dst (fst b))) /\ transformed_mode (List.length (sys_nodes s)) t (linv_entries (sys_nodes s) (wcs s) M) 0 = Oscillator.
Proof.
  assert (H : exists M, inductance_matrix (grun cg_new Lpar) (wcs (grun cg_new Lpar)) = Ok M /\ (forall k l, k < 2 -> l < 2 -> linv_entries (sys_nodes (grun cg_new Lpar)) (wcs (grun cg_new Lpar)) M k l = [(mat_name "L" "i" (Nat.min k l) (Nat.max k l), 1%R)])).
  { eexists. split; [vm_compute; reflexivity|]. intros k l Hk Hl. unfold linv_entries.
    match goal with |- entry_of _ ?x = _ => assert (E : exists t u r, x = t :: u :: r) by (destruct k as [|[|k]]; try lia; destruct l as [|[|l]]; try lia; vm_compute; eauto) end.
    destruct E as (t & u & r & ->). unfold entry_of. destruct t as [[c|c|c d] z]; reflexivity. }
  destruct H as (M & HM & HE).
  exists (grun cg_new Lpar), M, (mkt (S2 (1 / 2)) (S2 1) true), (fun a => match a with 0 => 0%R | _ => 1%R end).
  split; [apply Lpar_circuit|]. split; [vm_compute; reflexivity|]. split; [exact HM|]. change (sys_nodes (grun cg_new Lpar)) with [1; 2] in *. change (List.length [1; 2]) with 2 in *. split; [apply inverses_sym, S2_inverses|]. split; auto. split.
  { intros k Hk. destruct k as [|[|k]]; try lia; reflexivity. } split.
  { intros b Hb. vm_compute in Hb. destruct Hb as [<-|[<-|[]]]; reflexivity. }
  destruct (transformed_mode _ _ _ _) eqn:E; auto. exfalso. apply (proj1 (mode_charge _ _ _ _)) with (v := fun x => if String.eqb x (mat_name "L" "i" 0 0) then 1%R else 0%R) in E.
  rewrite eval_transformed in E. cbn [sumn] in E. rewrite !HE in E by lia. unfold eval_entry in E. cbn [map fst snd Nat.min Nat.max t_Rinv] in E. rewrite !Rsum_cons, !Rsum_nil in E. unfold S2 in E.
  change (String.eqb (mat_name "L" "i" 0 0) (mat_name "L" "i" 0 0)) with true in E. change (String.eqb (mat_name "L" "i" 0 1) (mat_name "L" "i" 0 0)) with false in E. change (String.eqb (mat_name "L" "i" 1 1) (mat_name "L" "i" 0 0)) with false in E. cbn in E. lra.
Qed.
Lemma modes_after s M : circuit s -> c_coupled s = [] -> inductance_matrix s (wcs s) = Ok M -> sys_nodes s = [1; 2; 3] -> branches_of "L" (c_graph s) = [((1, 2, 0), "L1")] ->
  (forall k l, k < List.length (sys_nodes s) -> l < List.length (sys_nodes s) -> List.length (linv_diag (sys_nodes s) (wcs s) M k l) <= 1) ->
  transformed_mode (List.length (sys_nodes s)) (mkt W51 V51 true) (linv_entries (sys_nodes s) (wcs s) M) 0 = Charge /\ transformed_mode (List.length (sys_nodes s)) (mkt W51 V51 true) (linv_entries (sys_nodes s) (wcs s) M) 2 = Oscillator.
Proof.
  intros Hc Hcc HM En Eb HS. split.
  - apply (no_energy_mode s M (mkt W51 V51 true) 0 (fun a => match a with 1 => 1 | 2 => 1 | _ => 0 end)%R Hc Hcc HM HS eq_refl).
    + rewrite En. intros k Hk. cbn in Hk. destruct k as [|[|[|k]]]; try lia; reflexivity.
    + rewrite Eb. intros b [<-|[]]. reflexivity.
  - destruct (transformed_mode _ _ _ 2) eqn:Em; [|reflexivity]. exfalso.
    assert (G := charge_mode s M (mkt W51 V51 true) 2 (fun a => match a with 1 => -1 | 2 => 1 | _ => 0 end)%R Hc Hcc HM).
    assert (Hn : List.length (sys_nodes s) <= 111) by (rewrite En; cbn; lia). specialize (G Hn eq_refl).
    assert (G1 : forall k, k < List.length (sys_nodes s) -> (match nth k (sys_nodes s) 0%nat with 1%nat => -1 | 2%nat => 1 | _ => 0 end)%R = t_Rinv (mkt W51 V51 true) k 2) by (rewrite En; intros k Hk; cbn in Hk; destruct k as [|[|[|k]]]; try lia; reflexivity).
    specialize (G G1 Em ((1, 2, 0), "L1")). rewrite Eb in G. specialize (G (or_introl eq_refl)). cbn in G. lra.
Qed.
Lemma L51_modes_after : exists s M t, circuit s /\ c_coupled s = [] /\ inductance_matrix s (wcs s) = Ok M /\ List.length (sys_nodes s) <= 111 /\ inverses (List.length (sys_nodes s)) (t_R t) (t_Rinv t) /\
  (forall k l, k < List.length (sys_nodes s) -> l < List.length (sys_nodes s) -> List.length (linv_diag (sys_nodes s) (wcs s) M k l) <= 1) /\
  transformed_mode (List.length (sys_nodes s)) t (linv_entries (sys_nodes s) (wcs s) M) 0 = Charge /\ transformed_mode (List.length (sys_nodes s)) t (linv_entries (sys_nodes s) (wcs s) M) 2 = Oscillator.
Proof.
  assert (G : exists s M, circuit s /\ c_coupled s = [] /\ inductance_matrix s (wcs s) = Ok M /\ sys_nodes s = [1; 2; 3] /\ branches_of "L" (c_graph s) = [((1, 2, 0), "L1")] /\ (forall k l, k < 3 -> l < 3 -> List.length (linv_diag (sys_nodes s) (wcs s) M k l) <= 1)).
  { exists (grun cg_new L51). eexists. split; [apply L51_circuit|]. split; [vm_compute; reflexivity|]. split; [vm_compute; reflexivity|]. split; [vm_compute; reflexivity|]. split; [vm_compute; reflexivity|].
    intros k l Hk Hl. apply Nat.leb_le. destruct k as [|[|[|k]]]; try lia; destruct l as [|[|[|l]]]; try lia; vm_compute; reflexivity. }
  destruct G as (s & M & Hc & Hcc & HM & En & Eb & HS). assert (HS' : forall k l, k < List.length (sys_nodes s) -> l < List.length (sys_nodes s) -> List.length (linv_diag (sys_nodes s) (wcs s) M k l) <= 1) by (rewrite En in *; exact HS).
  destruct (modes_after s M Hc Hcc HM En Eb HS') as [A1 A2]. exists s, M, (mkt W51 V51 true). repeat (split; [assumption|]). split; [rewrite En; cbn; lia|]. split; [rewrite En; apply inverses_sym, V51_inverses|]. split; [exact HS'|]. split; [exact A1|exact A2].
Qed.
(** a phase slip nanowire, two junctions with a flux bias, a charge bias *)
Definition Lmix := [B 0 1 "V1"; B 1 2 "I2"; B 1 2 "I3"; B 0 2 "L1"] ++ [GFlux "I2" (PStr "a") None; GCharge 1 (PStr "g") (Some "Cg")].
Lemma Lmix_circuit : circuit (grun cg_new Lmix).
Proof. apply circuit_more; [last_branch [B 0 1 "V1"; B 1 2 "I2"; B 1 2 "I3"] 0 2 "L1"|other]. Qed.
Lemma Lmix_facts : exists y, system y /\ ss_nodes y = [1; 2] /\ ss_edges y = [(0, 1, 0); (0, 2, 0); (2, 1, 0); (2, 1, 1)] /\ ss_red y = [((0, 1, 0), []); ((0, 2, 0), []); ((2, 1, 0), ["a"]); ((2, 1, 1), [])] /\
  ss_charge y = [(1, Some "g"); (2, None)] /\ branches_of "I" (c_graph (ss_cg y)) = [((1, 2, 0), "I2"); ((1, 2, 1), "I3")] /\ branches_of "V" (c_graph (ss_cg y)) = [((0, 1, 0), "V1")] /\
  no_lone_selfloop (noncap (c_graph (ss_cg y))) /\ ~ self_branch "I" (ss_cg y) (ss_edges y) /\ ~ self_branch "V" (ss_cg y) (ss_edges y).
Proof.
  assert (H : exists y, new_system idord noor (grun cg_new Lmix) = Some (Ok y) /\ ss_nodes y = [1; 2] /\ ss_edges y = [(0, 1, 0); (0, 2, 0); (2, 1, 0); (2, 1, 1)] /\ ss_red y = [((0, 1, 0), []); ((0, 2, 0), []); ((2, 1, 0), ["a"]); ((2, 1, 1), [])] /\
    ss_charge y = [(1, Some "g"); (2, None)] /\ branches_of "I" (c_graph (ss_cg y)) = [((1, 2, 0), "I2"); ((1, 2, 1), "I3")] /\ branches_of "V" (c_graph (ss_cg y)) = [((0, 1, 0), "V1")] /\ noncap (c_graph (ss_cg y)) = [(0, 1, 0); (1, 2, 0); (1, 2, 1); (0, 2, 0)]).
  { eexists. split; [vm_compute; reflexivity|]. repeat split; reflexivity. }
  destruct H as (y & Hn & E1 & E2 & E3 & E4 & E5 & E6 & E7). exists y. split; [eapply system_new; [apply Lmix_circuit|exact Hn]|]. repeat (split; [assumption|]).
  assert (S : forall p, ~ self_branch p (ss_cg y) (ss_edges y)).
  { intros p (e & c & He & _ & _ & Hs). rewrite E2 in He. destruct He as [<-|[<-|[<-|[<-|[]]]]]; discriminate Hs. }
  split; [|split; apply S]. rewrite E7. intros e [<-|[<-|[<-|[<-|[]]]]] Hs; discriminate Hs.
Qed.
Lemma uniform_witness : exists y X l, system y /\ inverses (List.length (ss_nodes y)) (S2 1) (S2 (1 / 2)) /\ node_phases (ss_nodes y) (S2 (1 / 2)) X /\ uniform "I" (ss_cg y) (ss_edges y) (List.length (ss_nodes y)) X (fun _ => (1 / 2)%R) /\
  getQuantumJosephsonEnergies (fun l => l) y (S2 (1 / 2)) = Ok l /\ List.length (branches_of "I" (c_graph (ss_cg y))) = 2.
Proof.
  destruct Ltwo_system as (y & Hy & Ec & En & Ee & Er & Eb & L1 & L2).
  assert (Hi : inverses (List.length (ss_nodes y)) (S2 1) (S2 (1 / 2))) by (rewrite En; apply S2_inverses).
  assert (S : ~ self_branch "I" (ss_cg y) (ss_edges y)) by (intros (e & c & He & _ & _ & Hs); rewrite Ee in He; destruct He as [<-|[<-|[]]]; discriminate Hs).
  destruct (proj1 (junctions_defined y (fun l => l) _ _ Hy (fun l => Permutation_refl l) Hi) S) as (l & Hl).
  exists y, (fun k a => match a with 0 => 0%R | S m => S2 (1 / 2) m k end), l. split; [exact Hy|]. split; [exact Hi|]. split; [|split; [|split; [exact Hl|rewrite Eb; reflexivity]]].
  - rewrite En. split; auto. intros k m Hk Hm. cbn in Hm. destruct m as [|[|m]]; try lia; reflexivity.
  - intros e c k He _ _ Hk. right. rewrite Ee in He. rewrite En in Hk. cbn in Hk. assert (A : Rabs (0 - 1 / 2) = (1 / 2)%R) by (rewrite Rabs_left; lra). assert (A' : Rabs (0 - - (1 / 2)) = (1 / 2)%R) by (rewrite Rabs_pos_eq; lra).
    destruct He as [<-|[<-|[]]]; destruct k as [|[|k]]; try lia; unfold src, dst, S2; cbn; auto.
Qed.
Lemma fixed_witness : inverses 2 R2 Ri2 /\ (exists b, (forall i, i < 2 -> times 2 (transpose R2) b i = b i) /\ b 0 = 1%R) /\ (exists b, (forall i, i < 2 -> times 2 Ri2 b i = b i) /\ b 1 = 1%R).
Proof.
  split; [apply R2_inverses|]. split; [exists (fun i => match i with 0 => 1%R | _ => 0%R end)|exists (fun i => match i with 0 => 0%R | _ => 1%R end)]; (split; [|reflexivity]); intros i Hi; destruct i as [|[|i]]; try lia; unfold times, transpose, R2, Ri2; cbn; ring.
Qed.
Lemma single_particle_system y e Cm Ci : system y -> inverses (List.length (ss_nodes y)) Cm Ci ->
  let d := getSingleParticleChargingEnergies y e Ci in dkeys d = ss_nodes y /\
  forall i n V, nth_error (ss_nodes y) i = Some n ->
    (forall k, k < List.length (ss_nodes y) -> times (List.length (ss_nodes y)) Cm V k = if Nat.eqb k i then (2 * e)%R else 0%R) ->
    dget d n = Some (energy (List.length (ss_nodes y)) Cm V).
Proof.
  intros Hy. apply single_particle. exact (nodes_NoDup (ss_nodes y) (ss_cg y) (circuit_derived _ (m_circ y (system_inv y Hy))) (system_nodes y Hy)).
Qed.
Definition C2 (i j : nat) : R := match i, j with 0, 0 => 2 | 0, 1 | 1, 0 => -1 | 1, 1 => 1 | _, _ => 0 end%R.
Definition K2 (i j : nat) : R := match i, j with 0, 0 | 0, 1 | 1, 0 => 1 | 1, 1 => 2 | _, _ => 0 end%R.
Lemma single_particle_ex : exists y, system y /\ inverses (List.length (ss_nodes y)) C2 K2 /\ nth_error (ss_nodes y) 1 = Some 2 /\
  exists V, forall k, k < List.length (ss_nodes y) -> times (List.length (ss_nodes y)) C2 V k = if Nat.eqb k 1 then (2 * 1)%R else 0%R.
Proof.
  destruct Lmix_facts as (y & Hy & En & _). exists y. split; auto. rewrite En. cbn [List.length]. split; [|split; auto].
  - intros i j Hi Hj. destruct i as [|[|i]]; try lia; destruct j as [|[|j]]; try lia; cbn; split; lra.
  - exists (fun k => match k with 0 => 2 | _ => 4 end%R). intros k Hk. unfold times. destruct k as [|[|k]]; try lia; cbn; lra.
Qed.
