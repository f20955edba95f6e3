(** The properties of SymbolicSystem for circuits, and concrete circuits
    (C45-C53, C78). *)
From Coq Require Import List Bool String Ascii Arith ZArith Reals Permutation Lia Lra DecimalString.
From Verif Require Import Prelude PreludeFacts Float Param Expr Coll CollGraph CollSpec CollProofs CollLast Mat MatFacts Graph GraphSpec GraphView GraphForest GraphWf GraphCircuit GraphState GraphMaps GraphOps GraphProofs Symbolic SymbolicSpec RSum SymbolicInv SymbolicCap SymbolicCap2 SymbolicFlux SymbolicParam SymbolicInit SymbolicNew SymbolicMat.
Import ListNotations.
Open Scope string_scope.
Open Scope list_scope.
Open Scope nat_scope.

Lemma Some_inj {A} (a b : A) : Some a = Some b -> a = b.
Proof. congruence. Qed.
Lemma grounded_or s n : grounded s n \/ ~ grounded s n.
Proof.
  set (l := 0 :: map fst (gates s) ++ map fst (coupled_resonators s)).
  destruct (Exists_dec (fun m => conn (map fst (branches_of "C" (c_graph s))) n m) l (fun m => conn_dec _ n m)) as [H|H].
  - left. apply Exists_exists in H as (m & Hm & H). exists m. split; auto. destruct Hm as [<-|Hm]; auto. apply in_app_or in Hm. tauto.
  - right. intros (m & H1 & H2). apply H, Exists_exists. exists m. split; auto. unfold l. cbn [In]. rewrite in_app_iff. intuition.
Qed.
Section Circuit.
  Variable s : cg.
  Hypothesis Hc : circuit s.
  Let HD : Derived s := circuit_derived s Hc.
  Let HI : Inv s := reachable_Inv s (circuit_reachable s Hc).
  Let HI2 : Inv2 s := reachable_Inv2 s (circuit_reachable s Hc).
  Lemma c_cap_sym M val i j : capacitance_matrix s = Ok M -> i < List.length (sys_nodes s) -> j < List.length (sys_nodes s) -> lval val (M i j) = lval val (M j i).
  Proof. intros HM. apply (cap_sym s M HD HI HI2 HM). Qed.
  Lemma c_cap_exact M val y x : capacitance_matrix s = Ok M -> y 0 = 0%R -> x 0 = 0%R ->
    form (sys_nodes s) (fun i j => lval val (M i j)) y x = (electrostatic val s y x - self_capacitors val s y x)%R.
  Proof. intros HM Hy Hx. exact (cap_form val _ y x s HD HI HI2 eq_refl Hy Hx M HM). Qed.
  Lemma c_cap_energy M val y x : capacitance_matrix s = Ok M -> no_capacitor_loop (c_graph s) -> y 0 = 0%R -> x 0 = 0%R -> form (sys_nodes s) (fun i j => lval val (M i j)) y x = electrostatic val s y x.
  Proof. intros HM. apply (cap_energy s M HD HI HI2 HM). Qed.
  Lemma c_cap_pos M val : capacitance_matrix s = Ok M -> no_capacitor_loop (c_graph s) -> positive_caps val s ->
    ((forall n, In n (sys_nodes s) -> grounded s n) <-> (forall x, (exists n, In n (sys_nodes s) /\ x n <> 0%R) -> (0 < form (sys_nodes s) (fun i j => lval val (M i j)) x x)%R)) /\
    ((forall n, In n (sys_nodes s) -> grounded s n) <-> (forall x, (forall i, i < List.length (sys_nodes s) -> applied (sys_nodes s) (fun i j => lval val (M i j)) x i = 0%R) -> forall n, In n (sys_nodes s) -> x n = 0%R)).
  Proof.
    intros HM Hl Hp. split; split.
    - intros Hg x Hx. apply (cap_pos_def s M HD HI HI2 HM val Hp x Hl Hg Hx).
    - intros H n Hn. destruct (grounded_or s n) as [|Hng]; auto. exfalso.
      destruct (cap_singular s M HD HI HI2 HM val n Hl Hn Hng) as (x & E & _ & F). specialize (H x). rewrite F in H. apply (Rlt_irrefl 0), H. exists n. split; auto. rewrite E. lra.
    - intros Hg x Hx n Hn. apply (cap_injective s M HD HI HI2 HM val Hp x Hl Hg Hx n Hn).
    - intros H n Hn. destruct (grounded_or s n) as [|Hng]; auto. exfalso.
      destruct (cap_singular s M HD HI HI2 HM val n Hl Hn Hng) as (x & E & A & _). specialize (H x A n Hn). rewrite E in H. lra.
  Qed.

  Lemma c_branch_flux f j e edges : c_wc s = Some edges -> f 0 = 0%R -> nth_error edges j = Some e ->
    branch_flux (sys_nodes s) edges (fun i => f (nth i (sys_nodes s) 0)) j = (f (src e) - f (dst e))%R.
  Proof.
    rewrite (wcs_wc s HD). intros E. apply Some_inj in E. subst edges. intros Hf Hj. apply branch_flux_diff; auto; [apply (nodes_NoDup _ s HD eq_refl)|]. intros e' He'. apply (wcs_ends s HD e' He').
  Qed.
  Lemma c_loop_sum (f : nat -> R) (u : edge -> R) edges w a b : c_wc s = Some edges -> f 0 = 0%R ->
    (forall j e, nth_error edges j = Some e -> u e = branch_flux (sys_nodes s) edges (fun i => f (nth i (sys_nodes s) 0)) j) ->
    walk w a b -> (forall q, In q w -> In (snd q) edges) -> Rsum (map (fun q : bool * edge => if fst q then u (snd q) else (- u (snd q))%R) w) = (f a - f b)%R.
  Proof.
    intros E Hf Hu. assert (Hd : forall e, In e edges -> u e = (f (src e) - f (dst e))%R).
    { intros e He. apply In_nth_error in He as (j & Hj). rewrite (Hu j e Hj). apply c_branch_flux; auto. }
    revert a b. induction w as [|[d e] w IH]; intros a b Hw Hin; cbn [walk] in Hw.
    - subst. rs. ring.
    - rs. assert (He : In e edges) by (apply (Hin (d, e)); left; auto). destruct d; destruct Hw as [-> Hw]; rewrite (IH _ _ Hw) by (intros; apply Hin; right; auto); rewrite Hd by auto; ring.
  Qed.

  Section Ind.
    Variables (val : string -> R) (M : imat) (P : nat -> nat -> R) (edges : list edge).
    Hypothesis Hwc : c_wc s = Some edges.
    Hypothesis Hcoup : c_coupled s = [].
    Hypothesis HM : inductance_matrix s edges = Ok M.
    Hypothesis HP : penrose (List.length edges) (imat_val val M) P.
    Hypothesis Hval : forall b, In b (branches_of "L" (c_graph s)) -> val (snd b) <> 0%R.
    Lemma edges_wcs : edges = wcs s.
    Proof. rewrite (wcs_wc s HD) in Hwc. apply Some_inj in Hwc. auto. Qed.
    Lemma c_linv_sym i j : inverse_inductance (sys_nodes s) edges P i j = inverse_inductance (sys_nodes s) edges P j i.
    Proof. revert HM HP. rewrite edges_wcs. intros HM' HP'. apply (linv_sym s val M P HD Hcoup HM' HP' Hval). Qed.
    Lemma c_linv_form x : x 0 = 0%R -> form (sys_nodes s) (inverse_inductance (sys_nodes s) edges P) x x = inductive_form val (c_graph s) x.
    Proof. revert HM HP. rewrite edges_wcs. intros HM' HP'. apply (linv_form s val M P HD Hcoup HM' HP' Hval). Qed.
    Lemma c_linv_psd x : (forall b, In b (branches_of "L" (c_graph s)) -> (0 < val (snd b))%R) -> x 0 = 0%R -> (0 <= form (sys_nodes s) (inverse_inductance (sys_nodes s) edges P) x x)%R.
    Proof.
      intros Hp Hx. rewrite c_linv_form by auto. unfold inductive_form. revert Hp. generalize (branches_of "L" (c_graph s)). induction l as [|[[[p q] k] c] l IH]; intros Hp; rs; [lra|].
      assert (H1 : (0 < val c)%R) by (apply (Hp ((p, q, k), c)); left; auto). assert (H2 := IH (fun b Hb => Hp b (or_intror Hb))).
      assert (H3 : (0 <= (x p - x q) * (x p - x q) / val c)%R). { unfold Rdiv. apply Rmult_le_pos; [apply Rle_0_sqr|]. left. apply Rinv_0_lt_compat; auto. } lra.
    Qed.
    Lemma shift_outflow bias n : shift s (wcs s) bias n = outflow s bias n.
    Proof.
      unfold shift, outflow. destruct (Nat.eqb n 0); auto. apply Rsum_ext. intros e _. unfold ind_name, letter. destruct (dget (c_map s) e) as [c|]; auto. cbn [snd]. destruct c as [|a c]; auto. cbn [starts].
      change (starts "L" (String a c)) with (Ascii.eqb a "L"). destruct (Ascii.eqb a "L"); auto. unfold inc. destruct (Nat.eqb _ _); [ring|]. destruct (Nat.eqb _ _); [ring|]. destruct (Nat.eqb _ _); ring.
    Qed.
    Lemma c_flux_exact bias x : x 0 = 0%R -> flux_energy s edges P (fun j => bias (nth j edges noedge)) (fun i => x (nth i (sys_nodes s) 0)) =
      (1 / 2 * inductive_form val (c_graph s) (fun n => x n + shift s edges bias n))%R.
    Proof.
      revert HM HP. rewrite edges_wcs. intros HM' HP' Hx. rewrite (flux_energy_exact s val M P HD Hcoup HM' HP' Hval bias x Hx). f_equal. unfold inductive_form. apply Rsum_ext.
      intros [[[p q] k] c] _. rewrite !shift_outflow. auto.
    Qed.
    Lemma c_flux_alone bias x : (forall e, In e edges -> inductor_at s e -> bias e = 0%R \/ alone s edges e) -> x 0 = 0%R ->
      flux_energy s edges P (fun j => bias (nth j edges noedge)) (fun i => x (nth i (sys_nodes s) 0)) = (1 / 2 * biased_form val s edges bias x)%R.
    Proof.
      revert HM HP. rewrite edges_wcs. intros HM' HP' Hi Hx. apply (flux_energy_isolated s val M P HD Hcoup HM' HP' Hval bias); auto. apply wcs_NoDup; auto.
    Qed.
  End Ind.
  Lemma c_inductance_defined edges : c_wc s = Some edges -> c_coupled s = [] -> (forall e b, dget (c_fbias s) e = Some b -> fb_mutual b = None) ->
    exists M, inductance_matrix s edges = Ok M /\ forall val, exists P, penrose (List.length edges) (imat_val val M) P.
  Proof.
    rewrite (wcs_wc s HD). intros E. apply Some_inj in E. subst edges. intros Hcoup Hm. destruct (inductance_defined s HD (wcs s) Hcoup (edge_component s HD) Hm) as (M & HM). exists M. split; auto.
    intros val. apply (pinv_exists s); auto.
  Qed.
End Circuit.
Lemma c_cap_defined l : accepted cg_new l -> circuit (grun cg_new l) -> exists M, capacitance_matrix (grun cg_new l) = Ok M.
Proof. intros Ha Hc. apply cap_defined; [apply circuit_derived; auto|]. apply accepted_covered; auto. intros n []. Qed.

(** ** Concrete circuits *)
Lemma circuit_more l1 l2 : circuit (grun cg_new l1) -> Forall (fun o => is_branch o = false) l2 -> circuit (grun cg_new (l1 ++ l2)).
Proof.
  rewrite grun_app. generalize (grun cg_new l1). induction l2 as [|o l IH]; intros s Hs Hl; auto. apply Forall_cons_iff in Hl as [H1 H2]. apply IH; auto. apply circ_other; auto.
Qed.
Ltac other := repeat (apply Forall_cons; [reflexivity|]); apply Forall_nil.
Ltac last_branch l a b c := refine (circuit_last l ido a b c _ ido_valid _); [vops|vm_compute; reflexivity].
Ltac vacc := vm_compute; auto 20.
Definition noor : imat -> nat -> nat -> option tree := fun _ _ _ => None.

(** C45, C46: a capacitor from a node to itself *)
Definition Lself := [B 0 1 "C1"; B 1 1 "C2"].
Lemma Lself_circuit : circuit (grun cg_new Lself).
Proof. last_branch [B 0 1 "C1"] 1 1 "C2". Qed.
Lemma Lself_accepted : accepted cg_new Lself.
Proof. vacc. Qed.
Lemma Lself_branches : branches_of "C" (c_graph (grun cg_new Lself)) = [((0, 1, 0), "C1"); ((1, 1, 0), "C2")].
Proof. vm_compute. reflexivity. Qed.
Lemma Lself_rest : gates (grun cg_new Lself) = [] /\ coupled_resonators (grun cg_new Lself) = [] /\ sys_nodes (grun cg_new Lself) = [1].
Proof. vm_compute. auto. Qed.
Definition val12 (c : string) : R := if String.eqb c "C2" then 2%R else 1%R.
Lemma Lself_matrix : exists M, capacitance_matrix (grun cg_new Lself) = Ok M /\ M 0 0 = [(TmC "C1", 1%Z); (TmC "C2", (-1)%Z)].
Proof. eexists. split; vm_compute; reflexivity. Qed.
Lemma Lself_data : exists s M, circuit s /\ capacitance_matrix s = Ok M /\ M 0 0 = [(TmC "C1", 1%Z); (TmC "C2", (-1)%Z)] /\
  branches_of "C" (c_graph s) = [((0, 1, 0), "C1"); ((1, 1, 0), "C2")] /\ gates s = [] /\ coupled_resonators s = [] /\ sys_nodes s = [1].
Proof. destruct Lself_matrix as (M & HM & E). exists (grun cg_new Lself), M. exact (conj Lself_circuit (conj HM (conj E (conj Lself_branches Lself_rest)))). Qed.
Definition one_at (n : nat) : R := if Nat.eqb n 0 then 0%R else 1%R.
Lemma Lself_positive s : branches_of "C" (c_graph s) = [((0, 1, 0), "C1"); ((1, 1, 0), "C2")] -> gates s = [] -> coupled_resonators s = [] -> positive_caps val12 s.
Proof.
  intros F1 F2 F3. unfold positive_caps. rewrite F1, F2, F3. split; [|split; intros ? []]. intros b [<-|[<-|[]]]; unfold val12; cbn; lra.
Qed.
Lemma C45_counter : exists s M val x, circuit s /\ capacitance_matrix s = Ok M /\ positive_caps val s /\ x 0 = 0%R /\
  form (sys_nodes s) (fun i j => lval val (M i j)) x x <> electrostatic val s x x.
Proof.
  destruct Lself_data as (s & M & Hc & HM & E & F1 & F2 & F3 & F4). exists s, M, val12, one_at. split; auto. split; auto. split; [apply Lself_positive; auto|].
  split; [reflexivity|]. unfold form, electrostatic. rewrite F1, F2, F3, F4. cbn [List.length sumn nth map]. rewrite E. unfold lval, tval, val12, Rsum, one_at. cbn. lra.
Qed.
Lemma C46_counter : exists s M val x, circuit s /\ capacitance_matrix s = Ok M /\ positive_caps val s /\ (forall n, In n (sys_nodes s) -> grounded s n) /\
  (exists n, In n (sys_nodes s) /\ x n <> 0%R) /\ (form (sys_nodes s) (fun i j => lval val (M i j)) x x < 0)%R.
Proof.
  destruct Lself_data as (s & M & Hc & HM & E & F1 & F2 & F3 & F4). exists s, M, val12, one_at. split; auto. split; auto. split; [apply Lself_positive; auto|].
  split. { rewrite F4. intros n [<-|[]]. exists 0. split; auto. rewrite F1. cbn [map fst]. apply conn_sym. apply (conn_edge _ (0, 1, 0)). left; auto. }
  split. { exists 1. rewrite F4. split; [left; auto|]. unfold one_at. cbn. lra. }
  unfold form. rewrite F4. cbn [List.length sumn nth map]. rewrite E. unfold lval, tval, val12, one_at. cbn. lra.
Qed.

(** C49: a biased inductor which is not alone *)
Definition Lbias := Lsq ++ [GFlux "L2" (PStr "a") None].
Lemma Lbias_circuit : circuit (grun cg_new Lbias).
Proof. apply circuit_more; [apply Lsq_circuit|other]. Qed.
Lemma Lbias_accepted : accepted cg_new Lbias.
Proof. vacc. Qed.
Lemma Lbias_facts : c_coupled (grun cg_new Lbias) = [] /\ c_wc (grun cg_new Lbias) = Some [(0, 1, 0); (1, 2, 0); (2, 1, 1)] /\
  c_fbias (grun cg_new Lbias) = [((1, 2, 0), mkfb None "a")] /\ branches_of "L" (c_graph (grun cg_new Lbias)) = [((0, 1, 0), "L1"); ((1, 2, 0), "L2")] /\
  dget (c_map (grun cg_new Lbias)) (0, 1, 0) = Some "L1" /\ dget (c_map (grun cg_new Lbias)) (1, 2, 0) = Some "L2" /\ dget (c_map (grun cg_new Lbias)) (2, 1, 1) = Some "I1".
Proof. vm_compute. auto 10. Qed.
Lemma C49_counter : exists s edges M P val bias x, circuit s /\ c_coupled s = [] /\ c_wc s = Some edges /\ inductance_matrix s edges = Ok M /\
  penrose (List.length edges) (imat_val val M) P /\ (forall b, In b (branches_of "L" (c_graph s)) -> (0 < val (snd b))%R) /\
  (forall e, dget (c_fbias s) e = None -> bias e = 0%R) /\ x 0 = 0%R /\
  flux_energy s edges P (fun j => bias (nth j edges noedge)) (fun i => x (nth i (sys_nodes s) 0)) <> (1 / 2 * biased_form val s edges bias x)%R.
Proof.
  assert (Hc := Lbias_circuit). destruct Lbias_facts as (F1 & F2 & F3 & F4 & D1 & D2 & D3). revert Hc F1 F2 F3 F4 D1 D2 D3. generalize (grun cg_new Lbias). intros s Hc F1 F2 F3 F4 D1 D2 D3.
  destruct (c_inductance_defined s Hc _ F2 F1) as (M & HM & HP).
  { rewrite F3. intros e b. cbn [dget]. destruct (eqb e (1, 2, 0)); [|discriminate]. intros E. apply Some_inj in E. subst b. reflexivity. }
  pose (val := fun c : string => 1%R). destruct (HP val) as (P & HPv). pose (bias := fun e : edge => if eqb e (1, 2, 0) then 1%R else 0%R). pose (x := fun n : nat => 0%R).
  exists s, [(0, 1, 0); (1, 2, 0); (2, 1, 1)], M, P, val, bias, x.
  split; auto. split; auto. split; auto. split; auto. split; auto. split; [intros; unfold val; lra|].
  split. { rewrite F3. intros e. cbn [dget]. unfold bias. destruct (eqb e (1, 2, 0)); [discriminate|auto]. }
  split; auto. rewrite (c_flux_exact s Hc val M P _ F2 F1 HM HPv); auto; [|intros; unfold val; lra].
  unfold inductive_form. rewrite F4. cbn [map]. unfold shift, biased_form. cbn [map].
  rewrite D1, D2, D3. unfold Rsum, bias, x, val. cbn. lra.
Qed.
(** A circuit meeting the hypotheses of the theorem about isolated inductors *)
Definition Lrf := [B 0 1 "L1"; B 0 1 "I1"; B 0 1 "C1"; GFlux "L1" (PStr "a") None].
Lemma Lrf_circuit : circuit (grun cg_new Lrf).
Proof. apply (circuit_more [B 0 1 "L1"; B 0 1 "I1"; B 0 1 "C1"]); [last_branch [B 0 1 "L1"; B 0 1 "I1"] 0 1 "C1"|other]. Qed.
Lemma Lrf_accepted : accepted cg_new Lrf.
Proof. vacc. Qed.

(** C50 *)
Definition L50mutual := [B 0 1 "L1"; B 1 2 "L2"; B 1 2 "I1"; GFlux "L2" (PStr "a") (Some "M1")].
Definition L50space := [B 0 1 "C 1"].
Definition L50name := [B 0 1 "L00i"; B 1 2 "L2"].
Lemma C50_counters : forall l x, In (l, x) [(L50mutual, TypeError); (Lgrow, KeyError); (L50space, ValueError); (L50name, AssertionError); (Lsq ++ [GCouple "L1" "L2" "M1"; B 0 2 "L3"], ValueError)] ->
  Forall valid_op l /\ accepted cg_new l /\ In 0 (g_nodes (c_graph (grun cg_new l))) /\ new_system idord noor (grun cg_new l) = Some (Err x).
Proof.
  intros l x H. repeat (destruct H as [H|H]; [injection H as <- <-; split; [vops|split; [vacc|split; [vm_compute; auto|vm_compute; reflexivity]]]|]). destruct H.
Qed.
Lemma no_ground ord oracle s : ~ In 0 (g_nodes (c_graph s)) -> new_system ord oracle s = Some (Err PlainException).
Proof. intros H. unfold new_system. destruct (mem 0 (g_nodes (c_graph s))) eqn:E; auto. apply mem_In in E. easy. Qed.
Definition L50 := [B 0 1 "I1"; B 0 1 "I2"; B 0 1 "L3"].
Definition L50b := [GFlux "I1" (PStr "a") None; GFlux "I2" (PStr "b") None; GCharge 1 (PStr "g") (Some "Cg")].
Lemma L50_conditions : L50 <> [] /\ Forall valid_op L50 /\ Forall (fun o => is_branch o = true) L50 /\ Forall bias_call L50b /\
  Forall (fun o => Forall spaceless (call_strings o)) (L50 ++ L50b) /\ accepted cg_new (L50 ++ L50b) /\ In 0 (g_nodes (c_graph (grun cg_new (L50 ++ L50b)))).
Proof.
  split; [discriminate|]. split; [vops|]. split; [other|]. split; [repeat (apply Forall_cons; [first [exact I|reflexivity]|]); apply Forall_nil|].
  split; [repeat (apply Forall_cons; [repeat (apply Forall_cons; [repeat split; discriminate|]); apply Forall_nil|]); apply Forall_nil|].
  split; [vacc|vm_compute; auto].
Qed.
Lemma L50_elements : element_names (grun cg_new (L50 ++ L50b)) = ["I1"; "I2"; "L3"; "Cg"] /\ List.length (g_nodes (c_graph (grun cg_new (L50 ++ L50b)))) = 2.
Proof. vm_compute. auto. Qed.
Lemma L50_unnumbered : unnumbered (grun cg_new (L50 ++ L50b)) "L" "i" /\ unnumbered (grun cg_new (L50 ++ L50b)) "C" "".
Proof.
  destruct L50_elements as [E1 E2]. unfold unnumbered. rewrite E1, E2. split; intros c i j Hc Hij Hj; assert (j = 0) by lia; assert (i = 0) by lia; subst; intros H; subst c; cbn in Hc; intuition discriminate.
Qed.

(** C51: node 2 comes first and is joined to node 1 *)
Definition L51 := [B 0 1 "C1"; B 1 2 "L1"; B 0 3 "C3"].
Lemma L51_circuit : circuit (grun cg_new L51).
Proof. last_branch [B 0 1 "C1"; B 1 2 "L1"] 0 3 "C3". Qed.
Lemma L51_modes : exists y, new_system idord noor (grun cg_new L51) = Some (Ok y) /\ ss_modes y = [(2, Oscillator); (1, Charge); (3, Charge)].
Proof. eexists. split; vm_compute; reflexivity. Qed.
Lemma C51_counter : exists s y n m, circuit s /\ new_system idord noor s = Some (Ok y) /\ dget (ss_modes y) n = Some Oscillator /\ m <> 0 /\ m <> n /\ joined s n m.
Proof.
  destruct L51_modes as (y & Hy & E). exists (grun cg_new L51), y, 2, 1. split; [apply L51_circuit|]. split; auto. rewrite E. split; [reflexivity|]. split; [lia|]. split; [lia|].
  exists ((1, 2, 0), "L1"). split; [vm_compute; auto|cbn; auto].
Qed.

(** C53 *)
Lemma L50_circuit : circuit (grun cg_new (L50 ++ L50b)).
Proof. apply circuit_more; [last_branch [B 0 1 "I1"; B 0 1 "I2"] 0 1 "L3"|other]. Qed.
Lemma L50_system : exists y, new_system idord noor (grun cg_new (L50 ++ L50b)) = Some (Ok y) /\ ss_edges y = [(0, 1, 0); (1, 0, 1); (1, 0, 2)] /\
  ss_flux y = [((0, 1, 0), ["a"]); ((1, 0, 1), ["b"]); ((1, 0, 2), [])] /\ ss_modes y = [(1, Oscillator)].
Proof. eexists. split; [vm_compute; reflexivity|]. split; [reflexivity|]. split; reflexivity. Qed.
Lemma C53_counter : exists y a b t, system y /\ a <> b /\ snd (moveFluxBias y a b) = Ok tt /\ In t (bias_terms y) /\ ~ In t (bias_terms (fst (moveFluxBias y a b))).
Proof.
  destruct L50_system as (y & Hy & E1 & E2 & _). exists y, (0, 1, 0), (1, 0, 1), "b". split; [eapply system_new; eauto using L50_circuit|]. split; [discriminate|].
  assert (Sy := system_new _ _ _ _ L50_circuit Hy). apply system_inv in Sy.
  destruct (move_ok y (0, 1, 0) (1, 0, 1) ["a"] Sy) as (y' & Em & _ & _ & Hf & Hp); rewrite ?E1, ?E2; cbn; auto; [discriminate|]. rewrite Em. cbn [fst snd]. split; auto.
  specialize (Hp ["b"]). rewrite E2 in Hp. specialize (Hp eq_refl). cbn [eqb] in Hp. change (eqb (0, 1, 0) (1, 0, 1)) with false in Hp. cbn iota in Hp.
  assert (Eb : bias_terms y = ["a"; "b"]) by (unfold bias_terms; rewrite E2; reflexivity). rewrite Eb in *. split; [right; left; auto|]. intros H.
  apply in_split in H as (l1 & l2 & E). rewrite E in Hp. assert (Hn : NoDup ["a"; "b"]) by (repeat constructor; cbn; intuition discriminate).
  apply (Permutation_NoDup Hp) in Hn. rewrite <- app_assoc in Hn. apply NoDup_app_r in Hn. cbn in Hn. apply NoDup_cons_iff in Hn as [Hn _]. apply Hn. apply in_or_app. right. left. auto.
Qed.

(** C52 *)
Lemma names_distinct p sfx n : (forall i j i' j', i <= j -> j < n -> i' <= j' -> j' < n -> mat_name p sfx i j = mat_name p sfx i' j' -> i = i' /\ j = j') <-> n <= 111.
Proof.
  rewrite <- (mat_names_distinct p sfx n). split.
  - intros H. assert (Hnd : NoDup (upper n)).
    { unfold upper. assert (G : forall m k, NoDup (flat_map (fun i => map (fun j => (i, j)) (seq i (n - i))) (seq k m))); [|apply G].
      induction m as [|m IH]; intros k; cbn [seq flat_map]; [constructor|]. apply NoDup_app'; [|apply IH|].
      - apply FinFun.Injective_map_NoDup; [intros a b [= ->]; auto|apply seq_NoDup].
      - intros x Hx Hy. apply in_map_iff in Hx as (j & <- & _). apply in_flat_map in Hy as (i & Hi & Hy). apply in_map_iff in Hy as (j' & [= <- _] & _). apply in_seq in Hi. lia. }
    revert Hnd. assert (K : forall l, (forall x, In x l -> In x (upper n)) -> NoDup l -> NoDup (map (name_of (mat_name p sfx)) l)).
    { induction l as [|x l IH]; intros Hl Hn; [constructor|]. apply NoDup_cons_iff in Hn as [Hx Hn]. cbn [map]. constructor; [|apply IH; auto; intros; apply Hl; right; auto].
      intros Hin. apply in_map_iff in Hin as (z & E & Hz). apply Hx. assert (z = x); [|congruence]. destruct x as [i j], z as [i' j'].
      assert (H1 := Hl _ (or_introl eq_refl)). assert (H2 := Hl _ (or_intror Hz)). apply upper_In in H1, H2. destruct (H i' j' i j) as [-> ->]; try lia; auto. }
    apply K; auto.
  - intros H i j i' j' H1 H2 H3 H4 E. assert (I1 : In (i, j) (upper n)) by (apply upper_In; lia). assert (I2 : In (i', j') (upper n)) by (apply upper_In; lia).
    apply In_nth_error in I1 as (a & Ia). apply In_nth_error in I2 as (b & Ib).
    assert (Hab : a = b). { apply (proj1 (NoDup_nth_error _) H); [rewrite map_length; apply nth_error_Some; congruence|]. rewrite !nth_error_map, Ia, Ib. cbn. f_equal. auto. }
    subst b. rewrite Ia in Ib. injection Ib as -> ->. auto.
Qed.

(** C78 *)
Definition L78 := [B 0 1 "Ca"; B 0 1 "Cb"; B 0 2 "C00"].
Lemma L78_circuit : circuit (grun cg_new L78).
Proof. last_branch [B 0 1 "Ca"; B 0 1 "Cb"] 0 2 "C00". Qed.
Lemma C78_counter : exists s y y' R c, circuit s /\ new_system idord noor s = Some (Ok y) /\ getCapacitanceMatrix idord y = (y', Ok R) /\ In c (component_names (c_graph s)) /\
  dget (c_par (ss_par y)) c = None /\ dget (c_par (ss_par y')) c <> None.
Proof.
  eexists (grun cg_new L78), _, _, _, "C00". split; [apply L78_circuit|]. split; [vm_compute; reflexivity|]. split; [vm_compute; reflexivity|]. split; [vm_compute; auto|].
  split; [vm_compute; reflexivity|vm_compute; discriminate].
Qed.
Lemma cap_matrix_form ord oracle s y : good_ord ord -> regular s -> no_capacitor_loop (c_graph s) -> unnumbered s "C" "" -> List.length (g_nodes (c_graph s)) <= 112 -> new_system ord oracle s = Some (Ok y) ->
  exists y' T, getCapacitanceMatrix ord y = (y', Ok T) /\
  (forall c, In c (component_names (c_graph s)) -> dget (c_par (ss_par y')) c = dget (c_par (ss_par y)) c /\ dget (c_coll (ss_par y')) c = dget (c_coll (ss_par y)) c) /\
  (forall v, consistent v (ss_par y') -> forall a b, a 0 = 0%R -> b 0 = 0%R ->
     form (sys_nodes s) (fun i j => entry_val v (T i j)) a b = electrostatic (fun c => v (sym_of c)) s a b) /\
  (forall w, exists v, consistent v (ss_par y') /\ (forall c, In c (component_names (c_graph s)) -> v (sym_of c) = w c) /\ (forall g, In g (gates s) -> v (sym_of (snd g)) = w (snd g))).
Proof.
  intros Ho Hg Hl Hu Hn Hy. assert (Hc := g_circuit s Hg). assert (HD := circuit_derived s Hc).
  destruct (cap_matrix_parameterised ord oracle s y Ho Hg Hu) as (M & y' & T & HM & E & K & V & W); auto.
  { assert (G := sys_nodes_length s (g_ground s Hg)). lia. }
  assert (Kc : forall c, In c (component_names (c_graph s)) -> In c (registered_names s)).
  { intros c Hcc. unfold registered_names. apply in_or_app. left. apply in_map_iff in Hcc as (b & <- & Hb). eapply Permutation_in; [apply Permutation_sym, edge_map_vals, HD|]. apply in_map; auto. }
  exists y', T. split; auto. split; [|split].
  - intros c Hcc. apply K; auto.
  - intros v Hv a b Ha Hb. rewrite <- (c_cap_energy s Hc M (fun c => v (sym_of c)) a b HM Hl Ha Hb). unfold form.
    apply (@sumn_ext R_rng). intros i Hi. apply (@sumn_ext R_rng). intros j Hj. rewrite (V v Hv i j Hi Hj). reflexivity.
  - intros w. destruct (W w) as (v & W1 & W2). exists v. split; auto. split; auto. intros g Hg'. apply W2. unfold gates in Hg'. apply in_flat_map in Hg' as (x & Hx & Hg').
    unfold registered_names. apply in_or_app. right. apply in_or_app. right. apply in_or_app. left. apply in_flat_map. exists (snd x). split; [apply in_map; auto|]. destruct (cb_cap (snd x)); [|destruct Hg']. destruct Hg' as [<-|[]]. left. auto.
Qed.
Definition L78ok := [B 0 1 "Ca"; B 0 1 "Cb"; B 1 2 "L1"; B 0 2 "Cc"].
Lemma L78ok_regular : regular (grun cg_new L78ok) /\ no_capacitor_loop (c_graph (grun cg_new L78ok)) /\ unnumbered (grun cg_new L78ok) "C" "".
Proof.
  assert (E : element_names (grun cg_new L78ok) = ["Ca"; "Cb"; "L1"; "Cc"]) by (vm_compute; reflexivity).
  assert (N : forall i, exists d r, number_str i = String d r /\ In d ["0"; "1"; "2"; "3"; "4"; "5"; "6"; "7"; "8"; "9"]%char).
  { intros i. unfold number_str, dec, NilZero.string_of_uint. destruct (N.to_uint (N.of_nat i)); [exists "0"%char, ""; split; cbn; auto 20|..]; cbn; eauto 20. }
  split; [|split].
  - apply (history_regular L78ok []); [discriminate|vops|other|constructor| | vacc|vm_compute; auto|].
    + repeat (apply Forall_cons; [repeat (apply Forall_cons; [repeat split; discriminate|]); apply Forall_nil|]); apply Forall_nil.
    + rewrite app_nil_r. intros c i j Hc _ _ ->. rewrite E in Hc. destruct (N i) as (d & r & Ei & Hd), (N j) as (d' & r' & Ej & Hd'). rewrite Ei, Ej in Hc.
      clear E. cbn [append In] in Hc. destruct Hc as [Hc|[Hc|[Hc|[Hc|[]]]]]; try discriminate Hc. injection Hc as _ Hc. destruct r; discriminate Hc.
  - intros b Hb. assert (Eb : branches_of "C" (c_graph (grun cg_new L78ok)) = [((0, 1, 0), "Ca"); ((0, 1, 1), "Cb"); ((0, 2, 0), "Cc")]) by (vm_compute; reflexivity).
    rewrite Eb in Hb. destruct Hb as [<-|[<-|[<-|[]]]]; discriminate.
  - intros c i j Hc _ _ ->. rewrite E in Hc. destruct (N i) as (d & r & Ei & Hd), (N j) as (d' & r' & Ej & Hd'). rewrite Ei, Ej in Hc.
    clear E. cbn [append In] in Hc. destruct Hc as [Hc|[Hc|[Hc|[Hc|[]]]]]; try discriminate Hc; injection Hc as _ Hc; destruct r; discriminate Hc.
Qed.
Lemma move_conserves y a b x : system y -> In a (ss_edges y) -> In b (ss_edges y) -> dget (ss_flux y) a = Some x -> x <> [] -> dget (ss_flux y) b = Some [] ->
  exists y', moveFluxBias y a b = (y', Ok tt) /\ Permutation (bias_terms y) (bias_terms y').
Proof.
  intros H Ha Hb Hx Hn Hz. destruct (move_ok y a b x (system_inv y H) Ha Hb Hx Hn) as (y' & H1 & _ & _ & _ & H4). specialize (H4 [] Hz). exists y'. split; auto. destruct (eqb a b); rewrite app_nil_r in H4; auto.
Qed.
Lemma mutual_raises ord oracle s edges e b : circuit s -> c_wc s = Some edges -> In 0 (g_nodes (c_graph s)) -> has_resonators s = false ->
  (forall e, In e (dkeys (c_fbias s)) -> In e edges) -> (forall c, In c (registered_names s) -> c <> "" /\ has_space c = false) ->
  (forall b, In b (dvals (c_fbias s)) -> has_space (fb_suffix b) = false) -> (forall b, In b (dvals (c_cbias s)) -> has_space (cb_suffix b) = false) ->
  dget (c_fbias s) e = Some b -> fb_mutual b <> None -> inductor_at s e -> new_system ord oracle s = Some (Err TypeError).
Proof. intros Hc Hw. rewrite (wcs_wc s (circuit_derived s Hc)) in Hw. apply Some_inj in Hw. subst edges. apply mutual_fails; auto. Qed.
