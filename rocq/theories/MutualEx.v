(** Witnesses and counterexamples for C89. *)
From Coq Require Import List Bool String Ascii Arith ZArith Reals Lra Lia.
From Verif Require Import Prelude PreludeFacts Mat MatFacts Graph GraphSpec GraphView GraphForest GraphWf GraphCircuit GraphState GraphMaps GraphOps GraphProofs Symbolic SymbolicSpec RSum SymbolicInv SymbolicCap SymbolicCap2 SymbolicFlux SymbolicNew SymbolicProofs MutualSpec MutualProofs.
Import ListNotations.
Open Scope string_scope.
Open Scope list_scope.
Open Scope nat_scope.

Definition Lm : list gop := Lsq ++ [GCouple "L1" "L2" "M1"].
Lemma Lm_circuit : circuit (grun cg_new Lm).
Proof. apply (circuit_more Lsq [GCouple "L1" "L2" "M1"]); [exact Lsq_circuit|other]. Qed.
Definition em : list edge := [(0, 1, 0); (1, 2, 0); (2, 1, 1)].
Definition Mm : imat := fun i j => match i, j with 0, 0 => Some "L1" | 1, 1 => Some "L2" | 0, 1 => Some "M1" | 1, 0 => Some "M1" | _, _ => None end.
Lemma Lm_facts : c_wc (grun cg_new Lm) = Some em /\ c_coupled (grun cg_new Lm) = [("M1", ((0, 1, 0), (1, 2, 0)))] /\ sys_nodes (grun cg_new Lm) = [1; 2] /\
  branches_of "L" (c_graph (grun cg_new Lm)) = [((0, 1, 0), "L1"); ((1, 2, 0), "L2")].
Proof. vm_compute. auto. Qed.
Lemma Lm_self : no_self_coupling (grun cg_new Lm).
Proof. destruct Lm_facts as (_ & E & _). intros m p q. rewrite E. intros [H|[]]. injection H as <- <- <-. discriminate. Qed.
Lemma Lm_matrix : exists M, inductance_matrix (grun cg_new Lm) em = Ok M /\ forall i j, i < 3 -> j < 3 -> M i j = Mm i j.
Proof.
  eexists. split; [vm_compute; reflexivity|]. intros i j Hi Hj.
  destruct i as [|[|[|i]]]; try (exfalso; lia); destruct j as [|[|[|j]]]; try (exfalso; lia); reflexivity.
Qed.
(** L1 = L2 = 2, M1 = 1 and both currents 1. *)
Definition vm (c : string) : R := if String.eqb c "M1" then 1%R else 2%R.
Definition Pm (i j : nat) : R := match i, j with 0, 0 => 2 / 3 | 1, 1 => 2 / 3 | 0, 1 => - (1 / 3) | 1, 0 => - (1 / 3) | _, _ => 0 end%R.
Definition xm (n : nat) : R := match n with 1 => -3 | 2 => -6 | _ => 0 end%R.
Lemma Lm_penrose M : (forall i j, i < 3 -> j < 3 -> M i j = Mm i j) -> penrose 3 (imat_val vm M) Pm.
Proof.
  intros H. assert (HA : forall i j, i < 3 -> j < 3 -> imat_val vm M i j = match i, j with 0, 0 => 2 | 1, 1 => 2 | 0, 1 => 1 | 1, 0 => 1 | _, _ => 0 end%R).
  { intros i j Hi Hj. unfold imat_val. rewrite H by auto. destruct i as [|[|i]]; destruct j as [|[|j]]; reflexivity. }
  intros i j Hi Hj. unfold mmul. cbn [sumn]. rewrite ?HA by lia. unfold Pm.
  destruct i as [|[|[|i]]]; try (exfalso; lia); destruct j as [|[|[|j]]]; try (exfalso; lia); cbn; repeat split; lra.
Qed.
Lemma Lm_flux e : In e em -> holds_inductor (grun cg_new Lm) e -> (xm (src e) - xm (dst e) = flux_of vm (grun cg_new Lm) (fun _ => 1) e)%R.
Proof.
  destruct Lm_facts as (_ & E & _ & EL). intros He HL. unfold flux_of, inductance_at. rewrite E, EL.
  destruct He as [<-|[<-|[<-|[]]]]; [unfold Rsum, vm; cbn; lra|unfold Rsum, vm; cbn; lra|exfalso].
  destruct HL as (c & Hc & HL). apply (map_get _ (circuit_derived _ Lm_circuit)) in Hc.
  assert (E' : dget (c_map (grun cg_new Lm)) (2, 1, 1) = Some "I1") by (vm_compute; reflexivity). rewrite E' in Hc. injection Hc as <-. discriminate HL.
Qed.
Lemma Lm_magnetic : magnetic vm (grun cg_new Lm) em (fun _ => 1%R) = 6%R.
Proof. destruct Lm_facts as (_ & E & _ & EL). unfold magnetic, inductance_at. rewrite E, EL. unfold Rsum, vm. cbn. lra. Qed.

(** An inductor coupled to itself. *)
Definition Lself2 : list gop := Lsq ++ [GCouple "L1" "L1" "M1"].
Lemma C89_self : exists s edges M val, circuit s /\ accepted cg_new Lself2 /\ s = grun cg_new Lself2 /\ c_wc s = Some edges /\ inductance_matrix s edges = Ok M /\
  nth 0 edges noedge = (0, 1, 0) /\ imat_val val M 0 0 <> inductance_at val (c_graph s) (0, 1, 0).
Proof.
  exists (grun cg_new Lself2), em. eexists. exists vm. split; [apply (circuit_more Lsq [GCouple "L1" "L1" "M1"]); [exact Lsq_circuit|other]|]. split; [vacc|]. split; auto. split; [vm_compute; reflexivity|]. split; [vm_compute; reflexivity|]. split; auto.
  assert (EL : branches_of "L" (c_graph (grun cg_new Lself2)) = [((0, 1, 0), "L1"); ((1, 2, 0), "L2")]) by (vm_compute; reflexivity).
  unfold inductance_at. rewrite EL. unfold Rsum, imat_val, vm, put_at. cbn. lra.
Qed.
(** A branch added after the coupling. *)
Lemma C89_stale : exists s edges, circuit s /\ s = grun cg_new (Lm ++ [B 0 2 "L3"]) /\ accepted cg_new (Lm ++ [B 0 2 "L3"]) /\ c_wc s = Some edges /\ inductance_matrix s edges = Err ValueError.
Proof.
  exists (grun cg_new (Lm ++ [B 0 2 "L3"])). eexists. split; [last_branch Lm 0 2 "L3"|]. split; auto. split; [vacc|]. split; vm_compute; reflexivity.
Qed.
(** A mutual inductance to the bias line. *)
Lemma C89_bias : exists s edges, circuit s /\ s = grun cg_new (Lsq ++ [GFlux "L2" (PStr "a") (Some "M1")]) /\ accepted cg_new (Lsq ++ [GFlux "L2" (PStr "a") (Some "M1")]) /\
  c_wc s = Some edges /\ inductance_matrix s edges = Err TypeError.
Proof.
  exists (grun cg_new (Lsq ++ [GFlux "L2" (PStr "a") (Some "M1")])). eexists. split; [apply (circuit_more Lsq [GFlux "L2" (PStr "a") (Some "M1")]); [exact Lsq_circuit|other]|]. split; auto. split; [vacc|]. split; vm_compute; reflexivity.
Qed.

(** Statements over the branch list of a circuit. *)
Section Statements.
  Variables (s : cg) (edges : list edge).
  Hypothesis Hc : circuit s.
  Hypothesis He : c_wc s = Some edges.
  Lemma edges_wcs : edges = wcs s.
  Proof. assert (H := wcs_wc s (circuit_derived s Hc)). congruence. Qed.
End Statements.
Lemma mutual_symmetric s edges M i j : circuit s -> c_wc s = Some edges -> inductance_matrix s edges = Ok M -> i < List.length edges -> j < List.length edges -> M i j = M j i.
Proof. intros Hc He. rewrite (edges_wcs s edges Hc He). intros HM. apply (matrix_sym s M Hc HM). Qed.
Lemma mutual_values s edges M val i j : circuit s -> c_wc s = Some edges -> no_self_coupling s -> inductance_matrix s edges = Ok M -> i < List.length edges -> j < List.length edges ->
  imat_val val M i j = if Nat.eqb i j then inductance_at val (c_graph s) (nth i edges (0, 0, 0)) else mutual val s (nth i edges (0, 0, 0)) (nth j edges (0, 0, 0)).
Proof. intros Hc He. rewrite (edges_wcs s edges Hc He). intros Hs HM. apply (matrix_values s M Hc HM val Hs). Qed.
Lemma mutual_energy s edges M val P I x : circuit s -> c_wc s = Some edges -> no_self_coupling s -> inductance_matrix s edges = Ok M ->
  penrose (List.length edges) (imat_val val M) P -> x 0 = 0%R -> (forall e, In e edges -> holds_inductor s e -> (x (src e) - x (dst e) = flux_of val s I e)%R) ->
  form (sys_nodes s) (inverse_inductance (sys_nodes s) edges P) x x = magnetic val s edges I.
Proof. intros Hc He. rewrite (edges_wcs s edges Hc He). intros Hs HM. apply (energy_form s M val Hc HM Hs I P x). Qed.
Lemma mutual_defined_exact s edges : circuit s -> c_wc s = Some edges ->
  ((exists M, inductance_matrix s edges = Ok M) <->
   (forall e b m, In e edges -> holds_inductor s e -> dget (c_fbias s) e = Some b -> fb_mutual b <> Some m) /\
   (forall m p q, In (m, (p, q)) (c_coupled s) -> In p edges /\ In q edges)).
Proof.
  intros Hc He. rewrite (edges_wcs s edges Hc He), (ind_defined_iff s Hc). split; intros [H1 H2]; (split; [|exact H2]).
  - intros e b m Hin (c & C & L) Hb Hm. eapply H1; eauto.
  - intros e b m c Hin C L Hb Hm. eapply H1; eauto. exists c. auto.
Qed.
Lemma mutual_defined s l edges : circuit s -> c_coupled s = [] -> no_lone_selfloop (noncap (c_graph s)) -> Forall (fun o => is_branch o = false) l -> c_wc (grun s l) = Some edges ->
  (forall e b, dget (c_fbias (grun s l)) e = Some b -> fb_mutual b = None) -> exists M, inductance_matrix (grun s l) edges = Ok M.
Proof.
  intros Hc H0 Hl Ho He Hb. assert (Hc' : circuit (grun s l)).
  { clear - Hc Ho. revert s Hc. induction l as [|o l IH]; intros s Hc; auto. apply Forall_cons_iff in Ho as [H1 H2]. cbn [grun fold_left]. apply IH; auto. apply circ_other; auto. }
  apply (mutual_defined_exact _ _ Hc' He). split.
  - intros e b m _ _ Hb'. rewrite (Hb e b Hb'). discriminate.
  - rewrite (edges_wcs _ edges Hc' He). apply current_run; auto. intros m p q. rewrite H0. easy.
Qed.
