(** Circuits with resonators: examples and counterexamples. *)
From Coq Require Import List Bool String Ascii Arith ZArith NArith Reals Permutation Lia Lra Sorted.
From Coq Require Mergesort.
From Verif Require Import Prelude PreludeFacts Param Expr Coll CollProofs CollSpec CollLast Mat MatFacts Graph GraphSpec GraphView GraphWf GraphProofs Symbolic SymbolicSpec RSum SymbolicInv SymbolicCap SymbolicFlux SymbolicProofs SymbolicParam SymbolicInit Sweep Reson ResonSpec ResonProofs ResonBuild.
Import ListNotations.
Open Scope string_scope.
Open Scope list_scope.
Open Scope nat_scope.

(** Iteration in increasing order, as CPython does for sets of small integers. *)
Definition sorto : orders := mko Mergesort.NatSort.sort (fun l => l).
Lemma sorto_valid : valid_orders sorto.
Proof. split; intros l; cbn; [apply Permutation_sym, Mergesort.NatSort.Permuted_sort|auto]. Qed.
Lemma sorted_unique (l : list nat) : forall l', StronglySorted le l -> StronglySorted le l' -> Permutation l l' -> l = l'.
Proof.
  induction l as [|x l IH]; intros l' H1 H2 P; [apply Permutation_nil in P; auto|]. destruct l' as [|y l']; [apply Permutation_sym, Permutation_nil in P; discriminate|].
  apply StronglySorted_inv in H1 as [S1 F1], H2 as [S2 F2]. rewrite Forall_forall in F1, F2.
  assert (E : x = y).
  { assert (A : In x (y :: l')) by (apply (Permutation_in _ P); left; auto). assert (B : In y (x :: l)) by (apply (Permutation_in _ (Permutation_sym P)); left; auto).
    destruct A as [|A]; auto. destruct B as [|B]; auto. apply F2 in A. apply F1 in B. lia. }
  subst y. f_equal. apply IH; auto. apply (Permutation_cons_inv P).
Qed.
Lemma sorted_filter (f : nat -> bool) l : StronglySorted le l -> StronglySorted le (filter f l).
Proof.
  induction 1 as [|x l H IH F]; cbn; [constructor|]. destruct (f x); auto. constructor; auto. rewrite Forall_forall in *. intros y Hy. apply filter_In in Hy as [Hy _]. auto.
Qed.
Lemma sorto_in_order ns : NoDup ns -> StronglySorted le ns -> in_order sorto ns.
Proof.
  intros Hn Hs c Hc Hi. apply sorted_unique.
  - cbn [o_nodes sorto]. assert (H : StronglySorted (fun x y => is_true (x <=? y)) (Mergesort.NatSort.sort c)).
    { apply Mergesort.NatSort.StronglySorted_sort. intros a b d. unfold is_true. rewrite !Nat.leb_le. lia. }
    clear -H. induction H as [|x l H IH F]; constructor; auto. rewrite Forall_forall in *. intros y Hy. apply F in Hy. apply Nat.leb_le. exact Hy.
  - apply sorted_filter. auto.
  - apply Permutation_trans with c; [cbn; apply Permutation_sym, Mergesort.NatSort.Permuted_sort|]. apply NoDup_Permutation; auto.
    + apply NoDup_filter; auto.
    + intros x. rewrite filter_In, mem_In. split; [auto|tauto].
Qed.

(** A junction shunted by a capacitor, with a resonator. *)
Definition LR : list gop := [B 0 1 "C1"; B 0 1 "I1"; GRes 1 "Cc"].
Definition sR : cg := grun cg_new LR.
Definition stR : cst tree_alg := mkcst [] [] [] [] [].
Definition eR : cg := fst (fst (extended (fun _ => sorto) sR stR)).
Definition stR' : cst tree_alg := snd (fst (extended (fun _ => sorto) sR stR)).
Lemma LR_circuit : circuit sR.
Proof. apply (circuit_more [B 0 1 "C1"; B 0 1 "I1"] [GRes 1 "Cc"]); [last_branch [B 0 1 "C1"] 0 1 "I1"|other]. Qed.
Lemma LR_ground : In 0 (g_nodes (c_graph sR)).
Proof. vm_compute. auto. Qed.
Lemma LR_extended : extended (fun _ => sorto) sR stR = ((eR, stR'), Ok tt).
Proof. vm_compute. reflexivity. Qed.
Definition one (_ : string) : R := 1%R.
Definition MeR : mat := match capacitance_matrix eR with Ok M => M | Err _ => fun _ _ => [] end.
Definition edgesR : list edge := match c_wc eR with Some l => l | None => [] end.
Definition MLR : imat := match inductance_matrix eR edgesR with Ok M => M | Err _ => fun _ _ => None end.
Definition rR : resonator := mkres "Cc" "f1r" "Z1r" "C1r" "L1r" "g1r" "f1rl" "Z1rl".
Lemma LR_resonators : coupled_resonators sR = [(1, rR)].
Proof. vm_compute. reflexivity. Qed.
Lemma LR_nodes : sys_nodes sR = [1] /\ sys_nodes eR = [1; 2].
Proof. split; vm_compute; reflexivity. Qed.
Lemma LR_cap : capacitance_matrix eR = Ok MeR.
Proof. unfold MeR. destruct (capacitance_matrix eR) eqn:E; auto. exfalso. revert E. vm_compute. discriminate. Qed.
Definition sR_M : mat := match capacitance_matrix sR with Ok M => M | Err _ => fun _ _ => [] end.
Lemma sR_cap : capacitance_matrix sR = Ok sR_M.
Proof. unfold sR_M. destruct (capacitance_matrix sR) eqn:E; auto. exfalso. revert E. vm_compute. discriminate. Qed.
Definition KR (i j : nat) : R := if Nat.eqb i j then (2 / 3)%R else (1 / 3)%R.
Lemma LR_entries : MeR 0 0 = [(TmC "C1", 1%Z); (TmC "Cc", 1%Z)] /\ MeR 0 1 = [(TmC "Cc", (-1)%Z)] /\ MeR 1 0 = [(TmC "Cc", (-1)%Z)] /\ MeR 1 1 = [(TmC "Cc", 1%Z); (TmC "C1r", 1%Z)].
Proof. repeat split; vm_compute; reflexivity. Qed.
Lemma LR_inverse : inverse (List.length (sys_nodes eR)) (fun i j => lval one (MeR i j)) KR.
Proof.
  rewrite (proj2 LR_nodes). cbn [List.length]. destruct LR_entries as (E1 & E2 & E3 & E4).
  intros [|[|i]] [|[|j]] Hi Hj; try lia;
  unfold mmul; cbn [sumn]; rewrite ?E1, ?E2, ?E3, ?E4; unfold lval, tval, one, KR; unfold mid, delta; cbn; split; lra.
Qed.
Lemma LR_ind : c_wc eR = Some edgesR /\ inductance_matrix eR edgesR = Ok MLR /\ edgesR = [(0, 1, 1); (0, 2, 1)].
Proof.
  split; [|split].
  - vm_compute. reflexivity.
  - unfold MLR. destruct (inductance_matrix eR edgesR) eqn:E; auto. exfalso. revert E. vm_compute. discriminate.
  - vm_compute. reflexivity.
Qed.
Definition PR (i j : nat) : R := if Nat.eqb i 1 && Nat.eqb j 1 then 1%R else 0%R.
Lemma LR_penrose : penrose (List.length edgesR) (imat_val one MLR) PR.
Proof.
  rewrite (proj2 (proj2 LR_ind)). cbn [List.length].
  assert (E : MLR 0 0 = None /\ MLR 0 1 = None /\ MLR 1 0 = None /\ MLR 1 1 = Some "L1r") by (repeat split; vm_compute; reflexivity). destruct E as (E1 & E2 & E3 & E4).
  intros [|[|i]] [|[|j]] Hi Hj; try lia;
  unfold mmul, imat_val; cbn [sumn]; rewrite ?E1, ?E2, ?E3, ?E4; unfold one, PR; cbn; repeat split; lra.
Qed.
Lemma LR_positive : positive_caps one sR /\ no_capacitor_loop (c_graph sR) /\ c_coupled sR = [].
Proof.
  split; [|split].
  - unfold one. split; [intros; lra|]. split; intros; [lra|]. split; lra.
  - intros b Hb. assert (E : branches_of "C" (c_graph sR) = [((0, 1, 0), "C1")]) by (vm_compute; reflexivity). rewrite E in Hb. destruct Hb as [<-|[]]. cbn. discriminate.
  - vm_compute. reflexivity.
Qed.
Lemma LR_indices : coupled_indices sR eR = Ok [(1, (0, 1))].
Proof. vm_compute. reflexivity. Qed.
Lemma LR_design : (one "C1r" = design_C (/ (2 * PI)) 1 /\ one "L1r" = design_L (/ (2 * PI)) 1)%R.
Proof. unfold one, design_C, design_L. assert (H := PI_RGT_0). split; field; lra. Qed.
Lemma LR_ok : (forall k : nat, valid_orders sorto) /\ (forall k : nat, in_order sorto (g_nodes (c_graph sR) ++ seq (S (list_max (sys_nodes sR))) (List.length (coupled_resonators sR)))) /\
  rooted (g_nodes (c_graph sR)) (noncap (c_graph sR)) /\ NoDup (component_names (c_graph sR) ++ flat_map (fun x => res_names (snd x)) (coupled_resonators sR)).
Proof.
  split; [intros; apply sorto_valid|]. assert (E : g_nodes (c_graph sR) = [0; 1] /\ noncap (c_graph sR) = [(0, 1, 1)] /\ component_names (c_graph sR) = ["C1"; "I1"]) by (repeat split; vm_compute; reflexivity).
  destruct E as (E1 & E2 & E3). rewrite E1, E2, E3, (proj1 LR_nodes), LR_resonators. split; [|split].
  - intros k. apply sorto_in_order; cbn; [repeat constructor; cbn; intuition lia|]. repeat constructor; lia.
  - intros v u Hv Hb Hne Hc. exists (0, 1, 1). destruct Hv as [<-|[<-|[]]].
    + exfalso. clear -Hb Hne. destruct Hb as (l1 & l2 & E & Hb). destruct l1 as [|x l1]; [injection E as <- <-; auto|]. injection E as <- E. assert (H : In 0 [1]) by (rewrite E; apply in_or_app; right; exact Hb). destruct H as [H|[]]. discriminate.
    + exists 0. split; [left; auto|]. split; [exists [], [1]; cbn; auto|]. split; [lia|]. left. auto.
  - repeat constructor; cbn; intuition discriminate.
Qed.

(** Circuits built only from accepted calls on which the constructor raises. *)
Definition two : list gop := [B 1 0 "C1"; B 1 0 "I1"; B 2 0 "C2"; B 2 0 "I2"].
Lemma two_circuit l : Forall (fun o => is_branch o = false) l -> circuit (grun cg_new (two ++ l)).
Proof. intros H. apply circuit_more; auto. last_branch [B 1 0 "C1"; B 1 0 "I1"; B 2 0 "C2"] 2 0 "I2". Qed.
Definition raising (l : list gop) : Prop := accepted cg_new l /\ circuit (grun cg_new l) /\ In 0 (g_nodes (c_graph (grun cg_new l))) /\ NoDup (component_names (c_graph (grun cg_new l))) /\
  init_resonators idord noor (fun _ => ido) (grun cg_new l) = Some ValueError.
Ltac raises tac := split; [vacc|]; split; [tac|]; split; [vacc|]; split; [|vm_compute; reflexivity];
  match goal with |- NoDup ?l => let l' := eval vm_compute in l in change (NoDup l') end; repeat constructor; cbn; intuition discriminate.
Definition same_coupling : list gop := two ++ [GRes 1 "Cc"; GRes 2 "Cc"].
Lemma C88_same_coupling : raising same_coupling.
Proof. raises ltac:(apply two_circuit; other). Qed.
Definition taken_name : list gop := [B 1 0 "C1r"; B 1 0 "I1"; GRes 1 "Cc"].
Lemma C88_taken_name : raising taken_name.
Proof. raises ltac:(apply (circuit_more [B 1 0 "C1r"; B 1 0 "I1"] [GRes 1 "Cc"]); [last_branch [B 1 0 "C1r"] 1 0 "I1"|other]). Qed.
Definition taken_coupling : list gop := two ++ [GRes 1 "Cc"; GRes 2 "C1r"].
Lemma C88_taken_coupling : raising taken_coupling.
Proof. raises ltac:(apply two_circuit; other). Qed.
