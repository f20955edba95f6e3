(** The constructor of a circuit with resonators: an example. *)
From Coq Require Import List Bool String Ascii Arith ZArith NArith Reals Permutation Lia Lra.
From Verif Require Import Prelude PreludeFacts Param Expr ExprProofs Coll CollLast CollProofs CollSpec Mat MatFacts Graph GraphSpec GraphMaps GraphProofs Symbolic SymbolicSpec SymbolicInit SymbolicProofs Sweep Reson ResonSpec ResonEx ResonInit ResonInitSpec.
Import ListNotations.
Open Scope string_scope.
Open Scope list_scope.
Open Scope nat_scope.

(** A junction with a capacitor and an inductor, a flux bias, a charge bias and
    a resonator. *)
Definition LW : list gop := [B 0 1 "C1"; B 0 1 "I1"; B 0 1 "L1"; GFlux "L1" (PStr "e") None; GCharge 1 (PStr "g") None; GRes 1 "Cc"].
Definition sW : cg := grun cg_new LW.
Definition eW : cg := fst (fst (extended (fun _ => sorto) sW stR)).
Definition stW : cst tree_alg := snd (fst (extended (fun _ => sorto) sW stR)).
Lemma LW_circuit : circuit sW.
Proof. apply (circuit_more [B 0 1 "C1"; B 0 1 "I1"; B 0 1 "L1"] [GFlux "L1" (PStr "e") None; GCharge 1 (PStr "g") None; GRes 1 "Cc"]); [last_branch [B 0 1 "C1"; B 0 1 "I1"] 0 1 "L1"|other]. Qed.
Lemma LW_ground : In 0 (g_nodes (c_graph sW)). Proof. vm_compute. auto. Qed.
Lemma LW_extended : extended (fun _ => sorto) sW stR = ((eW, stW), Ok tt). Proof. vm_compute. reflexivity. Qed.
Lemma LW_res : has_resonators sW = true /\ coupled_resonators sW = [(1, rR)]. Proof. split; vm_compute; reflexivity. Qed.
Lemma LW_names : registered_names sW = ["C1"; "I1"; "L1"]. Proof. vm_compute. reflexivity. Qed.
Lemma LW_bias : c_coupled sW = [] /\ dvals (c_fbias sW) = [mkfb None "e"] /\ dvals (c_cbias sW) = [mkcb None "g"] /\ dkeys (c_fbias sW) = [(1, 0, 2)]. Proof. repeat split; vm_compute; reflexivity. Qed.
Lemma LW_edges : In (1, 0, 2) (wcs sW) /\ In (1, 0, 2) (wcs eW). Proof. split; vm_compute; auto. Qed.
Lemma LW_elements : element_names eW = ["C1"; "I1"; "L1"; "Cc"; "C1r"; "L1r"] /\ List.length (g_nodes (c_graph eW)) = 3 /\ sys_nodes eW = [1; 2]. Proof. repeat split; vm_compute; reflexivity. Qed.
Lemma LW_unnumbered : unnumbered eW "L" "i" /\ unnumbered eW "C" "" /\ unnumbered eW "C" "i".
Proof.
  destruct LW_elements as (E & N & _). repeat split; intros c i j Hc Hij Hj; rewrite N in Hj; rewrite E in Hc; assert (i = 0 \/ i = 1) by lia; assert (j = 0 \/ j = 1) by lia;
    destruct H as [-> | ->], H0 as [-> | ->]; cbn in Hc; intuition (subst c; discriminate).
Qed.
(** sympy for this example: the inverse of a 2 x 2 matrix by cofactors. Square
    roots are not in the language of expressions: their arguments are taken. *)
Definition ent (t : option tree) : tree := match t with Some t => t | None => TNum 0 end.
Definition det2 (M : tmat) : tree := TAdd (TMul (ent (M 0 0)) (ent (M 1 1))) (TMul (TNum (-1)) (TMul (ent (M 0 1)) (ent (M 1 0)))).
Definition inv2 (M : tmat) (i j : nat) : option tree :=
  Some (TMul (TInv (det2 M)) (match i, j with 0, 0 => ent (M 1 1) | 0, _ => TMul (TNum (-1)) (ent (M 0 1)) | _, 0 => TMul (TNum (-1)) (ent (M 1 0)) | _, _ => ent (M 0 0) end)).
Definition XW : sympy := mksy noor (fun n M => if Nat.eqb n 2 then Ok (inv2 M) else Err PlainException)
  (fun f z => TInv (TMul (TSym f) (TSym z))) (fun f z => TMul (TSym z) (TInv (TSym f))) (fun a b l => TMul a l) (fun a b l => TMul a (TInv l)) (fun a b l => TMul b (TMul l (TInv a))).
Lemma rval_ent v t : rval v (ent t) = entry_val v t. Proof. destruct t; reflexivity. Qed.
Lemma In_TAdd x a b : In x (tfree (TAdd a b)) <-> In x (tfree a) \/ In x (tfree b). Proof. cbn. apply In_dd. Qed.
Lemma In_TMul x a b : In x (tfree (TMul a b)) <-> In x (tfree a) \/ In x (tfree b). Proof. cbn. apply In_dd. Qed.
Lemma In_ent x t : In x (tfree (ent t)) -> exists u, t = Some u /\ In x (tfree u). Proof. destruct t as [u|]; [|easy]. cbn. eauto. Qed.
Lemma XW_ok : sympy_ok XW 2.
Proof.
  split; cbn [sy_C sy_L sy_f sy_Z sy_g sy_inv XW].
  - intros f z x H. change (In x (tfree (TMul (TSym f) (TSym z)))) in H. rewrite In_TMul in H. cbn in H. intuition congruence.
  - intros f z x H. rewrite In_TMul in H. cbn in H. intuition congruence.
  - intros a b l x H. rewrite In_TMul in H. tauto.
  - intros a b l x H. rewrite In_TMul in H. cbn [tfree] in H. tauto.
  - intros a b l x H. rewrite !In_TMul in H. cbn [tfree] in H. tauto.
  - intros M K [= <-]. split.
    + intros i j t x Hi Hj [= <-] Hx. rewrite In_TMul in Hx.
      assert (A : (exists k l u, k < 2 /\ l < 2 /\ M k l = Some u /\ In x (tfree u)) \/ False); [|destruct A as [A|[]]; exact A]. left.
      assert (P : forall k l, k < 2 -> l < 2 -> In x (tfree (ent (M k l))) -> exists k l u, k < 2 /\ l < 2 /\ M k l = Some u /\ In x (tfree u)) by (intros k l Hk Hl H; apply In_ent in H as (u & Hu & H); exists k, l, u; auto).
      destruct Hx as [Hx|Hx].
      * change (In x (tfree (det2 M))) in Hx. unfold det2 in Hx. rewrite In_TAdd, !In_TMul in Hx. destruct Hx as [[H|H]|[[]|[H|H]]]; (eapply P; [| |exact H]; lia).
      * destruct i as [|[|i]], j as [|[|j]]; try lia; rewrite ?In_TMul in Hx; try (destruct Hx as [[]|Hx]); (eapply P; [| |exact Hx]; lia).
    + intros v W HW i j Hi Hj. set (m := fun i j => entry_val v (M i j)) in HW.
      assert (Q : forall i j, i < 2 -> j < 2 -> (m i 0%nat * W 0%nat j + m i 1%nat * W 1%nat j = if Nat.eqb i j then 1 else 0)%R /\ (W i 0%nat * m 0%nat j + W i 1%nat * m 1%nat j = if Nat.eqb i j then 1 else 0)%R).
      { intros a b Ha Hb. destruct (HW a b Ha Hb) as [H1 H2]. unfold mmul, mid, delta in H1, H2. cbn [sumn] in H1, H2. cbn in H1, H2. destruct (Nat.eqb a b); split; lra. }
      destruct (Q 0 0) as [Q1 _]; try lia. destruct (Q 0 1) as [Q2 _]; try lia. destruct (Q 1 0) as [Q3 _]; try lia. destruct (Q 1 1) as [Q4 _]; try lia. cbn [Nat.eqb] in Q1, Q2, Q3, Q4.
      set (D := (m 0%nat 0%nat * m 1%nat 1%nat - m 0%nat 1%nat * m 1%nat 0%nat)%R).
      assert (D1 : (D * (W 0%nat 0%nat * W 1%nat 1%nat - W 0%nat 1%nat * W 1%nat 0%nat) = 1)%R).
      { transitivity ((m 0%nat 0%nat * W 0%nat 0%nat + m 0%nat 1%nat * W 1%nat 0%nat) * (m 1%nat 0%nat * W 0%nat 1%nat + m 1%nat 1%nat * W 1%nat 1%nat) - (m 0%nat 0%nat * W 0%nat 1%nat + m 0%nat 1%nat * W 1%nat 1%nat) * (m 1%nat 0%nat * W 0%nat 0%nat + m 1%nat 1%nat * W 1%nat 0%nat))%R; [unfold D; ring|]. rewrite Q1, Q2, Q3, Q4. ring. }
      assert (D0 : D <> 0%R) by (intros E; rewrite E in D1; lra).
      unfold inv2. cbn [entry_val rval]. unfold det2. cbn [rval]. rewrite !rval_ent. change (entry_val v (M 0 0)) with (m 0%nat 0%nat). change (entry_val v (M 0 1)) with (m 0%nat 1%nat). change (entry_val v (M 1 0)) with (m 1%nat 0%nat). change (entry_val v (M 1 1)) with (m 1%nat 1%nat).
      replace (m 0%nat 0%nat * m 1%nat 1%nat + -1 * (m 0%nat 1%nat * m 1%nat 0%nat))%R with D by (unfold D; ring). apply (Rmult_eq_reg_l D); [|exact D0]. rewrite <- Rmult_assoc, Rinv_r, Rmult_1_l by exact D0.
      destruct i as [|[|i]], j as [|[|j]]; try lia; cbn [rval]; rewrite ?rval_ent; repeat match goal with |- context[entry_val v (M ?a ?b)] => change (entry_val v (M a b)) with (m a b) end; unfold D.
      * transitivity (m 1%nat 1%nat * (m 0%nat 0%nat * W 0%nat 0%nat + m 0%nat 1%nat * W 1%nat 0%nat) - m 0%nat 1%nat * (m 1%nat 0%nat * W 0%nat 0%nat + m 1%nat 1%nat * W 1%nat 0%nat))%R; [rewrite Q1, Q3; ring|ring].
      * transitivity (m 1%nat 1%nat * (m 0%nat 0%nat * W 0%nat 1%nat + m 0%nat 1%nat * W 1%nat 1%nat) - m 0%nat 1%nat * (m 1%nat 0%nat * W 0%nat 1%nat + m 1%nat 1%nat * W 1%nat 1%nat))%R; [rewrite Q2, Q4; ring|ring].
      * transitivity (m 0%nat 0%nat * (m 1%nat 0%nat * W 0%nat 0%nat + m 1%nat 1%nat * W 1%nat 0%nat) - m 1%nat 0%nat * (m 0%nat 0%nat * W 0%nat 0%nat + m 0%nat 1%nat * W 1%nat 0%nat))%R; [rewrite Q1, Q3; ring|ring].
      * transitivity (m 0%nat 0%nat * (m 1%nat 0%nat * W 0%nat 1%nat + m 1%nat 1%nat * W 1%nat 1%nat) - m 1%nat 0%nat * (m 0%nat 0%nat * W 0%nat 1%nat + m 0%nat 1%nat * W 1%nat 1%nat))%R; [rewrite Q2, Q4; ring|ring].
Qed.
Definition MW : tmat := match new_system idord noor eW with Some (Ok y) => match snd (getCapacitanceMatrix idord y) with Ok M => M | Err _ => fun _ _ => None end | _ => fun _ _ => None end.
Lemma LW_indices : coupled_indices sW eW = Ok [(1, (0, 1))]. Proof. vm_compute. reflexivity. Qed.
Lemma LW_two : (2 <=? List.length (tfree (ent (inv2 MW 1 1)))) && (2 <=? List.length (tfree (ent (inv2 MW 0 1)))) = true. Proof. vm_compute. reflexivity. Qed.
Lemma LW_found d : coupled_indices sW eW = Ok d -> inverse_found idord XW eW d.
Proof.
  rewrite LW_indices. intros [= <-] y y' M Hy HM. assert (EM : M = MW) by (unfold MW; cbn [sy_pinv XW] in Hy; rewrite Hy, HM; reflexivity). exists (inv2 M). rewrite (proj2 (proj2 LW_elements)). split; [reflexivity|].
  intros n i j [E|[]]. injection E as <- <- <-. eexists _, _. split; [reflexivity|]. assert (T := LW_two). apply andb_true_iff in T as [T1 T2]. apply Nat.leb_le in T1, T2. rewrite EM. split; [exact T1|]. split; [reflexivity|exact T2].
Qed.
(** Its values where the result is computed. *)
Lemma LW_new : exists y, new_full idord XW 50 (fun _ => sorto) sW = Ok y /\ stored y "C1r" (sy_C XW "f_{1r}" "Z_{1r}").
Proof.
  assert (E : match new_full idord XW 50 (fun _ => sorto) sW with Ok y => match dget (c_par (ss_par y)) "C1r" with Some (t, _) => Some t | None => None end | Err _ => None end = Some (sy_C XW "f_{1r}" "Z_{1r}")) by (vm_compute; reflexivity).
  destruct (new_full idord XW 50 (fun _ => sorto) sW) as [y|]; [|discriminate]. exists y. split; [reflexivity|]. unfold stored. destruct (dget (c_par (ss_par y)) "C1r") as [[t ns]|]; [|discriminate]. injection E as ->. eauto.
Qed.
