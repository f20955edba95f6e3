(** Further invariants of a CircuitGraph used by SymbolicSystem. *)
From Coq Require Import List Bool String Ascii Arith Permutation Lia.
From Verif Require Import Prelude PreludeFacts Graph GraphSpec GraphView GraphForest GraphWf GraphGround GraphCircuit GraphLoops GraphState GraphRooted GraphMaps GraphOps.
Import ListNotations.
Open Scope string_scope.
Open Scope list_scope.
Open Scope nat_scope.

Record Inv2 (s : cg) : Prop := {
  j_cb : forall n, In n (dkeys (c_cbias s)) -> In n (g_nodes (c_graph s));
  j_rk : NoDup (dkeys (c_res s));
  j_gate : forall b c, In b (dvals (c_cbias s)) -> cb_cap b = Some c -> starts "C" c = true
}.
Lemma ensure_res_NoDup d n : NoDup (dkeys d) -> NoDup (dkeys (ensure_res d n)).
Proof. unfold ensure_res. destruct (dmem d n); auto. apply NoDup_dset. Qed.
Lemma remove_res_NoDup l : forall d : dict nat (option resonator), NoDup (dkeys d) -> NoDup (dkeys (fold_left (fun d n => dset d n None) l d)).
Proof. induction l as [|n l IH]; intros d Hd; cbn [fold_left]; auto. apply IH, NoDup_dset; auto. Qed.
Lemma charge_node s n sfx c s' : addChargeBias s n sfx c = (s', Ok tt) -> In n (g_nodes (c_graph s)).
Proof.
  unfold addChargeBias. destruct (mem n (g_nodes (c_graph s))) eqn:E; [intros _; apply mem_In; auto|]. cbn [negb]. discriminate.
Qed.
Lemma dvals_dset {K V} `{EqB K} (d : dict K V) k v x : In x (dvals (dset d k v)) -> x = v \/ In x (dvals d).
Proof.
  induction d as [|[k' v'] d IH]; cbn [dset]; cbn; [intros [->|[]]; auto|]. destruct (eqb k k'); cbn; intros [->|Hx]; auto. apply IH in Hx. tauto.
Qed.
Lemma charge_gate s n sfx c b : addChargeBias s n sfx c = (set_cbias s (dset (c_cbias s) n b), Ok tt) -> forall c', cb_cap b = Some c' -> starts "C" c' = true.
Proof.
  unfold addChargeBias. destruct (negb _); [discriminate|]. destruct sfx as [x|]; [|discriminate]. destruct (8 <? _); [discriminate|].
  match goal with |- context[bind ?q _] => destruct q as [[]|] eqn:Eq end; cbn [bind]; [|discriminate]. destruct (dmem _ _); [discriminate|]. destruct (mem _ _); [discriminate|].
  intros H c' Hc. assert (Hb : dget (c_cbias (set_cbias s (dset (c_cbias s) n (mkcb c x)))) n = dget (c_cbias (set_cbias s (dset (c_cbias s) n b))) n) by congruence.
  cbn [c_cbias set_cbias] in Hb. rewrite !dget_dset_eq in Hb. injection Hb as <-. cbn [cb_cap] in Hc. subst c. destruct c' as [|a r]; [discriminate|]. destruct (negb _) eqn:E; [discriminate|].
  apply negb_false_iff in E. exact E.
Qed.
Lemma gstep_Inv2 s o : Inv2 s -> Inv2 (fst (gstep s o)).
Proof.
  intros [H1 H2 H3]. destruct o as [oo a b c|i1 i2 m|n c| |c sfx m|n sfx c]; cbn [gstep].
  - destruct (branch_keeps oo s a b c) as (E1 & E2 & E3 & E4 & E5). split; [rewrite E2; auto| |rewrite E2; auto].
    destruct (addBranch_cases oo s a b c) as [(_ & e & E)|[(_ & _ & E)|(_ & _ & E)]]; rewrite E; auto.
    destruct (update_graph_same oo (set_graph s (added s a b c) (both_ways (edge_map (added s a b c))))) as (_ & _ & _ & _ & U5 & _).
    destruct (update_graphs _ _) as [s1 [[]|e]]; cbn [fst set_res c_res c_graph set_graph] in *; rewrite U5; auto using ensure_res_NoDup.
  - destruct (couple_result s i1 i2 m) as [(p & -> & Hm & Hs)|(x & ->)]; split; auto.
  - destruct (res_result s n c) as [(r & -> & Hn)|(x & ->)]; [|split; auto]. split; cbn [fst set_res c_res c_cbias c_graph]; auto. apply NoDup_dset; auto.
  - split; cbn [fst removeAllResonators set_res c_res c_cbias c_graph]; auto. apply remove_res_NoDup; auto.
  - destruct (flux_result s c sfx m) as [(e & b & -> & Hd & Hs & _)|(x & ->)]; split; auto.
  - destruct (charge_result s n sfx c) as [(b & E & Hd & Hs)|(x & ->)]; [|split; auto]. assert (Hn := charge_node _ _ _ _ _ E). rewrite E.
    split; cbn [fst set_cbias c_res c_cbias c_graph]; auto.
    + intros m Hm. apply In_dkeys_dset in Hm as [->|Hm]; auto.
    + intros b' c' Hb' Hc'. apply dvals_dset in Hb' as [->|Hb']; [eapply charge_gate; eauto|eauto].
Qed.
Lemma reachable_Inv2 s : reachable s -> Inv2 s.
Proof. induction 1; [split; cbn; try constructor; easy|apply gstep_Inv2; auto]. Qed.

(** After accepted calls every node has an entry in resonators_cap. *)
Definition covered (s : cg) : Prop := forall n, In n (g_nodes (c_graph s)) -> In n (dkeys (c_res s)).
Lemma remove_res_keeps l : forall (d : dict nat (option resonator)) n, In n (dkeys d) -> In n (dkeys (fold_left (fun d n => dset d n None) l d)).
Proof. induction l as [|x l IH]; intros d n Hd; cbn [fold_left]; auto. apply IH. apply In_dkeys_dset. auto. Qed.
Lemma gstep_covered s o : covered s -> snd (gstep s o) = Ok tt -> covered (fst (gstep s o)).
Proof.
  intros H. destruct o as [oo a b c|i1 i2 m|n c| |c sfx m|n sfx c]; cbn [gstep].
  - destruct (addBranch_cases oo s a b c) as [(_ & e & E)|[(_ & _ & E)|(_ & _ & E)]]; rewrite E; try (cbn; discriminate).
    destruct (update_graph_same oo (set_graph s (added s a b c) (both_ways (edge_map (added s a b c))))) as (U1 & _ & _ & _ & U5 & _).
    destruct (update_graphs _ _) as [s1 [[]|e]]; cbn [fst snd set_res c_res c_graph set_graph] in *; [intros _|discriminate].
    intros n. cbn [c_graph c_res set_res]. rewrite U1, U5. cbn [c_graph c_res set_graph]. rewrite !ensure_res_keys. unfold added, add_edge. cbn [fst g_nodes]. rewrite !add_node_In. intuition.
  - destruct (couple_result s i1 i2 m) as [(p & -> & Hm & Hs)|(x & ->)]; auto.
  - destruct (res_result s n c) as [(r & -> & Hn)|(x & ->)]; auto. intros _ k Hk. cbn [fst set_res c_res c_graph] in *. apply In_dkeys_dset. auto.
  - intros _ k Hk. cbn [fst removeAllResonators set_res c_res c_graph] in *. apply remove_res_keeps; auto.
  - destruct (flux_result s c sfx m) as [(e & b & -> & Hd & Hs & _)|(x & ->)]; auto.
  - destruct (charge_result s n sfx c) as [(b & -> & Hd & Hs)|(x & ->)]; auto.
Qed.
Lemma accepted_covered l : forall s, covered s -> accepted s l -> covered (grun s l).
Proof.
  induction l as [|o l IH]; intros s Hs Ha; auto. destruct Ha as [H1 H2]. apply (IH (fst (gstep s o))); auto. apply gstep_covered; auto.
Qed.
