(** Invariants of the CircuitGraph object over histories of calls. *)
From Coq Require Import List Bool String Ascii Arith Permutation Lia.
From Verif Require Import Prelude PreludeFacts Graph GraphSpec GraphView GraphForest GraphWf GraphGround GraphCircuit GraphLoops.
Import ListNotations.
Open Scope string_scope.
Open Scope list_scope.
Open Scope nat_scope.

Definition valid_name (c : string) : bool := match c with String p _ => existsb (Ascii.eqb p) ["C"%char; "L"%char; "I"%char; "V"%char] | EmptyString => false end.

(** what addBranch does to the graph *)
Definition added (s : cg) (a b : nat) (c : string) : mgraph := fst (add_edge (c_graph s) a b c).
Lemma update_graph_same o s : c_graph (fst (update_graphs o s)) = c_graph s /\ c_map (fst (update_graphs o s)) = c_map s /\
  c_cbias (fst (update_graphs o s)) = c_cbias s /\ c_fbias (fst (update_graphs o s)) = c_fbias s /\ c_res (fst (update_graphs o s)) = c_res s /\ c_coupled (fst (update_graphs o s)) = c_coupled s.
Proof. unfold update_graphs. destruct (get_grounds _ _ _) as [vg [[]|e]]; [destruct (get_loops vg) as [l r]|]; cbn; auto 10. Qed.

Lemma prefix_cases p : existsb (Ascii.eqb p) ["C"%char; "L"%char; "I"%char; "V"%char; "M"%char] = true -> Ascii.eqb p "M" = false ->
  existsb (Ascii.eqb p) ["C"%char; "L"%char; "I"%char; "V"%char] = true.
Proof. cbn. intros H E. rewrite E in H. cbn in H. rewrite !orb_false_r in *. auto. Qed.

(** addBranch, case by case *)
Lemma addBranch_cases o s a b c :
  (valid_name c = false /\ exists e, addBranch o s a b c = (s, Err e)) \/
  (valid_name c = true /\ has_duplicates (dvals (edge_map (added s a b c))) = true /\
     addBranch o s a b c = (set_graph s (added s a b c) (edge_map (added s a b c)), Err ValueError)) \/
  (valid_name c = true /\ has_duplicates (dvals (edge_map (added s a b c))) = false /\
     addBranch o s a b c =
       match update_graphs o (set_graph s (added s a b c) (both_ways (edge_map (added s a b c)))) with
       | (s1, Err e) => (s1, Err e)
       | (s1, Ok _) => (set_res s1 (ensure_res (ensure_res (c_res s1) a) b), Ok tt)
       end).
Proof.
  unfold addBranch. destruct c as [|p c]; [left; split; eauto|].
  destruct (Ascii.eqb p "M") eqn:EM.
  { left. apply Ascii.eqb_eq in EM. subst. split; eauto. }
  destruct (existsb (Ascii.eqb p) ["C"%char; "L"%char; "I"%char; "V"%char; "M"%char]) eqn:EP.
  - right. assert (Hv := prefix_cases _ EP EM). change (valid_name (String p c) = true) in Hv. cbn [negb].
    fold (added s a b (String p c)). destruct (has_duplicates _) eqn:ED; [left|right]; auto.
  - left. cbn [negb]. split; eauto. cbn in *. destruct (Ascii.eqb p "C"), (Ascii.eqb p "L"), (Ascii.eqb p "I"), (Ascii.eqb p "V"); auto; discriminate.
Qed.

Definition other_only (s s' : cg) : Prop :=
  c_graph s' = c_graph s /\ c_map s' = c_map s /\ c_vg s' = c_vg s /\ c_tree s' = c_tree s /\ c_wc s' = c_wc s /\
  c_closures s' = c_closures s /\ c_loops s' = c_loops s /\ c_loop_closures s' = c_loop_closures s.
Lemma other_refl s : other_only s s.
Proof. repeat split. Qed.
Lemma gstep_other s o : is_branch o = false -> other_only s (fst (gstep s o)).
Proof.
  destruct o as [oo a b c|i1 i2 m|n c| |c sfx m|n sfx c]; intros H; try discriminate; cbn.
  - unfold coupleBranches. destruct m as [|ch m]; [apply other_refl|]. cbv zeta. lazymatch goal with |- other_only _ (fst (match ?x with Ok _ => _ | Err _ => _ end)) => destruct x end; [repeat split|apply other_refl].
  - unfold coupleResonator. destruct (negb _); [apply other_refl|]. destruct (Nat.eqb _ _); [apply other_refl|].
    destruct (dget _ _) as [[r|]|]; try apply other_refl. destruct c as [|ch c]; [apply other_refl|].
    destruct (negb _); [apply other_refl|]. destruct (mem _ _); [apply other_refl|repeat split].
  - repeat split.
  - unfold addFluxBias. destruct (bind _ _) as [[e b]|e]; [repeat split|apply other_refl].
  - unfold addChargeBias. cbv zeta. lazymatch goal with |- other_only _ (fst (match ?x with Ok _ => _ | Err _ => _ end)) => destruct x end; [repeat split|apply other_refl].
Qed.

Definition names_ok (g : mgraph) : Prop := forall b, In b (g_edges g) -> valid_name (snd b) = true.
Lemma reachable_wf s : reachable s -> wfg (c_graph s) /\ names_ok (c_graph s).
Proof.
  induction 1 as [|s o Hr [IH1 IH2] Ho].
  - split; [apply wfg_new|intros b []].
  - destruct (is_branch o) eqn:E.
    + destruct o as [oo a b c| | | | |]; try discriminate. cbn.
      destruct (addBranch_cases oo s a b c) as [(_ & e & ->)|[(Hv & _ & ->)|(Hv & _ & Heq)]]; [auto| |].
      * split; [apply wfg_add; auto|]. intros x Hx. cbn in Hx. apply in_app_or in Hx as [Hx|[<-|[]]]; auto.
      * assert (Eg : c_graph (fst (addBranch oo s a b c)) = added s a b c).
        { rewrite Heq. destruct (update_graph_same oo (set_graph s (added s a b c) (both_ways (edge_map (added s a b c))))) as [Hu _].
          destruct (update_graphs _ _) as [s1 [[]|e]]; cbn in *; auto. }
        rewrite Eg. split; [apply wfg_add; auto|]. intros x Hx. cbn in Hx. apply in_app_or in Hx as [Hx|[<-|[]]]; auto.
    + destruct (gstep_other s o E) as [-> _]. auto.
Qed.
Lemma circuit_reachable s : circuit s -> reachable s.
Proof.
  induction 1 as [s o a b c s' Hr Ho E|s o Hc IH Hb].
  - assert (Hq := reach_step s (GBranch o a b c) Hr Ho). cbn in Hq. rewrite E in Hq. auto.
  - apply reach_step; auto. destruct o; cbn; auto; discriminate.
Qed.

Record Derived (s : cg) : Prop := {
  d_wf : wfg (c_graph s);
  d_valid : names_ok (c_graph s);
  d_names : NoDup (map snd (g_edges (c_graph s)));
  d_map : c_map s = both_ways (edge_map (c_graph s));
  d_vg : exists o, valid_orders o /\ Forall2 (fun c x => new_entry o (g_nodes (c_graph s)) (eview (g_nodes (c_graph s)) (conductive (c_graph s))) c x)
           (component_list (g_nodes (c_graph s)) (conductive (c_graph s))) (c_vg s);
  d_tree : c_tree s = spanning_tree (g_nodes (c_graph s)) (c_vg s);
  d_wc : c_wc s = Some (sc_circuit (g_nodes (c_graph s)) (c_tree s) (c_vg s));
  d_clos : c_closures s = closure_branches (c_vg s);
  d_loops : exists l, get_loops (c_vg s) = (l, Ok tt) /\ c_loops s = Some (l_loops l) /\ c_loop_closures s = l_clos l
}.
Lemma dedup_length {K} `{EqB K} (l : list K) : (List.length (dedup l) =? List.length l) = true -> NoDup l.
Proof.
  rewrite Nat.eqb_eq. induction l as [|x l IH]; intros E; [constructor|].
  assert (Hle : forall (l : list K), List.length (dedup l) <= List.length l).
  { clear. induction l as [|x l IH]; cbn; auto. 
    assert (Hf : forall (P : K -> bool) l, List.length (filter P l) <= List.length l) by (clear; induction l as [|y l IH]; cbn; auto; destruct (P y); cbn; lia).
    specialize (Hf (fun y => negb (eqb x y)) (dedup l)). lia. }
  cbn in E. 
  assert (Hf : forall (P : K -> bool) l, List.length (filter P l) <= List.length l) by (clear; induction l as [|y l IH]; cbn; auto; destruct (P y); cbn; lia).
  assert (H1 := Hf (fun y => negb (eqb x y)) (dedup l)). assert (H2 := Hle l).
  assert (E2 : List.length (dedup l) = List.length l) by lia. constructor; auto.
  intros Hi. apply dedup_In in Hi.
  assert (E3 : List.length (filter (fun y => negb (eqb x y)) (dedup l)) = List.length (dedup l)) by lia.
  clear -Hi E3. induction (dedup l) as [|y m IH]; [easy|]. cbn in E3.
  assert (Hf : forall (P : K -> bool) l, List.length (filter P l) <= List.length l) by (clear; induction l as [|y l IH]; cbn; auto; destruct (P y); cbn; lia).
  specialize (Hf (fun y => negb (eqb x y)) m).
  destruct (eqb x y) eqn:E; cbn in E3; [lia|]. destruct Hi as [->|Hi].
  - rewrite eqb_refl in E. discriminate.
  - apply IH; auto.
Qed.
Lemma NoDup_dedup {K} `{EqB K} (l : list K) : NoDup l -> dedup l = l.
Proof.
  induction 1; cbn; auto. rewrite IHNoDup. f_equal. apply filter_all. intros y Hy. apply negb_true_iff, eqb_neq. congruence.
Qed.
Lemma has_duplicates_spec l : has_duplicates l = false <-> NoDup l.
Proof.
  unfold has_duplicates. rewrite negb_false_iff. split; [apply dedup_length|].
  intros H. rewrite NoDup_dedup by auto. apply Nat.eqb_refl.
Qed.

Lemma derived_branch o s a b c s' : wfg (c_graph s) -> names_ok (c_graph s) -> valid_orders o ->
  addBranch o s a b c = (s', Ok tt) -> Derived s' /\ c_graph s' = added s a b c /\ valid_name c = true /\
    c_cbias s' = c_cbias s /\ c_fbias s' = c_fbias s /\ c_coupled s' = c_coupled s /\ c_res s' = ensure_res (ensure_res (c_res s) a) b.
Proof.
  intros Hw Hv Ho H.
  destruct (addBranch_cases o s a b c) as [(_ & e & E)|[(_ & _ & E)|(Hc & Hd & E)]]; try (rewrite E in H; discriminate).
  rewrite E in H. clear E.
  assert (Hw' : wfg (added s a b c)) by (apply wfg_add; auto).
  assert (Hv' : names_ok (added s a b c)) by (intros x Hx; apply in_app_or in Hx as [Hx|[<-|[]]]; auto).
  remember (added s a b c) as g eqn:Eg. clear Eg. set (s0 := set_graph s g (both_ways (edge_map g))) in *.
  unfold update_graphs in H. change (c_graph s0) with g in H.
  destruct (get_grounds o (g_nodes g) (conductive g)) as [vg [[]|e]] eqn:EG; [|discriminate].
  destruct (get_loops vg) as [l [[]|e]] eqn:EL; [|discriminate].
  injection H as <-. split; [|cbn; auto 10]. split; cbn; auto.
  - apply has_duplicates_spec in Hd. eapply Permutation_NoDup; [apply (edge_map_vals g); auto|auto].
  - exists o. split; auto. apply get_grounds_spec; auto.
    + apply Hw'.
    + intros e. apply conductive_ends; auto.
    + apply conductive_norm; auto.
  - exists l. auto.
Qed.
Lemma derived_other s s' : other_only s s' -> Derived s -> Derived s'.
Proof.
  intros (E1 & E2 & E3 & E4 & E5 & E6 & E7 & E8) [H1 H2 H3 H4 H5 H6 H7 H8 H9].
  split; rewrite ?E1, ?E2, ?E3, ?E4, ?E5, ?E6, ?E7, ?E8; auto.
Qed.
Lemma circuit_derived s : circuit s -> Derived s.
Proof.
  induction 1 as [s o a b c s' Hr Ho E|s o Hc IH Hb].
  - destruct (reachable_wf s Hr). apply (derived_branch o s a b c); auto.
  - eapply derived_other; [apply gstep_other; auto|auto].
Qed.

(** Consequences *)
Section Consequences.
  Variable s : cg.
  Hypothesis HD : Derived s.
  Let g := c_graph s.
  Let ns := g_nodes g.
  Let ce := conductive g.
  Let Hwf : wfg g := d_wf s HD.
  Lemma Hns : NoDup ns. Proof. apply Hwf. Qed.
  Lemma Hce : forall e, In e ce -> In (src e) ns /\ In (dst e) ns. Proof. intros e. apply conductive_ends; auto. Qed.
  Lemma Hnorm : NoDup (map norm ce). Proof. apply conductive_norm; auto. Qed.
  Lemma Hvg : Forall2 (GE (eview ns ce)) (component_list ns ce) (c_vg s).
  Proof.
    destruct (d_vg s HD) as (o & _ & H). fold g in H. fold ns in H. fold ce in H.
    revert H. generalize (component_list ns ce) (c_vg s). induction 1 as [|c x cs xs H Hr IH]; constructor; auto. apply H.
  Qed.
  Lemma tree_perm : Permutation (c_tree s) (trees (c_vg s)).
  Proof. rewrite (d_tree s HD). eapply spanning_tree_perm; [apply Hns|apply Hce|apply Hvg]. Qed.
  Lemma tree_acyclic : acyclic (c_tree s).
  Proof.
    apply forest_acyclic. eapply forest_perm; [symmetry; apply tree_perm|]. eapply trees_forest; [apply Hns|apply Hce|apply Hvg].
  Qed.
  Lemma tree_conn x y : conn (c_tree s) x y <-> conn (noncap g) x y.
  Proof.
    rewrite <- (conn_normperm _ _ x y (conductive_perm g Hwf)). fold ce.
    rewrite <- (trees_conn ns ce (c_vg s) Hns Hce Hnorm Hvg x y).
    split; apply conn_mono; intros e; apply Permutation_in; [|symmetry]; apply tree_perm.
  Qed.
  Lemma tree_clos_split : Permutation (map norm (c_tree s ++ c_closures s)) (map norm (filter (keepb (noncap g)) (noncap g))).
  Proof.
    rewrite map_app. rewrite (Permutation_map norm tree_perm). rewrite <- map_app. rewrite (d_clos s HD).
    rewrite (split_all ns ce (c_vg s) Hns Hce Hnorm Hvg).
    assert (Hp := conductive_perm g Hwf). fold ce in Hp.
    assert (E : forall E, map norm (filter (keepb E) E) = filter (keepb E) (map norm E)).
    { intros E. rewrite filter_map_swap. f_equal. apply filter_ext. intros e. apply keepb_norm; auto. symmetry. apply norm_norm. }
    rewrite !E. rewrite (filter_ext (keepb ce) (keepb (noncap g))) by (intros e; apply keepb_norm; auto).
    apply Permutation_filter; auto.
  Qed.
  Lemma tree_ends e : In e (c_tree s) -> In (src e) ns /\ In (dst e) ns.
  Proof.
    intros He. eapply Permutation_in in He; [|apply tree_perm]. eapply trees_labels in He; [|apply Hvg].
    eapply labels_ends; [apply Hce|eauto].
  Qed.
  Lemma count R : parts (noncap g) ns R ->
    List.length (c_closures s) + List.length ns = List.length (filter (keepb (noncap g)) (noncap g)) + List.length R.
  Proof.
    intros HR. assert (Hp : parts (c_tree s) ns R).
    { destruct HR as (H1 & H2 & H3 & H4). split; auto. split; auto. split.
      - intros x Hx. destruct (H3 x Hx) as (r & Hr & Hc). exists r. split; auto. apply tree_conn; auto.
      - intros r r' Hr Hr' Hc. apply H4; auto. apply tree_conn; auto. }
    assert (Hf := forest_count (c_tree s) ns (proj2 (forest_acyclic _) tree_acyclic) Hns tree_ends R Hp).
    assert (Hl := Permutation_length tree_clos_split). rewrite !map_length, app_length in Hl. lia.
  Qed.
  Lemma loops_exist : exists l ts, c_loops s = Some (l_loops l) /\ c_loop_closures s = l_clos l /\ Loops (c_tree s) ts l /\
     ts = triples (c_vg s) /\ map snd ts = c_closures s.
  Proof.
    destruct (d_loops s HD) as (l & H1 & H2 & H3). exists l, (triples (c_vg s)). split; auto. split; auto.
    split; [|split; auto].
    - rewrite get_loops_triples in H1. apply loops_fold; auto. intros t f Ht Hf. apply triples_In in Ht as (x & Hx & _ & _ & E).
      eapply Permutation_in; [symmetry; apply tree_perm|]. apply in_flat_map. exists x. split; auto. rewrite <- E. auto.
    - rewrite (d_clos s HD). apply triples_closures.
  Qed.
  Lemma wc_perm : exists wc, c_wc s = Some wc /\ Permutation wc (c_tree s ++ c_closures s).
  Proof.
    eexists. split; [apply (d_wc s HD)|].
    assert (H := sc_circuit_perm ns ce (c_vg s) Hns Hce Hvg). unfold ns, g in H. rewrite <- (d_tree s HD) in H.
    eapply Permutation_trans; [exact H|]. rewrite (d_clos s HD). apply Permutation_app_tail. symmetry. apply tree_perm.
  Qed.
  Lemma split_norm_nodup : NoDup (map norm (c_tree s ++ c_closures s)).
  Proof.
    eapply Permutation_NoDup; [symmetry; apply tree_clos_split|]. apply NoDup_map_filter.
    eapply Permutation_NoDup; [apply conductive_perm; auto|]. apply Hnorm.
  Qed.
End Consequences.
