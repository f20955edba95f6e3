(** The property statements of CircuitGraph (C32-C44), and counterexamples. *)
From Coq Require Import List Bool String Ascii Arith Permutation Lia.
From Verif Require Import Prelude PreludeFacts Graph GraphSpec GraphView GraphForest GraphWf GraphGround GraphCircuit GraphLoops GraphState GraphRooted GraphMaps GraphOps.
Import ListNotations.
Open Scope string_scope.
Open Scope list_scope.
Open Scope nat_scope.

Lemma plus_node_add ns n : plus_node ns n = add_node n ns.
Proof.
  unfold plus_node, add_node. replace (existsb (Nat.eqb n) ns) with (mem n ns); reflexivity.
Qed.
Lemma with_branch_added s a b c : with_branch (c_graph s) a b c = added s a b c.
Proof. unfold with_branch, added, add_edge. cbn [fst]. rewrite !plus_node_add, parallel_par. reflexivity. Qed.

Lemma grun_app l s l' : grun s (l ++ l') = grun (grun s l) l'.
Proof. unfold grun. apply fold_left_app. Qed.
Lemma reachable_run l s : reachable s -> Forall valid_op l -> reachable (grun s l).
Proof. revert s. induction l as [|o l IH]; intros s Hs Hl; auto. apply Forall_cons_iff in Hl as [H1 H2]. apply IH; auto. apply reach_step; auto. Qed.
Lemma circuit_run l o a b c : Forall valid_op l -> valid_orders o -> snd (addBranch o (grun cg_new l) a b c) = Ok tt -> circuit (fst (addBranch o (grun cg_new l) a b c)).
Proof.
  intros Hl Ho H. destruct (addBranch o (grun cg_new l) a b c) as [s' r] eqn:E. cbn in *. subst r. eapply circ_branch; eauto. apply reachable_run; auto. constructor.
Qed.

(** C33 *)
Lemma duplicates_forever l : forall s, reachable s -> ~ NoDup (component_names (c_graph s)) -> Forall valid_op l ->
  forall o a b c, exists e, snd (addBranch o (grun s l) a b c) = Err e.
Proof.
  induction l as [|x l IH]; intros s Hr Hd Hl o a b c.
  - destruct (duplicates_block s o a b c Hr Hd) as (e & He & _). eauto.
  - apply Forall_cons_iff in Hl as [H1 H2]. apply (IH (fst (gstep s x))); auto; [apply reach_step; auto|].
    destruct (gstep_grow s x) as ((more & G) & _). unfold component_names in *. rewrite G, map_app. intros Hq. apply Hd. exact (NoDup_prefix _ _ Hq).
Qed.
Lemma duplicate_call s o a b c : reachable s -> branch_name c = true -> In c (component_names (c_graph s)) ->
  exists s', addBranch o s a b c = (s', Err ValueError) /\ c_graph s' = with_branch (c_graph s) a b c /\ ~ NoDup (component_names (c_graph s')).
Proof.
  intros Hr Hb Hi. rewrite branch_valid in Hb. destruct (reachable_wf s Hr) as [Hw Hv]. rewrite with_branch_added.
  assert (Hd : ~ NoDup (component_names (added s a b c))).
  { unfold component_names, added, add_edge. cbn [fst g_edges]. rewrite map_app. cbn [map snd]. intros Hq. apply NoDup_remove_2 in Hq. rewrite app_nil_r in Hq. auto. }
  destruct (addBranch_cases o s a b c) as [(Hq & _)|[(_ & _ & E)|(_ & Hq & _)]]; [congruence| |].
  - eexists. split; [exact E|]. auto.
  - exfalso. apply Hd. apply has_duplicates_spec in Hq. eapply Permutation_NoDup; [apply edge_map_vals|exact Hq]. apply wfg_add; auto.
Qed.

(** C34 *)
Definition letters : list ascii := ["C"%char; "L"%char; "I"%char; "V"%char].
Lemma one_type s e c : circuit s -> carries (c_graph s) e c ->
  exists p, In p letters /\ begins p c /\ forall q, In q letters -> is_type q s e = Ok (Ascii.eqb p q).
Proof.
  intros Hc Hca. assert (HD := circuit_derived s Hc). assert (Hg := proj2 (map_get s HD e c) Hca).
  assert (Hn := carries_name s e c Hca). unfold component_names in Hn. apply in_map_iff in Hn as (b & E & Hb). apply (d_valid s HD) in Hb. rewrite E in Hb.
  destruct c as [|p c]; [discriminate|]. exists p. split.
  - cbn in Hb. unfold letters. cbn. rewrite !orb_true_iff, !Ascii.eqb_eq in Hb. intuition congruence.
  - split; [exists c; auto|]. intros q Hq. unfold is_type. rewrite Hg. reflexivity.
Qed.
Lemma listing s : circuit s -> no_lone_selfloop (noncap (c_graph s)) -> exists L J V,
  getInductiveEdges s = Ok L /\ getJosephsonEdges s = Ok J /\ getPhaseSlipEdges s = Ok V /\
  Permutation (dkeys (getCapacitiveEdges s) ++ dkeys L ++ dkeys J ++ dkeys V) (component_names (c_graph s)) /\
  (forall c e, dget L c = Some e \/ dget J c = Some e \/ dget V c = Some e \/ dget (getCapacitiveEdges s) c = Some e -> carries (c_graph s) e c) /\
  (forall c, In c (dkeys (getCapacitiveEdges s)) -> begins "C" c) /\ (forall c, In c (dkeys L) -> begins "L" c) /\
  (forall c, In c (dkeys J) -> begins "I" c) /\ (forall c, In c (dkeys V) -> begins "V" c).
Proof.
  intros Hc Hl. assert (HD := circuit_derived s Hc).
  exists (filter (fun x => starts "L" (fst x)) (wcd s)), (filter (fun x => starts "I" (fst x)) (wcd s)), (filter (fun x => starts "V" (fst x)) (wcd s)).
  split; [apply (listing_keys s HD)|]. split; [apply (listing_keys s HD)|]. split; [apply (listing_keys s HD)|].
  split; [|split].
  - unfold getCapacitiveEdges. rewrite !(dkeys_filter). apply (listing_partition s HD Hl).
  - assert (Hf : forall P (d : dict string edge) c e, NoDup (dkeys d) -> dget (filter P d) c = Some e -> dget d c = Some e).
    { intros P d c e Hn H. apply dget_In in H. apply filter_In in H as [H _]. apply In_dget; auto. }
    intros c e [H|[H|[H|H]]]; apply Hf in H; try apply (wcd_NoDup s); try (apply (wcd_get s HD) in H; apply H).
    2: apply (by_component_NoDup); constructor.
    apply by_component_spec in H as [H|H]; [|discriminate]. apply (map_get s HD). apply In_dget; auto. apply map_keys; auto.
  - unfold getCapacitiveEdges. rewrite !dkeys_filter. repeat (split; [intros c H; apply filter_In in H as [_ H]; apply starts_begins; auto|]).
    intros c H; apply filter_In in H as [_ H]; apply starts_begins; auto.
Qed.

(** C35 *)
Lemma loops_len s : circuit s -> exists ls, c_loops s = Some ls /\ dkeys ls = seq 0 (List.length (c_closures s)).
Proof.
  intros Hc. assert (HD := circuit_derived s Hc). destruct (loops_exist s HD) as (l & ts & E1 & _ & HL & _ & Hts).
  exists (l_loops l). split; auto. rewrite (lo_keys _ _ _ HL), <- Hts, map_length. auto.
Qed.
Lemma split_partial s : circuit s -> no_lone_selfloop (noncap (c_graph s)) ->
  Permutation (map norm (c_tree s ++ c_closures s)) (map norm (noncap (c_graph s))) /\
  forall R, parts (noncap (c_graph s)) (g_nodes (c_graph s)) R ->
    List.length (c_closures s) + List.length (g_nodes (c_graph s)) = List.length (noncap (c_graph s)) + List.length R.
Proof.
  intros Hc Hl. assert (HD := circuit_derived s Hc). split.
  - rewrite (tree_clos_split s HD), keepb_all; auto.
  - intros R HR. rewrite (count s HD R HR), keepb_all; auto.
Qed.
Lemma split_exact s : circuit s -> forall e,
  In (norm e) (map norm (c_tree s ++ c_closures s)) <->
  In (norm e) (map norm (noncap (c_graph s))) /\ (src e <> dst e \/ exists f, In f (noncap (c_graph s)) /\ src f <> dst f /\ (src f = src e \/ dst f = src e)).
Proof.
  intros Hc e. assert (HD := circuit_derived s Hc).
  assert (Hp := tree_clos_split s HD). set (E := noncap (c_graph s)) in *.
  transitivity (In (norm e) (map norm (filter (keepb E) E))).
  { split; apply Permutation_in; auto. symmetry; auto. }
  assert (Hk : forall f, norm f = norm e -> keepb E f = keepb E e) by (intros f Hf; apply keepb_norm; auto).
  rewrite <- keepb_spec. rewrite !in_map_iff. split.
  - intros (f & Hf & Hi). apply filter_In in Hi as [H1 H2]. rewrite (Hk f Hf) in H2. split; eauto.
  - intros [(f & Hf & Hi) H]. exists f. split; auto. apply filter_In. rewrite (Hk f Hf). auto.
Qed.

(** C36 *)
Lemma NoDup_app_disj' {A} (l l' : list A) x : NoDup (l ++ l') -> In x l -> In x l' -> False.
Proof. induction l as [|y l IH]; [easy|]. cbn [app]. intros H. apply NoDup_cons_iff in H as [H1 H2]. intros [->|Hx] Hx'; auto. apply H1, in_or_app; auto. Qed.
Lemma NoDup_app_r {A} (l l' : list A) : NoDup (l ++ l') -> NoDup l'.
Proof. induction l as [|y l IH]; auto. cbn [app]. intros H. apply NoDup_cons_iff in H as [_ H]. auto. Qed.
Lemma own_branch s : circuit s -> exists ls, c_loops s = Some ls /\
  (forall k, dget (c_loop_closures s) k = nth_error (c_closures s) k) /\
  forall k l, dget ls k = Some l -> exists e body,
    dget (c_loop_closures s) k = Some e /\ l = body ++ [e] /\ (forall f, In f body -> In f (c_tree s)) /\
    (forall f, In f body -> ~ same_branch e f) /\
    forall k' l' f, dget ls k' = Some l' -> k' <> k -> In f l' -> ~ same_branch e f.
Proof.
  intros Hc. assert (HD := circuit_derived s Hc). destruct (loops_exist s HD) as (st & ts & E1 & E2 & HL & _ & Hts).
  assert (Hnd := split_norm_nodup s HD). rewrite map_app in Hnd.
  exists (l_loops st). split; auto. split.
  - intros k. rewrite E2, <- Hts, nth_error_map. destruct (nth_error ts k) as [t|] eqn:Et.
    + destruct (lo_loop _ _ _ HL k t Et) as (b & _ & H & _). auto.
    + apply dget_None. rewrite (lo_ckeys _ _ _ HL), in_seq. apply nth_error_None in Et. lia.
  - assert (Hget : forall k l, dget (l_loops st) k = Some l -> exists t b, nth_error ts k = Some t /\ dget (l_clos st) k = Some (snd t) /\ l = b ++ [snd t] /\ forall f, In f b -> In f (c_tree s)).
    { intros k l Hk. assert (Hq := dget_Some_key _ _ _ Hk). rewrite (lo_keys _ _ _ HL), in_seq in Hq.
      destruct (nth_error ts k) as [t|] eqn:Et; [|apply nth_error_None in Et; lia].
      destruct (lo_loop _ _ _ HL k t Et) as (b & H1 & H2 & H3 & _). exists t, b. split; auto. split; auto. split; [congruence|auto]. }
    intros k l Hk. destruct (Hget k l Hk) as (t & b & Ht & Hcl & -> & Hb).
    assert (Hin : forall k t, nth_error ts k = Some t -> nth_error (map norm (c_closures s)) k = Some (norm (snd t))).
    { intros k0 t0 H. rewrite <- Hts, !nth_error_map, H. auto. }
    assert (Htree : forall f, In f (c_tree s) -> ~ same_branch (snd t) f).
    { intros f Hf Hs. apply norm_eq in Hs. eapply (NoDup_app_disj' _ _ (norm f) Hnd); [apply in_map; auto|].
      rewrite <- Hs. eapply nth_error_In. apply Hin; eauto. }
    exists (snd t), b. rewrite E2. split; auto. split; auto. split; auto. split; auto.
    intros k' l' f Hk' Hne Hf Hs. destruct (Hget k' l' Hk') as (t' & b' & Ht' & _ & -> & Hb').
    apply in_app_or in Hf as [Hf|[<-|[]]]; [apply (Htree f); auto|]. apply norm_eq in Hs.
    apply NoDup_app_r in Hnd. apply Hne. eapply (proj1 (NoDup_nth_error _) Hnd).
    + apply nth_error_Some. rewrite (Hin k' t' Ht'). discriminate.
    + rewrite (Hin k' t' Ht'), (Hin k t Ht). congruence.
Qed.

(** C37, C38 *)
Lemma rooted_success s o a b c : reachable s -> valid_orders o -> NoDup (component_names (c_graph s)) ->
  branch_name c = true -> ~ In c (component_names (c_graph s)) ->
  agrees o (g_nodes (with_branch (c_graph s) a b c)) (noncap (with_branch (c_graph s) a b c)) ->
  rooted (g_nodes (with_branch (c_graph s) a b c)) (noncap (with_branch (c_graph s) a b c)) ->
  exists s', addBranch o s a b c = (s', Ok tt) /\ forall ls k l, c_loops s' = Some ls -> dget ls k = Some l -> closed l.
Proof.
  intros Hr Ho Hn Hb Hi Hag Hroot. destruct (reachable_wf s Hr) as [Hw Hv]. rewrite with_branch_added in *. rewrite branch_valid in Hb.
  destruct (rooted_addBranch o s a b c) as (s' & E); auto.
  { unfold added, add_edge. cbn [fst g_edges]. rewrite map_app. apply NoDup_app_single; auto. }
  exists s'. split; auto. destruct (derived_branch o s a b c s' Hw Hv Ho E) as (_ & Eg & _). rewrite <- Eg in *.
  apply (rooted_loops_closed o s a b c); auto.
Qed.

Record Grown (s : cg) : Prop := {
  gr_reach : reachable s; gr_names : NoDup (component_names (c_graph s));
  gr_conn : connected (g_nodes (c_graph s)) (noncap (c_graph s)); gr_root : rooted (g_nodes (c_graph s)) (noncap (c_graph s));
  gr_closed : forall ls k l, c_loops s = Some ls -> dget ls k = Some l -> closed l
}.
Lemma noncap_with g a b c : noncap (with_branch g a b c) = noncap g ++ (if capacitive c then [] else [(a, b, parallel g a b)]).
Proof.
  unfold noncap, with_branch. cbn [g_edges]. rewrite filter_app, map_app. f_equal. cbn [filter snd]. rewrite <- capacitive_spec.
  destruct (capacitive c); reflexivity.
Qed.
Lemma with_ok s a b c : Grown s -> attaches s a b c ->
  let g := with_branch (c_graph s) a b c in connected (g_nodes g) (noncap g) /\ rooted (g_nodes g) (noncap g).
Proof.
  intros [Hr Hn Hc Hroot _] Ha g. assert (Hw := proj1 (reachable_wf s Hr)). assert (Hnd : NoDup (g_nodes (c_graph s))) by apply Hw.
  set (ns := g_nodes (c_graph s)) in *. set (E := noncap (c_graph s)) in *.
  assert (Hinc : incl E (noncap g)) by (unfold g; rewrite noncap_with; intros e He; apply in_or_app; auto).
  assert (Hc' : connected ns (noncap g)) by (eapply connected_mono; eauto).
  assert (Hr' : rooted ns (noncap g)) by (eapply rooted_mono; eauto).
  unfold g at 1 3. cbn [with_branch g_nodes]. fold ns. rewrite !plus_node_add. unfold add_node.
  assert (Hcap : ~ begins "C" c -> In (a, b, parallel (c_graph s) a b) (noncap g)).
  { intros Hq. unfold g. rewrite noncap_with. apply in_or_app. right. destruct (capacitive c) eqn:Ec; [|left; auto]. exfalso. apply Hq. apply starts_begins. auto. }
  destruct Ha as [[Ha Hb]|[Hcc Ha]]; fold ns in Ha; try fold ns in Hb.
  - assert (Ea : mem a ns = true) by (apply mem_In; auto). assert (Eb : mem b ns = true) by (apply mem_In; auto). rewrite Ea, Eb. auto.
  - specialize (Hcap Hcc). destruct Ha as [Ha|[Ha|Ha]].
    + rewrite Ha. replace (mem a []) with false by reflexivity. cbn [app].
      assert (H1 : connected [a] (noncap g)) by (intros x y [<-|[]] [<-|[]]; constructor).
      assert (H2 : rooted [a] (noncap g)).
      { intros v u [<-|[]] Hb Hne. apply before_In in Hb as [[<-|[]] _]. congruence. }
      destruct (mem b [a]) eqn:Eb; auto. apply mem_nIn in Eb. eapply (grow_node [a]); eauto.
      * repeat constructor; easy.
      * left; reflexivity.
    + assert (Ea : mem a ns = true) by (apply mem_In; auto). rewrite Ea. destruct (mem b ns) eqn:Eb; auto. apply mem_nIn in Eb.
      eapply grow_node; eauto.
    + assert (Eb : mem b ns = true) by (apply mem_In; auto). destruct (mem a ns) eqn:Ea.
      * rewrite Eb; auto.
      * assert (Eb' : mem b (ns ++ [a]) = true) by (apply mem_In, in_or_app; auto). rewrite Eb'. apply mem_nIn in Ea.
        eapply (grow_node ns _ a b); eauto.
Qed.
Lemma grown_ok s o a b c : Grown s -> valid_orders o -> branch_name c = true -> ~ In c (component_names (c_graph s)) -> attaches s a b c ->
  exists s', addBranch o s a b c = (s', Ok tt) /\ Grown s'.
Proof.
  intros HG Ho Hb Hi Ha. destruct (with_ok s a b c HG Ha) as [H1 H2]. assert (Hr := gr_reach s HG). destruct (reachable_wf s Hr) as [Hw Hv].
  assert (Hn2 : NoDup (g_nodes (with_branch (c_graph s) a b c))) by (rewrite with_branch_added; apply wfg_add; auto).
  destruct (rooted_success s o a b c) as (s' & E & Hcl); auto; [apply HG|apply agrees_connected; auto|].
  exists s'. split; auto. destruct (derived_branch o s a b c s' Hw Hv Ho E) as (_ & Eg & _). rewrite <- with_branch_added in Eg.
  split; auto; rewrite ?Eg; auto.
  - assert (Hq := reach_step s (GBranch o a b c) Hr Ho). cbn in Hq. rewrite E in Hq. auto.
  - unfold component_names, with_branch. cbn [g_edges]. rewrite map_app. apply NoDup_app_single; auto. apply HG.
Qed.
Lemma grown_Grown s : grown s -> Grown s.
Proof.
  induction 1 as [|s o a b c H IH Ho Hb Hi Ha|s o H IH Ho].
  - split; cbn; try easy; constructor.
  - destruct (grown_ok s o a b c IH Ho Hb Hi Ha) as (s' & E & HG). rewrite E. auto.
  - assert (Hr : reachable (fst (gstep s o))) by (apply reach_step; [apply IH|destruct o; cbn; auto; discriminate]).
    destruct (gstep_other s o Ho) as (E1 & E2 & E3 & E4 & E5 & E6 & E7 & E8). destruct IH as [G1 G2 G3 G4 G5].
    split; auto; rewrite ?E1, ?E7; auto.
Qed.
Lemma grown_success s o a b c : grown s -> valid_orders o -> branch_name c = true -> ~ In c (component_names (c_graph s)) -> attaches s a b c ->
  snd (addBranch o s a b c) = Ok tt.
Proof. intros HG Ho Hb Hi Ha. destruct (grown_ok s o a b c (grown_Grown s HG) Ho Hb Hi Ha) as (s' & -> & _). auto. Qed.
Lemma grown_closed s : grown s -> forall ls k l, c_loops s = Some ls -> dget ls k = Some l -> closed l.
Proof. intros HG. apply (gr_closed s (grown_Grown s HG)). Qed.

(** C39 *)
Lemma distinct_values {K B} `{EqB K} (f : B -> string) (d : dict K B) : NoDup (dkeys d) -> NoDup (map f (dvals d)) ->
  forall k k' b b', dget d k = Some b -> dget d k' = Some b' -> f b = f b' -> k = k'.
Proof.
  unfold dkeys, dvals. intros Hk Hv k k' b b' H1 H2 E. apply dget_In in H1, H2. revert Hk Hv H1 H2.
  induction d as [|[x y] d IH]; [easy|]. cbn [map fst snd]. intros Hk Hv. apply NoDup_cons_iff in Hk as [_ Hk]. apply NoDup_cons_iff in Hv as [Hv1 Hv2].
  intros [H1|H1] [H2|H2]; try congruence; auto.
  - exfalso. apply Hv1. injection H1 as -> ->. rewrite E. apply in_map_iff. exists b'. split; auto. apply in_map_iff. exists (k', b'). auto.
  - exfalso. apply Hv1. injection H2 as -> ->. rewrite <- E. apply in_map_iff. exists b. split; auto. apply in_map_iff. exists (k, b). auto.
Qed.
Lemma flux_suffixes s : reachable s -> forall e e' b b', dget (c_fbias s) e = Some b -> dget (c_fbias s) e' = Some b' -> fb_suffix b = fb_suffix b' -> e = e'.
Proof. intros Hr. assert (HI := reachable_Inv s Hr). apply distinct_values; apply HI. Qed.
Lemma charge_suffixes s : reachable s -> forall e e' b b', dget (c_cbias s) e = Some b -> dget (c_cbias s) e' = Some b' -> cb_suffix b = cb_suffix b' -> e = e'.
Proof. intros Hr. assert (HI := reachable_Inv s Hr). apply distinct_values; apply HI. Qed.

(** C41 *)
Lemma flux_survives s comp suffix m l : circuit s -> snd (addFluxBias s comp suffix m) = Ok tt ->
  let s' := grun (fst (addFluxBias s comp suffix m)) l in
  exists e sfx, suffix = PStr sfx /\ dget (c_fbias s') e = Some (mkfb m sfx) /\ carries (c_graph s') e comp.
Proof.
  intros Hc H. assert (HD := circuit_derived s Hc). assert (HI := reachable_Inv s (circuit_reachable s Hc)).
  destruct (flux_spec s comp suffix m HD HI) as [H1 H2]. destruct (H2 H) as (e & sfx & Ha). rewrite (H1 e sfx Ha). cbn [fst]. cbv zeta.
  destruct Ha as (Hca & _ & -> & _ & _ & Hno & _). exists e, sfx. split; auto.
  destruct (grun_grow l (set_fbias s (c_fbias s ++ [(e, mkfb m sfx)]))) as (G1 & G2 & _). split.
  - apply G2. cbn. rewrite <- dset_new by (apply dget_None; auto). apply dget_dset_eq.
  - apply G1. auto.
Qed.
Lemma couple_survives s i1 i2 m l : circuit s -> snd (coupleBranches s i1 i2 m) = Ok tt ->
  let s' := grun (fst (coupleBranches s i1 i2 m)) l in
  exists e1 e2, dget (c_coupled s') m = Some (e1, e2) /\ carries (c_graph s') e1 i1 /\ carries (c_graph s') e2 i2.
Proof.
  intros Hc H. assert (HD := circuit_derived s Hc). assert (HI := reachable_Inv s (circuit_reachable s Hc)).
  destruct (couple_spec s i1 i2 m HD HI) as [H1 H2]. destruct (H2 H) as (e1 & e2 & Ha). rewrite (H1 e1 e2 Ha). cbn [fst]. cbv zeta.
  destruct Ha as (_ & Hno & _ & _ & _ & C1 & C2 & _). exists e1, e2.
  destruct (grun_grow l (set_coupled s (c_coupled s ++ [(m, (e1, e2))]))) as (G1 & _ & G2). split; [|auto].
  apply G2. cbn. rewrite <- dset_new by (apply dget_None; auto). apply dget_dset_eq.
Qed.

(** C44 *)
Lemma names_partial s : circuit s -> NoDup (component_names (c_graph s) ++ dkeys (c_coupled s)).
Proof.
  intros Hc. assert (HD := circuit_derived s Hc). assert (HI := reachable_Inv s (circuit_reachable s Hc)).
  apply NoDup_app'; [apply HD|apply HI|]. intros x H1 H2. apply (i_mm s HI) in H2. eapply branch_not_M; eauto.
Qed.

(** ** concrete circuits *)
Definition ido : orders := mko (fun l => l) (fun l => l).
Definition rvo : orders := mko (fun l => rev l) (fun l => l).
Lemma ido_valid : valid_orders ido.
Proof. split; intros l; apply Permutation_refl. Qed.
Lemma rvo_valid : valid_orders rvo.
Proof. split; intros l; cbn; [symmetry; apply Permutation_rev|apply Permutation_refl]. Qed.
Definition B (a b : nat) (c : string) : gop := GBranch ido a b c.
Ltac vops := repeat (apply Forall_cons; [first [exact ido_valid | exact I]|]); apply Forall_nil.

Definition L37 := [B 0 1 "C1"; B 2 3 "C2"; B 0 3 "L1"; B 2 3 "L2"; B 2 3 "L3"].
Definition L38 := [B 0 1 "C1"; B 1 2 "C2"; B 2 3 "C3"; B 0 3 "L1"; B 1 3 "L2"; B 1 2 "L3"].
Definition L38b := [B 0 1 "C1"; B 1 2 "C2"; B 2 5 "C3"; B 5 3 "C4"].
Definition Lsq := [B 0 1 "L1"; B 1 2 "L2"; B 1 2 "I1"].
Definition Llone := [B 0 0 "L1"].
(** two SQUID-like loops sharing a branch, plus a capacitor *)
Definition Lnet := [B 0 1 "I1"; B 0 1 "I2"; B 1 2 "L1"; B 0 2 "L2"; B 0 2 "C1"].
Lemma reach l : Forall valid_op l -> reachable (grun cg_new l).
Proof. apply reachable_run. constructor. Qed.
Lemma circuit_last l o a b c : Forall valid_op l -> valid_orders o -> snd (addBranch o (grun cg_new l) a b c) = Ok tt -> circuit (grun cg_new (l ++ [GBranch o a b c])).
Proof. intros H1 H2 H3. rewrite grun_app. cbn [grun fold_left gstep]. apply circuit_run; auto. Qed.
Lemma L37_circuit : circuit (grun cg_new L37).
Proof. refine (circuit_last [B 0 1 "C1"; B 2 3 "C2"; B 0 3 "L1"; B 2 3 "L2"] ido 2 3 "L3" _ ido_valid _); [vops|vm_compute; reflexivity]. Qed.
Lemma L38_circuit : circuit (grun cg_new L38).
Proof. refine (circuit_last [B 0 1 "C1"; B 1 2 "C2"; B 2 3 "C3"; B 0 3 "L1"; B 1 3 "L2"] ido 1 2 "L3" _ ido_valid _); [vops|vm_compute; reflexivity]. Qed.
Lemma L38b_circuit : circuit (grun cg_new L38b).
Proof. refine (circuit_last [B 0 1 "C1"; B 1 2 "C2"; B 2 5 "C3"] ido 5 3 "C4" _ ido_valid _); [vops|vm_compute; reflexivity]. Qed.
Lemma Lsq_circuit : circuit (grun cg_new Lsq).
Proof. refine (circuit_last [B 0 1 "L1"; B 1 2 "L2"] ido 1 2 "I1" _ ido_valid _); [vops|vm_compute; reflexivity]. Qed.
Lemma Llone_circuit : circuit (grun cg_new Llone).
Proof. refine (circuit_last [] ido 0 0 "L1" _ ido_valid _); [vops|vm_compute; reflexivity]. Qed.
Lemma Lnet_circuit : circuit (grun cg_new Lnet).
Proof. refine (circuit_last [B 0 1 "I1"; B 0 1 "I2"; B 1 2 "L1"; B 0 2 "L2"] ido 0 2 "C1" _ ido_valid _); [vops|vm_compute; reflexivity]. Qed.

Ltac inlist := cbn; repeat (first [left; reflexivity | right]).
(** C33 *)
Lemma C33_general s a b c o : circuit s -> valid_orders o -> branch_name c = true -> In c (component_names (c_graph s)) ->
  snd (addBranch o s a b c) = Err ValueError /\ fst (addBranch o s a b c) <> s /\
  forall l, Forall valid_op l -> forall o' a' b' c', exists e, snd (addBranch o' (grun (fst (addBranch o s a b c)) l) a' b' c') = Err e.
Proof.
  intros Hc Ho Hb Hi. assert (Hr := circuit_reachable s Hc).
  destruct (duplicate_call s o a b c Hr Hb Hi) as (s' & E & Eg & Hd).
  assert (Hr' := reach_step s (GBranch o a b c) Hr Ho). cbn [gstep] in Hr'. rewrite E in *. cbn [fst snd] in *. split; auto. split.
  - intros Hq. rewrite Hq in Hd. apply Hd. apply (d_names _ (circuit_derived _ Hc)).
  - intros l Hl. apply (duplicates_forever l s'); auto.
Qed.
Lemma Lsq_name : In "L1" (component_names (c_graph (grun cg_new Lsq))).
Proof. vm_compute. auto. Qed.
Lemma C33_counter : exists s a b c o, circuit s /\ valid_orders o /\ snd (addBranch o s a b c) = Err ValueError /\ fst (addBranch o s a b c) <> s /\
  forall l, Forall valid_op l -> forall o' a' b' c', exists e, snd (addBranch o' (grun (fst (addBranch o s a b c)) l) a' b' c') = Err e.
Proof.
  exists (grun cg_new Lsq), 0, 2, "L1", ido. split; [apply Lsq_circuit|]. split; [apply ido_valid|].
  apply C33_general; [apply Lsq_circuit|apply ido_valid|reflexivity|exact Lsq_name].
Qed.
Lemma carries_fwd g e c : In (e, c) (g_edges g) -> carries g e c.
Proof. intros H. exists (e, c). split; auto. split; auto. left; auto. Qed.
Lemma carries_bwd g a b k c : In ((a, b, k), c) (g_edges g) -> carries g (b, a, k) c.
Proof. intros H. exists ((a, b, k), c). split; auto. split; auto. right; auto. Qed.
(** C34 *)
Lemma C34_counter : exists s e, circuit s /\ carries (c_graph s) e "L1" /\ getComponentEdge s "L1" = Err KeyError /\ getInductiveEdges s = Ok [].
Proof.
  exists (grun cg_new Llone), (0, 0, 0). split; [apply Llone_circuit|]. split; [|split; vm_compute; reflexivity].
  apply carries_fwd. vm_compute; auto.
Qed.
Lemma C35_counter : exists s, circuit s /\ List.length (noncap (c_graph s)) = 1 /\ c_tree s ++ c_closures s = [] /\ parts (noncap (c_graph s)) (g_nodes (c_graph s)) [0] /\
  List.length (c_closures s) + List.length (g_nodes (c_graph s)) <> List.length (noncap (c_graph s)) + List.length [0].
Proof.
  exists (grun cg_new Llone). split; [apply Llone_circuit|]. split; [reflexivity|]. split; [reflexivity|]. split; [|vm_compute; lia].
  replace (g_nodes (c_graph (grun cg_new Llone))) with [0] by reflexivity.
  split; [repeat constructor; easy|]. split; auto. split.
  - intros x Hx. exists 0. split; [left; auto|]. destruct Hx as [<-|[]]. constructor.
  - intros r r' [<-|[]] [<-|[]] _. auto.
Qed.
Lemma C37_counter : exists s ls k l, circuit s /\ c_loops s = Some ls /\ dget ls k = Some l /\ ~ closed l.
Proof.
  exists (grun cg_new L37), [(0, [(0, 3, 0); (3, 2, 2)])], 0, [(0, 3, 0); (3, 2, 2)]. split; [apply L37_circuit|].
  split; [vm_compute; reflexivity|]. split; [reflexivity|]. intros H. specialize (H 0). discriminate.
Qed.
Lemma C38_counter : exists s a b c o, circuit s /\ valid_orders o /\ branch_name c = true /\ ~ In c (component_names (c_graph s)) /\ a <> b /\
  snd (addBranch o s a b c) = Err UnboundLocalError.
Proof.
  exists (grun cg_new L38), 1, 2, "L4", ido. split; [apply L38_circuit|]. split; [apply ido_valid|]. split; [reflexivity|].
  split; [vm_compute; intuition discriminate|]. split; [lia|vm_compute; reflexivity].
Qed.
Lemma C38_counter_key : exists s a b c o, circuit s /\ valid_orders o /\ branch_name c = true /\ ~ In c (component_names (c_graph s)) /\ a <> b /\
  snd (addBranch o s a b c) = Err KeyError.
Proof.
  exists (grun cg_new L38b), 5, 3, "L1", rvo. split; [apply L38b_circuit|]. split; [apply rvo_valid|]. split; [reflexivity|].
  split; [vm_compute; intuition discriminate|]. split; [lia|vm_compute; reflexivity].
Qed.
(** C39: after the circuit has grown, the same branch is biased again *)
Definition Lgrow := [B 0 1 "L1"; B 1 2 "L2"; B 1 2 "I1"; GFlux "L2" (PStr "a") None; B 0 2 "L3"].
Lemma Lgrow_circuit : circuit (grun cg_new Lgrow).
Proof. refine (circuit_last [B 0 1 "L1"; B 1 2 "L2"; B 1 2 "I1"; GFlux "L2" (PStr "a") None] ido 0 2 "L3" _ ido_valid _); [vops|vm_compute; reflexivity]. Qed.
Lemma C39_counter : exists s comp sfx e e', circuit s /\ carries (c_graph s) e comp /\ carries (c_graph s) e' comp /\
  dget (c_fbias s) e <> None /\ snd (addFluxBias s comp (PStr sfx) None) = Ok tt /\
  e <> e' /\ dget (c_fbias (fst (addFluxBias s comp (PStr sfx) None))) e <> None /\ dget (c_fbias (fst (addFluxBias s comp (PStr sfx) None))) e' <> None.
Proof.
  exists (grun cg_new Lgrow), "L2", "b", (1, 2, 0), (2, 1, 0). split; [apply Lgrow_circuit|].
  assert (Hin : In ((1, 2, 0), "L2") (g_edges (c_graph (grun cg_new Lgrow)))) by (vm_compute; auto).
  split; [exact (carries_fwd _ _ _ Hin)|]. split; [exact (carries_bwd _ 1 2 0 _ Hin)|].
  split; [vm_compute; discriminate|]. split; [vm_compute; reflexivity|]. split; [discriminate|]. split; vm_compute; discriminate.
Qed.
Lemma C41_counter : exists s o a b c e, circuit s /\ snd (addFluxBias s "L2" (PStr "a") None) = Ok tt /\ valid_orders o /\
  snd (addBranch o (fst (addFluxBias s "L2" (PStr "a") None)) a b c) = Ok tt /\
  getComponentEdge (fst (addBranch o (fst (addFluxBias s "L2" (PStr "a") None)) a b c)) "L2" = Ok e /\
  dget (c_fbias (fst (addBranch o (fst (addFluxBias s "L2" (PStr "a") None)) a b c))) e = None.
Proof.
  exists (grun cg_new Lsq), ido, 0, 2, "L3", (2, 1, 0). split; [apply Lsq_circuit|]. split; [vm_compute; reflexivity|]. split; [apply ido_valid|].
  split; [vm_compute; reflexivity|]. split; vm_compute; reflexivity.
Qed.
Lemma C42_counter_self : exists s i m, circuit s /\ snd (coupleBranches s i i m) = Ok tt.
Proof. exists (grun cg_new Lsq), "L1", "M1". split; [apply Lsq_circuit|vm_compute; reflexivity]. Qed.
Definition Scouple : cg := grun cg_new (Lsq ++ [GCouple "L1" "L2" "M1"; B 0 2 "L3"]).
Lemma C42_counter_twice : exists s e1 e2 m, circuit s /\ dget (c_coupled s) "M1" = Some (e1, e2) /\ carries (c_graph s) e1 "L1" /\ carries (c_graph s) e2 "L2" /\
  m <> "M1" /\ snd (coupleBranches s "L1" "L2" m) = Ok tt.
Proof.
  exists Scouple, (0, 1, 0), (1, 2, 0), "M2". split.
  { refine (circuit_last (Lsq ++ [GCouple "L1" "L2" "M1"]) ido 0 2 "L3" _ ido_valid _); [vops|vm_compute; reflexivity]. }
  split; [vm_compute; reflexivity|].
  split; [apply carries_fwd; vm_compute; auto 10|].
  split; [apply carries_fwd; vm_compute; auto 10|].
  split; [discriminate|vm_compute; reflexivity].
Qed.
Lemma C44_counter : exists s o c, circuit s /\ valid_orders o /\ snd (addChargeBias s 1 (PStr "a") (Some c)) = Ok tt /\
  snd (addBranch o (fst (addChargeBias s 1 (PStr "a") (Some c))) 0 2 c) = Ok tt /\
  ~ NoDup (element_names (fst (addBranch o (fst (addChargeBias s 1 (PStr "a") (Some c))) 0 2 c))).
Proof.
  exists (grun cg_new Lsq), ido, "C9". split; [apply Lsq_circuit|]. split; [apply ido_valid|]. split; [vm_compute; reflexivity|]. split; [vm_compute; reflexivity|].
  intros H. set (l := element_names _) in H. vm_compute in l. subst l.
  repeat (apply NoDup_cons_iff in H as [H0 H]; try (apply H0; vm_compute; tauto); clear H0).
Qed.
