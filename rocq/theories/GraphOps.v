(** The operations of CircuitGraph, one by one. *)
From Coq Require Import List Bool String Ascii Arith Permutation Lia.
From Verif Require Import Prelude PreludeFacts Graph GraphSpec GraphView GraphForest GraphWf GraphGround GraphCircuit GraphLoops GraphState GraphRooted GraphMaps.
Import ListNotations.
Open Scope string_scope.
Open Scope list_scope.
Open Scope nat_scope.

Lemma parallel_par g a b : parallel g a b = par a b (g_edges g).
Proof. unfold parallel, par. f_equal. apply filter_ext. intros [[[u v] k] c]. reflexivity. Qed.
Lemma branch_valid c : branch_name c = valid_name c.
Proof. destruct c as [|a c]; auto. cbn. rewrite orb_false_r, !orb_assoc. auto. Qed.
Lemma starts_begins a c : starts a c = true <-> begins a c.
Proof.
  destruct c as [|x c]; cbn; [split; [discriminate|intros (r & H); discriminate]|]. rewrite Ascii.eqb_eq. split.
  - intros ->. exists c. auto.
  - intros (r & H). injection H; auto.
Qed.

(** C32, C33 *)
Lemma carries_add g a b c e c0 : carries (fst (add_edge g a b c)) e c0 <-> carries g e c0 \/ (c0 = c /\ same_branch (a, b, parallel g a b) e).
Proof.
  rewrite parallel_par. unfold carries, add_edge. cbn [fst g_edges]. fold bjoins. fold (par a b (g_edges g)). split.
  - intros (x & Hx & Hc & Hs). apply in_app_or in Hx as [Hx|[<-|[]]]; [left; eauto|]. right. cbn in *. auto.
  - intros [(x & Hx & Hc & Hs)|[-> Hs]].
    + exists x. split; auto. apply in_or_app; auto.
    + eexists. split; [apply in_or_app; right; left; reflexivity|]. auto.
Qed.
Lemma accepted_branch s o a b c s' : reachable s -> valid_orders o -> addBranch o s a b c = (s', Ok tt) ->
  g_edges (c_graph s') = g_edges (c_graph s) ++ [((a, b, parallel (c_graph s) a b), c)] /\
  (forall n, In n (g_nodes (c_graph s')) <-> In n (g_nodes (c_graph s)) \/ n = a \/ n = b) /\
  (forall e c0, dget (c_map s') e = Some c0 <-> carries (c_graph s) e c0 \/ (c0 = c /\ same_branch (a, b, parallel (c_graph s) a b) e)).
Proof.
  intros Hr Ho H. destruct (reachable_wf s Hr) as [Hw Hv]. destruct (derived_branch o s a b c s' Hw Hv Ho H) as (HD & Eg & _).
  split; [|split].
  - rewrite Eg. unfold added, add_edge. cbn [fst g_edges]. rewrite parallel_par. reflexivity.
  - intros n. rewrite Eg. unfold added, add_edge. cbn [fst g_nodes]. rewrite !add_node_In. tauto.
  - intros e c0. rewrite (map_get s' HD), Eg. apply carries_add.
Qed.
Lemma wrong_prefix s o a b c : branch_name c = false ->
  addBranch o s a b c = (s, Err (match c with EmptyString => IndexError | String x _ => if Ascii.eqb x "M" then TypeError else ValueError end)).
Proof.
  rewrite branch_valid. destruct c as [|x c]; intros H; auto. unfold addBranch. cbn in H. cbn.
  destruct (Ascii.eqb x "M"); auto. destruct (Ascii.eqb x "C"), (Ascii.eqb x "L"), (Ascii.eqb x "I"), (Ascii.eqb x "V"); auto; discriminate.
Qed.
Lemma NoDup_prefix {A} (l l' : list A) : NoDup (l ++ l') -> NoDup l.
Proof.
  induction l as [|x l IH]; [constructor|]. cbn [app]. intros H. apply NoDup_cons_iff in H as [H1 H2]. constructor; auto. intros Hi. apply H1. apply in_or_app; auto.
Qed.
Lemma duplicates_block s o a b c : reachable s -> ~ NoDup (component_names (c_graph s)) ->
  exists e, snd (addBranch o s a b c) = Err e /\ ~ NoDup (component_names (c_graph (fst (addBranch o s a b c)))).
Proof.
  intros Hr Hd. destruct (reachable_wf s Hr) as [Hw Hv].
  assert (Hd' : ~ NoDup (component_names (added s a b c))).
  { unfold component_names, added, add_edge. cbn [fst g_edges]. rewrite map_app. intros Hq. apply Hd. exact (NoDup_prefix _ _ Hq). }
  destruct (addBranch_cases o s a b c) as [(_ & e & E)|[(_ & _ & E)|(_ & Hq & _)]].
  - rewrite E. exists e. auto.
  - rewrite E. exists ValueError. split; auto.
  - exfalso. apply Hd'. apply has_duplicates_spec in Hq. eapply Permutation_NoDup; [apply edge_map_vals|exact Hq]. apply wfg_add; auto.
Qed.

(** graph and biases over histories *)
Lemma branch_keeps o s a b c : c_fbias (fst (addBranch o s a b c)) = c_fbias s /\ c_cbias (fst (addBranch o s a b c)) = c_cbias s /\
  c_coupled (fst (addBranch o s a b c)) = c_coupled s /\
  (exists more, g_edges (c_graph (fst (addBranch o s a b c))) = g_edges (c_graph s) ++ more) /\
  (forall n, In n (g_nodes (c_graph s)) -> In n (g_nodes (c_graph (fst (addBranch o s a b c))))).
Proof.
  assert (Ha : exists more, g_edges (added s a b c) = g_edges (c_graph s) ++ more) by (eexists; reflexivity).
  assert (Hn : forall n, In n (g_nodes (c_graph s)) -> In n (g_nodes (added s a b c))) by (intros n Hn; unfold added, add_edge; cbn [fst g_nodes]; rewrite !add_node_In; auto).
  destruct (addBranch_cases o s a b c) as [(_ & e & E)|[(_ & _ & E)|(_ & _ & E)]]; rewrite E; clear E.
  - cbn [fst]. split; auto. split; auto. split; auto. split; auto. exists []. rewrite app_nil_r; auto.
  - cbn [fst set_graph c_fbias c_cbias c_coupled c_graph]. auto.
  - destruct (update_graph_same o (set_graph s (added s a b c) (both_ways (edge_map (added s a b c))))) as (U1 & U2 & U3 & U4 & U5 & U6).
    destruct (update_graphs _ _) as [s1 [[]|e]]; cbn [fst set_res c_fbias c_cbias c_coupled c_graph] in *; rewrite U1, U3, U4, U6; auto.
Qed.

Ltac inv_res := match goal with |- context [match ?x with Ok _ => _ | Err _ => _ end] => destruct x end.
Lemma flux_result s comp suffix m : (exists e b, addFluxBias s comp suffix m = (set_fbias s (dset (c_fbias s) e b), Ok tt) /\
     dmem (c_fbias s) e = false /\ mem (fb_suffix b) (map fb_suffix (dvals (c_fbias s))) = false /\ suffix = PStr (fb_suffix b) /\ fb_mutual b = m) \/
  (exists x, addFluxBias s comp suffix m = (s, Err x)).
Proof.
  unfold addFluxBias. set (r := bind _ _).
  assert (Hr : forall e b, r = Ok (e, b) -> dmem (c_fbias s) e = false /\ mem (fb_suffix b) (map fb_suffix (dvals (c_fbias s))) = false /\ suffix = PStr (fb_suffix b) /\ fb_mutual b = m).
  { intros e b. unfold r. clear r. destruct (getComponentEdge s comp) as [e0|]; [|discriminate]. cbn [bind].
    destruct (isEdgeInLoop s e0) as [[]|]; try discriminate. cbn [bind negb]. destruct suffix as [sfx|]; [|discriminate].
    destruct (8 <? String.length sfx); [discriminate|]. destruct (c_wc s) as [wc|]; [|discriminate].
    destruct (negb (mem e0 wc) && negb (mem (rev_edge e0) wc)); [discriminate|]. cbn zeta.
    set (e1 := if mem e0 wc then e0 else rev_edge e0). set (q := match m with Some _ => _ | None => _ end).
    destruct q; [|discriminate]. cbn [bind]. destruct (dmem (c_fbias s) e1) eqn:E1; [discriminate|].
    destruct (mem sfx _) eqn:E2; [discriminate|]. intros H. injection H as <- <-. auto. }
  destruct r as [[e b]|x]; [left|right; eauto]. exists e, b. split; auto.
Qed.
Lemma charge_result s n suffix c : (exists b, addChargeBias s n suffix c = (set_cbias s (dset (c_cbias s) n b), Ok tt) /\
     dmem (c_cbias s) n = false /\ mem (cb_suffix b) (map cb_suffix (dvals (c_cbias s))) = false) \/
  (exists x, addChargeBias s n suffix c = (s, Err x)).
Proof.
  unfold addChargeBias. cbv zeta. lazymatch goal with |- (exists b, match ?x with Ok _ => _ | Err _ => _ end = _ /\ _) \/ _ => set (r := x) end.
  assert (Hr : forall b, r = Ok b -> dmem (c_cbias s) n = false /\ mem (cb_suffix b) (map cb_suffix (dvals (c_cbias s))) = false).
  { intros b. unfold r. clear r. destruct (negb _); [discriminate|]. destruct suffix as [sfx|]; [|discriminate].
    destruct (8 <? String.length sfx); [discriminate|]. set (q := match c with Some _ => _ | None => _ end).
    destruct q; [|discriminate]. cbn [bind]. destruct (dmem (c_cbias s) n) eqn:E1; [discriminate|].
    destruct (mem sfx _) eqn:E2; [discriminate|]. intros H. injection H as <-. auto. }
  destruct r as [b|x]; [left|right; eauto]. exists b. split; auto.
Qed.
Lemma couple_result s i1 i2 m : (exists p, coupleBranches s i1 i2 m = (set_coupled s (dset (c_coupled s) m p), Ok tt) /\
     dmem (c_coupled s) m = false /\ starts "M" m = true) \/ (exists x, coupleBranches s i1 i2 m = (s, Err x)).
Proof.
  unfold coupleBranches. destruct m as [|a m0]; [right; eauto|]. remember (String a m0) as m. cbn zeta.
  destruct (starts "M" m) eqn:E1; cbn [negb]; [|right; eauto].
  destruct (dmem (c_coupled s) m) eqn:E2; [right; eauto|].
  match goal with |- context [match ?x with Ok _ => _ | Err _ => _ end] => destruct x as [p|?] end; [left|right]; eauto.
Qed.
Lemma res_result s n c : (exists r, coupleResonator s n c = (set_res s (dset (c_res s) n r), Ok tt) /\ In n (g_nodes (c_graph s))) \/ (exists x, coupleResonator s n c = (s, Err x)).
Proof.
  unfold coupleResonator. destruct (mem n _) eqn:E0; cbn [negb]; [|right; eauto]. destruct (Nat.eqb n 0); [right; eauto|].
  destruct (dget (c_res s) n) as [[r|]|]; try (right; eauto; fail). destruct c as [|a c0]; [right; eauto|].
  destruct (negb _); [right; eauto|]. destruct (mem _ (dvals _)); [right; eauto|]. left. eexists. split; [reflexivity|]. apply mem_In; auto.
Qed.

Record Inv (s : cg) : Prop := {
  i_fk : NoDup (dkeys (c_fbias s)); i_fs : NoDup (map fb_suffix (dvals (c_fbias s)));
  i_ck : NoDup (dkeys (c_cbias s)); i_cs : NoDup (map cb_suffix (dvals (c_cbias s)));
  i_mk : NoDup (dkeys (c_coupled s)); i_mm : forall m, In m (dkeys (c_coupled s)) -> starts "M" m = true;
  i_res : forall n, In n (dkeys (c_res s)) -> In n (g_nodes (c_graph s))
}.
Lemma ensure_res_keys d n x : In x (dkeys (ensure_res d n)) <-> x = n \/ In x (dkeys d).
Proof.
  unfold ensure_res. destruct (dmem d n) eqn:E.
  - apply dmem_dget in E. apply dkeys_dget in E. split; auto. intros [->|H]; auto.
  - apply In_dkeys_dset.
Qed.
Lemma remove_res_keys s n : (forall n, In n (dkeys (c_res s)) -> In n (g_nodes (c_graph s))) ->
  In n (dkeys (fold_left (fun d n => dset d n None) (g_nodes (c_graph s)) (c_res s))) -> In n (g_nodes (c_graph s)).
Proof.
  intros H. assert (G : forall l d, (forall n, In n (dkeys d) -> In n (g_nodes (c_graph s))) -> (forall n, In n l -> In n (g_nodes (c_graph s))) ->
    In n (dkeys (fold_left (fun (d : dict nat (option resonator)) n => dset d n None) l d)) -> In n (g_nodes (c_graph s))).
  { induction l as [|x l IH]; intros d Hd Hl; cbn [fold_left]; auto. apply IH.
    - intros y Hy. apply In_dkeys_dset in Hy as [->|Hy]; auto. apply Hl; left; auto.
    - intros y Hy. apply Hl. right; auto. }
  apply G; auto.
Qed.
Lemma gstep_Inv s o : Inv s -> Inv (fst (gstep s o)).
Proof.
  intros [H1 H2 H3 H4 H5 H6 H7]. destruct o as [oo a b c|i1 i2 m|n c| |c sfx m|n sfx c]; cbn [gstep].
  - destruct (branch_keeps oo s a b c) as (E1 & E2 & E3 & E4 & E5). split; rewrite ?E1, ?E2, ?E3; auto.
    assert (Hn : forall n, In n (dkeys (ensure_res (ensure_res (c_res s) a) b)) -> In n (g_nodes (added s a b c))).
    { intros n. rewrite !ensure_res_keys. unfold added, add_edge. cbn [fst g_nodes]. rewrite !add_node_In. intuition. }
    destruct (addBranch_cases oo s a b c) as [(_ & e & E)|[(_ & _ & E)|(_ & _ & E)]]; rewrite E in *; clear E; auto.
    assert (Hn' : forall n, In n (dkeys (c_res s)) -> In n (g_nodes (added s a b c))) by (intros n Hq; apply Hn; rewrite !ensure_res_keys; auto).
    destruct (update_graph_same oo (set_graph s (added s a b c) (both_ways (edge_map (added s a b c))))) as (U1 & _ & _ & _ & U5 & _).
    destruct (update_graphs _ _) as [s1 [[]|e]]; cbn [fst set_res c_res c_graph set_graph] in *; rewrite U1, U5; auto.
  - destruct (couple_result s i1 i2 m) as [(p & -> & Hm & Hs)|(x & ->)]; [|split; auto]. split; cbn; auto.
    + apply NoDup_dset; auto.
    + intros m' Hm'. apply In_dkeys_dset in Hm' as [->|Hm']; auto.
  - destruct (res_result s n c) as [(r & -> & Hn)|(x & ->)]; [|split; auto]. split; cbn; auto.
    intros x Hx. apply In_dkeys_dset in Hx as [->|Hx]; auto.
  - split; cbn; auto. intros n. apply remove_res_keys; auto.
  - destruct (flux_result s c sfx m) as [(e & b & -> & Hd & Hs & _)|(x & ->)]; [|split; auto].
    apply dmem_false, dget_None in Hd. apply mem_nIn in Hs. split; cbn; auto.
    + apply NoDup_dset; auto.
    + rewrite dset_new by auto. unfold dvals. rewrite !map_app. cbn. apply NoDup_app_single; auto.
  - destruct (charge_result s n sfx c) as [(b & -> & Hd & Hs)|(x & ->)]; [|split; auto].
    apply dmem_false, dget_None in Hd. apply mem_nIn in Hs. split; cbn; auto.
    + apply NoDup_dset; auto.
    + rewrite dset_new by auto. unfold dvals. rewrite !map_app. cbn. apply NoDup_app_single; auto.
Qed.
Lemma reachable_Inv s : reachable s -> Inv s.
Proof. induction 1; [split; cbn; try constructor; easy|apply gstep_Inv; auto]. Qed.

(** C39 *)
Lemma suffix_free {K B} `{EqB K} (f : B -> string) (d : dict K B) sfx : NoDup (dkeys d) ->
  (mem sfx (map f (dvals d)) = false <-> forall k b, dget d k = Some b -> f b <> sfx).
Proof.
  intros Hn. rewrite mem_nIn. split.
  - intros Hi k b Hk E. apply Hi. rewrite <- E. apply in_map. apply In_dvals_dget; eauto.
  - intros Hf Hi. apply in_map_iff in Hi as (b & E & Hb). apply In_dvals_dget in Hb as (k & Hk); auto. apply (Hf k b); auto.
Qed.
Lemma loop_in_wc s e : Derived s -> in_loop s e -> In e (wcs s).
Proof.
  intros HD (ls & k & l & H1 & H2 & H3). destruct (loops_exist s HD) as (lst & ts & E1 & _ & HL & _ & Hts).
  rewrite E1 in H1. injection H1 as <-. assert (Hk := dget_Some_key _ _ _ H2). rewrite (lo_keys _ _ _ HL), in_seq in Hk.
  destruct (nth_error ts k) as [t|] eqn:Et; [|apply nth_error_None in Et; lia].
  destruct (lo_loop _ _ _ HL k t Et) as (b & Hb & _ & Hb2 & _). rewrite H2 in Hb. injection Hb as ->.
  eapply Permutation_in; [symmetry; apply wcs_perm; auto|]. apply in_or_app. apply in_app_or in H3 as [H3|[<-|[]]]; auto.
  right. rewrite <- Hts. apply in_map. apply nth_error_In in Et; auto.
Qed.
Lemma wcs_unique s e f : Derived s -> In e (wcs s) -> In f (wcs s) -> norm e = norm f -> e = f.
Proof.
  intros HD He Hf E. assert (Hn := split_norm_nodup s HD).
  assert (Hp : Permutation (map norm (wcs s)) (map norm (c_tree s ++ c_closures s))) by (apply Permutation_map, wcs_perm; auto).
  eapply Permutation_NoDup in Hn; [|symmetry; exact Hp].
  clear -Hn He Hf E. induction (wcs s) as [|x l IH]; [easy|]. cbn in Hn. inversion Hn; subst.
  destruct He as [->|He], Hf as [->|Hf]; auto; exfalso; apply H1; [rewrite E|rewrite <- E]; apply in_map; auto.
Qed.
Lemma is_inductive_spec s e c : dget (c_map s) e = Some c -> c <> "" -> isInductiveEdge s e = Ok (starts "L" c).
Proof. intros H Hc. unfold isInductiveEdge, is_type. rewrite H. destruct c; [easy|auto]. Qed.
Lemma in_loop_b s e : Derived s -> dmem (c_map s) e = true -> exists b, isEdgeInLoop s e = Ok b /\ (b = true <-> in_loop s e).
Proof.
  intros HD Hm. unfold isEdgeInLoop. rewrite Hm. cbn [negb]. destruct (loops_exist s HD) as (lst & ts & E1 & _ & HL & _ & Hts). rewrite E1.
  eexists. split; [reflexivity|]. rewrite existsb_exists. unfold in_loop. rewrite E1. split.
  - intros ([k l] & Hi & Hmem). exists (l_loops lst), k, l. split; auto. split; [|apply mem_In; auto].
    apply In_dget; auto. rewrite (lo_keys _ _ _ HL). apply seq_NoDup.
  - intros (ls & k & l & H1 & H2 & H3). injection H1 as <-. exists (k, l). split; [apply dget_In; auto|apply mem_In; auto].
Qed.
Lemma branch_not_M s m : Derived s -> starts "M" m = true -> ~ In m (component_names (c_graph s)).
Proof.
  intros HD Hm Hi. apply in_map_iff in Hi as (b & <- & Hb). apply (d_valid s HD) in Hb. apply starts_begins in Hm as (r & Hr). rewrite Hr in Hb. discriminate.
Qed.
Lemma carries_name s e c : carries (c_graph s) e c -> In c (component_names (c_graph s)).
Proof. intros (b & Hb & <- & _). apply in_map; auto. Qed.
Lemma flux_spec s comp suffix m : Derived s -> Inv s ->
  (forall e sfx, flux_allowed s comp suffix m e sfx ->
     addFluxBias s comp suffix m = (set_fbias s (c_fbias s ++ [(e, mkfb m sfx)]), Ok tt)) /\
  (snd (addFluxBias s comp suffix m) = Ok tt -> exists e sfx, flux_allowed s comp suffix m e sfx).
Proof.
  intros HD HI. split.
  - intros e sfx (Hc & Hl & -> & Hlen & Hfree & Hnone & Hm).
    assert (Hwc := loop_in_wc s e HD Hl). destruct (wcs_carry s HD e Hwc) as (c' & Hc' & Hcap).
    assert (comp = c') by (eapply (carries_fun s HD); eauto). subst c'.
    assert (Hname := carries_name s e comp Hc).
    assert (Hne : comp <> "") by (eapply valid_nonempty; eauto).
    assert (Hge : getComponentEdge s comp = Ok e).
    { unfold getComponentEdge. assert (E : mem comp (dvals (c_map s)) = true) by (apply mem_In; apply map_vals; auto). rewrite E. cbn [negb].
      destruct comp as [|a c0] eqn:Ec; [easy|]. rewrite <- Ec in *. rewrite Hcap. rewrite (wc_by_ok s HD). cbn [bind].
      assert (Hk : In comp (dkeys (wcd s))) by (apply wcd_keys; eauto). apply dkeys_dget in Hk as (f & Hf). rewrite Hf. f_equal.
      apply wcd_get in Hf as [Hf1 Hf2]; auto. apply (wcs_unique s); auto. eapply carries_norm; eauto. }
    unfold addFluxBias. rewrite Hge. cbn [bind].
    assert (Hget : dget (c_map s) e = Some comp) by (apply map_get; auto).
    destruct (in_loop_b s e HD) as (b & -> & Hb); [apply dmem_dget; eauto|]. cbn [bind].
    destruct b; [|exfalso; assert (false = true) by (apply Hb; auto); discriminate]. cbn [negb].
    assert (E8 : (8 <? String.length sfx) = false) by (apply Nat.ltb_ge; auto). rewrite E8.
    rewrite (wcs_wc s HD). assert (Em : mem e (wcs s) = true) by (apply mem_In; auto). rewrite Em. cbn [negb andb].
    assert (Hq : match m with
                    | None => Ok tt
                    | Some EmptyString => Err IndexError
                    | Some m => if negb (starts "M" m) then Err TypeError
                                else bind (isInductiveEdge s e) (fun b => if negb b then Err TypeError
                                else if mem m (dvals (c_map s)) then Err ValueError else Ok tt)
                    end = Ok tt).
    { destruct Hm as [->|(r & -> & HL)]; auto. cbn [starts Ascii.eqb negb Bool.eqb].
      rewrite (is_inductive_spec s e comp) by auto. apply starts_begins in HL. rewrite HL.
      assert (E : mem (String "M" r) (dvals (c_map s)) = false).
      { apply mem_nIn. rewrite (map_vals s HD). apply (branch_not_M s); auto. }
      rewrite E. reflexivity. }
    rewrite Hq. cbn [bind].
    assert (Ed : dmem (c_fbias s) e = false) by (apply dmem_false; auto). rewrite Ed.
    assert (Es : mem sfx (map fb_suffix (dvals (c_fbias s))) = false) by (apply suffix_free; auto; apply HI). rewrite Es.
    rewrite dset_new; auto. apply dget_None; auto.
  - intros H. unfold addFluxBias in H.
    destruct (getComponentEdge s comp) as [e0|] eqn:Eg; [|discriminate]. cbn [bind] in H.
    destruct (component_edge_sound s HD comp e0 Eg) as [Hc Hw].
    assert (Hget : dget (c_map s) e0 = Some comp) by (apply map_get; auto).
    destruct (in_loop_b s e0 HD) as (b & Eb & Hb); [apply dmem_dget; eauto|]. rewrite Eb in H. cbn [bind] in H.
    destruct b; [|discriminate]. cbn [negb] in H. assert (Hl : in_loop s e0) by (apply Hb; auto).
    destruct suffix as [sfx|]; [|discriminate]. destruct (8 <? String.length sfx) eqn:E8; [discriminate|]. apply Nat.ltb_ge in E8.
    rewrite (wcs_wc s HD) in H. assert (Em : mem e0 (wcs s) = true) by (apply mem_In; apply loop_in_wc; auto). rewrite Em in H. cbn [negb andb] in H.
    set (q := match m with Some _ => _ | None => _ end) in H.
    destruct q as [[]|] eqn:Eq; [|discriminate]. cbn [bind] in H. destruct (dmem (c_fbias s) e0) eqn:E1; [discriminate|].
    destruct (mem sfx _) eqn:E2; [discriminate|]. exists e0, sfx. split; auto. split; auto. split; auto. split; auto.
    split; [apply suffix_free; auto; apply HI|]. split; [apply dmem_false; auto|].
    destruct m as [[|a m0]|]; auto; [discriminate|]. right. exists m0. unfold q in Eq. remember (String a m0) as m.
    destruct (starts "M" m) eqn:Em'; [|discriminate]. cbn [negb] in Eq.
    assert (Hne : comp <> "") by (eapply valid_nonempty; eauto; eapply carries_name; eauto).
    rewrite (is_inductive_spec s e0 comp) in Eq by auto. cbn [bind] in Eq. destruct (starts "L" comp) eqn:EL; [|discriminate].
    apply starts_begins in Em' as (r & Hr). split; [congruence|apply starts_begins; auto].
Qed.
Lemma flux_fail s comp suffix m x : snd (addFluxBias s comp suffix m) = Err x -> fst (addFluxBias s comp suffix m) = s.
Proof. destruct (flux_result s comp suffix m) as [(e & b & -> & _)|(y & ->)]; cbn; [discriminate|auto]. Qed.

(** C40 *)
Lemma charge_spec s n suffix c : Derived s -> Inv s ->
  (forall sfx, charge_allowed s n suffix c sfx -> addChargeBias s n suffix c = (set_cbias s (c_cbias s ++ [(n, mkcb c sfx)]), Ok tt)) /\
  (snd (addChargeBias s n suffix c) = Ok tt -> exists sfx, charge_allowed s n suffix c sfx).
Proof.
  intros HD HI. split.
  - intros sfx (Hn & -> & Hlen & Hfree & Hnone & Hm). unfold addChargeBias.
    assert (En : mem n (g_nodes (c_graph s)) = true) by (apply mem_In; auto). rewrite En. cbn [negb].
    assert (E8 : (8 <? String.length sfx) = false) by (apply Nat.ltb_ge; auto). rewrite E8.
    assert (Ed : dmem (c_cbias s) n = false) by (apply dmem_false; auto). rewrite Ed.
    assert (Es : mem sfx (map cb_suffix (dvals (c_cbias s))) = false) by (apply suffix_free; auto; apply HI). rewrite Es.
    destruct Hm as [->|(r & -> & Hf)].
    + cbn [bind]. rewrite dset_new; auto. apply dget_None; auto.
    + assert (Ef : mem (String "C" r) (dvals (c_map s)) = false) by (apply mem_nIn; rewrite (map_vals s HD); auto).
      replace (capacitive (String "C" r)) with true by reflexivity. rewrite Ef. cbn [negb bind]. rewrite dset_new; auto. apply dget_None; auto.
  - unfold addChargeBias. destruct (mem n _) eqn:En; [|discriminate]. cbn [negb]. destruct suffix as [sfx|]; [|discriminate].
    destruct (8 <? String.length sfx) eqn:E8; [discriminate|]. set (q := match c with Some _ => _ | None => _ end).
    destruct q as [[]|] eqn:Eq; [|discriminate]. cbn [bind]. destruct (dmem (c_cbias s) n) eqn:E1; [discriminate|].
    destruct (mem sfx _) eqn:E2; [discriminate|]. intros _. exists sfx. apply Nat.ltb_ge in E8. apply mem_In in En.
    split; auto. split; auto. split; auto. split; [apply suffix_free; auto; apply HI|]. split; [apply dmem_false; auto|].
    destruct c as [[|a c0]|]; auto; [discriminate|]. right. exists c0. unfold q in Eq. remember (String a c0) as c.
    destruct (capacitive c) eqn:Ec; [|discriminate]. cbn [negb] in Eq. destruct (mem c _) eqn:Em; [discriminate|].
    apply starts_begins in Ec as (r & Hr). assert (r = c0) by congruence. subst r. rewrite <- Hr. split; auto.
    apply mem_nIn in Em. rewrite (map_vals s HD) in Em. auto.
Qed.
Lemma charge_fail s n suffix c x : snd (addChargeBias s n suffix c) = Err x -> fst (addChargeBias s n suffix c) = s.
Proof. destruct (charge_result s n suffix c) as [(b & -> & _)|(y & ->)]; cbn; [discriminate|auto]. Qed.

(** C42 *)
Lemma couple_fail s i1 i2 m x : snd (coupleBranches s i1 i2 m) = Err x -> fst (coupleBranches s i1 i2 m) = s.
Proof. destruct (couple_result s i1 i2 m) as [(b & -> & _)|(y & ->)]; cbn; [discriminate|auto]. Qed.
Lemma same_pair_spec a b : same_pair a b = true <-> b = a \/ b = (snd a, fst a).
Proof.
  destruct a as [a1 a2], b as [b1 b2]. unfold same_pair. cbn [fst snd]. rewrite !andb_true_iff, !mem_In. cbn [In]. split.
  - intros [[[H1 H2] H3] H4]. destruct H1 as [H1|[H1|[]]], H2 as [H2|[H2|[]]], H3 as [H3|[H3|[]]], H4 as [H4|[H4|[]]]; subst; auto.
  - intros [H|H]; injection H as -> ->; tauto.
Qed.
Lemma couple_spec s i1 i2 m : Derived s -> Inv s ->
  (forall e1 e2, couple_allowed s i1 i2 m e1 e2 -> coupleBranches s i1 i2 m = (set_coupled s (c_coupled s ++ [(m, (e1, e2))]), Ok tt)) /\
  (snd (coupleBranches s i1 i2 m) = Ok tt -> exists e1 e2, couple_allowed s i1 i2 m e1 e2).
Proof.
  intros HD HI.
  assert (Hnocap : forall i, starts "L" i = true -> capacitive i = false).
  { intros i H. apply starts_begins in H as (r & ->). reflexivity. }
  assert (Hget : forall e i, starts "L" i = true -> In e (wcs s) -> carries (c_graph s) e i -> getComponentEdge s i = Ok e).
  { intros e i HL Hw Hc. unfold getComponentEdge. assert (Hname := carries_name s e i Hc).
    assert (E : mem i (dvals (c_map s)) = true) by (apply mem_In; apply map_vals; auto). rewrite E. cbn [negb].
    destruct i as [|a c0] eqn:Ec; [discriminate|]. rewrite <- Ec in *. rewrite (Hnocap i) by auto. rewrite (wc_by_ok s HD). cbn [bind].
    assert (Hk : In i (dkeys (wcd s))) by (apply wcd_keys; eauto). apply dkeys_dget in Hk as (f & Hf). rewrite Hf. f_equal.
    apply wcd_get in Hf as [Hf1 Hf2]; auto. apply (wcs_unique s); auto. eapply carries_norm; eauto. }
  assert (Hind : forall e i, carries (c_graph s) e i -> isInductiveEdge s e = Ok (starts "L" i)).
  { intros e i Hc. apply is_inductive_spec; [apply map_get; auto|]. eapply valid_nonempty; eauto. eapply carries_name; eauto. }
  split.
  - intros e1 e2 (Hm & Hn & HL1 & HL2 & (wc & Hwc & H1 & H2) & Hc1 & Hc2 & Hfree).
    rewrite (wcs_wc s HD) in Hwc. injection Hwc as <-. apply starts_begins in HL1, HL2. destruct Hm as (r & ->).
    unfold coupleBranches. cbn [starts Ascii.eqb Bool.eqb negb]. assert (Ed : dmem (c_coupled s) (String "M" r) = false) by (apply dmem_false; auto). rewrite Ed.
    rewrite (Hget e1 i1), (Hget e2 i2) by auto. cbn [bind]. rewrite (Hind e1 i1), (Hind e2 i2), HL1, HL2 by auto. cbn [bind negb].
    unfold to_wc. rewrite (wcs_wc s HD). cbn [bind]. assert (Em1 : mem e1 (wcs s) = true) by (apply mem_In; auto). assert (Em2 : mem e2 (wcs s) = true) by (apply mem_In; auto).
    rewrite Em1, Em2. destruct (existsb _ _) eqn:Ex.
    + exfalso. apply existsb_exists in Ex as ([m' p] & Hi & Hp). apply same_pair_spec in Hp. cbn [fst snd] in Hp.
      apply In_dget in Hi; [|apply HI]. destruct (Hfree _ _ Hi) as [F1 F2]. destruct Hp; auto.
    + rewrite dset_new; auto. apply dget_None; auto.
  - unfold coupleBranches. destruct m as [|a m0]; [discriminate|]. remember (String a m0) as m. cbn zeta.
    destruct (starts "M" m) eqn:E1; cbn [negb]; [|discriminate].
    destruct (dmem (c_coupled s) m) eqn:E2; [discriminate|].
    destruct (getComponentEdge s i1) as [e1|] eqn:G1; [|discriminate]. cbn [bind].
    destruct (getComponentEdge s i2) as [e2|] eqn:G2; [|discriminate]. cbn [bind].
    destruct (component_edge_sound s HD _ _ G1) as [C1 W1], (component_edge_sound s HD _ _ G2) as [C2 W2].
    rewrite (Hind e1 i1), (Hind e2 i2) by auto. cbn [bind]. destruct (starts "L" i1) eqn:L1; [|discriminate]. destruct (starts "L" i2) eqn:L2; [|discriminate]. cbn [negb].
    specialize (W1 (Hnocap _ L1)). specialize (W2 (Hnocap _ L2)).
    unfold to_wc. rewrite (wcs_wc s HD). cbn [bind]. assert (Em1 : mem e1 (wcs s) = true) by (apply mem_In; auto). assert (Em2 : mem e2 (wcs s) = true) by (apply mem_In; auto).
    rewrite Em1, Em2. destruct (existsb _ _) eqn:Ex; [discriminate|]. intros _. exists e1, e2.
    split; [apply starts_begins; auto|]. split; [apply dmem_false; auto|]. split; [apply starts_begins; auto|]. split; [apply starts_begins; auto|].
    split; [exists (wcs s); split; [apply (wcs_wc s HD)|auto]|]. split; auto. split; auto.
    intros m' p Hp. split; intros ->; apply dget_In in Hp; assert (existsb (fun x => same_pair (e1, e2) (snd x)) (c_coupled s) = true); try congruence; apply existsb_exists; eexists; (split; [exact Hp|]); apply same_pair_spec; auto.
Qed.

(** C43 *)
Lemma res_spec s n c : Derived s -> 
  (res_allowed s n c -> coupleResonator s n c = (set_res s (dset (c_res s) n (Some (mkres c ("f" ++ nat_str n ++ "r") ("Z" ++ nat_str n ++ "r") ("C" ++ nat_str n ++ "r")
                    ("L" ++ nat_str n ++ "r") ("g" ++ nat_str n ++ "r") ("f" ++ nat_str n ++ "rl") ("Z" ++ nat_str n ++ "rl"))%string)), Ok tt)) /\
  (snd (coupleResonator s n c) = Ok tt -> res_allowed s n c).
Proof.
  intros HD. split.
  - intros (Hn & H0 & Hr & (r & ->) & Hc). unfold coupleResonator.
    assert (En : mem n (g_nodes (c_graph s)) = true) by (apply mem_In; auto). rewrite En. apply Nat.eqb_neq in H0. rewrite H0, Hr. cbn [negb].
    replace (capacitive (String "C" r)) with true by reflexivity. cbn [negb].
    assert (Ef : mem (String "C" r) (dvals (c_map s)) = false) by (apply mem_nIn; rewrite (map_vals s HD); auto). rewrite Ef. reflexivity.
  - unfold coupleResonator. destruct (mem n _) eqn:En; [|discriminate]. cbn [negb]. destruct (Nat.eqb_spec n 0); [discriminate|].
    destruct (dget (c_res s) n) as [[r|]|] eqn:Er; try discriminate. destruct c as [|a c0]; [discriminate|]. remember (String a c0) as c.
    destruct (capacitive c) eqn:Ec; [|discriminate]. cbn [negb]. destruct (mem c _) eqn:Em; [discriminate|]. intros _.
    apply mem_In in En. apply mem_nIn in Em. rewrite (map_vals s HD) in Em. split; auto. split; auto. split; auto. split; auto. apply starts_begins; auto.
Qed.
Lemma res_fail s n c x : snd (coupleResonator s n c) = Err x -> fst (coupleResonator s n c) = s.
Proof. destruct (res_result s n c) as [(b & -> & _)|(y & ->)]; cbn; [discriminate|auto]. Qed.
Lemma remove_res s n r : Inv s -> dget (c_res (removeAllResonators s)) n = Some r -> r = None.
Proof.
  intros HI. unfold removeAllResonators. cbn [set_res c_res]. intros H.
  assert (G : forall l d, (In n l \/ dget d n = Some None \/ dget d n = None) -> forall r, dget (fold_left (fun (d : dict nat (option resonator)) n => dset d n None) l d) n = Some r -> r = None).
  { induction l as [|x l IH]; intros d Hd r0; cbn [fold_left].
    - destruct Hd as [[]|[Hd|Hd]]; rewrite Hd; congruence.
    - apply IH. rewrite dget_dset. destruct (eqb n x) eqn:E; auto. destruct Hd as [[->|Hd]|Hd]; auto. rewrite eqb_refl in E. discriminate. }
  eapply G; [|exact H]. destruct (dget (c_res s) n) as [q|] eqn:E; auto. left. apply HI. eapply dget_Some_key; eauto.
Qed.

(** C41: growth *)
Lemma gstep_grow s o : (exists more, g_edges (c_graph (fst (gstep s o))) = g_edges (c_graph s) ++ more) /\
  (forall e b, dget (c_fbias s) e = Some b -> dget (c_fbias (fst (gstep s o))) e = Some b) /\
  (forall m p, dget (c_coupled s) m = Some p -> dget (c_coupled (fst (gstep s o))) m = Some p).
Proof.
  destruct o as [oo a b c|i1 i2 m|n c| |c sfx m|n sfx c]; cbn [gstep].
  - destruct (branch_keeps oo s a b c) as (E1 & E2 & E3 & E4 & E5). rewrite E1, E3. auto.
  - destruct (couple_result s i1 i2 m) as [(p & -> & Hm & Hs)|(x & ->)]; cbn [fst set_coupled c_graph c_fbias c_coupled]; (split; [exists []; rewrite app_nil_r; auto|]); auto.
    split; auto. intros m' p' H. rewrite dget_dset_neq; auto. intros ->. apply dmem_false in Hm. congruence.
  - destruct (res_result s n c) as [(r & -> & Hn)|(x & ->)]; cbn [fst set_res c_graph c_fbias c_coupled]; (split; [exists []; rewrite app_nil_r; auto|]); auto.
  - cbn. split; auto. exists []; rewrite app_nil_r; auto.
  - destruct (flux_result s c sfx m) as [(e & b & -> & Hd & Hs & _)|(x & ->)]; cbn [fst set_fbias c_graph c_fbias c_coupled]; (split; [exists []; rewrite app_nil_r; auto|]); auto.
    split; auto. intros m' p' H. rewrite dget_dset_neq; auto. intros ->. apply dmem_false in Hd. congruence.
  - destruct (charge_result s n sfx c) as [(b & -> & Hd & Hs)|(x & ->)]; cbn [fst set_cbias c_graph c_fbias c_coupled]; (split; [exists []; rewrite app_nil_r; auto|]); auto.
Qed.
Lemma grun_grow l : forall s, (forall e c, carries (c_graph s) e c -> carries (c_graph (grun s l)) e c) /\
  (forall e b, dget (c_fbias s) e = Some b -> dget (c_fbias (grun s l)) e = Some b) /\
  (forall m p, dget (c_coupled s) m = Some p -> dget (c_coupled (grun s l)) m = Some p).
Proof.
  induction l as [|o l IH]; intros s; cbn; auto. destruct (gstep_grow s o) as ((more & G1) & G2 & G3). destruct (IH (fst (gstep s o))) as (I1 & I2 & I3).
  split; [|split]; eauto. intros e c (b & Hb & E & Hs). apply I1. exists b. split; auto. rewrite G1. apply in_or_app; auto.
Qed.
