(** When SymbolicSystem can be constructed, couplings included (C50). *)
From Coq Require Import List Bool String Ascii Arith ZArith Reals Permutation Lia.
From Verif Require Import Prelude PreludeFacts Float Param Expr Coll CollGraph CollSpec CollProofs Mat Graph GraphSpec GraphView GraphForest GraphWf GraphCircuit GraphState GraphMaps GraphOps Symbolic SymbolicSpec SymbolicInv SymbolicCap SymbolicCap2 SymbolicFlux SymbolicParam SymbolicInit SymbolicNew SymbolicMat SymbolicProofs MutualSpec MutualProofs MutualEx GraphProofs.
Import ListNotations.
Open Scope string_scope.
Open Scope list_scope.
Open Scope nat_scope.

(** ** what a successful registration says about the names *)
Lemma param_default_legal nm p : param_default nm = Ok p -> legal nm.
Proof.
  unfold param_default, param_new. destruct (has_space nm) eqn:E; [discriminate|]. change (bounds_types_ok _ _) with true. cbv beta iota delta [negb].
  destruct (py_gt _ _); [discriminate|]. destruct (valid_scalar _); [|discriminate]. cbn [to_float bind]. destruct (flt _ _); [discriminate|].
  intros H. split; auto. destruct nm; [discriminate H|discriminate].
Qed.
Lemma addParameter_legal (st st' : cst tree_alg) nm o : (forall k, In k (dkeys (c_coll st)) -> legal k) -> addParameter st nm o = (st', Ok tt) ->
  legal nm /\ forall k, In k (dkeys (c_coll st')) -> legal k.
Proof.
  intros H. unfold addParameter. destruct (dmem (c_coll st) nm) eqn:E.
  - intros [= <-]. split; auto. apply H, mem_In, E.
  - destruct (param_default nm) as [p|] eqn:Ep; [|discriminate]. intros [= <-]. assert (L := param_default_legal nm p Ep). split; auto.
    cbn [c_coll]. intros k Hk. apply In_dkeys_dset in Hk as [->|Hk]; auto.
Qed.
Lemma stepM_err {A S} (f : S -> A -> S * res unit) l s x : fold_left (fun acc y => match acc with (s, Ok _) => f s y | e => e end) l (s, Err x) = (s, Err x).
Proof. induction l; cbn; auto. Qed.
Lemma add_all_legal l : forall st st', (forall k, In k (dkeys (c_coll st)) -> legal k) -> add_all l st = (st', Ok tt) ->
  (forall x, In x l -> legal (fst x)) /\ forall k, In k (dkeys (c_coll st')) -> legal k.
Proof.
  unfold add_all, stepM. induction l as [|x l IH]; intros st st' H; cbn [fold_left]; [intros [= <-]; split; auto; easy|].
  destruct (addParameter st (fst x) (snd x)) as [st1 [[]|e]] eqn:E.
  - destruct (addParameter_legal _ _ _ _ H E) as [L H1]. intros E'. destruct (IH _ _ H1 E') as [I1 I2]. split; auto. intros y [<-|Hy]; auto.
  - intros E'. exfalso. revert E'. clear. induction l as [|y l IH]; cbn [fold_left]; [discriminate|auto].
Qed.
Lemma flux_symbols_keyed s edges d : flux_symbols s edges = Ok d -> forall e, In e (dkeys (c_fbias s)) -> In e edges.
Proof.
  unfold flux_symbols.
  assert (K0 : forall l (acc : dict edge (list string)) e, In e (dkeys (fold_left (fun d e => dset d e []) l acc)) -> In e l \/ In e (dkeys acc)).
  { induction l as [|x l IH]; intros acc e; cbn [fold_left]; auto. intros H. apply IH in H as [H|H]; [left; right; auto|]. apply In_dkeys_dset in H as [->|H]; auto. left; left; auto. }
  assert (K : forall e, In e (dkeys (fold_left (fun (d : dict edge (list string)) e => dset d e []) edges [])) -> In e edges) by (intros e H; apply K0 in H as [H|[]]; auto).
  revert K. generalize (fold_left (fun (d : dict edge (list string)) e => dset d e []) edges []). clear K0.
  unfold dkeys at 2. induction (c_fbias s) as [|[e b] l IH]; intros d0 K; cbn [foldM map fst snd]; [easy|].
  destruct (dget d0 e) as [x|] eqn:E; [|discriminate]. cbn [bind]. intros H e' [<-|He']; [apply K; eapply dget_Some_key; eauto|].
  eapply IH; [|exact H|exact He']. intros a Ha. apply K. rewrite dkeys_dset_in in Ha; auto. eapply dget_Some_key; eauto.
Qed.
Lemma element_registered s c : Derived s -> has_resonators s = false -> In c (element_names s) -> In c (registered_names s).
Proof.
  intros HD Hr. unfold registered_names, element_names. rewrite !in_app_iff. intros [H|[H|[H|[H|H]]]]; auto.
  - left. eapply Permutation_in; [apply Permutation_sym, edge_map_vals, HD|]. exact H.
  - exfalso. apply in_flat_map in H as (r & Hr' & Hc). destruct r as [r|]; [|easy]. unfold has_resonators in Hr.
    assert (E : existsb (fun r => match r with Some _ => true | None => false end) (dvals (c_res s)) = true) by (apply existsb_exists; exists (Some r); auto). congruence.
Qed.

Section Exact.
  Variables (ord : ordr) (oracle : imat -> nat -> nat -> option tree) (s : cg).
  Hypothesis Hord : good_ord ord.
  Hypothesis Hc : circuit s.
  Let HD : Derived s := circuit_derived s Hc.
  Let nodes := sys_nodes s.
  Let edges := wcs s.
  Hypothesis Hres : has_resonators s = false.
  Hypothesis Horacle : symbols_from (List.length edges) oracle.
  Lemma exact_forward y : new_system ord oracle s = Some (Ok y) ->
    In 0 (g_nodes (c_graph s)) /\ (forall c, In c (element_names s) -> legal c) /\
    (forall b, In b (dvals (c_fbias s)) -> has_space (fb_suffix b) = false) /\ (forall b, In b (dvals (c_cbias s)) -> has_space (cb_suffix b) = false) /\
    (forall e, In e (dkeys (c_fbias s)) -> In e edges) /\ exists M, inductance_matrix s edges = Ok M.
  Proof.
    unfold new_system. destruct (mem 0 _) eqn:E0; [|discriminate]. apply mem_In in E0. cbn [negb]. rewrite (wcs_wc s HD), Hres. fold nodes edges. cbv zeta.
    destruct (add_all (map (fun c => (c, None)) (registered_names s)) _) as [st1 [[]|x1]] eqn:E1; [|discriminate]. unfold ok_st at 1. cbn [fst snd bind].
    apply add_all_legal in E1 as [L1 K1]; [|easy].
    destruct (flux_symbols s edges) as [fl|] eqn:Ef; [|discriminate]. cbn [bind].
    match goal with |- context[add_all ?l st1] => destruct (add_all l st1) as [st2 [[]|x2]] eqn:E2; [|discriminate] end. unfold ok_st at 1. cbn [fst snd bind].
    apply add_all_legal in E2 as [L2 K2]; [|auto].
    match goal with |- context[add_all ?l st2] => destruct (add_all l st2) as [st3 [[]|x3]] eqn:E3; [|discriminate] end. unfold ok_st at 1. cbn [fst snd bind].
    apply add_all_legal in E3 as [L3 K3]; [|auto].
    destruct (inductance_matrix s edges) as [M|] eqn:EM; [|discriminate]. intros _. split; auto. split; [|split; [|split; [|split]]].
    - intros c Hi. apply (element_registered s c HD Hres) in Hi. exact (L1 (c, None) (in_map (fun c => (c, None)) _ _ Hi)).
    - intros b Hb. assert (H := L2 _ (in_map (fun b => ("phi" ++ fb_suffix b, Some ("\Phi_{" ++ fb_suffix b ++ "}")))%string _ _ Hb)). exact (proj2 H).
    - intros b Hb. assert (H := L3 _ (in_map (fun b => ("Q" ++ cb_suffix b, Some ("Q_{" ++ cb_suffix b ++ "}")))%string _ _ Hb)). exact (proj2 H).
    - eapply flux_symbols_keyed; eauto.
    - eauto.
  Qed.
  Hypothesis Hground : In 0 (g_nodes (c_graph s)).
  Hypothesis Hun : unnumbered s "L" "i".
  Hypothesis Hlegal : forall c, In c (element_names s) -> legal c.
  Lemma matrix_symbols M st k l c : inductance_matrix s edges = Ok M -> fresh_st (registered_names s) st -> k < List.length edges -> l < List.length edges -> M k l = Some c ->
    c <> "" /\ starts "\" c = false /\ dget (c_sym st) c = Some (sym_of c) /\ ~ generated (mat_name "L" "i") (List.length nodes) c /\ (starts "L" c || starts "M" c) = true /\ In c (registered_names s).
  Proof.
    intros HM Hf Hk Hl E. rewrite (proj2 (matrix_entries s M Hc HM) k l Hk Hl) in E.
    assert (G : In c (registered_names s) /\ (starts "L" c || starts "M" c) = true).
    { destruct (find _ _) as [x|] eqn:Ef.
      - injection E as <-. apply find_some in Ef as [Hx _]. apply in_rev in Hx. assert (Hm : In (fst x) (dkeys (c_coupled s))) by (apply in_map; auto). split.
        + unfold registered_names. rewrite !in_app_iff. auto.
        + rewrite (i_mm s (reachable_Inv s (circuit_reachable s Hc)) _ Hm). apply orb_true_r.
      - destruct (Nat.eqb k l); [|discriminate]. destruct (ind_name_branch s HD _ _ E) as (b & Hb & <- & _). split.
        + apply element_registered; auto. apply (branch_element s "L"); auto.
        + unfold branches_of in Hb. apply filter_In in Hb as [_ HL]. unfold letter in HL. destruct (snd b) as [|a r]; [discriminate|]. apply Ascii.eqb_eq in HL. subst a. reflexivity. }
    destruct G as [G1 G2]. split; [destruct c; discriminate|]. split; [destruct c as [|a c]; [discriminate|]; cbn in G2 |- *; destruct (Ascii.eqb_spec a "\"%char) as [->|]; [discriminate|auto]|].
    split; [apply Hf; auto|]. split; [|auto]. intros (i & j & Hu & ->). apply upper_In in Hu. apply (registered_element s _ HD) in G1. exact (unnumbered_free s "L" "i" Hground Hun _ i j G1 Hu eq_refl).
  Qed.
  Lemma tree_symbols M st i j e sy : inductance_matrix s edges = Ok M -> fresh_st (registered_names s) st -> linv_tree oracle s nodes edges M i j = Some e -> In sy (tfree e) ->
    exists c, sy = sym_of c /\ c <> "" /\ starts "\" c = false /\ dget (c_sym st) c = Some sy /\ ~ generated (mat_name "L" "i") (List.length nodes) c /\ (starts "L" c || starts "M" c) = true /\ In c (registered_names s).
  Proof.
    intros HM Hf HL Hsy. assert (G : exists k l c, k < List.length edges /\ l < List.length edges /\ M k l = Some c /\ sy = sym_of c).
    { unfold linv_tree in HL. destruct (c_coupled s) eqn:Ec; [|exact (Horacle M i j e sy HL Hsy)].
      destruct (lin_tree_free _ _ _ HL Hsy) as (t & z & Ht & Hx). rewrite linv_diag_all in Ht. apply ladd_all_terms in Ht as [(k & c & Hk & HMk & E)|(y & [] & _)].
      cbn [fst] in E. subst t. apply term_tree_free in Hx. apply in_seq in Hk. exists k, k, c. split; [lia|]. split; [lia|auto]. }
    destruct G as (k & l & c & Hk & Hl & E & ->). destruct (matrix_symbols M st k l c HM Hf Hk Hl E) as (G1 & G2 & G3 & G4 & G5 & G6). exists c. split; [reflexivity|]. repeat (split; [assumption|]). assumption.
  Qed.
  Hypothesis Hfsfx : forall b, In b (dvals (c_fbias s)) -> has_space (fb_suffix b) = false.
  Hypothesis Hcsfx : forall b, In b (dvals (c_cbias s)) -> has_space (cb_suffix b) = false.
  Hypothesis Hedges : forall e, In e (dkeys (c_fbias s)) -> In e edges.
  Lemma exact_backward M : inductance_matrix s edges = Ok M -> exists y, new_system ord oracle s = Some (Ok y) /\ ss_cg y = s /\ ss_nodes y = nodes /\ ss_edges y = edges.
  Proof.
    intros HM. unfold new_system. rewrite (proj2 (mem_In _ _) Hground). cbn [negb]. rewrite (wcs_wc s HD), Hres. fold nodes edges.
    destruct (add_all_plain (registered_names s) [] (mkcst [] [] [] [] [])) as (st1 & E1 & F1).
    { split; cs; try easy. split; cs; try constructor; try easy. intros x Hx. apply path_out in Hx as (b & []). }
    { easy. } { apply Forall_forall. intros c Hi. apply Hlegal, (registered_element s c HD), Hi. }
    cbv zeta. rewrite E1. unfold ok_st. cbn [fst snd bind app] in *. destruct (flux_symbols_ok s Hedges) as (fl & Efl). fold edges in Efl. rewrite Efl. cbn [bind].
    match goal with |- context[add_all ?l st1] => destruct (add_all_over l _ st1 F1) as (st2 & E2 & F2) end.
    { apply Forall_forall. intros x Hx. apply in_map_iff in Hx as (b & <- & Hb). cbn [fst snd]. split; [split; [discriminate|cbn; auto]|]. eexists. split; [reflexivity|]. right. split; reflexivity. }
    rewrite E2. cbn [fst snd bind].
    match goal with |- context[add_all ?l st2] => destruct (add_all_over l _ st2 F2) as (st3 & E3 & F3) end.
    { apply Forall_forall. intros x Hx. apply in_map_iff in Hx as (b & <- & Hb). cbn [fst snd]. split; [split; [discriminate|cbn; auto]|]. eexists. split; [reflexivity|]. left. reflexivity. }
    rewrite E3. cbn [fst snd bind]. rewrite HM. cbn [bind].
    set (L := fun i j => linv_tree oracle s nodes edges M i j).
    assert (Hr : ready (mat_name "L" "i") (List.length nodes) L (fun c => (starts "L" c || starts "M" c) = true) (fun _ => False) (registered_names s) st3).
    { split.
      - apply F3.
      - apply F3.
      - intros i j e sy Hu HL Hsy. eapply tree_symbols; eauto.
      - rewrite (f_edges _ _ F3). easy.
      - apply F3.
      - rewrite (f_par _ _ F3). easy.
      - rewrite (f_par _ _ F3). discriminate. }
    assert (Hname : forall i j, mat_name "L" "i" i j <> "" /\ has_space (mat_name "L" "i" i j) = false /\ starts "\" (mat_name "L" "i" i j) = false).
    { intros i j. split; [discriminate|]. split; [apply mat_name_no_space; auto|reflexivity]. }
    destruct (parameterise_ok ord (mat_name "L" "i") (List.length nodes) L Hord Hname _ _ _ st3 Hr) as (st4 & E4 & Hr4). change (linv_tree oracle s nodes edges M) with L. rewrite E4. cbn [fst snd bind].
    destruct (modes_total (fun i j => match L i j with None => true | Some _ => false end) nodes) as (d & Ed & _); [apply nodes_NoDup with (s := s); auto|]. rewrite Ed. cbn [bind].
    eexists. split; [reflexivity|]. auto.
  Qed.
End Exact.

Theorem new_exact ord oracle s edges : good_ord ord -> circuit s -> c_wc s = Some edges -> has_resonators s = false -> symbols_from (List.length edges) oracle -> unnumbered s "L" "i" ->
  ((exists y, new_system ord oracle s = Some (Ok y)) <->
   In 0 (g_nodes (c_graph s)) /\ (forall c, In c (element_names s) -> c <> "" /\ spaceless c) /\
   (forall e b, dget (c_fbias s) e = Some b -> spaceless (fb_suffix b) /\ In e edges /\ (holds_inductor s e -> fb_mutual b = None)) /\
   (forall n b, dget (c_cbias s) n = Some b -> spaceless (cb_suffix b)) /\
   (forall m p q, In (m, (p, q)) (c_coupled s) -> In p edges /\ In q edges)).
Proof.
  intros Hord Hc He Hres Hor Hun. assert (HD := circuit_derived s Hc). assert (HI := reachable_Inv s (circuit_reachable s Hc)). assert (Ee : edges = wcs s) by (rewrite (wcs_wc s HD) in He; congruence). subst edges.
  assert (HM := mutual_defined_exact s (wcs s) Hc He).
  assert (Vf : forall b, In b (dvals (c_fbias s)) <-> exists e, dget (c_fbias s) e = Some b).
  { intros b. split; [|intros (e & E); apply dget_In in E; apply (in_map snd) in E; auto]. intros Hb. apply in_map_iff in Hb as ((e & b') & <- & Hb). exists e. apply In_dget; auto. apply HI. }
  assert (Vc : forall b, In b (dvals (c_cbias s)) <-> exists e, dget (c_cbias s) e = Some b).
  { intros b. split; [|intros (e & E); apply dget_In in E; apply (in_map snd) in E; auto]. intros Hb. apply in_map_iff in Hb as ((e & b') & <- & Hb). exists e. apply In_dget; auto. apply HI. }
  split.
  - intros (y & E). destruct (exact_forward ord oracle s Hc Hres y E) as (G1 & G2 & G3 & G4 & G5 & G6). apply HM in G6 as [G6 G7].
    split; auto. split; [intros c Hi; destruct (G2 c Hi); split; auto; apply spaceless_spec; auto|].
    split; [|split; auto].
    + intros e b Eb. split; [apply spaceless_spec, G3, Vf; eauto|]. assert (Hin : In e (wcs s)) by (apply G5; eapply dget_Some_key; eauto). split; auto.
      intros Hh. destruct (fb_mutual b) as [m|] eqn:Em; auto. exfalso. exact (G6 e b m Hin Hh Eb Em).
    + intros n b Eb. apply spaceless_spec, G4, Vc. eauto.
  - intros (G1 & G2 & G3 & G4 & G5). destruct (proj2 HM) as (M & EM).
    { split; auto. intros e b m Hi Hh Eb Em. destruct (G3 e b Eb) as (_ & _ & G). rewrite (G Hh) in Em. discriminate. }
    destruct (exact_backward ord oracle s Hord Hc Hres Hor G1 Hun) with (M := M) as (y & E & _); eauto.
    + intros c Hi. destruct (G2 c Hi). split; auto. apply spaceless_spec; auto.
    + intros b Hb. apply Vf in Hb as (e & Eb). apply spaceless_spec. apply (G3 e b Eb).
    + intros b Hb. apply Vc in Hb as (e & Eb). apply spaceless_spec. eauto.
    + intros e Hi. apply dkeys_dget in Hi as (b & Eb). apply (G3 e b Eb).
Qed.

(** ** calls after the last branch *)
Record tidy (s : cg) : Prop := {
  t_names : forall b, In b (g_edges (c_graph s)) -> legal (snd b);
  t_coup : forall m, In m (dkeys (c_coupled s)) -> legal m;
  t_flux : forall b, In b (dvals (c_fbias s)) -> fb_mutual b = None /\ has_space (fb_suffix b) = false;
  t_charge : forall b, In b (dvals (c_cbias s)) -> has_space (cb_suffix b) = false /\ forall c, cb_cap b = Some c -> legal c
}.
Lemma tidy_step s o : map_sound s -> tidy s -> late_call o -> Forall spaceless (call_strings o) -> tidy (fst (gstep s o)).
Proof.
  intros HM [H1 H2 H3 H4] Ho Hs. destruct o as [oo a b c|i1 i2 m|n c| |c sfx m|n sfx c]; [destruct Ho| | | | |]; cbn [gstep].
  - destruct (coupleBranches s i1 i2 m) as [s' r] eqn:E. cbn [fst]. destruct (couple_inv s i1 i2 m HM) as [(x & E')|(p & q & E' & _)]; rewrite E' in E; injection E as <- _; [split; auto|]. split; cbn [set_coupled c_coupled c_graph c_fbias c_cbias]; auto.
    intros m' Hm'. unfold dkeys in Hm'. rewrite map_app in Hm'. apply in_app_or in Hm' as [Hm'|[<-|[]]]; auto. cbn [fst].
    cbn [call_strings] in Hs. apply Forall_cons_iff in Hs as [_ Hs]. apply Forall_cons_iff in Hs as [_ Hs]. apply Forall_cons_iff in Hs as [Hs _]. split; [|apply spaceless_spec; auto].
    intros ->. discriminate E'.
  - destruct (res_result s n c) as [(r & -> & _)|(x & ->)]; cbn [fst]; split; auto.
  - split; auto.
  - cbn [late_call] in Ho. subst m. destruct (flux_result s c sfx None) as [(e & b & -> & Hd & Hq & Hsf & Hm)|(x & ->)]; cbn [fst]; [|split; auto]. split; cbn [set_fbias c_coupled c_graph c_fbias c_cbias]; auto.
    intros b' Hb. apply dvals_dset in Hb as [->|Hb]; auto. split; auto. subst sfx. cbn [call_strings arg_strings] in Hs. apply Forall_cons_iff in Hs as [_ Hs]. apply Forall_cons_iff in Hs as [Hs _]. apply spaceless_spec; auto.
  - destruct (addChargeBias s n sfx c) as [s' r] eqn:E. cbn [fst]. revert E. unfold addChargeBias.
    destruct (negb _); [intros [= <- _]; split; auto|]. destruct sfx as [x|]; [|intros [= <- _]; split; auto]. destruct (8 <? _); [intros [= <- _]; split; auto|].
    match goal with |- context[bind ?q _] => destruct q as [[]|] eqn:Eq end; cbn [bind]; [|intros [= <- _]; split; auto].
    destruct (dmem _ _); [intros [= <- _]; split; auto|]. destruct (mem _ _); [intros [= <- _]; split; auto|]. intros [= <- _].
    split; cbn [set_cbias c_coupled c_res c_graph c_fbias c_cbias]; auto. intros b Hb. apply dvals_dset in Hb as [->|Hb]; auto. cbn [cb_suffix cb_cap].
    cbn [call_strings arg_strings app] in Hs. apply Forall_cons_iff in Hs as [Hx Hs]. split; [apply spaceless_spec; auto|]. intros c' ->. cbn [opt_list] in Hs. apply Forall_cons_iff in Hs as [Hs _].
    split; [destruct c'; [discriminate|discriminate]|apply spaceless_spec; auto].
Qed.
Lemma late_other o : late_call o -> is_branch o = false.
Proof. destruct o; easy. Qed.
Lemma late_run l : forall s, circuit s -> tidy s -> (forall e, In e (dkeys (c_fbias s)) -> In e (wcs s)) -> Forall late_call l -> Forall (fun o => Forall spaceless (call_strings o)) l ->
  circuit (grun s l) /\ tidy (grun s l) /\ c_graph (grun s l) = c_graph s /\ (forall e, In e (dkeys (c_fbias (grun s l))) -> In e (wcs (grun s l))).
Proof.
  induction l as [|o l IH]; intros s Hc Hp Hk Hb Hs; [auto|]. apply Forall_cons_iff in Hb as [Hb Hbs]. apply Forall_cons_iff in Hs as [Hs Hss].
  assert (Hc' : circuit (fst (gstep s o))) by (apply circ_other; auto using late_other).
  assert (P1 := tidy_step s o (u_map s (reachable_CInv s (circuit_reachable s Hc))) Hp Hb Hs).
  assert (HD := circuit_derived s Hc). assert (HD' := circuit_derived _ Hc').
  destruct (gstep_other s o (late_other o Hb)) as (P2 & G). assert (P3 : c_wc (fst (gstep s o)) = c_wc s) by tauto. clear G.
  destruct (IH (fst (gstep s o))) as (I1 & I2 & I3 & I4); auto.
  - rewrite (wcs_same s _ HD HD' P3). destruct o as [oo a b c|i1 i2 m|n c| |c sfx m|n sfx c]; try easy; cbn [gstep] in *.
    + destruct (couple_inv s i1 i2 m (u_map s (reachable_CInv s (circuit_reachable s Hc)))) as [(x & ->)|(p & q & -> & _)]; auto.
    + destruct (res_result s n c) as [(r & -> & _)|(x & ->)]; auto.
    + apply flux_edge_in_wc; auto. apply reachable_Inv, circuit_reachable; auto.
    + destruct (charge_result s n sfx c) as [(b & -> & _)|(x & ->)]; auto.
  - unfold grun in *. cbn [fold_left]. rewrite I3, P2. auto.
Qed.
Theorem calls_ok ord oracle l1 l2 edges : let s := grun cg_new (l1 ++ l2) in
  good_ord ord -> l1 <> [] -> Forall valid_op l1 -> Forall (fun o => is_branch o = true) l1 -> Forall late_call l2 -> Forall (fun o => Forall spaceless (call_strings o)) (l1 ++ l2) -> accepted cg_new (l1 ++ l2) ->
  In 0 (g_nodes (c_graph s)) -> has_resonators s = false -> no_lone_selfloop (noncap (c_graph s)) -> unnumbered s "L" "i" -> c_wc s = Some edges -> symbols_from (List.length edges) oracle ->
  exists y, new_system ord oracle s = Some (Ok y) /\ ss_cg y = s /\ ss_nodes y = sys_nodes s /\ ss_edges y = edges.
Proof.
  intros s Hord Hl Hv Hb Hlate Hs Ha Hg Hres Hlone Hun He Hor. apply Forall_app in Hs as [Hs1 Hs2]. apply accepted_app in Ha as [Ha1 Ha2].
  assert (P0 : plain cg_new) by (split; cbn; easy). destruct (branches_run l1 cg_new P0 eq_refl Hb Hs1 Ha1) as [P1 F1].
  assert (C1 : circuit (grun cg_new l1)) by (apply branches_circuit; auto; constructor). assert (T1 : tidy (grun cg_new l1)).
  { destruct P1 as [Q1 Q2 Q3 Q4 Q5]. split; auto. rewrite Q1. easy. }
  destruct (late_run l2 (grun cg_new l1) C1 T1) as (C2 & T2 & G2 & K); auto; [rewrite F1; easy|].
  assert (Es : s = grun (grun cg_new l1) l2) by (unfold s; apply grun_app).
  assert (Cur : coupled_current s).
  { rewrite Es. apply current_run; auto. rewrite <- G2, <- Es. auto. eapply Forall_impl; [|exact Hlate]. apply late_other. intros m p q. rewrite (p_coup _ P1). easy. }
  rewrite <- Es in *. clearbody s. assert (HD := circuit_derived s C2). assert (Ee : edges = wcs s) by (rewrite (wcs_wc s HD) in He; congruence). subst edges.
  assert (HM : exists M, inductance_matrix s (wcs s) = Ok M).
  { apply (mutual_defined_exact s (wcs s) C2 He). split; auto. intros e b m _ _ Hb' Em. apply dget_In in Hb'. apply (in_map snd) in Hb'. apply (t_flux s T2) in Hb' as [Hb' _]. cbn [snd] in Hb'. congruence. }
  destruct HM as (M & HM).
  destruct (exact_backward ord oracle s Hord C2 Hres Hor Hg Hun) with (M := M) as (y & E & E1 & E2 & E3); eauto.
  - destruct T2 as [Q1 Q2 Q3 Q4]. intros c Hi. apply (element_registered s c HD Hres) in Hi. unfold registered_names in Hi. rewrite !in_app_iff in Hi. destruct Hi as [Hi|[Hi|[Hi|Hi]]]; auto.
    + eapply Permutation_in in Hi; [|apply edge_map_vals, HD]. apply in_map_iff in Hi as (b & <- & Hb'). auto.
    + apply in_flat_map in Hi as (b & Hb' & Hi). destruct (cb_cap b) as [c'|] eqn:Ec; [|easy]. destruct Hi as [<-|[]]. apply (Q4 b Hb'); auto.
    + apply in_flat_map in Hi as (b & Hb' & Hi). rewrite (proj1 (Q3 b Hb')) in Hi. easy.
  - intros b Hb'. exact (proj2 (t_flux s T2 b Hb')).
  - intros b Hb'. exact (proj1 (t_charge s T2 b Hb')).
Qed.

(** ** witnesses *)
Definition small_oracle (n : nat) (M : imat) (i j : nat) : option tree :=
  if (i <? n) && (j <? n) then match M i j with Some c => Some (TMul (TSym (sym_of c)) (TSym (sym_of c))) | None => None end else None.
Lemma small_oracle_ok n : symbols_from n (small_oracle n).
Proof.
  intros M i j e sy. unfold small_oracle. destruct (Nat.ltb_spec i n); [|discriminate]. destruct (Nat.ltb_spec j n); [|discriminate]. cbn [andb]. destruct (M i j) as [c|] eqn:E; [|discriminate].
  intros [= <-]. cbn [tfree]. rewrite dedup_In. cbn [app]. intros H1. exists i, j, c. repeat split; auto. cbn in H1. intuition congruence.
Qed.
Definition Lc2 : list gop := [GCouple "L1" "L2" "M1"; GFlux "L2" (PStr "a") None; GRes 1 "Cr"; GCharge 2 (PStr "g") (Some "Cg"); GRemoveRes].
Lemma calls_witness : let s := grun cg_new (Lsq ++ Lc2) in
  Lsq <> [] /\ Forall valid_op Lsq /\ Forall (fun o => is_branch o = true) Lsq /\ Forall late_call Lc2 /\ Forall (fun o => Forall spaceless (call_strings o)) (Lsq ++ Lc2) /\ accepted cg_new (Lsq ++ Lc2) /\
  In 0 (g_nodes (c_graph s)) /\ has_resonators s = false /\ no_lone_selfloop (noncap (c_graph s)) /\ unnumbered s "L" "i" /\ c_wc s = Some [(0, 1, 0); (1, 2, 0); (2, 1, 1)] /\
  c_coupled s <> [] /\ dkeys (c_fbias s) = [(1, 2, 0)] /\ circuit s.
Proof.
  cbv zeta. split; [discriminate|]. split; [vops|]. split; [other|]. split; [repeat (apply Forall_cons; [first [exact I|reflexivity]|]); apply Forall_nil|].
  split; [repeat (apply Forall_cons; [repeat (apply Forall_cons; [repeat split; discriminate|]); apply Forall_nil|]); apply Forall_nil|].
  split; [vacc|]. split; [vm_compute; auto|]. split; [vm_compute; reflexivity|].
  split. { intros e He Hs. exfalso. assert (E : noncap (c_graph (grun cg_new (Lsq ++ Lc2))) = [(0, 1, 0); (1, 2, 0); (1, 2, 1)]) by (vm_compute; reflexivity). rewrite E in He.
    destruct He as [<-|[<-|[<-|[]]]]; discriminate Hs. }
  split. { assert (E : element_names (grun cg_new (Lsq ++ Lc2)) = ["L1"; "L2"; "I1"; "M1"; "Cg"] /\ List.length (g_nodes (c_graph (grun cg_new (Lsq ++ Lc2)))) = 3) by (vm_compute; auto). destruct E as [E1 E2].
    unfold unnumbered. rewrite E1, E2. intros c i j Hc Hij Hj. assert (Hi : i < 2) by lia. assert (Hj' : j < 2) by lia. destruct i as [|[|i]]; [| |lia]; (destruct j as [|[|j]]; [| |lia]); intros H; subst c; cbn in Hc; intuition discriminate. }
  split; [vm_compute; reflexivity|]. split; [vm_compute; discriminate|]. split; [vm_compute; reflexivity|]. apply (circuit_more Lsq Lc2); [exact Lsq_circuit|other].
Qed.
