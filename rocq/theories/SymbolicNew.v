(** Histories that can be turned into a SymbolicSystem (C50), moving a flux
    bias (C53), existence of the pseudo-inverse used in C48 and C49. *)
From Coq Require Import List Bool String Ascii Arith ZArith Reals Permutation Lia Lra.
From Verif Require Import Prelude PreludeFacts Float Param Expr Coll CollGraph CollSpec CollProofs Mat MatFacts Graph GraphSpec GraphView GraphForest GraphWf GraphCircuit GraphState GraphMaps GraphOps GraphProofs Symbolic SymbolicSpec RSum SymbolicInv SymbolicCap SymbolicCap2 SymbolicFlux SymbolicParam SymbolicInit.
Import ListNotations.
Open Scope string_scope.
Open Scope list_scope.
Open Scope nat_scope.

Lemma NoDup_map_inv {A B} (f : A -> B) l : NoDup (map f l) -> NoDup l.
Proof.
  induction l as [|x l IH]; cbn; [constructor|]. intros H. apply NoDup_cons_iff in H as [H1 H2]. constructor; auto. intros Hx. apply H1, in_map, Hx.
Qed.
Lemma NoDup_map_filter {A B} (f : A -> B) p l : NoDup (map f l) -> NoDup (map f (filter p l)).
Proof.
  induction l as [|x l IH]; cbn; auto. intros H. apply NoDup_cons_iff in H as [H1 H2]. destruct (p x); cbn; auto. constructor; auto. intros Hx. apply H1.
  apply in_map_iff in Hx as (y & <- & Hy). apply in_map. apply filter_In in Hy as [Hy _]. auto.
Qed.
Lemma wcs_NoDup s : Derived s -> NoDup (wcs s).
Proof.
  intros HD. apply (NoDup_map_inv norm). eapply Permutation_NoDup; [apply Permutation_map, Permutation_sym, (wcs_perm s HD)|].
  eapply Permutation_NoDup; [apply Permutation_sym, (tree_clos_split s HD)|]. apply NoDup_map_filter.
  assert (H : NoDup (map (fun b => norm (fst b)) (g_edges (c_graph s)))) by apply HD.
  unfold noncap. rewrite map_map. apply NoDup_map_filter. auto.
Qed.

(** ** the pseudo-inverse of the inductance matrix exists *)
Lemma penrose_ext n A A' P : (forall i j, i < n -> j < n -> A i j = A' i j) -> penrose n A' P -> penrose n A P.
Proof.
  intros HA HP. assert (E1 : forall i j, i < n -> j < n -> mmul (A := R_rng) n A P i j = mmul (A := R_rng) n A' P i j).
  { intros i j Hi Hj. unfold mmul. apply (@sumn_ext R_rng). intros k Hk. rewrite HA; auto. }
  assert (E2 : forall i j, i < n -> j < n -> mmul (A := R_rng) n P A i j = mmul (A := R_rng) n P A' i j).
  { intros i j Hi Hj. unfold mmul. apply (@sumn_ext R_rng). intros k Hk. rewrite HA; auto. }
  intros i j Hi Hj. destruct (HP i j Hi Hj) as (H1 & H2 & H3 & H4). split; [|split; [|split]].
  - rewrite HA by auto. rewrite <- H1. unfold mmul at 1 3. apply (@sumn_ext R_rng). intros k Hk. rewrite E1, HA; auto.
  - rewrite <- H2. unfold mmul at 1 3. apply (@sumn_ext R_rng). intros k Hk. rewrite E2; auto.
  - rewrite !E1; auto.
  - rewrite !E2; auto.
Qed.
Lemma penrose_diag n D : penrose n (diagm D) (diagm (fun i => if Req_EM_T (D i) 0 then 0%R else / D i)%R).
Proof.
  intros i j Hi Hj. rewrite !diag_r by auto. unfold diagm.
  assert (K : forall x, (x * (if Req_EM_T x 0 then 0 else / x) * x = x)%R) by (intros x; destruct (Req_EM_T x 0) as [->|]; [ring|field; auto]).
  assert (K2 : forall x, ((if Req_EM_T x 0 then 0 else / x) * x * (if Req_EM_T x 0 then 0 else / x) = (if Req_EM_T x 0 then 0 else / x))%R) by (intros x; destruct (Req_EM_T x 0) as [->|]; [ring|field; auto]).
  destruct (Nat.eqb_spec i j) as [<-|Hne].
  - rewrite Nat.eqb_refl. repeat split; auto. 
  - destruct (Nat.eqb_spec j i); [congruence|]. repeat split; match goal with |- @eq _ ?a ?b => change (@eq R a b) end; ring.
Qed.
Lemma pinv_exists s val M : Derived s -> c_coupled s = [] -> inductance_matrix s (wcs s) = Ok M -> exists P, penrose (List.length (wcs s)) (imat_val val M) P.
Proof.
  intros HD Hc HM. set (D := fun i => match ind_name s (nth i (wcs s) noedge) with Some c => val c | None => 0%R end).
  eexists. eapply penrose_ext; [|apply (penrose_diag _ D)]. intros i j Hi Hj. unfold imat_val, diagm, D. rewrite (inductance_entries s (wcs s) M Hc HM).
  apply Nat.ltb_lt in Hi. rewrite Hi, andb_true_r. destruct (Nat.eqb i j); auto.
Qed.

(** ** moving a flux bias *)
Record moves_inv (y : ssys) : Prop := {
  m_circ : circuit (ss_cg y);
  m_edges : c_wc (ss_cg y) = Some (ss_edges y);
  m_keys : dkeys (ss_flux y) = ss_edges y;
  m_red : ss_red y = ss_flux y
}.
Lemma flux_symbols_keys s edges d : NoDup edges -> flux_symbols s edges = Ok d -> dkeys d = edges.
Proof.
  intros Hnd. unfold flux_symbols.
  assert (E0 : forall l (acc : dict edge (list string)), NoDup (dkeys acc ++ l) -> dkeys (fold_left (fun d e => dset d e []) l acc) = dkeys acc ++ l).
  { induction l as [|e l IH]; intros acc Ha; cbn [fold_left]; [rewrite app_nil_r; auto|].
    assert (He : ~ In e (dkeys acc)). { intros He. apply NoDup_remove_2 in Ha. apply Ha, in_or_app. auto. }
    rewrite IH; rewrite dkeys_dset_new by auto; rewrite <- app_assoc; auto. }
  intros H. rewrite <- (E0 edges [] Hnd : _ = edges). revert H. generalize (fold_left (fun (d : dict edge (list string)) e => dset d e []) edges []). clear. intros d0.
  revert d0. induction (c_fbias s) as [|[e b] l IH]; intros d0; cbn [foldM]; [intros [= ->]; auto|]. cbn [fst snd].
  destruct (dget d0 e) as [x|] eqn:E; [|discriminate]. cbn [bind]. intros H. apply IH in H. rewrite H, dkeys_dset_in; auto. eapply dget_Some_key; eauto.
Qed.
Lemma new_system_inv ord oracle s y : circuit s -> new_system ord oracle s = Some (Ok y) -> moves_inv y.
Proof.
  intros Hc. assert (HD := circuit_derived s Hc). unfold new_system. destruct (negb _); [discriminate|]. rewrite (wcs_wc s HD). destruct (has_resonators s); [discriminate|]. cbv zeta.
  destruct (ok_st _) as [st1|]; [|discriminate]. cbn [bind]. destruct (flux_symbols s (wcs s)) as [fl|] eqn:Ef; [|discriminate]. cbn [bind].
  repeat (match goal with |- context[ok_st ?x] => destruct (ok_st x); [|discriminate]; cbn [bind] | |- context[bind ?x _] => destruct x; [|discriminate]; cbn [bind] end).
  intros H. injection H as <-. split; cbn [ss_cg ss_edges ss_flux ss_red]; auto. apply wcs_wc; auto. apply (flux_symbols_keys s); auto. apply wcs_NoDup; auto.
Qed.
Lemma concat_split {K V} `{EqB K} (d : dict K (list V)) k x : NoDup (dkeys d) -> dget d k = Some x -> forall v, Permutation (x ++ List.concat (dvals (dset d k v))) (v ++ List.concat (dvals d)).
Proof.
  induction d as [|[k' v'] d IH]; cbn [dget]; [discriminate|]. intros Hn Hg v. cbn [dset]. cbn [dkeys map fst] in Hn. apply NoDup_cons_iff in Hn as [Hn1 Hn2].
  destruct (eqb_spec k k') as [<-|Hne].
  - injection Hg as ->. cbn. rewrite !app_assoc. apply Permutation_app_tail, Permutation_app_comm.
  - cbn. rewrite app_assoc. rewrite (Permutation_app_comm x v'), <- app_assoc. rewrite (IH Hn2 Hg v). rewrite !app_assoc. apply Permutation_app_tail, Permutation_app_comm.
Qed.
Lemma move_ok y a b x : moves_inv y -> In a (ss_edges y) -> In b (ss_edges y) -> dget (ss_flux y) a = Some x -> x <> [] ->
  exists y', moveFluxBias y a b = (y', Ok tt) /\ moves_inv y' /\ ss_edges y' = ss_edges y /\
    (forall e, dget (ss_flux y') e = if eqb e b then Some x else if eqb e a then Some [] else dget (ss_flux y) e) /\
    forall z, dget (ss_flux y) b = Some z -> Permutation (bias_terms y) (bias_terms y' ++ if eqb a b then [] else z).
Proof.
  intros [H1 H2 H3 H4] Ha Hb Hx Hn. unfold moveFluxBias. rewrite (proj2 (mem_In _ _) Ha), (proj2 (mem_In _ _) Hb). cbn [negb]. rewrite H4, Hx.
  assert (HD := circuit_derived _ H1).
  assert (Hi : exists t, isInductiveEdge (ss_cg y) b = Ok t).
  { rewrite (wcs_wc _ HD) in H2. injection H2 as H2. rewrite <- H2 in Hb. destruct (wcs_carry _ HD b Hb) as (c & Hc & Hq). apply (map_get _ HD) in Hc. unfold isInductiveEdge, is_type. rewrite Hc. destruct c; [|eauto].
    exfalso. assert (Ec : component_of (ss_cg y) b = Ok "") by (unfold component_of; rewrite Hc; auto). destruct (param_comp _ HD b "" Ec) as (_ & _ & P3). discriminate P3. }
  destruct Hi as (t & Et). assert (Hka : In a (dkeys (ss_flux y))) by (rewrite H3; auto). assert (Hkb : In b (dkeys (ss_flux y))) by (rewrite H3; auto).
  assert (Hnd : NoDup (dkeys (ss_flux y))). { rewrite H3. rewrite (wcs_wc _ HD) in H2. injection H2 as <-. apply wcs_NoDup; auto. }
  assert (Hk1 : dkeys (dset (ss_flux y) a []) = dkeys (ss_flux y)) by (apply dkeys_dset_in; auto).
  eexists. split; [destruct x; [easy|]; rewrite Et; reflexivity|]. split; [|split; [|split]]; cbn [set_bias ss_edges ss_flux]; auto.
  - split; cbn [set_bias ss_cg ss_edges ss_flux ss_red]; auto. rewrite dkeys_dset_in; congruence.
  - intros e. rewrite !dget_dset. auto.
  - intros z Hz. unfold bias_terms. cbn [ss_flux set_bias].
    assert (Q1 := concat_split (ss_flux y) a x Hnd Hx []). cbn [app] in Q1.
    assert (Hz' : dget (dset (ss_flux y) a []) b = Some (if eqb a b then [] else z)). { rewrite dget_dset. destruct (eqb_spec b a) as [->|N]; [rewrite eqb_refl; auto|]. destruct (eqb_spec a b); [congruence|auto]. }
    assert (Q2 := concat_split (dset (ss_flux y) a []) b _ (eq_ind_r (@NoDup _) Hnd Hk1) Hz' x).
    rewrite <- Q1. rewrite <- Q2. apply Permutation_app_comm.
Qed.
Lemma move_rejected y a b : moves_inv y -> (~ In a (ss_edges y) \/ ~ In b (ss_edges y) \/ dget (ss_flux y) a = Some []) -> moveFluxBias y a b = (y, Err PlainException).
Proof.
  intros [H1 H2 H3 H4] H. unfold moveFluxBias. destruct (mem a (ss_edges y)) eqn:Ea; [|reflexivity]. destruct (mem b (ss_edges y)) eqn:Eb; [|reflexivity]. cbn [negb].
  apply mem_In in Ea, Eb. destruct H as [H|[H| ->]]; [easy|easy|reflexivity].
Qed.
Lemma system_inv y : system y -> moves_inv y.
Proof.
  induction 1 as [ord oracle s y Hc Hn|y a b Hy IH]; [eapply new_system_inv; eauto|].
  destruct (mem_In_dec a (ss_edges y)) as [Ha|Ha]; [|rewrite move_rejected; auto].
  destruct (mem_In_dec b (ss_edges y)) as [Hb|Hb]; [|rewrite move_rejected; auto].
  assert (Hk : In a (dkeys (ss_flux y))) by (rewrite (m_keys y IH); auto). apply dkeys_dget in Hk as (x & Hx). destruct x as [|t x]; [rewrite move_rejected; auto|].
  destruct (move_ok y a b _ IH Ha Hb Hx) as (y' & -> & H & _); auto. discriminate.
Qed.

(** ** accepted histories of branches followed by biases *)
Lemma spaceless_spec c : spaceless c <-> has_space c = false.
Proof. induction c as [|a r IH]; cbn; [tauto|]. rewrite orb_false_iff, <- IH, Ascii.eqb_neq. tauto. Qed.
Record plain (s : cg) : Prop := {
  p_coup : c_coupled s = [];
  p_res : forall r, In r (dvals (c_res s)) -> r = None;
  p_names : forall b, In b (g_edges (c_graph s)) -> legal (snd b);
  p_mut : forall b, In b (dvals (c_fbias s)) -> fb_mutual b = None /\ has_space (fb_suffix b) = false;
  p_cb : forall b, In b (dvals (c_cbias s)) -> has_space (cb_suffix b) = false /\ forall c, cb_cap b = Some c -> legal c
}.
Lemma branch_plain oo s a b c : plain s -> spaceless c -> snd (addBranch oo s a b c) = Ok tt -> plain (fst (addBranch oo s a b c)).
Proof.
  intros [H1 H2 H3 H4 H5] Hs. destruct (branch_keeps oo s a b c) as (E1 & E2 & E3 & E4 & E5).
  destruct (addBranch_cases oo s a b c) as [(_ & e & E)|[(_ & _ & E)|(Hv & _ & E)]]; rewrite E; try (cbn; discriminate).
  destruct (update_graph_same oo (set_graph s (added s a b c) (both_ways (edge_map (added s a b c))))) as (U1 & U2 & U3 & U4 & U5 & U6).
  destruct (update_graphs _ _) as [s1 [[]|e]]; cbn [fst snd set_res c_res c_graph set_graph c_fbias c_cbias c_coupled] in *; [intros _|discriminate].
  split; cbn [c_coupled c_res c_graph c_fbias c_cbias set_res]; rewrite ?U1, ?U3, ?U4, ?U5, ?U6; auto.
  - intros r. unfold ensure_res. assert (G : forall (d : dict nat (option resonator)) n, In r (dvals (if dmem d n then d else dset d n None)) -> r = None \/ In r (dvals d)). { intros d n. destruct (dmem d n); auto. apply dvals_dset. }
    intros Hr. apply G in Hr as [|Hr]; auto. apply G in Hr as [|Hr]; auto.
  - intros br Hbr. unfold added, add_edge in Hbr. cbn [fst g_edges] in Hbr. apply in_app_or in Hbr as [Hbr|[<-|[]]]; auto. cbn [snd]. split; [|apply spaceless_spec; auto]. destruct c; [discriminate|discriminate].
Qed.
Lemma bias_plain s o : plain s -> bias_call o -> Forall spaceless (call_strings o) -> plain (fst (gstep s o)) /\ c_graph (fst (gstep s o)) = c_graph s /\ c_wc (fst (gstep s o)) = c_wc s.
Proof.
  intros [H1 H2 H3 H4 H5] Ho Hs. destruct o as [oo a b c|i1 i2 m|n c| |c sfx m|n sfx c]; cbn [bias_call] in Ho; try easy; cbn [gstep].
  - subst m. destruct (flux_result s c sfx None) as [(e & b & -> & Hd & Hq & Hsf & Hm)|(x & ->)]; [|split; [split|]; auto]. cbn [fst]. split; [|auto]. split; cbn [set_fbias c_coupled c_res c_graph c_fbias c_cbias]; auto.
    intros b' Hb. apply dvals_dset in Hb as [->|Hb]; auto. split; auto. subst sfx. cbn [call_strings arg_strings] in Hs. apply Forall_cons_iff in Hs as [_ Hs]. apply Forall_cons_iff in Hs as [Hs _]. apply spaceless_spec; auto.
  - destruct (addChargeBias s n sfx c) as [s' r] eqn:E. cbn [fst]. revert E. unfold addChargeBias.
    destruct (negb _); [intros [= <- _]; split; [split|]; auto|]. destruct sfx as [x|]; [|intros [= <- _]; split; [split|]; auto]. destruct (8 <? _); [intros [= <- _]; split; [split|]; auto|].
    match goal with |- context[bind ?q _] => destruct q as [[]|] eqn:Eq end; cbn [bind]; [|intros [= <- _]; split; [split|]; auto].
    destruct (dmem _ _); [intros [= <- _]; split; [split|]; auto|]. destruct (mem _ _); [intros [= <- _]; split; [split|]; auto|]. intros [= <- _]. cbn [c_graph c_wc set_cbias]. split; [|auto].
    split; cbn [set_cbias c_coupled c_res c_graph c_fbias c_cbias]; auto. intros b Hb. apply dvals_dset in Hb as [->|Hb]; auto. cbn [cb_suffix cb_cap].
    cbn [call_strings arg_strings app] in Hs. apply Forall_cons_iff in Hs as [Hx Hs]. split; [apply spaceless_spec; auto|]. intros c' ->. cbn [opt_list] in Hs. apply Forall_cons_iff in Hs as [Hs _].
    split; [destruct c'; [discriminate|discriminate]|apply spaceless_spec; auto].
Qed.
Lemma flux_edge_in_wc s c sfx m : Derived s -> Inv s -> (forall e, In e (dkeys (c_fbias s)) -> In e (wcs s)) -> forall e, In e (dkeys (c_fbias (fst (addFluxBias s c sfx m)))) -> In e (wcs s).
Proof.
  intros HD HI Hk e. destruct (flux_spec s c sfx m HD HI) as [F1 F2]. destruct (addFluxBias s c sfx m) as [s' [[]|x]] eqn:E; cbn [fst snd] in *.
  - destruct (F2 eq_refl) as (e0 & sf & Ha). specialize (F1 e0 sf Ha). injection F1 as ->. cbn [set_fbias c_fbias]. unfold dkeys. rewrite map_app. intros Hi. apply in_app_or in Hi as [Hi|[<-|[]]]; auto.
    cbn [fst]. apply loop_in_wc; auto. apply Ha.
  - destruct (flux_result s c sfx m) as [(e0 & b & E' & _)|(x' & E')]; rewrite E' in E; [discriminate|]. injection E as <- _. auto.
Qed.
Lemma wcs_same s s' : Derived s -> Derived s' -> c_wc s' = c_wc s -> wcs s' = wcs s.
Proof. intros H1 H2. rewrite (wcs_wc s H1), (wcs_wc s' H2). congruence. Qed.
Lemma biases_run l : forall s, circuit s -> plain s -> (forall e, In e (dkeys (c_fbias s)) -> In e (wcs s)) -> Forall bias_call l -> Forall (fun o => Forall spaceless (call_strings o)) l ->
  circuit (grun s l) /\ plain (grun s l) /\ c_graph (grun s l) = c_graph s /\ (forall e, In e (dkeys (c_fbias (grun s l))) -> In e (wcs (grun s l))).
Proof.
  induction l as [|o l IH]; intros s Hc Hp Hk Hb Hs; [auto|]. apply Forall_cons_iff in Hb as [Hb Hbs]. apply Forall_cons_iff in Hs as [Hs Hss].
  destruct (bias_plain s o Hp Hb Hs) as (P1 & P2 & P3). assert (Hc' : circuit (fst (gstep s o))) by (apply circ_other; auto; destruct o; easy).
  assert (HD := circuit_derived s Hc). assert (HD' := circuit_derived _ Hc').
  destruct (IH (fst (gstep s o))) as (I1 & I2 & I3 & I4); auto.
  - rewrite (wcs_same s _ HD HD' P3). destruct o as [oo a b c|i1 i2 m|n c| |c sfx m|n sfx c]; try easy; cbn [gstep] in *.
    + apply flux_edge_in_wc; auto. apply reachable_Inv, circuit_reachable; auto.
    + destruct (charge_result s n sfx c) as [(b & -> & _)|(x & ->)]; auto.
  - unfold grun in *. cbn [fold_left]. rewrite I3, P2. auto.
Qed.
Lemma branches_run l : forall s, plain s -> c_fbias s = [] -> Forall (fun o => is_branch o = true) l -> Forall (fun o => Forall spaceless (call_strings o)) l -> accepted s l ->
  plain (grun s l) /\ c_fbias (grun s l) = [].
Proof.
  induction l as [|o l IH]; intros s Hp Hf Hb Hs Ha; [auto|]. apply Forall_cons_iff in Hb as [Hb Hbs]. apply Forall_cons_iff in Hs as [Hs Hss]. destruct Ha as [A1 A2].
  destruct o as [oo a b c| | | | |]; try discriminate. cbn [gstep] in *. cbn [call_strings] in Hs. apply Forall_cons_iff in Hs as [Hs _].
  apply (IH (fst (addBranch oo s a b c))); auto. apply branch_plain; auto. rewrite (proj1 (branch_keeps oo s a b c)). auto.
Qed.
Lemma branches_circuit l : forall s, reachable s -> l <> [] -> Forall valid_op l -> Forall (fun o => is_branch o = true) l -> accepted s l -> circuit (grun s l).
Proof.
  induction l as [|o l IH]; intros s Hr Hl Hv Hb Ha; [easy|]. apply Forall_cons_iff in Hb as [Hb Hbs]. apply Forall_cons_iff in Hv as [Hv Hvs]. destruct Ha as [A1 A2].
  assert (Hr' : reachable (fst (gstep s o))) by (apply reach_step; auto).
  destruct l as [|o' l]; [|apply (IH (fst (gstep s o))); auto; discriminate]. destruct o as [oo a b c| | | | |]; try discriminate. cbn [grun fold_left gstep] in *.
  apply (circ_branch s oo a b c); auto. destruct (addBranch oo s a b c); cbn [fst snd] in *; congruence.
Qed.
Lemma accepted_app l : forall s l', accepted s (l ++ l') <-> accepted s l /\ accepted (grun s l) l'.
Proof. induction l as [|o l IH]; intros s l'; cbn [app accepted]; [cbn; tauto|]. rewrite IH. unfold grun. cbn [fold_left]. tauto. Qed.
Lemma plain_ready s : Derived s -> plain s -> has_resonators s = false /\ (forall e b, dget (c_fbias s) e = Some b -> fb_mutual b = None) /\ (forall c, In c (registered_names s) -> legal c).
Proof.
  intros HD [H1 H2 H3 H4 H5]. split; [|split].
  - unfold has_resonators. apply Bool.not_true_iff_false. intros H. apply existsb_exists in H as (r & Hr & E). rewrite (H2 r Hr) in E. discriminate.
  - intros e b Hb. apply dget_In in Hb. apply (in_map snd) in Hb. apply (proj1 (H4 b Hb)).
  - intros c. unfold registered_names. rewrite H1. rewrite !in_app_iff. intros [Hc|[[]|[Hc|Hc]]].
    + eapply Permutation_in in Hc; [|apply edge_map_vals, HD]. apply in_map_iff in Hc as (b & <- & Hb). auto.
    + apply in_flat_map in Hc as (b & Hb & Hc). destruct (cb_cap b) as [c'|] eqn:E; [|easy]. destruct Hc as [<-|[]]. apply (H5 b Hb); auto.
    + apply in_flat_map in Hc as (b & Hb & Hc). rewrite (proj1 (H4 b Hb)) in Hc. easy.
Qed.
Definition free_matrix_names (s : cg) : Prop := forall b i j, In b (branches_of "L" (c_graph s)) -> i <= j < List.length (sys_nodes s) -> snd b <> mat_name "L" "i" i j.
Theorem history_ok ord oracle l1 l2 : good_ord ord -> l1 <> [] -> Forall valid_op l1 -> Forall (fun o => is_branch o = true) l1 -> Forall bias_call l2 ->
  Forall (fun o => Forall spaceless (call_strings o)) (l1 ++ l2) -> accepted cg_new (l1 ++ l2) -> In 0 (g_nodes (c_graph (grun cg_new (l1 ++ l2)))) -> free_matrix_names (grun cg_new (l1 ++ l2)) ->
  exists y, new_system ord oracle (grun cg_new (l1 ++ l2)) = Some (Ok y).
Proof.
  intros Ho Hl Hv Hb Hc Hs Ha Hg Hf. apply Forall_app in Hs as [Hs1 Hs2]. apply accepted_app in Ha as [Ha1 Ha2].
  assert (P0 : plain cg_new) by (split; cbn; easy). destruct (branches_run l1 cg_new P0 eq_refl Hb Hs1 Ha1) as [P1 F1].
  assert (C1 : circuit (grun cg_new l1)) by (apply branches_circuit; auto; constructor).
  rewrite grun_app in *. destruct (biases_run l2 (grun cg_new l1) C1 P1) as (C2 & P2 & _ & K); auto; [rewrite F1; easy|].
  set (s := grun (grun cg_new l1) l2) in *. clearbody s. assert (HD := circuit_derived s C2). destruct (plain_ready s HD P2) as (R1 & R2 & R3).
  destruct (init_ok ord oracle s) as (y & Hy & _); eauto.
  - apply P2.
  - intros b Hq. apply (p_mut s P2); auto.
  - intros b Hq. apply (p_cb s P2); auto.
Qed.

(** every accepted flux bias with a mutual inductance makes the constructor
    fail *)
Lemma foldM_err {A S} (f : S -> A -> res S) (x : exn) l : (forall s a e, In a l -> f s a = Err e -> e = x) -> (exists a, In a l /\ forall s, f s a = Err x) -> forall s, foldM f l s = Err x.
Proof.
  induction l as [|a l IH]; intros He (b & Hb & Hf) s; [easy|]. cbn [foldM]. destruct (f s a) as [s'|e] eqn:E; cbn [bind].
  - apply IH; [intros s0 a0 e0 Ha0; apply (He s0); right; auto|]. exists b. split; auto. destruct Hb as [->|]; auto. rewrite Hf in E. discriminate.
  - f_equal. apply (He s a e); [left; reflexivity|exact E].
Qed.
Theorem mutual_fails ord oracle s e b : circuit s -> In 0 (g_nodes (c_graph s)) -> has_resonators s = false -> (forall e, In e (dkeys (c_fbias s)) -> In e (wcs s)) ->
  (forall c, In c (registered_names s) -> legal c) -> (forall b, In b (dvals (c_fbias s)) -> has_space (fb_suffix b) = false) -> (forall b, In b (dvals (c_cbias s)) -> has_space (cb_suffix b) = false) ->
  dget (c_fbias s) e = Some b -> fb_mutual b <> None -> inductor_at s e -> new_system ord oracle s = Some (Err TypeError).
Proof.
  intros Hc Hg Hr Hk Hl Hf Hq Hb Hm (c & Ec & HL). assert (HD := circuit_derived s Hc). unfold new_system. rewrite (proj2 (mem_In _ _) Hg). cbn [negb]. rewrite (wcs_wc s HD), Hr. cbv zeta.
  destruct (add_all_plain (registered_names s) [] (mkcst [] [] [] [] [])) as (st1 & E1 & F1).
  { split; cs; try easy. split; cs; try constructor; try easy. intros x Hx. apply path_out in Hx as (b' & []). }
  { easy. } { apply Forall_forall; auto. }
  rewrite E1. unfold ok_st. cbn [fst snd bind app] in *. destruct (flux_symbols_ok s Hk) as (fl & ->). cbn [bind].
  match goal with |- context[add_all ?l st1] => destruct (add_all_over l _ st1 F1) as (st2 & E2 & F2) end.
  { apply Forall_forall. intros x Hx. apply in_map_iff in Hx as (b' & <- & Hb'). cbn [fst snd]. split; [split; [discriminate|cbn; auto]|]. eexists. split; [reflexivity|]. right. split; reflexivity. }
  rewrite E2. cbn [fst snd bind].
  match goal with |- context[add_all ?l st2] => destruct (add_all_over l _ st2 F2) as (st3 & E3 & F3) end.
  { apply Forall_forall. intros x Hx. apply in_map_iff in Hx as (b' & <- & Hb'). cbn [fst snd]. split; [split; [discriminate|cbn; auto]|]. eexists. split; [reflexivity|]. left. reflexivity. }
  rewrite E3. cbn [fst snd bind]. unfold inductance_matrix.
  assert (E : forall M, foldM (ind_diag s) (enumerate (wcs s)) M = Err TypeError); [|rewrite E; reflexivity].
  apply foldM_err.
  - intros M [i e'] x Hi. assert (He : In e' (wcs s)) by (apply (enumerate_In _ noedge) in Hi as [Hi <-]; apply nth_In; auto).
    destruct (edge_component s HD e' He) as (c' & Ec'). destruct (param_comp s HD e' c' Ec') as (P1 & _ & P3). unfold ind_diag. rewrite Ec'. cbn [bind]. rewrite P3. cbn [bind].
    destruct (starts "L" c'); [|discriminate]. rewrite P1. cbn [bind]. destruct (dget (c_fbias s) e') as [b'|]; [|discriminate]. destruct (fb_mutual b'); [congruence|discriminate].
  - assert (He : In e (wcs s)) by (apply Hk; eapply dget_Some_key; eauto). destruct (In_nth_error _ _ He) as (i & Hi). exists (i, e). split.
    + unfold enumerate. assert (Hlt : i < List.length (wcs s)) by (apply nth_error_Some; congruence). assert (Hq' : nth i (combine (seq 0 (List.length (wcs s))) (wcs s)) (0, noedge) = (i, e)).
      { rewrite combine_nth by (rewrite seq_length; auto). rewrite seq_nth by auto. rewrite (nth_error_nth _ _ noedge Hi). auto. }
      rewrite <- Hq'. apply nth_In. rewrite combine_length, seq_length. lia.
    + intros M. assert (Ec' : component_of s e = Ok c) by (unfold component_of; rewrite Ec; auto). destruct (param_comp s HD e c Ec') as (P1 & _ & P3). unfold ind_diag. rewrite Ec'. cbn [bind]. rewrite P3. cbn [bind].
      assert (Es : starts "L" c = true). { unfold letter in HL. cbn [snd] in HL. destruct c; [discriminate|]. cbn. auto. } rewrite Es, P1. cbn [bind]. rewrite Hb. destruct (fb_mutual b); [auto|easy].
Qed.
