(** components_map, component lookup and the listing functions. *)
From Coq Require Import List Bool String Ascii Arith Permutation Lia.
From Verif Require Import Prelude PreludeFacts Graph GraphSpec GraphView GraphForest GraphWf GraphGround GraphCircuit GraphLoops GraphState.
Import ListNotations.
Open Scope string_scope.
Open Scope list_scope.
Open Scope nat_scope.

Lemma In_dvals_dget {K V} `{EqB K} (d : dict K V) v : NoDup (dkeys d) -> (In v (dvals d) <-> exists k, dget d k = Some v).
Proof.
  intros Hn. unfold dvals. rewrite in_map_iff. split.
  - intros ([k v'] & <- & Hi). exists k. apply In_dget; auto.
  - intros (k & Hk). apply dget_In in Hk. exists (k, v). auto.
Qed.
Lemma norm_unique (m : dict edge string) e c e' c' : NoDup (map (fun b => norm (fst b)) m) -> In (e, c) m -> In (e', c') m -> norm e = norm e' -> e = e' /\ c = c'.
Proof.
  induction m as [|[f d] m IH]; cbn; intros Hn H1 H2 E; [easy|]. inversion Hn; subst.
  destruct H1 as [H1|H1], H2 as [H2|H2].
  - injection H1 as -> ->. injection H2 as -> ->. auto.
  - injection H1 as -> ->. exfalso. apply H3. rewrite E. apply (in_map (fun b : edge * string => norm (fst b)) m (e', c')); auto.
  - injection H2 as -> ->. exfalso. apply H3. rewrite <- E. apply (in_map (fun b : edge * string => norm (fst b)) m (e, c)); auto.
  - auto.
Qed.
Lemma both_ways_spec (m : dict edge string) : NoDup (map (fun b => norm (fst b)) m) ->
  NoDup (dkeys (both_ways m)) /\ forall e c, dget (both_ways m) e = Some c <-> exists e0, In (e0, c) m /\ (e = e0 \/ e = rev_edge e0).
Proof.
  intros Hn. unfold both_ways.
  assert (G : forall m' d, (forall kv, In kv m' -> In kv m) -> NoDup (dkeys d) ->
     (forall e c, dget d e = Some c -> exists e0, In (e0, c) m /\ (e = e0 \/ e = rev_edge e0)) ->
     let r := fold_left (fun d kv => dset d (rev_edge (fst kv)) (snd kv)) m' d in
     NoDup (dkeys r) /\ (forall e c, dget r e = Some c -> exists e0, In (e0, c) m /\ (e = e0 \/ e = rev_edge e0)) /\
     (forall e, In e (dkeys d) -> In e (dkeys r)) /\ (forall e c, In (e, c) m' -> In (rev_edge e) (dkeys r))).
  { induction m' as [|[k v] m' IH]; intros d Hi Hd Hs; cbn zeta; [cbn; split; [auto|]; split; [auto|]; split; [auto|intros e c []]|].
    cbn [fold_left fst snd]. destruct (IH (dset d (rev_edge k) v)) as (I1 & I2 & I3 & I4).
    - intros kv Hk. apply Hi. right; auto.
    - apply NoDup_dset; auto.
    - intros e c. rewrite dget_dset. destruct (eqb e (rev_edge k)) eqn:E.
      + apply (proj1 (eqb_eq _ _)) in E. intros Hq. injection Hq as <-. exists k. split; [apply Hi; left; auto|auto].
      + apply Hs.
    - split; [auto|]. split; [auto|]. split.
      + intros e He. apply I3. apply In_dkeys_dset. auto.
      + intros e c [Hq|Hq]; [|eauto]. injection Hq as -> ->. apply I3. apply In_dkeys_dset. auto. }
  assert (Hk : NoDup (dkeys m)) by (rewrite <- (map_map fst norm) in Hn; apply NoDup_map_inv' in Hn; auto).
  destruct (G m m (fun _ H => H) Hk) as (G1 & G2 & G3 & G4).
  { intros e c H. apply dget_In in H. eauto. }
  split; auto. intros e c. split; [apply G2|]. intros (e0 & H0 & He).
  assert (Hin : In e (dkeys (fold_left (fun d kv => dset d (rev_edge (fst kv)) (snd kv)) m m))).
  { destruct He as [-> | ->]; [apply G3; unfold dkeys; apply (in_map fst m (e0, c)); auto|eapply G4; eauto]. }
  apply dkeys_dget in Hin as (c' & Hc'). rewrite Hc'. destruct (G2 _ _ Hc') as (e1 & H1 & He1).
  assert (E : norm e1 = norm e0).
  { transitivity (norm e); [destruct He1 as [-> | ->]|destruct He as [-> | ->]]; rewrite ?norm_rev; auto. }
  destruct (norm_unique m e1 c' e0 c Hn H1 H0 E) as [_ ->]. auto.
Qed.

(** the circuit's branches, as the API shows them *)
Lemma edge_map_carries g e c : wfg g -> (exists e0, In (e0, c) (edge_map g) /\ (e = e0 \/ e = rev_edge e0)) <-> carries g e c.
Proof.
  intros Hw. assert (Hp := edge_map_perm g Hw). unfold carries. split.
  - intros (e0 & H0 & He). apply (in_map nb) in H0. eapply Permutation_in in H0; [|exact Hp]. apply in_map_iff in H0 as (b & Hb & Hi).
    exists b. split; auto. unfold nb in Hb. cbn in Hb. injection Hb as Hb1 Hb2 Hb3 Hb4. split; auto.
    apply norm_eq. transitivity (norm e0); [unfold norm; congruence|destruct He as [-> | ->]; rewrite ?norm_rev; auto].
  - intros (b & Hi & <- & Hs). apply norm_eq in Hs. apply (in_map nb) in Hi. eapply Permutation_in in Hi; [|symmetry; exact Hp].
    apply in_map_iff in Hi as ([e0 c0] & Hb & Hi). assert (E1 : norm e0 = norm (fst b)) by exact (f_equal fst Hb).
    assert (E2 : c0 = snd b) by exact (f_equal snd Hb). subst c0. exists e0. split; auto.
    assert (E : norm e0 = norm e) by congruence. apply norm_eq in E. exact E.
Qed.
Section D.
  Variable s : cg.
  Hypothesis HD : Derived s.
  Let g := c_graph s.
  Lemma map_get e c : dget (c_map s) e = Some c <-> carries g e c.
  Proof.
    rewrite (d_map s HD). rewrite <- edge_map_carries by apply HD. apply both_ways_spec. apply edge_map_norm, HD.
  Qed.
  Lemma map_keys : NoDup (dkeys (c_map s)).
  Proof. rewrite (d_map s HD). apply both_ways_spec. apply edge_map_norm, HD. Qed.
  Lemma map_vals c : In c (dvals (c_map s)) <-> In c (map snd (g_edges g)).
  Proof.
    rewrite In_dvals_dget by apply map_keys. split.
    - intros (e & He). apply map_get in He as (b & Hb & <- & _). apply in_map; auto.
    - intros Hc. apply in_map_iff in Hc as (b & <- & Hb). exists (fst b). apply map_get. exists b. split; auto. split; auto. left; auto.
  Qed.
  Lemma carries_norm e f c : carries g e c -> carries g f c -> norm e = norm f.
  Proof.
    intros (b & Hb & E & Hs) (b' & Hb' & E' & Hs'). apply norm_eq in Hs, Hs'.
    assert (b = b'); [|subst; congruence].
    assert (Hn := d_names s HD). fold g in Hn. clear -Hb Hb' E E' Hn. subst c.
    induction (g_edges g) as [|x l IH]; [easy|]. cbn in Hn. inversion Hn; subst. destruct Hb as [->|Hb], Hb' as [->|Hb']; auto.
    - exfalso. apply H1. rewrite <- E'. apply in_map; auto.
    - exfalso. apply H1. rewrite E'. apply in_map; auto.
  Qed.
  Lemma carries_fun e c c' : carries g e c -> carries g e c' -> c = c'.
  Proof. intros H H'. apply map_get in H, H'. congruence. Qed.
  Lemma carries_rev e c : carries g e c -> carries g (rev_edge e) c.
  Proof.
    intros (b & Hb & E & Hs). exists b. split; auto. split; auto. apply norm_eq. rewrite norm_rev. apply norm_eq; auto.
  Qed.
  (** by_component *)
  Lemma by_component_spec (l : list (edge * string)) : forall (d : dict string edge) c e, dget (fold_left (fun d kv => dset d (snd kv) (fst kv)) l d) c = Some e ->
     In (e, c) l \/ dget d c = Some e.
  Proof.
    induction l as [|[k v] l IH]; intros d c e; cbn [fold_left fst snd]; auto.
    intros H. apply IH in H as [H|H]; [left; right; auto|]. rewrite dget_dset in H. destruct (eqb c v) eqn:E; auto.
    apply (proj1 (eqb_eq _ _)) in E. injection H as <-. left; left. congruence.
  Qed.
  Lemma by_component_keys (l : list (edge * string)) : forall (d : dict string edge) c, In c (dkeys (fold_left (fun d kv => dset d (snd kv) (fst kv)) l d)) <-> In c (map snd l) \/ In c (dkeys d : list string).
  Proof.
    induction l as [|[k v] l IH]; intros d c; cbn [fold_left fst snd map]; [cbn; tauto|].
    rewrite IH, In_dkeys_dset. cbn. intuition congruence.
  Qed.
  Lemma by_component_NoDup l : forall d : dict string edge, NoDup (dkeys d) -> NoDup (dkeys (fold_left (fun d (kv : edge * string) => dset d (snd kv) (fst kv)) l d)).
  Proof. induction l as [|[k v] l IH]; intros d Hd; cbn [fold_left]; auto. apply IH, NoDup_dset; auto. Qed.
  (** wc_by_component *)
  Definition wcs : list edge := match c_wc s with Some l => l | None => [] end.
  Lemma wcs_perm : Permutation wcs (c_tree s ++ c_closures s).
  Proof. unfold wcs. destruct (wc_perm s HD) as (wc & -> & H). auto. Qed.
  Lemma wcs_wc : c_wc s = Some wcs.
  Proof. unfold wcs. destruct (wc_perm s HD) as (wc & -> & H). auto. Qed.
  Lemma noncap_In e : In e (noncap g) <-> exists c, In (e, c) (g_edges g) /\ capacitive c = false.
  Proof.
    unfold noncap. rewrite in_map_iff. split.
    - intros ([e' c] & <- & H). apply filter_In in H as [H1 H2]. cbn [snd] in H2. rewrite <- capacitive_spec in H2. apply negb_true_iff in H2. eauto.
    - intros (c & H1 & H2). exists (e, c). split; auto. apply filter_In. split; auto. cbn [snd]. rewrite <- capacitive_spec, H2. auto.
  Qed.
  Lemma wcs_carry e : In e wcs -> exists c, carries g e c /\ capacitive c = false.
  Proof.
    intros He. eapply Permutation_in in He; [|apply wcs_perm].
    destruct (perm_norm_In _ _ e (tree_clos_split s HD) He) as (f & Hf & Hef).
    apply filter_In in Hf as [Hf _]. apply noncap_In in Hf as (c & Hc & Hcap). exists c. split; auto.
    exists (f, c). split; auto.
  Qed.
  Lemma wcs_cover c : In c (map snd (g_edges g)) -> capacitive c = false -> no_lone_selfloop (noncap g) -> exists e, In e wcs /\ carries g e c.
  Proof.
    intros Hc Hcap Hl. apply in_map_iff in Hc as ([f c'] & <- & Hb).
    assert (Hf : In f (noncap g)) by (apply noncap_In; eauto).
    assert (Hs := tree_clos_split s HD). fold g in Hs. rewrite keepb_all in Hs by auto.
    destruct (perm_norm_In (noncap g) (c_tree s ++ c_closures s) f) as (e & He & Hfe); [symmetry; auto|auto|].
    exists e. split; [eapply Permutation_in; [symmetry; apply wcs_perm|auto]|]. exists (f, c'). split; auto. split; auto. cbn.
    destruct Hfe as [-> | ->]; [left; auto|right; destruct e as [[a b] k]; auto].
  Qed.
  Definition wcd : dict string edge := fold_left (fun d e => match dget (c_map s) e with Some c => dset d c e | None => d end) wcs [].
  Lemma wc_by_ok : wc_by_component s = Ok wcd.
  Proof.
    unfold wc_by_component, wcd. rewrite wcs_wc.
    assert (Hin : forall e, In e wcs -> exists c, dget (c_map s) e = Some c).
    { intros e He. destruct (wcs_carry e He) as (c & Hc & _). exists c. apply map_get; auto. }
    revert Hin. generalize (@nil (string * edge)). induction wcs as [|e l IH]; intros d Hin; cbn [fold_left]; auto.
    destruct (Hin e) as (c & Hc); [left; auto|]. rewrite Hc. cbn [bind]. apply IH. intros f Hf. apply Hin. right; auto.
  Qed.
  Lemma wcd_get c e : dget wcd c = Some e -> In e wcs /\ carries g e c.
  Proof.
    unfold wcd. assert (G : forall l d, (forall c e, dget d c = Some e -> In e wcs /\ carries g e c) -> (forall e, In e l -> In e wcs) ->
       forall c e, dget (fold_left (fun d e => match dget (c_map s) e with Some c => dset d c e | None => d end) l d) c = Some e -> In e wcs /\ carries g e c).
    { induction l as [|f l IH]; intros d Hd Hl c0 e0; cbn [fold_left]; auto. apply IH.
      - intros c1 e1. destruct (dget (c_map s) f) as [c2|] eqn:E; auto. rewrite dget_dset.
        destruct (eqb c1 c2) eqn:E2; auto. apply (proj1 (eqb_eq _ _)) in E2. intros Hq. injection Hq as <-. subst. apply map_get in E. split; auto. apply Hl. left; auto.
      - intros e1 He1. apply Hl. right; auto. }
    apply G; auto. discriminate.
  Qed.
  Lemma wcd_keys c : In c (dkeys wcd) <-> exists e, In e wcs /\ carries g e c.
  Proof.
    split.
    - intros H. apply dkeys_dget in H as (e & He). exists e. apply wcd_get; auto.
    - intros (e & He & Hc). unfold wcd. apply map_get in Hc.
      assert (G : forall l d, (In e l \/ In c (dkeys d)) -> In c (dkeys (fold_left (fun d e => match dget (c_map s) e with Some c => dset d c e | None => d end) l d))).
      { induction l as [|f l IH]; intros d [H|H]; cbn [fold_left]; auto; try easy.
        - destruct H as [->|H]; apply IH; auto. right. rewrite Hc. apply In_dkeys_dset. auto.
        - apply IH. right. destruct (dget (c_map s) f); auto. apply In_dkeys_dset. auto. }
      apply G. auto.
  Qed.
  Lemma wcd_NoDup : NoDup (dkeys wcd).
  Proof.
    unfold wcd. assert (G : forall l (d : dict string edge), NoDup (dkeys d) -> NoDup (dkeys (fold_left (fun d e => match dget (c_map s) e with Some c => dset d c e | None => d end) l d))).
    { induction l as [|f l IH]; intros d Hd; cbn [fold_left]; auto. apply IH. destruct (dget _ f); auto. apply NoDup_dset; auto. }
    apply G. constructor.
  Qed.
  Lemma valid_nonempty c : In c (map snd (g_edges g)) -> c <> "".
  Proof. intros Hc. apply in_map_iff in Hc as (b & <- & Hb). apply (d_valid s HD) in Hb. intros E. rewrite E in Hb. discriminate. Qed.

  Lemma component_edge_sound c e : getComponentEdge s c = Ok e -> carries g e c /\ (capacitive c = false -> In e wcs).
  Proof.
    unfold getComponentEdge. destruct (mem c (dvals (c_map s))) eqn:E; [|discriminate]. cbn [negb].
    destruct c as [|a c0] eqn:Ec; [discriminate|]. rewrite <- Ec in *. destruct (capacitive c) eqn:Ecap.
    - destruct (dget (by_component (c_map s)) c) as [f|] eqn:F; [|discriminate]. intros H. injection H as <-.
      apply by_component_spec in F as [F|F]; [|discriminate]. split; [|discriminate]. apply map_get. apply In_dget; auto. apply map_keys.
    - rewrite wc_by_ok. cbn [bind]. destruct (dget wcd c) as [f|] eqn:F; [|discriminate]. intros H. injection H as <-.
      apply wcd_get in F. tauto.
  Qed.
  Lemma component_edge_missing c : ~ In c (map snd (g_edges g)) -> getComponentEdge s c = Err ValueError.
  Proof.
    intros H. unfold getComponentEdge. assert (E : mem c (dvals (c_map s)) = false) by (apply mem_nIn; rewrite map_vals; auto). rewrite E. auto.
  Qed.
  Lemma component_edge_total c : In c (map snd (g_edges g)) -> (capacitive c = true \/ no_lone_selfloop (noncap g)) -> exists e, getComponentEdge s c = Ok e.
  Proof.
    intros H Hl. unfold getComponentEdge. assert (E : mem c (dvals (c_map s)) = true) by (apply mem_In; rewrite map_vals; auto). rewrite E. cbn [negb].
    destruct c as [|a c0] eqn:Ec; [destruct (valid_nonempty "" H); auto|]. rewrite <- Ec in *.
    destruct (capacitive c) eqn:Ecap.
    - assert (Hk : In c (dkeys (by_component (c_map s)))) by (apply by_component_keys; left; apply map_vals; auto).
      apply dkeys_dget in Hk as (e & ->). eauto.
    - rewrite wc_by_ok. cbn [bind]. destruct Hl as [Hl|Hl]; [discriminate|].
      assert (Hk : In c (dkeys wcd)) by (apply wcd_keys; apply wcs_cover; auto).
      apply dkeys_dget in Hk as (e & ->). eauto.
  Qed.
  Lemma listing_keys p : get_edges_of p s = Ok (filter (fun x => starts p (fst x)) wcd).
  Proof. unfold get_edges_of. rewrite wc_by_ok. auto. Qed.
  Lemma dkeys_filter {V} (P : string -> bool) (d : dict string V) : dkeys (filter (fun x => P (fst x)) d) = filter P (dkeys d).
  Proof. unfold dkeys. rewrite filter_map_swap. auto. Qed.
  Lemma listing_partition : no_lone_selfloop (noncap g) ->
    Permutation (filter capacitive (dkeys (by_component (c_map s))) ++ filter inductive (dkeys wcd) ++ filter josephson (dkeys wcd) ++ filter phaseslip (dkeys wcd)) (map snd (g_edges g)).
  Proof.
    intros Hl.
    assert (Hval : forall c, In c (map snd (g_edges g)) -> valid_name c = true).
    { intros c Hc. apply in_map_iff in Hc as (b & <- & Hb). apply (d_valid s HD); auto. }
    assert (Hwk : forall c, In c (dkeys wcd) <-> In c (map snd (g_edges g)) /\ capacitive c = false).
    { intros c. rewrite wcd_keys. split.
      - intros (e & He & Hc). destruct (wcs_carry e He) as (c' & Hc' & Hcap). rewrite (carries_fun e c c' Hc Hc'). split; auto.
        destruct Hc' as (b & Hb & <- & _). apply in_map; auto.
      - intros [H1 H2]. apply wcs_cover; auto. }
    assert (Hbk : forall c, In c (dkeys (by_component (c_map s))) <-> In c (map snd (g_edges g))).
    { intros c. unfold by_component. rewrite by_component_keys. change (map snd (c_map s)) with (dvals (c_map s)). rewrite map_vals. cbn. tauto. }
    assert (Hbn : NoDup (dkeys (by_component (c_map s)))) by (apply by_component_NoDup; constructor).
    assert (Hone : forall c p q, p <> q -> starts p c = true -> starts q c = true -> False).
    { intros c p q Hpq H1 H2. destruct c; cbn in *; try discriminate. apply Ascii.eqb_eq in H1, H2. congruence. }
    apply NoDup_Permutation.
    - assert (Hwn := wcd_NoDup).
      apply NoDup_app'; [apply NoDup_filter; auto|apply NoDup_app'; [apply NoDup_filter; auto|apply NoDup_app'; try (apply NoDup_filter; auto)|]|].
      + intros c H1 H2. apply filter_In in H1 as [_ H1], H2 as [_ H2]. eapply (Hone c "I"%char "V"%char); auto; discriminate.
      + intros c H1 H2. apply filter_In in H1 as [_ H1]. apply in_app_or in H2 as [H2|H2]; apply filter_In in H2 as [_ H2]; [eapply (Hone c "L"%char "I"%char)|eapply (Hone c "L"%char "V"%char)]; auto; discriminate.
      + intros c H1 H2. apply filter_In in H1 as [_ H1]. apply in_app_or in H2 as [H2|H2]; [|apply in_app_or in H2 as [H2|H2]]; apply filter_In in H2 as [_ H2];
          [eapply (Hone c "C"%char "L"%char)|eapply (Hone c "C"%char "I"%char)|eapply (Hone c "C"%char "V"%char)]; auto; discriminate.
    - apply HD.
    - intros c. rewrite !in_app_iff, !filter_In, !Hwk, Hbk. split; [tauto|]. intros Hc.
      assert (Hv := Hval c Hc). destruct c as [|a c]; [discriminate|]. cbn [valid_name] in Hv.
      unfold capacitive, inductive, josephson, phaseslip. cbn [starts]. cbn [existsb] in Hv.
      destruct (Ascii.eqb a "C"); [tauto|]. destruct (Ascii.eqb a "L"); [tauto|]. destruct (Ascii.eqb a "I"); [tauto|]. destruct (Ascii.eqb a "V"); [tauto|discriminate].
  Qed.
End D.
