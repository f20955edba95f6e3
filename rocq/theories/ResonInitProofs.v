(** Parameter collections during the construction of a system (C88). *)
From Coq Require Import List Bool String Ascii Arith ZArith NArith Reals Permutation Lia DecimalString.
From Verif Require Import Prelude PreludeFacts Float Param Expr ExprProofs Coll CollGraph CollSpec CollProofs CollExpand CollUpdate Mat Graph GraphSpec Symbolic SymbolicSpec SymbolicParam SymbolicInit Reson ResonInit.
Import ListNotations.
Open Scope string_scope.
Open Scope list_scope.
Open Scope nat_scope.

(** ** the symbol of a parameter is determined by its name *)
Definition phi_name (k : string) : option string :=
  match k with String "p" (String "h" (String "i" r)) => Some r | _ => None end.
Definition sg (k : string) : string := match phi_name k with Some r => ("\Phi_{" ++ r ++ "}")%string | None => sym_of k end.
Lemma phi_name_some k r : phi_name k = Some r -> k = ("phi" ++ r)%string.
Proof.
  unfold phi_name. destruct k as [|a k]; [discriminate|]. destruct (Ascii.ascii_dec a "p") as [->|Na].
  - destruct k as [|b k]; [discriminate|]. destruct (Ascii.ascii_dec b "h") as [->|Nb].
    + destruct k as [|c k]; [discriminate|]. destruct (Ascii.ascii_dec c "i") as [->|Nc]; [intros [= <-]; reflexivity|].
      intros H. exfalso. revert H Nc. destruct c as [[] [] [] [] [] [] [] []]; cbn; try discriminate; congruence.
    + intros H. exfalso. revert H Nb. destruct b as [[] [] [] [] [] [] [] []]; cbn; try discriminate; congruence.
  - intros H. exfalso. revert H Na. destruct a as [[] [] [] [] [] [] [] []]; cbn; try discriminate; congruence.
Qed.
Lemma phi_name_not k : starts "p" k = false -> phi_name k = None.
Proof. intros H. destruct (phi_name k) as [r|] eqn:E; auto. apply phi_name_some in E. subst k. discriminate. Qed.
Lemma sg_plain k : starts "p" k = false -> sg k = sym_of k.
Proof. intros H. unfold sg. now rewrite phi_name_not. Qed.
Lemma sg_inj a b : sg a = sg b -> a = b.
Proof.
  unfold sg. destruct (phi_name a) as [r|] eqn:Ea; destruct (phi_name b) as [r'|] eqn:Eb.
  - apply phi_name_some in Ea, Eb. subst. cbn. intros [= H]. apply str_append_inj_r in H. congruence.
  - cbn. destruct b as [|x [|y b]]; cbn; intros H; discriminate H.
  - cbn. destruct a as [|x [|y a]]; cbn; intros H; discriminate H.
  - destruct a as [|x a]; [destruct b as [|y b]; [reflexivity|discriminate]|]. intros H. apply sym_of_inj in H; [auto|discriminate].
Qed.

Section Good.
  Variables (ord : ordr) (rho : string -> nat).
  Hypothesis Hord : good_ord ord.
  Implicit Types st : cst tree_alg.
  Record good st : Prop := {
    g_inv : exists ow, ginv sg st ow;
    g_rank : forall a b, In (a, b) (c_edges st) -> rho a < rho b
  }.
  Lemma good_new : good (mkcst [] [] [] [] []).
  Proof. split; [exists []; apply (ginv_new sg []); [reflexivity|easy]|easy]. Qed.
  Lemma good_sym st k : good st -> registered st k -> dget (c_sym st) k = Some (sg k).
  Proof.
    intros [(ow & G) _] R. unfold registered in R. rewrite (wf_keys _ (ti_wf _ _ (gi_t _ _ _ G))) in R. apply dkeys_dget in R as (s & D). rewrite D. f_equal. apply (ti_sym _ _ (gi_t _ _ _ G) _ _ D).
  Qed.
  Definition over (nm : string) (o : option string) : Prop := (o = None /\ starts "p" nm = false) \/ o = Some (sg nm).
  Lemma good_add st nm o : good st -> legal nm -> over nm o -> exists st', addParameter st nm o = (st', Ok tt) /\ good st' /\ c_par st' = c_par st /\ (forall k, registered st' k <-> registered st k \/ k = nm).
  Proof.
    intros [(ow & G) HR] [L1 L2] Ho. unfold addParameter. destruct (dmem (c_coll st) nm) eqn:E.
    - exists st. split; [reflexivity|]. split; [split; eauto|]. split; [reflexivity|]. intros k. split; [auto|]. intros [H| ->]; [auto|]. now apply mem_In.
    - destruct (param_default_ok nm L1 L2) as (p & Ep & Es). rewrite Ep. eexists. split; [reflexivity|]. split; [split; [exists ow|]|].
      + apply ginv_add; [exact G|]. destruct Ho as [[-> H]| ->]; [now rewrite sg_plain | reflexivity].
      + exact HR.
      + split; [reflexivity|]. intros k. unfold registered. cbn [c_coll]. rewrite In_dkeys_dset. tauto.
  Qed.
  Lemma good_addP st nm (e : tree) : good st -> registered st nm -> (forall sy, In sy (tfree e) -> exists c, sy = sg c /\ registered st c /\ rho c < rho nm) ->
    exists st' names, addParameterisation ord st nm (e : E tree_alg) = (st', Ok tt) /\ good st' /\ c_par st' = dset (c_par st) nm (e : E tree_alg, names) /\ c_coll st' = c_coll st.
  Proof.
    intros [(ow & G) HR] R HE. assert (Gd : good st) by (split; eauto).
    assert (GS := ginv_step tree_alg_ok sg 0 st ow (ord, CAddP (nm : string) (e : E tree_alg)) G Hord I). cbn [cstep snd fst] in GS.
    destruct (addP_cases ord st nm (e : E tree_alg)) as [(_ & [Hn|(sy & Hs & Hn)])|(names & _ & HN & Hg)].
    - tauto.
    - exfalso. apply Hn. eapply Permutation_in in Hs; [|apply Hord]. destruct (HE sy Hs) as (c & -> & Hc & _). apply (good_sym st c Gd) in Hc. apply dget_In in Hc. exact (in_map snd _ _ Hc).
    - assert (HF := expr_names_spec _ _ _ HN). cbv zeta in Hg. set (g := fold_left (fun g p => Coll.add_edge g p nm) names (c_nodes st, c_edges st)) in *.
      assert (Hed : forall a b, In (a, b) (snd g) -> rho a < rho b).
      { intros a b H. apply add_edges_In in H as [H|(p & Hp & E)]; [auto|]. injection E as -> ->. destruct (Forall2_In_r _ _ _ _ HF Hp) as (sy & Hs & Hk).
        assert (Hk' : dget (c_sym st) p = Some sy).
        { apply names_symbol_dget; [|exact Hk]. rewrite <- (wf_keys _ (ti_wf _ _ (gi_t _ _ _ G))). apply (ti_wf _ _ (gi_t _ _ _ G)). }
        eapply Permutation_in in Hs; [|apply Hord]. destruct (HE sy Hs) as (c & Ec & _ & Hlt). apply (ti_sym _ _ (gi_t _ _ _ G)) in Hk'. assert (p = c) by (apply sg_inj; congruence). now subst p. }
      assert (Hdag : is_dag (fst g) (snd g) = true).
      { apply is_dag_spec; [apply add_edges_in_nodes, (ti_wf _ _ (gi_t _ _ _ G))|]. intros x Hx.
        assert (P : forall a b, path (snd g) a b -> rho a < rho b) by (induction 1; [auto|lia]). specialize (P _ _ Hx). lia. }
      destruct Hg as [[_ Hg]|[Hg _]]; [|congruence]. rewrite Hg in GS |- *. eexists. exists names. split; [reflexivity|]. split; [split; [eauto|exact Hed]|]. split; reflexivity.
  Qed.
  Lemma add_all_good l : forall st, good st -> Forall (fun x => legal (fst x) /\ over (fst x) (snd x)) l ->
    exists st', add_all l st = (st', Ok tt) /\ good st' /\ c_par st' = c_par st /\ (forall k, registered st' k <-> registered st k \/ In k (map fst l)).
  Proof.
    unfold add_all, stepM. induction l as [|[nm o] l IH]; intros st G F; cbn [fold_left map fst snd].
    - exists st. split; [reflexivity|]. split; [exact G|]. split; [reflexivity|]. intros k. cbn. tauto.
    - inversion F as [|? ? [F1 F2] F3]; subst. cbn [fst snd] in F1, F2. destruct (good_add st nm o G F1 F2) as (st1 & E1 & G1 & P1 & R1). rewrite E1. destruct (IH st1 G1 F3) as (st2 & E2 & G2 & P2 & R2).
      exists st2. split; [exact E2|]. split; [exact G2|]. split; [congruence|]. intros k. rewrite R2, R1. cbn. intuition congruence.
  Qed.
  Variables (name : nat -> nat -> string) (M : nat -> nat -> option tree).
  Hypothesis Hname : forall i j, legal (name i j) /\ starts "p" (name i j) = false.
  Definition named_entry (k : string) (l : list (nat * nat)) : Prop := exists i j e, In (i, j) l /\ M i j = Some e /\ 2 <= List.length (tfree e) /\ k = name i j.
  Lemma parameterise_good l : forall st, good st -> (forall i j e sy, In (i, j) l -> M i j = Some e -> In sy (tfree e) -> exists c, sy = sg c /\ registered st c /\ rho c < rho (name i j)) ->
    exists st', stepM (parameterise_entry ord name M) l st = (st', Ok tt) /\ good st' /\
      (forall k, registered st' k <-> registered st k \/ named_entry k l) /\
      (forall k, ~ named_entry k l -> dget (c_par st') k = dget (c_par st) k) /\
      (forall k, parametric st k \/ named_entry k l -> parametric st' k) /\
      (forall k e ns, dget (c_par st') k = Some (e, ns) -> dget (c_par st) k = Some (e, ns) \/ exists i j, In (i, j) l /\ M i j = Some e /\ 2 <= List.length (tfree e) /\ k = name i j).
  Proof.
    unfold stepM. induction l as [|[i j] l IH]; intros st G HE; cbn [fold_left].
    - exists st. split; [reflexivity|]. split; [exact G|]. assert (N : forall k, ~ named_entry k []) by (intros k (i & j & e & [] & _)). split; [intros k; split; [auto|intros [H|H]; [auto|destruct (N k H)]]|]. split; [auto|]. split; [intros k [H|H]; [auto|destruct (N k H)]|auto].
    - assert (HE' : forall i' j' e sy, In (i', j') l -> M i' j' = Some e -> In sy (tfree e) -> exists c, sy = sg c /\ registered st c /\ rho c < rho (name i' j')) by (intros i' j' e sy Hi; apply HE; right; exact Hi).
      assert (SK : (forall e, M i j = Some e -> List.length (tfree e) < 2) -> forall k, named_entry k ((i, j) :: l) <-> named_entry k l).
      { intros Hs k. split; intros (i' & j' & e & Hi & He & H2 & ->); exists i', j', e; (split; [|auto]); [|right; auto]. destruct Hi as [Hi|Hi]; [|exact Hi]. injection Hi as <- <-. specialize (Hs e He). lia. }
      assert (SL : forall k e, (exists i' j', In (i', j') l /\ M i' j' = Some e /\ 2 <= List.length (tfree e) /\ k = name i' j') -> exists i' j', In (i', j') ((i, j) :: l) /\ M i' j' = Some e /\ 2 <= List.length (tfree e) /\ k = name i' j').
      { intros k e (i' & j' & H1 & H2). exists i', j'. split; [now right | exact H2]. }
      unfold parameterise_entry at 2. cbn [fst snd]. destruct (M i j) as [e|] eqn:EM; [destruct (Nat.ltb_spec (List.length (tfree e)) 2) as [Hl|Hl]|].
      + destruct (IH st G HE') as (st' & E1 & G1 & R1 & P1 & P2 & P3). exists st'. split; [exact E1|]. split; [exact G1|]. assert (SK' := SK ltac:(intros e' [= <-]; exact Hl)). split; [intros k; rewrite SK'; apply R1|]. split; [intros k; rewrite SK'; apply P1|]. split; [intros k; rewrite SK'; apply P2|].
        intros k e' ns H. destruct (P3 k e' ns H) as [H'|H']; [now left | right; now apply SL].
      + destruct (good_add st (name i j) None G (proj1 (Hname i j)) (or_introl (conj eq_refl (proj2 (Hname i j))))) as (st1 & E1 & G1 & P1 & R1). rewrite E1.
        destruct (good_addP st1 (name i j) e G1) as (st2 & names & E2 & G2 & P2 & C2); [apply R1; now right| |].
        { intros sy Hsy. destruct (HE i j e sy (or_introl eq_refl) EM Hsy) as (c & H1 & H2 & H3). exists c. split; [exact H1|]. split; [apply R1; now left | exact H3]. }
        rewrite E2. assert (R2 : forall k, registered st2 k <-> registered st k \/ k = name i j) by (intros k; unfold registered; rewrite C2; apply R1).
        destruct (IH st2 G2) as (st' & E3 & G3 & R3 & P3 & P4 & P5).
        { intros i' j' e' sy Hi He Hsy. destruct (HE' i' j' e' sy Hi He Hsy) as (c & H1 & H2 & H3). exists c. split; [exact H1|]. split; [apply R2; now left | exact H3]. }
        assert (NE : forall k, named_entry k ((i, j) :: l) <-> k = name i j \/ named_entry k l).
        { intros k. split.
          - intros (i' & j' & e' & [Hi|Hi] & He & H2 & ->); [injection Hi as <- <-; now left | right; exists i', j', e'; auto].
          - intros [->|(i' & j' & e' & Hi & H)]; [exists i, j, e; split; [now left | auto] | exists i', j', e'; split; [now right | exact H]]. }
        exists st'. split; [exact E3|]. split; [exact G3|]. split; [intros k; rewrite R3, R2, NE; tauto|]. split; [|split].
        * intros k Hk. rewrite NE in Hk. rewrite P3 by tauto. rewrite P2, dget_dset_neq by tauto. now rewrite P1.
        * intros k Hk. rewrite NE in Hk. apply P4. destruct Hk as [(e' & ns & Hk)|[->|Hk]]; [left|left|now right].
          -- unfold parametric. rewrite P2. destruct (string_dec k (name i j)) as [->|N]; [rewrite dget_dset_eq; eauto | rewrite dget_dset_neq by exact N; rewrite P1; eauto].
          -- unfold parametric. rewrite P2, dget_dset_eq. eauto.
        * intros k e' ns H. destruct (P5 k e' ns H) as [H'|H']; [|right; now apply SL]. rewrite P2 in H'. destruct (string_dec k (name i j)) as [->|N].
          -- rewrite dget_dset_eq in H'. injection H' as <- _. right. exists i, j. split; [now left | auto].
          -- rewrite dget_dset_neq in H' by exact N. rewrite P1 in H'. now left.
      + destruct (IH st G HE') as (st' & E1 & G1 & R1 & P1 & P2 & P3). exists st'. split; [exact E1|]. split; [exact G1|]. assert (SK' := SK ltac:(intros e' [=])). split; [intros k; rewrite SK'; apply R1|]. split; [intros k; rewrite SK'; apply P1|]. split; [intros k; rewrite SK'; apply P2|].
        intros k e' ns H. destruct (P3 k e' ns H) as [H'|H']; [now left | right; now apply SL].
  Qed.
End Good.
