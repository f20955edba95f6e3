(** The constructor of a circuit with resonators (C88). *)
From Coq Require Import List Bool String Ascii Arith ZArith NArith Reals Permutation Lia DecimalString.
From Verif Require Import Prelude PreludeFacts StrFacts Float Param Expr ExprProofs Coll CollGraph CollSpec CollProofs CollExpand CollUpdate Mat Graph GraphSpec GraphView GraphForest GraphWf GraphCircuit GraphState GraphMaps GraphOps GraphProofs Symbolic SymbolicSpec SymbolicInv SymbolicCap SymbolicCap2 SymbolicFlux SymbolicParam SymbolicInit SymbolicNew SymbolicMat SymbolicProofs Sweep Reson ResonSpec ResonProofs ResonBuild ResonInit ResonInitProofs ResonInitNest.
Import ListNotations.
Open Scope string_scope.
Open Scope list_scope.
Open Scope nat_scope.

(** ** values of expansions *)
Lemma rval_subs v e s t : v s = rval v t -> rval v (tsubs e s t) = rval v e.
Proof.
  intros H. induction e as [z|x|a IHa b IHb|a IHa b IHb|a IHa]; cbn [tsubs rval]; auto; try congruence. destruct (eqb_spec x s) as [->|]; auto.
Qed.
Lemma expanded_val rho ord fuel (st : cst tree_alg) k t v : good_ord ord -> good rho st -> parametric st k -> expanded ord fuel st (Some (TSym (sg k))) = Ok t -> consistent v st -> rval v t = v (sg k).
Proof.
  intros Ho G Hp E Hv. assert (Gd := G). destruct G as [(ow & G) HR]. assert (T := gi_t _ _ _ G). cbn [expanded] in E.
  assert (D := reg_sym sg st ow G k (gi_par _ _ _ G k Hp)). assert (F := D). apply (find_iff sg st T sg_inj) in F. unfold getParameterFromSymbol in E. rewrite F in E. cbn [bind] in E.
  destruct Hp as (e & ns & He). unfold getParametricExpression in E. rewrite He in E. apply (expand_ind (A := tree_alg) (fun b : tree => rval v b = v (sg k)) ord [] st Ho) in E as [E _]; auto.
  - intros b s q u ns' Hb Hs Hq Hu. rewrite <- Hb. apply rval_subs. apply (find_iff sg st T sg_inj) in Hq. eapply Hv; eauto.
  - symmetry. eapply Hv; eauto.
Qed.
(** any values of the other parameters extend to values of all *)
Section Solve.
  Variables (rho : string -> nat) (st : cst tree_alg) (v : string -> R).
  Hypothesis G : good rho st.
  Fixpoint lvl (m : nat) (sy : string) : R :=
    match m with
    | 0 => v sy
    | S m => match find_symbol (c_sym st) sy with
             | Some k => match dget (c_par st) k with Some (t, _) => rval (lvl m) t | None => v sy end
             | None => v sy
             end
    end.
  Lemma lvl_stable m : forall k, registered st k -> rho k < m -> lvl (S m) (sg k) = lvl m (sg k).
  Proof.
    destruct G as [(ow & GI) HR]. assert (T := gi_t _ _ _ GI). induction m as [|m IH]; [lia|]. intros k Hk Hr. assert (D := reg_sym sg st ow GI k Hk). apply (find_iff sg st T sg_inj) in D.
    cbn [lvl] in IH |- *. rewrite D. destruct (dget (c_par st) k) as [[t ns]|] eqn:E; [|reflexivity]. apply rval_ext. intros sy Hsy. destruct (dep_edge sg st ow GI k t ns sy E Hsy) as (q & He & Dq & _).
    destruct (sym_reg sg st ow GI q sy Dq) as [Rq ->]. apply IH; [exact Rq|]. apply HR in He. lia.
  Qed.
  Lemma solve B : (forall k, rho k < B) -> exists v', consistent v' st /\ forall k, registered st k -> ~ parametric st k -> v' (sg k) = v (sg k).
  Proof.
    intros HB. exists (lvl (S B)). destruct G as [(ow & GI) HR]. assert (T := gi_t _ _ _ GI). split.
    - intros k sy t ns D E. destruct (sym_reg sg st ow GI k sy D) as [Rk ->]. rewrite <- (lvl_stable (S B) k Rk) by (specialize (HB k); lia). cbn [lvl]. apply (find_iff sg st T sg_inj) in D. rewrite D, E. reflexivity.
    - intros k Rk Np. cbn [lvl]. assert (D := reg_sym sg st ow GI k Rk). apply (find_iff sg st T sg_inj) in D. rewrite D. destruct (dget (c_par st) k) as [[t ns]|] eqn:E; [|reflexivity]. destruct Np. exists t, ns. exact E.
  Qed.
End Solve.

(** ** the branches and parameters of the resonators *)
Definition vars_ok (r : resonator) : Prop := Forall (fun x => legal x /\ starts "p" x = false) (resonator_vars r).
Lemma with_params_good rho (s : cg) st r : good rho st -> vars_ok r -> exists st', with_params (s, st) r = ((s, st'), Ok tt) /\ good rho st' /\ c_par st' = c_par st /\ forall k, registered st' k <-> registered st k \/ In k (resonator_vars r).
Proof.
  intros G H. destruct (add_all_good rho (map (fun x => (x, None)) (resonator_vars r)) st G) as (st' & E & G' & P & Rg).
  - apply Forall_forall. intros x Hx. apply in_map_iff in Hx as (y & <- & Hy). unfold vars_ok in H. rewrite Forall_forall in H. destruct (H y Hy) as [H1 H2]. cbn [fst snd]. split; [exact H1|]. left. auto.
  - exists st'. unfold with_params. cbn [fst snd]. rewrite E. split; [reflexivity|]. split; [exact G'|]. split; [exact P|]. intros k. rewrite Rg, map_map. cbn [fst]. rewrite map_id. reflexivity.
Qed.
Lemma attach_state o : forall l k next s st e st', attach o k next l (s, st) = ((e, st'), Ok tt) -> covered s -> covered e /\
  forall rho st2, good rho st2 -> (forall n r, In (n, r) l -> vars_ok r) -> exists st2', attach o k next l (s, st2) = ((e, st2'), Ok tt) /\ good rho st2' /\ c_par st2' = c_par st2 /\
    forall k, registered st2' k <-> registered st2 k \/ exists n r, In (n, r) l /\ In k (resonator_vars r).
Proof.
  induction l as [|[n r] l IH]; intros k next s st e st'; cbn [attach].
  - intros [= <- <-] Hcov. split; [exact Hcov|]. intros rho st2 G _. exists st2. split; [reflexivity|]. split; [exact G|]. split; [reflexivity|]. intros q. split; [auto|]. intros [H|(n & r & [] & _)]; auto.
  - unfold with_branch_of. cbn [fst snd]. destruct (addBranch (o k) s n next (r_coupling r)) as [s1 [[]|x]] eqn:E1; cbn [andthen]; [|discriminate].
    cbn [fst snd]. destruct (addBranch (o (k + 1)) s1 next 0 (r_Cr r)) as [s2 [[]|x]] eqn:E2; cbn [andthen]; [|discriminate].
    cbn [fst snd]. destruct (addBranch (o (k + 2)) s2 next 0 (r_Lr r)) as [s3 [[]|x]] eqn:E3; cbn [andthen]; [|discriminate].
    destruct (with_params (s3, st) r) as [[s4 st4] [[]|x]] eqn:E4; cbn [andthen]; [|discriminate]. assert (s4 = s3) as -> by (unfold with_params in E4; destruct (add_all _ _) as [? ?]; injection E4; auto).
    intros E Hcov. assert (C1 := gstep_covered s (GBranch (o k) n next (r_coupling r)) Hcov). cbn [gstep] in C1. rewrite E1 in C1. specialize (C1 eq_refl). cbn [fst] in C1.
    assert (C2 := gstep_covered s1 (GBranch (o (k + 1)) next 0 (r_Cr r)) C1). cbn [gstep] in C2. rewrite E2 in C2. specialize (C2 eq_refl). cbn [fst] in C2.
    assert (C3 := gstep_covered s2 (GBranch (o (k + 2)) next 0 (r_Lr r)) C2). cbn [gstep] in C3. rewrite E3 in C3. specialize (C3 eq_refl). cbn [fst] in C3.
    destruct (IH _ _ _ _ _ _ E C3) as [Ce H]. split; [exact Ce|]. intros rho st2 G HV.
    destruct (with_params_good rho s3 st2 r G) as (st5 & E5 & G5 & P5 & R5); [apply (HV n r); left; auto|]. rewrite E5. cbn [andthen].
    destruct (H rho st5 G5) as (st6 & E6 & G6 & P6 & R6); [intros n' r' Hi; apply (HV n' r'); right; auto|]. exists st6. split; [exact E6|]. split; [exact G6|]. split; [congruence|].
    intros q. rewrite R6, R5. split.
    + intros [[H1|H1]|(n' & r' & H1 & H2)]; [auto|right; exists n, r; split; [left; auto|exact H1]|right; exists n', r'; split; [right; exact H1|exact H2]].
    + intros [H1|(n' & r' & [H1|H1] & H2)]; [auto|injection H1 as <- <-; auto|right; exists n', r'; auto].
Qed.
Lemma removed_covered s : covered (removeAllResonators s).
Proof.
  intros n. unfold removeAllResonators. cbn [set_res c_res c_graph]. generalize (c_res s). induction (g_nodes (c_graph s)) as [|x l IH]; intros d; [easy|]. cbn [fold_left]. intros [->|H]; [|auto].
  apply remove_res_keeps. apply In_dkeys_dset. auto.
Qed.
