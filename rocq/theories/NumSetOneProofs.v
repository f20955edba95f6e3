(** Proofs for C134. *)
From Coq Require Import List Bool String Arith NArith ZArith Lia SpecFloat Permutation.
From Verif Require Import Prelude PreludeFacts Symbolic Float Param Expr ExprProofs Sweep SweepProofs
  Coll CollGraph CollSpec CollProofs CollExpand CollUpdate CollMain CollFinal CollLast Temp NumOp NumSweep NumSweepSpec NumSubs NumRun
  NumSweepRun NumSteady NumSweepProofs NumSweepFinal NumSweepWit NumSweepRef NumAfter NumShared NumCoherentSpec NumCoherent NumSetOne.
Import ListNotations.
Open Scope list_scope.
Open Scope nat_scope.

Section S.
  Context {A : alg} (LAW : alg_ok A).
  Variable sg : string -> string.
  Hypothesis INJ : forall a b, sg a = sg b -> a = b.
  Implicit Types s : nsys A.

  Lemma one_current ord fuel sq s s' n v : sreach sg (n_cst s) [] -> good_ord ord -> good_sq sq -> NoDup (dkeys (n_data s)) ->
    ns_set_one_st ord fuel sq s n v = (s', Ok tt) -> coherent sg s' /\ n_exprs s' = n_exprs s /\ n_data s' = n_data s.
  Proof.
    intros RE GO GQ ND E.
    pose proof (sreach_op sg fuel (n_cst s) [] (ord, CSet n v) RE GO I) as RE'. change (fst (cstep _ _ _)) with (fst (setParameterValue ord fuel (n_cst s) n v)) in RE'.
    cbn [op_ow snd] in RE'. unfold ns_set_one_st in E. destruct (setParameterValue _ _ _ _ _) as [c [u|]]; [|discriminate]. cbn [fst] in RE'.
    destruct (all_set _); [|discriminate]. destruct (substitute sq (with_cst s c)) as [s2|] eqn:SU; [|discriminate]. cbn [bind] in E.
    destruct (prepareOperators s2) as [s3|] eqn:PO; [|discriminate]. injection E as <-.
    pose proof (substitute_current LAW sg INJ sq (with_cst s c) s2 (ginv_sreach LAW sg c [] RE') GQ SU) as CN.
    assert (K : n_exprs s2 = n_exprs s /\ n_data s2 = n_data s).
    { unfold substitute in SU. destruct (getSymbolValuesDict _) as [d|]; [|discriminate]. cbn [bind] in SU. destruct (mapM _ _) as [l|]; [|discriminate]. injection SU as <-. auto. }
    destruct K as [K1 K2]. assert (SY : in_sync s3) by (eapply prepare_sync; [|exact PO]; now rewrite K2).
    split; [split; [|exact SY]|]; unfold prepareOperators in PO; (destruct (expandOps _ _ _ _); [|discriminate]); cbn [bind] in PO; (destruct (mapM _ _); [|discriminate]); injection PO as <-; [exact CN | auto].
  Qed.
  Lemma one_many ord fuel sq s n v : independent (n_cst s) n ->
    ns_set_one_st ord fuel sq s n v = ns_set_st ord fuel sq s (SVDict [(n, v)]) /\ ns_set_one_st ord fuel sq s n v = ns_set_st ord fuel sq s (SVPos [n] [v]).
  Proof.
    intros [R N]. assert (E : setParameterValue ord fuel (n_cst s) n v = set_pairs ord fuel (n_cst s) [(n, v)]).
    { unfold setParameterValue, set_pairs. cbn [set_loop]. apply dkeys_dget in R as (p & ->). apply dmem_par_false in N. rewrite N. destruct (setValue p v) as [p' [[]|e]]; reflexivity. }
    unfold ns_set_one_st, ns_set_st. cbn [setParameterValues List.length Nat.eqb combine]. rewrite E. split; reflexivity.
  Qed.
  Lemma one_ignored ord fuel sq s n v s' r : registered (n_cst s) n -> parametric (n_cst s) n -> ns_set_one_st ord fuel sq s n v = (s', r) -> n_cst s' = n_cst s.
  Proof.
    intros R P. unfold ns_set_one_st. rewrite (C07_one (n_cst s) ord fuel n v R P). destruct (all_set _); [|intros E; injection E as <- <-; reflexivity].
    destruct (substitute sq _) as [s2|] eqn:SU; cbn [bind]; [|intros E; injection E as <- <-; reflexivity].
    assert (K : n_cst s2 = n_cst s). { unfold substitute in SU. destruct (getSymbolValuesDict _) as [d|]; [|discriminate]. cbn [bind] in SU. destruct (mapM _ _) as [l|]; [|discriminate]. injection SU as <-. reflexivity. }
    destruct (prepareOperators s2) as [s3|] eqn:PO; intros E; injection E as <- <-; [|reflexivity]. rewrite <- K.
    unfold prepareOperators in PO. destruct (expandOps _ _ _ _); [|discriminate]. cbn [bind] in PO. destruct (mapM _ _); [|discriminate]. injection PO as <-. reflexivity.
  Qed.
  Lemma one_unset sq s n q v p p' : sreach sg (n_cst s) [] -> independent (n_cst s) n -> independent (n_cst s) q -> q <> n -> value_of (n_cst s) q = None ->
    dget (c_coll (n_cst s)) n = Some p -> setValue p v = (p', Ok tt) ->
    exists m, forall ord fuel, good_ord ord -> m <= fuel -> exists s', ns_set_one_st ord fuel sq s n v = (s', Err AssertionError) /\
      value_of (n_cst s') n = p_value p' /\ (forall i, independent (n_cst s) i -> i <> n -> value_of (n_cst s') i = value_of (n_cst s) i) /\
      n_nums s' = n_nums s /\ n_circ s' = n_circ s /\ n_qp s' = n_qp s.
  Proof.
    intros RE [Rn Nn] [Rq Nq] Qn Vq G SV. pose proof (ginv_sreach LAW sg _ _ RE) as GI. set (st1 := with_coll (n_cst s) (dset (c_coll (n_cst s)) n p')).
    assert (GI1 : ginv sg st1 []) by (apply ginv_coll; [exact GI | apply dkeys_dset_in; eapply dget_Some_key; eauto]).
    exists (enough st1). intros ord fuel GO FU.
    destruct (update_value LAW sg st1 [] GI1 INJ ord fuel GO FU) as (c' & EU & K & _).
    assert (FR : forall i, ~ parametric (n_cst s) i -> value_of (with_coll st1 c') i = value_of st1 i).
    { intros i Ni. pose proof (update_roots ord fuel st1 i GO (nonpar_root sg st1 [] GI1 i Ni)) as X. rewrite EU in X. unfold value_of. cbn [fst] in X. now rewrite X. }
    assert (V1 : value_of st1 n = p_value p'). { unfold value_of, st1. cs. now rewrite dget_dset_eq. }
    assert (V2 : forall i, i <> n -> value_of st1 i = value_of (n_cst s) i). { intros i Hi. unfold value_of, st1. cs. now rewrite dget_dset_neq. }
    exists (with_cst s (with_coll st1 c')). unfold ns_set_one_st, setParameterValue. rewrite G. apply dmem_par_false in Nn. rewrite Nn, SV. fold st1. rewrite EU. apply dmem_par_false in Nn.
    assert (AS : all_set (getParameterValuesDict (with_coll st1 c')) = false).
    { destruct (all_set _) eqn:AS; [|reflexivity]. unfold all_set in AS. rewrite forallb_forall in AS. pose proof (FR q Nq) as X. rewrite (V2 q Qn), Vq in X.
      assert (Rq' : In q (dkeys c')). { rewrite K. unfold st1. cs. rewrite dkeys_dset_in by (eapply dget_Some_key; eauto). exact Rq. }
      apply dkeys_dget in Rq' as (pq & Gq). specialize (AS (q, getValue pq)). cbn [snd] in AS. unfold value_of in X. cs. rewrite Gq in X. unfold getValue in AS. rewrite X in AS. exfalso. apply Bool.diff_false_true. apply AS.
      unfold getParameterValuesDict. apply in_map_iff. exists (q, pq). cbn. unfold getValue. rewrite X. split; [reflexivity|]. cs. now apply dget_In. }
    rewrite AS. split; [reflexivity|]. cbn [with_cst n_cst n_nums n_circ n_qp]. split; [rewrite FR by exact Nn; exact V1|]. split; [intros i [_ Ni] Hi; rewrite FR by exact Ni; now apply V2|]. auto.
  Qed.
  (** *** one call after the other *)
  Lemma one_cst ord fuel sq s n v : n_cst (fst (ns_set_one_st ord fuel sq s n v)) = fst (setParameterValue ord fuel (n_cst s) n v).
  Proof.
    unfold ns_set_one_st. destruct (setParameterValue _ _ _ _ _) as [c [u|e]]; [|reflexivity]. cbn [fst]. destruct (all_set _); [|reflexivity].
    destruct (substitute sq (with_cst s c)) as [s2|] eqn:SU; cbn [bind]; [|reflexivity].
    assert (K : n_cst s2 = c). { unfold substitute in SU. destruct (getSymbolValuesDict _) as [d|]; [|discriminate]. cbn [bind] in SU. destruct (mapM _ _) as [l|]; [|discriminate]. injection SU as <-. reflexivity. }
    destruct (prepareOperators s2) as [s3|] eqn:PO; [|reflexivity]. cbn [fst]. rewrite <- K.
    unfold prepareOperators in PO. destruct (expandOps _ _ _ _); [|discriminate]. cbn [bind] in PO. destruct (mapM _ _); [|discriminate]. injection PO as <-. reflexivity.
  Qed.
  Lemma update_par ord fuel (st : cst A) : c_par (fst (update ord fuel st)) = c_par st.
  Proof. unfold update. destruct (root_loop _ _ _ _ _ _); reflexivity. Qed.
  Lemma one_step ord fuel sq s n v p p' : sreach sg (n_cst s) [] -> good_ord ord -> independent (n_cst s) n -> dget (c_coll (n_cst s)) n = Some p -> setValue p v = (p', Ok tt) ->
    let s' := fst (ns_set_one_st ord fuel sq s n v) in
    sreach sg (n_cst s') [] /\ c_par (n_cst s') = c_par (n_cst s) /\ dget (c_coll (n_cst s')) n = Some p' /\ forall i, independent (n_cst s) i -> i <> n -> dget (c_coll (n_cst s')) i = dget (c_coll (n_cst s)) i.
  Proof.
    intros RE GO [Rn Nn] G SV s'. pose proof (ginv_sreach LAW sg _ _ RE) as GI.
    pose proof (sreach_op sg fuel (n_cst s) [] (ord, CSet n v) RE GO I) as RE'. change (fst (cstep _ _ _)) with (fst (setParameterValue ord fuel (n_cst s) n v)) in RE'. cbn [op_ow snd] in RE'.
    unfold s'. rewrite one_cst. split; [exact RE'|]. clear RE'. unfold setParameterValue. rewrite G. pose proof Nn as Nn'. apply dmem_par_false in Nn'. rewrite Nn', SV.
    set (st1 := with_coll (n_cst s) (dset (c_coll (n_cst s)) n p')).
    assert (GI1 : ginv sg st1 []) by (apply ginv_coll; [exact GI | apply dkeys_dset_in; eapply dget_Some_key; eauto]).
    split; [now rewrite update_par|]. split.
    - rewrite (update_roots ord fuel st1 n GO (nonpar_root sg st1 [] GI1 n Nn)). unfold st1. cs. now rewrite dget_dset_eq.
    - intros i [_ Ni] Hi. rewrite (update_roots ord fuel st1 i GO (nonpar_root sg st1 [] GI1 i Ni)). unfold st1. cs. now rewrite dget_dset_neq.
  Qed.
  Lemma one_by_one fuel sq (calls : list (ordr * string * pyval)) : forall s, sreach sg (n_cst s) [] -> NoDup (map (fun c => snd (fst c)) calls) ->
    (forall o n v, In (o, n, v) calls -> good_ord o /\ independent (n_cst s) n /\ exists p p', dget (c_coll (n_cst s)) n = Some p /\ setValue p v = (p', Ok tt)) ->
    let s' := fold_left (fun s c => fst (ns_set_one_st (fst (fst c)) fuel sq s (snd (fst c)) (snd c))) calls s in
    sreach sg (n_cst s') [] /\
    (forall o n v p p', In (o, n, v) calls -> dget (c_coll (n_cst s)) n = Some p -> setValue p v = (p', Ok tt) -> value_of (n_cst s') n = p_value p') /\
    (forall i, independent (n_cst s) i -> ~ In i (map (fun c => snd (fst c)) calls) -> value_of (n_cst s') i = value_of (n_cst s) i).
  Proof.
    induction calls as [|[[o n] v] calls IH]; intros s RE ND HC; cbn [fold_left map fst snd]; [split; [exact RE|]; split; [intros ? ? ? ? ? []|reflexivity]|].
    cbn [map fst snd] in ND. inversion ND as [|a b Nin ND']; subst a b. destruct (HC o n v (or_introl eq_refl)) as (GO & In_ & p & p' & G & SV).
    destruct (one_step o fuel sq s n v p p' RE GO In_ G SV) as (RE1 & PA & G1 & FR). set (s1 := fst (ns_set_one_st o fuel sq s n v)) in *.
    assert (IN : forall i, independent (n_cst s) i -> independent (n_cst s1) i).
    { intros i Hi. split.
      - unfold registered. destruct (string_dec i n) as [->|Ni]; [eapply dget_Some_key; exact G1|]. destruct Hi as [Ri Hi]. apply dkeys_dget in Ri as (q & Gq). eapply dget_Some_key. rewrite FR by (auto; split; auto; eapply dget_Some_key; eauto). exact Gq.
      - intros (e & ns & H). rewrite PA in H. apply (proj2 Hi). exists e, ns. exact H. }
    assert (NC : forall o' n' v', In (o', n', v') calls -> n' <> n). { intros o' n' v' H ->. apply Nin. apply in_map_iff. exists (o', n, v'). auto. }
    destruct (IH s1 RE1 ND') as (E1 & E2 & E3).
    { intros o' n' v' H. destruct (HC o' n' v' (or_intror H)) as (GO' & I' & q & q' & Gq & SQ). split; [exact GO'|]. split; [now apply IN|]. exists q, q'. split; [|exact SQ]. rewrite FR; auto. eapply NC; eauto. }
    split; [exact E1|]. split.
    - intros o' n' v' q q' [H|H] Gq SQ.
      + injection H as <- <- <-. rewrite E3; [|now apply IN | exact Nin]. unfold value_of. rewrite G1. rewrite G in Gq. injection Gq as <-. rewrite SV in SQ. now injection SQ as <-.
      + apply (E2 o' n' v' q q' H); [|exact SQ]. destruct (HC o' n' v' (or_intror H)) as (_ & I' & _). rewrite FR; auto. eapply NC; eauto.
    - intros i Hi Ni. cbn [In] in Ni. rewrite E3; [|now apply IN | tauto]. unfold value_of. rewrite FR; auto.
  Qed.
End S.

(** ** a system without values *)
Open Scope string_scope.
Definition u_cst : cst tree_alg := hist ["x"; "y"] [].
Definition u_sys : nsys tree_alg := mkns u_cst sw0 [TAdd (sy "x") (sy "y")] [(1, (mkod 2 BCharge, TNum 0%Z : E tree_alg))] [] [] [].
Definition u_x := ns_set_one_st idord 50 idsq u_sys "x" (PInt 1).
Definition u_xy := ns_set_one_st idord 50 idsq (fst u_x) "y" (PInt 3).
Lemma u_reach : sreach dsg (n_cst u_sys) [].
Proof. apply sreach_new. cbn [u_sys n_cst]. unfold u_cst. reach_lit; [oks|vmr]. Qed.
Lemma one_wit : sreach dsg (n_cst u_sys) [] /\ independent (n_cst u_sys) "x" /\ independent (n_cst u_sys) "y" /\ value_of (n_cst u_sys) "y" = None /\
  (exists p p', dget (c_coll (n_cst u_sys)) "x" = Some p /\ setValue p (PInt 1) = (p', Ok tt)) /\
  snd u_x = Err AssertionError /\ value_of (n_cst (fst u_x)) "x" = Some (fz 1) /\ n_nums (fst u_x) = [] /\
  NoDup (dkeys (n_data (fst u_x))) /\ snd u_xy = Ok tt /\ n_nums (fst u_xy) = [fz 4].
Proof.
  split; [exact u_reach|]. assert (I : forall n, In n ["x"; "y"] -> independent (n_cst u_sys) n).
  { intros n Hn. split; [exact Hn|]. intros (e & ns & H). vm_compute in H. discriminate. }
  split; [apply I; now left|]. split; [apply I; right; now left|]. split; [vm_compute; reflexivity|]. split; [do 2 eexists; split; [vm_compute; reflexivity|]; vm_compute; reflexivity|].
  do 3 (split; [vm_compute; reflexivity|]). split; [vm_compute; repeat constructor; cbn; intuition discriminate|]. split; vm_compute; reflexivity.
Qed.
Lemma one_wit_par : registered (n_cst wsys) "p" /\ parametric (n_cst wsys) "p" /\ snd (ns_set_one_st idord 50 idsq wsys "p" (PInt 2)) = Ok tt.
Proof. split; [vm_compute; tauto|]. split; [do 2 eexists; vm_compute; reflexivity | vm_compute; reflexivity]. Qed.
Lemma one_wit_calls : let calls := [(idord, "x", PInt 1); (idord, "y", PInt 3)] in NoDup (map (fun c => snd (fst c)) calls) /\
  (forall o n v, In (o, n, v) calls -> good_ord o /\ independent (n_cst u_sys) n /\ exists p p', dget (c_coll (n_cst u_sys)) n = Some p /\ setValue p v = (p', Ok tt)) /\
  n_nums (fold_left (fun s c => fst (ns_set_one_st (fst (fst c)) 50 idsq s (snd (fst c)) (snd c))) calls u_sys) = [fz 4].
Proof.
  cbv zeta. split; [cbn; repeat constructor; cbn; intuition discriminate|]. split; [|vm_compute; reflexivity].
  destruct one_wit as (_ & I1 & I2 & _).
  intros o n v [H|[H|[]]]; injection H as <- <- <-; (split; [exact idord_good|]); (split; [assumption|]); do 2 eexists; (split; [vm_compute; reflexivity|]); vm_compute; reflexivity.
Qed.
