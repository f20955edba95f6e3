(** When the numbers and operators are those of the reported values. *)
From Coq Require Import List Bool String Arith NArith ZArith Lia SpecFloat Permutation.
From Verif Require Import Prelude PreludeFacts Symbolic Float Param Expr ExprProofs Sweep SweepProofs
  Coll CollGraph CollSpec CollProofs CollExpand CollUpdate CollMain CollFinal CollLast Temp NumOp NumSweep NumSweepSpec NumSubs NumRun
  NumSweepRun NumSteady NumSweepProofs NumSweepFinal NumSweepWit NumSweepRef NumAfter NumShared NumCoherentSpec.
Import ListNotations.
Open Scope list_scope.
Open Scope nat_scope.

Section S.
  Context {A : alg} (LAW : alg_ok A).
  Variable sg : string -> string.
  Hypothesis INJ : forall a b, sg a = sg b -> a = b.
  Implicit Types s : nsys A.

  Lemma set_st_eq ord fuel sq s a : ns_set ord fuel sq s a = match ns_set_st ord fuel sq s a with (s', Ok _) => Ok s' | (_, Err e) => Err e end.
  Proof.
    unfold ns_set, ns_set_st. destruct (setParameterValues _ _ _ _) as [c [u|e]]; auto. destruct (all_set _); auto.
    destruct (bind _ _); auto.
  Qed.

  Lemma substitute_current sq s s' : ginv sg (n_cst s) [] -> good_sq sq -> substitute sq s = Ok s' -> current_numbers sg s'.
  Proof.
    intros GI GQ E. destruct (svd_spec sg INJ (n_cst s) GI) as (d & Ed & ND & Hd). unfold substitute in E. rewrite Ed in E. cbn [bind] in E.
    destruct (mapM _ (n_exprs s)) as [l|] eqn:M; [|discriminate]. injection E as <-.
    unfold current_numbers. cbn [with_nums n_cst n_exprs n_nums]. apply mapM_ok in M.
    revert M. generalize (n_exprs s). intros es M. induction M as [|e x es l H _ IH]; constructor; auto.
    intros r v RD EV. unfold subs_dict in H. destruct (given d) as [g|] eqn:G; [|discriminate]. cbn [bind] in H.
    destruct (given_spec _ _ G) as [KG SG]. rewrite <- H. symmetry. apply (subs_seq_float LAW). rewrite <- EV.
    apply (eval_ext _ LAW). intros t _. unfold asg.
    assert (NoDup (dkeys g)) as NDg by congruence.
    rewrite <- (perm_dget g (sq g) t (Permutation_sym (GQ g)) NDg).
    destruct (dget g t) as [y|] eqn:Gt.
    - apply SG, Hd in Gt as (n & R & -> & V). symmetry. apply RD. exists n, y. auto.
    - destruct (r t) as [w|] eqn:Rt; auto. apply RD in Rt as (q & y & R & -> & V & _). exfalso.
      assert (dget g (sg q) = Some y) by (apply SG, Hd; exists q; auto). congruence.
  Qed.
  Lemma ns_set_coherent ord fuel sq s s' a : sreach sg (n_cst s) [] -> good_ord ord -> good_sq sq -> NoDup (dkeys (n_data s)) ->
    ns_set ord fuel sq s a = Ok s' -> coherent sg s'.
  Proof.
    intros RE GO GQ ND E. split; [|eapply ns_set_sync; eauto].
    pose proof (sreach_op sg fuel (n_cst s) [] (ord, CSets a) RE GO I) as RE'. change (fst (cstep _ _ _)) with (fst (setParameterValues ord fuel (n_cst s) a)) in RE'.
    cbn [op_ow snd] in RE'. unfold ns_set in E. destruct (setParameterValues _ _ _ _) as [c [u|]]; [|discriminate]. cbn [fst] in RE'.
    destruct (all_set _); [|discriminate]. destruct (substitute sq (with_cst s c)) as [s2|] eqn:SU; [|discriminate]. cbn [bind] in E.
    pose proof (substitute_current sq (with_cst s c) s2 (ginv_sreach LAW sg c [] RE') GQ SU) as CN.
    unfold prepareOperators in E. destruct (expandOps _ _ _ _); [|discriminate]. cbn [bind] in E. destruct (mapM _ _); [|discriminate]. injection E as <-. exact CN.
  Qed.

  Lemma set_coherent ord fuel sq s s' a : sreach sg (n_cst s) [] -> good_ord ord -> good_sq sq -> NoDup (dkeys (n_data s)) ->
    ns_set_st ord fuel sq s a = (s', Ok tt) -> coherent sg s'.
  Proof. intros RE GO GQ ND E. eapply ns_set_coherent; eauto. rewrite set_st_eq, E. reflexivity. Qed.

  Lemma reads_same (st st' : cst A) r : dkeys (c_coll st') = dkeys (c_coll st) -> (forall q, value_of st' q = value_of st q) -> reads sg st' r -> reads sg st r.
  Proof.
    intros K V H t v. destruct (H t v) as [H1 H2]. unfold registered in *. rewrite K in H1, H2. split.
    - intros E. destruct (H1 E) as (q & x & R & E1 & E2 & E3). rewrite V in E2. eauto 8.
    - intros (q & x & R & E1 & E2 & E3). apply H2. exists q, x. rewrite V. auto.
  Qed.

  Context {D K : Type}.
  Variable meth : string -> K -> option (D * D) -> view -> res (value D).
  Variable diagonalize : value D -> res (value D).
  Lemma explicit_coherent ord fuel sq (es : list (entry K)) : (forall i, good_ord (ord i)) -> (forall i, good_sq (sq i)) ->
    forall is s l, sreach sg (n_cst s) [] -> NoDup (dkeys (n_data s)) -> explicit meth diagonalize ord fuel sq es s is = Ok l ->
      coherent sg s -> coherent sg (last_sys s l).
  Proof.
    intros GO GQ. induction is as [|i is IH]; intros s l RE ND E CO; cbn [explicit] in E; [injection E as <-; exact CO|].
    destruct (grid_point (n_sw s) i) as [pt|]; [|discriminate]. cbn [bind] in E.
    destruct (ns_set _ _ _ s _) as [s'|] eqn:NS; [|discriminate]. cbn [bind] in E.
    destruct (evaluate _ _ _ _) as [p|]; [|discriminate]. cbn [bind] in E.
    destruct (explicit meth diagonalize ord fuel sq es s' is) as [l'|] eqn:EX; [|discriminate]. injection E as <-. rewrite last_cons.
    eapply IH; [| |exact EX|eapply ns_set_coherent; eauto].
    - rewrite (ns_set_cst _ _ _ _ _ _ NS). set (a := SVDict _). clear NS.
      pose proof (sreach_op sg fuel (n_cst s) [] (ord i, CSets a) RE (GO i) I) as RE'. change (fst (cstep _ _ _)) with (fst (setParameterValues (ord i) fuel (n_cst s) a)) in RE'.
      cbn [op_ow snd] in RE'. exact RE'.
    - clear - NS ND. unfold ns_set in NS. destruct (setParameterValues _ _ _ _) as [c [u|]]; [|discriminate]. destruct (all_set _); [|discriminate].
      unfold substitute in NS. destruct (getSymbolValuesDict _); [|discriminate]. cbn [bind] in NS.
      match type of NS with bind (bind ?m _) _ = _ => destruct m as [l1|]; [|discriminate] end. cbn [bind] in NS.
      unfold prepareOperators in NS. destruct (expandOps _ _ _ _); [|discriminate]. cbn [bind] in NS. destruct (mapM _ _); [|discriminate]. injection NS as <-. exact ND.
  Qed.

  Lemma sweep_coherent s specs s1 (o_set o_sw : nat -> ordr) (o_non o_re : ordr) fuel sqx sq_post sq_pre (kw0 : K) evals f t w :
    sreach sg (n_cst s) [] -> settled sg (n_cst s) -> (forall q, registered (n_cst s) q -> value_of (n_cst s) q <> None) ->
    (forall n, In n (map sp_name specs) -> independent (n_cst s) n) -> NoDup (dkeys (n_data s)) ->
    coherent sg s -> fixed_impedances s (map sp_name specs) -> with_grid s specs = Ok s1 -> can_write f t ->
    (forall i, good_ord (o_set i)) -> (forall i, good_ord (o_sw i)) -> good_ord o_non -> good_ord o_re ->
    (forall i, good_sq (sqx i)) -> (forall i, good_sq (sq_post i)) -> good_sq sq_pre ->
    numbers_along sg o_set fuel sqx s1 (seq 0 (Z.to_nat (s_npts (n_sw s1)))) \/ alg_plain A ->
    paramSweep meth diagonalize o_set o_sw fuel sq_post kw0 o_non o_re sq_pre s specs evals f t = Ok w -> coherent sg (w_sys w).
  Proof.
    intros RE SE SET IND ND CO FI GRID CW G1 G2 G3 G4 Q1 Q2 Q3 NA E. pose proof RE as GI. apply (ginv_sreach LAW) in GI.
    set (points := seq 0 (Z.to_nat (s_npts (n_sw s1)))) in *.
    destruct (presub_ok sg INJ s specs s1 GI SET IND GRID o_non sq_pre G3) as (pre & EP).
    destruct (regen_ok sg INJ s specs s1 GI IND GRID o_re G4) as (regen & ER).
    set (es := requested kw0 evals).
    assert (paramSweep meth diagonalize o_set o_sw fuel sq_post kw0 o_non o_re sq_pre s specs evals f t =
            foldM (sweep_point meth diagonalize o_set o_sw fuel sq_post es pre regen) points (mkswp s1 f t (results0 es) [])) as PS.
    { unfold paramSweep. unfold with_grid in GRID. destruct (ndSweep _ specs) as [sw [u|e]] eqn:EN; [|discriminate].
      injection GRID as <-. cbn [n_sw] in *. rewrite EP. cbn [bind]. rewrite ER. reflexivity. }
    rewrite PS in E.
    pose proof (loop_eq LAW sg INJ s1 (grid_ginv sg s specs s1 GI GRID) (grid_settled sg s specs s1 SE GRID) (grid_ind s specs s1 IND GRID)
      (grid_imp s specs s1 GRID FI) (proj2 (with_grid_cols _ _ _ GRID)) o_non o_re sq_pre pre regen G3 Q3 EP ER
      meth diagonalize o_set o_sw fuel sqx sq_post G1 G2 Q1 Q2 es points s1 (mkswp s1 f t (results0 es) [])) as LE.
    cbn [w_sys w_res w_fs w_temp] in LE.
    assert (inv s1 s1) as IV.
    { constructor; auto.
      - exists (c_coll (n_cst s1)). split; [now rewrite with_coll_id|apply kept_self].
      - apply (grid_sync s specs s1 GRID), CO.
      - now apply (grid_given s specs s1 SET GRID). }
    specialize (LE IV eq_refl eq_refl (or_intror eq_refl) (can_write_dir _ _ CW) NA).
    destruct (explicit meth diagonalize o_set fuel sqx es s1 points) as [l|x] eqn:EX; [|rewrite E in LE; discriminate].
    destruct (sweep_intro meth diagonalize o_set o_sw fuel sq_post es pre regen points l (mkswp s1 f t (results0 es) []) LE) as (w' & EW & _ & _ & _ & WS).
    { intros _. cbn [w_fs w_temp]. now apply can_write_dir. }
    rewrite E in EW. injection EW as <-. cbn [w_sys] in WS. change (w_sys w = last_sys s1 l) in WS. rewrite WS.
    destruct (with_grid_frame _ _ _ GRID) as ((c & EC & SC) & _ & E1 & E2 & E3 & E4 & E5 & _).
    apply (explicit_coherent o_set fuel sqx es G1 Q1 points s1 l); auto.
    - eapply grid_sreach; eauto.
    - now rewrite E2.
    - split; [|apply (grid_sync s specs s1 GRID), CO]. unfold current_numbers. rewrite E1, E5.
      destruct CO as [CN _]. unfold current_numbers in CN.
      assert (forall r, reads sg (n_cst s1) r -> reads sg (n_cst s) r) as RD.
      { intros r H. eapply reads_same; [| |exact H]; rewrite EC; [apply SC|]. intros q. now apply value_same. }
      clear - CN RD. induction CN; constructor; eauto.
  Qed.
End S.

(** ** Concrete systems *)
Open Scope string_scope.
Lemma not_current (s : nsys tree_alg) e x v y es xs : NoDup (dkeys (c_coll (n_cst s))) -> n_exprs s = e :: es -> n_nums s = x :: xs ->
  eval e (reading dsg (n_cst s)) = Some v -> toF v = Ok y -> x <> y -> ~ current_numbers dsg s.
Proof.
  intros ND E1 E2 EV T NE H. unfold current_numbers in H. rewrite E1, E2 in H. inversion H as [|a b l l' H1 _]; subst.
  specialize (H1 _ _ (reads_reading dsg dsg_inj _ ND) EV). congruence.
Qed.
Definition half := ns_set_st idord 50 idsq wsys (SVDict [("x", PInt 2); ("nope", PInt 1)]).
Definition wother := getok wsys (ns_set idord 50 idsq wsys (SVDict [("x", PInt 2)])).
Lemma w_coherent : coherent dsg wsys.
Proof.
  eapply (ns_set_coherent tree_alg_ok dsg dsg_inj idord 50 idsq w_sys0); [|apply idord_good|apply idsq_good| |exact w_set].
  - apply sreach_new. cbn [w_sys0 n_cst]. unfold w_cst. reach_lit; [unfold w_ops, set0; oks|vmr].
  - vm_compute. repeat constructor; cbn; intuition discriminate.
Qed.
Lemma z_coherent : coherent dsg zsys.
Proof.
  eapply (ns_set_coherent tree_alg_ok dsg dsg_inj idord 50 idsq z_sys0); [|apply idord_good|apply idsq_good| |exact z_set].
  - apply sreach_new. cbn [z_sys0 n_cst]. unfold z_cst. reach_lit; [unfold z_ops, set0; oks|vmr].
  - vm_compute. repeat constructor; cbn; intuition discriminate.
Qed.
Ltac stale := eapply not_current with (v := 15%Z); [vm_compute; repeat (constructor; [cbn; intuition discriminate|]); constructor|vm_compute; reflexivity|vm_compute; reflexivity|vm_compute; reflexivity|vm_compute; reflexivity|vm_compute; discriminate].
Lemma half_ref : coherent dsg wsys /\ (exists e, snd half = Err e) /\ value_of (n_cst (fst half)) "x" = Some (fz 2) /\ n_nums (fst half) = n_nums wsys /\ ~ current_numbers dsg (fst half).
Proof.
  split; [exact w_coherent|]. split; [eexists; vm_compute; reflexivity|]. split; [vm_compute; reflexivity|]. split; [vm_compute; reflexivity|]. stale.
Qed.
Lemma shared_ref : coherent dsg wsys /\ ns_set idord 50 idsq wsys (SVDict [("x", PInt 2)]) = Ok wother /\ coherent dsg wother /\ ~ current_numbers dsg (shared wother wsys).
Proof.
  assert (ns_set idord 50 idsq wsys (SVDict [("x", PInt 2)]) = Ok wother) as E by (apply isok_ok; vm_compute; reflexivity).
  split; [exact w_coherent|]. split; [exact E|]. split.
  - eapply (ns_set_coherent tree_alg_ok dsg dsg_inj _ _ _ _ _ _ w_sreach); [apply idord_good|apply idsq_good| |exact E].
    vm_compute. repeat constructor; cbn; intuition discriminate.
  - stale.
Qed.
Lemma z_ref : coherent dsg zsys /\ exists w, paramSweep cmeth cdiagz (fun _ => idord) (fun _ => idord) 50 (fun _ => idsq) 0%nat idord idord idsq zsys zspecs [] fs0 temp0 = Ok w /\
  value_of (n_cst (w_sys w)) "Zosc1" = Some (fz 2) /\ n_qp (w_sys w) = [osc 1] /\ ~ in_sync (w_sys w).
Proof.
  split; [exact z_coherent|]. eexists. split; [apply (isok_ok (mkswp zsys fs0 temp0 [] [])); vm_compute; reflexivity|].
  split; [vm_compute; reflexivity|]. split; [vm_compute; reflexivity|]. intros [_ H]. vm_compute in H. inversion H as [|a b l l' X Y]. discriminate.
Qed.
Lemma c112_wit : sreach dsg (n_cst wsys) [] /\ settled dsg (n_cst wsys) /\ (forall q, registered (n_cst wsys) q -> value_of (n_cst wsys) q <> None) /\
  (forall n, In n (map sp_name wspecs) -> independent (n_cst wsys) n) /\ NoDup (dkeys (n_data wsys)) /\ coherent dsg wsys /\
  fixed_impedances wsys (map sp_name wspecs) /\ with_grid wsys wspecs = Ok wgrid /\ @can_write nat fs0 temp0 /\
  numbers_along dsg (fun _ => idord) 50 (fun _ => revsq) wgrid (seq 0 (Z.to_nat (s_npts (n_sw wgrid)))) /\
  exists w, paramSweep cmeth cdiagz (fun _ => idord) (fun _ => idord) 50 (fun _ => idsq) 0%nat idord idord idsq wsys wspecs cevals fs0 temp0 = Ok w /\
    n_nums wsys = [fz 12] /\ n_nums (w_sys w) = [fz 18].
Proof.
  split; [exact w_sreach|]. split; [exact w_settled|]. split; [exact w_given|]. split; [exact w_ind|].
  split; [vm_compute; repeat constructor; cbn; intuition discriminate|]. split; [exact w_coherent|]. split; [exact w_imp|]. split; [exact w_grid|].
  split; [exact fs0_write|]. split; [exact w_numbers|].
  eexists. split; [apply (isok_ok (mkswp wsys fs0 temp0 [] [])); vm_compute; reflexivity|]. split; vm_compute; reflexivity.
Qed.
