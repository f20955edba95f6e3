(** History-level forms of C10-C14, C16-C18. *)
From Coq Require Import List Bool String Ascii ZArith Lia PeanoNat SpecFloat Permutation Relations.
From Verif Require Import Prelude PreludeFacts Float Param Expr Sweep SweepProofs SweepResultProofs
  Coll CollGraph CollSpec CollProofs CollExpand CollUpdate CollMain.
Import ListNotations.
Open Scope list_scope.

Section F.
  Context {A : alg} (LAW : alg_ok A).
  Implicit Types st : cst A.
  Variable sg : string -> string.
  Hypothesis INJ : forall a b, sg a = sg b -> a = b.

  Lemma set_ok_update ord fuel st ow o st' : ginv sg st ow -> good_ord ord -> sets st o -> cstep fuel st (ord, o) = (st', Ok tt) ->
    exists st1 c, st1 = with_coll st c /\ ginv sg st1 ow /\ (forall p, parametric st p -> dget (c_coll st1) p = dget (c_coll st) p) /\
      forall fuel', enough st <= fuel' -> update ord fuel' st1 = (st', Ok tt).
  Proof.
    intros GI GO S E. destruct (sets_update ord fuel st o S) as [(st1 & E1 & (c & -> & K) & HP & _)|(st1 & e & E1)].
    2:{ rewrite E1 in E. discriminate. }
    rewrite E in E1. symmetry in E1. exists (with_coll st c), c. split; auto.
    pose proof (ginv_coll sg st ow c GI K) as GI1. split; auto. split; auto.
    intros fuel' L. rewrite <- E1.
    assert (update ord (max fuel fuel') (with_coll st c) = update ord fuel (with_coll st c)) as M1.
    { apply update_mono; [lia|]. rewrite E1. discriminate. }
    rewrite <- M1. symmetry. apply update_mono; [lia|].
    apply (update_terminates LAW sg); auto. apply GI1.
  Qed.

  Lemma C10_ginv st ow ord fuel o st' : ginv sg st ow -> good_ord ord -> sets st o -> cstep fuel st (ord, o) = (st', Ok tt) ->
    forall r p q v x p', solution st' r -> dget (c_coll st') p = Some p' ->
      depends_tr st' p q -> independent st' q -> value_of st' q <> None ->
      r (sg p) = Some v -> toF v = Ok x -> snd (setValue p' (PFloat x)) = Ok tt -> getParameterValue st' p = Ok (Some x).
  Proof.
    intros RE GO S E r p q v x p' SOL G' D IQ VQ RV FV ACC.
    destruct (set_ok_update _ _ _ _ _ _ RE GO S E) as (st1 & c & Est1 & GI1 & _ & UP).
    assert (enough st1 <= enough st1) as L by lia.
    destruct (update_value LAW sg st1 ow GI1 INJ ord (enough st1) GO L) as (c' & E1 & K & H).
    rewrite (UP (enough st1)) in E1 by (subst st1; cbn; apply le_n). injection E1 as ->.
    unfold getParameterValue. rewrite G'. f_equal. unfold getValue. cs.
    assert (independent st1 q) as IQ1.
    { destruct IQ as [R N]. split; auto. unfold registered in *; cs. congruence. }
    apply (H r p q v x p'); auto.
    - apply (depends_path sg st1 ow GI1). exact D.
    - rewrite <- VQ || idtac. 
      destruct (update_spec LAW sg st1 ow GI1 INJ ord (enough st1) GO L (P1 sg st1)
        (fun tag d e => P1_init LAW sg st1 ow GI1 INJ ord _ GO tag d e)
        (fun d e r s x => P1_step LAW sg st1 ow GI1 INJ d e r s x)) as (c2 & E2 & _ & HR & _).
      rewrite (UP (enough st1)) in E2 by (subst st1; cbn; apply le_n). injection E2 as E2. rewrite <- E2 in HR.
      rewrite (handled_indep sg st1 ow GI1 c' HR q (proj2 IQ1)) in VQ. exact VQ.
  Qed.
  Lemma C10_lemma st ow ord fuel o st' : reach sg st ow -> good_ord ord -> sets st o -> cstep fuel st (ord, o) = (st', Ok tt) ->
    forall r p q v x p', solution st' r -> dget (c_coll st') p = Some p' ->
      depends_tr st' p q -> independent st' q -> value_of st' q <> None ->
      r (sg p) = Some v -> toF v = Ok x -> snd (setValue p' (PFloat x)) = Ok tt -> getParameterValue st' p = Ok (Some x).
  Proof. intros RE. apply (C10_ginv st ow). exact (ginv_reach LAW sg st ow RE). Qed.

  Lemma C11_lemma st ow o : alg_plain A -> reach sg st ow -> sets st o -> exists n, forall fuel fuel' ord ord',
    n <= fuel -> n <= fuel' -> good_ord ord -> good_ord ord' -> cstep fuel st (ord, o) = cstep fuel' st (ord', o).
  Proof.
    intros PL RE S. apply (ginv_reach LAW) in RE. exists (enough st). intros fuel fuel' ord ord' F F' G G'.
    destruct (sets_update ord fuel st o S) as [(st1 & E1 & (c & -> & K) & HP & E2)|(st1 & e & E1)].
    - rewrite (E2 ord fuel), (E2 ord' fuel'). apply (update_order LAW sg _ ow); auto. now apply ginv_coll.
    - now rewrite !E1.
  Qed.

  Lemma C12_lemma st ow ord fuel o st' : alg_plain A -> reach sg st ow -> good_ord ord -> sets st o -> cstep fuel st (ord, o) = (st', Ok tt) ->
    forall p u, mentions_tr st' p u -> independent st' u -> value_of st' u = None -> value_of st' p = value_of st p.
  Proof.
    intros PL RE GO S E p u M IU VU. apply (ginv_reach LAW) in RE.
    destruct (set_ok_update _ _ _ _ _ _ RE GO S E) as (st1 & c & Est1 & GI1 & HP & UP).
    assert (enough st1 <= enough st1) as L by lia.
    destruct (update_plain LAW sg st1 ow GI1 INJ ord (enough st1) PL GO L) as (c' & E1 & K & HR & _ & HM & _).
    rewrite (UP (enough st1)) in E1 by (subst st1; cbn; apply le_n). injection E1 as ->.
    assert (independent st1 u) as IU1.
    { destruct IU as [R N]. split; auto. unfold registered in *; cs. congruence. }
    assert (parametric st p) as PP.
    { apply clos_first in M as (z & (e & ns & s & G & _) & _). subst st1. cs. exists e, ns. exact G. }
    rewrite value_with_coll. rewrite (HM p u IU1).
    - rewrite HP by auto. reflexivity.
    - rewrite <- VU. symmetry. exact (handled_indep sg st1 ow GI1 c' HR u (proj2 IU1)).
    - exact M.
  Qed.

  (** *** C17 *)
  Lemma C17_lemma st ord tag fuel name F : reach_any st -> good_ord ord ->
    getParametricExpression ord tag fuel st name true = Ok F ->
    (forall s, In s (free F) -> exists q, getParameterFromSymbol st s = Ok q /\ independent st q) /\
    (forall e ind r v, getParametricExpression ord tag fuel st name false = Ok e -> solves st ind r ->
       eval e r = Some v -> eval F r = Some v) /\
    (alg_plain A -> forall e ind r, getParametricExpression ord tag fuel st name false = Ok e -> solves st ind r ->
       eval F r = eval e r).
  Proof.
    intros RE GO X. apply wf_reach in RE. unfold getParametricExpression in *.
    destruct (dget (c_par st) name) as [[e0 ns]|] eqn:G; [|discriminate]. split; [|split].
    - destruct (expand_ind (fun _ => True) ord tag st GO (fun _ _ _ _ _ _ _ _ _ => I) _ _ _ _ X I) as [_ H].
      intros s Hs. destruct (H s Hs) as (q & Fq & N). exists q. unfold getParameterFromSymbol. rewrite Fq. split; auto.
      split; auto. unfold registered. rewrite (wf_keys _ RE).
      apply find_symbol_sound in Fq; [eapply dget_Some_key; eauto|]. rewrite <- (wf_keys _ RE). apply (wf_nodup _ RE).
    - intros e ind r v [= ->] SOL EV. eapply (expand_value LAW); eauto.
    - intros PL e ind r [= ->] SOL. eapply (expand_value_plain LAW); eauto.
  Qed.
  Lemma C17_solution st ow ind : reach sg st ow ->
    exists r, solves st ind r /\ forall r', solves st ind r' -> forall q, registered st q -> r' (sg q) = r (sg q).
  Proof.
    intros RE. apply (ginv_reach LAW) in RE.
    destruct (solution_exists LAW sg st ind (gi_t _ _ _ RE) INJ) as (r & SOL). exists r. split; auto.
    intros r' SOL' q R. eapply (solution_unique LAW sg st ind (gi_t _ _ _ RE) INJ); eauto.
    - intros p e ns G. apply (syms_closed sg st ow RE _ _ _ G).
    - now apply (reg_sym sg st ow RE).
  Qed.
  Lemma C17_total st ow : reach sg st ow -> exists n, forall ord tag fuel name, n <= fuel -> good_ord ord -> parametric st name ->
    exists F, getParametricExpression ord tag fuel st name true = Ok F.
  Proof.
    intros RE. apply (ginv_reach LAW) in RE. exists (enough st). intros ord tag fuel name L GO PN.
    eapply (getP_ok LAW sg st ow); eauto.
  Qed.

  (** *** C16 *)
  Lemma C16_lemma st n : reach_rm sg st -> registered st n ->
    exists s, getSymbol st n = Ok s /\ getParameterFromSymbol st s = Ok n.
  Proof.
    intros RE R. apply (tinv_reach LAW) in RE. pose proof (ti_wf _ _ RE) as W. unfold registered in R.
    rewrite (wf_keys _ W) in R. apply dkeys_dget in R as (s & D). exists s. unfold getSymbol, getParameterFromSymbol.
    rewrite D. split; auto. apply (find_iff sg st RE INJ) in D. now rewrite D.
  Qed.

  (** *** C18 *)
  Definition dependents st (swept : list string) n : Prop := In n swept \/ exists r, In r swept /\ depends_tr st n r.
  Lemma edges_depends st : ginv sg st [] -> forall a b, In (a, b) (c_edges st) <-> depends st b a.
  Proof.
    intros GI a b. unfold depends, getParameterisationParameters. split.
    - intros H. destruct (gi_tidy _ _ _ GI a b (fun C => C) H) as (e & ns & -> & Ha). eauto.
    - intros (ns & H & Ha). destruct (dget (c_par st) b) as [[e ns']|] eqn:G; [|discriminate]. injection H as ->.
      now apply (ti_par _ _ (gi_t _ _ _ GI) _ _ _ G).
  Qed.
  Lemma path_depends st : ginv sg st [] -> forall a b, path (c_edges st) a b <-> depends_tr st b a.
  Proof.
    intros GI a b. split; (induction 1 as [x y H|x y z _ IH1 _ IH2]; [apply t_step; now apply (edges_depends st GI)|eapply t_trans; eauto]).
  Qed.
  Lemma involving_spec st n : registered st n -> ~ parametric st n -> exists l, getParameterisationsInvolving st n = Ok l /\
    forall p, In p l <-> depends st p n.
  Proof.
    intros R N. unfold getParameterisationsInvolving. unfold registered in R. apply mem_In in R. unfold dmem at 1. rewrite R. cbn [negb].
    apply dmem_par_false in N. rewrite N. eexists. split; [reflexivity|]. intros p. rewrite filter_In. unfold depends, getParameterisationParameters.
    destruct (dget (c_par st) p) as [[e ns]|] eqn:G.
    - rewrite mem_In. split; [intros [_ H]; eauto|]. intros (ns' & [= <-] & H). split; auto. eapply dget_Some_key; eauto.
    - split; [intros [_ H]; discriminate|]. intros (ns' & H & _). discriminate.
  Qed.
  Lemma nfp_spec st swept : ginv sg st [] -> (forall n, In n swept -> independent st n) ->
    exists l, not_for_presub st swept = Ok l /\ NoDup l /\ forall n, In n l <-> dependents st swept n.
  Proof.
    intros GI H. unfold not_for_presub.
    destruct (mapM_exists (getParameterisationsInvolving st) swept) as (ps & E).
    { intros n Hn. destruct (H n Hn) as [R N]. destruct (involving_spec st n R N) as (l & El & _). eauto. }
    rewrite E. cbn [bind]. eexists. split; [reflexivity|]. split; [apply dedup_NoDup|].
    apply mapM_ok in E. intros n. rewrite dedup_In, in_app_iff, in_concat. unfold dependents.
    assert (forall p, In p (List.concat ps) <-> exists r, In r swept /\ depends st p r) as CP.
    { intros p. rewrite in_concat. split.
      - intros (l & Hl & Hp). destruct (Forall2_In_r _ _ _ _ E Hl) as (r & Hr & Er). destruct (H r Hr) as [R N].
        destruct (involving_spec st r R N) as (l' & El' & HL). rewrite Er in El'. injection El' as <-. exists r. split; auto. now apply HL.
      - intros (r & Hr & D). destruct (H r Hr) as [R N]. destruct (Forall2_In_l _ _ _ _ E Hr) as (l & Hl & El).
        destruct (involving_spec st r R N) as (l' & El' & HL). rewrite El in El'. injection El' as <-. exists l. split; auto. now apply HL. }
    split.
    - intros [Hn|(l & Hl & Hn)]; auto. right. apply in_map_iff in Hl as (p & <- & Hp). apply CP in Hp as (r & Hr & D).
      exists r. split; auto. destruct Hn as [<-|Hn]; [now apply t_step|]. apply descendants_In in Hn as [Hn _].
      apply (path_depends st GI) in Hn. eapply t_trans; [exact Hn|now apply t_step].
    - intros [Hn|(r & Hr & D)]; auto. right. apply (path_depends st GI) in D.
      apply clos_first in D as (p & Hp & D). exists (p :: descendants (c_edges st) p). split.
      + apply in_map_iff. exists p. split; auto. apply CP. exists r. split; auto. now apply (edges_depends st GI).
      + destruct D as [->|D]; [now left|]. destruct (eqb_dec n p) as [->|Np]; [now left|]. right. apply descendants_In. auto.
  Qed.
  Lemma gsv_spec st : ginv sg st [] -> forall names, (forall n, In n names -> registered st n) -> forall d0,
    exists d, fold_left (fun acc n =>
      bind acc (fun d =>
      match dget (c_coll st) n, dget (c_sym st) n with
      | Some p, Some s => Ok (dset d s (getValue p))
      | None, _ => Err ValueError
      | _, None => Err KeyError
      end)) names (Ok d0) = Ok d /\
      (forall n, In n names -> dget d (sg n) = Some (value_of st n)) /\
      (forall s, ~ (exists n, In n names /\ s = sg n) -> dget d s = dget d0 s).
  Proof.
    intros GI. induction names as [|n r IH]; intros HR d0; cbn [fold_left].
    - exists d0. split; auto. split; auto. intros n [].
    - pose proof (HR n (or_introl eq_refl)) as R. pose proof R as R'. apply dkeys_dget in R' as (p & Gp).
      cbn [bind]. rewrite Gp, (reg_sym sg st [] GI n R).
      destruct (IH (fun m Hm => HR m (or_intror Hm)) (dset d0 (sg n) (getValue p))) as (d & E & H1 & H2). exists d. split; auto. split.
      + intros m [<-|Hm]; auto. destruct (mem_In_dec n r) as [Hn|Hn]; auto. rewrite H2.
        * rewrite dget_dset_eq. unfold value_of. now rewrite Gp.
        * intros (m & Hm & Em). apply INJ in Em. now subst.
      + intros s N. rewrite H2.
        * apply dget_dset_neq. intros ->. apply N. exists n. split; [now left|auto].
        * intros (m & Hm & Em). apply N. exists m. split; [now right|auto].
  Qed.
  Lemma depends_reg st n r : ginv sg st [] -> depends_tr st n r -> registered st n.
  Proof.
    intros GI D. apply (gi_par _ _ _ GI). apply clos_first in D as (z & (ns & H & _) & _).
    unfold getParameterisationParameters in H. destruct (dget (c_par st) n) as [[e ns']|] eqn:G; [|discriminate]. exists e, ns'. exact G.
  Qed.
  Lemma C18_ginv st swept ord ord' : ginv sg st [] -> good_ord ord -> good_ord ord' -> (forall n, In n swept -> independent st n) ->
    exists d d', getSweepParametersDict ord st swept = Ok d /\ getNonSweepParametersDict ord' st swept = Ok d' /\
      (forall s v, dget d s = Some v <-> exists n, registered st n /\ dependents st swept n /\ s = sg n /\ v = value_of st n) /\
      (forall s v, dget d' s = Some v <-> exists n, registered st n /\ ~ dependents st swept n /\ s = sg n /\ v = value_of st n).
  Proof.
    intros RE GO GO' H. unfold getSweepParametersDict, getNonSweepParametersDict.
    destruct (nfp_spec st swept RE H) as (l & E & ND & HL). rewrite E. cbn [bind]. unfold getSymbolValues.
    assert (forall n, In n l -> registered st n) as HR.
    { intros n Hn. apply HL in Hn as [Hn|(r & _ & D)]; [now apply H|eapply depends_reg; eauto]. }
    destruct (gsv_spec st RE (ord [0] l)) with (d0 := @nil (string * option f64)) as (d & Ed & D1 & D2).
    { intros n Hn. apply (Permutation_in _ (GO _ _)) in Hn. auto. }
    set (l' := filter (fun k => negb (mem k l)) (dkeys (c_coll st))).
    assert (forall n, In n l' <-> registered st n /\ ~ dependents st swept n) as HL'.
    { intros n. unfold l'. rewrite filter_In, negb_true_iff, mem_nIn, HL. reflexivity. }
    destruct (gsv_spec st RE (ord' [0] l')) with (d0 := @nil (string * option f64)) as (d' & Ed' & D1' & D2').
    { intros n Hn. apply (Permutation_in _ (GO' _ _)) in Hn. now apply HL'. }
    exists d, d'. split; auto. split; auto.
    assert (forall o names dd, good_ord o -> (forall n, In n (o [0] names) -> dget dd (sg n) = Some (value_of st n)) ->
      (forall s, ~ (exists n, In n (o [0] names) /\ s = sg n) -> dget dd s = None) ->
      forall s v, dget dd s = Some v <-> exists n, In n names /\ s = sg n /\ v = value_of st n) as G.
    { intros o names dd Go A1 A2 s v. split.
      - intros Hs. destruct (mem_In_dec s (map sg (o [0] names))) as [I|I].
        + apply in_map_iff in I as (n & <- & Hn). exists n. split; [now apply (Permutation_in _ (Go [0] names))|]. split; auto.
          rewrite (A1 n Hn) in Hs. congruence.
        + exfalso. rewrite A2 in Hs; [discriminate|]. intros (n & Hn & ->). apply I. now apply in_map.
      - intros (n & Hn & -> & ->). apply A1. now apply (Permutation_in _ (Permutation_sym (Go [0] names))). }
    split; intros s v.
    - rewrite (G ord l d GO D1 D2). split.
      + intros (n & Hn & Es & Ev). exists n. split; auto. split; [now apply HL|auto].
      + intros (n & Rn & Dn & Es & Ev). exists n. split; [now apply HL|auto].
    - rewrite (G ord' l' d' GO' D1' D2'). split.
      + intros (n & Hn & Es & Ev). exists n. apply HL' in Hn as [Rn Nn]. auto.
      + intros (n & Rn & Dn & Es & Ev). exists n. split; [now apply HL'|auto].
  Qed.
  Lemma C18_lemma st swept ord ord' : reach sg st [] -> good_ord ord -> good_ord ord' -> (forall n, In n swept -> independent st n) ->
    exists d d', getSweepParametersDict ord st swept = Ok d /\ getNonSweepParametersDict ord' st swept = Ok d' /\
      (forall s v, dget d s = Some v <-> exists n, registered st n /\ dependents st swept n /\ s = sg n /\ v = value_of st n) /\
      (forall s v, dget d' s = Some v <-> exists n, registered st n /\ ~ dependents st swept n /\ s = sg n /\ v = value_of st n).
  Proof. intros RE. apply C18_ginv. exact (ginv_reach LAW sg st [] RE). Qed.
End F.

(** *** C14 *)
Section R.
  Context {A : alg} (LAW : alg_ok A).
  Variables (st : cst A) (x sx : string).
  Hypothesis (WF : wf st) (SX : dget (c_sym st) x = Some sx) (HIN : has_in (c_edges st) x = true).
  Hypothesis UNUSED : forall p e ns, dget (c_par st) p = Some (e, ns) -> ~ In sx (free e).
  Let st' c := mkcst (ddel c x) (ddel (c_sym st) x) (c_par st) (c_nodes st) (c_edges st).

  Lemma find_ddel s : s <> sx -> find_symbol (ddel (c_sym st) x) s = find_symbol (c_sym st) s.
  Proof.
    intros N. assert (ND : NoDup (dkeys (c_sym st))) by (rewrite <- (wf_keys _ WF); apply (wf_nodup _ WF)).
    clear - N SX ND. induction (c_sym st) as [|[k v] r IH]; auto. change (NoDup (k :: dkeys r)) in ND. inversion ND; subst.
    cbn [dget] in SX. unfold ddel in *. cbn [filter fst]. destruct (eqb_spec x k) as [->|Nk].
    - cbn [negb find_symbol]. injection SX as ->. destruct (eqb_spec s sx); [congruence|].
      f_equal. clear - H1. induction r as [|[k' v'] r IH]; auto. cbn [filter fst].
      change (~ In k (k' :: dkeys r)) in H1. cbn [In] in H1. destruct (eqb_spec k k') as [->|]; [tauto|]. cbn [negb]. f_equal. tauto.
    - cbn [negb find_symbol]. destruct (eqb s v); auto.
  Qed.
  Lemma exprP_rm c l : ~ In sx l -> exprParametric (st' c) l = exprParametric st l.
  Proof.
    induction l as [|s r IH]; cbn [exprParametric]; auto. intros N. unfold getParameterFromSymbol, st'; cs.
    rewrite find_ddel by (intros ->; apply N; now left). destruct (find_symbol (c_sym st) s); cbn [bind]; auto.
    destruct (dmem (c_par st) s0); auto. apply IH. intros C. apply N. now right.
  Qed.
  Lemma round_rm c base l : ~ In sx l -> expand_round (st' c) base l = expand_round st base l.
  Proof.
    unfold expand_round. generalize (@None (E A)). induction l as [|s r IH]; cbn [fold_left]; auto. intros acc N.
    rewrite IH by (intros C; apply N; now right). f_equal. unfold getParameterFromSymbol, st'; cs.
    rewrite find_ddel by (intros ->; apply N; now left). reflexivity.
  Qed.
  Lemma expand_rm c ord tag : good_ord ord -> forall fuel k base, ~ In sx (free base) ->
    expand_loop ord tag (st' c) fuel k base = expand_loop ord tag st fuel k base.
  Proof.
    intros GO. induction fuel as [|fuel IH]; intros k base N; cbn [expand_loop];
      (rewrite exprP_rm by (intros C; apply (Permutation_in _ (GO _ _)) in C; auto)); [reflexivity|].
    destruct (exprParametric st _) as [[]|]; cbn [bind]; auto.
    rewrite round_rm by (intros C; apply (Permutation_in _ (GO _ _)) in C; auto).
    destruct (expand_round st base _) as [e|] eqn:R; auto. apply IH.
    apply round_Some in R as (s & q & t & ns & Hs & F & G & ->). intros C. apply (free_subs A LAW) in C as [[C _]|C]; auto.
    eapply UNUSED; eauto.
  Qed.
  Lemma getP_rm c ord tag fuel d : good_ord ord -> getParametricExpression ord tag fuel (st' c) d true = getParametricExpression ord tag fuel st d true.
  Proof.
    intros GO. unfold getParametricExpression, st'; cs. destruct (dget (c_par st) d) as [[e ns]|] eqn:G; auto.
    apply (expand_rm c); auto. eapply UNUSED; eauto.
  Qed.
  Lemma path_rm c ord fuel sym v : good_ord ord -> forall l tag vals j,
    path_loop ord tag fuel (st' c) sym v vals j l = path_loop ord tag fuel st sym v vals j l.
  Proof.
    intros GO. induction l as [|d r IH]; intros tag vals j; cbn [path_loop]; auto.
    destruct (dget vals d) as [[e|]|]; auto; [cbn [bind]; apply IH|]. rewrite getP_rm by auto.
    destruct (getParametricExpression _ _ _ st _ _); cbn [bind]; auto.
  Qed.
  Lemma exprP_coll c : forall l, exprParametric (with_coll st c) l = exprParametric st l.
  Proof.
    induction l as [|s r IH]; cbn [exprParametric]; auto. change (getParameterFromSymbol (with_coll st c) s) with (getParameterFromSymbol st s).
    destruct (getParameterFromSymbol st s); cbn [bind]; auto. cs. now rewrite IH.
  Qed.
  Lemma root_rm c ord fuel : good_ord ord -> forall roots vals i, ~ In x roots ->
    root_loop ord fuel (st' c) vals i roots = root_loop ord fuel (with_coll st c) vals i roots.
  Proof.
    intros GO. induction roots as [|r rest IH]; intros vals i N; cbn [root_loop]; auto.
    assert (r <> x) as Nr by (intros ->; apply N; now left).
    unfold getSymbol, getParameterValue. unfold st' at 1 2; cs. rewrite !dget_ddel. destruct (eqb_spec r x); [congruence|].
    destruct (dget (c_sym st) r); cbn [bind]; auto. destruct (dget c r) as [p|]; cbn [bind]; auto.
    destruct (getValue p); [|apply IH; intros C; apply N; now right].
    rewrite path_rm by auto.
    change (path_loop ord [3; i] fuel (with_coll st c)) with (path_loop ord [3; i] fuel (with_coll st c)).
    assert (forall l tag vals j, path_loop ord tag fuel (with_coll st c) s f vals j l = path_loop ord tag fuel st s f vals j l) as PC.
    { clear. intros l. induction l as [|d r IH]; intros tag vals j; cbn [path_loop]; auto.
      assert (forall d tag, getParametricExpression ord tag fuel (with_coll st c) d true = getParametricExpression ord tag fuel st d true) as GC.
      { clear. intros d tag. unfold getParametricExpression; cs. destruct (dget (c_par st) d) as [[e ns]|]; auto.
        generalize 0. revert e. induction fuel as [|fl IH]; intros e k; cbn [expand_loop].
        - rewrite exprP_coll. reflexivity.
        - rewrite exprP_coll.
          destruct (exprParametric st _) as [[]|]; cbn [bind]; auto.
          change (expand_round (with_coll st c)) with (expand_round st). destruct (expand_round st e _); auto. }
      destruct (dget vals d) as [[e|]|]; auto; [cbn [bind]; apply IH|]. rewrite GC.
      destruct (getParametricExpression _ _ _ st _ _); cbn [bind]; auto. }
    rewrite PC. change (c_edges (with_coll st c)) with (c_edges st). change (c_edges (st' c)) with (c_edges st).
    destruct (path_loop _ _ _ _ _ _ _ _ _); cbn [bind]; auto. apply IH. intros C. apply N. now right.
  Qed.
  Lemma ddel_dset_same {X} (d : dict string X) k v : ddel (dset d k v) k = ddel d k.
  Proof.
    unfold ddel. induction d as [|[k' v'] r IH]; cbn [dset filter fst]; [now rewrite eqb_refl|].
    destruct (eqb_spec k k') as [->|]; cbn [filter fst]; [now rewrite eqb_refl|].
    destruct (eqb_spec k k'); [congruence|]. cbn [negb]. now rewrite IH.
  Qed.
  Lemma ddel_dset_other {X} (d : dict string X) k k2 v : k <> k2 -> ddel (dset d k v) k2 = dset (ddel d k2) k v.
  Proof.
    intros N. unfold ddel. induction d as [|[k' v'] r IH]; cbn [dset filter fst].
    - destruct (eqb_spec k2 k); [congruence|reflexivity].
    - destruct (eqb_spec k k') as [->|]; cbn [filter fst].
      + destruct (eqb_spec k2 k'); [congruence|]. cbn [negb dset]. now rewrite eqb_refl.
      + destruct (eqb_spec k2 k') as [->|]; cbn [negb]; auto. cbn [dset]. destruct (eqb_spec k k'); [congruence|]. now rewrite IH.
  Qed.
  Lemma store_rm c k (v : option (E A)) : store_one (ddel c x) k v = ddel (store_one c k v) x.
  Proof.
    unfold store_one. destruct v as [e|]; auto. rewrite dget_ddel. destruct (eqb_spec k x) as [->|N].
    - destruct (dget c x); auto. destruct (tofloat e); auto. destruct (setValue p (PFloat a)) as [p' []]; auto. now rewrite ddel_dset_same.
    - destruct (dget c k); auto. destruct (tofloat e); auto. destruct (setValue p (PFloat a)) as [p' []]; auto. now rewrite ddel_dset_other.
  Qed.
  Lemma stores_rm (vals : dict string (option (E A))) : forall c,
    fold_left (fun c kv => store_one c (fst kv) (snd kv)) vals (ddel c x) = ddel (fold_left (fun c kv => store_one c (fst kv) (snd kv)) vals c) x.
  Proof. induction vals as [|kv r IH]; intros c; cbn [fold_left]; auto. now rewrite store_rm, IH. Qed.
  (** [forget s]: [s] with the entries of [x] dropped from both registries *)
  Definition forget (s : cst A) := mkcst (ddel (c_coll s) x) (ddel (c_sym s) x) (c_par s) (c_nodes s) (c_edges s).
  Lemma update_rm c ord fuel : good_ord ord ->
    update ord fuel (forget (with_coll st c)) = (forget (fst (update ord fuel (with_coll st c))), snd (update ord fuel (with_coll st c))).
  Proof.
    intros GO. unfold update. change (forget (with_coll st c)) with (st' c). change (c_nodes (st' c)) with (c_nodes st).
    change (c_edges (st' c)) with (c_edges st). change (c_nodes (with_coll st c)) with (c_nodes st). change (c_edges (with_coll st c)) with (c_edges st).
    rewrite root_rm; auto.
    2:{ rewrite filter_In, negb_true_iff. intros [_ C]. congruence. }
    destruct (root_loop _ _ _ _ _ _) as [vals|e]; cbn [fst snd]; [|reflexivity].
    unfold st', forget; cs. now rewrite stores_rm.
  Qed.
  Lemma setValue_rm ord fuel n v : good_ord ord -> n <> x ->
    setParameterValue ord fuel (forget st) n v =
    (forget (fst (setParameterValue ord fuel st n v)), snd (setParameterValue ord fuel st n v)).
  Proof.
    intros GO N. unfold setParameterValue. unfold forget at 1 2 3 4; cs. rewrite dget_ddel. destruct (eqb_spec n x); [congruence|].
    destruct (dget (c_coll st) n) as [p|]; auto. destruct (dmem (c_par st) n); auto.
    destruct (setValue p v) as [p' [u|e]].
    - rewrite <- update_rm by auto. f_equal. unfold with_coll, forget; cs. now rewrite ddel_dset_other.
    - cbn [fst snd]. f_equal. unfold with_coll, forget; cs. now rewrite ddel_dset_other.
  Qed.
End R.
