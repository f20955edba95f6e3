(** Lemmas for C96-C99. *)
From Coq Require Import List Bool Arith String SpecFloat Permutation Relations Lia.
From Verif Require Import Prelude PreludeFacts Float Param Expr ExprProofs Sweep Coll CollGraph CollSpec CollProofs
  CollExpand CollUpdate CollFinal CollLast CollQuery CollQuerySpec LatexProofs.
Import ListNotations.
Open Scope list_scope.

Lemma none_in_false {K} (d : dict K (option f64)) : none_in d = false <-> forall k v, In (k, v) d -> v <> None.
Proof.
  unfold none_in. rewrite <- not_true_iff_false, existsb_exists. split.
  - intros H k v I E. apply H. exists (k, v). subst. auto.
  - intros H ((k & v) & I & E). apply (H k v I). destruct v; [discriminate|auto].
Qed.

Section Q.
  Context {A : alg} (LAW : alg_ok A).
  Implicit Types st : cst A.

  Lemma valuesDict_get st n : dget (getParameterValuesDict st) n = option_map p_value (dget (c_coll st) n).
  Proof.
    unfold getParameterValuesDict. induction (c_coll st) as [|[k p] l IH]; [reflexivity|]. cbn [map dget fst snd].
    destruct (eqb n k); [reflexivity|exact IH].
  Qed.
  Lemma allSet_spec st : reach_any st ->
    (allParametersSet st = true <-> forall n, registered st n -> exists x, getParameterValue st n = Ok (Some x)).
  Proof.
    intros RE. apply wf_reach in RE. unfold allParametersSet. rewrite negb_true_iff, none_in_false. unfold getParameterValuesDict. split.
    - intros H n R. apply dkeys_dget in R as (p & D). unfold getParameterValue, getValue. rewrite D.
      apply dget_In in D. apply (in_map (fun kv => (fst kv, getValue (snd kv)))) in D. apply H in D. cbn in D. unfold getValue in D.
      destruct (p_value p); [eauto|congruence].
    - intros H k v I. apply in_map_iff in I as ((k' & p) & [= -> <-] & I).
      assert (dget (c_coll st) k = Some p) as D by (apply In_dget; auto; apply (wf_nodup _ RE)).
      destruct (H k) as (x & E); [unfold registered; eapply dget_Some_key; eauto|].
      unfold getParameterValue in E. rewrite D in E. congruence.
  Qed.

  (** *** getParameterValues *)
  Lemma values_err st names e : fold_left (fun acc n => bind acc (fun d => match dget (c_coll st) n with Some p => Ok (dset d n (getValue p)) | None => Err ValueError end)) names (Err e)
    = (Err e : res (dict string (option f64))).
  Proof. induction names; cbn; auto. Qed.
  Lemma values_fold st names : (forall n, In n names -> registered st n) -> forall d, exists d',
    fold_left (fun acc n => bind acc (fun d => match dget (c_coll st) n with Some p => Ok (dset d n (getValue p)) | None => Err ValueError end)) names (Ok d) = Ok d' /\
    forall k, dget d' k = if mem k names then Some (value_of st k) else dget d k.
  Proof.
    induction names as [|n r IH]; intros H d; cbn [fold_left].
    - exists d. auto.
    - assert (registered st n) as R by (apply H; now left). apply dkeys_dget in R as (p & D). rewrite D. cbn [bind].
      destruct (IH (fun m Hm => H m (or_intror Hm)) (dset d n (getValue p))) as (d' & E & G). exists d'. split; auto.
      intros k. rewrite G. cbn [mem existsb]. fold (mem k r). destruct (mem k r); [now rewrite orb_true_r|].
      rewrite orb_false_r, dget_dset. destruct (eqb_spec k n) as [->|]; auto. unfold value_of. now rewrite D.
  Qed.
  Lemma values_ok st names : (forall n, In n names -> registered st n) -> exists d,
    getParameterValues st names = Ok d /\ (forall n, In n names -> dget d n = Some (value_of st n)) /\ (forall n, ~ In n names -> dget d n = None).
  Proof.
    intros H. destruct (values_fold st names H []) as (d & E & G). exists d. split; [exact E|]. split; intros n Hn; rewrite G.
    - apply mem_In in Hn. now rewrite Hn.
    - destruct (mem n names) eqn:M; auto. apply mem_In in M. contradiction.
  Qed.
  Lemma values_missing st names n : In n names -> ~ registered st n -> getParameterValues st names = Err ValueError.
  Proof.
    unfold getParameterValues. generalize (@nil (string * option f64)). induction names as [|m r IH]; intros d [].
    - subst m. intros N. cbn [fold_left bind]. destruct (dget (c_coll st) n) eqn:D; [|apply values_err].
      exfalso. apply N. unfold registered. eapply dget_Some_key; eauto.
    - intros N. cbn [fold_left bind]. destruct (dget (c_coll st) m); [now apply IH|apply values_err].
  Qed.

  (** *** parameterisationParametersSet *)
  Lemma notParametric st p : ~ parametric st p -> parameterisationParametersSet st p = Err ValueError.
  Proof.
    intros N. unfold parameterisationParametersSet. destruct (dget (c_par st) p) as [[e ns]|] eqn:G; auto.
    exfalso. apply N. exists e, ns. auto.
  Qed.
  Lemma dget_all (d : dict string (option f64)) : NoDup (dkeys d) ->
    ((forall k v, In (k, v) d -> v <> None) <-> (forall k v, dget d k = Some v -> v <> None)).
  Proof.
    intros ND. split; intros H k v G; [apply dget_In in G|]; eauto. apply In_dget in G; eauto.
  Qed.
  Lemma values_nodup st names : forall (d d' : dict string (option f64)), NoDup (dkeys d) ->
    fold_left (fun acc n => bind acc (fun d => match dget (c_coll st) n with Some p => Ok (dset d n (getValue p)) | None => Err ValueError end)) names (Ok d) = Ok d' ->
    NoDup (dkeys d').
  Proof.
    induction names as [|n r IH]; intros d d' ND; cbn [fold_left bind]; [intros [= <-]; auto|].
    destruct (dget (c_coll st) n); [|rewrite values_err; discriminate]. apply IH. now apply NoDup_dset.
  Qed.
  Lemma set_spec st p ns e : dget (c_par st) p = Some (e, ns) -> (forall n, In n ns -> registered st n) ->
    exists b, parameterisationParametersSet st p = Ok b /\ (b = true <-> forall q, In q ns -> value_of st q <> None).
  Proof.
    intros G R. unfold parameterisationParametersSet. rewrite G. destruct (values_fold st ns R []) as (d & E & D).
    pose proof (values_nodup st ns [] d (NoDup_nil _) E) as ND. change (getParameterValues st ns = Ok d) in E. rewrite E. cbn [bind].
    eexists. split; [reflexivity|]. rewrite negb_true_iff, none_in_false, (dget_all d ND). split.
    - intros H q Hq. apply (H q). rewrite D. apply mem_In in Hq. now rewrite Hq.
    - intros H k v. rewrite D. destruct (mem k ns) eqn:M; [|discriminate]. apply mem_In in M. intros [= <-]. auto.
  Qed.
  Lemma par_reg sg st ow p e ns : ginv sg st ow -> dget (c_par st) p = Some (e, ns) -> forall n, In n ns -> registered st n.
  Proof.
    intros GI G n Hn. apply (gi_nodes _ _ _ GI). apply (ti_par _ _ (gi_t _ _ _ GI)) in G as (_ & HE & _).
    apply (wf_edges _ (ti_wf _ _ (gi_t _ _ _ GI)) _ _ (HE n Hn)).
  Qed.
  Lemma inputs_exact sg st ow p : reach sg st ow -> parametric st p ->
    exists b, parameterisationParametersSet st p = Ok b /\ (b = true <-> forall q, depends st p q -> value_of st q <> None).
  Proof.
    intros RE (e & ns & G). apply (ginv_reach LAW) in RE. destruct (set_spec st p ns e G (par_reg sg st ow p e ns RE G)) as (b & E & H).
    exists b. split; auto. rewrite H. unfold depends, getParameterisationParameters. rewrite G. split.
    - intros K q (ns' & [= <-] & Hq). auto.
    - intros K q Hq. apply K. eauto.
  Qed.
  Lemma inputs_mentioned sg st ow p : (forall a b, sg a = sg b -> a = b) -> reach sg st ow -> parameterisationParametersSet st p = Ok true ->
    forall q, mentions st p q -> value_of st q <> None.
  Proof.
    intros INJ RE E q M. assert (parametric st p) as P. { destruct M as (e & ns & _ & G & _). exists e, ns. auto. }
    destruct (inputs_exact sg st ow p RE P) as (b & E' & H). rewrite E in E'. injection E' as <-. apply H; auto.
    apply (ginv_reach LAW) in RE. destruct M as (e & ns & s & G & Hs & D).
    destruct (dep_edge sg st ow RE _ _ _ _ G Hs) as (n & _ & D' & Hn).
    apply (ti_sym _ _ (gi_t _ _ _ RE)) in D, D'. assert (q = n) as -> by (apply INJ; congruence).
    unfold depends, getParameterisationParameters. rewrite G. eauto.
  Qed.

  (** *** getParameterisationsInvolving *)
  Section Inv.
    Context (st : cst A).
    Notation stepf name := (fun acc p =>
             match getParameterisationParameters st p with
             | Ok ns => if mem name ns then if mem p acc then acc else acc ++ [p] else acc
             | Err _ => acc
             end).
    Lemma inv_step name ps : forall acc, NoDup acc -> NoDup (fold_left (stepf name) ps acc) /\
      forall q, In q (fold_left (stepf name) ps acc) <-> In q acc \/ (In q ps /\ depends st q name).
    Proof.
      induction ps as [|p ps IH]; intros acc ND.
      - split; auto. intros q. cbn. tauto.
      - set (acc' := stepf name acc p). change (fold_left (stepf name) (p :: ps) acc) with (fold_left (stepf name) ps acc').
        assert (NoDup acc' /\ forall q, In q acc' <-> In q acc \/ (q = p /\ depends st q name)) as [ND' H'].
        { subst acc'. cbn beta. destruct (getParameterisationParameters st p) as [ns|] eqn:G; cbv beta iota.
          - destruct (mem name ns) eqn:M.
            + assert (depends st p name) as DP by (exists ns; split; auto; now apply mem_In).
              destruct (mem p acc) eqn:MA.
              * apply mem_In in MA. split; auto. intros q. split; [auto|]. intros [|[-> _]]; auto.
              * assert (~ In p acc) as NI by (rewrite <- mem_In, MA; discriminate).
                split; [apply (Permutation_NoDup (Permutation_cons_append _ _)); constructor; auto|]. intros q. rewrite in_app_iff. cbn. split; [|intuition congruence].
                intros [|[<-|[]]]; auto.
            + split; auto. intros q. split; auto. intros [|[-> (ns' & E & I)]]; auto. rewrite G in E. injection E as <-.
              apply mem_In in I. congruence.
          - split; auto. intros q. split; auto. intros [|[-> (ns' & E & I)]]; auto. congruence. }
        destruct (IH acc' ND') as [N1 N2]. split; [exact N1|]. intros q. rewrite N2, H'. cbn [In]. split.
        + intros [[|[-> ]]|[]]; auto.
        + intros [|[[<-|] ?]]; auto.
    Qed.
    Lemma dep_key q n : depends st q n -> In q (dkeys (c_par st)).
    Proof.
      intros (ns & E & _). unfold getParameterisationParameters in E. destruct (dget (c_par st) q) as [[e l]|] eqn:G; [|discriminate].
      eapply dget_Some_key; eauto.
    Qed.
    Lemma inv_loop names : forall acc, NoDup acc -> (forall n, In n names -> independent st n) ->
      exists l, involving_loop st names acc = Ok l /\ NoDup l /\ forall p, In p l <-> In p acc \/ exists n, In n names /\ depends st p n.
    Proof.
      induction names as [|n r IH]; intros acc ND H; cbn [involving_loop].
      - exists acc. split; [reflexivity|]. split; auto. intros p. split; auto. intros [|(n & [] & _)]; auto.
      - destruct (H n (or_introl eq_refl)) as [R N]. apply mem_In in R. unfold dmem at 1. rewrite R. cbn [negb].
        apply dmem_par_false in N. rewrite N.
        destruct (inv_step n (dkeys (c_par st)) acc ND) as [N1 N2].
        destruct (IH _ N1 (fun m Hm => H m (or_intror Hm))) as (l & E & ND' & L). exists l. split; [exact E|]. split; auto.
        intros p. rewrite L, N2. split.
        + intros [[|[_ D]]|(m & Hm & D)]; auto; right; [exists n|exists m]; cbn; auto.
        + intros [|(m & [<-|Hm] & D)]; auto; [left; right; split; auto; eapply dep_key; eauto|right; eauto].
    Qed.
    Lemma inv_stop pre n post : (forall m, In m pre -> independent st m) -> ~ independent st n ->
      getParameterisationsInvolvingAll st (pre ++ n :: post) = if dmem (c_coll st) n then Ok [] else Err ValueError.
    Proof.
      intros H N. unfold getParameterisationsInvolvingAll. generalize (@nil string) at 1.
      induction pre as [|m r IH]; intros acc; cbn [app involving_loop].
      - destruct (dmem (c_coll st) n) eqn:M; cbn [negb]; auto. destruct (dmem (c_par st) n) eqn:P; auto.
        exfalso. apply N. split; [unfold registered; apply mem_In; exact M|exact (proj1 (dmem_par_false st n) P)].
      - destruct (H m (or_introl eq_refl)) as [R P]. apply mem_In in R. unfold dmem at 1. rewrite R. cbn [negb].
        apply dmem_par_false in P. rewrite P. apply IH. intros k Hk. apply H. now right.
    Qed.
  End Inv.
  Lemma involving_ok st names : (forall n, In n names -> independent st n) ->
    exists l, getParameterisationsInvolvingAll st names = Ok l /\ NoDup l /\ forall p, In p l <-> exists n, In n names /\ depends st p n.
  Proof.
    intros H. destruct (inv_loop st names [] (NoDup_nil _) H) as (l & E & ND & L). exists l. split; [exact E|]. split; auto.
    intros p. rewrite L. cbn. tauto.
  Qed.
  Lemma involving_parametric st pre n post : (forall m, In m pre -> independent st m) -> registered st n -> parametric st n ->
    getParameterisationsInvolvingAll st (pre ++ n :: post) = Ok [].
  Proof.
    intros H R P. rewrite inv_stop; auto; [|intros [_ ?]; auto]. unfold registered in R. apply mem_In in R. unfold dmem. now rewrite R.
  Qed.
  Lemma involving_missing st pre n post : (forall m, In m pre -> independent st m) -> ~ registered st n ->
    getParameterisationsInvolvingAll st (pre ++ n :: post) = Err ValueError.
  Proof.
    intros H R. rewrite inv_stop; auto; [|intros [? _]; auto]. destruct (dmem (c_coll st) n) eqn:M; auto.
    exfalso. apply R. unfold registered. now apply mem_In.
  Qed.
  (** for one name this is the function of Coll.v *)
  Lemma involving_one st n : NoDup (dkeys (c_par st)) ->
    getParameterisationsInvolvingAll st [n] = getParameterisationsInvolving st n.
  Proof.
    intros ND. unfold getParameterisationsInvolvingAll, getParameterisationsInvolving. cbn [involving_loop].
    destruct (negb (dmem (c_coll st) n)); auto. destruct (dmem (c_par st) n); auto. f_equal.
    set (g := fun p => match dget (c_par st) p with Some (_, ns) => mem n ns | None => false end).
    assert (forall ps acc, NoDup ps -> (forall p, In p ps -> ~ In p acc) ->
      fold_left (fun acc p => match getParameterisationParameters st p with
             | Ok ns => if mem n ns then if mem p acc then acc else acc ++ [p] else acc
             | Err _ => acc end) ps acc = acc ++ filter g ps) as H.
    { induction ps as [|p ps IH]; intros acc N D; cbn [fold_left filter]; [now rewrite app_nil_r|]. inversion N; subst.
      assert (mem p acc = false) as M by (destruct (mem p acc) eqn:M; auto; apply mem_In in M; exfalso; apply (D p); cbn; auto).
      assert (forall q, In q ps -> ~ In q (acc ++ [p])) as D'.
      { intros q Hq C. apply in_app_iff in C as [C|[<-|[]]]; [apply (D q); cbn; auto|auto]. }
      rewrite M. assert (g p = match dget (c_par st) p with Some (_, ns) => mem n ns | None => false end) as -> by reflexivity. unfold getParameterisationParameters at 2. destruct (dget (c_par st) p) as [[e ns]|].
      - destruct (mem n ns); [rewrite IH by auto; now rewrite <- app_assoc|apply IH; cbn in D; auto].
      - apply IH; cbn in D; auto. }
    rewrite H by auto. reflexivity.
  Qed.

  (** *** getSymbols *)
  Lemma param_default_valid n : valid_name n -> exists p, param_default n = Ok p.
  Proof.
    intros [N S]. unfold param_default, param_new. rewrite S. change (bounds_types_ok _ _) with true. cbv beta iota delta [negb].
    change (py_gt _ _) with false. cbv iota. change (valid_scalar _) with true. cbv iota. cbn [to_float bind].
    change (flt _ _) with false. cbv iota. destruct (LatexProofs.latexify_total n N) as (l & ->). destruct n; [congruence|]. cbn [default_symbol bind]. eauto.
  Qed.
  Lemma param_default_invalid n p : param_default n = Ok p -> valid_name n.
  Proof.
    intros H. split.
    - intros ->. apply param_default_name in H as [_ H]. discriminate.
    - unfold param_default, param_new in H. destruct (has_space n); [discriminate|auto].
  Qed.
  Definition same_rest st st' : Prop := c_par st' = c_par st /\ c_edges st' = c_edges st.

  Lemma symbols_keys st : reach_any st -> forall n, registered st n -> exists s, dget (c_sym st) n = Some s.
  Proof. intros RE n R. apply wf_reach in RE. unfold registered in R. rewrite (wf_keys _ RE) in R. now apply dkeys_dget. Qed.

  (** one call of addParameter *)
  Lemma add_facts st n o st' : wf st -> addParameter st n o = (st', Ok tt) ->
    wf st' /\ same_rest st st' /\
    (forall m, registered st' m <-> registered st m \/ m = n) /\
    (forall m, m <> n \/ registered st n -> dget (c_coll st') m = dget (c_coll st) m /\ dget (c_sym st') m = dget (c_sym st) m) /\
    (~ registered st n -> valid_name n /\ getParameterValue st' n = Ok None /\ getSymbol st' n = symbol_for o n).
  Proof.
    intros W E. assert (wf st') as W'. { replace st' with (fst (addParameter st n o)) by now rewrite E. apply (wf_step 0 st (idord, CAdd n o) W). }
    split; auto. unfold addParameter in E. destruct (dmem (c_coll st) n) eqn:M.
    - injection E as <-. assert (registered st n) as R by (now apply mem_In). split; [split; reflexivity|]. split; [|split; [auto|contradiction]].
      intros m. split; auto. intros [| ->]; auto.
    - assert (~ registered st n) as NR by (unfold registered; rewrite <- mem_In; unfold dmem in M; rewrite M; discriminate).
      destruct (param_default n) as [p|] eqn:P; [|discriminate]. injection E as <-. split; [split; reflexivity|]. split; [|split].
      + intros m. unfold registered. cbn [c_coll]. rewrite dkeys_dset_new, in_app_iff by auto. cbn. intuition.
      + intros m [Hm|]; [|contradiction]. cbn [c_coll c_sym]. now rewrite !dget_dset_neq.
      + intros _. split; [eapply param_default_invalid; eauto|]. apply param_default_name in P as [PV PS].
        unfold getParameterValue, getSymbol, getValue. cbn [c_coll c_sym]. rewrite !dget_dset_eq. destruct o; cbn [with_symbol p_value p_symbol symbol_for]; split; congruence.
  Qed.
  Lemma add_succeeds st n o : registered st n \/ valid_name n -> exists st', addParameter st n o = (st', Ok tt).
  Proof.
    intros H. unfold addParameter. destruct (dmem (c_coll st) n) eqn:M; [eauto|]. destruct H as [R|V].
    - apply mem_In in R. unfold dmem in M. congruence.
    - destruct (param_default_valid n V) as (p & ->). eauto.
  Qed.

  (** the state and result of the loop *)
  Definition loop_post st ov i names (v : dict string string) st' (d : dict string string) : Prop :=
    wf st' /\ same_rest st st' /\
    (forall m, registered st' m <-> registered st m \/ In m names) /\
    (forall m, registered st m \/ ~ In m names -> dget (c_coll st') m = dget (c_coll st) m /\ dget (c_sym st') m = dget (c_sym st) m) /\
    (forall m, In m names -> dget d m = dget (c_sym st') m) /\
    (forall m, ~ In m names -> dget d m = dget v m) /\
    (forall k n, nth_error names k = Some n -> ~ In n (firstn k names) -> ~ registered st n ->
       valid_name n /\ getParameterValue st' n = Ok None /\ getSymbol st' n = symbol_for (given ov (i + k)) n).
  Lemma loop_ok ov names : forall st i v st' d, wf st -> symbols_loop st ov i names v = (st', Ok d) -> loop_post st ov i names v st' d.
  Proof.
    induction names as [|n r IH]; intros st i v st' d W E; cbn [symbols_loop] in E.
    - injection E as <- <-. split; auto. split; [split; reflexivity|]. split; [cbn; tauto|]. split; [auto|]. split; [intros m []|].
      split; [auto|]. intros [|k] m; discriminate.
    - destruct (match ov with Some l => nth_error l i | None => Some None end) as [o|] eqn:O; [|discriminate].
      assert (given ov i = o) as GO by (unfold given; destruct ov; [now rewrite O|congruence]).
      destruct (addParameter st n o) as [s1 [[]|]] eqn:EA; [|discriminate].
      destruct (dget (c_sym s1) n) as [s|] eqn:Ds; [|discriminate].
      destruct (add_facts st n o s1 W EA) as (W1 & [P1 E1] & R1 & K1 & F1).
      destruct (IH s1 (S i) (dset v n s) st' d W1 E) as (W2 & [P2 E2] & R2 & K2 & D2 & D2' & F2).
      assert (registered s1 n) as Rn by (apply R1; auto).
      split; auto. split; [split; congruence|]. split; [|split; [|split; [|split]]].
      + intros m. rewrite R2, R1. cbn. intuition.
      + intros m H. assert (dget (c_coll st') m = dget (c_coll s1) m /\ dget (c_sym st') m = dget (c_sym s1) m) as [-> ->].
        { apply K2. destruct H as [H|H]; [left; apply R1; auto|right; cbn in H; tauto]. }
        apply K1. destruct (eqb_dec m n) as [->|]; auto. right. destruct H as [|H]; auto. exfalso. apply H. now left.
      + intros m Hm. destruct (in_dec string_dec m r) as [I|I]; auto. assert (m = n) as -> by (destruct Hm; [auto|contradiction]).
        rewrite (D2' n I), dget_dset_eq. destruct (K2 n (or_introl Rn)) as [_ ->]. auto.
      + intros m Hm. rewrite D2' by (cbn in Hm; tauto). apply dget_dset_neq. cbn in Hm. intros ->. tauto.
      + intros [|k] m Hk Hn NR.
        * injection Hk as ->. rewrite Nat.add_0_r, GO. destruct (F1 NR) as (V & PV & PS). split; auto.
          destruct (K2 m (or_introl Rn)) as [C S]. unfold getParameterValue, getSymbol in *. rewrite C, S. auto.
        * cbn [nth_error] in Hk. cbn [firstn] in Hn. replace (i + S k) with (S i + k) by lia. apply F2; auto.
          -- intros I. apply Hn. now right.
          -- intros R. apply R1 in R as [|<-]; auto. apply Hn. now left.
  Qed.
  Lemma loop_succeeds ov names : forall st i v, wf st -> enough_ov ov (i + List.length names) ->
    (forall n, In n names -> registered st n \/ valid_name n) -> exists st' d, symbols_loop st ov i names v = (st', Ok d).
  Proof.
    induction names as [|n r IH]; intros st i v W EO H; cbn [symbols_loop]; [eauto|].
    assert (exists o, match ov with Some l => nth_error l i | None => Some None end = Some o) as (o & ->).
    { destruct ov as [l|]; [|eauto]. destruct (nth_error l i) eqn:N; [eauto|]. apply nth_error_None in N. cbn in EO. lia. }
    destruct (add_succeeds st n o (H n (or_introl eq_refl))) as (s1 & EA). rewrite EA.
    destruct (add_facts st n o s1 W EA) as (W1 & _ & R1 & _).
    assert (exists s, dget (c_sym s1) n = Some s) as (s & ->).
    { apply dkeys_dget. rewrite <- (wf_keys _ W1). apply R1. auto. }
    apply IH; auto. { cbn [List.length] in EO. now replace (S i + List.length r) with (i + S (List.length r)) by lia. }
    intros m Hm. destruct (H m (or_intror Hm)); auto. left. apply R1. auto.
  Qed.
  Lemma loop_app ov pre post : forall st i v st' d, symbols_loop st ov i pre v = (st', Ok d) ->
    symbols_loop st ov i (pre ++ post) v = symbols_loop st' ov (i + List.length pre) post d.
  Proof.
    induction pre as [|n r IH]; intros st i v st' d; cbn [symbols_loop app].
    - intros [= <- <-]. cbn [List.length]. now rewrite Nat.add_0_r.
    - destruct (match ov with Some l => nth_error l i | None => Some None end) as [o|]; [|discriminate].
      destruct (addParameter st n o) as [s1 [[]|]]; [|discriminate]. destruct (dget (c_sym s1) n); [|discriminate].
      intros E. rewrite (IH _ _ _ _ _ E). f_equal. cbn. lia.
  Qed.
  Lemma getSymbols_ok st names ov st' d : reach_any st -> getSymbols st names ov = (st', Ok d) ->
    (forall n, In n names -> exists s, getSymbol st' n = Ok s /\ dget d n = Some s) /\
    (forall n, ~ In n names -> dget d n = None) /\
    (forall n, registered st' n <-> registered st n \/ In n names) /\
    (forall n, registered st n -> dget (c_coll st') n = dget (c_coll st) n /\ getSymbol st' n = getSymbol st n) /\
    (forall p, getParameterisationParameters st' p = getParameterisationParameters st p) /\
    (forall a b, In (a, b) (c_edges st') <-> In (a, b) (c_edges st)) /\
    (forall k n, nth_error names k = Some n -> ~ In n (firstn k names) -> ~ registered st n ->
       getParameterValue st' n = Ok None /\ getSymbol st' n = symbol_for (given ov k) n).
  Proof.
    intros RE E. pose proof (wf_reach _ RE) as W. destruct (loop_ok _ _ _ _ _ _ _ W E) as (W2 & [P2 E2] & R2 & K2 & D2 & D2' & F2).
    split; [|split; [|split; [auto|split; [|split; [|split]]]]].
    - intros n Hn. assert (exists s, dget (c_sym st') n = Some s) as (s & D). { apply dkeys_dget. rewrite <- (wf_keys _ W2). apply R2. auto. }
      exists s. rewrite (D2 n Hn). unfold getSymbol. now rewrite D.
    - intros n Hn. now rewrite (D2' n Hn).
    - intros n R. destruct (K2 n (or_introl R)) as [C S]. split; auto. unfold getSymbol. now rewrite S.
    - intros p. unfold getParameterisationParameters. now rewrite P2.
    - intros a b. now rewrite E2.
    - intros k n H1 H2 H3. destruct (F2 k n H1 H2 H3) as (_ & V & S). auto.
  Qed.
  Lemma getSymbols_succeeds st names ov : reach_any st -> enough_ov ov (List.length names) ->
    (forall n, In n names -> registered st n \/ valid_name n) -> exists st' d, getSymbols st names ov = (st', Ok d).
  Proof. intros RE EO H. apply loop_succeeds; auto. now apply wf_reach. Qed.
  (** the first name that cannot be served stops the call; the names before
      it have been added *)
  Lemma getSymbols_stops st pre n post ov st1 d : reach_any st -> getSymbols st pre ov = (st1, Ok d) ->
    ~ enough_ov ov (S (List.length pre)) -> getSymbols st (pre ++ n :: post) ov = (st1, Err IndexError).
  Proof.
    intros RE E N. unfold getSymbols in *. rewrite (loop_app _ _ _ _ _ _ _ _ E). cbn [symbols_loop]. destruct ov as [l|]; [|cbn in N; tauto].
    cbn in N. destruct (nth_error l (0 + List.length pre)) eqn:X; auto.
    assert (nth_error l (0 + List.length pre) <> None) as Y by congruence. apply nth_error_Some in Y. cbn in Y. lia.
  Qed.
  Lemma param_default_bad n : ~ valid_name n -> param_default n = Err (if has_space n then ValueError else IndexError).
  Proof.
    intros V. destruct (param_default n) as [p|e] eqn:P; [apply param_default_invalid in P; contradiction|].
    unfold valid_name in V. unfold param_default, param_new in P. destruct (has_space n) eqn:S; [congruence|].
    assert (n = ""%string) as -> by (destruct n; [auto|exfalso; apply V; split; [discriminate|auto]]). vm_compute in P. congruence.
  Qed.
  Lemma getSymbols_invalid st pre n post ov st1 d : reach_any st -> getSymbols st pre ov = (st1, Ok d) ->
    enough_ov ov (S (List.length pre)) -> ~ registered st n -> ~ In n pre -> ~ valid_name n ->
    getSymbols st (pre ++ n :: post) ov = (st1, Err (if has_space n then ValueError else IndexError)).
  Proof.
    intros RE E N NR NI V. unfold getSymbols in *. rewrite (loop_app _ _ _ _ _ _ _ _ E). cbn [symbols_loop].
    assert (exists o, match ov with Some l => nth_error l (0 + List.length pre) | None => Some None end = Some o) as (o & ->).
    { destruct ov as [l|]; [|eauto]. destruct (nth_error l (0 + List.length pre)) eqn:X; [eauto|]. apply nth_error_None in X. cbn in *. lia. }
    destruct (loop_ok _ _ _ _ _ _ _ (wf_reach _ RE) E) as (_ & _ & R2 & _).
    unfold addParameter. destruct (dmem (c_coll st1) n) eqn:M.
    - exfalso. assert (registered st1 n) as R by now apply mem_In. apply R2 in R. tauto.
    - now rewrite (param_default_bad n V).
  Qed.

  (** *** getSymbolValuesDict *)
  Lemma symvals sg st : tinv sg st -> (forall a b, sg a = sg b -> a = b) ->
    exists d, getSymbolValuesDict st = Ok d /\
    (forall n s, getSymbol st n = Ok s -> dget d s = Some (value_of st n)) /\
    (forall s, (forall n, getSymbol st n <> Ok s) -> dget d s = None).
  Proof.
    intros T INJ. pose proof (ti_wf _ _ T) as W.
    assert (forall l, incl l (c_coll st) -> NoDup (dkeys l) -> forall d0, exists d,
      fold_left (fun acc kv => bind acc (fun d => match dget (c_sym st) (fst kv) with Some s => Ok (dset d s (getValue (snd kv))) | None => Err KeyError end)) l (Ok d0) = Ok d /\
      (forall n p, In (n, p) l -> dget d (sg n) = Some (p_value p)) /\
      (forall s, (forall n, In n (dkeys l) -> sg n <> s) -> dget d s = dget d0 s)) as H.
    { induction l as [|[k p] l IH]; intros I ND d0; cbn [fold_left].
      - exists d0. split; [reflexivity|]. split; [intros n p []|auto].
      - cbn [bind fst snd]. cbn in ND. inversion ND as [|? ? NK ND']; subst.
        assert (dget (c_sym st) k = Some (sg k)) as ->.
        { assert (In k (dkeys (c_sym st))) as K. { rewrite <- (wf_keys _ W). change k with (fst (k, p)). apply in_map. apply I. now left. }
          apply dkeys_dget in K as (s & K). rewrite K. f_equal. eapply ti_sym; eauto. }
        destruct (IH (fun x Hx => I x (or_intror Hx)) ND' (dset d0 (sg k) (getValue p))) as (d & E & H1 & H2).
        exists d. split; [exact E|]. split.
        + intros n q [[= <- <-]|Hq]; auto. rewrite H2; [apply dget_dset_eq|]. intros m Hm C. apply INJ in C. now subst.
        + intros s Hs. rewrite H2 by (intros n Hn; apply Hs; now right). apply dget_dset_neq. intros ->. apply (Hs k); [now left|auto]. }
    destruct (H (c_coll st) (incl_refl _) (wf_nodup _ W) []) as (d & E & H1 & H2). exists d. split; [exact E|]. split.
    - intros n s G. unfold getSymbol in G. destruct (dget (c_sym st) n) as [s'|] eqn:D; [|discriminate]. injection G as ->.
      pose proof (ti_sym _ _ T _ _ D) as ->. apply dget_Some_key in D. rewrite <- (wf_keys _ W) in D. apply dkeys_dget in D as (p & D).
      unfold value_of. rewrite D. apply H1. now apply dget_In.
    - intros s Hs. rewrite H2; auto. intros n Hn C. apply (Hs n). rewrite (wf_keys _ W) in Hn. apply dkeys_dget in Hn as (s' & D).
      unfold getSymbol. rewrite D. f_equal. rewrite <- C. eapply ti_sym; eauto.
  Qed.
  Lemma symvals_reach sg st : (forall a b, sg a = sg b -> a = b) -> reach_rm sg st ->
    exists d, getSymbolValuesDict st = Ok d /\
    (forall n s, getSymbol st n = Ok s -> dget d s = Some (value_of st n)) /\
    (forall s, (forall n, getSymbol st n <> Ok s) -> dget d s = None).
  Proof. intros INJ RE. apply (symvals sg); auto. now apply (tinv_reach LAW). Qed.
End Q.
