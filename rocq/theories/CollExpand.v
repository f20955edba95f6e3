(** Expansion of nested parametric expressions: termination and meaning
    (C09, C17). *)
From Coq Require Import List Bool String Ascii ZArith Lia PeanoNat SpecFloat Permutation Relations.
From Verif Require Import Prelude PreludeFacts Float Param Expr Sweep SweepProofs Coll CollGraph CollSpec CollProofs.
Import ListNotations.
Open Scope list_scope.

Section X.
  Context {A : alg} (LAW : alg_ok A).
  Implicit Types st : cst A.

  (** what consistent use of symbols guarantees *)
  Record tinv (sg : string -> string) st : Prop := {
    ti_wf : wf st;
    ti_sym : forall n s, dget (c_sym st) n = Some s -> s = sg n;
    ti_par : forall p e ns, dget (c_par st) p = Some (e, ns) ->
      NoDup ns /\ (forall n, In n ns -> In (n, p) (c_edges st)) /\ (forall s, In s (free e) -> exists n, In n ns /\ sg n = s)
  }.

  Lemma tinv_add sg st n p s : tinv sg st -> s = sg n ->
    tinv sg (mkcst (dset (c_coll st) n p) (dset (c_sym st) n s) (c_par st) (add_node (c_nodes st) n) (c_edges st)).
  Proof.
    intros [W S P] Hs. constructor; cs; auto.
    - now apply wf_add.
    - intros k t. rewrite dget_dset. destruct (eqb_spec k n) as [->|]; [intros [= <-]; auto|auto].
  Qed.
  Lemma tinv_new sg names st : coll_new names = Ok st -> (forall n, In n names -> default_symbol n = Ok (sg n)) -> tinv sg st.
  Proof.
    intros E H. apply (coll_new_ind (tinv sg) _ _ E).
    - constructor; cs; try discriminate. apply (wf_new []). reflexivity.
    - intros s n p T Hn Hp. apply tinv_add; auto. apply param_default_name in Hp as [_ Hp].
      rewrite (H _ Hn) in Hp. congruence.
  Qed.
  Lemma tinv_coll sg st c : tinv sg st -> dkeys c = dkeys (c_coll st) -> tinv sg (with_coll st c).
  Proof. intros [W S P] E. constructor; auto. now apply wf_with_coll. Qed.

  Lemma names_NoDup st syms names : NoDup (dkeys (c_sym st)) -> NoDup syms ->
    Forall2 (fun s n => names_symbol st s n) syms names -> NoDup names.
  Proof.
    intros K ND F. revert ND. induction F as [|s n ss ns H F IH]; intros ND; constructor; inversion ND; subst; auto.
    intros Hn. destruct (Forall2_In_r _ _ _ _ F Hn) as (t & Ht & Hs).
    apply names_symbol_dget in H; auto. apply names_symbol_dget in Hs; auto.
    assert (s = t) by congruence. now subst.
  Qed.
  Lemma remove_edges_ok n : forall ns edges, NoDup ns -> (forall x, In x ns -> In (x, n) edges) ->
    exists edges', remove_edges edges ns n = (edges', Ok tt) /\
      forall e, In e edges' <-> In e edges /\ ~ exists x, In x ns /\ e = (x, n).
  Proof.
    induction ns as [|p r IH]; cbn [remove_edges]; intros edges ND H.
    - exists edges. split; auto. intros e. split; [intros He; split; auto; intros (x & [] & _)|tauto].
    - inversion ND; subst. rewrite (proj2 (mem_In (p, n) edges)) by (apply H; now left).
      destruct (IH (filter (fun e => negb (eqb e (p, n))) edges)) as (edges' & E & HE); auto.
      { intros x Hx. apply filter_In. split; [apply H; now right|]. apply negb_true_iff, eqb_neq. intros [= ->]. auto. }
      exists edges'. split; auto. intros e. rewrite HE, filter_In, negb_true_iff, eqb_neq. split.
      + intros [[H1 N1] N2]. split; auto. intros (x & [<-|Hx] & ->); auto. apply N2. eauto.
      + intros [H1 N1]. split; [split; auto|].
        * intros ->. apply N1. exists p. split; [now left|auto].
        * intros (x & Hx & ->). apply N1. exists x. split; [now right|auto].
  Qed.

  Lemma tinv_addP sg ord st n e : tinv sg st -> good_ord ord -> tinv sg (fst (addParameterisation ord st n e)).
  Proof.
    intros [W S P] GO. constructor; [now apply wf_addP| |];
    (destruct (addP_cases ord st n e) as [[-> _]|(names & R & EN & [[D ->]|[_ ->]])]; cs; auto).
    intros p e' ns. rewrite dget_dset. destruct (eqb_spec p n) as [->|N].
    - intros [= <- <-]. apply expr_names_spec in EN. pose proof (GO [0] (free e)) as PM.
      destruct W as [K ND _ _ _ _]. rewrite K in ND. split; [|split].
      + apply (names_NoDup st (ord [0] (free e)) names ND); [|exact EN].
        exact (Permutation_NoDup (Permutation_sym PM) (free_nodup A LAW e)).
      + intros x Hx. apply add_edges_In. right. eauto.
      + intros s Hs. apply (Permutation_in _ (Permutation_sym PM)) in Hs.
        destruct (Forall2_In_l _ _ _ _ EN Hs) as (m & Hm & Hms). exists m. split; auto.
        apply names_symbol_dget in Hms; auto. symmetry. now apply S.
    - intros G. destruct (P _ _ _ G) as (H1 & H2 & H3). split; [|split]; auto.
      intros x Hx. apply add_edges_In. left. auto.
  Qed.

  Lemma tinv_rmP sg st n : tinv sg st -> 
    tinv sg (fst (rmParameterisation st n)) /\
    (forall e ns, registered st n -> dget (c_par st) n = Some (e, ns) ->
      exists edges', rmParameterisation st n = (mkcst (c_coll st) (c_sym st) (ddel (c_par st) n) (c_nodes st) edges', Ok tt) /\
        forall x, In x edges' <-> In x (c_edges st) /\ ~ exists y, In y ns /\ x = (y, n)).
  Proof.
    intros T. pose proof T as [W S P]. destruct (rmP_cases st n) as [E|(e & ns & R & G & E)].
    - split; [now rewrite E|]. intros e ns R G. exfalso. revert E. unfold rmParameterisation, registered in *.
      apply mem_In in R. unfold dmem. rewrite R. cbn [negb]. rewrite G.
      destruct (P _ _ _ G) as (N1 & N2 & _).
      destruct (remove_edges_ok n ns (c_edges st) N1 N2) as (edges' & -> & _). discriminate.
    - destruct (P _ _ _ G) as (N1 & N2 & _).
      destruct (remove_edges_ok n ns (c_edges st) N1 N2) as (edges' & ER & HE). rewrite E, ER. cbn [fst]. split.
      + constructor; cs; auto.
        * apply wf_sub; auto. intros x Hx. now apply HE in Hx.
        * intros p e' ns'. rewrite dget_ddel. destruct (eqb_spec p n) as [->|N]; [discriminate|]. intros G'.
          destruct (P _ _ _ G') as (H1 & H2 & H3). split; [|split]; auto.
          intros x Hx. apply HE. split; auto. intros (y & _ & [= _ ->]). congruence.
      + intros e' ns' _ G'. rewrite G in G'. injection G' as <- <-. eauto.
  Qed.

  Lemma tinv_step sg fuel st o : tinv sg st -> good_ord (fst o) -> op_ok_rm sg st (snd o) -> tinv sg (fst (cstep fuel st o)).
  Proof.
    intros T GO OK. destruct o as [ord o]. destruct o; cbn [cstep snd fst op_ok_rm] in *.
    - unfold addParameter. destruct (dmem _ _); auto. destruct (param_default name) as [p|] eqn:E; auto.
      cbn [fst]. apply tinv_add; auto. apply param_default_name in E as [_ E].
      destruct override; cbn; congruence.
    - unfold rmParameter. destruct (dmem (c_coll st) name) eqn:M; auto.
      destruct T as [W S P]. constructor; auto.
      + pose proof (wf_step fuel st (ord, CRm name) W) as H. cbn in H. unfold rmParameter in H. now rewrite M in H.
      + cs. intros n s. rewrite dget_ddel. destruct (eqb n name); [discriminate|auto].
    - destruct (setValue_frame ord fuel name v st) as (c & -> & E). now apply tinv_coll.
    - destruct (setValues_frame ord fuel a st) as (c & -> & E). now apply tinv_coll.
    - now apply tinv_addP.
    - unfold addParameterisationPrefactor. destruct (dget (c_par st) name) as [[e ns]|] eqn:G; auto. cs.
      destruct T as [W S P]. constructor; cs; auto.
      + apply wf_sub; auto. apply incl_refl.
      + intros p e' ns'. rewrite dget_dset. destruct (eqb_spec p name) as [->|]; [|auto].
        intros [= <- <-]. destruct (P _ _ _ G) as (H1 & H2 & H3). split; [|split]; auto.
        intros s Hs. apply (free_mul A LAW) in Hs as [Hs|Hs]; auto. apply H3. eapply OK; eauto.
    - now apply tinv_rmP.
    - destruct (on_param_frame st name (fun p => setBounds p b)) as (c & -> & E). now apply tinv_coll.
    - match goal with |- tinv _ (fst (on_param _ _ ?f)) => destruct (on_param_frame st name f) as (c & -> & E) end.
      now apply tinv_coll.
  Qed.
  Lemma tinv_reach sg st : reach_rm sg st -> tinv sg st.
  Proof. induction 1; [eapply tinv_new; eauto|now apply tinv_step]. Qed.

  (** *** one round and the loop test *)
  Lemma round_fold st base : forall syms acc,
    match fold_left (fun acc s =>
      match getParameterFromSymbol st s with
      | Err _ => acc
      | Ok q => match dget (c_par st) q with None => acc | Some (t, _) => Some (subs base s t) end
      end) syms acc with
    | None => acc = None /\ forall s q, In s syms -> find_symbol (c_sym st) s = Some q -> ~ parametric st q
    | Some e => acc = Some e \/ exists s q t ns, In s syms /\ find_symbol (c_sym st) s = Some q /\ dget (c_par st) q = Some (t, ns) /\ e = subs base s t
    end.
  Proof.
    induction syms as [|s r IH]; intros acc; cbn [fold_left].
    - destruct acc as [x|]; [left; reflexivity|split; [reflexivity|intros s q []]].
    - specialize (IH (match getParameterFromSymbol st s with
      | Err _ => acc
      | Ok q => match dget (c_par st) q with None => acc | Some (t, _) => Some (subs base s t) end
      end)). destruct (fold_left _ r _) as [e|].
      + destruct IH as [IH|(s' & q & t & ns & H & H1)]; [|right; exists s', q, t, ns; split; [now right|auto]].
        unfold getParameterFromSymbol in IH. destruct (find_symbol (c_sym st) s) as [q|] eqn:F; auto.
        destruct (dget (c_par st) q) as [[t ns]|] eqn:G; auto. injection IH as <-.
        right. exists s, q, t, ns. split; [now left|auto].
      + destruct IH as [IH1 IH2]. unfold getParameterFromSymbol in IH1.
        destruct (find_symbol (c_sym st) s) as [q|] eqn:F.
        * destruct (dget (c_par st) q) as [[t ns]|] eqn:G; [discriminate|]. split; auto.
          intros s' q' [<-|H] F'; [|eauto]. rewrite F in F'. injection F' as <-. intros (e & ns & C). congruence.
        * split; auto. intros s' q' [<-|H] F'; [congruence|eauto].
  Qed.
  Lemma round_Some st base syms e : expand_round st base syms = Some e ->
    exists s q t ns, In s syms /\ find_symbol (c_sym st) s = Some q /\ dget (c_par st) q = Some (t, ns) /\ e = subs base s t.
  Proof. intros H. pose proof (round_fold st base syms None) as R. unfold expand_round in H. rewrite H in R. now destruct R. Qed.
  Lemma round_None st base syms : expand_round st base syms = None ->
    forall s q, In s syms -> find_symbol (c_sym st) s = Some q -> ~ parametric st q.
  Proof. intros H. pose proof (round_fold st base syms None) as R. unfold expand_round in H. rewrite H in R. now destruct R. Qed.

  Lemma exprP_spec st : forall syms,
    match exprParametric st syms with
    | Ok true => exists s q, In s syms /\ find_symbol (c_sym st) s = Some q /\ parametric st q
    | Ok false => forall s, In s syms -> exists q, find_symbol (c_sym st) s = Some q /\ ~ parametric st q
    | Err e => e = ValueError /\ exists s, In s syms /\ find_symbol (c_sym st) s = None
    end.
  Proof.
    induction syms as [|s r IH]; cbn [exprParametric].
    - intros s [].
    - unfold getParameterFromSymbol. destruct (find_symbol (c_sym st) s) as [q|] eqn:F; cbn [bind].
      + destruct (dmem (c_par st) q) eqn:M.
        * exists s, q. split; [now left|]. split; auto. now apply dmem_par.
        * apply dmem_par_false in M. destruct (exprParametric st r) as [[]|e].
          -- destruct IH as (s' & q' & H & H1). exists s', q'. split; [now right|auto].
          -- intros s' [<-|H]; eauto.
          -- destruct IH as (-> & s' & H & H1). split; auto. exists s'. split; [now right|auto].
      + split; auto. exists s. split; [now left|auto].
  Qed.

  (** *** general induction over the loop *)
  Lemma expand_ind (P : E A -> Prop) ord tag st : good_ord ord ->
    (forall b s q t ns, P b -> In s (free b) -> find_symbol (c_sym st) s = Some q -> dget (c_par st) q = Some (t, ns) -> P (subs b s t)) ->
    forall fuel k base F, expand_loop ord tag st fuel k base = Ok F -> P base ->
      P F /\ forall s, In s (free F) -> exists q, find_symbol (c_sym st) s = Some q /\ ~ parametric st q.
  Proof.
    intros GO HS. induction fuel as [|fuel IH]; intros k base F; cbn [expand_loop];
      pose proof (exprP_spec st (ord (0 :: k :: tag) (free base))) as X;
      destruct (exprParametric st _) as [[]|]; cbn [bind]; try discriminate.
    - intros [= <-] HP. split; auto. intros s Hs. apply X. now apply (Permutation_in _ (Permutation_sym (GO _ _))).
    - destruct (expand_round st base _) as [e|] eqn:R; [|discriminate]. intros HF HP.
      apply round_Some in R as (s & q & t & ns & Hs & Fs & G & ->). apply (Permutation_in _ (GO _ _)) in Hs.
      eapply IH; eauto.
    - intros [= <-] HP. split; auto. intros s Hs. apply X. now apply (Permutation_in _ (Permutation_sym (GO _ _))).
  Qed.
  (** errors *)
  Lemma expand_err ord tag st : good_ord ord -> (forall q t ns, dget (c_par st) q = Some (t, ns) -> forall s, In s (free t) -> In s (map snd (c_sym st))) ->
    forall fuel k base, (forall s, In s (free base) -> In s (map snd (c_sym st))) ->
    match expand_loop ord tag st fuel k base with Ok _ => True | Err e => e = Diverges end.
  Proof.
    intros GO HS. induction fuel as [|fuel IH]; intros k base HB; cbn [expand_loop];
      pose proof (exprP_spec st (ord (0 :: k :: tag) (free base))) as X;
      destruct (exprParametric st _) as [[]|]; cbn [bind]; auto.
    - destruct X as (_ & s & Hs & N). apply find_symbol_None in N. apply (Permutation_in _ (GO _ _)) in Hs. destruct (N (HB _ Hs)).
    - destruct (expand_round st base _) as [e|] eqn:R.
      + apply round_Some in R as (s & q & t & ns & Hs & Fs & G & ->). apply IH.
        intros x Hx. apply (free_subs A LAW) in Hx as [[Hx _]|Hx]; eauto.
      + destruct X as (s & q & Hs & Fs & Pq). exfalso. eapply round_None; eauto.
        apply (Permutation_in _ (GO _ _)) in Hs. now apply (Permutation_in _ (Permutation_sym (GO _ _))).
    - destruct X as (_ & s & Hs & N). apply find_symbol_None in N. apply (Permutation_in _ (GO _ _)) in Hs. destruct (N (HB _ Hs)).
  Qed.

  (** *** termination *)
  Section Weight.
    Variables (st : cst A).
    Definition base_of : nat := S (S (list_sum (map (fun kv => List.length (free (fst (snd kv)))) (c_par st)))).
    Definition w (s : string) : nat :=
      match find_symbol (c_sym st) s with
      | Some q => if dmem (c_par st) q then base_of ^ rank (c_nodes st) (c_edges st) q else 0
      | None => 0
      end.
    Definition W (l : list string) : nat := list_sum (map w l).
    Lemma W_remove l s : NoDup l -> In s l -> W (filter (fun x => negb (eqb x s)) l) + w s = W l.
    Proof.
      unfold W. induction l as [|x l IH]; cbn -[eqb]; [easy|]. intros ND [->|H]; inversion ND; subst.
      - rewrite eqb_refl. cbn -[eqb]. assert (filter (fun x => negb (eqb x s)) l = l) as ->.
        { clear -H1. induction l as [|y l IH]; cbn -[eqb]; auto. cbn in H1. destruct (eqb_spec y s); [subst; tauto|]. cbn -[eqb]. f_equal. tauto. }
        lia.
      - destruct (eqb_spec x s) as [->|]; [contradiction|]. cbn -[eqb]. specialize (IH H3 H). unfold list_sum in *. lia.
    Qed.
    Lemma W_app l l' : W (l ++ l') = W l + W l'.
    Proof. unfold W. now rewrite map_app, list_sum_app. Qed.
    Lemma W_incl : forall l l', NoDup l -> incl l l' -> W l <= W l'.
    Proof.
      induction l as [|x l IH]; intros l' ND I; [cbn; lia|]. inversion ND; subst.
      destruct (in_split x l') as (l1 & l2 & ->); [apply I; now left|].
      assert (W l <= W (l1 ++ l2)) as L.
      { apply IH; auto. intros y Hy. specialize (I y (or_intror Hy)). apply in_app_iff in I as [|[->|]]; [|contradiction|]; apply in_app_iff; auto. }
      rewrite W_app in *. unfold W, list_sum in *. cbn in *. lia.
    Qed.
    Lemma W_bound l m : (forall x, In x l -> w x <= m) -> W l <= List.length l * m.
    Proof.
      unfold W. induction l as [|x l IH]; cbn; intros H; [lia|].
      pose proof (H x (or_introl eq_refl)). specialize (IH (fun y Hy => H y (or_intror Hy))). unfold list_sum in *. lia.
    Qed.
    Lemma len_base q t ns : dget (c_par st) q = Some (t, ns) -> List.length (free t) < base_of.
    Proof.
      intros G. apply dget_In in G. unfold base_of. induction (c_par st) as [|kv l IH]; [easy|].
      cbn. destruct G as [->|G]; [cbn; lia|]. specialize (IH G). unfold list_sum in *. lia.
    Qed.
    Lemma base_pos : 1 <= base_of. Proof. unfold base_of. lia. Qed.
    Lemma W_lt sg q t ns s : tinv sg st -> (forall a b, sg a = sg b -> a = b) ->
      find_symbol (c_sym st) s = Some q -> dget (c_par st) q = Some (t, ns) -> W (free t) < w s.
    Proof.
      intros [WF S P] INJ F G. destruct (P _ _ _ G) as (_ & HE & HN).
      assert (w s = base_of ^ rank (c_nodes st) (c_edges st) q) as ->.
      { unfold w. rewrite F. replace (dmem (c_par st) q) with true; auto. symmetry. apply dmem_dget. eauto. }
      pose proof (len_base _ _ _ G) as L.
      destruct (rank (c_nodes st) (c_edges st) q) as [|r] eqn:R.
      - assert (free t = []) as ->; [|cbn; lia].
        destruct (free t) as [|x l] eqn:E; auto. destruct (HN x (or_introl eq_refl)) as (n & Hn & _).
        pose proof (rank_lt _ _ _ _ (wf_edges _ WF) (wf_dag _ WF) (HE _ Hn)). lia.
      - assert (W (free t) <= List.length (free t) * base_of ^ r) as B.
        { apply W_bound. intros x Hx. unfold w. destruct (find_symbol (c_sym st) x) as [m|] eqn:Fx; [|lia].
          destruct (dmem (c_par st) m); [|lia]. destruct (HN x Hx) as (n & Hn & En).
          assert (m = n) as ->.
          { apply INJ. rewrite En. symmetry. apply S. apply find_symbol_sound; auto. rewrite <- (wf_keys _ WF). apply (wf_nodup _ WF). }
          pose proof (rank_lt _ _ _ _ (wf_edges _ WF) (wf_dag _ WF) (HE _ Hn)).
          apply Nat.pow_le_mono_r; unfold base_of; lia. }
        cbn [Nat.pow]. assert (0 < base_of ^ r) by (apply Nat.neq_0_lt_0, Nat.pow_nonzero; unfold base_of; lia). nia.
    Qed.
    Lemma W_step sg b q t ns s : tinv sg st -> (forall a b, sg a = sg b -> a = b) -> In s (free b) ->
      find_symbol (c_sym st) s = Some q -> dget (c_par st) q = Some (t, ns) -> W (free (subs b s t)) < W (free b).
    Proof.
      intros T INJ Hs F G. pose proof (W_lt _ _ _ _ _ T INJ F G) as L.
      rewrite <- (W_remove (free b) s (free_nodup A LAW b) Hs).
      assert (W (free (subs b s t)) <= W (filter (fun x => negb (eqb x s)) (free b) ++ free t)) as B.
      { apply W_incl; [apply (free_nodup A LAW)|]. intros x Hx. apply in_app_iff.
        apply (free_subs A LAW) in Hx as [[Hx N]|Hx]; auto. left. apply filter_In. split; auto. now apply negb_true_iff, eqb_neq. }
      rewrite W_app in B. lia.
    Qed.
  End Weight.
  Lemma expand_terminates sg ord tag st : tinv sg st -> (forall a b, sg a = sg b -> a = b) -> good_ord ord ->
    forall fuel k base, W st (free base) <= fuel -> expand_loop ord tag st fuel k base <> Err Diverges.
  Proof.
    intros T INJ GO. induction fuel as [|fuel IH]; intros k base L; cbn [expand_loop];
      pose proof (exprP_spec st (ord (0 :: k :: tag) (free base))) as X;
      destruct (exprParametric st _) as [[]|e]; cbn [bind]; try discriminate.
    - exfalso. destruct X as (s & q & Hs & F & (t & ns & G)). apply (Permutation_in _ (GO _ _)) in Hs.
      pose proof (W_step st sg base q t ns s T INJ Hs F G). lia.
    - destruct X as [-> _]. discriminate.
    - destruct (expand_round st base _) as [e|] eqn:R; [|discriminate].
      apply round_Some in R as (s & q & t & ns & Hs & Fs & G & ->). apply (Permutation_in _ (GO _ _)) in Hs.
      pose proof (W_step st sg base q t ns s T INJ Hs Fs G). apply IH. lia.
    - destruct X as [-> _]. discriminate.
  Qed.

  (** enough fuel for every parameter at once *)
  Definition enough st : nat := list_sum (map (fun kv => W st (free (fst (snd kv)))) (c_par st)).
  Lemma enough_one st p e ns : dget (c_par st) p = Some (e, ns) -> W st (free e) <= enough st.
  Proof.
    intros G. apply dget_In in G. unfold enough. revert G. generalize (W st). intros f.
    induction (c_par st) as [|kv l IH]; cbn; [easy|]. intros [->|G]; [cbn; lia|]. specialize (IH G). unfold list_sum in *. lia.
  Qed.
  Lemma getP_terminates sg ord tag st name : tinv sg st -> (forall a b, sg a = sg b -> a = b) -> good_ord ord ->
    forall fuel b, enough st <= fuel -> getParametricExpression ord tag fuel st name b <> Err Diverges.
  Proof.
    intros T INJ GO fuel b L. unfold getParametricExpression.
    destruct (dget (c_par st) name) as [[e ns]|] eqn:G; [|discriminate]. destruct b; [|discriminate].
    apply (expand_terminates sg); auto. pose proof (enough_one _ _ _ _ G). lia.
  Qed.
  Lemma path_terminates sg ord st sym x : tinv sg st -> (forall a b, sg a = sg b -> a = b) -> good_ord ord ->
    forall fuel, enough st <= fuel -> forall path tag vals j, path_loop ord tag fuel st sym x vals j path <> Err Diverges.
  Proof.
    intros T INJ GO fuel L. induction path as [|d r IH]; cbn [path_loop]; intros tag vals j; [discriminate|].
    destruct (dget vals d) as [[e|]|]; [cbn [bind]; apply IH| |discriminate].
    pose proof (getP_terminates sg ord (j :: tag) st d T INJ GO fuel true L) as N.
    destruct (getParametricExpression _ _ _ _ _ _) as [e|e]; cbn [bind]; [apply IH|congruence].
  Qed.
  Lemma root_terminates sg ord st : tinv sg st -> (forall a b, sg a = sg b -> a = b) -> good_ord ord ->
    forall fuel, enough st <= fuel -> forall roots vals i, root_loop ord fuel st vals i roots <> Err Diverges.
  Proof.
    intros T INJ GO fuel L. induction roots as [|d r IH]; cbn [root_loop]; intros vals j; [discriminate|].
    unfold getSymbol. destruct (dget (c_sym st) d); cbn [bind]; [|discriminate].
    unfold getParameterValue. destruct (dget (c_coll st) d) as [p|]; cbn [bind]; [|discriminate].
    destruct (getValue p); [|apply IH].
    destruct (path_loop _ _ _ _ _ _ _ _ _) as [v|e] eqn:E; cbn [bind]; [apply IH|].
    intros [= ->]. eapply path_terminates; eauto.
  Qed.
  Lemma update_terminates sg ord st : tinv sg st -> (forall a b, sg a = sg b -> a = b) -> good_ord ord ->
    forall fuel, enough st <= fuel -> snd (update ord fuel st) <> Err Diverges.
  Proof.
    intros T INJ GO fuel L. unfold update.
    destruct (root_loop _ _ _ _ _ _) as [v|e] eqn:E; cbn [snd]; [discriminate|].
    intros [= ->]. eapply root_terminates; eauto.
  Qed.
  Lemma enough_coll st c : enough (with_coll st c) = enough st.
  Proof. reflexivity. Qed.

  Lemma to_float_nd v : to_float v <> Err Diverges.
  Proof. destruct v; cbn; try discriminate. unfold float_of_int. destruct (round_Z z); discriminate. Qed.
  Lemma setValue_nd p v : snd (setValue p v) <> Err Diverges.
  Proof.
    unfold setValue. destruct (valid_scalar v); cbn [negb]; [|discriminate].
    pose proof (to_float_nd v). destruct (to_float v); [|cbn; congruence].
    destruct (fle _ _); [discriminate|]. destruct (fle _ _); discriminate.
  Qed.
  Lemma set_loop_nd kvs : forall st, snd (set_loop st kvs) <> Err Diverges.
  Proof.
    induction kvs as [|[n v] r IH]; intros st; cbn [set_loop]; [discriminate|].
    destruct (dget _ _) as [p|]; [|discriminate]. destruct (dmem _ _); [apply IH|].
    pose proof (setValue_nd p v). destruct (setValue p v) as [p' [u|e]]; [apply IH|cbn in *; congruence].
  Qed.
  Lemma setValue_terminates sg ord st n v : tinv sg st -> (forall a b, sg a = sg b -> a = b) -> good_ord ord ->
    forall fuel, enough st <= fuel -> snd (setParameterValue ord fuel st n v) <> Err Diverges.
  Proof.
    intros T INJ GO fuel L. unfold setParameterValue. destruct (dget (c_coll st) n) as [p|] eqn:G; [|discriminate].
    destruct (dmem _ _); [discriminate|]. pose proof (setValue_nd p v).
    destruct (setValue p v) as [p' [u|e]]; [|cbn in *; congruence].
    apply (update_terminates sg); auto. apply tinv_coll; auto. apply dkeys_dset_in. eapply dget_Some_key; eauto.
  Qed.
  Lemma set_pairs_terminates sg ord st kvs : tinv sg st -> (forall a b, sg a = sg b -> a = b) -> good_ord ord ->
    forall fuel, enough st <= fuel -> snd (set_pairs ord fuel st kvs) <> Err Diverges.
  Proof.
    intros T INJ GO fuel L. unfold set_pairs. pose proof (set_loop_nd kvs st) as N.
    destruct (set_loop_frame kvs st) as (c & Ec & K).
    destruct (set_loop st kvs) as [st' [u|e]]; cbn in Ec; subst.
    - apply (update_terminates sg); auto. now apply tinv_coll.
    - cbn in *. congruence.
  Qed.
  Lemma setValues_terminates sg ord st a : tinv sg st -> (forall a b, sg a = sg b -> a = b) -> good_ord ord ->
    forall fuel, enough st <= fuel -> snd (setParameterValues ord fuel st a) <> Err Diverges.
  Proof.
    intros T INJ GO fuel L.
    destruct a as [d|[|n [|n' ns]] vs]; cbn [setParameterValues]; [eapply set_pairs_terminates; eauto|discriminate| |].
    - destruct vs; [discriminate|]. destruct (Nat.eqb _ _); [eapply set_pairs_terminates; eauto|discriminate].
    - destruct (Nat.eqb _ _); [eapply set_pairs_terminates; eauto|discriminate].
  Qed.

  (** *** meaning of the expanded expression *)
  Lemma upd_same (r : string -> option (V A)) s x : upd r s (r s) x = r x.
  Proof. unfold upd. destruct (eqb_spec x s); congruence. Qed.
  Lemma subs_value (e : E A) s t r v : r s = eval t r -> eval e r = Some v -> eval (subs e s t) r = Some v.
  Proof.
    intros E H. apply (eval_subs A LAW). rewrite <- E, <- H. apply (eval_ext A LAW). intros x _. apply upd_same.
  Qed.
  Lemma expand_value ord tag fuel st k base F ind r v : wf st -> good_ord ord -> expand_loop ord tag st fuel k base = Ok F ->
    solves st ind r -> eval base r = Some v -> eval F r = Some v.
  Proof.
    intros W GO EX SOL EV.
    apply (expand_ind (fun b => eval b r = Some v) ord tag st GO) in EX as [H _]; auto.
    intros b s q t ns Hb Hs Fq G. apply subs_value; auto.
    assert (dget (c_sym st) q = Some s) as D. { apply find_symbol_sound; auto. rewrite <- (wf_keys _ W). apply (wf_nodup _ W). }
    specialize (SOL _ _ D). now rewrite G in SOL.
  Qed.
  Lemma expand_value_plain ord tag fuel st k base F ind r : alg_plain A -> wf st -> good_ord ord -> expand_loop ord tag st fuel k base = Ok F ->
    solves st ind r -> eval F r = eval base r.
  Proof.
    intros PL W GO EX SOL.
    apply (expand_ind (fun b => eval b r = eval base r) ord tag st GO) in EX as [H _]; auto.
    intros b s q t ns Hb Hs Fq G. rewrite (plain_eval A PL) by auto. rewrite <- Hb.
    assert (dget (c_sym st) q = Some s) as D. { apply find_symbol_sound; auto. rewrite <- (wf_keys _ W). apply (wf_nodup _ W). }
    specialize (SOL _ _ D). rewrite G in SOL. rewrite <- SOL. apply (eval_ext A LAW). intros x _. apply upd_same.
  Qed.

  (** *** solutions exist and are unique *)
  Section Sol.
    Variables (sg : string -> string) (st : cst A) (ind : string -> option (V A)).
    Hypothesis (T : tinv sg st) (INJ : forall a b, sg a = sg b -> a = b).
    Fixpoint approx (k : nat) (s : string) : option (V A) :=
      match find_symbol (c_sym st) s with
      | None => None
      | Some q => match dget (c_par st) q with
                  | None => ind q
                  | Some (e, _) => match k with O => None | S k => eval e (approx k) end
                  end
      end.
    Let rk := rank (c_nodes st) (c_edges st).
    Lemma find_iff s q : find_symbol (c_sym st) s = Some q <-> dget (c_sym st) q = Some s.
    Proof.
      destruct T as [WF S P]. apply (find_symbol_inj _ sg); auto.
      rewrite <- (wf_keys _ WF). apply (wf_nodup _ WF).
    Qed.
    Lemma dep_rank q e ns s n : dget (c_par st) q = Some (e, ns) -> In s (free e) -> find_symbol (c_sym st) s = Some n -> rk n < rk q.
    Proof.
      intros G Hs F. destruct T as [WF S P]. destruct (P _ _ _ G) as (_ & HE & HN).
      destruct (HN _ Hs) as (m & Hm & Em). apply find_iff in F. apply S in F.
      assert (n = m) as -> by (apply INJ; congruence). apply rank_lt; auto; apply WF.
    Qed.
    Lemma approx_stable : forall k s q, find_symbol (c_sym st) s = Some q -> rk q < k -> forall j, k <= j -> approx j s = approx k s.
    Proof.
      induction k as [|k IH]; intros s q F L j Hj; [lia|]. destruct j as [|j]; [lia|]. cbn [approx]. rewrite F.
      destruct (dget (c_par st) q) as [[e ns]|] eqn:G; auto. apply (eval_ext A LAW). intros x Hx.
      destruct (find_symbol (c_sym st) x) as [n|] eqn:Fx.
      - pose proof (dep_rank _ _ _ _ _ G Hx Fx). apply (IH x n); auto; lia.
      - destruct j, k; cbn [approx]; now rewrite Fx.
    Qed.
    Lemma solution_exists : exists r, solves st ind r.
    Proof.
      set (K := S (S (List.length (c_nodes st)))). exists (approx K). intros q s D. apply find_iff in D.
      destruct (dget (c_par st) q) as [[e ns]|] eqn:G.
      - rewrite <- (approx_stable K s q D) with (j := S K); [| |lia].
        + cbn [approx]. now rewrite D, G.
        + unfold K, rk, rank. clear. 
          match goal with |- List.length (filter ?f ?l) < _ => destruct (filter_len f l) as [E|E]; rewrite ?E; rewrite seq_length in *; lia end.
      - unfold K. cbn [approx]. now rewrite D, G.
    Qed.
    Lemma solution_unique r r' : solves st ind r -> solves st ind r' ->
      (forall p e ns, dget (c_par st) p = Some (e, ns) -> forall s, In s (free e) -> In s (map snd (c_sym st))) ->
      forall q s, dget (c_sym st) q = Some s -> r s = r' s.
    Proof.
      intros H H' CL q. remember (rk q) as k eqn:Ek. assert (rk q <= k) as Lk by lia. clear Ek. revert q Lk.
      induction k as [|k IH]; intros q Lk s D; pose proof (H _ _ D) as R; pose proof (H' _ _ D) as R';
        destruct (dget (c_par st) q) as [[e ns]|] eqn:G; try congruence;
        rewrite R, R'; apply (eval_ext A LAW); intros x Hx;
        pose proof (CL _ _ _ G _ Hx) as Cx;
        (destruct (find_symbol (c_sym st) x) as [n|] eqn:Fx; [|apply find_symbol_None in Fx; contradiction]);
        pose proof (dep_rank _ _ _ _ _ G Hx Fx).
      - lia.
      - apply (IH n); [lia|]. now apply find_iff.
    Qed.
  End Sol.
End X.
