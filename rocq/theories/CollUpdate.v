(** What _update_parameterisations computes (C10-C13). *)
From Coq Require Import List Bool String Ascii ZArith Lia PeanoNat SpecFloat Permutation Relations.
From Verif Require Import Prelude PreludeFacts Float Param Expr Sweep SweepProofs Coll CollGraph CollSpec CollProofs CollExpand.
Import ListNotations.
Open Scope list_scope.

Section U.
  Context {A : alg} (LAW : alg_ok A).
  Implicit Types st : cst A.

  Record ginv (sg : string -> string) st (ow : list string) : Prop := {
    gi_t : tinv sg st;
    gi_nodes : incl (c_nodes st) (dkeys (c_coll st));
    gi_par : forall q, parametric st q -> registered st q;
    gi_in : forall a b, In (a, b) (c_edges st) -> parametric st b;
    gi_tidy : forall a b, ~ In b ow -> In (a, b) (c_edges st) -> exists e ns, dget (c_par st) b = Some (e, ns) /\ In a ns
  }.

  Lemma ginv_coll sg st ow c : ginv sg st ow -> dkeys c = dkeys (c_coll st) -> ginv sg (with_coll st c) ow.
  Proof.
    intros [T N P I TD] E. constructor; auto; cs.
    - now apply tinv_coll.
    - now rewrite E.
    - intros q Hq. unfold registered. cs. rewrite E. apply P, Hq.
  Qed.
  Lemma ginv_add sg st ow n p s : ginv sg st ow -> s = sg n ->
    ginv sg (mkcst (dset (c_coll st) n p) (dset (c_sym st) n s) (c_par st) (add_node (c_nodes st) n) (c_edges st)) ow.
  Proof.
    intros [T N P I TD] E. constructor; auto; cs.
    - now apply tinv_add.
    - intros x Hx. apply In_dkeys_dset. apply add_node_In in Hx as [Hx| ->]; auto.
    - intros q Hq. unfold registered; cs. apply In_dkeys_dset. right. now apply P.
  Qed.
  Lemma ginv_step sg fuel st ow o : ginv sg st ow -> good_ord (fst o) -> op_ok sg st ow (snd o) ->
    ginv sg (fst (cstep fuel st o)) (op_ow st ow (snd o)).
  Proof.
    intros GI GO OK. pose proof GI as [T N P I TD].
    destruct o as [ord o]. destruct o; cbn [cstep snd fst op_ok op_ow] in *.
    - unfold addParameter. destruct (dmem _ _); auto. destruct (param_default name) as [p|] eqn:E; auto.
      cbn [fst]. apply ginv_add; auto. apply param_default_name in E as [_ E].
      destruct override; cbn; congruence.
    - destruct OK.
    - destruct (setValue_frame ord fuel name v st) as (c & -> & E). now apply ginv_coll.
    - destruct (setValues_frame ord fuel a st) as (c & -> & E). now apply ginv_coll.
    - pose proof (tinv_addP LAW sg ord st name e T GO) as T'.
      destruct (addP_cases ord st name e) as [[Q _]|(names & R & EN & [[D Q]|[_ Q]])]; rewrite Q in *; cbn [fst] in *.
      1,3: constructor; auto; intros a b Nb Hab; apply TD; auto; destruct (dmem (c_par st) name); auto; intros C; apply Nb; now right.
      constructor; cs; auto.
      + intros x Hx. apply add_edges_nodes in Hx as [Hx|[Hx|[_ ->]]]; auto.
        rewrite (wf_keys _ (ti_wf _ _ T)). eapply expr_names_keys; eauto.
      + intros q (e' & ns & G). cs. rewrite dget_dset in G. destruct (eqb_spec q name) as [->|]; auto.
        apply P. exists e', ns. exact G.
      + intros a b Hab. unfold parametric; cs. rewrite dget_dset. destruct (eqb_spec b name) as [->|Nb]; [eauto|].
        apply add_edges_In in Hab as [Hab|(x & _ & [= _ ->])]; [|congruence]. apply (I _ _ Hab).
      + intros a b Nb Hab. rewrite dget_dset. destruct (eqb_spec b name) as [->|Nn].
        * exists e, names. split; auto. apply add_edges_In in Hab as [Hab|(x & Hx & [= ->])]; auto.
          exfalso. destruct (dmem (c_par st) name) eqn:M; [apply Nb; now left|].
          apply dmem_par_false in M. apply M. eapply I; eauto.
        * apply add_edges_In in Hab as [Hab|(x & _ & [= _ ->])]; [|congruence]. apply TD; auto.
          destruct (dmem (c_par st) name); auto. intros C. apply Nb. now right.
    - assert (op_ok_rm sg st (CPre name f)) as OK' by exact OK.
      pose proof (tinv_step LAW sg fuel st (ord, CPre name f) T GO OK') as T'. cbn [cstep snd] in T'.
      unfold addParameterisationPrefactor in *. destruct (dget (c_par st) name) as [[e ns]|] eqn:G; auto. cs.
      assert (forall q, parametric (mkcst (c_coll st) (c_sym st) (dset (c_par st) name (mul e f, ns)) (c_nodes st) (c_edges st)) q <-> parametric st q) as PQ.
      { intros q. unfold parametric; cs. rewrite dget_dset. destruct (eqb_spec q name) as [->|]; [|tauto].
        split; intros _; eauto. }
      constructor; cs; auto.
      + intros q Hq. apply PQ in Hq. apply P, Hq.
      + intros a b Hab. apply PQ. eapply I; eauto.
      + intros a b Nb Hab. destruct (TD _ _ Nb Hab) as (e' & ns' & G' & Ha). rewrite dget_dset.
        destruct (eqb_spec b name) as [->|]; [|eauto]. rewrite G in G'. injection G' as <- <-. eauto.
    - destruct (tinv_rmP sg st name T) as [T' R'].
      destruct (rmP_cases st name) as [->|(e & ns & R & G & _)]; auto.
      destruct (R' e ns R G) as (edges' & E & HE). rewrite E in *. cbn [fst] in *. constructor; cs; auto.
      + intros q (e' & ns' & G'). cs. rewrite dget_ddel in G'. destruct (eqb_spec q name) as [->|]; [discriminate|]. apply P. exists e', ns'. exact G'.
      + intros a b Hab. apply HE in Hab as [Hab Nx]. unfold parametric; cs. rewrite dget_ddel.
        destruct (eqb_spec b name) as [->|]; [|apply (I _ _ Hab)]. exfalso.
        destruct (TD _ _ OK Hab) as (e' & ns' & G' & Ha). rewrite G in G'. injection G' as <- <-. apply Nx. eauto.
      + intros a b Nb Hab. apply HE in Hab as [Hab Nx]. rewrite dget_ddel.
        destruct (eqb_spec b name) as [->|]; [|auto]. exfalso.
        destruct (TD _ _ OK Hab) as (e' & ns' & G' & Ha). rewrite G in G'. injection G' as <- <-. apply Nx. eauto.
    - destruct (on_param_frame st name (fun p => setBounds p b)) as (c & -> & E). now apply ginv_coll.
    - match goal with |- ginv _ (fst (on_param _ _ ?f)) _ => destruct (on_param_frame st name f) as (c & -> & E) end.
      now apply ginv_coll.
  Qed.
  Lemma ginv_new sg names st : coll_new names = Ok st -> (forall n, In n names -> default_symbol n = Ok (sg n)) -> ginv sg st [].
  Proof.
    intros E H. apply (coll_new_ind (fun st => ginv sg st []) _ _ E).
    - constructor; cs; try easy.
      + apply (tinv_new sg []); [reflexivity|intros n []].
      + intros q (e & ns & G). discriminate.
    - intros s n p T Hn Hp. apply ginv_add; auto. apply param_default_name in Hp as [_ Hp].
      rewrite (H _ Hn) in Hp. congruence.
  Qed.
  Lemma ginv_reach sg st ow : reach sg st ow -> ginv sg st ow.
  Proof. induction 1; [eapply ginv_new; eauto|now apply ginv_step]. Qed.

  (** *** the store phase *)
  Lemma stores_get (vals : dict string (option (E A))) k : NoDup (dkeys vals) -> forall c,
    dget (fold_left (fun c kv => store_one c (fst kv) (snd kv)) vals c) k =
    match dget vals k with Some v => dget (store_one c k v) k | None => dget c k end.
  Proof.
    induction vals as [|[k' v] r IH]; cbn [fold_left fst snd dget]; intros ND c; auto.
    change (NoDup (k' :: dkeys r)) in ND. inversion ND; subst. rewrite IH by auto.
    destruct (eqb_spec k k') as [->|N].
    - assert (dget r k' = None) as -> by (now apply dget_None). reflexivity.
    - destruct (dget r k) as [w|] eqn:G; [|now apply store_other].
      unfold store_one at 1 3. destruct w as [e|]; [|now apply store_other].
      rewrite (store_other c k' v k N). destruct (dget c k) as [p|] eqn:Gp; [|rewrite store_other, Gp; auto].
      destruct (tofloat e) as [x|]; [|rewrite store_other, Gp; auto].
      destruct (setValue p (PFloat x)) as [p' [u|]]; [now rewrite !dget_dset_eq|rewrite store_other, Gp; auto].
  Qed.

  Section Run.
    Variables (sg : string -> string) (st : cst A) (ow : list string).
    Hypothesis (GI : ginv sg st ow) (INJ : forall a b, sg a = sg b -> a = b).
    Let T : tinv sg st := gi_t _ _ _ GI.
    Let WF : wf st := ti_wf _ _ T.
    Lemma reg_sym n : registered st n -> dget (c_sym st) n = Some (sg n).
    Proof.
      unfold registered. rewrite (wf_keys _ WF). intros H. apply dkeys_dget in H as (s & H). rewrite H. f_equal. eapply ti_sym; eauto.
    Qed.
    Lemma sym_reg n s : dget (c_sym st) n = Some s -> registered st n /\ s = sg n.
    Proof.
      intros H. split; [|eapply ti_sym; eauto]. unfold registered. rewrite (wf_keys _ WF). eapply dget_Some_key; eauto.
    Qed.
    Lemma node_reg n : In n (c_nodes st) <-> registered st n.
    Proof. split; [apply (gi_nodes _ _ _ GI)|apply (wf_nodes _ WF)]. Qed.
    Lemma dep_edge p e ns s : dget (c_par st) p = Some (e, ns) -> In s (free e) -> exists n, In (n, p) (c_edges st) /\ dget (c_sym st) n = Some s /\ In n ns.
    Proof.
      intros G Hs. destruct (ti_par _ _ T _ _ _ G) as (_ & HE & HN). destruct (HN _ Hs) as (n & Hn & <-).
      exists n. split; auto. split; auto. apply reg_sym. apply node_reg. apply (wf_edges _ WF _ _ (HE _ Hn)).
    Qed.
    Lemma syms_closed p e ns : dget (c_par st) p = Some (e, ns) -> forall s, In s (free e) -> In s (map snd (c_sym st)).
    Proof. intros G s Hs. destruct (dep_edge _ _ _ _ G Hs) as (n & _ & D & _). apply dget_In in D. apply (in_map snd) in D. exact D. Qed.
    Lemma mentions_edge p q : mentions st p q -> In (q, p) (c_edges st).
    Proof.
      intros (e & ns & s & G & Hs & D). destruct (dep_edge _ _ _ _ G Hs) as (n & He & D' & _).
      apply sym_reg in D as [_ D]. apply sym_reg in D' as [_ D']. assert (q = n) as -> by (apply INJ; congruence). auto.
    Qed.
    Lemma mentions_path p q : mentions_tr st p q -> path (c_edges st) q p.
    Proof.
      induction 1 as [p q H|p q r _ IH1 _ IH2]; [apply t_step; now apply mentions_edge|eapply t_trans; eauto].
    Qed.
    Lemma depends_path p q : depends_tr st p q -> path (c_edges st) q p.
    Proof.
      induction 1 as [p q H|p q r _ IH1 _ IH2]; [|eapply t_trans; eauto]. apply t_step.
      destruct H as (ns & H & Hq). unfold getParameterisationParameters in H.
      destruct (dget (c_par st) p) as [[e ns']|] eqn:G; [|discriminate]. injection H as ->.
      now apply (ti_par _ _ T _ _ _ G).
    Qed.
    Lemma nonpar_root q : ~ parametric st q -> forall a, ~ In (a, q) (c_edges st).
    Proof. intros N a H. apply N. eapply gi_in; eauto. Qed.

    Variables (ord : ordr) (fuel : nat).
    Hypothesis (GO : good_ord ord) (FU : enough st <= fuel).
    Lemma getP_ok tag d : parametric st d -> exists e, getParametricExpression ord tag fuel st d true = Ok e.
    Proof.
      intros (e & ns & G). pose proof (getP_terminates LAW sg ord tag st d T INJ GO fuel true FU) as N.
      unfold getParametricExpression in *. rewrite G in *.
      pose proof (expand_err LAW ord tag st GO (fun q t ns' H => syms_closed q t ns' H) fuel 0 e (syms_closed _ _ _ G)) as X.
      destruct (expand_loop ord tag st fuel 0 e) as [F|x]; [eauto|]. congruence.
    Qed.

    Lemma path_loop_spec tag sym x : forall l vals j, NoDup l ->
      (forall d, In d l -> exists cur, dget vals d = Some cur /\ (cur = None -> parametric st d)) ->
      exists vals', path_loop ord tag fuel st sym x vals j l = Ok vals' /\
        (forall d, ~ In d l -> dget vals' d = dget vals d) /\
        (forall d, In d l -> exists e, dget vals' d = Some (Some (subs e sym (const (ofF x)))) /\
           (dget vals d = Some (Some e) \/ dget vals d = Some None /\ exists i, getParametricExpression ord (i :: tag) fuel st d true = Ok e)).
    Proof.
      induction l as [|d r IH]; intros vals j ND H; cbn [path_loop].
      - exists vals. split; auto. split; auto. intros d [].
      - inversion ND; subst. destruct (H d (or_introl eq_refl)) as (cur & G & HP). rewrite G.
        assert (exists e, match cur with None => getParametricExpression ord (j :: tag) fuel st d true | Some e => Ok e end = Ok e) as (e & Ee).
        { destruct cur as [e|]; [eauto|]. apply getP_ok. auto. }
        rewrite Ee. cbn [bind].
        destruct (IH (dset vals d (Some (subs e sym (const (ofF x))))) (S j)) as (vals' & E & H1 & H4); auto.
        { intros d' Hd'. rewrite dget_dset. destruct (eqb_spec d' d) as [->|]; [contradiction|]. apply H. now right. }
        exists vals'. split; auto. split.
        + intros d' N. rewrite H1 by (intros C; apply N; now right). apply dget_dset_neq. intros ->. apply N. now left.
        + intros d' [<-|Hd'].
          * exists e. rewrite H1 by auto. rewrite dget_dset_eq. split; auto. destruct cur; [left; congruence|right; eauto].
          * destruct (H4 d' Hd') as (e' & E1 & E2). rewrite dget_dset_neq in E2 by (intros ->; contradiction). eauto.
    Qed.

    Definition is_root r : Prop := In r (c_nodes st) /\ forall a, ~ In (a, r) (c_edges st).
    (** [P d e]: a property of the expression being computed for [d] *)
    Variable P : string -> E A -> Prop.
    Hypothesis P_init : forall tag d e, getParametricExpression ord tag fuel st d true = Ok e -> P d e.
    Hypothesis P_step : forall d e r s x, P d e -> is_root r -> value_of st r = Some x -> dget (c_sym st) r = Some s ->
      P d (subs e s (const (ofF x))).
    Definition VI (done : list string) (d : string) (cur : option (E A)) : Prop :=
      match cur with
      | None => parametric st d /\ forall r, In r done -> value_of st r <> None -> ~ path (c_edges st) r d
      | Some e => P d e /\ (exists r, In r done /\ value_of st r <> None /\ path (c_edges st) r d) /\
          forall r, In r done -> value_of st r <> None -> path (c_edges st) r d -> ~ In (sg r) (free e)
      end.
    Lemma subs_const_free (e : E A) s c y : In y (free (subs e s (const c))) -> In y (free e) /\ y <> s.
    Proof. intros H. apply (free_subs A LAW) in H as [H|H]; auto. rewrite (free_const A LAW) in H. destruct H. Qed.

    Lemma root_loop_spec : forall roots vals i done, (forall r, In r roots -> is_root r) ->
      (forall d, has_in (c_edges st) d = true -> exists cur, dget vals d = Some cur /\ VI done d cur) ->
      exists vals', root_loop ord fuel st vals i roots = Ok vals' /\
        forall d, has_in (c_edges st) d = true -> exists cur, dget vals' d = Some cur /\ VI (rev roots ++ done) d cur.
    Proof.
      induction roots as [|r rest IH]; intros vals i done HR HV; cbn [root_loop].
      - exists vals. auto.
      - destruct (HR r (or_introl eq_refl)) as [Hr Hin]. apply node_reg in Hr.
        unfold getSymbol. rewrite (reg_sym r Hr). cbn [bind].
        unfold getParameterValue. assert (exists p, dget (c_coll st) r = Some p) as (p & Gp) by (now apply dkeys_dget).
        rewrite Gp. cbn [bind].
        assert (value_of st r = getValue p) as VR by (unfold value_of; now rewrite Gp).
        replace (rev (r :: rest) ++ done) with (rev rest ++ r :: done) by (cbn; now rewrite <- app_assoc).
        destruct (getValue p) as [x|] eqn:Gx.
        + destruct (path_loop_spec [3; i] (sg r) x (ord [2; i] (descendants (c_edges st) r)) vals 0) as (vals1 & E1 & H1 & H2).
          { eapply Permutation_NoDup; [apply Permutation_sym, GO|apply descendants_NoDup]. }
          { intros d Hd. apply (Permutation_in _ (GO _ _)), descendants_In in Hd as [Pd _].
            assert (has_in (c_edges st) d = true) as HI. { apply has_in_spec. apply path_last in Pd as (z & Hz & _). eauto. }
            destruct (HV d HI) as (cur & G & V). exists cur. split; auto. intros ->. apply V. }
          rewrite E1. cbn [bind]. apply IH; [intros; apply HR; now right|].
          intros d HI. destruct (HV d HI) as (cur & G & V).
          destruct (mem_In_dec d (ord [2; i] (descendants (c_edges st) r))) as [Hd|Hd].
          * destruct (H2 d Hd) as (e & Ge & HE). apply (Permutation_in _ (GO _ _)), descendants_In in Hd as [Pd _].
            eexists. split; [exact Ge|].
            assert (P d e) as Pe.
            { destruct HE as [HE|[HE (k & HE2)]]; [|eauto]. rewrite HE in G. injection G as <-. apply V. }
            cbn [VI]. split; [|split].
            -- eapply P_step; eauto; [split; [now apply node_reg|auto]|now apply reg_sym].
            -- exists r. split; [now left|]. split; auto. congruence.
            -- intros r' [<-|Hr'] Vr' Pr' C; apply subs_const_free in C as [C1 C2]; [auto|].
               destruct HE as [HE|[HE _]]; rewrite HE in G; injection G as <-; [|destruct V as [_ V]; apply (V r'); auto].
               destruct V as (_ & _ & V). eapply V; eauto.
          * exists cur. rewrite H1 by auto. split; auto.
            assert (~ path (c_edges st) r d) as NP.
            { intros C. apply Hd. apply (Permutation_in _ (Permutation_sym (GO _ _))), descendants_In. split; auto.
              intros ->. apply path_last in C as (z & Hz & _). exact (Hin _ Hz). }
            destruct cur as [e|]; cbn [VI] in *.
            -- destruct V as (V1 & (r0 & ? & ?) & V3). split; auto. split; [exists r0; split; [now right|auto]|].
               intros r' [<-|Hr']; [contradiction|auto].
            -- destruct V as [V1 V2]. split; auto. intros r' [<-|Hr']; auto.
        + apply IH; [intros; apply HR; now right|]. intros d HI. destruct (HV d HI) as (cur & G & V). exists cur. split; auto.
          destruct cur as [e|]; cbn [VI] in *.
          * destruct V as (V1 & (r0 & ? & ?) & V3). split; auto. split; [exists r0; split; [now right|auto]|].
            intros r' [<-|Hr']; [congruence|auto].
          * destruct V as [V1 V2]. split; auto. intros r' [<-|Hr']; [congruence|auto].
    Qed.

    (** The whole update: it succeeds, and every dependent node is handled as
        described. *)
    Definition handled d (c' : dict string param) : Prop :=
      (dget c' d = dget (c_coll st) d /\ forall r, is_root r -> value_of st r <> None -> ~ path (c_edges st) r d) \/
      (exists e, dget c' d = dget (store_one (c_coll st) d (Some e)) d /\ P d e /\
         (exists r, is_root r /\ value_of st r <> None /\ path (c_edges st) r d) /\
         forall r, is_root r -> value_of st r <> None -> path (c_edges st) r d -> ~ In (sg r) (free e)).
    Lemma update_spec : exists c', update ord fuel st = (with_coll st c', Ok tt) /\ dkeys c' = dkeys (c_coll st) /\
      (forall d, has_in (c_edges st) d = false -> dget c' d = dget (c_coll st) d) /\
      (forall d, has_in (c_edges st) d = true -> handled d c').
    Proof.
      unfold update.
      set (roots := filter (fun n => negb (has_in (c_edges st) n)) (ord [0] (c_nodes st))).
      set (deps := filter (has_in (c_edges st)) (ord [1] (c_nodes st))).
      assert (forall r, In r roots <-> is_root r) as RT.
      { intros r. unfold roots, is_root. rewrite filter_In, negb_true_iff, has_in_false. split.
        - intros [H1 H2]. split; auto. now apply (Permutation_in _ (GO [0] (c_nodes st))).
        - intros [H1 H2]. split; auto. now apply (Permutation_in _ (Permutation_sym (GO [0] (c_nodes st)))). }
      assert (forall d, In d deps <-> has_in (c_edges st) d = true) as DP.
      { intros d. unfold deps. rewrite filter_In. split; [tauto|]. intros H. split; auto.
        apply (Permutation_in _ (Permutation_sym (GO _ _))). apply has_in_spec in H as (a & Ha). apply (wf_edges _ WF _ _ Ha). }
      destruct (root_loop_spec roots (map (fun k => (k, None)) deps) 0 []) as (vals & E & HV).
      { intros r Hr. now apply RT. }
      { intros d HI. exists None. split.
        - apply In_dget. { rewrite map_keys_None. unfold deps. apply NoDup_filter. eapply Permutation_NoDup; [apply Permutation_sym, GO|apply WF]. }
          apply in_map_iff. exists d. split; auto. now apply DP.
        - cbn. split; [|intros r []]. apply has_in_spec in HI as (a & Ha). eapply gi_in; eauto. }
      rewrite E. eexists. split; [reflexivity|]. split; [apply stores_keys|].
      assert (dkeys vals = deps) as KV by (rewrite (root_loop_keys _ _ _ _ _ _ _ E); apply map_keys_None).
      assert (NoDup (dkeys vals)) as ND.
      { rewrite KV. apply NoDup_filter. eapply Permutation_NoDup; [apply Permutation_sym, GO|apply WF]. }
      split.
      - intros d HI. apply stores_other. rewrite KV, DP. congruence.
      - intros d HI. destruct (HV d HI) as (cur & G & V). unfold handled. rewrite (stores_get vals d ND), G.
        assert (forall r, is_root r <-> In r (rev roots ++ [])) as RR.
        { intros r. rewrite app_nil_r, <- in_rev. symmetry. apply RT. }
        destruct cur as [e|]; cbn [VI] in V.
        + right. exists e. split; auto. destruct V as (V1 & (r & H1 & H2) & V3). split; auto. split.
          * exists r. split; auto. now apply RR.
          * intros r' Hr'. apply V3. now apply RR.
        + left. split; auto. intros r Hr. apply V. now apply RR.
    Qed.
  End Run.

  (** *** the two instances of [P] *)
  Section Inst.
    Variables (sg : string -> string) (st : cst A) (ow : list string).
    Hypothesis (GI : ginv sg st ow) (INJ : forall a b, sg a = sg b -> a = b).
    Variables (ord : ordr) (fuel : nat).
    Hypothesis (GO : good_ord ord) (FU : enough st <= fuel).
    Let T : tinv sg st := gi_t _ _ _ GI.
    Let WF : wf st := ti_wf _ _ T.
    Let NDS : NoDup (dkeys (c_sym st)). Proof. rewrite <- (wf_keys _ WF). apply (wf_nodup _ WF). Qed.

    Definition P1 (d : string) (e : E A) : Prop :=
      (forall s, In s (free e) -> exists q, dget (c_sym st) q = Some s /\ ~ parametric st q /\ mentions_tr st d q) /\
      (forall r v, solution st r -> r (sg d) = Some v -> eval e r = Some v).
    Lemma P1_init tag d e : getParametricExpression ord tag fuel st d true = Ok e -> P1 d e.
    Proof.
      unfold getParametricExpression. destruct (dget (c_par st) d) as [[e0 ns]|] eqn:G; [|discriminate]. intros X. split.
      - apply (expand_ind (fun b => forall s, In s (free b) -> exists q, dget (c_sym st) q = Some s /\ mentions_tr st d q) ord tag st GO) in X as [H1 H2].
        + intros s Hs. destruct (H1 s Hs) as (q & D & M). destruct (H2 s Hs) as (q' & F & N).
          apply find_symbol_sound in F; auto. exists q. split; auto. split; auto.
          apply (sym_reg sg st ow GI) in D as [_ D]. apply (sym_reg sg st ow GI) in F as [_ F].
          assert (q = q') as -> by (apply INJ; congruence). auto.
        + intros b s q t ns' HB Hs F G' x Hx. apply (free_subs A LAW) in Hx as [[Hx _]|Hx]; auto.
          destruct (HB s Hs) as (q0 & D0 & M0). apply find_symbol_sound in F; auto.
          pose proof D0 as D1. apply (sym_reg sg st ow GI) in D1 as [_ D1]. pose proof F as F1. apply (sym_reg sg st ow GI) in F1 as [_ F1].
          assert (q0 = q) as -> by (apply INJ; congruence).
          destruct (dep_edge sg st ow GI _ _ _ _ G' Hx) as (n & _ & Dn & _). exists n. split; auto.
          eapply t_trans; [exact M0|]. apply t_step. exists t, ns', x. auto.
        + intros s Hs. destruct (dep_edge sg st ow GI _ _ _ _ G Hs) as (n & _ & Dn & _). exists n. split; auto.
          apply t_step. exists e0, ns, s. auto.
      - intros r v SOL EV. eapply (expand_value LAW); eauto. rewrite <- EV. symmetry.
        assert (registered st d) as R by (apply (gi_par _ _ _ GI); exists e0, ns; exact G).
        pose proof (SOL d (sg d) (reg_sym sg st ow GI d R)) as H. rewrite G in H. exact H.
    Qed.
    Lemma root_subst (e : E A) r s x rho v : is_root st r -> value_of st r = Some x -> dget (c_sym st) r = Some s ->
      (forall y, In y (free e) -> exists q, dget (c_sym st) q = Some y /\ ~ parametric st q) -> solution st rho ->
      eval e rho = v -> eval e (upd rho s (Some (ofF x))) = v.
    Proof.
      intros IR VX D FR SOL EV. rewrite <- EV. apply (eval_ext A LAW). intros y Hy. unfold upd.
      destruct (eqb_spec y s) as [->|]; auto. destruct (FR _ Hy) as (q & Dq & Nq).
      apply (sym_reg sg st ow GI) in D as [_ D]. pose proof Dq as D2. apply (sym_reg sg st ow GI) in D2 as [_ D2].
      assert (q = r) as -> by (apply INJ; congruence). pose proof (SOL _ _ Dq) as R.
      destruct (dget (c_par st) r) as [[e' ns]|] eqn:G; [exfalso; apply Nq; exists e', ns; exact G|].
      rewrite R. unfold current. now rewrite VX.
    Qed.
    Lemma P1_step d e r s x : P1 d e -> is_root st r -> value_of st r = Some x -> dget (c_sym st) r = Some s ->
      P1 d (subs e s (const (ofF x))).
    Proof.
      intros [H1 H2] IR VX D. split.
      - intros y Hy. apply subs_const_free in Hy as [Hy _]. auto.
      - intros rho v SOL EV. apply (eval_subs A LAW). rewrite (eval_const A LAW).
        eapply root_subst; eauto. intros y Hy. destruct (H1 y Hy) as (q & ? & ? & _). eauto.
    Qed.
    Definition P2 (d : string) (e : E A) : Prop :=
      P1 d e /\ (forall rho, solution st rho -> eval e rho = rho (sg d)) /\
      (forall u, independent st u -> value_of st u = None -> mentions_tr st d u -> In (sg u) (free e)).
    Lemma clos_first {X} (R : X -> X -> Prop) x y : clos_trans X R x y -> exists z, R x z /\ (z = y \/ clos_trans X R z y).
    Proof.
      intros H. apply clos_trans_t1n in H. destruct H as [y H|y z H H1]; eauto. exists y. split; auto. right. now apply clos_t1n_trans.
    Qed.
    Lemma P2_init tag d e : alg_plain A -> getParametricExpression ord tag fuel st d true = Ok e -> P2 d e.
    Proof.
      intros PL X. split; [eapply P1_init; eauto|]. revert X.
      unfold getParametricExpression. destruct (dget (c_par st) d) as [[e0 ns]|] eqn:G; [|discriminate]. intros X. split.
      - intros rho SOL. rewrite (expand_value_plain LAW _ _ _ _ _ _ _ _ _ PL WF GO X SOL).
        assert (registered st d) as R by (apply (gi_par _ _ _ GI); exists e0, ns; exact G).
        pose proof (SOL d (sg d) (reg_sym sg st ow GI d R)) as H. rewrite G in H. now rewrite H.
      - intros u [Ru Nu] VU M.
        edestruct (expand_ind (fun b => exists s q, In s (free b) /\ dget (c_sym st) q = Some s /\ (q = u \/ mentions_tr st q u)) ord tag st GO) as [H1 H2];
          [|exact X| |]; cycle 2.
        + destruct H1 as (s & q & Hs & D & H1). destruct (H2 s Hs) as (q' & F & N). apply find_symbol_sound in F; auto.
          pose proof D as D1. apply (sym_reg sg st ow GI) in D1 as [_ D1]. apply (sym_reg sg st ow GI) in F as [_ F].
          assert (q = q') as <- by (apply INJ; congruence). destruct H1 as [->|H1]; [now subst|].
          exfalso. apply clos_first in H1 as (z & (e1 & ns1 & s1 & G1 & _) & _). apply N. exists e1, ns1. exact G1.
        + intros b s q t ns' (s0 & q0 & Hs0 & D0 & M0) Hs F G'. apply find_symbol_sound in F; auto.
          destruct (eqb_dec s0 s) as [->|Ns]; [|exists s0, q0; split; auto; now apply (plain_free A PL)].
          apply (sym_reg sg st ow GI) in D0 as [_ D0]. pose proof F as F1. apply (sym_reg sg st ow GI) in F1 as [_ F1].
          assert (q0 = q) as -> by (apply INJ; congruence). destruct M0 as [->|M0]; [exfalso; apply Nu; exists t, ns'; exact G'|].
          apply clos_first in M0 as (z & (e1 & ns1 & s1 & G1 & Hs1 & D1) & Hz). rewrite G' in G1. injection G1 as <- <-.
          exists s1, z. split; auto. now apply (plain_free2 A PL).
        + apply clos_first in M as (z & (e1 & ns1 & s1 & G1 & Hs1 & D1) & Hz). rewrite G in G1. injection G1 as <- <-.
          exists s1, z. auto.
    Qed.
    Lemma P2_step d e r s x : alg_plain A -> P2 d e -> is_root st r -> value_of st r = Some x -> dget (c_sym st) r = Some s ->
      P2 d (subs e s (const (ofF x))).
    Proof.
      intros PL (H1 & H2 & H3) IR VX D. split; [now apply (P1_step d e r)|]. split.
      - intros rho SOL. destruct (mem_In_dec s (free e)) as [I|I].
        + rewrite (plain_eval A PL) by auto. rewrite (eval_const A LAW). rewrite <- (H2 rho SOL).
          eapply root_subst; eauto. intros y Hy. destruct (proj1 H1 y Hy) as (q & ? & ? & _). eauto.
        + rewrite (plain_noop A PL) by auto. auto.
      - intros u Iu VU M. apply (plain_free A PL); [now apply H3|]. intros Es.
        apply (sym_reg sg st ow GI) in D as [_ D]. assert (u = r) as -> by (apply INJ; congruence). congruence.
    Qed.
  End Inst.
End U.
