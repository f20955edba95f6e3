(** Invariants of every ParamCollection history; C06, C07, C08, C15, C16. *)
From Coq Require Import List Bool String Ascii ZArith Lia SpecFloat Permutation Relations.
From Verif Require Import Prelude PreludeFacts Float Param Expr Sweep SweepProofs Coll CollGraph CollSpec.
Import ListNotations.
Open Scope list_scope.
Arguments dkeys : simpl never.
Arguments ddel : simpl never.
Ltac cs := cbn [c_coll c_sym c_par c_nodes c_edges with_coll fst snd] in *.

Section P.
  Context {A : alg}.
  Implicit Types st : cst A.

  Record wf st : Prop := {
    wf_keys : dkeys (c_coll st) = dkeys (c_sym st);
    wf_nodup : NoDup (dkeys (c_coll st));
    wf_nodes : incl (dkeys (c_coll st)) (c_nodes st);
    wf_ndnodes : NoDup (c_nodes st);
    wf_edges : in_nodes (c_nodes st) (c_edges st);
    wf_dag : acyclic (c_edges st)
  }.

  Lemma param_default_name n p : param_default n = Ok p -> p_value p = None /\ default_symbol n = Ok (p_symbol p).
  Proof.
    unfold param_default, param_new. destruct (has_space n); [discriminate|].
    change (bounds_types_ok _ _) with true. cbv beta iota delta [negb].
    destruct (py_gt _ _); [discriminate|]. destruct (valid_scalar _); [|discriminate]. cbn [to_float bind].
    destruct (flt _ _); [discriminate|]. destruct (default_symbol n) as [s|]; [|discriminate]. cbn [bind].
    destruct (Latex.latexify_param_name n); [|discriminate]. cbn [bind]. intros [= <-]. auto.
  Qed.

  Lemma wf_add st n p s : wf st ->
    wf (mkcst (dset (c_coll st) n p) (dset (c_sym st) n s) (c_par st) (add_node (c_nodes st) n) (c_edges st)).
  Proof.
    intros [K ND NN N2 EE AC]. constructor; cs.
    - destruct (mem_In_dec n (dkeys (c_coll st))) as [H|H].
      + rewrite !dkeys_dset_in; auto. now rewrite <- K.
      + rewrite !dkeys_dset_new; auto; [now rewrite K|now rewrite <- K].
    - now apply NoDup_dset.
    - intros x Hx. apply add_node_In. apply In_dkeys_dset in Hx as [->|Hx]; auto.
    - now apply add_node_NoDup.
    - intros a b Hab. destruct (EE _ _ Hab). rewrite !add_node_In. auto.
    - exact AC.
  Qed.

  Lemma coll_new_ind (P : cst A -> Prop) names st : coll_new names = Ok st ->
    P (mkcst [] [] [] [] []) ->
    (forall st n p, P st -> In n names -> param_default n = Ok p ->
       P (mkcst (dset (c_coll st) n p) (dset (c_sym st) n (p_symbol p)) (c_par st) (add_node (c_nodes st) n) (c_edges st))) ->
    P st.
  Proof.
    unfold coll_new. intros E H0 HS.
    assert (G : forall names' acc, incl names' names -> (forall s, acc = Ok s -> P s) ->
      fold_left (fun (acc : res (cst A)) name => bind acc (fun st => bind (param_default name) (fun p =>
        Ok (mkcst (dset (c_coll st) name p) (dset (c_sym st) name (p_symbol p)) (c_par st)
                (add_node (c_nodes st) name) (c_edges st))))) names' acc = Ok st -> P st).
    { induction names' as [|n r IH]; cbn [fold_left]; intros acc I HA HF; [auto|].
      apply (IH _ (fun x Hx => I x (or_intror Hx))) in HF; auto. intros s Hs.
      destruct acc as [s0|]; [|discriminate]. cbn [bind] in Hs.
      destruct (param_default n) as [p|] eqn:Ep; [|discriminate]. cbn [bind] in Hs. injection Hs as <-.
      apply HS; auto. apply I. now left. }
    apply (G names _ (incl_refl _)) in E; auto. intros s [= <-]. exact H0.
  Qed.

  Lemma wf_new names st : coll_new names = Ok st -> wf st.
  Proof.
    intros E. apply (coll_new_ind wf _ _ E).
    - constructor; cbn; try constructor; try easy. intros x Hx. apply path_last in Hx as (z & [] & _).
    - intros. now apply wf_add.
  Qed.

  Lemma wf_with_coll st c : wf st -> dkeys c = dkeys (c_coll st) -> wf (with_coll st c).
  Proof. intros [K ND NN N2 EE AC] E. constructor; cs; rewrite ?E; auto. Qed.
  Lemma wf_dset st n p q : wf st -> dget (c_coll st) n = Some q -> wf (with_coll st (dset (c_coll st) n p)).
  Proof. intros W E. apply wf_with_coll; auto. apply dkeys_dset_in. eapply dget_Some_key; eauto. Qed.

  (** *** update only touches parameter records *)
  Lemma store_keys (c : dict string param) k (v : option (E A)) : dkeys (store_one c k v) = dkeys c.
  Proof.
    unfold store_one. destruct v as [e|]; auto. destruct (dget c k) as [p|] eqn:G; auto.
    destruct (tofloat e); auto. destruct (setValue p (PFloat a)) as [p' [u|]]; auto.
    apply dkeys_dset_in. eapply dget_Some_key; eauto.
  Qed.
  Lemma stores_keys (vals : dict string (option (E A))) : forall c,
    dkeys (fold_left (fun c kv => store_one c (fst kv) (snd kv)) vals c) = dkeys c.
  Proof. induction vals as [|[k v] r IH]; cbn; intros c; auto. now rewrite IH, store_keys. Qed.
  Lemma update_frame ord fuel st : exists c, fst (update ord fuel st) = with_coll st c /\ dkeys c = dkeys (c_coll st).
  Proof.
    unfold update. destruct (root_loop _ _ _ _ _ _) as [vals|e]; cbn.
    - eexists. split; [reflexivity|apply stores_keys].
    - exists (c_coll st). destruct st. auto.
  Qed.
  Lemma set_loop_frame kvs : forall st, exists c, fst (set_loop st kvs) = with_coll st c /\ dkeys c = dkeys (c_coll st).
  Proof.
    induction kvs as [|[n v] r IH]; cbn; intros st.
    - exists (c_coll st). destruct st. auto.
    - destruct (dget (c_coll st) n) as [p|] eqn:G; [|exists (c_coll st); destruct st; auto].
      destruct (dmem (c_par st) n); auto.
      assert (dkeys (dset (c_coll st) n (fst (setValue p v))) = dkeys (c_coll st)) as K.
      { apply dkeys_dset_in. eapply dget_Some_key; eauto. }
      destruct (setValue p v) as [p' [u|e]]; cbn in K.
      + destruct (IH (with_coll st (dset (c_coll st) n p'))) as (c & -> & E). exists c. cs. split; [reflexivity|congruence].
      + eexists. split; [reflexivity|auto].
  Qed.
  Lemma set_pairs_frame ord fuel kvs st : exists c, fst (set_pairs ord fuel st kvs) = with_coll st c /\ dkeys c = dkeys (c_coll st).
  Proof.
    unfold set_pairs. destruct (set_loop_frame kvs st) as (c & Ec & K).
    destruct (set_loop st kvs) as [st' [u|e]]; cbn in Ec; subst.
    - destruct (update_frame ord fuel (with_coll st c)) as (c' & -> & K'). exists c'. cs. split; [reflexivity|congruence].
    - exists c. auto.
  Qed.
  Lemma with_coll_id st : with_coll st (c_coll st) = st.
  Proof. now destruct st. Qed.
  Lemma setValues_frame ord fuel a st : exists c, fst (setParameterValues ord fuel st a) = with_coll st c /\ dkeys c = dkeys (c_coll st).
  Proof.
    assert (exists c, st = with_coll st c /\ dkeys c = dkeys (c_coll st)) as D.
    { exists (c_coll st). now rewrite with_coll_id. }
    destruct a as [d|[|n [|n' ns]] vs]; cbn [setParameterValues]; [apply set_pairs_frame|exact D| |].
    - destruct vs; [exact D|]. destruct (Nat.eqb _ _); [apply set_pairs_frame|exact D].
    - destruct (Nat.eqb _ _); [apply set_pairs_frame|exact D].
  Qed.
  Lemma setValue_frame ord fuel n v st : exists c, fst (setParameterValue ord fuel st n v) = with_coll st c /\ dkeys c = dkeys (c_coll st).
  Proof.
    assert (exists c, st = with_coll st c /\ dkeys c = dkeys (c_coll st)) as D.
    { exists (c_coll st). now rewrite with_coll_id. }
    unfold setParameterValue. destruct (dget (c_coll st) n) as [p|] eqn:G; [|exact D].
    destruct (dmem _ _); [exact D|].
    assert (dkeys (dset (c_coll st) n (fst (setValue p v))) = dkeys (c_coll st)) as K.
    { apply dkeys_dset_in. eapply dget_Some_key; eauto. }
    destruct (setValue p v) as [p' [u|e]]; cbn in K.
    + destruct (update_frame ord fuel (with_coll st (dset (c_coll st) n p'))) as (c & -> & E). exists c. cs. split; [reflexivity|congruence].
    + eexists. split; [reflexivity|auto].
  Qed.
  Lemma on_param_frame st n f : exists c, fst (on_param st n f) = with_coll st c /\ dkeys c = dkeys (c_coll st).
  Proof.
    unfold on_param. destruct (dget (c_coll st) n) as [p|] eqn:G.
    - destruct (f p) as [p' r]. eexists. split; [reflexivity|]. apply dkeys_dset_in. eapply dget_Some_key; eauto.
    - exists (c_coll st). now rewrite with_coll_id.
  Qed.

  (** *** the reverse symbol map *)
  Lemma rev_map_fold (l : dict string string) : forall d s k,
    dget (fold_left (fun d kv => dset d (snd kv) (fst kv)) l d) s = Some k <->
    (exists l1 l2, l = l1 ++ (k, s) :: l2 /\ ~ In s (map snd l2)) \/ (~ In s (map snd l) /\ dget d s = Some k).
  Proof.
    induction l as [|[n t] r IH]; intros d s k; cbn [fold_left].
    - split; [intros H; right; split; [easy|auto]|]. intros [(l1 & l2 & E & _)|[_ H]]; auto. now destruct l1.
    - rewrite IH. cbn [fst snd]. rewrite dget_dset. cbn [map snd In]. split.
      + intros [(l1 & l2 & -> & N)|[N H]].
        * left. exists ((n, t) :: l1), l2. auto.
        * destruct (eqb_spec s t) as [->|D].
          -- injection H as <-. left. exists [], r. auto.
          -- right. split; auto. intros [|]; auto.
      + intros [(l1 & l2 & E & N)|[N H]].
        * destruct l1 as [|x l1]; cbn in E.
          -- injection E as -> -> ->. right. split; auto. now rewrite eqb_refl.
          -- injection E as E1 E2. subst. left. eauto.
        * right. split; [tauto|]. destruct (eqb_spec s t) as [->|D]; [tauto|auto].
  Qed.
  Lemma rev_map_spec st s k : dget (rev_map st) s = Some k <-> names_symbol st s k.
  Proof.
    unfold rev_map, names_symbol. rewrite rev_map_fold. split; [intros [|[_ H]]; auto; discriminate|auto].
  Qed.
  Lemma rev_map_total st s : In s (map snd (c_sym st)) -> exists k, dget (rev_map st) s = Some k.
  Proof.
    intros H. destruct (dget (rev_map st) s) eqn:G; eauto. exfalso.
    assert (forall k, ~ names_symbol st s k) as N. { intros k Hk. apply rev_map_spec in Hk. congruence. }
    clear G. unfold names_symbol in N. induction (c_sym st) as [|[n t] l IH]; cbn in *; [easy|].
    destruct (mem_In_dec s (map snd l)) as [Hl|Hl].
    - apply IH; auto. intros k (l1 & l2 & -> & E). apply (N k). exists ((n, t) :: l1), l2. auto.
    - destruct H as [->|]; [|auto]. apply (N n). exists [], l. auto.
  Qed.
  Lemma names_symbol_dget st s k : NoDup (dkeys (c_sym st)) -> names_symbol st s k -> dget (c_sym st) k = Some s.
  Proof. intros ND (l1 & l2 & E & _). apply In_dget; auto. rewrite E. apply in_elt. Qed.

  Lemma Forall2_imp {X Y} (P Q : X -> Y -> Prop) l l' : (forall x y, P x y -> Q x y) -> Forall2 P l l' -> Forall2 Q l l'.
  Proof. intros H. induction 1; constructor; auto. Qed.
  Lemma expr_names_spec st syms names : expr_names st syms = Ok names -> Forall2 (fun s n => names_symbol st s n) syms names.
  Proof.
    unfold expr_names. intros H. apply mapM_ok in H. eapply Forall2_imp; [|exact H]. cbn. intros s n Hn.
    destruct (dget (rev_map st) s) eqn:G; [|discriminate]. injection Hn as ->. now apply rev_map_spec.
  Qed.
  Lemma Forall2_In_l {X Y} (P : X -> Y -> Prop) l l' x : Forall2 P l l' -> In x l -> exists y, In y l' /\ P x y.
  Proof. induction 1; cbn; [easy|]. intros [<-|H1]; [eauto|]. destruct (IHForall2 H1) as (z & ? & ?). eauto. Qed.
  Lemma Forall2_In_r {X Y} (P : X -> Y -> Prop) l l' y : Forall2 P l l' -> In y l' -> exists x, In x l /\ P x y.
  Proof. induction 1; cbn; [easy|]. intros [<-|H1]; [eauto|]. destruct (IHForall2 H1) as (z & ? & ?). eauto. Qed.

  Lemma expr_names_keys st syms names : expr_names st syms = Ok names -> incl names (dkeys (c_sym st)).
  Proof.
    intros H n Hn. apply expr_names_spec in H. destruct (Forall2_In_r _ _ _ _ H Hn) as (s & _ & (l1 & l2 & E & _)).
    unfold dkeys. rewrite E. rewrite map_app. apply in_app_iff. right. now left.
  Qed.

  (** what addParameterisation does, in one lemma *)
  Lemma addP_cases ord st n e :
    addParameterisation ord st n e = (st, Err ValueError) /\ (~ registered st n \/ exists s, In s (ord [0] (free e)) /\ ~ In s (map snd (c_sym st))) \/
    exists names, registered st n /\ expr_names st (ord [0] (free e)) = Ok names /\
      let g := fold_left (fun g p => add_edge g p n) names (c_nodes st, c_edges st) in
      (is_dag (fst g) (snd g) = true /\ addParameterisation ord st n e =
         (mkcst (c_coll st) (c_sym st) (dset (c_par st) n (e, names)) (fst g) (snd g), Ok tt) \/
       is_dag (fst g) (snd g) = false /\ addParameterisation ord st n e = (st, Err AssertionError)).
  Proof.
    unfold addParameterisation. destruct (dmem (c_coll st) n) eqn:M; cbn [negb].
    - apply mem_In in M. destruct (expr_names st (ord [0] (free e))) as [names|x] eqn:EN.
      + right. exists names. split; [exact M|]. split; auto. cbv zeta. destruct (is_dag _ _); auto.
      + left. assert (x = ValueError /\ exists s, In s (ord [0] (free e)) /\ ~ In s (map snd (c_sym st))) as [-> X]; [|auto].
        revert EN. unfold expr_names. generalize (ord [0] (free e)). intros l. induction l as [|s l IH]; cbn; [discriminate|].
        destruct (dget (rev_map st) s) as [k|] eqn:G; cbn.
        * destruct (mapM _ l); cbn in *; [discriminate|]. intros [= ->]. destruct (IH eq_refl) as (-> & t & ? & ?). eauto 6.
        * intros [= <-]. split; auto. exists s. split; auto. intros H. destruct (rev_map_total _ _ H) as (k & Hk). congruence.
    - left. split; auto. left. now apply mem_nIn.
  Qed.

  Lemma wf_addP ord st n e : wf st -> wf (fst (addParameterisation ord st n e)).
  Proof.
    intros W. destruct (addP_cases ord st n e) as [[-> _]|(names & R & EN & [[D ->]|[_ ->]])]; cbn [fst]; auto.
    destruct W as [K ND NN N2 EE AC].
    assert (in_nodes _ _) as IN by exact (add_edges_in_nodes names n (c_nodes st, c_edges st) EE).
    constructor; cbn [c_coll c_sym c_nodes c_edges]; auto.
    - intros x Hx. apply add_edges_nodes. left. now apply NN.
    - now apply add_edges_NoDup.
    - now apply (is_dag_spec _ _ IN).
  Qed.
  Lemma remove_edges_incl names n : forall edges, incl (fst (remove_edges edges names n)) edges.
  Proof.
    induction names as [|p r IH]; cbn; intros edges x Hx; auto.
    destruct (mem (p, n) edges); auto. apply IH in Hx. now apply filter_In in Hx.
  Qed.
  Lemma wf_sub st par edges : wf st -> incl edges (c_edges st) -> wf (mkcst (c_coll st) (c_sym st) par (c_nodes st) edges).
  Proof.
    intros [K ND NN N2 EE AC] I. constructor; cs; auto.
    - intros a b Hab. apply EE, I, Hab.
    - eapply acyclic_incl; eauto.
  Qed.
  Lemma rmP_cases st n :
    rmParameterisation st n = (st, Err ValueError) \/
    exists e ns, registered st n /\ dget (c_par st) n = Some (e, ns) /\
      rmParameterisation st n =
        match remove_edges (c_edges st) ns n with
        | (edges, Err x) => (mkcst (c_coll st) (c_sym st) (c_par st) (c_nodes st) edges, Err x)
        | (edges, Ok _) => (mkcst (c_coll st) (c_sym st) (ddel (c_par st) n) (c_nodes st) edges, Ok tt)
        end.
  Proof.
    unfold rmParameterisation. destruct (dmem (c_coll st) n) eqn:M; cbn [negb]; auto.
    destruct (dget (c_par st) n) as [[e ns]|]; auto. right. exists e, ns. split; [now apply mem_In in M|auto].
  Qed.

  Lemma wf_step fuel st o : wf st -> wf (fst (cstep fuel st o)).
  Proof.
    intros W. destruct o as [ord []]; cbn [cstep snd fst].
    - unfold addParameter. destruct (dmem _ _); auto. destruct (param_default name); auto.
      cbn [fst]. now apply wf_add.
    - unfold rmParameter. destruct (dmem _ _); auto. cbn [fst]. destruct W as [K ND NN N2 EE AC].
      constructor; cs; auto.
      + rewrite !dkeys_ddel. now rewrite K.
      + now apply NoDup_ddel.
      + intros x Hx. apply In_dkeys_ddel in Hx as [_ Hx]. auto.
    - destruct (setValue_frame ord fuel name v st) as (c & -> & E). now apply wf_with_coll.
    - destruct (setValues_frame ord fuel a st) as (c & -> & E). now apply wf_with_coll.
    - now apply wf_addP.
    - unfold addParameterisationPrefactor. destruct (dget _ _) as [[e ns]|]; auto. cbn [fst].
      apply wf_sub; auto. apply incl_refl.
    - destruct (rmP_cases st name) as [->|(e & ns & _ & _ & ->)]; auto.
      pose proof (remove_edges_incl ns name (c_edges st)) as I.
      destruct (remove_edges _ _ _) as [edges [u|x]]; cbn [fst] in *; now apply wf_sub.
    - destruct (on_param_frame st name (fun p => setBounds p b)) as (c & -> & E). now apply wf_with_coll.
    - match goal with |- wf (fst (on_param _ _ ?f)) => destruct (on_param_frame st name f) as (c & -> & E) end.
      now apply wf_with_coll.
  Qed.
  Lemma wf_reach st : reach_any st -> wf st.
  Proof. induction 1; [eapply wf_new; eauto|now apply wf_step]. Qed.

  (** *** C07 *)
  Lemma set_loop_skip (kvs : list (string * pyval)) : forall st,
    set_loop st kvs = set_loop st (filter (fun kv => negb (dmem (c_par st) (fst kv) && dmem (c_coll st) (fst kv))) kvs).
  Proof.
    induction kvs as [|[n v] r IH]; intros st; [reflexivity|]. cbn [filter fst].
    destruct (dget (c_coll st) n) as [p|] eqn:G.
    - assert (dmem (c_coll st) n = true) as M by (apply dmem_dget; eauto). rewrite M, andb_true_r.
      destruct (dmem (c_par st) n) eqn:MP; cbn [negb]; cbn [set_loop]; rewrite G, MP; [apply IH|].
      destruct (setValue p v) as [p' [u|e]]; auto. rewrite IH. cbn [c_par c_coll with_coll].
      f_equal. apply filter_ext. intros [k w]. cbn [fst]. unfold dmem. f_equal. f_equal. f_equal.
      apply dkeys_dset_in. eapply dget_Some_key; eauto.
    - assert (dmem (c_coll st) n = false) as M by (now apply dmem_false). rewrite M, andb_false_r. cbn [negb set_loop].
      now rewrite G.
  Qed.

  (** *** C15 *)
  Lemma setValue_ok p v p' : setValue p v = (p', Ok tt) -> exists x, to_float v = Ok x /\ p' = with_value p (Some x).
  Proof.
    unfold setValue. destruct (valid_scalar v); [|discriminate]. cbn. destruct (to_float v) as [x|]; [|discriminate].
    destruct (fle _ _); [discriminate|]. destruct (fle _ _); [discriminate|]. intros [= <-]. eauto.
  Qed.
  Lemma setValue_err p v p' e : setValue p v = (p', Err e) -> p' = p.
  Proof.
    unfold setValue. destruct (valid_scalar v); [|cbn; congruence]. cbn. destruct (to_float v) as [x|]; [|congruence].
    destruct (fle _ _); [congruence|]. destruct (fle _ _); congruence.
  Qed.
  Lemma setValue_other p v w : snd (setValue (with_value p w) v) = snd (setValue p v).
  Proof.
    unfold setValue. destruct (valid_scalar v); auto. cbn. destruct (to_float v) as [x|]; auto.
    cbn. destruct (fle _ _); auto. destruct (fle _ _); auto.
  Qed.
  Lemma dmem_par st n : dmem (c_par st) n = true <-> parametric st n.
  Proof.
    rewrite dmem_dget. unfold parametric. split; [intros ([e ns] & H); eauto|intros (e & ns & H); eauto].
  Qed.
  Lemma par_dec st n : {parametric st n} + {~ parametric st n}.
  Proof.
    destruct (dmem (c_par st) n) eqn:M; [left; now apply dmem_par|right].
    intros C. apply dmem_par in C. congruence.
  Qed.
  Lemma dmem_par_false st n : dmem (c_par st) n = false <-> ~ parametric st n.
  Proof. rewrite <- dmem_par. destruct (dmem _ _); split; congruence. Qed.
  Definition entries_ok st (kvs : list (string * pyval)) : Prop :=
    forall n v, In (n, v) kvs -> exists p, dget (c_coll st) n = Some p /\ (~ parametric st n -> snd (setValue p v) = Ok tt).
  Definition last_given (kvs : list (string * pyval)) n v : Prop :=
    exists l1 l2, kvs = l1 ++ (n, v) :: l2 /\ ~ In n (map fst l2).
  Lemma set_loop_last kvs : forall st, entries_ok st kvs ->
    exists st', set_loop st kvs = (st', Ok tt) /\
      (forall n, parametric st n -> value_of st' n = value_of st n) /\
      (forall n, ~ In n (map fst kvs) -> value_of st' n = value_of st n) /\
      (forall n v, ~ parametric st n -> last_given kvs n v -> exists x, to_float v = Ok x /\ value_of st' n = Some x).
  Proof.
    induction kvs as [|[n v] r IH]; intros st AC; cbn [set_loop].
    - exists st. split; auto. split; auto. split; auto. intros n v _ (l1 & l2 & E & _). now destruct l1.
    - destruct (AC n v (or_introl eq_refl)) as (p & G & HP). rewrite G.
      destruct (dmem (c_par st) n) eqn:MP.
      + destruct (IH st) as (st' & E & H1 & H2 & H3); [intros k w H; apply AC; now right|].
        exists st'. split; auto. split; auto. split; [intros k Hk; apply H2; cbn in Hk; tauto|].
        intros k w NP (l1 & l2 & El & N). apply dmem_par in MP.
        destruct l1; [injection El as -> -> ->; tauto|injection El as _ ->]. apply H3; auto. exists l1, l2. auto.
      + apply dmem_par_false in MP. specialize (HP MP).
        destruct (setValue p v) as [p' [[]|x]] eqn:SV; [|discriminate].
        destruct (setValue_ok _ _ _ SV) as (x & Hx & ->).
        set (st1 := with_coll st (dset (c_coll st) n (with_value p (Some x)))).
        destruct (IH st1) as (st' & E & H1 & H2 & H3).
        { intros k w H. destruct (AC k w (or_intror H)) as (q & Gq & HQ). unfold st1; cs.
          rewrite dget_dset. destruct (eqb_spec k n) as [->|]; [|eauto].
          eexists. split; [reflexivity|]. intros NP. rewrite setValue_other.
          rewrite Gq in G. injection G as ->. apply HQ. exact NP. }
        assert (forall k, value_of st1 k = if eqb n k then Some x else value_of st k) as V1.
        { intros k. unfold value_of, st1; cs. rewrite dget_dset, (eqb_sym k n).
          destruct (eqb_spec n k) as [->|]; auto. }
        exists st'. split; auto. split; [|split].
        * intros k Pk. rewrite (H1 k Pk), V1. destruct (eqb_spec n k) as [<-|]; [contradiction|auto].
        * intros k Hk. cbn in Hk. rewrite H2 by tauto. rewrite V1. destruct (eqb_spec n k) as [<-|]; [tauto|auto].
        * intros k w NP (l1 & l2 & El & N). destruct l1; [injection El as -> -> ->|injection El as _ ->].
          -- exists x. split; auto. rewrite H2 by auto. rewrite V1. now rewrite eqb_refl.
          -- apply H3; auto. exists l1, l2. auto.
  Qed.
  (** [update] leaves alone every node without incoming edges. *)
  Lemma path_loop_keys ord fuel st sym x : forall path tag vals j vals', path_loop ord tag fuel st sym x vals j path = Ok vals' -> dkeys vals' = dkeys vals.
  Proof.
    induction path as [|d r IH]; cbn; intros tag vals j vals' H; [congruence|].
    destruct (dget vals d) as [cur|] eqn:G; [|discriminate].
    destruct (match cur with Some _ => _ | None => _ end) as [e|]; [|discriminate]. cbn in H.
    rewrite (IH _ _ _ _ H). apply dkeys_dset_in. eapply dget_Some_key; eauto.
  Qed.
  Lemma root_loop_keys ord fuel st : forall roots vals i vals', root_loop ord fuel st vals i roots = Ok vals' -> dkeys vals' = dkeys vals.
  Proof.
    induction roots as [|d r IH]; cbn [root_loop]; intros vals i vals' H; [congruence|].
    destruct (getSymbol st d); [|discriminate]. cbn [bind] in H.
    destruct (getParameterValue st d) as [[x|]|]; [| |discriminate]; cbn [bind] in H; [|eauto].
    destruct (path_loop _ _ _ _ _ _ _ _ _) as [v1|] eqn:P; [|discriminate]. cbn [bind] in H.
    rewrite (IH _ _ _ H). eapply path_loop_keys; eauto.
  Qed.
  Lemma store_other (c : dict string param) k (v : option (E A)) q : q <> k -> dget (store_one c k v) q = dget c q.
  Proof.
    intros N. unfold store_one. destruct v as [e|]; auto. destruct (dget c k) as [p|] eqn:G; auto.
    destruct (tofloat e); auto. destruct (setValue p (PFloat a)) as [p' [u|]]; auto. now apply dget_dset_neq.
  Qed.
  Lemma stores_other (vals : dict string (option (E A))) q : ~ In q (dkeys vals) -> forall c,
    dget (fold_left (fun c kv => store_one c (fst kv) (snd kv)) vals c) q = dget c q.
  Proof.
    induction vals as [|[k v] r IH]; cbn [fold_left fst snd]; intros N c; auto.
    change (~ In q (k :: dkeys r)) in N. cbn [In] in N. rewrite IH by tauto. apply store_other. intros ->. tauto.
  Qed.
  Lemma map_keys_None (l : list string) : dkeys (map (fun k => (k, @None (E A))) l) = l.
  Proof. unfold dkeys. rewrite map_map. cbn. apply map_id. Qed.
  Lemma update_roots ord fuel st q : good_ord ord -> (forall a, ~ In (a, q) (c_edges st)) ->
    dget (c_coll (fst (update ord fuel st))) q = dget (c_coll st) q.
  Proof.
    intros GO H. unfold update. destruct (root_loop _ _ _ _ _ _) as [vals|e] eqn:R; cs; auto.
    apply stores_other. rewrite (root_loop_keys _ _ _ _ _ _ _ R), map_keys_None.
    intros C. apply filter_In in C as [_ C]. apply has_in_spec in C as (a & Ha). exact (H _ Ha).
  Qed.

  (** *** C16 *)
  Lemma default_symbol_inj n m s : default_symbol n = Ok s -> default_symbol m = Ok s -> n = m.
  Proof.
    destruct n as [|c r], m as [|d t]; cbn; try discriminate. intros [= <-] [= -> E]. f_equal.
    revert t E. induction r as [|x r IH]; intros [|y t] E; cbn in E; auto.
    - injection E as E1 E2. destruct t; discriminate.
    - injection E as E1 E2. destruct r; discriminate.
    - injection E as -> E. f_equal. auto.
  Qed.
  Lemma find_symbol_sound l s n : NoDup (dkeys l) -> find_symbol l s = Some n -> dget l n = Some s.
  Proof.
    induction l as [|[k v] r IH]; cbn [find_symbol]; [discriminate|]. intros ND. change (NoDup (k :: dkeys r)) in ND.
    inversion ND; subst. cbn [dget]. destruct (eqb_spec s v) as [->|].
    - intros [= ->]. now rewrite eqb_refl.
    - intros H. destruct (eqb_spec n k) as [->|]; [|auto]. exfalso. apply H1. apply (dget_Some_key _ _ _ (IH H2 H)).
  Qed.
  Lemma find_symbol_None l s : find_symbol l s = None <-> ~ In s (map snd l).
  Proof.
    induction l as [|[k v] r IH]; cbn [find_symbol map snd In]; [tauto|].
    destruct (eqb_spec s v) as [->|N]; [split; [discriminate|tauto]|]. rewrite IH. intuition.
  Qed.
  Lemma find_symbol_inj l sg s n : NoDup (dkeys l) -> (forall a t, dget l a = Some t -> t = sg a) ->
    (forall a b, sg a = sg b -> a = b) -> (find_symbol l s = Some n <-> dget l n = Some s).
  Proof.
    intros ND HS INJ. split; [now apply find_symbol_sound|]. intros H.
    destruct (find_symbol l s) as [m|] eqn:F.
    - apply find_symbol_sound in F; auto. f_equal. apply INJ. rewrite <- (HS _ _ F). now apply HS.
    - exfalso. apply find_symbol_None in F. apply F. apply dget_In in H. apply (in_map snd) in H. exact H.
  Qed.
End P.
