(** History-level forms of C06-C09, C13-C15 and helpers for the examples. *)
From Coq Require Import List Bool String Ascii ZArith Lia PeanoNat SpecFloat Permutation Relations.
From Verif Require Import Prelude PreludeFacts Float Param Expr ExprProofs Sweep SweepProofs SweepResultProofs
  Coll CollGraph CollSpec CollProofs CollExpand CollUpdate CollMain CollFinal.
Import ListNotations.
Open Scope list_scope.

(** the two ways of giving the entries [kvs] to setParameterValues *)
Definition gives (a : svargs) (kvs : list (string * pyval)) : Prop :=
  a = SVDict kvs \/ (kvs <> [] /\ a = SVPos (map fst kvs) (map snd kvs)).

Lemma path_xx_dec edges x : {path edges x x} + {~ path edges x x}.
Proof.
  set (l := filter (fun a => eqb a x || mem x (descendants edges a)) (succs edges [x])).
  assert (forall a, In a l <-> In (x, a) edges /\ (a = x \/ path edges a x)) as H.
  { intros a. unfold l. rewrite filter_In, succs_In, orb_true_iff, mem_In, descendants_In. split.
    - intros [(y & [<-|[]] & Hy) H]. split; auto. destruct H as [H|[H _]]; auto. left. now apply (proj1 (eqb_eq _ _)) in H.
    - intros [Hy H]. split; [exists x; split; [now left|auto]|]. destruct (eqb_dec a x) as [->|N]; [left; apply eqb_refl|].
      right. destruct H; [contradiction|]. split; auto. }
  destruct l as [|a r] eqn:El.
  - right. intros P. apply clos_first in P as (y & Hy & D). apply (in_nil (a := y)). apply H. split; [exact Hy|].
    destruct D as [D|D]; auto.
  - left. destruct (proj1 (H a) (or_introl eq_refl)) as [Ha [->|P]]; [now apply t_step|].
    eapply t_trans; [apply t_step; exact Ha|exact P].
Qed.
Lemma cycle_dec nodes edges : in_nodes nodes edges -> (exists x, path edges x x) \/ acyclic edges.
Proof.
  intros HN.
  assert (forall l, (exists x, In x l /\ path edges x x) \/ forall x, In x l -> ~ path edges x x) as H.
  { induction l as [|y l [(x & Hx & P)|IH]].
    - right. intros x [].
    - left. exists x. split; [now right|auto].
    - destruct (path_xx_dec edges y) as [P|N]; [left; exists y; split; [now left|auto]|]. right. intros x [<-|Hx]; auto. }
  destruct (H nodes) as [(x & _ & P)|N]; [eauto|]. right. intros x P. apply (N x); auto.
  destruct (path_last _ _ _ P) as (z & Hz & _). exact (proj2 (HN _ _ Hz)).
Qed.

Section L.
  Context {A : alg}.
  Implicit Types st : cst A.

  (** *** C06 *)
  Lemma C06_registries st : reach_any st ->
    dkeys (c_coll st) = dkeys (c_sym st) /\ NoDup (dkeys (c_coll st)) /\ incl (dkeys (c_coll st)) (c_nodes st).
  Proof. intros R. apply wf_reach in R. split; [apply R|]. split; [apply R|apply R]. Qed.
  Lemma C06_existing st n s : registered st n -> addParameter st n s = (st, Ok tt).
  Proof. intros R. unfold addParameter, dmem. apply mem_In in R. now rewrite R. Qed.
  Lemma C06_fresh st n s st' : ~ registered st n -> addParameter st n s = (st', Ok tt) ->
    registered st' n /\ getParameterValue st' n = Ok None /\
    (match s with Some x => getSymbol st' n = Ok x | None => getSymbol st' n = default_symbol n end) /\
    In n (c_nodes st') /\ (forall a b, In (a, b) (c_edges st') <-> In (a, b) (c_edges st)) /\
    (forall m, m <> n -> dget (c_coll st') m = dget (c_coll st) m /\ getSymbol st' m = getSymbol st m) /\
    (forall m, getParameterisationParameters st' m = getParameterisationParameters st m).
  Proof.
    intros N. unfold addParameter, dmem. apply mem_nIn in N. rewrite N.
    destruct (param_default n) as [p|] eqn:P; [|discriminate]. intros [= <-].
    apply param_default_name in P as [PV PS]. unfold registered, getParameterValue, getSymbol; cs.
    rewrite !dget_dset_eq. split; [eapply dget_Some_key; apply dget_dset_eq|]. split; [destruct s; cbn; unfold getValue; cbn; now rewrite PV|].
    split; [destruct s; auto|]. split; [apply add_node_In; now right|]. split; [reflexivity|]. split; [|reflexivity].
    intros m Hm. now rewrite !dget_dset_neq by auto.
  Qed.
  Lemma C06_reject st n s st' e : addParameter st n s = (st', Err e) -> st' = st.
  Proof. unfold addParameter. destruct (dmem _ _); [discriminate|]. destruct (param_default n); congruence. Qed.

  (** *** C07 *)
  Lemma C07_one st ord fuel n v : registered st n -> parametric st n -> setParameterValue ord fuel st n v = (st, Ok tt).
  Proof.
    intros R P. unfold setParameterValue. apply dkeys_dget in R as (p & ->). apply dmem_par in P. now rewrite P.
  Qed.
  Definition skip st (kvs : list (string * pyval)) := filter (fun kv => negb (dmem (c_par st) (fst kv) && dmem (c_coll st) (fst kv))) kvs.
  Lemma skip_spec st kvs : 
    (forall n v, In (n, v) (skip st kvs) <-> In (n, v) kvs /\ ~ (parametric st n /\ registered st n)).
  Proof.
    intros n v. unfold skip. rewrite filter_In, negb_true_iff, andb_false_iff. cbn [fst].
    rewrite dmem_par_false. unfold registered. unfold dmem. rewrite mem_nIn.
    destruct (par_dec st n), (mem_In_dec n (dkeys (c_coll st))); tauto.
  Qed.
  Lemma set_pairs_skip st ord fuel kvs : set_pairs ord fuel st kvs = set_pairs ord fuel st (skip st kvs).
  Proof. unfold set_pairs. now rewrite set_loop_skip. Qed.
  Lemma combine_fst_snd {X Y} (l : list (X * Y)) : combine (map fst l) (map snd l) = l.
  Proof. induction l as [|[a b] r IH]; cbn; f_equal; auto. Qed.
  Lemma set_pos st ord fuel kvs : kvs <> [] -> setParameterValues ord fuel st (SVPos (map fst kvs) (map snd kvs)) = set_pairs ord fuel st kvs.
  Proof.
    intros N. unfold setParameterValues. destruct kvs as [|[k v] r]; [easy|].
    assert (Nat.eqb (List.length (map fst ((k, v) :: r))) (List.length (map snd ((k, v) :: r))) = true) as E.
    { apply Nat.eqb_eq. now rewrite !map_length. }
    rewrite E, combine_fst_snd. cbn [map fst snd]. destruct (map fst r); reflexivity.
  Qed.
  Lemma gives_pairs st ord fuel a kvs : gives a kvs -> setParameterValues ord fuel st a = set_pairs ord fuel st kvs.
  Proof. intros [->|[N ->]]; [reflexivity|now apply set_pos]. Qed.
  Lemma C07_many st ord fuel a a' kvs : gives a kvs -> gives a' (skip st kvs) ->
    setParameterValues ord fuel st a = setParameterValues ord fuel st a'.
  Proof. intros H H'. rewrite (gives_pairs _ _ _ _ _ H), (gives_pairs _ _ _ _ _ H'). apply set_pairs_skip. Qed.

  (** *** C08 *)
  Definition new_edges st (name : string) (e : E A) (a b : string) : Prop :=
    In (a, b) (c_edges st) \/ (b = name /\ exists s, In s (free e) /\ names_symbol st s a).
  Lemma clos_iff {X} (P Q : X -> X -> Prop) : (forall a b, P a b <-> Q a b) -> forall a b, clos_trans X P a b <-> clos_trans X Q a b.
  Proof. intros H a b. split; (induction 1; [apply t_step; now apply H|eapply t_trans; eauto]). Qed.
  Lemma C08_iff st ord name e : reach_any st -> good_ord ord ->
    (snd (addParameterisation ord st name e) = Err AssertionError <->
      registered st name /\ (forall s, In s (free e) -> exists n, names_symbol st s n) /\
      exists x, clos_trans string (new_edges st name e) x x) /\
    (snd (addParameterisation ord st name e) <> Ok tt -> fst (addParameterisation ord st name e) = st).
  Proof.
    intros RE GO. apply wf_reach in RE. destruct (addP_cases ord st name e) as [[E X]|(names & R & EN & X)].
    - rewrite E. cbn [fst snd]. split; [|auto]. split; [discriminate|]. intros (R & HS & _). exfalso. destruct X as [N|(s & Hs & N)]; auto.
      apply (Permutation_in _ (GO _ _)) in Hs. destruct (HS s Hs) as (n & H). apply names_symbol_dget in H.
      + apply N. apply dget_In in H. apply (in_map snd) in H. exact H.
      + rewrite <- (wf_keys _ RE). apply (wf_nodup _ RE).
    - cbv zeta in X.
      set (g := fold_left (fun g p => add_edge g p name) names (c_nodes st, c_edges st)) in *.
      assert (forall a b, In (a, b) (snd g) <-> new_edges st name e a b) as NE.
      { intros a b. unfold g. rewrite add_edges_In. cbn [snd]. unfold new_edges. apply expr_names_spec in EN. split.
        - intros [H|(p & H & [= -> ->])]; auto. right. split; auto. destruct (Forall2_In_r _ _ _ _ EN H) as (s & Hs & NS). exists s. split; auto.
          now apply (Permutation_in _ (GO [0] (free e))).
        - intros [H|[-> (s & Hs & NS)]]; auto. right. exists a. split; auto.
          apply (Permutation_in _ (Permutation_sym (GO [0] (free e)))) in Hs.
          destruct (Forall2_In_l _ _ _ _ EN Hs) as (n & Hn & NS').
          apply rev_map_spec in NS, NS'. congruence. }
      assert (is_dag (fst g) (snd g) = true <-> acyclic (snd g)) as DG.
      { apply is_dag_spec. unfold g. apply add_edges_in_nodes. exact (wf_edges _ RE). }
      assert (acyclic (snd g) <-> ~ exists x, clos_trans string (new_edges st name e) x x) as AC.
      { unfold acyclic, path. split.
        - intros H (x & Hx). apply (H x). revert Hx. apply clos_iff. intros a b. unfold arrow. now rewrite NE.
        - intros H x Hx. apply H. exists x. revert Hx. apply clos_iff. intros a b. unfold arrow. now rewrite NE. }
      destruct X as [[D E]|[D E]]; rewrite E; cbn [fst snd].
      + split; [|congruence]. split; [discriminate|]. intros (_ & _ & H). exfalso. apply DG, AC in D. auto.
      + split; auto. split; auto. intros _. split; auto. split.
        * intros s Hs. apply expr_names_spec in EN. apply (Permutation_in _ (Permutation_sym (GO [0] (free e)))) in Hs.
          destruct (Forall2_In_l _ _ _ _ EN Hs) as (n & Hn & NS'). eauto.
        * destruct (cycle_dec (fst g) (snd g)) as [(x & Hx)|H].
          -- unfold g. apply add_edges_in_nodes. exact (wf_edges _ RE).
          -- exists x. revert Hx. apply clos_iff. intros a b. unfold arrow. now rewrite NE.
          -- apply DG in H. congruence.
  Qed.
  Lemma C08_acyclic st : reach_any st -> acyclic (c_edges st).
  Proof. intros R. apply (wf_reach _ R). Qed.

  (** *** C09 *)
  Context (LAW : alg_ok A).
  Variable sg : string -> string.
  Hypothesis INJ : forall a b, sg a = sg b -> a = b.
  Lemma C09_lemma st : reach_rm sg st -> exists n, forall ord fuel, good_ord ord -> n <= fuel ->
    (forall tag name expand, getParametricExpression ord tag fuel st name expand <> Err Diverges) /\
    (forall name v, snd (setParameterValue ord fuel st name v) <> Err Diverges) /\
    (forall a, snd (setParameterValues ord fuel st a) <> Err Diverges).
  Proof.
    intros R. apply (tinv_reach LAW) in R. exists (enough st). intros ord fuel GO L. split; [|split].
    - intros tag name b. eapply (getP_terminates LAW); eauto.
    - intros name v. eapply (setValue_terminates LAW); eauto.
    - intros a. eapply (setValues_terminates LAW); eauto.
  Qed.
  (** more fuel never changes a result *)
  Lemma set_pairs_mono ord st fuel fuel' kvs : fuel <= fuel' -> snd (set_pairs ord fuel st kvs) <> Err Diverges ->
    set_pairs ord fuel' st kvs = set_pairs ord fuel st kvs.
  Proof.
    unfold set_pairs. destruct (set_loop st kvs) as [st' [u|e]]; auto. apply update_mono.
  Qed.
  Lemma cstep_mono st o fuel fuel' : fuel <= fuel' -> snd (cstep fuel st o) <> Err Diverges -> cstep fuel' st o = cstep fuel st o.
  Proof.
    intros L. unfold cstep. destruct (snd o); auto.
    - unfold setParameterValue. destruct (dget (c_coll st) name); auto. destruct (dmem _ _); auto.
      destruct (setValue p v) as [p' [u|e]]; auto. now apply update_mono.
    - unfold setParameterValues. destruct a as [d|ns vs]; [now apply set_pairs_mono|].
      destruct ns as [|n [|m ns]]; auto; [destruct vs|]; auto; (destruct (Nat.eqb _ _); [now apply set_pairs_mono|auto]).
  Qed.

  (** *** C13 *)
  Lemma C13_lemma st ow ord name e st1 : reach sg st ow -> good_ord ord -> addParameterisation ord st name e = (st1, Ok tt) ->
    (exists ns, getParameterisationParameters st1 name = Ok ns /\ forall n, In n ns <-> registered st n /\ In (sg n) (free e)) /\
    getParametricExpression ord [] 0 st1 name false = Ok e /\
    (forall m, m <> name -> getParameterisationParameters st1 m = getParameterisationParameters st m /\
                            forall o t f, getParametricExpression o t f st1 m false = getParametricExpression o t f st m false) /\
    c_coll st1 = c_coll st.
  Proof.
    intros RE GO X. apply (ginv_reach LAW) in RE.
    destruct (addP_cases ord st name e) as [[E _]|(names & R & EN & Y)]; [rewrite E in X; discriminate|]. cbv zeta in Y.
    destruct Y as [[_ E]|[_ E]]; rewrite E in X; [|discriminate]. injection X as <-.
    unfold getParameterisationParameters, getParametricExpression; cs. rewrite dget_dset_eq. split; [|split; [|split]]; auto.
    - exists names. split; auto. apply expr_names_spec in EN.
      pose proof (ti_wf _ _ (gi_t _ _ _ RE)) as W.
      assert (NoDup (dkeys (c_sym st))) as ND by (rewrite <- (wf_keys _ W); apply (wf_nodup _ W)).
      intros n. split.
      + intros Hn. destruct (Forall2_In_r _ _ _ _ EN Hn) as (s & Hs & NS). apply (Permutation_in _ (GO [0] (free e))) in Hs.
        apply names_symbol_dget in NS; auto. apply (sym_reg sg st ow RE) in NS as [Rn ->]. auto.
      + intros [Rn Hs]. apply (Permutation_in _ (Permutation_sym (GO [0] (free e)))) in Hs.
        destruct (Forall2_In_l _ _ _ _ EN Hs) as (m & Hm & NS). apply names_symbol_dget in NS; auto.
        apply (sym_reg sg st ow RE) in NS as [_ H]. apply INJ in H. now subst.
    - intros m Hm. rewrite dget_dset_neq by auto. auto.
  Qed.

  (** *** C15 *)
  Lemma C15_lemma st ow kvs a : reach sg st ow -> gives a kvs -> entries_ok st kvs ->
    exists n, forall ord fuel, good_ord ord -> n <= fuel -> exists st', setParameterValues ord fuel st a = (st', Ok tt) /\
      (forall q v, independent st q -> last_given kvs q v -> exists x, to_float v = Ok x /\ getParameterValue st' q = Ok (Some x)) /\
      (forall q, independent st q -> ~ In q (map fst kvs) -> getParameterValue st' q = getParameterValue st q).
  Proof.
    intros RE GV EO. apply (ginv_reach LAW) in RE. exists (enough st). intros ord fuel GO L.
    rewrite (gives_pairs _ _ _ _ _ GV). unfold set_pairs.
    destruct (set_loop_last kvs st EO) as (st1 & E & _ & H2 & H3). rewrite E.
    destruct (set_loop_frame kvs st) as (c & Ec & K). rewrite E in Ec. cbn [fst] in Ec.
    assert (ginv sg st1 ow) as GI1 by (rewrite Ec; now apply ginv_coll).
    assert (enough st1 <= fuel) as L1 by (rewrite Ec, enough_coll; exact L).
    destruct (update_value LAW sg st1 ow GI1 INJ ord fuel GO L1) as (c' & E1 & K' & _).
    exists (with_coll st1 c'). split; auto.
    assert (forall q, independent st q -> dget c' q = dget (c_coll st1) q) as UR.
    { intros q [_ Nq]. pose proof (update_roots ord fuel st1 q GO) as U. rewrite E1 in U. cs. apply U.
      apply (nonpar_root sg st1 ow GI1). rewrite Ec. exact Nq. }
    assert (forall q, independent st q -> getParameterValue (with_coll st1 c') q = Ok (value_of st1 q)) as GVq.
    { intros q Iq. unfold getParameterValue, value_of; cs. rewrite (UR q Iq).
      assert (In q (dkeys (c_coll st1))) as R by (rewrite Ec; cs; rewrite K; apply Iq).
      apply dkeys_dget in R as (p & ->). reflexivity. }
    split.
    - intros q v Iq LG. destruct (H3 q v (proj2 Iq) LG) as (x & Hx & Vx). exists x. split; auto. rewrite GVq by auto. now rewrite Vx.
    - intros q Iq N. rewrite GVq by auto. rewrite (H2 q N). unfold getParameterValue, value_of.
      destruct Iq as [R _]. apply dkeys_dget in R as (p & ->). reflexivity.
  Qed.

  (** *** C14 *)
  Lemma forget_set_loop x kvs : forall st, ~ In x (map fst kvs) ->
    set_loop (forget x st) kvs = (forget x (fst (set_loop st kvs)), snd (set_loop st kvs)).
  Proof.
    induction kvs as [|[n v] r IH]; intros st N; cbn [set_loop]; auto. cbn [map fst In] in N.
    unfold forget at 1 2; cs. rewrite dget_ddel. destruct (eqb_spec n x) as [->|Nx]; [tauto|].
    destruct (dget (c_coll st) n) as [p|]; auto. destruct (dmem (c_par st) n); [apply IH; tauto|].
    destruct (setValue p v) as [p' [u|e]].
    - rewrite <- IH by tauto. f_equal. unfold with_coll, forget; cs. now rewrite ddel_dset_other.
    - cbn [fst snd]. f_equal. unfold with_coll, forget; cs. now rewrite ddel_dset_other.
  Qed.
  Lemma C14_lemma st x sx q st1 ord fuel : reach_rm sg st -> rmParameter st x = (st1, Ok tt) ->
    getSymbol st x = Ok sx -> (forall p e, getParametricExpression ord [] fuel st p false = Ok e -> ~ In sx (free e)) ->
    depends st x q -> good_ord ord ->
    (forall n v, n <> x -> setParameterValue ord fuel st1 n v =
       (fst (rmParameter (fst (setParameterValue ord fuel st n v)) x), snd (setParameterValue ord fuel st n v))) /\
    (forall a kvs, gives a kvs -> ~ In x (map fst kvs) -> setParameterValues ord fuel st1 a =
       (fst (rmParameter (fst (setParameterValues ord fuel st a)) x), snd (setParameterValues ord fuel st a))).
  Proof.
    intros RE RM GS UN (ns & D & Hq) GO. apply (tinv_reach LAW) in RE. pose proof (ti_wf _ _ RE) as W.
    unfold getSymbol in GS. destruct (dget (c_sym st) x) as [s|] eqn:SX; [|discriminate]. injection GS as ->.
    unfold rmParameter in RM. destruct (dmem (c_coll st) x) eqn:M; [|discriminate]. injection RM as <-.
    unfold getParameterisationParameters in D. destruct (dget (c_par st) x) as [[e0 ns']|] eqn:G; [|discriminate]. injection D as ->.
    assert (has_in (c_edges st) x = true) as HI by (apply has_in_spec; exists q; now apply (ti_par _ _ RE _ _ _ G)).
    assert (forall p e ns, dget (c_par st) p = Some (e, ns) -> ~ In sx (free e)) as UNU.
    { intros p e ns'' Gp. apply (UN p e). unfold getParametricExpression. now rewrite Gp. }
    assert (forall s, (exists c, s = with_coll st c /\ dkeys c = dkeys (c_coll st)) -> fst (rmParameter s x) = forget x s) as RF.
    { intros s (c & -> & K). unfold rmParameter, dmem; cs. rewrite K. unfold dmem in M. now rewrite M. }
    change (mkcst (ddel (c_coll st) x) (ddel (c_sym st) x) (c_par st) (c_nodes st) (c_edges st)) with (forget x st).
    split.
    - intros n v N. destruct (setValue_frame ord fuel n v st) as (c & Ec & K). rewrite RF by eauto.
      eapply (setValue_rm LAW); eauto.
    - intros a kvs GV N. rewrite !(gives_pairs _ _ _ _ _ GV).
      destruct (set_pairs_frame ord fuel kvs st) as (c & Ec & K). rewrite RF by eauto.
      unfold set_pairs. rewrite forget_set_loop by auto. destruct (set_loop_frame kvs st) as (c1 & Ec1 & K1).
      destruct (set_loop st kvs) as [s1 [u|e]]; cbn [fst snd] in *; auto. subst s1.
      eapply (update_rm LAW); eauto.
  Qed.
End L.

(** *** examples *)
Definition dsg (n : string) : string := match default_symbol n with Ok s => s | Err _ => ""%string end.
Lemma dsg_inj a b : dsg a = dsg b -> a = b.
Proof.
  unfold dsg. destruct (default_symbol a) as [s|] eqn:EA, (default_symbol b) as [t|] eqn:EB.
  - intros ->. eapply default_symbol_inj; eauto.
  - intros ->. destruct a; discriminate.
  - intros <-. destruct b; discriminate.
  - destruct a, b; try discriminate. reflexivity.
Qed.
Definition idord : ordr := fun _ l => l.
Definition revord : ordr := fun _ l => rev l.
Lemma idord_good : good_ord idord. Proof. intros t l. apply Permutation_refl. Qed.
Lemma revord_good : good_ord revord. Proof. intros t l. apply Permutation_sym, Permutation_rev. Qed.
Section Ex.
  Context {A : alg}.
  Definition start (names : list string) : cst A := match coll_new names with Ok st => st | Err _ => mkcst [] [] [] [] [] end.
  Definition started (names : list string) : bool := match @coll_new A names with Ok _ => true | Err _ => false end.
  Lemma started_ok names : started names = true -> exists st : cst A, coll_new names = Ok st.
  Proof. unfold started. destruct (coll_new names); [eauto|discriminate]. Qed.
  (** a history in which all sets are iterated in the order [idord] *)
  Definition hist (names : list string) (ops : list (cop A)) : cst A := crun 50 (start names) (map (pair idord) ops).
  Lemma hist_any names ops : started names = true -> reach_any (hist names ops).
  Proof.
    intros B. apply started_ok in B as (st & E). unfold hist, start. rewrite E. assert (reach_any st) as R by (econstructor; eauto). clear E.
    unfold crun. revert st R. induction ops as [|o r IH]; intros st R; cbn [map fold_left]; auto.
    apply IH. apply reach_any_op; auto. apply idord_good.
  Qed.
  Fixpoint ops_ok sg (st : cst A) ow ops : Prop :=
    match ops with
    | [] => True
    | o :: r => op_ok sg st ow o /\ ops_ok sg (fst (cstep 50 st (idord, o))) (op_ow st ow o) r
    end.
  Fixpoint ops_ow (st : cst A) ow ops : list string :=
    match ops with
    | [] => ow
    | o :: r => ops_ow (fst (cstep 50 st (idord, o))) (op_ow st ow o) r
    end.
  Lemma hist_reach sg names ops ow : started names = true -> (forall n, In n names -> default_symbol n = Ok (sg n)) ->
    ops_ok sg (start names) [] ops -> ops_ow (start names) [] ops = ow -> reach sg (hist names ops) ow.
  Proof.
    intros B HS OK <-. apply started_ok in B as (st & E). unfold hist, start in *. rewrite E in *.
    assert (reach sg st []) as R by (econstructor; eauto). clear E HS. revert st R OK. generalize (@nil string).
    unfold crun. induction ops as [|o r IH]; intros ow st R OK; cbn [map fold_left ops_ow] in *; auto. destruct OK as [O1 O2].
    apply IH; auto. apply (reach_op sg 50 st ow (idord, o)); auto. apply idord_good.
  Qed.
  Fixpoint ops_ok_rm sg (st : cst A) ops : Prop :=
    match ops with
    | [] => True
    | o :: r => op_ok_rm sg st o /\ ops_ok_rm sg (fst (cstep 50 st (idord, o))) r
    end.
  Lemma hist_reach_rm sg names ops : started names = true -> (forall n, In n names -> default_symbol n = Ok (sg n)) ->
    ops_ok_rm sg (start names) ops -> reach_rm sg (hist names ops).
  Proof.
    intros B HS OK. apply started_ok in B as (st & E). unfold hist, start in *. rewrite E in *.
    assert (reach_rm sg st) as R by (econstructor; eauto). clear E HS. revert st R OK.
    unfold crun. induction ops as [|o r IH]; intros st R OK; cbn [map fold_left] in *; auto. destruct OK as [O1 O2].
    apply IH; auto. apply (reach_rm_op sg 50 st (idord, o)); auto. apply idord_good.
  Qed.
End Ex.
(** goals [reach dsg (hist names ops) ow] for literal histories *)
Ltac reach_lit :=
  solve [apply hist_any; vm_compute; reflexivity] ||
  ((apply hist_reach || apply hist_reach_rm);
  [vm_compute; reflexivity|
   let n := fresh in let H := fresh in intros n H; cbn in H; repeat (destruct H as [<-|H]; [reflexivity|]); destruct H|..]).
Ltac oks := repeat match goal with |- True => exact I | |- _ /\ _ => split | |- _ => progress cbn [ops_ok ops_ok_rm op_ok op_ok_rm app] end.
(** *** a prefactor that contains the parameter's own symbol *)
Definition w9 : cst tree_alg :=
  hist ["a"; "b"]%string [CAddP "b"%string (TSym (dsg "a") : E tree_alg); CPre "b"%string (TSym (dsg "b") : E tree_alg)].
Lemma w9_diverges ord tag fuel : good_ord ord -> getParametricExpression ord tag fuel w9 "b" true = Err Diverges.
Proof.
  intros GO. assert (c_par w9 = [("b"%string, (TMul (TSym (dsg "a")) (TSym (dsg "b")) : E tree_alg, ["a"%string]))]) as EP by (vm_compute; reflexivity).
  assert (c_sym w9 = [("a"%string, dsg "a"); ("b"%string, dsg "b")]) as ES by (vm_compute; reflexivity).
  unfold getParametricExpression. rewrite EP. cbn [dget eqb EqB_string String.eqb Ascii.eqb Bool.eqb].
  assert (forall q t ns, dget (c_par w9) q = Some (t, ns) -> q = "b"%string /\ t = TMul (TSym (dsg "a")) (TSym (dsg "b"))) as HP.
  { intros q t ns. rewrite EP. cbn [dget]. destruct (eqb_spec q "b"%string); [|discriminate]. intros [= <- <-]. auto. }
  assert (forall s, In s (@free tree_alg (TMul (TSym (dsg "a")) (TSym (dsg "b")))) -> In s (map snd (c_sym w9))) as HF.
  { intros s. rewrite ES. vm_compute. tauto. }
  match goal with |- expand_loop ?o ?t ?s ?f ?k ?b = _ => 
    pose proof (expand_err tree_alg_ok o t s GO) as X; specialize (X ltac:(intros q t0 ns G; apply HP in G as [_ ->]; exact HF) f k b HF);
    pose proof (expand_ind (fun e : E tree_alg => In (dsg "b") (free e)) o t s GO) as Y end.
  destruct (expand_loop _ _ _ _ _ _) as [F|e] eqn:L; [exfalso|now subst].
  destruct (Y) with (2 := L) as [Y1 Y2].
  - intros b s q t ns Hb Hs Fs G. apply HP in G as [-> ->].
    assert (s = dsg "b") as -> by (apply find_symbol_sound in Fs; [rewrite ES in Fs; vm_compute in Fs; injection Fs as <-; reflexivity|rewrite ES; repeat constructor; cbn; intuition discriminate]).
    apply (plain_free2 _ tree_alg_plain); auto. vm_compute. tauto.
  - vm_compute. tauto.
  - destruct (Y2 _ Y1) as (q & Fq & Nq). apply Nq. assert (q = "b"%string) as ->.
    { rewrite ES in Fq. vm_compute in Fq. congruence. }
    rewrite <- dmem_par. rewrite EP. reflexivity.
Qed.
Lemma pair_res {S B} (x : S * res B) r : snd x = r -> x = (fst x, r).
Proof. destruct x. cbn. now intros ->. Qed.
