(** Lemmas closing C10-C14 and C18. *)
From Coq Require Import List Bool String Ascii ZArith Lia PeanoNat SpecFloat Permutation Relations.
From Verif Require Import Prelude PreludeFacts Float Param Expr Sweep SweepProofs SweepResultProofs
  Coll CollGraph CollSpec CollProofs CollExpand CollUpdate.
Import ListNotations.
Open Scope list_scope.

Section M.
  Context {A : alg} (LAW : alg_ok A).
  Implicit Types st : cst A.

  (** *** more fuel does not change a finished run *)
  Definition done {X} (x y : res X) : Prop := x <> Err Diverges -> y = x.
  Lemma expand_mono ord tag st : forall fuel fuel' k base, fuel <= fuel' ->
    done (expand_loop ord tag st fuel k base) (expand_loop ord tag st fuel' k base).
  Proof.
    induction fuel as [|fuel IH]; intros fuel' k base L D; destruct fuel' as [|fuel']; try lia; cbn [expand_loop] in *; auto.
    - destruct (exprParametric st _) as [[]|]; cbn [bind] in *; auto. congruence.
    - destruct (exprParametric st _) as [[]|]; cbn [bind] in *; auto.
      destruct (expand_round st base _); auto. apply IH; auto. lia.
  Qed.
  Lemma getP_mono ord tag st d b fuel fuel' : fuel <= fuel' ->
    done (getParametricExpression ord tag fuel st d b) (getParametricExpression ord tag fuel' st d b).
  Proof.
    intros L D. unfold getParametricExpression in *. destruct (dget (c_par st) d) as [[e ns]|]; auto. destruct b; auto.
    now apply expand_mono.
  Qed.
  Lemma path_mono ord st fuel fuel' sym x : fuel <= fuel' -> forall l tag vals j,
    done (path_loop ord tag fuel st sym x vals j l) (path_loop ord tag fuel' st sym x vals j l).
  Proof.
    intros L. induction l as [|d r IH]; intros tag vals j D; cbn [path_loop] in *; auto.
    destruct (dget vals d) as [[e|]|]; cbn [bind] in *; auto; [now apply IH|].
    pose proof (getP_mono ord (j :: tag) st d true fuel fuel' L) as M.
    destruct (getParametricExpression ord (j :: tag) fuel st d true) as [e|e] eqn:E; cbn [bind] in *.
    - rewrite M by discriminate. cbn [bind]. now apply IH.
    - rewrite M by congruence. reflexivity.
  Qed.
  Lemma root_mono ord st fuel fuel' : fuel <= fuel' -> forall l vals j,
    done (root_loop ord fuel st vals j l) (root_loop ord fuel' st vals j l).
  Proof.
    intros L. induction l as [|d r IH]; intros vals j D; cbn [root_loop] in *; auto.
    destruct (getSymbol st d); cbn [bind] in *; auto. destruct (getParameterValue st d) as [[x|]|]; cbn [bind] in *; auto; [|now apply IH].
    pose proof (path_mono ord st fuel fuel' a x L (ord [2; j] (descendants (c_edges st) d)) [3; j] vals 0) as M.
    destruct (path_loop ord [3; j] fuel st a x vals 0 (ord [2; j] (descendants (c_edges st) d))) as [v|e] eqn:E; cbn [bind] in *.
    - rewrite M by discriminate. cbn [bind]. now apply IH.
    - rewrite M by congruence. reflexivity.
  Qed.
  Lemma update_mono ord st fuel fuel' : fuel <= fuel' -> snd (update ord fuel st) <> Err Diverges -> update ord fuel' st = update ord fuel st.
  Proof.
    intros L D. unfold update in *.
    pose proof (root_mono ord st fuel fuel' L (filter (fun n => negb (has_in (c_edges st) n)) (ord [0] (c_nodes st)))
      (map (fun k => (k, None)) (filter (has_in (c_edges st)) (ord [1] (c_nodes st)))) 0) as M.
    destruct (root_loop ord fuel st _ 0 _) as [v|e] eqn:E; cbn [snd] in *.
    - rewrite M by discriminate. reflexivity.
    - rewrite M by congruence. reflexivity.
  Qed.

  (** *** set calls end with an update *)
  Definition sets st (o : cop A) : Prop :=
    match o with CSet n _ => ~ parametric st n | CSets _ => True | _ => False end.
  Lemma set_loop_par kvs : forall st st' r, set_loop st kvs = (st', r) -> forall p, parametric st p -> dget (c_coll st') p = dget (c_coll st) p.
  Proof.
    induction kvs as [|[n v] l IH]; intros st st' r; cbn [set_loop]; [intros [= <- _]; auto|].
    destruct (dget (c_coll st) n) as [p|] eqn:G; [|intros [= <- _]; auto].
    destruct (dmem (c_par st) n) eqn:M; [apply IH|]. apply dmem_par_false in M.
    destruct (setValue p v) as [p' [u|e]].
    - intros H q Hq. rewrite (IH _ _ _ H q Hq). cs. apply dget_dset_neq. intros ->. contradiction.
    - intros [= <- _] q Hq. cs. apply dget_dset_neq. intros ->. contradiction.
  Qed.
  Lemma sets_update ord fuel st o : sets st o ->
    (exists st1, cstep fuel st (ord, o) = update ord fuel st1 /\ (exists c, st1 = with_coll st c /\ dkeys c = dkeys (c_coll st)) /\
       (forall p, parametric st p -> dget (c_coll st1) p = dget (c_coll st) p) /\
       (forall ord' fuel', cstep fuel' st (ord', o) = update ord' fuel' st1)) \/
    (exists st1 e, (forall ord' fuel', cstep fuel' st (ord', o) = (st1, Err e))).
  Proof.
    assert (SP : forall kvs,
      (exists st1, set_pairs ord fuel st kvs = update ord fuel st1 /\ (exists c, st1 = with_coll st c /\ dkeys c = dkeys (c_coll st)) /\
       (forall p, parametric st p -> dget (c_coll st1) p = dget (c_coll st) p) /\
       (forall ord' fuel', set_pairs ord' fuel' st kvs = update ord' fuel' st1)) \/
      (exists st1 e, (forall ord' fuel', set_pairs ord' fuel' st kvs = (st1, Err e)))).
    { intros kvs. unfold set_pairs. destruct (set_loop_frame kvs st) as (c & Ec & K).
      pose proof (set_loop_par kvs st) as PP.
      destruct (set_loop st kvs) as [st1 [u|e]]; cbn in Ec.
      - left. exists st1. split; auto. split; [eauto|]. split; auto. intros p Hp. eapply PP; eauto.
      - right. exists st1, e. auto. }
    destruct o as [| |n v|a| | | | |]; cbn [sets]; intros S; try contradiction; cbn [cstep snd fst].
    - unfold setParameterValue. destruct (dget (c_coll st) n) as [p|] eqn:G; [|right; eauto].
      apply dmem_par_false in S. rewrite S. apply dmem_par_false in S.
      destruct (setValue p v) as [p' [u|e]]; [|right; eauto]. left. eexists. split; [reflexivity|].
      split; [|split; auto].
      + eexists. split; [reflexivity|]. apply dkeys_dset_in. eapply dget_Some_key; eauto.
      + intros q Hq. cs. apply dget_dset_neq. intros ->. contradiction.
    - destruct a as [d|[|n [|n' ns]] vs]; cbn [setParameterValues]; [apply SP|right; eauto| |].
      + destruct vs; [right; eauto|]. destruct (Nat.eqb _ _); [apply SP|right; eauto].
      + destruct (Nat.eqb _ _); [apply SP|right; eauto].
  Qed.

  (** *** C10 at the level of one update *)
  Lemma value_with_coll st c p : value_of (with_coll st c) p = match dget c p with Some q => p_value q | None => None end.
  Proof. reflexivity. Qed.
  Lemma fle_set p x p' : setValue p (PFloat x) = (p', Ok tt) -> p_value p' = Some x.
  Proof. intros H. apply setValue_ok in H as (y & [= <-] & ->). reflexivity. Qed.
  Lemma accept_frame p p0 x y r : setValue p0 (PFloat y) = (p, r) -> snd (setValue p (PFloat x)) = snd (setValue p0 (PFloat x)).
  Proof.
    intros H. destruct r as [[]|e].
    - apply setValue_ok in H as (z & _ & ->). apply setValue_other.
    - apply setValue_err in H as ->. reflexivity.
  Qed.
  Lemma store_accept c k (v : option (E A)) p p' x : dget c k = Some p -> dget (store_one c k v) k = Some p' ->
    snd (setValue p' (PFloat x)) = snd (setValue p (PFloat x)).
  Proof.
    intros G. unfold store_one. destruct v as [e|]; [|intros E; congruence]. rewrite G.
    destruct (tofloat e) as [y|]; [|intros E; congruence].
    destruct (setValue p (PFloat y)) as [p1 [u|]] eqn:S; [|intros E; congruence].
    rewrite dget_dset_eq. intros [= <-]. eapply accept_frame; eauto.
  Qed.
  Lemma tofloat_closed (e : E A) r v : free e = [] -> eval e r = Some v -> tofloat e = toF v.
  Proof.
    intros F EV. unfold tofloat. rewrite F. rewrite (eval_ext A LAW e (fun _ => None) r) by (rewrite F; intros x []). now rewrite EV.
  Qed.

  Section Up.
    Variables (sg : string -> string) (st : cst A) (ow : list string).
    Hypothesis (GI : ginv sg st ow) (INJ : forall a b, sg a = sg b -> a = b).
    Let T : tinv sg st := gi_t _ _ _ GI.
    Let WF : wf st := ti_wf _ _ T.

    Lemma indep_root q : independent st q -> is_root st q.
    Proof.
      intros [R N]. split; [now apply (node_reg sg st ow GI)|]. now apply (nonpar_root sg st ow GI).
    Qed.
    Lemma handled_indep c' (HR : forall d, has_in (c_edges st) d = false -> dget c' d = dget (c_coll st) d) q :
      ~ parametric st q -> value_of (with_coll st c') q = value_of st q.
    Proof.
      intros N. rewrite value_with_coll. rewrite HR; auto. apply has_in_false. now apply (nonpar_root sg st ow GI).
    Qed.
    Lemma solution_frame c' r (HR : forall d, has_in (c_edges st) d = false -> dget c' d = dget (c_coll st) d) :
      solution (with_coll st c') r <-> solution st r.
    Proof.
      unfold solution, solves. split; intros H q s D; specialize (H q s D); cs;
      (destruct (dget (c_par st) q) as [[e ns]|] eqn:G; auto;
       assert (~ parametric st q) as NP by (intros (e & ns & C); congruence);
       unfold current in *; pose proof (handled_indep c' HR q NP); congruence).
    Qed.

    Lemma update_value ord fuel : good_ord ord -> enough st <= fuel ->
      exists c', update ord fuel st = (with_coll st c', Ok tt) /\ dkeys c' = dkeys (c_coll st) /\
        forall r p q v x p', solution (with_coll st c') r -> path (c_edges st) q p -> independent st q -> value_of st q <> None ->
          r (sg p) = Some v -> toF v = Ok x -> dget c' p = Some p' -> snd (setValue p' (PFloat x)) = Ok tt ->
          p_value p' = Some x.
    Proof.
      intros GO FU.
      destruct (update_spec LAW sg st ow GI INJ ord fuel GO FU (P1 sg st)
        (fun tag d e => P1_init LAW sg st ow GI INJ ord fuel GO tag d e)
        (fun d e r s x => P1_step LAW sg st ow GI INJ d e r s x)) as (c' & E & K & HR & HD).
      exists c'. split; auto. split; auto.
      intros r p q v x p' SOL PQ IQ VQ RV FV G' ACC. apply (solution_frame c' r HR) in SOL.
      assert (has_in (c_edges st) p = true) as HI. { apply has_in_spec. apply path_last in PQ as (z & Hz & _). eauto. }
      destruct (HD p HI) as [[_ HN]|(e & HE & [F1 F2] & _ & HF)].
      - exfalso. apply (HN q); auto. now apply indep_root.
      - pose proof (F2 r v SOL RV) as EV.
        assert (free e = []) as FE.
        { destruct (free e) as [|s l] eqn:Fe; auto. exfalso.
          destruct (F1 s) as (q' & D' & N' & M'); [rewrite ?Fe; now left|].
          apply (HF q').
          - apply indep_root. split; auto. now apply (sym_reg sg st ow GI) in D'.
          - pose proof (SOL _ _ D') as R. destruct (dget (c_par st) q') as [[e' ns']|] eqn:G2; [exfalso; apply N'; exists e', ns'; exact G2|].
            pose proof (eval_strict A LAW e r v s EV) as ST. rewrite Fe in ST. specialize (ST (or_introl eq_refl)).
            rewrite R in ST. unfold current in ST. intros C. rewrite C in ST. now apply ST.
          - now apply (mentions_path sg st ow GI INJ).
          - apply (sym_reg sg st ow GI) in D' as [_ <-]. now left. }
        pose proof (tofloat_closed e r v FE EV) as TF. rewrite FV in TF.
        rewrite HE in G'. destruct (dget (c_coll st) p) as [p0|] eqn:G0.
        + rewrite (store_accept _ _ _ _ _ x G0 G') in ACC. unfold store_one in G'. rewrite G0, TF in G'.
          destruct (setValue p0 (PFloat x)) as [p1 [[]|]] eqn:S; [|discriminate].
          rewrite dget_dset_eq in G'. injection G' as <-. eapply fle_set; eauto.
        + unfold store_one in G'. rewrite G0 in G'. congruence.
    Qed.

    (** plain algebras: the outcome is determined *)
    Lemma update_plain ord fuel : alg_plain A -> good_ord ord -> enough st <= fuel ->
      exists c', update ord fuel st = (with_coll st c', Ok tt) /\ dkeys c' = dkeys (c_coll st) /\
        (forall d, has_in (c_edges st) d = false -> dget c' d = dget (c_coll st) d) /\
        (forall d, has_in (c_edges st) d = true ->
           (forall r, is_root st r -> value_of st r <> None -> ~ path (c_edges st) r d) -> dget c' d = dget (c_coll st) d) /\
        (forall d u, independent st u -> value_of st u = None -> mentions_tr st d u -> dget c' d = dget (c_coll st) d) /\
        (forall d rho, solution st rho -> has_in (c_edges st) d = true ->
           (exists r, is_root st r /\ value_of st r <> None /\ path (c_edges st) r d) ->
           (forall u, independent st u -> value_of st u = None -> ~ mentions_tr st d u) ->
           dget c' d = match rho (sg d) with
                       | Some v => match dget (c_coll st) d, toF v with
                                   | Some p, Ok x => match setValue p (PFloat x) with (p', Ok _) => Some p' | (_, Err _) => Some p end
                                   | y, _ => y end
                       | None => dget (c_coll st) d end).
    Proof.
      intros PL GO FU.
      destruct (update_spec LAW sg st ow GI INJ ord fuel GO FU (P2 sg st)
        (fun tag d e => P2_init LAW sg st ow GI INJ ord fuel GO tag d e PL)
        (fun d e r s x => P2_step LAW sg st ow GI INJ d e r s x PL)) as (c' & E & K & HR & HD).
      exists c'. split; auto. split; auto. split; auto. split; [|split].
      - intros d HI H. destruct (HD d HI) as [[H1 _]|(e & _ & _ & (r & H1 & H2 & H3) & _)]; auto. exfalso. eapply H; eauto.
      - intros d u IU VU M. destruct (has_in (c_edges st) d) eqn:HI; [|now apply HR].
        destruct (HD d HI) as [[H1 _]|(e & HE & (_ & _ & H3) & _)]; auto. specialize (H3 u IU VU M).
        rewrite HE. unfold store_one. unfold tofloat. destruct (free e); [destruct H3|]. destruct (dget (c_coll st) d) eqn:Gd; auto.
      - intros d rho SOL HI (r & R1 & R2 & R3) NU. destruct (HD d HI) as [[_ H1]|(e & HE & ([F1 _] & F2 & _) & _ & HF)]; [exfalso; eapply H1; eauto|].
        assert (free e = []) as FE.
        { destruct (free e) as [|s l] eqn:Fe; auto. exfalso.
          destruct (F1 s) as (q' & D' & N' & M'); [rewrite ?Fe; now left|].
          assert (independent st q') as IQ by (split; auto; now apply (sym_reg sg st ow GI) in D').
          destruct (value_of st q') eqn:VQ.
          - apply (HF q'); [now apply indep_root|congruence|now apply (mentions_path sg st ow GI INJ)|].
            apply (sym_reg sg st ow GI) in D' as [_ <-]. now left.
          - eapply NU; eauto. }
        rewrite HE. pose proof (F2 rho SOL) as EV. unfold store_one.
        destruct (dget (c_coll st) d) as [p|] eqn:G; [|destruct (rho (sg d)); auto].
        destruct (rho (sg d)) as [v|].
        + rewrite (tofloat_closed e rho v FE EV). destruct (toF v) as [x|]; auto.
          destruct (setValue p (PFloat x)) as [p' [u|]]; auto. now rewrite dget_dset_eq.
        + unfold tofloat. rewrite FE. rewrite (eval_ext A LAW e (fun _ => None) rho) by (rewrite FE; intros x []).
          rewrite EV, (plain_undef A PL). auto.
    Qed.
    Lemma dict_ext {X} (d d' : dict string X) : dkeys d = dkeys d' -> NoDup (dkeys d) -> (forall k, dget d k = dget d' k) -> d = d'.
    Proof.
      revert d'. induction d as [|[k v] r IH]; intros [|[k' v'] r'] E ND H; try discriminate; auto.
      change (k :: dkeys r = k' :: dkeys r') in E. injection E as <- E. change (NoDup (k :: dkeys r)) in ND. inversion ND; subst.
      pose proof (H k) as Hk. cbn [dget] in Hk. rewrite eqb_refl in Hk. injection Hk as <-. f_equal. apply IH; auto.
      intros q. specialize (H q). cbn [dget] in H. destruct (eqb_spec q k) as [Q|]; auto. subst q.
      rewrite (proj2 (dget_None r k)) by auto. symmetry. apply dget_None. now rewrite <- E.
    Qed.
    Lemma update_order ord ord' fuel fuel' : alg_plain A -> good_ord ord -> good_ord ord' -> enough st <= fuel -> enough st <= fuel' ->
      update ord fuel st = update ord' fuel' st.
    Proof.
      intros PL G1 G2 F1 F2.
      destruct (update_plain ord fuel PL G1 F1) as (c & E & K & H1 & H2 & H3 & H4).
      destruct (update_plain ord' fuel' PL G2 F2) as (c' & E' & K' & H1' & H2' & H3' & H4').
      rewrite E, E'. f_equal. f_equal.
      destruct (solution_exists LAW sg st (current st) T INJ) as (rho & SOL).
      apply dict_ext; [congruence|rewrite K; apply WF|].
      intros d. destruct (has_in (c_edges st) d) eqn:HI; [|now rewrite H1, H1'].
      (* decide both side conditions on the finite set of nodes *)
      set (vroots := filter (fun r => negb (has_in (c_edges st) r) && (match value_of st r with Some _ => true | None => false end)
                               && mem d (descendants (c_edges st) r)) (c_nodes st)).
      destruct vroots as [|r0 l0] eqn:VR.
      - assert (forall r, is_root st r -> value_of st r <> None -> ~ path (c_edges st) r d) as N.
        { intros r [R1 R2] R3 R4. assert (In r vroots) as C; [|rewrite VR in C; destruct C].
          apply filter_In. split; auto. rewrite !andb_true_iff, negb_true_iff, has_in_false, mem_In, descendants_In.
          destruct (value_of st r); [|congruence]. split; [split; auto|]. split; auto. intros ->.
          apply path_last in R4 as (z & Hz & _). exact (R2 _ Hz). }
        now rewrite H2, H2'.
      - assert (In r0 vroots) as C by (rewrite VR; now left). apply filter_In in C as [C1 C2].
        rewrite !andb_true_iff, negb_true_iff, has_in_false, mem_In, descendants_In in C2. destruct C2 as [[C2 C3] [C4 _]].
        assert (exists r, is_root st r /\ value_of st r <> None /\ path (c_edges st) r d) as EX.
        { exists r0. split; [split; auto|]. split; auto. destruct (value_of st r0); congruence. }
        destruct (update_spec LAW sg st ow GI INJ ord fuel G1 F1 (P2 sg st)
          (fun tag d e => P2_init LAW sg st ow GI INJ ord fuel G1 tag d e PL)
          (fun d e r s x => P2_step LAW sg st ow GI INJ d e r s x PL)) as (c2 & _ & _ & _ & HD).
        destruct (HD d HI) as [[_ HN]|(e & _ & ([F1' _] & _ & HU) & _ & HF)].
        { exfalso. destruct EX as (r & X1 & X2 & X3). eapply HN; eauto. }
        destruct (free e) as [|s l] eqn:Fe.
        + assert (forall u, independent st u -> value_of st u = None -> ~ mentions_tr st d u) as NU.
          { intros u U1 U2 U3. specialize (HU u U1 U2 U3). destruct HU. }
          now rewrite (H4 d rho SOL HI EX NU), (H4' d rho SOL HI EX NU).
        + destruct (F1' s) as (q & Dq & Nq & Mq); [now left|].
          assert (independent st q) as IQ by (split; auto; now apply (sym_reg sg st ow GI) in Dq).
          destruct (value_of st q) eqn:VQ.
          * exfalso. apply (HF q); [now apply indep_root|congruence|now apply (mentions_path sg st ow GI INJ)|].
            apply (sym_reg sg st ow GI) in Dq as [_ <-]. now left.
          * now rewrite (H3 d q), (H3' d q).
    Qed.
  End Up.
End M.
