(** Two-stage and one-stage substitution. *)
From Coq Require Import List Bool String Arith ZArith Lia SpecFloat Permutation.
From Verif Require Import Prelude PreludeFacts Symbolic Float Param Expr Sweep SweepProofs SweepResultProofs
  Coll CollGraph CollSpec CollProofs CollExpand CollUpdate CollMain CollFinal NumSweep NumSweepSpec.
Import ListNotations.
Open Scope list_scope.

Section A.
  Context {A : alg} (LAW : alg_ok A).
  Implicit Types st : cst A.
  Definition nothing : string -> option (V A) := fun _ => None.
  Definition asg (d : dict string f64) (r : string -> option (V A)) : string -> option (V A) :=
    fun s => match dget d s with Some x => Some (ofF x) | None => r s end.
  Lemma asg_cons k x d r s : asg ((k, x) :: d) r s = upd (asg d r) k (Some (ofF x)) s.
  Proof. unfold asg, upd. cbn [dget]. destruct (eqb s k); reflexivity. Qed.

  Lemma subs_seq_eval : forall d (e : E A) r v, eval e (asg d r) = Some v -> eval (subs_seq e d) r = Some v.
  Proof.
    induction d as [|[k x] d IH]; intros e r v H; cbn [subs_seq fold_left].
    - rewrite (eval_ext _ LAW e r (asg [] r)); auto.
    - apply IH. apply (eval_subs _ LAW). rewrite (eval_const _ LAW). cbn [fst snd]. rewrite <- H.
      apply (eval_ext _ LAW). intros s _. symmetry. apply asg_cons.
  Qed.
  Lemma subs_seq_float d (e : E A) v : eval e (asg d nothing) = Some v -> tofloat (subs_seq e d) = toF v.
  Proof.
    intros H. apply subs_seq_eval in H. apply (tofloat_closed LAW _ nothing); auto.
    destruct (free (subs_seq e d)) as [|x l] eqn:F; auto. exfalso.
    apply (eval_strict _ LAW _ _ _ x H); [rewrite F; now left|reflexivity].
  Qed.
  Lemma subs_seq_app (e : E A) d d' : subs_seq (subs_seq e d) d' = subs_seq e (d ++ d').
  Proof. unfold subs_seq. now rewrite fold_left_app. Qed.
  Lemma asg_app d d' r s : asg (d ++ d') r s = asg d (asg d' r) s.
  Proof. induction d as [|[k x] d IH]; auto. rewrite <- app_comm_cons, !asg_cons. unfold upd. now destruct (eqb s k). Qed.

  (** plain algebras: exact *)
  Section Plain.
    Hypothesis PL : alg_plain A.
    Lemma plain_subs_free (e : E A) k c x : In x (free (subs e k (const c))) <-> In x (free e) /\ x <> k.
    Proof.
      split.
      - intros H. apply (free_subs _ LAW) in H as [H|H]; auto. rewrite (free_const _ LAW) in H. destruct H.
      - intros [H N]. now apply (plain_free _ PL).
    Qed.
    Lemma plain_seq_free : forall d (e : E A) x, In x (free (subs_seq e d)) <-> In x (free e) /\ ~ In x (dkeys d).
    Proof.
      induction d as [|[k c] d IH]; intros e x; cbn [subs_seq fold_left]; [cbn; tauto|].
      change (fold_left _ d ?z) with (subs_seq z d). rewrite IH. cbn [fst snd]. rewrite plain_subs_free.
      unfold dkeys. cbn [map fst In]. intuition.
    Qed.
    Lemma plain_seq_eval : forall d (e : E A) r, eval (subs_seq e d) r = eval e (asg d r).
    Proof.
      induction d as [|[k c] d IH]; intros e r; cbn [subs_seq fold_left].
      - apply (eval_ext _ LAW). reflexivity.
      - change (fold_left _ d ?z) with (subs_seq z d). rewrite IH. cbn [fst snd].
        destruct (mem_In_dec k (free e)) as [I|I].
        + rewrite (plain_eval _ PL) by auto. rewrite (eval_const _ LAW). apply (eval_ext _ LAW).
          intros s _. symmetry. apply asg_cons.
        + rewrite (plain_noop _ PL) by auto. apply (eval_ext _ LAW). intros s Hs. rewrite asg_cons. unfold upd.
          destruct (eqb_spec s k) as [->|]; [contradiction|auto].
    Qed.
    Lemma plain_seq_same d d' (e : E A) : (forall s, dget d s = dget d' s) -> tofloat (subs_seq e d) = tofloat (subs_seq e d').
    Proof.
      intros H. unfold tofloat.
      assert (forall x, In x (free (subs_seq e d)) <-> In x (free (subs_seq e d'))) as F.
      { intros x. rewrite !plain_seq_free.
        assert (In x (dkeys d) <-> In x (dkeys d')) as ->; [|tauto].
        split; intros Hx; apply dkeys_dget in Hx as (v & Hv); [rewrite H in Hv|rewrite <- H in Hv]; eapply dget_Some_key; eauto. }
      destruct (free (subs_seq e d)) as [|x l]; destruct (free (subs_seq e d')) as [|x' l']; auto.
      - rewrite !plain_seq_eval, !(plain_undef _ PL).
        rewrite (eval_ext _ LAW e (asg d (fun _ => None)) (asg d' (fun _ => None))); auto.
        intros s _. unfold asg. now rewrite H.
      - exfalso. apply (proj2 (F x')). now left.
      - exfalso. apply (proj1 (F x)). now left.
    Qed.
  End Plain.

  (** ** Dictionaries of values *)
  Lemma given_spec : forall d g, given d = Ok g -> dkeys g = dkeys d /\ forall s x, dget g s = Some x <-> dget d s = Some (Some x).
  Proof.
    unfold given. induction d as [|[k [x|]] d IH]; intros g H; cbn [mapM fst snd bind] in H.
    - injection H as <-. split; auto. intros s x; cbn; split; discriminate.
    - destruct (mapM _ d) as [g'|] eqn:E; [|discriminate]. injection H as <-. destruct (IH _ eq_refl) as [K G].
      split; [unfold dkeys in *; cbn [map fst]; congruence|]. intros s y. cbn [dget]. destruct (eqb s k); auto.
      split; [intros [= ->]|intros [= ->]]; reflexivity.
    - discriminate.
  Qed.
  Lemma given_ok : forall d, (forall s, dget d s <> Some None) -> NoDup (dkeys d) -> exists g, given d = Ok g.
  Proof.
    intros d H ND. unfold given. apply mapM_exists. intros [k [x|]] I; cbn [fst snd]; eauto. exfalso.
    apply (H k). now apply In_dget.
  Qed.
  Lemma perm_dget {X} (d d' : dict string X) s : Permutation d d' -> NoDup (dkeys d) -> dget d s = dget d' s.
  Proof.
    intros P ND. assert (NoDup (dkeys d')) as ND' by (unfold dkeys in *; eapply Permutation_NoDup; [apply Permutation_map, P|auto]).
    destruct (dget d s) as [x|] eqn:G.
    - apply dget_In in G. symmetry. apply In_dget; auto. eapply Permutation_in; eauto.
    - destruct (dget d' s) as [x|] eqn:G'; auto. apply dget_In in G'. apply (Permutation_in _ (Permutation_sym P)) in G'.
      apply In_dget in G'; auto. congruence.
  Qed.

  Variable sg : string -> string.
  Hypothesis INJ : forall a b, sg a = sg b -> a = b.

  Lemma gsv_nodup st : forall names d0 d, NoDup (dkeys d0) -> fold_left (fun acc n =>
      bind acc (fun d =>
      match dget (c_coll st) n, dget (c_sym st) n with
      | Some p, Some s => Ok (dset d s (getValue p))
      | None, _ => Err ValueError
      | _, None => Err KeyError
      end)) names (Ok d0) = Ok d -> NoDup (dkeys d).
  Proof.
    assert (forall names x, fold_left (fun acc n =>
      bind acc (fun d =>
      match dget (c_coll st) n, dget (c_sym st) n with
      | Some p, Some s => Ok (dset d s (getValue p))
      | None, _ => Err ValueError
      | _, None => Err KeyError
      end)) names (@Err (dict string (option f64)) x) = Err x) as HE by (induction names; cbn; auto).
    induction names as [|n l IH]; intros d0 d ND H; cbn [fold_left bind] in H; [injection H as <-; auto|].
    destruct (dget (c_coll st) n); [destruct (dget (c_sym st) n)|]; try (rewrite HE in H; discriminate).
    eapply IH; [|exact H]. now apply NoDup_dset.
  Qed.
  Lemma sweep_dict_nodup ord st sw d : getSweepParametersDict ord st sw = Ok d -> NoDup (dkeys d).
  Proof.
    unfold getSweepParametersDict. destruct (not_for_presub st sw) as [l|]; [cbn [bind]|discriminate].
    apply gsv_nodup. constructor.
  Qed.
  Lemma nonsweep_dict_nodup ord st sw d : getNonSweepParametersDict ord st sw = Ok d -> NoDup (dkeys d).
  Proof.
    unfold getNonSweepParametersDict. destruct (not_for_presub st sw) as [l|]; [cbn [bind]|discriminate].
    apply gsv_nodup. constructor.
  Qed.
  Lemma svd_aux st : ginv sg st [] -> forall l d0, (forall k p, In (k, p) l -> dget (c_coll st) k = Some p) ->
    foldM (fun d kv => match dget (c_sym st) (fst kv) with
                       | Some s => Ok (dset d s (getValue (snd kv)))
                       | None => Err KeyError
                       end) l d0 =
    fold_left (fun acc n =>
      bind acc (fun d =>
      match dget (c_coll st) n, dget (c_sym st) n with
      | Some p, Some s => Ok (dset d s (getValue p))
      | None, _ => Err ValueError
      | _, None => Err KeyError
      end)) (map fst l) (Ok d0).
  Proof.
    intros GI. induction l as [|[k p] l IH]; intros d0 H; cbn [foldM map fst snd fold_left bind]; auto.
    rewrite (H k p (or_introl eq_refl)).
    assert (registered st k) as R by (eapply dget_Some_key; apply H; now left).
    rewrite (reg_sym sg st [] GI k R). cbn [bind]. apply IH. intros k' p' I. apply H. now right.
  Qed.
  Lemma svd_spec st : ginv sg st [] -> exists d, getSymbolValuesDict st = Ok d /\ NoDup (dkeys d) /\
    forall s v, dget d s = Some v <-> exists n, registered st n /\ s = sg n /\ v = value_of st n.
  Proof.
    intros GI. unfold getSymbolValuesDict.
    assert (forall k p, In (k, p) (c_coll st) -> dget (c_coll st) k = Some p) as HI.
    { intros k p I. apply In_dget; auto. apply (wf_nodup _ (ti_wf _ _ (gi_t _ _ _ GI))). }
    rewrite (svd_aux st GI _ _ HI).
    destruct (gsv_spec sg INJ st GI (dkeys (c_coll st)) (fun n H => H) []) as (d & E & H1 & H2).
    exists d. split; auto. split; [eapply gsv_nodup; [|exact E]; constructor|].
    intros s v. split.
    - intros G. destruct (mem_In_dec s (map sg (dkeys (c_coll st)))) as [I|I].
      + apply in_map_iff in I as (n & <- & Hn). exists n. rewrite (H1 n Hn) in G. split; auto. split; auto. congruence.
      + exfalso. rewrite H2 in G; [discriminate|]. intros (n & Hn & ->). apply I. now apply in_map.
    - intros (n & R & -> & ->). now apply H1.
  Qed.

  (** ** The two stages *)
  Section Stages.
    Variables (st : cst A) (c : dict string param) (swept : list string).
    Let st' := with_coll st c.
    Hypothesis GI : ginv sg st [].
    Hypothesis KC : dkeys c = dkeys (c_coll st).
    Hypothesis IND : forall n, In n swept -> independent st n.
    Hypothesis STEADY : steady st st' swept.
    Hypothesis SET : forall q, registered st' q -> value_of st' q <> None.

    Lemma reg_same q : registered st' q <-> registered st q.
    Proof. unfold registered, st'. cbn [with_coll c_coll]. now rewrite KC. Qed.
    Lemma GI' : ginv sg st' []. Proof. now apply ginv_coll. Qed.
    Lemma dep_same q : dependents st' swept q <-> dependents st swept q. Proof. reflexivity. Qed.
    Lemma IND' : forall n, In n swept -> independent st' n.
    Proof. intros n Hn. destruct (IND n Hn) as [R N]. split; [now apply reg_same|exact N]. Qed.

    Lemma dep_dec q : dependents st swept q \/ ~ dependents st swept q.
    Proof.
      destruct (nfp_spec sg st swept GI IND) as (l & _ & _ & HL). destruct (mem_In_dec q l) as [I|I].
      - left. now apply HL.
      - right. intros H. apply I. now apply HL.
    Qed.

    Lemma stages ord ord' : good_ord ord -> good_ord ord' -> exists gn gs g dn ds d,
      getNonSweepParametersDict ord st swept = Ok dn /\ getSweepParametersDict ord' st' swept = Ok ds /\ getSymbolValuesDict st' = Ok d /\
      given dn = Ok gn /\ given ds = Ok gs /\ given d = Ok g /\ NoDup (dkeys gn) /\ NoDup (dkeys gs) /\ NoDup (dkeys g) /\
      (forall s x, dget g s = Some x <-> dget gn s = Some x \/ dget gs s = Some x) /\
      (forall s, ~ (In s (dkeys gn) /\ In s (dkeys gs))) /\
      (forall r, reads sg st' r -> forall s, r s = match dget g s with Some x => Some (ofF x) | None => None end).
    Proof.
      intros GO GO'.
      destruct (C18_ginv sg INJ st swept ord ord GI GO GO IND) as (d1 & dn & _ & En & _ & Hn).
      destruct (C18_ginv sg INJ st' swept ord' ord' GI' GO' GO' IND') as (ds & d2 & Es & _ & Hs & _).
      destruct (svd_spec st' GI') as (d & Ed & NDd & Hd).
      pose proof (nonsweep_dict_nodup _ _ _ _ En) as NDn. pose proof (sweep_dict_nodup _ _ _ _ Es) as NDs.
      destruct (given_ok dn) as (gn & Gn); auto.
      { intros s G. apply Hn in G as (n & R & N & _ & V). apply (SET n); [now apply reg_same|]. rewrite (STEADY n R N). auto. }
      destruct (given_ok ds) as (gs & Gs); auto.
      { intros s G. apply Hs in G as (n & R & N & _ & V). now apply (SET n). }
      destruct (given_ok d) as (g & G); auto.
      { intros s X. apply Hd in X as (n & R & _ & V). now apply (SET n). }
      exists gn, gs, g, dn, ds, d.
      destruct (given_spec _ _ Gn) as [Kn Sn]. destruct (given_spec _ _ Gs) as [Ks Ss]. destruct (given_spec _ _ G) as [K S].
      do 6 (split; [assumption|]). do 3 (split; [congruence|]). split; [|split].
      - intros s x. rewrite S, Sn, Ss, Hd, Hn, Hs. split.
        + intros (n & R & -> & V). destruct (dep_dec n) as [Dn|Dn].
          * right. exists n. auto.
          * left. exists n. apply reg_same in R. repeat split; auto. rewrite <- (STEADY n R Dn). exact V.
        + intros [(n & R & N & -> & V)|(n & R & N & -> & V)].
          * exists n. split; [now apply reg_same|]. split; auto. rewrite V. symmetry. now apply STEADY.
          * exists n. auto.
      - intros s [I1 I2]. rewrite Kn in I1. rewrite Ks in I2. apply dkeys_dget in I1 as (v1 & I1). apply dkeys_dget in I2 as (v2 & I2).
        apply Hn in I1 as (n & _ & N & -> & _). apply Hs in I2 as (m & _ & M & E & _). apply INJ in E. subst m. contradiction.
      - intros r RD s. destruct (dget g s) as [x|] eqn:X.
        + apply S, Hd in X as (n & R & -> & V). apply RD. exists n, x. auto.
        + destruct (r s) as [v|] eqn:Rs; auto. apply RD in Rs as (q & x & R & -> & V & _). exfalso.
          assert (dget g (sg q) = Some x) by (apply S, Hd; exists q; auto). congruence.
    Qed.

    Lemma stages_perm gn gs g (sq1 sq2 sq3 : sq_t) : good_sq sq1 -> good_sq sq2 -> good_sq sq3 ->
      NoDup (dkeys gn) -> NoDup (dkeys gs) -> NoDup (dkeys g) ->
      (forall s x, dget g s = Some x <-> dget gn s = Some x \/ dget gs s = Some x) ->
      (forall s, ~ (In s (dkeys gn) /\ In s (dkeys gs))) ->
      forall s, dget (sq1 gn ++ sq2 gs) s = dget (sq3 g) s.
    Proof.
      intros G1 G2 G3 N1 N2 N3 H DJ s.
      rewrite <- (perm_dget g (sq3 g) s (Permutation_sym (G3 g)) N3).
      assert (forall a b : dict string f64, dget (a ++ b) s = match dget a s with Some x => Some x | None => dget b s end) as AP.
      { induction a as [|[k v] a IH]; intros b; auto. cbn [dget app]. destruct (eqb s k); auto. }
      rewrite AP.
      rewrite <- (perm_dget gn (sq1 gn) s (Permutation_sym (G1 gn)) N1).
      rewrite <- (perm_dget gs (sq2 gs) s (Permutation_sym (G2 gs)) N2).
      destruct (dget gn s) as [x|] eqn:X.
      - symmetry. apply H. auto.
      - destruct (dget gs s) as [y|] eqn:Y.
        + symmetry. apply H. auto.
        + destruct (dget g s) as [w|] eqn:W; auto. apply H in W as [W|W]; congruence.
    Qed.

    Lemma two_stage_gen gn gs g (sq1 sq2 sq3 : sq_t) (e : E A) : good_sq sq1 -> good_sq sq2 -> good_sq sq3 ->
      NoDup (dkeys gn) -> NoDup (dkeys gs) -> NoDup (dkeys g) ->
      (forall s x, dget g s = Some x <-> dget gn s = Some x \/ dget gs s = Some x) ->
      (forall s, ~ (In s (dkeys gn) /\ In s (dkeys gs))) ->
      (forall r, reads sg st' r -> forall s, r s = match dget g s with Some x => Some (ofF x) | None => None end) ->
      has_number sg st' e \/ alg_plain A ->
      tofloat (subs_seq (subs_seq e (sq1 gn)) (sq2 gs)) = tofloat (subs_seq e (sq3 g)).
    Proof.
      intros G1 G2 G3 N1 N2 N3 H DJ RD HN. rewrite subs_seq_app.
      pose proof (stages_perm gn gs g sq1 sq2 sq3 G1 G2 G3 N1 N2 N3 H DJ) as P.
      destruct HN as [(r & v & Rr & Ev)|PL]; [|now apply plain_seq_same].
      assert (forall d, (forall s, dget d s = dget (sq3 g) s) -> tofloat (subs_seq e d) = toF v) as F.
      { intros d Hd. apply subs_seq_float. rewrite <- Ev. apply (eval_ext _ LAW). intros s _.
        rewrite (RD r Rr s). unfold asg, nothing. rewrite Hd.
        rewrite <- (perm_dget g (sq3 g) s (Permutation_sym (G3 g)) N3).
        reflexivity. }
      rewrite (F _ P), (F (sq3 g)); auto.
    Qed.

    (** C59: the numbers of _presub followed by _postsub are those of
        substitute. *)
    Lemma two_stage ord ord' (sq1 sq2 sq3 : sq_t) (es : list (E A)) : good_ord ord -> good_ord ord' ->
      good_sq sq1 -> good_sq sq2 -> good_sq sq3 ->
      (forall e, In e es -> has_number sg st' e \/ alg_plain A) ->
      exists dn ds d pre, getNonSweepParametersDict ord st swept = Ok dn /\ getSweepParametersDict ord' st' swept = Ok ds /\
        getSymbolValuesDict st' = Ok d /\ mapM (fun e => subs_dict sq1 e dn) es = Ok pre /\
        mapM (fun e => bind (subs_dict sq2 e ds) tofloat) pre = mapM (fun e => bind (subs_dict sq3 e d) tofloat) es.
    Proof.
      intros GO GO' G1 G2 G3 HE.
      destruct (stages ord ord' GO GO') as (gn & gs & g & dn & ds & d & E1 & E2 & E3 & F1 & F2 & F3 & N1 & N2 & N3 & H & DJ & RD).
      exists dn, ds, d, (map (fun e => subs_seq e (sq1 gn)) es). do 3 (split; auto). split.
      - clear HE. induction es as [|e l IH]; auto. cbn [mapM map]. unfold subs_dict at 1. rewrite F1. cbn [bind]. rewrite IH. reflexivity.
      - induction es as [|e l IH]; auto. cbn [mapM map].
        unfold subs_dict at 1 3. rewrite F2, F3. cbn [bind].
        rewrite (two_stage_gen gn gs g sq1 sq2 sq3 e); auto; [|apply HE; now left].
        rewrite IH; auto. intros e' I. apply HE. now right.
    Qed.
  End Stages.
End A.
