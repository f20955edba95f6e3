(** The entries evaluated at one grid point, and the files written. *)
From Coq Require Import List Bool String Arith NArith ZArith Lia SpecFloat Permutation.
From Verif Require Import Prelude PreludeFacts Symbolic Float Param Expr Sweep SweepProofs SweepResultProofs
  Coll CollSpec CollMain Temp NumSweep NumSweepSpec.
Import ListNotations.
Open Scope list_scope.

Section R.
  Context {A : alg} {D K : Type}.
  Variable meth : string -> K -> option (D * D) -> view -> res (value D).
  Variable diagonalize : value D -> res (value D).
  Notation run := (run_entries meth diagonalize).
  Notation "'callm'" := (call meth diagonalize).
  Implicit Types es : list (entry K).

  Fixpoint ordered_from (seen : list string) es : Prop :=
    match es with
    | [] => True
    | e :: r => (forall k, e_dep e = Some k -> In k seen) /\ ordered_from (e_eval e :: seen) r
    end.
  Definition dep_of (r : dict string (value D)) (e : entry K) : res (option (D * D)) :=
    match e_dep e with
    | None => Ok None
    | Some k => match dget r k with
                | None => Err PlainException
                | Some v => bind (unpack2 v) (fun p => Ok (Some p))
                end
    end.
  Lemma run_cons vw r e es : run vw r (e :: es) =
    bind (dep_of r e) (fun dep => bind (callm vw e dep) (fun v => run vw (dset r (e_eval e) v) es)).
  Proof. reflexivity. Qed.

  Lemma ordered_of_run vw : forall es seen r r', (forall k v, dget r k = Some v -> In k seen \/ v = VSeq []) ->
    run vw r es = Ok r' -> ordered_from seen es.
  Proof.
    induction es as [|e es IH]; intros seen r r' H E; cbn [ordered_from]; auto. rewrite run_cons in E.
    destruct (dep_of r e) as [dep|] eqn:DE; [|discriminate]. cbn [bind] in E.
    destruct (callm vw e dep) as [v|]; [|discriminate]. cbn [bind] in E. split.
    - intros k Ek. unfold dep_of in DE. rewrite Ek in DE. destruct (dget r k) as [w|] eqn:G; [|discriminate].
      apply H in G as [G|Gv]; auto. subst w. discriminate.
    - apply (IH _ _ r' ) with (2 := E). intros k w. rewrite dget_dset.
      destruct (eqb_spec k (e_eval e)) as [->|]; [left; now left|]. intros G. apply H in G as [G|G]; auto. left. now right.
  Qed.
  Lemma dkeys_dset_same {X} (r r' : dict string X) k v v' : dkeys r = dkeys r' -> dkeys (dset r k v) = dkeys (dset r' k v').
  Proof.
    intros E. destruct (mem_In_dec k (dkeys r)) as [I|I].
    - rewrite !dkeys_dset_in; congruence.
    - rewrite !dkeys_dset_new; congruence.
  Qed.
  Lemma run_base vw : forall es seen r1 r2, ordered_from seen es -> (forall k, In k seen -> dget r1 k = dget r2 k) -> dkeys r1 = dkeys r2 ->
    match run vw r1 es, run vw r2 es with
    | Ok a, Ok b => (forall k, In k seen \/ In k (map e_eval es) -> dget a k = dget b k) /\ dkeys a = dkeys b /\
        ((forall k, In k (map e_eval es) -> In k (dkeys r1)) -> dkeys a = dkeys r1)
    | Err x, Err y => x = y
    | _, _ => False
    end.
  Proof.
    induction es as [|e es IH]; intros seen r1 r2 O H KE.
    - cbn. split; [|auto]. intros k [I|[]]; auto.
    - destruct O as [O1 O2]. rewrite !run_cons.
      assert (dep_of r1 e = dep_of r2 e) as ->.
      { unfold dep_of. destruct (e_dep e) as [k|]; auto. rewrite H; auto. }
      destruct (dep_of r2 e) as [dep|x]; cbn [bind]; auto. destruct (callm vw e dep) as [v|x]; cbn [bind]; auto.
      assert (forall k, In k (e_eval e :: seen) -> dget (dset r1 (e_eval e) v) k = dget (dset r2 (e_eval e) v) k) as H1.
      { intros k [<-|I]; [now rewrite !dget_dset_eq|]. rewrite !dget_dset. destruct (eqb k (e_eval e)); auto. }
      specialize (IH _ _ _ O2 H1 (dkeys_dset_same r1 r2 (e_eval e) v v KE)).
      destruct (run vw (dset r1 (e_eval e) v) es); destruct (run vw (dset r2 (e_eval e) v) es); auto.
      destruct IH as (I1 & I2 & I3). split; [|split]; auto.
      + intros k [I|[<-|I]]; apply I1; cbn [In]; auto.
      + intros HK. rewrite I3.
        * apply dkeys_dset_in. apply HK. now left.
        * intros k I. rewrite dkeys_dset_in; apply HK; [now right|now left].
  Qed.

  Lemma results0_gen : forall es d, NoDup (dkeys d) ->
    let d' := fold_left (fun d e => dset d (e_eval e) (@VSeq D [])) es d in
    NoDup (dkeys d') /\ (forall k, In k (dkeys d') <-> In k (dkeys d) \/ In k (map e_eval es)) /\
    (forall k v, dget d' k = Some v -> v = VSeq [] \/ dget d k = Some v).
  Proof.
    induction es as [|e es IH]; intros d ND; cbn [fold_left].
    - split; [exact ND|]. split; [intros k; cbn [map In]; tauto|intros k v G; now right].
    - destruct (IH (dset d (e_eval e) (VSeq [])) (NoDup_dset _ _ _ ND)) as (H1 & H2 & H3). split; auto. split.
      + intros k. rewrite H2. rewrite In_dkeys_dset. cbn [map In]. intuition.
      + intros k v G. apply H3 in G as [G|G]; auto. rewrite dget_dset in G. destruct (eqb k (e_eval e)); [injection G as <-; auto|auto].
  Qed.
  Lemma results0_keys es : NoDup (dkeys (@results0 D K es)) /\ (forall k, In k (dkeys (@results0 D K es)) <-> In k (map e_eval es)) /\
    (forall k v, dget (@results0 D K es) k = Some v -> v = VSeq []).
  Proof.
    destruct (results0_gen es [] (NoDup_nil _)) as (H1 & H2 & H3). unfold results0. split; auto. split.
    - intros k. rewrite H2. split; [intros [[]|I]; auto|auto].
    - intros k v G. apply H3 in G as [G|G]; auto. discriminate.
  Qed.

  Lemma run_fresh vw es r : ordered_from [] es -> dkeys r = dkeys (@results0 D K es) -> run vw r es = run vw (results0 es) es.
  Proof.
    intros O KE. pose proof (run_base vw es [] r (results0 es) O (fun k H => match H with end) KE) as B.
    destruct (results0_keys es) as (ND & KS & _).
    destruct (run vw r es) as [a|x]; destruct (run vw (results0 es) es) as [b|y]; try contradiction; try congruence.
    destruct B as (B1 & B2 & B3). f_equal.
    assert (dkeys a = dkeys r) as KA. { apply B3. intros k I. rewrite KE. now apply KS. }
    apply dict_ext; auto.
    - rewrite KA, KE. auto.
    - intros k. destruct (mem_In_dec k (dkeys a)) as [I|I].
      + apply B1. right. apply KS. now rewrite <- KE, <- KA.
      + transitivity (@None (value D)); [|symmetry]; apply dget_None; [auto|now rewrite <- B2].
  Qed.
  Lemma run_keys vw es r r' : run vw r es = Ok r' -> (forall k, In k (map e_eval es) -> In k (dkeys r)) -> dkeys r' = dkeys r.
  Proof.
    revert r. induction es as [|e es IH]; intros r E H; [injection E as <-; auto|]. rewrite run_cons in E.
    destruct (dep_of r e) as [dep|]; [|discriminate]. cbn [bind] in E. destruct (callm vw e dep) as [v|]; [|discriminate]. cbn [bind] in E.
    rewrite (IH _ E).
    - apply dkeys_dset_in. apply H. now left.
    - intros k I. rewrite dkeys_dset_in; apply H; [now right|now left].
  Qed.

  (** *** What each entry received *)
  Lemma run_received vw : forall es done outs r r',
    received meth diagonalize vw done outs -> (forall k v, dget r k = Some v ->
       (v = VSeq [] /\ ~ In k (map e_eval done)) \/ exists i e dep, nth_error done i = Some e /\ e_eval e = k /\ nth_error outs i = Some (dep, v) /\
          forall m e', i < m -> nth_error done m = Some e' -> e_eval e' <> k) ->
    (forall k, In k (map e_eval done) -> In k (dkeys r)) ->
    run vw r es = Ok r' -> exists outs', received meth diagonalize vw (done ++ es) (outs ++ outs') /\
      (forall k v, dget r' k = Some v ->
       (v = VSeq [] /\ ~ In k (map e_eval (done ++ es))) \/
       exists i e dep, nth_error (done ++ es) i = Some e /\ e_eval e = k /\ nth_error (outs ++ outs') i = Some (dep, v) /\
          forall m e', i < m -> nth_error (done ++ es) m = Some e' -> e_eval e' <> k) /\
      (forall k, In k (map e_eval (done ++ es)) -> In k (dkeys r')).
  Proof.
    induction es as [|e es IH]; intros done outs r r' RC ST KS E.
    - injection E as <-. exists []. rewrite !app_nil_r. auto.
    - rewrite run_cons in E.
      destruct (dep_of r e) as [dep|] eqn:DE; [|discriminate]. cbn [bind] in E. destruct (callm vw e dep) as [v|] eqn:CE; [|discriminate]. cbn [bind] in E.
      destruct RC as [LEN RC].
      destruct (IH (done ++ [e]) (outs ++ [(dep, v)]) (dset r (e_eval e) v) r') as (outs' & R1 & R2 & R3); auto.
      + split; [rewrite !app_length; cbn; lia|]. intros j e0 dep0 v0 Hj Ho.
        destruct (Nat.lt_ge_cases j (List.length done)) as [L|L].
        * rewrite nth_error_app1 in Hj by auto. rewrite nth_error_app1 in Ho by lia.
          destruct (RC j e0 dep0 v0 Hj Ho) as [C1 C2]. split; auto. destruct (e_dep e0); auto.
          destruct C2 as (i & e' & dep' & v' & p & Li & N1 & N2 & N3 & N4 & N5).
          exists i, e', dep', v', p. split; auto. split; [rewrite nth_error_app1 by lia; auto|]. split; auto. split.
          -- intros m e'' Hm Hn. rewrite nth_error_app1 in Hn by lia. eapply N3; eauto.
          -- split; auto. rewrite nth_error_app1 by lia. auto.
        * rewrite nth_error_app2 in Hj by auto. rewrite nth_error_app2 in Ho by lia.
          rewrite LEN in Ho. destruct (j - List.length done) as [|z] eqn:Z; [|destruct z; discriminate].
          cbn in Hj, Ho. injection Hj as <-. injection Ho as <- <-. split; auto.
          unfold dep_of in DE. destruct (e_dep e) as [k|]; [|injection DE as <-; auto].
          destruct (dget r k) as [w|] eqn:G; [|discriminate]. apply ST in G as [[Wv _]|(i & e' & dep' & N1 & N2 & N3 & N4)]; [subst w; discriminate|].
          destruct (unpack2 w) as [p|] eqn:U; [|discriminate]. injection DE as <-.
          assert (i < List.length done) as Li by (apply nth_error_Some; congruence).
          exists i, e', dep', w, p. split; [lia|]. split; [rewrite nth_error_app1 by lia; auto|]. split; auto. split.
          -- intros m e'' Hm Hn. rewrite nth_error_app1 in Hn by lia. eapply (N4 m); eauto. lia.
          -- split; auto. rewrite nth_error_app1 by lia. auto.
      + intros k w. rewrite dget_dset. destruct (eqb_spec k (e_eval e)) as [->|N].
        * intros [= <-]. right. exists (List.length done), e, dep.
          rewrite nth_error_app2, Nat.sub_diag by lia. rewrite nth_error_app2 by lia. rewrite LEN, Nat.sub_diag. split; auto. split; auto. split; auto.
          intros m e' Hm Hn. assert (m < List.length (done ++ [e])) by (apply nth_error_Some; congruence). rewrite app_length in H. cbn in H. lia.
        * intros G. apply ST in G as [[Wv NI]|(i & e' & dep' & N1 & N2 & N3 & N4)].
          -- left. split; auto. rewrite map_app, in_app_iff. cbn. intros [I|[I|[]]]; auto.
          -- right. assert (i < List.length done) as Li by (apply nth_error_Some; congruence).
             exists i, e', dep'. rewrite !nth_error_app1 by lia. split; auto. split; auto. split; auto.
             intros m e'' Hm Hn. destruct (Nat.lt_ge_cases m (List.length done)) as [L|L].
             ++ rewrite nth_error_app1 in Hn by auto. eapply N4; eauto.
             ++ rewrite nth_error_app2 in Hn by auto. destruct (m - List.length done) as [|z]; [|destruct z; discriminate].
                injection Hn as <-. congruence.
      + intros k. rewrite map_app, in_app_iff, In_dkeys_dset. cbn [map In]. intros [I|[<-|[]]]; auto.
      + exists ((dep, v) :: outs'). 
        rewrite <- !app_assoc in R1. rewrite <- !app_assoc in R3. setoid_rewrite <- app_assoc in R2.
        cbn [app] in *. auto.
  Qed.
  Lemma run_trace vw es r' : run vw (results0 es) es = Ok r' ->
    exists outs, received meth diagonalize vw es outs /\ stored es outs r'.
  Proof.
    intros E. destruct (results0_keys es) as (ND & KS & VS).
    destruct (run_received vw es [] [] (results0 es) r') as (outs & R1 & R2 & R3); auto.
    - split; auto. intros j e dep v Hj. destruct j; discriminate.
    - intros k v G. left. split; [now apply VS in G|]. intros [].
    - intros k [].
    - cbn [app] in *. exists outs. split; auto. intros k v. split.
      + intros G. pose proof G as G'. apply R2 in G as [[Wv NI]|G]; auto. exfalso. apply NI.
        apply KS. rewrite <- (run_keys vw es _ _ E (fun k H => proj2 (KS k) H)). eapply dget_Some_key; eauto.
      + intros (i & e & dep & N1 & N2 & N3 & N4).
        assert (In k (dkeys r')) as I. { apply R3. rewrite <- N2. apply in_map. eapply nth_error_In; eauto. }
        apply dkeys_dget in I as (w & Gw). rewrite Gw. apply R2 in Gw as [[_ NI]|(i' & e' & dep' & M1 & M2 & M3 & M4)].
        * exfalso. apply NI. rewrite <- N2. apply in_map. eapply nth_error_In; eauto.
        * assert (i = i') as <-.
          { destruct (Nat.lt_trichotomy i i') as [L|[L|L]]; auto; exfalso; [now apply (N4 i' e' L M1)|now apply (M4 i e L N1)]. }
          congruence.
  Qed.
  Lemma run_ordered vw es r' : run vw (results0 es) es = Ok r' -> ordered_from [] es.
  Proof.
    intros E. eapply ordered_of_run; [|exact E]. intros k v G. right. now apply (results0_keys es) in G.
  Qed.
End R.
