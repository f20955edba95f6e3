(** Lemmas behind C58-C61. *)
From Coq Require Import List Bool String Arith NArith ZArith Lia SpecFloat Permutation.
From Verif Require Import Prelude PreludeFacts Symbolic Float Param Expr Sweep SweepProofs SweepResultProofs
  Coll CollGraph CollSpec CollProofs CollExpand CollUpdate CollMain CollFinal Temp NumOp NumSweep NumSweepSpec NumSubs NumRun
  NumSweepRun NumSteady NumSweepProofs.
Import ListNotations.
Open Scope list_scope.
Open Scope nat_scope.

(** ** The grid dict *)
Lemma collapse_keys (nc : dict string (ndarray f64)) : forall keys c0, NoDup (dkeys c0) ->
  let c := fold_left (fun c k => match dget nc k with Some a => dset c k (nd_data a) | None => c end) keys c0 in
  NoDup (dkeys c) /\ forall k, In k (dkeys c) -> In k (dkeys c0) \/ In k keys.
Proof.
  induction keys as [|k r IH]; intros c0 ND; cbn [fold_left]; [auto|].
  destruct (dget nc k) as [a|].
  - destruct (IH (dset c0 k (nd_data a)) (NoDup_dset _ _ _ ND)) as [N H]. split; auto. intros x Hx.
    apply H in Hx as [Hx|Hx]; [|right; now right]. apply In_dkeys_dset in Hx as [->|Hx]; auto. right. now left.
  - destruct (IH c0 ND) as [N H]. split; auto. intros x Hx. apply H in Hx as [Hx|Hx]; auto. right. now right.
Qed.
Lemma ndSweep_cols sw specs sw' u : ndSweep sw specs = (sw', Ok u) ->
  NoDup (dkeys (s_c sw')) /\ incl (dkeys (s_c sw')) (s_params sw').
Proof.
  unfold ndSweep. destruct (nd_loop _ _ _ _ specs) as [[c n] [[k l]|e]] eqn:E; [|discriminate].
  intros [= <- _]. cbn [s_c s_params]. destruct (collapse_keys (dict_zip k (meshgrid_ij fnan l)) k [] (NoDup_nil _)) as [N H].
  split; [exact N|]. intros x Hx. apply H in Hx as [[]|Hx]. exact Hx.
Qed.

Section S.
  Context {A : alg}.
  Implicit Types s : nsys A.
  Lemma with_grid_cols s specs s1 : with_grid s specs = Ok s1 ->
    NoDup (dkeys (s_c (n_sw s1))) /\ incl (dkeys (s_c (n_sw s1))) (s_params (n_sw s1)).
  Proof.
    unfold with_grid. destruct (ndSweep _ specs) as [sw [u|e]] eqn:E; [|discriminate]. intros [= <-]. eapply ndSweep_cols; eauto.
  Qed.
  Lemma can_write_dir {D} (f : fs (part D)) t : can_write f t -> dir_ok f t = true.
  Proof.
    unfold can_write, dir_ok. rewrite orb_true_iff. intros [->|H]; [left; apply eqb_refl|right; now apply mem_In].
  Qed.

  Section Law.
    Context (LAW : alg_ok A).
    Variable sg : string -> string.
    Hypothesis INJ : forall a b, sg a = sg b -> a = b.

    Lemma solution_same (st : cst A) c r : same_coll (c_coll st) c -> solution st r -> solution (with_coll st c) r.
    Proof.
      intros H S q x D. specialize (S q x D). cbn [with_coll c_par]. destruct (dget (c_par st) q) as [[e ns]|]; auto.
      rewrite S. unfold current. now rewrite value_same.
    Qed.
    Lemma settled_same (st : cst A) c : same_coll (c_coll st) c -> settled sg st -> settled sg (with_coll st c).
    Proof.
      intros H S q P. destruct (S q P) as (r & v & x & p & S1 & RV & FV & G & V & AC). destruct H as [K H].
      destruct (H q p G) as (p' & G' & SP). exists r, v, x, p'. split; [apply solution_same; [now split|auto]|].
      do 3 (split; auto). split; [|now rewrite (accept_same _ _ _ SP)]. destruct SP as (-> & _). exact V.
    Qed.

    Section Sys.
      Variables (s : nsys A) (specs : list spec) (s1 : nsys A).
      Hypothesis GI0 : ginv sg (n_cst s) [].
      Hypothesis SE0 : settled sg (n_cst s).
      Hypothesis SET0 : forall q, registered (n_cst s) q -> value_of (n_cst s) q <> None.
      Hypothesis IND0 : forall n, In n (map sp_name specs) -> independent (n_cst s) n.
      Hypothesis GRID : with_grid s specs = Ok s1.

      Lemma grid_ginv : ginv sg (n_cst s1) [].
      Proof. destruct (with_grid_frame s specs s1 GRID) as ((c & -> & SC) & _). apply ginv_coll; auto. apply SC. Qed.
      Lemma grid_settled : settled sg (n_cst s1).
      Proof. destruct (with_grid_frame s specs s1 GRID) as ((c & -> & SC) & _). now apply settled_same. Qed.
      Lemma grid_given : all_given (n_cst s1).
      Proof.
        destruct (with_grid_frame s specs s1 GRID) as ((c & -> & SC) & _). intros q R. rewrite value_same by auto. apply SET0.
        unfold registered in *. cbn [with_coll c_coll] in R. rewrite (proj1 SC) in R. exact R.
      Qed.
      Lemma grid_ind n : In n (s_params (n_sw s1)) -> independent (n_cst s1) n.
      Proof.
        destruct (with_grid_frame s specs s1 GRID) as ((c & -> & SC) & -> & _). intros H. apply IND0 in H as [R N]. split; auto.
        unfold registered in *. cbn [with_coll c_coll]. now rewrite (proj1 SC).
      Qed.
      Lemma grid_dep q : dependents (n_cst s1) (s_params (n_sw s1)) q <-> dependents (n_cst s) (map sp_name specs) q.
      Proof. destruct (with_grid_frame s specs s1 GRID) as ((c & -> & SC) & -> & _). reflexivity. Qed.
      Lemma grid_sync : in_sync s -> in_sync s1.
      Proof.
        destruct (with_grid_frame s specs s1 GRID) as ((c & EC & SC) & _ & _ & ED & EO & EQ & _). intros [H1 H2].
        unfold in_sync. rewrite EC, ED, EO, EQ. split; auto. intros n d e G. destruct (H1 n d e G) as (o & Ho & Hc). exists o. split; auto.
        eapply gen_op_same; [| |exact Ho]; [apply SC|intros _; now apply value_same].
      Qed.
      Lemma grid_imp : fixed_impedances s (map sp_name specs) -> fixed_impedances s1 (s_params (n_sw s1)).
      Proof.
        intros H n d e G B C. destruct (with_grid_frame s specs s1 GRID) as (_ & _ & _ & ED & _). rewrite ED in G.
        apply (H n d e G B). now apply grid_dep.
      Qed.
      Lemma presub_ok o sq : good_ord o -> exists pre, presub o sq s1 = Ok pre.
      Proof.
        intros GO.
        destruct (stages sg INJ (n_cst s1) (c_coll (n_cst s1)) (s_params (n_sw s1)) grid_ginv eq_refl grid_ind) with (ord := o) (ord' := o)
          as (gn & gs & g & dn & ds & d & E1 & _ & _ & F1 & _); auto.
        - apply kept_steady. split; auto. intros q p G _. exists p. now repeat split.
        - intros q R. apply grid_given in R. exact R.
        - unfold presub. rewrite E1. cbn [bind]. apply mapM_exists. intros e _. unfold subs_dict. rewrite F1. cbn [bind]. eauto.
      Qed.
      Lemma regen_ok o : good_ord o -> exists l, regen_nodes o s1 = Ok l.
      Proof.
        intros GO. destruct (C18_ginv sg INJ (n_cst s1) (s_params (n_sw s1)) o o grid_ginv GO GO grid_ind) as (d & d' & E & _).
        unfold regen_nodes. rewrite E. cbn [bind]. eauto.
      Qed.
    End Sys.

    Lemma C58_lemma {D K} (meth : string -> K -> option (D * D) -> view -> res (value D)) diagonalize
        (s : nsys A) specs s1 o_set o_sw o_non o_re fuel sq_exp sq_post sq_pre kw0 evals f t :
      sreach sg (n_cst s) [] -> settled sg (n_cst s) -> (forall q, registered (n_cst s) q -> value_of (n_cst s) q <> None) ->
      (forall n, In n (map sp_name specs) -> independent (n_cst s) n) ->
      in_sync s -> fixed_impedances s (map sp_name specs) -> with_grid s specs = Ok s1 -> can_write f t ->
      (forall i, good_ord (o_set i)) -> (forall i, good_ord (o_sw i)) -> good_ord o_non -> good_ord o_re ->
      (forall i, good_sq (sq_exp i)) -> (forall i, good_sq (sq_post i)) -> good_sq sq_pre ->
      let points := seq 0 (Z.to_nat (s_npts (n_sw s1))) in
      numbers_along sg o_set fuel sq_exp s1 points \/ alg_plain A ->
      match explicit meth diagonalize o_set fuel sq_exp (requested kw0 evals) s1 points with
      | Ok l => exists w, paramSweep meth diagonalize o_set o_sw fuel sq_post kw0 o_non o_re sq_pre s specs evals f t = Ok w /\
                  mapM (readPart (w_fs w)) (w_files w) = Ok (map snd l)
      | Err x => paramSweep meth diagonalize o_set o_sw fuel sq_post kw0 o_non o_re sq_pre s specs evals f t = Err x
      end.
    Proof.
      intros RE SE SET IND SY FI GRID CW G1 G2 G3 G4 Q1 Q2 Q3 points NA. apply (ginv_sreach LAW) in RE.
      destruct (presub_ok s specs s1 RE SET IND GRID o_non sq_pre G3) as (pre & EP).
      destruct (regen_ok s specs s1 RE IND GRID o_re G4) as (regen & ER).
      set (es := requested kw0 evals).
      assert (paramSweep meth diagonalize o_set o_sw fuel sq_post kw0 o_non o_re sq_pre s specs evals f t =
              foldM (sweep_point meth diagonalize o_set o_sw fuel sq_post es pre regen) points (mkswp s1 f t (results0 es) [])) as PS.
      { unfold paramSweep. unfold with_grid in GRID. destruct (ndSweep _ specs) as [sw [u|e]] eqn:E; [|discriminate].
        injection GRID as <-. cbn [n_sw] in *. rewrite EP. cbn [bind]. rewrite ER. reflexivity. }
      rewrite PS.
      pose proof (loop_eq LAW sg INJ s1 (grid_ginv s specs s1 RE GRID) (grid_settled s specs s1 SE GRID) (grid_ind s specs s1 IND GRID)
        (grid_imp s specs s1 GRID FI) (proj2 (with_grid_cols _ _ _ GRID)) o_non o_re sq_pre pre regen G3 Q3 EP ER
        meth diagonalize o_set o_sw fuel sq_exp sq_post G1 G2 Q1 Q2 es points s1 (mkswp s1 f t (results0 es) [])) as LE.
      cbn [w_sys w_res w_fs w_temp] in LE.
      assert (inv s1 s1) as IV.
      { constructor; auto.
        - exists (c_coll (n_cst s1)). split; [now rewrite with_coll_id|apply kept_self].
        - now apply (grid_sync s specs s1 GRID).
        - now apply (grid_given s specs s1 SET GRID). }
      specialize (LE IV eq_refl eq_refl (or_intror eq_refl) (can_write_dir _ _ CW) NA).
      destruct (explicit meth diagonalize o_set fuel sq_exp es s1 points) as [l|x]; [|exact LE].
      destruct (sweep_intro meth diagonalize o_set o_sw fuel sq_post es pre regen points l (mkswp s1 f t (results0 es) []) LE) as (w & EW & F1 & F2 & _).
      { intros _. cbn [w_fs w_temp]. now apply can_write_dir. }
      exists w. split; auto. rewrite F1. cbn [w_files w_temp app] in *.
      pose proof (chain_length _ _ _ _ _ _ _ _ _ _ _ _ _ LE) as LL.
      clear - F2 LL. revert F2. rewrite <- LL. clear LL.
      assert (forall l (k : nat), (forall j s p, nth_error l j = Some (s, p) -> readPart (w_fs w) (file_name t (k + j)) = Ok p) ->
        mapM (readPart (w_fs w)) (map (file_name t) (seq k (List.length l))) = Ok (map snd l)) as H.
      { clear l. induction l as [|[s0 p0] l IH]; intros k H; auto. cbn [List.length seq map mapM snd].
        rewrite <- (Nat.add_0_r k) at 1. rewrite (H 0 s0 p0 eq_refl). cbn [bind]. rewrite IH; auto.
        intros j s p Hj. rewrite Nat.add_succ_l, <- Nat.add_succ_r. apply (H (S j) s p Hj). }
      intros F2. apply (H l 0). exact F2.
    Qed.

    Lemma C59_lemma (s : nsys A) swept st' o1 o2 (sq1 sq2 sq3 : sq_t) : sreach sg (n_cst s) [] -> settled sg (n_cst s) ->
      (forall q, registered (n_cst s) q -> value_of (n_cst s) q <> None) ->
      s_params (n_sw s) = swept -> (forall n, In n swept -> independent (n_cst s) n) -> swept_sets swept (n_cst s) st' ->
      good_ord o1 -> good_ord o2 -> good_sq sq1 -> good_sq sq2 -> good_sq sq3 ->
      (forall e, In e (n_exprs s) -> has_number sg st' e) \/ alg_plain A ->
      exists pre d d', presub o1 sq1 s = Ok pre /\ getSweepParametersDict o2 st' swept = Ok d /\ getSymbolValuesDict st' = Ok d' /\
        mapM (fun e => bind (subs_dict sq2 e d) tofloat) pre = mapM (fun e => bind (subs_dict sq3 e d') tofloat) (n_exprs s).
    Proof.
      intros RE SE SET PA IND SW G1 G2 Q1 Q2 Q3 HN. apply (ginv_sreach LAW) in RE.
      assert (exists c, st' = with_coll (n_cst s) c /\ kept (n_cst s) swept c /\ all_given st') as (c & -> & KE & GV).
      { clear HN. induction SW as [|ord fuel st' kvs st'' _ IH GO IN E].
        - exists (c_coll (n_cst s)). split; [now rewrite with_coll_id|]. split; [apply kept_self|exact SET].
        - destruct IH as (c & -> & KE & GV).
          destruct (kept_set LAW sg INJ (n_cst s) swept RE SE c kvs ord fuel st'' KE GO IN E) as (c' & EC & KE').
          exists c'. split; auto. split; auto. eapply set_given; eauto. }
      destruct (two_stage LAW sg INJ (n_cst s) c swept RE (proj1 KE) IND (kept_steady _ _ _ KE) GV o1 o2 sq1 sq2 sq3 (n_exprs s) G1 G2 Q1 Q2 Q3)
        as (dn & ds & d & pre & E1 & E2 & E3 & E4 & E5).
      { intros e He. destruct HN as [HN|HN]; auto. }
      exists pre, ds, d. split; auto. unfold presub. rewrite PA, E1. exact E4.
    Qed.
  End Law.

  (** ** Completed sweeps *)
  Section Done.
    Context {D K : Type}.
    Variable meth : string -> K -> option (D * D) -> view -> res (value D).
    Variable diagonalize : value D -> res (value D).
    Variables (o_set o_sw : nat -> ordr) (fuel : nat) (sq_post : nat -> sq_t).

    Lemma postsub_frame ord ord' sq pre regen (s s' : nsys A) pt : postsub ord ord' fuel sq pre regen s pt = Ok s' ->
      n_sw s' = n_sw s /\ setParameterValues ord fuel (n_cst s) (SVDict (map (fun kv => (fst kv, PFloat (snd kv))) pt)) = (n_cst s', Ok tt).
    Proof.
      unfold postsub. destruct (setParameterValues ord fuel (n_cst s) _) as [c [[]|e]]; [|discriminate].
      destruct (getSweepParametersDict _ _ _) as [d|]; [|discriminate]. cbn [bind].
      destruct (mapM _ pre) as [l|]; [|discriminate]. cbn [bind]. destruct (expandOps _ _ _ _); [|discriminate].
      cbn [bind]. intros [= <-]. auto.
    Qed.

    Lemma sweep_done (s : nsys A) specs kw0 o_non o_re sq_pre evals f t w :
      paramSweep meth diagonalize o_set o_sw fuel sq_post kw0 o_non o_re sq_pre s specs evals f t = Ok w ->
      exists s1 pre regen l, with_grid s specs = Ok s1 /\
        chain meth diagonalize o_set o_sw fuel sq_post (requested kw0 evals) pre regen s1 (results0 (requested kw0 evals))
          (seq 0 (Z.to_nat (s_npts (n_sw s1)))) l /\
        w_files w = map (file_name t) (seq 0 (Z.to_nat (s_npts (n_sw s1)))) /\
        (forall j s p, nth_error l j = Some (s, p) -> readPart (w_fs w) (file_name t j) = Ok p) /\
        w_sys w = match rev l with [] => s1 | (s, _) :: _ => s end.
    Proof.
      intros E. unfold paramSweep in E. unfold with_grid. destruct (ndSweep _ specs) as [sw [u|x]]; [|discriminate].
      cbn zeta in E. set (s1 := mkns _ sw _ _ _ _ _) in *.
      destruct (presub o_non sq_pre s1) as [pre|]; [|discriminate]. cbn [bind] in E.
      destruct (regen_nodes o_re s1) as [regen|]; [|discriminate]. cbn [bind] in E.
      fold (requested kw0 evals) in E. destruct (sweep_elim _ _ _ _ _ _ _ _ _ _ _ _ E) as [(l & C) DK].
      destruct (sweep_intro _ _ _ _ _ _ _ _ _ _ _ _ C DK) as (w' & E' & F1 & F2 & _ & F4).
      rewrite E in E'. injection E' as <-. exists s1, pre, regen, l. cbn [w_files w_temp app w_sys] in *.
      split; auto. split; auto. rewrite seq_length in F1. auto.
    Qed.

    Lemma chain_points es pre regen : forall is l s r, chain meth diagonalize o_set o_sw fuel sq_post es pre regen s r is l ->
      dkeys r = dkeys (@results0 D K es) -> (ordered_from [] es \/ r = results0 es) ->
      forall j s' p, nth_error l j = Some (s', p) -> exists i s0 pt, nth_error is j = Some i /\ n_sw s0 = n_sw s /\
        (exists c, n_cst s0 = with_coll (n_cst s) c /\ dkeys c = dkeys (c_coll (n_cst s))) /\
        grid_point (n_sw s) i = Ok pt /\ postsub (o_set i) (o_sw i) fuel (sq_post i) pre regen s0 pt = Ok s' /\
        evaluate meth diagonalize es (view_of s') = Ok p.
    Proof.
      induction is as [|i is IH]; intros [|[s1 p1] l] s r C RK OR j s' p Hj; cbn [chain] in C; try contradiction; [destruct j; discriminate|].
      destruct C as (pt & r' & GP & PS & EV & C).
      assert (evaluate meth diagonalize es (view_of s1) = Ok p1 /\ dkeys r' = dkeys (@results0 D K es) /\ (ordered_from [] es \/ r' = results0 es)) as (EV' & RK' & OR').
      { assert (forall r0, run_entries meth diagonalize (view_of s1) r es = Ok r0 ->
                  run_entries meth diagonalize (view_of s1) (results0 es) es = Ok r0 /\ dkeys r0 = dkeys (@results0 D K es) /\ ordered_from [] es) as RU.
        { intros r0 E. assert (run_entries meth diagonalize (view_of s1) (results0 es) es = Ok r0) as E0.
          { destruct OR as [O|OR]; [rewrite <- (run_fresh meth diagonalize _ _ _ O RK); exact E|rewrite <- OR; exact E]. }
          split; auto. split; [|eapply run_ordered; eauto].
          apply (run_keys meth diagonalize _ _ _ _ E0). intros k. apply (results0_keys meth es). }
        unfold eval_step in EV. unfold evaluate. clear C IH. destruct es as [|e0 [|e1 es']].
        - destruct (run_entries meth diagonalize (view_of s1) r []) as [r0|] eqn:R; [|discriminate]. injection EV as <- <-.
          destruct (RU _ eq_refl) as (-> & H1 & H2). cbn [bind]. auto.
        - destruct (call _ _ _ _ _) as [v|]; [|discriminate]. injection EV as <- <-. cbn [bind]. auto.
        - destruct (run_entries meth diagonalize (view_of s1) r (e0 :: e1 :: es')) as [r0|] eqn:R; [|discriminate]. injection EV as <- <-.
          destruct (RU _ eq_refl) as (-> & H1 & H2). cbn [bind]. auto. }
      destruct j as [|j]; cbn [nth_error] in Hj.
      - injection Hj as <- <-. exists i, s, pt. split; auto. split; auto. split; [exists (c_coll (n_cst s)); split; auto; now rewrite with_coll_id|]. auto.
      - destruct (IH l s1 r' C RK' OR' j s' p Hj) as (i' & s0 & pt' & H1 & H2 & (c & H3 & H3') & H4 & H5 & H6).
        destruct (postsub_frame _ _ _ _ _ _ _ _ PS) as [SW SV].
        exists i', s0, pt'. split; auto. split; [congruence|]. split; [|split; [congruence|auto]].
        destruct (setValues_frame (o_set i) fuel (SVDict (map (fun kv => (fst kv, PFloat (snd kv))) pt)) (n_cst s)) as (c1 & E1 & K1).
        rewrite SV in E1. cbn [fst] in E1. exists c. rewrite H3, E1. split; auto. rewrite H3', E1. exact K1.
    Qed.
    Lemma chain_sw es pre regen : forall is l s r, chain meth diagonalize o_set o_sw fuel sq_post es pre regen s r is l ->
      n_sw (match rev l with [] => s | (s', _) :: _ => s' end) = n_sw s.
    Proof.
      induction is as [|i is IH]; intros [|[s1 p1] l] s r C; cbn [chain] in C; try contradiction; auto.
      destruct C as (pt & r' & _ & PS & _ & C). apply postsub_frame in PS as [SW _]. specialize (IH l s1 r' C).
      cbn [rev]. destruct (rev l) as [|[s2 p2] l2]; cbn [app]; congruence.
    Qed.

    (** *** the swept parameters hold the grid values *)
    Lemma set_loop_val kvs : forall (st st' : cst A) k x, set_loop st kvs = (st', Ok tt) -> NoDup (map fst kvs) -> In (k, PFloat x) kvs ->
      ~ parametric st k -> value_of st' k = Some x.
    Proof.
      induction kvs as [|[n v] l IH]; intros st st' k x E ND I NP; [destruct I|]. cbn [set_loop] in E. cbn [map fst] in ND.
      destruct (dget (c_coll st) n) as [p|] eqn:G; [|discriminate].
      pose proof (NoDup_cons_iff n (map fst l)) as [NC _]. specialize (NC ND) as [Nn ND'].
      destruct I as [I|I].
      - injection I as -> ->. apply dmem_par_false in NP. rewrite NP in E.
        destruct (setValue p (PFloat x)) as [p' [u|e]] eqn:SV; [|discriminate]. destruct u.
        unfold value_of. rewrite (set_loop_other _ _ _ _ E k Nn). cbn [with_coll c_coll]. rewrite dget_dset_eq.
        eapply fle_set; eauto.
      - destruct (dmem (c_par st) n); [eapply IH; eauto|].
        destruct (setValue p v) as [p' [u|e]]; [|discriminate]. eapply IH; eauto.
    Qed.
    Lemma grid_point_In sw i pt k arr x : grid_point sw i = Ok pt -> In (k, arr) (s_c sw) -> nth_error arr i = Some x -> In (k, x) pt.
    Proof.
      unfold grid_point. intros E I N. apply mapM_ok in E. destruct (Forall2_In_l _ _ _ _ E I) as (y & Iy & Ey).
      cbn [fst snd] in Ey. rewrite N in Ey. injection Ey as <-. exact Iy.
    Qed.
    Lemma set_at_point sg ow (s0 s' : nsys A) ord ord' sq pre regen i pt : ginv sg (n_cst s0) ow -> good_ord ord ->
      NoDup (dkeys (s_c (n_sw s0))) -> grid_point (n_sw s0) i = Ok pt ->
      postsub ord ord' fuel sq pre regen s0 pt = Ok s' -> at_point s' i.
    Proof.
      intros GI GO ND GP PS k arr x G N [R NP]. apply postsub_frame in PS as [SW SV]. rewrite SW in G.
      rewrite gpv_value by exact R. f_equal. apply dget_In in G. pose proof (grid_point_In _ _ _ _ _ _ GP G N) as I.
      cbn [setParameterValues] in SV. unfold set_pairs in SV.
      set (kvs := map (fun kv => (fst kv, PFloat (snd kv))) pt) in *.
      assert (map fst kvs = dkeys (s_c (n_sw s0))) as KS.
      { unfold kvs. rewrite map_map. cbn [fst]. change (map (fun x : string * f64 => fst x) pt) with (map fst pt). eapply grid_point_keys; eauto. }
      destruct (set_loop_frame kvs (n_cst s0)) as (c2 & Ec2 & K2).
      destruct (set_loop (n_cst s0) kvs) as [st2 [[]|e]] eqn:SL; [|discriminate]. cbn [fst] in Ec2. subst st2.
      assert (ginv sg (with_coll (n_cst s0) c2) ow) as GI2 by now apply ginv_coll.
      destruct (update_frame ord fuel (with_coll (n_cst s0) c2)) as (c3 & Ec3 & K3). rewrite SV in Ec3. cbn [fst] in Ec3.
      assert (~ parametric (with_coll (n_cst s0) c2) k) as NP2. { intros H. apply NP. rewrite Ec3. exact H. }
      pose proof (update_roots ord fuel (with_coll (n_cst s0) c2) k GO (nonpar_root sg _ ow GI2 k NP2)) as UR. rewrite SV in UR. cbn [fst] in UR.
      unfold value_of. rewrite UR. fold (value_of (with_coll (n_cst s0) c2) k).
      eapply set_loop_val; [exact SL|now rewrite KS| |exact NP2].
      apply in_map_iff. exists (k, x). auto.
    Qed.

    Lemma sweep_trace (LAW : alg_ok A) sg (s : nsys A) ow specs kw0 o_non o_re sq_pre evals f t w :
      sreach sg (n_cst s) ow -> (forall i, good_ord (o_set i)) ->
      paramSweep meth diagonalize o_set o_sw fuel sq_post kw0 o_non o_re sq_pre s specs evals f t = Ok w ->
      forall i, i < Z.to_nat (s_npts (n_sw (w_sys w))) -> exists (si : nsys A) file p,
        n_sw si = n_sw (w_sys w) /\ at_point si i /\ nth_error (w_files w) i = Some file /\ readPart (w_fs w) file = Ok p /\
        evaluate meth diagonalize (requested kw0 evals) (view_of si) = Ok p.
    Proof.
      intros RE GO E i Li. apply (ginv_sreach LAW) in RE.
      destruct (sweep_done _ _ _ _ _ _ _ _ _ _ E) as (s1 & pre & regen & l & GRID & C & FN & FR & WS).
      pose proof (chain_sw _ _ _ _ _ _ _ C) as CS. rewrite <- WS in CS. rewrite CS in Li |- *.
      pose proof (chain_length _ _ _ _ _ _ _ _ _ _ _ _ _ C) as LL. rewrite seq_length in LL.
      destruct (nth_error l i) as [[si p]|] eqn:Hi; [|apply nth_error_None in Hi; lia].
      destruct (chain_points _ _ _ _ _ _ _ C eq_refl (or_intror eq_refl) i si p Hi) as (i' & s0 & pt & H1 & H2 & (c & H3 & H3') & H4 & H5 & H6).
      assert (i' = i) as ->.
      { rewrite nth_error_nth' with (d := 0) in H1 by (rewrite seq_length; lia). rewrite seq_nth in H1 by lia. cbn in H1. congruence. }
      exists si, (file_name t i), p. split; [destruct (postsub_frame _ _ _ _ _ _ _ _ H5); congruence|].
      destruct (with_grid_frame _ _ _ GRID) as ((c1 & EC & SC) & _).
      split; [|split; [|split; [|exact H6]]].
      - eapply (set_at_point sg ow s0); eauto.
        + rewrite H3. apply ginv_coll; auto. rewrite EC. apply ginv_coll; auto. apply SC.
        + rewrite H2. eapply with_grid_cols; eauto.
        + now rewrite H2.
      - rewrite FN. rewrite nth_error_map. rewrite nth_error_nth' with (d := 0) by (rewrite seq_length; lia). rewrite seq_nth by lia. reflexivity.
      - eapply FR; eauto.
    Qed.
    Lemma sweep_nfiles (s : nsys A) specs kw0 o_non o_re sq_pre evals f t w :
      paramSweep meth diagonalize o_set o_sw fuel sq_post kw0 o_non o_re sq_pre s specs evals f t = Ok w ->
      List.length (w_files w) = Z.to_nat (s_npts (n_sw (w_sys w))).
    Proof.
      intros E. destruct (sweep_done _ _ _ _ _ _ _ _ _ _ E) as (s1 & pre & regen & l & GRID & C & FN & FR & WS).
      pose proof (chain_sw _ _ _ _ _ _ _ C) as CS. rewrite <- WS in CS. rewrite CS, FN. now rewrite map_length, seq_length.
    Qed.
    Lemma multi_trace evals kw0 vw p : 2 <= List.length evals -> evaluate meth diagonalize (requested kw0 evals) vw = Ok p ->
      exists results outs, p = PDict results /\ received meth diagonalize vw evals outs /\ stored evals outs results.
    Proof.
      intros LEN H6. assert (requested kw0 evals = evals) as RQ by (destruct evals; [cbn in LEN; lia|reflexivity]). rewrite RQ in *.
      assert (exists r, p = PDict r /\ run_entries meth diagonalize vw (results0 evals) evals = Ok r) as (results & -> & RU).
      { unfold evaluate in H6. destruct evals as [|e0 [|e1 es']]; try (cbn in LEN; lia).
        destruct (run_entries _ _ _ _ _) as [r|]; [|discriminate]. injection H6 as <-. eauto. }
      destruct (run_trace _ _ _ _ _ RU) as (outs & RC & ST). exists results, outs. auto.
    Qed.

    Lemma C60_lemma (LAW : alg_ok A) sg (s : nsys A) ow specs kw0 o_non o_re sq_pre evals f t w :
      sreach sg (n_cst s) ow -> (forall i, good_ord (o_set i)) -> 2 <= List.length evals -> built evals ->
      (forall H v, diagonalize H = Ok v -> exists E V, v = VPair E V) ->
      paramSweep meth diagonalize o_set o_sw fuel sq_post kw0 o_non o_re sq_pre s specs evals f t = Ok w ->
      forall i, i < Z.to_nat (s_npts (n_sw (w_sys w))) -> exists (si : nsys A) file results outs,
        n_sw si = n_sw (w_sys w) /\ at_point si i /\ nth_error (w_files w) i = Some file /\ readPart (w_fs w) file = Ok (PDict results) /\
        received meth diagonalize (view_of si) evals outs /\ stored evals outs results /\
        forall j e k dep v, nth_error evals j = Some e -> nth_error outs j = Some (dep, v) -> e_dep e = Some k ->
          exists H E V kw, meth "getHamiltonian"%string kw None (view_of si) = Ok H /\ diagonalize H = Ok (VPair E V) /\ dep = Some (E, V).
    Proof.
      intros RE GO LEN BU DG E i Li.
      destruct (sweep_trace LAW sg s ow specs kw0 o_non o_re sq_pre evals f t w RE GO E i Li) as (si & file & p & H1 & H2 & H3 & H4 & H5).
      destruct (multi_trace _ _ _ _ LEN H5) as (results & outs & -> & RC & ST).
      exists si, file, results, outs. do 4 (split; [assumption|]). split; [exact RC|]. split; [exact ST|].
      intros j e k dep v Hj Ho De. destruct RC as [_ RC]. pose proof (RC _ _ _ _ Hj Ho) as [_ DP]. rewrite De in DP.
      destruct DP as (i0 & e' & dep' & v' & pr & _ & Hi0 & Ek & _ & Hoi & U & ->).
      assert (k = "getHamiltonian"%string) as ->.
      { destruct (BU e (nth_error_In _ _ Hj)) as (name & Hn). apply dget_In in Hn. cbn in Hn.
        repeat (destruct Hn as [Hn|Hn]; [injection Hn as _ H7 H8 H9; congruence|]). destruct Hn. }
      destruct (RC _ _ _ _ Hi0 Hoi) as [CA DE].
      assert (e_diag e' = true /\ e_dep e' = None) as [D1 D2].
      { destruct (BU e' (nth_error_In _ _ Hi0)) as (name & Hn). apply dget_In in Hn. cbn in Hn. rewrite Ek in Hn.
        repeat (destruct Hn as [Hn|Hn]; [first [discriminate Hn|injection Hn as _ H8 H9; auto]|]). destruct Hn. }
      rewrite D2 in DE. subst dep'. unfold call in CA. rewrite D1, Ek in CA.
      destruct (meth "getHamiltonian"%string (e_kw e') None (view_of si)) as [H|] eqn:MH; [|discriminate]. cbn [bind] in CA.
      destruct (DG _ _ CA) as (E0 & V0 & ->). cbn [unpack2] in U. injection U as <-.
      exists H, E0, V0, (e_kw e'). auto.
    Qed.

    (** *** reading results back *)
    Lemma mapM_read {X Y Z} (rd : X -> res Y) (data : list X) (vals : list Y) (idx : Z -> res BinNums.Z) : Forall2 (fun d v => rd d = Ok v) data vals ->
      forall rows, bind (mapM (fun r => bind (idx r) (py_nth data)) rows) (mapM rd) = bind (mapM (fun r => bind (idx r) (py_nth vals)) rows) (mapM (fun v => Ok v)).
    Proof.
      intros F. assert (forall z, match py_nth data z with Ok d => exists v, rd d = Ok v /\ py_nth vals z = Ok v | Err e => py_nth vals z = Err e end) as PN.
      { intros z. unfold py_nth. rewrite (Forall2_length _ _ _ F). set (i := if (z <? 0)%Z then _ else _). clearbody i.
        destruct (i <? 0)%Z; auto. generalize (Z.to_nat i). clear - F.
        induction F as [|d v ds vs H _ IH]; intros [|k]; cbn [nth_error]; [reflexivity|reflexivity|eauto|apply IH]. }
      induction rows as [|r rows IH]; auto. cbn [mapM]. destruct (idx r) as [z|e]; [|reflexivity]. cbn [bind].
      specialize (PN z). destruct (py_nth data z) as [d|e].
      - destruct PN as (v & Hd & ->). cbn [bind].
        destruct (mapM (fun r0 => bind (idx r0) (py_nth data)) rows) as [ds|e]; destruct (mapM (fun r0 => bind (idx r0) (py_nth vals)) rows) as [vs|e'];
          cbn [bind mapM] in *; rewrite ?Hd; cbn [bind].
        + now rewrite IH.
        + rewrite IH. reflexivity.
        + assert (forall l : list Y, mapM (fun v => Ok v) l = Ok l) as MI by (induction l as [|y l IHl]; cbn [mapM bind]; [auto|now rewrite IHl]).
          rewrite MI in IH. discriminate.
        + exact IH.
      - rewrite PN. reflexivity.
    Qed.

    Lemma mapM_id {Y} (l : list Y) : mapM (fun v => Ok v) l = Ok l.
    Proof. induction l as [|y l IH]; cbn [mapM bind]; [auto|now rewrite IH]. Qed.
    Lemma mapM_F2 {X Y} (rd : X -> res Y) data vals : Forall2 (fun d v => rd d = Ok v) data vals -> mapM rd data = Ok vals.
    Proof. induction 1 as [|d v ds vs H _ IH]; auto. cbn [mapM]. rewrite H. cbn [bind]. now rewrite IH. Qed.
    Lemma bind_assoc' {X Y Z} (m : res X) (g : X -> res Y) (h : Y -> res Z) : bind m (fun x => bind (g x) h) = bind (bind m g) h.
    Proof. now destruct m. Qed.
    Lemma gsr1_read {X Y} (rd : X -> res Y) st iv stv data vals : Forall2 (fun d v => rd d = Ok v) data vals ->
      getSweepResult1 rd st iv stv data = getSweepResult1 (fun v => Ok v) st iv stv vals.
    Proof.
      intros F. unfold getSweepResult1. pose proof (mapM_F2 _ _ _ F) as M. pose proof (fun Z => @mapM_read X Y Z rd data vals) as MR.
      destruct F as [|d v ds vs H F]; auto. set (data := d :: ds) in *. set (vals := v :: vs) in *.
      destruct (negb _); auto. destruct (negb _); auto. destruct (getParameterSweep _ _) as [sw|]; auto. cbn [bind].
      destruct (Nat.eqb _ _); [now rewrite M, mapM_id|].
      destruct (statics _ _) as [sts|]; auto. cbn [bind]. destruct (dget _ iv) as [n|]; auto. cbn [bind].
      destruct (fill1 _ _ _ _) as [fin|]; auto. cbn [bind]. destruct (columns fin) as [cols|]; auto. cbn [bind].
      rewrite !bind_assoc'. rewrite (MR _ (fun r => collapsedIndices st (map Z.of_nat (rev (row cols r)))) (Forall2_cons _ _ H F)). reflexivity.
    Qed.
    Lemma gsrN_read {X Y} (rd : X -> res Y) st ivs stv data vals : Forall2 (fun d v => rd d = Ok v) data vals ->
      getSweepResultN rd st ivs stv data = getSweepResultN (fun v => Ok v) st ivs stv vals.
    Proof.
      intros F. unfold getSweepResultN. pose proof (fun Z => @mapM_read X Y Z rd data vals) as MR.
      destruct F as [|d v ds vs H F]; auto. set (data := d :: ds) in *. set (vals := v :: vs) in *.
      destruct (negb _); auto. destruct (negb _); auto.
      destruct (statics _ _) as [sts|]; auto. cbn [bind]. destruct (fillN _ _ _ _) as [fin|]; auto. cbn [bind].
      destruct (mesh_rows _) as [|row0 rows]; auto. rewrite !bind_assoc'.
      rewrite (MR _ (fun r => collapsedIndices st (map Z.of_nat r)) (Forall2_cons _ _ H F)). reflexivity.
    Qed.

    (** every value of entry [m], in grid order *)
    Lemma C61_values (LAW : alg_ok A) sg (s : nsys A) ow specs kw0 o_non o_re sq_pre evals f t w m e :
      sreach sg (n_cst s) ow -> (forall i, good_ord (o_set i)) -> 2 <= List.length evals ->
      (forall m' e', m < m' -> nth_error evals m' = Some e' -> e_eval e' <> e_eval e) -> nth_error evals m = Some e ->
      paramSweep meth diagonalize o_set o_sw fuel sq_post kw0 o_non o_re sq_pre s specs evals f t = Ok w ->
      exists vals, List.length vals = Z.to_nat (s_npts (n_sw (w_sys w))) /\
        (forall i v, nth_error vals i = Some v -> exists (si : nsys A) outs dep, n_sw si = n_sw (w_sys w) /\ at_point si i /\
           received meth diagonalize (view_of si) evals outs /\ nth_error outs m = Some (dep, v)) /\
        Forall2 (fun d v => read_key (w_fs w) true (e_eval e) d = Ok v) (w_files w) vals /\
        (forall p0 r, w_files w = p0 :: r -> exists d, readPart (w_fs w) p0 = Ok (PDict d)).
    Proof.
      intros RE GO LEN ND He E. pose proof (sweep_nfiles _ _ _ _ _ _ _ _ _ _ E) as NF.
      assert (forall i, i < Z.to_nat (s_npts (n_sw (w_sys w))) -> exists v (si : nsys A) file results outs dep,
        n_sw si = n_sw (w_sys w) /\ at_point si i /\ nth_error (w_files w) i = Some file /\ readPart (w_fs w) file = Ok (PDict results) /\
        received meth diagonalize (view_of si) evals outs /\ nth_error outs m = Some (dep, v) /\ dget results (e_eval e) = Some v) as TR.
      { intros i Li.
        destruct (sweep_trace LAW sg s ow specs kw0 o_non o_re sq_pre evals f t w RE GO E i Li) as (si & file & p & H1 & H2 & H3 & H4 & H5).
        destruct (multi_trace _ _ _ _ LEN H5) as (results & outs & -> & RC & ST).
        destruct (nth_error outs m) as [[dep v]|] eqn:Ho.
        2:{ apply nth_error_None in Ho. rewrite (proj1 RC) in Ho. assert (m < List.length evals) by (apply nth_error_Some; congruence). lia. }
        exists v, si, file, results, outs, dep. do 5 (split; auto). split; auto. apply ST. exists m, e, dep. do 3 (split; auto).
        }
      assert (forall n, n <= List.length (w_files w) -> exists vals, List.length vals = n /\
        (forall i v, nth_error vals i = Some v -> exists (si : nsys A) outs dep, n_sw si = n_sw (w_sys w) /\ at_point si i /\
           received meth diagonalize (view_of si) evals outs /\ nth_error outs m = Some (dep, v)) /\
        Forall2 (fun d v => read_key (w_fs w) true (e_eval e) d = Ok v) (firstn n (w_files w)) vals) as BUILD.
      { induction n as [|n IH]; intros Ln.
        - exists []. split; auto. split; [intros [|i] v; discriminate|]. constructor.
        - destruct IH as (vals & LV & HV & FV); [lia|]. destruct (TR n ltac:(lia)) as (v & si & file & results & outs & dep & H1 & H2 & H3 & H4 & H5 & H6 & H7).
          exists (vals ++ [v]). split; [rewrite app_length; cbn; lia|]. split.
          + intros i u Hi. destruct (Nat.lt_ge_cases i n) as [L|G].
            * rewrite nth_error_app1 in Hi by lia. now apply HV.
            * assert (i = n) as ->. { assert (i < List.length (vals ++ [v])) by (apply nth_error_Some; congruence). rewrite app_length in *. cbn in *. lia. }
              rewrite nth_error_app2 in Hi by lia. rewrite LV, Nat.sub_diag in Hi. cbn in Hi. injection Hi as <-. exists si, outs, dep. auto.
          + assert (firstn (S n) (w_files w) = firstn n (w_files w) ++ [file]) as ->.
            { clear - H3. revert n H3. generalize (w_files w). induction l as [|x l IH]; intros [|n] H; cbn in *; try discriminate; [congruence|]. f_equal. now apply IH. }
            apply Forall2_app; auto. constructor; auto. unfold read_key. rewrite H4. cbn [bind]. now rewrite H7. }
      destruct (BUILD (List.length (w_files w)) (le_n _)) as (vals & LV & HV & FV). rewrite firstn_all in FV.
      exists vals. split; [congruence|]. split; auto. split; auto.
      intros p0 r Ep. destruct (TR 0) as (v & si & file & results & outs & dep & H1 & H2 & H3 & H4 & _); [rewrite <- NF, Ep; cbn; lia|].
      rewrite Ep in H3. cbn in H3. injection H3 as <-. eauto.
    Qed.
    Lemma C61_lemma (LAW : alg_ok A) sg (s : nsys A) ow specs kw0 o_non o_re sq_pre evals f t w m e name dg dp :
      sreach sg (n_cst s) ow -> (forall i, good_ord (o_set i)) -> 2 <= List.length evals ->
      (forall m' e', m < m' -> nth_error evals m' = Some e' -> e_eval e' <> e_eval e) -> nth_error evals m = Some e -> dget eval_spec name = Some (e_eval e, dg, dp) ->
      paramSweep meth diagonalize o_set o_sw fuel sq_post kw0 o_non o_re sq_pre s specs evals f t = Ok w ->
      exists vals, List.length vals = Z.to_nat (s_npts (n_sw (w_sys w))) /\
        (forall i v, nth_error vals i = Some v -> exists (si : nsys A) outs dep, n_sw si = n_sw (w_sys w) /\ at_point si i /\
           received meth diagonalize (view_of si) evals outs /\ nth_error outs m = Some (dep, v)) /\
        (forall iv static, getSweep (w_fs w) (n_sw (w_sys w)) (w_files w) iv static name =
           getSweepResult1 (fun v => Ok v) (n_sw (w_sys w)) iv static vals) /\
        (forall ivs static, getSweepN (w_fs w) (n_sw (w_sys w)) (w_files w) ivs static name =
           getSweepResultN (fun v => Ok v) (n_sw (w_sys w)) ivs static vals).
    Proof.
      intros RE GO LEN ND He NM E.
      destruct (C61_values LAW sg s ow specs kw0 o_non o_re sq_pre evals f t w m e RE GO LEN ND He E) as (vals & LV & HV & FV & P0).
      exists vals. split; auto. split; auto. unfold getSweep, getSweepN. rewrite NM. split; intros.
      - destruct (w_files w) as [|p0 r] eqn:FW; [inversion FV; reflexivity|]. destruct (P0 _ _ eq_refl) as (d & ->). cbn [bind is_dict]. now apply gsr1_read.
      - destruct (w_files w) as [|p0 r] eqn:FW; [inversion FV; reflexivity|]. destruct (P0 _ _ eq_refl) as (d & ->). cbn [bind is_dict]. now apply gsrN_read.
    Qed.

    (** *** one evaluation *)
    Lemma single_trace (LAW : alg_ok A) sg (s : nsys A) ow specs kw0 o_non o_re sq_pre evals e f t w :
      sreach sg (n_cst s) ow -> (forall i, good_ord (o_set i)) -> requested kw0 evals = [e] ->
      paramSweep meth diagonalize o_set o_sw fuel sq_post kw0 o_non o_re sq_pre s specs evals f t = Ok w ->
      forall i, i < Z.to_nat (s_npts (n_sw (w_sys w))) -> exists (si : nsys A) file v,
        n_sw si = n_sw (w_sys w) /\ at_point si i /\ nth_error (w_files w) i = Some file /\ readPart (w_fs w) file = Ok (PVal v) /\
        call meth diagonalize (view_of si) e None = Ok v.
    Proof.
      intros RE GO RQ E i Li.
      destruct (sweep_trace LAW sg s ow specs kw0 o_non o_re sq_pre evals f t w RE GO E i Li) as (si & file & p & H1 & H2 & H3 & H4 & H5).
      rewrite RQ in H5. unfold evaluate in H5. destruct (call _ _ _ e None) as [v|] eqn:C; [|discriminate]. injection H5 as <-.
      exists si, file, v. auto.
    Qed.
    Lemma C79_lemma (LAW : alg_ok A) sg (s : nsys A) ow specs kw0 o_non o_re sq_pre evals e f t w name dg dp :
      sreach sg (n_cst s) ow -> (forall i, good_ord (o_set i)) -> requested kw0 evals = [e] ->
      (forall vw l, call meth diagonalize vw e None <> Ok (VMap l)) -> dget eval_spec name = Some (e_eval e, dg, dp) ->
      paramSweep meth diagonalize o_set o_sw fuel sq_post kw0 o_non o_re sq_pre s specs evals f t = Ok w ->
      exists vals, List.length vals = Z.to_nat (s_npts (n_sw (w_sys w))) /\
        (forall i v, nth_error vals i = Some v -> exists si : nsys A, n_sw si = n_sw (w_sys w) /\ at_point si i /\
           call meth diagonalize (view_of si) e None = Ok v) /\
        (forall iv static, getSweep (w_fs w) (n_sw (w_sys w)) (w_files w) iv static name =
           getSweepResult1 (fun v => Ok v) (n_sw (w_sys w)) iv static vals) /\
        (forall ivs static, getSweepN (w_fs w) (n_sw (w_sys w)) (w_files w) ivs static name =
           getSweepResultN (fun v => Ok v) (n_sw (w_sys w)) ivs static vals).
    Proof.
      intros RE GO RQ NM NAME E. pose proof (sweep_nfiles _ _ _ _ _ _ _ _ _ _ E) as NF.
      pose proof (single_trace LAW sg s ow specs kw0 o_non o_re sq_pre evals e f t w RE GO RQ E) as TR.
      assert (forall n, n <= List.length (w_files w) -> exists vals, List.length vals = n /\
        (forall i v, nth_error vals i = Some v -> exists si : nsys A, n_sw si = n_sw (w_sys w) /\ at_point si i /\
           call meth diagonalize (view_of si) e None = Ok v) /\
        Forall2 (fun d v => read_key (w_fs w) false (e_eval e) d = Ok v) (firstn n (w_files w)) vals) as BUILD.
      { induction n as [|n IH]; intros Ln.
        - exists []. split; auto. split; [intros [|i] v; discriminate|]. constructor.
        - destruct IH as (vals & LV & HV & FV); [lia|]. destruct (TR n ltac:(lia)) as (si & file & v & H1 & H2 & H3 & H4 & H5).
          exists (vals ++ [v]). split; [rewrite app_length; cbn; lia|]. split.
          + intros i u Hi. destruct (Nat.lt_ge_cases i n) as [L|G].
            * rewrite nth_error_app1 in Hi by lia. now apply HV.
            * assert (i = n) as ->. { assert (i < List.length (vals ++ [v])) by (apply nth_error_Some; congruence). rewrite app_length in *. cbn in *. lia. }
              rewrite nth_error_app2 in Hi by lia. rewrite LV, Nat.sub_diag in Hi. cbn in Hi. injection Hi as <-. exists si. auto.
          + assert (firstn (S n) (w_files w) = firstn n (w_files w) ++ [file]) as ->.
            { clear - H3. revert n H3. generalize (w_files w). induction l as [|x l IH]; intros [|n] H; cbn in *; try discriminate; [congruence|]. f_equal. now apply IH. }
            apply Forall2_app; auto. constructor; auto. unfold read_key. rewrite H4. cbn [bind]. now destruct v. }
      destruct (BUILD (List.length (w_files w)) (le_n _)) as (vals & LV & HV & FV). rewrite firstn_all in FV.
      exists vals. split; [congruence|]. split; auto. unfold getSweep, getSweepN. rewrite NAME.
      destruct (w_files w) as [|p0 r] eqn:FW; [inversion FV; split; reflexivity|].
      destruct (TR 0) as (si & file & v & _ & _ & H3 & H4 & H5); [rewrite <- NF; cbn; lia|]. cbn in H3. injection H3 as <-. rewrite H4. cbn [bind].
      assert (is_dict (PVal v) = false) as -> by (destruct v; auto; now apply NM in H5).
      split; intros; [now apply gsr1_read|now apply gsrN_read].
    Qed.
    (** what is returned was read from one of the files *)
    Lemma mapM_from {X Y} (h : X -> res Y) l ys : mapM h l = Ok ys -> forall y, In y ys -> exists x, In x l /\ h x = Ok y.
    Proof.
      revert ys. induction l as [|x l IH]; intros ys; cbn [mapM]; [intros [= <-] y []|].
      destruct (h x) as [y0|] eqn:H; [|discriminate]. cbn [bind]. destruct (mapM h l) as [ys'|]; [|discriminate]. cbn [bind]. intros [= <-] y [<-|I].
      - exists x. split; [now left|auto].
      - destruct (IH _ eq_refl y I) as (x' & I' & H'). exists x'. split; [now right|auto].
    Qed.
    Lemma py_nth_In {X} (l : list X) z x : py_nth l z = Ok x -> In x l.
    Proof.
      unfold py_nth. set (i := if (z <? 0)%Z then _ else _). clearbody i. destruct (i <? 0)%Z; [discriminate|].
      destruct (nth_error l (Z.to_nat i)) as [y|] eqn:G; [|discriminate]. intros [= <-]. eapply nth_error_In; eauto.
    Qed.
    Lemma gsr1_from {X Y} (rd : X -> res Y) st iv stv data a vals out : getSweepResult1 rd st iv stv data = Ok (a, vals, out) ->
      forall v, In v vals -> exists d, In d data /\ rd d = Ok v.
    Proof.
      unfold getSweepResult1. destruct data as [|d0 ds]; [discriminate|]. set (data := d0 :: ds).
      destruct (negb _); [discriminate|]. destruct (negb _); [discriminate|]. destruct (getParameterSweep _ _) as [sw|]; [|discriminate]. cbn [bind].
      destruct (Nat.eqb _ _).
      - destruct (mapM rd data) as [r|] eqn:M; [|discriminate]. cbn [bind]. intros [= _ <- _] v I. eapply mapM_from; eauto.
      - destruct (statics _ _) as [sts|]; [|discriminate]. cbn [bind]. destruct (dget _ iv) as [n|]; [|discriminate]. cbn [bind].
        destruct (fill1 _ _ _ _) as [fin|]; [|discriminate]. cbn [bind]. destruct (columns fin) as [cols|]; [|discriminate]. cbn [bind].
        destruct (mapM _ (range n)) as [rs|] eqn:R; [|discriminate]. cbn [bind]. destruct (mapM rd rs) as [vs|] eqn:M; [|discriminate]. cbn [bind].
        intros [= _ <- _] v I. destruct (mapM_from _ _ _ M _ I) as (d & Id & Hd). exists d. split; auto.
        destruct (mapM_from _ _ _ R _ Id) as (z & _ & Hz). destruct (collapsedIndices _ _) as [k|]; [|discriminate]. cbn [bind] in Hz. now apply py_nth_In in Hz.
    Qed.
    Lemma C79_dict_lemma (LAW : alg_ok A) sg (s : nsys A) ow specs kw0 o_non o_re sq_pre evals e f t w name iv static arr vals st :
      sreach sg (n_cst s) ow -> (forall i, good_ord (o_set i)) -> requested kw0 evals = [e] ->
      (forall vw v, call meth diagonalize vw e None = Ok v -> exists l, v = VMap l) ->
      paramSweep meth diagonalize o_set o_sw fuel sq_post kw0 o_non o_re sq_pre s specs evals f t = Ok w ->
      getSweep (w_fs w) (n_sw (w_sys w)) (w_files w) iv static name = Ok (arr, vals, st) -> vals = [].
    Proof.
      intros RE GO RQ NM E. pose proof (sweep_nfiles _ _ _ _ _ _ _ _ _ _ E) as NF.
      pose proof (single_trace LAW sg s ow specs kw0 o_non o_re sq_pre evals e f t w RE GO RQ E) as TR.
      unfold getSweep. destruct (dget eval_spec name) as [[[key dg] dp]|]; [|discriminate]. destruct (w_files w) as [|p0 r] eqn:FW; [discriminate|].
      destruct (TR 0) as (si & file & v & _ & _ & H3 & H4 & H5); [rewrite <- NF; cbn; lia|]. cbn in H3. injection H3 as <-. rewrite H4. cbn [bind].
      destruct (NM _ _ H5) as (l & ->). cbn [is_dict]. intros G. destruct vals as [|u us]; auto. exfalso.
      destruct (gsr1_from _ _ _ _ _ _ _ _ G u (or_introl eq_refl)) as (d & Id & Hd).
      apply In_nth_error in Id as (i & Hi). destruct (TR i) as (si' & file' & v' & _ & _ & H3' & H4' & H5').
      { rewrite <- NF. apply nth_error_Some. congruence. }
      rewrite Hi in H3'. injection H3' as <-. unfold read_key in Hd. rewrite H4' in Hd. cbn [bind] in Hd. destruct (NM _ _ H5') as (l' & ->). discriminate.
    Qed.
  End Done.
End S.
Lemma add_stands {K} (l : list (entry K)) name kw :
  (forall m eig, stands_for name m eig -> addEvaluation l name kw = Ok (l ++ [mkentry m (String.eqb name "Hamiltonian") (if eig then Some "getHamiltonian" else None) kw])) /\
  ((forall m eig, ~ stands_for name m eig) -> addEvaluation l name kw = Err PlainException).
Proof.
  split.
  - intros m eig H. destruct H; reflexivity.
  - intros H. unfold addEvaluation. destruct (dget eval_spec name) as [x|] eqn:E; auto. exfalso. apply dget_In in E. cbn in E. repeat destruct E as [E|E]; try injection E as <- <-; try destruct E; eapply H; constructor.
Qed.
Lemma add_distinct {K} (l : list (entry K)) n1 n2 kw1 kw2 e1 e2 : addEvaluation l n1 kw1 = Ok (l ++ [e1]) -> addEvaluation l n2 kw2 = Ok (l ++ [e2]) -> n1 <> n2 -> e_eval e1 <> e_eval e2.
Proof.
  unfold addEvaluation. destruct (dget eval_spec n1) as [[[m1 d1] p1]|] eqn:E1; [|discriminate]. destruct (dget eval_spec n2) as [[[m2 d2] p2]|] eqn:E2; [|discriminate].
  intros A1 A2 Hne. injection A1 as A1. injection A2 as A2. apply app_inv_head in A1. apply app_inv_head in A2. injection A1 as <-. injection A2 as <-. cbn [e_eval]. intros ->.
  apply dget_In in E1. apply dget_In in E2. cbn in E1, E2.
  repeat (destruct E1 as [E1|E1]; [injection E1 as <- <- <- <-; repeat (destruct E2 as [E2|E2]; [first [discriminate E2 | injection E2 as <- <- <-; congruence]|]); destruct E2|]). destruct E1.
Qed.
