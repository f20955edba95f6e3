(** The sweep against the explicit loop. *)
From Coq Require Import List Bool String Arith NArith ZArith Lia SpecFloat Permutation.
From Verif Require Import Prelude PreludeFacts Symbolic Float Param Expr Sweep SweepProofs SweepResultProofs
  Coll CollGraph CollSpec CollProofs CollExpand CollUpdate CollMain CollFinal Temp NumOp NumSweep NumSweepSpec NumSubs NumRun
  NumSweepRun NumSteady.
Import ListNotations.
Open Scope list_scope.
Open Scope nat_scope.

Section S.
  Context {A : alg} (LAW : alg_ok A).
  Variable sg : string -> string.
  Hypothesis INJ : forall a b, sg a = sg b -> a = b.
  Implicit Types s : nsys A.

  (** ** Values stay set *)
  Definition all_given (st : cst A) : Prop := forall q, registered st q -> value_of st q <> None.
  Lemma set_loop_given kvs : forall (st st' : cst A) r q, set_loop st kvs = (st', r) -> value_of st q <> None -> value_of st' q <> None.
  Proof.
    induction kvs as [|[n v] l IH]; intros st st' r q E H; cbn [set_loop] in E; [injection E as <- _; auto|].
    destruct (dget (c_coll st) n) as [p|] eqn:G; [|injection E as <- _; auto].
    destruct (dmem (c_par st) n); [eapply IH; eauto|].
    destruct (setValue p v) as [p' [u|e]] eqn:SV.
    - eapply IH; eauto. unfold value_of in *. cbn [with_coll c_coll]. rewrite dget_dset. destruct (eqb_spec q n) as [->|]; auto.
      destruct u. apply setValue_ok in SV as (x & _ & ->). discriminate.
    - injection E as <- _. apply setValue_err in SV. subst p'. unfold value_of in *. cbn [with_coll c_coll]. rewrite dget_dset.
      destruct (eqb_spec q n) as [->|]; auto. now rewrite G in H.
  Qed.
  Lemma store_given (c : dict string param) k (v : option (E A)) q :
    match dget c q with Some p => p_value p | None => None end <> None ->
    match dget (store_one c k v) q with Some p => p_value p | None => None end <> None.
  Proof.
    intros H. unfold store_one. destruct v as [e|]; auto. destruct (dget c k) as [p|] eqn:G; auto.
    destruct (tofloat e) as [x|]; auto. destruct (setValue p (PFloat x)) as [p' [u|er]] eqn:SV; auto.
    rewrite dget_dset. destruct (eqb_spec q k) as [->|]; auto.
    destruct u. apply setValue_ok in SV as (y & _ & ->). discriminate.
  Qed.
  Lemma stores_given (vals : dict string (option (E A))) q : forall c,
    match dget c q with Some p => p_value p | None => None end <> None ->
    match dget (fold_left (fun c kv => store_one c (fst kv) (snd kv)) vals c) q with Some p => p_value p | None => None end <> None.
  Proof. induction vals as [|[k v] l IH]; intros c H; auto. cbn [fold_left fst snd]. apply IH. now apply store_given. Qed.
  Lemma set_given ord fuel (st st' : cst A) kvs : setParameterValues ord fuel st (SVDict kvs) = (st', Ok tt) -> all_given st -> all_given st'.
  Proof.
    intros E H q R. destruct (setValues_frame ord fuel (SVDict kvs) st) as (c & Ec & K). rewrite E in Ec. cbn [fst] in Ec.
    assert (value_of st q <> None) as V. { apply H. unfold registered in *. subst st'. cbn [with_coll c_coll] in R. congruence. }
    cbn [setParameterValues] in E. unfold set_pairs in E. destruct (set_loop st kvs) as [st2 [u|e]] eqn:SL; [|discriminate].
    pose proof (set_loop_given _ _ _ _ q SL V) as V2.
    unfold update in E. destruct (root_loop _ _ _ _ _ _) as [vals|e]; [|discriminate]. injection E as E. rewrite <- E.
    unfold value_of. cbn [with_coll c_coll]. apply stores_given. exact V2.
  Qed.
  Lemma all_given_set (st : cst A) : NoDup (dkeys (c_coll st)) -> all_given st -> all_set (getParameterValuesDict st) = true.
  Proof.
    intros ND H. unfold all_set, getParameterValuesDict. apply forallb_forall. intros [k v] I. apply in_map_iff in I as ([k' p] & E & I).
    cbn [fst snd] in *. injection E as <- <-. pose proof (In_dget _ _ _ ND I) as G.
    specialize (H k'). unfold value_of in H. rewrite G in H. specialize (H (dget_Some_key _ _ _ G)). unfold getValue. now destruct (p_value p).
  Qed.

  (** ** One step *)
  Section Step.
    Variable s1 : nsys A.
    Let st1 := n_cst s1.
    Let swept := s_params (n_sw s1).
    Hypothesis GI : ginv sg st1 [].
    Hypothesis SE : settled sg st1.
    Hypothesis IND : forall n, In n swept -> independent st1 n.
    Hypothesis FI : fixed_impedances s1 swept.
    Hypothesis KEYS : incl (dkeys (s_c (n_sw s1))) swept.

    Record inv s : Prop := {
      iv_cst : exists c, n_cst s = with_coll st1 c /\ kept st1 swept c;
      iv_sw : n_sw s = n_sw s1;
      iv_ex : n_exprs s = n_exprs s1;
      iv_data : n_data s = n_data s1;
      iv_sync : in_sync s;
      iv_set : all_given (n_cst s)
    }.
    Variables (o_non o_re : ordr) (sq_pre : sq_t) (pre : list (E A)) (regen : list nat).
    Hypothesis GO_non : good_ord o_non.
    Hypothesis GQ_pre : good_sq sq_pre.
    Hypothesis PRE : presub o_non sq_pre s1 = Ok pre.
    Hypothesis REGEN : regen_nodes o_re s1 = Ok regen.

    Lemma grid_point_keys s i pt : grid_point (n_sw s) i = Ok pt -> map fst pt = dkeys (s_c (n_sw s)).
    Proof.
      unfold grid_point. generalize (s_c (n_sw s)). intros d. revert pt. induction d as [|[k v] d IH]; intros pt E; cbn [mapM] in E.
      - now injection E as <-.
      - cbn [fst snd] in E. destruct (nth_error v i); [|discriminate]. cbn [bind] in E.
        match type of E with bind ?m _ = _ => destruct m as [l|] eqn:X; [|discriminate] end. injection E as <-. cbn [map fst dkeys].
        change (k :: map fst l = k :: dkeys d). f_equal. exact (IH l eq_refl).
    Qed.
    Lemma regen_data n : In n regen -> In n (dkeys (n_data s1)).
    Proof.
      unfold regen_nodes in REGEN. destruct (getSweepParametersDict _ _ _) as [d|]; [|discriminate]. injection REGEN as <-.
      intros H. apply in_map_iff in H as (nd & <- & H). apply filter_In in H as [H _]. now apply in_map.
    Qed.

    Lemma step_eq s i pt ord ord' fuel sq sq' : inv s -> good_ord ord -> good_ord ord' -> good_sq sq -> good_sq sq' ->
      grid_point (n_sw s) i = Ok pt ->
      (forall st', setParameterValues ord fuel (n_cst s) (SVDict (map (fun kv => (fst kv, PFloat (snd kv))) pt)) = (st', Ok tt) ->
         forall e, In e (n_exprs s) -> has_number sg st' e \/ alg_plain A) ->
      postsub ord ord' fuel sq' pre regen s pt = ns_set ord fuel sq s (SVDict (map (fun kv => (fst kv, PFloat (snd kv))) pt)) /\
      (forall s', postsub ord ord' fuel sq' pre regen s pt = Ok s' -> inv s').
    Proof.
      intros [(c0 & CS & KE) SW EX DA SY ST] GO GO' GQ GQ' GP NUM.
      unfold postsub, ns_set.
      destruct (setParameterValues ord fuel (n_cst s) _) as [c [[]|e]] eqn:SV; [|split; [auto|discriminate]].
      specialize (NUM c eq_refl).
      destruct (kept_set LAW sg INJ st1 swept GI SE c0 (map (fun kv => (fst kv, PFloat (snd kv))) pt) ord fuel c KE GO) as (c' & -> & KE').
      { rewrite map_map. cbn [fst]. change (map (fun x : string * f64 => fst x) pt) with (map fst pt).
        rewrite (grid_point_keys _ _ _ GP), SW. exact KEYS. }
      { now rewrite <- CS. }
      assert (GIV : all_given (with_coll st1 c')) by (eapply set_given; eauto).
      pose proof (proj1 KE') as KC'.
      assert (GI' : ginv sg (with_coll st1 c') []) by now apply ginv_coll.
      rewrite all_given_set; [|apply (wf_nodup _ (ti_wf _ _ (gi_t _ _ _ GI')))|assumption].
      destruct (two_stage LAW sg INJ st1 c' swept GI KC' IND (kept_steady _ _ _ KE') GIV
                  o_non ord' sq_pre sq' sq (n_exprs s1) GO_non GO' GQ_pre GQ' GQ) as (dn & ds & d & pre' & E1 & E2 & E3 & E4 & E5).
      { intros e He. apply NUM. now rewrite EX. }
      assert (pre' = pre) as ->.
      { pose proof PRE as PR. unfold presub in PR. change (n_cst s1) with st1 in PR. change (s_params (n_sw s1)) with swept in PR.
        rewrite E1 in PR. cbn [bind] in PR. congruence. }
      rewrite SW. change (s_params (n_sw s1)) with swept. rewrite E2. cbn [bind]. rewrite E5.
      unfold substitute. cbn [with_cst n_cst n_exprs]. rewrite E3. cbn [bind]. rewrite EX.
      destruct (mapM _ (n_exprs s1)) as [l|e]; [|split; [auto|discriminate]]. cbn [bind].
      assert (SY' : in_sync (with_nums (with_cst s (with_coll st1 c')) l)).
      { apply in_sync_move; auto.
        - rewrite CS. cbn [with_coll c_coll]. rewrite KC'. symmetry. apply KE.
        - intros n dd e G B. rewrite CS. rewrite DA in G.
          assert (~ dependents st1 swept (zname n)) as ND by (eapply FI; eauto).
          destruct (mem_In_dec (zname n) (dkeys (c_coll st1))) as [R|R].
          + rewrite (kept_steady _ _ _ KE' _ R ND), (kept_steady _ _ _ KE _ R ND). reflexivity.
          + assert (forall x, dkeys x = dkeys (c_coll st1) -> value_of (with_coll st1 x) (zname n) = None) as HN.
            { intros x K. unfold value_of. cbn [with_coll c_coll]. destruct (dget x (zname n)) eqn:G'; auto. apply dget_Some_key in G'. exfalso. apply R. congruence. }
            rewrite !HN; auto. apply KE. }
      change (with_nums (mkns (with_coll st1 c') (n_sw s) (n_exprs s) (n_data s) (n_nums s) (n_circ s) (n_qp s)) l)
        with (with_nums (with_cst s (with_coll st1 c')) l).
      rewrite (prepare_noop _ SY').
      assert (expandOps (with_coll st1 c') (n_data s) (n_circ s) regen = Ok (n_circ s)) as ->.
      { apply expandOps_noop. intros n Hn. apply regen_data in Hn. rewrite <- DA in Hn. apply dget_data in Hn as (dd & e & G).
        destruct SY' as [SY1 _]. destruct (SY1 n dd e G) as (o & Ho & Hc). exists dd, e, o. auto. }
      cbn [bind]. split; [reflexivity|]. intros s' [= <-]. constructor; cbn [with_circ with_nums with_cst n_cst n_sw n_exprs n_data]; auto.
      - exists c'. auto.
    Qed.

    Context {D K : Type}.
    Variable meth : string -> K -> option (D * D) -> view -> res (value D).
    Variable diagonalize : value D -> res (value D).
    Variables (o_set o_sw : nat -> ordr) (fuel : nat) (sq_exp sq_post : nat -> sq_t).
    Hypothesis GO_set : forall i, good_ord (o_set i).
    Hypothesis GO_sw : forall i, good_ord (o_sw i).
    Hypothesis GQ_exp : forall i, good_sq (sq_exp i).
    Hypothesis GQ_post : forall i, good_sq (sq_post i).
    Variable es : list (entry K).

    Lemma loop_eq : forall is s w, inv s -> w_sys w = s -> dkeys (w_res w) = dkeys (@results0 D K es) ->
      (ordered_from [] es \/ w_res w = results0 es) -> dir_ok (w_fs w) (w_temp w) = true ->
      (numbers_along sg o_set fuel sq_exp s is \/ alg_plain A) ->
      match explicit meth diagonalize o_set fuel sq_exp es s is with
      | Ok l => chain meth diagonalize o_set o_sw fuel sq_post es pre regen s (w_res w) is l
      | Err x => foldM (sweep_point meth diagonalize o_set o_sw fuel sq_post es pre regen) is w = Err x
      end.
    Proof.
      induction is as [|i is IH]; intros s w IV WS RK OR DK NA; cbn [explicit chain foldM]; auto.
      rewrite point_step, WS. destruct (grid_point (n_sw s) i) as [pt|e] eqn:GP; [|reflexivity]. cbn [bind].
      destruct (step_eq s i pt (o_set i) (o_sw i) fuel (sq_exp i) (sq_post i) IV (GO_set i) (GO_sw i) (GQ_exp i) (GQ_post i) GP) as [EQ NX].
      { intros st' SV e He. destruct NA as [NA|NA]; auto. left. apply (NA pt st' GP SV). exact He. }
      rewrite EQ. destruct (ns_set (o_set i) fuel (sq_exp i) s _) as [s'|e] eqn:NS; [|reflexivity]. cbn [bind].
      specialize (NX s' EQ).
      assert (NA' : numbers_along sg o_set fuel sq_exp s' is \/ alg_plain A).
      { destruct NA as [NA|NA]; auto. left.
        destruct (setParameterValues (o_set i) fuel (n_cst s) (SVDict (map (fun kv => (fst kv, PFloat (snd kv))) pt))) as [st' [[]|x]] eqn:SV.
        - now apply (NA pt st' GP SV).
        - unfold ns_set in NS. rewrite SV in NS. discriminate. }
      assert (EV : eval_step meth diagonalize es (view_of s') (w_res w) =
                   bind (evaluate meth diagonalize es (view_of s'))
                        (fun p => Ok (match es with [_] => w_res w | _ => match p with PDict r => r | _ => w_res w end end, p))).
      { unfold eval_step, evaluate. destruct es as [|e0 [|e1 es']].
        - destruct OR as [O|OR]; [rewrite (run_fresh meth diagonalize _ _ _ O RK)|rewrite OR]; destruct (run_entries _ _ _ _ _); reflexivity.
        - destruct (call _ _ _ _ _); reflexivity.
        - destruct OR as [O|OR]; [rewrite (run_fresh meth diagonalize _ _ _ O RK)|rewrite OR]; destruct (run_entries _ _ _ _ _); reflexivity. }
      rewrite EV. destruct (evaluate meth diagonalize es (view_of s')) as [p|x] eqn:EV'; [|reflexivity]. cbn [bind snd fst].
      set (r' := match es with [_] => w_res w | _ => match p with PDict r => r | _ => w_res w end end) in *.
      assert (dkeys r' = dkeys (@results0 D K es) /\ (ordered_from [] es \/ r' = results0 es)) as [RK' OR'].
      { unfold r'. clear r' EV. unfold evaluate in EV'. clear IH NA NA'.
        assert (forall r, run_entries meth diagonalize (view_of s') (results0 es) es = Ok r -> dkeys r = dkeys (@results0 D K es) /\ ordered_from [] es) as RU.
        { intros r E. split.
          - apply (run_keys meth diagonalize _ _ _ _ E). intros k. apply (results0_keys meth es).
          - eapply run_ordered; eauto. }
        destruct es as [|e0 [|e1 es']].
        - destruct (run_entries _ _ _ _ _) as [r|] eqn:R; [|discriminate]. injection EV' as <-. destruct (RU _ eq_refl). auto.
        - auto.
        - destruct (run_entries _ _ _ _ _) as [r|] eqn:R; [|discriminate]. injection EV' as <-. destruct (RU _ eq_refl). auto. }
      unfold writePart. pose proof DK as DK'. unfold dir_ok in DK'. rewrite DK'. cbn [bind].
      set (w' := mkswp s' _ _ r' _).
      specialize (IH s' w' NX eq_refl RK' OR' DK NA'). change (w_res w') with r' in IH.
      destruct (explicit meth diagonalize o_set fuel sq_exp es s' is) as [l|x]; cbn [bind]; [|exact IH].
      exists pt, r'. rewrite EQ, EV. cbn [bind]. auto.
    Qed.
  End Step.
End S.
