(** Sweeps point by point: the grid, the operators, the files written. *)
From Coq Require Import List Bool String Arith NArith ZArith Lia SpecFloat Permutation.
From Verif Require Import Prelude PreludeFacts Symbolic Float Param Expr Sweep SweepProofs SweepResultProofs
  Coll CollGraph CollSpec CollProofs CollExpand CollUpdate CollMain CollFinal LatexProofs StrFacts Temp TempProofs NumOp NumSweep NumSweepSpec NumSubs NumRun.
Import ListNotations.
Open Scope list_scope.
Open Scope nat_scope.

(** ** Building the grid *)
Definition same_param (p p' : param) : Prop := p_value p' = p_value p /\ p_lo p' = p_lo p /\ p_hi p' = p_hi p.
Lemma linearSweep_same p a b n p' l : linearSweep p a b n = (p', Ok l) -> same_param p p'.
Proof.
  unfold linearSweep. intros H.
  repeat match type of H with
  | (if ?x then _ else _) = _ => destruct x; try discriminate
  | match ?x with _ => _ end = _ => destruct x; try discriminate
  end.
  injection H as <- _. now repeat split.
Qed.
Definition same_coll (c c' : dict string param) : Prop :=
  dkeys c' = dkeys c /\ forall k p, dget c k = Some p -> exists p', dget c' k = Some p' /\ same_param p p'.
Lemma same_coll_refl c : same_coll c c.
Proof. split; auto. intros k p H. exists p. now repeat split. Qed.
Lemma same_coll_trans a b c : same_coll a b -> same_coll b c -> same_coll a c.
Proof.
  intros [K H] [K' H']. split; [congruence|]. intros k p G. destruct (H k p G) as (p' & G' & (V & L & U)).
  destruct (H' k p' G') as (p'' & G'' & (V' & L' & U')). exists p''. split; auto. repeat split; congruence.
Qed.
Lemma nd_loop_same : forall specs coll npts keys sweeps coll' npts' keys' sweeps',
  nd_loop coll npts keys sweeps specs = (coll', npts', Ok (keys', sweeps')) ->
  same_coll coll coll' /\ keys' = keys ++ map sp_name specs.
Proof.
  induction specs as [|s r IH]; intros coll npts keys sweeps coll' npts' keys' sweeps' H; cbn [nd_loop] in H.
  - injection H as <- _ <- _. split; [apply same_coll_refl|]. now rewrite app_nil_r.
  - destruct (dget coll (sp_name s)) as [p|] eqn:G; [|discriminate].
    destruct (linearSweep p _ _ _) as [p' [l|]] eqn:L; [|discriminate]. apply IH in H as [H ->].
    split; [|rewrite <- app_assoc; reflexivity]. eapply same_coll_trans; [|exact H].
    split; [apply dkeys_dset_in; eapply dget_Some_key; eauto|].
    intros k q Gq. rewrite dget_dset. destruct (eqb_spec k (sp_name s)) as [->|]; [|exists q; now repeat split].
    exists p'. split; auto. rewrite Gq in G. injection G as ->. eapply linearSweep_same; eauto.
Qed.
Lemma ndSweep_same sw specs sw' u : ndSweep sw specs = (sw', Ok u) ->
  same_coll (s_coll sw) (s_coll sw') /\ s_params sw' = map sp_name specs.
Proof.
  unfold ndSweep. destruct (nd_loop _ _ _ _ specs) as [[c n] [[k l]|e]] eqn:E; [|discriminate].
  intros [= <- _]. apply nd_loop_same in E as [H ->]. auto.
Qed.
Lemma nd_loop_keys : forall specs coll npts keys sweeps, dkeys (fst (fst (nd_loop coll npts keys sweeps specs))) = dkeys coll.
Proof.
  induction specs as [|s r IH]; intros coll npts keys sweeps; cbn [nd_loop]; auto.
  destruct (dget coll (sp_name s)) as [p|] eqn:G; [|reflexivity].
  assert (forall p', dkeys (dset coll (sp_name s) p') = dkeys coll) as K by (intros p'; apply dkeys_dset_in; eapply dget_Some_key; eauto).
  destruct (linearSweep p _ _ _) as [p' [l|]]; [|apply K]. now rewrite IH.
Qed.
Lemma ndSweep_keys sw specs : dkeys (s_coll (fst (ndSweep sw specs))) = dkeys (s_coll sw).
Proof.
  unfold ndSweep. pose proof (nd_loop_keys specs (s_coll sw) 1%Z [] []) as K.
  destruct (nd_loop _ _ _ _ specs) as [[c n] [[k l]|e]]; exact K.
Qed.
Lemma ginv_sreach {A : alg} (LAW : alg_ok A) sg (st : cst A) ow : sreach sg st ow -> ginv sg st ow.
Proof.
  induction 1 as [st ow H|fuel st ow o _ IH G O|st ow sw specs _ IH E]; [now apply (ginv_reach LAW)|now apply (ginv_step LAW)|].
  apply ginv_coll; auto. now rewrite ndSweep_keys, E.
Qed.

Section S.
  Context {A : alg} (LAW : alg_ok A).
  Variable sg : string -> string.
  Hypothesis INJ : forall a b, sg a = sg b -> a = b.
  Implicit Types s : nsys A.

  Lemma with_grid_frame s specs s1 : with_grid s specs = Ok s1 ->
    (exists c, n_cst s1 = with_coll (n_cst s) c /\ same_coll (c_coll (n_cst s)) c) /\ s_params (n_sw s1) = map sp_name specs /\
    n_exprs s1 = n_exprs s /\ n_data s1 = n_data s /\ n_circ s1 = n_circ s /\ n_qp s1 = n_qp s /\ n_nums s1 = n_nums s /\
    s_coll (n_sw s1) = c_coll (n_cst s1).
  Proof.
    unfold with_grid. destruct (ndSweep _ specs) as [sw [u|e]] eqn:E; [|discriminate]. intros [= <-].
    apply ndSweep_same in E as [H P]. cbn [n_cst n_sw n_exprs n_data n_circ n_qp n_nums] in *. split; [|now repeat split].
    exists (s_coll sw). auto.
  Qed.
  Lemma grid_sreach s specs s1 ow : with_grid s specs = Ok s1 -> sreach sg (n_cst s) ow -> sreach sg (n_cst s1) ow.
  Proof.
    unfold with_grid. set (sw0 := mksw (c_coll (n_cst s)) _ _ _ _ _ _ _). destruct (ndSweep sw0 specs) as [sw [u|e]] eqn:E; [|discriminate]. intros [= <-] H.
    cbn [n_cst]. replace sw with (fst (ndSweep sw0 specs)) by now rewrite E. now apply sreach_sweep.
  Qed.
  Lemma value_same (st : cst A) c q : same_coll (c_coll st) c -> value_of (with_coll st c) q = value_of st q.
  Proof.
    intros [K H]. unfold value_of. cbn [with_coll c_coll]. destruct (dget (c_coll st) q) as [p|] eqn:G.
    - destruct (H q p G) as (p' & -> & (V & _)). auto.
    - destruct (dget c q) as [p|] eqn:G'; auto. exfalso. apply dget_Some_key in G'. rewrite K in G'. apply dkeys_dget in G' as (x & Gx). congruence.
  Qed.
  Lemma gpv_value (st : cst A) q : registered st q -> getParameterValue st q = Ok (value_of st q).
  Proof. intros R. apply dkeys_dget in R as (p & G). unfold getParameterValue, value_of. now rewrite G. Qed.
  Lemma gen_op_same (c c' : cst A) n d o : dkeys (c_coll c') = dkeys (c_coll c) ->
    (od_basis d = BOscillator -> value_of c' (zname n) = value_of c (zname n)) -> gen_op c n d = Ok o -> gen_op c' n d = Ok o.
  Proof.
    intros K H. unfold gen_op. destruct (od_basis d) eqn:B; auto. specialize (H eq_refl).
    destruct (getParameterValue c (zname n)) as [z|] eqn:G; [|discriminate].
    assert (registered c (zname n)) as R.
    { unfold getParameterValue in G. destruct (dget (c_coll c) (zname n)) eqn:X; [|discriminate]. eapply dget_Some_key; eauto. }
    rewrite (gpv_value c _ R) in G. injection G as <-.
    rewrite (gpv_value c'); [|unfold registered in *; congruence]. now rewrite H.
  Qed.

  (** ** Operators stay the same *)
  Lemma dset_noop {X} (d : dict nat X) k v : dget d k = Some v -> dset d k v = d.
  Proof.
    induction d as [|[k' v'] d IH]; [discriminate|]. cbn [dget dset]. destruct (eqb_spec k k') as [->|].
    - now intros [= ->].
    - intros H. now rewrite IH.
  Qed.
  Lemma expandOps_noop (c : cst A) data circ : forall l,
    (forall n, In n l -> exists d e o, dget data n = Some (d, e) /\ gen_op c n d = Ok o /\ dget circ n = Some o) ->
    expandOps c data circ l = Ok circ.
  Proof.
    unfold expandOps. induction l as [|n l IH]; intros H; auto. cbn [foldM].
    destruct (H n (or_introl eq_refl)) as (d & e & o & -> & G & C). rewrite G. cbn [bind]. rewrite (dset_noop _ _ _ C).
    apply IH. intros m Hm. apply H. now right.
  Qed.
  Lemma qp_mapM {X} (circ : dict nat X) : forall ks qp, Forall2 (fun n o => dget circ n = Some o) ks qp ->
    mapM (fun n => match dget circ n with Some o => Ok o | None => Err KeyError end) ks = Ok qp.
  Proof. induction 1 as [|n o ks qp H _ IH]; auto. cbn [mapM]. rewrite H. cbn [bind]. now rewrite IH. Qed.
  Lemma dget_data s n : In n (dkeys (n_data s)) -> exists d e, dget (n_data s) n = Some (d, e).
  Proof. intros H. apply dkeys_dget in H as ([d e] & H). eauto. Qed.
  Lemma prepare_noop s : in_sync s -> prepareOperators s = Ok s.
  Proof.
    intros [H1 H2]. unfold prepareOperators. rewrite expandOps_noop.
    - cbn [bind]. rewrite (qp_mapM _ _ _ H2). now destruct s.
    - intros n Hn. apply dget_data in Hn as (d & e & G). destruct (H1 _ _ _ G) as (o & Ho & Hc). exists d, e, o. auto.
  Qed.
  Lemma in_sync_move s c l : in_sync s -> dkeys (c_coll c) = dkeys (c_coll (n_cst s)) ->
    (forall n d e, dget (n_data s) n = Some (d, e) -> od_basis d = BOscillator -> value_of c (zname n) = value_of (n_cst s) (zname n)) ->
    in_sync (with_nums (with_cst s c) l).
  Proof.
    intros [H1 H2] K HV. split; auto. intros n d e G. destruct (H1 n d e G) as (o & Ho & Hc). exists o. split; auto.
    cbn [with_nums with_cst n_cst]. eapply gen_op_same; [exact K| |exact Ho]. intros B. eapply HV; eauto.
  Qed.

  (** ** Files *)
  Context {D K : Type}.
  Variable meth : string -> K -> option (D * D) -> view -> res (value D).
  Variable diagonalize : value D -> res (value D).
  Notation run := (run_entries meth diagonalize).
  Notation callm := (call meth diagonalize).
  Variables (o_set o_sw : nat -> ordr) (fuel : nat) (sq_post : nat -> sq_t).
  Variables (es : list (entry K)) (pre : list (E A)) (regen : list nat).
  Notation pt_step := (sweep_point meth diagonalize o_set o_sw fuel sq_post es pre regen).

  Definition eval_step vw r : res (dict string (value D) * part D) :=
    match es with
    | [e] => bind (callm vw e None) (fun v => Ok (r, PVal v))
    | _ => bind (run vw r es) (fun r => Ok (r, PDict r))
    end.
  Fixpoint chain s (r : dict string (value D)) (is : list nat) (l : list (nsys A * part D)) : Prop :=
    match is, l with
    | [], [] => True
    | i :: is, (s', p) :: l =>
        exists pt r', grid_point (n_sw s) i = Ok pt /\ postsub (o_set i) (o_sw i) fuel (sq_post i) pre regen s pt = Ok s' /\
          eval_step (view_of s') r = Ok (r', p) /\ chain s' r' is l
    | _, _ => False
    end.
  Definition file_name (t : temp) (j : nat) : string :=
    part_name (mktemp (session_path t) (session_exists t) (part_count t + N.of_nat j)).
  Lemma file_name_0 t : file_name t 0 = part_name t.
  Proof. unfold file_name. rewrite N.add_0_r. now destruct t. Qed.
  Lemma file_name_S t j : file_name t (S j) = file_name (mktemp (session_path t) (session_exists t) (part_count t + 1)) j.
  Proof. unfold file_name. cbn [session_path session_exists part_count]. do 2 f_equal. lia. Qed.
  Lemma file_name_inj t i j : file_name t i = file_name t j -> i = j.
  Proof.
    unfold file_name, part_name. cbn [session_path part_count]. intros E.
    apply app_str_inj_l in E. apply app_str_inj_l in E. apply app_str_inj_r in E. apply dec_inj in E. lia.
  Qed.
  Definition dir_ok (f : fs (part D)) (t : temp) : bool := eqb (session_path t) "" || mem (session_path t) (dirs f).

  Lemma point_step w i : pt_step w i =
    bind (grid_point (n_sw (w_sys w)) i) (fun pt =>
    bind (postsub (o_set i) (o_sw i) fuel (sq_post i) pre regen (w_sys w) pt) (fun s =>
    bind (eval_step (view_of s) (w_res w)) (fun rp =>
    match writePart (w_fs w) (w_temp w) (snd rp) with
    | (_, _, Err e) => Err e
    | (f, t, Ok p) => Ok (mkswp s f t (fst rp) (w_files w ++ [p]))
    end))).
  Proof. reflexivity. Qed.

  Lemma sweep_intro : forall is l w, chain (w_sys w) (w_res w) is l -> (is <> [] -> dir_ok (w_fs w) (w_temp w) = true) ->
    exists w', foldM pt_step is w = Ok w' /\
      w_files w' = w_files w ++ map (file_name (w_temp w)) (seq 0 (List.length is)) /\
      (forall j s p, nth_error l j = Some (s, p) -> readPart (w_fs w') (file_name (w_temp w) j) = Ok p) /\
      (forall q, (forall j, j < List.length is -> q <> file_name (w_temp w) j) -> dget (files (w_fs w')) q = dget (files (w_fs w)) q) /\
      w_sys w' = match rev l with [] => w_sys w | (s, _) :: _ => s end.
  Proof.
    induction is as [|i is IH]; intros l w C DK.
    - destruct l; [|destruct C]. exists w. cbn [foldM List.length seq map rev]. rewrite app_nil_r. repeat split; auto. intros [|j]; discriminate.
    - destruct l as [|[s p] l]; [destruct C|]. destruct C as (pt & r' & GP & PS & EV & C).
      cbn [foldM]. rewrite point_step, GP. cbn [bind]. rewrite PS. cbn [bind]. rewrite EV. cbn [bind snd fst].
      specialize (DK ltac:(discriminate)). unfold writePart. unfold dir_ok in DK. rewrite DK. cbn [bind].
      set (w1 := mkswp s _ _ r' _).
      destruct (IH l w1 C) as (w' & E & F1 & F2 & F3 & F4).
      { intros _. unfold dir_ok, w1. cbn [w_fs w_temp session_path dirs]. exact DK. }
      exists w'. split; auto. split; [|split; [|split]].
      + rewrite F1. unfold w1 at 1 2. cbn [w_files w_temp]. rewrite <- app_assoc. cbn [List.length seq map app].
        rewrite file_name_0. do 2 f_equal. rewrite <- seq_shift, map_map. apply map_ext. intros j. symmetry. apply file_name_S.
      + intros [|j] s0 p0 Hj; cbn [nth_error] in Hj.
        * injection Hj as <- <-. unfold readPart. rewrite F3.
          -- unfold w1. cbn [w_fs files]. rewrite file_name_0, dget_dset_eq. reflexivity.
          -- intros j Lj E0. unfold w1 in E0. cbn [w_temp] in E0. rewrite <- file_name_S in E0. apply file_name_inj in E0. discriminate.
        * rewrite file_name_S. apply (F2 j s0 p0 Hj).
      + intros q Hq. rewrite F3.
        * unfold w1. cbn [w_fs files]. apply dget_dset_neq. intros ->. apply (Hq 0); [cbn [List.length]; lia|]. symmetry. apply file_name_0.
        * intros j Lj. unfold w1. cbn [w_temp]. rewrite <- file_name_S. apply Hq. cbn [List.length]. lia.
      + rewrite F4. cbn [rev]. destruct (rev l) as [|[s0 p0] l0]; reflexivity.
  Qed.
  Lemma sweep_elim : forall is w w', foldM pt_step is w = Ok w' ->
    (exists l, chain (w_sys w) (w_res w) is l) /\ (is <> [] -> dir_ok (w_fs w) (w_temp w) = true).
  Proof.
    induction is as [|i is IH]; intros w w' E.
    - split; [now exists []|]. intros []. reflexivity.
    - cbn [foldM] in E. rewrite point_step in E.
      destruct (grid_point (n_sw (w_sys w)) i) as [pt|] eqn:GP; [|discriminate]. cbn [bind] in E.
      destruct (postsub _ _ _ _ _ _ _ pt) as [s|] eqn:PS; [|discriminate]. cbn [bind] in E.
      destruct (eval_step (view_of s) (w_res w)) as [[r' p]|] eqn:EV; [|discriminate]. cbn [bind snd fst] in E.
      unfold writePart in E. destruct (eqb (session_path (w_temp w)) "" || mem (session_path (w_temp w)) (dirs (w_fs w))) eqn:DK; [|discriminate].
      cbn [bind] in E. destruct (IH _ _ E) as [(l & C) _]. split; [|auto].
      exists ((s, p) :: l). exists pt, r'. auto.
  Qed.
  Lemma chain_length : forall is l s r, chain s r is l -> List.length l = List.length is.
  Proof. induction is as [|i is IH]; intros [|[s' p] l] s r; cbn [chain]; try tauto. intros (pt & r' & _ & _ & _ & C). cbn. f_equal. eauto. Qed.
End S.
