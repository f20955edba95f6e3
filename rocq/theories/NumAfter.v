(** What a parameter sweep leaves in the collection. *)
From Coq Require Import List Bool String Arith NArith ZArith Lia SpecFloat Permutation.
From Verif Require Import Prelude PreludeFacts Symbolic Float Param Expr Sweep SweepProofs
  Coll CollGraph CollSpec CollProofs CollExpand CollUpdate CollMain CollFinal CollLast Temp NumOp NumSweep NumSweepSpec NumSubs NumRun
  NumSweepRun NumSteady NumSweepProofs NumSweepFinal NumSweepWit NumSweepRef ExprProofs.
Import ListNotations.
Open Scope list_scope.
Open Scope nat_scope.

Section S.
  Context {A : alg} (LAW : alg_ok A).
  Variable sg : string -> string.
  Hypothesis INJ : forall a b, sg a = sg b -> a = b.
  Implicit Types s : nsys A.

  (** ** Bounds *)
  Definition bounds_kept (c c' : dict string param) : Prop :=
    forall q p, dget c q = Some p -> exists p', dget c' q = Some p' /\ p_lo p' = p_lo p /\ p_hi p' = p_hi p.
  Lemma bounds_refl c : bounds_kept c c. Proof. intros q p G. eauto. Qed.
  Lemma bounds_trans a b c : bounds_kept a b -> bounds_kept b c -> bounds_kept a c.
  Proof.
    intros H1 H2 q p G. destruct (H1 q p G) as (p1 & G1 & L1 & U1). destruct (H2 q p1 G1) as (p2 & G2 & L2 & U2).
    exists p2. repeat split; congruence.
  Qed.
  Lemma bounds_dset c k p p' : dget c k = Some p -> p_lo p' = p_lo p -> p_hi p' = p_hi p -> bounds_kept c (dset c k p').
  Proof.
    intros G L U q p0 G0. rewrite dget_dset. destruct (eqb_spec q k) as [->|]; [|eauto].
    exists p'. split; auto. rewrite G in G0. injection G0 as <-. auto.
  Qed.
  Lemma set_loop_bounds kvs : forall (st st' : cst A) r, set_loop st kvs = (st', r) -> bounds_kept (c_coll st) (c_coll st').
  Proof.
    induction kvs as [|[n v] l IH]; intros st st' r E; cbn [set_loop] in E; [injection E as <- _; apply bounds_refl|].
    destruct (dget (c_coll st) n) as [p|] eqn:G; [|injection E as <- _; apply bounds_refl].
    destruct (dmem (c_par st) n); [eapply IH; eauto|].
    destruct (setValue p v) as [p' [u|e]] eqn:SV.
    - apply IH in E. eapply bounds_trans; [|exact E]. cbn [with_coll c_coll]. destruct (setValue_same _ _ _ _ SV). eapply bounds_dset; eauto.
    - injection E as <- _. apply setValue_err in SV. subst p'. cbn [with_coll c_coll]. eapply bounds_dset; eauto.
  Qed.
  Lemma stores_bounds (vals : dict string (option (E A))) : forall c,
    bounds_kept c (fold_left (fun c kv => store_one c (fst kv) (snd kv)) vals c).
  Proof.
    induction vals as [|[k v] l IH]; intros c; [apply bounds_refl|]. cbn [fold_left fst snd]. eapply bounds_trans; [|apply IH].
    unfold store_one. destruct v as [e|]; [|apply bounds_refl]. destruct (dget c k) as [p|] eqn:G; [|apply bounds_refl].
    destruct (tofloat e) as [x|]; [|apply bounds_refl]. destruct (setValue p (PFloat x)) as [p' [u|er]] eqn:SV; [|apply bounds_refl].
    destruct (setValue_same _ _ _ _ SV). eapply bounds_dset; eauto.
  Qed.
  Lemma set_bounds ord fuel (st st' : cst A) kvs : setParameterValues ord fuel st (SVDict kvs) = (st', Ok tt) -> bounds_kept (c_coll st) (c_coll st').
  Proof.
    intros E. cbn [setParameterValues] in E. unfold set_pairs in E. destruct (set_loop st kvs) as [st2 [u|e]] eqn:SL; [|discriminate].
    eapply bounds_trans; [eapply set_loop_bounds; eauto|].
    unfold update in E. destruct (root_loop _ _ _ _ _ _) as [vals|e]; [|discriminate]. injection E as E. rewrite <- E.
    cbn [with_coll c_coll]. apply stores_bounds.
  Qed.

  Context {D K : Type}.
  Variable meth : string -> K -> option (D * D) -> view -> res (value D).
  Variable diagonalize : value D -> res (value D).
  Variables (o_set o_sw : nat -> ordr) (fuel : nat) (sq_post : nat -> sq_t).
  Notation psweep := (paramSweep meth diagonalize o_set o_sw fuel sq_post).

  (** ** The values during the sweep *)
  Definition last_sys s1 (l : list (nsys A * part D)) : nsys A := match rev l with [] => s1 | (s, _) :: _ => s end.
  Lemma last_cons s s1 p l : last_sys s ((s1, p) :: l) = last_sys s1 l.
  Proof. unfold last_sys. cbn [rev]. destruct (rev l) as [|[s2 p2] r]; reflexivity. Qed.

  Lemma chain_kept (st1 : cst A) es pre regen cols : ginv sg st1 [] -> settled sg st1 -> (forall i, good_ord (o_set i)) ->
    forall is l s r c, chain meth diagonalize o_set o_sw fuel sq_post es pre regen s r is l ->
      n_cst s = with_coll st1 c -> kept st1 cols c -> bounds_kept (c_coll st1) c -> incl (dkeys (s_c (n_sw s))) cols ->
      exists c', n_cst (last_sys s l) = with_coll st1 c' /\ kept st1 cols c' /\ bounds_kept (c_coll st1) c'.
  Proof.
    intros GI SE GO. induction is as [|i is IH]; intros [|[s2 p2] l] s r c C EC KE BK IN; cbn [chain] in C; try contradiction.
    - exists c. auto.
    - destruct C as (pt & r' & GP & PS & _ & C). destruct (postsub_frame fuel _ _ _ _ _ _ _ _ PS) as [SW SV]. rewrite EC in SV.
      assert (incl (map fst (map (fun kv => (fst kv, PFloat (snd kv))) pt)) cols) as IN2.
      { rewrite map_map. cbn [fst]. change (map (fun x : string * f64 => fst x) pt) with (map fst pt).
        rewrite (grid_point_keys s i pt GP). exact IN. }
      destruct (kept_set LAW sg INJ st1 cols GI SE c _ _ _ _ KE (GO i) IN2 SV) as (c2 & E2 & KE2).
      pose proof (set_bounds _ _ _ _ _ SV) as B2. rewrite E2 in B2. cbn [with_coll c_coll] in B2.
      rewrite last_cons. eapply IH; eauto; [eapply bounds_trans; eauto|now rewrite SW].
  Qed.

  Lemma after_kept s specs kw0 o_non o_re sq_pre evals f t w :
    ginv sg (n_cst s) [] -> settled sg (n_cst s) -> (forall i, good_ord (o_set i)) ->
    psweep kw0 o_non o_re sq_pre s specs evals f t = Ok w ->
    exists c, n_cst (w_sys w) = with_coll (n_cst s) c /\ kept (n_cst s) (map sp_name specs) c /\ bounds_kept (c_coll (n_cst s)) c.
  Proof.
    intros GI SE GO E. destruct (sweep_done _ _ _ _ _ _ _ _ _ _ _ _ _ _ _ _ E) as (s1 & pre & regen & l & GRID & C & _ & _ & WS).
    destruct (with_grid_frame _ _ _ GRID) as ((c1 & EC & SC) & PA & _).
    assert (ginv sg (n_cst s1) []) as GI1 by (rewrite EC; apply ginv_coll; auto; apply SC).
    assert (settled sg (n_cst s1)) as SE1 by (rewrite EC; now apply settled_same).
    destruct (chain_kept (n_cst s1) (requested kw0 evals) pre regen (map sp_name specs) GI1 SE1 GO _ _ s1 _ (c_coll (n_cst s1)) C) as (c & E2 & [K1 K2] & BK).
    - now rewrite with_coll_id.
    - apply kept_self.
    - apply bounds_refl.
    - rewrite <- PA. eapply with_grid_cols; eauto.
    - change (w_sys w = last_sys s1 l) in WS. rewrite WS, E2, EC. exists c. split; [reflexivity|].
      rewrite EC in K1, K2, BK. cbn [with_coll c_coll] in K1, K2, BK. destruct SC as [SK SV]. split.
      + split; [congruence|]. intros q p G N. destruct (SV q p G) as (p1 & G1 & (V1 & L1 & H1)).
        destruct (K2 q p1 G1 N) as (p2 & G2 & (V2 & L2 & H2)). exists p2. split; auto. repeat split; congruence.
      + eapply bounds_trans; [|exact BK]. intros q p G. destruct (SV q p G) as (p1 & G1 & (V1 & L1 & H1)). eauto.
  Qed.

  (** The state after a sweep: swept parameters at the last grid point, what does
      not depend on them as before. *)
  Lemma after_lemma s specs kw0 o_non o_re sq_pre evals f t w :
    sreach sg (n_cst s) [] -> settled sg (n_cst s) -> (forall i, good_ord (o_set i)) ->
    psweep kw0 o_non o_re sq_pre s specs evals f t = Ok w ->
    (forall q, registered (n_cst (w_sys w)) q <-> registered (n_cst s) q) /\
    steady (n_cst s) (n_cst (w_sys w)) (map sp_name specs) /\
    (0 < Z.to_nat (s_npts (n_sw (w_sys w))) -> at_point (w_sys w) (Z.to_nat (s_npts (n_sw (w_sys w))) - 1)).
  Proof.
    intros RE SE GO E. apply (ginv_sreach LAW) in RE. destruct (after_kept _ _ _ _ _ _ _ _ _ _ RE SE GO E) as (c & EC & KE & _).
    split; [|split].
    - intros q. rewrite EC. unfold registered. cbn [with_coll c_coll]. now rewrite (proj1 KE).
    - rewrite EC. now apply kept_steady.
    - intros POS. destruct (sweep_done _ _ _ _ _ _ _ _ _ _ _ _ _ _ _ _ E) as (s1 & pre & regen & l & GRID & C & _ & _ & WS).
      destruct (with_grid_frame _ _ _ GRID) as ((c1 & EC1 & SC) & _).
      pose proof (chain_sw meth diagonalize o_set o_sw fuel sq_post _ _ _ _ _ _ _ C) as CS. rewrite <- WS in CS. rewrite CS in POS |- *.
      pose proof (chain_length _ _ _ _ _ _ _ _ _ _ _ _ _ C) as LL. rewrite seq_length in LL.
      set (n := Z.to_nat (s_npts (n_sw s1))) in *.
      destruct (nth_error l (n - 1)) as [[si p]|] eqn:Hi; [|apply nth_error_None in Hi; lia].
      assert (w_sys w = si) as ->.
      { rewrite WS. clear - Hi LL POS. destruct (exists_last (l := l)) as (l0 & [s2 p2] & ->); [intros ->; cbn in LL; lia|].
        rewrite rev_app_distr. cbn [rev app]. rewrite app_length in LL. cbn [List.length] in LL.
        rewrite nth_error_app2 in Hi by lia. replace (n - 1 - List.length l0) with 0 in Hi by lia. cbn in Hi. congruence. }
      destruct (chain_points meth diagonalize o_set o_sw fuel sq_post _ _ _ _ _ _ _ C eq_refl (or_intror eq_refl) (n - 1) si p Hi)
        as (i' & s0 & pt & H1 & H2 & (c0 & H3 & H3') & H4 & H5 & H6).
      assert (i' = n - 1) as ->.
      { rewrite nth_error_nth' with (d := 0) in H1 by (rewrite seq_length; lia). rewrite seq_nth in H1 by lia. cbn in H1. congruence. }
      eapply (set_at_point fuel sg [] s0); eauto.
      + rewrite H3. apply ginv_coll; auto. rewrite EC1. apply ginv_coll; auto. apply SC.
      + rewrite H2. eapply with_grid_cols; eauto.
      + now rewrite H2.
  Qed.

  (** Setting the swept parameters to what they held restores every value. *)
  Lemma restore_lemma s specs kw0 o_non o_re sq_pre evals f t w ord fuel2 olds st' :
    sreach sg (n_cst s) [] -> settled sg (n_cst s) -> (forall i, good_ord (o_set i)) ->
    (forall n, In n (map sp_name specs) -> independent (n_cst s) n /\ value_of (n_cst s) n <> None) ->
    psweep kw0 o_non o_re sq_pre s specs evals f t = Ok w -> good_ord ord ->
    NoDup (map fst olds) -> (forall n x, In (n, x) olds <-> In n (map sp_name specs) /\ value_of (n_cst s) n = Some x) ->
    setParameterValues ord fuel2 (n_cst (w_sys w)) (SVDict (map (fun kv => (fst kv, PFloat (snd kv))) olds)) = (st', Ok tt) ->
    forall q, registered (n_cst s) q -> value_of st' q = value_of (n_cst s) q.
  Proof.
    intros RE SE GO IND E GO2 ND OLD ST. apply (ginv_sreach LAW) in RE. set (swept := map sp_name specs) in *.
    destruct (after_kept _ _ _ _ _ _ _ _ _ _ RE SE GO E) as (c & EC & KE & BK). fold swept in KE. rewrite EC in ST.
    set (kvs := map (fun kv => (fst kv, PFloat (snd kv))) olds) in *.
    assert (map fst kvs = map fst olds) as MK by (unfold kvs; rewrite map_map; reflexivity).
    assert (incl (map fst kvs) swept) as INC.
    { rewrite MK. intros n Hn. apply in_map_iff in Hn as ([n' x] & <- & I). now apply OLD in I. }
    destruct (kept_set LAW sg INJ (n_cst s) swept RE SE c kvs ord fuel2 st' KE GO2 INC ST) as (c' & EC' & KE').
    pose proof (set_bounds _ _ _ _ _ ST) as B2.
    assert (ginv sg (with_coll (n_cst s) c) []) as GIc by (apply ginv_coll; auto; apply KE).
    (* swept parameters *)
    assert (forall n, In n swept -> value_of st' n = value_of (n_cst s) n) as SWV.
    { intros n Hn. destruct (IND n Hn) as [[R NP] V]. destruct (value_of (n_cst s) n) as [x|] eqn:Vx; [|now destruct V]. 
      assert (In (n, PFloat x) kvs) as I by (apply in_map_iff; exists (n, x); split; auto; now apply OLD).
      pose proof ST as SV. cbn [setParameterValues] in SV. unfold set_pairs in SV.
      destruct (set_loop_frame kvs (with_coll (n_cst s) c)) as (c2 & Ec2 & K2).
      destruct (set_loop (with_coll (n_cst s) c) kvs) as [st2 [[]|e]] eqn:SL; [|discriminate]. cbn [fst] in Ec2. subst st2.
      set (st2 := with_coll (with_coll (n_cst s) c) c2) in *.
      assert (ginv sg st2 []) as GI2 by (apply ginv_coll; auto).
      assert (~ parametric st2 n) as NP2 by exact NP.
      pose proof (update_roots ord fuel2 st2 n GO2 (nonpar_root sg _ [] GI2 n NP2)) as UR. rewrite SV in UR. cbn [fst] in UR.
      unfold value_of at 1. rewrite UR. change (value_of st2 n = Some x).
      eapply set_loop_val; [exact SL|now rewrite MK|exact I|exact NP]. }
    assert (steady (n_cst s) st' swept) as SD by (rewrite EC'; now apply kept_steady).
    intros q R.
    destruct (in_dec string_dec q swept) as [I|NI]; [auto|].
    destruct (dget (c_par (n_cst s)) q) as [[e ns]|] eqn:GP.
    2:{ apply SD; auto. intros [C|(r & _ & Dp)]; [auto|].
        apply Relations.Operators_Properties.clos_trans_t1n in Dp.
        assert (exists b, depends (n_cst s) q b) as (b & (ms & Hb & _)) by (destruct Dp; eauto).
        unfold getParameterisationParameters in Hb. rewrite GP in Hb. discriminate. }
    assert (parametric (n_cst s) q) as PQ by (exists e, ns; exact GP).
    destruct (SE q PQ) as (r & v & x & p & S1 & RV & FV & G & V & AC).
    (* a solution before is one now *)
    assert (solution st' r) as S2.
    { intros n y Dy. rewrite EC' in Dy |- *. cbn [with_coll c_sym c_par] in *. specialize (S1 n y Dy).
      destruct (dget (c_par (n_cst s)) n) as [[e0 ns0]|] eqn:Gn; auto. rewrite S1. unfold current. rewrite <- EC'.
      apply (sym_reg sg (n_cst s) [] RE) in Dy as [Rn _].
      destruct (in_dec string_dec n swept) as [I|NI2]; [now rewrite SWV|]. rewrite SD; auto.
      intros [C|(r0 & _ & Dp)]; [auto|]. apply Relations.Operators_Properties.clos_trans_t1n in Dp.
      assert (exists b, depends (n_cst s) n b) as (b & (ms & Hb & _)) by (destruct Dp; eauto).
      unfold getParameterisationParameters in Hb. rewrite Gn in Hb. discriminate. }
    destruct (bounds_trans _ _ _ BK B2 q p G) as (p' & G' & L' & U'). 
    assert (snd (setValue p' (PFloat x)) = Ok tt) as AC'.
    { clear - AC L' U'. revert AC. unfold setValue. destruct (negb (valid_scalar (PFloat x))); auto. destruct (to_float (PFloat x)); auto.
      rewrite L', U'. destruct (fle _ _); auto. now destruct (fle _ _). }
    destruct (dep_dec sg (n_cst s) swept RE (fun n Hn => proj1 (IND n Hn)) q) as [DQ|DQ]; [|now apply SD].
    destruct DQ as [C|(i & Hi & Dp)]; [now destruct NI|].
    assert (cstep fuel2 (with_coll (n_cst s) c) (ord, CSets (SVDict kvs)) = (st', Ok tt)) as CS by exact ST.
    assert (getParameterValue st' q = Ok (Some x)) as H.
    { eapply (C10_ginv LAW sg INJ _ [] ord fuel2 (CSets (SVDict kvs)) st' GIc GO2 I CS r q i v x p' S2 G'); auto.
      - rewrite EC'. exact Dp.
      - destruct (IND i Hi) as [[Ri Ni] _]. rewrite EC'. split; [|exact Ni]. unfold registered. cbn [with_coll c_coll]. now rewrite (proj1 KE').
      - rewrite SWV by exact Hi. now apply IND. }
    unfold getParameterValue in H. unfold value_of. rewrite G'  in H |- *. rewrite G, V. unfold getValue in H. congruence.
  Qed.

  Lemma set_loop_accepts (c0 : dict string param) : forall kvs (st : cst A), bounds_kept c0 (c_coll st) ->
    (forall n v, In (n, v) kvs -> ~ parametric st n /\ exists p, dget c0 n = Some p /\ snd (setValue p v) = Ok tt) ->
    exists st', set_loop st kvs = (st', Ok tt).
  Proof.
    induction kvs as [|[n v] l IH]; intros st BK H; cbn [set_loop]; [eauto|].
    destruct (H n v (or_introl eq_refl)) as (NP & p & G & AC). destruct (BK n p G) as (p' & G' & L & U). rewrite G'.
    apply dmem_par_false in NP. rewrite NP.
    assert (snd (setValue p' v) = Ok tt) as AC'.
    { clear - AC L U. revert AC. unfold setValue. destruct (negb (valid_scalar v)); auto. destruct (to_float v); auto.
      rewrite L, U. destruct (fle _ _); auto. now destruct (fle _ _). }
    destruct (setValue p' v) as [p2 [[]|e]] eqn:SV; [|discriminate]. apply IH.
    - cbn [with_coll c_coll]. destruct (setValue_same _ _ _ _ SV). eapply bounds_trans; [exact BK|]. eapply bounds_dset; eauto.
    - intros m u I. destruct (H m u (or_intror I)) as (NP' & H'). split; [exact NP'|exact H'].
  Qed.
  Lemma restore_total s specs kw0 o_non o_re sq_pre evals f t w ord olds :
    sreach sg (n_cst s) [] -> settled sg (n_cst s) -> (forall i, good_ord (o_set i)) ->
    (forall n, In n (map sp_name specs) -> independent (n_cst s) n /\
       exists p x, dget (c_coll (n_cst s)) n = Some p /\ p_value p = Some x /\ snd (setValue p (PFloat x)) = Ok tt) ->
    psweep kw0 o_non o_re sq_pre s specs evals f t = Ok w -> good_ord ord ->
    NoDup (map fst olds) -> (forall n x, In (n, x) olds <-> In n (map sp_name specs) /\ value_of (n_cst s) n = Some x) ->
    exists fuel0, forall fuel2, fuel0 <= fuel2 -> exists st',
      setParameterValues ord fuel2 (n_cst (w_sys w)) (SVDict (map (fun kv => (fst kv, PFloat (snd kv))) olds)) = (st', Ok tt) /\
      forall q, registered (n_cst s) q -> value_of st' q = value_of (n_cst s) q.
  Proof.
    intros RE SE GO IND E GO2 ND OLD. pose proof RE as GI. apply (ginv_sreach LAW) in GI.
    destruct (after_kept _ _ _ _ _ _ _ _ _ _ GI SE GO E) as (c & EC & KE & BK).
    set (kvs := map (fun kv => (fst kv, PFloat (snd kv))) olds) in *.
    destruct (set_loop_accepts (c_coll (n_cst s)) kvs (with_coll (n_cst s) c) BK) as (st2 & SL).
    { intros n v I. apply in_map_iff in I as ([m x] & [= <- <-] & I). cbn [fst snd]. apply OLD in I as [Im Vm].
      destruct (IND m Im) as [[_ NP] (p & x' & G & V & AC)]. split; [exact NP|]. exists p. split; auto.
      unfold value_of in Vm. rewrite G, V in Vm. injection Vm as <-. exact AC. }
    destruct (set_loop_frame kvs (with_coll (n_cst s) c)) as (c2 & Ec2 & K2). rewrite SL in Ec2. cbn [fst] in Ec2.
    assert (ginv sg st2 []) as GI2. { rewrite Ec2. apply ginv_coll; auto. apply ginv_coll; auto. apply KE. }
    exists (enough st2). intros fuel2 LE.
    destruct (update_value LAW sg st2 [] GI2 INJ ord fuel2 GO2 LE) as (c3 & U & _).
    assert (setParameterValues ord fuel2 (n_cst (w_sys w)) (SVDict kvs) = (with_coll st2 c3, Ok tt)) as ST.
    { rewrite EC. cbn [setParameterValues]. unfold set_pairs. rewrite SL. exact U. }
    exists (with_coll st2 c3). split; [exact ST|].
    eapply (restore_lemma s specs kw0 o_non o_re sq_pre evals f t w ord fuel2 olds); eauto.
    intros n Hn. destruct (IND n Hn) as [In1 (p & x & G & V & _)]. split; auto. unfold value_of. rewrite G, V. discriminate.
  Qed.
End S.

(** ** The sweep of NumSweepWit *)
Open Scope string_scope.
Lemma after_ref : exists w, sreach dsg (n_cst wsys) [] /\ settled dsg (n_cst wsys) /\
  paramSweep cmeth cdiagz (fun _ => idord) (fun _ => idord) 50 (fun _ => idsq) 0%nat idord idord idsq wsys wspecs cevals fs0 temp0 = Ok w /\
  getParameterValue (n_cst wsys) "x" = Ok (Some (fz 1)) /\ getParameterValue (n_cst (w_sys w)) "x" = Ok (Some (fz 3)) /\ fz 1 <> fz 3.
Proof.
  eexists. split; [exact w_sreach|]. split; [exact w_settled|].
  split; [apply (isok_ok (mkswp wsys fs0 temp0 [] [])); vm_compute; reflexivity|]. split; [vm_compute; reflexivity|].
  split; [vm_compute; reflexivity|]. vm_compute. discriminate.
Qed.
Lemma after_wit : alg_ok tree_alg /\ (forall a b, dsg a = dsg b -> a = b) /\
  (forall n, In n (map sp_name wspecs) -> independent (n_cst wsys) n /\
     exists p x, dget (c_coll (n_cst wsys)) n = Some p /\ p_value p = Some x /\ snd (setValue p (PFloat x)) = Ok tt) /\
  (forall n x, In (n, x) [("x", fz 1)] <-> In n (map sp_name wspecs) /\ value_of (n_cst wsys) n = Some x).
Proof.
  split; [exact tree_alg_ok|]. split; [exact dsg_inj|]. split.
  - intros n Hn. split; [now apply w_ind|]. cbn in Hn. destruct Hn as [<-|[]]. do 2 eexists.
    split; [vm_compute; reflexivity|]. split; [vm_compute; reflexivity|]. vm_compute. reflexivity.
  - assert (value_of (n_cst wsys) "x" = Some (fz 1)) as V by (vm_compute; reflexivity).
    intros n x. cbn [wspecs map sp_name In]. split.
    + intros [[= <- <-]|[]]. auto.
    + intros [[<-|[]] E]. rewrite V in E. injection E as <-. now left.
Qed.
