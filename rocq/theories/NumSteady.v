(** From a settled state, setting swept parameters changes nothing but those
    parameters and what depends on them. *)
From Coq Require Import List Bool String Arith ZArith Lia SpecFloat Permutation Relations.
From Verif Require Import Prelude PreludeFacts Symbolic Float Param Expr Sweep SweepProofs SweepResultProofs
  Coll CollGraph CollSpec CollProofs CollExpand CollUpdate CollMain CollFinal Temp NumOp NumSweep NumSweepSpec NumSweepRun.
Import ListNotations.
Open Scope list_scope.
Open Scope nat_scope.

Lemma accept_same p p' v : same_param p p' -> snd (setValue p' v) = snd (setValue p v).
Proof.
  intros (_ & L & H). unfold setValue. destruct (negb (valid_scalar v)); auto. destruct (to_float v); auto.
  rewrite L, H. destruct (fle _ _); auto. now destruct (fle _ _).
Qed.
Lemma setValue_same p v p' u : setValue p v = (p', Ok u) -> p_lo p' = p_lo p /\ p_hi p' = p_hi p.
Proof. destruct u. intros H. apply setValue_ok in H as (x & _ & ->). now split. Qed.

Section S.
  Context {A : alg} (LAW : alg_ok A).
  Variable sg : string -> string.
  Hypothesis INJ : forall a b, sg a = sg b -> a = b.

  Lemma set_loop_other kvs : forall (st st' : cst A) r, set_loop st kvs = (st', r) ->
    forall q, ~ In q (map fst kvs) -> dget (c_coll st') q = dget (c_coll st) q.
  Proof.
    induction kvs as [|[n v] l IH]; intros st st' r E q N; cbn [set_loop] in E; [injection E as <- _; auto|].
    cbn [map fst] in N. destruct (dget (c_coll st) n) as [p|] eqn:G; [|injection E as <- _; auto].
    destruct (dmem (c_par st) n).
    - eapply IH; eauto. intros C. apply N. now right.
    - destruct (setValue p v) as [p' [u|e]].
      + rewrite (IH _ _ _ E q) by (intros C; apply N; now right). cbn [with_coll c_coll]. apply dget_dset_neq. intros ->. apply N. now left.
      + injection E as <- _. cbn [with_coll c_coll]. apply dget_dset_neq. intros ->. apply N. now left.
  Qed.

  Section Fix.
    Variables (st1 : cst A) (swept : list string).
    Hypothesis GI : ginv sg st1 [].
    Hypothesis SE : settled sg st1.

    (** unaffected parameters are as in [st1] *)
    Definition kept (c : dict string param) : Prop :=
      dkeys c = dkeys (c_coll st1) /\
      forall q p, dget (c_coll st1) q = Some p -> ~ dependents st1 swept q -> exists p', dget c q = Some p' /\ same_param p p'.

    Lemma solution_local c r1 r2 : kept c -> solution st1 r1 -> solution (with_coll st1 c) r2 ->
      forall q, registered st1 q -> ~ dependents st1 swept q -> r2 (sg q) = r1 (sg q).
    Proof.
      intros [KC KV] S1 S2 q. pose proof (gi_t _ _ _ GI) as T.
      remember (rank (c_nodes st1) (c_edges st1) q) as k eqn:Ek.
      assert (rank (c_nodes st1) (c_edges st1) q < S k) as Lk by lia. clear Ek. revert q Lk.
      generalize (S k) as m. clear k. induction m as [|m IH]; intros q Lk R N; [lia|].
      pose proof (reg_sym sg st1 [] GI q R) as D. pose proof (S1 _ _ D) as R1. pose proof (S2 q (sg q) D) as R2.
      cbn [with_coll c_par] in R2. destruct (dget (c_par st1) q) as [[e ns]|] eqn:G.
      - rewrite R1, R2. apply (eval_ext A LAW). intros x Hx.
        destruct (dep_edge sg st1 [] GI _ _ _ _ G Hx) as (n & HE & Dn & _). apply (sym_reg sg st1 [] GI) in Dn as [Rn ->].
        apply IH; auto.
        + pose proof (rank_lt (c_nodes st1) (c_edges st1) n q) as RL.
          assert (rank (c_nodes st1) (c_edges st1) n < rank (c_nodes st1) (c_edges st1) q); [|lia].
          apply RL; auto; apply (ti_wf _ _ T).
        + intros DN. apply N. assert (depends st1 q n) as DQ by now apply (edges_depends sg st1 GI).
          right. destruct DN as [Hn|(r & Hr & Dr)]; [exists n|exists r]; split; auto; [now apply t_step|].
          eapply t_trans; [apply t_step; exact DQ|exact Dr].
      - rewrite R1, R2. unfold current. f_equal. unfold value_of. cbn [with_coll c_coll].
        apply dkeys_dget in R as (p & Gp). destruct (KV q p Gp N) as (p' & Gp' & (V & _)). now rewrite Gp, Gp'.
    Qed.

    Lemma kept_steady c : kept c -> steady st1 (with_coll st1 c) swept.
    Proof.
      intros [_ KV] q R N. unfold value_of. cbn [with_coll c_coll]. apply dkeys_dget in R as (p & Gp).
      destruct (KV q p Gp N) as (p' & Gp' & (V & _)). now rewrite Gp, Gp'.
    Qed.
    Lemma kept_self : kept (c_coll st1).
    Proof. split; auto. intros q p G _. exists p. now repeat split. Qed.

    Lemma kept_set c kvs ord fuel st' : kept c -> good_ord ord -> incl (map fst kvs) swept ->
      setParameterValues ord fuel (with_coll st1 c) (SVDict kvs) = (st', Ok tt) ->
      exists c', st' = with_coll st1 c' /\ kept c'.
    Proof.
      intros KE GO IN E. cbn [setParameterValues] in E. unfold set_pairs in E.
      destruct (set_loop_frame kvs (with_coll st1 c)) as (c2 & Ec2 & K2).
      pose proof (set_loop_other kvs (with_coll st1 c)) as SO.
      destruct (set_loop (with_coll st1 c) kvs) as [st2 [u|e]] eqn:SL; [|discriminate]. cbn [fst] in Ec2. subst st2.
      specialize (SO _ _ eq_refl). cbn [with_coll c_coll c_par c_sym c_nodes c_edges] in SO, K2.
      change (with_coll (with_coll st1 c) c2) with (with_coll st1 c2) in *.
      assert (kept c2) as KE2.
      { destruct KE as [KC KV]. split; [congruence|]. intros q p G N. destruct (KV q p G N) as (p' & G' & SP).
        exists p'. split; auto. rewrite SO; auto. intros C. apply N. left. now apply IN. }
      assert (ginv sg (with_coll st1 c2) []) as GI2 by (apply ginv_coll; auto; apply KE2).
      assert (update ord (max fuel (enough (with_coll st1 c2))) (with_coll st1 c2) = (st', Ok tt)) as E'.
      { rewrite <- E. apply update_mono; [lia|]. rewrite E. discriminate. }
      destruct (update_spec LAW sg (with_coll st1 c2) [] GI2 INJ ord (max fuel (enough (with_coll st1 c2))) GO ltac:(lia) (P1 sg (with_coll st1 c2))
        (fun tag d e => P1_init LAW sg (with_coll st1 c2) [] GI2 INJ ord _ GO tag d e)
        (fun d e r s x => P1_step LAW sg (with_coll st1 c2) [] GI2 INJ d e r s x)) as (c' & E2 & K' & HR & HD).
      rewrite E' in E2. injection E2 as ->. exists c'. split; auto. destruct KE2 as [KC2 KV2].
      cbn [with_coll c_coll] in K'. split; [congruence|]. intros q p G N. destruct (KV2 q p G N) as (p2 & G2 & SP2).
      destruct (has_in (c_edges (with_coll st1 c2)) q) eqn:HI.
      2:{ exists p2. split; auto. rewrite HR; auto. }
      destruct (HD q HI) as [[HQ _]|(e & HE & [F1 F2] & _ & HF)]; [exists p2; split; auto; rewrite HQ; auto|].
      assert (registered st1 q) as RQ by (eapply dget_Some_key; eauto).
      assert (parametric st1 q) as PQ. { apply has_in_spec in HI as (a & Ha). eapply (gi_in _ _ _ GI); eauto. }
      destruct (SE q PQ) as (r1 & v & x & p0 & S1 & RV & FV & G0 & V0 & AC). rewrite G in G0. injection G0 as <-.
      destruct (solution_exists LAW sg (with_coll st1 c2) (current (with_coll st1 c2)) (gi_t _ _ _ GI2) INJ) as (r2 & S2).
      assert (r2 (sg q) = Some v) as RV2.
      { rewrite <- RV. apply (solution_local c2 r1 r2); auto. now split. }
      pose proof (F2 r2 v S2 RV2) as EV.
      assert (free e = []) as FE.
      { destruct (free e) as [|s l] eqn:Fe; auto. exfalso.
        destruct (F1 s) as (q' & D' & N' & M'); [rewrite ?Fe; now left|].
        apply (HF q').
        - apply (indep_root sg (with_coll st1 c2) [] GI2). split; auto. now apply (sym_reg sg (with_coll st1 c2) [] GI2) in D'.
        - pose proof (S2 _ _ D') as R. destruct (dget (c_par (with_coll st1 c2)) q') as [[e' ns']|] eqn:Gq; [exfalso; apply N'; exists e', ns'; exact Gq|].
          pose proof (eval_strict A LAW e r2 v s EV) as ST. rewrite Fe in ST. specialize (ST (or_introl eq_refl)).
          rewrite R in ST. unfold current in ST. intros C. rewrite C in ST. now apply ST.
        - now apply (mentions_path sg (with_coll st1 c2) [] GI2 INJ).
        - apply (sym_reg sg (with_coll st1 c2) [] GI2) in D' as [_ <-]. now left. }
      pose proof (tofloat_closed LAW e r2 v FE EV) as TF. rewrite FV in TF.
      cbn [with_coll c_coll] in HE. unfold store_one in HE. rewrite G2, TF in HE.
      pose proof (accept_same _ _ (PFloat x) SP2) as AC2. rewrite AC in AC2.
      destruct (setValue p2 (PFloat x)) as [p3 [[]|]] eqn:SV; [|discriminate]. rewrite dget_dset_eq in HE.
      exists p3. split; auto. pose proof (setValue_same _ _ _ _ SV) as [L3 H3]. destruct SP2 as (_ & L2 & H2).
      repeat split; try congruence. rewrite V0. eapply fle_set; eauto.
    Qed.
  End Fix.
End S.
