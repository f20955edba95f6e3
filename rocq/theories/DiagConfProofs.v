(** Proofs about DiagConf.v. *)
From Coq Require Import List Bool String Arith Lia.
From Verif Require Import Prelude PreludeFacts DiagConf DiagConfSpec.
Import ListNotations.
Open Scope string_scope.
Open Scope list_scope.
Open Scope nat_scope.

Section D.
  Context {OV M X : Type}.
  Variable diagSparseH : M -> nat -> bool -> dict string OV -> res X.
  Variable diagDenseH : M -> nat -> bool -> res X.
  Variable default_opts : dict string OV.
  Implicit Types ops : list (@dop OV).
  Let run := drun (OV := OV) default_opts.

  Lemma run_app a o : run (a ++ [o]) = dstep (run a) o.
  Proof. unfold run, drun. now rewrite fold_left_app. Qed.

  (** systems hold different dictionaries, unless the default one; addresses
      are below [next] *)
  Record dinv (w : @world OV) : Prop := {
    di_next : 0 < next w;
    di_lt : forall i c, dget (systems w) i = Some c -> d_opts c < next w;
    di_heap : forall a, a < next w -> exists d, dget (heap w) a = Some d;
    di_sep : forall i j c c', dget (systems w) i = Some c -> dget (systems w) j = Some c' -> i <> j -> d_opts c = d_opts c' -> d_opts c = 0 }.
  Lemma dinv0 : dinv (world0 default_opts).
  Proof.
    constructor; cbn; try lia; try discriminate.
    intros a Ha. replace a with 0 by lia. cbn. eauto.
  Qed.
  Lemma dinv_set w i eig vec sparse opts : dinv w -> dinv (setDiagConfig w i eig vec sparse opts).
  Proof.
    intros [N L H S]. destruct opts as [d|]; constructor; cbn [setDiagConfig next systems heap].
    - lia.
    - intros j c. rewrite dget_dset. destruct (eqb j i); [intros [= <-]; cbn; lia|]. intros G. apply L in G. lia.
    - intros a Ha. rewrite dget_dset. destruct (Prelude.eqb_spec a (next w)) as [E|E]; eauto. apply H. lia.
    - intros j k c c'. rewrite !dget_dset. destruct (Prelude.eqb_spec j i) as [E1|E1], (Prelude.eqb_spec k i) as [E2|E2]; try subst j; try subst k.
      + intros _ _ NE. congruence.
      + intros [= <-] G _ E. cbn in E. apply L in G. lia.
      + intros G [= <-] _ E. cbn in E. apply L in G. lia.
      + eauto.
    - exact N.
    - intros j c. rewrite dget_dset. destruct (eqb j i); [intros [= <-]; cbn; lia|]. eauto.
    - exact H.
    - intros j k c c'. rewrite !dget_dset. destruct (Prelude.eqb_spec j i) as [E1|E1], (Prelude.eqb_spec k i) as [E2|E2]; try subst j; try subst k.
      + intros _ _ NE. congruence.
      + intros [= <-] G _ E. reflexivity.
      + intros G [= <-] _ E. exact E.
      + eauto.
  Qed.
  Lemma dinv_step w o : dinv w -> dinv (dstep w o).
  Proof.
    intros I. destruct o as [i|i eig vec sparse opts|i k v]; cbn [dstep]; try now apply dinv_set.
    destruct (dget (systems w) i) as [c|] eqn:G; auto. destruct (dget (heap w) (d_opts c)) as [d|] eqn:Gd; auto.
    destruct I as [N L H S]. constructor; cbn [next systems heap]; auto.
    intros a Ha. rewrite dget_dset. destruct (eqb a (d_opts c)); eauto.
  Qed.
  Lemma dinv_run ops : dinv (run ops).
  Proof. induction ops as [|o ops IH] using rev_ind; [exact dinv0|]. rewrite run_app. now apply dinv_step. Qed.

  (** what a system holds: own dictionaries have positive addresses *)
  Lemma held i ops eig vec sparse opts : asked i ops eig vec sparse opts ->
    exists c, dget (systems (run ops)) i = Some c /\ (d_eig c, d_vec c, d_sparse c) = (eig, vec, sparse) /\
      (opts = None <-> d_opts c = 0).
  Proof.
    intros (a & o & b & -> & NB & H). revert NB. induction b as [|o' b IH] using rev_ind; intros NB.
    - rewrite run_app. destruct (dinv_run a) as [N _ _ _]. destruct H as [-> | [-> E]]; cbn [dstep].
      + destruct opts as [d|]; cbn [setDiagConfig systems]; rewrite dget_dset_eq; eexists; (split; [reflexivity|]); cbn; split; auto; split; intros; try discriminate; try lia; auto.
      + injection E as -> -> -> ->. cbn [setDiagConfig systems]. rewrite dget_dset_eq. eexists. split; [reflexivity|]. cbn. tauto.
    - destruct IH as (c & G & E); [intros x Hx; apply NB, in_app_iff; now left|].
      exists c. split; auto. change (a ++ o :: b ++ [o']) with (a ++ (o :: b) ++ [o']). rewrite app_assoc, run_app.
      assert (~ configures i o') as NC by (apply NB, in_app_iff; right; now left).
      destruct o' as [j|j eig' vec' sparse' opts'|j k v]; cbn [dstep configures] in *.
      + cbn [setDiagConfig systems]. rewrite dget_dset_neq; auto.
      + destruct opts'; cbn [setDiagConfig systems]; rewrite dget_dset_neq; auto.
      + destruct (dget (systems (run (a ++ o :: b))) j) as [cj|]; auto. destruct (dget (heap _) _); auto.
  Qed.
  Lemma own_app i ops o : own_options i (ops ++ [o]) -> own_options i ops.
  Proof. intros H a j k v b E. apply (H a j k v (b ++ [o])). rewrite E, <- app_assoc. reflexivity. Qed.
  Lemma own_last i ops j k v : own_options i (ops ++ [DPoke j k v]) -> j <> i /\ exists eig vec sparse d, asked j ops eig vec sparse (Some d).
  Proof. intros H. apply (H ops j k v []). reflexivity. Qed.
  Lemma default_kept i ops : own_options i ops -> dget (heap (run ops)) 0 = Some default_opts.
  Proof.
    induction ops as [|o ops IH] using rev_ind; intros OW; [reflexivity|]. specialize (IH (own_app _ _ _ OW)). rewrite run_app.
    pose proof (dinv_run ops) as [N _ _ _].
    destruct o as [j|j eig vec sparse opts|j k v]; cbn [dstep]; auto.
    - destruct opts; cbn [setDiagConfig heap]; auto. rewrite dget_dset_neq; auto. lia.
    - apply own_last in OW as (_ & eig & vec & sparse & d & A). apply held in A as (c & G & _ & D). rewrite G.
      destruct (dget (heap (run ops)) (d_opts c)) as [d'|]; auto. cbn [heap]. rewrite dget_dset_neq; auto.
      intros E. symmetry in E. apply D in E. discriminate.
  Qed.
  Lemma given_kept i ops eig vec sparse d : asked i ops eig vec sparse (Some d) -> own_options i ops ->
    exists c, dget (systems (run ops)) i = Some c /\ dget (heap (run ops)) (d_opts c) = Some d.
  Proof.
    intros (a & o & b & -> & NB & H). revert NB. induction b as [|o' b IH] using rev_ind; intros NB OW.
    - rewrite run_app. destruct H as [-> | [-> E]]; [|discriminate]. cbn [dstep setDiagConfig systems heap].
      rewrite dget_dset_eq. eexists. split; [reflexivity|]. cbn. apply dget_dset_eq.
    - change (a ++ o :: b ++ [o']) with (a ++ (o :: b) ++ [o']) in *. rewrite app_assoc in *.
      destruct IH as (c & G & E); [intros x Hx; apply NB, in_app_iff; now left|now apply own_app in OW|].
      exists c. rewrite run_app. set (w := run (a ++ o :: b)) in *. pose proof (dinv_run (a ++ o :: b)) as I. fold w in I. destruct I as [N L HH S].
      assert (~ configures i o') as NC by (apply NB, in_app_iff; right; now left).
      destruct o' as [j|j eig' vec' sparse' opts'|j k v]; cbn [dstep configures] in *.
      + cbn [setDiagConfig systems heap]. rewrite dget_dset_neq; auto.
      + destruct opts'; cbn [setDiagConfig systems heap]; rewrite dget_dset_neq; auto. split; auto.
        rewrite dget_dset_neq; auto. apply L in G. lia.
      + apply own_last in OW as (NE & eig' & vec' & sparse' & d' & A). apply held in A as (cj & Gj & _ & D). fold w in Gj. rewrite Gj.
        destruct (dget (heap w) (d_opts cj)) as [dj|] eqn:Gd; auto. cbn [systems heap]. split; auto. rewrite dget_dset_neq; auto.
        intros Eq. assert (d_opts cj = 0) as Z by (eapply S; [exact Gj|exact G|exact NE|now symmetry]). apply D in Z. discriminate.
  Qed.
  Lemma conf_lemma i ops eig vec sparse opts m : asked i ops eig vec sparse opts -> own_options i ops ->
    diagonalize diagSparseH diagDenseH (run ops) i m =
      if sparse then diagSparseH m eig vec (match opts with Some d => d | None => default_opts end) else diagDenseH m eig vec.
  Proof.
    intros A OW. destruct (held _ _ _ _ _ _ A) as (c & G & [= E1 E2 E3] & D). unfold diagonalize. rewrite G, E1, E2, E3.
    assert (dget (heap (run ops)) (d_opts c) = Some (match opts with Some d => d | None => default_opts end)) as ->; auto.
    destruct opts as [d|].
    - destruct (given_kept _ _ _ _ _ _ A OW) as (c' & G' & H). congruence.
    - rewrite (proj1 D eq_refl). eapply default_kept. eauto.
  Qed.
  (** dense solver: whatever was done to the options *)
  Lemma heap_dom ops i c : dget (systems (run ops)) i = Some c -> exists d, dget (heap (run ops)) (d_opts c) = Some d.
  Proof. intros G. destruct (dinv_run ops) as [_ L H _]. apply H. eapply L. eauto. Qed.
  Lemma dense_lemma i ops eig vec opts m : asked i ops eig vec false opts -> diagonalize diagSparseH diagDenseH (run ops) i m = diagDenseH m eig vec.
  Proof.
    intros A. destruct (held _ _ _ _ _ _ A) as (c & G & [= E1 E2 E3] & D). unfold diagonalize. rewrite G. destruct (heap_dom _ _ _ G) as (d & ->).
    now rewrite E1, E2, E3.
  Qed.
End D.

(** system 1 changes an option of its configuration; system 2, made
    afterwards, gets it *)
Definition tol_ops : list (@dop nat) := [DNew 1; DPoke 1 "tol" 7; DSet 2 3 true true None].
Lemma conf_ref : asked 2 tol_ops 3 true true None /\
  forall M X (dS : M -> nat -> bool -> dict string nat -> res X) dD m, diagonalize dS dD (drun [("tol", 1)] tol_ops) 2 m = dS m 3 true [("tol", 7)].
Proof.
  split; [|reflexivity]. exists [DNew 1; DPoke 1 "tol" 7], (DSet 2 3 true true None), []. split; [reflexivity|]. split; [intros o []|]. now left.
Qed.
Lemma conf_wit : let ops := [DNew 1; DSet 1 4 true true (Some [("tol", 2)]); DPoke 1 "tol" 7; DNew 2; DSet 2 3 true true None] in
  asked 2 ops 3 true true None /\ own_options 2 ops.
Proof.
  cbv zeta. split.
  - exists [DNew 1; DSet 1 4 true true (Some [("tol", 2)]); DPoke 1 "tol" 7; DNew 2], (DSet 2 3 true true None), []. split; [reflexivity|]. split; [intros o []|]. now left.
  - intros a j k v b E. destruct a as [|o1 [|o2 [|o3 [|o4 [|o5 a]]]]]; cbn in E; try discriminate.
    + injection E as <- <- <- <- <- <-. split; [discriminate|]. exists 4, true, true, [("tol", 2)].
      exists [DNew 1], (DSet 1 4 true true (Some [("tol", 2)])), []. split; [reflexivity|]. split; [intros o []|]. now left.
    + injection E as _ _ _ _ _ E. destruct a; discriminate.
Qed.
