(** What paramSweep sweeps. *)
From Coq Require Import List Bool String Arith ZArith Lia SpecFloat.
From Verif Require Import Prelude PreludeFacts Float Param Expr Sweep Coll CollSpec CollFinal CollLast Temp NumOp NumSweep NumSweepSpec
  NumSweepFinal NumSweepWit NumSweepRef SweepConf SweepConfSpec.
Import ListNotations.
Open Scope string_scope.
Open Scope list_scope.

Section S.
  Context {A : alg} {D K : Type}.
  Variable meth : string -> K -> option (D * D) -> view -> res (value D).
  Variable diagonalize : value D -> res (value D).
  Variables (o_set o_sw : nat -> ordr) (fuel : nat) (sq_post : nat -> sq_t) (kw0 : K) (o_non o_re : ordr) (sq_pre : sq_t).
  Notation step := (@astep A D K meth diagonalize o_set o_sw fuel sq_post kw0 o_non o_re sq_pre).
  Notation run := (@arun A D K meth diagonalize o_set o_sw fuel sq_post kw0 o_non o_re sq_pre).
  Notation sweep := (@runSweep A D K meth diagonalize o_set o_sw fuel sq_post kw0 o_non o_re sq_pre).
  Notation psweep := (paramSweep meth diagonalize o_set o_sw fuel sq_post kw0 o_non o_re sq_pre).

  Lemma asked_run s ops sp ev : asked s ops sp ev -> forall a, a_sys a = s ->
    a_specs (run a ops) = a_specs a ++ sp /\ a_evals (run a ops) = a_evals a ++ ev /\ a_fs (run a ops) = a_fs a /\ a_temp (run a ops) = a_temp a.
  Proof.
    induction 1 as [s|s s' ops sp ev _ IH|s k x y n ops sp ev R _ IH|s x y z n ops sp ev R _ IH|s name m eig kw ops sp ev SF _ IH|s name kw ops sp ev SF _ IH];
      intros a EA; unfold arun; cbn [fold_left]; fold (run (step a (AOther s))).
    - rewrite !app_nil_r. auto.
    - exact (IH (step a (AOther s')) eq_refl).
    - destruct (IH (step a (AAdd (PStr k) x y n))) as (H1 & H2 & H3 & H4).
      { cbn [astep]. unfold addSweep. now destruct (paramSweepSpec _ _ _ _ _). }
      assert (step a (AAdd (PStr k) x y n) = mkapi (a_sys a) (a_specs a ++ [mkspec k x y n]) (a_evals a) (a_fs a) (a_temp a)) as E.
      { cbn [astep]. unfold addSweep. rewrite EA. cbn [paramSweepSpec]. unfold dmem. apply mem_In in R. now rewrite R. }
      unfold arun in *. rewrite H1, H2, H3, H4, E. cbn [a_specs a_evals a_fs a_temp]. rewrite <- app_assoc. auto.
    - assert (step a (AAdd x y z n) = a) as E.
      { cbn [astep]. unfold addSweep, paramSweepSpec. destruct x; auto.
        destruct (dmem _ _) eqn:M; auto. exfalso. eapply R; [reflexivity|]. rewrite <- EA. now apply mem_In. }
      rewrite E. exact (IH a EA).
    - assert (step a (AEval name kw) = mkapi (a_sys a) (a_specs a)
         (a_evals a ++ [mkentry m (String.eqb name "Hamiltonian") (if eig then Some "getHamiltonian" else None) kw]) (a_fs a) (a_temp a)) as E.
      { cbn [astep]. unfold addEval. now rewrite (proj1 (add_stands (a_evals a) name kw) m eig SF). }
      destruct (IH (step a (AEval name kw))) as (H1 & H2 & H3 & H4); [now rewrite E|].
      unfold arun in *. rewrite H1, H2, H3, H4, E. cbn [a_specs a_evals a_fs a_temp]. rewrite <- app_assoc. auto.
    - assert (step a (AEval name kw) = a) as E.
      { cbn [astep]. unfold addEval. now rewrite (proj2 (add_stands (a_evals a) name kw) SF). }
      rewrite E. exact (IH a EA).
  Qed.

  Lemma sweep_requested a : match psweep (a_sys a) (a_specs a) (a_evals a) (a_fs a) (a_temp a) with
    | Ok w => snd (sweep a) = Ok (w_files w) /\ fst (sweep a) = mkapi (w_sys w) [] [] (w_fs w) (w_temp w)
    | Err e => snd (sweep a) = Err e
    end.
  Proof.
    unfold runSweep. destruct (a_evals a) as [|e l].
    - change (psweep (a_sys a) (a_specs a) [] (a_fs a) (a_temp a)) with
        (psweep (a_sys a) (a_specs a) [mkentry "getHamiltonian" true None kw0] (a_fs a) (a_temp a)).
      destruct (psweep _ _ _ _ _); cbn [fst snd]; auto.
    - destruct (psweep _ _ _ _ _); cbn [fst snd]; auto.
  Qed.

  Lemma C111_lemma a before ops sp ev :
    before = ANew \/ (before = ARun /\ exists files, snd (sweep a) = Ok files) ->
    let a1 := step a before in asked (a_sys a1) ops sp ev ->
    let a2 := run a1 ops in
    match psweep (a_sys a2) sp ev (a_fs a2) (a_temp a2) with
    | Ok w => snd (sweep a2) = Ok (w_files w) /\ a_sys (fst (sweep a2)) = w_sys w
    | Err e => snd (sweep a2) = Err e
    end.
  Proof.
    intros B a1 AS a2. destruct (asked_run _ _ _ _ AS a1 eq_refl) as (H1 & H2 & _). fold a2 in H1, H2.
    assert (a_specs a1 = [] /\ a_evals a1 = []) as [E1 E2].
    { unfold a1. destruct B as [->|(-> & files & E)]; [now split|]. cbn [astep]. revert E. unfold runSweep.
      destruct (psweep _ _ _ _ _); cbn [fst snd]; [now split|discriminate]. }
    rewrite E1 in H1. rewrite E2 in H2. cbn [app] in H1, H2. pose proof (sweep_requested a2) as S. rewrite H1, H2 in S.
    destruct (psweep (a_sys a2) sp ev (a_fs a2) (a_temp a2)) as [w|e]; [|exact S]. destruct S as [S1 S2]. now rewrite S2.
  Qed.
End S.

(** ** A corrected sweep *)
Definition wapi : api tree_alg nat nat := mkapi wsys [] [] fs0 temp0.
Definition wstep := @astep tree_alg nat nat cmeth cdiagz (fun _ => idord) (fun _ => idord) 50 (fun _ => idsq) 0%nat idord idord idsq.
Definition wsweep := @runSweep tree_alg nat nat cmeth cdiagz (fun _ => idord) (fun _ => idord) 50 (fun _ => idsq) 0%nat idord idord idsq.
Definition wfail : api tree_alg nat nat := fst (addSweep wapi (PStr "x") (PInt 1) (PInt 3) (PInt (-3))).
Definition wagain : list (aop tree_alg nat) := [AAdd (PStr "x") (PInt 1) (PInt 3) (PInt 3); AEval "ChargingEnergy" 0%nat].
Lemma wagain_asked s : n_cst s = n_cst wsys ->
  asked s wagain [mkspec "x" (PInt 1) (PInt 3) (PInt 3)] [mkentry "getChargingEnergies" false None 0%nat].
Proof.
  intros E. apply as_sweep; [rewrite E; unfold registered; vm_compute; tauto|]. exact (as_eval s "ChargingEnergy" _ _ 0%nat [] [] [] sf_charging (as_nil s)).
Qed.
Lemma c111_ref :
  snd (wsweep wfail) = Err ValueError /\ let a1 := wstep wfail ARun in
  asked (a_sys a1) wagain [mkspec "x" (PInt 1) (PInt 3) (PInt 3)] [mkentry "getChargingEnergies" false None 0%nat] /\
  let a2 := fold_left wstep wagain a1 in
  snd (wsweep a2) = Err ValueError /\ a_evals a2 = [mkentry "getHamiltonian" true None 0%nat; mkentry "getChargingEnergies" false None 0%nat] /\
  exists w, paramSweep cmeth cdiagz (fun _ => idord) (fun _ => idord) 50 (fun _ => idsq) 0%nat idord idord idsq (a_sys a2)
    [mkspec "x" (PInt 1) (PInt 3) (PInt 3)] [mkentry "getChargingEnergies" false None 0%nat] (a_fs a2) (a_temp a2) = Ok w.
Proof.
  split; [vm_compute; reflexivity|]. cbv zeta. split; [apply wagain_asked; vm_compute; reflexivity|].
  split; [vm_compute; reflexivity|]. split; [vm_compute; reflexivity|].
  eexists. apply (isok_ok (mkswp wsys fs0 temp0 [] [])). vm_compute. reflexivity.
Qed.
Lemma c111_wit : asked (a_sys (wstep wfail ANew)) wagain [mkspec "x" (PInt 1) (PInt 3) (PInt 3)] [mkentry "getChargingEnergies" false None 0%nat] /\
  exists files, snd (wsweep (fold_left wstep wagain (wstep wfail ANew))) = Ok files /\ List.length files = 3%nat.
Proof.
  split; [apply wagain_asked; reflexivity|]. eexists. split; [apply (isok_ok []); vm_compute; reflexivity|vm_compute; reflexivity].
Qed.
