(** A successful setParameterValues establishes what C58 and C59 ask of the
    system. *)
From Coq Require Import List Bool String Arith NArith ZArith Lia SpecFloat Permutation.
From Verif Require Import Prelude PreludeFacts Symbolic Float Param Expr Sweep SweepProofs
  Coll CollGraph CollSpec CollProofs CollExpand CollUpdate CollMain CollFinal CollLast NumOp NumSweep NumSweepSpec NumSubs NumRun
  NumSweepRun NumSteady NumSweepProofs NumSweepFinal NumSweepWit.
Import ListNotations.
Open Scope list_scope.
Open Scope nat_scope.

Section S.
  Context {A : alg} (LAW : alg_ok A).
  Variable sg : string -> string.
  Hypothesis INJ : forall a b, sg a = sg b -> a = b.

  Lemma ns_set_given ord fuel sq (s s' : nsys A) a : ns_set ord fuel sq s a = Ok s' ->
    forall q, registered (n_cst s') q -> value_of (n_cst s') q <> None.
  Proof.
    intros E. pose proof (ns_set_cst _ _ _ _ _ _ E) as EC. unfold ns_set in E.
    destruct (setParameterValues _ _ _ _) as [c [u|]]; [|discriminate]. cbn [fst] in EC. rewrite EC.
    destruct (all_set (getParameterValuesDict c)) eqn:AS; [|discriminate].
    intros q R. apply dkeys_dget in R as (p & G). unfold value_of. rewrite G. intros V.
    unfold all_set, getParameterValuesDict in AS. rewrite forallb_forall in AS.
    specialize (AS (q, getValue p)). cbn [snd] in AS.
    assert (In (q, getValue p) (map (fun kp => (fst kp, getValue (snd kp))) (c_coll c))) as I.
    { apply in_map_iff. exists (q, p). split; auto. now apply dget_In. }
    specialize (AS I). unfold getValue in AS. rewrite V in AS. discriminate.
  Qed.

  Lemma C58_ready_lemma ord fuel sq (s s' : nsys A) a : sreach sg (n_cst s) [] -> good_ord ord -> NoDup (dkeys (n_data s)) ->
    ns_set ord fuel sq s a = Ok s' ->
    (forall q, parametric (n_cst s') q -> exists i, depends_tr (n_cst s') q i /\ independent (n_cst s') i) ->
    (forall q, parametric (n_cst s') q -> exists r v x p, solution (n_cst s') r /\ r (sg q) = Some v /\ toF v = Ok x /\
       dget (c_coll (n_cst s')) q = Some p /\ snd (setValue p (PFloat x)) = Ok tt) ->
    sreach sg (n_cst s') [] /\ settled sg (n_cst s') /\ (forall q, registered (n_cst s') q -> value_of (n_cst s') q <> None) /\ in_sync s'.
  Proof.
    intros RE GO ND E DEP ADM. pose proof (ns_set_given _ _ _ _ _ _ E) as GV. pose proof (ns_set_cst _ _ _ _ _ _ E) as EC.
    split; [rewrite EC; exact (sreach_op sg fuel (n_cst s) [] (ord, CSets a) RE GO I)|]. split; [|split; [exact GV|eapply ns_set_sync; eauto]].
    intros q P. destruct (ADM q P) as (r & v & x & p & SOL & RV & FV & G & AC). exists r, v, x, p. do 4 (split; auto).
    destruct (DEP q P) as (i & D & II). split; auto.
    assert (cstep fuel (n_cst s) (ord, CSets a) = (n_cst s', Ok tt)) as ST.
    { clear - E. pose proof (ns_set_cst _ _ _ _ _ _ E) as EC. unfold ns_set in E. change (setParameterValues ord fuel (n_cst s) a = (n_cst s', Ok tt)). rewrite EC.
      destruct (setParameterValues _ _ _ _) as [c [[]|]]; [reflexivity|discriminate]. }
    apply (ginv_sreach LAW) in RE.
    pose proof (C10_ginv LAW sg INJ (n_cst s) [] ord fuel (CSets a) (n_cst s') RE GO I ST r q i v x p SOL G D II (GV i (proj1 II)) RV FV AC) as H.
    unfold getParameterValue in H. rewrite G in H. unfold getValue in H. now injection H.
  Qed.
End S.

Open Scope string_scope.
Lemma ready_wit : sreach dsg (n_cst w_sys0) [] /\ NoDup (dkeys (n_data w_sys0)) /\
  ns_set idord 50 idsq w_sys0 (SVDict [("y", PInt 3)]) = Ok wsys /\ parametric (n_cst wsys) "p" /\
  (forall q, parametric (n_cst wsys) q -> exists i, depends_tr (n_cst wsys) q i /\ independent (n_cst wsys) i) /\
  (forall q, parametric (n_cst wsys) q -> exists r v x p, solution (n_cst wsys) r /\ r (dsg q) = Some v /\ toF v = Ok x /\
     dget (c_coll (n_cst wsys)) q = Some p /\ snd (setValue p (PFloat x)) = Ok tt).
Proof.
  split; [apply sreach_new; cbn [w_sys0 n_cst]; unfold w_cst; reach_lit; [unfold w_ops, set0; oks|vmr]|].
  split; [vm_compute; repeat constructor; cbn; intuition discriminate|].
  split; [exact w_set|]. split; [apply dmem_par; vmr|]. split.
  - intros q (e & ns & H). exists "y". apply dget_In in H. vm_compute in H. split.
    + apply Relations.Relation_Operators.t_step. destruct H as [H|[H|[]]]; injection H as <- _ _; eexists; (split; [vmr|cbn; tauto]).
    + split; [vm_compute; tauto|]. intros (e' & ns' & H'). vm_compute in H'. discriminate.
  - intros q P. destruct (w_settled q P) as (r & v & x & p & H1 & H2 & H3 & H4 & _ & H5). exists r, v, x, p. auto.
Qed.
