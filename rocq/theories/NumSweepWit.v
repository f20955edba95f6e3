(** Concrete systems used beside the theorems of NumSweepProps.v. *)
From Coq Require Import List Bool String Arith NArith ZArith Lia SpecFloat Permutation Relations.
From Verif Require Import Prelude PreludeFacts Symbolic Float Param Expr ExprProofs Sweep
  Coll CollGraph CollSpec CollProofs CollUpdate CollFinal CollLast Temp NumOp NumSweep NumSweepSpec NumSweepRun NumSweepProofs.
Import ListNotations.
Open Scope string_scope.
Open Scope list_scope.

(** ** Values as an assignment *)
Section R.
  Context {A : alg}.
  Variable sg : string -> string.
  Hypothesis INJ : forall a b, sg a = sg b -> a = b.
  Definition reading (st : cst A) (s : string) : option (V A) :=
    match find (fun kv => eqb (sg (fst kv)) s) (c_coll st) with Some (_, p) => option_map ofF (p_value p) | None => None end.
  Lemma reads_reading (st : cst A) : NoDup (dkeys (c_coll st)) -> reads sg st (reading st).
  Proof.
    intros ND s v. unfold reading. split.
    - destruct (find _ _) as [[k p]|] eqn:F; [|discriminate]. apply find_some in F as [I E]. cbn [fst] in E.
      destruct (eqb_spec (sg k) s) as [<-|]; [|discriminate]. pose proof (In_dget _ _ _ ND I) as G.
      destruct (p_value p) as [x|] eqn:V; [|discriminate]. intros [= <-]. exists k, x. split; [eapply dget_Some_key; eauto|].
      split; auto. split; auto. unfold value_of. now rewrite G.
    - intros (q & x & R & -> & V & ->). unfold value_of in V. destruct (dget (c_coll st) q) as [p|] eqn:G; [|discriminate].
      destruct (find _ (c_coll st)) as [[k p']|] eqn:F.
      + apply find_some in F as [I E]. cbn [fst] in E. destruct (eqb_spec (sg k) (sg q)) as [E'|]; [|discriminate]. apply INJ in E'. subst k.
        pose proof (In_dget _ _ _ ND I) as G'. rewrite G in G'. injection G' as <-. now rewrite V.
      + exfalso. apply dget_In in G. apply (find_none _ _ F) in G. cbn [fst] in G. rewrite eqb_refl in G. discriminate.
  Qed.
  Lemma has_number_reading (st : cst A) e v : NoDup (dkeys (c_coll st)) -> eval e (reading st) = Some v -> has_number sg st e.
  Proof. intros ND E. exists (reading st), v. split; auto. now apply reads_reading. Qed.
End R.

(** ** Operators after a call of setParameterValues *)
Section Sync.
  Context {A : alg}.
  Lemma expand_all (c : cst A) data : NoDup (dkeys data) -> forall l circ circ', NoDup l -> expandOps c data circ l = Ok circ' ->
    (forall n, In n l -> exists d e o, dget data n = Some (d, e) /\ gen_op c n d = Ok o /\ dget circ' n = Some o) /\
    (forall n, ~ In n l -> dget circ' n = dget circ n).
  Proof.
    intros ND. unfold expandOps. induction l as [|n l IH]; intros circ circ' NL E; cbn [foldM] in E.
    - injection E as <-. split; auto. intros n [].
    - destruct (dget data n) as [[d e]|] eqn:G; [|discriminate]. destruct (gen_op c n d) as [o|] eqn:GO; [|discriminate]. cbn [bind] in E.
      apply NoDup_cons_iff in NL as [Nn NL]. destruct (IH _ _ NL E) as [H1 H2]. split.
      + intros m [<-|Hm]; auto. exists d, e, o. do 2 (split; auto). rewrite H2 by auto. apply dget_dset_eq.
      + intros m Hm. rewrite H2 by (intros C; apply Hm; now right). apply dget_dset_neq. intros ->. apply Hm. now left.
  Qed.
  Lemma prepare_sync (s s' : nsys A) : NoDup (dkeys (n_data s)) -> prepareOperators s = Ok s' -> in_sync s'.
  Proof.
    intros ND. unfold prepareOperators. destruct (expandOps _ _ _ _) as [circ|] eqn:E; [|discriminate]. cbn [bind].
    destruct (mapM _ _) as [qp|] eqn:Q; [|discriminate]. intros [= <-].
    destruct (expand_all _ _ ND _ _ _ ND E) as [H _]. split; cbn [with_qp with_circ n_data n_cst n_circ n_qp].
    - intros n d e G. destruct (H n (dget_Some_key _ _ _ G)) as (d' & e' & o & G' & GO & C). rewrite G in G'. injection G' as <- <-. eauto.
    - clear - Q. revert qp Q. generalize (dkeys (n_data s)). induction l as [|n l IH]; intros qp Q; cbn [mapM] in Q.
      + injection Q as <-. constructor.
      + destruct (dget circ n) as [o|] eqn:G; [|discriminate]. cbn [bind] in Q.
        match type of Q with bind ?m _ = _ => destruct m as [r|] eqn:X; [|discriminate] end. injection Q as <-. constructor; auto.
  Qed.
  Lemma ns_set_sync ord fuel sq (s s' : nsys A) a : NoDup (dkeys (n_data s)) -> ns_set ord fuel sq s a = Ok s' -> in_sync s'.
  Proof.
    intros ND. unfold ns_set. destruct (setParameterValues _ _ _ _) as [c [u|]]; [|discriminate]. destruct (all_set _); [|discriminate].
    destruct (substitute sq (with_cst s c)) as [s2|] eqn:E; [|discriminate]. cbn [bind]. apply prepare_sync.
    unfold substitute in E. destruct (getSymbolValuesDict _) as [d|]; [|discriminate]. cbn [bind] in E. destruct (mapM _ _) as [l|]; [|discriminate].
    injection E as <-. exact ND.
  Qed.
  Lemma ns_set_cst ord fuel sq (s s' : nsys A) a : ns_set ord fuel sq s a = Ok s' -> n_cst s' = fst (setParameterValues ord fuel (n_cst s) a).
  Proof.
    unfold ns_set. destruct (setParameterValues _ _ _ _) as [c [u|]]; [|discriminate]. destruct (all_set _); [|discriminate].
    unfold substitute. destruct (getSymbolValuesDict _) as [d|]; [|discriminate]. cbn [bind].
    match goal with |- bind (bind ?m _) _ = _ -> _ => destruct m as [l|]; [|discriminate] end. cbn [bind].
    unfold prepareOperators. destruct (expandOps _ _ _ _) as [circ|]; [|discriminate]. cbn [bind].
    destruct (mapM _ _) as [qp|]; [|discriminate]. intros [= <-]. reflexivity.
  Qed.
  Lemma ns_set_reach sg ord fuel sq (s s' : nsys A) a ow : reach sg (n_cst s) ow -> good_ord ord -> ns_set ord fuel sq s a = Ok s' -> reach sg (n_cst s') ow.
  Proof. intros RE GO E. rewrite (ns_set_cst _ _ _ _ _ _ E). exact (reach_op sg fuel (n_cst s) ow (ord, CSets a) RE GO I). Qed.
End Sync.

(** ** A two-node circuit: node 1 in a charge basis, node 2 in an oscillator
    basis; p = y*y, Zosc2 = y; x = 1, y = 3 *)
Ltac vmr := lazymatch goal with |- _ = (_, _) => apply pair_res; vm_compute; reflexivity | |- _ => vm_compute; reflexivity end.
Definition fz (z : Z) : f64 := round_Z z.
Definition isok {X} (r : res X) : bool := match r with Ok _ => true | Err _ => false end.
Definition getok {X} (d : X) (r : res X) : X := match r with Ok x => x | Err _ => d end.
Lemma isok_ok {X} (d : X) (r : res X) : isok r = true -> r = Ok (getok d r).
Proof. destruct r; [reflexivity|discriminate]. Qed.
Definition idsq : sq_t := fun d => d.
Definition revsq : sq_t := fun d => rev d.
Lemma idsq_good : good_sq idsq. Proof. intros d. apply Permutation_refl. Qed.
Lemma revsq_good : good_sq revsq. Proof. intros d. apply Permutation_sym, Permutation_rev. Qed.
Definition sy (n : string) : E tree_alg := TSym (dsg n).
Definition set0 (l : list (string * Z)) : cop tree_alg := CSets (SVDict (map (fun kv => (fst kv, PInt (snd kv))) l)).
Definition w_ops : list (cop tree_alg) :=
  [CAddP "p" (TMul (sy "y") (sy "y") : E tree_alg); CAddP "Zosc2" (sy "y"); set0 [("x", 1%Z); ("y", 3%Z)]].
Definition w_cst : cst tree_alg := hist ["x"; "y"; "p"; "Zosc2"] w_ops.
Definition sw0 : swst := mksw [] [] 0 [] 0 [] [] None.
Definition w_data : dict nat (opdata * E tree_alg) := [(1, (mkod 2 BCharge, TNum 0%Z : E tree_alg)); (2, (mkod 2 BOscillator, sy "Zosc2"))].
Definition w_sys0 : nsys tree_alg := mkns w_cst sw0 [TAdd (TMul (sy "x") (sy "y")) (sy "p")] w_data [] [] [].
(** the operators are made by setParameterValues *)
Definition wsys : nsys tree_alg := getok w_sys0 (ns_set idord 50 idsq w_sys0 (SVDict [("y", PInt 3)])).
Definition wspecs : list spec := [mkspec "x" (PInt 1) (PInt 3) (PInt 3)].
Definition wgrid : nsys tree_alg := getok wsys (with_grid wsys wspecs).

Lemma w_set : ns_set idord 50 idsq w_sys0 (SVDict [("y", PInt 3)]) = Ok wsys.
Proof. apply isok_ok. vm_compute. reflexivity. Qed.
Lemma w_grid : with_grid wsys wspecs = Ok wgrid.
Proof. apply isok_ok. vm_compute. reflexivity. Qed.
Lemma w_reach : reach dsg (n_cst wsys) [].
Proof.
  eapply ns_set_reach; [|apply idord_good|exact w_set]. cbn [w_sys0 n_cst]. unfold w_cst. reach_lit; [unfold w_ops, set0; oks|vmr].
Qed.
Lemma w_sync : in_sync wsys.
Proof.
  eapply ns_set_sync; [|exact w_set]. vm_compute. repeat constructor; cbn; intuition discriminate.
Qed.
Lemma w_sreach : sreach dsg (n_cst wsys) []. Proof. apply sreach_new, w_reach. Qed.
Definition w_sol : string -> option Z := fun t =>
  if String.eqb t (dsg "x") then Some 1%Z else if String.eqb t (dsg "y") then Some 3%Z else
  if String.eqb t (dsg "p") then Some 9%Z else if String.eqb t (dsg "Zosc2") then Some 3%Z else None.
Ltac solve_lit :=
  let q := fresh "q" in let t := fresh "t" in let H := fresh "H" in
  intros q t H; apply dget_In in H; vm_compute in H;
  repeat (destruct H as [H|H]; [injection H as <- <-; vm_compute; reflexivity|]); destruct H.
Lemma w_solution : @solution tree_alg (n_cst wsys) w_sol.
Proof. solve_lit. Qed.
Lemma w_settled : settled dsg (n_cst wsys).
Proof.
  intros q (e & ns & H). apply dget_In in H. vm_compute in H.
  destruct H as [H|[H|[]]]; injection H as <- _ _.
  - destruct (dget (c_coll (n_cst wsys)) "p") as [p|] eqn:G; [|vm_compute in G; discriminate].
    exists w_sol, 9%Z, (fz 9), p. split; [exact w_solution|]. split; [vm_compute; reflexivity|]. split; [vm_compute; reflexivity|].
    split; auto. vm_compute in G. injection G as <-. split; vm_compute; reflexivity.
  - destruct (dget (c_coll (n_cst wsys)) "Zosc2") as [p|] eqn:G; [|vm_compute in G; discriminate].
    exists w_sol, 3%Z, (fz 3), p. split; [exact w_solution|]. split; [vm_compute; reflexivity|]. split; [vm_compute; reflexivity|].
    split; auto. vm_compute in G. injection G as <-. split; vm_compute; reflexivity.
Qed.
Lemma w_given q : registered (n_cst wsys) q -> value_of (n_cst wsys) q <> None.
Proof. unfold registered. vm_compute. intros H. repeat (destruct H as [<-|H]; [discriminate|]). destruct H. Qed.
Lemma w_ind n : In n (map sp_name wspecs) -> independent (n_cst wsys) n.
Proof.
  cbn. intros [<-|[]]. split; [vm_compute; tauto|]. intros (e & ns & H). vm_compute in H. discriminate.
Qed.
Lemma w_dep q : dependents (n_cst wsys) (map sp_name wspecs) q -> q = "x".
Proof.
  intros [H|(r & H & D)]; cbn in H.
  - now destruct H as [<-|[]].
  - destruct H as [<-|[]]. exfalso. apply clos_trans_tn1 in D.
    assert (forall p, ~ depends (n_cst wsys) p "x") as N.
    { intros p (ns & G & I). unfold getParameterisationParameters in G.
      destruct (dget (c_par (n_cst wsys)) p) as [[e ns']|] eqn:X; [|discriminate]. injection G as ->. apply dget_In in X. vm_compute in X.
      repeat (destruct X as [X|X]; [injection X as _ _ <-; cbn in I; intuition discriminate|]). destruct X. }
    inversion D as [y H|y z H _]; subst; exact (N _ H).
Qed.
Lemma w_imp : fixed_impedances wsys (map sp_name wspecs).
Proof. intros n d e G B D. apply w_dep in D. unfold zname in D. discriminate. Qed.
Lemma fst_eq {X Y} (p : X * Y) x y : p = (x, y) -> x = fst p.
Proof. now intros ->. Qed.
Lemma getok_eq {X} (d : X) r x : r = Ok x -> x = getok d r.
Proof. now intros ->. Qed.
Ltac nodup_lit := vm_compute; repeat (constructor; [cbn; intuition discriminate|]); constructor.
Ltac number_step :=
  let pt := fresh "pt" in let st := fresh "st" in let GP := fresh "GP" in let SV := fresh "SV" in
  intros pt st GP SV; vm_compute in GP; injection GP as <-;
  apply fst_eq in SV; subst st; split;
  [let e := fresh in let H := fresh in intros e H; vm_compute in H; repeat (destruct H as [<-|H]; [
     eapply (has_number_reading dsg dsg_inj); [nodup_lit|vm_compute; reflexivity]|]); destruct H
  |let s' := fresh "s" in let NS := fresh "NS" in intros s' NS; apply (getok_eq w_sys0) in NS; subst s'].
Lemma w_numbers : @numbers_along tree_alg dsg (fun _ => idord) 50 (fun _ => revsq) wgrid (seq 0 (Z.to_nat (s_npts (n_sw wgrid)))).
Proof.
  replace (seq 0 (Z.to_nat (s_npts (n_sw wgrid)))) with [0; 1; 2]%nat by (vm_compute; reflexivity).
  cbn [numbers_along]. do 3 number_step. exact I.
Qed.
