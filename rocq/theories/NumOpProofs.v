(** Proofs of C54-C57 and C62-C64 from the lemmas of NumExpand, NumCharge,
    NumHerm, NumOsc and NumPot, with the witnesses used beside them. *)
From Coq Require Import List Bool Arith Lia ZArith Reals Lra Setoid Morphisms Permutation Sorted.
From Coquelicot Require Import Complex.
From Verif Require Import Prelude PreludeFacts Sweep SweepProofs SweepResultProofs Mat MatFacts Util UtilProofs Graph Symbolic NumOp NumOpSpec NumKron NumSpectral NumCharge NumExpand NumHerm NumOsc NumPot.
Import ListNotations.
Open Scope nat_scope.

(** ** C54 *)
Lemma c54_size eigh inv z ka kb pmax chg flx nodes cmds :
  let gen := getOperatorList eigh inv z ka kb pmax chg flx in
  let data := configure_all nodes cmds in
  NoDup nodes -> (forall n, In n nodes -> exists d, dget data n = Some d /\ (od_basis d = BCharge \/ od_basis d = BOscillator)) ->
  exists circ, getExpandedOperatorsMap gen nodes data None [] = Ok circ /\
  forall i n, nth_error nodes i = Some n -> exists d o c, dget data n = Some d /\ gen n d = Ok o /\ dget circ n = Some c /\
    nth_error (c_dims c) i = Some (o_dim o) /\ List.length (c_dims c) = List.length nodes /\
    fold_right Nat.mul 1 (c_dims c) = getHilbertSpaceSize data.
Proof.
  intros gen data ND Hb.
  assert (Hd : forall n d, dget data n = Some d -> (od_basis d = BCharge \/ od_basis d = BOscillator) -> exists o, gen n d = Ok o /\ ident_dim d = Some (o_dim o)).
  { intros n d _ [E|E]; unfold gen, getOperatorList, ident_dim; rewrite E; eexists; split; reflexivity. }
  assert (U : usable gen nodes data).
  { intros n Hn. destruct (Hb n Hn) as (d & E & B). destruct (Hd n d E B) as (o & Ho & Hi). exists d, o. repeat split; auto. }
  destruct (map_ok gen nodes data U None [] ND) as (circ & E & H & _). exists circ. split; [exact E|].
  intros i n Hi. destruct (U n (nth_error_In _ _ Hi)) as (d & o & Ed & Eo & _). exists d, o, (lifted gen nodes data i o).
  repeat split; auto.
  - now apply (H i n d).
  - unfold lifted. cbn [c_dims]. rewrite nth_error_map, nth_error_seq0 by (apply nth_error_Some; congruence). cbn. unfold node_dim. now rewrite Hi, Ed, Eo.
  - unfold lifted. cbn [c_dims]. now rewrite map_length, seq_length.
  - unfold lifted. cbn [c_dims]. destruct (configure_inv nodes cmds) as [N1 N2]. fold data in N1, N2. rewrite (size_nodes data nodes); auto.
    + fold (prodn (map (node_dim gen nodes data) (seq 0 (List.length nodes)))). f_equal.
      apply (nth_ext _ _ 0 0); [now rewrite !map_length, seq_length|]. intros k Hk. rewrite map_length, seq_length in Hk.
      rewrite (nth_indep _ 0 (node_dim gen nodes data 0)) by now rewrite map_length, seq_length. rewrite map_nth, seq_nth by easy. cbn [Nat.add].
      unfold node_dim. destruct (nth_error nodes k) as [m|] eqn:Em; [|apply nth_error_None in Em; lia].
      symmetry. apply nth_error_nth. rewrite nth_error_map, Em. cbn [option_map]. f_equal.
      destruct (U m (nth_error_In _ _ Em)) as (d' & o' & Ed' & Eo' & _). rewrite Ed', Eo'. destruct (Hb m (nth_error_In _ _ Em)) as (d'' & E'' & B'').
      rewrite Ed' in E''. injection E'' as <-. destruct (Hd m d' Ed' B'') as (o'' & Eo'' & Ei). rewrite Eo' in Eo''. injection Eo'' as <-.
      unfold plain_dim. now rewrite Ei.
    + intros m. split; [|apply N2]. intros Hm. destruct (Hb m Hm) as (d' & E' & _). eapply dget_Some_key. exact E'.
Qed.
Lemma c54_flux eigh inv z ka kb pmax chg flx t :
  let gen := getOperatorList eigh inv z ka kb pmax chg flx in
  let data := configure_all [1] [(1, (t, BFlux))] in
  exists circ c, getExpandedOperatorsMap gen [1] data None [] = Ok circ /\ dget circ 1 = Some c /\
    fold_right Nat.mul 1 (c_dims c) = 2 * t + 1 /\ getHilbertSpaceSize data = 1.
Proof.
  intros gen data.
  assert (U : usable gen [1] data). { intros n [<-|[]]. exists (mkod t BFlux). eexists. repeat split. now left. }
  destruct (map_ok gen [1] data U None []) as (circ & E & H & _); [repeat constructor; now intros []|].
  eexists circ, _. split; [exact E|]. split; [apply (H 0 1 (mkod t BFlux)); reflexivity|]. split; [|reflexivity].
  unfold lifted. cbn [List.length seq map c_dims fold_right]. unfold node_dim. cbn. lia.
Qed.

(** ** C55 *)
Lemma olist_inv il i d A l : olist il i d A = Ok l ->
  l = map (fun k => (dimf il i d k, if Nat.eqb k i then A else eye)) (seq 0 (List.length il)).
Proof.
  intros H.
  assert (G : forall k, k < List.length il -> k <> i -> nth k il None <> None).
  { intros k Hk Nk E. unfold olist, enumerate in H. rewrite (mapM_combine_err _ TypeError il 0 k None) in H; [discriminate | | |].
    - intros [a b]. cbn. destruct (Nat.eqb a i); [left; eauto|]. destruct b; [left; eauto | now right].
    - rewrite <- E. now apply nth_error_nth'.
    - cbn. destruct (Nat.eqb_spec k i); [easy | reflexivity]. }
  rewrite olist_ok in H by exact G. now injection H as <-.
Qed.
Lemma c55_product il i d A B la lb lab : i < List.length il -> olist il i d A = Ok la -> olist il i d B = Ok lb -> olist il i d (mul d A B) = Ok lab ->
  map fst la = map fst lab /\ nth_error (map fst la) i = Some d /\
  let N := fold_right Nat.mul 1 (map fst la) in same N (mul N (tensor la) (tensor lb)) (tensor lab).
Proof.
  intros Li HA HB HC. apply olist_inv in HA. apply olist_inv in HB. apply olist_inv in HC. subst. set (D := dimf il i d).
  assert (Dm : forall A, map fst (map (fun k => (D k, if Nat.eqb k i then A else eye)) (seq 0 (List.length il))) = map D (seq 0 (List.length il))) by (intros; rewrite map_map; reflexivity).
  rewrite !Dm. split; [easy|]. split; [rewrite nth_error_map, nth_error_seq0 by easy; cbn; unfold D, dimf; now rewrite Nat.eqb_refl|].
  cbv zeta. fold (prodn (map D (seq 0 (List.length il)))). fold (size D (List.length il)).
  change (same (size D (List.length il)) (mul (size D (List.length il)) (lift D (List.length il) i A) (lift D (List.length il) i B)) (lift D (List.length il) i (mul d A B))).
  rewrite lift_mul. apply lift_ext; [easy|]. assert (D i = d) as -> by (unfold D, dimf; now rewrite Nat.eqb_refl). intros a b _ _. symmetry. apply mul_mm.
Qed.
Definition six (c : cops) : list cmat := [cQ c; cP c; cD c; cDd c; cS c; cSd c].
Lemma c55_commute eigh inv z ka kb pmax chg flx nodes data circ0 circ :
  let gen := getOperatorList eigh inv z ka kb pmax chg flx in
  NoDup nodes -> getExpandedOperatorsMap gen nodes data None circ0 = Ok circ ->
  forall n m c c', In n nodes -> In m nodes -> n <> m -> dget circ n = Some c -> dget circ m = Some c' ->
  c_dims c = c_dims c' /\
  forall A B, In A (six c) -> In B (six c') -> commute (fold_right Nat.mul 1 (c_dims c)) A B.
Proof.
  intros gen ND E n m c c' Hn Hm Nm Hc Hc'.
  pose proof (map_usable gen nodes data (gen_dim_list eigh inv z ka kb pmax chg flx) circ0 circ E) as U.
  destruct (map_ok gen nodes data U None circ0 ND) as (circ' & E' & H & _). rewrite E in E'. injection E' as <-.
  apply In_nth_error in Hn as [i Hi]. apply In_nth_error in Hm as [j Hj].
  destruct (U n (nth_error_In _ _ Hi)) as (d & o & Ed & Eo & _). destruct (U m (nth_error_In _ _ Hj)) as (d' & o' & Ed' & Eo' & _).
  rewrite (H i n d o Hi Ed Eo eq_refl) in Hc. rewrite (H j m d' o' Hj Ed' Eo' eq_refl) in Hc'. injection Hc as <-. injection Hc' as <-.
  split; [reflexivity|]. assert (Nij : i <> j) by (intros ->; congruence).
  assert (X : forall k p A, In A (six (lifted gen nodes data k p)) -> exists F, A = lift (node_dim gen nodes data) (List.length nodes) k F).
  { intros k p A HA. cbn in HA. repeat (destruct HA as [<-|HA]; [eexists; reflexivity|]). destruct HA. }
  intros A B HA HB. destruct (X _ _ _ HA) as [F ->]. destruct (X _ _ _ HB) as [G ->]. now apply lift_commute.
Qed.

(** ** C56 *)
Lemma apply_state N A t c i : (Z.abs c <= Z.of_nat t)%Z -> N = 2 * t + 1 -> apply N A (charge_state t c) i = A i (Z.to_nat (Z.of_nat t - c)).
Proof.
  intros Hc ->. rewrite apply_sumn, (@sumn_single C_rng _ (Z.to_nat (Z.of_nat t - c))); [|lia|].
  - unfold charge_state. rewrite Z2Nat.id by lia. rewrite Z.eqb_refl. apply Cmult_1_r.
  - intros k Hk N. unfold charge_state. destruct (Z.eqb_spec (Z.of_nat k) (Z.of_nat t - c)); [lia|]. apply Cmult_0_r.
Qed.
Lemma c56_charge eigh inv t : let N := 2 * t + 1 in let P := chargeP t in
  eigen_ok N P (fst (eigh N P)) (snd (eigh N P)) (inv N (snd (eigh N P))) ->
  let o := charge_basis eigh inv t in
  o_dim o = N /\
  (forall c i, (Z.abs c <= Z.of_nat t)%Z -> i < N -> apply N (oQ o) (charge_state t c) i = (RtoC (IZR c) * charge_state t c i)%C) /\
  (forall c i, (- Z.of_nat t <= c < Z.of_nat t)%Z -> i < N -> apply N (oD o) (charge_state t c) i = charge_state t (c + 1) i) /\
  (forall i, i < N -> apply N (oD o) (charge_state t (Z.of_nat t)) i = RtoC 0) /\
  (forall c i, (- Z.of_nat t < c <= Z.of_nat t)%Z -> i < N -> apply N (oDd o) (charge_state t c) i = charge_state t (c - 1) i) /\
  (forall i, i < N -> apply N (oDd o) (charge_state t (- Z.of_nat t)) i = RtoC 0) /\
  same N (fun i j => (mul N (oQ o) (oD o) i j - mul N (oD o) (oQ o) i j)%C) (oD o) /\
  same N (oS o) identity /\ same N (oSd o) identity.
Proof.
  intros N P H o. destruct (charge_oD eigh inv t H) as [HD HDd]. fold N in HD, HDd. fold o in HD, HDd.
  assert (HQ : forall i j, oQ o i j = if Nat.eqb i j then RtoC (IZR (Z.of_nat t - Z.of_nat i)) else RtoC 0) by apply charge_oQ.
  split; [reflexivity|]. split; [|split; [|split; [|split; [|split; [|split; [|split]]]]]].
  - intros c i Hc Hi. rewrite apply_state, HQ by easy. unfold charge_state. destruct (Nat.eqb_spec i (Z.to_nat (Z.of_nat t - c))) as [E|E].
    + destruct (Z.eqb_spec (Z.of_nat i) (Z.of_nat t - c)); [|lia]. rewrite Cmult_1_r. do 2 f_equal. lia.
    + destruct (Z.eqb_spec (Z.of_nat i) (Z.of_nat t - c)); [lia|]. now rewrite Cmult_0_r.
  - intros c i Hc Hi. rewrite apply_state by (lia || easy). rewrite HD by (unfold N in *; lia). unfold shift, charge_state.
    destruct (Nat.eqb_spec (Z.to_nat (Z.of_nat t - c)) (i + 1)), (Z.eqb_spec (Z.of_nat i) (Z.of_nat t - (c + 1))); auto; lia.
  - intros i Hi. rewrite apply_state by (lia || easy). rewrite HD by (unfold N in *; lia). unfold shift. destruct (Nat.eqb_spec (Z.to_nat (Z.of_nat t - Z.of_nat t)) (i + 1)); [lia | easy].
  - intros c i Hc Hi. rewrite apply_state by (lia || easy). rewrite HDd by (unfold N in *; lia). unfold mdag, shift, charge_state.
    destruct (Nat.eqb_spec i (Z.to_nat (Z.of_nat t - c) + 1)), (Z.eqb_spec (Z.of_nat i) (Z.of_nat t - (c - 1))); auto using conj_R; lia.
  - intros i Hi. rewrite apply_state by (lia || easy). rewrite HDd by (unfold N in *; lia). unfold mdag, shift.
    destruct (Nat.eqb_spec i (Z.to_nat (Z.of_nat t - - Z.of_nat t) + 1)); [unfold N in *; lia | apply conj_R].
  - intros i j Hi Hj. rewrite !mul_mm.
    assert (EQ : forall a b, oQ o a b = cdiag (fun k => RtoC (IZR (Z.of_nat t - Z.of_nat k))) a b) by (intros; now rewrite HQ).
    rewrite (mm_ext N (oQ o) (cdiag (fun k => RtoC (IZR (Z.of_nat t - Z.of_nat k)))) (oD o) (oD o)) by auto.
    rewrite (mm_ext N (oD o) (oD o) (oQ o) (cdiag (fun k => RtoC (IZR (Z.of_nat t - Z.of_nat k))))) by auto.
    rewrite mm_cdiag_l, mm_cdiag_r by easy. rewrite HD by easy. unfold shift. destruct (Nat.eqb_spec j (i + 1)) as [->|E]; [|ring].
    rewrite Cmult_1_l, Cmult_1_r, <- RtoC_minus, <- minus_IZR. f_equal. change 1%R with (IZR 1). f_equal. lia.
  - intros i j _ _. apply charge_oS.
  - intros i j _ _. apply charge_oS.
Qed.
Lemma c56_witness t : exists eigh inv, let N := 2 * t + 1 in let P := chargeP t in
  eigen_ok N P (fst (eigh N P)) (snd (eigh N P)) (inv N (snd (eigh N P))).
Proof. exists (fun _ _ => (lam t, Phi t)), (fun _ V => mdag V). apply chargeP_eigen. Qed.

(** ** C57 *)
Lemma c57_herm eigh inv z ka kb pmax chg flx nodes data circ0 circ Qnp Pnp argord edges h H :
  let gen := getOperatorList eigh inv z ka kb pmax chg flx in
  NoDup nodes -> (forall l, Permutation (argord l) l) ->
  getExpandedOperatorsMap gen nodes data None circ0 = Ok circ ->
  op_vector cQ nodes circ = Ok Qnp -> op_vector cP nodes circ = Ok Pnp ->
  (forall c n, In n nodes -> dget circ n = Some c ->
    getHamiltonian (fold_right Nat.mul 1 (c_dims c)) argord nodes edges h Qnp Pnp circ = Ok H -> hermitian (fold_right Nat.mul 1 (c_dims c)) H).
Proof.
  intros gen ND Hp E HQ HP c n Hn Hc HH.
  pose proof (map_usable gen nodes data (gen_dim_list eigh inv z ka kb pmax chg flx) circ0 circ E) as U.
  destruct (map_ok gen nodes data U None circ0 ND) as (circ' & E' & K & _). rewrite E in E'. injection E' as <-.
  apply In_nth_error in Hn as [i Hi]. destruct (U n (nth_error_In _ _ Hi)) as (d & o & Ed & Eo & _).
  rewrite (K i n d o Hi Ed Eo eq_refl) in Hc. injection Hc as <-. unfold lifted in *. cbn [c_dims] in *.
  apply herm_spec. eapply (ham_herm gen nodes data (gen_dim_list eigh inv z ka kb pmax chg flx) (generated_ok eigh inv z ka kb pmax chg flx) ND circ0 circ E); eauto.
Qed.
Lemma cosine_total N argord nodes edges amp bias X Xd : (forall l, Permutation (argord l) l) ->
  (forall i, i < List.length edges -> amp i <> 0%R -> branch_terms nodes edges i <> []) ->
  exists H, cosine_part N argord nodes edges amp bias X Xd = Ok H.
Proof.
  intros Hp Hi. unfold cosine_part. assert (G : forall i, In i (seq 0 (List.length edges)) -> amp i <> 0%R -> branch_terms nodes edges i <> []) by (intros i Hs; apply in_seq in Hs; apply Hi; lia).
  revert G. generalize (seq 0 (List.length edges)), mzero. induction l as [|i l IH]; intros A G; cbn [foldM]; [eauto|].
  destruct (Req_EM_T (amp i) 0) as [Z|Z]; [cbn [bind]; apply IH; intros; apply G; auto; now right|].
  assert (NE : argord (branch_terms nodes edges i) <> []).
  { intros Z'. apply (G i (or_introl eq_refl) Z). apply Permutation_nil. rewrite <- Z'. apply Hp. }
  destruct (argord (branch_terms nodes edges i)) as [|u ts]; [easy|]. cbn [map product bind]. apply IH. intros; apply G; auto; now right.
Qed.
Lemma c57_total eigh inv z ka kb pmax chg flx nodes data circ0 circ Qnp Pnp argord edges h N :
  let gen := getOperatorList eigh inv z ka kb pmax chg flx in
  NoDup nodes -> (forall l, Permutation (argord l) l) ->
  getExpandedOperatorsMap gen nodes data None circ0 = Ok circ ->
  (forall i e, nth_error edges i = Some e -> h_J h i <> 0%R \/ h_Ps h i <> 0%R -> src e <> dst e /\ (In (src e) nodes \/ In (dst e) nodes)) ->
  exists H, getHamiltonian N argord nodes edges h Qnp Pnp circ = Ok H.
Proof.
  intros gen ND Hp E He.
  pose proof (map_usable gen nodes data (gen_dim_list eigh inv z ka kb pmax chg flx) circ0 circ E) as U.
  destruct (map_ok gen nodes data U None circ0 ND) as (circ' & E' & K & _). rewrite E in E'. injection E' as <-.
  assert (V : forall f, exists l, op_vector f nodes circ = Ok l).
  { intros f. apply mapM_exists. intros n Hn. apply In_nth_error in Hn as [i Hi]. destruct (U n (nth_error_In _ _ Hi)) as (d & o & Ed & Eo & _).
    rewrite (K i n d o Hi Ed Eo eq_refl). eauto. }
  unfold getHamiltonian. destruct (V cD) as [ds ->], (V cDd) as [dds ->], (V cS) as [ss ->], (V cSd) as [sds ->]. cbn [bind].
  assert (T : forall i, i < List.length edges -> h_J h i <> 0%R \/ h_Ps h i <> 0%R -> branch_terms nodes edges i <> []).
  { intros i Hi Ha. destruct (nth_error edges i) as [e|] eqn:Ee; [|apply nth_error_None in Ee; lia].
    destruct (He i e Ee Ha) as [Ne In_]. assert (X : exists k, k < List.length nodes /\ rbn nodes edges k i <> 0%Z).
    { destruct In_ as [H|H]; apply In_nth_error in H as [k Hk]; exists k; (split; [apply nth_error_Some; congruence|]); unfold rbn; rewrite Hk, Ee.
      - destruct (Nat.eqb_spec (src e) (dst e)); [easy|]. now rewrite Nat.eqb_refl.
      - destruct (Nat.eqb_spec (src e) (dst e)); [easy|]. rewrite Nat.eqb_refl. now destruct (Nat.eqb (src e) (dst e)). }
    destruct X as (k & Hk & Rk). intros Z. assert (I : exists b, In (k, b) (branch_terms nodes edges i)).
    { unfold branch_terms. destruct (rbn nodes edges k i) eqn:Er; [easy | exists true | exists false];
        apply in_flat_map; exists k; (split; [apply in_seq; lia | rewrite Er; now left]). }
    destruct I as [b I]. rewrite Z in I. destruct I. }
  destruct (cosine_total N argord nodes edges (h_J h) (h_pb h) (opn ds) (opn dds) Hp) as [Hjj ->]; [intros; apply T; auto|]. cbn [bind].
  destruct (cosine_total N argord nodes edges (h_Ps h) (h_qb h) (opn ss) (opn sds) Hp) as [Hss ->]; [intros; apply T; auto|]. cbn [bind]. eauto.
Qed.
Definition hin1 : hin := mkhin (fun _ _ => 1%R) (fun _ _ => 0%R) (fun _ => 0%R) (fun _ => 0%R) (fun _ => 1%R) (fun _ => 0%R) (fun _ => 0%R) (fun _ => 0%R) 1%R 1%R 1%R 1%R.
Lemma op_vector_ok gen nodes data circ0 circ f : NoDup nodes -> usable gen nodes data -> getExpandedOperatorsMap gen nodes data None circ0 = Ok circ ->
  exists l, op_vector f nodes circ = Ok l.
Proof.
  intros ND U E. destruct (map_ok gen nodes data U None circ0 ND) as (circ' & E' & K & _). rewrite E in E'. injection E' as <-.
  apply mapM_exists. intros n Hn. apply In_nth_error in Hn as [i Hi]. destruct (U n (nth_error_In _ _ Hi)) as (d & o & Ed & Eo & _).
  rewrite (K i n d o Hi Ed Eo eq_refl). eauto.
Qed.
(** a Josephson junction from node 1 to itself *)
Lemma c57_self_loop eigh inv z ka kb pmax chg flx t :
  let gen := getOperatorList eigh inv z ka kb pmax chg flx in
  let data := configure_all [1] [(1, (t, BCharge))] in
  exists circ Qnp Pnp,
  getExpandedOperatorsMap gen [1] data None [] = Ok circ /\
  op_vector cQ [1] circ = Ok Qnp /\ op_vector cP [1] circ = Ok Pnp /\
  getHamiltonian (2 * t + 1) (fun l => l) [1] [((1, 1), 0)] hin1 Qnp Pnp circ = Err IndexError.
Proof.
  intros gen data.
  assert (U : usable gen [1] data). { intros n [<-|[]]. exists (mkod t BCharge). eexists. repeat split. now right. }
  assert (ND : NoDup [1]) by (repeat constructor; now intros []).
  destruct (map_ok gen [1] data U None [] ND) as (circ & E & _). exists circ.
  pose proof (fun f => op_vector_ok gen [1] data [] circ f ND U E) as V.
  destruct (V cQ) as [Qs HQ], (V cP) as [Ps HP]. exists Qs, Ps. repeat (split; [assumption|]). clear HQ HP.
  unfold getHamiltonian. destruct (V cD) as [ds ->], (V cDd) as [dds ->], (V cS) as [ss ->], (V cSd) as [sds ->]. cbn [bind].
  unfold cosine_part at 1. cbn [List.length seq foldM h_J hin1]. destruct (Req_EM_T 1 0) as [B|_]; [exfalso; lra|]. reflexivity.
Qed.

(** ** C62 *)
Definition correction_inverse (n : nat) : cmat := cdiag (fun i => if Nat.eqb i (n - 1) then RtoC (/ (1 - INR n)) else RtoC 1).
Lemma correction_diag n i j : correction n i j = cdiag (fun i => if Nat.eqb i (n - 1) then RtoC (1 - INR n) else RtoC 1) i j.
Proof.
  unfold correction, cdiag, mminus, msc, ketbra, basis, eye. destruct (Nat.eqb_spec i j) as [->|N].
  - destruct (Nat.eqb j (n - 1)); rewrite conj_R, <- !RtoC_mult, <- !RtoC_minus; f_equal; ring.
  - destruct (Nat.eqb_spec i (n - 1)), (Nat.eqb_spec j (n - 1)); try lia; rewrite conj_R, <- !RtoC_mult, <- !RtoC_minus; f_equal; ring.
Qed.
Lemma correction_inv n : 2 <= n -> same n (mul n (correction n) (correction_inverse n)) identity.
Proof.
  intros H i j Hi Hj. rewrite mul_mm. rewrite (mm_ext n _ (cdiag (fun i => if Nat.eqb i (n - 1) then RtoC (1 - INR n) else RtoC 1)) _ (correction_inverse n)) by (auto using correction_diag).
  rewrite mm_cdiag_l by easy. unfold correction_inverse, cdiag, identity. destruct (Nat.eqb i j); [|apply Cmult_0_r].
  destruct (Nat.eqb i (n - 1)); rewrite <- RtoC_mult; f_equal; [|ring]. apply Rinv_r. apply (le_INR 2) in H. cbn in H. lra.
Qed.
Lemma c62_inverse n : 2 <= n -> same n (mul n (correction n) (correction_inverse n)) identity /\ same n (mul n (correction_inverse n) (correction n)) identity.
Proof.
  intros H. split; [now apply correction_inv|]. intros i j Hi Hj. rewrite mul_mm.
  rewrite (mm_ext n _ (correction_inverse n) _ (cdiag (fun i => if Nat.eqb i (n - 1) then RtoC (1 - INR n) else RtoC 1))) by (auto using correction_diag).
  unfold correction_inverse. rewrite mm_cdiag_l by easy. unfold cdiag, identity. destruct (Nat.eqb i j); [|apply Cmult_0_r].
  destruct (Nat.eqb i (n - 1)); rewrite <- RtoC_mult; f_equal; [|ring]. apply Rinv_l. apply (le_INR 2) in H. cbn in H. lra.
Qed.
Lemma c62_canonical eigh inv dims n z chg flx ka kb : 2 <= n -> (0 < z)%R ->
  (/ 10 ^ 12 <= Rabs (sqrt (z / 2) * flx))%R -> (/ 10 ^ 12 <= Rabs (sqrt (1 / (2 * z)) * chg))%R ->
  same n (mul n (correction n) (inv n (correction n))) identity ->
  let o := oscillator_basis eigh inv n z chg flx ka kb in
  exists A, getCommutator inv dims n (oQ o) (oP o) BOscillator = Some A /\ same n A (fun i j => (Ci * RtoC (chg * flx) * identity i j)%C).
Proof. intros H Hz H1 H2 Hi. now apply commutator_osc. Qed.
(** a flux prefactor so small that tidyup drops the lowest matrix element only *)
Lemma c62_tiny eigh inv dims ka kb : same 3 (mul 3 (inv 3 (correction 3)) (correction 3)) identity ->
  let o := oscillator_basis eigh inv 3 2 2 (4 / 5 * / 10 ^ 12) ka kb in
  exists A, getCommutator inv dims 3 (oQ o) (oP o) BOscillator = Some A /\ ~ exists c, same 3 A (fun i j => (c * identity i j)%C).
Proof.
  intros Hi o. eexists. split; [reflexivity|]. intros [c Hc].
  set (K := comm 3 (oP o) (oQ o)) in *.
  assert (HK : same 3 K (msc c (correction 3))).
  { intros i j H1 H2. transitivity (mm 3 K (mm 3 (inv 3 (correction 3)) (correction 3)) i j).
    - transitivity (mm 3 K eye i j); [symmetry; now apply mm_eye_r|]. apply mm_ext; auto. intros a Ha. symmetry. rewrite <- mul_mm. now apply Hi.
    - rewrite <- mm_assoc. rewrite (mm_ext 3 (mm 3 K (inv 3 (correction 3))) (msc c eye) (correction 3) (correction 3)); [|intros; now apply Hc | auto].
      rewrite mm_sc_l. unfold msc. f_equal. now apply mm_eye_l. }
  set (f := (4 / 5 * / 10 ^ 12)%R) in *.
  assert (P2 : (4 / 3 < sqrt 2)%R). { rewrite <- (sqrt_Rsqr (4 / 3)) by lra. apply sqrt_lt_1_alt. unfold Rsqr. lra. }
  pose proof atol_small as [A0 A1]. assert (F : f = (4 / 5 * atol)%R) by reflexivity.
  assert (E1 : sqrt (2 / 2) = 1%R) by (replace (2 / 2)%R with 1%R by field; apply sqrt_1).
  assert (E2 : sqrt (1 / (2 * 2)) = (1 / 2)%R). { replace (1 / (2 * 2))%R with (Rsqr (1 / 2)) by (unfold Rsqr; field). apply sqrt_Rsqr. lra. }
  assert (P0 : forall i j, i = 0 \/ j = 0 \/ i = j -> oP o i j = RtoC 0).
  { intros i j H. cbn [o oscillator_basis oP]. unfold tidyup, oscP, create, destroy. rewrite E1.
    assert (X : (RtoC 1 * ((if Nat.eqb i (j + 1) then RtoC (sqrt (INR (j + 1))) else RtoC 0) + (if Nat.eqb (i + 1) j then RtoC (sqrt (INR (i + 1))) else RtoC 0)) * RtoC f)%C = RtoC (if Nat.eqb i (j + 1) || Nat.eqb (i + 1) j then f else 0)%R \/ False).
    { left. destruct (Nat.eqb_spec i (j + 1)) as [Ei|Ei], (Nat.eqb_spec (i + 1) j) as [Ej|Ej]; cbn [orb]; try lia.
      - assert (j = 0) as -> by lia. cbn [Nat.add INR]. rewrite sqrt_1, <- !RtoC_plus, <- !RtoC_mult. f_equal. ring.
      - assert (i = 0) as -> by lia. cbn [Nat.add INR]. rewrite sqrt_1, <- !RtoC_plus, <- !RtoC_mult. f_equal. ring.
      - rewrite <- !RtoC_plus, <- !RtoC_mult. f_equal. ring. }
    destruct X as [-> |[]]. unfold sanC, RtoC. cbn [fst snd]. rewrite sanR_0. f_equal. unfold sanR. destruct (Rlt_dec _ _) as [L|L]; [easy|].
    exfalso. apply L. destruct (_ || _)%bool; [rewrite Rabs_pos_eq; lra | rewrite Rabs_R0; lra]. }
  assert (P1 : oP o 1 2 = RtoC (f * sqrt 2) /\ oP o 2 1 = RtoC (f * sqrt 2)).
  { assert (X : sanC atol (RtoC (f * sqrt 2)) = RtoC (f * sqrt 2)).
    { unfold sanC, RtoC. cbn [fst snd]. rewrite sanR_0. f_equal. unfold sanR. destruct (Rlt_dec _ _) as [L|L]; [|easy]. exfalso. rewrite Rabs_pos_eq in L by nra. nra. }
    split; cbn [o oscillator_basis oP]; unfold tidyup, oscP, create, destroy; rewrite E1; cbn [Nat.add Nat.eqb];
      match goal with |- sanC _ ?y = _ => replace y with (RtoC (f * sqrt 2)); [exact X|] end;
      rewrite <- !RtoC_plus, <- !RtoC_mult; f_equal; replace (INR 2) with 2%R by (cbn; ring); ring. }
  assert (Q1 : oQ o 2 1 = (Ci * RtoC (sqrt 2))%C /\ oQ o 1 2 = (- (Ci * RtoC (sqrt 2)))%C).
  { split; cbn [o oscillator_basis oQ]; rewrite tidy_oscQ by (rewrite E2, Rabs_pos_eq; lra); unfold oscQ, create, destroy; rewrite E2; cbn [Nat.add Nat.eqb];
      replace (INR 2) with 2%R by (cbn; ring); apply injective_projections; cbn; field. }
  pose proof (HK 0 0 ltac:(lia) ltac:(lia)) as H0. pose proof (HK 1 1 ltac:(lia) ltac:(lia)) as H1.
  unfold msc in H0, H1. rewrite correction_diag in H0, H1. cbn [cdiag Nat.eqb Nat.sub] in H0, H1. rewrite Cmult_1_r in H0, H1. rewrite <- H0 in H1.
  unfold K, comm, mminus, mm, mmul in H1. cbn [sumn kadd kmul k0 C_rng] in H1.
  rewrite (P0 0 0), (P0 0 1), (P0 0 2), (P0 1 0), (P0 2 0), (P0 1 1) in H1 by auto.
  destruct P1 as [P1 P1']. rewrite P1, P1' in H1. destruct Q1 as [Q1 Q1']. rewrite Q1, Q1' in H1.
  assert (H2 : (RtoC (4 * f) * Ci)%C = RtoC 0).
  { transitivity (RtoC (sqrt 2 * sqrt 2) * RtoC 2 * RtoC f * Ci)%C; [rewrite sqrt_sqrt by lra; rewrite <- !RtoC_mult; f_equal; f_equal; ring|].
    rewrite RtoC_mult in H1. rewrite RtoC_mult. replace (RtoC 2) with (RtoC 1 + RtoC 1)%C by (rewrite <- RtoC_plus; f_equal; ring).
    match type of H1 with ?a = ?b => change (@eq C a b) in H1; transitivity (a - b)%C; [ring | rewrite H1; ring] end. }
  apply (f_equal snd) in H2. cbn in H2. nra.
Qed.

(** ** C63 *)
Lemma rsum_sumn n f : rsum n f = @sumn R_rng n f.
Proof. induction n as [|n IH]; [easy|]. cbn [rsum sumn]. now rewrite IH. Qed.
Lemma rsum_list n f : fold_right Rplus 0%R (map f (seq 0 n)) = rsum n f.
Proof.
  induction n as [|n IH]; [easy|]. rewrite seq_S, map_app, fold_right_app. cbn [map fold_right Nat.add rsum]. rewrite <- IH.
  generalize (map f (seq 0 n)) as l. induction l as [|x l IHl]; cbn; [ring|]. rewrite IHl. ring.
Qed.
Lemma rsum_ext n f g : (forall i, i < n -> f i = g i) -> rsum n f = rsum n g.
Proof. intros H. induction n as [|n IH]; [easy|]. cbn [rsum]. rewrite IH, H; auto. Qed.
Lemma rsum_mul n c f : rsum n (fun i => c * f i)%R = (c * rsum n f)%R.
Proof. induction n as [|n IH]; cbn [rsum]; [ring|]. rewrite IH. ring. Qed.
Lemma quad_rsum n L (x nb : nat -> R) : @sumn R_rng n (fun i => @sumn R_rng n (fun j => (x i + nb i) * L i j * (x j + nb j))%R) =
  rsum n (fun i => rsum n (fun j => (x i + nb i) * L i j * (x j + nb j))%R).
Proof. symmetry. etransitivity; [apply rsum_sumn|]. apply (@sumn_ext R_rng). intros i _. apply rsum_sumn. Qed.
Lemma c63_classical nodes edges h x b nb : let n := List.length nodes in let m := List.length edges in
  classical_potential nodes edges h x b nb =
  (potential n m (h_El h) (h_Ej h) (h_Linv h) (h_J h) (branch_flux nodes edges) x nb b +
   2 * (h_Ej h * rsum m (fun e => h_J h e * cos (2 * PI * (branch_flux nodes edges x e + b e)))))%R.
Proof.
  intros n m. rewrite classical_eq. fold n m. rewrite quad_rsum. unfold potential.
  rewrite rsum_list. rewrite (rsum_ext m _ (fun e => h_Ej h * (h_J h e * cos (2 * PI * (branch_flux nodes edges x e + b e))))%R) by (intros; ring).
  rewrite rsum_mul. ring.
Qed.
(** the potential part of the Hamiltonian on a joint eigenvector of the flux
    and displacement operators of all nodes *)
Lemma c63_quantum N argord nodes edges h Qnp Pnp circ v x H :
  (forall l, Permutation (argord l) l) -> h_Ec h = 0%R -> (forall i, h_Ps h i = 0%R) -> List.length Pnp = List.length nodes ->
  (forall i A k, nth_error Pnp i = Some A -> k < N -> apply N A v k = (RtoC (x i) * v k)%C) ->
  (forall i n c k, nth_error nodes i = Some n -> dget circ n = Some c -> k < N ->
     apply N (cD c) v k = (cis (2 * PI * x i) * v k)%C /\ apply N (cDd c) v k = (cis (- (2 * PI * x i)) * v k)%C) ->
  getHamiltonian N argord nodes edges h Qnp Pnp circ = Ok H ->
  exists H0, H = tidyup H0 /\ forall k, k < N ->
    apply N H0 v k = (RtoC (potential (List.length nodes) (List.length edges) (h_El h) (h_Ej h) (h_Linv h) (h_J h) (branch_flux nodes edges) x (h_Pbi h) (h_pb h)) * v k)%C.
Proof.
  intros Hp Ec Ps Len HP HD. unfold getHamiltonian.
  destruct (op_vector cD nodes circ) as [ds|] eqn:Ed; [|discriminate]. destruct (op_vector cDd nodes circ) as [dds|] eqn:Edd; [|discriminate].
  destruct (op_vector cS nodes circ) as [ss|] eqn:Es; [|discriminate]. destruct (op_vector cSd nodes circ) as [sds|] eqn:Esd; [|discriminate]. cbn [bind].
  destruct (cosine_part N argord nodes edges (h_J h) (h_pb h) (opn ds) (opn dds)) as [Hj|] eqn:Ej; [|discriminate].
  destruct (cosine_part N argord nodes edges (h_Ps h) (h_qb h) (opn ss) (opn sds)) as [Hs|] eqn:Ehs; [|discriminate]. cbn [bind].
  intros E. injection E as <-. eexists. split; [reflexivity|].
  match goal with |- forall k, k < N -> apply N ?A v k = (?c * v k)%C => change (ev N A v c) end.
  assert (VD : forall f l, op_vector f nodes circ = Ok l -> forall i, i < List.length nodes -> exists n c, nth_error nodes i = Some n /\ dget circ n = Some c /\ opn l i = f c).
  { intros f l El i Hi. destruct (nth_error nodes i) as [n|] eqn:En; [|apply nth_error_None in En; lia].
    destruct (mapM_nth _ _ _ i n El En) as (y & Ny & Ey). destruct (dget circ n) as [c|] eqn:Ec0; [|discriminate]. injection Ey as <-.
    exists n, c. repeat split; auto. unfold opn. now apply nth_error_nth. }
  assert (C1 : ev N Hj v (RtoC (fold_right Rplus 0%R (map (fun i => - h_J h i * cos (2 * PI * (branch_flux nodes edges x i + h_pb h i)))%R (seq 0 (List.length edges)))))).
  { apply (cosine_ev N (List.length nodes) (opn ds) (opn dds) v x) with (argord := argord); auto. intros i Hi.
    destruct (VD cD ds Ed i Hi) as (n & c & En & Ec' & ->). destruct (VD cDd dds Edd i Hi) as (n' & c' & En' & Ec'' & ->).
    rewrite En in En'. injection En' as <-. rewrite Ec' in Ec''. injection Ec'' as <-. split; intros k Hk; now apply (HD i n c k). }
  assert (C2 : Hs = mzero).
  { revert Ehs. unfold cosine_part. generalize (seq 0 (List.length edges)), mzero. induction l as [|i l IH]; intros A; cbn [foldM]; [congruence|].
    destruct (Req_EM_T (h_Ps h i) 0) as [_|B]; [cbn [bind]; apply IH | now destruct B]. }
  assert (C3 := quadform_ev N Pnp (h_Pbi h) (h_Linv h) v x). rewrite quad_rsum in C3. pose proof Len as Len0. unfold cmat, matrix in Len0, C3. rewrite Len0 in C3.
  assert (C4 : ev N (quadform N Pnp (h_Pbi h) (h_Linv h)) v (RtoC (rsum (List.length nodes) (fun i => rsum (List.length nodes) (fun j => (x i + h_Pbi h i) * h_Linv h i j * (x j + h_Pbi h j))%R)))).
  { apply C3. intros i Hi k Hk. unfold opn. destruct (nth_error Pnp i) as [A|] eqn:EA; [|apply nth_error_None in EA; lia].
    rewrite (nth_error_nth _ _ _ EA). now apply (HP i A k). }
  rewrite C2, Ec.
  assert (C5 : ev N (msc (RtoC (0 * (1 / 2))) (quadform N Qnp (h_Qb h) (h_Cinv h))) v (RtoC 0)).
  { apply (ev_ext N mzero); [|apply ev_zero]. intros i j _ _. unfold msc, mzero. rewrite Rmult_0_l. symmetry. apply Cmult_0_l. }
  match goal with |- ev N ?A v ?c => replace c with (RtoC 0 + RtoC (h_El h * (1 / 2)) * RtoC (rsum (List.length nodes) (fun i => rsum (List.length nodes) (fun j => (x i + h_Pbi h i) * h_Linv h i j * (x j + h_Pbi h j))%R)) +
     RtoC (h_Ej h) * RtoC (fold_right Rplus 0%R (map (fun i => - h_J h i * cos (2 * PI * (branch_flux nodes edges x i + h_pb h i)))%R (seq 0 (List.length edges)))) + RtoC (h_Ep h) * RtoC 0)%C end.
  - repeat apply ev_plus; auto; apply ev_sc; auto. apply ev_zero.
  - rewrite <- !RtoC_mult, <- !RtoC_plus. f_equal. unfold potential. rewrite rsum_list.
    rewrite (rsum_ext _ (fun i => - h_J h i * cos (2 * PI * (branch_flux nodes edges x i + h_pb h i)))%R (fun e => -1 * (h_J h e * cos (2 * PI * (branch_flux nodes edges x e + h_pb h e))))%R) by (intros; ring).
    rewrite rsum_mul. field.
Qed.
Lemma c63_sign : let h := mkhin (fun _ _ => 1%R) (fun _ _ => 1%R) (fun _ => 0%R) (fun _ => 0%R) (fun _ => 1%R) (fun _ => 0%R) (fun _ => 0%R) (fun _ => 0%R) 1%R 1%R 1%R 1%R in
  let nodes := [1] in let edges := [((0, 1), 0)] in
  classical_potential nodes edges h (fun _ => 0%R) (fun _ => 0%R) (fun _ => 0%R) = 1%R /\
  potential 1 1 (h_El h) (h_Ej h) (h_Linv h) (h_J h) (branch_flux nodes edges) (fun _ => 0%R) (fun _ => 0%R) (fun _ => 0%R) = (-1)%R.
Proof.
  intros h nodes edges. assert (E : potential 1 1 (h_El h) (h_Ej h) (h_Linv h) (h_J h) (branch_flux nodes edges) (fun _ => 0%R) (fun _ => 0%R) (fun _ => 0%R) = (-1)%R /\ cos (2 * PI * (branch_flux nodes edges (fun _ => 0%R) 0 + 0)) = 1%R).
  { assert (X : branch_flux nodes edges (fun _ => 0%R) 0 = 0%R) by (cbn; ring). assert (Y : cos (2 * PI * (0 + 0)) = 1%R) by (rewrite Rplus_0_r, Rmult_0_r; apply cos_0).
    split; [|now rewrite X]. unfold potential. cbn [rsum h_El h_Ej h_Linv h_J h]. rewrite X, Y. field. }
  destruct E as [E1 E2]. split; [|exact E1]. rewrite c63_classical. cbn [List.length nodes edges] in *. rewrite E1. cbn [rsum h_Ej h_J h]. rewrite E2. ring.
Qed.

(** ** C64 *)
Fixpoint rinsert (x : R) (l : list R) : list R :=
  match l with [] => [x] | y :: r => if Rle_dec x y then x :: l else y :: rinsert x r end.
Fixpoint rsort (l : list R) : list R := match l with [] => [] | x :: r => rinsert x (rsort r) end.
Lemma rinsert_perm x l : Permutation (rinsert x l) (x :: l).
Proof. induction l as [|y l IH]; cbn; [easy|]. destruct (Rle_dec x y); [easy|]. rewrite IH. apply perm_swap. Qed.
Lemma rsort_perm l : Permutation (rsort l) l.
Proof. induction l as [|x l IH]; cbn; [easy|]. rewrite rinsert_perm. now constructor. Qed.
Lemma rinsert_sorted x l : StronglySorted Rle l -> StronglySorted Rle (rinsert x l).
Proof.
  induction 1 as [|y l H IH F]; cbn; [repeat constructor|]. destruct (Rle_dec x y) as [L|L].
  - constructor; [now constructor|]. constructor; [easy|]. rewrite Forall_forall in *. intros w Hw. specialize (F w Hw). lra.
  - constructor; [easy|]. rewrite Forall_forall in *. intros w Hw. apply (Permutation_in _ (rinsert_perm x l)) in Hw as [<-|Hw]; [lra | auto].
Qed.
Lemma rsort_sorted l : StronglySorted Rle (rsort l).
Proof. induction l; cbn; [constructor | now apply rinsert_sorted]. Qed.
(** an eigensolver that is right on diagonal matrices *)
Definition diag_eig (n : nat) (M : nat -> nat -> R) (k : nat) : R := nth k (rsort (map (fun i => M i i) (seq 0 n))) 0%R.
Lemma diag_eig_ok : eigvalsh_diag diag_eig.
Proof.
  intros n M f H. assert (E : map (fun i => M i i) (seq 0 n) = map f (seq 0 n)).
  { apply map_ext_in. intros i Hi. apply in_seq in Hi. rewrite H by lia. now rewrite Nat.eqb_refl. }
  assert (E' : map (diag_eig n M) (seq 0 n) = rsort (map f (seq 0 n))).
  { unfold diag_eig. rewrite E. assert (L : List.length (rsort (map f (seq 0 n))) = n) by (rewrite (Permutation_length (rsort_perm _)), map_length; apply seq_length).
    apply (nth_ext _ _ 0%R 0%R); [now rewrite map_length, seq_length|]. intros k Hk. rewrite map_length, seq_length in Hk.
    rewrite (nth_indep _ 0%R (nth 0 (rsort (map f (seq 0 n))) 0%R)) by now rewrite map_length, seq_length.
    rewrite (map_nth (fun k => nth k (rsort (map f (seq 0 n))) 0%R)). now rewrite seq_nth. }
  rewrite E'. split; [apply rsort_sorted | apply rsort_perm].
Qed.
(** zero charge matrix element between the two lowest levels *)
Lemma c64_zero_element eigvalsh wrl E0 tmax nmax me : eigvalsh_diag eigvalsh -> 2 <= tmax -> me 0 1 = RtoC 0 ->
  getResonatorResponse eigvalsh true 0 wrl E0 tmax nmax me = Some (Err ValueError).
Proof.
  intros He Ht Hn. unfold getResonatorResponse. cbn [negb]. destruct (Nat.ltb_spec tmax 2) as [L|_]; [lia|].
  set (E := fun i => (E0 i - E0 0%nat)%R). set (bare := strip_diag wrl E 0). set (srt := eigvalsh tmax (diag_matrix bare)).
  destruct (He tmax (diag_matrix bare) bare) as [S0 P0]; [reflexivity|]. fold srt in S0, P0.
  match goal with |- Some (bind ?m _) = _ => assert (X : exists l, m = Ok l) end.
  { apply mapM_exists. intros i Hi. destruct (first_index_spec (bare i) srt tmax 0) as (k & E1 & _); [|eauto].
    assert (I : In (bare i) (map srt (seq 0 tmax))) by (eapply Permutation_in; [symmetry; exact P0 | now apply in_map]).
    apply in_map_iff in I as (k & E1 & E2). apply in_seq in E2. exists k. split; [lia | easy]. }
  destruct X as [l ->]. cbn [bind]. now destruct (Ceq_dec (me 0 1) (RtoC 0)).
Qed.
(** ** Witnesses *)
Definition w_circ : dict nat cops := [(1, mkcops [2] mzero mzero (cdiag (fun i => if Nat.eqb i 0 then RtoC 1 else RtoC (-1))) (cdiag (fun i => if Nat.eqb i 0 then RtoC 1 else RtoC (-1))) eye eye)].
Definition w_P : list cmat := [cdiag (fun i => if Nat.eqb i 0 then RtoC 0 else RtoC (1 / 2))].
Definition w_h : hin := mkhin (fun _ _ => 1%R) (fun _ _ => 1%R) (fun _ => 0%R) (fun _ => 0%R) (fun _ => 1%R) (fun _ => 0%R) (fun _ => 0%R) (fun _ => 0%R) 0%R 1%R 1%R 1%R.
Lemma c63_witness : let v := basis 1 in let x := fun _ : nat => (1 / 2)%R in
  h_Ec w_h = 0%R /\ (forall i, h_Ps w_h i = 0%R) /\ List.length w_P = 1 /\
  (forall i A k, nth_error w_P i = Some A -> k < 2 -> apply 2 A v k = (RtoC (x i) * v k)%C) /\
  (forall i n c k, nth_error [1] i = Some n -> dget w_circ n = Some c -> k < 2 ->
     apply 2 (cD c) v k = (cis (2 * PI * x i) * v k)%C /\ apply 2 (cDd c) v k = (cis (- (2 * PI * x i)) * v k)%C) /\
  exists H, getHamiltonian 2 (fun l => l) [1] [((0, 1), 0)] w_h [] w_P w_circ = Ok H.
Proof.
  intros v x. repeat (split; [reflexivity|]). split; [|split].
  - intros [|[|i]] A k; cbn [nth_error w_P]; try discriminate. intros E Hk. injection E as <-.
    destruct k as [|[|k]]; [| |lia]; unfold apply, v, x, basis, cdiag; cbn [csum Nat.eqb]; apply injective_projections; cbn; field.
  - assert (C1 : cis (2 * PI * (1 / 2)) = RtoC (-1)) by (unfold cis; replace (2 * PI * (1 / 2))%R with PI by field; now rewrite cos_PI, sin_PI).
    assert (C2 : cis (- (2 * PI * (1 / 2))) = RtoC (-1)) by (unfold cis; replace (2 * PI * (1 / 2))%R with PI by field; rewrite cos_neg, sin_neg, cos_PI, sin_PI; unfold RtoC; f_equal; ring).
    intros [|[|i]] n c k; cbn [nth_error]; try discriminate. intros E. injection E as <-. cbn [dget w_circ]. intros E Hk. injection E as <-. cbn [cD cDd]. unfold x. rewrite C1, C2.
    destruct k as [|[|k]]; [| |lia]; unfold apply, v, basis, cdiag; cbn [csum Nat.eqb]; split; apply injective_projections; cbn; field.
  - unfold getHamiltonian. cbn [op_vector w_circ mapM dget bind cD cDd cS cSd]. unfold cosine_part. cbn [List.length seq foldM w_h h_J h_Ps]. destruct (Req_EM_T 1 0) as [B|_]; [exfalso; lra|].
    destruct (Req_EM_T 0 0) as [_|B]; [|exfalso; lra]. eexists. reflexivity.
Qed.
