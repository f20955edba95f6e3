(** Hermiticity of current and voltage operators, matrix elements, energies,
    units, and the witnesses beside C80-C85. *)
From Coq Require Import List Bool Arith Lia ZArith Reals Lra Setoid Morphisms Permutation.
From Coquelicot Require Import Complex.
From Verif Require Import Prelude PreludeFacts Sweep SweepProofs SweepResultProofs Mat MatFacts Util UtilProofs Graph Symbolic SymbolicCap NumOp NumOpSpec NumKron NumSpectral NumCharge NumExpand NumHerm NumOsc NumPot NumOpProofs NumEval NumEvalSpec NumEvalProofs.
Import ListNotations.
Open Scope nat_scope.

Section Herm.
  Variables (gen : nat -> opdata -> res ops) (nodes : list nat) (data : dict nat opdata).
  Hypothesis gen_dim : forall n d o k, gen n d = Ok o -> ident_dim d = Some k -> o_dim o = k.
  Hypothesis gen_ok : forall n d o, gen n d = Ok o -> ops_ok o.
  Hypothesis ND : NoDup nodes.
  Variables (circ0 circ : dict nat cops).
  Hypothesis Hcirc : getExpandedOperatorsMap gen nodes data None circ0 = Ok circ.
  Let n := List.length nodes.
  Let D := node_dim gen nodes data.
  Let N := size D n.
  Let elem := vector_elem gen nodes data gen_dim ND circ0 circ Hcirc.
  Lemma vec_commute f l f' l' : op_vector f nodes circ = Ok l -> (forall i o, exists A, f (lifted gen nodes data i o) = lift D n i A) ->
    op_vector f' nodes circ = Ok l' -> (forall i o, exists A, f' (lifted gen nodes data i o) = lift D n i A) ->
    forall i j, i < n -> j < n -> i <> j -> commute N (opn l i) (opn l' j).
  Proof.
    intros Hl Hf Hl' Hf' i j Hi Hj Nij. destruct (elem f l i Hl Hi) as (? & ? & o & _ & _ & _ & _ & ->).
    destruct (elem f' l' j Hl' Hj) as (? & ? & o' & _ & _ & _ & _ & ->). destruct (Hf i o) as [A ->]. destruct (Hf' j o') as [B ->]. now apply lift_commute.
  Qed.
  Lemma vec_herm f g l : op_vector f nodes circ = Ok l -> (forall i o, f (lifted gen nodes data i o) = lift D n i (g o)) ->
    (forall o, ops_ok o -> herm (o_dim o) (g o)) -> forall i, i < n -> herm N (opn l i).
  Proof.
    intros Hl Hf Hg i Hi. destruct (elem f l i Hl Hi) as (m & d & o & Em & Ed & Eo & Di & ->). rewrite Hf.
    apply (lift_herm gen nodes data); [easy|]. fold D. unfold D in Di |- *. rewrite Di. apply Hg. now apply (gen_ok m d).
  Qed.
  Lemma vec_adj l l' : op_vector cD nodes circ = Ok l -> op_vector cDd nodes circ = Ok l' ->
    forall i, i < n -> same N (opn l' i) (mdag (opn l i)).
  Proof.
    intros Hl Hl' i Hi. destruct (elem cD l i Hl Hi) as (m & d & o & Em & Ed & Eo & Di & ->).
    destruct (elem cDd l' i Hl' Hi) as (m' & d' & o' & Em' & Ed' & Eo' & Di' & ->).
    assert (o' = o) as -> by congruence. change (same N (lift D n i (oDd o)) (mdag (lift D n i (oD o)))). transitivity (lift D n i (mdag (oD o))).
    - apply lift_ext; [easy|]. unfold D. rewrite Di. destruct (gen_ok m d o Eo) as (_ & _ & A & _). exact A.
    - symmetry. intros r c Hr Hc. now apply lift_dag.
  Qed.
  Lemma flux_sum_herm X ts A : (forall j, j < n -> herm N (X j)) -> (forall t, In t ts -> fst t < n) -> flux_sum X ts = Ok A -> herm N A.
  Proof.
    intros HX Hn. unfold flux_sum. destruct ts as [|t0 ts0] eqn:Ets; [discriminate|]. rewrite <- Ets in *. clear Ets t0 ts0. intros E. injection E as <-.
    assert (H0 : herm N mzero) by apply herm_zero. revert H0. generalize mzero. induction ts as [|t ts IH]; intros F HF; cbn [fold_left]; [easy|].
    apply IH; [intros; apply Hn; now right|]. apply herm_plus; [easy|]. apply herm_sc, HX, Hn. now left.
  Qed.
  Lemma current_herm argord s edges h k e A : (forall l, Permutation (argord l) l) ->
    getCurrentOperator N argord s nodes edges h k circ (Some e) = Ok A -> herm N A.
  Proof.
    intros Hp. unfold getCurrentOperator. destruct (negb (mem e edges)); [discriminate|].
    destruct (index_of e edges) as [i|] eqn:Hi; [|discriminate]. cbn [bind].
    assert (HT : forall t, In t (argord (branch_terms nodes edges i)) -> fst t < n).
    { intros t Ht. apply (Permutation_in _ (Hp _)) in Ht. now apply (terms_in (List.length nodes) nodes edges eq_refl) in Ht. }
    destruct (isInductiveEdge s e) as [[|]|]; cbn [bind]; try discriminate.
    - destruct (op_vector cP nodes circ) as [ps|] eqn:Ep; [|discriminate]. cbn [bind].
      destruct (flux_sum _ _) as [F|] eqn:EF; [|discriminate]. cbn [bind]. intros E. injection E as <-. apply herm_sc.
      apply (flux_sum_herm _ _ _ (vec_herm cP oP ps Ep (fun i o => eq_refl) (fun o (H : ops_ok o) => proj1 (proj2 H))) HT EF).
    - destruct (is_type _ s e) as [[|]|]; cbn [bind]; try discriminate.
      destruct (op_vector cD nodes circ) as [ds|] eqn:Ed; [|discriminate]. destruct (op_vector cDd nodes circ) as [dds|] eqn:Edd; [|discriminate]. cbn [bind].
      destruct (product N (cis (2 * PI * h_pb h i)) _) as [p1|] eqn:P1; [|discriminate]. cbn [bind].
      destruct (product N (cis (- 2 * PI * h_pb h i)) _) as [p2|] eqn:P2; [|discriminate]. cbn [bind]. intros E. injection E as <-.
      assert (adj : forall j, j < n -> same N (opn dds j) (mdag (opn ds j))) by now apply vec_adj.
      assert (com : forall a b, a < n -> b < n -> a <> b -> commute N (opn ds a) (opn ds b) /\ commute N (opn ds a) (opn dds b) /\ commute N (opn dds a) (opn ds b) /\ commute N (opn dds a) (opn dds b)).
      { intros a b Ha Hb Nab. split; [|split; [|split]]; [apply (vec_commute cD ds cD ds) | apply (vec_commute cD ds cDd dds) | apply (vec_commute cDd dds cD ds) | apply (vec_commute cDd dds cDd dds)];
            auto; intros i0 o; eexists; reflexivity. }
      assert (K : same N (mdag p1) p2).
      { apply (product_adj N n (opn ds) (opn dds) adj com (cis (2 * PI * h_pb h i)) (argord (branch_terms nodes edges i))).
        - exact HT.
        - eapply Permutation_NoDup; [symmetry; apply Permutation_map, Hp | apply (terms_nodup N n (opn ds) (opn dds) adj com); reflexivity].
        - exact P1.
        - rewrite conj_cis. replace (- (2 * PI * h_pb h i))%R with (- 2 * PI * h_pb h i)%R by ring. exact P2. }
      assert (K' : same N (mdag p2) p1) by (rewrite <- K; apply mdag_mdag).
      intros r c Hr Hc. specialize (K r c Hr Hc). specialize (K' r c Hr Hc). unfold mdag, msc, mminus in *.
      rewrite conj_mult. unfold Cminus. rewrite conj_plus. rewrite K, <- K'. apply injective_projections; cbn; ring.
  Qed.
  Lemma voltage_herm h k Qnp m A : op_vector cQ nodes circ = Ok Qnp -> getVoltageOperator nodes h k Qnp (Some m) = Ok A -> herm N A.
  Proof.
    intros HQ. unfold getVoltageOperator. destruct (negb (mem m nodes)); [discriminate|]. destruct (index_of m nodes) as [i|] eqn:Hi; [|discriminate]. cbn [bind].
    intros E. injection E as <-. apply herm_sc. unfold shifted. apply herm_plus; [|apply herm_sc, herm_eye].
    apply (vec_herm cQ oQ Qnp HQ (fun i o => eq_refl) (fun o (H : ops_ok o) => proj1 H)).
    destruct (index_mem _ _ _ Hi) as [_ E]. apply nth_error_Some. congruence.
  Qed.
End Herm.
(** the dimension of an expanded operator *)
Lemma circ_size eigh inv z ka kb pmax chg flx nodes data circ0 circ n c :
  let gen := getOperatorList eigh inv z ka kb pmax chg flx in
  NoDup nodes -> getExpandedOperatorsMap gen nodes data None circ0 = Ok circ -> In n nodes -> dget circ n = Some c ->
  fold_right Nat.mul 1 (c_dims c) = size (node_dim gen nodes data) (List.length nodes).
Proof.
  intros gen ND E Hn Hc.
  pose proof (map_usable gen nodes data (gen_dim_list eigh inv z ka kb pmax chg flx) circ0 circ E) as U.
  destruct (map_ok gen nodes data U None circ0 ND) as (circ' & E' & K & _). rewrite E in E'. injection E' as <-.
  apply In_nth_error in Hn as [i Hi]. destruct (U n (nth_error_In _ _ Hi)) as (d & o & Ed & Eo & _).
  rewrite (K i n d o Hi Ed Eo eq_refl) in Hc. injection Hc as <-. reflexivity.
Qed.
Lemma c83_herm eigh inv z ka kb pmax chg flx nodes data circ0 circ Qnp argord s edges h k n c :
  let gen := getOperatorList eigh inv z ka kb pmax chg flx in
  NoDup nodes -> (forall l, Permutation (argord l) l) ->
  getExpandedOperatorsMap gen nodes data None circ0 = Ok circ -> op_vector cQ nodes circ = Ok Qnp ->
  In n nodes -> dget circ n = Some c ->
  let N := fold_right Nat.mul 1 (c_dims c) in
  (forall e A, getCurrentOperator N argord s nodes edges h k circ (Some e) = Ok A -> hermitian N A) /\
  (forall m A, getVoltageOperator nodes h k Qnp (Some m) = Ok A -> hermitian N A).
Proof.
  intros gen ND Hp E HQ Hn Hc N. unfold N. rewrite (circ_size eigh inv z ka kb pmax chg flx nodes data circ0 circ n c ND E Hn Hc).
  pose proof (gen_dim_list eigh inv z ka kb pmax chg flx) as G1. pose proof (generated_ok eigh inv z ka kb pmax chg flx) as G2. split; intros e A HA; apply herm_spec.
  - eapply (current_herm gen nodes data G1 G2 ND circ0 circ E); eauto.
  - eapply (voltage_herm gen nodes data G1 G2 ND circ0 circ E); eauto.
Qed.

(** ** Matrix elements *)
Lemma melem_inner N O u v : matrix_element N O u v = inner N u (apply N O v).
Proof.
  unfold matrix_element, inner. etransitivity; [|symmetry; apply csum_sumn]. apply (@sumn_ext C_rng). intros i _. rewrite apply_sumn.
  match goal with |- ?l = (?a * ?s)%C => transitivity (@kmul C_rng a s); [|reflexivity] end. rewrite (@sumn_mul_l C_rng). apply (@sumn_ext C_rng). intros j _.
  match goal with |- @eq _ ?a ?b => change (@eq C a b) end. cbn [kmul C_rng]. ring.
Qed.
Lemma csum_conj N f : Cconj (csum N f) = csum N (fun i => Cconj (f i)).
Proof. rewrite !csum_sumn. apply conj_sum. Qed.
Lemma diag_real N O v : hermitian N O -> snd (inner N v (apply N O v)) = 0%R.
Proof.
  intros HO. assert (E : Cconj (inner N v (apply N O v)) = inner N v (apply N O v)).
  { rewrite <- melem_inner. unfold matrix_element. rewrite conj_sum.
    rewrite (@sumn_ext C_rng N _ (fun i => @sumn C_rng N (fun j => (Cconj (v j) * O j i * v i)%C))).
    - apply (@sumn_swap C_rng).
    - intros i Hi. rewrite conj_sum. apply (@sumn_ext C_rng). intros j Hj. rewrite !conj_mult, conj_conj, <- (HO j i Hj Hi). match goal with |- @eq _ ?a ?b => change (@eq C a b) end. ring. }
  apply (f_equal snd) in E. cbn in E. lra.
Qed.
Lemma pyget_indexes {A} (l : list A) z a : indexes l z a -> pyget l z = Ok a.
Proof.
  intros (i & Hi & E). assert (i < List.length l)%nat by (apply nth_error_Some; congruence). unfold pyget.
  destruct E as [-> | ->].
  - destruct (Z.ltb_spec (Z.of_nat i) 0); [lia|]. destruct (Z.ltb_spec (Z.of_nat i) 0); [lia|]. now rewrite Nat2Z.id, Hi.
  - destruct (Z.ltb_spec (Z.of_nat i - Z.of_nat (List.length l)) 0); [|lia].
    replace (Z.of_nat i - Z.of_nat (List.length l) + Z.of_nat (List.length l))%Z with (Z.of_nat i) by lia.
    destruct (Z.ltb_spec (Z.of_nat i) 0); [lia|]. now rewrite Nat2Z.id, Hi.
Qed.
Lemma c84_real N op V l out O : op = Ok O -> matrix_elements N op V (Some l) = Ok out ->
  List.length out = List.length l /\
  forall m i j u v, nth_error l m = Some (i, j) -> indexes V i u -> indexes V j v ->
    nth_error out m = Some (fst (inner N u (apply N O v))).
Proof.
  intros ->. unfold matrix_elements. cbn [bind]. intros H. split; [eapply mapM_length; eauto|].
  intros m i j u v Hm Hu Hv. destruct (mapM_nth _ _ _ _ _ H Hm) as (y & Hy & Ey). cbn [fst snd] in Ey.
  rewrite (pyget_indexes _ _ _ Hu), (pyget_indexes _ _ _ Hv) in Ey. cbn [bind] in Ey.
  injection Ey as <-. now rewrite Hy, melem_inner.
Qed.
Lemma c84_diag N V l out O : hermitian N O -> matrix_elements N (Ok O) V (Some l) = Ok out ->
  forall m i j v, nth_error l m = Some (i, j) -> indexes V i v -> indexes V j v ->
    exists x, nth_error out m = Some x /\ RtoC x = inner N v (apply N O v).
Proof.
  intros HO H m i j v Hm Hi Hj. destruct (c84_real N _ V l out O eq_refl H) as [_ K]. exists (fst (inner N v (apply N O v))). split; [now apply (K m i j v v)|].
  apply injective_projections; [easy|]. cbn. symmetry. now apply diag_real.
Qed.
Lemma c84_defined N O V l : (forall i j, In (i, j) l -> exists u v, indexes V i u /\ indexes V j v) -> exists out, matrix_elements N (Ok O) V (Some l) = Ok out.
Proof.
  unfold matrix_elements. cbn [bind]. induction l as [|[i j] l IH]; intros H; [eexists; reflexivity|]. cbn [mapM fst snd].
  destruct (H i j (or_introl eq_refl)) as (u & v & Hu & Hv). rewrite (pyget_indexes _ _ _ Hu), (pyget_indexes _ _ _ Hv). cbn [bind].
  destruct IH as (out & ->); [intros i' j' Hin; apply H; now right|]. eexists. reflexivity.
Qed.
Lemma c84_errors N op V l : matrix_elements N op V None = (match op with Ok _ => Err PlainException | Err e => Err e end) /\
  (forall e, op = Err e -> matrix_elements N op V l = Err e) /\
  (forall O i j r, op = Ok O -> (i >= Z.of_nat (List.length V) \/ i < - Z.of_nat (List.length V))%Z -> matrix_elements N op V (Some ((i, j) :: r)) = Err IndexError).
Proof.
  split; [now destruct op|]. split; [intros e ->; reflexivity|]. intros O i j r -> Hi. unfold matrix_elements. cbn [bind mapM fst snd].
  assert (E : pyget V i = Err IndexError); [|now rewrite E].
  unfold pyget. destruct (Z.ltb_spec i 0) as [L|L].
  - destruct (Z.ltb_spec (i + Z.of_nat (List.length V)) 0); [easy | lia].
  - destruct (Z.ltb_spec i 0); [lia|]. replace (nth_error V (Z.to_nat i)) with (@None (nat -> C)); [easy|]. symmetry. apply nth_error_None. lia.
Qed.

(** ** Energies *)
Lemma energies_at {K} `{EqB K} (l : list K) f i x : NoDup l -> nth_error l i = Some x -> energies l f (Some x) = Ok (Datatypes.inr (f i)).
Proof. intros ND Hi. unfold energies. now rewrite (index_nth _ _ _ ND Hi). Qed.
Lemma energies_all {K} `{EqB K} (l : list K) f : NoDup l ->
  exists d, energies l f None = Ok (Datatypes.inl d) /\ dkeys d = l /\ forall i x, nth_error l i = Some x -> dget d x = Some (f i).
Proof.
  intros ND. eexists. split; [reflexivity|]. unfold Symbolic.enumerate.
  assert (G : forall l s d, NoDup (dkeys d ++ l) ->
    let r := fold_left (fun d p => dset d (snd p) (f (fst p))) (combine (seq s (List.length l)) l) d in
    dkeys r = dkeys d ++ l /\ (forall k, In k (dkeys d) -> dget r k = dget d k) /\ forall i x, nth_error l i = Some x -> dget r x = Some (f (s + i))).
  { clear l ND. induction l as [|y l IH]; intros s d ND; cbn [List.length seq combine fold_left].
    - rewrite app_nil_r. repeat split. intros [|i] x; discriminate.
    - assert (Ny : ~ In y (dkeys d)) by (intros Hy; apply NoDup_remove_2 in ND; apply ND, in_or_app; now left).
      assert (Kd : dkeys (dset d y (f s)) = dkeys d ++ [y]) by now apply dkeys_dset_new.
      destruct (IH (S s) (dset d y (f s))) as (I1 & I2 & I3); [rewrite Kd, <- app_assoc; exact ND|]. cbn [fst snd]. split; [|split].
      + rewrite I1, Kd, <- app_assoc. reflexivity.
      + intros k Hk. rewrite I2 by (rewrite Kd; apply in_or_app; now left). apply dget_dset_neq. intros ->. contradiction.
      + intros [|i] x Hx; cbn in Hx.
        * injection Hx as ->. rewrite I2 by (rewrite Kd; apply in_or_app; right; now left). rewrite dget_dset_eq. now rewrite Nat.add_0_r.
        * rewrite (I3 i x Hx). f_equal. f_equal. lia. }
  destruct (G l 0 [] ND) as (G1 & _ & G3). split; [exact G1 | exact G3].
Qed.
