(** The Hamiltonian is Hermitian. *)
From Coq Require Import List Bool Arith Lia ZArith Reals Lra Setoid Morphisms Permutation.
From Coquelicot Require Import Complex.
From Verif Require Import Prelude PreludeFacts Sweep SweepProofs SweepResultProofs Mat MatFacts Util UtilProofs Graph Symbolic SymbolicInv NumOp NumOpSpec NumKron NumSpectral NumCharge NumExpand.
Import ListNotations.
Open Scope nat_scope.

Definition herm (n : nat) (A : cmat) : Prop := same n (mdag A) A.
Lemma herm_spec n A : herm n A <-> hermitian n A.
Proof. split; intros H i j Hi Hj; symmetry; [symmetry|]; [rewrite <- (H i j) by easy; reflexivity|]; now rewrite (H i j). Qed.
Lemma commute_mm n A B : commute n A B <-> same n (mm n A B) (mm n B A).
Proof. unfold commute. split; intros H; [rewrite <- !mul_same | rewrite !mul_same]; exact H. Qed.
Lemma mdag_mdag n A : same n (mdag (mdag A)) A.
Proof. intros i j _ _. unfold mdag. apply conj_conj. Qed.
Lemma mdag_mul n A B : same n (mdag (mm n A B)) (mm n (mdag B) (mdag A)).
Proof. intros i j _ _. apply mdag_mm. Qed.
Lemma mdag_plus n A B : same n (mdag (mplus A B)) (mplus (mdag A) (mdag B)).
Proof. intros i j _ _. unfold mdag, mplus. apply conj_plus. Qed.
Lemma mdag_sc n c A : same n (mdag (msc c A)) (msc (Cconj c) (mdag A)).
Proof. intros i j _ _. unfold mdag, msc. apply conj_mult. Qed.
Lemma herm_plus n A B : herm n A -> herm n B -> herm n (mplus A B).
Proof. unfold herm. intros H K. rewrite mdag_plus, H, K. reflexivity. Qed.
Lemma herm_sc n (c : R) A : herm n A -> herm n (msc (RtoC c) A).
Proof. unfold herm. intros H. rewrite mdag_sc, H, conj_R. reflexivity. Qed.
Lemma herm_eye n : herm n eye.
Proof. intros i j _ _. apply mdag_eye. Qed.
Lemma herm_zero n : herm n mzero.
Proof. intros i j _ _. unfold mdag, mzero. apply conj_R. Qed.
Lemma sanR_opp tol x : sanR tol (- x) = (- sanR tol x)%R.
Proof. unfold sanR. rewrite Rabs_Ropp. destruct (Rlt_dec (Rabs x) tol); lra. Qed.
Lemma mdag_tidy n A : same n (mdag (tidyup A)) (tidyup (mdag A)).
Proof. intros i j _ _. unfold mdag, tidyup, sanC. apply injective_projections; cbn; [easy | now rewrite sanR_opp]. Qed.
Lemma herm_tidy n A : herm n A -> herm n (tidyup A).
Proof. unfold herm. intros H. rewrite mdag_tidy, H. reflexivity. Qed.
Lemma herm_ext n A B : same n A B -> herm n A -> herm n B.
Proof. unfold herm. intros E H. now rewrite <- E. Qed.

(** ** quadratic form *)
Lemma mm_sum_r N n A (B : nat -> cmat) (c : nat -> C) r k :
  mm N A (fun r k => @sumn C_rng n (fun j => (c j * B j r k)%C)) r k = @sumn C_rng n (fun j => (c j * mm N A (B j) r k)%C).
Proof.
  unfold mm, mmul. rewrite (@sumn_ext C_rng N _ (fun x => @sumn C_rng n (fun j => @kmul C_rng (c j) (@kmul C_rng (A r x) (B j x k))))).
  - rewrite (@sumn_swap C_rng). apply (@sumn_ext C_rng). intros j _. symmetry. apply (@sumn_mul_l C_rng).
  - intros x _. rewrite (@sumn_mul_l C_rng). apply (@sumn_ext C_rng). intros j _.
    match goal with |- @eq _ ?a ?b => change (@eq C a b) end. cbn [kmul C_rng]. ring.
Qed.
Lemma quadform_eq N l b M r c : quadform N l b M r c =
  @sumn C_rng (List.length l) (fun i => @sumn C_rng (List.length l) (fun j => (RtoC (M i j) * mm N (shifted l b i) (shifted l b j) r c)%C)).
Proof. unfold quadform. apply (@sumn_ext C_rng). intros i _. apply (mm_sum_r N (List.length l) (shifted l b i) (shifted l b) (fun j => RtoC (M i j))). Qed.
Lemma commute_shift N A B a b : commute N A B -> commute N (mplus A (msc (RtoC a) eye)) (mplus B (msc (RtoC b) eye)).
Proof.
  rewrite !commute_mm. intros H i j Hi Hj. repeat (rewrite ?mm_plus_l, ?mm_plus_r, ?mm_sc_l, ?mm_sc_r). rewrite (H i j) by easy.
  rewrite !mm_eye_l, !mm_eye_r by easy. ring.
Qed.
Lemma quadform_herm N l b M : (forall i, i < List.length l -> herm N (opn l i)) ->
  (forall i j, i < List.length l -> j < List.length l -> i <> j -> commute N (opn l i) (opn l j)) -> herm N (quadform N l b M).
Proof.
  intros Hh Hc r c Hr Hk. unfold mdag. rewrite !quadform_eq, conj_sum. apply (@sumn_ext C_rng). intros i Hi.
  rewrite conj_sum. apply (@sumn_ext C_rng). intros j Hj. rewrite conj_mult, conj_R. f_equal.
  change (mdag (mm N (shifted l b i) (shifted l b j)) r c = mm N (shifted l b i) (shifted l b j) r c).
  assert (S : forall i, i < List.length l -> herm N (shifted l b i)) by (intros x Hx; apply herm_plus; [auto | apply herm_sc, herm_eye]).
  rewrite (mdag_mul N _ _ r c Hr Hk). transitivity (mm N (shifted l b j) (shifted l b i) r c).
  - apply mm_proper; auto; now apply S.
  - destruct (Nat.eq_dec i j) as [->|N']; [easy|]. symmetry.
    apply (proj1 (commute_mm N (shifted l b i) (shifted l b j))); auto. apply commute_shift. now apply Hc.
Qed.

(** ** products of commuting operators *)
Lemma commute_sym n A B : commute n A B -> commute n B A.
Proof. rewrite !commute_mm. intros H. symmetry. exact H. Qed.
Lemma commute_prod n A B D : commute n A D -> commute n B D -> commute n (mm n A B) D.
Proof. rewrite !commute_mm. intros H K. rewrite mmA, K, <- mmA, H, mmA. reflexivity. Qed.
Lemma commute_scale n c A D : commute n A D -> commute n (msc c A) D.
Proof. rewrite !commute_mm. intros H i j Hi Hj. rewrite mm_sc_l, mm_sc_r. f_equal. now apply H. Qed.
Lemma fold_ext n l l' : Forall2 (same n) l l' -> forall A A', same n A A' -> same n (fold_left (mm n) l A) (fold_left (mm n) l' A').
Proof. induction 1 as [|x y l l' H F IH]; intros A A' E; cbn [fold_left]; [easy|]. apply IH. now rewrite E, H. Qed.
Lemma fold_dag n l : forall A, ForallOrdPairs (commute n) (A :: l) -> same n (mdag (fold_left (mm n) l A)) (fold_left (mm n) (map mdag l) (mdag A)).
Proof.
  induction l as [|B l IH]; intros A H; cbn [fold_left map]; [reflexivity|].
  inversion H as [|? ? H1 H2]; subst. inversion H2 as [|? ? H3 H4]; subst. inversion H1 as [|? ? H5 H6]; subst.
  rewrite IH.
  - apply fold_ext.
    + clear. induction l; cbn; constructor; [reflexivity | easy].
    + apply (proj1 (commute_mm n A B)) in H5. rewrite H5, mdag_mul. reflexivity.
  - constructor; [|easy]. clear IH H H2 H1 H4. induction l as [|D l IH]; [constructor|].
    inversion H3; subst. inversion H6; subst. constructor; [now apply commute_prod | now apply IH].
Qed.
Section Cosine.
  Variables (N n : nat) (X Xd : nat -> cmat).
  Hypothesis adj : forall k, k < n -> same N (Xd k) (mdag (X k)).
  Hypothesis com : forall k k', k < n -> k' < n -> k <> k' ->
    commute N (X k) (X k') /\ commute N (X k) (Xd k') /\ commute N (Xd k) (X k') /\ commute N (Xd k) (Xd k').
  Definition pick (t : nat * bool) : cmat := if snd t then X (fst t) else Xd (fst t).
  Definition pick' (t : nat * bool) : cmat := if snd t then Xd (fst t) else X (fst t).
  Lemma pick_adj t : fst t < n -> same N (mdag (pick t)) (pick' t).
  Proof. intros H. unfold pick, pick'. destruct (snd t); rewrite (adj _ H); [reflexivity | apply mdag_mdag]. Qed.
  Lemma pick_com t t' : fst t < n -> fst t' < n -> fst t <> fst t' -> commute N (pick t) (pick t').
  Proof. intros H H' K. destruct (com _ _ H H' K) as (A & B & D & E). unfold pick. now destruct (snd t), (snd t'). Qed.
  Lemma product_adj z ts p1 p2 : (forall t, In t ts -> fst t < n) -> NoDup (map fst ts) ->
    product N z (map pick ts) = Ok p1 -> product N (Cconj z) (map pick' ts) = Ok p2 -> same N (mdag p1) p2.
  Proof.
    intros Hn Hd. destruct ts as [|t ts]; [discriminate|]. cbn [map product]. intros E1 E2. injection E1 as <-. injection E2 as <-.
    inversion Hd as [|? ? Hd1 Hd2]; subst. clear Hd.
    rewrite fold_dag.
    - apply fold_ext.
      + assert (Hn' : forall t, In t ts -> fst t < n) by (intros; apply Hn; now right).
        clear - Hn' adj. induction ts as [|u ts IH]; cbn [map]; constructor; [apply pick_adj, Hn'; now left | apply IH; intros; apply Hn'; now right].
      + rewrite mdag_sc, pick_adj by (apply Hn; now left). reflexivity.
    - constructor.
      + apply Forall_forall. intros A HA. apply in_map_iff in HA as (u & <- & Hu). apply commute_scale, pick_com.
        * apply Hn; now left.
        * apply Hn; now right.
        * intros E. apply Hd1. rewrite E. now apply in_map.
      + assert (Hn' : forall t, In t ts -> fst t < n) by (intros; apply Hn; now right).
        clear - Hn' Hd2 com. induction ts as [|u ts IH]; cbn [map]; constructor.
        * apply Forall_forall. intros A HA. apply in_map_iff in HA as (v & <- & Hv). inversion Hd2; subst.
          apply pick_com; [apply Hn'; now left | apply Hn'; now right |]. intros E. apply H1. rewrite E. now apply in_map.
        * inversion Hd2; subst. apply IH; auto. intros; apply Hn'; now right.
  Qed.
  Variable argord : list (nat * bool) -> list (nat * bool).
  Hypothesis perm : forall l, Permutation (argord l) l.
  Variables (nodes : list nat) (edges : list edge).
  Hypothesis len : List.length nodes = n.
  Lemma terms_in i t : In t (branch_terms nodes edges i) -> fst t < n.
  Proof.
    unfold branch_terms. intros H. apply in_flat_map in H as (k & Hk & Ht). apply in_seq in Hk.
    destruct (rbn nodes edges k i); cbn in Ht; destruct Ht as [<-|[]] || destruct Ht; cbn; lia.
  Qed.
  Lemma terms_nodup i : NoDup (map fst (branch_terms nodes edges i)).
  Proof.
    unfold branch_terms. rewrite <- (seq_NoDup (List.length nodes) 0) || idtac.
    assert (G : forall l, NoDup l -> NoDup (map fst (flat_map (fun k => match rbn nodes edges k i with Z0 => [] | Zpos _ => [(k, true)] | Zneg _ => [(k, false)] end) l)) /\
      forall k, In k (map fst (flat_map (fun k => match rbn nodes edges k i with Z0 => [] | Zpos _ => [(k, true)] | Zneg _ => [(k, false)] end) l)) -> In k l).
    { induction l as [|k l IH]; intros ND; [cbn; split; [constructor | easy]|]. inversion ND as [|? ? H1 H2]; subst. destruct (IH H2) as [I1 I2].
      cbn [flat_map]. rewrite map_app. destruct (rbn nodes edges k i); cbn [map app fst].
      - split; [easy|]. intros; right; auto.
      - split; [constructor; [intros K; apply H1; auto | easy]|]. intros k' [<-|K]; [now left | right; auto].
      - split; [constructor; [intros K; apply H1; auto | easy]|]. intros k' [<-|K]; [now left | right; auto]. }
    apply G, seq_NoDup.
  Qed.
  Lemma cosine_herm amp bias H : cosine_part N argord nodes edges amp bias X Xd = Ok H -> herm N H.
  Proof.
    unfold cosine_part. assert (H0 : herm N mzero) by apply herm_zero. revert H0. generalize mzero.
    generalize (seq 0 (List.length edges)). induction l as [|i l IH]; intros A HA; cbn [foldM]; [intros E; now injection E as <-|].
    destruct (Req_EM_T (amp i) 0); [cbn [bind]; now apply IH|].
    destruct (product N (cis (2 * PI * bias i)) _) as [p1|] eqn:E1; [|discriminate]. cbn [bind].
    destruct (product N (cis (- 2 * PI * bias i)) _) as [p2|] eqn:E2; [|discriminate]. cbn [bind]. apply IH.
    assert (K : same N (mdag p1) p2).
    { apply (product_adj (cis (2 * PI * bias i)) (argord (branch_terms nodes edges i))); [ | | exact E1 |].
      - intros t Ht. apply (Permutation_in _ (perm _)) in Ht. now apply terms_in in Ht.
      - eapply Permutation_NoDup; [symmetry; apply Permutation_map, perm | apply terms_nodup].
      - rewrite conj_cis. replace (- (2 * PI * bias i))%R with (- 2 * PI * bias i)%R by ring. exact E2. }
    apply herm_plus; [easy|]. apply herm_sc. unfold herm. rewrite mdag_plus, K.
    assert (K' : same N (mdag p2) p1) by (rewrite <- K; apply mdag_mdag). rewrite K'. intros r c _ _. unfold mplus. ring.
  Qed.
End Cosine.

(** ** the operators of one node *)
Definition ops_ok (o : ops) : Prop :=
  herm (o_dim o) (oQ o) /\ herm (o_dim o) (oP o) /\ same (o_dim o) (oDd o) (mdag (oD o)) /\ same (o_dim o) (oSd o) (mdag (oS o)).
Lemma tidy_adj n A : same n (tidyup (mdag A)) (mdag (tidyup A)).
Proof. symmetry. apply mdag_tidy. Qed.
Lemma herm_num n t : herm n (numQ t).
Proof.
  intros i j _ _. unfold mdag, numQ. rewrite Nat.eqb_sym. destruct (Nat.eqb_spec i j) as [->|N]; [|apply conj_R].
  now rewrite <- RtoC_opp, <- RtoC_plus, conj_R.
Qed.
Lemma herm_ketsum n N (c : nat -> R) (v : nat -> nat -> C) : herm n (fun i j => @sumn C_rng N (fun a => (RtoC (c a) * ketbra (v a) (v a) i j)%C)).
Proof.
  intros i j _ _. unfold mdag. rewrite conj_sum. apply (@sumn_ext C_rng). intros a _. unfold ketbra.
  rewrite !conj_mult, conj_R, conj_conj. match goal with |- @eq _ ?a ?b => change (@eq C a b) end. ring.
Qed.
Lemma create_destroy i j : create i j = destroy j i.
Proof. unfold create, destroy. rewrite Nat.eqb_sym. reflexivity. Qed.
Lemma conj_create i j : Cconj (create i j) = create i j /\ Cconj (destroy i j) = destroy i j.
Proof. unfold create, destroy. split; destruct (Nat.eqb _ _); apply conj_R. Qed.
Lemma herm_oscQ n z chg : herm n (oscQ z chg).
Proof.
  intros i j _ _. unfold mdag, oscQ. rewrite !conj_mult, !conj_R. replace (create j i - destroy j i)%C with (create j i + (- destroy j i))%C by ring.
  rewrite conj_plus. rewrite (proj1 (conj_create j i)). replace (Cconj (- destroy j i)%C) with (- destroy j i)%C.
  - rewrite (create_destroy j i), (create_destroy i j). replace (Cconj Ci) with (- Ci)%C by (apply injective_projections; cbn; lra). ring.
  - rewrite <- (proj2 (conj_create j i)) at 1. apply injective_projections; cbn; lra.
Qed.
Lemma herm_oscP n z flx : herm n (oscP z flx).
Proof.
  intros i j _ _. unfold mdag, oscP. rewrite !conj_mult, !conj_R, conj_plus, (proj1 (conj_create j i)), (proj2 (conj_create j i)).
  rewrite (create_destroy j i), (create_destroy i j). ring.
Qed.
Lemma generated_ok eigh inv z ka kb pmax chg flx n d o : getOperatorList eigh inv z ka kb pmax chg flx n d = Ok o -> ops_ok o.
Proof.
  unfold getOperatorList, ops_ok. destruct (od_basis d); intros E; try discriminate.
  - injection E as <-. cbn [oQ oP oD oDd oS oSd charge_basis]. repeat split; try apply tidy_adj; apply herm_tidy; [apply herm_num | apply herm_ketsum].
  - injection E as <-. cbn [oQ oP oD oDd oS oSd oscillator_basis]. repeat split; try apply tidy_adj; apply herm_tidy; [apply herm_oscQ | apply herm_oscP].
  - injection E as <-. cbn [oQ oP oD oDd oS oSd flux_basis]. repeat split; try apply tidy_adj; apply herm_tidy; [apply herm_ketsum | apply herm_num].
  - unfold discretized_flux_basis in E. destruct (Nat.eqb (od_trunc d) 0); [discriminate|]. injection E as <-. cbn [oQ oP oD oDd oS oSd].
    repeat split; try apply tidy_adj; apply herm_tidy.
    + unfold gridQ. set (g := (grid (od_trunc d) (pmax n) 1 - grid (od_trunc d) (pmax n) 0)%R). set (N := 2 * od_trunc d + 1).
      set (phi := fun a m => (RtoC (sqrt (1 / INR N)) * cis (2 * PI * qm (od_trunc d) a * qm (od_trunc d) m / INR N))%C).
      apply (herm_ext _ (msc (RtoC (/ g)) (fun i j => @sumn C_rng N (fun a => (RtoC (qm (od_trunc d) a / INR N) * ketbra (phi a) (phi a) i j)%C)))).
      * intros i j _ _. unfold msc. destruct (Req_EM_T g 0) as [->|Ng].
        -- unfold Cdiv. assert (I0 : (/ RtoC 0)%C = RtoC 0) by (apply injective_projections; cbn; unfold Rdiv; ring).
           rewrite I0, Rinv_0. apply Cmult_comm.
        -- rewrite RtoC_inv by easy. apply Cmult_comm.
      * apply herm_sc. apply herm_ketsum.
    + intros i j _ _. unfold mdag, cdiag. rewrite Nat.eqb_sym. destruct (Nat.eqb_spec i j) as [->|N]; apply conj_R.
Qed.

(** ** the whole Hamiltonian *)
Section Ham.
  Variables (gen : nat -> opdata -> res ops) (nodes : list nat) (data : dict nat opdata).
  Hypothesis gen_dim : forall n d o k, gen n d = Ok o -> ident_dim d = Some k -> o_dim o = k.
  Hypothesis gen_ok : forall n d o, gen n d = Ok o -> ops_ok o.
  Hypothesis ND : NoDup nodes.
  Variables (circ0 circ : dict nat cops).
  Hypothesis Hcirc : getExpandedOperatorsMap gen nodes data None circ0 = Ok circ.
  Let n := List.length nodes.
  Let D := node_dim gen nodes data.
  Let N := size D n.
  Lemma vector_elem f l i : op_vector f nodes circ = Ok l -> i < n ->
    exists m d o, nth_error nodes i = Some m /\ dget data m = Some d /\ gen m d = Ok o /\ D i = o_dim o /\
      opn l i = f (lifted gen nodes data i o).
  Proof.
    intros Hl Hi. pose proof (map_usable gen nodes data gen_dim circ0 circ Hcirc) as U.
    destruct (map_ok gen nodes data U None circ0 ND) as (circ' & E & H1 & _). rewrite Hcirc in E. injection E as <-.
    destruct (nth_error nodes i) as [m|] eqn:Em; [|apply nth_error_None in Em; unfold n in Hi; lia].
    destruct (U m (nth_error_In _ _ Em)) as (d & o & Hd & Ho & _). exists m, d, o. repeat split; auto.
    - unfold D, node_dim. now rewrite Em, Hd, Ho.
    - destruct (mapM_nth _ _ _ _ _ Hl Em) as (y & Hy & Ey). rewrite (H1 i m d o Em Hd Ho eq_refl) in Ey. injection Ey as <-.
      unfold opn. now apply nth_error_nth.
  Qed.
  Lemma vector_len f l : op_vector f nodes circ = Ok l -> List.length l = n.
  Proof. apply mapM_length. Qed.
  Lemma lift_herm i A : i < n -> herm (D i) A -> herm N (lift D n i A).
  Proof.
    intros Hi H. unfold herm. transitivity (lift D n i (mdag A)).
    - intros r c Hr Hc. now apply lift_dag.
    - apply lift_ext; [easy|]. exact H.
  Qed.
  Lemma ham_herm argord edges h Qnp Pnp H : (forall l, Permutation (argord l) l) ->
    op_vector cQ nodes circ = Ok Qnp -> op_vector cP nodes circ = Ok Pnp ->
    getHamiltonian N argord nodes edges h Qnp Pnp circ = Ok H -> herm N H.
  Proof.
    intros Hp HQ HP. unfold getHamiltonian.
    destruct (op_vector cD nodes circ) as [ds|] eqn:E1; [|discriminate]. destruct (op_vector cDd nodes circ) as [dds|] eqn:E2; [|discriminate].
    destruct (op_vector cS nodes circ) as [ss|] eqn:E3; [|discriminate]. destruct (op_vector cSd nodes circ) as [sds|] eqn:E4; [|discriminate]. cbn [bind].
    destruct (cosine_part N argord nodes edges (h_J h) (h_pb h) (opn ds) (opn dds)) as [Hjj|] eqn:E5; [|discriminate]. cbn [bind].
    destruct (cosine_part N argord nodes edges (h_Ps h) (h_qb h) (opn ss) (opn sds)) as [Hs|] eqn:E6; [|discriminate]. cbn [bind].
    intros E. injection E as <-.
    assert (lh : forall f l, op_vector f nodes circ = Ok l -> (forall i o, exists A, f (lifted gen nodes data i o) = lift D n i A) ->
      forall f' l', op_vector f' nodes circ = Ok l' -> (forall i o, exists A, f' (lifted gen nodes data i o) = lift D n i A) ->
      forall i j, i < n -> j < n -> i <> j -> commute N (opn l i) (opn l' j)).
    { intros f l Hl Hf f' l' Hl' Hf' i j Hi Hj Nij. destruct (vector_elem f l i Hl Hi) as (? & ? & o & _ & _ & _ & _ & ->).
      destruct (vector_elem f' l' j Hl' Hj) as (? & ? & o' & _ & _ & _ & _ & ->). destruct (Hf i o) as [A ->]. destruct (Hf' j o') as [B ->]. now apply lift_commute. }
    assert (adj : forall f f' g g' l l', op_vector f nodes circ = Ok l -> op_vector f' nodes circ = Ok l' ->
      (forall i o, f (lifted gen nodes data i o) = lift D n i (g o)) -> (forall i o, f' (lifted gen nodes data i o) = lift D n i (g' o)) ->
      (forall o, ops_ok o -> same (o_dim o) (g' o) (mdag (g o))) -> forall i, i < n -> same N (opn l' i) (mdag (opn l i))).
    { intros f f' g g' l l' Hl Hl' Hf Hf' Hg i Hi. destruct (vector_elem f l i Hl Hi) as (m & d & o & Em & Ed & Eo & Di & ->).
      destruct (vector_elem f' l' i Hl' Hi) as (m' & d' & o' & Em' & Ed' & Eo' & Di' & ->).
      assert (o' = o) as -> by congruence. rewrite Hf, Hf'. transitivity (lift D n i (mdag (g o))).
      - apply lift_ext; [easy|]. rewrite Di. apply Hg. now apply (gen_ok m d).
      - symmetry. intros r c Hr Hc. now apply lift_dag. }
    assert (hh : forall f g l, op_vector f nodes circ = Ok l -> (forall i o, f (lifted gen nodes data i o) = lift D n i (g o)) ->
      (forall o, ops_ok o -> herm (o_dim o) (g o)) -> forall i, i < n -> herm N (opn l i)).
    { intros f g l Hl Hf Hg i Hi. destruct (vector_elem f l i Hl Hi) as (m & d & o & Em & Ed & Eo & Di & ->). rewrite Hf.
      apply lift_herm; [easy|]. rewrite Di. apply Hg. now apply (gen_ok m d). }
    apply herm_tidy. apply herm_plus; [apply herm_plus; [apply herm_plus|]|]; apply herm_sc.
    - apply quadform_herm; rewrite (vector_len _ _ HQ).
      + apply (hh cQ oQ _ HQ); [reflexivity | now intros o (A & _)].
      + apply (lh cQ _ HQ) with (f' := cQ); [intros i o; now exists (oQ o)| exact HQ | intros i o; now exists (oQ o)].
    - apply quadform_herm; rewrite (vector_len _ _ HP).
      + apply (hh cP oP _ HP); [reflexivity | now intros o (_ & A & _)].
      + apply (lh cP _ HP) with (f' := cP); [intros i o; now exists (oP o)| exact HP | intros i o; now exists (oP o)].
    - apply (cosine_herm N n (opn ds) (opn dds)) with (4 := eq_refl) (5 := E5); auto.
      + apply (adj cD cDd oD oDd); auto. now intros o (_ & _ & A & _).
      + intros k k' Hk Hk' Nk. split; [|split; [|split]]; [apply (lh cD ds E1) with (f' := cD)| apply (lh cD ds E1) with (f' := cDd) | apply (lh cDd dds E2) with (f' := cD) | apply (lh cDd dds E2) with (f' := cDd)];
          auto; intros; eexists; reflexivity.
    - apply (cosine_herm N n (opn ss) (opn sds)) with (4 := eq_refl) (5 := E6); auto.
      + apply (adj cS cSd oS oSd); auto. now intros o (_ & _ & _ & A).
      + intros k k' Hk Hk' Nk. split; [|split; [|split]]; [apply (lh cS ss E3) with (f' := cS)| apply (lh cS ss E3) with (f' := cSd) | apply (lh cSd sds E4) with (f' := cS) | apply (lh cSd sds E4) with (f' := cSd)];
          auto; intros; eexists; reflexivity.
  Qed.
End Ham.
