(** The potential part of the Hamiltonian on joint eigenvectors of the flux and
    displacement operators, and the classical potential. *)
From Coq Require Import List Bool Arith Lia ZArith Reals Lra Setoid Morphisms Permutation.
From Coquelicot Require Import Complex.
From Verif Require Import Prelude Sweep SweepProofs Mat MatFacts RSum Util UtilProofs Graph Symbolic NumOp NumOpSpec NumKron NumSpectral NumCharge NumHerm.
Import ListNotations.
Open Scope nat_scope.

Definition ev (N : nat) (A : cmat) (v : nat -> C) (c : C) : Prop := forall i, i < N -> apply N A v i = (c * v i)%C.
Lemma apply_sumn N A v i : apply N A v i = @sumn C_rng N (fun k => (A i k * v k)%C).
Proof. apply csum_sumn. Qed.
Lemma ev_mm N A B v a b : ev N A v a -> ev N B v b -> ev N (mm N A B) v (a * b)%C.
Proof.
  intros HA HB i Hi. rewrite apply_sumn. unfold mm, mmul.
  rewrite (@sumn_ext C_rng N _ (fun k => @sumn C_rng N (fun l => @kmul C_rng (A i l) (@kmul C_rng (B l k) (v k))))).
  - rewrite (@sumn_swap C_rng). rewrite (@sumn_ext C_rng N _ (fun l => @kmul C_rng b (@kmul C_rng (A i l) (v l)))).
    + rewrite <- (@sumn_mul_l C_rng). specialize (HA i Hi). rewrite apply_sumn in HA.
      match goal with |- @kmul C_rng b ?s = _ => change (b * s = a * b * v i)%C end.
      change (@sumn C_rng N (fun i0 => @kmul C_rng (A i i0) (v i0))) with (@sumn C_rng N (fun k => (A i k * v k)%C)). rewrite HA. ring.
    + intros l Hl. rewrite <- (@sumn_mul_l C_rng). specialize (HB l Hl). rewrite apply_sumn in HB.
      change (@sumn C_rng N (fun i0 => @kmul C_rng (B l i0) (v i0))) with (@sumn C_rng N (fun k => (B l k * v k)%C)). rewrite HB.
      match goal with |- @eq _ ?a ?b => change (@eq C a b) end. cbn [kmul C_rng]. ring.
  - intros k _. match goal with |- (?s * v k)%C = _ => change (@kmul C_rng s (v k) = @sumn C_rng N (fun l => @kmul C_rng (A i l) (@kmul C_rng (B l k) (v k)))) end.
    rewrite (@sumn_mul_r C_rng). apply (@sumn_ext C_rng). intros l _. match goal with |- @eq _ ?a ?b => change (@eq C a b) end. cbn [kmul C_rng]. ring.
Qed.
Lemma ev_sc N c A v a : ev N A v a -> ev N (msc c A) v (c * a)%C.
Proof.
  intros HA i Hi. rewrite apply_sumn. unfold msc. specialize (HA i Hi). rewrite apply_sumn in HA.
  rewrite (@sumn_ext C_rng N _ (fun k => @kmul C_rng c (A i k * v k)%C)) by (intros; cbn [kmul C_rng]; match goal with |- @eq _ ?a ?b => change (@eq C a b) end; ring).
  rewrite <- (@sumn_mul_l C_rng), HA. cbn [kmul C_rng]. match goal with |- @eq _ ?a ?b => change (@eq C a b) end. ring.
Qed.
Lemma ev_plus N A B v a b : ev N A v a -> ev N B v b -> ev N (mplus A B) v (a + b)%C.
Proof.
  intros HA HB i Hi. rewrite apply_sumn. unfold mplus. specialize (HA i Hi). specialize (HB i Hi). rewrite apply_sumn in HA, HB.
  rewrite (@sumn_ext C_rng N _ (fun k => @kadd C_rng (A i k * v k)%C (B i k * v k)%C)) by (intros; cbn [kadd C_rng]; match goal with |- @eq _ ?a ?b => change (@eq C a b) end; ring).
  rewrite (@sumn_add C_rng), HA, HB. cbn [kadd C_rng]. match goal with |- @eq _ ?a ?b => change (@eq C a b) end. ring.
Qed.
Lemma ev_zero N v : ev N mzero v (RtoC 0).
Proof.
  intros i Hi. rewrite apply_sumn, (@sumn_0 C_rng); [cbn; ring|]. intros k _. unfold mzero. apply Cmult_0_l.
Qed.
Lemma ev_eye N v : ev N eye v (RtoC 1).
Proof.
  intros i Hi. rewrite apply_sumn, (@sumn_single C_rng N i); auto.
  - unfold eye. now rewrite Nat.eqb_refl.
  - intros k _ Nk. unfold eye. destruct (Nat.eqb_spec i k); [congruence|]. apply Cmult_0_l.
Qed.
Lemma ev_ext N A B v a : same N A B -> ev N A v a -> ev N B v a.
Proof. intros E H i Hi. rewrite <- (H i Hi), !apply_sumn. apply (@sumn_ext C_rng). intros k Hk. now rewrite E. Qed.
Lemma ev_sum N n (f : nat -> cmat) v (c : nat -> C) : (forall i, i < n -> ev N (f i) v (c i)) ->
  ev N (fun r k => @sumn C_rng n (fun i => f i r k)) v (@sumn C_rng n c).
Proof.
  induction n as [|n IH]; intros H; cbn [sumn].
  - apply (ev_zero N v).
  - apply (ev_plus N (fun r k => @sumn C_rng n (fun i => f i r k)) (f n)); [apply IH; auto | apply H; lia].
Qed.
Lemma RtoC_sumn n (f : nat -> R) : RtoC (@sumn R_rng n f) = @sumn C_rng n (fun i => RtoC (f i)).
Proof. induction n as [|n IH]; [easy|]. cbn [sumn]. rewrite <- IH. cbn [kadd R_rng C_rng]. now rewrite RtoC_plus. Qed.

(** quadratic form *)
Lemma quadform_ev N l b M v (x : nat -> R) : (forall i, i < List.length l -> ev N (opn l i) v (RtoC (x i))) ->
  ev N (quadform N l b M) v (RtoC (@sumn R_rng (List.length l) (fun i => @sumn R_rng (List.length l) (fun j => (x i + b i) * M i j * (x j + b j))%R))).
Proof.
  intros H. apply (ev_ext N (fun r c => @sumn C_rng (List.length l) (fun i => @sumn C_rng (List.length l) (fun j => (RtoC (M i j) * mm N (shifted l b i) (shifted l b j) r c)%C)))).
  { intros r c _ _. symmetry. apply quadform_eq. }
  rewrite RtoC_sumn.
  apply (ev_sum N _ (fun i r c => @sumn C_rng (List.length l) (fun j => (RtoC (M i j) * mm N (shifted l b i) (shifted l b j) r c)%C))). intros i Hi.
  rewrite RtoC_sumn.
  apply (ev_sum N _ (fun j r c => (RtoC (M i j) * mm N (shifted l b i) (shifted l b j) r c)%C)). intros j Hj.
  assert (S : forall i, i < List.length l -> ev N (shifted l b i) v (RtoC (x i + b i))).
  { intros k Hk. rewrite RtoC_plus, <- (Cmult_1_r (RtoC (b k))). apply ev_plus; [auto | apply ev_sc, ev_eye]. }
  replace (RtoC ((x i + b i) * M i j * (x j + b j))) with (RtoC (M i j) * (RtoC (x i + b i) * RtoC (x j + b j)))%C by (rewrite !RtoC_mult; ring).
  apply (ev_sc N (RtoC (M i j)) (mm N (shifted l b i) (shifted l b j))). apply ev_mm; auto.
Qed.

(** cosine part *)
Definition sgn (t : nat * bool) (x : nat -> R) : R := if snd t then x (fst t) else (- x (fst t))%R.
Definition tsum (ts : list (nat * bool)) (x : nat -> R) : R := fold_right Rplus 0%R (map (fun t => sgn t x) ts).
Lemma tsum_perm ts ts' x : Permutation ts ts' -> tsum ts x = tsum ts' x.
Proof. unfold tsum. induction 1; cbn [map fold_right]; lra. Qed.
Lemma rbn_vals nodes edges k i : (rbn nodes edges k i = 0 \/ rbn nodes edges k i = 1 \/ rbn nodes edges k i = -1)%Z.
Proof. unfold rbn. destruct (nth_error nodes k), (nth_error edges i); auto. repeat destruct (Nat.eqb _ _); auto. Qed.
Lemma tsum_flux nodes edges x i : tsum (branch_terms nodes edges i) x = branch_flux nodes edges x i.
Proof.
  unfold branch_terms, branch_flux. induction (List.length nodes) as [|n IH]; [easy|].
  rewrite seq_S, flat_map_app. cbn [Nat.add flat_map]. unfold tsum in *. rewrite app_nil_r, map_app, fold_right_app. cbn [sumn].
  assert (G : forall l c, fold_right Rplus c l = (fold_right Rplus 0 l + c)%R) by (induction l as [|y l IHl]; intros c; cbn; [lra | rewrite IHl; lra]).
  rewrite G, IH. cbn [kadd R_rng]. f_equal.
  destruct (rbn_vals nodes edges n i) as [E|[E|E]]; rewrite E; cbn; unfold sgn; cbn; ring.
Qed.
Section Cos.
  Variables (N n : nat) (X Xd : nat -> cmat) (v : nat -> C) (x : nat -> R).
  Hypothesis evX : forall k, k < n -> ev N (X k) v (cis (2 * PI * x k)) /\ ev N (Xd k) v (cis (- (2 * PI * x k))).
  Lemma pick_ev t : fst t < n -> ev N (pick X Xd t) v (cis (2 * PI * sgn t x)) /\ ev N (pick' X Xd t) v (cis (- (2 * PI * sgn t x))).
  Proof.
    intros H. destruct (evX _ H) as [A B]. unfold pick, pick', sgn. destruct (snd t); [easy|].
    replace (2 * PI * - x (fst t))%R with (- (2 * PI * x (fst t)))%R by ring. rewrite Ropp_involutive. easy.
  Qed.
  Lemma product_ev z ts p1 p2 : (forall t, In t ts -> fst t < n) ->
    product N z (map (pick X Xd) ts) = Ok p1 -> product N (Cconj z) (map (pick' X Xd) ts) = Ok p2 ->
    ev N p1 v (z * cis (2 * PI * tsum ts x))%C /\ ev N p2 v (Cconj z * cis (- (2 * PI * tsum ts x)))%C.
  Proof.
    intros Hn. destruct ts as [|t ts]; [discriminate|]. cbn [map product]. intros E1 E2. injection E1 as <-. injection E2 as <-.
    destruct (pick_ev t (Hn t (or_introl eq_refl))) as [A B].
    apply (ev_sc N z) in A. apply (ev_sc N (Cconj z)) in B. unfold tsum. cbn [map fold_right]. fold (tsum ts x).
    assert (Hn' : forall t, In t ts -> fst t < n) by (intros; apply Hn; now right). clear Hn.
    rewrite Rmult_plus_distr_l, Ropp_plus_distr, !cis_add, !Cmult_assoc.
    revert A B. generalize (z * cis (2 * PI * sgn t x))%C as a, (Cconj z * cis (- (2 * PI * sgn t x)))%C as b.
    generalize (msc z (pick X Xd t)) as F, (msc (Cconj z) (pick' X Xd t)) as G.
    induction ts as [|u ts IH]; intros F G a b A B; cbn [map fold_left].
    - unfold tsum. cbn. rewrite Rmult_0_r, Ropp_0, cis_0, !Cmult_1_r. easy.
    - destruct (pick_ev u (Hn' u (or_introl eq_refl))) as [A' B']. unfold tsum. cbn [map fold_right]. fold (tsum ts x).
      rewrite Rmult_plus_distr_l, Ropp_plus_distr, !cis_add, !Cmult_assoc. apply IH.
      + intros; apply Hn'; now right.
      + now apply ev_mm.
      + now apply ev_mm.
  Qed.
  Variable argord : list (nat * bool) -> list (nat * bool).
  Hypothesis perm : forall l, Permutation (argord l) l.
  Variables (nodes : list nat) (edges : list edge).
  Hypothesis len : List.length nodes = n.
  Lemma cis_sum a : (cis a + cis (- a))%C = RtoC (2 * cos a).
  Proof. apply injective_projections; cbn; rewrite ?cos_neg, ?sin_neg; ring. Qed.
  Lemma cosine_ev amp bias H : cosine_part N argord nodes edges amp bias X Xd = Ok H ->
    ev N H v (RtoC (fold_right Rplus 0%R (map (fun i => - amp i * cos (2 * PI * (branch_flux nodes edges x i + bias i)))%R (seq 0 (List.length edges))))).
  Proof.
    unfold cosine_part.
    match goal with |- foldM ?F _ _ = _ -> _ => assert (G : forall l s A, ev N A v (RtoC s) -> foldM F l A = Ok H ->
      ev N H v (RtoC (s + fold_right Rplus 0 (map (fun i => - amp i * cos (2 * PI * (branch_flux nodes edges x i + bias i))) l))%R)) end.
    2: { intros E. rewrite <- (Rplus_0_l (fold_right _ _ _)). apply (G _ _ mzero); [apply ev_zero | exact E]. }
    induction l as [|i l IH]; intros s A HA; cbn [foldM]; [intros E; injection E as <-; cbn; now rewrite Rplus_0_r|].
    cbn [map fold_right]. rewrite <- Rplus_assoc.
    destruct (Req_EM_T (amp i) 0) as [Z|Z]; [cbn [bind]; apply IH; now rewrite Z, Ropp_0, Rmult_0_l, Rplus_0_r|].
    destruct (product N (cis (2 * PI * bias i)) _) as [p1|] eqn:E1; [|discriminate]. cbn [bind].
    destruct (product N (cis (- 2 * PI * bias i)) _) as [p2|] eqn:E2; [|discriminate]. cbn [bind]. apply IH.
    assert (K := product_ev (cis (2 * PI * bias i)) (argord (branch_terms nodes edges i)) p1 p2).
    destruct K as [K1 K2].
    - intros t Ht. apply (Permutation_in _ (perm _)) in Ht. now apply (terms_in n nodes edges len) in Ht.
    - exact E1.
    - rewrite conj_cis. replace (- (2 * PI * bias i))%R with (- 2 * PI * bias i)%R by ring. exact E2.
    - rewrite (tsum_perm _ _ x (perm _)), tsum_flux in K1, K2. rewrite conj_cis in K2. rewrite <- cis_add in K1, K2. rewrite RtoC_plus. apply ev_plus; [easy|].
      replace (RtoC (- amp i * cos (2 * PI * (branch_flux nodes edges x i + bias i)))) with
        (RtoC (- (1 / 2) * amp i) * (cis (2 * PI * bias i + 2 * PI * branch_flux nodes edges x i) + cis (- (2 * PI * bias i) + - (2 * PI * branch_flux nodes edges x i))))%C.
      + apply ev_sc, ev_plus; easy.
      + rewrite <- Ropp_plus_distr, cis_sum, <- RtoC_mult. f_equal.
        replace (2 * PI * bias i + 2 * PI * branch_flux nodes edges x i)%R with (2 * PI * (branch_flux nodes edges x i + bias i))%R by ring. field.
  Qed.
End Cos.
(** the classical function *)
Lemma classical_eq nodes edges h phi b nb : classical_potential nodes edges h phi b nb =
  (fold_right Rplus 0 (map (fun i => h_Ej h * h_J h i * cos (2 * PI * (branch_flux nodes edges phi i + b i))) (seq 0 (List.length edges))) +
   h_El h / 2 * @sumn R_rng (List.length nodes) (fun i => @sumn R_rng (List.length nodes) (fun j => (phi i + nb i) * h_Linv h i j * (phi j + nb j))))%R.
Proof.
  unfold classical_potential. f_equal.
  - assert (G : forall l s, fold_left (fun r i => (r + h_Ej h * h_J h i * cos (2 * PI * (branch_flux nodes edges phi i + b i)))%R) l s =
      (s + fold_right Rplus 0 (map (fun i => h_Ej h * h_J h i * cos (2 * PI * (branch_flux nodes edges phi i + b i))) l))%R).
    { induction l as [|i l IH]; intros s; cbn [fold_left map fold_right]; [ring|]. rewrite IH. ring. }
    rewrite G. ring.
  - match goal with |- ?a = (?c * ?s)%R => change (a = @kmul R_rng c s) end. rewrite (@sumn_mul_l R_rng). apply (@sumn_ext R_rng). intros i _. rewrite (@sumn_mul_l R_rng). apply (@sumn_ext R_rng). intros j _.
    match goal with |- @eq _ ?a ?b => change (@eq R a b) end. cbn [kmul R_rng]. field.
Qed.
