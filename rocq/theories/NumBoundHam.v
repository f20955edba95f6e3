(** The Hamiltonian as a function of the amplitudes and phases of the branches,
    for C128. *)
From Coq Require Import List Bool Arith Lia ZArith Reals Lra Setoid Morphisms Permutation.
From Coquelicot Require Import Complex.
From Verif Require Import Prelude PreludeFacts Sweep SweepProofs SweepResultProofs Mat MatFacts Util UtilProofs Graph Symbolic SymbolicInv NumOp NumOpSpec NumKron NumSpectral NumCharge NumExpand NumHerm NumSymSpec NumTruncSpec NumTruncLevels NumBound.
Import ListNotations.
Open Scope nat_scope.

(** ** the operators of one node *)
Lemma bounded_shrink n A (g : nat -> R) : (forall i, i < n -> (0 <= g i <= 1)%R) -> same n (mm n (mdag A) A) (cdiag (fun i => RtoC (g i))) -> bounded n A 1.
Proof.
  intros G H. apply bounded_app; [lra|]. intros v. apply nsq_eq_le; [lra|]. replace (1 * 1 * nsq n v)%R with (nsq n v) by ring.
  assert (X : nsq n (app n A v) = RS n (fun i => (g i * sq (v i))%R)).
  { apply RtoC_inj. rewrite <- inner_self, <- S_R. transitivity (inner n v (app n (mm n (mdag A) A) v)).
    - unfold inner, app, mm, mmul. transitivity (S n (fun i => S n (fun k => S n (fun l => (Cconj (v k) * (Cconj (A i k) * A i l) * v l)%C)))).
      { apply S_ext. intros i _. rewrite conj_sum, S_r. apply S_ext. intros k _. rewrite S_l. apply S_ext. intros l _. rewrite conj_mult. ring. }
      rewrite S_swap. apply S_ext. intros k _. rewrite S_swap, S_l. apply S_ext. intros l _. rewrite S_r, S_l. apply S_ext. intros i _. unfold mdag. cbn [kmul C_rng]. ring.
    - unfold inner. apply S_ext. intros i Hi. rewrite (app_ext n _ _ v i Hi H). unfold app. rewrite (S_single n i); auto.
      + unfold cdiag. rewrite Nat.eqb_refl, RtoC_mult, <- sq_C. cring.
      + intros k _ N. unfold cdiag. destruct (Nat.eqb_spec i k); [congruence|]. cring. }
  rewrite X. unfold nsq. apply RS_le. intros i Hi. specialize (G i Hi). pose proof (sq_pos (v i)). nra.
Qed.
Lemma bounded_shift t n : bounded n (shift t) 1 /\ bounded n (mdag (shift t)) 1.
Proof.
  split.
  - apply (bounded_shrink n _ (fun k => if Nat.eqb k 0 then 0%R else 1%R)); [intros i _; destruct (Nat.eqb i 0); lra|].
    intros k l Hk Hl. unfold mm, mmul. cbn [kmul C_rng]. unfold cdiag, mdag, shift. destruct (Nat.eqb_spec k l) as [->|N].
    + destruct (Nat.eqb_spec l 0) as [->|Z]; [apply S_0; intros i _; destruct (Nat.eqb_spec 0 (i + 1)); [lia|]; cbn [kmul C_rng]; rewrite conj_R; cring|].
      etransitivity; [apply (S_single n (l - 1)); [lia|]|].
      * intros i _ Ni. destruct (Nat.eqb_spec l (i + 1)); [lia|]. cring.
      * cbv beta. destruct (Nat.eqb_spec l (l - 1 + 1)); [|lia]. rewrite conj_R. cring.
    + apply S_0. intros i _. destruct (Nat.eqb_spec k (i + 1)), (Nat.eqb_spec l (i + 1)); try lia; rewrite conj_R; cring.
  - apply (bounded_shrink n _ (fun k => if Nat.ltb (k + 1) n then 1%R else 0%R)); [intros i _; destruct (Nat.ltb (i + 1) n); lra|].
    intros k l Hk Hl. unfold mm, mmul. cbn [kmul C_rng]. unfold cdiag, mdag, shift. destruct (Nat.eqb_spec k l) as [->|N].
    + destruct (Nat.ltb_spec (l + 1) n) as [L|L].
      * etransitivity; [apply (S_single n (l + 1)); [lia|]|].
        -- intros i _ Ni. destruct (Nat.eqb_spec i (l + 1)); [lia|]. rewrite !conj_R. cring.
        -- cbv beta. rewrite Nat.eqb_refl, !conj_R. cring.
      * apply S_0. intros i Hi. destruct (Nat.eqb_spec i (l + 1)); [lia|]. rewrite !conj_R. cring.
    + apply S_0. intros i _. destruct (Nat.eqb_spec i (k + 1)), (Nat.eqb_spec i (l + 1)); try lia; rewrite !conj_R; cring.
Qed.
Lemma mdag_cdiag n f : same n (mdag (cdiag f)) (cdiag (fun k => Cconj (f k))).
Proof. intros i j _ _. unfold mdag, cdiag. rewrite Nat.eqb_sym. destruct (Nat.eqb_spec i j) as [->|]; [easy | apply conj_R]. Qed.
Lemma matfun_unitary eigh inv n A : herm n A -> right_on eigh inv n A -> bounded n (matfun eigh inv n cis A) 1 /\ bounded n (mdag (matfun eigh inv n cis A)) 1.
Proof.
  unfold right_on, matfun. destruct (eigh n A) as [E V]. cbn [fst snd]. set (W := inv n V). intros HA HE. pose proof HE as HE1. destruct HE1 as (H1 & H2 & H3). rewrite !mul_same in H1, H2, H3. rewrite mul_same in H1. change identity with eye in *. change (diagonal (fun k => RtoC (E k))) with (cdiag (fun k => RtoC (E k))) in H1.
  assert (ED : same n (mdag eye) eye) by (intros i j _ _; apply mdag_eye).
  assert (MD : forall X Y, same n X Y -> same n (mdag X) (mdag Y)) by (intros X Y HXY i j Hi Hj; unfold mdag; now rewrite (HXY j i Hj Hi)).
  assert (K1 : same n (mm n (mdag W) (mdag V)) eye) by (rewrite <- mdag_mul; rewrite (MD _ _ H2); exact ED).
  assert (K2 : same n (mm n (mdag V) (mdag W)) eye) by (rewrite <- mdag_mul; rewrite (MD _ _ H3); exact ED).
  assert (X : same n (mm n W A) (mm n (cdiag (fun k => RtoC (E k))) W)).
  { rewrite <- (mm_1r n (mm n W A)), <- H2, mmA, <- (mmA n A V W), H1, (mmA n V), <- (mmA n W V), H3, mm_1l. reflexivity. }
  assert (K3 : same n (mm n A (mdag W)) (mm n (mdag W) (cdiag (fun k => RtoC (E k))))).
  { apply MD in X. rewrite !mdag_mul, mdag_cdiag in X. assert (Y : same n (cdiag (fun k => Cconj (RtoC (E k)))) (cdiag (fun k => RtoC (E k)))) by (intros i j _ _; unfold cdiag; destruct (Nat.eqb i j); [apply conj_R | easy]). rewrite Y in X. unfold herm in HA. rewrite HA in X. exact X. }
  assert (K : eigen_ok n A E (mdag W) (mdag V)).
  { split; [|split]; rewrite !mul_same; [rewrite ?mul_same; exact K3 | exact K1 | exact K2]. }
  set (D := mm n (mm n V (cdiag (fun k => cis (E k)))) W).
  assert (HD : same n (mdag D) (mm n (mm n V (cdiag (fun k => Cconj (cis (E k))))) W)).
  { rewrite (spectral_unique n A E V W E (mdag W) (mdag V) (fun e => Cconj (cis e)) HE K). unfold D. rewrite !mdag_mul, mdag_cdiag, mmA. reflexivity. }
  assert (CC : forall e, (Cconj (cis e) * cis e)%C = RtoC 1) by (intros e; rewrite conj_cis, Cmult_comm; apply cis_neg_inv).
  assert (P : forall f g : nat -> C, (forall k, (f k * g k)%C = RtoC 1) -> same n (mm n (mm n (mm n V (cdiag f)) W) (mm n (mm n V (cdiag g)) W)) eye).
  { intros f g FG. rewrite (mmA n (mm n V (cdiag f)) W), <- (mmA n W (mm n V (cdiag g)) W), <- (mmA n W V (cdiag g)), H3, mm_1l, (mmA n V (cdiag f)), <- (mmA n (cdiag f) (cdiag g) W).
    assert (Q : same n (mm n (cdiag f) (cdiag g)) eye). { intros i j Hi Hj. rewrite mm_cdiag_l by easy. unfold cdiag, eye. destruct (Nat.eqb i j); [apply FG | ring]. }
    rewrite Q, mm_1l. exact H2. }
  split; apply bounded_isometry.
  - rewrite HD. apply P. intros; apply CC.
  - rewrite mdag_mdag. rewrite HD. apply P. intros; rewrite Cmult_comm; apply CC.
Qed.
Lemma herm_scaled n k A f : herm n A -> herm n (fun i j => (RtoC k * A i j / RtoC f)%C).
Proof.
  intros H. assert (D : exists r : R, (/ RtoC f)%C = RtoC r). { destruct (Req_EM_T f 0) as [->|N]; [exists 0%R; apply injective_projections; cbn; unfold Rdiv; ring | exists (/ f)%R; now rewrite RtoC_inv]. }
  destruct D as (r & Hr). apply (herm_ext n (msc (RtoC (k * r)) A)); [|now apply herm_sc]. intros i j _ _. unfold msc, Cdiv. rewrite Hr, RtoC_mult. ring.
Qed.
(** the displacement operators of a node, up to rounding *)
Definition fac (d : opdata) : R := match od_basis d with BOscillator => (1 + 2 * INR (od_trunc d) / 10 ^ 12)%R | _ => 1%R end.
Definition contracts (o : ops) (c : R) : Prop := bounded (o_dim o) (oD o) c /\ bounded (o_dim o) (oDd o) c /\ bounded (o_dim o) (oS o) c /\ bounded (o_dim o) (oSd o) c.
Lemma fac_1 d : (1 <= fac d)%R.
Proof. unfold fac. destruct (od_basis d); try lra. pose proof (pos_INR (od_trunc d)). assert (0 <= 2 * INR (od_trunc d) / 10 ^ 12)%R by (apply Rmult_le_pos; [lra | apply Rlt_le, Rinv_0_lt_compat; lra]). lra. Qed.
Lemma node_contracts eigh inv z ka kb pmax chg flx m d o : solved eigh inv z ka kb chg flx m d -> getOperatorList eigh inv z ka kb pmax chg flx m d = Ok o -> contracts o (fac d).
Proof.
  unfold solved, getOperatorList, fac. destruct (od_basis d); try easy.
  - intros H E. injection E as <-. set (t := od_trunc d) in *. destruct (charge_oD eigh inv t H) as [D1 D2]. unfold contracts. cbn [o_dim charge_basis]. destruct (bounded_shift t (2 * t + 1)) as [B1 B2].
    split; [exact (bounded_ext _ _ _ _ (symmetry D1) B1)|]. split; [exact (bounded_ext _ _ _ _ (symmetry D2) B2)|].
    split; apply (bounded_ext _ eye); try apply bounded_eye; intros i j _ _; symmetry; apply charge_oS.
  - intros [HP HQ] E. injection E as <-. set (t := od_trunc d) in *. unfold contracts. cbn [o_dim oscillator_basis oD oDd oS oSd].
    destruct (matfun_unitary eigh inv t _ (herm_scaled t (ka m) _ flx (herm_oscP t (z m) flx)) HP) as [A1 A2]. destruct (matfun_unitary eigh inv t _ (herm_scaled t (kb m) _ chg (herm_oscQ t (z m) chg)) HQ) as [B1 B2].
    replace (1 + 2 * INR t / 10 ^ 12)%R with (1 + INR t * (2 * atol))%R by (unfold atol, Rdiv; ring).
    split; [|split; [|split]]; apply bounded_tidy; assumption.
Qed.

(** ** the sum over the branches *)
Definition prodm (N : nat) (l : list cmat) : cmat := match l with [] => eye | A :: r => fold_left (mm N) r A end.
Lemma Forall2_refl n (l : list cmat) : Forall2 (same n) l l.
Proof. induction l; constructor; [reflexivity | easy]. Qed.
Lemma fold_scale N z r : forall A, same N (fold_left (mm N) r (msc z A)) (msc z (fold_left (mm N) r A)).
Proof.
  induction r as [|B r IH]; intros A; cbn [fold_left]; [reflexivity|]. rewrite <- IH. apply fold_ext; [apply Forall2_refl|]. intros i j _ _. apply mm_sc_l.
Qed.
Lemma product_val N z l p : product N z l = Ok p -> same N p (msc z (prodm N l)).
Proof. destruct l as [|A r]; [discriminate|]. cbn [product prodm]. intros E. injection E as <-. apply fold_scale. Qed.
Definition prods (c : nat -> R) (l : list nat) : R := fold_right (fun k r => (c k * r)%R) 1%R l.
Lemma fold_bound N (P : nat * bool -> cmat) c ts : (forall t, In t ts -> bounded N (P t) (c (fst t))) -> forall A a, bounded N A a -> bounded N (fold_left (mm N) (map P ts) A) (a * prods c (map fst ts)).
Proof.
  induction ts as [|t ts IH]; intros H A a HA; cbn [map fold_left prods fold_right]; [now rewrite Rmult_1_r|]. fold (prods c (map fst ts)). rewrite <- Rmult_assoc. apply IH; [intros; apply H; now right|]. apply bounded_mm; [easy | apply H; now left].
Qed.
Lemma prodm_bound N (P : nat * bool -> cmat) c ts : (forall t, In t ts -> bounded N (P t) (c (fst t))) -> bounded N (prodm N (map P ts)) (prods c (map fst ts)).
Proof. destruct ts as [|t ts]; intros H; cbn [map prodm]; [apply bounded_eye|]. apply fold_bound; [intros; apply H; now right | apply H; now left]. Qed.
Lemma prods_perm c l l' : Permutation l l' -> prods c l = prods c l'.
Proof. induction 1; cbn [prods fold_right] in *; fold (prods c) in *; unfold prods in *; [reflexivity | now rewrite IHPermutation | ring | congruence]. Qed.
Lemma prods_1 c l : (forall k, In k l -> (1 <= c k)%R) -> (1 <= prods c l)%R.
Proof. induction l as [|k l IH]; intros H; cbn [prods fold_right]; [lra|]. fold (prods c l). pose proof (H k (or_introl eq_refl)). assert (1 <= prods c l)%R by (apply IH; intros; apply H; now right). nra. Qed.
Lemma prods_terms c nodes edges i : (forall k, k < List.length nodes -> (1 <= c k)%R) -> (prods c (map fst (branch_terms nodes edges i)) <= prods c (seq 0 (List.length nodes)))%R.
Proof.
  intros H. unfold branch_terms. assert (K : forall k, In k (seq 0 (List.length nodes)) -> (1 <= c k)%R) by (intros k Hk; apply in_seq in Hk; apply H; lia). revert K. generalize (seq 0 (List.length nodes)). induction l as [|k l IH]; intros K; cbn [flat_map map]; [lra|].
  rewrite map_app. assert (L := IH (fun x Hx => K x (or_intror Hx))). assert (P := prods_1 c l (fun x Hx => K x (or_intror Hx))). pose proof (K k (or_introl eq_refl)) as Ck.
  assert (Q : forall x, (prods c x <= prods c l)%R -> (c k * prods c x <= c k * prods c l)%R) by (intros; apply Rmult_le_compat_l; lra).
  change (prods c (k :: l)) with (c k * prods c l)%R. destruct (rbn nodes edges k i); cbn [map app fst]; try (apply Q; exact L); (eapply Rle_trans; [exact L|]; nra).
Qed.
Section Cosine.
  Variables (N : nat) (argord : list (nat * bool) -> list (nat * bool)) (nodes : list nat) (edges : list edge) (X Xd : nat -> cmat) (c : nat -> R).
  Hypothesis perm : forall l, Permutation (argord l) l.
  Hypothesis HX : forall k, k < List.length nodes -> bounded N (X k) (c k) /\ bounded N (Xd k) (c k) /\ (1 <= c k)%R.
  Let G := prods c (seq 0 (List.length nodes)).
  Definition zeta (a b : R) : C := (RtoC a * cis (2 * PI * b))%C.
  Definition step (amp bias : nat -> R) (H : cmat) (i : nat) : res cmat :=
    if Req_EM_T (amp i) 0 then Ok H else
    let ts := argord (branch_terms nodes edges i) in
    bind (product N (cis (2 * PI * bias i)) (map (fun t : nat * bool => if snd t then X (fst t) else Xd (fst t)) ts)) (fun p1 =>
    bind (product N (cis (- 2 * PI * bias i)) (map (fun t : nat * bool => if snd t then Xd (fst t) else X (fst t)) ts)) (fun p2 =>
    Ok (mplus H (msc (RtoC (- (1 / 2) * amp i)) (mplus p1 p2))))).
  Definition T1 (i : nat) : cmat := prodm N (map (fun t : nat * bool => if snd t then X (fst t) else Xd (fst t)) (argord (branch_terms nodes edges i))).
  Definition T2 (i : nat) : cmat := prodm N (map (fun t : nat * bool => if snd t then Xd (fst t) else X (fst t)) (argord (branch_terms nodes edges i))).
  Definition cosine (s : C) (i : nat) : cmat := msc (RtoC (- (1 / 2))) (mplus (msc s (T1 i)) (msc (Cconj s) (T2 i))).
  Lemma step_val amp bias H i H1 : step amp bias H i = Ok H1 -> same N H1 (mplus H (cosine (zeta (amp i) (bias i)) i)).
  Proof.
    unfold step. destruct (Req_EM_T (amp i) 0) as [->|NZ].
    - intros E. injection E as <-. intros r q _ _. unfold mplus, cosine, msc, zeta. replace (RtoC 0 * cis (2 * PI * bias i))%C with (RtoC 0) by ring. rewrite conj_R. unfold mplus. ring.
    - destruct (product N (cis (2 * PI * bias i)) _) as [p1|] eqn:E1; [|discriminate]. cbn [bind]. destruct (product N (cis (- 2 * PI * bias i)) _) as [p2|] eqn:E2; [|discriminate]. cbn [bind]. intros E. injection E as <-.
      apply product_val in E1, E2. fold (T1 i) in E1. fold (T2 i) in E2. intros r q Hr Hq. unfold mplus, cosine, msc. unfold mplus. rewrite (E1 r q Hr Hq), (E2 r q Hr Hq). unfold msc, zeta. rewrite conj_mult, conj_R, conj_cis. replace (- (2 * PI * bias i))%R with (- 2 * PI * bias i)%R by ring. rewrite RtoC_mult. ring.
  Qed.
  Lemma terms_bound i : bounded N (T1 i) G /\ bounded N (T2 i) G.
  Proof.
    assert (L : (prods c (map fst (argord (branch_terms nodes edges i))) <= G)%R).
    { rewrite (prods_perm c _ (map fst (branch_terms nodes edges i))) by (apply Permutation_map, perm). apply prods_terms. intros k Hk. now apply HX. }
    assert (I : forall t, In t (argord (branch_terms nodes edges i)) -> fst t < List.length nodes).
    { intros t Ht. apply (Permutation_in _ (perm _)) in Ht. now apply (terms_in (List.length nodes) nodes edges eq_refl) in Ht. }
    split; eapply bounded_le; try exact L; apply prodm_bound; intros t Ht; destruct (HX (fst t) (I t Ht)) as (B1 & B2 & _); destruct (snd t); assumption.
  Qed.
  Lemma cosine_bound s s' i : bounded N (mminus (cosine s' i) (cosine s i)) (G * Cmod (s' - s)%C).
  Proof.
    destruct (terms_bound i) as [B1 B2]. apply (bounded_ext N (msc (RtoC (- (1 / 2))) (mplus (msc (s' - s)%C (T1 i)) (msc (Cconj (s' - s)%C) (T2 i))))).
    - intros r q _ _. unfold mminus, cosine, msc, mplus, Cminus. rewrite conj_plus. replace (Cconj (- s)%C) with (- Cconj s)%C by (apply injective_projections; cbn; ring). ring.
    - eapply bounded_le; [|apply bounded_sc, bounded_plus; apply bounded_sc; [exact B1 | exact B2]]. rewrite Cmod_conj, Cmod_R. unfold Rabs. destruct (Rcase_abs _); lra.
  Qed.
  Definition Rs (l : list nat) (f : nat -> R) : R := fold_right (fun i r => (f i + r)%R) 0%R l.
  Lemma steps_diff amp bias amp' bias' l : forall H0 H0' d H H', bounded N (mminus H0' H0) d -> foldM (step amp bias) l H0 = Ok H -> foldM (step amp' bias') l H0' = Ok H' ->
    bounded N (mminus H' H) (d + G * Rs l (fun i => Cmod (zeta (amp' i) (bias' i) - zeta (amp i) (bias i))%C)).
  Proof.
    induction l as [|i l IH]; intros H0 H0' d H H' B; cbn [foldM Rs fold_right].
    - intros E E'. injection E as <-. injection E' as <-. rewrite Rmult_0_r, Rplus_0_r. exact B.
    - destruct (step amp bias H0 i) as [H1|] eqn:E1; [|discriminate]. destruct (step amp' bias' H0' i) as [H1'|] eqn:E1'; [|discriminate]. cbn [bind]. intros E E'. fold (Rs l (fun i => Cmod (zeta (amp' i) (bias' i) - zeta (amp i) (bias i))%C)).
      rewrite Rmult_plus_distr_l, <- Rplus_assoc. apply (IH H1 H1'); auto. apply step_val in E1, E1'.
      apply (bounded_ext N (mplus (mminus H0' H0) (mminus (cosine (zeta (amp' i) (bias' i)) i) (cosine (zeta (amp i) (bias i)) i)))).
      + intros r q Hr Hq. unfold mminus. rewrite (E1 r q Hr Hq), (E1' r q Hr Hq). unfold mplus. ring.
      + apply bounded_plus; [exact B | apply cosine_bound].
  Qed.
  Lemma part_diff amp bias amp' bias' H H' : cosine_part N argord nodes edges amp bias X Xd = Ok H -> cosine_part N argord nodes edges amp' bias' X Xd = Ok H' ->
    bounded N (mminus H' H) (G * Rs (seq 0 (List.length edges)) (fun i => Cmod (zeta (amp' i) (bias' i) - zeta (amp i) (bias i))%C)).
  Proof.
    intros E E'. replace (G * _)%R with (0 + G * Rs (seq 0 (List.length edges)) (fun i => Cmod (zeta (amp' i) (bias' i) - zeta (amp i) (bias i))%C))%R by ring.
    apply (steps_diff amp bias amp' bias' (seq 0 (List.length edges)) mzero mzero); auto. apply (bounded_ext N mzero); [|apply bounded_zero]. intros r q _ _. unfold mminus, mzero. ring.
  Qed.
  Lemma part_none bias : cosine_part N argord nodes edges (fun _ => 0%R) bias X Xd = Ok mzero.
  Proof. unfold cosine_part. induction (seq 0 (List.length edges)) as [|i l IH]; [reflexivity|]. cbn [foldM]. destruct (Req_EM_T 0 0) as [_|]; [exact IH | lra]. Qed.
End Cosine.
