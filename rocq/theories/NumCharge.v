(** The charge basis: flux states are orthonormal, the Josephson displacement
    is the truncated raising operator. *)
From Coq Require Import List Bool Arith Lia ZArith Reals Lra Setoid Morphisms.
From Coquelicot Require Import Complex.
From Verif Require Import Prelude Mat MatFacts Util NumOp NumOpSpec NumKron NumSpectral.
Import ListNotations.
Open Scope nat_scope.

Lemma qm_eq t a : qm t a = (INR a - INR t)%R.
Proof. unfold qm. now rewrite minus_IZR, <- !INR_IZR_INZ. Qed.
Lemma dft_sum t (d : Z) : (Z.abs d < Z.of_nat (2 * t + 1))%Z ->
  @sumn C_rng (2 * t + 1) (fun a => cis (2 * PI * qm t a * IZR d / INR (2 * t + 1))) = if Z.eqb d 0 then RtoC (INR (2 * t + 1)) else RtoC 0.
Proof.
  intros H. assert (HN : (0 < INR (2 * t + 1))%R) by (apply lt_0_INR; lia). set (N := 2 * t + 1) in *.
  rewrite (@sumn_ext C_rng N _ (fun a => @kmul C_rng (cis (- INR t * (2 * PI * IZR d / INR N))) (cis (INR a * (2 * PI * IZR d / INR N))))).
  - rewrite <- (@sumn_mul_l C_rng). destruct (Z.eqb_spec d 0) as [->|Nd].
    + rewrite (@sumn_ext C_rng N _ (fun _ => RtoC 1)).
      * rewrite sumn_const_1. unfold Rdiv. rewrite !Rmult_0_r, Rmult_0_l, Rmult_0_r, cis_0. apply Cmult_1_l.
      * intros i _. unfold Rdiv. rewrite !Rmult_0_r, Rmult_0_l, Rmult_0_r. apply cis_0.
    + rewrite roots_sum by lia. apply Cmult_0_r.
  - intros a _. change (cis (2 * PI * qm t a * IZR d / INR N) = (cis (- INR t * (2 * PI * IZR d / INR N)) * cis (INR a * (2 * PI * IZR d / INR N)))%C).
    rewrite <- cis_add. f_equal. rewrite qm_eq. field. lra.
Qed.
Lemma dft_sum_full t : @sumn C_rng (2 * t + 1) (fun a => cis (2 * PI * qm t a * IZR (- Z.of_nat (2 * t + 1)) / INR (2 * t + 1))) = RtoC (INR (2 * t + 1)).
Proof.
  assert (HN : (0 < INR (2 * t + 1))%R) by (apply lt_0_INR; lia). rewrite (@sumn_ext C_rng _ _ (fun _ => RtoC 1)); [apply sumn_const_1|].
  intros a _. rewrite <- (cis_2PI_Z (- (Z.of_nat a - Z.of_nat t))). f_equal. rewrite !opp_IZR, <- INR_IZR_INZ. unfold qm. field. lra.
Qed.

Lemma phik_at t a m : m <= 2 * t -> phik t a m = (RtoC (sqrt (1 / INR (2 * t + 1))) * cis (2 * PI * qm t a * IZR (Z.of_nat t - Z.of_nat m) / INR (2 * t + 1)))%C.
Proof.
  intros H. unfold phik. rewrite (@sumn_single C_rng _ (2 * t - m)); [|lia|].
  - unfold seig, basis. replace (2 * t - (2 * t - m)) with m by lia. rewrite Nat.eqb_refl, Cmult_1_r.
    unfold qm at 2. replace (Z.of_nat (2 * t - m) - Z.of_nat t)%Z with (Z.of_nat t - Z.of_nat m)%Z by lia. reflexivity.
  - intros j Hj Nj. unfold seig, basis. destruct (Nat.eqb_spec m (2 * t - j)); [lia|]. apply Cmult_0_r.
Qed.
Lemma sqrt_inv_sq N : (0 < INR N)%R -> (RtoC (sqrt (1 / INR N)) * RtoC (sqrt (1 / INR N)))%C = RtoC (/ INR N).
Proof.
  intros H. rewrite <- RtoC_mult, sqrt_sqrt; [f_equal; field; lra|]. left. apply Rdiv_lt_0_compat; lra.
Qed.
Lemma phik_prod t a m m' : m <= 2 * t -> m' <= 2 * t ->
  (phik t a m * Cconj (phik t a m'))%C = (RtoC (/ INR (2 * t + 1)) * cis (2 * PI * qm t a * IZR (Z.of_nat m' - Z.of_nat m) / INR (2 * t + 1)))%C.
Proof.
  intros H H'. assert (HN : (0 < INR (2 * t + 1))%R) by (apply lt_0_INR; lia).
  rewrite !phik_at, conj_mult, conj_R, conj_cis by easy. rewrite <- sqrt_inv_sq by easy.
  match goal with |- ((?s * ?x) * (?s * ?y))%C = (?s * ?s * ?z)%C => assert (E : (x * y)%C = z); [|rewrite <- E; ring] end.
  rewrite <- cis_add. f_equal. rewrite !minus_IZR. field. lra.
Qed.
Lemma phik_prod' t a b m : m <= 2 * t ->
  (Cconj (phik t a m) * phik t b m)%C = (RtoC (/ INR (2 * t + 1)) * cis (2 * PI * qm t m * IZR (Z.of_nat a - Z.of_nat b) / INR (2 * t + 1)))%C.
Proof.
  intros H. assert (HN : (0 < INR (2 * t + 1))%R) by (apply lt_0_INR; lia).
  rewrite !phik_at, conj_mult, conj_R, conj_cis by easy. rewrite <- sqrt_inv_sq by easy.
  match goal with |- ((?s * ?x) * (?s * ?y))%C = (?s * ?s * ?z)%C => assert (E : (x * y)%C = z); [|rewrite <- E; ring] end.
  rewrite <- cis_add. f_equal. unfold qm. rewrite !minus_IZR. field. lra.
Qed.

Definition Phi (t : nat) : cmat := fun m a => phik t a m.
Definition lam (t a : nat) : R := (qm t a / INR (2 * t + 1))%R.
Lemma Phi_right t : same (2 * t + 1) (mm (2 * t + 1) (Phi t) (mdag (Phi t))) eye.
Proof.
  intros m m' Hm Hm'. assert (HN : (0 < INR (2 * t + 1))%R) by (apply lt_0_INR; lia). unfold mm, mmul, Phi, mdag.
  rewrite (@sumn_ext C_rng _ _ (fun a => @kmul C_rng (RtoC (/ INR (2 * t + 1))) (cis (2 * PI * qm t a * IZR (Z.of_nat m' - Z.of_nat m) / INR (2 * t + 1)))))
    by (intros a _; apply phik_prod; lia).
  rewrite <- (@sumn_mul_l C_rng), dft_sum by lia. unfold eye. cbn [kmul C_rng].
  destruct (Nat.eqb_spec m m') as [->|N]; [rewrite Z.sub_diag, Z.eqb_refl, <- RtoC_mult; f_equal; field; lra|].
  destruct (Z.eqb_spec (Z.of_nat m' - Z.of_nat m) 0); [lia|]. apply Cmult_0_r.
Qed.
Lemma Phi_left t : same (2 * t + 1) (mm (2 * t + 1) (mdag (Phi t)) (Phi t)) eye.
Proof.
  intros a b Ha Hb. assert (HN : (0 < INR (2 * t + 1))%R) by (apply lt_0_INR; lia). unfold mm, mmul, Phi, mdag.
  rewrite (@sumn_ext C_rng _ _ (fun m => @kmul C_rng (RtoC (/ INR (2 * t + 1))) (cis (2 * PI * qm t m * IZR (Z.of_nat a - Z.of_nat b) / INR (2 * t + 1)))))
    by (intros m Hm; apply phik_prod'; lia).
  rewrite <- (@sumn_mul_l C_rng), dft_sum by lia. unfold eye. cbn [kmul C_rng].
  destruct (Nat.eqb_spec a b) as [->|N]; [rewrite Z.sub_diag, Z.eqb_refl, <- RtoC_mult; f_equal; field; lra|].
  destruct (Z.eqb_spec (Z.of_nat a - Z.of_nat b) 0); [lia|]. apply Cmult_0_r.
Qed.
Lemma chargeP_spec t : same (2 * t + 1) (chargeP t) (mm (2 * t + 1) (mm (2 * t + 1) (Phi t) (cdiag (fun k => RtoC (lam t k)))) (mdag (Phi t))).
Proof.
  intros i j Hi Hj. unfold chargeP. unfold mm at 1, mmul. apply (@sumn_ext C_rng). intros a Ha.
  match goal with |- _ = @kmul C_rng ?x ?y => change (@kmul C_rng x y) with (x * y)%C end.
  change (@mmul C_rng (2 * t + 1) (Phi t) (cdiag (fun k => RtoC (lam t k))) i a) with (mm (2 * t + 1) (Phi t) (cdiag (fun k => RtoC (lam t k))) i a).
  rewrite mm_cdiag_r by easy. unfold ketbra, Phi, mdag, lam. match goal with |- @eq _ ?a ?b => change (@eq C a b) end. ring.
Qed.
Lemma chargeP_eigen t : eigen_ok (2 * t + 1) (chargeP t) (lam t) (Phi t) (mdag (Phi t)).
Proof.
  unfold eigen_ok. rewrite !mul_same. split; [|split]; [| apply Phi_right | apply Phi_left].
  change (diagonal (fun k => RtoC (lam t k))) with (cdiag (fun k => RtoC (lam t k))).
  rewrite chargeP_spec, (mmA _ _ (mdag (Phi t)) (Phi t)), Phi_left, mm_1r. reflexivity.
Qed.

Definition shift (t : nat) : cmat := fun i j => if Nat.eqb j (i + 1) then RtoC 1 else RtoC 0.
Lemma matfun_charge eigh inv t (f : R -> C) : let N := 2 * t + 1 in
  eigen_ok N (chargeP t) (fst (eigh N (chargeP t))) (snd (eigh N (chargeP t))) (inv N (snd (eigh N (chargeP t)))) ->
  same N (matfun eigh inv N f (chargeP t)) (fun i j => @sumn C_rng N (fun a => (f (lam t a) * (phik t a i * Cconj (phik t a j)))%C)).
Proof.
  intros N H. unfold matfun. destruct (eigh N (chargeP t)) as [E V]. cbn [fst snd] in H.
  rewrite (spectral_unique N _ _ _ _ _ _ _ f H (chargeP_eigen t)). intros i j Hi Hj. unfold mm at 1, mmul. apply (@sumn_ext C_rng).
  intros a Ha. change (@mmul C_rng N (Phi t) (cdiag (fun k => f (lam t k))) i a) with (mm N (Phi t) (cdiag (fun k => f (lam t k))) i a).
  match goal with |- @kmul C_rng ?x ?y = _ => change (@kmul C_rng x y) with (x * y)%C end.
  rewrite mm_cdiag_r by easy. unfold Phi, mdag. match goal with |- @eq _ ?a ?b => change (@eq C a b) end. ring.
Qed.
Lemma charge_D eigh inv t : let N := 2 * t + 1 in
  eigen_ok N (chargeP t) (fst (eigh N (chargeP t))) (snd (eigh N (chargeP t))) (inv N (snd (eigh N (chargeP t)))) ->
  same N (mminus (matfun eigh inv N (fun e => cis (- 2 * PI * e)) (chargeP t)) (corner t)) (shift t).
Proof.
  intros N H. assert (HN : (0 < INR N)%R) by (apply lt_0_INR; unfold N; lia). pose proof (matfun_charge eigh inv t (fun e => cis (- 2 * PI * e)) H) as M. cbv zeta in M. fold N in M. rewrite M. clear M. intros m m' Hm Hm'. unfold mminus. fold N.
  rewrite (@sumn_ext C_rng N _ (fun a => @kmul C_rng (RtoC (/ INR N)) (cis (2 * PI * qm t a * IZR (Z.of_nat m' - Z.of_nat m - 1) / INR N)))).
  2: { intros a _. rewrite phik_prod by (unfold N in *; lia). fold N. unfold lam. fold N. cbn [kmul C_rng]. match goal with |- @eq _ ?a ?b => change (@eq C a b) end.
       match goal with |- (?x * (?s * ?y))%C = (?s * ?z)%C => assert (E : (x * y)%C = z); [|rewrite <- E; ring] end.
       rewrite <- cis_add. f_equal. rewrite !minus_IZR. field. lra. }
  rewrite <- (@sumn_mul_l C_rng). cbn [kmul C_rng]. unfold corner, ketbra, basis, shift.
  destruct (Z.eqb_spec (Z.of_nat m' - Z.of_nat m - 1) (- Z.of_nat N)) as [E|E].
  - rewrite E. unfold N at 2 3 4. rewrite dft_sum_full. fold N.
    destruct (Nat.eqb_spec m (2 * t)); [|unfold N in *; lia]. destruct (Nat.eqb_spec m' 0); [|unfold N in *; lia].
    destruct (Nat.eqb_spec m' (m + 1)); [lia|]. rewrite conj_R, <- !RtoC_mult, <- RtoC_minus. f_equal. field. lra.
  - unfold N at 2 3. rewrite dft_sum by (unfold N in *; lia). fold N.
    destruct (Nat.eqb_spec m (2 * t)) as [Em|Em]; destruct (Nat.eqb_spec m' 0) as [Em'|Em']; try (exfalso; unfold N in *; lia);
      destruct (Z.eqb_spec (Z.of_nat m' - Z.of_nat m - 1) 0) as [E0|E0]; destruct (Nat.eqb_spec m' (m + 1)) as [E1|E1]; try (exfalso; lia);
      rewrite conj_R, <- !RtoC_mult, <- RtoC_minus; f_equal; field; lra.
Qed.
(** entries 0 and 1 and integers survive tidyup *)
Lemma atol_small : (0 < atol < 1)%R.
Proof. unfold atol. split; [apply Rinv_0_lt_compat; lra | rewrite <- Rinv_1; apply Rinv_lt_contravar; lra]. Qed.
Lemma sanR_int tol z : (0 < tol < 1)%R -> sanR tol (IZR z) = IZR z.
Proof.
  intros H. unfold sanR. destruct (Rlt_dec (Rabs (IZR z)) tol) as [L|L]; [|easy]. rewrite <- abs_IZR in L.
  assert (IZR (Z.abs z) < IZR 1)%R by (cbn; lra). apply lt_IZR in H0. now assert (z = 0)%Z as -> by lia.
Qed.
Lemma tidy_int A i j z : A i j = RtoC (IZR z) -> tidyup A i j = RtoC (IZR z).
Proof. intros E. unfold tidyup. rewrite E. unfold sanC, RtoC. cbn [fst snd]. rewrite (sanR_int atol z atol_small), (sanR_int atol 0 atol_small). reflexivity. Qed.
Lemma charge_oD eigh inv t : let N := 2 * t + 1 in
  eigen_ok N (chargeP t) (fst (eigh N (chargeP t))) (snd (eigh N (chargeP t))) (inv N (snd (eigh N (chargeP t)))) ->
  same N (oD (charge_basis eigh inv t)) (shift t) /\ same N (oDd (charge_basis eigh inv t)) (mdag (shift t)).
Proof.
  intros N H. pose proof (charge_D eigh inv t H) as E. split; cbn [oD oDd charge_basis]; fold N in E |- *; rewrite E; intros i j _ _.
  - unfold shift. destruct (Nat.eqb j (i + 1)) eqn:Q; [apply (tidy_int _ i j 1) | apply (tidy_int _ i j 0)]; unfold shift; now rewrite Q.
  - unfold mdag, shift. destruct (Nat.eqb i (j + 1)) eqn:Q; rewrite conj_R; [apply (tidy_int _ i j 1) | apply (tidy_int _ i j 0)]; unfold mdag, shift; now rewrite Q, conj_R.
Qed.
Lemma charge_oQ eigh inv t : forall i j, oQ (charge_basis eigh inv t) i j = if Nat.eqb i j then RtoC (IZR (Z.of_nat t - Z.of_nat i)) else RtoC 0.
Proof.
  intros i j. cbn [oQ charge_basis]. destruct (Nat.eqb i j) eqn:Q.
  - apply tidy_int. unfold numQ. rewrite Q. rewrite minus_IZR, <- !INR_IZR_INZ, <- RtoC_opp, <- RtoC_plus. f_equal. ring.
  - apply (tidy_int _ i j 0). unfold numQ. now rewrite Q.
Qed.
Lemma charge_oS eigh inv t : forall i j, oS (charge_basis eigh inv t) i j = eye i j /\ oSd (charge_basis eigh inv t) i j = eye i j.
Proof.
  intros i j. cbn [oS oSd charge_basis].
  assert (E : forall i j, cdiag (fun j0 => cis (- 2 * PI * qeig t j0)) i j = eye i j).
  { intros a b. unfold cdiag, eye. destruct (Nat.eqb a b); [|easy]. unfold qeig. replace (- 2 * PI * IZR (Z.of_nat a - 3 * Z.of_nat t))%R with (2 * PI * IZR (- (Z.of_nat a - 3 * Z.of_nat t)))%R
      by (rewrite opp_IZR; ring). apply cis_2PI_Z. }
  split.
  - unfold eye. destruct (Nat.eqb i j) eqn:Q; [apply (tidy_int _ i j 1) | apply (tidy_int _ i j 0)]; rewrite E; unfold eye; now rewrite Q.
  - unfold eye. rewrite Nat.eqb_sym. destruct (Nat.eqb j i) eqn:Q; [apply (tidy_int _ i j 1) | apply (tidy_int _ i j 0)]; unfold mdag; rewrite E; unfold eye; rewrite Q; apply conj_R.
Qed.
