(** Matrices up to equality of their n x n entries; functions of a
    diagonalisable matrix; roots of unity. *)
From Coq Require Import List Bool Arith Lia ZArith Reals Lra Setoid Morphisms.
From Coquelicot Require Import Complex.
From Verif Require Import Prelude Mat MatFacts Util NumOp NumOpSpec NumKron.
Import ListNotations.
Open Scope nat_scope.

Global Instance same_equiv n : Equivalence (same n).
Proof. split; [easy | intros A B H i j Hi Hj; now rewrite H | intros A B D H K i j Hi Hj; now rewrite H, K]. Qed.
Global Instance mm_proper n : Proper (same n ==> same n ==> same n) (mm n).
Proof. intros A A' H B B' K i j Hi Hj. apply mm_ext; auto. Qed.
Global Instance mplus_proper n : Proper (same n ==> same n ==> same n) mplus.
Proof. intros A A' H B B' K i j Hi Hj. unfold mplus. now rewrite H, K. Qed.
Global Instance mminus_proper n : Proper (same n ==> same n ==> same n) mminus.
Proof. intros A A' H B B' K i j Hi Hj. unfold mminus. now rewrite H, K. Qed.
Global Instance msc_proper n : Proper (eq ==> same n ==> same n) msc.
Proof. intros c c' -> B B' K i j Hi Hj. unfold msc. now rewrite K. Qed.
Global Instance mdag_proper n : Proper (same n ==> same n) mdag.
Proof. intros A A' H i j Hi Hj. unfold mdag. now rewrite H. Qed.
Global Instance tidyup_proper n : Proper (same n ==> same n) tidyup.
Proof. intros A A' H i j Hi Hj. unfold tidyup. now rewrite H. Qed.
Lemma mul_same n A B : same n (mul n A B) (mm n A B).
Proof. intros i j _ _. apply mul_mm. Qed.
Lemma mmA n A B D : same n (mm n (mm n A B) D) (mm n A (mm n B D)).
Proof. intros i j _ _. apply mm_assoc. Qed.
Lemma mm_1l n A : same n (mm n eye A) A.
Proof. intros i j Hi _. now apply mm_eye_l. Qed.
Lemma mm_1r n A : same n (mm n A eye) A.
Proof. intros i j _ Hj. now apply mm_eye_r. Qed.

Lemma mm_cdiag_r n A f i j : j < n -> mm n A (cdiag f) i j = (A i j * f j)%C.
Proof.
  intros Hj. unfold mm, mmul. rewrite (@sumn_single C_rng n j); auto.
  - unfold cdiag. now rewrite Nat.eqb_refl.
  - intros k Hk N. unfold cdiag. destruct (Nat.eqb_spec k j); [easy|]. apply Cmult_0_r.
Qed.
Lemma mm_cdiag_l n A f i j : i < n -> mm n (cdiag f) A i j = (f i * A i j)%C.
Proof.
  intros Hj. unfold mm, mmul. rewrite (@sumn_single C_rng n i); auto.
  - unfold cdiag. now rewrite Nat.eqb_refl.
  - intros k Hk N. unfold cdiag. destruct (Nat.eqb_spec i k); [congruence|]. apply Cmult_0_l.
Qed.

(** two diagonalisations give the same function of the matrix *)
Lemma spectral_unique n A E V W E' V' W' (f : R -> C) : eigen_ok n A E V W -> eigen_ok n A E' V' W' ->
  same n (mm n (mm n V (cdiag (fun k => f (E k)))) W) (mm n (mm n V' (cdiag (fun k => f (E' k)))) W').
Proof.
  intros (H1 & H2 & H3) (K1 & K2 & K3). rewrite !mul_same in H1, H2, H3, K1, K2, K3.
  change (diagonal (fun k => RtoC (E k))) with (cdiag (fun k => RtoC (E k))) in H1.
  change (diagonal (fun k => RtoC (E' k))) with (cdiag (fun k => RtoC (E' k))) in K1.
  change identity with eye in *.
  set (T := mm n W' V).
  assert (HT : same n (mm n (cdiag (fun k => RtoC (E' k))) T) (mm n T (cdiag (fun k => RtoC (E k))))).
  { unfold T. rewrite (mmA n W' V), <- H1, <- (mmA n W' A V).
    assert (X : same n (mm n W' A) (mm n (cdiag (fun k => RtoC (E' k))) W')).
    { rewrite <- (mm_1r n (mm n W' A)), <- K2, !mmA, <- (mmA n A V' W'), K1, <- !mmA, K3, mm_1l. reflexivity. }
    rewrite X, mmA. reflexivity. }
  assert (HF : same n (mm n T (cdiag (fun k => f (E k)))) (mm n (cdiag (fun k => f (E' k))) T)).
  { intros i j Hi Hj. specialize (HT i j Hi Hj). rewrite mm_cdiag_l, mm_cdiag_r in HT by easy. rewrite mm_cdiag_l, mm_cdiag_r by easy.
    destruct (Ceq_dec (T i j) (RtoC 0)) as [Z|Z]; [rewrite Z; ring|].
    assert (X : RtoC (E' i) = RtoC (E j)).
    { assert (Y : ((RtoC (E' i) - RtoC (E j)) * T i j)%C = RtoC 0) by (replace (RtoC 0) with (RtoC (E' i) * T i j - RtoC (E' i) * T i j)%C by ring; rewrite HT at 2; ring).
      destruct (Ceq_dec (RtoC (E' i) - RtoC (E j))%C (RtoC 0)) as [Y'|Y'].
      - replace (RtoC (E' i)) with ((RtoC (E' i) - RtoC (E j)) + RtoC (E j))%C by ring. rewrite Y'. ring.
      - exfalso. apply (Cmult_neq_0 _ _ Y' Z). exact Y. }
    assert (X' : E' i = E j) by (apply (f_equal fst) in X; exact X). rewrite X'. ring. }
  assert (HV : same n V (mm n V' T)) by (unfold T; rewrite <- (mmA n V' W' V), K2, mm_1l; reflexivity).
  rewrite HV, (mmA n V' T), HF, !mmA. unfold T. rewrite (mmA n W' V W), H2, mm_1r. reflexivity.
Qed.

(** ** cis *)
Lemma cis_add a b : cis (a + b) = (cis a * cis b)%C.
Proof. apply injective_projections; cbn; [rewrite cos_plus | rewrite sin_plus]; ring. Qed.
Lemma cis_0 : cis 0 = RtoC 1.
Proof. apply injective_projections; cbn; [apply cos_0 | apply sin_0]. Qed.
Lemma cis_2PI_nat n : cis (2 * PI * INR n) = RtoC 1.
Proof.
  induction n as [|n IH]; [rewrite Rmult_0_r; apply cis_0|]. rewrite S_INR, Rmult_plus_distr_l, cis_add, IH, Rmult_1_r.
  replace (cis (2 * PI)) with (RtoC 1); [ring|]. apply injective_projections; cbn; [now rewrite cos_2PI | now rewrite sin_2PI].
Qed.
Lemma cis_neg_inv a : (cis a * cis (- a))%C = RtoC 1.
Proof. rewrite <- cis_add, Rplus_opp_r. apply cis_0. Qed.
Lemma cis_2PI_Z z : cis (2 * PI * IZR z) = RtoC 1.
Proof.
  destruct (Z_le_gt_dec 0 z) as [H|H].
  - rewrite <- (Z2Nat.id z H), <- INR_IZR_INZ. apply cis_2PI_nat.
  - pose proof (cis_neg_inv (2 * PI * IZR z)) as K. replace (- (2 * PI * IZR z))%R with (2 * PI * IZR (- z))%R in K by (rewrite opp_IZR; ring).
    rewrite <- (Z2Nat.id (- z)) in K by lia. rewrite <- INR_IZR_INZ, cis_2PI_nat in K. rewrite <- K. ring.
Qed.
Lemma cis_neq1 x : (0 < x < 2 * PI)%R -> cis x <> RtoC 1.
Proof.
  intros H E. apply (f_equal fst) in E. cbn in E. replace x with (2 * (x / 2))%R in E by field.
  rewrite cos_2a_sin in E. assert (0 < sin (x / 2))%R by (apply sin_gt_0; lra). nra.
Qed.
Lemma cis_neq1' x : (0 < Rabs x < 2 * PI)%R -> cis x <> RtoC 1.
Proof.
  intros H E. unfold Rabs in H. destruct (Rcase_abs x) as [N|N].
  - apply (cis_neq1 (- x) H). rewrite <- conj_cis, E. apply conj_R.
  - now apply (cis_neq1 x).
Qed.
(** sum of the N-th roots of unity *)
Lemma geom_cis (n : nat) x : ((cis x - RtoC 1) * @sumn C_rng n (fun k => cis (INR k * x)))%C = (cis (INR n * x) - RtoC 1)%C.
Proof.
  induction n as [|n IH].
  - cbn [sumn]. rewrite Rmult_0_l, cis_0. change (@k0 C_rng) with (RtoC 0). ring.
  - cbn [sumn]. match goal with |- context [@kadd C_rng ?a ?b] => change (@kadd C_rng a b) with (a + b)%C end.
    rewrite Cmult_plus_distr_l, IH, S_INR, Rmult_plus_distr_r, Rmult_1_l, cis_add. ring.
Qed.
Lemma roots_sum (N : nat) (d : Z) : (0 < Z.abs d < Z.of_nat N)%Z -> @sumn C_rng N (fun k => cis (INR k * (2 * PI * IZR d / INR N))) = RtoC 0.
Proof.
  intros H. assert (HN : (0 < INR N)%R) by (apply lt_0_INR; lia). set (x := (2 * PI * IZR d / INR N)%R).
  assert (Hx : cis x <> RtoC 1).
  { apply cis_neq1'. unfold x. pose proof PI_RGT_0.
    replace (2 * PI * IZR d / INR N)%R with (2 * PI * (IZR d / INR N))%R by (field; lra). rewrite Rabs_mult, (Rabs_pos_eq (2 * PI)) by lra.
    assert (Hd : (0 < Rabs (IZR d / INR N) < 1)%R).
    { unfold Rdiv. rewrite Rabs_mult, <- abs_IZR, (Rabs_pos_eq (/ INR N)) by (left; now apply Rinv_0_lt_compat).
      assert (0 < IZR (Z.abs d) < INR N)%R by (rewrite INR_IZR_INZ; split; apply IZR_lt; lia). split.
      - apply Rmult_lt_0_compat; [lra | now apply Rinv_0_lt_compat].
      - apply (Rmult_lt_reg_r (INR N)); [easy|]. rewrite Rmult_assoc, Rinv_l by lra. lra. }
    nra. }
  pose proof (geom_cis N x) as G. replace (INR N * x)%R with (2 * PI * IZR d)%R in G by (unfold x; field; lra). rewrite cis_2PI_Z in G.
  destruct (Ceq_dec (@sumn C_rng N (fun k => cis (INR k * x))) (RtoC 0)) as [Z|Z]; [exact Z|]. exfalso.
  apply (Cmult_neq_0 (cis x - RtoC 1)%C (@sumn C_rng N (fun k => cis (INR k * x)))).
  - intros K. apply Hx. replace (cis x) with ((cis x - RtoC 1) + RtoC 1)%C by ring. rewrite K. ring.
  - exact Z.
  - rewrite G. ring.
Qed.
Lemma sumn_const_1 n : @sumn C_rng n (fun _ => RtoC 1) = RtoC (INR n).
Proof. induction n as [|n IH]; [easy|]. cbn [sumn]. rewrite IH, S_INR. apply injective_projections; cbn; ring. Qed.
