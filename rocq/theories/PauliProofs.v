(** Proofs about Pauli.v. *)
From Coq Require Import List Bool ZArith Reals Lia Lra.
From Coquelicot Require Import Complex.
From Verif Require Import Prelude PreludeFacts Mat MatFacts Sweep SweepProofs Util UtilLinProofs NumOp NumEval Pauli PauliSpec.
Import ListNotations.
Open Scope list_scope.
Open Scope nat_scope.

Lemma some_inj {X} (a b : X) : Some a = Some b -> a = b.
Proof. congruence. Qed.
Lemma conj_conj a : Cconj (Cconj a) = a.
Proof. destruct a. unfold Cconj. cbn. now rewrite Ropp_involutive. Qed.
Lemma conj_plus (a b : C) : Cconj (a + b)%C = (Cconj a + Cconj b)%C.
Proof. destruct a, b. unfold Cconj, Cplus. cbn. f_equal. ring. Qed.
Lemma Cmod_cj a : Cmod (Cconj a) = Cmod a.
Proof. destruct a. unfold Cmod, Cconj. cbn [fst snd]. f_equal. ring. Qed.
Lemma conj_RtoC r : Cconj (RtoC r) = RtoC r.
Proof. unfold Cconj, RtoC. cbn. now rewrite Ropp_0. Qed.

(** ** Unitary 2 by 2 matrices *)
Section U.
  Variables x y z w : C.
  Hypothesis C0 : (Cconj x * x + Cconj z * z)%C = RtoC 1.
  Hypothesis C1 : (Cconj y * y + Cconj w * w)%C = RtoC 1.
  Hypothesis OR : (Cconj x * y + Cconj z * w)%C = RtoC 0.
  Hypothesis OR' : (Cconj y * x + Cconj w * z)%C = RtoC 0.
  Let de := (x * w - y * z)%C.
  Lemma u_x : (Cconj x * de)%C = w.
  Proof. transitivity (w * (Cconj x * x + Cconj z * z) - z * (Cconj x * y + Cconj z * w))%C; [unfold de; ring|rewrite C0, OR; ring]. Qed.
  Lemma u_z : (Cconj z * de)%C = (- y)%C.
  Proof. transitivity (x * (Cconj x * y + Cconj z * w) - y * (Cconj x * x + Cconj z * z))%C; [unfold de; ring|rewrite C0, OR; ring]. Qed.
  Lemma u_y : (Cconj y * de)%C = (- z)%C.
  Proof. transitivity (w * (Cconj y * x + Cconj w * z) - z * (Cconj y * y + Cconj w * w))%C; [unfold de; ring|rewrite C1, OR'; ring]. Qed.
  Lemma u_w : (Cconj w * de)%C = x.
  Proof. transitivity (x * (Cconj y * y + Cconj w * w) - y * (Cconj y * x + Cconj w * z))%C; [unfold de; ring|rewrite C1, OR'; ring]. Qed.
  Lemma de_nz : de <> RtoC 0.
  Proof.
    intros D. assert (w = RtoC 0) as W by (rewrite <- u_x, D; ring). assert (z = RtoC 0) as Z.
    { transitivity (- (- z))%C; [ring|]. rewrite <- u_y, D. ring. }
    assert (y = RtoC 0) as Y. { transitivity (- (- y))%C; [ring|]. rewrite <- u_z, D. ring. }
    rewrite Y, W in C1. assert (RtoC 0 = RtoC 1) as A by (rewrite <- C1; ring). injection A. lra.
  Qed.
  Lemma de_cancel a b : (a * de)%C = (b * de)%C -> a = b.
  Proof. intros H. transitivity (a * de / de)%C; [field; exact de_nz|]. rewrite H. field. exact de_nz. Qed.
  Lemma u_row0 : (Cconj x * x + Cconj y * y)%C = RtoC 1.
  Proof. apply de_cancel. transitivity (x * (Cconj x * de) + y * (Cconj y * de))%C; [ring|]. rewrite u_x, u_y. unfold de. ring. Qed.
  Lemma u_row1 : (Cconj z * z + Cconj w * w)%C = RtoC 1.
  Proof. apply de_cancel. transitivity (z * (Cconj z * de) + w * (Cconj w * de))%C; [ring|]. rewrite u_z, u_w. unfold de. ring. Qed.
  Lemma u_rows : (x * Cconj z + y * Cconj w)%C = RtoC 0.
  Proof. apply de_cancel. transitivity (x * (Cconj z * de) + y * (Cconj w * de))%C; [ring|]. rewrite u_z, u_w. ring. Qed.
  Lemma u_rows' : (z * Cconj x + w * Cconj y)%C = RtoC 0.
  Proof. apply de_cancel. transitivity (z * (Cconj x * de) + w * (Cconj y * de))%C; [ring|]. rewrite u_x, u_y. ring. Qed.
End U.

Lemma unitary2_eqs V : unitary2 V ->
  (Cconj (V 0 0) * V 0 0 + Cconj (V 1 0) * V 1 0)%C = RtoC 1 /\ (Cconj (V 0 1) * V 0 1 + Cconj (V 1 1) * V 1 1)%C = RtoC 1 /\
  (Cconj (V 0 0) * V 0 1 + Cconj (V 1 0) * V 1 1)%C = RtoC 0 /\ (Cconj (V 0 1) * V 0 0 + Cconj (V 1 1) * V 1 0)%C = RtoC 0.
Proof.
  intros U. assert (forall i j, i < 2 -> j < 2 -> (Cconj (V 0 i) * V 0 j + Cconj (V 1 i) * V 1 j)%C = @mid C_rng i j) as H.
  { intros i j Hi Hj. rewrite <- (U i j Hi Hj). unfold mmul, mdag. cbn [sumn k0 kadd kmul C_rng]. match goal with |- @eq _ ?a ?b => change (@eq C a b) end. ring. }
  repeat split; rewrite H by lia; reflexivity.
Qed.

(** ** The eigenvectors of a Hermitian matrix that is not diagonal *)
Section H.
  Variables (M : nat -> nat -> C) (l : nat -> R) (V : nat -> nat -> C).
  Hypothesis EG : eigen2 M l V.
  Hypothesis B : M 0 1 <> RtoC 0.
  Let x := V 0 0. Let y := V 0 1. Let z := V 1 0. Let w := V 1 1.
  Lemma eig_entries i j : i < 2 -> j < 2 -> (M i 0 * V 0 j + M i 1 * V 1 j)%C = (V i j * RtoC (l j))%C.
  Proof.
    intros Hi Hj. destruct EG as (_ & _ & E). rewrite <- (E i j Hi Hj). unfold mmul. cbn [sumn k0 kadd kmul C_rng].
    match goal with |- @eq _ ?a ?b => change (@eq C a b) end. ring.
  Qed.
  Let p := (Cmod x ^ 2)%R.
  Lemma first_row k : k < 2 -> V 0 k <> RtoC 0.
  Proof.
    intros Hk Z. pose proof (eig_entries 0 k ltac:(lia) Hk) as E. rewrite Z in E.
    assert (V 1 k = RtoC 0) as Z1.
    { transitivity ((M 0%nat 0%nat * RtoC 0 + M 0%nat 1%nat * V 1%nat k) / M 0%nat 1%nat)%C; [field; exact B|]. rewrite E. field. exact B. }
    destruct EG as (_ & U & _). destruct (unitary2_eqs V U) as (A0 & A1 & _).
    destruct k as [|[|k]]; [| |lia]; rewrite Z, Z1 in *; [clear A1; rename A0 into A|clear A0; rename A1 into A];
      (assert (RtoC 0 = RtoC 1) as X by (rewrite <- A; ring)); injection X; lra.
  Qed.
  Lemma mods : (Cmod y ^ 2 = 1 - p /\ Cmod z ^ 2 = 1 - p /\ Cmod w ^ 2 = p)%R.
  Proof.
    destruct EG as (_ & U & _). destruct (unitary2_eqs V U) as (A0 & A1 & A2 & A3).
    pose proof (u_row0 x y z w A0 A1 A2 A3) as R0. pose proof (u_row1 x y z w A0 A1 A2 A3) as R1.
    fold x y z w in A0, A1. rewrite !conj_self in *. unfold RtoC, Cplus in *. cbn [fst snd] in *.
    injection A0 as A0 _. injection A1 as A1 _. injection R0 as R0 _. injection R1 as R1 _. unfold p. lra.
  Qed.
  Lemma M_entries : M 0 0 = RtoC (l 0%nat * p + l 1%nat * (1 - p)) /\ M 1 1 = RtoC (l 0%nat * (1 - p) + l 1%nat * p) /\
    M 0 1 = (RtoC (l 0%nat - l 1%nat) * (x * Cconj z))%C.
  Proof.
    destruct EG as (_ & U & _). destruct (unitary2_eqs V U) as (A0 & A1 & A2 & A3).
    pose proof (u_row0 x y z w A0 A1 A2 A3) as R0. pose proof (u_row1 x y z w A0 A1 A2 A3) as R1.
    pose proof (u_rows x y z w A0 A1 A2 A3) as R2. pose proof (u_rows' x y z w A0 A1 A2 A3) as R3.
    pose proof (eig_entries 0 0 ltac:(lia) ltac:(lia)) as E00. pose proof (eig_entries 0 1 ltac:(lia) ltac:(lia)) as E01.
    pose proof (eig_entries 1 0 ltac:(lia) ltac:(lia)) as E10. pose proof (eig_entries 1 1 ltac:(lia) ltac:(lia)) as E11.
    fold x y z w in E00, E01, E10, E11. destruct mods as (Py & Pz & Pw).
    assert (forall a r, (Cmod a ^ 2)%R = r -> (Cconj a * a)%C = RtoC r) as CS by (intros a r <-; apply conj_self).
    apply CS in Py, Pz, Pw. assert ((Cconj x * x)%C = RtoC p) as Px by (apply CS; reflexivity).
    split; [|split].
    - transitivity (M 0 0 * (Cconj x * x + Cconj y * y) + M 0 1 * (z * Cconj x + w * Cconj y))%C; [rewrite R0, R3; ring|].
      transitivity ((M 0 0 * x + M 0 1 * z) * Cconj x + (M 0 0 * y + M 0 1 * w) * Cconj y)%C; [ring|]. rewrite E00, E01.
      transitivity (RtoC (l 0) * (Cconj x * x) + RtoC (l 1) * (Cconj y * y))%C; [ring|]. rewrite Px, Py. now rewrite <- !RtoC_mult, <- RtoC_plus.
    - transitivity (M 1 0 * (x * Cconj z + y * Cconj w) + M 1 1 * (Cconj z * z + Cconj w * w))%C; [rewrite R1, R2; ring|].
      transitivity ((M 1 0 * x + M 1 1 * z) * Cconj z + (M 1 0 * y + M 1 1 * w) * Cconj w)%C; [ring|]. rewrite E10, E11.
      transitivity (RtoC (l 0) * (Cconj z * z) + RtoC (l 1) * (Cconj w * w))%C; [ring|]. rewrite Pz, Pw. now rewrite <- !RtoC_mult, <- RtoC_plus.
    - transitivity (M 0 0 * (x * Cconj z + y * Cconj w) + M 0 1 * (Cconj z * z + Cconj w * w))%C; [rewrite R1, R2; ring|].
      transitivity ((M 0 0 * x + M 0 1 * z) * Cconj z + (M 0 0 * y + M 0 1 * w) * Cconj w)%C; [ring|]. rewrite E00, E01.
      transitivity (RtoC (l 0) * (x * Cconj z) + RtoC (l 1) * (x * Cconj z + y * Cconj w - x * Cconj z))%C; [ring|]. rewrite R2, RtoC_minus. ring.
  Qed.
  Lemma mod_b : (Cmod (M 0%nat 1%nat) = (l 1%nat - l 0%nat) * (Cmod x * Cmod y))%R /\ (0 < l 1%nat - l 0%nat)%R.
  Proof.
    destruct M_entries as (_ & _ & E). destruct EG as (LE & _). destruct mods as (Py & Pz & _).
    assert (Cmod z = Cmod y) as ZY.
    { apply Rsqr_inj; [apply Cmod_ge_0|apply Cmod_ge_0|]. rewrite !Rsqr_pow2. lra. }
    assert (Cmod (M 0 1) = (l 1%nat - l 0%nat) * (Cmod x * Cmod y))%R as A.
    { rewrite E, !Cmod_mult, Cmod_R, Cmod_cj, ZY. rewrite Rabs_minus_sym, Rabs_pos_eq by lra. reflexivity. }
    split; auto. apply Cmod_gt_0 in B. pose proof (Cmod_ge_0 x). pose proof (Cmod_ge_0 y).
    destruct (Req_dec (l 1%nat - l 0%nat) 0) as [Z|N]; [|lra]. rewrite Z in A. lra.
  Qed.
  Lemma gap_is : let d := (fst (M 0%nat 0%nat) - fst (M 1%nat 1%nat))%R in (sqrt (d ^ 2 + 4 * Cmod (M 0%nat 1%nat) ^ 2) = l 1%nat - l 0%nat)%R /\
    (d = (l 0%nat - l 1%nat) * (Cmod x ^ 2 - Cmod y ^ 2))%R.
  Proof.
    cbv zeta. destruct M_entries as (E0 & E1 & _). destruct mod_b as (A & P). destruct mods as (Py & _).
    rewrite A, E0, E1. cbn [RtoC fst]. split.
    - transitivity (sqrt ((l 1%nat - l 0%nat) ^ 2)); [f_equal|apply sqrt_pow2; lra].
      replace (((l 1%nat - l 0%nat) * (Cmod x * Cmod y)) ^ 2)%R with ((l 1%nat - l 0%nat) ^ 2 * (Cmod x ^ 2 * Cmod y ^ 2))%R by ring.
      rewrite Py. fold p. ring.
    - rewrite Py. fold p. ring.
  Qed.
  Lemma point_is E0 E1 : pauli_or_nan E0 E1 V = Some (local_pauli E0 E1 M).
  Proof.
    unfold pauli_or_nan. destruct (Ceq_dec _ _) as [Z|_]; [now apply first_row in Z; [|lia]|].
    destruct (Ceq_dec _ _) as [Z|_]; [now apply first_row in Z; [|lia]|]. f_equal.
    destruct EG as (_ & U & _). destruct (pauli_C72 E0 E1 V U first_row) as (hx & hz & -> & _ & Hx & Hz).
    destruct gap_is as (G & D). destruct mod_b as (A & P). unfold local_pauli. rewrite G, D, A. fold x y in Hx, Hz. rewrite Hx, Hz.
    f_equal; [f_equal|]; field; lra.
  Qed.
End H.

(** ** The two-level Hamiltonian in the basis of the operator *)
Lemma pauli_hamiltonian E0 E1 M l V : eigen2 M l V -> M 0 1 <> RtoC 0 -> exists W, eigen2 M l W /\
  let '(hx, hy, hz) := local_pauli E0 E1 M in
  forall i j, i < 2 -> j < 2 -> @mmul C_rng 2 (mdag W) (@mmul C_rng 2 (mk2 (RtoC E0) (RtoC 0) (RtoC 0) (RtoC E1)) W) i j =
    (RtoC ((E0 + E1) / 2) * @mid C_rng i j + RtoC hx * sigma_x i j + RtoC hy * sigma_y i j + RtoC hz * sigma_z i j)%C.
Proof.
  intros EG B. exists (gauge V). pose proof (first_row M l V EG B) as FR. destruct EG as (LE & U & E).
  assert (unitary2 (gauge V)) as UG by now apply gauge_unitary. split.
  - split; auto. split; auto. intros i j Hi Hj.
    transitivity (gph V j * @mmul C_rng 2 M V i j)%C.
    + unfold mmul. cbn [sumn k0 kadd kmul C_rng]. match goal with |- @eq _ ?a ?b => change (@eq C a b) end. unfold gauge, gph. ring.
    + rewrite E by auto. unfold gauge, gph. match goal with |- @eq _ ?a ?b => change (@eq C a b) end. ring.
  - pose proof (point_is M l V (conj LE (conj U E)) B E0 E1) as P. unfold pauli_or_nan in P.
    destruct (Ceq_dec (V 0 0) _); [discriminate|]. destruct (Ceq_dec (V 0 1) _); [discriminate|]. apply some_inj in P. rewrite <- P.
    unfold pauli_point. cbv zeta beta. fold (pauli_Hq E0 E1 V). rewrite trace_x, trace_y, trace_z.
    assert (forall i j, pauli_Hq E0 E1 V i j = (RtoC E0 * (Cconj (gauge V 0%nat i) * gauge V 0%nat j) + RtoC E1 * (Cconj (gauge V 1%nat i) * gauge V 1%nat j))%C) as PE
      by (intros; unfold pauli_Hq; cbv zeta; apply pauli_entry).
    destruct (unitary2_eqs _ UG) as (A0 & A1 & A2 & A3). pose proof (u_row0 _ _ _ _ A0 A1 A2 A3) as R0. pose proof (u_row1 _ _ _ _ A0 A1 A2 A3) as R1.
    rewrite !conj_self in *.
    assert (forall i, fst (pauli_Hq E0 E1 V i i) = (E0 * Cmod (gauge V 0%nat i) ^ 2 + E1 * Cmod (gauge V 1%nat i) ^ 2)%R /\ snd (pauli_Hq E0 E1 V i i) = 0%R) as DI.
    { intros i. rewrite PE, !conj_self. unfold RtoC, Cmult, Cplus. cbn [fst snd]. split; ring. }
    assert (fst (pauli_Hq E0 E1 V 1 0) = fst (pauli_Hq E0 E1 V 0 1) /\ snd (pauli_Hq E0 E1 V 1 0) = - snd (pauli_Hq E0 E1 V 0 1))%R as [OF OS].
    { rewrite !PE. destruct (gauge V 0 0), (gauge V 0 1), (gauge V 1 0), (gauge V 1 1). unfold RtoC, Cmult, Cplus, Cconj. cbn [fst snd]. split; ring. }
    unfold RtoC, Cplus in R0, R1, A0, A1. cbn [fst snd] in R0, R1, A0, A1.
    apply (f_equal fst) in R0, R1. cbn [fst] in R0, R1.
    destruct (DI 0) as [F0 S0]. destruct (DI 1) as [F1 S1].
    assert (fst (pauli_Hq E0 E1 V 0 0) + fst (pauli_Hq E0 E1 V 1 1) = E0 + E1)%R as TR.
    { rewrite F0, F1. transitivity (E0 * (Cmod (gauge V 0%nat 0%nat) ^ 2 + Cmod (gauge V 0%nat 1%nat) ^ 2) + E1 * (Cmod (gauge V 1%nat 0%nat) ^ 2 + Cmod (gauge V 1%nat 1%nat) ^ 2))%R; [ring|].
      rewrite R0, R1. ring. }
    intros i j Hi Hj. fold (pauli_Hq E0 E1 V). change (pauli_Hq E0 E1 V i j = (RtoC ((E0 + E1) / 2) * @mid C_rng i j +
      RtoC ((fst (pauli_Hq E0 E1 V 0%nat 1%nat) + fst (pauli_Hq E0 E1 V 1%nat 0%nat)) / 2) * sigma_x i j +
      RtoC ((snd (pauli_Hq E0 E1 V 1%nat 0%nat) - snd (pauli_Hq E0 E1 V 0%nat 1%nat)) / 2) * sigma_y i j +
      RtoC ((fst (pauli_Hq E0 E1 V 0%nat 0%nat) - fst (pauli_Hq E0 E1 V 1%nat 1%nat)) / 2) * sigma_z i j)%C).
    rewrite <- TR. clear - Hi Hj S0 S1 OF OS. generalize dependent (pauli_Hq E0 E1 V). intros Q S0 S1 OF OS.
    destruct (Q 0 0) as [a0 a1] eqn:Q0. destruct (Q 0 1) as [b0 b1] eqn:Q1. destruct (Q 1 0) as [c0 c1] eqn:Q2. destruct (Q 1 1) as [d0 d1] eqn:Q3.
    cbn [fst snd] in *. subst.
    destruct i as [|[|]]; try lia; destruct j as [|[|]]; try lia; rewrite ?Q0, ?Q1, ?Q2, ?Q3; unfold mid, delta, sigma_x, sigma_y, sigma_z, mk2;
      cbn [Nat.eqb k0 k1 C_rng]; unfold RtoC, Ci, Copp, Cmult, Cplus; cbn [fst snd]; f_equal; field.
Qed.
