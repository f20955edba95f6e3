(** Norms of matrices and the movement of levels (Weyl's inequality), for C128. *)
From Coq Require Import List Bool Arith Lia ZArith Reals Lra Setoid Morphisms Permutation.
From Coquelicot Require Import Complex.
From Verif Require Import Prelude Mat MatFacts Util NumOp NumOpSpec NumKron NumSpectral NumExpand NumHerm NumSymSpec NumTruncSpec NumTruncLevels.
Import ListNotations.
Open Scope nat_scope.

Definition inner (n : nat) (u v : nat -> C) : C := S n (fun i => (Cconj (u i) * v i)%C).
Definition app (n : nat) (A : cmat) (v : nat -> C) : nat -> C := fun i => S n (fun k => (A i k * v k)%C).
Definition nsq (n : nat) (v : nat -> C) : R := RS n (fun i => sq (v i)).
Definition nrm (n : nat) (v : nat -> C) : R := sqrt (nsq n v).
Lemma RS_ext n f g : (forall i, i < n -> f i = g i) -> RS n f = RS n g.
Proof. apply (@sumn_ext R_rng). Qed.
Lemma RS_add n f g : RS n (fun i => (f i + g i)%R) = (RS n f + RS n g)%R.
Proof. apply (@sumn_add R_rng). Qed.
Lemma RS_swap n m f : RS n (fun i => RS m (fun j => f i j)) = RS m (fun j => RS n (fun i => f i j)).
Proof. apply (@sumn_swap R_rng). Qed.
Lemma RS_nonneg n f : (forall i, i < n -> (0 <= f i)%R) -> (0 <= RS n f)%R.
Proof. intros H. rewrite <- (RS_0 n (fun _ => 0%R)) by easy. now apply RS_le. Qed.
Lemma nsq_pos n v : (0 <= nsq n v)%R.
Proof. apply RS_nonneg. intros; apply sq_pos. Qed.
Lemma nrm_pos n v : (0 <= nrm n v)%R.
Proof. apply sqrt_pos. Qed.
Lemma nrm_sq n v : (nrm n v * nrm n v = nsq n v)%R.
Proof. apply sqrt_sqrt, nsq_pos. Qed.
Lemma Cmod_sq z : (Cmod z * Cmod z = sq z)%R.
Proof. unfold Cmod, sq. rewrite sqrt_sqrt; [cbn; ring|]. cbn. nra. Qed.
Lemma Cmod_conj z : Cmod (Cconj z) = Cmod z.
Proof. unfold Cmod. f_equal. cbn. ring. Qed.
Lemma Cmod_sqrt z : Cmod z = sqrt (sq z).
Proof. unfold Cmod, sq. f_equal. cbn. ring. Qed.
Lemma inner_self n v : inner n v v = RtoC (nsq n v).
Proof. unfold inner, nsq. rewrite <- S_R. apply S_ext. intros i _. apply sq_C. Qed.
Lemma Cmod_S n f : (Cmod (S n f) <= RS n (fun i => Cmod (f i)))%R.
Proof. induction n as [|n IH]; [unfold S, RS; cbn; rewrite Cmod_0; lra|]. rewrite S_S, RS_S. eapply Rle_trans; [apply Cmod_triangle|]. lra. Qed.
(** Cauchy-Schwarz for real sums *)
Lemma RS_cs n f g : (RS n (fun i => f i * g i) * RS n (fun i => f i * g i) <= RS n (fun i => f i * f i) * RS n (fun i => g i * g i))%R.
Proof.
  induction n as [|n IH]; [unfold RS; cbn; lra|]. rewrite !RS_S. set (a := RS n (fun i => (f i * g i)%R)) in *. set (b := RS n (fun i => (f i * f i)%R)) in *. set (c := RS n (fun i => (g i * g i)%R)) in *.
  assert (B : (0 <= b)%R) by (apply RS_nonneg; intros; nra). assert (D : (0 <= c)%R) by (apply RS_nonneg; intros; nra).
  set (x := f n). set (y := g n).
  assert (K : (2 * (a * (x * y)) <= b * (y * y) + c * (x * x))%R).
  { assert (Q : (0 <= b * (y * y) + c * (x * x))%R) by nra.
    destruct (Rle_dec (2 * (a * (x * y))) 0) as [|P]; [lra|].
    assert (S2 : ((2 * (a * (x * y))) * (2 * (a * (x * y))) <= (b * (y * y) + c * (x * x)) * (b * (y * y) + c * (x * x)))%R).
    { assert (T : (4 * (b * c) * ((x * x) * (y * y)) <= (b * (y * y) + c * (x * x)) * (b * (y * y) + c * (x * x)))%R) by (pose proof (Rle_0_sqr (b * (y * y) - c * (x * x))) as SQ; unfold Rsqr in SQ; lra).
      assert (a * a * ((x * x) * (y * y)) <= b * c * ((x * x) * (y * y)))%R by (apply Rmult_le_compat_r; nra). nra. }
    nra. }
  nra.
Qed.
Lemma RS_cs_sqrt n f g : (RS n (fun i => f i * g i) <= sqrt (RS n (fun i => f i * f i)) * sqrt (RS n (fun i => g i * g i)))%R.
Proof.
  assert (B : (0 <= RS n (fun i => f i * f i))%R) by (apply RS_nonneg; intros; nra). assert (D : (0 <= RS n (fun i => g i * g i))%R) by (apply RS_nonneg; intros; nra).
  rewrite <- sqrt_mult by easy. eapply Rle_trans; [apply Rle_abs|]. rewrite <- sqrt_Rsqr_abs. apply sqrt_le_1_alt. unfold Rsqr. apply RS_cs.
Qed.
Lemma inner_cs n u v : (Cmod (inner n u v) <= nrm n u * nrm n v)%R.
Proof.
  unfold inner. eapply Rle_trans; [apply Cmod_S|]. rewrite (RS_ext n _ (fun i => (Cmod (u i) * Cmod (v i))%R)) by (intros i _; rewrite Cmod_mult, Cmod_conj; reflexivity).
  eapply Rle_trans; [apply RS_cs_sqrt|]. unfold nrm, nsq. rewrite (RS_ext n (fun i => (Cmod (u i) * Cmod (u i))%R) (fun i => sq (u i))), (RS_ext n (fun i => (Cmod (v i) * Cmod (v i))%R) (fun i => sq (v i))) by (intros; apply Cmod_sq). lra.
Qed.

(** ** bounded matrices *)
Definition bounded (n : nat) (A : cmat) (c : R) : Prop := (0 <= c)%R /\ forall u v, (Cmod (inner n u (app n A v)) <= c * nrm n u * nrm n v)%R.
Lemma app_ext n A B v i : i < n -> same n A B -> app n A v i = app n B v i.
Proof. intros Hi H. apply S_ext. intros k Hk. now rewrite (H i k Hi Hk). Qed.
Lemma inner_ext n u v v' : (forall i, i < n -> v i = v' i) -> inner n u v = inner n u v'.
Proof. intros H. apply S_ext. intros i Hi. now rewrite H. Qed.
Lemma bounded_ext n A B c : same n A B -> bounded n A c -> bounded n B c.
Proof. intros H [C0 K]. split; [easy|]. intros u v. rewrite <- (inner_ext n u (app n A v) (app n B v)); [apply K|]. intros i Hi. now apply app_ext. Qed.
Lemma bounded_le n A c c' : (c <= c')%R -> bounded n A c -> bounded n A c'.
Proof. intros L [C0 K]. split; [lra|]. intros u v. eapply Rle_trans; [apply K|]. pose proof (nrm_pos n u). pose proof (nrm_pos n v). rewrite !Rmult_assoc. apply Rmult_le_compat_r; [nra|easy]. Qed.
Lemma inner_plus n u A B v : inner n u (app n (mplus A B) v) = (inner n u (app n A v) + inner n u (app n B v))%C.
Proof. unfold inner. rewrite <- S_add. apply S_ext. intros i _. unfold app, mplus. rewrite <- Cmult_plus_distr_l, <- S_add. f_equal. apply S_ext. intros; ring. Qed.
Lemma inner_sc n u z A v : inner n u (app n (msc z A) v) = (z * inner n u (app n A v))%C.
Proof. unfold inner. rewrite S_l. apply S_ext. intros i _. unfold app, msc. rewrite (S_ext n _ (fun k => (z * (A i k * v k))%C)) by (intros; ring). rewrite <- S_l. ring. Qed.
Lemma bounded_plus n A B a b : bounded n A a -> bounded n B b -> bounded n (mplus A B) (a + b).
Proof. intros [A0 KA] [B0 KB]. split; [lra|]. intros u v. rewrite inner_plus. eapply Rle_trans; [apply Cmod_triangle|]. specialize (KA u v). specialize (KB u v). lra. Qed.
Lemma bounded_sc n z A a : bounded n A a -> bounded n (msc z A) (Cmod z * a).
Proof. intros [A0 KA]. pose proof (Cmod_ge_0 z). split; [nra|]. intros u v. rewrite inner_sc, Cmod_mult. specialize (KA u v). rewrite !Rmult_assoc in *. now apply Rmult_le_compat_l. Qed.
Lemma bounded_zero n : bounded n mzero 0.
Proof.
  split; [lra|]. intros u v. replace (inner n u (app n mzero v)) with (RtoC 0). { rewrite Cmod_0. lra. }
  symmetry. apply S_0. intros i _. unfold app. rewrite S_0; [ring|]. intros. unfold mzero. ring.
Qed.
Lemma bounded_app n A c : (0 <= c)%R -> (bounded n A c <-> forall v, (nrm n (app n A v) <= c * nrm n v)%R).
Proof.
  intros C0. split.
  - intros [_ K] v. pose proof (nrm_pos n (app n A v)) as P. destruct (Req_dec (nrm n (app n A v)) 0) as [->|N]; [pose proof (nrm_pos n v); nra|].
    specialize (K (app n A v) v). rewrite inner_self, Cmod_R, Rabs_pos_eq in K by apply nsq_pos. rewrite <- nrm_sq in K.
    apply (Rmult_le_reg_l (nrm n (app n A v))); [lra|]. nra.
  - intros K. split; [easy|]. intros u v. eapply Rle_trans; [apply inner_cs|]. specialize (K v). pose proof (nrm_pos n u). nra.
Qed.
Lemma bounded_mm n A B a b : bounded n A a -> bounded n B b -> bounded n (mm n A B) (a * b).
Proof.
  intros HA HB. pose proof (proj1 HA) as A0. pose proof (proj1 HB) as B0. pose proof (proj1 (bounded_app n A a A0) HA) as KA. pose proof (proj1 (bounded_app n B b B0) HB) as KB.
  apply bounded_app; [nra|]. intros v. replace (nrm n (app n (mm n A B) v)) with (nrm n (app n A (app n B v))).
  - eapply Rle_trans; [apply KA|]. rewrite Rmult_assoc. now apply Rmult_le_compat_l.
  - unfold nrm. f_equal. apply RS_ext. intros i _. f_equal. unfold app, mm, mmul.
    transitivity (S n (fun k => S n (fun l => (A i k * B k l * v l)%C))). { apply S_ext. intros k _. rewrite S_l. apply S_ext. intros; ring. }
    rewrite S_swap. apply S_ext. intros l _. rewrite <- S_r. reflexivity.
Qed.
Lemma bounded_eye n : bounded n eye 1.
Proof.
  apply bounded_app; [lra|]. intros v. rewrite Rmult_1_l. apply Req_le. unfold nrm. f_equal. apply RS_ext. intros i Hi. f_equal. unfold app. rewrite (S_single n i); auto.
  - unfold eye. rewrite Nat.eqb_refl. cring.
  - intros k _ N. unfold eye. destruct (Nat.eqb_spec i k); [congruence|]. cring.
Qed.
Lemma nsq_eq_le n u c v : (0 <= c)%R -> (nsq n u <= c * c * nsq n v)%R -> (nrm n u <= c * nrm n v)%R.
Proof.
  intros C0 H. unfold nrm. replace (c * sqrt (nsq n v))%R with (sqrt (c * c * nsq n v)).
  - now apply sqrt_le_1_alt.
  - rewrite sqrt_mult by (nra || apply nsq_pos). now rewrite sqrt_square.
Qed.
Lemma nrm_nsq n u c v : (0 <= c)%R -> (nrm n u <= c * nrm n v)%R -> (nsq n u <= c * c * nsq n v)%R.
Proof. intros C0 H. rewrite <- !nrm_sq. pose proof (nrm_pos n u). pose proof (nrm_pos n v). nra. Qed.
(** ** Kronecker products *)
Lemma RS_mul n m f : RS (n * m) f = RS n (fun a => RS m (fun b => f (a * m + b))).
Proof. apply (@sumn_mul R_rng). Qed.
Lemma S_mul n m f : S (n * m) f = S n (fun a => S m (fun b => f (a * m + b))).
Proof. apply (@sumn_mul C_rng). Qed.
Lemma dm m a b : b < m -> (a * m + b) / m = a /\ (a * m + b) mod m = b.
Proof. intros H. split; [rewrite Nat.div_add_l by lia; rewrite Nat.div_small by easy; lia | rewrite Nat.add_comm, Nat.mod_add by lia; now apply Nat.mod_small]. Qed.
Lemma bounded_kron_l n m A a : bounded n A a -> bounded (n * m) (kron m A eye) a.
Proof.
  intros HA. pose proof (proj1 HA) as A0. pose proof (proj1 (bounded_app n A a A0) HA) as KA. apply bounded_app; [easy|]. intros v. apply nsq_eq_le; [easy|].
  assert (X : forall i b, i < n -> b < m -> app (n * m) (kron m A eye) v (i * m + b) = app n A (fun k => v (k * m + b)) i).
  { intros i b Hi Hb. unfold app. rewrite S_mul. apply S_ext. intros k Hk. rewrite (S_single m b); auto.
    - unfold kron. destruct (dm m i b Hb) as [-> ->]. destruct (dm m k b Hb) as [-> ->]. unfold eye. rewrite Nat.eqb_refl. cring.
    - intros l Hl N. unfold kron. destruct (dm m i b Hb) as [-> ->]. destruct (dm m k l Hl) as [-> ->]. unfold eye. destruct (Nat.eqb_spec b l); [congruence|]. cring. }
  unfold nsq. rewrite !RS_mul. rewrite (RS_ext n _ (fun i => RS m (fun b => sq (app n A (fun k => v (k * m + b)) i)))) by (intros i Hi; apply RS_ext; intros b Hb; now rewrite X).
  rewrite (RS_swap n m (fun i b => sq (app n A (fun k => v (k * m + b)) i))), (RS_swap n m (fun i b => sq (v (i * m + b)))), <- RS_l. apply RS_le. intros b Hb. apply (nrm_nsq n (app n A (fun k => v (k * m + b))) a (fun k => v (k * m + b)) A0). apply KA.
Qed.
Lemma bounded_kron_r n m B b : bounded m B b -> bounded (n * m) (kron m eye B) b.
Proof.
  intros HB. pose proof (proj1 HB) as B0. pose proof (proj1 (bounded_app m B b B0) HB) as KB. apply bounded_app; [easy|]. intros v. apply nsq_eq_le; [easy|].
  assert (X : forall i c, i < n -> c < m -> app (n * m) (kron m eye B) v (i * m + c) = app m B (fun k => v (i * m + k)) c).
  { intros i c Hi Hc. unfold app. rewrite S_mul. rewrite (S_single n i); auto.
    - apply S_ext. intros k Hk. unfold kron. destruct (dm m i c Hc) as [-> ->]. destruct (dm m i k Hk) as [-> ->]. unfold eye. rewrite Nat.eqb_refl. cring.
    - intros l Hl N. apply S_0. intros k Hk. unfold kron. destruct (dm m i c Hc) as [-> ->]. destruct (dm m l k Hk) as [-> ->]. unfold eye. destruct (Nat.eqb_spec i l); [congruence|]. cring. }
  unfold nsq. rewrite !RS_mul, <- RS_l. apply RS_le. intros i Hi. rewrite (RS_ext m _ (fun c => sq (app m B (fun k => v (i * m + k)) c))) by (intros c Hc; now rewrite X).
  apply (nrm_nsq m (app m B (fun k => v (i * m + k))) b (fun k => v (i * m + k)) B0). apply KB.
Qed.
Lemma bounded_kron n m A B a b : bounded n A a -> bounded m B b -> bounded (n * m) (kron m A B) (a * b).
Proof.
  intros HA HB. apply (bounded_ext (n * m) (mm (n * m) (kron m A eye) (kron m eye B))).
  - intros i j Hi Hj. rewrite kron_mul by easy. destruct (divmod_lt _ _ _ Hi), (divmod_lt _ _ _ Hj). unfold kron. now rewrite mm_eye_r, mm_eye_l.
  - apply bounded_mm; [now apply bounded_kron_l | now apply bounded_kron_r].
Qed.
Lemma bounded_tensor ks (d : nat -> nat) (f : nat -> cmat) (c : nat -> R) : (forall k, In k ks -> bounded (d k) (f k) (c k)) ->
  bounded (prodn (map d ks)) (tensor (map (fun k => (d k, f k)) ks)) (fold_right (fun k r => (c k * r)%R) 1%R ks).
Proof.
  induction ks as [|k ks IH]; intros H; cbn [map prodn fold_right tensor].
  - apply bounded_app; [lra|]. intros v. rewrite Rmult_1_l. apply Req_le. unfold nrm, nsq, app. f_equal. unfold RS, S. cbn [sumn]. f_equal. f_equal. cbn. ring.
  - fold (prodn (map d ks)). rewrite map_map. cbn [fst]. apply bounded_kron; [apply H; now left | apply IH; intros; apply H; now right].
Qed.
Lemma bounded_lift D n i A a : i < n -> bounded (D i) A a -> bounded (size D n) (lift D n i A) a.
Proof.
  intros Hi HA. unfold size, lift. eapply bounded_le; [|apply (bounded_tensor (seq 0 n) D (fun k => if Nat.eqb k i then A else eye) (fun k => if Nat.eqb k i then a else 1%R))].
  - apply Req_le. assert (G : forall m s, fold_right (fun k r => ((if Nat.eqb k i then a else 1) * r)%R) 1%R (seq s m) = if (s <=? i) && (i <? s + m) then a else 1%R).
    { induction m as [|m IH]; intros s; cbn [seq fold_right]. { destruct (Nat.leb_spec s i), (Nat.ltb_spec i (s + 0)); cbn; try easy; lia. }
      rewrite IH. destruct (Nat.eqb_spec s i), (Nat.leb_spec (Datatypes.S s) i), (Nat.ltb_spec i (Datatypes.S s + m)), (Nat.leb_spec s i), (Nat.ltb_spec i (s + Datatypes.S m)); cbn; try lia; ring. }
    rewrite G. destruct (Nat.leb_spec 0 i), (Nat.ltb_spec i (0 + n)); cbn; try lia; reflexivity.
  - intros k _. destruct (Nat.eqb_spec k i) as [->|]; [easy | apply bounded_eye].
Qed.
(** ** unitary matrices, small matrices, tidyup *)
Lemma bounded_isometry n U : same n (mm n (mdag U) U) eye -> bounded n U 1.
Proof.
  intros H. apply bounded_app; [lra|]. intros v. rewrite Rmult_1_l. apply Req_le. unfold nrm. f_equal. apply RtoC_inj. rewrite <- !inner_self.
  transitivity (inner n v (app n (mm n (mdag U) U) v)).
  - unfold inner, app, mm, mmul. transitivity (S n (fun i => S n (fun k => S n (fun l => (Cconj (v k) * (Cconj (U i k) * U i l) * v l)%C)))).
    { apply S_ext. intros i _. rewrite conj_sum, S_r. apply S_ext. intros k _. rewrite S_l. apply S_ext. intros l _. rewrite conj_mult. ring. }
    rewrite S_swap. apply S_ext. intros k _. rewrite S_swap, S_l. apply S_ext. intros l _. rewrite S_r, S_l. apply S_ext. intros i _. unfold mdag. cbn [kmul C_rng]. ring.
  - apply inner_ext. intros i Hi. rewrite (app_ext n _ eye v i Hi H). unfold app. rewrite (S_single n i); auto.
    + unfold eye. rewrite Nat.eqb_refl. cring.
    + intros k _ N. unfold eye. destruct (Nat.eqb_spec i k); [congruence|]. cring.
Qed.
Lemma RS_const n c : RS n (fun _ => c) = (INR n * c)%R.
Proof. induction n as [|n IH]; [unfold RS; cbn; ring|]. rewrite RS_S, IH, S_INR. ring. Qed.
Lemma sum_norm n v : (RS n (fun i => Cmod (v i)) <= sqrt (INR n) * nrm n v)%R.
Proof.
  rewrite (RS_ext n _ (fun i => (1 * Cmod (v i))%R)) by (intros; ring). eapply Rle_trans; [apply (RS_cs_sqrt n (fun _ => 1%R) (fun i => Cmod (v i)))|]. unfold nrm, nsq.
  rewrite (RS_const n (1 * 1)), (RS_ext n (fun i => (Cmod (v i) * Cmod (v i))%R) (fun i => sq (v i))) by (intros; apply Cmod_sq). replace (INR n * (1 * 1))%R with (INR n) by ring. lra.
Qed.
Lemma bounded_small n A e : (0 <= e)%R -> (forall i j, i < n -> j < n -> (Cmod (A i j) <= e)%R) -> bounded n A (INR n * e).
Proof.
  intros E0 H. split; [pose proof (pos_INR n); nra|]. intros u v. unfold inner. eapply Rle_trans; [apply Cmod_S|].
  apply Rle_trans with (RS n (fun i => (e * RS n (fun k => Cmod (v k))) * Cmod (u i))%R).
  - apply RS_le. intros i Hi. rewrite Cmod_mult, Cmod_conj, Rmult_comm. apply Rmult_le_compat_r; [apply Cmod_ge_0|]. unfold app. eapply Rle_trans; [apply Cmod_S|].
    rewrite <- RS_l. apply RS_le. intros k Hk. rewrite Cmod_mult. apply Rmult_le_compat_r; [apply Cmod_ge_0 | now apply H].
  - rewrite RS_l. pose proof (sum_norm n u) as U. pose proof (sum_norm n v) as V. pose proof (sqrt_sqrt (INR n) (pos_INR n)) as Q.
    assert (U0 : (0 <= RS n (fun i => Cmod (u i)))%R) by (apply RS_nonneg; intros; apply Cmod_ge_0). assert (V0 : (0 <= RS n (fun i => Cmod (v i)))%R) by (apply RS_nonneg; intros; apply Cmod_ge_0).
    assert (P : (RS n (fun k => Cmod (v k)) * RS n (fun i => Cmod (u i)) <= (sqrt (INR n) * nrm n v) * (sqrt (INR n) * nrm n u))%R) by (apply Rmult_le_compat; easy).
    replace ((sqrt (INR n) * nrm n v) * (sqrt (INR n) * nrm n u))%R with (INR n * (nrm n v * nrm n u))%R in P by (transitivity (sqrt (INR n) * sqrt (INR n) * (nrm n v * nrm n u))%R; [now rewrite Q | ring]). rewrite Rmult_assoc. apply (Rmult_le_compat_l e) in P; [|easy]. eapply Rle_trans; [exact P|]. apply Req_le. ring.
Qed.
Lemma sanR_near tol x : (0 < tol)%R -> (Rabs (sanR tol x - x) <= tol)%R.
Proof. intros T. unfold sanR. destruct (Rlt_dec (Rabs x) tol); [rewrite Rminus_0_l, Rabs_Ropp; lra | rewrite Rminus_eq_0, Rabs_R0; lra]. Qed.
Lemma sanC_near tol z : (0 < tol)%R -> (Cmod (sanC tol z - z)%C <= 2 * tol)%R.
Proof.
  intros T. pose proof (sanR_near tol (fst z) T) as A. pose proof (sanR_near tol (snd z) T) as B.
  replace (sanC tol z - z)%C with (RtoC (sanR tol (fst z) - fst z) + RtoC (sanR tol (snd z) - snd z) * Ci)%C by (destruct z; apply injective_projections; cbn; ring).
  eapply Rle_trans; [apply Cmod_triangle|]. rewrite Cmod_mult, !Cmod_R. assert (Cmod Ci = 1%R) as ->; [|lra]. unfold Cmod. cbn. replace (0 * (0 * 1) + 1 * (1 * 1))%R with 1%R by ring. apply sqrt_1.
Qed.
Lemma bounded_rest n A : bounded n (mminus (tidyup A) A) (INR n * (2 * atol)).
Proof. assert (T : (0 < atol)%R) by apply NumCharge.atol_small. apply bounded_small; [lra|]. intros i j _ _. unfold mminus, tidyup. now apply sanC_near. Qed.
Lemma bounded_tidy n A a : bounded n A a -> bounded n (tidyup A) (a + INR n * (2 * atol)).
Proof.
  intros H. apply (bounded_ext n (mplus A (mminus (tidyup A) A))).
  - intros i j _ _. unfold mplus, mminus. ring.
  - apply bounded_plus; [easy | apply bounded_rest].
Qed.
(** ** Weyl's inequality *)
Section Weyl.
  Variables (n : nat) (A A' : matrix) (E E' : nat -> R) (d : R).
  Lemma rayleigh B F V v : unitary n V -> same n (mul n B V) (mul n V (diagonal (fun k => RtoC (F k)))) ->
    inner n v (app n B v) = RtoC (RS n (fun l => (F l * sq (inner n (fun i => V i l) v))%R)) /\ nsq n v = RS n (fun l => sq (inner n (fun i => V i l) v)).
  Proof.
    intros HV HB. assert (G : forall (w : nat -> R) K, (forall a b, a < n -> b < n -> K a b = S n (fun l => (RtoC (w l) * (V a l * Cconj (V b l)))%C)) -> inner n v (app n K v) = RtoC (RS n (fun l => (w l * sq (inner n (fun i => V i l) v))%R))).
    { intros w K HK. rewrite <- S_R. transitivity (S n (fun a => S n (fun b => S n (fun l => (Cconj (v a) * (RtoC (w l) * (V a l * Cconj (V b l))) * v b)%C)))).
      - unfold inner, app. apply S_ext. intros a Ha. rewrite S_l. apply S_ext. intros b Hb. rewrite (HK a b Ha Hb), S_r, S_l. apply S_ext. intros; ring.
      - transitivity (S n (fun l => S n (fun a => S n (fun b => (Cconj (v a) * (RtoC (w l) * (V a l * Cconj (V b l))) * v b)%C)))).
        + rewrite <- (S_swap n n (fun a l => S n (fun b => (Cconj (v a) * (RtoC (w l) * (V a l * Cconj (V b l))) * v b)%C))). apply S_ext. intros a _. apply S_swap.
        + apply S_ext. intros l _. rewrite RtoC_mult, <- sq_C. unfold inner. rewrite conj_sum, S_r, S_l. apply S_ext. intros a _. rewrite S_l, S_l. apply S_ext. intros b _. rewrite conj_mult, conj_conj. ring. }
    split; [apply G; intros; apply (spectral n B F V HV HB); auto|].
    apply RtoC_inj. rewrite <- inner_self. rewrite (RS_ext n _ (fun l => (1 * sq (inner n (fun i => V i l) v))%R)) by (intros; ring). rewrite <- (G (fun _ => 1%R) eye).
    - apply inner_ext. intros i Hi. unfold app. rewrite (S_single n i); auto; unfold eye; [rewrite Nat.eqb_refl; cring|]. intros k _ N. destruct (Nat.eqb_spec i k); [congruence|]. cring.
    - intros a b Ha Hb. rewrite (resolution n V HV a b Ha Hb). apply S_ext. intros; ring.
  Qed.
  Hypothesis HE : spectrum n A E.
  Hypothesis HE' : spectrum n A' E'.
  Hypothesis OE : ascending n E.
  Hypothesis OE' : ascending n E'.
  Hypothesis Hd : forall v, (fst (inner n v (app n A' v)) <= fst (inner n v (app n A v)) + d * nsq n v)%R.
  Lemma weyl k : k < n -> (E' k <= E k + d)%R.
  Proof.
    intros Hk. destruct HE as (V & HV & EV), HE' as (V' & HV' & EV').
    destruct (underdetermined k (k + 1) (fun l j => S n (fun i => (Cconj (V' i l) * V i j)%C)) ltac:(lia)) as (c & (j & Hj & Nj) & Hc).
    set (v := fun i => S (k + 1) (fun a => (V i a * c a)%C)).
    assert (I1 : forall l, l < n -> inner n (fun i => V i l) v = if Nat.ltb l (k + 1) then c l else RtoC 0).
    { intros l Hl. transitivity (S (k + 1) (fun a => (eye l a * c a)%C)).
      - unfold inner, v. rewrite (S_ext n _ (fun i => S (k + 1) (fun a => (Cconj (V i l) * V i a * c a)%C))) by (intros i _; rewrite S_l; apply S_ext; intros; ring).
        rewrite S_swap. apply S_ext. intros a Ha. rewrite <- S_r. f_equal. destruct HV as [_ U2]. rewrite mul_same in U2. change identity with eye in U2. rewrite <- (U2 l a Hl ltac:(lia)). unfold mm, mmul. apply S_ext. intros i _. reflexivity.
      - destruct (Nat.ltb_spec l (k + 1)) as [L|L].
        + rewrite (S_single (k + 1) l); auto; unfold eye; [rewrite Nat.eqb_refl; cring|]. intros a _ N. destruct (Nat.eqb_spec l a); [congruence|]. cring.
        + apply S_0. intros a Ha. unfold eye. destruct (Nat.eqb_spec l a); [lia|]. cring. }
    assert (I2 : forall l, l < k -> inner n (fun i => V' i l) v = RtoC 0).
    { intros l Hl. rewrite <- (Hc l Hl). unfold inner, v. rewrite (S_ext n _ (fun i => S (k + 1) (fun a => (Cconj (V' i l) * V i a * c a)%C))) by (intros i _; rewrite S_l; apply S_ext; intros; ring).
      rewrite S_swap. apply S_ext. intros a Ha. now rewrite <- S_r. }
    destruct (rayleigh A E V v HV EV) as [R1 N1]. destruct (rayleigh A' E' V' v HV' EV') as [R2 N2].
    assert (P : (0 < nsq n v)%R).
    { rewrite N1. apply (RS_pos n _ j); [intros; apply sq_pos | lia |]. rewrite I1 by lia. destruct (Nat.ltb_spec j (k + 1)); [|lia]. pose proof (sq_pos (c j)). destruct (Req_dec (sq (c j)) 0) as [Q|Q]; [destruct Nj; now apply sq_zero | lra]. }
    assert (L1 : (fst (inner n v (app n A v)) <= E k * nsq n v)%R).
    { rewrite R1, N1. cbn [fst RtoC]. rewrite <- RS_l. apply RS_le. intros l Hl. rewrite I1 by easy. destruct (Nat.ltb_spec l (k + 1)) as [L|L]; [|unfold sq; cbn; lra]. pose proof (OE l k ltac:(lia) Hk). pose proof (sq_pos (c l)). nra. }
    assert (L2 : (E' k * nsq n v <= fst (inner n v (app n A' v)))%R).
    { rewrite R2, N2. cbn [fst RtoC]. rewrite <- RS_l. apply RS_le. intros l Hl. destruct (le_lt_dec k l) as [G|G]; [|rewrite I2 by easy; unfold sq; cbn; lra]. pose proof (OE' k l G Hl). pose proof (sq_pos (inner n (fun i => V' i l) v)). nra. }
    specialize (Hd v). nra.
  Qed.
End Weyl.
