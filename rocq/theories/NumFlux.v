(** The flux bases and the relation between the flux operator and the Josephson
    displacement (C105-C108). *)
From Coq Require Import List Bool Arith Lia ZArith Reals Lra Setoid Morphisms FunctionalExtensionality.
From Coquelicot Require Import Complex.
From Verif Require Import Prelude Mat MatFacts Util NumOp NumOpSpec NumKron NumSpectral NumCharge NumOsc NumPot NumOpProofs.
Import ListNotations.
Open Scope nat_scope.

Lemma matfun_of eigh inv n (f : R -> C) A E V W :
  eigen_ok n A (fst (eigh n A)) (snd (eigh n A)) (inv n (snd (eigh n A))) -> eigen_ok n A E V W ->
  same n (matfun eigh inv n f A) (mm n (mm n V (cdiag (fun k => f (E k)))) W).
Proof. intros H H'. unfold matfun. destruct (eigh n A) as [E0 V0]. cbn [fst snd] in H. exact (spectral_unique n _ _ _ _ _ _ _ f H H'). Qed.

(** a diagonal matrix is its own decomposition *)
Lemma diag_eigen n A g : (forall i j, i < n -> j < n -> A i j = cdiag (fun k => RtoC (g k)) i j) -> eigen_ok n A g eye eye.
Proof.
  intros HA. unfold eigen_ok. rewrite !mul_same. split; [|split; apply mm_1l].
  change (diagonal (fun k => RtoC (g k))) with (cdiag (fun k => RtoC (g k))). rewrite mm_1l, mm_1r. exact HA.
Qed.
Lemma matfun_diag eigh inv n (f : R -> C) A g : (forall i j, i < n -> j < n -> A i j = cdiag (fun k => RtoC (g k)) i j) ->
  eigen_ok n A (fst (eigh n A)) (snd (eigh n A)) (inv n (snd (eigh n A))) ->
  same n (matfun eigh inv n f A) (cdiag (fun k => f (g k))).
Proof. intros HA H. rewrite (matfun_of eigh inv n f A g eye eye H (diag_eigen n A g HA)), mm_1l, mm_1r. reflexivity. Qed.
Lemma numQ_diag t i j : numQ t i j = cdiag (fun k => RtoC (IZR (Z.of_nat t - Z.of_nat k))) i j.
Proof.
  unfold numQ, cdiag. destruct (Nat.eqb i j); [|easy]. rewrite minus_IZR, <- !INR_IZR_INZ, <- RtoC_opp, <- RtoC_plus. f_equal. ring.
Qed.

(** ** C105 *)
Lemma flux_D eigh inv t : let N := 2 * t + 1 in
  eigen_ok N (numQ t) (fst (eigh N (numQ t))) (snd (eigh N (numQ t))) (inv N (snd (eigh N (numQ t)))) ->
  same N (mminus (matfun eigh inv N (fun e => cis (- 2 * PI * e)) (numQ t)) (corner t)) (mminus eye (corner t)).
Proof.
  intros N H i j Hi Hj. unfold mminus. f_equal.
  rewrite (matfun_diag eigh inv N _ _ _ (fun i j _ _ => numQ_diag t i j) H i j Hi Hj). unfold cdiag, eye. destruct (Nat.eqb i j); [|easy].
  replace (- 2 * PI * IZR (Z.of_nat t - Z.of_nat i))%R with (2 * PI * IZR (- (Z.of_nat t - Z.of_nat i)))%R by (rewrite opp_IZR; ring). apply cis_2PI_Z.
Qed.
Definition flux_D_entry (t i j : nat) : Z := ((if Nat.eqb i j then 1 else 0) - (if Nat.eqb i (2 * t) && Nat.eqb j 0 then 1 else 0))%Z.
Lemma flux_entry t i j : mminus eye (corner t) i j = RtoC (IZR (flux_D_entry t i j)).
Proof.
  unfold mminus, eye, corner, ketbra, basis, flux_D_entry. rewrite minus_IZR.
  destruct (Nat.eqb i j), (Nat.eqb i (2 * t)), (Nat.eqb j 0); cbn [andb]; rewrite conj_R, <- RtoC_mult, <- RtoC_minus; f_equal; ring.
Qed.
Lemma flux_oD eigh inv t : let N := 2 * t + 1 in
  eigen_ok N (numQ t) (fst (eigh N (numQ t))) (snd (eigh N (numQ t))) (inv N (snd (eigh N (numQ t)))) ->
  forall i j, i < N -> j < N -> oD (flux_basis eigh inv t) i j = RtoC (IZR (flux_D_entry t i j)) /\ oDd (flux_basis eigh inv t) i j = RtoC (IZR (flux_D_entry t j i)).
Proof.
  intros N H i j Hi Hj. pose proof (flux_D eigh inv t H) as E. fold N in E. cbn [oD oDd flux_basis]. fold N. split; apply tidy_int.
  - rewrite E by easy. apply flux_entry.
  - unfold mdag. rewrite E by easy. rewrite flux_entry. apply conj_R.
Qed.
Lemma c105 eigh inv t : let N := 2 * t + 1 in let P := numQ t in let Q := chargeP t in
  eigen_ok N P (fst (eigh N P)) (snd (eigh N P)) (inv N (snd (eigh N P))) ->
  eigen_ok N Q (fst (eigh N Q)) (snd (eigh N Q)) (inv N (snd (eigh N Q))) ->
  let o := flux_basis eigh inv t in
  o_dim o = N /\
  (forall c i, (Z.abs c <= Z.of_nat t)%Z -> i < N -> apply N (oP o) (charge_state t c) i = (RtoC (IZR c) * charge_state t c i)%C) /\
  (forall c i, (- Z.of_nat t <= c < Z.of_nat t)%Z -> i < N -> apply N (oS o) (charge_state t c) i = charge_state t (c + 1) i) /\
  (forall i, i < N -> apply N (oS o) (charge_state t (Z.of_nat t)) i = RtoC 0) /\
  (forall c i, (- Z.of_nat t < c <= Z.of_nat t)%Z -> i < N -> apply N (oSd o) (charge_state t c) i = charge_state t (c - 1) i) /\
  (forall i, i < N -> apply N (oSd o) (charge_state t (- Z.of_nat t)) i = RtoC 0) /\
  same N (fun i j => (mul N (oP o) (oS o) i j - mul N (oS o) (oP o) i j)%C) (oS o) /\
  (forall i j, i < N -> j < N -> ~ (i = 2 * t /\ j = 0) -> oD o i j = identity i j) /\
  oD o (2 * t) 0 = (identity (2 * t)%nat 0%nat - RtoC 1)%C /\
  same N (oDd o) (fun i j => Cconj (oD o j i)).
Proof.
  intros N P Q HP HQ o. destruct (c56_charge eigh inv t HQ) as (_ & A1 & A2 & A3 & A4 & A5 & A6 & _). fold N in A1, A2, A3, A4, A5, A6.
  split; [reflexivity|]. split; [exact A1|]. split; [exact A2|]. split; [exact A3|]. split; [exact A4|]. split; [exact A5|]. split; [exact A6|].
  assert (D : forall i j, i < N -> j < N -> oD o i j = RtoC (IZR (flux_D_entry t i j)) /\ oDd o i j = RtoC (IZR (flux_D_entry t j i))) by (intros; now apply flux_oD).
  split; [|split].
  - intros i j Hi Hj X. rewrite (proj1 (D i j Hi Hj)). unfold flux_D_entry, identity. destruct (Nat.eqb_spec i (2 * t)), (Nat.eqb_spec j 0); try lia; cbn [andb]; destruct (Nat.eqb i j); reflexivity.
  - rewrite (proj1 (D (2 * t) 0 ltac:(unfold N; lia) ltac:(unfold N; lia))). unfold flux_D_entry, identity. rewrite Nat.eqb_refl. cbn [andb Nat.eqb].
    rewrite minus_IZR, RtoC_minus. destruct (Nat.eqb (2 * t) 0); reflexivity.
  - intros i j Hi Hj. rewrite (proj2 (D i j Hi Hj)), (proj1 (D j i Hj Hi)), conj_R. reflexivity.
Qed.
Lemma c105_bad eigh inv t : let N := 2 * t + 1 in let P := numQ t in
  eigen_ok N P (fst (eigh N P)) (snd (eigh N P)) (inv N (snd (eigh N P))) ->
  ~ same N (oD (flux_basis eigh inv t)) identity.
Proof.
  intros N P H E. specialize (E (2 * t) 0 ltac:(unfold N; lia) ltac:(unfold N; lia)).
  rewrite (proj1 (flux_oD eigh inv t H (2 * t) 0 ltac:(lia) ltac:(lia))) in E. unfold flux_D_entry, identity in E. rewrite Nat.eqb_refl in E. cbn [andb Nat.eqb] in E.
  rewrite minus_IZR in E. apply (f_equal fst) in E. cbn [fst RtoC] in E. destruct (Nat.eqb (2 * t) 0); cbn [fst RtoC] in E; lra.
Qed.
Lemma eigen_ok_ext n A A' E V W : same n A A' -> eigen_ok n A E V W -> eigen_ok n A' E V W.
Proof. intros H (K & K'). split; [|exact K']. rewrite !mul_same in K |- *. now rewrite <- H. Qed.
Lemma sum_qm t n : @sumn C_rng n (fun a => RtoC (qm t a)) = RtoC (INR n * (INR n - 1) / 2 - INR n * INR t).
Proof.
  induction n as [|n IH]; [cbn; f_equal; lra|]. cbn [sumn]. rewrite IH, qm_eq. cbn [kadd C_rng]. rewrite <- RtoC_plus. f_equal. rewrite S_INR. field.
Qed.
Lemma chargeP_00 t : chargeP t 0 0 = RtoC 0.
Proof.
  assert (HN : (0 < INR (2 * t + 1))%R) by (apply lt_0_INR; lia). unfold chargeP.
  rewrite (@sumn_ext C_rng _ _ (fun a => @kmul C_rng (RtoC (/ INR (2 * t + 1) * / INR (2 * t + 1))) (RtoC (qm t a)))).
  - rewrite <- (@sumn_mul_l C_rng), sum_qm. cbn [kmul C_rng]. rewrite <- RtoC_mult. f_equal. rewrite plus_INR, mult_INR. cbn [INR]. field. cbn [INR] in HN. rewrite plus_INR, mult_INR in HN. cbn [INR] in HN. lra.
  - intros a _. unfold ketbra. rewrite phik_prod by lia. rewrite Z.sub_diag. unfold Rdiv. rewrite Rmult_0_r, Rmult_0_l, cis_0, Cmult_1_r.
    cbn [kmul C_rng]. rewrite <- !RtoC_mult. f_equal. ring.
Qed.
(** an eigensolver and an inverse right on both operators *)
Lemma c105_witness t : exists eigh inv, let N := 2 * t + 1 in let P := numQ t in let Q := chargeP t in
  eigen_ok N P (fst (eigh N P)) (snd (eigh N P)) (inv N (snd (eigh N P))) /\
  eigen_ok N Q (fst (eigh N Q)) (snd (eigh N Q)) (inv N (snd (eigh N Q))).
Proof.
  exists (fun _ A => if Req_EM_T (fst (A 0 0)) 0 then (lam t, Phi t) else (fun k => IZR (Z.of_nat t - Z.of_nat k), eye)), (fun _ V => mdag V). cbv zeta.
  rewrite chargeP_00. cbn [fst RtoC]. destruct (Req_EM_T 0 0) as [_|B]; [|lra]. split; [|apply chargeP_eigen].
  destruct (Req_EM_T (fst (numQ t 0 0)) 0) as [E|E]; cbn [fst snd].
  - assert (t = 0) as ->.
    { rewrite numQ_diag in E. unfold cdiag in E. cbn [Nat.eqb fst RtoC] in E. apply (eq_IZR _ 0) in E. lia. }
    apply (eigen_ok_ext _ (chargeP 0)); [|apply chargeP_eigen]. intros i j Hi Hj. assert (i = 0) as -> by lia. assert (j = 0) as -> by lia.
    rewrite chargeP_00, numQ_diag. reflexivity.
  - apply (eigen_ok_ext _ (cdiag (fun k => RtoC (IZR (Z.of_nat t - Z.of_nat k))))); [intros i j _ _; symmetry; apply numQ_diag|].
    assert (X : same (2 * t + 1) (mdag eye) eye).
    { intros i j _ _. unfold mdag, eye. rewrite Nat.eqb_sym. destruct (Nat.eqb i j); apply conj_R. }
    destruct (diag_eigen (2 * t + 1) _ (fun k => IZR (Z.of_nat t - Z.of_nat k)) (fun i j _ _ => eq_refl)) as (K1 & K2 & K3).
    split; [exact K1|]. rewrite !mul_same in *. split; now rewrite X.
Qed.

Lemma conj_if (b : bool) : Cconj (if b then RtoC 1 else RtoC 0) = if b then RtoC 1 else RtoC 0.
Proof. destruct b; apply conj_R. Qed.

(** ** C106 *)
Lemma cis_period_Z x z : cis (x + 2 * PI * IZR z) = cis x.
Proof. rewrite cis_add, cis_2PI_Z. apply Cmult_1_r. Qed.
Lemma dft_sum_mod t (d : Z) : @sumn C_rng (2 * t + 1) (fun a => cis (2 * PI * qm t a * IZR d / INR (2 * t + 1))) =
  if Z.eqb (d mod Z.of_nat (2 * t + 1)) 0 then RtoC (INR (2 * t + 1)) else RtoC 0.
Proof.
  assert (HN : (0 < INR (2 * t + 1))%R) by (apply lt_0_INR; lia). set (N := 2 * t + 1) in *.
  pose proof (Z.mod_pos_bound d (Z.of_nat N) ltac:(unfold N; lia)) as B. pose proof (Z.div_mod d (Z.of_nat N) ltac:(unfold N; lia)) as D.
  set (r := (d mod Z.of_nat N)%Z) in *. set (m := (d / Z.of_nat N)%Z) in *. pose proof (dft_sum t r ltac:(fold N; lia)) as F. fold N in F. rewrite <- F. clear F.
  apply (@sumn_ext C_rng). intros a _. rewrite D, plus_IZR, mult_IZR, <- INR_IZR_INZ.
  rewrite <- (cis_period_Z (2 * PI * qm t a * IZR r / INR N) ((Z.of_nat a - Z.of_nat t) * m)). f_equal. rewrite mult_IZR. unfold qm. field. lra.
Qed.
Definition cj (A : cmat) : cmat := fun i j => Cconj (A i j).
Lemma cj_mm n A B : same n (mm n (cj A) (cj B)) (cj (mm n A B)).
Proof. intros i j _ _. unfold mm, mmul, cj. rewrite conj_sum. apply (@sumn_ext C_rng). intros k _. symmetry. apply conj_mult. Qed.
Lemma cj_eye n : same n (cj eye) eye.
Proof. intros i j _ _. unfold cj, eye. destruct (Nat.eqb i j); apply conj_R. Qed.
Global Instance cj_proper n : Proper (same n ==> same n) cj.
Proof. intros A A' H i j Hi Hj. unfold cj. now rewrite H. Qed.
Lemma unitary_eigen n A E V : same n (mm n V (mdag V)) eye -> same n (mm n (mdag V) V) eye ->
  same n A (mm n (mm n V (cdiag (fun k => RtoC (E k)))) (mdag V)) -> eigen_ok n A E V (mdag V).
Proof.
  intros H K HA. unfold eigen_ok. rewrite !mul_same. split; [|split; [exact H | exact K]].
  change (diagonal (fun k => RtoC (E k))) with (cdiag (fun k => RtoC (E k))). rewrite HA, (mmA _ _ (mdag V) V), K, mm_1r. reflexivity.
Qed.
Lemma gphi_conj t a m : m <= 2 * t -> gphi t a m = Cconj (phik t a m).
Proof.
  intros H. assert (HN : (0 < INR (2 * t + 1))%R) by (apply lt_0_INR; lia). unfold gphi. rewrite phik_at, conj_mult, conj_R, conj_cis by easy. do 2 f_equal. unfold qm at 2. rewrite !minus_IZR. field. lra.
Qed.
Definition GPhi (t : nat) : cmat := fun m a => gphi t a m.
Lemma GPhi_cj t : same (2 * t + 1) (GPhi t) (cj (Phi t)).
Proof. intros i j Hi Hj. apply gphi_conj. lia. Qed.
Lemma mdag_cj A i j : mdag (cj A) i j = cj (mdag A) i j. Proof. reflexivity. Qed.
Lemma GPhi_right t : same (2 * t + 1) (mm (2 * t + 1) (GPhi t) (mdag (GPhi t))) eye.
Proof. rewrite GPhi_cj. change (mdag (cj (Phi t))) with (cj (mdag (Phi t))). rewrite cj_mm, Phi_right. apply cj_eye. Qed.
Lemma GPhi_left t : same (2 * t + 1) (mm (2 * t + 1) (mdag (GPhi t)) (GPhi t)) eye.
Proof. rewrite GPhi_cj. change (mdag (cj (Phi t))) with (cj (mdag (Phi t))). rewrite cj_mm, Phi_left. apply cj_eye. Qed.
Definition gridP (t : nat) (pmax : R) : cmat := cdiag (fun i => RtoC (grid t pmax i)).
Lemma disc_basis eigh inv t pmax : 1 <= t -> discretized_flux_basis eigh inv t pmax =
  let N := 2 * t + 1 in
  let D := mminus (matfun eigh inv N (fun e => cis (- 2 * PI * e)) (gridP t pmax)) (corner t) in
  let S := mminus (matfun eigh inv N (fun e => cis (- 2 * PI * e)) (gridQ t pmax)) (corner t) in
  Ok (mkops N (tidyup (gridQ t pmax)) (tidyup (gridP t pmax)) (tidyup D) (tidyup (mdag D)) (tidyup S) (tidyup (mdag S))).
Proof. intros H. unfold discretized_flux_basis. destruct (Nat.eqb_spec t 0); [lia|]. reflexivity. Qed.
Lemma grid_step t k : 1 <= t -> 1 <= k -> (grid t (INR t / INR k) 1 - grid t (INR t / INR k) 0 = / INR k)%R.
Proof.
  intros H K. assert (0 < INR t)%R by (apply lt_0_INR; lia). assert (0 < INR k)%R by (apply lt_0_INR; lia). unfold grid. rewrite mult_INR. cbn [INR]. field. lra.
Qed.
Lemma gridQ_eigen t k : 1 <= t -> 1 <= k -> eigen_ok (2 * t + 1) (gridQ t (INR t / INR k)) (fun a => INR k * lam t a)%R (GPhi t) (mdag (GPhi t)).
Proof.
  intros Ht Hk. assert (0 < INR k)%R by (apply lt_0_INR; lia). apply unitary_eigen; [apply GPhi_right | apply GPhi_left|].
  intros i j Hi Hj. unfold gridQ. rewrite grid_step by easy. unfold Cdiv. rewrite Cmult_comm, (@sumn_mul_l C_rng). unfold mm at 1, mmul. apply (@sumn_ext C_rng). intros a Ha.
  match goal with |- _ = @kmul C_rng ?x ?y => change (@kmul C_rng x y) with (x * y)%C end. match goal with |- @kmul C_rng ?x ?y = _ => change (@kmul C_rng x y) with (x * y)%C end.
  change (@mmul C_rng (2 * t + 1) (GPhi t) (cdiag (fun k0 => RtoC (INR k * lam t k0))) i a) with (mm (2 * t + 1) (GPhi t) (cdiag (fun k0 => RtoC (INR k * lam t k0))) i a).
  rewrite mm_cdiag_r by easy. unfold ketbra, GPhi, mdag, lam. match goal with |- @eq _ ?a ?b => change (@eq C a b) end.
  rewrite <- RtoC_inv by (apply Rinv_neq_0_compat; lra). rewrite Rinv_inv, RtoC_mult. ring.
Qed.
Lemma grid_S eigh inv t k : let N := 2 * t + 1 in let Q := gridQ t (INR t / INR k) in 1 <= t -> 1 <= k ->
  eigen_ok N Q (fst (eigh N Q)) (snd (eigh N Q)) (inv N (snd (eigh N Q))) ->
  same N (matfun eigh inv N (fun e => cis (- 2 * PI * e)) Q) (fun i j => if Nat.eqb i ((j + k) mod N) then RtoC 1 else RtoC 0).
Proof.
  intros N Q Ht Hk H. assert (HN : (0 < INR N)%R) by (apply lt_0_INR; unfold N; lia).
  rewrite (matfun_of eigh inv N _ _ _ _ _ H (gridQ_eigen t k Ht Hk)). intros i j Hi Hj. unfold mm at 1, mmul.
  rewrite (@sumn_ext C_rng N _ (fun a => @kmul C_rng (RtoC (/ INR N)) (cis (2 * PI * qm t a * IZR (Z.of_nat i - Z.of_nat j - Z.of_nat k) / INR N)))).
  2: { intros a Ha. match goal with |- @kmul C_rng ?x ?y = _ => change (@kmul C_rng x y) with (x * y)%C end.
       match goal with |- (?x * ?y)%C = _ => change x with (mm N (GPhi t) (cdiag (fun a => cis (- 2 * PI * (INR k * lam t a)))) i a) end.
       rewrite mm_cdiag_r by easy. unfold mdag, GPhi. rewrite !gphi_conj, conj_conj by (unfold N in *; lia).
       match goal with |- _ = @kmul C_rng ?x ?y => change (@kmul C_rng x y) with (x * y)%C end.
       transitivity (cis (- 2 * PI * (INR k * lam t a)) * Cconj (phik t a i * Cconj (phik t a j)))%C; [rewrite conj_mult, conj_conj; match goal with |- @eq _ ?a ?b => change (@eq C a b) end; ring|].
       rewrite phik_prod, conj_mult, conj_R, conj_cis by (unfold N in *; lia). fold N.
       match goal with |- (?x * (?s * ?y))%C = (?s * ?z)%C => assert (E : (x * y)%C = z); [|rewrite <- E; match goal with |- @eq _ ?a ?b => change (@eq C a b) end; ring] end.
       rewrite <- cis_add. f_equal. unfold lam. fold N. rewrite !minus_IZR, <- (INR_IZR_INZ k). field. lra. }
  rewrite <- (@sumn_mul_l C_rng). unfold N at 2 3. rewrite dft_sum_mod. fold N. cbn [kmul C_rng].
  assert (E : ((Z.of_nat i - Z.of_nat j - Z.of_nat k) mod Z.of_nat N)%Z = 0%Z <-> i = (j + k) mod N).
  { rewrite <- (Nat2Z.inj_iff i), Nat2Z.inj_mod, Nat2Z.inj_add. assert (0 < Z.of_nat N)%Z by (unfold N; lia). split; intros X.
    - apply Z.mod_divide in X; [|lia]. destruct X as [q X]. replace (Z.of_nat j + Z.of_nat k)%Z with (Z.of_nat i + (- q) * Z.of_nat N)%Z by lia.
      rewrite Z.mod_add by lia. symmetry. apply Z.mod_small. lia.
    - apply Z.mod_divide; [lia|]. exists (- ((Z.of_nat j + Z.of_nat k) / Z.of_nat N))%Z. pose proof (Z.div_mod (Z.of_nat j + Z.of_nat k) (Z.of_nat N) ltac:(lia)). lia. }
  destruct (Z.eqb_spec ((Z.of_nat i - Z.of_nat j - Z.of_nat k) mod Z.of_nat N) 0) as [X|X], (Nat.eqb_spec i ((j + k) mod N)) as [Y|Y]; try (exfalso; tauto);
    rewrite <- RtoC_mult; f_equal; field; lra.
Qed.
Lemma sanR_close x : (Rabs (sanR atol x - x) < / 10 ^ 12)%R.
Proof.
  unfold sanR. destruct (Rlt_dec (Rabs x) atol) as [L|L].
  - replace (0 - x)%R with (- x)%R by ring. rewrite Rabs_Ropp. exact L.
  - unfold Rminus. rewrite Rplus_opp_r, Rabs_R0. apply atol_small.
Qed.
Lemma tidyup_close A i j : close (tidyup A i j) (A i j).
Proof. split; apply sanR_close. Qed.
Lemma apply_unit N A j i : j < N -> apply N A (unit_at j) i = A i j.
Proof.
  intros Hj. rewrite apply_sumn, (@sumn_single C_rng _ j); [|easy|].
  - unfold unit_at. rewrite Nat.eqb_refl. apply Cmult_1_r.
  - intros k Hk N'. unfold unit_at. destruct (Nat.eqb_spec k j); [lia|]. apply Cmult_0_r.
Qed.
Lemma c106 eigh inv t k : let N := 2 * t + 1 in let pmax := (INR t / INR k)%R in
  let x := fun i => ((INR i - INR t) / INR k)%R in
  let P := diagonal (fun i => RtoC (grid t pmax i)) in let Q := gridQ t pmax in 1 <= t -> 1 <= k ->
  eigen_ok N P (fst (eigh N P)) (snd (eigh N P)) (inv N (snd (eigh N P))) ->
  eigen_ok N Q (fst (eigh N Q)) (snd (eigh N Q)) (inv N (snd (eigh N Q))) ->
  exists o, discretized_flux_basis eigh inv t pmax = Ok o /\ o_dim o = N /\
  (forall i, i < N -> close (oP o i i) (RtoC (x i))) /\ (forall i j, i < N -> j < N -> i <> j -> oP o i j = RtoC 0) /\
  (forall i, i < N -> close (oD o i i) (cis (- (2 * PI * x i)))) /\
  (forall i j, i < N -> j < N -> i <> j -> oD o i j = if Nat.eqb i (2 * t) && Nat.eqb j 0 then RtoC (-1) else RtoC 0) /\
  (forall i j, i < N -> j < N -> apply N (oS o) (unit_at j) i = (unit_at ((j + k) mod N)%nat i - (if Nat.eqb j 0 then unit_at (2 * t)%nat i else RtoC 0))%C).
Proof.
  intros N pmax x P Q Ht Hk HP HQ. assert (0 < INR k)%R by (apply lt_0_INR; lia). assert (0 < INR t)%R by (apply lt_0_INR; lia).
  eexists. split; [apply disc_basis; exact Ht|]. cbv zeta. cbn [o_dim oP oD oS]. fold N pmax.
  assert (Gx : forall i, grid t pmax i = x i). { intros i. unfold grid, x, pmax. rewrite mult_INR. cbn [INR]. field. lra. }
  assert (HD : same N (matfun eigh inv N (fun e => cis (- 2 * PI * e)) (gridP t pmax)) (cdiag (fun i => cis (- (2 * PI * x i))))).
  { rewrite (matfun_diag eigh inv N _ (gridP t pmax) (grid t pmax) (fun i j _ _ => eq_refl) HP). intros i j _ _. unfold cdiag. destruct (Nat.eqb i j); [|easy].
    rewrite Gx. f_equal. ring. }
  split; [reflexivity|]. split; [|split; [|split; [|split]]].
  - intros i Hi. rewrite <- Gx. replace (RtoC (grid t pmax i)) with (gridP t pmax i i) by (unfold gridP, cdiag; now rewrite Nat.eqb_refl). apply tidyup_close.
  - intros i j _ _ Nij. apply (tidy_int _ i j 0). unfold gridP, cdiag. destruct (Nat.eqb_spec i j); [easy | reflexivity].
  - intros i Hi. rewrite <- (Cplus_0_r (cis (- (2 * PI * x i)))).
    replace (cis (- (2 * PI * x i)) + RtoC 0)%C with (mminus (matfun eigh inv N (fun e => cis (- 2 * PI * e)) (gridP t pmax)) (corner t) i i); [apply tidyup_close|].
    unfold mminus. rewrite HD by easy. unfold cdiag, corner, ketbra, basis. rewrite Nat.eqb_refl, conj_if.
    destruct (Nat.eqb_spec i (2 * t)), (Nat.eqb_spec i 0); try lia; ring.
  - intros i j Hi Hj Nij. assert (E : mminus (matfun eigh inv N (fun e => cis (- 2 * PI * e)) (gridP t pmax)) (corner t) i j = RtoC (IZR (if Nat.eqb i (2 * t) && Nat.eqb j 0 then -1 else 0))).
    { unfold mminus. rewrite HD by easy. unfold cdiag, corner, ketbra, basis. destruct (Nat.eqb_spec i j); [easy|].
      destruct (Nat.eqb i (2 * t)), (Nat.eqb j 0); cbn [andb]; rewrite conj_R, <- RtoC_mult, <- RtoC_minus; f_equal; ring. }
    rewrite (tidy_int _ i j _ E). destruct (Nat.eqb i (2 * t) && Nat.eqb j 0); reflexivity.
  - intros i j Hi Hj. rewrite apply_unit by easy.
    assert (E : mminus (matfun eigh inv N (fun e => cis (- 2 * PI * e)) (gridQ t pmax)) (corner t) i j =
      RtoC (IZR ((if Nat.eqb i ((j + k) mod N) then 1 else 0) - (if Nat.eqb i (2 * t) && Nat.eqb j 0 then 1 else 0)))).
    { unfold mminus. rewrite (grid_S eigh inv t k Ht Hk HQ) by easy. fold N. unfold corner, ketbra, basis. rewrite minus_IZR.
      destruct (Nat.eqb i ((j + k) mod N)), (Nat.eqb i (2 * t)), (Nat.eqb j 0); cbn [andb]; rewrite conj_R, <- RtoC_mult, <- RtoC_minus; f_equal; ring. }
    rewrite (tidy_int _ i j _ E). unfold unit_at. rewrite minus_IZR, RtoC_minus.
    destruct (Nat.eqb i ((j + k) mod N)), (Nat.eqb i (2 * t)), (Nat.eqb j 0); reflexivity.
Qed.

Lemma gridQ_00 t k : 1 <= t -> 1 <= k -> gridQ t (INR t / INR k) 0 0 = RtoC 0.
Proof.
  intros Ht Hk. unfold gridQ.
  match goal with |- (?s / _)%C = _ => replace s with (chargeP t 0 0); [rewrite chargeP_00; unfold Cdiv; apply Cmult_0_l|] end.
  apply (@sumn_ext C_rng). intros a _. unfold ketbra. rewrite !gphi_conj, conj_conj by lia. f_equal. apply Cmult_comm.
Qed.
Lemma c106_witness t k : 1 <= t -> 1 <= k -> exists eigh inv, let N := 2 * t + 1 in let pmax := (INR t / INR k)%R in
  let P := diagonal (fun i => RtoC (grid t pmax i)) in let Q := gridQ t pmax in
  eigen_ok N P (fst (eigh N P)) (snd (eigh N P)) (inv N (snd (eigh N P))) /\
  eigen_ok N Q (fst (eigh N Q)) (snd (eigh N Q)) (inv N (snd (eigh N Q))).
Proof.
  intros Ht Hk. exists (fun _ A => if Req_EM_T (fst (A 0 0)) 0 then (fun a => INR k * lam t a, GPhi t)%R else (grid t (INR t / INR k), eye)), (fun _ V => mdag V). cbv zeta.
  rewrite gridQ_00 by easy. cbn [fst RtoC]. destruct (Req_EM_T 0 0) as [_|B]; [|lra]. split; [|cbn [fst snd]; now apply gridQ_eigen].
  change (diagonal (fun i => RtoC (grid t (INR t / INR k) i)) 0 0) with (RtoC (grid t (INR t / INR k) 0)). cbn [fst RtoC]. assert (0 < INR t)%R by (apply lt_0_INR; lia). assert (0 < INR k)%R by (apply lt_0_INR; lia).
  assert (E : (grid t (INR t / INR k) 0 < 0)%R).
  { assert (0 < INR t / INR k)%R by (apply Rdiv_lt_0_compat; lra). unfold grid. cbn [INR]. lra. }
  destruct (Req_EM_T (grid t (INR t / INR k) 0) 0) as [B|_]; [lra|]. cbn [fst snd].
  assert (X : same (2 * t + 1) (mdag eye) eye).
  { intros i j _ _. unfold mdag, eye. rewrite Nat.eqb_sym. destruct (Nat.eqb i j); apply conj_R. }
  destruct (diag_eigen (2 * t + 1) _ (grid t (INR t / INR k)) (fun i j _ _ => eq_refl)) as (K1 & K2 & K3).
  split; [exact K1|]. rewrite !mul_same in *. split; now rewrite X.
Qed.

(** ** C107 *)
Lemma c107 eigh inv dims t : let N := 2 * t + 1 in let o := charge_basis eigh inv t in
  exists A, getCommutator inv dims N (oQ o) (oP o) BCharge = Some A /\
  (forall i j, i < N -> j < N -> A i j = (RtoC (dims * IZR (Z.of_nat i - Z.of_nat j)) * oP o i j)%C) /\
  ~ exists c, c <> RtoC 0 /\ same N A (fun i j => (c * identity i j)%C).
Proof.
  intros N o. eexists. split; [reflexivity|]. assert (E : forall i j, i < N -> j < N -> msc (RtoC dims) (comm N (oP o) (oQ o)) i j = (RtoC (dims * IZR (Z.of_nat i - Z.of_nat j)) * oP o i j)%C).
  { intros i j Hi Hj. unfold msc, comm, mminus.
    assert (EQ : forall a b, oQ o a b = cdiag (fun k => RtoC (IZR (Z.of_nat t - Z.of_nat k))) a b) by (intros; apply charge_oQ).
    rewrite (mm_ext N (oP o) (oP o) (oQ o) (cdiag (fun k => RtoC (IZR (Z.of_nat t - Z.of_nat k))))) by auto.
    rewrite (mm_ext N (oQ o) (cdiag (fun k => RtoC (IZR (Z.of_nat t - Z.of_nat k)))) (oP o) (oP o)) by auto.
    rewrite mm_cdiag_l, mm_cdiag_r by easy. rewrite RtoC_mult, !minus_IZR, !RtoC_minus. ring. }
  split; [exact E|]. intros (c & Hc & S). specialize (S 0 0 ltac:(unfold N; lia) ltac:(unfold N; lia)).
  rewrite E in S by (unfold N; lia). unfold identity in S. cbn [Nat.eqb] in S. rewrite Z.sub_diag, Rmult_0_r, Cmult_0_l, Cmult_1_r in S. now apply Hc.
Qed.

(** ** C108 *)
Lemma exp_of_matfun eigh inv n A c :
  eigen_ok n A (fst (eigh n A)) (snd (eigh n A)) (inv n (snd (eigh n A))) -> exp_of n A c (matfun eigh inv n (fun e => cis (c * e)) A).
Proof.
  intros H. exists (fst (eigh n A)), (snd (eigh n A)), (inv n (snd (eigh n A))). split; [exact H|]. rewrite !mul_same.
  unfold matfun. destruct (eigh n A) as [E V]. reflexivity.
Qed.
Lemma exp_of_unique n A c B E V W : exp_of n A c B -> eigen_ok n A E V W -> same n B (mm n (mm n V (cdiag (fun k => cis (c * E k)))) W).
Proof.
  intros (E' & V' & W' & H & S) K. rewrite S, !mul_same. exact (spectral_unique n A E' V' W' E V W (fun e => cis (c * e)) H K).
Qed.
Lemma c108_charge eigh inv t : let N := 2 * t + 1 in let P := chargeP t in
  eigen_ok N P (fst (eigh N P)) (snd (eigh N P)) (inv N (snd (eigh N P))) ->
  let o := charge_basis eigh inv t in
  exists D, exp_of N P (- 2 * PI) D /\ oP o = tidyup P /\ oD o = tidyup (fun i j => (D i j - unit_at (2 * t) i * unit_at 0 j)%C) /\
    (1 <= t -> ~ exp_of N P (2 * PI) D).
Proof.
  intros N P H o. exists (matfun eigh inv N (fun e => cis (- 2 * PI * e)) P). split; [now apply exp_of_matfun|]. split; [reflexivity|]. split.
  - cbn [o oD charge_basis]. fold N P. apply functional_extensionality. intros i. apply functional_extensionality. intros j. unfold tidyup, mminus, corner, ketbra, basis, unit_at.
    rewrite conj_if. reflexivity.
  - intros Ht X. pose proof (exp_of_unique N P (2 * PI) _ _ _ _ X (chargeP_eigen t)) as Y.
    pose proof (charge_D eigh inv t H 0 1 ltac:(lia) ltac:(lia)) as Z. fold N P in Z. unfold mminus, corner, ketbra, basis, shift in Z.
    destruct (Nat.eqb_spec 0 (2 * t)); [lia|]. cbn [Nat.eqb Nat.add] in Z.
    specialize (Y 0 1 ltac:(unfold N; lia) ltac:(unfold N; lia)). rewrite Y in Z. clear X Y. revert Z.
    assert (HN : (0 < INR N)%R) by (apply lt_0_INR; unfold N; lia). unfold mm at 1, mmul.
    rewrite (@sumn_ext C_rng N _ (fun a => @kmul C_rng (RtoC (/ INR N)) (cis (2 * PI * qm t a * IZR 2 / INR N)))).
    + rewrite <- (@sumn_mul_l C_rng). unfold N at 2 3. rewrite dft_sum by lia. cbn [Z.eqb kmul C_rng]. rewrite Cmult_0_r, Cmult_0_l. intros Z. apply (f_equal fst) in Z. cbn in Z. lra.
    + intros a Ha. match goal with |- @kmul C_rng ?x ?y = _ => change (@kmul C_rng x y) with (x * y)%C end.
      match goal with |- (?x * ?y)%C = _ => change x with (mm N (Phi t) (cdiag (fun a => cis (2 * PI * lam t a))) 0 a) end.
      rewrite mm_cdiag_r by easy. unfold mdag, Phi. match goal with |- _ = @kmul C_rng ?x ?y => change (@kmul C_rng x y) with (x * y)%C end.
      transitivity (cis (2 * PI * lam t a) * (phik t a 0 * Cconj (phik t a 1)))%C; [match goal with |- @eq _ ?a ?b => change (@eq C a b) end; ring|].
      rewrite phik_prod by lia. fold N.
      match goal with |- (?x * (?s * ?y))%C = (?s * ?z)%C => assert (E : (x * y)%C = z); [|rewrite <- E; match goal with |- @eq _ ?a ?b => change (@eq C a b) end; ring] end.
      rewrite <- cis_add. f_equal. unfold lam. fold N. change (Z.of_nat 1 - Z.of_nat 0)%Z with 1%Z. field. lra.
Qed.
Lemma eigen_scale n A B E V W r : r <> 0%R -> same n B (msc (RtoC r) A) -> eigen_ok n B E V W -> eigen_ok n A (fun k => E k / r)%R V W.
Proof.
  intros Hr HB (H & H'). split; [|exact H']. rewrite !mul_same in H |- *. rewrite HB in H.
  intros i j Hi Hj. specialize (H i j Hi Hj). change (diagonal (fun k => RtoC (E k))) with (cdiag (fun k => RtoC (E k))) in H.
  change (diagonal (fun k => RtoC (E k / r))) with (cdiag (fun k => RtoC (E k / r))). rewrite mm_sc_l, mm_cdiag_r in H by easy. rewrite mm_cdiag_r by easy.
  assert (RtoC r <> RtoC 0) by (intros X; apply RtoC_inj in X; easy). unfold Rdiv. rewrite RtoC_mult, RtoC_inv by easy.
  transitivity (/ RtoC r * (RtoC r * mm n A V i j))%C; [field; easy|]. rewrite H. ring.
Qed.
Lemma osc_exp eigh inv n A r B f : r <> 0%R -> f <> 0%R -> (forall i j, B i j = (RtoC (r * f) * A i j / RtoC f)%C) ->
  eigen_ok n B (fst (eigh n B)) (snd (eigh n B)) (inv n (snd (eigh n B))) -> exp_of n A r (matfun eigh inv n cis B).
Proof.
  intros Hr Hf HB H. assert (RtoC f <> RtoC 0) by (intros X; apply RtoC_inj in X; easy).
  exists (fun k => fst (eigh n B) k / r)%R, (snd (eigh n B)), (inv n (snd (eigh n B))). split.
  - apply (eigen_scale n A B _ _ _ r Hr); [|exact H]. intros i j _ _. rewrite HB. unfold msc. rewrite RtoC_mult. field. easy.
  - rewrite !mul_same. unfold matfun. destruct (eigh n B) as [E V]. cbn [fst snd].
    assert (X : same n (diagonal (fun k => (cos (r * (E k / r)), sin (r * (E k / r))))) (cdiag (fun k => cis (E k)))).
    { intros i j _ _. unfold diagonal, cdiag, cis. destruct (Nat.eqb i j); [|easy]. replace (r * (E i / r))%R with (E i) by (field; easy). reflexivity. }
    now rewrite X.
Qed.
Lemma c108_osc eigh inv t z chg flx : flx <> 0%R -> chg <> 0%R ->
  let ka := (2 * PI * flx)%R in let kb := (2 * PI * chg)%R in
  let Pp := fun i j => (RtoC ka * oscP z flx i j / RtoC flx)%C in
  let Qp := fun i j => (RtoC kb * oscQ z chg i j / RtoC chg)%C in
  eigen_ok t Pp (fst (eigh t Pp)) (snd (eigh t Pp)) (inv t (snd (eigh t Pp))) ->
  eigen_ok t Qp (fst (eigh t Qp)) (snd (eigh t Qp)) (inv t (snd (eigh t Qp))) ->
  let o := oscillator_basis eigh inv t z chg flx ka kb in
  exists D S, oP o = tidyup (oscP z flx) /\ oQ o = tidyup (oscQ z chg) /\ oD o = tidyup D /\ oS o = tidyup S /\
    exp_of t (oscP z flx) (2 * PI) D /\ exp_of t (oscQ z chg) (2 * PI) S.
Proof.
  intros Hf Hc ka kb Pp Qp HP HQ o. exists (matfun eigh inv t cis Pp), (matfun eigh inv t cis Qp).
  repeat (split; [reflexivity|]). assert (2 * PI <> 0)%R by (pose proof PI_RGT_0; lra).
  split; [apply (osc_exp eigh inv t (oscP z flx) (2 * PI) Pp flx) | apply (osc_exp eigh inv t (oscQ z chg) (2 * PI) Qp chg)]; auto.
Qed.
(** two levels *)
Definition two (a b c d : C) : cmat := fun i j => match i, j with 0, 0 => a | 0, _ => b | _, 0 => c | _, _ => d end.
Lemma two_eigen A E V W : (forall i j, i < 2 -> j < 2 -> (A i 0 * V 0 j + A i 1 * V 1 j = V i j * RtoC (E j))%C) ->
  (forall i j, i < 2 -> j < 2 -> (V i 0 * W 0 j + V i 1 * W 1 j = identity i j)%C) ->
  (forall i j, i < 2 -> j < 2 -> (W i 0 * V 0 j + W i 1 * V 1 j = identity i j)%C) -> eigen_ok 2 A E V W.
Proof.
  intros H1 H2 H3. split; [|split]; intros i j Hi Hj; unfold mul, csum; rewrite !Cplus_0_l; auto. rewrite H1 by easy.
  unfold diagonal. assert (j = 0 \/ j = 1) as [-> | ->] by lia; cbn [Nat.eqb]; ring.
Qed.
Lemma c108_witness z chg flx : (0 < z)%R -> flx <> 0%R -> chg <> 0%R -> exists eigh inv,
  let ka := (2 * PI * flx)%R in let kb := (2 * PI * chg)%R in
  let Pp := fun i j => (RtoC ka * oscP z flx i j / RtoC flx)%C in
  let Qp := fun i j => (RtoC kb * oscQ z chg i j / RtoC chg)%C in
  eigen_ok 2 Pp (fst (eigh 2 Pp)) (snd (eigh 2 Pp)) (inv 2 (snd (eigh 2 Pp))) /\
  eigen_ok 2 Qp (fst (eigh 2 Qp)) (snd (eigh 2 Qp)) (inv 2 (snd (eigh 2 Qp))).
Proof.
  intros Hz Hf Hc. set (p := (2 * PI * flx * sqrt (z / 2))%R). set (q := (2 * PI * chg * sqrt (1 / (2 * z)))%R).
  exists (fun _ A => if Req_EM_T (fst (A 1 0)) 0 then (fun k => if Nat.eqb k 0 then q else (- q)%R, two (RtoC 1) (RtoC 1) Ci (- Ci)%C)
                     else (fun k => if Nat.eqb k 0 then p else (- p)%R, two (RtoC 1) (RtoC 1) (RtoC 1) (RtoC (-1)))),
         (fun _ V => fun i j => (RtoC (/ 2) * Cconj (V j i))%C). cbv beta zeta.
  assert (F : RtoC flx <> RtoC 0) by (intros X; apply RtoC_inj in X; easy). assert (G : RtoC chg <> RtoC 0) by (intros X; apply RtoC_inj in X; easy).
  assert (PE : forall i j, i < 2 -> j < 2 -> (RtoC (2 * PI * flx) * oscP z flx i j / RtoC flx)%C = if Nat.eqb i j then RtoC 0 else RtoC p).
  { intros i j Hi Hj. unfold oscP, create, destroy. assert (i = 0 \/ i = 1) as [-> | ->] by lia; assert (j = 0 \/ j = 1) as [-> | ->] by lia; cbn [Nat.eqb Nat.add INR];
      rewrite ?sqrt_1; unfold p; rewrite ?RtoC_mult; field; exact F. }
  assert (QE : forall i j, i < 2 -> j < 2 -> (RtoC (2 * PI * chg) * oscQ z chg i j / RtoC chg)%C = if Nat.eqb i j then RtoC 0 else ((if Nat.eqb i 0 then - Ci else Ci) * RtoC q)%C).
  { intros i j Hi Hj. unfold oscQ, create, destroy. assert (i = 0 \/ i = 1) as [-> | ->] by lia; assert (j = 0 \/ j = 1) as [-> | ->] by lia; cbn [Nat.eqb Nat.add INR];
      rewrite ?sqrt_1; unfold q; rewrite ?RtoC_mult; field; exact G. }
  assert (p <> 0)%R. { unfold p. pose proof PI_RGT_0. assert (0 < sqrt (z / 2))%R by (apply sqrt_lt_R0; lra). apply Rmult_integral_contrapositive_currified; [apply Rmult_integral_contrapositive_currified; [lra | exact Hf] | lra]. }
  rewrite (PE 1 0), (QE 1 0) by lia. cbn [Nat.eqb]. assert (R0 : fst (Ci * RtoC q)%C = 0%R) by (cbn; ring). rewrite R0. cbn [fst RtoC].
  destruct (Req_EM_T p 0) as [B|_]; [easy|]. destruct (Req_EM_T 0 0) as [_|B]; [|lra]. cbn [fst snd].
  split; apply two_eigen; intros i j Hi Hj; rewrite ?PE, ?QE by lia; assert (i = 0 \/ i = 1) as [-> | ->] by lia; assert (j = 0 \/ j = 1) as [-> | ->] by lia;
    unfold two, identity; cbn [Nat.eqb]; apply injective_projections; cbn; field.
Qed.
Lemma c106_bad eigh inv t : let N := 2 * t + 1 in
  let P := diagonal (fun i => RtoC (grid t (INR t / INR 1) i)) in let Q := gridQ t (INR t / INR 1) in 1 <= t ->
  eigen_ok N P (fst (eigh N P)) (snd (eigh N P)) (inv N (snd (eigh N P))) ->
  eigen_ok N Q (fst (eigh N Q)) (snd (eigh N Q)) (inv N (snd (eigh N Q))) ->
  exists o, discretized_flux_basis eigh inv t (INR t / INR 1) = Ok o /\
  apply N (oS o) (unit_at (2 * t)) 0 = RtoC 1 /\ apply N (oS o) (unit_at 0) (2 * t) = RtoC (-1) /\ oD o (2 * t) 0 = RtoC (-1).
Proof.
  intros N P Q Ht HP HQ. destruct (c106 eigh inv t 1 Ht (le_n 1) HP HQ) as (o & E & _ & _ & _ & _ & HD & HS). exists o. split; [exact E|]. cbv zeta in HS.
  split; [|split].
  - rewrite HS by (unfold N; lia). replace ((2 * t + 1) mod (2 * t + 1)) with 0 by (symmetry; apply Nat.mod_same; lia). unfold unit_at.
    destruct (Nat.eqb_spec (2 * t) 0); [lia|]. cbn [Nat.eqb]. ring.
  - rewrite HS by (unfold N; lia). rewrite Nat.mod_small by lia. unfold unit_at. cbn [Nat.eqb]. rewrite Nat.eqb_refl.
    destruct (Nat.eqb_spec (2 * t) (0 + 1)); [lia|]. rewrite <- RtoC_minus. f_equal. ring.
  - rewrite HD by (unfold N; lia). now rewrite Nat.eqb_refl.
Qed.
