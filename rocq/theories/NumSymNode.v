(** Proofs for C119-C121: the operators of a node in the charge and in the
    oscillator basis. *)
From Coq Require Import List Bool String Arith Lia ZArith Reals Lra Setoid Morphisms Permutation.
From Coquelicot Require Import Complex.
From Verif Require Import Prelude PreludeFacts Mat MatFacts Util UtilProofs NumOp NumOpSpec NumKron NumSpectral NumCharge NumExpand NumHerm NumSymSpec NumSymProofs NumSymHam.
Import ListNotations.
Open Scope nat_scope.

Definition idn (i : nat) : nat := i.
Definition ones (i : nat) : R := 1%R.
Definition alt (i : nat) : R := if Nat.even i then 1%R else (-1)%R.
Definition back (t i : nat) : nat := 2 * t - i.
Lemma id_signed n : signed n idn ones.
Proof. intros i Hi. repeat split; auto. now left. Qed.
Lemma alt_sign i : onsign (alt i).
Proof. unfold alt. destruct (Nat.even i); [left|right]; easy. Qed.
Lemma alt_signed n : signed n idn alt.
Proof. intros i Hi. repeat split; auto. apply alt_sign. Qed.
Lemma back_signed t : signed (2 * t + 1) (back t) ones.
Proof. intros i Hi. unfold back. repeat split; try lia. now left. Qed.
Lemma turn_dag n sg ep A : same n (turn sg ep (mdag A)) (mdag (turn sg ep A)).
Proof. intros i j _ _. unfold turn, mdag. rewrite conj_mult, !conj_R, conj_conj. f_equal. f_equal. ring. Qed.

(** ** charge basis *)
Lemma chargeP_at t i j : i < 2 * t + 1 -> j < 2 * t + 1 -> chargeP t i j =
  @sumn C_rng (2 * t + 1) (fun a => (RtoC (qm t a / INR (2 * t + 1)) * (RtoC (/ INR (2 * t + 1)) * cis (2 * PI * qm t a * IZR (Z.of_nat j - Z.of_nat i) / INR (2 * t + 1))))%C).
Proof. intros Hi Hj. unfold chargeP. apply (@sumn_ext C_rng). intros a _. unfold ketbra. rewrite phik_prod by lia. reflexivity. Qed.
Lemma qm_back t a : a < 2 * t + 1 -> qm t (back t a) = (- qm t a)%R.
Proof. intros H. unfold qm, back. rewrite <- opp_IZR. f_equal. lia. Qed.
Lemma conj_chargeP t i j : i < 2 * t + 1 -> j < 2 * t + 1 -> Cconj (chargeP t i j) = (- chargeP t i j)%C.
Proof.
  intros Hi Hj. rewrite (chargeP_at t i j Hi Hj), conj_sum.
  rewrite <- (sum_involution (2 * t + 1) (back t)) by (intros a Ha; unfold back; lia).
  change (- ?x)%C with (@kopp C_rng x). rewrite <- (@sumn_opp C_rng). apply (@sumn_ext C_rng). intros a Ha. rewrite (qm_back t a Ha).
  rewrite !conj_mult, !conj_R, conj_cis. change (@kopp C_rng ?x) with (- x)%C.
  replace (- (2 * PI * - qm t a * IZR (Z.of_nat j - Z.of_nat i) / INR (2 * t + 1)))%R with (2 * PI * qm t a * IZR (Z.of_nat j - Z.of_nat i) / INR (2 * t + 1))%R by (unfold Rdiv; ring).
  replace (- qm t a / INR (2 * t + 1))%R with (- (qm t a / INR (2 * t + 1)))%R by (unfold Rdiv; ring). rewrite RtoC_opp. match goal with |- @eq _ ?a ?b => change (@eq C a b) end. ring.
Qed.
Lemma chargeP_back t i j : i < 2 * t + 1 -> j < 2 * t + 1 -> Cconj (chargeP t (back t i) (back t j)) = chargeP t i j.
Proof.
  intros Hi Hj. rewrite (chargeP_at t i j Hi Hj), (chargeP_at t (back t i) (back t j)), conj_sum by (unfold back; lia). apply (@sumn_ext C_rng). intros a _.
  rewrite !conj_mult, !conj_R, conj_cis. f_equal. f_equal. f_equal. replace (Z.of_nat (back t j) - Z.of_nat (back t i))%Z with (- (Z.of_nat j - Z.of_nat i))%Z by (unfold back; lia).
  rewrite opp_IZR. unfold Rdiv. ring.
Qed.
Lemma ones_c i j : RtoC (ones i * ones j) = RtoC 1.
Proof. unfold ones. now rewrite Rmult_1_r. Qed.
Lemma charge_flux eigh inv t : let N := 2 * t + 1 in let P := chargeP t in
  eigen_ok N P (fst (eigh N P)) (snd (eigh N P)) (inv N (snd (eigh N P))) -> turned idn ones 1 (charge_basis eigh inv t).
Proof.
  intros N P HE. destruct (charge_oD eigh inv t HE) as [HD HDd]. pose proof (id_signed N) as S. fold N in S. pose proof (turn_proper' _ _ _ S) as TP. fold N in HD, HDd. unfold turned. change (o_dim (charge_basis eigh inv t)) with N.
  assert (R1 : forall A B, (forall i j, i < N -> j < N -> Cconj (A i j) = B i j) -> same N (turn idn ones A) B).
  { intros A B H i j Hi Hj. unfold turn, idn. rewrite ones_c, H by easy. ring. }
  assert (SE : same N (oS (charge_basis eigh inv t)) eye) by (intros i j _ _; apply charge_oS).
  assert (SE' : same N (oSd (charge_basis eigh inv t)) eye) by (intros i j _ _; apply charge_oS).
  split; [|split; [|split]].
  - apply R1. intros i j Hi Hj. rewrite !charge_oQ. unfold msc. rewrite charge_oQ. destruct (Nat.eqb i j); rewrite conj_R; ring.
  - cbn [oP charge_basis]. rewrite (turn_tidy _ _ _ S). intros i j Hi Hj. unfold tidyup, msc. rewrite san_sign by (right; ring). f_equal.
    unfold turn, idn. rewrite ones_c, conj_chargeP by easy. rewrite RtoC_opp. ring.
  - intros _. rewrite !HD, !HDd, !SE, !SE'. split; [|split; [|split]]; try apply (turn_eye _ _ _ S).
    + apply R1. intros i j _ _. unfold shift. destruct (Nat.eqb j (i + 1)); apply conj_R.
    + apply R1. intros i j _ _. unfold mdag, shift. destruct (Nat.eqb i (j + 1)); now rewrite !conj_R.
  - intros E. exfalso. lra.
Qed.
Lemma charge_charge eigh inv t : let N := 2 * t + 1 in let P := chargeP t in
  eigen_ok N P (fst (eigh N P)) (snd (eigh N P)) (inv N (snd (eigh N P))) -> turned (back t) ones (-1) (charge_basis eigh inv t).
Proof.
  intros N P HE. destruct (charge_oD eigh inv t HE) as [HD HDd]. pose proof (back_signed t) as S. fold N in S. pose proof (turn_proper' _ _ _ S) as TP. fold N in HD, HDd. unfold turned. change (o_dim (charge_basis eigh inv t)) with N.
  assert (R1 : forall A B, (forall i j, i < N -> j < N -> Cconj (A (back t i) (back t j)) = B i j) -> same N (turn (back t) ones A) B).
  { intros A B H i j Hi Hj. unfold turn. rewrite ones_c, H by easy. ring. }
  assert (SE : same N (oS (charge_basis eigh inv t)) eye) by (intros i j _ _; apply charge_oS).
  assert (SE' : same N (oSd (charge_basis eigh inv t)) eye) by (intros i j _ _; apply charge_oS).
  assert (HX : same N (turn (back t) ones (shift t)) (mdag (shift t))).
  { apply R1. intros i j Hi Hj. unfold mdag, shift, back. f_equal. unfold N in *. destruct (Nat.eqb_spec (2 * t - j) (2 * t - i + 1)), (Nat.eqb_spec i (j + 1)); try reflexivity; lia. }
  split; [|split; [|split]].
  - apply R1. intros i j Hi Hj. unfold msc. rewrite !charge_oQ. unfold N in *. destruct (Nat.eqb_spec (back t i) (back t j)) as [E|E], (Nat.eqb_spec i j) as [E'|E']; unfold back in *; try lia; rewrite conj_R; [|ring].
    rewrite <- RtoC_mult, <- mult_IZR. f_equal. f_equal. lia.
  - cbn [oP charge_basis]. rewrite (turn_tidy _ _ _ S). intros i j Hi Hj. unfold tidyup, msc. rewrite san_sign by (left; ring). f_equal.
    unfold turn. rewrite ones_c, chargeP_back by easy. replace (- -1)%R with 1%R by ring. ring.
  - intros E. exfalso. lra.
  - intros _. rewrite !HD, !HDd, !SE, !SE'. split; [|split; [|split]]; try apply (turn_eye _ _ _ S); [exact HX|].
    rewrite turn_dag, HX. apply mdag_mdag.
Qed.

(** ** oscillator basis *)
Lemma conj_inv x : Cconj (/ RtoC x)%C = (/ RtoC x)%C.
Proof. apply injective_projections; cbn; unfold Rdiv; ring. Qed.
Lemma turn_cdiag n ep f : (forall i, onsign (ep i)) -> same n (turn idn ep (cdiag f)) (cdiag (fun k => Cconj (f k))).
Proof.
  intros H i j _ _. unfold turn, idn, cdiag. destruct (Nat.eqb_spec i j) as [->|]; [rewrite (onsign_sq _ (H j)); ring | rewrite conj_R; ring].
Qed.
Lemma eigen_turn n ep A E V W (s : R) : (forall i, onsign (ep i)) -> onsign s -> same n (turn idn ep A) (msc (RtoC s) A) -> eigen_ok n A E V W ->
  eigen_ok n A (fun k => s * E k)%R (turn idn ep V) (turn idn ep W).
Proof.
  intros He Hs HA. assert (S : signed n idn ep) by (intros i Hi; repeat split; auto). unfold eigen_ok. rewrite !mul_same. intros (H1 & H2 & H3).
  change identity with eye in *. rewrite <- !(turn_mm _ _ _ S), (turn_proper' _ _ _ S _ _ H2), (turn_proper' _ _ _ S _ _ H3). split; [|split; apply (turn_eye _ _ _ S)].
  change (diagonal (fun k => RtoC (E k))) with (cdiag (fun k => RtoC (E k))) in H1. change (diagonal (fun k => RtoC (s * E k))) with (cdiag (fun k => RtoC (s * E k))).
  apply (turn_proper' _ _ _ S) in H1. rewrite !(turn_mm _ _ _ S) in H1. rewrite HA in H1. rewrite (turn_cdiag n ep (fun k => RtoC (E k)) He) in H1.
  intros i j Hi Hj. specialize (H1 i j Hi Hj). rewrite mm_sc_l, mm_cdiag_r, conj_R in H1 by easy. rewrite mm_cdiag_r by easy.
  rewrite <- (Cmult_1_l (mm n A _ i j)), <- (onsign_sq s Hs), RtoC_mult, <- Cmult_assoc, H1, RtoC_mult. ring.
Qed.
Lemma matfun_turn eigh inv n ep A (s : R) (f g : R -> C) : (forall i, onsign (ep i)) -> onsign s -> same n (turn idn ep A) (msc (RtoC s) A) ->
  eigen_ok n A (fst (eigh n A)) (snd (eigh n A)) (inv n (snd (eigh n A))) -> (forall x, g (s * x)%R = Cconj (f x)) ->
  same n (turn idn ep (matfun eigh inv n f A)) (matfun eigh inv n g A).
Proof.
  intros He Hs HA H Hf. assert (S : signed n idn ep) by (intros i Hi; repeat split; auto). assert (K := eigen_turn n ep A _ _ _ s He Hs HA H). unfold matfun. destruct (eigh n A) as [E V]. cbn [fst snd] in *.
  rewrite !(turn_mm _ _ _ S), (turn_cdiag n ep (fun k => f (E k)) He). rewrite (spectral_unique n A _ _ _ _ _ _ g H K).
  apply mm_proper; [|reflexivity]. apply mm_proper; [reflexivity|]. intros i j _ _. unfold cdiag. now rewrite Hf.
Qed.
Lemma matfun_dag eigh inv n A f : herm n A -> eigen_ok n A (fst (eigh n A)) (snd (eigh n A)) (inv n (snd (eigh n A))) ->
  same n (mdag (matfun eigh inv n f A)) (matfun eigh inv n (fun x => Cconj (f x)) A).
Proof.
  intros HA H. assert (K : eigen_ok n A (fst (eigh n A)) (mdag (inv n (snd (eigh n A)))) (mdag (snd (eigh n A)))).
  { revert H. unfold eigen_ok. rewrite !mul_same. set (E := fst (eigh n A)). set (V := snd (eigh n A)). set (W := inv n V). change identity with eye. change (diagonal (fun k => RtoC (E k))) with (cdiag (fun k => RtoC (E k))).
    intros (H1 & H2 & H3). assert (X : same n (mm n W A) (mm n (cdiag (fun k => RtoC (E k))) W)).
    { rewrite <- (mm_1r n (mm n W A)), <- H2, !mmA, <- (mmA n A V W), H1, <- !mmA, H3, mm_1l. reflexivity. }
    assert (DD : same n (mdag (cdiag (fun k => RtoC (E k)))) (cdiag (fun k => RtoC (E k)))).
    { intros i j _ _. unfold mdag, cdiag. rewrite Nat.eqb_sym. destruct (Nat.eqb_spec i j) as [->|]; apply conj_R. }
    split; [|split].
    - apply mdag_proper in X. rewrite (mdag_mul n W A), (mdag_mul n (cdiag (fun k => RtoC (E k))) W), DD in X. unfold herm in HA. rewrite HA in X. exact X.
    - rewrite <- mdag_mul, H2. intros i j _ _. apply mdag_eye.
    - rewrite <- mdag_mul, H3. intros i j _ _. apply mdag_eye. }
  unfold matfun. destruct (eigh n A) as [E V]. cbn [fst snd] in *. rewrite (spectral_unique n A _ _ _ _ _ _ (fun x => Cconj (f x)) H K).
  rewrite !mdag_mul, <- mmA. apply mm_proper; [|reflexivity]. apply mm_proper; [reflexivity|]. intros i j _ _. unfold mdag, cdiag. rewrite Nat.eqb_sym.
  destruct (Nat.eqb_spec i j) as [->|]; [easy | apply conj_R].
Qed.
Lemma alt_step i : (alt (i + 1) = - alt i)%R.
Proof. unfold alt. rewrite Nat.add_1_r, Nat.even_succ, <- Nat.negb_even. destruct (Nat.even i); cbn; ring. Qed.
Lemma ladder_alt i j : (RtoC (alt i * alt j) * create i j = - create i j)%C /\ (RtoC (alt i * alt j) * destroy i j = - destroy i j)%C.
Proof.
  unfold create, destroy. split.
  - destruct (Nat.eqb_spec i (j + 1)) as [->|]; [|ring]. rewrite alt_step. replace (- alt j * alt j)%R with (- (alt j * alt j))%R by ring. rewrite (onsign_sq _ (alt_sign j)), RtoC_opp. ring.
  - destruct (Nat.eqb_spec (i + 1) j) as [<-|]; [|ring]. rewrite alt_step. replace (alt i * - alt i)%R with (- (alt i * alt i))%R by ring. rewrite (onsign_sq _ (alt_sign i)), RtoC_opp. ring.
Qed.
Lemma conj_opp z : Cconj (- z)%C = (- Cconj z)%C.
Proof. apply injective_projections; cbn; ring. Qed.
Lemma conj_Ci : Cconj Ci = (- Ci)%C.
Proof. apply injective_projections; cbn; ring. Qed.
Lemma oscQ_conj z chg i j : Cconj (oscQ z chg i j) = (- oscQ z chg i j)%C.
Proof.
  unfold oscQ, Cminus. rewrite !conj_mult, !conj_R, conj_plus, conj_opp, conj_Ci. destruct (conj_create i j) as [-> ->]. ring.
Qed.
Lemma oscP_conj z flx i j : Cconj (oscP z flx i j) = oscP z flx i j.
Proof. unfold oscP. rewrite !conj_mult, !conj_R, conj_plus. destruct (conj_create i j) as [-> ->]. ring. Qed.
Lemma oscQ_alt z chg i j : (RtoC (alt i * alt j) * oscQ z chg i j = - oscQ z chg i j)%C.
Proof. unfold oscQ. destruct (ladder_alt i j) as [A B]. replace (RtoC (alt i * alt j) * (Ci * RtoC (sqrt (1 / (2 * z))) * (create i j - destroy i j) * RtoC chg))%C
  with (Ci * RtoC (sqrt (1 / (2 * z))) * (RtoC (alt i * alt j) * create i j - RtoC (alt i * alt j) * destroy i j) * RtoC chg)%C by ring. rewrite A, B. ring. Qed.
Lemma oscP_alt z flx i j : (RtoC (alt i * alt j) * oscP z flx i j = - oscP z flx i j)%C.
Proof. unfold oscP. destruct (ladder_alt i j) as [A B]. replace (RtoC (alt i * alt j) * (RtoC (sqrt (z / 2)) * (create i j + destroy i j) * RtoC flx))%C
  with (RtoC (sqrt (z / 2)) * (RtoC (alt i * alt j) * create i j + RtoC (alt i * alt j) * destroy i j) * RtoC flx)%C by ring. rewrite A, B. ring. Qed.
(** the scaled operators of lines 1077, 1085 *)
Definition scaledP (ka z flx : R) : cmat := fun i j => (RtoC ka * oscP z flx i j / RtoC flx)%C.
Definition scaledQ (kb z chg : R) : cmat := fun i j => (RtoC kb * oscQ z chg i j / RtoC chg)%C.
Lemma osc_turned eigh inv t z chg flx ka kb (ep : nat -> R) (s : R) : (forall i, onsign (ep i)) -> onsign s ->
  (forall i j, (RtoC (ep i * ep j) * oscQ z chg i j = RtoC (- s) * oscQ z chg i j)%C) -> (forall i j, (RtoC (ep i * ep j) * oscP z flx i j = RtoC (- s) * oscP z flx i j)%C) ->
  right_on eigh inv t (scaledP ka z flx) -> right_on eigh inv t (scaledQ kb z chg) -> turned idn ep s (oscillator_basis eigh inv t z chg flx ka kb).
Proof.
  intros He Hs HQ HP RP RQ. assert (S : signed t idn ep) by (intros i Hi; repeat split; auto). pose proof (turn_proper' _ _ _ S) as TP. unfold turned. change (o_dim (oscillator_basis eigh inv t z chg flx ka kb)) with t.
  assert (Hs' : onsign (- s)) by (destruct Hs as [->| ->]; [right|left]; ring).
  cbn [oQ oP oD oDd oS oSd oscillator_basis]. change (fun i j => (RtoC ka * oscP z flx i j / RtoC flx)%C) with (scaledP ka z flx). change (fun i j => (RtoC kb * oscQ z chg i j / RtoC chg)%C) with (scaledQ kb z chg).
  assert (GP : same t (turn idn ep (scaledP ka z flx)) (msc (RtoC (- s)) (scaledP ka z flx))).
  { intros i j _ _. unfold turn, idn, msc, scaledP, Cdiv. rewrite !conj_mult, conj_R, conj_inv, oscP_conj.
    replace (RtoC (ep i * ep j) * (RtoC ka * oscP z flx i j * / RtoC flx))%C with (RtoC ka * (RtoC (ep i * ep j) * oscP z flx i j) * / RtoC flx)%C by ring. rewrite HP. ring. }
  assert (GQ : same t (turn idn ep (scaledQ kb z chg)) (msc (RtoC s) (scaledQ kb z chg))).
  { intros i j _ _. unfold turn, idn, msc, scaledQ, Cdiv. rewrite !conj_mult, conj_R, conj_inv, oscQ_conj.
    replace (RtoC (ep i * ep j) * (RtoC kb * - oscQ z chg i j * / RtoC chg))%C with (RtoC kb * - (RtoC (ep i * ep j) * oscQ z chg i j) * / RtoC chg)%C by ring. rewrite HQ, RtoC_opp. ring. }
  assert (hP : herm t (scaledP ka z flx)).
  { intros i j Hi Hj. pose proof (herm_oscP t z flx i j Hi Hj) as E. unfold mdag, scaledP, Cdiv in *. now rewrite !conj_mult, conj_R, conj_inv, E. }
  assert (hQ : herm t (scaledQ kb z chg)).
  { intros i j Hi Hj. pose proof (herm_oscQ t z chg i j Hi Hj) as E. unfold mdag, scaledQ, Cdiv in *. now rewrite !conj_mult, conj_R, conj_inv, E. }
  assert (DP := matfun_dag eigh inv t _ cis hP RP). assert (DQ := matfun_dag eigh inv t _ cis hQ RQ).
  set (Dm := matfun eigh inv t cis (scaledP ka z flx)) in *. set (Sm := matfun eigh inv t cis (scaledQ kb z chg)) in *.
  split; [|split; [|split]].
  - rewrite (turn_tidy _ _ _ S). intros i j _ _. unfold tidyup, msc. rewrite san_sign by easy. f_equal. unfold turn, idn. rewrite oscQ_conj.
    replace (RtoC (ep i * ep j) * - oscQ z chg i j)%C with (- (RtoC (ep i * ep j) * oscQ z chg i j))%C by ring. rewrite HQ, RtoC_opp. ring.
  - rewrite (turn_tidy _ _ _ S). intros i j _ _. unfold tidyup, msc. rewrite san_sign by easy. f_equal. unfold turn, idn. rewrite oscP_conj. apply HP.
  - intros Es. assert (X1 : same t (turn idn ep Dm) Dm).
    { apply (matfun_turn eigh inv t ep _ (- s) cis cis He Hs' GP RP). intros x. rewrite conj_cis, Es. f_equal. ring. }
    assert (X2 : same t (turn idn ep Sm) (mdag Sm)).
    { rewrite DQ. apply (matfun_turn eigh inv t ep _ s cis _ He Hs GQ RQ). intros x. cbv beta. now rewrite Es, Rmult_1_l. }
    split; [|split; [|split]]; rewrite (turn_tidy _ _ _ S); [now rewrite X1 | now rewrite turn_dag, X1 | now rewrite X2 | rewrite turn_dag, X2, mdag_mdag; reflexivity].
  - intros Es. assert (X1 : same t (turn idn ep Dm) (mdag Dm)).
    { rewrite DP. apply (matfun_turn eigh inv t ep _ (- s) cis _ He Hs' GP RP). intros x. cbv beta. rewrite Es. do 2 f_equal. ring. }
    assert (X2 : same t (turn idn ep Sm) Sm).
    { apply (matfun_turn eigh inv t ep _ s cis cis He Hs GQ RQ). intros x. rewrite conj_cis, Es. f_equal. ring. }
    split; [|split; [|split]]; rewrite (turn_tidy _ _ _ S); [now rewrite X1 | rewrite turn_dag, X1, mdag_mdag; reflexivity | now rewrite X2 | now rewrite turn_dag, X2].
Qed.
Lemma osc_flux eigh inv t z chg flx ka kb : right_on eigh inv t (scaledP ka z flx) -> right_on eigh inv t (scaledQ kb z chg) -> turned idn alt 1 (oscillator_basis eigh inv t z chg flx ka kb).
Proof.
  apply osc_turned; [apply alt_sign | now left | |]; intros i j; [rewrite oscQ_alt | rewrite oscP_alt]; rewrite RtoC_opp; ring.
Qed.
Lemma osc_charge eigh inv t z chg flx ka kb : right_on eigh inv t (scaledP ka z flx) -> right_on eigh inv t (scaledQ kb z chg) -> turned idn ones (-1) (oscillator_basis eigh inv t z chg flx ka kb).
Proof.
  apply osc_turned; [intros; now left | now right | |]; intros i j; rewrite ones_c; replace (- -1)%R with 1%R by ring; reflexivity.
Qed.
