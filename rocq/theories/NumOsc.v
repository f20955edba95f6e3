(** The oscillator commutator and the resonator response. *)
From Coq Require Import List Bool Arith Lia ZArith Reals Lra Setoid Morphisms Permutation Sorted.
From Coquelicot Require Import Complex.
From Verif Require Import Prelude Sweep SweepProofs SweepResultProofs Mat MatFacts Util UtilProofs NumOp NumOpSpec NumKron NumSpectral NumCharge.
Import ListNotations.
Open Scope nat_scope.

(** ** ladder operators *)
Lemma destroy_create n i j : i < n -> j < n ->
  mm n destroy create i j = if Nat.eqb i j then (if Nat.eqb i (n - 1) then RtoC 0 else RtoC (INR (i + 1))) else RtoC 0.
Proof.
  intros Hi Hj. unfold mm, mmul. destruct (Nat.eq_dec i (n - 1)) as [E|E].
  - rewrite (@sumn_0 C_rng).
    + destruct (Nat.eqb i j); [|easy]. now rewrite (proj2 (Nat.eqb_eq _ _) E).
    + intros k Hk. unfold destroy. destruct (Nat.eqb_spec (i + 1) k); [lia|]. apply Cmult_0_l.
  - rewrite (@sumn_single C_rng n (i + 1)); [|lia|].
    + unfold destroy, create. rewrite Nat.eqb_refl. destruct (Nat.eqb_spec i j) as [->|N].
      * rewrite Nat.eqb_refl. destruct (Nat.eqb_spec j (n - 1)); [lia|]. cbn [kmul C_rng]. rewrite <- RtoC_mult, sqrt_sqrt; [easy|]. apply pos_INR.
      * destruct (Nat.eqb_spec (i + 1) (j + 1)); [lia|]. apply Cmult_0_r.
    + intros k Hk N. unfold destroy. destruct (Nat.eqb_spec (i + 1) k); [lia|]. apply Cmult_0_l.
Qed.
Lemma create_destroy_mm n i j : i < n -> j < n -> mm n create destroy i j = if Nat.eqb i j then RtoC (INR i) else RtoC 0.
Proof.
  intros Hi Hj. unfold mm, mmul. destruct i as [|i].
  - rewrite (@sumn_0 C_rng).
    + now destruct (Nat.eqb 0 j).
    + intros k Hk. unfold create. destruct (Nat.eqb_spec 0 (k + 1)); [lia|]. apply Cmult_0_l.
  - rewrite (@sumn_single C_rng n i); [|lia|].
    + unfold destroy, create. replace (Nat.eqb (S i) (i + 1)) with true by (symmetry; apply Nat.eqb_eq; lia).
      replace (Nat.eqb (i + 1) j) with (Nat.eqb (S i) j) by now rewrite Nat.add_1_r. destruct (Nat.eqb (S i) j); [|apply Cmult_0_r].
      cbn [kmul C_rng]. rewrite <- RtoC_mult, sqrt_sqrt by apply pos_INR. now rewrite Nat.add_1_r.
    + intros k Hk N. unfold create. destruct (Nat.eqb_spec (S i) (k + 1)); [lia|]. apply Cmult_0_l.
Qed.
Lemma ladder_comm n : same n (mminus (mm n destroy create) (mm n create destroy)) (correction n).
Proof.
  intros i j Hi Hj. unfold mminus. rewrite destroy_create, create_destroy_mm by easy. unfold correction, mminus, msc, ketbra, basis, eye.
  destruct (Nat.eqb_spec i j) as [->|N].
  - destruct (Nat.eqb_spec j (n - 1)) as [->|N'].
    + rewrite minus_INR by lia. rewrite conj_R, <- !RtoC_mult, <- !RtoC_minus. f_equal. cbn. ring.
    + rewrite conj_R, <- !RtoC_mult, <- !RtoC_minus, plus_INR. f_equal. cbn. ring.
  - destruct (Nat.eqb_spec i (n - 1)), (Nat.eqb_spec j (n - 1)); try lia; rewrite conj_R, <- !RtoC_mult, <- !RtoC_minus; f_equal; ring.
Qed.
Lemma osc_comm n z chg flx : (0 < z)%R -> same n (comm n (oscP z flx) (oscQ z chg)) (msc (Ci * RtoC (chg * flx))%C (correction n)).
Proof.
  intros Hz. rewrite <- ladder_comm. intros i j Hi Hj. unfold comm, mminus, msc.
  assert (EP : forall a b, oscP z flx a b = (RtoC (sqrt (z / 2) * flx) * (create a b + destroy a b))%C) by (intros; unfold oscP; rewrite RtoC_mult; ring).
  assert (EQ : forall a b, oscQ z chg a b = (Ci * RtoC (sqrt (1 / (2 * z)) * chg) * (create a b - destroy a b))%C) by (intros; unfold oscQ; rewrite RtoC_mult; ring).
  set (p := RtoC (sqrt (z / 2) * flx)) in *. set (q := (Ci * RtoC (sqrt (1 / (2 * z)) * chg))%C) in *.
  assert (L : mm n (oscP z flx) (oscQ z chg) i j = (p * q * (mm n create create i j - mm n create destroy i j + mm n destroy create i j - mm n destroy destroy i j))%C).
  { transitivity (mm n (msc p (mplus create destroy)) (msc q (mplus create (msc (- RtoC 1)%C destroy))) i j).
    - apply mm_ext; intros; [apply EP | rewrite EQ; unfold msc, mplus; ring].
    - rewrite mm_sc_l, mm_sc_r, mm_plus_l, !mm_plus_r, !mm_sc_r. ring. }
  assert (R' : mm n (oscQ z chg) (oscP z flx) i j = (p * q * (mm n create create i j + mm n create destroy i j - mm n destroy create i j - mm n destroy destroy i j))%C).
  { transitivity (mm n (msc q (mplus create (msc (- RtoC 1)%C destroy))) (msc p (mplus create destroy)) i j).
    - apply mm_ext; intros; [rewrite EQ; unfold msc, mplus; ring | apply EP].
    - rewrite mm_sc_l, mm_sc_r, mm_plus_l, mm_sc_l, !mm_plus_r. ring. }
  rewrite L, R'. clear L R'.
  assert (S : (sqrt (z / 2) * sqrt (1 / (2 * z)) = / 2)%R).
  { rewrite <- sqrt_mult.
    - replace (z / 2 * (1 / (2 * z)))%R with ((/ 2) * (/ 2))%R by (field; lra). apply sqrt_square. lra.
    - left. lra.
    - left. apply Rdiv_lt_0_compat; lra. }
  assert (E : (p * q)%C = (Ci * RtoC (chg * flx * / 2))%C).
  { unfold p, q. rewrite <- S, !RtoC_mult. ring. }
  rewrite E, RtoC_mult.
  transitivity (Ci * RtoC (chg * flx) * (RtoC (/ 2) * (RtoC 1 + RtoC 1)) * (mm n destroy create i j - mm n create destroy i j))%C; [ring|].
  rewrite <- RtoC_plus, <- (RtoC_mult (/ 2)). replace (/ 2 * (1 + 1))%R with 1%R by lra. ring.
Qed.
(** tidyup does nothing when the smallest entry is not below the tolerance *)
Lemma sanR_big tol c k : (tol <= Rabs c)%R -> (0 < tol)%R -> sanR tol (c * sqrt (INR (k + 1))) = (c * sqrt (INR (k + 1)))%R.
Proof.
  intros H H0. unfold sanR. destruct (Rlt_dec _ tol) as [L|L]; [|easy]. exfalso. rewrite Rabs_mult in L.
  assert (1 <= sqrt (INR (k + 1)))%R. { rewrite <- sqrt_1 at 1. apply sqrt_le_1_alt. rewrite plus_INR. cbn. pose proof (pos_INR k). lra. }
  rewrite (Rabs_pos_eq (sqrt _)) in L by lra. nra.
Qed.
Lemma sanR_0 tol : sanR tol 0 = 0%R.
Proof. unfold sanR. now destruct (Rlt_dec _ tol). Qed.
Lemma tidy_oscP z flx : (atol <= Rabs (sqrt (z / 2) * flx))%R -> forall i j, tidyup (oscP z flx) i j = oscP z flx i j.
Proof.
  intros H i j. pose proof atol_small as [A _].
  assert (E : exists k c, (c = sqrt (z / 2) * flx \/ c = 0)%R /\ oscP z flx i j = RtoC (c * sqrt (INR (k + 1)))).
  { unfold oscP, create, destroy. destruct (Nat.eqb_spec i (j + 1)) as [Ei|Ei].
    - exists j, (sqrt (z / 2) * flx)%R. split; [now left|]. destruct (Nat.eqb_spec (i + 1) j); [lia|].
      rewrite <- RtoC_plus, <- !RtoC_mult. f_equal. ring.
    - destruct (Nat.eqb_spec (i + 1) j) as [Ej|Ej].
      + exists i, (sqrt (z / 2) * flx)%R. split; [now left|]. rewrite <- RtoC_plus, <- !RtoC_mult. f_equal. ring.
      + exists 0, 0%R. split; [now right|]. rewrite <- RtoC_plus, <- !RtoC_mult. f_equal. ring. }
  destruct E as (k & c & Hc & E). unfold tidyup. rewrite E. unfold sanC, RtoC. cbn [fst snd]. rewrite sanR_0.
  destruct Hc as [->| ->]; [now rewrite sanR_big | now rewrite Rmult_0_l, sanR_0].
Qed.
Lemma tidy_oscQ z chg : (atol <= Rabs (sqrt (1 / (2 * z)) * chg))%R -> forall i j, tidyup (oscQ z chg) i j = oscQ z chg i j.
Proof.
  intros H i j. pose proof atol_small as [A _].
  assert (E : exists k c, (Rabs c = Rabs (sqrt (1 / (2 * z)) * chg) \/ c = 0)%R /\ oscQ z chg i j = (0%R, (c * sqrt (INR (k + 1)))%R)).
  { unfold oscQ, create, destroy. destruct (Nat.eqb_spec i (j + 1)) as [Ei|Ei].
    - exists j, (sqrt (1 / (2 * z)) * chg)%R. split; [now left|]. destruct (Nat.eqb_spec (i + 1) j); [lia|].
      apply injective_projections; cbn [fst snd Ci Cmult Cminus Copp Cplus RtoC]; ring.
    - destruct (Nat.eqb_spec (i + 1) j) as [Ej|Ej].
      + exists i, (- (sqrt (1 / (2 * z)) * chg))%R. split; [left; apply Rabs_Ropp|]. apply injective_projections; cbn [fst snd Ci Cmult Cminus Copp Cplus RtoC]; ring.
      + exists 0, 0%R. split; [now right|]. apply injective_projections; cbn [fst snd Ci Cmult Cminus Copp Cplus RtoC]; ring. }
  destruct E as (k & c & Hc & E). unfold tidyup. rewrite E. unfold sanC. cbn [fst snd]. rewrite sanR_0.
  destruct Hc as [Hc| ->]; [rewrite sanR_big; [easy | now rewrite Hc | easy] | now rewrite Rmult_0_l, sanR_0].
Qed.
Lemma commutator_osc eigh inv dims n z chg flx ka kb : (0 < z)%R ->
  (atol <= Rabs (sqrt (z / 2) * flx))%R -> (atol <= Rabs (sqrt (1 / (2 * z)) * chg))%R ->
  same n (mul n (correction n) (inv n (correction n))) identity ->
  let o := oscillator_basis eigh inv n z chg flx ka kb in
  exists A, getCommutator inv dims n (oQ o) (oP o) BOscillator = Some A /\ same n A (fun i j => (Ci * RtoC (chg * flx) * identity i j)%C).
Proof.
  intros Hz HP HQ Hi o. eexists. split; [reflexivity|].
  assert (E : same n (comm n (oP o) (oQ o)) (msc (Ci * RtoC (chg * flx))%C (correction n))).
  { rewrite <- (osc_comm n z chg flx Hz). assert (EP : same n (oP o) (oscP z flx)) by (intros i j _ _; now apply tidy_oscP).
    assert (EQ : same n (oQ o) (oscQ z chg)) by (intros i j _ _; now apply tidy_oscQ). unfold comm. now rewrite EP, EQ. }
  rewrite E. intros i j H1 H2. rewrite mm_sc_l. f_equal. rewrite <- mul_mm. now apply Hi.
Qed.

(** ** resonator *)
Lemma sorted_perm_unique (l l' : list R) : StronglySorted Rle l -> StronglySorted Rle l' -> Permutation l l' -> l = l'.
Proof.
  revert l'. induction l as [|x l IH]; intros l' H H' P.
  - now apply Permutation_nil in P.
  - destruct l' as [|y l']; [symmetry in P; now apply Permutation_nil in P|].
    inversion H as [|? ? H1 H2]; subst. inversion H' as [|? ? H3 H4]; subst.
    assert (x = y).
    { apply Rle_antisym.
      - assert (I : In y (x :: l)) by (eapply Permutation_in; [symmetry; exact P | now left]). destruct I as [->|I]; [lra|]. rewrite Forall_forall in H2. auto.
      - assert (I : In x (y :: l')) by (eapply Permutation_in; [exact P | now left]). destruct I as [->|I]; [lra|]. rewrite Forall_forall in H4. auto. }
    subst y. f_equal. apply IH; auto. now apply Permutation_cons_inv in P.
Qed.
Lemma first_index_spec x e : forall n k, (exists i, k <= i < k + n /\ e i = x) -> exists i, first_index x e k n = Ok i /\ k <= i < k + n /\ e i = x.
Proof.
  induction n as [|n IH]; intros k (i & Hi & E); [lia|]. cbn [first_index]. destruct (Req_EM_T (e k) x) as [Ek|Ek].
  - exists k. repeat split; auto; lia.
  - destruct (IH (S k)) as (i' & E1 & E2 & E3).
    + exists i. split; [|easy]. assert (i <> k) by congruence. lia.
    + exists i'. repeat split; auto; lia.
Qed.
Lemma sorted_shift c l : StronglySorted Rle l -> StronglySorted Rle (map (fun x => x + c)%R l).
Proof.
  induction 1 as [|x l H IH F]; cbn [map]; constructor; auto. apply Forall_forall. intros y Hy. apply in_map_iff in Hy as (z & <- & Hz).
  rewrite Forall_forall in F. specialize (F z Hz). lra.
Qed.
Lemma nth_error_seq0 n i : i < n -> nth_error (seq 0 n) i = Some i.
Proof. intros H. rewrite (nth_error_nth' _ 0) by now rewrite seq_length. now rewrite seq_nth. Qed.
Lemma resonator_bare eigvalsh wrl E0 tmax nmax me : eigvalsh_diag eigvalsh -> 2 <= tmax -> me 0 1 <> RtoC 0 ->
  exists rows, getResonatorResponse eigvalsh true 0 wrl E0 tmax nmax me = Some (Ok rows) /\ List.length rows = nmax + 1 + tmax /\
  forall n i, n < nmax + 1 + tmax -> i < tmax ->
    exists row, nth_error rows n = Some row /\ List.length row = tmax /\
    nth_error row i = Some ((E0 i - E0 0%nat) + IZR (Z.of_nat n - Z.of_nat i) * wrl)%R.
Proof.
  intros He Ht Hn. unfold getResonatorResponse. cbn [negb]. destruct (Nat.ltb_spec tmax 2) as [L|_]; [lia|].
  set (E := fun i => (E0 i - E0 0%nat)%R). set (bare := strip_diag wrl E 0). set (g := fun i => (0 * Cmod (me i (S i) / me 0%nat 1%nat)%C)%R).
  set (srt := eigvalsh tmax (diag_matrix bare)).
  destruct (He tmax (diag_matrix bare) bare) as [S0 P0]; [reflexivity|]. fold srt in S0, P0.
  assert (F : forall i, i < tmax -> exists k, first_index (bare i) srt 0 tmax = Ok k /\ k < tmax /\ srt k = bare i).
  { intros i Hi. destruct (first_index_spec (bare i) srt tmax 0) as (k & E1 & E2 & E3).
    - assert (I : In (bare i) (map srt (seq 0 tmax))).
      { eapply Permutation_in; [symmetry; exact P0|]. apply in_map, in_seq. lia. }
      apply in_map_iff in I as (k & Ek & Hk). apply in_seq in Hk. exists k. split; [lia | easy].
    - exists k. repeat split; auto. lia. }
  destruct (mapM_exists (fun i => first_index (bare i) srt 0 tmax) (seq 0 tmax)) as [order Ho].
  { intros i Hi. apply in_seq in Hi. destruct (F i) as (k & Ek & _); [lia|]. eauto. }
  rewrite Ho. cbn [bind]. destruct (Ceq_dec (me 0 1) (RtoC 0)) as [Z|_]; [easy|]. eexists. split; [reflexivity|]. split; [now rewrite map_length, seq_length|].
  intros n i Hn' Hi. set (e := eigvalsh tmax (strip wrl E g n)).
  destruct (He tmax (strip wrl E g n) (strip_diag wrl E n)) as [S1 P1].
  { intros a b _ _. unfold strip, strip_off, g. rewrite !Rmult_0_l.
    destruct (Nat.eqb a b), (Nat.eqb (a + 1) b), (Nat.eqb a (b + 1)); rewrite ?Rmult_0_l; ring. }
  fold e in S1, P1.
  assert (EQ : map e (seq 0 tmax) = map (fun x => x + INR n * wrl)%R (map srt (seq 0 tmax))).
  { apply sorted_perm_unique; [easy | now apply sorted_shift |]. rewrite P1. apply Permutation_map with (f := fun x => (x + INR n * wrl)%R) in P0.
    rewrite P0. rewrite map_map. apply Permutation_refl'. apply map_ext. intros k. unfold bare, strip_diag. rewrite !minus_IZR, <- !INR_IZR_INZ. cbn. ring. }
  exists (map e order). split.
  - rewrite (map_nth_error (fun n => map (eigvalsh tmax (strip wrl E g n)) order) n (seq 0 (nmax + 1 + tmax)) (d := n)); [easy|].
    now apply nth_error_seq0.
  - split; [rewrite map_length, (mapM_length _ _ _ Ho); apply seq_length|].
    destruct (F i Hi) as (k & Ek & Hk & Sk).
    assert (Hs : nth_error (seq 0 tmax) i = Some i) by now apply nth_error_seq0.
    destruct (mapM_nth _ _ _ _ _ Ho Hs) as (y & Hy & Ey). rewrite Ek in Ey. injection Ey as <-.
    rewrite nth_error_map, Hy. cbn [option_map]. f_equal.
    assert (Hk' : nth_error (seq 0 tmax) k = Some k) by now apply nth_error_seq0.
    assert (X : Some (e k) = Some (srt k + INR n * wrl)%R).
    { transitivity (nth_error (map e (seq 0 tmax)) k); [now rewrite nth_error_map, Hk'|]. rewrite EQ, map_map, nth_error_map, Hk'. reflexivity. }
    injection X as ->. rewrite Sk. unfold bare, strip_diag, E. rewrite !minus_IZR, <- !INR_IZR_INZ. cbn. ring.
Qed.
