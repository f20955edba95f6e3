From Coq Require Import List Bool String Ascii ZArith SpecFloat Reals Lra Lia.
From Flocq Require Import Core.Core IEEE754.BinarySingleNaN Relative.
From Verif Require Import Prelude PreludeFacts Float FloatFacts Latex Param ParamProofs.
Import ListNotations.
Open Scope R_scope.
#[local] Existing Instance Hprec.
#[local] Existing Instance Hmax.
#[local] Instance Hp53 : FLX.Prec_gt_0 53 | 100. Proof. reflexivity. Qed.

(** ** C03: order of the bounds *)
Definition ordered (p : param) : Prop := ~ xlt (X (p_hi p)) (X (p_lo p)).

(** No integer beyond the double range is passed as a bound. *)
Definition bounds_small (b : pyval) : Prop :=
  match b with PList l => Forall (fun v => ~ too_big v) l | _ => True end.

Lemma rnd_le x y : x <= y -> rnd x <= rnd y.
Proof. unfold rnd. apply round_le; auto with typeclass_instances. Qed.

Lemma to_float_int z x : to_float (PInt z) = Ok x -> X x = XFin (rnd (IZR z)).
Proof.
  intros E. destruct (to_float_spec (PInt z) I (num_int z)) as [(y & E' & C & _)|[E' _]]; rewrite E in E'.
  - injection E' as ->. inversion C; subst. assumption.
  - discriminate.
Qed.

Lemma bounds_ordered b0 b1 lo hi : okval b0 -> okval b1 ->
  bounds_types_ok b0 b1 = true -> py_gt b0 b1 = false ->
  to_float b0 = Ok lo -> to_float b1 = Ok hi -> ~ xlt (X hi) (X lo).
Proof.
  intros O0 O1 T G E0 E1. destruct b0; try discriminate; destruct b1; try discriminate.
  - rewrite (to_float_int _ _ E0), (to_float_int _ _ E1). cbn in *.
    apply Z.ltb_ge in G. apply IZR_le in G. apply rnd_le in G. lra.
  - cbn in *. injection E0 as <-. injection E1 as <-.
    exact (bool_false_neg _ _ (flt_spec _ _ O1 O0) G).
Qed.

Lemma to_float_small v : okval v -> bounds_types_ok v v = true -> ~ too_big v ->
  exists x, to_float v = Ok x.
Proof.
  intros O T N. assert (Hn : is_number v) by (destruct v; try discriminate; constructor).
  destruct (to_float_spec v O Hn) as [(y & E & _)|[_ B]]; [eauto|contradiction].
Qed.

Lemma types_ok_refl b0 b1 : bounds_types_ok b0 b1 = true ->
  bounds_types_ok b0 b0 = true /\ bounds_types_ok b1 b1 = true.
Proof. destruct b0; try discriminate; destruct b1; try discriminate; auto. Qed.

Lemma setBounds_atomic p b : okbounds b -> bounds_small b ->
  (snd (setBounds p b) <> Ok tt -> fst (setBounds p b) = p) /\
  (snd (setBounds p b) = Ok tt -> ordered (fst (setBounds p b))).
Proof.
  intros Ob Sb. unfold setBounds. destruct b as [| | | | | |l|]; try (cbn [fst snd]; split; [intros; reflexivity|discriminate]).
  destruct l as [|b0 [|b1 [|]]]; try (cbn [fst snd]; split; [intros; reflexivity|discriminate]).
  cbn in Ob, Sb. inversion Ob as [|? ? O0 O']; subst. inversion O' as [|? ? O1 _]; subst.
  inversion Sb as [|? ? S0 S']; subst. inversion S' as [|? ? S1 _]; subst.
  destruct (bounds_types_ok b0 b1) eqn:T; cbn [negb]; [|cbn [fst snd]; split; [intros; reflexivity|discriminate]].
  destruct (py_gt b0 b1) eqn:G; [cbn [fst snd]; split; [intros; reflexivity|discriminate]|].
  destruct (types_ok_refl _ _ T) as [T0 T1].
  destruct (to_float_small b0 O0 T0 S0) as (lo & E0).
  destruct (to_float_small b1 O1 T1 S1) as (hi & E1).
  rewrite E0, E1. cbn [fst snd]. split; [intros F; exfalso; apply F; reflexivity|].
  intros _. unfold ordered. cbn. exact (bounds_ordered _ _ _ _ O0 O1 T G E0 E1).
Qed.

Lemma setValue_fields p v :
  let p' := fst (setValue p v) in p_lo p' = p_lo p /\ p_hi p' = p_hi p.
Proof.
  unfold setValue. destruct (negb (valid_scalar v)); [cbn; auto|].
  destruct (to_float v); [|cbn; auto]. destruct (fle _ _); [cbn; auto|].
  destruct (fle _ _); cbn; auto.
Qed.

Lemma run_ordered p l :
  (forall b, In (PSetBounds b) l -> okbounds b /\ bounds_small b) ->
  ordered p -> ordered (prun p l).
Proof.
  revert p. induction l as [|o l IH]; intros p H O; [assumption|].
  cbn. apply IH; [intros b Hb; apply H; now right|].
  destruct o as [v|b|s e n]; cbn [pstep]; unfold ordered in *.
  - destruct (setValue_fields p v) as [E1 E2]. now rewrite E1, E2.
  - destruct (H b (or_introl eq_refl)) as [Ob Sb].
    destruct (setBounds_atomic p b Ob Sb) as [H1 H2].
    destruct (snd (setBounds p b)) as [[]|ex].
    + apply H2. reflexivity.
    + rewrite H1 by discriminate. assumption.
  - destruct (linearSweep_fields p s e n) as (_ & E2 & E3). now rewrite E2, E3.
Qed.

Lemma param_new_ordered nm v b u p : okbounds b ->
  param_new nm v b u = Ok p -> ordered p.
Proof.
  intros Ob. unfold param_new. destruct nm; try discriminate.
  destruct (has_space s); [discriminate|].
  match goal with |- context [if negb ?c then _ else _] => destruct (negb c); [discriminate|] end.
  destruct b as [| | | | | |l|]; try discriminate.
  destruct l as [|b0 [|b1 [|]]]; try discriminate.
  cbn in Ob. inversion Ob as [|? ? O0 O']; subst. inversion O' as [|? ? O1 _]; subst.
  destruct (bounds_types_ok b0 b1) eqn:T; cbn [negb]; [|discriminate].
  destruct (py_gt b0 b1) eqn:G; [discriminate|].
  destruct (negb (valid_scalar u)); [discriminate|].
  destruct (to_float u) as [uu|]; [|discriminate]. cbn [bind].
  destruct (flt uu fzero); [discriminate|].
  destruct (default_symbol s) as [sym|]; [|discriminate]. cbn [bind].
  match goal with |- context [bind ?c _] => destruct c; [|discriminate] end. cbn [bind].
  destruct (to_float b0) as [lo|] eqn:E0; [|discriminate]. cbn [bind].
  destruct (to_float b1) as [hi|] eqn:E1; [|discriminate]. cbn [bind].
  destruct (latexify_param_name s); [|discriminate]. cbn [bind]. intros [= <-].
  unfold ordered. cbn. exact (bounds_ordered _ _ _ _ O0 O1 T G E0 E1).
Qed.

(** ** C04: shape and end points *)
Lemma linspace_ok s e N l : linspace s e N = Ok l ->
  (0 <= N)%Z /\ List.length l = Z.to_nat N /\
  ((2 <= N)%Z -> nth_error l (Z.to_nat N - 1) = Some e) /\
  (forall i, (i < Z.to_nat N)%nat -> ((i < Z.to_nat N - 1)%nat \/ N = 1%Z) ->
     nth_error l i = Some (linspace_raw s e N i)).
Proof.
  unfold linspace. destruct (Z.ltb_spec N 0); [discriminate|]. intros [= <-].
  split; [assumption|]. split; [now rewrite map_length, seq_length|]. split.
  - intros H2. rewrite nth_error_map.
    rewrite (nth_error_nth' (seq 0 (Z.to_nat N)) 0%nat) by (rewrite seq_length; lia).
    rewrite seq_nth by lia. cbn [option_map Nat.add].
    destruct (Z.ltb_spec 1 N); [|lia]. cbn [andb].
    destruct (Z.eqb_spec (Z.of_nat (Z.to_nat N - 1)) (N - 1)); [reflexivity|lia].
  - intros i Hi Hl. rewrite nth_error_map.
    rewrite (nth_error_nth' (seq 0 (Z.to_nat N)) 0%nat) by (rewrite seq_length; lia).
    rewrite seq_nth by lia. cbn [option_map Nat.add].
    destruct (Z.ltb_spec 1 N); cbn [andb]; [|reflexivity].
    destruct (Z.eqb_spec (Z.of_nat i) (N - 1)); [lia|reflexivity].
Qed.

Lemma linearSweep_cases p s e n :
  (exists l N x y, n = PInt N /\ to_float s = Ok x /\ to_float e = Ok y /\
     is_number s /\ is_number e /\
     flt (p_hi p) x = false /\ flt x (p_lo p) = false /\
     flt (p_hi p) y = false /\ flt y (p_lo p) = false /\
     linspace x y N = Ok l /\
     linearSweep p s e n = (with_sweep p l N, Ok l)) \/
  (exists ex, linearSweep p s e n = (p, Err ex)).
Proof.
  unfold linearSweep.
  destruct (valid_scalar s) eqn:Vs; cbn [negb]; [|eauto].
  destruct (valid_scalar e) eqn:Ve; cbn [negb]; [|eauto].
  apply valid_scalar_spec in Vs, Ve.
  destruct n as [| |N| | | | |]; eauto.
  destruct (to_float s) as [x|] eqn:Es; [|eauto].
  destruct (flt (p_hi p) x) eqn:A; [eauto|]. destruct (flt x (p_lo p)) eqn:B; [eauto|].
  destruct (to_float e) as [y|] eqn:Ee; [|eauto].
  destruct (flt (p_hi p) y) eqn:C; [eauto|]. destruct (flt y (p_lo p)) eqn:D; [eauto|].
  destruct (linspace x y N) as [l|] eqn:L; [|eauto].
  left. exists l, N, x, y. auto 15.
Qed.

(** Finiteness of the step. *)
Lemma fin_iff (b : bf) : Float.is_finite (B2SF b) = BinarySingleNaN.is_finite b.
Proof. destruct b; reflexivity. Qed.

Lemma round_Z_small z : (Z.abs z <= 2 ^ 53)%Z ->
  exists b : bf, round_Z z = B2SF b /\ BinarySingleNaN.is_finite b = true /\ B2R b = IZR z.
Proof.
  intros Hz. unfold round_Z. rewrite bn_equiv.
  eexists. split; [reflexivity|].
  pose proof (binary_normalize_correct prec emax Hprec Hmax mode_NE z 0 false) as H.
  cbv zeta in H.
  assert (E : F2R (Float radix2 z 0) = IZR z) by (unfold F2R; cbn; lra).
  assert (G : generic_format radix2 (SpecFloat.fexp prec emax) (F2R (Float radix2 z 0))).
  { change (SpecFloat.fexp prec emax) with (FLT_exp (-1074) 53).
    destruct (Z.eq_dec (Z.abs z) (2 ^ 53)) as [Ez|Ez].
    - assert (z = 2 ^ 53 \/ z = - 2 ^ 53)%Z as [-> | ->] by lia.
      + rewrite E. change (2 ^ 53)%Z with (Zpower radix2 53). rewrite IZR_Zpower by lia.
        apply generic_format_bpow. cbn. lia.
      + rewrite E, opp_IZR. apply generic_format_opp.
        change (2 ^ 53)%Z with (Zpower radix2 53). rewrite IZR_Zpower by lia.
        apply generic_format_bpow. cbn. lia.
    - apply generic_format_FLT.
      exists (Float radix2 z 0); cbn; [reflexivity|lia|lia]. }
  rewrite round_generic in H by (auto with typeclass_instances).
  rewrite E in H.
  rewrite Rlt_bool_true in H.
  - destruct H as (H1 & H2 & _). rewrite H1, H2. auto.
  - rewrite <- abs_IZR. apply Rle_lt_trans with (IZR (2 ^ 53)); [now apply IZR_le|].
    change (2 ^ 53)%Z with (Zpower radix2 53). rewrite IZR_Zpower by lia.
    apply bpow_lt. unfold emax. lia.
Qed.

Lemma B2R_abs_max (b : bf) : Rabs (B2R b) < bpow radix2 1024.
Proof. apply (abs_B2R_lt_emax prec emax). Qed.

Lemma rnd_B2R (b : bf) : rnd (B2R b) = B2R b.
Proof. unfold rnd. apply round_generic; [auto with typeclass_instances|]. apply (generic_format_B2R prec emax). Qed.

Lemma rnd_abs_le x (b : bf) : Rabs x <= Rabs (B2R b) -> Rabs (rnd x) <= Rabs (B2R b).
Proof.
  intros H. unfold rnd.
  apply abs_round_le_generic; [auto with typeclass_instances|auto with typeclass_instances| |assumption].
  apply generic_format_abs. apply (generic_format_B2R prec emax).
Qed.

(** The real-number meaning of the four operations when nothing overflows. *)
Lemma Bminus_R (a b : bf) :
  BinarySingleNaN.is_finite a = true -> BinarySingleNaN.is_finite b = true ->
  BinarySingleNaN.is_finite (Bminus mode_NE a b) = true ->
  B2R (Bminus mode_NE a b) = rnd (B2R a - B2R b).
Proof.
  intros Fa Fb Fr. pose proof (Bminus_correct _ _ _ _ mode_NE a b Fa Fb) as H.
  change (round radix2 (SpecFloat.fexp prec emax) (round_mode mode_NE)) with rnd in H.
  destruct (Rlt_bool _ _); [tauto|]. destruct H as [H _].
  exfalso. rewrite <- fin_iff, H in Fr. discriminate.
Qed.
Lemma Bdiv_R (a b : bf) : BinarySingleNaN.is_finite a = true -> 1 <= Rabs (B2R b) ->
  BinarySingleNaN.is_finite (Bdiv mode_NE a b) = true /\
  B2R (Bdiv mode_NE a b) = rnd (B2R a / B2R b).
Proof.
  intros Fa Hb. assert (Nz : B2R b <> 0) by (intros E; rewrite E, Rabs_R0 in Hb; lra).
  pose proof (Bdiv_correct _ _ _ _ mode_NE a b Nz) as H.
  change (round radix2 (SpecFloat.fexp prec emax) (round_mode mode_NE)) with rnd in H.
  rewrite Rlt_bool_true in H.
  - destruct H as (H1 & H2 & _). rewrite H2. auto.
  - apply Rle_lt_trans with (Rabs (B2R a)); [|apply B2R_abs_max].
    apply rnd_abs_le. unfold Rdiv. rewrite Rabs_mult.
    rewrite Rabs_inv. rewrite <- (Rmult_1_r (Rabs (B2R a))) at 2.
    apply Rmult_le_compat_l; [apply Rabs_pos|]. rewrite <- Rinv_1.
    apply Rinv_le; lra.
Qed.
Lemma Bmult_R (a b : bf) : BinarySingleNaN.is_finite a = true -> BinarySingleNaN.is_finite b = true ->
  Rabs (rnd (B2R a * B2R b)) < bpow radix2 1024 ->
  BinarySingleNaN.is_finite (Bmult mode_NE a b) = true /\
  B2R (Bmult mode_NE a b) = rnd (B2R a * B2R b).
Proof.
  intros Fa Fb L. pose proof (Bmult_correct _ _ _ _ mode_NE a b) as H.
  change (round radix2 (SpecFloat.fexp prec emax) (round_mode mode_NE)) with rnd in H.
  rewrite Rlt_bool_true in H by assumption.
  destruct H as (H1 & H2 & _). rewrite H2, Fa, Fb. auto.
Qed.
Lemma Bplus_R (a b : bf) : BinarySingleNaN.is_finite a = true -> BinarySingleNaN.is_finite b = true ->
  Rabs (rnd (B2R a + B2R b)) < bpow radix2 1024 ->
  BinarySingleNaN.is_finite (Bplus mode_NE a b) = true /\
  B2R (Bplus mode_NE a b) = rnd (B2R a + B2R b).
Proof.
  intros Fa Fb L. pose proof (Bplus_correct _ _ _ _ mode_NE a b Fa Fb) as H.
  change (round radix2 (SpecFloat.fexp prec emax) (round_mode mode_NE)) with rnd in H.
  rewrite Rlt_bool_true in H by assumption.
  destruct H as (H1 & H2 & _). rewrite H2. auto.
Qed.

Lemma rnd_0 : rnd 0 = 0.
Proof. unfold rnd. apply round_0. auto with typeclass_instances. Qed.

(** First point. *)
Lemma round_Z_pos z : (1 <= z)%Z ->
  exists n : bf, round_Z z = B2SF n /\
    ((BinarySingleNaN.is_finite n = true /\ 1 <= Rabs (B2R n)) \/ B2SF n = S754_infinity false).
Proof.
  intros Hz. destruct (valid_bf _ (round_Z_valid z)) as (n & En). exists n.
  split; [now symmetry|]. destruct (round_Z_spec z) as [H1 H2].
  assert (G : 1 <= rnd (IZR z)).
  { apply IZR_le in Hz. apply rnd_le in Hz. replace (rnd (IZR 1)) with 1 in Hz; [assumption|].
    symmetry. unfold rnd. apply round_generic; [auto with typeclass_instances|].
    change 1 with (bpow radix2 0). apply generic_format_bpow. cbn. lia. }
  destruct (Rlt_or_le (Rabs (rnd (IZR z))) (bpow radix2 1024)) as [L|L].
  - left. specialize (H1 L). rewrite <- En in H1.
    assert (Fn : BinarySingleNaN.is_finite n = true) by (clear -H1; destruct n as [|[]| |]; cbn in *; congruence).
    split; [assumption|]. rewrite X_finite in H1 by assumption. injection H1 as ->.
    rewrite Rabs_pos_eq; lra.
  - right. specialize (H2 L). rewrite En.
    destruct (Z.ltb_spec z 0); [lia|]. clear -H2. destruct (round_Z z) as [|[]| |]; cbn in *; congruence.
Qed.

Lemma linspace_first (a b : bf) N :
  BinarySingleNaN.is_finite a = true -> BinarySingleNaN.is_finite b = true ->
  Float.is_finite (fsub (B2SF b) (B2SF a)) = true ->
  (1 <= N)%Z ->
  X (linspace_raw (B2SF a) (B2SF b) N 0) = XFin (B2R a).
Proof.
  intros Fa Fb Fd HN. unfold linspace_raw.
  rewrite fsub_B in *. rewrite fin_iff in Fd. set (d := Bminus mode_NE b a) in *.
  destruct (round_Z_small (Z.of_nat 0)) as (y & Ey & Fy & Ry); [cbn; lia|]. rewrite Ey.
  cbn in Ry.
  assert (Z0 : forall q c : bf, BinarySingleNaN.is_finite q = true -> B2R q = 0 ->
     BinarySingleNaN.is_finite c = true ->
     X (fadd (fmul (B2SF q) (B2SF c)) (B2SF a)) = XFin (B2R a)).
  { intros q c Fq Rq Fc. rewrite fmul_B, fadd_B.
    destruct (Bmult_R q c Fq Fc) as [F1 R1].
    { rewrite Rq, Rmult_0_l, rnd_0, Rabs_R0. apply bpow_gt_0. }
    rewrite Rq, Rmult_0_l, rnd_0 in R1.
    destruct (Bplus_R (Bmult mode_NE q c) a F1 Fa) as [F2 R2].
    { rewrite R1, Rplus_0_l, rnd_B2R. apply B2R_abs_max. }
    rewrite X_finite by assumption. now rewrite R2, R1, Rplus_0_l, rnd_B2R. }
  destruct (Z.ltb_spec 1 N) as [L|L]; [|apply Z0; assumption].
  destruct (round_Z_pos (N - 1)) as (n & En & Hn); [lia|]. rewrite En.
  rewrite !fdiv_B.
  assert (Hs : forall c, BinarySingleNaN.is_finite c = true ->
     BinarySingleNaN.is_finite (Bdiv mode_NE c n) = true /\
     (B2R c = 0 -> B2R (Bdiv mode_NE c n) = 0)).
  { intros c Fc. destruct Hn as [[Fn Hn]|Hn].
    - destruct (Bdiv_R c n Fc Hn) as [F1 R1]. split; [assumption|].
      intros E. rewrite R1, E. unfold Rdiv. rewrite Rmult_0_l. apply rnd_0.
    - destruct n as [|sn| |]; cbn in Hn; try discriminate. destruct c; cbn in *; try discriminate; auto. }
  destruct (Hs d Fd) as [Fs _]. destruct (Hs y Fy) as [Fq Rq]. specialize (Rq Ry).
  destruct (feq (B2SF (Bdiv mode_NE d n)) fzero); apply Z0; assumption.
Qed.

(** ** C05: every point lies between the end points *)
Notation u := (/ 2 * bpow radix2 (-53 + 1)).

Lemma u_val : u = / 9007199254740992.
Proof. cbn. lra. Qed.

Lemma rnd_rel x : bpow radix2 (-1022) <= Rabs x ->
  exists eps, Rabs eps <= u /\ rnd x = x * (1 + eps).
Proof.
  intros H. unfold rnd.
  destruct (relative_error_N_FLT_ex radix2 (-1074) 53 Hp53 (fun x => negb (Z.even x)) x H) as (eps & H1 & H2).
  exists eps. split; assumption.
Qed.

Lemma kappa_bound t e1 e2 e3 : 0 <= t <= 1 - / 2251799813685248 ->
  Rabs e1 <= u -> Rabs e2 <= u -> Rabs e3 <= u ->
  0 <= t * (1 + e1) * (1 + e2) * (1 + e3) <= 1.
Proof.
  rewrite u_val. intros Ht H1 H2 H3.
  apply Rabs_le_inv in H1, H2, H3.
  set (v := / 9007199254740992) in *.
  assert (Hv : / 2251799813685248 = 4 * v) by (unfold v; lra). rewrite Hv in Ht.
  assert (Hv0 : 0 < v) by (unfold v; lra). assert (Hv1 : v <= / 1024) by (unfold v; lra).
  split.
  - repeat apply Rmult_le_pos; lra.
  - assert (A : t * (1 + e1) <= (1 - 4 * v) * (1 + v)) by (apply Rmult_le_compat; lra).
    assert (B : t * (1 + e1) * (1 + e2) <= (1 - 4 * v) * (1 + v) * (1 + v)).
    { apply Rmult_le_compat; try lra. apply Rmult_le_pos; lra. }
    assert (C : t * (1 + e1) * (1 + e2) * (1 + e3) <= (1 - 4 * v) * (1 + v) * (1 + v) * (1 + v)).
    { apply Rmult_le_compat; try lra. apply Rmult_le_pos; [apply Rmult_le_pos|]; lra. }
    apply Rle_trans with (1 := C). nra.
Qed.

Definition between (x y z : R) : Prop := (x <= z <= y) \/ (y <= z <= x).

Lemma between_convex x y k : 0 <= k <= 1 -> between x y (x + k * (y - x)).
Proof. intros H. destruct (Rle_or_lt x y); [left|right]; nra. Qed.

Lemma between_rnd (a b : bf) z : between (B2R a) (B2R b) z -> between (B2R a) (B2R b) (rnd z).
Proof.
  intros [[H1 H2]|[H1 H2]]; [left|right]; apply rnd_le in H1, H2; rewrite rnd_B2R in H1, H2; auto.
Qed.

Lemma between_abs (a b : bf) z : between (B2R a) (B2R b) z -> Rabs z < bpow radix2 1024.
Proof.
  pose proof (B2R_abs_max a) as Ha. pose proof (B2R_abs_max b) as Hb.
  apply Rabs_lt_inv in Ha, Hb. intros [H|H]; apply Rabs_lt; lra.
Qed.

Lemma linspace_between (a b : bf) N i :
  BinarySingleNaN.is_finite a = true -> BinarySingleNaN.is_finite b = true ->
  Float.is_finite (fsub (B2SF b) (B2SF a)) = true ->
  (2 <= N <= 2 ^ 50)%Z ->
  B2R a = B2R b \/ IZR (N - 1) * bpow radix2 (-1021) <= Rabs (B2R b - B2R a) ->
  (Z.of_nat i < N - 1)%Z ->
  exists r, X (linspace_raw (B2SF a) (B2SF b) N i) = XFin r /\ between (B2R a) (B2R b) r.
Proof.
  intros Fa Fb Fd HN HD Hi. unfold linspace_raw.
  rewrite fsub_B in *. rewrite fin_iff in Fd.
  pose proof (Bminus_R b a Fb Fa Fd) as Rd. set (d := Bminus mode_NE b a) in *.
  destruct (round_Z_small (Z.of_nat i)) as (y & Ey & Fy & Ry); [lia|]. rewrite Ey.
  destruct (Z.ltb_spec 1 N) as [_|]; [|lia].
  destruct (round_Z_small (N - 1)) as (n & En & Fn & Rn); [lia|]. rewrite En.
  assert (Hn1 : 1 <= B2R n) by (rewrite Rn; apply IZR_le; lia).
  assert (Hn : 1 <= Rabs (B2R n)) by (rewrite Rabs_pos_eq; lra).
  rewrite !fdiv_B. destruct (Bdiv_R d n Fd Hn) as [Fs Rs].
  assert (Vs : valid (B2SF (Bdiv mode_NE d n)) = true) by apply bf_valid.
  pose proof (feq_spec _ fzero Vs eq_refl) as Sp. rewrite X_finite in Sp by assumption.
  assert (Zd : forall c w : bf, BinarySingleNaN.is_finite c = true -> BinarySingleNaN.is_finite w = true ->
     B2R c * B2R w = 0 ->
     exists r, X (fadd (fmul (B2SF c) (B2SF w)) (B2SF a)) = XFin r /\ between (B2R a) (B2R b) r).
  { intros c w Fc Fw E. rewrite fmul_B, fadd_B.
    destruct (Bmult_R c w Fc Fw) as [F1 R1].
    { rewrite E, rnd_0, Rabs_R0. apply bpow_gt_0. }
    rewrite E, rnd_0 in R1.
    destruct (Bplus_R (Bmult mode_NE c w) a F1 Fa) as [F2 R2].
    { rewrite R1, Rplus_0_l, rnd_B2R. apply B2R_abs_max. }
    rewrite X_finite by assumption. rewrite R2, R1, Rplus_0_l, rnd_B2R.
    exists (B2R a). split; [reflexivity|]. unfold between. lra. }
  destruct HD as [HD|HD].
  - assert (B2R d = 0) as Ed by (rewrite Rd, HD, Rminus_diag_eq by reflexivity; apply rnd_0).
    assert (B2R (Bdiv mode_NE d n) = 0) as Es by (rewrite Rs, Ed; unfold Rdiv; rewrite Rmult_0_l; apply rnd_0).
    destruct (feq _ _).
    + destruct (Bdiv_R y n Fy Hn) as [Fq Rq]. apply Zd; auto. rewrite Ed. ring.
    + apply Zd; auto. rewrite Es. ring.
  - set (D := B2R b - B2R a) in *.
    assert (P1 : 0 < bpow radix2 (-1022)) by apply bpow_gt_0.
    assert (P2 : bpow radix2 (-1021) = 2 * bpow radix2 (-1022)).
    { change (-1021)%Z with (1 + -1022)%Z. rewrite bpow_plus. cbn. lra. }
    rewrite <- Rn in HD. rewrite P2 in HD.
    destruct (rnd_rel D) as (e1 & H1 & E1).
    { apply Rle_trans with (2 := HD). nra. }
    assert (U : u <= / 2) by (rewrite u_val; lra).
    assert (Hd : B2R n * bpow radix2 (-1022) <= Rabs (B2R d)).
    { rewrite Rd, E1, Rabs_mult. assert (/ 2 <= Rabs (1 + e1)).
      { apply Rabs_le_inv in H1. rewrite Rabs_pos_eq; lra. }
      pose proof (Rabs_pos D). nra. }
    assert (Hq : bpow radix2 (-1022) <= Rabs (B2R d / B2R n)).
    { unfold Rdiv. rewrite Rabs_mult, Rabs_inv, (Rabs_pos_eq (B2R n)) by lra.
      apply Rmult_le_reg_r with (B2R n); [lra|]. rewrite Rmult_assoc, Rinv_l by lra. lra. }
    destruct (rnd_rel _ Hq) as (e2 & H2 & E2).
    assert (Hs : bpow radix2 (-1022) <= Rabs (B2R (Bdiv mode_NE d n))).
    { rewrite Rs. unfold rnd.
      apply abs_round_ge_generic; [auto with typeclass_instances..| |assumption].
      apply generic_format_bpow. cbn. lia. }
    assert (NF : feq (B2SF (Bdiv mode_NE d n)) fzero = false).
    { destruct (feq _ _); [|reflexivity]. destruct (proj1 Sp eq_refl) as [_ E].
      cbn in E. injection E as E. rewrite E, Rabs_R0 in Hs. lra. }
    rewrite NF. destruct i as [|i'].
    { apply Zd; auto. rewrite Ry. cbn. ring. }
    set (i := S i') in *.
    assert (Hy : 1 <= B2R y) by (rewrite Ry; apply IZR_le; lia).
    set (st := B2R (Bdiv mode_NE d n)) in *.
    assert (Hz : bpow radix2 (-1022) <= Rabs (B2R y * st)).
    { rewrite Rabs_mult, (Rabs_pos_eq (B2R y)) by lra. nra. }
    destruct (rnd_rel _ Hz) as (e3 & H3 & E3).
    set (k := B2R y / B2R n * (1 + e1) * (1 + e2) * (1 + e3)).
    assert (Ek : rnd (B2R y * st) = k * D).
    { rewrite E3, Rs, E2, Rd, E1. unfold k. field. lra. }
    assert (Hk : 0 <= k <= 1).
    { apply kappa_bound; auto. rewrite Ry, Rn. split.
      - apply Rmult_le_pos; [apply IZR_le; lia|]. apply Rlt_le, Rinv_0_lt_compat. rewrite <- Rn. lra.
      - apply Rmult_le_reg_r with (IZR (N - 1)); [rewrite <- Rn; lra|].
        unfold Rdiv. rewrite Rmult_assoc, Rinv_l by (rewrite <- Rn; lra).
        assert (IZR (Z.of_nat i) <= IZR (N - 1) - 1) by (rewrite <- minus_IZR; apply IZR_le; lia).
        assert (IZR (N - 1) <= 2251799813685248) by (apply IZR_le; lia).
        lra. }
    assert (AD : Rabs D < bpow radix2 1024).
    { destruct (Rlt_or_le (Rabs D) (bpow radix2 1024)) as [|L]; [assumption|exfalso].
      pose proof (B2R_abs_max d) as M. rewrite Rd in M. unfold rnd in M.
      assert (bpow radix2 1024 <= Rabs (round radix2 (FLT_exp (-1074) 53) ZnearestE D)).
      { apply abs_round_ge_generic; [auto with typeclass_instances..| |assumption].
        apply generic_format_bpow. cbn. lia. }
      lra. }
    rewrite fmul_B, fadd_B.
    destruct (Bmult_R y (Bdiv mode_NE d n) Fy Fs) as [F1 R1].
    { fold st. rewrite Ek, Rabs_mult, (Rabs_pos_eq k) by lra. pose proof (Rabs_pos D). nra. }
    fold st in R1. rewrite Ek in R1.
    assert (BT : between (B2R a) (B2R b) (rnd (B2R (Bmult mode_NE y (Bdiv mode_NE d n)) + B2R a))).
    { apply between_rnd. rewrite R1, Rplus_comm. apply between_convex. assumption. }
    destruct (Bplus_R (Bmult mode_NE y (Bdiv mode_NE d n)) a F1 Fa) as [F2 R2].
    { eapply between_abs; eassumption. }
    rewrite X_finite by assumption. rewrite R2. eauto.
Qed.

(** ** API-level statements *)
Definition C04_stmt : Prop := forall p s e n, okval s -> okval e ->
  let p' := fst (linearSweep p s e n) in let r := snd (linearSweep p s e n) in
  (forall ex, r = Err ex -> p' = p) /\
  (forall N, n = PInt N -> (N < 0)%Z -> exists ex, r = Err ex) /\
  (forall N x y, n = PInt N -> (0 <= N)%Z -> converts s x -> converts e y ->
     valid (p_lo p) = true -> valid (p_hi p) = true ->
     ((exists l, r = Ok l) <->
      ~ xlt (X (p_hi p)) (X x) /\ ~ xlt (X x) (X (p_lo p)) /\
      ~ xlt (X (p_hi p)) (X y) /\ ~ xlt (X y) (X (p_lo p)))) /\
  (forall l, r = Ok l -> exists N x y,
     n = PInt N /\ (0 <= N)%Z /\ converts s x /\ converts e y /\
     Z.of_nat (List.length l) = N /\ p_sweep p' = l /\ p_N p' = N /\
     ((2 <= N)%Z -> nth_error l (List.length l - 1) = Some y) /\
     (forall sx ex, X x = XFin sx -> X y = XFin ex -> Float.is_finite (fsub y x) = true ->
        (1 <= N)%Z -> exists f, nth_error l 0 = Some f /\ X f = X x) /\
     getValue p' = getValue p /\ getBounds p' = getBounds p).

Lemma X_fin_bf x r : valid x = true -> X x = XFin r ->
  exists b : bf, B2SF b = x /\ BinarySingleNaN.is_finite b = true /\ B2R b = r.
Proof.
  intros V H. destruct (valid_bf _ V) as (b & E). exists b. subst x. split; [reflexivity|].
  assert (F : BinarySingleNaN.is_finite b = true) by (destruct b as [|[]| |]; cbn in *; congruence).
  rewrite X_finite in H by assumption. injection H as H. auto.
Qed.

Lemma to_float_conv v x : okval v -> is_number v -> to_float v = Ok x ->
  converts v x /\ valid x = true.
Proof.
  intros O N E. destruct (to_float_spec v O N) as [(y & E' & C & V & _)|[E' _]]; rewrite E in E'.
  - injection E' as <-. auto.
  - discriminate.
Qed.

Lemma conv_to_float v x : okval v -> converts v x ->
  exists y, to_float v = Ok y /\ X y = X x /\ valid y = true.
Proof.
  intros O C. destruct (to_float_spec v O (converts_number _ _ C)) as [(y & E' & C' & V & _)|[_ B]].
  - exists y. repeat split; auto. eapply converts_X; eassumption.
  - exfalso. eapply converts_not_big; eassumption.
Qed.

Lemma linearSweep_C04 : C04_stmt.
Proof.
  intros p s e n Os Oe. cbv zeta. split; [|split; [|split]].
  - intros ex H. destruct (linearSweep_cases p s e n) as [(l & N & x & y & _ & _ & _ & _ & _ & _ & _ & _ & _ & _ & E)|(ex' & E)];
      rewrite E in *; [discriminate|reflexivity].
  - intros N -> HN. destruct (linearSweep_cases p s e (PInt N)) as [(l & N' & x & y & En & _ & _ & _ & _ & _ & _ & _ & _ & L & E)|(ex' & E)];
      rewrite E; [|cbn; eauto].
    injection En as <-. apply linspace_ok in L. destruct L as [L _]. lia.
  - intros N x y -> HN Cx Cy Vl Vh.
    destruct (conv_to_float _ _ Os Cx) as (x' & Ex & Xx & Vx).
    destruct (conv_to_float _ _ Oe Cy) as (y' & Ey & Xy & Vy).
    rewrite <- Xx, <- Xy. unfold linearSweep.
    rewrite (proj2 (valid_scalar_spec s) (converts_number _ _ Cx)), (proj2 (valid_scalar_spec e) (converts_number _ _ Cy)).
    cbn [negb]. rewrite Ex, Ey.
    pose proof (flt_spec _ _ Vh Vx) as S1. pose proof (flt_spec _ _ Vx Vl) as S2.
    pose proof (flt_spec _ _ Vh Vy) as S3. pose proof (flt_spec _ _ Vy Vl) as S4.
    destruct (flt (p_hi p) x'); [cbn; split; [intros (l & [=])|intros (A & _); exfalso; tauto]|].
    pose proof (bool_false_neg _ _ S1 eq_refl).
    destruct (flt x' (p_lo p)); [cbn; split; [intros (l & [=])|intros (_ & A & _); exfalso; tauto]|].
    pose proof (bool_false_neg _ _ S2 eq_refl).
    destruct (flt (p_hi p) y'); [cbn; split; [intros (l & [=])|intros (_ & _ & A & _); exfalso; tauto]|].
    pose proof (bool_false_neg _ _ S3 eq_refl).
    destruct (flt y' (p_lo p)); [cbn; split; [intros (l & [=])|intros (_ & _ & _ & A); exfalso; tauto]|].
    pose proof (bool_false_neg _ _ S4 eq_refl).
    unfold linspace. destruct (Z.ltb_spec N 0); [lia|]. cbn. split; [tauto|eauto].
  - intros l H. destruct (linearSweep_cases p s e n) as [(l' & N & x & y & -> & Ex & Ey & Ns & Ne & _ & _ & _ & _ & L & E)|(ex' & E)];
      rewrite E in *; [|discriminate].
    cbn in H. injection H as ->.
    destruct (to_float_conv _ _ Os Ns Ex) as [Cx Vx]. destruct (to_float_conv _ _ Oe Ne Ey) as [Cy Vy].
    destruct (linspace_ok _ _ _ _ L) as (HN & Len & Last & Mid).
    exists N, x, y. repeat split; auto.
    + rewrite Len. lia.
    + intros H2. rewrite Len. auto.
    + intros sx ey Xs Xe Fd H1.
      destruct (X_fin_bf _ _ Vx Xs) as (a & <- & Fa & Ra).
      destruct (X_fin_bf _ _ Vy Xe) as (b & <- & Fb & Rb).
      exists (linspace_raw (B2SF a) (B2SF b) N 0). split; [apply Mid; lia|].
      rewrite linspace_first by assumption. now rewrite X_finite.
Qed.

Lemma linearSweep_C05 : forall p s e N l x y,
  okval s -> okval e -> valid (p_lo p) = true -> valid (p_hi p) = true ->
  snd (linearSweep p s e (PInt N)) = Ok l ->
  converts s x -> converts e y -> valid x = true -> valid y = true ->
  (exists a b, X x = XFin a /\ X y = XFin b /\
     (a = b \/ IZR (N - 1) * bpow radix2 (-1021) <= Rabs (b - a))) ->
  Float.is_finite (fsub y x) = true ->
  (N <= 2 ^ 50)%Z ->
  X (p_lo p) <> XNaN -> X (p_hi p) <> XNaN ->
  forall f, In f l ->
    xle (X (p_lo p)) (X f) /\ xle (X f) (X (p_hi p)) /\
    ((xle (X x) (X f) /\ xle (X f) (X y)) \/ (xle (X y) (X f) /\ xle (X f) (X x))).
Proof.
  intros p s e N l x y Os Oe Vl Vh R Cx Cy Vx Vy (ra & rb & Xx & Xy & HD) Fd HN Nl Nh f Hf.
  destruct (linearSweep_cases p s e (PInt N)) as [(l' & N' & x' & y' & En & Ex & Ey & Ns & Ne & G1 & G2 & G3 & G4 & L & E)|(ex' & E)];
      rewrite E in R; [|discriminate].
  cbn in R. injection R as ->. injection En as <-.
  destruct (to_float_conv _ _ Os Ns Ex) as [Cx' Vx']. destruct (to_float_conv _ _ Oe Ne Ey) as [Cy' Vy'].
  assert (XX : X x' = X x) by (eapply converts_X; eassumption).
  assert (YY : X y' = X y) by (eapply converts_X; eassumption).
  rewrite Xx in XX. rewrite Xy in YY.
  destruct (X_fin_bf _ _ Vx' XX) as (a & <- & Fa & Ra).
  destruct (X_fin_bf _ _ Vy' YY) as (b & <- & Fb & Rb).
  pose proof (bool_false_neg _ _ (flt_spec _ _ Vh Vx') G1) as K1.
  pose proof (bool_false_neg _ _ (flt_spec _ _ Vx' Vl) G2) as K2.
  pose proof (bool_false_neg _ _ (flt_spec _ _ Vh Vy') G3) as K3.
  pose proof (bool_false_neg _ _ (flt_spec _ _ Vy' Vl) G4) as K4.
  rewrite XX in K1, K2. rewrite YY in K3, K4.
  assert (Fd' : Float.is_finite (fsub (B2SF b) (B2SF a)) = true).
  { destruct (X_fin_bf _ _ Vx Xx) as (a' & <- & Fa' & Ra').
    destruct (X_fin_bf _ _ Vy Xy) as (b' & <- & Fb' & Rb').
    rewrite fsub_B in *. rewrite fin_iff in *.
    pose proof (Bminus_correct _ _ _ _ mode_NE b a Fb Fa) as H.
    rewrite Ra, Rb, <- Ra', <- Rb' in H.
    change (round radix2 (SpecFloat.fexp prec emax) (round_mode mode_NE)) with rnd in H.
    rewrite <- (Bminus_R b' a' Fb' Fa' Fd) in H.
    rewrite Rlt_bool_true in H; [apply H|apply B2R_abs_max]. }
  assert (KB : forall r, between ra rb r -> xle (X (p_lo p)) (XFin r) /\ xle (XFin r) (X (p_hi p)) /\
     ((ra <= r /\ r <= rb) \/ (rb <= r /\ r <= ra))).
  { clear -K1 K2 K3 K4 Nl Nh. intros r Hr. destruct (X (p_lo p)) as [| | |lo], (X (p_hi p)) as [| | |hi]; cbn in *; try congruence; try tauto;
    unfold between in Hr; try lra. }
  cut (exists r, X f = XFin r /\ between ra rb r).
  { intros (r & -> & Hr). rewrite Xx, Xy. apply KB. assumption. }
  destruct (linspace_ok _ _ _ _ L) as (HN0 & Len & Last & Mid).
  apply In_nth_error in Hf. destruct Hf as (i & Hi).
  assert (Hlt : (i < Z.to_nat N)%nat) by (rewrite <- Len; apply nth_error_Some; congruence).
  destruct (Nat.eq_dec i (Z.to_nat N - 1)) as [Ei|Ei].
  - destruct (Z.eq_dec N 1) as [->|N1].
    + rewrite Mid in Hi by auto. injection Hi as <-.
      cbn in Ei. subst i. cbn. exists ra. rewrite linspace_first by (auto; lia). rewrite Ra. split; [reflexivity|].
      unfold between. lra.
    + rewrite Ei, Last in Hi by lia. injection Hi as <-. exists rb. rewrite X_finite by assumption. rewrite Rb.
      split; [reflexivity|]. unfold between. lra.
  - rewrite Mid in Hi by lia. injection Hi as <-.
    destruct (linspace_between a b N i) as (r & Hr & B); auto; try lia.
    + rewrite Ra, Rb. assumption.
    + exists r. rewrite Ra, Rb in B. auto.
Qed.
