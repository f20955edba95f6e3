(** What the computable doubles of [Float] mean as real numbers (through
    Flocq's correctness theorems; only stdlib real-number axioms). *)
From Coq Require Import ZArith Bool SpecFloat Reals Lra Lia.
From Flocq Require Import Core.Core IEEE754.BinarySingleNaN.
From Verif Require Import Prelude Float.
Open Scope R_scope.

#[local] Instance Hprec : FLX.Prec_gt_0 prec. Proof. unfold FLX.Prec_gt_0, prec. lia. Qed.
#[local] Instance Hmax : Prec_lt_emax prec emax. Proof. unfold Prec_lt_emax, prec, emax. lia. Qed.

Notation bf := (binary_float prec emax).

(** Rounding to the nearest double (ties to even), unbounded exponent above. *)
Definition rnd (x : R) : R := round radix2 (FLT_exp (-1074) 53) ZnearestE x.

(** Extended reals with NaN: the mathematical value of a double. *)
Inductive xreal := XNaN | XNInf | XPInf | XFin (r : R).
Definition X (x : f64) : xreal :=
  match x with
  | S754_nan => XNaN
  | S754_infinity false => XPInf
  | S754_infinity true => XNInf
  | S754_zero _ => XFin 0
  | S754_finite s m e => XFin (SF2R radix2 (S754_finite s m e))
  end.
Definition xlt (a b : xreal) : Prop :=
  match a, b with
  | XNaN, _ | _, XNaN => False
  | XNInf, XNInf => False
  | XNInf, _ => True
  | _, XNInf => False
  | XPInf, _ => False
  | _, XPInf => True
  | XFin x, XFin y => x < y
  end.
Definition xle (a b : xreal) : Prop :=
  match a, b with
  | XNaN, _ | _, XNaN => False
  | XNInf, _ => True
  | _, XNInf => False
  | XPInf, XPInf => True
  | XPInf, _ => False
  | _, XPInf => True
  | XFin x, XFin y => x <= y
  end.
Definition xeq (a b : xreal) : Prop := a <> XNaN /\ a = b.

Lemma valid_bf x : valid x = true -> exists b : bf, B2SF b = x.
Proof. intros H. exists (SF2B x H). apply B2SF_SF2B. Qed.
Lemma bf_valid (b : bf) : valid (B2SF b) = true.
Proof. apply valid_binary_B2SF. Qed.

Lemma X_finite (b : bf) : BinarySingleNaN.is_finite b = true -> X (B2SF b) = XFin (B2R b).
Proof. destruct b as [s|s| |s m e H]; cbn; try discriminate; reflexivity. Qed.

Lemma cmp_correct (a b : bf) :
  SFcompare (B2SF a) (B2SF b) =
  match X (B2SF a), X (B2SF b) with
  | XNaN, _ | _, XNaN => None
  | XNInf, XNInf | XPInf, XPInf => Some Eq
  | XNInf, _ | _, XPInf => Some Lt
  | _, XNInf | XPInf, _ => Some Gt
  | XFin x, XFin y => Some (Rcompare x y)
  end.
Proof.
  destruct (BinarySingleNaN.is_finite a) eqn:Fa, (BinarySingleNaN.is_finite b) eqn:Fb.
  - rewrite (X_finite a Fa), (X_finite b Fb). exact (Bcompare_correct _ _ a b Fa Fb).
  - destruct a as [s|[]| |s m e H], b as [s'|[]| |s' m' e' H']; try discriminate; reflexivity.
  - destruct a as [s|[]| |s m e H], b as [s'|[]| |s' m' e' H']; try discriminate; reflexivity.
  - destruct a as [s|[]| |s m e H], b as [s'|[]| |s' m' e' H']; try discriminate; reflexivity.
Qed.

Lemma flt_spec x y : valid x = true -> valid y = true -> (flt x y = true <-> xlt (X x) (X y)).
Proof.
  intros Hx Hy. destruct (valid_bf _ Hx) as (a & <-), (valid_bf _ Hy) as (b & <-).
  unfold flt, SFltb. rewrite cmp_correct.
  destruct (X (B2SF a)) as [| | |r], (X (B2SF b)) as [| | |r']; cbn; try (split; [discriminate|tauto]); try tauto.
  destruct (Rcompare_spec r r'); split; try discriminate; try tauto; lra.
Qed.
Lemma fle_spec x y : valid x = true -> valid y = true -> (fle x y = true <-> xle (X x) (X y)).
Proof.
  intros Hx Hy. destruct (valid_bf _ Hx) as (a & <-), (valid_bf _ Hy) as (b & <-).
  unfold fle, SFleb. rewrite cmp_correct.
  destruct (X (B2SF a)) as [| | |r], (X (B2SF b)) as [| | |r']; cbn; try (split; [discriminate|tauto]); try tauto.
  destruct (Rcompare_spec r r'); split; try discriminate; try tauto; try lra.
Qed.
Lemma feq_spec x y : valid x = true -> valid y = true -> (feq x y = true <-> xeq (X x) (X y)).
Proof.
  intros Hx Hy. destruct (valid_bf _ Hx) as (a & <-), (valid_bf _ Hy) as (b & <-).
  unfold feq, SFeqb, xeq. rewrite cmp_correct.
  destruct (X (B2SF a)) as [| | |r], (X (B2SF b)) as [| | |r']; cbn;
    try (split; [discriminate|intros [? ?]; congruence]); try (split; [split; congruence|reflexivity]).
  destruct (Rcompare_spec r r'); (split; [try discriminate; split; congruence|intros [? E]; injection E; intros; try lra; reflexivity]).
Qed.

(** ** Arithmetic *)
Lemma rne_equiv s m l : round_nearest_even m l = choice_mode mode_NE s m l.
Proof.
  case l; [reflexivity|intro c]. case c; [ | reflexivity..].
  now simpl; unfold Round.cond_incr; case Z.even.
Qed.
Lemma bra_equiv sx mx ex lx :
  SpecFloat.binary_round_aux prec emax sx mx ex lx = binary_round_aux prec emax mode_NE sx mx ex lx.
Proof.
  unfold SpecFloat.binary_round_aux, binary_round_aux.
  set (mrse' := shr_fexp _ _ _ _ _). case mrse'; intros mrs' e'; simpl.
  now rewrite (rne_equiv sx).
Qed.
Lemma br_equiv s m e :
  SpecFloat.binary_round prec emax s m e = binary_round prec emax mode_NE s m e.
Proof.
  unfold SpecFloat.binary_round, binary_round, shl_align_fexp.
  set (mez := shl_align _ _ _); case mez as [mz ez]. apply bra_equiv.
Qed.
Lemma bn_equiv m e szero :
  SpecFloat.binary_normalize prec emax m e szero
  = B2SF (binary_normalize prec emax Hprec Hmax mode_NE m e szero).
Proof.
  case m as [ | p | p].
  - now simpl.
  - simpl; rewrite B2SF_SF2B; apply br_equiv.
  - simpl; rewrite B2SF_SF2B; apply br_equiv.
Qed.
Lemma fadd_B (x y : bf) : fadd (B2SF x) (B2SF y) = B2SF (Bplus mode_NE x y).
Proof.
  unfold fadd.
  case x as [sx|sx| |sx mx ex Bx]; case y as [sy|sy| |sy my ey By];
  [now (trivial || simpl; case Bool.eqb).. | ].
  apply bn_equiv.
Qed.
Lemma fsub_B (x y : bf) : fsub (B2SF x) (B2SF y) = B2SF (Bminus mode_NE x y).
Proof.
  unfold fsub.
  case x as [sx|sx| |sx mx ex Bx]; case y as [sy|sy| |sy my ey By];
  [now (trivial || simpl; case Bool.eqb).. | ].
  simpl. unfold Zminus. rewrite <- cond_Zopp_negb. apply bn_equiv.
Qed.
Lemma fmul_B (x y : bf) : fmul (B2SF x) (B2SF y) = B2SF (Bmult mode_NE x y).
Proof.
  unfold fmul.
  case x as [sx|sx| |sx mx ex Bx]; case y as [sy|sy| |sy my ey By]; [now trivial.. | ].
  simpl. rewrite B2SF_SF2B. apply bra_equiv.
Qed.
Lemma fdiv_B (x y : bf) : fdiv (B2SF x) (B2SF y) = B2SF (Bdiv mode_NE x y).
Proof.
  unfold fdiv.
  case x as [sx|sx| |sx mx ex Bx]; case y as [sy|sy| |sy my ey By];
  [now (trivial || simpl; case Bool.eqb).. | ].
  simpl. rewrite B2SF_SF2B.
  set (melz := SFdiv_core_binary _ _ _ _ _ _). case melz as [[mz ez] lz]. apply bra_equiv.
Qed.

Lemma fadd_valid x y : valid x = true -> valid y = true -> valid (fadd x y) = true.
Proof.
  intros Hx Hy. destruct (valid_bf _ Hx) as (a & <-), (valid_bf _ Hy) as (b & <-).
  rewrite fadd_B. apply bf_valid.
Qed.
Lemma fsub_valid x y : valid x = true -> valid y = true -> valid (fsub x y) = true.
Proof.
  intros Hx Hy. destruct (valid_bf _ Hx) as (a & <-), (valid_bf _ Hy) as (b & <-).
  rewrite fsub_B. apply bf_valid.
Qed.
Lemma fmul_valid x y : valid x = true -> valid y = true -> valid (fmul x y) = true.
Proof.
  intros Hx Hy. destruct (valid_bf _ Hx) as (a & <-), (valid_bf _ Hy) as (b & <-).
  rewrite fmul_B. apply bf_valid.
Qed.
Lemma fdiv_valid x y : valid x = true -> valid y = true -> valid (fdiv x y) = true.
Proof.
  intros Hx Hy. destruct (valid_bf _ Hx) as (a & <-), (valid_bf _ Hy) as (b & <-).
  rewrite fdiv_B. apply bf_valid.
Qed.
Lemma round_Z_valid z : valid (round_Z z) = true.
Proof. unfold round_Z. rewrite bn_equiv. apply bf_valid. Qed.

(** Integers: correctly rounded, infinite exactly on overflow. *)
Lemma round_Z_spec z :
  (Rabs (rnd (IZR z)) < bpow radix2 1024 -> X (round_Z z) = XFin (rnd (IZR z))) /\
  (bpow radix2 1024 <= Rabs (rnd (IZR z)) ->
     X (round_Z z) = if (z <? 0)%Z then XNInf else XPInf).
Proof.
  unfold round_Z. rewrite bn_equiv.
  pose proof (binary_normalize_correct prec emax Hprec Hmax mode_NE z 0 false) as H.
  cbv zeta in H.
  assert (E : F2R (Float radix2 z 0) = IZR z) by (unfold F2R; cbn; lra).
  rewrite E in H. change (round radix2 (SpecFloat.fexp prec emax) (round_mode mode_NE) (IZR z)) with (rnd (IZR z)) in H.
  change (bpow radix2 emax) with (bpow radix2 1024) in H.
  destruct (Rlt_bool_spec (Rabs (rnd (IZR z))) (bpow radix2 1024)).
  - split; [|lra]. intros _. destruct H as (H1 & H2 & _).
    rewrite X_finite by assumption. now rewrite H1.
  - split; [lra|]. intros _. rewrite H. cbn.
    destruct (Rlt_bool_spec (IZR z) 0); destruct (Z.ltb_spec z 0); try reflexivity.
    + apply lt_IZR in H1. lia.
    + apply IZR_lt in H2. lra.
Qed.
