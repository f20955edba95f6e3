(** Property theorems: C01-C05 (class Param). *)
From Coq Require Import List Bool String Ascii ZArith SpecFloat Reals Lra Lia.
From Flocq Require Import Core.Core.
From Verif Require Import Prelude Float FloatFacts Param ParamProofs ParamSweepProofs.
Import ListNotations.
Open Scope string_scope.

(** Some concrete doubles. *)
Definition f1 : f64 := round_Z 1.
Definition f2 : f64 := round_Z 2.
Definition fm1 : f64 := round_Z (-1).
Definition tiny : f64 := S754_finite false 3 (-1074).   (* 3 * 2^-1074 *)
Definition p01 : param := mkparam "x" "x_{}" None fm1 f1 f1 "x" [] 0.

(** C01: the exact accept/reject rule of [setValue], for every state and every
    argument; see [C01_stmt] (ParamProofs.v), spelled out over the extended
    reals. *)
Theorem C01_setValue_rule : forall p v, wf p -> okval v ->
  let p' := fst (setValue p v) in let r := snd (setValue p v) in
  (r = Err TypeError <-> ~ is_number v) /\
  (r = Err OverflowError <-> too_big v) /\
  (r = Err ValueError <-> exists x, converts v x /\
       (xle (X (p_hi p)) (X x) \/ xle (X x) (X (p_lo p)))) /\
  (r = Ok tt <-> exists x, converts v x /\
       ~ xle (X (p_hi p)) (X x) /\ ~ xle (X x) (X (p_lo p))) /\
  (r = Ok tt \/ r = Err TypeError \/ r = Err OverflowError \/ r = Err ValueError) /\
  (r = Ok tt -> exists x, converts v x /\ getValue p' = Some x /\
       getBounds p' = getBounds p /\ p_sweep p' = p_sweep p /\ p_N p' = p_N p /\
       p_name p' = p_name p /\ p_symbol p' = p_symbol p) /\
  (r <> Ok tt -> p' = p).
Proof. exact setValue_C01. Qed.
Print Assumptions C01_setValue_rule.

Example C01_nonvacuous :
  wf p01 /\ okval (PFloat fzero) /\ okval (PInt 7) /\
  snd (setValue p01 (PFloat fzero)) = Ok tt /\
  snd (setValue p01 (PInt 7)) = Err ValueError /\
  snd (setValue p01 (PBool true)) = Err TypeError /\
  snd (setValue p01 (PInt (10 ^ 400))) = Err OverflowError /\
  snd (setValue p01 (PFloat S754_nan)) = Ok tt.
Proof. repeat split; try (vm_compute; reflexivity). intros x [=]. Qed.

(** C02 is false: three independent ways to get a value outside the bounds. *)
Definition value_ok (p : param) : Prop := inside p.

(** The constructor does not compare the value with the bounds. *)
Theorem C02_constructor_refuted :
  exists p, param_new (PStr "x") (PInt 2) (PList [PInt (-1); PInt 1]) (PInt 1) = Ok p /\
    ~ value_ok p.
Proof.
  eexists. split; [vm_compute; reflexivity|].
  intros H. destruct (H f2 eq_refl) as [_ H2].
  apply (proj2 (flt_spec f2 f1 eq_refl eq_refl)) in H2. vm_compute in H2. discriminate.
Qed.
Print Assumptions C02_constructor_refuted.

(** [setBounds] does not look at the value already set. *)
Theorem C02_setBounds_refuted :
  exists p l, param_new (PStr "x") PNone (PList [PInt (-1); PInt 3]) (PInt 1) = Ok p /\
    l = [PSetValue (PInt 2); PSetBounds (PList [PInt (-1); PInt 1])] /\
    ~ value_ok (prun p l).
Proof.
  do 2 eexists. split; [vm_compute; reflexivity|]. split; [reflexivity|].
  intros H. destruct (H f2 eq_refl) as [_ H2].
  apply (proj2 (flt_spec f2 f1 eq_refl eq_refl)) in H2. vm_compute in H2. discriminate.
Qed.
Print Assumptions C02_setBounds_refuted.

(** NaN passes both comparisons of [setValue]. *)
Theorem C02_nan_refuted :
  exists p, param_new (PStr "x") PNone (PList [PInt (-1); PInt 1]) (PInt 1) = Ok p /\
    snd (setValue p (PFloat S754_nan)) = Ok tt /\
    ~ value_ok (fst (setValue p (PFloat S754_nan))).
Proof.
  eexists. split; [vm_compute; reflexivity|]. split; [vm_compute; reflexivity|].
  intros H. destruct (H S754_nan eq_refl) as [_ []].
Qed.
Print Assumptions C02_nan_refuted.

(** C02, what holds: constructed without value, with no NaN among the
    arguments and bounds changed only while the value is unset, every history
    keeps lower < value < upper. *)
Theorem C02_inside_partial : forall nm b u p l,
  param_new nm PNone b u = Ok p -> okbounds b -> bounds_not_nan b ->
  careful p l ->
  forall x, getValue (prun p l) = Some x ->
    xlt (X (fst (getBounds (prun p l)))) (X x) /\ xlt (X x) (X (snd (getBounds (prun p l)))).
Proof. exact C02_lemma. Qed.
Print Assumptions C02_inside_partial.

Definition ex_hist : list pop :=
  [PSetBounds (PList [PInt (-5); PInt 5]); PSetValue (PInt 2); PSetValue (PInt 9);
   PSweep (PInt 0) (PInt 1) (PInt 3); PSetValue (PNp fm1)].
Example C02_nonvacuous :
  exists p, param_new (PStr "x") PNone (PList [PInt (-1); PInt 1]) (PInt 1) = Ok p /\
    careful p ex_hist /\ getValue (prun p ex_hist) = Some fm1.
Proof.
  eexists. split; [vm_compute; reflexivity|]. split; [|vm_compute; reflexivity].
  repeat split; repeat constructor.
Qed.

(** C03 is false: [setBounds([0, 10**400])] raises OverflowError after having
    replaced the lower bound; here the result is lower > upper. *)
Theorem C03_overflow_refuted :
  exists p b, param_new (PStr "x") PNone (PList [PInt (-1); PInt 1]) (PInt 1) = Ok p /\
    okbounds b /\
    snd (setBounds p b) = Err OverflowError /\
    getBounds (fst (setBounds p b)) <> getBounds p /\
    xlt (X (snd (getBounds (fst (setBounds p b))))) (X (fst (getBounds (fst (setBounds p b))))).
Proof.
  exists (mkparam "x" "x_{}" None fm1 f1 f1 "x_\mathrm{}" [] 0), (PList [PInt 2; PInt (10 ^ 400)]).
  split; [vm_compute; reflexivity|]. split; [repeat constructor|].
  split; [vm_compute; reflexivity|]. split; [vm_compute; discriminate|].
  apply (flt_spec f1 f2 eq_refl eq_refl). vm_compute. reflexivity.
Qed.
Print Assumptions C03_overflow_refuted.

(** C03, what holds: if no bound is an integer beyond the double range, the
    bounds are ordered after every history, *)
Theorem C03_ordered_partial : forall nm v b u p l,
  param_new nm v b u = Ok p -> okbounds b ->
  (forall b, In (PSetBounds b) l -> okbounds b /\ bounds_small b) ->
  ~ xlt (X (snd (getBounds (prun p l)))) (X (fst (getBounds (prun p l)))).
Proof. exact (fun nm v b u p l E Ob H => run_ordered p l H (param_new_ordered nm v b u p Ob E)). Qed.
Print Assumptions C03_ordered_partial.
(** and a rejected [setBounds] changes nothing. *)
Theorem C03_atomic_partial : forall p b, okbounds b -> bounds_small b ->
  snd (setBounds p b) <> Ok tt -> fst (setBounds p b) = p.
Proof. exact (fun p b Ob Sb => proj1 (setBounds_atomic p b Ob Sb)). Qed.
Print Assumptions C03_atomic_partial.

Example C03_nonvacuous :
  exists p, param_new (PStr "x") PNone (PList [PInt (-1); PInt 1]) (PInt 1) = Ok p /\
    (forall b, In (PSetBounds b) ex_hist -> okbounds b /\ bounds_small b) /\
    snd (setBounds p (PList [PInt 3; PInt 2])) = Err ValueError /\
    snd (setBounds p (PList [PInt 2; PInt 3])) = Ok tt.
Proof.
  eexists. split; [vm_compute; reflexivity|]. split; [|split; vm_compute; reflexivity].
  intros b Hb. cbn in Hb. repeat (destruct Hb as [Hb|Hb]; [try discriminate Hb|]); try contradiction.
  injection Hb as <-. split; [repeat constructor|].
  assert (S : forall z, (Z.abs z <= 2 ^ 53)%Z -> ~ too_big (PInt z)).
  { intros z Hz B. destruct (round_Z_small z Hz) as (f & E & F & _).
    destruct (to_float_spec (PInt z) I (num_int z)) as [(y & _ & _ & _ & N)|[E' _]]; [contradiction|].
    cbn [to_float] in E'. unfold float_of_int in E'. rewrite E in E'. destruct f; discriminate. }
  repeat constructor; apply S; lia.
Qed.

(** C04: acceptance, length, end points and atomicity of [linearSweep]. *)
Theorem C04_linearSweep : forall p s e n, okval s -> okval e ->
  let p' := fst (linearSweep p s e n) in let r := snd (linearSweep p s e n) in
  (forall ex, r = Err ex -> p' = p) /\
  (forall N, n = PInt N -> (N < 0)%Z -> exists ex, r = Err ex) /\
  (forall N x y, n = PInt N -> (0 <= N)%Z -> converts s x -> converts e y ->
     valid (p_lo p) = true -> valid (p_hi p) = true ->
     ((exists l, r = Ok l) <->
      ~ xlt (X (p_hi p)) (X x) /\ ~ xlt (X x) (X (p_lo p)) /\
      ~ xlt (X (p_hi p)) (X y) /\ ~ xlt (X y) (X (p_lo p)))) /\
  (forall l, r = Ok l -> exists N x y,
     n = PInt N /\ (0 <= N)%Z /\ converts s x /\ converts e y /\
     Z.of_nat (List.length l) = N /\ p_sweep p' = l /\ p_N p' = N /\
     ((2 <= N)%Z -> nth_error l (List.length l - 1) = Some y) /\
     (forall sx ex, X x = XFin sx -> X y = XFin ex -> Float.is_finite (fsub y x) = true ->
        (1 <= N)%Z -> exists f, nth_error l 0 = Some f /\ X f = X x) /\
     getValue p' = getValue p /\ getBounds p' = getBounds p).
Proof. exact linearSweep_C04. Qed.
Print Assumptions C04_linearSweep.

Example C04_nonvacuous :
  snd (linearSweep p01 (PInt (-1)) (PInt 1) (PInt 3)) = Ok [fm1; fzero; f1] /\
  snd (linearSweep p01 (PInt (-1)) (PInt 1) (PInt 1)) = Ok [fm1] /\
  snd (linearSweep p01 (PInt (-1)) (PInt 1) (PInt 0)) = Ok [] /\
  snd (linearSweep p01 (PInt (-1)) (PInt 2) (PInt 3)) = Err ValueError /\
  Float.is_finite (fsub f1 fm1) = true.
Proof. repeat split; vm_compute; reflexivity. Qed.

(** Without the finiteness hypothesis the first point can be lost: the only
    point of a one-point sweep over an overflowing range is NaN. *)
Definition fmax : f64 := S754_finite false (2 ^ 53 - 1) 971.
Definition fmin : f64 := S754_finite true (2 ^ 53 - 1) 971.
Theorem C04_first_point_refuted :
  exists p, param_new (PStr "x") PNone (PList [PFloat fninf; PFloat finf]) (PInt 1) = Ok p /\
    okval (PFloat fmin) /\ okval (PFloat fmax) /\
    snd (linearSweep p (PFloat fmin) (PFloat fmax) (PInt 1)) = Ok [fnan].
Proof. eexists. repeat split; vm_compute; reflexivity. Qed.
Print Assumptions C04_first_point_refuted.

(** C05 is false in the subnormal range: bounds [0, 3*2^-1074], six points,
    the fifth is above the upper bound (numpy rounds the step up). *)
Theorem C05_subnormal_refuted :
  exists p l f, param_new (PStr "x") PNone (PList [PFloat fzero; PFloat tiny]) (PInt 1) = Ok p /\
    okval (PFloat tiny) /\
    snd (linearSweep p (PFloat fzero) (PFloat tiny) (PInt 6)) = Ok l /\
    nth_error l 4 = Some f /\ xlt (X (p_hi p)) (X f).
Proof.
  do 3 eexists. split; [vm_compute; reflexivity|]. split; [reflexivity|].
  split; [vm_compute; reflexivity|]. split; [reflexivity|].
  apply flt_spec; vm_compute; reflexivity.
Qed.
Print Assumptions C05_subnormal_refuted.

(** C05, what holds: if end - start does not overflow, the range is at least
    (N-1)*2^-1021 wide (or empty) and N <= 2^50, every point lies between the
    end points, hence within the bounds. *)
Theorem C05_points_in_bounds_partial : forall p s e N l x y,
  okval s -> okval e -> valid (p_lo p) = true -> valid (p_hi p) = true ->
  snd (linearSweep p s e (PInt N)) = Ok l ->
  converts s x -> converts e y -> valid x = true -> valid y = true ->
  (exists a b, X x = XFin a /\ X y = XFin b /\
     (a = b \/ (IZR (N - 1) * bpow radix2 (-1021) <= Rabs (b - a))%R)) ->
  Float.is_finite (fsub y x) = true ->
  (N <= 2 ^ 50)%Z ->
  X (p_lo p) <> XNaN -> X (p_hi p) <> XNaN ->
  forall f, In f l ->
    xle (X (p_lo p)) (X f) /\ xle (X f) (X (p_hi p)) /\
    ((xle (X x) (X f) /\ xle (X f) (X y)) \/ (xle (X y) (X f) /\ xle (X f) (X x))).
Proof. exact linearSweep_C05. Qed.
Print Assumptions C05_points_in_bounds_partial.

Example C05_nonvacuous :
  (exists l, snd (linearSweep p01 (PInt (-1)) (PFloat f1) (PInt 7)) = Ok l) /\
  converts (PFloat f1) f1 /\ valid f1 = true /\ valid fm1 = true /\
  Float.is_finite (fsub f1 fm1) = true /\
  exists a b, X fm1 = XFin a /\ X f1 = XFin b /\
    (IZR (7 - 1) * bpow radix2 (-1021) <= Rabs (b - a))%R.
Proof.
  split; [eexists; vm_compute; reflexivity|]. split; [constructor|].
  split; [reflexivity|]. split; [reflexivity|]. split; [reflexivity|].
  exists (-1)%R, 1%R.
  assert (A : forall z, (Z.abs z <= 2 ^ 53)%Z -> X (round_Z z) = XFin (IZR z)).
  { intros z Hz. destruct (round_Z_small z Hz) as (f & E & F & R).
    rewrite E, X_finite by assumption. now rewrite R. }
  split; [apply (A (-1)%Z); lia|]. split; [apply (A 1%Z); lia|].
  replace (1 - -1)%R with 2%R by lra. rewrite Rabs_pos_eq by lra.
  apply Rle_trans with (6 * bpow radix2 (-3))%R.
  - apply Rmult_le_compat_l; [cbn; lra|]. apply bpow_le. lia.
  - cbn. lra.
Qed.
