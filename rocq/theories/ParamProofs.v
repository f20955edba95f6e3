From Coq Require Import List Bool String Ascii ZArith SpecFloat Reals Lra Lia.
From Flocq Require Import Core.Core IEEE754.BinarySingleNaN.
From Verif Require Import Prelude PreludeFacts Float FloatFacts Latex Param.
Import ListNotations.
Open Scope R_scope.

(** ** Specification vocabulary *)

(** Arguments that are doubles are representable doubles. *)
Definition okval (v : pyval) : Prop :=
  match v with PFloat x | PNp x => valid x = true | _ => True end.
Definition okbounds (b : pyval) : Prop :=
  match b with PList l => Forall okval l | _ => True end.
Definition wf (p : param) : Prop :=
  valid (p_lo p) = true /\ valid (p_hi p) = true /\
  (forall x, p_value p = Some x -> valid x = true).

(** The double a Python scalar stands for: itself, or the correctly rounded
    integer. *)
Inductive converts : pyval -> f64 -> Prop :=
| conv_float x : converts (PFloat x) x
| conv_np x : converts (PNp x) x
| conv_int z x : valid x = true -> X x = XFin (rnd (IZR z)) ->
    Rabs (rnd (IZR z)) < bpow radix2 1024 -> converts (PInt z) x.

Inductive is_number : pyval -> Prop :=
| num_int z : is_number (PInt z)
| num_float x : is_number (PFloat x)
| num_np x : is_number (PNp x).

Definition too_big (v : pyval) : Prop :=
  exists z, v = PInt z /\ bpow radix2 1024 <= Rabs (rnd (IZR z)).

Lemma valid_scalar_spec v : valid_scalar v = true <-> is_number v.
Proof. destruct v; cbn; split; try discriminate; try (intros H; inversion H); try constructor. Qed.

Lemma to_float_spec v : okval v -> is_number v ->
  (exists x, to_float v = Ok x /\ converts v x /\ valid x = true /\ ~ too_big v) \/
  (to_float v = Err OverflowError /\ too_big v).
Proof.
  intros Hv Hn. destruct Hn as [z|x|x].
  - cbn [to_float]. unfold float_of_int. destruct (round_Z_spec z) as [H1 H2].
    destruct (Rlt_or_le (Rabs (rnd (IZR z))) (bpow radix2 1024)) as [L|L].
    + left. specialize (H1 L). exists (round_Z z). pose proof (round_Z_valid z) as V.
      assert (~ too_big (PInt z)) by (intros (z' & [= <-] & B); lra).
      destruct (round_Z z) as [s|[]| |s m e] eqn:E; cbn in H1; try discriminate;
      (split; [reflexivity|split; [constructor; assumption|split; assumption]]).
    + right. specialize (H2 L). split; [|exists z; auto].
      destruct (round_Z z) as [s|s| |s m e] eqn:E; cbn in H2;
        destruct (z <? 0)%Z; try discriminate; reflexivity.
  - left. exists x. cbn. repeat split; try constructor; auto. intros (z & [=] & _).
  - left. exists x. cbn. repeat split; try constructor; auto. intros (z & [=] & _).
Qed.

Lemma bool_false_neg (b : bool) (P : Prop) : (b = true <-> P) -> b = false -> ~ P.
Proof. intros H E HP. apply H in HP. congruence. Qed.

(** ** C01 *)
Definition C01_stmt : Prop := forall p v, wf p -> okval v ->
  let p' := fst (setValue p v) in let r := snd (setValue p v) in
  (r = Err TypeError <-> ~ is_number v) /\
  (r = Err OverflowError <-> too_big v) /\
  (r = Err ValueError <-> exists x, converts v x /\
       (xle (X (p_hi p)) (X x) \/ xle (X x) (X (p_lo p)))) /\
  (r = Ok tt <-> exists x, converts v x /\
       ~ xle (X (p_hi p)) (X x) /\ ~ xle (X x) (X (p_lo p))) /\
  (r = Ok tt \/ r = Err TypeError \/ r = Err OverflowError \/ r = Err ValueError) /\
  (r = Ok tt -> exists x, converts v x /\ getValue p' = Some x /\
       getBounds p' = getBounds p /\ p_sweep p' = p_sweep p /\ p_N p' = p_N p /\
       p_name p' = p_name p /\ p_symbol p' = p_symbol p) /\
  (r <> Ok tt -> p' = p).

Lemma converts_number v x : converts v x -> is_number v.
Proof. destruct 1; constructor. Qed.
Lemma converts_not_big v x : converts v x -> ~ too_big v.
Proof.
  destruct 1 as [x|x|z x V E L]; intros (z' & Ez & B); try discriminate.
  injection Ez as <-. lra.
Qed.
Lemma converts_X v x y : converts v x -> converts v y -> X x = X y.
Proof. destruct 1; inversion 1; subst; congruence. Qed.

Lemma setValue_C01 : C01_stmt.
Proof.
  intros p v (Wl & Wh & _) Hv. cbv zeta. unfold setValue.
  destruct (valid_scalar v) eqn:S; cbn [negb].
  2:{ assert (N : ~ is_number v) by (rewrite <- valid_scalar_spec; congruence).
      cbn [fst snd].
      split; [tauto|]. split; [split; [discriminate|intros (z & -> & _); exfalso; apply N; constructor]|].
      split; [split; [discriminate|intros (x & C & _); exfalso; eauto using converts_number]|].
      split; [split; [discriminate|intros (x & C & _); exfalso; eauto using converts_number]|].
      split; [tauto|]. split; [discriminate|reflexivity]. }
  apply valid_scalar_spec in S.
  destruct (to_float_spec v Hv S) as [(x & E & C & V & NB)|[E B]]; rewrite E.
  2:{ cbn [fst snd].
      split; [split; [discriminate|tauto]|]. split; [tauto|].
      split; [split; [discriminate|intros (y & C & _); exfalso; eapply converts_not_big; eauto]|].
      split; [split; [discriminate|intros (y & C & _); exfalso; eapply converts_not_big; eauto]|].
      split; [tauto|]. split; [discriminate|reflexivity]. }
  pose proof (fle_spec _ _ Wh V) as Sh. pose proof (fle_spec _ _ V Wl) as Sl.
  destruct (fle (p_hi p) x) eqn:Eh; [|destruct (fle x (p_lo p)) eqn:El]; cbn [fst snd].
  - split; [split; [discriminate|tauto]|]. split; [split; [discriminate|tauto]|].
    split; [split; [intros _; exists x; tauto|reflexivity]|].
    split; [split; [discriminate|intros (y & Cy & N1 & _); exfalso; apply N1; rewrite (converts_X _ _ _ Cy C); tauto]|].
    split; [tauto|]. split; [discriminate|reflexivity].
  - split; [split; [discriminate|tauto]|]. split; [split; [discriminate|tauto]|].
    split; [split; [intros _; exists x; tauto|reflexivity]|].
    split; [split; [discriminate|intros (y & Cy & _ & N1); exfalso; apply N1; rewrite (converts_X _ _ _ Cy C); tauto]|].
    split; [tauto|]. split; [discriminate|reflexivity].
  - pose proof (bool_false_neg _ _ Sh eq_refl). pose proof (bool_false_neg _ _ Sl eq_refl).
    split; [split; [discriminate|tauto]|]. split; [split; [discriminate|tauto]|].
    split; [split; [discriminate|intros (y & Cy & D); exfalso; rewrite (converts_X _ _ _ Cy C) in D; tauto]|].
    split; [split; [intros _; exists x; tauto|reflexivity]|].
    split; [tauto|]. split; [|intros F; exfalso; apply F; reflexivity].
    intros _. exists x. cbn. auto 10.
Qed.

(** ** C02: histories *)
Definition inside (p : param) : Prop :=
  forall x, p_value p = Some x -> xlt (X (p_lo p)) (X x) /\ xlt (X x) (X (p_hi p)).

Definition not_nan (v : pyval) : Prop :=
  match v with PFloat x | PNp x => is_nan x = false | _ => True end.
Definition bounds_not_nan (b : pyval) : Prop :=
  match b with PList l => Forall not_nan l | _ => True end.

(** The histories for which the claim holds: no NaN is passed, and bounds are
    changed only while no value is set. *)
Fixpoint careful (p : param) (l : list pop) : Prop :=
  match l with
  | [] => True
  | o :: r =>
      match o with
      | PSetValue v => okval v /\ not_nan v
      | PSetBounds b => okbounds b /\ bounds_not_nan b /\ p_value p = None
      | PSweep _ _ _ => True
      end /\ careful (pstep p o) r
  end.

Definition nn (p : param) : Prop := X (p_lo p) <> XNaN /\ X (p_hi p) <> XNaN.

Lemma not_le_lt a b : a <> XNaN -> b <> XNaN -> ~ xle a b -> xlt b a.
Proof. destruct a, b; cbn; intros; try tauto; try congruence. lra. Qed.

Lemma converts_nn v x : converts v x -> not_nan v -> X x <> XNaN.
Proof.
  destruct 1 as [x|x|z x V E L]; cbn; [| |intros _; rewrite E; discriminate];
  destruct x as [s|[]| |s m e]; cbn; congruence.
Qed.
Lemma to_float_nn v x : to_float v = Ok x -> not_nan v -> okval v -> X x <> XNaN /\ valid x = true.
Proof.
  destruct v; cbn; try discriminate.
  - unfold float_of_int. pose proof (round_Z_valid z) as V.
    destruct (round_Z_spec z) as [H1 H2].
    intros E _ _.
    assert (x = round_Z z) as -> by (destruct (round_Z z); try discriminate; now injection E).
    split; [|assumption].
    destruct (Rlt_or_le (Rabs (rnd (IZR z))) (bpow radix2 1024)) as [L|L];
      [rewrite H1 by assumption; discriminate|rewrite H2 by assumption; destruct (z <? 0)%Z; discriminate].
  - intros [= <-] N V. split; [|assumption]. destruct x0 as [s|[]| |s m e]; cbn in *; congruence.
  - intros [= <-] N V. split; [|assumption]. destruct x0 as [s|[]| |s m e]; cbn in *; congruence.
Qed.

Lemma setBounds_fields p b :
  p_value (fst (setBounds p b)) = p_value p.
Proof.
  unfold setBounds. destruct b as [| | | | | |l|]; try reflexivity.
  destruct l as [|b0 [|b1 [|]]]; try reflexivity.
  destruct (negb (bounds_types_ok b0 b1)); [reflexivity|].
  destruct (py_gt b0 b1); [reflexivity|].
  destruct (to_float b0); [|reflexivity]. destruct (to_float b1); reflexivity.
Qed.

Lemma setBounds_wf_nn p b : okbounds b -> bounds_not_nan b ->
  wf p -> nn p -> wf (fst (setBounds p b)) /\ nn (fst (setBounds p b)).
Proof.
  intros Ob Nb W N. unfold setBounds. destruct b as [| | | | | |l|]; try (split; assumption).
  destruct l as [|b0 [|b1 [|]]]; try (split; assumption).
  cbn in Ob, Nb. inversion Ob as [|? ? O0 O']; subst. inversion O' as [|? ? O1 _]; subst.
  inversion Nb as [|? ? N0 N']; subst. inversion N' as [|? ? N1 _]; subst.
  destruct (negb (bounds_types_ok b0 b1)); [split; assumption|].
  destruct (py_gt b0 b1); [split; assumption|].
  destruct (to_float b0) as [lo|] eqn:E0; [|split; assumption].
  destruct (to_float_nn _ _ E0 N0 O0) as [X0 V0].
  destruct W as (Wl & Wh & Wv), N as [Nl Nh].
  destruct (to_float b1) as [hi|] eqn:E1; cbn [fst].
  - destruct (to_float_nn _ _ E1 N1 O1) as [X1 V1].
    split; [repeat split; assumption|split; assumption].
  - split; [repeat split; assumption|split; assumption].
Qed.

Lemma linearSweep_fields p s e n :
  let p' := fst (linearSweep p s e n) in
  p_value p' = p_value p /\ p_lo p' = p_lo p /\ p_hi p' = p_hi p.
Proof.
  unfold linearSweep.
  repeat match goal with
  | |- context [if ?b then _ else _] => destruct b
  | |- context [match ?x with _ => _ end] => destruct x
  end; cbn; auto.
Qed.

Lemma step_inside p o :
  match o with
  | PSetValue v => okval v /\ not_nan v
  | PSetBounds b => okbounds b /\ bounds_not_nan b /\ p_value p = None
  | PSweep _ _ _ => True
  end ->
  wf p -> nn p -> inside p -> wf (pstep p o) /\ nn (pstep p o) /\ inside (pstep p o).
Proof.
  intros H W N I. destruct o as [v|b|s e n]; cbn [pstep].
  - destruct H as [Ov Nv]. destruct (setValue_C01 p v W Ov) as (_ & _ & _ & Hok & _ & Hval & Hrej).
    destruct (snd (setValue p v)) as [[]|ex] eqn:R.
    2:{ rewrite Hrej by discriminate. auto. }
    destruct (proj1 Hok eq_refl) as (x & C & A & B).
    destruct W as (Wl & Wh & Wv), N as [Nl Nh].
    unfold setValue in *. destruct (negb (valid_scalar v)); [discriminate|].
    destruct (to_float v) as [y|] eqn:E; [|discriminate].
    destruct (to_float_nn _ _ E Nv Ov) as [XY VY].
    assert (CY : converts v y).
    { destruct (Hval eq_refl) as (z & Cz & G & _).
      destruct (fle (p_hi p) y); [discriminate|]. destruct (fle y (p_lo p)); [discriminate|].
      cbn in G. now injection G as ->. }
    rewrite (converts_X _ _ _ C CY) in A, B.
    destruct (fle (p_hi p) y); [discriminate|]. destruct (fle y (p_lo p)); [discriminate|].
    cbn [fst]. split; [|split].
    + repeat split; cbn; try assumption. intros z [= <-]. assumption.
    + split; assumption.
    + intros z [= <-]. cbn. split; apply not_le_lt; assumption.
  - destruct H as (Ob & Nb & None0). destruct (setBounds_wf_nn p b Ob Nb W N) as [W' N'].
    split; [assumption|split; [assumption|]]. intros x. rewrite setBounds_fields, None0. discriminate.
  - destruct (linearSweep_fields p s e n) as (E1 & E2 & E3).
    unfold wf, nn, inside. rewrite E1, E2, E3. auto.
Qed.

Lemma run_inside p l : careful p l -> wf p -> nn p -> inside p -> inside (prun p l).
Proof.
  revert p. induction l as [|o l IH]; intros p C W N I; cbn; [assumption|].
  destruct C as [H C]. destruct (step_inside p o H W N I) as (W' & N' & I').
  apply IH; assumption.
Qed.

(** Construction without value. *)
Lemma param_new_fields nm b u p : okbounds b -> bounds_not_nan b ->
  param_new nm PNone b u = Ok p -> wf p /\ nn p /\ p_value p = None.
Proof.
  intros Ob Nb. unfold param_new. destruct nm; try discriminate.
  destruct (has_space s); [discriminate|]. cbn [negb].
  destruct b as [| | | | | |l|]; try discriminate.
  destruct l as [|b0 [|b1 [|]]]; try discriminate.
  cbn in Ob, Nb. inversion Ob as [|? ? O0 O']; subst. inversion O' as [|? ? O1 _]; subst.
  inversion Nb as [|? ? N0 N']; subst. inversion N' as [|? ? N1 _]; subst.
  destruct (negb (bounds_types_ok b0 b1)); [discriminate|].
  destruct (py_gt b0 b1); [discriminate|].
  destruct (negb (valid_scalar u)); [discriminate|].
  destruct (to_float u) as [uu|]; [|discriminate]. cbn [bind].
  destruct (flt uu fzero); [discriminate|].
  destruct (default_symbol s) as [sym|]; [|discriminate]. cbn [bind].
  destruct (to_float b0) as [lo|] eqn:E0; [|discriminate]. cbn [bind].
  destruct (to_float b1) as [hi|] eqn:E1; [|discriminate]. cbn [bind].
  destruct (latexify_param_name s); [|discriminate]. cbn [bind]. intros [= <-].
  destruct (to_float_nn _ _ E0 N0 O0), (to_float_nn _ _ E1 N1 O1).
  repeat split; cbn; auto. discriminate.
Qed.

Lemma C02_lemma : forall nm b u p l,
  param_new nm PNone b u = Ok p -> okbounds b -> bounds_not_nan b ->
  careful p l -> inside (prun p l).
Proof.
  intros nm b u p l E Ob Nb C. destruct (param_new_fields _ _ _ _ Ob Nb E) as (W & N & V).
  apply run_inside; auto. intros x. rewrite V. discriminate.
Qed.
