(** Physical meaning of the prefactors, and the counterexamples. *)
From Coq Require Import List Bool String Ascii ZArith Lia Reals Lra.
From Verif Require Import Prelude PreludeFacts Mat MatFacts Units UnitsSpec UnitsProofs UnitsRealProofs.
Import ListNotations.
Open Scope string_scope.
Open Scope list_scope.
Open Scope R_scope.

Lemma has_factors_fun (h : rheap) u s s' : has_factors h u s -> has_factors h u s' -> s = s'.
Proof.
  unfold has_factors. destruct s, s'; cbn. intros (?&?&?&?&?&?&?&?&?&?&?) (?&?&?&?&?&?&?&?&?&?&?).
  repeat match goal with H1 : ?x = Some _, H2 : ?x = Some _ |- _ => rewrite H1 in H2; injection H2 as ->; clear H1 end. reflexivity.
Qed.
Lemma refreshed_get (h : rheap) u s name x : refreshed h u -> has_factors h u s -> prefactor_of s name = Some x -> getPrefactor u name = Ok x.
Proof. intros [s' [F G]] F' P. rewrite (has_factors_fun h u s s' F' F) in P. now rewrite G, P. Qed.
Lemma get_value (h : rheap) u s name p x : refreshed h u -> has_factors h u s -> getPrefactor u name = Ok p -> prefactor_of s name = Some x -> p = x.
Proof. intros Rf F G P. rewrite (refreshed_get h u s name x Rf F P) in G. now injection G. Qed.

Lemma quad_scale n x K a b : quad n (fun i => x i / a) (fun i j => K i j * b) = b / (a * a) * quad n x K \/ a = 0.
Proof.
  destruct (Req_EM_T a 0) as [|N]; [now right|left]. unfold quad.
  assert (D : forall m f c, sumn (A := R_rng) m (fun i => c * f i) = c * sumn (A := R_rng) m f).
  { intros m f c. induction m as [|m IH]; cbn; [ring|]. rewrite IH. cbn. ring. }
  rewrite <- D. apply (@sumn_ext R_rng). intros i _.
  change (@eq R (sumn (A := R_rng) n (fun j => x i / a * (K i j * b) * (x j / a))) (b / (a * a) * sumn (A := R_rng) n (fun j => x i * K i j * x j))).
  rewrite <- D. apply (@sumn_ext R_rng). intros j _. change (@eq R (x i / a * (K i j * b) * (x j / a)) (b / (a * a) * (x i * K i j * x j))). now field.
Qed.

Lemma p10n n : powerRZ 10 (Z.neg n) = / powerRZ 10 (Z.pos n).
Proof. exact (powerRZ_neg' 10 (Z.pos n)). Qed.

Lemma p10_gt1 n : (0 < Z.pos n)%Z -> 1 < powerRZ 10 (Z.pos n).
Proof. intros _. rewrite <- (positive_nat_Z n), <- pow_powerRZ. apply Rlt_pow_R1; [lra|]. apply Pos2Nat.is_pos. Qed.
Lemma div_inj a x y : a <> 0 -> x <> 0 -> y <> 0 -> a / x = a / y -> x = y.
Proof. intros Ha Hx Hy H. apply Rmult_eq_reg_l in H; [|auto]. rewrite <- (Rinv_inv x), H. apply Rinv_inv. Qed.

Lemma Ok_inj {T} (a b : T) : Ok a = Ok b -> a = b.
Proof. now intros [= ->]. Qed.
Lemma Some_inj {T} (a b : T) : Some a = Some b -> a = b.
Proof. now intros [= ->]. Qed.

Section Phys.
  Variables (h : rheap) (u : runits) (s : usys R).
  Hypotheses (Rf : refreshed h u) (F : has_factors h u s) (P : positive s).
  Let get name p x := get_value h u s name p x Rf F.
  Lemma Ec_ok n (q : nat -> R) (K : nat -> nat -> R) p : getPrefactor u "Ec" = Ok p ->
    p * (1/2) * quad n (fun i => q i / sC s) (fun i j => K i j * sF s) = oE s * (1/2 * quad n q K).
  Proof.
    intros G. rewrite (get "Ec" p _ G eq_refl). destruct P as (?&?&?&?&?&?&?&?&?&?&?).
    destruct (quad_scale n q K (sC s) (sF s)) as [->|Z]; [field; lra|lra].
  Qed.
  Lemma El_ok n (f : nat -> R) (K : nat -> nat -> R) p : getPrefactor u "El" = Ok p ->
    p * (1/2) * quad n (fun i => f i / sWb s) (fun i j => K i j * sH s) = oE s * (1/2 * quad n f K).
  Proof.
    intros G. rewrite (get "El" p _ G eq_refl). destruct P as (?&?&?&?&?&?&?&?&?&?&?).
    destruct (quad_scale n f K (sWb s) (sH s)) as [->|Z]; [field; lra|lra].
  Qed.
  Lemma pi_pos : 0 < PI. Proof. apply PI_RGT_0. Qed.
  Lemma Ej_iff Ic p : 0 < Ic -> getPrefactor u "Ej" = Ok p -> (p * (Ic / sA s) = oE s * (phi0_SI * Ic / (2 * PI)) <-> sWb s = phi0_SI).
  Proof.
    intros I0 G. rewrite (get "Ej" p _ G eq_refl). destruct P as (?&?&?&?&?&?&?&?&?&?&?). pose proof pi_pos.
    replace (oE s * sWb s * sA s / (2 * PI) * (Ic / sA s)) with (oE s * Ic / (2 * PI) * sWb s) by (field; lra).
    replace (oE s * (phi0_SI * Ic / (2 * PI))) with (oE s * Ic / (2 * PI) * phi0_SI) by (field; lra).
    split; [|now intros ->]. intros Q. apply Rmult_eq_reg_l in Q; [exact Q|]. apply Rgt_not_eq. apply Rdiv_lt_0_compat; [nra|lra].
  Qed.
  Lemma Ep_iff V p : 0 < V -> getPrefactor u "Ep" = Ok p -> (p * (V / sV s) = oE s * (2 * e_SI * V / (2 * PI)) <-> sC s = 2 * e_SI).
  Proof.
    intros I0 G. rewrite (get "Ep" p _ G eq_refl). destruct P as (?&?&?&?&?&?&?&?&?&?&?). pose proof pi_pos.
    replace (oE s * sC s * sV s / (2 * PI) * (V / sV s)) with (oE s * V / (2 * PI) * sC s) by (field; lra).
    replace (oE s * (2 * e_SI * V / (2 * PI))) with (oE s * V / (2 * PI) * (2 * e_SI)) by (field; lra).
    split; [|now intros ->]. intros Q. apply Rmult_eq_reg_l in Q; [exact Q|]. apply Rgt_not_eq. apply Rdiv_lt_0_compat; [nra|lra].
  Qed.
  (** Oscillator quantities *)
  Lemma Freq_ok Ci Li p : 0 <= Ci -> 0 <= Li -> getPrefactor u "Freq" = Ok p ->
    p * sqrt (Ci * sF s * (Li * sH s)) = sqrt (Ci * Li) / (2 * PI) / sHz s.
  Proof.
    intros C0 L0 G. rewrite (get "Freq" p _ G eq_refl). destruct P as (?&?&?&?&?&?&?&?&?&?&?). pose proof pi_pos.
    replace (Ci * sF s * (Li * sH s)) with (Ci * Li * (sF s * sH s)) by ring. rewrite (sqrt_mult (Ci * Li) (sF s * sH s)) by nra.
    assert (0 < sqrt (sF s * sH s)) by (apply sqrt_lt_R0; nra). field. repeat split; lra.
  Qed.
  Lemma Impe_ok Ci Li p : 0 <= Ci -> 0 < Li -> getPrefactor u "Impe" = Ok p ->
    p * sqrt (Ci * sF s / (Li * sH s)) = sqrt (Ci / Li).
  Proof.
    intros C0 L0 G. rewrite (get "Impe" p _ G eq_refl). destruct P as (?&?&?&?&?&?&?&?&?&?&?).
    rewrite <- sqrt_mult.
    - f_equal. field. lra.
    - apply Rlt_le. now apply Rdiv_lt_0_compat.
    - apply Rmult_le_pos; [nra|]. apply Rlt_le, Rinv_0_lt_compat. nra.
  Qed.
  Lemma sqrt2_split Z : 0 < Z -> 0 <= Z / 2 /\ 0 <= 1 / (2 * Z).
  Proof. intros H. split; [lra|]. apply Rlt_le, Rdiv_lt_0_compat; lra. Qed.
  Lemma hbar_pos : 0 < hbar_SI.
  Proof. unfold hbar_SI. apply Rmult_lt_0_compat; [lra|]. apply Rinv_0_lt_compat, p10_pos. Qed.
  Lemma FlxOsc_ok Z p : 0 < Z -> getPrefactor u "FlxOsc" = Ok p -> sqrt (Z / 2) * p = sqrt (hbar_SI * Z / 2) / sWb s.
  Proof.
    intros Z0 G. rewrite (get "FlxOsc" p _ G eq_refl). destruct P as (?&?&?&?&?&?&?&?&?&?&?). pose proof hbar_pos.
    replace (hbar_SI * Z / 2) with (hbar_SI * (Z / 2)) by field. rewrite (sqrt_mult hbar_SI (Z / 2)) by lra. field. lra.
  Qed.
  Lemma ChgOsc_ok Z p : 0 < Z -> getPrefactor u "ChgOsc" = Ok p -> sqrt (1 / (2 * Z)) * p = sqrt (hbar_SI / (2 * Z)) / sC s.
  Proof.
    intros Z0 G. rewrite (get "ChgOsc" p _ G eq_refl). destruct P as (?&?&?&?&?&?&?&?&?&?&?). pose proof hbar_pos.
    replace (hbar_SI / (2 * Z)) with (hbar_SI * (1 / (2 * Z))) by (field; lra). rewrite (sqrt_mult hbar_SI (1 / (2 * Z))) by (try lra; now apply sqrt2_split). field. lra.
  Qed.
  Lemma Vop_ok q K p : getPrefactor u "Vop" = Ok p -> p * (q / sC s) * (K * sF s) = oU s * (K * q).
  Proof. intros G. rewrite (get "Vop" p _ G eq_refl). destruct P as (?&?&?&?&?&?&?&?&?&?&?). field. lra. Qed.
  Lemma IopL_ok f K p : getPrefactor u "IopL" = Ok p -> p * (f / sWb s) * (K * sH s) = oI s * (K * f).
  Proof. intros G. rewrite (get "IopL" p _ G eq_refl). destruct P as (?&?&?&?&?&?&?&?&?&?&?). field. lra. Qed.
  Lemma IopJ_ok Ic p : getPrefactor u "IopJ" = Ok p -> p * (Ic / sA s) = oI s * Ic.
  Proof. intros G. rewrite (get "IopJ" p _ G eq_refl). destruct P as (?&?&?&?&?&?&?&?&?&?&?). field. lra. Qed.
  Lemma phi0_pos : 0 < phi0_SI.
  Proof. unfold phi0_SI. apply Rmult_lt_0_compat; [lra|]. apply Rinv_0_lt_compat, p10_pos. Qed.
  Lemma Pha_ok f p : getPrefactor u "Pha" = Ok p -> p * (f / sWb s) = f / phi0_SI.
  Proof. intros G. rewrite (get "Pha" p _ G eq_refl). destruct P as (?&?&?&?&?&?&?&?&?&?&?). pose proof phi0_pos. field. lra. Qed.
  Lemma gC_ok Cij Ci Li m p : 0 < Ci -> 0 < Li -> getPrefactor u "ChgOscCpl" = Ok p ->
    p * (Cij * sF s / sqrt (2 * sqrt (Ci * sF s / (Li * sH s)))) * (m / sC s) = oE s * (Cij * m * sqrt (hbar_SI / (2 * sqrt (Ci / Li)))).
  Proof.
    intros C0 L0 G. rewrite (get "ChgOscCpl" p _ G eq_refl). destruct P as (HF&HH&_&_&_&_&_&HC&HE&_&_). pose proof hbar_pos as HB.
    assert (X : 0 < Ci / Li) by now apply Rdiv_lt_0_compat.
    assert (Y : 0 < sF s / sH s) by now apply Rdiv_lt_0_compat.
    assert (Y' : 0 < sH s / sF s) by now apply Rdiv_lt_0_compat.
    replace (Ci * sF s / (Li * sH s)) with (Ci / Li * (sF s / sH s)) by (field; lra). rewrite (sqrt_mult (Ci / Li) (sF s / sH s)) by lra.
    set (z := sqrt (Ci / Li)). set (a := sqrt (sF s / sH s)). set (b := sqrt (sH s / sF s)).
    assert (Hz : 0 < z) by now apply sqrt_lt_R0. assert (Ha : 0 < a) by now apply sqrt_lt_R0. assert (Hb : 0 < b) by now apply sqrt_lt_R0.
    assert (AB : a * b = 1).
    { unfold a, b. rewrite <- sqrt_mult by lra. replace (sF s / sH s * (sH s / sF s)) with 1 by (field; lra). apply sqrt_1. }
    replace (2 * (z * a)) with (2 * z * a) by ring. rewrite (sqrt_mult (2 * z) a) by lra.
    assert (AB' : sqrt a * sqrt b = 1) by (rewrite <- sqrt_mult by lra; rewrite AB; apply sqrt_1).
    rewrite sqrt_div by lra.
    assert (Sa : 0 < sqrt a) by now apply sqrt_lt_R0. assert (Sb : 0 < sqrt b) by now apply sqrt_lt_R0.
    assert (Sz : 0 < sqrt (2 * z)) by (apply sqrt_lt_R0; lra).
    transitivity (oE s * (Cij * m * (sqrt hbar_SI / sqrt (2 * z))) / (sqrt a * sqrt b)); [field; repeat split; lra|]. rewrite AB'. field. lra.
  Qed.
End Phys.

(** [_set_parameter_units] on a fresh SymbolicSystem *)
Lemma set_parameter_units_ok (h : rheap) (u : runits) (s : usys R) m : refreshed h u -> has_factors h u s -> positive s ->
  exists g f z, getPrefactor u "ChgOscCpl" = Ok g /\ getPrefactor u "Freq" = Ok f /\ getPrefactor u "Impe" = Ok z /\
  set_parameter_units h u m = Ok (mkmu (A := R_num) (m_Cr m * (1 / (sHz s * sOhm s * sF s))) (m_Lr m * (sOhm s / (sHz s * sH s))) (m_gC m * g) (m_frl m * f) (m_Zrl m * z)).
Proof.
  intros Rf F P. eexists _, _, _. repeat (split; [eapply refreshed_get; eauto; reflexivity|]).
  unfold set_parameter_units, getUnitPrefactor.
  replace (negb (mem "Hz" SI_units)) with false by reflexivity. replace (negb (mem "Ohm" SI_units)) with false by reflexivity.
  replace (negb (mem "F" SI_units)) with false by reflexivity. replace (negb (mem "H" SI_units)) with false by reflexivity.
  pose proof F as (FF&FH&FO&_&_&FHz&_). apply factor_in in FF, FH, FO, FHz.
  rewrite FF, FH, FO, FHz. cbn [bind]. destruct P as (?&?&?&?&?&?&?&?&?&?&?).
  match goal with |- context [if niszero ?a || niszero ?b then _ else _] => rewrite (niszero_false a), (niszero_false b) end.
  - cbn [orb]. repeat (erewrite refreshed_get; [|exact Rf|exact F|reflexivity]; cbn [bind]). cbn -[powerRZ].
    change (powerRZ 10 0) with 1. rewrite Rmult_1_l. reflexivity.
  - change (sHz s * sH s <> 0). apply Rgt_not_eq. nra.
  - change (sHz s * sOhm s * sF s <> 0). apply Rgt_not_eq. apply Rmult_lt_0_compat; [nra|auto].
Qed.

(** The preset CQED1. *)
Definition cqed1_sys : usys R :=
  mks (powerRZ 10 (-15)) (powerRZ 10 (-12)) 1 (powerRZ 10 (-6)) (powerRZ 10 (-6)) (powerRZ 10 9) phi0_SI (2 * e_SI)
      (1 / (h_SI * powerRZ 10 9)) (1 / powerRZ 10 (-6)) (1 / powerRZ 10 (-6)).
Lemma e_pos : 0 < e_SI.
Proof. unfold e_SI. apply Rmult_lt_0_compat; [lra|]. apply Rinv_0_lt_compat, p10_pos. Qed.
Lemma h_pos : 0 < h_SI.
Proof. unfold h_SI. apply Rmult_lt_0_compat; [lra|]. apply Rinv_0_lt_compat, p10_pos. Qed.
Lemma cqed1_positive : positive cqed1_sys.
Proof.
  unfold positive, cqed1_sys; cbn [sF sH sOhm sA sV sHz sWb sC oE oI oU]. pose proof e_pos. pose proof h_pos. pose proof phi0_pos.
  repeat split; try apply p10_pos; try lra; apply Rdiv_lt_0_compat; try lra; try apply p10_pos. apply Rmult_lt_0_compat; [auto|apply p10_pos].
Qed.
Lemma world0_cqed1 : exists h u, world0 (A := R_num) = mkw h [u] [] /\ based h /\ wf h u /\ consistent h u /\ has_factors h u cqed1_sys.
Proof.
  unfold world0. destruct (units_new_ok nzR heap0 "CQED1") as [l [u [-> [W [C FP]]]]]; [exists []; now rewrite app_nil_r|].
  exists (heap0 ++ l), u. split; [reflexivity|]. split; [now exists l|]. split; [auto|]. split; [auto|].
  destruct (FP _ eq_refl) as [F1 F2]. destruct pc_eq as [Pe [Ph [Phb [Pk Pp]]]].
  unfold has_factors, in_factor, out_factor.
  rewrite !F1 by (cbn; tauto). rewrite !F2 by (cbn; tauto).
  cbn -[powerRZ Rmult Rdiv Rinv pc_e pc_h pc_phi0]. rewrite ?Pe, ?Ph, ?Pp. change (powerRZ 10 0) with 1.
  unfold cqed1_sys. cbn [sF sH sOhm sA sV sHz sWb sC oE oI oU].
  repeat match goal with |- _ /\ _ => split end; f_equal; try reflexivity; try ring; rewrite ?Rmult_1_l, ?Rmult_1_r; reflexivity.
Qed.

(** One call on the default object. *)
Lemma world0_call o h' u' r : (forall h u, world0 (A := R_num) = mkw h [u] [] -> run_op h u o = (h', u', r)) ->
  run_world world0 [CallUnits 0 o] = mkw h' [u'] [].
Proof.
  intros H. destruct world0_cqed1 as [h [u [E _]]]. specialize (H h u E). cbn [run_world fold_left step]. unfold call_units. rewrite E. cbn [w_units nth_error w_heap w_ns].
  rewrite H. reflexivity.
Qed.
Definition only_sys (s : usys R) (b : string) (x : R) : usys R :=
  let p k v := if String.eqb b k then x else v in
  mks (p "F" (sF s)) (p "H" (sH s)) (p "Ohm" (sOhm s)) (p "A" (sA s)) (p "V" (sV s)) (p "Hz" (sHz s)) (p "Wb" (sWb s)) (p "C" (sC s)) (oE s) (oI s) (oU s).
Lemma only_in_factors (h : rheap) u h' u' b x n s : has_factors h u s -> only_in h u h' u' b x n -> has_factors h' u' (only_sys s b x).
Proof.
  intros F [O1 [O2 [O3 O4]]].
  assert (G : forall k v, in_factor h u k = Some v -> in_factor h' u' k = Some (if String.eqb b k then x else v)).
  { intros k v Hk. destruct (String.eqb_spec b k) as [->|N]; [auto|]. destruct (O3 k) as [-> _]; [congruence|auto]. }
  unfold has_factors in *. destruct F as (?&?&?&?&?&?&?&?&?&?&?). cbn [only_sys sF sH sOhm sA sV sHz sWb sC oE oI oU].
  repeat split; try (apply G; assumption); rewrite (proj1 (O4 _)); assumption.
Qed.
Lemma only_sys_positive s b x : positive s -> 0 < x -> positive (only_sys s b x).
Proof.
  intros (?&?&?&?&?&?&?&?&?&?&?) X. unfold positive, only_sys; cbn [sF sH sOhm sA sV sHz sWb sC oE oI oU].
  repeat split; repeat match goal with |- context [if ?c then _ else _] => destruct c end; assumption.
Qed.
Lemma world0_setUnit p b z : si_exponent p = Some z -> In b base_units ->
  exists h u, run_world (A := R_num) world0 [CallUnits 0 (OpSetUnit (String p b))] = mkw h [u] [] /\ refreshed h u /\
    has_factors h u (only_sys cqed1_sys b (powerRZ 10 z)) /\ positive (only_sys cqed1_sys b (powerRZ 10 z)).
Proof.
  intros Z B. destruct world0_cqed1 as [h [u [E [Bs [W [C F]]]]]].
  assert (F0 : in_factor h u "F" <> Some 0).
  { destruct F as [-> _]. intros Q. apply Some_inj in Q. pose proof (p10_pos (-15)). cbn [sF cqed1_sys] in Q. lra. }
  assert (H0 : in_factor h u "H" <> Some 0).
  { destruct F as [_ [-> _]]. intros Q. apply Some_inj in Q. pose proof (p10_pos (-12)). cbn [sH cqed1_sys] in Q. lra. }
  destruct (setUnit_prefixed h u p b z W Z B F0 H0) as [h' [u' [Q O]]]. exists h', u'. split.
  - apply (world0_call _ h' u' (Ok tt)). intros h1 u1 E1. rewrite E in E1. injection E1 as <- <-. exact Q.
  - split; [|split].
    + apply (C27_success world0 0%nat u (OpSetUnit (String p b))); [now exists []|now rewrite E|]. rewrite E. exact Q.
    + eapply only_in_factors; eauto.
    + apply only_sys_positive; [apply cqed1_positive|apply p10_pos].
Qed.
Lemma in_reachable o h u : run_world (A := R_num) world0 [o] = mkw h [u] [] -> reachable (mkw h [u] []).
Proof. intros <-. now exists [o]. Qed.

Lemma C27_counter : exists l u, nth_error (w_units (run_world (A := R_num) world0 l)) 0 = Some u /\ ~ refreshed (w_heap (run_world world0 l)) u.
Proof.
  destruct world0_cqed1 as [h [u [E [Bs [W [C F]]]]]]. pose proof (refreshed_consistent h u W C) as Rf.
  exists [CallUnits 0 (OpSetUnit "F")].
  set (e := mkent (A := R_num) "F" (lit 1 0)).
  set (u' := mkun (dset (u_c u) "F" (List.length h)) (u_cd u) (u_pf u)).
  assert (X : run_world world0 [CallUnits 0 (OpSetUnit "F")] = mkw (h ++ [e]) [u'] []).
  { apply (world0_call _ _ _ (Err AttributeError)). intros h1 u1 E1. rewrite E in E1. injection E1 as <- <-. reflexivity. }
  rewrite X. exists u'. split; [reflexivity|]. cbn [w_heap]. intros Rf'.
  pose proof (alloc_in_only h u "F" e (u_pf u) W) as O. pose proof (only_in_factors _ _ _ _ _ _ _ _ F O) as F'.
  pose proof (refreshed_get _ _ _ "Ec" _ Rf F eq_refl) as G. pose proof (refreshed_get _ _ _ "Ec" _ Rf' F' eq_refl) as G'.
  unfold getPrefactor in G, G'. change (u_pf u') with (u_pf u) in G'. rewrite G in G'. apply Ok_inj in G'.
  change (oE (only_sys cqed1_sys "F" (e_factor e))) with (oE cqed1_sys) in G'. change (sC (only_sys cqed1_sys "F" (e_factor e))) with (sC cqed1_sys) in G'.
  change (sF (only_sys cqed1_sys "F" (e_factor e))) with (1 * 1) in G'. destruct cqed1_positive as (?&_&_&_&_&_&_&?&?&_).
  apply div_inj in G'; [|apply Rgt_not_eq; apply Rmult_lt_0_compat; [auto|apply pow_lt; auto]|apply Rgt_not_eq; auto|lra].
  change (sF cqed1_sys) with (powerRZ 10 (Z.neg 15)) in G'. rewrite p10n in G'. pose proof (p10_gt1 15 ltac:(lia)) as T.
  apply Rinv_lt_contravar in T; [|lra]. rewrite Rinv_1 in T. lra.
Qed.
Lemma C27_counter_zero : exists l u, nth_error (w_units (run_world (A := R_num) world0 l)) 0 = Some u /\ ~ refreshed (w_heap (run_world world0 l)) u /\
  l = [CallUnits 0 (OpSetPref (A := R_num) "H" "x" 0)].
Proof.
  destruct world0_cqed1 as [h [u [E [Bs [W [C F]]]]]]. pose proof (refreshed_consistent h u W C) as Rf.
  exists [CallUnits 0 (OpSetPref (A := R_num) "H" "x" 0)].
  set (e := mkent (A := R_num) "x" 0).
  set (u' := mkun (dset (u_c u) "H" (List.length h)) (u_cd u) (u_pf u)).
  assert (W' : wf (h ++ [e]) u') by now apply wf_alloc_c.
  pose proof (alloc_in_only h u "H" e (u_pf u) W) as O. pose proof (only_in_factors _ _ _ _ _ _ _ _ F O) as F'.
  assert (X : run_world world0 [CallUnits 0 (OpSetPref (A := R_num) "H" "x" 0)] = mkw (h ++ [e]) [u'] []).
  { apply (world0_call _ _ _ (Err ZeroDivisionError)). intros h1 u1 E1. rewrite E in E1. injection E1 as <- <-. cbn [run_op].
    unfold setUnitPrefactor. replace (negb (mem "H" SI_units)) with false by reflexivity. cbn [alloc]. fold e. fold u'.
    unfold updatePrefactors. destruct (prefactors (h ++ [e]) (u_c u') (u_cd u')) as [q|er] eqn:Q.
    - exfalso. destruct (wf_factors _ _ W') as (E1 & I & U & F1 & H1 & Am & V & Hz & Wb & Ch & _ & _ & _ & _ & HH & _ & _ & _ & _ & _ & R1).
      rewrite Q in R1. apply factor_in in HH. pose proof F' as (_ & FH & _). unfold u' in HH. rewrite HH in FH. injection FH as ->.
      cbn [only_sys sH String.eqb Ascii.eqb Bool.eqb e_factor e] in R1.
      assert (N : niszero (n := R_num) 0 = true) by (cbn; destruct (Req_EM_T 0 0); tauto). rewrite N, orb_true_r in R1. discriminate.
    - rewrite (prefactors_err _ _ _ W' Q). reflexivity. }
  exists u'. rewrite X. split; [reflexivity|]. split; [|reflexivity]. cbn [w_heap]. intros Rf'.
  pose proof (refreshed_get _ _ _ "IopL" _ Rf F eq_refl) as G. pose proof (refreshed_get _ _ _ "IopL" _ Rf' F' eq_refl) as G'.
  unfold getPrefactor in G, G'. change (u_pf u') with (u_pf u) in G'. rewrite G in G'. apply Ok_inj in G'.
  unfold only_sys in G'; cbn [sF sH sOhm sA sV sHz sWb sC oE oI oU String.eqb Ascii.eqb Bool.eqb e_factor e] in G'.
  destruct cqed1_positive as (?&?&?&?&?&?&?&?&?&?&?). unfold Rdiv in G'. rewrite Rinv_0, Rmult_0_r in G'.
  assert (0 < oI cqed1_sys * sWb cqed1_sys * / sH cqed1_sys) by (apply Rmult_lt_0_compat; [now apply Rmult_lt_0_compat|now apply Rinv_0_lt_compat]).
  lra.
Qed.
Lemma C28_counter : exists w u h' u', reachable (A := R_num) w /\ nth_error (w_units w) 0 = Some u /\ setUnit (w_heap w) u "F" = (h', u', Err AttributeError) /\
  in_factor h' u' "F" <> in_factor (w_heap w) u "F".
Proof.
  destruct world0_cqed1 as [h [u [E [Bs [W [C F]]]]]].
  exists world0, u, (h ++ [mkent (A := R_num) "F" (lit 1 0)]), (mkun (dset (u_c u) "F" (List.length h)) (u_cd u) (u_pf u)).
  split; [now exists []|]. rewrite E. split; [reflexivity|]. split; [reflexivity|]. cbn [w_heap].
  rewrite in_factor_alloc, eqb_refl by (now apply wf_inb). cbn [e_factor]. destruct F as [-> _]. intros Q. apply Some_inj in Q.
  change (1 * 1 = powerRZ 10 (Z.neg 15)) in Q. rewrite p10n in Q. pose proof (p10_gt1 15 ltac:(lia)) as T.
  apply Rinv_lt_contravar in T; [|lra]. rewrite Rinv_1 in T. lra.
Qed.
Lemma C29_counter : exists (w : @world R_num) (u : runits) (s : usys R) (p : R), reachable w /\ nth_error (w_units w) 0 = Some u /\ has_factors (w_heap w) u s /\ positive s /\
  getPrefactor u "Ej" = Ok p /\ forall Ic, 0 < Ic -> p * (Ic / sA s) <> oE s * (phi0_SI * Ic / (2 * PI)).
Proof.
  destruct (world0_setUnit "m"%char "Wb" (-3) eq_refl ltac:(cbn; tauto)) as [h [u [E [Rf [F P]]]]].
  set (s := only_sys cqed1_sys "Wb" (powerRZ 10 (-3))) in *.
  pose proof (refreshed_get h u s "Ej" _ Rf F eq_refl) as G.
  eexists _, u, s, _. split; [eapply in_reachable; exact E|]. cbn [w_units w_heap]. split; [reflexivity|]. split; [exact F|]. split; [exact P|].
  split; [exact G|]. intros Ic I0 Q. apply (Ej_iff h u s Rf F P Ic) in Q; auto.
  cbn [s only_sys sWb String.eqb Ascii.eqb Bool.eqb] in Q. unfold phi0_SI in Q.
  rewrite p10n in Q.
  change 3%Z with (Z.of_nat 3) in Q. change 24%Z with (Z.of_nat 24) in Q. rewrite <- !pow_powerRZ in Q.
  assert (T : 10 ^ 3 * 10 ^ 21 = 10 ^ 24) by (rewrite <- pow_add; reflexivity).
  assert (N3 : 10 ^ 3 <> 0) by (apply pow_nonzero; lra). assert (N24 : 10 ^ 24 <> 0) by (apply pow_nonzero; lra).
  apply (f_equal (fun x => x * 10 ^ 24)) in Q. rewrite Rmult_assoc, Rinv_l, Rmult_1_r in Q by auto. rewrite <- T in Q.
  rewrite <- Rmult_assoc, Rinv_l, Rmult_1_l in Q by auto.
  assert (Y : 10 ^ 10 * 10 ^ 11 = 10 ^ 21) by (rewrite <- pow_add; reflexivity).
  assert (Z1 : 10 ^ 10 = 10000000000) by (cbn; ring). assert (Z2 : 1 <= 10 ^ 11) by (apply pow_R1_Rle; lra). nra.
Qed.
Lemma C30_counter_Zrl : exists (w : @world R_num) (u : runits) (s : usys R) (p : R), reachable w /\ nth_error (w_units w) 0 = Some u /\ has_factors (w_heap w) u s /\ positive s /\
  getPrefactor u "Impe" = Ok p /\ forall Ci Li, 0 < Ci -> 0 < Li -> p * sqrt (Ci * sF s / (Li * sH s)) <> sqrt (Ci / Li) / sOhm s.
Proof.
  destruct (world0_setUnit "k"%char "Ohm" 3 eq_refl ltac:(cbn; tauto)) as [h [u [E [Rf [F P]]]]].
  set (s := only_sys cqed1_sys "Ohm" (powerRZ 10 3)) in *.
  pose proof (refreshed_get h u s "Impe" _ Rf F eq_refl) as G.
  eexists _, u, s, _. split; [eapply in_reachable; exact E|]. cbn [w_units w_heap]. split; [reflexivity|]. split; [exact F|]. split; [exact P|].
  split; [exact G|]. intros Ci Li C0 L0 Q. rewrite (Impe_ok h u s Rf F P Ci Li _) in Q by (auto; lra).
  assert (X : 0 < sqrt (Ci / Li)) by (apply sqrt_lt_R0; now apply Rdiv_lt_0_compat).
  cbn [s only_sys sOhm String.eqb Ascii.eqb Bool.eqb] in Q. change 3%Z with (Z.of_nat 3) in Q. rewrite <- pow_powerRZ in Q.
  apply (f_equal (fun x => x * 10 ^ 3)) in Q. unfold Rdiv in Q at 2. rewrite Rmult_assoc, Rinv_l, Rmult_1_r in Q by (apply pow_nonzero; lra).
  cbn in Q. lra.
Qed.
(** The coupling value stored in the parameter gC, used as an energy together
    with normalised matrix elements. *)
Lemma C30_counter_gC : exists (w1 : @world R_num) (u1 : runits) (s1 : usys R) (p1 : R) (w2 : @world R_num) (u2 : runits) (s2 : usys R) (p2 : R),
  reachable w1 /\ nth_error (w_units w1) 0 = Some u1 /\ has_factors (w_heap w1) u1 s1 /\ positive s1 /\ getPrefactor u1 "ChgOscCpl" = Ok p1 /\
  reachable w2 /\ nth_error (w_units w2) 0 = Some u2 /\ has_factors (w_heap w2) u2 s2 /\ positive s2 /\ getPrefactor u2 "ChgOscCpl" = Ok p2 /\
  oE s1 = oE s2 /\
  forall Cij Ci Li, 0 < Cij -> 0 < Ci -> 0 < Li ->
    p1 * (Cij * sF s1 / sqrt (2 * sqrt (Ci * sF s1 / (Li * sH s1)))) <> p2 * (Cij * sF s2 / sqrt (2 * sqrt (Ci * sF s2 / (Li * sH s2)))).
Proof.
  destruct (world0_setUnit "m"%char "C" (-3) eq_refl ltac:(cbn; tauto)) as [h1 [u1 [E1 [Rf1 [F1 P1]]]]].
  destruct (world0_setUnit "k"%char "C" 3 eq_refl ltac:(cbn; tauto)) as [h2 [u2 [E2 [Rf2 [F2 P2]]]]].
  set (s1 := only_sys cqed1_sys "C" (powerRZ 10 (-3))) in *. set (s2 := only_sys cqed1_sys "C" (powerRZ 10 3)) in *.
  pose proof (refreshed_get h1 u1 s1 "ChgOscCpl" _ Rf1 F1 eq_refl) as G1.
  pose proof (refreshed_get h2 u2 s2 "ChgOscCpl" _ Rf2 F2 eq_refl) as G2.
  eexists _, u1, s1, _, _, u2, s2, _. split; [eapply in_reachable; exact E1|]. split; [reflexivity|]. split; [exact F1|]. split; [exact P1|]. split; [exact G1|].
  split; [eapply in_reachable; exact E2|]. split; [reflexivity|]. split; [exact F2|]. split; [exact P2|]. split; [exact G2|]. split; [reflexivity|].
  intros Cij Ci Li J0 C0 L0 Q.
  pose proof (gC_ok h1 u1 s1 Rf1 F1 P1 Cij Ci Li (sC s1) _ C0 L0 G1) as T1. pose proof (gC_ok h2 u2 s2 Rf2 F2 P2 Cij Ci Li (sC s2) _ C0 L0 G2) as T2.
  rewrite Q in T1. replace (sC s1 / sC s1) with 1 in T1 by (field; destruct P1 as (?&?&?&?&?&?&?&?&?&?&?); lra).
  replace (sC s2 / sC s2) with 1 in T2 by (field; destruct P2 as (?&?&?&?&?&?&?&?&?&?&?); lra). rewrite T2 in T1. clear T2 Q.
  set (r := sqrt (hbar_SI / (2 * sqrt (Ci / Li)))) in *.
  assert (R0 : 0 < r).
  { unfold r. apply sqrt_lt_R0. apply Rdiv_lt_0_compat; [apply hbar_pos|]. apply Rmult_lt_0_compat; [lra|]. apply sqrt_lt_R0. now apply Rdiv_lt_0_compat. }
  destruct P1 as (_&_&_&_&_&_&_&_&P1&_). change (oE s2) with (oE s1) in T1.
  apply Rmult_eq_reg_l in T1; [|lra]. apply Rmult_eq_reg_r in T1; [|lra]. apply Rmult_eq_reg_l in T1; [|lra].
  cbn [s1 s2 only_sys sC String.eqb Ascii.eqb Bool.eqb] in T1. rewrite p10n in T1.
  change 3%Z with (Z.of_nat 3) in T1. rewrite <- pow_powerRZ in T1. apply (f_equal (fun x => x * 10^3)) in T1. rewrite Rinv_l in T1 by (apply pow_nonzero; lra).
  cbn in T1. lra.
Qed.
Lemma C31_counter : exists l o (u u' : @units R_num), let w := run_world world0 l in
  nth_error (w_ns w) 0 <> None /\ nth_error (w_ns w) 1 <> None /\
  (forall i, nth_error (w_ns w) 1 = Some i -> nth_error (w_units w) i = Some u /\ nth_error (w_units (step w (CallNS 0 o))) i = Some u' /\
     ~ same_view (w_heap w) u (w_heap (step w (CallNS 0 o))) u').
Proof.
  destruct world0_cqed1 as [h [u [E [Bs [W [C F]]]]]].
  destruct (world0_setUnit "m"%char "Wb" (-3) eq_refl ltac:(cbn; tauto)) as [h' [u' [E' [Rf [F' P]]]]].
  exists [NewNS None; NewNS None], (OpSetUnit "mWb"), u, u'. cbn [run_world fold_left step]. rewrite E. cbn [w_heap w_units w_ns app nth_error].
  split; [discriminate|]. split; [discriminate|]. intros i [= <-]. split; [reflexivity|].
  cbn [run_world fold_left step] in E'. unfold call_units in *. rewrite E in E'. cbn [w_heap w_units w_ns nth_error] in *.
  destruct (run_op h u (OpSetUnit "mWb")) as [[h1 u1] r]. cbn [upd] in E'. injection E' as <- <-. cbn [w_heap w_units upd nth_error]. split; [reflexivity|].
  intros [V _]. destruct (V "Wb") as [V1 _]. destruct F as (_&_&_&_&_&_&Fw&_). destruct F' as (_&_&_&_&_&_&Fw'&_). rewrite Fw, Fw' in V1.
  pose proof (Some_inj _ _ V1) as Q. cbn [only_sys cqed1_sys sWb String.eqb Ascii.eqb Bool.eqb] in Q. clear - Q. unfold phi0_SI in Q.
  rewrite p10n in Q.
  change 3%Z with (Z.of_nat 3) in Q. change 24%Z with (Z.of_nat 24) in Q. rewrite <- !pow_powerRZ in Q.
  assert (T : 10 ^ 3 * 10 ^ 21 = 10 ^ 24) by (rewrite <- pow_add; reflexivity).
  assert (N3 : 10 ^ 3 <> 0) by (apply pow_nonzero; lra). assert (N24 : 10 ^ 24 <> 0) by (apply pow_nonzero; lra).
  apply (f_equal (fun x => x * 10 ^ 24)) in Q. rewrite Rmult_assoc, Rinv_l, Rmult_1_r in Q by auto. rewrite <- T in Q.
  rewrite <- Rmult_assoc, Rinv_l, Rmult_1_l in Q by auto.
  assert (Y : 10 ^ 10 * 10 ^ 11 = 10 ^ 21) by (rewrite <- pow_add; reflexivity).
  assert (Z1 : 10 ^ 10 = 10000000000) by (cbn; ring). assert (Z2 : 1 <= 10 ^ 11) by (apply pow_R1_Rle; lra). nra.
Qed.
(** C77 *)
Lemma C77_once (h : rheap) (u : runits) (s : usys R) : refreshed h u -> has_factors h u s -> positive s ->
  exists m, set_parameter_units h u mu1 = Ok m /\
  (forall fr Zr, 0 < fr -> 0 < Zr ->
     (1/2) / (PI * (fr / sHz s) * (Zr / sOhm s)) * m_Cr m = 1 / (2 * PI * fr * Zr) / sF s /\
     (1/2) * (Zr / sOhm s) / (PI * (fr / sHz s)) * m_Lr m = Zr / (2 * PI * fr) / sH s) /\
  (forall Ci Li, 0 < Ci -> 0 < Li ->
     sqrt (Ci * sF s * (Li * sH s)) * m_frl m = sqrt (Ci * Li) / (2 * PI) / sHz s /\
     sqrt (Ci * sF s / (Li * sH s)) * m_Zrl m = sqrt (Ci / Li)) /\
  (forall Cij Ci Li x, 0 < Ci -> 0 < Li ->
     Cij * sF s / sqrt (2 * sqrt (Ci * sF s / (Li * sH s))) * m_gC m * (x / sC s) = oE s * (Cij * x * sqrt (hbar_SI / (2 * sqrt (Ci / Li))))).
Proof.
  intros Rf F P. destruct (set_parameter_units_ok h u s mu1 Rf F P) as (g & f & z & G & Fq & Z & ->).
  eexists. split; [reflexivity|]. cbn [m_Cr m_Lr m_gC m_frl m_Zrl mu1]. pose proof PI_RGT_0. split; [|split].
  - intros fr Zr f0 z0. destruct P as (?&?&?&?&?&?&?&?&?&?&?). split; field; repeat split; lra.
  - intros Ci Li C0 L0. rewrite !Rmult_1_l. split.
    + rewrite <- (Freq_ok h u s Rf F P Ci Li f) by (auto; lra). ring.
    + rewrite <- (Impe_ok h u s Rf F P Ci Li z) by (auto; lra). ring.
  - intros Cij Ci Li x C0 L0. rewrite <- (gC_ok h u s Rf F P Cij Ci Li x g) by auto. rewrite Rmult_1_l. ring.
Qed.
Lemma C77_counter : exists (h : rheap) (u : runits) (s : usys R) m1 m2, reachable (mkw h [u] []) /\ has_factors h u s /\ positive s /\
  set_parameter_units h u mu1 = Ok m1 /\ set_parameter_units h u m1 = Ok m2 /\
  forall fr Zr, 0 < fr -> 0 < Zr -> (1/2) / (PI * (fr / sHz s) * (Zr / sOhm s)) * m_Cr m2 <> 1 / (2 * PI * fr * Zr) / sF s.
Proof.
  destruct world0_cqed1 as [h [u [E [Bs [W [C F]]]]]]. pose proof (refreshed_consistent h u W C) as Rf. pose proof cqed1_positive as P.
  destruct (set_parameter_units_ok h u _ mu1 Rf F P) as (g & f & z & G & Fq & Z & Q1).
  match type of Q1 with _ = Ok ?m => destruct (set_parameter_units_ok h u _ m Rf F P) as (g' & f' & z' & G' & Fq' & Z' & Q2) end.
  exists h, u, cqed1_sys. eexists _, _. split; [rewrite <- E; now exists []|]. split; [exact F|]. split; [exact P|]. split; [exact Q1|]. split; [exact Q2|].
  cbn [m_Cr mu1]. intros fr Zr f0 z0 Q. pose proof PI_RGT_0. destruct P as (PF&PH&PO&_&_&PHz&_).
  assert (K : sHz cqed1_sys * sOhm cqed1_sys * sF cqed1_sys = powerRZ 10 (-6)).
  { cbn [sHz sOhm sF cqed1_sys]. rewrite Rmult_1_r, <- powerRZ_add by lra. reflexivity. }
  assert (T : (1/2) / (PI * (fr / sHz cqed1_sys) * (Zr / sOhm cqed1_sys)) * (1 * (1 / (sHz cqed1_sys * sOhm cqed1_sys * sF cqed1_sys)) * (1 / (sHz cqed1_sys * sOhm cqed1_sys * sF cqed1_sys)))
    = 1 / (2 * PI * fr * Zr) / sF cqed1_sys * / (sHz cqed1_sys * sOhm cqed1_sys * sF cqed1_sys)) by (field; repeat split; lra).
  rewrite T, K in Q. set (X := 1 / (2 * PI * fr * Zr) / sF cqed1_sys) in *.
  assert (X0 : 0 < X) by (unfold X; apply Rdiv_lt_0_compat; [apply Rdiv_lt_0_compat; [lra|apply Rmult_lt_0_compat; [apply Rmult_lt_0_compat; [lra|auto]|auto]]|auto]).
  rewrite p10n, Rinv_inv in Q.
  change 6%Z with (Z.of_nat 6) in Q. rewrite <- pow_powerRZ in Q. cbn in Q. lra.
Qed.
Lemma ns_new (w : @world R_num) n : w_ns (step w (NewUnits n)) = w_ns w.
Proof. cbn [step]. destruct (units_new (w_heap w) n) as [[? ?] ?]. reflexivity. Qed.
Lemma ns_call (w : @world R_num) i o : w_ns (call_units w i o) = w_ns w.
Proof. unfold call_units. destruct (nth_error (w_units w) i) as [u|]; [|easy]. destruct (run_op (w_heap w) u o) as [[? ?] ?]. reflexivity. Qed.
Lemma raised_in (w : @world R_num) o x e : call_of o = Some x -> (forall h u, snd (run_op h u x) = Err e) -> raised w o = None \/ raised w o = Some e.
Proof.
  intros C H. unfold raised. rewrite C. destruct (target w o) as [i|]; [|auto]. destruct (nth_error (w_units w) i) as [u|]; [|auto].
  specialize (H (w_heap w) u). destruct (run_op (w_heap w) u x) as [[? ?] r]. cbn in H. subst r. auto.
Qed.
