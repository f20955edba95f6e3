(** Property theorems: units. *)
From Coq Require Import List Bool String Ascii ZArith Lia Reals Lra.
From Verif Require Import Prelude PreludeFacts Mat MatFacts Units UnitsSpec UnitsProofs UnitsRealProofs UnitsPhysProofs.
Import ListNotations.
Open Scope string_scope.
Open Scope list_scope.
Open Scope R_scope.

(** C27. After every history of calls in which no call on object k raised
    AttributeError or ZeroDivisionError, every prefactor of object k equals its
    defining formula of the current factors. Other calls may raise. *)
Theorem C27_prefactors_refreshed_partial : forall (l : list (@wop R_num)) k u,
  clean k world0 l -> nth_error (w_units (run_world world0 l)) k = Some u -> refreshed (w_heap (run_world world0 l)) u.
Proof. exact C27_histories. Qed.
Print Assumptions C27_prefactors_refreshed_partial.
(** In any reachable state, a call that returns leaves the prefactors right. *)
Theorem C27_successful_call_refreshes_partial : forall (w : @world R_num) k u o h' u',
  reachable w -> nth_error (w_units w) k = Some u -> run_op (w_heap w) u o = (h', u', Ok tt) -> refreshed h' u'.
Proof. exact C27_success. Qed.
Print Assumptions C27_successful_call_refreshes_partial.
(** Full statement, false: setUnit with a bare SI unit updates the factor and
    then calls a method that does not exist; setUnitPrefactor with value 0
    stores it and then divides by it. *)
Theorem C27_refuted : exists (l : list (@wop R_num)) u,
  nth_error (w_units (run_world world0 l)) 0 = Some u /\ ~ refreshed (w_heap (run_world world0 l)) u.
Proof. exact C27_counter. Qed.
Print Assumptions C27_refuted.
Theorem C27_zero_refuted : exists (l : list (@wop R_num)) u,
  nth_error (w_units (run_world world0 l)) 0 = Some u /\ ~ refreshed (w_heap (run_world world0 l)) u /\ l = [CallUnits 0 (OpSetPref (A := R_num) "H" "x" 0)].
Proof. exact C27_counter_zero. Qed.
Print Assumptions C27_zero_refuted.
(** the hypothesis holds for histories with new objects, presets, setters and
    calls that fail *)
Example C27_witness : forall x : R,
  clean (A := R_num) 1 world0 [NewUnits "foo"; NewNS (Some 1%nat); CallUnits 1 (OpSetUnit ""); CallNS 0 (OpEnergy "fooHz"); CallUnits 0 (OpSetPref (A := R_num) "no" "x" x)].
Proof.
  intros x. cbn [clean target]. split; [discriminate|]. split; [discriminate|]. split; [|split; [|split; [discriminate|exact I]]].
  - intros _. match goal with |- raised ?w ?o <> _ /\ _ => destruct (raised_in w o (OpSetUnit "") IndexError) as [-> | ->] end; easy.
  - intros _. match goal with |- raised ?w ?o <> _ /\ _ => destruct (raised_in w o (OpEnergy "fooHz") PlainException) as [-> | ->] end; easy.
Qed.

(** C28 *)
Theorem C28_setUnit_prefixed_partial : forall (w : @world R_num) k u p b z,
  reachable w -> nth_error (w_units w) k = Some u -> si_exponent p = Some z -> In b base_units ->
  in_factor (w_heap w) u "F" <> Some 0 -> in_factor (w_heap w) u "H" <> Some 0 ->
  exists h' u', setUnit (w_heap w) u (String p b) = (h', u', Ok tt) /\ only_in (w_heap w) u h' u' b (powerRZ 10 z) (String p b).
Proof. intros w k u p b z Rw E. apply setUnit_prefixed. eapply winv_wf; [apply reachable_winv, Rw|exact E]. Qed.
Print Assumptions C28_setUnit_prefixed_partial.
Theorem C28_setUnit_rejects : forall (h : rheap) u s, mem s base_units = false ->
  (forall p b, s = String p b -> ~ In b base_units \/ si_exponent p = None) -> exists e, setUnit h u s = (h, u, Err e).
Proof. exact setUnit_rejected. Qed.
Print Assumptions C28_setUnit_rejects.
Theorem C28_setEnergyUnit_partial : forall (w : @world R_num) k u s b z j,
  reachable w -> nth_error (w_units w) k = Some u -> joule b = Some j -> spelled s b z ->
  in_factor (w_heap w) u "F" <> Some 0 -> in_factor (w_heap w) u "H" <> Some 0 ->
  exists h' u', setEnergyUnit (w_heap w) u s = (h', u', Ok tt) /\ only_out (w_heap w) u h' u' "Energy" (1 / (j * powerRZ 10 z)) s.
Proof. intros w k u s b z j Rw E. apply setEnergyUnit_ok. eapply winv_wf; [apply reachable_winv, Rw|exact E]. Qed.
Print Assumptions C28_setEnergyUnit_partial.
Theorem C28_setEnergyUnit_rejects : forall (h : rheap) u s, (forall b z, joule b <> None -> ~ spelled s b z) -> exists e, setEnergyUnit h u s = (h, u, Err e).
Proof. exact setEnergyUnit_rejected. Qed.
Print Assumptions C28_setEnergyUnit_rejects.
Theorem C28_setCurrentUnit_partial : forall (w : @world R_num) k u s z,
  reachable w -> nth_error (w_units w) k = Some u -> spelled s "A" z ->
  in_factor (w_heap w) u "F" <> Some 0 -> in_factor (w_heap w) u "H" <> Some 0 ->
  exists h' u', setCurrentUnit (w_heap w) u s = (h', u', Ok tt) /\ only_out (w_heap w) u h' u' "Current" (1 / powerRZ 10 z) s.
Proof. intros w k u s z Rw E. apply set_simple_ok; [eapply winv_wf; [apply reachable_winv, Rw|exact E]|cbn; tauto]. Qed.
Print Assumptions C28_setCurrentUnit_partial.
Theorem C28_setVoltageUnit_partial : forall (w : @world R_num) k u s z,
  reachable w -> nth_error (w_units w) k = Some u -> spelled s "V" z ->
  in_factor (w_heap w) u "F" <> Some 0 -> in_factor (w_heap w) u "H" <> Some 0 ->
  exists h' u', setVoltageUnit (w_heap w) u s = (h', u', Ok tt) /\ only_out (w_heap w) u h' u' "Voltage" (1 / powerRZ 10 z) s.
Proof. intros w k u s z Rw E. apply set_simple_ok; [eapply winv_wf; [apply reachable_winv, Rw|exact E]|cbn; tauto]. Qed.
Print Assumptions C28_setVoltageUnit_partial.
Theorem C28_setCurrentVoltage_reject : forall (h : rheap) u s,
  ((forall z, ~ spelled s "A" z) -> exists e, setCurrentUnit h u s = (h, u, Err e)) /\
  ((forall z, ~ spelled s "V" z) -> exists e, setVoltageUnit h u s = (h, u, Err e)).
Proof. intros h u s. split; apply set_simple_rejected. Qed.
Print Assumptions C28_setCurrentVoltage_reject.
(** Full statement, false: a bare base unit raises and yet changes a factor. *)
Theorem C28_refuted : exists (w : @world R_num) u h' u',
  reachable w /\ nth_error (w_units w) 0 = Some u /\ setUnit (w_heap w) u "F" = (h', u', Err AttributeError) /\
  in_factor h' u' "F" <> in_factor (w_heap w) u "F".
Proof. exact C28_counter. Qed.
Print Assumptions C28_refuted.
Example C28_witness : exists (w : @world R_num) u, reachable w /\ nth_error (w_units w) 0 = Some u /\ si_exponent "p" = Some (-12)%Z /\
  In "H" base_units /\ in_factor (w_heap w) u "F" <> Some 0 /\ in_factor (w_heap w) u "H" <> Some 0 /\ spelled "GHz" "Hz" 9 /\ joule "Hz" = Some h_SI /\
  mem "xH" base_units = false /\ (forall b z, joule b <> None -> ~ spelled "fooHz" b z).
Proof.
  destruct world0_cqed1 as [h [u [E [_ [_ [_ F]]]]]]. destruct cqed1_positive as (P1&P2&_). exists world0, u. rewrite E.
  split; [rewrite <- E; now exists []|]. split; [reflexivity|]. split; [reflexivity|]. split; [cbn; tauto|].
  destruct F as [F1 [F2 _]]. cbn [w_heap]. rewrite F1, F2.
  split; [intros Q; apply Some_inj in Q; apply (Rgt_not_eq _ _ P1 Q)|]. split; [intros Q; apply Some_inj in Q; apply (Rgt_not_eq _ _ P2 Q)|].
  split; [right; exists "G"%char; easy|]. split; [reflexivity|]. split; [reflexivity|].
  intros b z J [[<- _]|[p [Q _]]]; [cbn in J; congruence|]. injection Q as _ <-. cbn in J. congruence.
Qed.

(** C29. For physical charges q, fluxes f, inverse capacitances and
    inductances K (SI), the computed energies are the SI energies times the
    output factor, whatever the units. *)
Theorem C29_quadratic_energies_partial : forall (h : rheap) (u : runits) (s : usys R), refreshed h u -> has_factors h u s -> positive s ->
  (forall n (q : nat -> R) (K : nat -> nat -> R) p, getPrefactor u "Ec" = Ok p ->
     p * (1/2) * quad n (fun i => q i / sC s) (fun i j => K i j * sF s) = oE s * (1/2 * quad n q K)) /\
  (forall n (f : nat -> R) (K : nat -> nat -> R) p, getPrefactor u "El" = Ok p ->
     p * (1/2) * quad n (fun i => f i / sWb s) (fun i j => K i j * sH s) = oE s * (1/2 * quad n f K)).
Proof. intros h u s Rf F P. split; intros; [eapply Ec_ok|eapply El_ok]; eauto. Qed.
Print Assumptions C29_quadratic_energies_partial.
(** Josephson and phase-slip energies are right exactly when fluxes are in
    units of phi0 and charges in units of 2e. *)
Theorem C29_tunnelling_energies_partial : forall (h : rheap) (u : runits) (s : usys R), refreshed h u -> has_factors h u s -> positive s ->
  (forall Ic p, 0 < Ic -> getPrefactor u "Ej" = Ok p -> (p * (Ic / sA s) = oE s * (phi0_SI * Ic / (2 * PI)) <-> sWb s = phi0_SI)) /\
  (forall V p, 0 < V -> getPrefactor u "Ep" = Ok p -> (p * (V / sV s) = oE s * (2 * e_SI * V / (2 * PI)) <-> sC s = 2 * e_SI)).
Proof. intros h u s Rf F P. split; intros; [eapply Ej_iff|eapply Ep_iff]; eauto. Qed.
Print Assumptions C29_tunnelling_energies_partial.
Theorem C29_refuted : exists (w : @world R_num) (u : runits) (s : usys R) (p : R),
  reachable w /\ nth_error (w_units w) 0 = Some u /\ has_factors (w_heap w) u s /\ positive s /\
  getPrefactor u "Ej" = Ok p /\ forall Ic, 0 < Ic -> p * (Ic / sA s) <> oE s * (phi0_SI * Ic / (2 * PI)).
Proof. exact C29_counter. Qed.
Print Assumptions C29_refuted.
Example C29_witness : exists (w : @world R_num) (u : runits) (s : usys R), reachable w /\ nth_error (w_units w) 0 = Some u /\
  refreshed (w_heap w) u /\ has_factors (w_heap w) u s /\ positive s /\ sWb s = phi0_SI.
Proof.
  destruct world0_cqed1 as [h [u [E [_ [W [C F]]]]]]. exists world0, u, cqed1_sys. rewrite E.
  split; [rewrite <- E; now exists []|]. split; [reflexivity|]. split; [now apply refreshed_consistent|]. split; [exact F|]. split; [apply cqed1_positive|reflexivity].
Qed.

(** C30. Ci, Li: SI inverse capacitance and inductance; Z: SI impedance. *)
Theorem C30_oscillator_quantities_partial : forall (h : rheap) (u : runits) (s : usys R), refreshed h u -> has_factors h u s -> positive s ->
  (forall Ci Li p, 0 <= Ci -> 0 <= Li -> getPrefactor u "Freq" = Ok p ->
     p * sqrt (Ci * sF s * (Li * sH s)) = sqrt (Ci * Li) / (2 * PI) / sHz s) /\
  (forall Ci Li p, 0 <= Ci -> 0 < Li -> getPrefactor u "Impe" = Ok p -> p * sqrt (Ci * sF s / (Li * sH s)) = sqrt (Ci / Li)) /\
  (forall Z p, 0 < Z -> getPrefactor u "FlxOsc" = Ok p -> sqrt (Z / 2) * p = sqrt (hbar_SI * Z / 2) / sWb s) /\
  (forall Z p, 0 < Z -> getPrefactor u "ChgOsc" = Ok p -> sqrt (1 / (2 * Z)) * p = sqrt (hbar_SI / (2 * Z)) / sC s) /\
  (forall q K p, getPrefactor u "Vop" = Ok p -> p * (q / sC s) * (K * sF s) = oU s * (K * q)) /\
  (forall f K p, getPrefactor u "IopL" = Ok p -> p * (f / sWb s) * (K * sH s) = oI s * (K * f)) /\
  (forall Ic p, getPrefactor u "IopJ" = Ok p -> p * (Ic / sA s) = oI s * Ic) /\
  (forall f p, getPrefactor u "Pha" = Ok p -> p * (f / sWb s) = f / phi0_SI) /\
  (forall Cij Ci Li m p, 0 < Ci -> 0 < Li -> getPrefactor u "ChgOscCpl" = Ok p ->
     p * (Cij * sF s / sqrt (2 * sqrt (Ci * sF s / (Li * sH s)))) * (m / sC s) = oE s * (Cij * m * sqrt (hbar_SI / (2 * sqrt (Ci / Li))))).
Proof.
  intros h u s Rf F P. repeat match goal with |- _ /\ _ => split end; intros;
    [eapply Freq_ok|eapply Impe_ok|eapply FlxOsc_ok|eapply ChgOsc_ok|eapply Vop_ok|eapply IopL_ok|eapply IopJ_ok|eapply Pha_ok|eapply gC_ok]; eauto.
Qed.
Print Assumptions C30_oscillator_quantities_partial.
(** False as stated: the loaded impedance ignores the unit of impedance, and
    the stored coupling is proportional to the charge unit. *)
Theorem C30_impedance_refuted : exists (w : @world R_num) (u : runits) (s : usys R) (p : R),
  reachable w /\ nth_error (w_units w) 0 = Some u /\ has_factors (w_heap w) u s /\ positive s /\
  getPrefactor u "Impe" = Ok p /\ forall Ci Li, 0 < Ci -> 0 < Li -> p * sqrt (Ci * sF s / (Li * sH s)) <> sqrt (Ci / Li) / sOhm s.
Proof. exact C30_counter_Zrl. Qed.
Print Assumptions C30_impedance_refuted.
Theorem C30_coupling_refuted : exists (w1 : @world R_num) (u1 : runits) (s1 : usys R) (p1 : R) (w2 : @world R_num) (u2 : runits) (s2 : usys R) (p2 : R),
  reachable w1 /\ nth_error (w_units w1) 0 = Some u1 /\ has_factors (w_heap w1) u1 s1 /\ positive s1 /\ getPrefactor u1 "ChgOscCpl" = Ok p1 /\
  reachable w2 /\ nth_error (w_units w2) 0 = Some u2 /\ has_factors (w_heap w2) u2 s2 /\ positive s2 /\ getPrefactor u2 "ChgOscCpl" = Ok p2 /\
  oE s1 = oE s2 /\
  forall Cij Ci Li, 0 < Cij -> 0 < Ci -> 0 < Li ->
    p1 * (Cij * sF s1 / sqrt (2 * sqrt (Ci * sF s1 / (Li * sH s1)))) <> p2 * (Cij * sF s2 / sqrt (2 * sqrt (Ci * sF s2 / (Li * sH s2)))).
Proof. exact C30_counter_gC. Qed.
Print Assumptions C30_coupling_refuted.

(** C31. A history without a call on object k, whatever it does to other
    objects, leaves everything observable of object k as it was. *)
Theorem C31_units_objects_independent_partial : forall (w : @world R_num) l k u,
  reachable w -> untouched k w l -> nth_error (w_units w) k = Some u ->
  nth_error (w_units (run_world w l)) k = Some u /\ same_view (w_heap w) u (w_heap (run_world w l)) u.
Proof. intros w l k u Rw. apply untouched_view; [exact nzR|now apply reachable_winv]. Qed.
Print Assumptions C31_units_objects_independent_partial.
(** False for NumericalSystems made without a unit argument: they share one
    Units object. *)
Theorem C31_refuted : exists l o (u u' : @units R_num), let w := run_world world0 l in
  nth_error (w_ns w) 0 <> None /\ nth_error (w_ns w) 1 <> None /\
  (forall i, nth_error (w_ns w) 1 = Some i -> nth_error (w_units w) i = Some u /\ nth_error (w_units (step w (CallNS 0 o))) i = Some u' /\
     ~ same_view (w_heap w) u (w_heap (step w (CallNS 0 o))) u').
Proof. exact C31_counter. Qed.
Print Assumptions C31_refuted.
(** two NumericalSystems with their own Units objects: calls on one do not
    touch the other's *)
Example C31_witness : forall o1 o2 : @uop R_num,
  untouched 1 (run_world world0 [NewUnits "CQED1"]) [NewUnits "CQED1"; NewNS (Some 1%nat); NewNS (Some 2%nat); CallNS 1 o1; CallUnits 0 o2; CallNS 1 o2].
Proof.
  intros o1 o2. destruct world0_cqed1 as [h [u [E _]]]. rewrite E. cbn [run_world fold_left].
  set (w := step _ _). assert (Nw : w_ns w = []) by (unfold w; now rewrite ns_new). clearbody w.
  cbn [untouched target]. split; [discriminate|]. set (w1 := step w _). assert (Nw1 : w_ns w1 = []) by (unfold w1; now rewrite ns_new). clearbody w1.
  split; [discriminate|]. split; [discriminate|]. cbn [step w_ns w_heap w_units]. rewrite Nw1. cbn [app nth_error].
  split; [discriminate|]. split; [discriminate|]. split; [|exact I].
  rewrite !ns_call. cbn [w_ns nth_error]. discriminate.
Qed.

(** C77. On a SymbolicSystem not used before, the derived resonator parameters
    come out in the units of the NumericalSystem being built. *)
Theorem C77_first_system_units_partial : forall (h : rheap) (u : runits) (s : usys R), refreshed h u -> has_factors h u s -> positive s ->
  exists m, set_parameter_units h u mu1 = Ok m /\
  (forall fr Zr, 0 < fr -> 0 < Zr ->
     (1/2) / (PI * (fr / sHz s) * (Zr / sOhm s)) * m_Cr m = 1 / (2 * PI * fr * Zr) / sF s /\
     (1/2) * (Zr / sOhm s) / (PI * (fr / sHz s)) * m_Lr m = Zr / (2 * PI * fr) / sH s) /\
  (forall Ci Li, 0 < Ci -> 0 < Li ->
     sqrt (Ci * sF s * (Li * sH s)) * m_frl m = sqrt (Ci * Li) / (2 * PI) / sHz s /\
     sqrt (Ci * sF s / (Li * sH s)) * m_Zrl m = sqrt (Ci / Li)) /\
  (forall Cij Ci Li x, 0 < Ci -> 0 < Li ->
     Cij * sF s / sqrt (2 * sqrt (Ci * sF s / (Li * sH s))) * m_gC m * (x / sC s) = oE s * (Cij * x * sqrt (hbar_SI / (2 * sqrt (Ci / Li))))).
Proof. exact C77_once. Qed.
Print Assumptions C77_first_system_units_partial.
(** False for a second NumericalSystem on the same SymbolicSystem. *)
Theorem C77_refuted : exists (h : rheap) (u : runits) (s : usys R) m1 m2, reachable (mkw h [u] []) /\ has_factors h u s /\ positive s /\
  set_parameter_units h u mu1 = Ok m1 /\ set_parameter_units h u m1 = Ok m2 /\
  forall fr Zr, 0 < fr -> 0 < Zr -> (1/2) / (PI * (fr / sHz s) * (Zr / sOhm s)) * m_Cr m2 <> 1 / (2 * PI * fr * Zr) / sF s.
Proof. exact C77_counter. Qed.
Print Assumptions C77_refuted.
