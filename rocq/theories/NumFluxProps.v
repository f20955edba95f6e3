(** Property theorems: the flux bases, the commutator of the charge basis, and
    flux operators against Josephson displacements (C105-C108). *)
From Coq Require Import List Bool Arith ZArith Reals.
From Coquelicot Require Import Complex.
From Verif Require Import Prelude NumOp NumOpSpec NumFlux.
Import ListNotations.
Open Scope nat_scope.

(** C105. The flux basis, for an eigensolver and an inverse that are right on
    the flux and the charge operator: the flux operator counts fluxons, S raises
    the count and annihilates the top state, its adjoint lowers it, [P, S] = S,
    and D is the identity except for one entry, which is 1 too small; *)
Theorem C105_flux_partial : forall eigh inv t, let N := 2 * t + 1 in let P := numQ t in let Q := chargeP t in
  eigen_ok N P (fst (eigh N P)) (snd (eigh N P)) (inv N (snd (eigh N P))) ->
  eigen_ok N Q (fst (eigh N Q)) (snd (eigh N Q)) (inv N (snd (eigh N Q))) ->
  let o := flux_basis eigh inv t in
  o_dim o = N /\
  (forall c i, (Z.abs c <= Z.of_nat t)%Z -> i < N -> apply N (oP o) (charge_state t c) i = (RtoC (IZR c) * charge_state t c i)%C) /\
  (forall c i, (- Z.of_nat t <= c < Z.of_nat t)%Z -> i < N -> apply N (oS o) (charge_state t c) i = charge_state t (c + 1) i) /\
  (forall i, i < N -> apply N (oS o) (charge_state t (Z.of_nat t)) i = RtoC 0) /\
  (forall c i, (- Z.of_nat t < c <= Z.of_nat t)%Z -> i < N -> apply N (oSd o) (charge_state t c) i = charge_state t (c - 1) i) /\
  (forall i, i < N -> apply N (oSd o) (charge_state t (- Z.of_nat t)) i = RtoC 0) /\
  same N (fun i j => (mul N (oP o) (oS o) i j - mul N (oS o) (oP o) i j)%C) (oS o) /\
  (forall i j, i < N -> j < N -> ~ (i = 2 * t /\ j = 0) -> oD o i j = identity i j) /\
  oD o (2 * t) 0 = (identity (2 * t)%nat 0%nat - RtoC 1)%C /\
  same N (oDd o) (fun i j => Cconj (oD o j i)).
Proof. exact c105. Qed.
Print Assumptions C105_flux_partial.
(** so D is the identity for no truncation. *)
Theorem C105_flux_refuted : forall eigh inv t, let N := 2 * t + 1 in let P := numQ t in
  eigen_ok N P (fst (eigh N P)) (snd (eigh N P)) (inv N (snd (eigh N P))) ->
  ~ same N (oD (flux_basis eigh inv t)) identity.
Proof. exact c105_bad. Qed.
Print Assumptions C105_flux_refuted.
Example C105_witness : forall t, exists eigh inv, let N := 2 * t + 1 in let P := numQ t in let Q := chargeP t in
  eigen_ok N P (fst (eigh N P)) (snd (eigh N P)) (inv N (snd (eigh N P))) /\
  eigen_ok N Q (fst (eigh N Q)) (snd (eigh N Q)) (inv N (snd (eigh N Q))).
Proof. exact c105_witness. Qed.

(** C106. The discretised flux basis when one flux quantum is k steps of the
    grid: point i has flux (i - t) / k; D multiplies by the phase of the point
    but has one entry off the diagonal; S moves every point up by one flux
    quantum, around the end of the grid, and takes 1 from an entry in the wrong
    corner; *)
Theorem C106_grid_partial : forall eigh inv t k, let N := 2 * t + 1 in let pmax := (INR t / INR k)%R in
  let x := fun i => ((INR i - INR t) / INR k)%R in
  let P := diagonal (fun i => RtoC (grid t pmax i)) in let Q := gridQ t pmax in 1 <= t -> 1 <= k ->
  eigen_ok N P (fst (eigh N P)) (snd (eigh N P)) (inv N (snd (eigh N P))) ->
  eigen_ok N Q (fst (eigh N Q)) (snd (eigh N Q)) (inv N (snd (eigh N Q))) ->
  exists o, discretized_flux_basis eigh inv t pmax = Ok o /\ o_dim o = N /\
  (forall i, i < N -> close (oP o i i) (RtoC (x i))) /\ (forall i j, i < N -> j < N -> i <> j -> oP o i j = RtoC 0) /\
  (forall i, i < N -> close (oD o i i) (cis (- (2 * PI * x i)))) /\
  (forall i j, i < N -> j < N -> i <> j -> oD o i j = if Nat.eqb i (2 * t) && Nat.eqb j 0 then RtoC (-1) else RtoC 0) /\
  (forall i j, i < N -> j < N -> apply N (oS o) (unit_at j) i = (unit_at ((j + k) mod N)%nat i - (if Nat.eqb j 0 then unit_at (2 * t)%nat i else RtoC 0))%C).
Proof. exact c106. Qed.
Print Assumptions C106_grid_partial.
(** with steps of one flux quantum the top point is moved to the bottom and the
    bottom point also to the top, for every truncation. *)
Theorem C106_grid_refuted : forall eigh inv t, let N := 2 * t + 1 in
  let P := diagonal (fun i => RtoC (grid t (INR t / INR 1) i)) in let Q := gridQ t (INR t / INR 1) in 1 <= t ->
  eigen_ok N P (fst (eigh N P)) (snd (eigh N P)) (inv N (snd (eigh N P))) ->
  eigen_ok N Q (fst (eigh N Q)) (snd (eigh N Q)) (inv N (snd (eigh N Q))) ->
  exists o, discretized_flux_basis eigh inv t (INR t / INR 1) = Ok o /\
  apply N (oS o) (unit_at (2 * t)) 0 = RtoC 1 /\ apply N (oS o) (unit_at 0) (2 * t) = RtoC (-1) /\ oD o (2 * t) 0 = RtoC (-1).
Proof. exact c106_bad. Qed.
Print Assumptions C106_grid_refuted.
Example C106_witness : forall t k, 1 <= t -> 1 <= k -> exists eigh inv, let N := 2 * t + 1 in let pmax := (INR t / INR k)%R in
  let P := diagonal (fun i => RtoC (grid t pmax i)) in let Q := gridQ t pmax in
  eigen_ok N P (fst (eigh N P)) (snd (eigh N P)) (inv N (snd (eigh N P))) /\
  eigen_ok N Q (fst (eigh N Q)) (snd (eigh N Q)) (inv N (snd (eigh N Q))).
Proof. exact c106_witness. Qed.

(** C107. The commutator of the charge basis: its entries; it is a non-zero
    multiple of the identity for no truncation. *)
Theorem C107_charge_commutator_refuted : forall eigh inv dims t, let N := 2 * t + 1 in let o := charge_basis eigh inv t in
  exists A, getCommutator inv dims N (oQ o) (oP o) BCharge = Some A /\
  (forall i j, i < N -> j < N -> A i j = (RtoC (dims * IZR (Z.of_nat i - Z.of_nat j)) * oP o i j)%C) /\
  ~ exists c, c <> RtoC 0 /\ same N A (fun i j => (c * identity i j)%C).
Proof. exact c107. Qed.
Print Assumptions C107_charge_commutator_refuted.

(** C108. In the oscillator basis (flux in flux quanta, charge in Cooper pairs,
    nodes with displacement prefactors 1) D = exp(2 pi i P) and S = exp(2 pi i Q)
    before rounding by tidyup; *)
Theorem C108_oscillator_partial : forall eigh inv t z chg flx, flx <> 0%R -> chg <> 0%R ->
  let ka := (2 * PI * flx)%R in let kb := (2 * PI * chg)%R in
  let Pp := fun i j => (RtoC ka * oscP z flx i j / RtoC flx)%C in
  let Qp := fun i j => (RtoC kb * oscQ z chg i j / RtoC chg)%C in
  eigen_ok t Pp (fst (eigh t Pp)) (snd (eigh t Pp)) (inv t (snd (eigh t Pp))) ->
  eigen_ok t Qp (fst (eigh t Qp)) (snd (eigh t Qp)) (inv t (snd (eigh t Qp))) ->
  let o := oscillator_basis eigh inv t z chg flx ka kb in
  exists D S, oP o = tidyup (oscP z flx) /\ oQ o = tidyup (oscQ z chg) /\ oD o = tidyup D /\ oS o = tidyup S /\
    exp_of t (oscP z flx) (2 * PI) D /\ exp_of t (oscQ z chg) (2 * PI) S.
Proof. exact c108_osc. Qed.
Print Assumptions C108_oscillator_partial.
(** in the charge basis D, without the entry joining the ends, is exp(-2 pi i P)
    and not exp(2 pi i P), for every truncation but 0. *)
Theorem C108_charge_refuted : forall eigh inv t, let N := 2 * t + 1 in let P := chargeP t in
  eigen_ok N P (fst (eigh N P)) (snd (eigh N P)) (inv N (snd (eigh N P))) ->
  let o := charge_basis eigh inv t in
  exists D, exp_of N P (- 2 * PI) D /\ oP o = tidyup P /\ oD o = tidyup (fun i j => (D i j - unit_at (2 * t) i * unit_at 0 j)%C) /\
    (1 <= t -> ~ exp_of N P (2 * PI) D).
Proof. exact c108_charge. Qed.
Print Assumptions C108_charge_refuted.
(** two levels (for the charge basis see C105_witness) *)
Example C108_witness : forall z chg flx, (0 < z)%R -> flx <> 0%R -> chg <> 0%R -> exists eigh inv,
  let ka := (2 * PI * flx)%R in let kb := (2 * PI * chg)%R in
  let Pp := fun i j => (RtoC ka * oscP z flx i j / RtoC flx)%C in
  let Qp := fun i j => (RtoC kb * oscQ z chg i j / RtoC chg)%C in
  eigen_ok 2 Pp (fst (eigh 2 Pp)) (snd (eigh 2 Pp)) (inv 2 (snd (eigh 2 Pp))) /\
  eigen_ok 2 Qp (fst (eigh 2 Qp)) (snd (eigh 2 Qp)) (inv 2 (snd (eigh 2 Qp))).
Proof. exact c108_witness. Qed.
