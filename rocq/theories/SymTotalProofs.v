(** Proofs for C116 and C117. *)
From Coq Require Import List Bool String Ascii Arith ZArith Reals Permutation Lra Lia.
From Coquelicot Require Import Complex Derive Hierarchy.
From Verif Require Import Prelude PreludeFacts Mat MatFacts Graph GraphSpec GraphView GraphForest GraphWf GraphCircuit GraphState GraphMaps GraphOps GraphProofs Sweep Symbolic SymbolicSpec RSum SymbolicInv SymbolicCap SymbolicFlux SymbolicNew SymbolicProofs MutualProofs NumOp SymHam SymHamSpec SymHamProofs SymHamQ SymHamT SymHamEx SymTotal SymTotalSpec.
Import ListNotations.
Open Scope string_scope.
Open Scope list_scope.
Open Scope nat_scope.

Ltac rring := match goal with |- @eq _ ?a ?b => change (@eq R a b) end; ring.
Lemma upd_eq f n t : upd f n t n = t. Proof. unfold upd. now rewrite Nat.eqb_refl. Qed.
Lemma upd_neq f n t k : k <> n -> upd f n t k = f k. Proof. unfold upd. intros H. apply Nat.eqb_neq in H. now rewrite H. Qed.
Lemma upd_self f n k : upd f n (f n) k = f k. Proof. unfold upd. destruct (Nat.eqb_spec k n) as [->|]; auto. Qed.
(** the difference of coordinates along a branch *)
Lemma upd_diff f n t e : (upd f n t (src e) - upd f n t (dst e) = f (src e) - f (dst e) + at_node n e * (t - f n))%R.
Proof. unfold upd, at_node. destruct (Nat.eqb_spec (src e) n) as [->|]; destruct (Nat.eqb_spec (dst e) n) as [->|]; ring. Qed.

Lemma derive_sum {A} (h : A -> R -> R) (d : A -> R) x l : (forall a, In a l -> is_derive (h a) x (d a)) -> is_derive (fun t => Rsum (map (fun a => h a t) l)) x (Rsum (map d l)).
Proof.
  induction l as [|a l IH]; intros H; cbn [map]; [apply (is_derive_const (K := R_AbsRing) (V := R_NormedModule) 0%R x)|].
  apply (is_derive_ext (fun t => plus (h a t) (Rsum (map (fun a => h a t) l)))); [intros; reflexivity|]. rewrite Rsum_cons.
  apply (is_derive_plus (K := R_AbsRing) (V := R_NormedModule)); [apply H; left; auto|apply IH; intros; apply H; right; auto].
Qed.
Lemma derive_eq (h : R -> R) x a b : is_derive h x a -> a = b -> is_derive h x b. Proof. intros H <-. exact H. Qed.

Section Charging.
  Variable n : nat.
  Implicit Types M N : nat -> nat -> R.
  Lemma inverse_symmetric M N : inverses n M N -> (forall i j, i < n -> j < n -> M i j = M j i) -> forall i j, i < n -> j < n -> N i j = N j i.
  Proof.
    intros HI HS i j Hi Hj.
    transitivity (times n N (times n M (fun k => N j k)) i).
    - assert (E : sumn (A := R_rng) n (fun k => if Nat.eqb k j then N i k else 0%R) = N i j).
      { rewrite (sumn_single (A := R_rng) n j) by (auto; intros k _ Hk; apply Nat.eqb_neq in Hk; now rewrite Hk). now rewrite Nat.eqb_refl. }
      rewrite <- E. unfold times at 1. apply sR_ext. intros k Hk. transitivity (N i k * (if Nat.eqb k j then 1 else 0))%R; [destruct (Nat.eqb k j); ring|]. f_equal.
      transitivity (sumn (A := R_rng) n (fun l => N j l * M l k)%R).
      * rewrite (proj2 (HI j k Hj Hk)). now rewrite Nat.eqb_sym.
      * unfold times. apply sR_ext. intros l Hl. rewrite (HS k l) by auto. rring.
    - rewrite (times_inv n N M); auto. intros a b Ha Hb. destruct (HI a b Ha Hb). split; auto.
  Qed.
  Lemma energy_dual M N w v : inverses n M N -> (forall i, i < n -> times n M v i = w i) -> energy n N w = energy n M v /\ forall i, i < n -> times n N w i = v i.
  Proof.
    intros HI Hw. assert (HI' : inverses n N M) by (intros a b Ha Hb; destruct (HI a b Ha Hb); auto).
    assert (A : forall i, i < n -> times n N w i = v i).
    { intros i Hi. rewrite <- (times_inv n N M v i HI' Hi). unfold times at 1 2. apply sR_ext. intros k Hk. rewrite <- Hw by auto. reflexivity. }
    split; auto. unfold energy. f_equal.
    transitivity (sumn (A := R_rng) n (fun i => w i * v i)%R).
    - apply sR_ext. intros i Hi. rewrite <- (A i Hi). unfold times. rewrite sR_mul. apply sR_ext. intros. rring.
    - apply sR_ext. intros i Hi. rewrite <- (Hw i Hi). unfold times. rewrite sR_mulr. apply sR_ext. intros. rring.
  Qed.
  (** one coordinate changed by s *)
  Lemma energy_step N w i s : i < n -> (forall i j, i < n -> j < n -> N i j = N j i) ->
    energy n N (fun k => w k + (if Nat.eqb k i then s else 0))%R = (energy n N w + s * times n N w i + 1 / 2 * (s * s * N i i))%R.
  Proof.
    intros Hi HS. unfold energy, times.
    assert (D : forall g, sumn (A := R_rng) n (fun k => (if Nat.eqb k i then s else 0) * g k)%R = (s * g i)%R).
    { intros g. rewrite (sumn_single (A := R_rng) n i) by (auto; intros k _ Hk; apply Nat.eqb_neq in Hk; rewrite Hk; apply Rmult_0_l). now rewrite Nat.eqb_refl. }
    assert (E : sumn (A := R_rng) n (fun a => sumn (A := R_rng) n (fun b => (w a + (if Nat.eqb a i then s else 0)) * N a b * (w b + (if Nat.eqb b i then s else 0)))%R) =
      (sumn (A := R_rng) n (fun a => sumn (A := R_rng) n (fun b => w a * N a b * w b)%R) + 2 * (s * sumn (A := R_rng) n (fun b => N i b * w b)%R) + s * s * N i i)%R).
    { transitivity (sumn (A := R_rng) n (fun a => sumn (A := R_rng) n (fun b => w a * N a b * w b) + (s * (N i a * w a) + ((if Nat.eqb a i then s else 0) * sumn (A := R_rng) n (fun b => N a b * w b) + (if Nat.eqb a i then s else 0) * (N a i * s))))%R).
      - apply sR_ext. intros a Ha.
        transitivity (sumn (A := R_rng) n (fun b => w a * N a b * w b + ((if Nat.eqb a i then s else 0) * (N a b * w b) + (if Nat.eqb b i then s else 0) * ((w a + (if Nat.eqb a i then s else 0)) * N a b)))%R).
        + apply sR_ext. intros b Hb. rring.
        + rewrite !sR_add, D, <- sR_mul, (HS i a) by auto. rring.
      - rewrite !sR_add, !D, <- sR_mul. rring. }
    rewrite E. field.
  Qed.
End Charging.

Section Total.
  Variable y : ssys.
  Hypothesis Hy : system y.
  Variable w : vals.
  Let val := v_par w.
  Let s := ss_cg y.
  Let nodes := ss_nodes y.
  Let n := List.length nodes.
  Let HC : circuit s := m_circ y (system_inv y Hy).
  Lemma nodes_nd : NoDup nodes. Proof. exact (nodes_NoDup (ss_nodes y) (ss_cg y) (circuit_derived _ HC) (system_nodes y Hy)). Qed.
  Lemma nodes_nz k : In k nodes -> k <> 0. Proof. intros H. exact (proj2 (proj1 (nodes_In nodes s (circuit_derived _ HC) (system_nodes y Hy) k) H)). Qed.
  Lemma charge_offset_at cb i : i < n -> charge_bias y cb i = charge_offset (ss_charge y) cb (nth i nodes 0).
  Proof. intros Hi. unfold charge_bias, charge_offset. fold nodes. assert (H := nodes_nz _ (nth_In nodes 0 Hi)). destruct (nth i nodes 0); [congruence|reflexivity]. Qed.
  Lemma charge_at M v i : capacitance_matrix s = Ok M -> no_capacitor_loop (c_graph s) -> v 0 = 0%R -> i < n ->
    times n (fun i j => lval val (M i j)) (fun k => v (nth k nodes 0)) i = capacitor_charge val s v (nth i nodes 0).
  Proof.
    intros HM HL V0 Hi. set (m := nth i nodes 0). assert (Hm : m <> 0) by exact (nodes_nz _ (nth_In nodes 0 Hi)).
    set (e := fun k : nat => if Nat.eqb k m then 1%R else 0%R). assert (E0 : e 0 = 0%R) by (unfold e; destruct (Nat.eqb_spec 0 m); congruence).
    assert (E := c_cap_energy s HC M val e v HM HL E0 V0). unfold form in E. change (sys_nodes s) with (sys_nodes (ss_cg y)) in E. rewrite <- (system_nodes y Hy) in E. fold nodes in E. fold n in E. cbv zeta in E.
    transitivity (electrostatic val s e v).
    - rewrite <- E. rewrite (sumn_single (A := R_rng) n i); auto.
      2: { intros k Hk Hne. apply (sR_0 n). intros j _. unfold e, m. destruct (Nat.eqb_spec (nth k nodes 0) (nth i nodes 0)) as [Q|_]; [exfalso; apply Hne; exact (proj1 (NoDup_nth nodes 0) nodes_nd k i Hk Hi Q)|ring]. }
      unfold times. apply sR_ext. intros j _. unfold e, m. rewrite Nat.eqb_refl. ring.
    - unfold electrostatic, capacitor_charge. f_equal; [f_equal|]; apply Rsum_ext.
      + intros [[[p q] k] c] _. unfold e, at_node, src, dst. cbn [fst snd]. destruct (Nat.eqb p m), (Nat.eqb q m); ring.
      + intros g _. unfold e. destruct (Nat.eqb_spec (fst g) m) as [->|]; ring.
      + intros r _. unfold e. destruct (Nat.eqb_spec (fst r) m) as [->|]; ring.
  Qed.
  Lemma charging_energy Cinv P Q v : ideal y val -> inverted y val Cinv P -> voltages val y (fun k => Q k + charge_offset (ss_charge y) (v_charge w) k)%R v ->
    sym_getChargingEnergies y w Cinv Q = (1 / 2 * electrostatic val s v v)%R /\
    forall i t, i < n -> sym_getChargingEnergies y w Cinv (upd Q (nth i nodes 0) t) = (sym_getChargingEnergies y w Cinv Q + (t - Q (nth i nodes 0%nat)) * v (nth i nodes 0%nat) + 1 / 2 * ((t - Q (nth i nodes 0%nat)) * (t - Q (nth i nodes 0%nat)) * Cinv i i))%R.
  Proof.
    intros (HL & _ & _) ((M & HM & HI) & _) (V0 & HV). unfold sym_getChargingEnergies. fold nodes. fold n. fold nodes in HI. fold n in HI.
    set (x := fun i => (Q (nth i nodes 0%nat) + charge_bias y (v_charge w) i)%R).
    assert (HX : forall i, i < n -> times n (fun i j => lval val (M i j)) (fun k => v (nth k nodes 0)) i = x i).
    { intros i Hi. rewrite (charge_at M v i HM HL V0 Hi), HV by (apply nth_In; auto). unfold x. now rewrite charge_offset_at. }
    destruct (energy_dual n _ _ _ _ HI HX) as [E1 E2].
    assert (EF : forall q, half_form n Cinv q (charge_bias y (v_charge w)) = energy n Cinv (fun i => q i + charge_bias y (v_charge w) i)%R) by reflexivity.
    rewrite EF. fold x. split.
    - rewrite E1. unfold energy. f_equal. rewrite <- (c_cap_energy s HC M val v v HM HL V0 V0). unfold form. change (sys_nodes s) with (sys_nodes (ss_cg y)). rewrite <- (system_nodes y Hy). reflexivity.
    - intros i t Hi. rewrite EF. rewrite <- (E2 i Hi), <- energy_step; auto.
      + unfold energy. f_equal. assert (G : forall k, k < n -> (upd Q (nth i nodes 0%nat) t (nth k nodes 0%nat) + charge_bias y (v_charge w) k = x k + (if Nat.eqb k i then t - Q (nth i nodes 0%nat) else 0))%R).
        { intros k Hk. unfold x, upd. destruct (Nat.eqb_spec k i) as [->|Hne]; [rewrite Nat.eqb_refl; ring|]. destruct (Nat.eqb_spec (nth k nodes 0) (nth i nodes 0)) as [Z|_]; [exfalso; apply Hne; exact (proj1 (NoDup_nth nodes 0) nodes_nd k i Hk Hi Z)|ring]. }
        apply sR_ext. intros k Hk. apply sR_ext. intros j Hj. rewrite !G by auto. reflexivity.
      + apply (inverse_symmetric n _ _ HI). intros a b Ha Hb. apply (c_cap_sym s HC M val a b HM); change (sys_nodes s) with (sys_nodes (ss_cg y)); rewrite <- (system_nodes y Hy); auto.
  Qed.
  Lemma flux_energy_at Cinv P F : ideal y val -> inverted y val Cinv P -> F 0 = 0%R ->
    sym_getFluxEnergies y w P F = (1 / 2 * inductive_form val (c_graph s) (fun k => F k + shift s (ss_edges y) (branch_bias y (v_flux w)) k))%R /\
    (biases_alone y (branch_bias y (v_flux w)) -> sym_getFluxEnergies y w P F = (1 / 2 * biased_form val s (ss_edges y) (branch_bias y (v_flux w)) F)%R).
  Proof.
    intros (_ & HK & HZ) (_ & (L & HM & HP)) F0. unfold sym_getFluxEnergies. rewrite (system_nodes y Hy). fold s.
    assert (HW := m_edges y (system_inv y Hy)). fold s in HW. split.
    - apply (c_flux_exact s HC val L P (ss_edges y) HW HK HM HP HZ); auto.
    - intros HB. apply (c_flux_alone s HC val L P (ss_edges y) HW HK HM HP HZ); auto.
  Qed.
End Total.
