(** Proofs for C133, part 2: the Hamiltonians. *)
From Coq Require Import List Bool String Ascii Arith Lia ZArith Reals Lra Setoid Morphisms Permutation.
From Coquelicot Require Import Complex.
From Verif Require Import Prelude PreludeFacts Sweep SweepProofs SweepResultProofs Mat MatFacts Util UtilProofs Graph GraphSpec Symbolic SymbolicSpec RSum SymbolicInv SymbolicCap SymbolicCap2 SymbolicFlux SymbolicNew SymbolicProofs NumOp NumOpSpec NumKron NumSpectral NumCharge NumExpand NumHerm NumPot NumFlux NumOpProofs SymHam SymHamSpec SymHamProofs SymHamT SymTotal SymTotalSpec SymTotalProofs SymTotalMain MoveSpec MoveProofs NumSubst NumSymSpec NumSymProofs NumSymHam NumSymNode NumSymMain NumSymEx NumGaugeSpec NumGauge NumGaugeHam NumGaugeMain NumTruncSpec NumTrunc NumTruncHam NumTruncLevels NumTruncMain LevMoveSpec NumBound NumBoundHam NumBoundMain RedrawSpec NumRedraw ParallelSpec NumParallel RelabelSpec NumRelabel GraphView GraphForest GraphWf GraphCircuit GraphState GraphMaps GraphOps GraphProofs.
Import ListNotations.
Open Scope nat_scope.

Section Inputs.
  Variables (y y' : ssys) (w w' : vals).
  Hypothesis Hy : system y.
  Hypothesis Hy' : system y'.
  Hypothesis RD : reordered y w y' w'.
  Let n := List.length (ss_nodes y).
  Let ND := sys_nodup y Hy.
  Let NZ : ~ In 0 (ss_nodes y) := fun X => nodes_nz y Hy 0 X eq_refl.
  Let PN : Permutation (ss_nodes y) (ss_nodes y') := proj1 RD.
  Let LN : List.length (ss_nodes y') = n := eq_sym (Permutation_length PN).
  Variable s : nat -> nat.
  Hypothesis Es : embedding n n s.
  Hypothesis Hs : forall i, i < n -> nth (s i) (ss_nodes y') 0 = nth i (ss_nodes y) 0.
  Lemma form_re M x x' : SymbolicSpec.form (ss_nodes y) (fun i j => M (s i) (s j)) x x' = SymbolicSpec.form (ss_nodes y') M x x'.
  Proof.
    unfold SymbolicSpec.form. cbv zeta. change (@sumn R_rng) with RS. rewrite LN. fold n. symmetry. rewrite <- (RS_re n s _ Es). apply RS_ext. intros i Hi. rewrite <- (RS_re n s _ Es). rewrite Hs by easy. apply RS_ext. intros j Hj. rewrite Hs by easy. reflexivity.
  Qed.
  Lemma inverses_re A B : inverses n A B -> inverses n (fun i j => A (s i) (s j)) (fun i j => B (s i) (s j)).
  Proof.
    destruct Es as [E1 E2]. intros H i j Hi Hj. destruct (H (s i) (s j) (E1 i Hi) (E1 j Hj)) as [H1 H2]. unfold mmul in *. change (@sumn R_rng) with RS in *.
    assert (D : (if Nat.eqb (s i) (s j) then 1%R else 0%R) = (if Nat.eqb i j then 1%R else 0%R)). { destruct (Nat.eqb_spec i j) as [->|Nij]; [now rewrite Nat.eqb_refl|]. destruct (Nat.eqb_spec (s i) (s j)) as [Q|_]; [|reflexivity]. destruct Nij. now apply E2. }
    split; (etransitivity; [|exact D]); [etransitivity; [|exact H1] | etransitivity; [|exact H2]]; [exact (RS_re n s (fun k => A (s i) k * B k (s j))%R Es) | exact (RS_re n s (fun k => B (s i) k * A k (s j))%R Es)].
  Qed.
  Lemma caps_re Cinv P Cinv' P' : inverted y (v_par w) Cinv P -> inverted y' (v_par w') Cinv' P' -> ideal y (v_par w) -> ideal y' (v_par w') -> forall i j, i < n -> j < n -> Cinv' (s i) (s j) = Cinv i j.
  Proof.
    intros ((M & HM & HI) & _) ((M' & HM' & HI') & _) (I1 & _) (I1' & _) i j Hi Hj. pose proof RD as (_ & RC & _). rewrite LN in HI'. fold n in HI. symmetry. revert i j Hi Hj.
    apply (inverses_unique n (fun i j => lval (v_par w) (M i j)) (fun i j => lval (v_par w') (M' (s i) (s j)))); auto; [|exact (inverses_re _ _ HI')].
    apply (bilinear_eq (ss_nodes y)); auto. intros x x' X0 X0'. pose proof (m_circ y (system_inv y Hy)) as HC. pose proof (m_circ y' (system_inv y' Hy')) as HC'.
    transitivity (electrostatic (v_par w) (ss_cg y) x x'); [rewrite (system_nodes y Hy); now apply c_cap_energy|]. transitivity (electrostatic (v_par w') (ss_cg y') x x'); [|rewrite (form_re (fun i j => lval (v_par w') (M' i j))), (system_nodes y' Hy'); symmetry; now apply c_cap_energy].
    rewrite !energy_links by easy. apply (agree_sum 1); [intros a b; cbv beta; ring | exact RC].
  Qed.
  Lemma linv_re Cinv P Cinv' P' : inverted y (v_par w) Cinv P -> inverted y' (v_par w') Cinv' P' -> ideal y (v_par w) -> ideal y' (v_par w') ->
    forall i j, i < n -> j < n -> inverse_inductance (ss_nodes y') (ss_edges y') P' (s i) (s j) = inverse_inductance (ss_nodes y) (ss_edges y) P i j.
  Proof.
    intros (_ & L & HL & HP) (_ & L' & HL' & HP') Hid Hid' i j Hi Hj. pose proof Hid as (_ & I2 & I3). pose proof Hid' as (_ & I2' & I3'). pose proof RD as (_ & _ & RE & _). pose proof (m_circ y (system_inv y Hy)) as HC. pose proof (m_circ y' (system_inv y' Hy')) as HC'. pose proof (m_edges y (system_inv y Hy)) as WC. pose proof (m_edges y' (system_inv y' Hy')) as WC'.
    symmetry. revert i j Hi Hj. apply (quadratic_eq (ss_nodes y) (inverse_inductance (ss_nodes y) (ss_edges y) P) (fun i j => inverse_inductance (ss_nodes y') (ss_edges y') P' (s i) (s j))); auto.
    - intros i j. rewrite (system_nodes y Hy). now apply (c_linv_sym (ss_cg y) HC (v_par w) L P (ss_edges y)).
    - intros i j. rewrite (system_nodes y' Hy'). now apply (c_linv_sym (ss_cg y') HC' (v_par w') L' P' (ss_edges y')).
    - intros x X0. rewrite (form_re (inverse_inductance (ss_nodes y') (ss_edges y') P')). transitivity (inductive_form (v_par w) (c_graph (ss_cg y)) x); [rewrite (system_nodes y Hy); now apply (c_linv_form (ss_cg y) HC (v_par w) L P (ss_edges y))|].
      transitivity (inductive_form (v_par w') (c_graph (ss_cg y')) x); [|rewrite (system_nodes y' Hy'); symmetry; now apply (c_linv_form (ss_cg y') HC' (v_par w') L' P' (ss_edges y'))].
      rewrite <- (edges_total (ss_cg y) (v_par w) (circuit_derived _ HC)), <- (edges_total (ss_cg y') (v_par w') (circuit_derived _ HC')), <- (y_edges y Hy), <- (y_edges y' Hy').
      pose proof (links_sum 1 (fun a b => (x a - x b) * (x a - x b))%R y y' _ _ ltac:(intros; cbv beta; ring) RE) as X.
      etransitivity; [etransitivity; [|exact X]|]; apply Rsum_ext; intros e He; unfold inverse_L; rewrite (weight_value _ _ e) by easy; reflexivity.
  Qed.
  Lemma bias_re i : ideal y (v_par w) -> ideal y' (v_par w') -> i < n ->
    node_bias (ss_nodes y') (ss_edges y') (ind_bias (ss_cg y') (ss_edges y') (fun j => branch_bias y' (v_flux w') (nth j (ss_edges y') noedge))) (s i) =
    node_bias (ss_nodes y) (ss_edges y) (ind_bias (ss_cg y) (ss_edges y) (fun j => branch_bias y (v_flux w) (nth j (ss_edges y) noedge))) i.
  Proof.
    intros Hi Hi' L0. destruct Es as [E1 _]. rewrite (bias_links y' w' (s i) Hy' Hi') by (rewrite LN; now apply E1). rewrite (bias_links y w i Hy Hi L0). rewrite Hs by easy. symmetry.
    pose proof RD as (_ & _ & _ & RB & _). apply (links_sum (-1) (fun a b => IZR (sg a b (nth i (ss_nodes y) 0%nat)))); [|exact RB]. intros a b. rewrite sg_turn, opp_IZR. ring.
  Qed.
  Lemma charge_re i : i < n -> charge_bias y' (v_charge w') (s i) = charge_bias y (v_charge w) i.
  Proof.
    intros Hi. pose proof RD as (_ & _ & _ & _ & _ & _ & _ & RQ). unfold charge_bias. rewrite Hs by easy. apply (RQ (nth i (ss_nodes y) 0)). now apply nth_In.
  Qed.
  Lemma offset_re a b : offset (ss_nodes y') (charge_bias y' (v_charge w')) a b = offset (ss_nodes y) (charge_bias y (v_charge w)) a b.
  Proof. unfold offset. rewrite LN. fold n. rewrite <- (RS_re n s _ Es). apply RS_ext. intros k Hk. rewrite Hs, charge_re by easy. reflexivity. Qed.
End Inputs.

Lemma reordered_same eigh inv z ka kb pmax chg flx y y' w w' Cinv P Cinv' P' ec el ej ep data circ0 circ circ0' circ' Qnp Pnp Qnp' Pnp' argord argord' c c' n n' h h' H H' :
  let gen := getOperatorList eigh inv z ka kb pmax chg flx in let N := fold_right Nat.mul 1 (c_dims c) in let N' := fold_right Nat.mul 1 (c_dims c') in
  system y -> system y' -> (forall l, Permutation (argord l) l) -> (forall l, Permutation (argord' l) l) -> reordered y w y' w' -> ideal y (v_par w) -> ideal y' (v_par w') ->
  inverted y (v_par w) Cinv P -> inverted y' (v_par w') Cinv' P' ->
  getExpandedOperatorsMap gen (ss_nodes y) data None circ0 = Ok circ -> op_vector cQ (ss_nodes y) circ = Ok Qnp -> op_vector cP (ss_nodes y) circ = Ok Pnp -> In n (ss_nodes y) -> dget circ n = Some c ->
  getExpandedOperatorsMap gen (ss_nodes y') data None circ0' = Ok circ' -> op_vector cQ (ss_nodes y') circ' = Ok Qnp' -> op_vector cP (ss_nodes y') circ' = Ok Pnp' -> In n' (ss_nodes y') -> dget circ' n' = Some c' ->
  substitute y w Cinv P ec el ej ep = Ok h -> substitute y' w' Cinv' P' ec el ej ep = Ok h' ->
  getHamiltonian N argord (ss_nodes y) (ss_edges y) h Qnp Pnp circ = Ok H -> getHamiltonian N' argord' (ss_nodes y') (ss_edges y') h' Qnp' Pnp' circ' = Ok H' ->
  N' = N /\ exists f, embedding N N f /\ restricts N f H' H /\
    forall i j m A A', nth_error (ss_nodes y) i = Some m -> nth_error (ss_nodes y') j = Some m ->
      (nth_error Qnp i = Some A /\ nth_error Qnp' j = Some A' \/ nth_error Pnp i = Some A /\ nth_error Pnp' j = Some A') -> restricts N f A' A.
Proof.
  intros gen N N' Hy Hy' perm perm' R Hid Hid' HV HV' Hc HQ HP Hn HD Hc' HQ' HP' Hn' HD' Hh Hh'. pose proof (sys_nodup y Hy) as ND. pose proof (sys_nodup y' Hy') as ND'.
  destruct (inputs y Hy w Cinv P ec el ej ep h Hh) as ((A1 & A2 & A3 & A4) & (A5 & A6 & A7 & A8) & A9 & A10). destruct (inputs y' Hy' w' Cinv' P' ec el ej ep h' Hh') as ((B1 & B2 & B3 & B4) & (B5 & B6 & B7 & B8) & B9 & B10).
  pose proof R as (PN & _ & _ & _ & RC & RS' & RV & _). destruct (T_perm (name_dim gen data) _ _ PN) as (f & Ef & HF). destruct (positions _ _ ND PN) as (s & Es & Hs).
  assert (EN : N = prodn (map (name_dim gen data) (ss_nodes y))). { unfold N. rewrite (dims_size eigh inv z ka kb pmax chg flx y data circ0 circ c n Hy Hc Hn HD). apply size_name. }
  assert (EN' : N' = prodn (map (name_dim gen data) (ss_nodes y'))). { unfold N'. rewrite (dims_size eigh inv z ka kb pmax chg flx y' data circ0' circ' c' n' Hy' Hc' Hn' HD'). apply size_name. }
  assert (EE : N' = N). { rewrite EN, EN'. symmetry. now apply prodn_perm, Permutation_map. }
  rewrite <- EN in *. rewrite <- EN', EE in Ef. rewrite EE. clear EE EN'. intros HH HH'. split; [reflexivity|]. exists f. split; [exact Ef|]. revert HH HH'. clearbody N'. clearbody N. subst N.
  unfold getHamiltonian. pose proof (Permutation_length PN) as LN. set (nodes := ss_nodes y) in *. set (nodes' := ss_nodes y') in *. set (N := prodn (map (name_dim gen data) nodes)) in *.
  assert (gen_dim : forall n d o k, gen n d = Ok o -> ident_dim d = Some k -> o_dim o = k) by apply gen_dim_list.
  destruct (op_vector cD nodes circ) as [ds|] eqn:V1; [|easy]. destruct (op_vector cDd nodes circ) as [dds|] eqn:V2; [|easy].
  destruct (op_vector cS nodes circ) as [ss|] eqn:V3; [|easy]. destruct (op_vector cSd nodes circ) as [sds|] eqn:V4; [|easy]. cbn [bind].
  assert (lh : forall f l, op_vector f nodes circ = Ok l -> (forall i o, exists A, f (lifted gen nodes data i o) = lift (node_dim gen nodes data) (List.length nodes) i A) ->
    forall f' l', op_vector f' nodes circ = Ok l' -> (forall i o, exists A, f' (lifted gen nodes data i o) = lift (node_dim gen nodes data) (List.length nodes) i A) ->
    forall i j, i < List.length nodes -> j < List.length nodes -> i <> j -> commute N (opn l i) (opn l' j)).
  { intros f0 l Hl Hf f' l' Hl' Hf' i j Hi Hj Nij. destruct (vector_elem gen nodes data gen_dim ND circ0 circ Hc f0 l i Hl Hi) as (? & ? & o & _ & _ & _ & _ & ->).
    destruct (vector_elem gen nodes data gen_dim ND circ0 circ Hc f' l' j Hl' Hj) as (? & ? & o' & _ & _ & _ & _ & ->). destruct (Hf i o) as [A ->]. destruct (Hf' j o') as [B ->]. unfold N. rewrite <- size_name. now apply lift_commute. }
  assert (K1 : forall k k', k < List.length nodes -> k' < List.length nodes -> k <> k' -> commute N (opn ds k) (opn ds k') /\ commute N (opn ds k) (opn dds k') /\ commute N (opn dds k) (opn ds k') /\ commute N (opn dds k) (opn dds k')).
  { intros k k' Hk Hk' Nk. split; [|split; [|split]]; [apply (lh cD ds V1) with (f' := cD)| apply (lh cD ds V1) with (f' := cDd) | apply (lh cDd dds V2) with (f' := cD) | apply (lh cDd dds V2) with (f' := cDd)]; auto; intros; eexists; reflexivity. }
  assert (K2 : forall k k', k < List.length nodes -> k' < List.length nodes -> k <> k' -> commute N (opn ss k) (opn ss k') /\ commute N (opn ss k) (opn sds k') /\ commute N (opn sds k) (opn ss k') /\ commute N (opn sds k) (opn sds k')).
  { intros k k' Hk Hk' Nk. split; [|split; [|split]]; [apply (lh cS ss V3) with (f' := cS)| apply (lh cS ss V3) with (f' := cSd) | apply (lh cSd sds V4) with (f' := cS) | apply (lh cSd sds V4) with (f' := cSd)]; auto; intros; eexists; reflexivity. }
  destruct (cosine_part N argord nodes (ss_edges y) (h_J h) (h_pb h) (opn ds) (opn dds)) as [Hj|] eqn:E1; [|easy]. cbn [bind]. destruct (cosine_part N argord nodes (ss_edges y) (h_Ps h) (h_qb h) (opn ss) (opn sds)) as [Hp|] eqn:E2; [|easy]. cbn [bind].
  intros E. injection E as <-.
  destruct (op_vector cD nodes' circ') as [ds'|] eqn:V1'; [|easy]. destruct (op_vector cDd nodes' circ') as [dds'|] eqn:V2'; [|easy].
  destruct (op_vector cS nodes' circ') as [ss'|] eqn:V3'; [|easy]. destruct (op_vector cSd nodes' circ') as [sds'|] eqn:V4'; [|easy]. cbn [bind].
  assert (lh' : forall f l, op_vector f nodes' circ' = Ok l -> (forall i o, exists A, f (lifted gen nodes' data i o) = lift (node_dim gen nodes' data) (List.length nodes') i A) ->
    forall f' l', op_vector f' nodes' circ' = Ok l' -> (forall i o, exists A, f' (lifted gen nodes' data i o) = lift (node_dim gen nodes' data) (List.length nodes') i A) ->
    forall i j, i < List.length nodes' -> j < List.length nodes' -> i <> j -> commute N (opn l i) (opn l' j)).
  { intros f0 l Hl Hf f' l' Hl' Hf' i j Hi Hj0 Nij. destruct (vector_elem gen nodes' data gen_dim ND' circ0' circ' Hc' f0 l i Hl Hi) as (? & ? & o & _ & _ & _ & _ & ->).
    destruct (vector_elem gen nodes' data gen_dim ND' circ0' circ' Hc' f' l' j Hl' Hj0) as (? & ? & o' & _ & _ & _ & _ & ->). destruct (Hf i o) as [A ->]. destruct (Hf' j o') as [B ->]. unfold N. rewrite (prodn_perm _ _ (Permutation_map _ PN)), <- size_name. now apply lift_commute. }
  assert (K1' : forall k k', k < List.length nodes' -> k' < List.length nodes' -> k <> k' -> commute N (opn ds' k) (opn ds' k') /\ commute N (opn ds' k) (opn dds' k') /\ commute N (opn dds' k) (opn ds' k') /\ commute N (opn dds' k) (opn dds' k')).
  { intros k k' Hk Hk' Nk. split; [|split; [|split]]; [apply (lh' cD ds' V1') with (f' := cD)| apply (lh' cD ds' V1') with (f' := cDd) | apply (lh' cDd dds' V2') with (f' := cD) | apply (lh' cDd dds' V2') with (f' := cDd)]; auto; intros; eexists; reflexivity. }
  assert (K2' : forall k k', k < List.length nodes' -> k' < List.length nodes' -> k <> k' -> commute N (opn ss' k) (opn ss' k') /\ commute N (opn ss' k) (opn sds' k') /\ commute N (opn sds' k) (opn ss' k') /\ commute N (opn sds' k) (opn sds' k')).
  { intros k k' Hk Hk' Nk. split; [|split; [|split]]; [apply (lh' cS ss' V3') with (f' := cS)| apply (lh' cS ss' V3') with (f' := cSd) | apply (lh' cSd sds' V4') with (f' := cS) | apply (lh' cSd sds' V4') with (f' := cSd)]; auto; intros; eexists; reflexivity. }
  destruct (cosine_part N argord' nodes' (ss_edges y') (h_J h') (h_pb h') (opn ds') (opn dds')) as [Hj'|] eqn:E1'; [|easy]. cbn [bind]. destruct (cosine_part N argord' nodes' (ss_edges y') (h_Ps h') (h_qb h') (opn ss') (opn sds')) as [Hp'|] eqn:E2'; [|easy]. cbn [bind].
  intros E. injection E as <-.
  assert (VR : forall fc g l l' i, op_vector fc nodes circ = Ok l -> op_vector fc nodes' circ' = Ok l' -> (forall nodes i o, fc (lifted gen nodes data i o) = lift (node_dim gen nodes data) (List.length nodes) i (g o)) -> i < List.length nodes -> restricts N f (opn l' (s i)) (opn l i)).
  { intros fc g l l' i Hl Hl' Hf Hi. eapply (vectors_res gen nodes nodes' data circ0 circ circ0' circ' fc g l l' f s i); eauto. }
  assert (LQ : List.length Qnp = List.length nodes) by (eapply mapM_length; exact HQ). assert (LP : List.length Pnp = List.length nodes) by (eapply mapM_length; exact HP).
  assert (LQ' : List.length Qnp' = List.length nodes) by (rewrite LN; eapply mapM_length; exact HQ'). assert (LP' : List.length Pnp' = List.length nodes) by (rewrite LN; eapply mapM_length; exact HP').
  split.
  2: { intros i j m A A' Hi Hj0 HA. assert (Li : i < List.length nodes) by (apply nth_error_Some; congruence). assert (Lj : j < List.length nodes') by (apply nth_error_Some; congruence).
    assert (Ej : j = s i). { apply (proj1 (NoDup_nth nodes' 0) ND'); [exact Lj | rewrite <- LN; now apply Es|]. rewrite Hs by easy. now rewrite (nth_error_nth _ _ _ Hi), (nth_error_nth _ _ _ Hj0). }
    rewrite Ej in HA. destruct HA as [[HA HA']|[HA HA']]; [pose proof (VR cQ oQ Qnp Qnp' i HQ HQ' ltac:(reflexivity) Li) as V | pose proof (VR cP oP Pnp Pnp' i HP HP' ltac:(reflexivity) Li) as V]; unfold opn in V; rewrite (nth_error_nth _ _ _ HA), (nth_error_nth _ _ _ HA') in V; exact V. }
  intros r q Hr Hq. pose proof (proj1 Ef r Hr) as Hr'. pose proof (proj1 Ef q Hq) as Hq'. unfold tidyup. f_equal. unfold mplus, msc.
  f_equal; [f_equal; [f_equal|]|].
  - rewrite A5, B5. f_equal. apply (quad_res N f Ef (List.length nodes) s Es); auto.
    + intros i Hi. now apply (VR cQ oQ).
    + intros i Hi. rewrite A3, B3. now apply (charge_re y y' w w' R s Hs).
    + intros i j Hi Hj0. rewrite A1, B1. now apply (caps_re y y' w w' Hy Hy' R s Es Hs Cinv P Cinv' P').
  - rewrite A6, B6. f_equal. apply (quad_res N f Ef (List.length nodes) s Es); auto.
    + intros i Hi. now apply (VR cP oP).
    + intros i Hi. rewrite A4, B4. now apply (bias_re y y' w w' Hy Hy' R s Es Hs).
    + intros i j Hi Hj0. rewrite A2, B2. now apply (linv_re y y' w w' Hy Hy' R s Es Hs Cinv P Cinv' P').
  - rewrite A7, B7. f_equal. rewrite (part_sum N nodes (opn ds) (opn dds) K1 argord (ss_edges y) _ _ (phasor y w) Hj perm (fun i e He => proj1 (A10 i e He)) E1 r q Hr Hq), (part_sum N nodes' (opn ds') (opn dds') K1' argord' (ss_edges y') _ _ (phasor y' w') Hj' perm' (fun i e He => proj1 (B10 i e He)) E1' (f r) (f q) Hr' Hq').
    rewrite (phasors_alike N nodes (opn ds) (opn dds) y y' w w' r q RC RS'). f_equal. apply map_ext. intros e.
    apply (cosp_res N f Ef (List.length nodes) s Es nodes nodes' eq_refl (eq_sym LN) Hs (opn ds) (opn dds) (opn ds') (opn dds')); auto; [|rewrite LN; exact K1'].
    intros i Hi. split; [now apply (VR cD oD) | now apply (VR cDd oDd)].
  - rewrite A8, B8. f_equal.
    rewrite (part_sum N nodes (opn ss) (opn sds) K2 argord (ss_edges y) _ _ (fun e => zeta (value_of y w "V" e) (offset nodes (charge_bias y (v_charge w)) (src e) (dst e))) Hp perm) with (2 := E2); auto.
    2: { intros i e He. destruct (A10 i e He) as (_ & _ & ->). rewrite A9. now rewrite (slip_offset y w i e He). }
    rewrite (part_sum N nodes' (opn ss') (opn sds') K2' argord' (ss_edges y') _ _ (fun e => zeta (value_of y' w' "V" e) (offset nodes (charge_bias y (v_charge w)) (src e) (dst e))) Hp' perm') with (2 := E2'); auto.
    2: { intros i e He. destruct (B10 i e He) as (_ & _ & ->). rewrite B9. rewrite (slip_offset y' w' i e He). f_equal. now apply (offset_re y y' w w' R s Es Hs). }
    rewrite (slips_alike N nodes (opn ss) (opn sds) y y' w w' _ r q RV). f_equal. apply map_ext. intros e.
    apply (cosp_res N f Ef (List.length nodes) s Es nodes nodes' eq_refl (eq_sym LN) Hs (opn ss) (opn sds) (opn ss') (opn sds')); auto; [|rewrite LN; exact K2'].
    intros i Hi. split; [now apply (VR cS oS) | now apply (VR cSd oSd)].
Qed.

(** ** the inverse renumbering and the levels *)
Lemma emb_back N f A A' : embedding N N f -> restricts N f A' A -> exists g, embedding N N g /\ restricts N g A A'.
Proof.
  intros E Rs. set (l := map f (seq 0 N)). assert (V : forall j, j < N -> pos l j < N /\ f (pos l j) = j).
  { intros j Hj. assert (I : In j l) by (eapply Permutation_in; [symmetry; apply (emb_perm N f E)|]; apply in_seq; lia). destruct (pos_spec l j I) as [H1 H2]. unfold l in H1 at 2. rewrite map_length, seq_length in H1. split; [exact H1|].
    unfold l in H2 at 2. rewrite (nth_indep _ 0 (f 0)) in H2 by now rewrite map_length, seq_length. rewrite map_nth, seq_nth in H2 by exact H1. exact H2. }
  exists (pos l). split; [split|].
  - intros i Hi. now apply V.
  - intros i j Hi Hj X. destruct (V i Hi) as [_ Q], (V j Hj) as [_ Q']. now rewrite <- Q, <- Q', X.
  - intros i j Hi Hj. destruct (V i Hi) as [Q1 Q2], (V j Hj) as [Q3 Q4]. rewrite <- (Rs _ _ Q1 Q3), Q2, Q4. reflexivity.
Qed.
Lemma same_levels N f A A' E E' : embedding N N f -> restricts N f A' A -> spectrum N A E -> spectrum N A' E' -> ascending N E -> ascending N E' -> forall k, k < N -> E' k = E k.
Proof.
  intros Ef Rs S1 S2 Z1 Z2 k Hk. destruct (emb_back N f A A' Ef Rs) as (g & Eg & Rg). apply Rle_antisym; [exact (levels_drop N N f A A' E E' Ef Rs S1 S2 Z1 Z2 k Hk) | exact (levels_drop N N g A' A E' E Eg Rg S2 S1 Z2 Z1 k Hk)].
Qed.
Lemma reordered_levels eigh inv z ka kb pmax chg flx y y' w w' Cinv P Cinv' P' ec el ej ep data circ0 circ circ0' circ' Qnp Pnp Qnp' Pnp' argord argord' c c' n n' h h' H H' E E' :
  let gen := getOperatorList eigh inv z ka kb pmax chg flx in let N := fold_right Nat.mul 1 (c_dims c) in let N' := fold_right Nat.mul 1 (c_dims c') in
  system y -> system y' -> (forall l, Permutation (argord l) l) -> (forall l, Permutation (argord' l) l) -> reordered y w y' w' -> ideal y (v_par w) -> ideal y' (v_par w') ->
  inverted y (v_par w) Cinv P -> inverted y' (v_par w') Cinv' P' ->
  getExpandedOperatorsMap gen (ss_nodes y) data None circ0 = Ok circ -> op_vector cQ (ss_nodes y) circ = Ok Qnp -> op_vector cP (ss_nodes y) circ = Ok Pnp -> In n (ss_nodes y) -> dget circ n = Some c ->
  getExpandedOperatorsMap gen (ss_nodes y') data None circ0' = Ok circ' -> op_vector cQ (ss_nodes y') circ' = Ok Qnp' -> op_vector cP (ss_nodes y') circ' = Ok Pnp' -> In n' (ss_nodes y') -> dget circ' n' = Some c' ->
  substitute y w Cinv P ec el ej ep = Ok h -> substitute y' w' Cinv' P' ec el ej ep = Ok h' ->
  getHamiltonian N argord (ss_nodes y) (ss_edges y) h Qnp Pnp circ = Ok H -> getHamiltonian N' argord' (ss_nodes y') (ss_edges y') h' Qnp' Pnp' circ' = Ok H' ->
  spectrum N H E -> ascending N E -> spectrum N' H' E' -> ascending N' E' -> forall k, k < N -> E' k = E k.
Proof.
  intros gen N N' Hy Hy' perm perm' R Hid Hid' HV HV' Hc HQ HP Hn HD Hc' HQ' HP' Hn' HD' Hh Hh' HH HH' S1 Z1 S2 Z2.
  destruct (reordered_same eigh inv z ka kb pmax chg flx y y' w w' Cinv P Cinv' P' ec el ej ep data circ0 circ circ0' circ' Qnp Pnp Qnp' Pnp' argord argord' c c' n n' h h' H H' Hy Hy' perm perm' R Hid Hid' HV HV' Hc HQ HP Hn HD Hc' HQ' HP' Hn' HD' Hh Hh' HH HH') as (EN & f & Ef & Rs & _).
  fold N N' in EN. fold N in Ef, Rs. rewrite EN in S2, Z2. exact (same_levels N f H H' E E' Ef Rs S1 S2 Z1 Z2).
Qed.
