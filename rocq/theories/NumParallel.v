(** Proofs for C132. *)
From Coq Require Import List Bool String Ascii Arith Lia ZArith Reals Lra Setoid Morphisms Permutation.
From Coquelicot Require Import Complex.
From Verif Require Import Prelude PreludeFacts Sweep SweepProofs SweepResultProofs Mat MatFacts Util UtilProofs Graph GraphSpec Symbolic SymbolicSpec RSum SymbolicInv SymbolicCap SymbolicCap2 SymbolicFlux SymbolicNew SymbolicProofs NumOp NumOpSpec NumKron NumSpectral NumCharge NumExpand NumHerm NumPot NumFlux NumOpProofs SymHam SymHamSpec SymHamProofs SymHamT SymTotal SymTotalSpec SymTotalProofs SymTotalMain MoveSpec MoveProofs NumSubst NumSymSpec NumSymProofs NumSymHam NumSymNode NumSymMain NumSymEx NumGaugeSpec NumGauge NumGaugeHam NumGaugeMain NumTruncSpec NumTruncLevels NumTruncMain LevMoveSpec NumBound NumBoundHam NumBoundMain RedrawSpec NumRedraw ParallelSpec GraphView GraphForest GraphWf GraphCircuit GraphState GraphMaps GraphOps GraphProofs.
Import ListNotations.
Open Scope nat_scope.

(** ** sums over components depend on the totals between nodes *)
Definition part1 (s : R) (k : link) (a b : nat) : R := let '(p, q, x) := k in if Nat.eqb p a && Nat.eqb q b then x else if Nat.eqb p b && Nat.eqb q a then (s * x)%R else 0%R.
Lemma between_cons s k l a b : between s (k :: l) a b = (part1 s k a b + between s l a b)%R.
Proof. destruct k as [[p q] x]. reflexivity. Qed.
Definition weigh (G : nat -> nat -> R) (k : link) : R := let '(p, q, x) := k in (x * G p q)%R.
Section Grouped.
  Variables (s : R) (G : nat -> nat -> R).
  Hypothesis turn : forall a b, G b a = (s * G a b)%R.
  Lemma one_link K k : fst (fst k) < K -> snd (fst k) < K -> RS K (fun a => RS K (fun b => if Nat.leb a b then part1 s k a b * G a b else 0))%R = weigh G k.
  Proof.
    destruct k as [[p q] x]. cbn [fst snd]. intros Hp Hq. unfold part1, weigh. destruct (Nat.leb_spec p q) as [L|L].
    - rewrite (RS_single K p); auto.
      + rewrite (RS_single K q); auto.
        * rewrite !Nat.eqb_refl. destruct (Nat.leb_spec p q); [reflexivity|lia].
        * intros b _ Nb. destruct (Nat.leb_spec p b); [|reflexivity]. rewrite Nat.eqb_refl. destruct (Nat.eqb_spec q b); [congruence|]. cbn [andb]. destruct (Nat.eqb_spec p b), (Nat.eqb_spec q p); cbn [andb]; try ring. lia.
      + intros a _ Na. apply RS_0. intros b _. destruct (Nat.leb_spec a b); [|reflexivity]. destruct (Nat.eqb_spec p a); [congruence|]. cbn [andb]. destruct (Nat.eqb_spec p b), (Nat.eqb_spec q a); cbn [andb]; try ring. lia.
    - rewrite (RS_single K q); auto.
      + rewrite (RS_single K p); auto.
        * rewrite !Nat.eqb_refl. destruct (Nat.leb_spec q p); [|lia]. destruct (Nat.eqb_spec p q); [lia|]. cbn [andb]. rewrite (turn q p). ring.
        * intros b _ Nb. destruct (Nat.leb_spec q b); [|reflexivity]. destruct (Nat.eqb_spec p q); [lia|]. cbn [andb]. destruct (Nat.eqb_spec p b); [congruence|]. cbn [andb]. ring.
      + intros a _ Na. apply RS_0. intros b _. destruct (Nat.leb_spec a b); [|reflexivity]. destruct (Nat.eqb_spec q a); [congruence|]. destruct (Nat.eqb_spec p a), (Nat.eqb_spec q b), (Nat.eqb_spec p b); cbn [andb]; try ring; lia.
  Qed.
  Lemma grouped K l : (forall k, In k l -> fst (fst k) < K /\ snd (fst k) < K) -> Rsum (map (weigh G) l) = RS K (fun a => RS K (fun b => if Nat.leb a b then between s l a b * G a b else 0))%R.
  Proof.
    induction l as [|k l IH]; intros H.
    - cbn [map]. rewrite Rsum_nil. symmetry. apply RS_0. intros a _. apply RS_0. intros b _. destruct (Nat.leb a b); [|reflexivity]. unfold between. cbn. ring.
    - cbn [map]. rewrite Rsum_cons, IH by (intros; apply H; now right). rewrite <- (one_link K k) by (apply H; now left). rewrite <- RS_add. apply RS_ext. intros a _. rewrite <- RS_add. apply RS_ext. intros b _. rewrite between_cons. destruct (Nat.leb a b); ring.
  Qed.
  Lemma bounded (l : list link) : exists K, forall K', K <= K' -> forall k, In k l -> fst (fst k) < K' /\ snd (fst k) < K'.
  Proof.
    induction l as [|k l [K IH]]; [exists 0; easy|]. exists (K + Datatypes.S (fst (fst k)) + Datatypes.S (snd (fst k))). intros K' HK k' [<-|Hk']; [lia|]. apply (IH K' ltac:(lia) k' Hk').
  Qed.
  Lemma agree_sum l l' : agree s l l' -> Rsum (map (weigh G) l) = Rsum (map (weigh G) l').
  Proof.
    intros H. destruct (bounded l) as [K HK]. destruct (bounded l') as [K' HK']. rewrite (grouped (K + K') l), (grouped (K + K') l') by (apply HK || apply HK'; lia).
    apply RS_ext. intros a _. apply RS_ext. intros b _. rewrite (H a b). reflexivity.
  Qed.
End Grouped.
Lemma links_sum s G y y' f f' : (forall a b, G b a = (s * G a b)%R) -> agree s (links y f) (links y' f') ->
  Rsum (map (fun e => f e * G (src e) (dst e))%R (ss_edges y)) = Rsum (map (fun e => f' e * G (src e) (dst e))%R (ss_edges y')).
Proof. intros HG H. pose proof (agree_sum s G HG _ _ H) as X. unfold links in X. rewrite !map_map in X. exact X. Qed.
Lemma Cl_parts {A} (g : A -> C) l : Cl (map g l) = (Rsum (map (fun a => fst (g a)) l), Rsum (map (fun a => snd (g a)) l)).
Proof. induction l as [|a l IH]; [reflexivity|]. cbn [map]. rewrite !Rsum_cons. change (Cl (g a :: map g l)) with (g a + Cl (map g l))%C. rewrite IH. reflexivity. Qed.
Section Cosines.
  Variables (N : nat) (nodes : list nat) (X Xd : nat -> cmat).
  Lemma phasors_alike y y' w w' r c : agree 1 (links y (current_cos y w)) (links y' (current_cos y' w')) -> agree (-1) (links y (current_sin y w)) (links y' (current_sin y' w')) ->
    Cl (map (fun e => cosp N nodes X Xd (phasor y w e) (src e) (dst e) r c) (ss_edges y)) = Cl (map (fun e => cosp N nodes X Xd (phasor y' w' e) (src e) (dst e) r c) (ss_edges y')).
  Proof.
    intros HC HS. set (g := fun a b => (RtoC (- (1 / 2)) * (U1 N nodes X Xd a b r c + U2 N nodes X Xd a b r c))%C). set (k := fun a b => (RtoC (- (1 / 2)) * Ci * (U1 N nodes X Xd a b r c - U2 N nodes X Xd a b r c))%C).
    assert (E : forall y0 w0 e, cosp N nodes X Xd (phasor y0 w0 e) (src e) (dst e) r c = (RtoC (current_cos y0 w0 e) * g (src e) (dst e) + RtoC (current_sin y0 w0 e) * k (src e) (dst e))%C).
    { intros y0 w0 e. unfold cosp, msc, mplus, g, k, phasor, current_cos, current_sin. set (u := U1 _ _ _ _ _ _ _ _). set (v := U2 _ _ _ _ _ _ _ _). apply injective_projections; cbn; ring. }
    assert (Tg : forall a b, g b a = g a b). { intros a b. unfold g. destruct (U_turn N nodes X Xd a b) as [-> ->]. ring. }
    assert (Tk : forall a b, k b a = (- k a b)%C). { intros a b. unfold k. destruct (U_turn N nodes X Xd a b) as [-> ->]. ring. }
    rewrite !Cl_parts. apply injective_projections; cbn [fst snd].
    - assert (F : forall y0 w0, Rsum (map (fun e => fst (cosp N nodes X Xd (phasor y0 w0 e) (src e) (dst e) r c)) (ss_edges y0)) = (Rsum (map (fun e => current_cos y0 w0 e * fst (g (src e) (dst e)))%R (ss_edges y0)) + Rsum (map (fun e => current_sin y0 w0 e * fst (k (src e) (dst e)))%R (ss_edges y0)))%R).
      { intros y0 w0. rewrite <- Rsum_map_add. apply Rsum_ext. intros e _. rewrite E. generalize (g (src e) (dst e)) (k (src e) (dst e)). intros [g1 g2] [k1 k2]. cbn. ring. }
      rewrite !F. f_equal; [apply (links_sum 1 (fun a b => fst (g a b))); [intros a b; rewrite (Tg a b); ring | exact HC] | apply (links_sum (-1) (fun a b => fst (k a b))); [intros a b; rewrite (Tk a b); generalize (k a b); intros [k1 k2]; cbn; ring | exact HS]].
    - assert (F : forall y0 w0, Rsum (map (fun e => snd (cosp N nodes X Xd (phasor y0 w0 e) (src e) (dst e) r c)) (ss_edges y0)) = (Rsum (map (fun e => current_cos y0 w0 e * snd (g (src e) (dst e)))%R (ss_edges y0)) + Rsum (map (fun e => current_sin y0 w0 e * snd (k (src e) (dst e)))%R (ss_edges y0)))%R).
      { intros y0 w0. rewrite <- Rsum_map_add. apply Rsum_ext. intros e _. rewrite E. generalize (g (src e) (dst e)) (k (src e) (dst e)). intros [g1 g2] [k1 k2]. cbn. ring. }
      rewrite !F. f_equal; [apply (links_sum 1 (fun a b => snd (g a b))); [intros a b; rewrite (Tg a b); ring | exact HC] | apply (links_sum (-1) (fun a b => snd (k a b))); [intros a b; rewrite (Tk a b); generalize (k a b); intros [k1 k2]; cbn; ring | exact HS]].
  Qed.
  Lemma slips_alike y y' w w' cb r c : agree 1 (links y (value_of y w "V")) (links y' (value_of y' w' "V")) ->
    Cl (map (fun e => cosp N nodes X Xd (zeta (value_of y w "V" e) (offset nodes cb (src e) (dst e))) (src e) (dst e) r c) (ss_edges y)) =
    Cl (map (fun e => cosp N nodes X Xd (zeta (value_of y' w' "V" e) (offset nodes cb (src e) (dst e))) (src e) (dst e) r c) (ss_edges y')).
  Proof.
    intros HV. set (g := fun a b => cosp N nodes X Xd (cis (2 * PI * offset nodes cb a b)) a b r c).
    assert (E : forall v a b, cosp N nodes X Xd (zeta v (offset nodes cb a b)) a b r c = (RtoC v * g a b)%C). { intros v a b. unfold g, cosp, msc, mplus, zeta. rewrite conj_mult, conj_R. ring. }
    assert (Tg : forall a b, g b a = g a b). { intros a b. unfold g. rewrite <- cosp_turn. f_equal. rewrite conj_cis, offset_turn. f_equal. ring. }
    rewrite !Cl_parts. apply injective_projections; cbn [fst snd].
    - assert (F : forall y0 w0, Rsum (map (fun e => fst (cosp N nodes X Xd (zeta (value_of y0 w0 "V" e) (offset nodes cb (src e) (dst e))) (src e) (dst e) r c)) (ss_edges y0)) = Rsum (map (fun e => value_of y0 w0 "V" e * fst (g (src e) (dst e)))%R (ss_edges y0))).
      { intros y0 w0. apply Rsum_ext. intros e _. rewrite E. generalize (g (src e) (dst e)). intros [g1 g2]. cbn. ring. }
      rewrite !F. apply (links_sum 1 (fun a b => fst (g a b))); [intros a b; rewrite (Tg a b); ring | exact HV].
    - assert (F : forall y0 w0, Rsum (map (fun e => snd (cosp N nodes X Xd (zeta (value_of y0 w0 "V" e) (offset nodes cb (src e) (dst e))) (src e) (dst e) r c)) (ss_edges y0)) = Rsum (map (fun e => value_of y0 w0 "V" e * snd (g (src e) (dst e)))%R (ss_edges y0))).
      { intros y0 w0. apply Rsum_ext. intros e _. rewrite E. generalize (g (src e) (dst e)). intros [g1 g2]. cbn. ring. }
      rewrite !F. apply (links_sum 1 (fun a b => snd (g a b))); [intros a b; rewrite (Tg a b); ring | exact HV].
  Qed.
End Cosines.
(** ** the matrices *)
Section Inputs.
  Variables (y y' : ssys) (w w' : vals).
  Hypothesis Hy : system y.
  Hypothesis Hy' : system y'.
  Hypothesis RD : alike y w y' w'.
  Let n := List.length (ss_nodes y).
  Let ND := sys_nodup y Hy.
  Let NZ : ~ In 0 (ss_nodes y) := fun X => nodes_nz y Hy 0 X eq_refl.
  Lemma energy_links y0 w0 x x' : x 0 = 0%R -> x' 0 = 0%R -> electrostatic (v_par w0) (ss_cg y0) x x' = Rsum (map (weigh (fun a b => (x a - x b) * (x' a - x' b))%R) (capacitors y0 w0)).
  Proof.
    intros X0 X0'. unfold electrostatic, capacitors. rewrite !map_app, !Rsum_app, !map_map, <- Rplus_assoc. f_equal; [f_equal|]; apply Rsum_ext.
    - intros [[[p q] k] c] _. cbn. ring.
    - intros [m g] _. cbn. rewrite X0, X0'. ring.
    - intros [m g] _. cbn. rewrite X0, X0'. ring.
  Qed.
  Lemma caps_alike Cinv P Cinv' P' : inverted y (v_par w) Cinv P -> inverted y' (v_par w') Cinv' P' -> ideal y (v_par w) -> ideal y' (v_par w') -> forall i j, i < n -> j < n -> Cinv i j = Cinv' i j.
  Proof.
    intros ((M & HM & HI) & _) ((M' & HM' & HI') & _) (I1 & _) (I1' & _). destruct RD as (RN & RC & _). rewrite RN in HI'. fold n in HI, HI'.
    apply (inverses_unique n (fun i j => lval (v_par w) (M i j)) (fun i j => lval (v_par w') (M' i j))); auto.
    apply (bilinear_eq (ss_nodes y)); auto. intros x x' X0 X0'. pose proof (m_circ y (system_inv y Hy)) as HC. pose proof (m_circ y' (system_inv y' Hy')) as HC'.
    transitivity (electrostatic (v_par w) (ss_cg y) x x'); [rewrite (system_nodes y Hy); now apply c_cap_energy|]. transitivity (electrostatic (v_par w') (ss_cg y') x x'); [|rewrite <- RN, (system_nodes y' Hy'); symmetry; now apply c_cap_energy].
    rewrite !energy_links by easy. apply (agree_sum 1); [intros a b; cbv beta; ring | exact RC].
  Qed.
  Lemma linv_alike Cinv P Cinv' P' : inverted y (v_par w) Cinv P -> inverted y' (v_par w') Cinv' P' -> ideal y (v_par w) -> ideal y' (v_par w') ->
    forall i j, i < n -> j < n -> inverse_inductance (ss_nodes y) (ss_edges y) P i j = inverse_inductance (ss_nodes y') (ss_edges y') P' i j.
  Proof.
    intros (_ & L & HL & HP) (_ & L' & HL' & HP') Hid Hid'. pose proof Hid as (_ & I2 & I3). pose proof Hid' as (_ & I2' & I3'). destruct RD as (RN & _ & RE & _). pose proof (m_circ y (system_inv y Hy)) as HC. pose proof (m_circ y' (system_inv y' Hy')) as HC'. pose proof (m_edges y (system_inv y Hy)) as WC. pose proof (m_edges y' (system_inv y' Hy')) as WC'.
    apply (quadratic_eq (ss_nodes y)); auto.
    - intros i j. rewrite (system_nodes y Hy). now apply (c_linv_sym (ss_cg y) HC (v_par w) L P (ss_edges y)).
    - intros i j. rewrite (system_nodes y' Hy'). now apply (c_linv_sym (ss_cg y') HC' (v_par w') L' P' (ss_edges y')).
    - intros x X0. transitivity (inductive_form (v_par w) (c_graph (ss_cg y)) x); [rewrite (system_nodes y Hy); now apply (c_linv_form (ss_cg y) HC (v_par w) L P (ss_edges y))|].
      transitivity (inductive_form (v_par w') (c_graph (ss_cg y')) x); [|rewrite <- RN, (system_nodes y' Hy'); symmetry; now apply (c_linv_form (ss_cg y') HC' (v_par w') L' P' (ss_edges y'))].
      rewrite <- (edges_total (ss_cg y) (v_par w) (circuit_derived _ HC)), <- (edges_total (ss_cg y') (v_par w') (circuit_derived _ HC')), <- (y_edges y Hy), <- (y_edges y' Hy').
      pose proof (links_sum 1 (fun a b => (x a - x b) * (x a - x b))%R y y' _ _ ltac:(intros; cbv beta; ring) RE) as X.
      etransitivity; [etransitivity; [|exact X]|]; apply Rsum_ext; intros e He; unfold inverse_L; rewrite (weight_value _ _ e) by easy; reflexivity.
  Qed.
  Lemma bias_links y0 w0 i : system y0 -> ideal y0 (v_par w0) -> i < List.length (ss_nodes y0) -> node_bias (ss_nodes y0) (ss_edges y0) (ind_bias (ss_cg y0) (ss_edges y0) (fun j => branch_bias y0 (v_flux w0) (nth j (ss_edges y0) noedge))) i =
      Rsum (map (fun e => inductor_bias y0 w0 e * IZR (sg (src e) (dst e) (nth i (ss_nodes y0) 0%nat)))%R (ss_edges y0)).
  Proof.
    intros H0 Hi0 L0. pose proof (circuit_derived _ (m_circ y0 (system_inv y0 H0))) as HD. rewrite (y_edges y0 H0), (system_nodes y0 H0). rewrite (node_bias_at (ss_cg y0) HD (branch_bias y0 (v_flux w0))) by (rewrite <- (system_nodes y0 H0); exact L0).
    unfold outflow. destruct (Nat.eqb_spec (nth i (sys_nodes (ss_cg y0)) 0) 0) as [E|_].
    { destruct (nodes_nz y0 H0 0); [|reflexivity]. rewrite <- E. rewrite <- (system_nodes y0 H0). now apply nth_In. }
    apply Rsum_ext. intros e He. rewrite <- (y_edges y0 H0) in He. unfold inductor_bias. rewrite !value_lname by easy. change (lname y0 "L" e) with (ind_name (ss_cg y0) e).
    destruct (ind_name (ss_cg y0) e) as [c|] eqn:E; [|destruct (Req_EM_T 0 0); [ring|lra]].
    destruct (ind_name_branch (ss_cg y0) HD e c E) as (b & Hb & <- & _). destruct Hi0 as (_ & _ & I3). destruct (Req_EM_T (v_par w0 (snd b)) 0) as [Z|_]; [destruct (I3 b Hb Z)|].
    rewrite Rmult_comm. f_equal. unfold inc, sg. repeat (destruct (Nat.eqb _ _)); reflexivity.
  Qed.
  Lemma bias_alike i : ideal y (v_par w) -> ideal y' (v_par w') -> i < n ->
    node_bias (ss_nodes y) (ss_edges y) (ind_bias (ss_cg y) (ss_edges y) (fun j => branch_bias y (v_flux w) (nth j (ss_edges y) noedge))) i =
    node_bias (ss_nodes y') (ss_edges y') (ind_bias (ss_cg y') (ss_edges y') (fun j => branch_bias y' (v_flux w') (nth j (ss_edges y') noedge))) i.
  Proof.
    intros Hid Hid' Hi. destruct RD as (RN & _ & _ & RE & _). rewrite (bias_links y w), (bias_links y' w') by (auto; rewrite RN; exact Hi). rewrite RN. apply (links_sum (-1) (fun a b => IZR (sg a b (nth i (ss_nodes y) 0%nat)))); [|exact RE]. intros a b. rewrite sg_turn, opp_IZR. ring.
  Qed.
End Inputs.
Lemma alike_same eigh inv z ka kb pmax chg flx y y' w w' Cinv P Cinv' P' ec el ej ep data circ0 circ Qnp Pnp argord argord' c n h h' H H' :
  let gen := getOperatorList eigh inv z ka kb pmax chg flx in let N := fold_right Nat.mul 1 (c_dims c) in
  system y -> system y' -> (forall l, Permutation (argord l) l) -> (forall l, Permutation (argord' l) l) -> alike y w y' w' -> ideal y (v_par w) -> ideal y' (v_par w') ->
  inverted y (v_par w) Cinv P -> inverted y' (v_par w') Cinv' P' ->
  getExpandedOperatorsMap gen (ss_nodes y) data None circ0 = Ok circ -> op_vector cQ (ss_nodes y) circ = Ok Qnp -> op_vector cP (ss_nodes y) circ = Ok Pnp -> In n (ss_nodes y) -> dget circ n = Some c ->
  substitute y w Cinv P ec el ej ep = Ok h -> substitute y' w' Cinv' P' ec el ej ep = Ok h' ->
  getHamiltonian N argord (ss_nodes y) (ss_edges y) h Qnp Pnp circ = Ok H -> getHamiltonian N argord' (ss_nodes y') (ss_edges y') h' Qnp Pnp circ = Ok H' ->
  same N H' H.
Proof.
  intros gen N Hy Hy' perm perm' R Hid Hid' HV HV' Hc HQ HP Hn HD Hh Hh'. pose proof (sys_nodup y Hy) as ND.
  destruct (inputs y Hy w Cinv P ec el ej ep h Hh) as ((A1 & A2 & A3 & A4) & (A5 & A6 & A7 & A8) & A9 & A10). destruct (inputs y' Hy' w' Cinv' P' ec el ej ep h' Hh') as ((B1 & B2 & B3 & B4) & (B5 & B6 & B7 & B8) & B9 & B10).
  unfold N in *. clear N. rewrite (dims_size eigh inv z ka kb pmax chg flx y data circ0 circ c n Hy Hc Hn HD) in *. set (N := size _ _).
  pose proof R as (RN & _ & _ & _ & RC & RS' & RV & RQ). rewrite RN. unfold getHamiltonian. set (nodes := ss_nodes y) in *.
  assert (gen_dim : forall n d o k, gen n d = Ok o -> ident_dim d = Some k -> o_dim o = k) by apply gen_dim_list.
  destruct (op_vector cD nodes circ) as [ds|] eqn:V1; [|easy]. destruct (op_vector cDd nodes circ) as [dds|] eqn:V2; [|easy].
  destruct (op_vector cS nodes circ) as [ss|] eqn:V3; [|easy]. destruct (op_vector cSd nodes circ) as [sds|] eqn:V4; [|easy]. cbn [bind].
  assert (lh : forall f l, op_vector f nodes circ = Ok l -> (forall i o, exists A, f (lifted gen nodes data i o) = lift (node_dim gen nodes data) (List.length nodes) i A) ->
    forall f' l', op_vector f' nodes circ = Ok l' -> (forall i o, exists A, f' (lifted gen nodes data i o) = lift (node_dim gen nodes data) (List.length nodes) i A) ->
    forall i j, i < List.length nodes -> j < List.length nodes -> i <> j -> commute N (opn l i) (opn l' j)).
  { intros f l Hl Hf f' l' Hl' Hf' i j Hi Hj Nij. destruct (vector_elem gen nodes data gen_dim ND circ0 circ Hc f l i Hl Hi) as (? & ? & o & _ & _ & _ & _ & ->).
    destruct (vector_elem gen nodes data gen_dim ND circ0 circ Hc f' l' j Hl' Hj) as (? & ? & o' & _ & _ & _ & _ & ->). destruct (Hf i o) as [A ->]. destruct (Hf' j o') as [B ->]. now apply lift_commute. }
  assert (K1 : forall k k', k < List.length nodes -> k' < List.length nodes -> k <> k' -> commute N (opn ds k) (opn ds k') /\ commute N (opn ds k) (opn dds k') /\ commute N (opn dds k) (opn ds k') /\ commute N (opn dds k) (opn dds k')).
  { intros k k' Hk Hk' Nk. split; [|split; [|split]]; [apply (lh cD ds V1) with (f' := cD)| apply (lh cD ds V1) with (f' := cDd) | apply (lh cDd dds V2) with (f' := cD) | apply (lh cDd dds V2) with (f' := cDd)]; auto; intros; eexists; reflexivity. }
  assert (K2 : forall k k', k < List.length nodes -> k' < List.length nodes -> k <> k' -> commute N (opn ss k) (opn ss k') /\ commute N (opn ss k) (opn sds k') /\ commute N (opn sds k) (opn ss k') /\ commute N (opn sds k) (opn sds k')).
  { intros k k' Hk Hk' Nk. split; [|split; [|split]]; [apply (lh cS ss V3) with (f' := cS)| apply (lh cS ss V3) with (f' := cSd) | apply (lh cSd sds V4) with (f' := cS) | apply (lh cSd sds V4) with (f' := cSd)]; auto; intros; eexists; reflexivity. }
  destruct (cosine_part N argord nodes (ss_edges y) (h_J h) (h_pb h) (opn ds) (opn dds)) as [Hj|] eqn:E1; [|easy]. cbn [bind]. destruct (cosine_part N argord nodes (ss_edges y) (h_Ps h) (h_qb h) (opn ss) (opn sds)) as [Hp|] eqn:E2; [|easy]. cbn [bind].
  intros E. injection E as <-.
  destruct (cosine_part N argord' nodes (ss_edges y') (h_J h') (h_pb h') (opn ds) (opn dds)) as [Hj'|] eqn:E1'; [|easy]. cbn [bind]. destruct (cosine_part N argord' nodes (ss_edges y') (h_Ps h') (h_qb h') (opn ss) (opn sds)) as [Hp'|] eqn:E2'; [|easy]. cbn [bind].
  intros E. injection E as <-. intros r q Hr Hq. unfold tidyup. f_equal. unfold mplus, msc.
  assert (LQ : List.length Qnp = List.length nodes) by (eapply mapM_length; exact HQ). assert (LP : List.length Pnp = List.length nodes) by (eapply mapM_length; exact HP).
  f_equal; [f_equal; [f_equal|]|].
  - rewrite A5, B5. f_equal. apply quad_ext; rewrite LQ.
    + intros i Hi. rewrite A3, B3. now apply RQ.
    + intros i j Hi Hj0. rewrite A1, B1. symmetry. now apply (caps_alike y y' w w' Hy Hy' R Cinv P Cinv' P').
  - rewrite A6, B6. f_equal. apply quad_ext; rewrite LP.
    + intros i Hi. rewrite A4, B4. symmetry. now apply (bias_alike y y' w w' Hy Hy' R).
    + intros i j Hi Hj0. rewrite A2, B2. symmetry. now apply (linv_alike y y' w w' Hy Hy' R Cinv P Cinv' P').
  - rewrite A7, B7. f_equal. rewrite (part_sum N nodes (opn ds) (opn dds) K1 argord (ss_edges y) _ _ (phasor y w) Hj perm (fun i e He => proj1 (A10 i e He)) E1 r q Hr Hq), (part_sum N nodes (opn ds) (opn dds) K1 argord' (ss_edges y') _ _ (phasor y' w') Hj' perm' (fun i e He => proj1 (B10 i e He)) E1' r q Hr Hq).
    symmetry. now apply (phasors_alike N nodes (opn ds) (opn dds)).
  - rewrite A8, B8. f_equal.
    rewrite (part_sum N nodes (opn ss) (opn sds) K2 argord (ss_edges y) _ _ (fun e => zeta (value_of y w "V" e) (offset nodes (charge_bias y (v_charge w)) (src e) (dst e))) Hp perm) with (2 := E2); auto.
    2: { intros i e He. destruct (A10 i e He) as (_ & _ & ->). rewrite A9. now rewrite (slip_offset y w i e He). }
    rewrite (part_sum N nodes (opn ss) (opn sds) K2 argord' (ss_edges y') _ _ (fun e => zeta (value_of y' w' "V" e) (offset nodes (charge_bias y (v_charge w)) (src e) (dst e))) Hp' perm') with (2 := E2'); auto.
    2: { intros i e He. destruct (B10 i e He) as (_ & _ & ->). rewrite B9. rewrite (slip_offset y' w' i e He), RN. f_equal. unfold offset. apply RS_ext. intros k Hk. now rewrite RQ. }
    symmetry. now apply (slips_alike N nodes (opn ss) (opn sds)).
Qed.
