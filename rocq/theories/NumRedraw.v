(** Proofs for C131. *)
From Coq Require Import List Bool String Ascii Arith Lia ZArith Reals Lra Setoid Morphisms Permutation.
From Coquelicot Require Import Complex.
From Verif Require Import Prelude PreludeFacts Sweep SweepProofs SweepResultProofs Mat MatFacts Util UtilProofs Graph GraphSpec Symbolic SymbolicSpec RSum SymbolicInv SymbolicCap SymbolicCap2 SymbolicFlux SymbolicNew SymbolicProofs NumOp NumOpSpec NumKron NumSpectral NumCharge NumExpand NumHerm NumPot NumFlux NumOpProofs SymHam SymHamSpec SymHamProofs SymHamT SymTotal SymTotalSpec SymTotalProofs SymTotalMain MoveSpec MoveProofs NumSubst NumSymSpec NumSymProofs NumSymHam NumSymNode NumSymMain NumSymEx NumGaugeSpec NumGauge NumGaugeHam NumGaugeMain NumTruncSpec NumTruncLevels NumTruncMain LevMoveSpec NumBound NumBoundHam NumBoundMain RedrawSpec GraphView GraphForest GraphWf GraphCircuit GraphState GraphMaps GraphOps GraphProofs.
Import ListNotations.
Open Scope nat_scope.

(** ** sums over a list and over the list drawn otherwise *)
Definition Cl (l : list C) : C := fold_right Cplus (RtoC 0) l.
Lemma Cl_perm a b : Permutation a b -> Cl a = Cl b.
Proof. induction 1; cbn in *; [reflexivity | f_equal; assumption | ring | congruence]. Qed.
Lemma Cl_same {A} (f : A -> A) (g : A -> C) l l' : (forall a, g (f a) = g a) -> same_up_to f l l' -> Cl (map g l) = Cl (map g l').
Proof.
  intros G (m & P & F). rewrite (Cl_perm _ _ (Permutation_map g P)). clear P. induction F as [|a b m l' H F IH]; [reflexivity|]. cbn. fold (Cl (map g m)) (Cl (map g l')). rewrite IH. destruct H as [-> | ->]; [reflexivity | now rewrite G].
Qed.
Lemma R_same {A} (f : A -> A) (g : A -> R) l l' : (forall a, g (f a) = g a) -> same_up_to f l l' -> Rsum (map g l) = Rsum (map g l').
Proof.
  intros G (m & P & F). rewrite (Rsum_perm _ _ (Permutation_map g P)). clear P. induction F as [|a b m l' H F IH]; [reflexivity|]. cbn [map]. rewrite !Rsum_cons, IH. destruct H as [-> | ->]; [reflexivity | now rewrite G].
Qed.

(** ** products of commuting matrices *)
Lemma prodm_right N l : (forall A, In A l -> True) -> same N (prodm N l) (fold_right (mm N) eye l).
Proof.
  intros _. destruct l as [|A r]; [reflexivity|]. cbn [prodm fold_right]. revert A. induction r as [|B r IH]; intros A; cbn [fold_left fold_right].
  - symmetry. intros i j Hi Hj. now rewrite mm_eye_r.
  - rewrite IH. intros i j Hi Hj. now rewrite mm_assoc.
Qed.
Lemma right_perm N l l' : Permutation l l' -> (forall A B, In A l -> In B l -> commute N A B) -> same N (fold_right (mm N) eye l) (fold_right (mm N) eye l').
Proof.
  induction 1 as [|A l l' P IH|A B l|l l' l'' P IH P' IH']; intros K; cbn [fold_right].
  - reflexivity.
  - assert (X := IH (fun A B HA HB => K A B (or_intror HA) (or_intror HB))). rewrite X. reflexivity.
  - assert (X : same N (mm N B A) (mm N A B)) by (apply commute_mm, K; [now left | right; now left]).
    intros i j Hi Hj. rewrite <- !mm_assoc. revert i j Hi Hj. change (same N (mm N (mm N B A) (fold_right (mm N) eye l)) (mm N (mm N A B) (fold_right (mm N) eye l))). rewrite X. reflexivity.
  - rewrite (IH K). apply IH'. intros A B HA HB. apply K; eapply Permutation_in; try exact HA; try exact HB; now apply Permutation_sym.
Qed.
Lemma prodm_perm N l l' : Permutation l l' -> (forall A B, In A l -> In B l -> commute N A B) -> same N (prodm N l) (prodm N l').
Proof. intros P K. rewrite !prodm_right by easy. now apply right_perm. Qed.

(** ** the terms of a branch by its ends *)
Definition sg (a b m : nat) : Z := if Nat.eqb a b then 0%Z else if Nat.eqb a m then 1%Z else if Nat.eqb b m then (-1)%Z else 0%Z.
Lemma sg_turn a b m : sg b a m = (- sg a b m)%Z.
Proof. unfold sg. rewrite (Nat.eqb_sym b a). destruct (Nat.eqb_spec a b); [reflexivity|]. destruct (Nat.eqb_spec a m), (Nat.eqb_spec b m); try reflexivity. congruence. Qed.
Definition tms (nodes : list nat) (a b : nat) : list (nat * bool) :=
  flat_map (fun k => match sg a b (nth k nodes 0) with Z0 => [] | Zpos _ => [(k, true)] | Zneg _ => [(k, false)] end) (seq 0 (List.length nodes)).
Lemma rbn_sg nodes edges k i e : k < List.length nodes -> nth_error edges i = Some e -> rbn nodes edges k i = sg (src e) (dst e) (nth k nodes 0).
Proof. intros Hk Hi. unfold rbn, sg. rewrite (nth_error_nth' nodes 0 Hk), Hi. reflexivity. Qed.
Lemma flat_map_ext_in {A B} (f g : A -> list B) l : (forall a, In a l -> f a = g a) -> flat_map f l = flat_map g l.
Proof. induction l as [|a l IH]; intros H; [reflexivity|]. cbn. rewrite (H a (or_introl eq_refl)). f_equal. apply IH. intros; apply H; now right. Qed.
Lemma terms_tms nodes edges i e : nth_error edges i = Some e -> branch_terms nodes edges i = tms nodes (src e) (dst e).
Proof. intros Hi. unfold branch_terms, tms. apply flat_map_ext_in. intros k Hk. apply in_seq in Hk. rewrite (rbn_sg nodes edges k i e) by (auto; lia). reflexivity. Qed.
Lemma tms_turn nodes a b : tms nodes b a = map (fun t => (fst t, negb (snd t))) (tms nodes a b).
Proof. unfold tms. induction (seq 0 (List.length nodes)) as [|k l IH]; [reflexivity|]. cbn [flat_map]. rewrite map_app, IH, sg_turn. destruct (sg a b (nth k nodes 0)); reflexivity. Qed.
Lemma terms_once nodes edges i : NoDup (map fst (branch_terms nodes edges i)).
Proof.
  unfold branch_terms. rewrite <- (seq_NoDup (List.length nodes) 0) || idtac.
  assert (G : forall l, NoDup l -> NoDup (map fst (flat_map (fun k => match rbn nodes edges k i with Z0 => [] | Zpos _ => [(k, true)] | Zneg _ => [(k, false)] end) l)) /\
    forall k, In k (map fst (flat_map (fun k => match rbn nodes edges k i with Z0 => [] | Zpos _ => [(k, true)] | Zneg _ => [(k, false)] end) l)) -> In k l).
  { induction l as [|k l IH]; intros ND; [cbn; split; [constructor | easy]|]. inversion ND as [|? ? H1 H2]; subst. destruct (IH H2) as [I1 I2].
    cbn [flat_map]. rewrite map_app. destruct (rbn nodes edges k i); cbn [map app fst].
    - split; [easy|]. intros; right; auto.
    - split; [constructor; [intros K; apply H1; auto | easy]|]. intros k' [<-|K]; [now left | right; auto].
    - split; [constructor; [intros K; apply H1; auto | easy]|]. intros k' [<-|K]; [now left | right; auto]. }
  apply G, seq_NoDup.
Qed.
Section Cosine.
  Variables (N : nat) (nodes : list nat) (X Xd : nat -> cmat).
  Hypothesis com : forall k k', k < List.length nodes -> k' < List.length nodes -> k <> k' -> commute N (X k) (X k') /\ commute N (X k) (Xd k') /\ commute N (Xd k) (X k') /\ commute N (Xd k) (Xd k').
  Definition U1 (a b : nat) : cmat := prodm N (map (pick X Xd) (tms nodes a b)).
  Definition U2 (a b : nat) : cmat := prodm N (map (pick' X Xd) (tms nodes a b)).
  Definition cosp (s : C) (a b : nat) : cmat := msc (RtoC (- (1 / 2))) (mplus (msc s (U1 a b)) (msc (Cconj s) (U2 a b))).
  Lemma U_turn a b : U1 b a = U2 a b /\ U2 b a = U1 a b.
  Proof.
    unfold U1, U2. rewrite tms_turn, !map_map. split; f_equal; apply map_ext; intros [k s]; unfold pick, pick'; cbn [fst snd]; now destruct s.
  Qed.
  Lemma cosp_turn s a b r c : cosp (Cconj s) b a r c = cosp s a b r c.
  Proof. unfold cosp, msc, mplus. destruct (U_turn a b) as [-> ->]. replace (Cconj (Cconj s)) with s by (apply injective_projections; cbn; ring). ring. Qed.
  Lemma ordered argord edges i e : (forall l, Permutation (argord l) l) -> nth_error edges i = Some e ->
    same N (T1 N argord nodes edges X Xd i) (U1 (src e) (dst e)) /\ same N (T2 N argord nodes edges X Xd i) (U2 (src e) (dst e)).
  Proof.
    intros perm Hi. unfold T1, T2, U1, U2. rewrite (terms_tms nodes edges i e Hi). rewrite <- (terms_tms nodes edges i e Hi).
    pose proof (terms_in (List.length nodes) nodes edges eq_refl i) as TI. assert (TN : NoDup (map fst (branch_terms nodes edges i))) by apply terms_once. revert TI TN. generalize (branch_terms nodes edges i). intros ts TI TN.
    assert (Q : forall t t', In t ts -> In t' ts -> fst t = fst t' -> t = t').
    { clear - TN. induction ts as [|x ts IH]; [easy|]. cbn [map] in TN. apply NoDup_cons_iff in TN as [NI ND]. intros t t' [<-|Ht] [<-|Ht'] E; auto; destruct NI; [rewrite E; now apply in_map | rewrite <- E; now apply in_map]. }
    split; apply (prodm_perm N); try (apply Permutation_map, perm); intros A B HA HB; apply in_map_iff in HA as (t & <- & Ht); apply in_map_iff in HB as (t' & <- & Ht'); apply (Permutation_in _ (perm _)) in Ht, Ht';
      (destruct (Nat.eq_dec (fst t) (fst t')) as [E|E]; [rewrite (Q t t' Ht Ht' E); unfold commute; intros ? ? ? ?; reflexivity|]); destruct (com (fst t) (fst t') (TI t Ht) (TI t' Ht') E) as (K1 & K2 & K3 & K4); destruct (snd t), (snd t'); assumption.
  Qed.
  Lemma steps_sum argord edges amp bias l : forall H0 H, foldM (step N argord nodes edges X Xd amp bias) l H0 = Ok H ->
    forall r c, r < N -> c < N -> H r c = (H0 r c + Cl (map (fun i => cosine N argord nodes edges X Xd (zeta (amp i) (bias i)) i r c) l))%C.
  Proof.
    induction l as [|i l IH]; intros H0 H; cbn [foldM].
    - intros E r c _ _. injection E as <-. cbn. ring.
    - destruct (step N argord nodes edges X Xd amp bias H0 i) as [H1|] eqn:E1; [|discriminate]. cbn [bind]. intros E r c Hr Hc. rewrite (IH H1 H E r c Hr Hc). apply step_val in E1. rewrite (E1 r c Hr Hc). cbn. unfold mplus. fold (Cl (map (fun i => cosine N argord nodes edges X Xd (zeta (amp i) (bias i)) i r c) l)). ring.
  Qed.
  Lemma part_sum argord edges amp bias (s : edge -> C) H : (forall l, Permutation (argord l) l) -> (forall i e, nth_error edges i = Some e -> zeta (amp i) (bias i) = s e) ->
    cosine_part N argord nodes edges amp bias X Xd = Ok H -> forall r c, r < N -> c < N -> H r c = Cl (map (fun e => cosp (s e) (src e) (dst e) r c) edges).
  Proof.
    intros perm Hs E r c Hr Hc. rewrite (steps_sum argord edges amp bias (seq 0 (List.length edges)) mzero H E r c Hr Hc). unfold mzero. rewrite Cplus_0_l. f_equal.
    transitivity (map (fun i => cosp (s (nth i edges noedge)) (src (nth i edges noedge)) (dst (nth i edges noedge)) r c) (seq 0 (List.length edges))).
    - apply map_ext_in. intros i Hi. apply in_seq in Hi. assert (Ei : nth_error edges i = Some (nth i edges noedge)) by (apply nth_error_nth'; lia). rewrite (Hs i _ Ei). destruct (ordered argord edges i _ perm Ei) as [A B]. unfold cosine, cosp, msc, mplus. now rewrite (A r c Hr Hc), (B r c Hr Hc).
    - rewrite <- (map_map (fun i => nth i edges noedge) (fun e => cosp (s e) (src e) (dst e) r c)). f_equal. clear. induction edges as [|e l IH]; [reflexivity|]. cbn [List.length seq map]. f_equal. rewrite <- seq_shift, map_map. exact IH.
  Qed.
End Cosine.

(** ** the matrices *)
Lemma bilinear_eq nodes M M' : NoDup nodes -> ~ In 0 nodes -> (forall x x', x 0 = 0%R -> x' 0 = 0%R -> SymbolicSpec.form nodes M x x' = SymbolicSpec.form nodes M' x x') ->
  forall i j, i < List.length nodes -> j < List.length nodes -> M i j = M' i j.
Proof.
  intros ND NZ H i j Hi Hj. destruct (spread nodes (fun k => if Nat.eqb k i then 1%R else 0%R) ND NZ) as (x & X0 & HX). destruct (spread nodes (fun k => if Nat.eqb k j then 1%R else 0%R) ND NZ) as (x' & X0' & HX').
  assert (V : forall A, SymbolicSpec.form nodes A x x' = A i j).
  { intros A. unfold SymbolicSpec.form. cbv zeta. change (@sumn R_rng) with RS. rewrite (RS_single _ i); auto.
    - rewrite (RS_single _ j); auto; [rewrite HX, HX', !Nat.eqb_refl by easy; ring|]. intros k Hk Nk. rewrite (HX' k Hk). destruct (Nat.eqb_spec k j); [easy|]. ring.
    - intros k Hk Nk. rewrite (HX k Hk). destruct (Nat.eqb_spec k i); [easy|]. transitivity (RS (List.length nodes) (fun _ => 0%R)); [apply RS_ext; intros; ring | rewrite RS_const; ring]. }
  rewrite <- !V. now apply H.
Qed.
Lemma quadratic_eq nodes M M' : NoDup nodes -> ~ In 0 nodes -> (forall i j, M i j = M j i) -> (forall i j, M' i j = M' j i) ->
  (forall x, x 0 = 0%R -> SymbolicSpec.form nodes M x x = SymbolicSpec.form nodes M' x x) -> forall i j, i < List.length nodes -> j < List.length nodes -> M i j = M' i j.
Proof.
  intros ND NZ SM SM' H. apply bilinear_eq; auto. intros x x' X0 X0'.
  assert (P : forall A, (forall i j, A i j = A j i) -> (2 * SymbolicSpec.form nodes A x x' = SymbolicSpec.form nodes A (fun m => x m + x' m) (fun m => x m + x' m) - SymbolicSpec.form nodes A x x - SymbolicSpec.form nodes A x' x')%R).
  { intros A SA. unfold SymbolicSpec.form. cbv zeta. change (@sumn R_rng) with RS. set (n := List.length nodes).
    assert (T : RS n (fun i => RS n (fun j => x' (nth i nodes 0%nat) * A i j * x (nth j nodes 0%nat)))%R = RS n (fun i => RS n (fun j => x (nth i nodes 0%nat) * A i j * x' (nth j nodes 0%nat)))%R).
    { rewrite RS_swap. apply RS_ext. intros i _. apply RS_ext. intros j _. rewrite (SA j i). ring. }
    assert (E : RS n (fun i => RS n (fun j => (x (nth i nodes 0%nat) + x' (nth i nodes 0%nat)) * A i j * (x (nth j nodes 0%nat) + x' (nth j nodes 0%nat))))%R =
      (RS n (fun i => RS n (fun j => x (nth i nodes 0%nat) * A i j * x (nth j nodes 0%nat))) + RS n (fun i => RS n (fun j => x (nth i nodes 0%nat) * A i j * x' (nth j nodes 0%nat))) + RS n (fun i => RS n (fun j => x' (nth i nodes 0%nat) * A i j * x (nth j nodes 0%nat))) + RS n (fun i => RS n (fun j => x' (nth i nodes 0%nat) * A i j * x' (nth j nodes 0%nat))))%R).
    { rewrite <- !RS_add. apply RS_ext. intros i _. rewrite <- !RS_add. apply RS_ext. intros j _. ring. }
    rewrite E, T. ring. }
  pose proof (P M SM) as P1. pose proof (P M' SM') as P2. rewrite !H in P1 by (auto; rewrite X0, X0'; ring). lra.
Qed.
Lemma inverses_unique n A A' B B' : (forall i j, i < n -> j < n -> A i j = A' i j) -> inverses n A B -> inverses n A' B' -> forall i j, i < n -> j < n -> B i j = B' i j.
Proof.
  intros E H H' i j Hi Hj. change (@sumn R_rng) with RS in *. unfold inverses in *. change (@sumn R_rng) with RS in *.
  transitivity (RS n (fun k => RS n (fun l => B i l * A l k) * B' k j))%R.
  - rewrite (RS_ext n _ (fun k => RS n (fun l => B i l * (A l k * B' k j)))%R) by (intros k _; rewrite Rmult_comm, <- RS_l; apply RS_ext; intros; ring).
    rewrite RS_swap. rewrite (RS_ext n _ (fun l => B i l * (if Nat.eqb l j then 1 else 0))%R).
    + rewrite (RS_single n j); auto; [rewrite Nat.eqb_refl; ring|]. intros k _ Nk. destruct (Nat.eqb_spec k j); [easy|ring].
    + intros l Hl. rewrite RS_l. destruct (H' l j Hl Hj) as [X _].
      transitivity (B i l * RS n (fun k => A' l k * B' k j))%R; [|now rewrite X]. f_equal. apply RS_ext. intros k Hk. now rewrite E.
  - rewrite (RS_ext n _ (fun k => (if Nat.eqb i k then 1 else 0) * B' k j)%R) by (intros k Hk; destruct (H i k Hi Hk) as [_ ->]; reflexivity).
    rewrite (RS_single n i); auto; [rewrite Nat.eqb_refl; ring|]. intros k _ Nk. destruct (Nat.eqb_spec i k); [congruence|ring].
Qed.

(** ** redrawn systems have the same inputs *)
Section Inputs.
  Variables (y y' : ssys) (w w' : vals).
  Hypothesis Hy : system y.
  Hypothesis Hy' : system y'.
  Hypothesis RD : redrawn y w y' w'.
  Let n := List.length (ss_nodes y).
  Let ND := sys_nodup y Hy.
  Let NZ : ~ In 0 (ss_nodes y) := fun X => nodes_nz y Hy 0 X eq_refl.
  Lemma caps_same Cinv P Cinv' P' : inverted y (v_par w) Cinv P -> inverted y' (v_par w') Cinv' P' -> ideal y (v_par w) -> ideal y' (v_par w') -> forall i j, i < n -> j < n -> Cinv i j = Cinv' i j.
  Proof.
    intros ((M & HM & HI) & _) ((M' & HM' & HI') & _) (I1 & _) (I1' & _). destruct RD as (RN & _ & RC & RG & RR & _). rewrite RN in HI'. fold n in HI, HI'.
    apply (inverses_unique n (fun i j => lval (v_par w) (M i j)) (fun i j => lval (v_par w') (M' i j))); auto.
    apply (bilinear_eq (ss_nodes y)); auto. intros x x' X0 X0'. pose proof (m_circ y (system_inv y Hy)) as HC. pose proof (m_circ y' (system_inv y' Hy')) as HC'.
    transitivity (electrostatic (v_par w) (ss_cg y) x x'); [rewrite (system_nodes y Hy); now apply c_cap_energy|]. transitivity (electrostatic (v_par w') (ss_cg y') x x'); [|rewrite <- RN, (system_nodes y' Hy'); symmetry; now apply c_cap_energy].
    unfold electrostatic. f_equal; [f_equal|].
    - pose proof (R_same swapped (fun c => let '(a, b, v) := c in v * (x a - x b) * (x' a - x' b))%R _ _ ltac:(intros [[a b] v]; cbn; ring) RC) as X. rewrite !map_map in X. etransitivity; [etransitivity; [|exact X]|]; apply Rsum_ext; intros [[[p q] k] c] _; reflexivity.
    - pose proof (Rsum_perm _ _ (Permutation_map (fun g => snd g * x (fst g) * x' (fst g))%R RG)) as X. rewrite !map_map in X. exact X.
    - pose proof (Rsum_perm _ _ (Permutation_map (fun r => series (fst (snd r)) (snd (snd r)) * x (fst r) * x' (fst r))%R RR)) as X. rewrite !map_map in X. exact X.
  Qed.
  Lemma weight_value y0 w0 e : system y0 -> ideal y0 (v_par w0) -> In e (ss_edges y0) -> weight (ss_cg y0) (v_par w0) e = (if Req_EM_T (value_of y0 w0 "L" e) 0 then 0 else / value_of y0 w0 "L" e)%R.
  Proof.
    intros H0 (_ & _ & I3) He. unfold weight. rewrite value_lname by easy. change (lname y0 "L" e) with (ind_name (ss_cg y0) e). destruct (ind_name (ss_cg y0) e) as [c|] eqn:E; [|destruct (Req_EM_T 0 0); [easy|lra]].
    destruct (ind_name_branch (ss_cg y0) (circuit_derived _ (m_circ y0 (system_inv y0 H0))) e c E) as (b & Hb & <- & _). destruct (Req_EM_T (v_par w0 (snd b)) 0) as [Z|_]; [destruct (I3 b Hb Z) | easy].
  Qed.
  Lemma linv_same Cinv P Cinv' P' : inverted y (v_par w) Cinv P -> inverted y' (v_par w') Cinv' P' -> ideal y (v_par w) -> ideal y' (v_par w') ->
    forall i j, i < n -> j < n -> inverse_inductance (ss_nodes y) (ss_edges y) P i j = inverse_inductance (ss_nodes y') (ss_edges y') P' i j.
  Proof.
    intros (_ & L & HL & HP) (_ & L' & HL' & HP') Hid Hid'. pose proof Hid as (_ & I2 & I3). pose proof Hid' as (_ & I2' & I3'). destruct RD as (RN & RE & _). pose proof (m_circ y (system_inv y Hy)) as HC. pose proof (m_circ y' (system_inv y' Hy')) as HC'. pose proof (m_edges y (system_inv y Hy)) as WC. pose proof (m_edges y' (system_inv y' Hy')) as WC'.
    apply (quadratic_eq (ss_nodes y)); auto.
    - intros i j. rewrite (system_nodes y Hy). now apply (c_linv_sym (ss_cg y) HC (v_par w) L P (ss_edges y)).
    - intros i j. rewrite (system_nodes y' Hy'). now apply (c_linv_sym (ss_cg y') HC' (v_par w') L' P' (ss_edges y')).
    - intros x X0. transitivity (inductive_form (v_par w) (c_graph (ss_cg y)) x); [rewrite (system_nodes y Hy); now apply (c_linv_form (ss_cg y) HC (v_par w) L P (ss_edges y))|].
      transitivity (inductive_form (v_par w') (c_graph (ss_cg y')) x); [|rewrite <- RN, (system_nodes y' Hy'); symmetry; now apply (c_linv_form (ss_cg y') HC' (v_par w') L' P' (ss_edges y'))].
      rewrite <- (edges_total (ss_cg y) (v_par w) (circuit_derived _ HC)), <- (edges_total (ss_cg y') (v_par w') (circuit_derived _ HC')), <- (y_edges y Hy), <- (y_edges y' Hy').
      pose proof (R_same turned (fun p => let '(a, b, (_, _, l), _) := p in (if Req_EM_T l 0 then 0 else / l) * ((x a - x b) * (x a - x b)))%R _ _ ltac:(intros [[[a b] [[? ?] l]] f]; cbn; ring) RE) as X. rewrite !map_map in X.
      etransitivity; [etransitivity; [|exact X]|]; apply Rsum_ext; intros e He; rewrite weight_value by easy; reflexivity.
  Qed.
  Lemma bias_same i : ideal y (v_par w) -> ideal y' (v_par w') -> i < n ->
    node_bias (ss_nodes y) (ss_edges y) (ind_bias (ss_cg y) (ss_edges y) (fun j => branch_bias y (v_flux w) (nth j (ss_edges y) noedge))) i =
    node_bias (ss_nodes y') (ss_edges y') (ind_bias (ss_cg y') (ss_edges y') (fun j => branch_bias y' (v_flux w') (nth j (ss_edges y') noedge))) i.
  Proof.
    intros Hid Hid' Hi. destruct RD as (RN & RE & _).
    assert (V : forall y0 w0, system y0 -> ideal y0 (v_par w0) -> i < List.length (ss_nodes y0) -> node_bias (ss_nodes y0) (ss_edges y0) (ind_bias (ss_cg y0) (ss_edges y0) (fun j => branch_bias y0 (v_flux w0) (nth j (ss_edges y0) noedge))) i =
      Rsum (map (fun p : part => let '(a, b, (_, _, l), f) := p in if Req_EM_T l 0 then 0 else IZR (sg a b (nth i (ss_nodes y0) 0%nat)) * f)%R (map (part_of y0 w0) (ss_edges y0)))).
    { intros y0 w0 H0 Hi0 L0. pose proof (circuit_derived _ (m_circ y0 (system_inv y0 H0))) as HD. rewrite (y_edges y0 H0), (system_nodes y0 H0). rewrite (node_bias_at (ss_cg y0) HD (branch_bias y0 (v_flux w0))) by (rewrite <- (system_nodes y0 H0); exact L0).
      unfold outflow. destruct (Nat.eqb_spec (nth i (sys_nodes (ss_cg y0)) 0) 0) as [E|_].
      { destruct (nodes_nz y0 H0 0); [|reflexivity]. rewrite <- E. rewrite <- (system_nodes y0 H0). now apply nth_In. }
      rewrite map_map. apply Rsum_ext. intros e He. rewrite <- (y_edges y0 H0) in He. unfold part_of. rewrite !value_lname by easy. change (lname y0 "L" e) with (ind_name (ss_cg y0) e).
      destruct (ind_name (ss_cg y0) e) as [c|] eqn:E; [|destruct (Req_EM_T 0 0); [easy|lra]].
      destruct (ind_name_branch (ss_cg y0) HD e c E) as (b & Hb & <- & _). destruct Hi0 as (_ & _ & I3). destruct (Req_EM_T (v_par w0 (snd b)) 0) as [Z|_]; [destruct (I3 b Hb Z)|].
      f_equal. unfold inc, sg. repeat (destruct (Nat.eqb _ _)); reflexivity. }
    rewrite (V y w), (V y' w') by (auto; rewrite RN; exact Hi). rewrite RN. apply (R_same turned); [|exact RE].
    intros [[[a b] [[? ?] l]] f]. cbn. destruct (Req_EM_T l 0); [easy|]. rewrite sg_turn, opp_IZR. ring.
  Qed.
End Inputs.
  Definition offset (nodes : list nat) (cb : nat -> R) (a b : nat) : R := RS (List.length nodes) (fun k => IZR (sg a b (nth k nodes 0%nat)) * cb k)%R.
  Lemma slip_offset y0 w0 i e : nth_error (ss_edges y0) i = Some e -> bias_val (v_charge w0) (slip_bias y0 i) = offset (ss_nodes y0) (charge_bias y0 (v_charge w0)) (src e) (dst e).
  Proof.
    intros Hi. unfold slip_bias, offset. set (nodes := ss_nodes y0).
    assert (G : forall l, (forall k, In k l -> k < List.length nodes) -> bias_val (v_charge w0) (flat_map (fun k => match dget (ss_charge y0) (nth k nodes 0) with Some (Some x) => [(rbn nodes (ss_edges y0) k i, x)] | _ => [] end) l) =
      Rsum (map (fun k => IZR (sg (src e) (dst e) (nth k nodes 0%nat)) * charge_bias y0 (v_charge w0) k)%R l)).
    { induction l as [|k l IH]; intros Hl; [reflexivity|]. cbn [flat_map map]. rewrite Rsum_cons, <- IH by (intros; apply Hl; now right). unfold charge_bias. fold nodes.
      destruct (dget (ss_charge y0) (nth k nodes 0)) as [[x|]|]; cbn [Datatypes.app]; [|ring|ring]. unfold bias_val at 1. cbn [fold_right fst snd]. rewrite (rbn_sg nodes (ss_edges y0) k i e (Hl k (or_introl eq_refl)) Hi). reflexivity. }
    rewrite G by (intros k Hk; apply in_seq in Hk; lia). clear G. unfold RS. generalize (fun k => (IZR (sg (src e) (dst e) (nth k nodes 0%nat)) * charge_bias y0 (v_charge w0) k)%R). intros g. generalize (List.length nodes). intros m.
    induction m as [|m IH]; [reflexivity|]. rewrite seq_S, map_app, Rsum_app, IH. cbn [sumn kadd R_rng map Nat.add]. rewrite Rsum_cons, Rsum_nil. ring.
  Qed.
Lemma quad_ext N l b b' M M' : (forall i, i < List.length l -> b i = b' i) -> (forall i j, i < List.length l -> j < List.length l -> M i j = M' i j) -> forall r c, quadform N l b M r c = quadform N l b' M' r c.
Proof.
  intros Hb HM r c. rewrite !NumHerm.quadform_eq. apply S_ext. intros i Hi. apply S_ext. intros j Hj. rewrite HM by easy. unfold shifted. rewrite !Hb by easy. reflexivity.
Qed.
Lemma offset_turn nodes cb a b : offset nodes cb b a = (- offset nodes cb a b)%R.
Proof. unfold offset. replace (- RS _ _)%R with ((- 1) * RS (List.length nodes) (fun k => IZR (sg a b (nth k nodes 0%nat)) * cb k))%R by ring. rewrite <- RS_l. apply RS_ext. intros k _. rewrite sg_turn, opp_IZR. ring. Qed.
Lemma zeta_turn a f : zeta a (- f) = Cconj (zeta a f).
Proof. unfold zeta. rewrite conj_mult, conj_R, conj_cis. f_equal. f_equal. ring. Qed.
Lemma zeta_back a f : Cconj (zeta a (- f)) = zeta a f.
Proof. rewrite zeta_turn. apply injective_projections; cbn; ring. Qed.
Lemma redrawn_same eigh inv z ka kb pmax chg flx y y' w w' Cinv P Cinv' P' ec el ej ep data circ0 circ Qnp Pnp argord argord' c n h h' H H' :
  let gen := getOperatorList eigh inv z ka kb pmax chg flx in let N := fold_right Nat.mul 1 (c_dims c) in
  system y -> system y' -> (forall l, Permutation (argord l) l) -> (forall l, Permutation (argord' l) l) -> redrawn y w y' w' -> ideal y (v_par w) -> ideal y' (v_par w') ->
  inverted y (v_par w) Cinv P -> inverted y' (v_par w') Cinv' P' ->
  getExpandedOperatorsMap gen (ss_nodes y) data None circ0 = Ok circ -> op_vector cQ (ss_nodes y) circ = Ok Qnp -> op_vector cP (ss_nodes y) circ = Ok Pnp -> In n (ss_nodes y) -> dget circ n = Some c ->
  substitute y w Cinv P ec el ej ep = Ok h -> substitute y' w' Cinv' P' ec el ej ep = Ok h' ->
  getHamiltonian N argord (ss_nodes y) (ss_edges y) h Qnp Pnp circ = Ok H -> getHamiltonian N argord' (ss_nodes y') (ss_edges y') h' Qnp Pnp circ = Ok H' ->
  same N H' H.
Proof.
  intros gen N Hy Hy' perm perm' R Hid Hid' HV HV' Hc HQ HP Hn HD Hh Hh'. pose proof (sys_nodup y Hy) as ND.
  destruct (inputs y Hy w Cinv P ec el ej ep h Hh) as ((A1 & A2 & A3 & A4) & (A5 & A6 & A7 & A8) & A9 & A10). destruct (inputs y' Hy' w' Cinv' P' ec el ej ep h' Hh') as ((B1 & B2 & B3 & B4) & (B5 & B6 & B7 & B8) & B9 & B10).
  unfold N in *. clear N. rewrite (dims_size eigh inv z ka kb pmax chg flx y data circ0 circ c n Hy Hc Hn HD) in *. set (N := size _ _).
  pose proof R as (RN & RE & _ & _ & _ & RQ). rewrite RN. unfold getHamiltonian. set (nodes := ss_nodes y) in *.
  assert (gen_dim : forall n d o k, gen n d = Ok o -> ident_dim d = Some k -> o_dim o = k) by apply gen_dim_list.
  destruct (op_vector cD nodes circ) as [ds|] eqn:V1; [|easy]. destruct (op_vector cDd nodes circ) as [dds|] eqn:V2; [|easy].
  destruct (op_vector cS nodes circ) as [ss|] eqn:V3; [|easy]. destruct (op_vector cSd nodes circ) as [sds|] eqn:V4; [|easy]. cbn [bind].
  assert (lh : forall f l, op_vector f nodes circ = Ok l -> (forall i o, exists A, f (lifted gen nodes data i o) = lift (node_dim gen nodes data) (List.length nodes) i A) ->
    forall f' l', op_vector f' nodes circ = Ok l' -> (forall i o, exists A, f' (lifted gen nodes data i o) = lift (node_dim gen nodes data) (List.length nodes) i A) ->
    forall i j, i < List.length nodes -> j < List.length nodes -> i <> j -> commute N (opn l i) (opn l' j)).
  { intros f l Hl Hf f' l' Hl' Hf' i j Hi Hj Nij. destruct (vector_elem gen nodes data gen_dim ND circ0 circ Hc f l i Hl Hi) as (? & ? & o & _ & _ & _ & _ & ->).
    destruct (vector_elem gen nodes data gen_dim ND circ0 circ Hc f' l' j Hl' Hj) as (? & ? & o' & _ & _ & _ & _ & ->). destruct (Hf i o) as [A ->]. destruct (Hf' j o') as [B ->]. now apply lift_commute. }
  assert (K1 : forall k k', k < List.length nodes -> k' < List.length nodes -> k <> k' -> commute N (opn ds k) (opn ds k') /\ commute N (opn ds k) (opn dds k') /\ commute N (opn dds k) (opn ds k') /\ commute N (opn dds k) (opn dds k')).
  { intros k k' Hk Hk' Nk. split; [|split; [|split]]; [apply (lh cD ds V1) with (f' := cD)| apply (lh cD ds V1) with (f' := cDd) | apply (lh cDd dds V2) with (f' := cD) | apply (lh cDd dds V2) with (f' := cDd)]; auto; intros; eexists; reflexivity. }
  assert (K2 : forall k k', k < List.length nodes -> k' < List.length nodes -> k <> k' -> commute N (opn ss k) (opn ss k') /\ commute N (opn ss k) (opn sds k') /\ commute N (opn sds k) (opn ss k') /\ commute N (opn sds k) (opn sds k')).
  { intros k k' Hk Hk' Nk. split; [|split; [|split]]; [apply (lh cS ss V3) with (f' := cS)| apply (lh cS ss V3) with (f' := cSd) | apply (lh cSd sds V4) with (f' := cS) | apply (lh cSd sds V4) with (f' := cSd)]; auto; intros; eexists; reflexivity. }
  destruct (cosine_part N argord nodes (ss_edges y) (h_J h) (h_pb h) (opn ds) (opn dds)) as [Hj|] eqn:E1; [|easy]. cbn [bind]. destruct (cosine_part N argord nodes (ss_edges y) (h_Ps h) (h_qb h) (opn ss) (opn sds)) as [Hp|] eqn:E2; [|easy]. cbn [bind].
  intros E. injection E as <-.
  destruct (cosine_part N argord' nodes (ss_edges y') (h_J h') (h_pb h') (opn ds) (opn dds)) as [Hj'|] eqn:E1'; [|easy]. cbn [bind]. destruct (cosine_part N argord' nodes (ss_edges y') (h_Ps h') (h_qb h') (opn ss) (opn sds)) as [Hp'|] eqn:E2'; [|easy]. cbn [bind].
  intros E. injection E as <-. intros r q Hr Hq. unfold tidyup. f_equal. unfold mplus, msc.
  assert (LQ : List.length Qnp = List.length nodes) by (eapply mapM_length; exact HQ). assert (LP : List.length Pnp = List.length nodes) by (eapply mapM_length; exact HP).
  f_equal; [f_equal; [f_equal|]|].
  - rewrite A5, B5. f_equal. apply quad_ext; rewrite LQ.
    + intros i Hi. rewrite A3, B3. now apply RQ.
    + intros i j Hi Hj0. rewrite A1, B1. symmetry. now apply (caps_same y y' w w' Hy Hy' R Cinv P Cinv' P').
  - rewrite A6, B6. f_equal. apply quad_ext; rewrite LP.
    + intros i Hi. rewrite A4, B4. symmetry. now apply (bias_same y y' w w' Hy Hy' R).
    + intros i j Hi Hj0. rewrite A2, B2. symmetry. now apply (linv_same y y' w w' Hy Hy' R Cinv P Cinv' P').
  - rewrite A7, B7. f_equal. rewrite (part_sum N nodes (opn ds) (opn dds) K1 argord (ss_edges y) _ _ (phasor y w) Hj perm (fun i e He => proj1 (A10 i e He)) E1 r q Hr Hq), (part_sum N nodes (opn ds) (opn dds) K1 argord' (ss_edges y') _ _ (phasor y' w') Hj' perm' (fun i e He => proj1 (B10 i e He)) E1' r q Hr Hq).
    pose proof (Cl_same turned (fun p => let '(a, b, (i, _, _), f) := p in cosp N nodes (opn ds) (opn dds) (zeta i f) a b r q) _ _ ltac:(intros [[[a b] [[i ?] ?]] f]; cbn; rewrite <- cosp_turn; f_equal; apply zeta_back) RE) as X. rewrite !map_map in X. symmetry. exact X.
  - rewrite A8, B8. f_equal.
    rewrite (part_sum N nodes (opn ss) (opn sds) K2 argord (ss_edges y) _ _ (fun e => zeta (value_of y w "V" e) (offset nodes (charge_bias y (v_charge w)) (src e) (dst e))) Hp perm) with (2 := E2); auto.
    2: { intros i e He. destruct (A10 i e He) as (_ & _ & ->). rewrite A9. now rewrite (slip_offset y w i e He). }
    rewrite (part_sum N nodes (opn ss) (opn sds) K2 argord' (ss_edges y') _ _ (fun e => zeta (value_of y' w' "V" e) (offset nodes (charge_bias y (v_charge w)) (src e) (dst e))) Hp' perm') with (2 := E2'); auto.
    2: { intros i e He. destruct (B10 i e He) as (_ & _ & ->). rewrite B9. rewrite (slip_offset y' w' i e He), RN. f_equal. unfold offset. apply RS_ext. intros k Hk. now rewrite RQ. }
    pose proof (Cl_same turned (fun p => let '(a, b, (_, v, _), _) := p in cosp N nodes (opn ss) (opn sds) (zeta v (offset nodes (charge_bias y (v_charge w)) a b)) a b r q) _ _ ltac:(intros [[[a b] [[? v] ?]] f]; cbn; rewrite <- cosp_turn; f_equal; rewrite offset_turn; apply zeta_back) RE) as X.
    rewrite !map_map in X. symmetry. exact X.
Qed.
