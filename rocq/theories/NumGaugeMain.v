(** Proofs for C122: systems. *)
From Coq Require Import List Bool String Ascii Arith Lia ZArith Reals Lra Setoid Morphisms Permutation.
From Coquelicot Require Import Complex.
From Verif Require Import Prelude PreludeFacts Mat MatFacts Util UtilProofs Graph GraphSpec GraphView GraphForest GraphWf GraphCircuit GraphState GraphMaps GraphOps GraphProofs CollLast Sweep SweepProofs SweepResultProofs Symbolic SymbolicSpec RSum SymbolicInv SymbolicCap SymbolicCap2 SymbolicFlux SymbolicNew SymbolicProofs MutualSpec MutualProofs NumOp NumOpSpec NumKron NumSpectral NumCharge NumExpand NumHerm NumPot NumFlux NumOpProofs
  SymHam SymHamSpec SymHamProofs SymTotal SymTotalSpec MoveSpec MoveProofs NumSubst NumSymSpec NumSymProofs NumSymHam NumSymNode NumSymMain NumSymEx NumGaugeSpec NumGauge NumGaugeHam.
Import ListNotations.
Open Scope string_scope.
Open Scope list_scope.
Open Scope nat_scope.

(** ** potentials up to whole numbers *)
Definition whole (x : R) : Prop := exists k, x = IZR k.
Lemma whole_add x y : whole x -> whole y -> whole (x + y).
Proof. intros [k ->] [j ->]. exists (k + j)%Z. now rewrite plus_IZR. Qed.
Lemma whole_opp x : whole x -> whole (- x).
Proof. intros [k ->]. exists (- k)%Z. now rewrite opp_IZR. Qed.
Lemma walk_whole (f : nat -> R) u : forall w p q, (forall x, In x w -> whole (f (src (snd x)) - f (dst (snd x)) - u (snd x))) -> walk w p q -> whole (f p - f q - wsum u w).
Proof.
  induction w as [|[d e] w IH]; intros p q H Hw.
  - cbn in *. subst. exists 0%Z. ring.
  - assert (H0 := H _ (or_introl eq_refl)). assert (H1 := fun x Hx => H x (or_intror Hx)). cbn [snd] in H0. destruct d; destruct Hw as [-> Hw]; cbn [wsum]; pose proof (IH _ _ H1 Hw) as K.
    + replace (f (src e) - f q - (u e + wsum u w))%R with ((f (src e) - f (dst e) - u e) + (f (dst e) - f q - wsum u w))%R by ring. now apply whole_add.
    + replace (f (dst e) - f q - (- u e + wsum u w))%R with (- (f (src e) - f (dst e) - u e) + (f (src e) - f q - wsum u w))%R by ring. apply whole_add; [now apply whole_opp | easy].
Qed.
Lemma potential_whole E (u : edge -> R) : (forall w p, within E w -> walk w p p -> whole (wsum u w)) -> exists f : nat -> R, forall e, In e E -> whole (f (src e) - f (dst e) - u e).
Proof.
  induction E as [|e E IH]; intros H; [exists (fun _ => 0%R); intros ? []|].
  destruct IH as (f & Hf). { intros w p Hw. apply H. intros x Hx. right. auto. }
  destruct (conn_dec E (dst e) (src e)) as [C|C].
  - exists f. intros e' [<-|He']; auto. destruct (conn_walk E _ _ C) as (w & Hw & W).
    pose proof (walk_whole f u w _ _ (fun x Hx => Hf _ (Hw x Hx)) W) as Z1.
    assert (Z : whole (wsum u ((true, e) :: w))). { apply (H _ (src e)); [|split; [reflexivity | exact W]]. intros x [<-|Hx]; [now left | right; auto]. }
    cbn [wsum] in Z. replace (f (src e) - f (dst e) - u e)%R with (- (u e + wsum u w) + - (f (dst e) - f (src e) - wsum u w))%R by ring. apply whole_add; now apply whole_opp.
  - set (c := (f (src e) - f (dst e) - u e)%R). exists (fun n => if conn_dec E (dst e) n then f n + c else f n)%R. intros e' [<-|He'].
    + destruct (conn_dec E (dst e) (src e)); [contradiction|]. destruct (conn_dec E (dst e) (dst e)) as [_|N]; [exists 0%Z; unfold c; ring | exfalso; apply N; constructor].
    + pose proof (Hf e' He') as K. assert (Hc := conn_edge E e' He'). destruct (conn_dec E (dst e) (src e')) as [A|A], (conn_dec E (dst e) (dst e')) as [B|B]; auto.
      * replace (f (src e') + c - (f (dst e') + c) - u e')%R with (f (src e') - f (dst e') - u e')%R by ring. exact K.
      * exfalso. apply B. eapply conn_trans; eauto.
      * exfalso. apply A. eapply conn_trans; [exact B|apply conn_sym; auto].
Qed.
Lemma loop_wsum y y' fb fb' l : (loop_flux y' fb' l - loop_flux y fb l)%R = wsum (fun e => branch_bias y' fb' e - branch_bias y fb e)%R l.
Proof. induction l as [|[[] e] l IH]; cbn [loop_flux wsum]; [ring | rewrite <- IH; ring | rewrite <- IH; ring]. Qed.
Lemma node_shift y y' w w' : same_fluxes y y' w w' -> exists f : nat -> R, f 0 = 0%R /\
  (forall e, kind_at y "I" e \/ kind_at y "L" e -> whole (f (src e) - f (dst e) - (branch_bias y' (v_flux w') e - branch_bias y (v_flux w) e))) /\ forall m, grounded y m -> whole (f m).
Proof.
  intros (_ & _ & HS & HL). set (conductive := fun e => match dget (c_map (ss_cg y)) e with Some c => letter "I" (e, c) || letter "L" (e, c) | None => false end).
  assert (K : forall e, In e (filter conductive (ss_edges y)) <-> kind_at y "I" e \/ kind_at y "L" e).
  { intros e. rewrite filter_In. unfold conductive, kind_at. destruct (dget (c_map (ss_cg y)) e) as [c|].
    - rewrite orb_true_iff. split; [intros (H & [H1|H1]); [left|right]; eauto|]. intros [(H & c' & E & H1)|(H & c' & E & H1)]; injection E as <-; auto.
    - split; [intros (_ & H); discriminate|]. intros [(_ & c' & E & _)|(_ & c' & E & _)]; discriminate. }
  set (u := fun e => (branch_bias y' (v_flux w') e - branch_bias y (v_flux w) e)%R).
  destruct (potential_whole (filter conductive (ss_edges y)) u) as (f & Hf).
  { intros l p Hl W. destruct (HS l p) as [k E]; [intros x Hx; apply K; auto | exact W|]. exists k. unfold u. rewrite <- loop_wsum, E. ring. }
  exists (fun n => f n - f 0%nat)%R. split; [ring|]. split.
  - intros e He. replace (f (src e) - f 0%nat - (f (dst e) - f 0%nat) - (branch_bias y' (v_flux w') e - branch_bias y (v_flux w) e))%R with (f (src e) - f (dst e) - u e)%R by (unfold u; ring). apply Hf, K, He.
  - intros m (l & Hl & W). assert (Z : whole (f 0%nat - f m - wsum (fun _ => 0%R) l)).
    { apply walk_whole; [|exact W]. intros x Hx. assert (Q := Hf (snd x) (proj2 (K _) (or_intror (Hl x Hx)))). unfold u in Q. rewrite (HL _ (Hl x Hx)) in Q.
      replace (f (src (snd x)) - f (dst (snd x)) - 0)%R with (f (src (snd x)) - f (dst (snd x)) - (branch_bias y (v_flux w) (snd x) - branch_bias y (v_flux w) (snd x)))%R by ring. exact Q. }
    assert (E : wsum (fun _ => 0%R) l = 0%R) by (clear; induction l as [|[[] e] l IH]; cbn; [reflexivity | rewrite IH; ring | rewrite IH; ring]).
    rewrite E in Z. apply whole_opp in Z. replace (f m - f 0%nat)%R with (- (f 0%nat - f m - 0))%R by ring. exact Z.
Qed.

(** ** the pseudo-inverse has no rows for branches that are not inductors *)
Lemma sumR_0 n (f : nat -> R) : (forall i, i < n -> f i = 0%R) -> @sumn R_rng n f = 0%R.
Proof. intros H. rewrite (@sumn_ext R_rng n f (fun _ => 0%R) H). clear. induction n as [|n IH]; [reflexivity|]. cbn [sumn]. rewrite IH. apply Rplus_0_r. Qed.
Lemma penrose_zero n L P k : penrose n L P -> k < n -> (forall j, j < n -> L k j = 0%R /\ L j k = 0%R) -> forall l, l < n -> P k l = 0%R /\ P l k = 0%R.
Proof.
  intros H Hk HL l Hl. split.
  - destruct (H k l Hk Hl) as (_ & <- & _). unfold mmul at 1. apply sumR_0. intros m Hm. destruct (H k m Hk Hm) as (_ & _ & _ & ->).
    unfold mmul. rewrite sumR_0; [apply Rmult_0_l|]. intros j Hj. destruct (HL j Hj) as [_ ->]. apply Rmult_0_r.
  - destruct (H l k Hl Hk) as (_ & <- & _). rewrite (@mmul_assoc R_rng). unfold mmul at 1. apply sumR_0. intros m Hm. destruct (H m k Hm Hk) as (_ & _ & -> & _).
    unfold mmul. rewrite sumR_0; [apply Rmult_0_r|]. intros j Hj. destruct (HL j Hj) as [-> _]. apply Rmult_0_l.
Qed.
Lemma bare_branch y val L k : system y -> inductance_matrix (ss_cg y) (ss_edges y) = Ok L -> k < List.length (ss_edges y) -> ~ kind_at y "L" (nth k (ss_edges y) noedge) ->
  forall j, j < List.length (ss_edges y) -> imat_val val L k j = 0%R /\ imat_val val L j k = 0%R.
Proof.
  intros Hy HM Hk HN j Hj. assert (Hc := m_circ y (system_inv y Hy)). assert (HD := circuit_derived _ Hc). assert (Ee := y_edges y Hy). rewrite Ee in HM, Hk, Hj.
  assert (N : forall c, dget (c_map (ss_cg y)) (nth k (ss_edges y) noedge) = Some c -> starts "L" c = false).
  { intros c Ec. destruct (starts "L" c) eqn:S; [|easy]. exfalso. apply HN. split; [apply nth_In; now rewrite Ee|]. exists c. split; [exact Ec|]. revert S. unfold letter, starts. destruct c; auto. }
  rewrite Ee in N. destruct (matrix_entries (ss_cg y) L Hc HM) as [_ H]. unfold imat_val. rewrite (matrix_sym (ss_cg y) L Hc HM j k Hj Hk), (H k j Hk Hj).
  destruct (find _ _) as [x|] eqn:F.
  - exfalso. apply find_some in F as [Hx Hjn]. apply in_rev in Hx. destruct x as [m [p q]]. destruct (u_ind _ (reachable_CInv _ (circuit_reachable _ Hc)) m p q Hx) as [(c1 & A1 & S1) (c2 & A2 & S2)].
    apply (map_get _ HD) in A1, A2. unfold MutualSpec.joins in Hjn. cbn [fst snd] in Hjn. rewrite orb_true_iff, !andb_true_iff in Hjn.
    destruct Hjn as [[E1 E2]|[E1 E2]]; apply (proj1 (eqb_eq _ _)) in E1, E2; subst p q.
    + rewrite (N _ A1) in S1. discriminate.
    + rewrite (N _ A2) in S2. discriminate.
  - destruct (Nat.eqb k j); [|easy]. unfold ind_name. destruct (dget (c_map (ss_cg y)) (nth k (wcs (ss_cg y)) noedge)) as [c|] eqn:Ec; [|easy]. rewrite (N c eq_refl). easy.
Qed.
Lemma free_row y val Cinv P i m : system y -> inverted y val Cinv P -> nth_error (ss_nodes y) i = Some m -> (forall e, kind_at y "L" e -> ~ touches m e) ->
  forall j, inverse_inductance (ss_nodes y) (ss_edges y) P i j = 0%R /\ inverse_inductance (ss_nodes y) (ss_edges y) P j i = 0%R.
Proof.
  intros Hy (_ & L & HL & HP) Hm HT j. unfold inverse_inductance. cbv zeta.
  assert (K : forall k l, k < List.length (ss_edges y) -> l < List.length (ss_edges y) -> (IZR (rbn (ss_nodes y) (ss_edges y) i k) * P k l = 0)%R /\ (IZR (rbn (ss_nodes y) (ss_edges y) i k) * P l k = 0)%R).
  { intros k l Hk Hl. unfold rbn. rewrite Hm. destruct (nth_error (ss_edges y) k) as [e|] eqn:Ek; [|apply nth_error_None in Ek; lia].
    destruct (Nat.eqb (src e) (dst e)); [lra|].
    assert (D : {touches m e} + {~ touches m e}). { unfold touches. destruct (Nat.eq_dec (src e) m), (Nat.eq_dec (dst e) m); [left|left|left|right]; tauto. }
    destruct D as [D|D].
    - assert (NK : ~ kind_at y "L" (nth k (ss_edges y) noedge)). { rewrite (nth_error_nth _ _ _ Ek). intros Kd. exact (HT e Kd D). }
      destruct (penrose_zero _ _ _ k HP Hk (bare_branch y val L k Hy HL Hk NK) l Hl) as [-> ->]. lra.
    - destruct (Nat.eqb_spec (src e) m) as [E|_]; [exfalso; apply D; now left|]. destruct (Nat.eqb_spec (dst e) m) as [E|_]; [exfalso; apply D; now right|]. lra. }
  split; apply sumR_0; intros k Hk; apply sumR_0; intros l Hl.
  - destruct (K k l Hk Hl) as [E _]. rewrite E. ring.
  - destruct (K l k Hl Hk) as [_ E]. rewrite Rmult_assoc, (Rmult_comm (P k l)), E. ring.
Qed.

(** ** the shift by nodes *)
Definition turn_at (data : dict nat opdata) (f : nat -> R) (m : nat) : R :=
  if Nat.eqb m 0 then 0%R else match dget data m with Some d => match od_basis d with BCharge => f m | _ => 0%R end | None => 0%R end.
Definition wind_at (data : dict nat opdata) (f : nat -> R) (m : nat) : nat -> C :=
  if Nat.eqb m 0 then fun _ => RtoC 1 else match dget data m with Some d => match od_basis d with BCharge => wind (od_trunc d) (f m) | _ => fun _ => RtoC 1 end | None => fun _ => RtoC 1 end.
Lemma lname_flux y e ph : system y -> In e (ss_edges y) -> SymHam.total ph (match lname y "I" e, dget (ss_red y) e with Some _, Some l => l | _, _ => [] end) = match lname y "I" e with Some _ => branch_bias y ph e | None => 0%R end.
Proof. intros Hy He. unfold branch_bias. rewrite <- (m_red y (system_inv y Hy)). destruct (lname y "I" e); [|easy]. destruct (dget (ss_red y) e); easy. Qed.

Section Main.
  Variables (eigh : nat -> cmat -> (nat -> R) * cmat) (inv : nat -> cmat -> cmat) (z ka kb pmax : nat -> R) (chg flx : R).
  Let gen := getOperatorList eigh inv z ka kb pmax chg flx.
  Lemma loops_main y y' w w' Cinv P ec el ej ep data circ0 circ Qnp Pnp argord c n h h' H :
    let N := fold_right Nat.mul 1 (c_dims c) in
    system y -> system y' -> same_circuit y y' -> (forall l, Permutation (argord l) l) -> inverted y (v_par w) Cinv P ->
    getExpandedOperatorsMap gen (ss_nodes y) data None circ0 = Ok circ -> op_vector cQ (ss_nodes y) circ = Ok Qnp -> op_vector cP (ss_nodes y) circ = Ok Pnp ->
    (forall m, In m (ss_nodes y) -> free_node eigh inv y data m \/ grounded y m) -> In n (ss_nodes y) -> dget circ n = Some c ->
    substitute y w Cinv P ec el ej ep = Ok h -> substitute y' w' Cinv P ec el ej ep = Ok h' -> same_fluxes y y' w w' ->
    getHamiltonian N argord (ss_nodes y) (ss_edges y) h Qnp Pnp circ = Ok H ->
    exists H', getHamiltonian N argord (ss_nodes y') (ss_edges y') h' Qnp Pnp circ = Ok H' /\ equivalent N H H'.
  Proof.
    intros N Hy Hy' (S1 & S2 & S3 & S4) Hp HV Hc HQ HP Hn Hin Hdc Sh Sh' HF HH. rewrite S2, S3. unfold N in *.
    pose proof (sys_nodup y Hy) as ND. pose proof (gen_dim_list eigh inv z ka kb pmax chg flx) as GD.
    pose proof (map_usable gen (ss_nodes y) data GD circ0 circ Hc) as U.
    destruct (map_ok gen (ss_nodes y) data U None circ0 ND) as (circ' & E' & K & _). rewrite Hc in E'. injection E' as <-.
    apply In_nth_error in Hin as [i0 Hi0]. destruct (U n (nth_error_In _ _ Hi0)) as (d0 & o0 & Ed0 & Eo0 & _).
    rewrite (K i0 n d0 o0 Hi0 Ed0 Eo0 eq_refl) in Hdc. injection Hdc as <-. unfold lifted in *. cbn [c_dims] in *. clear N.
    change (fold_right Nat.mul 1 (map (node_dim gen (ss_nodes y) data) (seq 0 (List.length (ss_nodes y))))) with (size (node_dim gen (ss_nodes y) data) (List.length (ss_nodes y))) in *. set (N := size (node_dim gen (ss_nodes y) data) (List.length (ss_nodes y))) in *.
    destruct (node_shift y y' w w' HF) as (f & F0 & F1 & F2). destruct HF as (P1 & P2 & _ & P4).
    assert (HD := circuit_derived _ (m_circ y (system_inv y Hy))).
    assert (Nz : forall m, In m (ss_nodes y) -> m <> 0).
    { intros m Hm ->. rewrite (system_nodes y Hy) in Hm. apply (nodes_In (sys_nodes (ss_cg y)) (ss_cg y) HD eq_refl) in Hm as [_ Hm]. now apply Hm. }
    set (th := fun i => turn_at data f (nth i (ss_nodes y) 0)). set (u := fun i => wind_at data f (nth i (ss_nodes y) 0)).
    assert (NO : forall i m d o, nth_error (ss_nodes y) i = Some m -> dget data m = Some d -> gen m d = Ok o -> keeps (u i) (th i) o /\
      (same (o_dim o) (rot (u i) (oP o)) (oP o) \/ forall j, inverse_inductance (ss_nodes y) (ss_edges y) P i j = 0%R /\ inverse_inductance (ss_nodes y) (ss_edges y) P j i = 0%R)).
    { intros i m d o Hi Hd Ho. pose proof (nth_error_In _ _ Hi) as Hm. unfold u, th. rewrite (nth_error_nth _ _ _ Hi). unfold wind_at, turn_at. destruct (Nat.eqb_spec m 0) as [Z|_]; [destruct (Nz m Hm Z)|]. rewrite Hd.
      destruct (Hn m Hm) as [((d' & Ed & Bd & Rd) & FT)|G].
      - rewrite Hd in Ed. injection Ed as <-. rewrite Bd. unfold gen, getOperatorList in Ho. rewrite Bd in Ho. injection Ho as <-. split; [now apply charge_keeps|]. right. intros j. exact (free_row y (v_par w) Cinv P i m Hy HV Hi FT j).
      - destruct (F2 m G) as [k Ek]. assert (W : forall r, (match od_basis d with BCharge => wind (od_trunc d) (f m) | _ => fun _ => RtoC 1 end) r = RtoC 1).
        { intros r. rewrite Ek. destruct (od_basis d); try reflexivity. apply wind_int. }
        split; [|left; now apply rot_one]. destruct (od_basis d); try (apply (one_keeps _ 0); exact W). rewrite Ek at 2. now apply one_keeps. }
    pose proof (ham_rot gen (ss_nodes y) data GD ND circ0 circ Hc u th (fun i m d o A B C => proj1 (NO i m d o A B C)) argord (ss_edges y) h h' Qnp Pnp Hp HQ HP) as T.
    assert (A : (h_Cinv h' = h_Cinv h /\ h_Linv h' = h_Linv h /\ h_J h' = h_J h /\ h_Ps h' = h_Ps h) /\ (h_Ec h' = h_Ec h /\ h_El h' = h_El h /\ h_Ej h' = h_Ej h /\ h_Ep h' = h_Ep h) /\
      h_Qb h' = h_Qb h /\ h_qb h' = h_qb h /\ (forall i, h_Pbi h' i = h_Pbi h i) /\ h_Linv h = inverse_inductance (ss_nodes y) (ss_edges y) P /\
      (forall i, i < List.length (ss_edges y) -> h_J h i <> 0%R -> exists k, h_pb h' i = (h_pb h i + branch_flux (ss_nodes y) (ss_edges y) th i + IZR k)%R)).
    { assert (Ln : forall p e, lname y' p e = lname y p e) by (intros; now apply lname_cg).
      revert Sh Sh'. unfold substitute, getJosephsonVector, getPhaseSlipVector. rewrite !(vector_ok y Hy), !(vector_ok y' Hy'), <- (m_red y (system_inv y Hy)), <- (m_red y' (system_inv y' Hy')), (bias_ok y Hy), (bias_ok y' Hy').
      cbn [bind]. intros Sh Sh'. injection Sh as <-. injection Sh' as <-. cbn [h_Cinv h_Linv h_Qb h_Pbi h_J h_Ps h_pb h_qb h_Ec h_El h_Ej h_Ep].
      rewrite S2, S3, P1, P2. assert (Em : forall p, map (lname y' p) (ss_edges y) = map (lname y p) (ss_edges y)) by (intros; apply map_ext; intros; apply Ln). rewrite !Em.
      split; [repeat split; reflexivity|]. split; [repeat split; reflexivity|]. split; [unfold charge_bias; now rewrite S2, S4|]. split; [unfold slip_bias; now rewrite S2, S3, S4|]. split; [|split; [reflexivity|]].
      - intros i. unfold node_bias. apply (@sumn_ext R_rng). intros j _. f_equal. unfold ind_bias. rewrite S1. destruct (nth_error (ss_edges y) j) as [e|] eqn:Ej; [|easy]. destruct (isInductiveEdge (ss_cg y) e) as [[|]|] eqn:Ie; try easy.
        rewrite (nth_error_nth _ _ _ Ej). apply P4. now apply (inductive_kind y j).
      - intros i Hi Ha. unfold amp in Ha. destruct (nth_error (ss_edges y) i) as [e|] eqn:Ei; [|apply nth_error_None in Ei; lia]. pose proof (nth_error_In _ _ Ei) as He.
        rewrite (nth_indep _ None (lname y "I" noedge)), map_nth, (nth_error_nth _ _ _ Ei) in Ha by (now rewrite map_length).
        assert (X : forall y0 (d : dict edge (list string)), nth i (map (fun e => match lname y0 "I" e, dget d e with Some _, Some l => l | _, _ => [] end) (ss_edges y)) [] = match lname y0 "I" e, dget d e with Some _, Some l => l | _, _ => [] end).
        { intros y0 d. apply nth_error_nth. now rewrite nth_error_map, Ei. }
        rewrite !X, (lname_flux y e _ Hy He), (lname_flux y' e _ Hy') by (now rewrite S3). rewrite Ln. destruct (lname y "I" e) as [cn|] eqn:El; [|lra].
        assert (Kd : kind_at y "I" e) by (apply (lname_kind y e Hy He); eauto). destruct (F1 e (or_introl Kd)) as [k Ek].
        assert (Wc : forall e, In e (ss_edges y) -> (src e = 0 \/ In (src e) (sys_nodes (ss_cg y))) /\ (dst e = 0 \/ In (dst e) (sys_nodes (ss_cg y)))) by (rewrite (y_edges y Hy); apply (wcs_ends _ HD)).
        assert (Et : forall m, m = 0 \/ In m (ss_nodes y) -> exists j, (turn_at data f m = f m + IZR j)%R).
        { intros m [->|Hm]; [exists 0%Z; unfold turn_at; cbn; rewrite F0; ring|]. unfold turn_at. destruct (Nat.eqb_spec m 0) as [Z|_]; [destruct (Nz m Hm Z)|].
          destruct (Hn m Hm) as [((d' & Ed & Bd & Rd) & FT)|G]; [rewrite Ed, Bd; exists 0%Z; ring|]. destruct (F2 m G) as [q Eq].
          destruct (dget data m) as [d|]; [destruct (od_basis d)|]; (exists 0%Z; rewrite ?Eq; ring) || (exists (- q)%Z; rewrite Eq, opp_IZR; ring). }
        unfold th. rewrite (system_nodes y Hy). rewrite (branch_flux_diff (sys_nodes (ss_cg y)) (ss_edges y) (turn_at data f) (nodes_NoDup (sys_nodes (ss_cg y)) (ss_cg y) HD eq_refl) Wc eq_refl i e Ei).
        rewrite <- (system_nodes y Hy) in Wc. destruct (Wc e He) as [W1 W2]. destruct (Et _ W1) as [j1 E1], (Et _ W2) as [j2 E2]. rewrite E1, E2.
        exists (j2 - j1 - k)%Z. rewrite !minus_IZR. lra. }
    destruct A as ((A1 & A2 & A3 & A4) & (A5 & A6 & A7 & A8) & T1 & T2 & T3 & T5 & T4).
    specialize (T A1 A2 A3 A4 A5 A6 A7 A8 T1 T2 T3 T4). match type of T with ?P -> _ => assert (X : P) end.
    { intros i m d o B1 B2 B3. destruct (proj2 (NO i m d o B1 B2 B3)) as [Q|Q]; [now left|]. right. intros j _. rewrite T5. apply Q. }
    specialize (T X). fold N in T. rewrite HH in T.
    destruct (getHamiltonian N argord (ss_nodes y) (ss_edges y) h' Qnp Pnp circ) as [B'|]; [|easy]. exists B'. split; [reflexivity|]. destruct T as (X1 & Y1 & -> & -> & SR).
    assert (RT : rotated N X1 Y1). { eapply rotated_ext; [exact SR|]. apply rot_rotated. apply (whole_phases gen (ss_nodes y) data GD circ0 circ Hc u th (fun i m d o A B C => proj1 (NO i m d o A B C))). }
    exists X1, Y1. split; [apply tidy_near|]. split; [apply tidy_near|]. split; [exact RT | now apply rotated_spectra].
  Qed.
End Main.
