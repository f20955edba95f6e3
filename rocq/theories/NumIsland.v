(** Proofs for C130. *)
From Coq Require Import List Bool String Ascii Arith Lia ZArith Reals Lra Setoid Morphisms Permutation.
From Coquelicot Require Import Complex.
From Verif Require Import Prelude PreludeFacts Sweep SweepProofs SweepResultProofs Mat MatFacts Util UtilProofs Graph GraphSpec Symbolic SymbolicSpec RSum SymbolicInv SymbolicCap SymbolicCap2 SymbolicFlux SymbolicNew SymbolicProofs NumOp NumOpSpec NumKron NumSpectral NumCharge NumExpand NumHerm NumPot NumFlux NumOpProofs SymHam SymHamSpec SymHamProofs SymHamT SymTotal SymTotalSpec SymTotalProofs SymTotalMain MoveSpec MoveProofs NumSubst NumSymSpec NumSymProofs NumSymHam NumSymNode NumSymMain NumSymEx NumGaugeSpec NumGauge NumGaugeHam NumGaugeMain NumTruncSpec NumTruncLevels NumTruncMain LevMoveSpec NumBound NumBoundHam NumBoundMain IslandSpec GraphView GraphForest GraphWf GraphCircuit GraphState GraphMaps GraphOps GraphProofs.
Import ListNotations.
Open Scope nat_scope.

(** ** the charge of a product state *)
Definition lsum (f : nat -> C) (ks : list nat) : C := fold_right (fun k s => (f k + s)%C) (RtoC 0) ks.
Lemma lsum_ext f g ks : (forall k, In k ks -> f k = g k) -> lsum f ks = lsum g ks.
Proof. induction ks as [|k ks IH]; intros H; [reflexivity|]. cbn. rewrite (H k (or_introl eq_refl)). f_equal. apply IH. intros; apply H; now right. Qed.
Lemma lsum_l a f ks : lsum (fun k => a * f k)%C ks = (a * lsum f ks)%C.
Proof. induction ks as [|k ks IH]; cbn; [ring|]. fold (lsum (fun k => a * f k)%C ks). rewrite IH. fold (lsum f ks). ring. Qed.
Section Kap.
  Variables (d : nat -> nat) (q : nat -> nat -> Z) (mem : nat -> bool).
  Hypothesis out : forall k j, mem k = false -> q k j = 0%Z.
  Fixpoint kap (ks : list nat) (r : nat) : Z :=
    match ks with [] => 0%Z | k :: rest => let m := prodn (map d rest) in (q k (r / m) + kap rest (r mod m))%Z end.
  Lemma tph_kap x ks : forall r, tph d (fun k j => cis (2 * PI * x * IZR (q k j))) ks r = cis (2 * PI * x * IZR (kap ks r)).
  Proof. induction ks as [|k ks IH]; intros r; cbn [tph kap]; [rewrite Rmult_0_r; symmetry; apply cis_0|]. rewrite IH, <- cis_add, plus_IZR. f_equal. ring. Qed.
  Definition qd (k : nat) : cmat := fun i j => if Nat.eqb i j then RtoC (IZR (q k i)) else RtoC 0.
  Lemma tensor_1s ks : forall r c, r < prodn (map d ks) -> c < prodn (map d ks) -> tensor (map (fun k => (d k, eye)) ks) r c = eye r c.
  Proof.
    induction ks as [|k ks IH]; intros r c Hr Hc; cbn [map tensor]; [cbn in Hr, Hc; replace r with 0 by lia; replace c with 0 by lia; reflexivity|].
    rewrite map_map. cbn [fst]. change (map (fun x => d x) ks) with (map d ks). cbn [map prodn fold_right] in Hr, Hc. change (fold_right Nat.mul 1 (map d ks)) with (prodn (map d ks)) in Hr, Hc. unfold kron. set (m := prodn (map d ks)) in *.
    destruct (divmod_lt (d k) m r Hr) as [H1 H2], (divmod_lt (d k) m c Hc) as [H3 H4]. rewrite IH by easy. unfold eye.
    assert (Nz : m <> 0) by (intros ->; lia). pose proof (Nat.div_mod r m Nz). pose proof (Nat.div_mod c m Nz).
    destruct (Nat.eqb_spec (r / m) (c / m)), (Nat.eqb_spec (r mod m) (c mod m)), (Nat.eqb_spec r c); subst; try ring; congruence.
  Qed.
  Lemma charge_sum ks : NoDup ks -> forall r c, r < prodn (map d ks) -> c < prodn (map d ks) ->
    lsum (fun k' => if mem k' then tensor (map (fun k => (d k, if Nat.eqb k k' then qd k else eye)) ks) r c else RtoC 0) ks = (if Nat.eqb r c then RtoC (IZR (kap ks r)) else RtoC 0).
  Proof.
    induction ks as [|k ks IH]; intros ND r c Hr Hc; [cbn in *; replace r with 0 by lia; replace c with 0 by lia; reflexivity|]. inversion_clear ND as [|? ? Nk ND'].
    cbn [map prodn fold_right] in Hr, Hc. change (fold_right Nat.mul 1 (map d ks)) with (prodn (map d ks)) in Hr, Hc. cbn [kap]. set (m := prodn (map d ks)) in *.
    destruct (divmod_lt (d k) m r Hr) as [H1 H2], (divmod_lt (d k) m c Hc) as [H3 H4].
    assert (Nz : m <> 0) by (intros ->; lia). pose proof (Nat.div_mod r m Nz) as Dr. pose proof (Nat.div_mod c m Nz) as Dc.
    specialize (IH ND' (r mod m) (c mod m) H2 H4).
    assert (E1 : (if mem k then tensor (map (fun k0 => (d k0, if Nat.eqb k0 k then qd k0 else eye)) (k :: ks)) r c else RtoC 0) = (qd k (r / m)%nat (c / m)%nat * eye (r mod m)%nat (c mod m)%nat)%C).
    { destruct (mem k) eqn:Mk; [|unfold qd; rewrite out by easy; destruct (Nat.eqb (r / m) (c / m)); ring]. cbn [map tensor]. rewrite Nat.eqb_refl, map_map. cbn [fst]. change (map (fun x => d x) ks) with (map d ks). fold m. unfold kron. f_equal.
      rewrite <- (tensor_1s ks) by easy. apply tensor_ext; auto. intros k' a b Hk' _ _. destruct (Nat.eqb_spec k' k) as [->|]; [contradiction | reflexivity]. }
    assert (E2 : lsum (fun k' => if mem k' then tensor (map (fun k0 => (d k0, if Nat.eqb k0 k' then qd k0 else eye)) (k :: ks)) r c else RtoC 0) ks = (eye (r / m)%nat (c / m)%nat * if Nat.eqb (r mod m) (c mod m) then RtoC (IZR (kap ks (r mod m))) else RtoC 0)%C).
    { rewrite <- IH, <- lsum_l. apply lsum_ext. intros k' Hk'. destruct (mem k'); [|ring]. cbn [map tensor]. destruct (Nat.eqb_spec k k') as [->|]; [contradiction|]. rewrite map_map. cbn [fst]. change (map (fun x => d x) ks) with (map d ks). reflexivity. }
    cbn [lsum fold_right]. fold (lsum (fun k' => if mem k' then tensor (map (fun k0 => (d k0, if Nat.eqb k0 k' then qd k0 else eye)) (k :: ks)) r c else RtoC 0) ks). rewrite E1, E2. unfold qd, eye. rewrite plus_IZR, RtoC_plus.
    destruct (Nat.eqb_spec (r / m) (c / m)) as [A|A], (Nat.eqb_spec (r mod m) (c mod m)) as [B|B], (Nat.eqb_spec r c) as [E|E]; try (subst; congruence); try ring.
  Qed.
End Kap.
Lemma charge_on_sum l r c : forall nodes Q, List.length Q = List.length nodes ->
  charge_on l nodes Q r c = lsum (fun k => if existsb (Nat.eqb (nth k nodes 0)) l then opn Q k r c else RtoC 0) (seq 0 (List.length nodes)).
Proof.
  induction nodes as [|m nodes IH]; intros [|A Q] HL; try discriminate; [reflexivity|]. injection HL as HL. cbn [charge_on List.length seq lsum fold_right nth opn]. rewrite (IH Q HL). f_equal. rewrite <- seq_shift. clear. unfold lsum.
  induction (seq 0 (List.length nodes)) as [|k ks IH]; [reflexivity|]. cbn [map fold_right]. now rewrite IH.
Qed.
(** a diagonal matrix commutes with one that has no entries between different
    values *)
Lemma commute_blocks N (k : nat -> Z) (Q H : matrix) : (forall r c, r < N -> c < N -> Q r c = if Nat.eqb r c then RtoC (IZR (k r)) else RtoC 0) ->
  (forall r c, r < N -> c < N -> k r <> k c -> H r c = RtoC 0) -> commute N Q H.
Proof.
  intros HQ HH. unfold commute. rewrite !mul_same. intros r c Hr Hc. unfold mm, mmul. rewrite (@sumn_single C_rng N r), (@sumn_single C_rng N c); auto; cbn [kmul C_rng k0].
  - rewrite !HQ, !Nat.eqb_refl by easy. destruct (Z.eq_dec (k r) (k c)) as [->|Ne]; [apply Cmult_comm|]. rewrite (HH r c Hr Hc Ne). change (RtoC (IZR (k r)) * RtoC 0 = RtoC 0 * RtoC (IZR (k c)))%C. ring.
  - intros i Hi Ne. rewrite HQ by easy. destruct (Nat.eqb_spec i c); [congruence|]. apply Cmult_0_r.
  - intros i Hi Ne. rewrite HQ by easy. destruct (Nat.eqb_spec r i); [congruence|]. apply Cmult_0_l.
Qed.
Lemma turn_half (k k' : Z) (z : C) : k <> k' -> (cis (2 * PI * (/ 2 / (IZR k - IZR k')) * IZR k) * z * Cconj (cis (2 * PI * (/ 2 / (IZR k - IZR k')) * IZR k')) = - z)%C.
Proof.
  intros Ne. assert (Nz : (IZR k - IZR k' <> 0)%R) by (intros X; apply Ne, eq_IZR; lra). rewrite conj_cis, <- Cmult_assoc, (Cmult_comm z), Cmult_assoc, <- cis_add.
  replace (2 * PI * (/ 2 / (IZR k - IZR k')) * IZR k + - (2 * PI * (/ 2 / (IZR k - IZR k')) * IZR k'))%R with PI by (field; exact Nz).
  unfold cis. rewrite cos_PI, sin_PI. destruct z as [a b]. apply injective_projections; cbn; ring.
Qed.
Lemma sanR_odd t x : sanR t (- x) = (- sanR t x)%R.
Proof. unfold sanR. rewrite Rabs_Ropp. destruct (Rlt_dec (Rabs x) t); ring. Qed.
Lemma sanC_odd t (z : C) : sanC t (- z)%C = (- sanC t z)%C.
Proof. apply injective_projections; cbn; apply sanR_odd. Qed.

(** ** circuits *)
Definition in_island (l : list nat) (m : nat) : bool := existsb (Nat.eqb m) l.
Lemma in_island_In l m : in_island l m = true <-> In m l.
Proof. unfold in_island. rewrite existsb_exists. split; [intros (x & Hx & E); apply Nat.eqb_eq in E; now subst | intros H; exists m; split; [easy | apply Nat.eqb_refl]]. Qed.
Definition trunc_of (data : dict nat opdata) (m : nat) : nat := match dget data m with Some d => od_trunc d | None => 0 end.
Section Main.
  Variables (eigh : nat -> cmat -> (nat -> R) * cmat) (inv : nat -> cmat -> cmat) (z ka kb pmax : nat -> R) (chg flx : R).
  Let gen := getOperatorList eigh inv z ka kb pmax chg flx.
  Lemma island_main y w Cinv P ec el ej ep data circ0 circ Qnp Pnp argord c n h H l :
    let N := fold_right Nat.mul 1 (c_dims c) in
    system y -> (forall l, Permutation (argord l) l) -> inverted y (v_par w) Cinv P ->
    getExpandedOperatorsMap gen (ss_nodes y) data None circ0 = Ok circ -> op_vector cQ (ss_nodes y) circ = Ok Qnp -> op_vector cP (ss_nodes y) circ = Ok Pnp ->
    island y l -> (forall m, In m l -> free_node eigh inv y data m) -> In n (ss_nodes y) -> dget circ n = Some c ->
    substitute y w Cinv P ec el ej ep = Ok h -> getHamiltonian N argord (ss_nodes y) (ss_edges y) h Qnp Pnp circ = Ok H ->
    commute N (charge_on l (ss_nodes y) Qnp) H.
  Proof.
    intros N Hy Hp HV Hc HQ HP [Hl HI] Hn Hin Hdc Sh HH. unfold N in *. clear N. rewrite (dims_size eigh inv z ka kb pmax chg flx y data circ0 circ c n Hy Hc Hin Hdc) in *.
    pose proof (sys_nodup y Hy) as ND. pose proof (gen_dim_list eigh inv z ka kb pmax chg flx) as GD. assert (HD := circuit_derived _ (m_circ y (system_inv y Hy))).
    set (q := fun i j : nat => if in_island l (nth i (ss_nodes y) 0) then (Z.of_nat (trunc_of data (nth i (ss_nodes y) 0%nat)) - Z.of_nat j)%Z else 0%Z).
    change (getOperatorList eigh inv z ka kb pmax chg flx) with gen in HH, GD |- *. set (D := node_dim gen (ss_nodes y) data) in *. set (nn := List.length (ss_nodes y)) in *.
    assert (OO : forall i m d o, nth_error (ss_nodes y) i = Some m -> dget data m = Some d -> gen m d = Ok o -> In m l -> o = charge_basis eigh inv (od_trunc d) /\ right_on eigh inv (2 * od_trunc d + 1) (chargeP (od_trunc d)) /\
      (forall j, inverse_inductance (ss_nodes y) (ss_edges y) P i j = 0%R /\ inverse_inductance (ss_nodes y) (ss_edges y) P j i = 0%R)).
    { intros i m d o Hi Hd Ho Hm. destruct (Hn m Hm) as ((d' & Ed & Bd & Rd) & FT). rewrite Hd in Ed. injection Ed as <-. unfold gen, getOperatorList in Ho. rewrite Bd in Ho. injection Ho as <-. split; [reflexivity|]. split; [exact Rd|]. exact (free_row y (v_par w) Cinv P i m Hy HV Hi FT). }
    apply (commute_blocks _ (kap D q (seq 0 nn))).
    - intros r s Hr Hs. rewrite (charge_on_sum l r s (ss_nodes y) Qnp (vector_len (ss_nodes y) circ cQ Qnp HQ)). fold nn.
      rewrite <- (charge_sum D q (fun k => in_island l (nth k (ss_nodes y) 0))); [|intros k j Mk; unfold q; now rewrite Mk | apply seq_NoDup | exact Hr | exact Hs].
      apply lsum_ext. intros k Hk. apply in_seq in Hk. fold (in_island l (nth k (ss_nodes y) 0)). destruct (in_island l (nth k (ss_nodes y) 0)) eqn:Mk; [|reflexivity].
      destruct (vector_elem gen (ss_nodes y) data GD ND circ0 circ Hc cQ Qnp k HQ) as (m & dd & o & Em & Ed & Eo & Di & ->); [unfold nn in Hk; lia|].
      rewrite (nth_error_nth _ _ _ Em) in Mk. destruct (OO k m dd o Em Ed Eo (proj1 (in_island_In l m) Mk)) as (-> & _).
      change (cQ (lifted gen (ss_nodes y) data k (charge_basis eigh inv (od_trunc dd)))) with (lift D nn k (oQ (charge_basis eigh inv (od_trunc dd)))). unfold lift. apply tensor_ext; auto.
      intros k' a b _ _ _. destruct (Nat.eqb_spec k' k) as [->|]; [|reflexivity]. rewrite charge_oQ. unfold qd, q. rewrite (nth_error_nth _ _ _ Em), Mk. unfold trunc_of. now rewrite Ed.
    - intros r s Hr Hs Ne. set (x := (/ 2 / (IZR (kap D q (seq 0 nn) r) - IZR (kap D q (seq 0 nn) s)))%R).
      set (u := fun i j => cis (2 * PI * x * IZR (q i j))). set (tm := fun m => if in_island l m then x else 0%R). set (th := fun i => tm (nth i (ss_nodes y) 0)).
      assert (NO : forall i m d o, nth_error (ss_nodes y) i = Some m -> dget data m = Some d -> gen m d = Ok o -> keeps (u i) (th i) o /\
        (same (o_dim o) (rot (u i) (oP o)) (oP o) \/ forall j, inverse_inductance (ss_nodes y) (ss_edges y) P i j = 0%R /\ inverse_inductance (ss_nodes y) (ss_edges y) P j i = 0%R)).
      { intros i m d o Hi Hd Ho. unfold u, th, tm, q. rewrite (nth_error_nth _ _ _ Hi). destruct (in_island l m) eqn:Mm.
        - destruct (OO i m d o Hi Hd Ho (proj1 (in_island_In l m) Mm)) as (-> & Rd & FR). unfold trunc_of. rewrite Hd. split; [exact (charge_keeps eigh inv (od_trunc d) x Rd) | right; exact FR].
        - assert (W : forall j : nat, cis (2 * PI * x * 0) = RtoC 1) by (intros _; rewrite Rmult_0_r; apply cis_0). split; [apply (one_keeps _ 0); intros j; exact (W j) | left; apply rot_one; intros j; exact (W j)]. }
      pose proof (ham_rot gen (ss_nodes y) data GD ND circ0 circ Hc u th (fun i m d o A B C => proj1 (NO i m d o A B C)) argord (ss_edges y) h h Qnp Pnp Hp HQ HP eq_refl eq_refl eq_refl eq_refl eq_refl eq_refl eq_refl eq_refl eq_refl eq_refl (fun _ => eq_refl)) as T.
      destruct (inputs y Hy w Cinv P ec el ej ep h Sh) as ((A1 & A2 & A3 & A4) & _ & _ & D1).
      match type of T with ?P -> _ => assert (X1 : P) end.
      { intros i Hi Ha. exists 0%Z. destruct (nth_error (ss_edges y) i) as [e|] eqn:Ei; [|apply nth_error_None in Ei; lia]. pose proof (nth_error_In _ _ Ei) as He.
        destruct (D1 i e Ei) as (_ & F & _). rewrite F, value_lname in Ha. destruct (lname y "I" e) as [cn|] eqn:El; [|lra].
        assert (Kd : kind_at y "I" e) by (apply (lname_kind y e Hy He); eauto).
        assert (Wc : forall e, In e (ss_edges y) -> (src e = 0 \/ In (src e) (sys_nodes (ss_cg y))) /\ (dst e = 0 \/ In (dst e) (sys_nodes (ss_cg y)))) by (rewrite (y_edges y Hy); apply (wcs_ends _ HD)).
        assert (NI : tm 0 = 0%R). { unfold tm. destruct (in_island l 0) eqn:M0; [|reflexivity]. apply in_island_In in M0. exfalso. exact (nodes_nz y Hy 0 (Hl 0 M0) eq_refl). }
        unfold th. rewrite (system_nodes y Hy). rewrite (branch_flux_diff (sys_nodes (ss_cg y)) (ss_edges y) tm (nodes_NoDup (sys_nodes (ss_cg y)) (ss_cg y) HD eq_refl) Wc NI i e Ei).
        assert (ES : in_island l (src e) = in_island l (dst e)). { destruct (HI e Kd) as [B1 B2]. destruct (in_island l (src e)) eqn:M1, (in_island l (dst e)) eqn:M2; auto; [apply in_island_In, B1, in_island_In in M1 | apply in_island_In, B2, in_island_In in M2]; congruence. }
        unfold tm. rewrite ES. ring. }
      specialize (T X1). match type of T with ?P -> _ => assert (X2 : P) end.
      { intros i m d o B1 B2 B3. destruct (proj2 (NO i m d o B1 B2 B3)) as [Q|Q]; [now left|]. right. intros j _. rewrite A2. apply Q. }
      specialize (T X2). fold D nn in T. rewrite HH in T. destruct T as (X & Y & EX & EY & SR). specialize (SR r s Hr Hs). unfold rot, u in SR. rewrite !(tph_kap D q x) in SR.
      assert (Y0 : Y r s = (- X r s)%C).
      { rewrite <- SR. unfold x. apply turn_half. exact Ne. }
      assert (O : H r s = (- H r s)%C). { transitivity (tidyup Y r s); [now rewrite <- EY|]. transitivity (- tidyup X r s)%C; [unfold tidyup; rewrite Y0; apply sanC_odd | now rewrite <- EX]. }
      destruct (H r s) as [a b]. apply (f_equal (fun w => (fst w, snd w))) in O. cbn in O. injection O as O1 O2. apply injective_projections; cbn; lra.
  Qed.
End Main.
