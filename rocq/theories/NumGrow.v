(** Proofs for C129. *)
From Coq Require Import List Bool String Ascii Arith Lia ZArith Reals Lra Setoid Morphisms Permutation FunctionalExtensionality.
From Coquelicot Require Import Complex.
From Verif Require Import Prelude PreludeFacts Sweep SweepProofs SweepResultProofs Mat MatFacts Util UtilProofs Graph GraphSpec Symbolic SymbolicSpec RSum SymbolicInv SymbolicCap SymbolicCap2 SymbolicFlux SymbolicNew SymbolicProofs NumOp NumOpSpec NumKron NumSpectral NumCharge NumExpand NumHerm NumOpProofs SymHam SymHamSpec SymHamProofs SymHamT SymTotal SymTotalSpec SymTotalProofs SymTotalMain MoveSpec MoveProofs NumSubst NumSymSpec NumSymProofs NumSymNode NumSymMain NumSymEx NumGaugeSpec NumGaugeMain NumTruncSpec NumTruncLevels NumTruncMain LevMoveSpec GrowSpec NumBound NumBoundHam NumBoundMain.
Import ListNotations.

Import ListNotations.
Open Scope nat_scope.

(** ** the inverse of a larger form is smaller *)
Section Inverse.
  Variable n : nat.
  Let qf (M : nat -> nat -> R) (x : nat -> R) : R := RS n (fun i => RS n (fun j => x i * M i j * x j))%R.
  Let dot (x y : nat -> R) : R := RS n (fun i => x i * y i)%R.
  Lemma qf_times M x : qf M x = dot x (times n M x).
  Proof. unfold qf, dot, times. apply RS_ext. intros i _. change (@sumn R_rng) with RS. rewrite <- RS_l. apply RS_ext. intros; ring. Qed.
  Lemma inverse_antitone M M' N N' : (forall i j, i < n -> j < n -> M i j = M j i) -> inverses n M N -> inverses n M' N' ->
    (forall x, (0 <= qf M x)%R) -> (forall x, (qf M x <= qf M' x)%R) -> forall x, (qf N' x <= qf N x)%R.
  Proof.
    intros SM HI HI' P L x. set (v := times n N x). set (v' := times n N' x).
    assert (E : forall i, i < n -> times n M v i = x i) by (intros i Hi; apply (times_inv n M N x i HI Hi)). assert (E' : forall i, i < n -> times n M' v' i = x i) by (intros i Hi; apply (times_inv n M' N' x i HI' Hi)).
    assert (Q : qf N x = dot x v) by apply qf_times. assert (Q' : qf N' x = dot x v') by apply qf_times.
    assert (Q1 : qf M' v' = dot x v'). { rewrite qf_times. unfold dot. apply RS_ext. intros i Hi. rewrite E' by easy. ring. }
    pose proof (P (fun i => v i - v' i)%R) as X. pose proof (L v') as Y.
    assert (F : qf M (fun i => v i - v' i)%R = (dot x v - 2 * dot x v' + qf M v')%R).
    { assert (S1 : forall a b, RS n (fun i => RS n (fun j => a i * M i j * b j))%R = dot a (times n M b)). { intros a b. unfold dot, times. apply RS_ext. intros i _. change (@sumn R_rng) with RS. rewrite <- RS_l. apply RS_ext. intros; ring. }
      assert (S2 : dot v' (times n M v) = dot x v') by (unfold dot; apply RS_ext; intros i Hi; rewrite E by easy; ring).
      assert (S3 : dot v (times n M v) = dot x v) by (unfold dot; apply RS_ext; intros i Hi; rewrite E by easy; ring).
      assert (S4 : dot v (times n M v') = dot v' (times n M v)). { rewrite <- !S1, RS_swap. apply RS_ext. intros i Hi. apply RS_ext. intros j Hj. rewrite (SM i j Hi Hj). ring. }
      rewrite <- S3, <- S2. unfold qf. rewrite (S1 v' v'). replace (2 * dot v' (times n M v))%R with (dot v (times n M v') + dot v' (times n M v))%R by (rewrite S4; ring). rewrite <- !S1.
      transitivity (RS n (fun i => RS n (fun j => v i * M i j * v j) + (- 1) * (RS n (fun j => v i * M i j * v' j) + RS n (fun j => v' i * M i j * v j)) + RS n (fun j => v' i * M i j * v' j)))%R.
      - apply RS_ext. intros i _. rewrite <- RS_add, <- RS_l, <- !RS_add. apply RS_ext. intros j _. ring.
      - rewrite !RS_add. rewrite (RS_l n (- 1)). rewrite RS_add. ring. }
    lra.
  Qed.
End Inverse.
Lemma series_mono a b a' b' : (0 < a -> 0 < b -> a <= a' -> b <= b' -> series a b <= series a' b')%R.
Proof.
  intros Ha Hb A B. unfold series. apply Rmult_le_reg_r with (a + b)%R; [lra|]. apply Rmult_le_reg_r with (a' + b')%R; [lra|].
  replace (a * b / (a + b) * (a + b) * (a' + b'))%R with (a * b * (a' + b'))%R by (field; lra). replace (a' * b' / (a' + b') * (a + b) * (a' + b'))%R with (a' * b' * (a + b))%R by (field; lra).
  assert (X : (b * b' * (a' - a) >= 0)%R) by (apply Rle_ge, Rmult_le_pos; [apply Rmult_le_pos|]; lra). assert (Y : (a * a' * (b' - b) >= 0)%R) by (apply Rle_ge, Rmult_le_pos; [apply Rmult_le_pos|]; lra). lra.
Qed.
Lemma Rsum_le {A} (f g : A -> R) l : (forall x, In x l -> (f x <= g x)%R) -> (Rsum (map f l) <= Rsum (map g l))%R.
Proof. induction l as [|x l IH]; intros H; cbn [map]; rewrite ?Rsum_cons; [lra|]. apply Rplus_le_compat; [apply H; now left | apply IH; intros; apply H; now right]. Qed.
Lemma sq_mono a b x : (a <= b -> a * x * x <= b * x * x)%R.
Proof. intros H. rewrite !Rmult_assoc. apply Rmult_le_compat_r; [apply Rle_0_sqr | easy]. Qed.
Lemma forms_fall y w w' Cinv P Cinv' P' : system y -> inverted y (v_par w) Cinv P -> inverted y (v_par w') Cinv' P' -> positive_components y (v_par w) -> grown y w w' ->
  nonneg (List.length (ss_nodes y)) (fun i j => Cinv i j - Cinv' i j)%R /\
  nonneg (List.length (ss_nodes y)) (fun i j => inverse_inductance (ss_nodes y) (ss_edges y) P i j - inverse_inductance (ss_nodes y) (ss_edges y) P' i j)%R.
Proof.
  intros Hy ((M & HM & HI) & L & HL & HP) ((M' & HM' & HI') & L' & HL' & HP') ((I1 & I2 & I3) & PC & PL) (_ & _ & _ & G1 & G2 & G3 & G4). rewrite HM in HM'. injection HM' as <-. rewrite HL in HL'. injection HL' as <-.
  pose proof (sys_nodup y Hy) as ND. assert (NZ : ~ In 0 (ss_nodes y)) by (intros X; exact (nodes_nz y Hy 0 X eq_refl)). pose proof (m_circ y (system_inv y Hy)) as HC.
  assert (SUB : forall n A B x, RS n (fun i => RS n (fun j => x i * (A i j - B i j) * x j))%R = (RS n (fun i => RS n (fun j => x i * A i j * x j)) - RS n (fun i => RS n (fun j => x i * B i j * x j)))%R).
  { intros n A B x. unfold Rminus. replace (- RS n _)%R with ((- 1) * RS n (fun i => RS n (fun j => x i * B i j * x j)))%R by ring. rewrite <- RS_l, <- RS_add. apply RS_ext. intros i _. rewrite <- RS_l, <- RS_add. apply RS_ext. intros; ring. }
  split.
  - intros x. cbv beta. rewrite SUB. set (n := List.length (ss_nodes y)) in *.
    assert (FV : forall val v, exists u, u 0 = 0%R /\ RS n (fun i => RS n (fun j => v i * lval val (M i j) * v j))%R = electrostatic val (ss_cg y) u u /\ forall val', RS n (fun i => RS n (fun j => v i * lval val' (M i j) * v j))%R = electrostatic val' (ss_cg y) u u).
    { intros val v. destruct (spread (ss_nodes y) v ND NZ) as (u & U0 & U). fold n in U. exists u. split; [exact U0|].
      assert (K : forall val', RS n (fun i => RS n (fun j => v i * lval val' (M i j) * v j))%R = electrostatic val' (ss_cg y) u u).
      { intros val'. rewrite <- (c_cap_energy (ss_cg y) HC M val' u u HM I1 U0 U0). unfold SymbolicSpec.form. rewrite <- (system_nodes y Hy). fold n. apply RS_ext. intros i Hi. apply RS_ext. intros j Hj. now rewrite !U. }
      split; auto. }
    enough (RS n (fun i => RS n (fun j => x i * Cinv' i j * x j)) <= RS n (fun i => RS n (fun j => x i * Cinv i j * x j)))%R by lra.
    apply (inverse_antitone n (fun i j => lval (v_par w) (M i j)) (fun i j => lval (v_par w') (M i j)) Cinv Cinv'); auto.
    + intros i j Hi Hj. apply (c_cap_sym (ss_cg y) HC M (v_par w) i j HM); rewrite <- (system_nodes y Hy); auto.
    + intros v. destruct (FV (v_par w) v) as (u & _ & -> & _). now apply electrostatic_nonneg.
    + intros v. destruct (FV (v_par w) v) as (u & _ & -> & K). rewrite K. destruct PC as (C1 & C2 & C3). unfold electrostatic. apply Rplus_le_compat; [apply Rplus_le_compat|]; apply Rsum_le.
      * intros [[[p q] k] c] Hb. apply sq_mono. exact (G1 _ Hb).
      * intros g Hg. apply sq_mono. now apply G3.
      * intros r Hr. apply sq_mono. destruct (C3 r Hr), (G4 r Hr). now apply series_mono.
  - apply nonneg_form; auto. intros x X0. unfold SymbolicSpec.form. cbv zeta. change (@sumn R_rng) with RS. rewrite (SUB _ (inverse_inductance (ss_nodes y) (ss_edges y) P) (inverse_inductance (ss_nodes y) (ss_edges y) P') (fun i => x (nth i (ss_nodes y) 0))).
    pose proof (m_edges y (system_inv y Hy)) as WC. assert (I3' : forall b, In b (branches_of "L" (c_graph (ss_cg y))) -> v_par w' (snd b) <> 0%R) by (intros b Hb; pose proof (PL b Hb); pose proof (G2 b Hb); lra).
    pose proof (c_linv_form (ss_cg y) HC (v_par w) L P (ss_edges y) WC I2 HL HP I3 x X0) as F. pose proof (c_linv_form (ss_cg y) HC (v_par w') L P' (ss_edges y) WC I2 HL HP' I3' x X0) as F'.
    unfold SymbolicSpec.form in F, F'. cbv zeta in F, F'. rewrite <- (system_nodes y Hy) in F, F'. change (@sumn R_rng) with RS in F, F'. rewrite F, F'.
    enough (inductive_form (v_par w') (c_graph (ss_cg y)) x <= inductive_form (v_par w) (c_graph (ss_cg y)) x)%R by lra. unfold inductive_form. apply Rsum_le. intros [[[p q] k] c] Hb. pose proof (PL _ Hb). pose proof (G2 _ Hb). cbn [snd] in *.
    unfold Rdiv. apply Rmult_le_compat_l; [apply Rle_0_sqr|]. apply Rinv_le_contravar; easy.
Qed.

Lemma S_minus n f g : S n (fun i => f i - g i)%C = (S n f - S n g)%C.
Proof. unfold S. induction n as [|n IH]; cbn [sumn kadd k0 C_rng]; [|rewrite IH]; match goal with |- ?a = ?b => change (@eq C a b) end; ring. Qed.
(** ** the operators of nodes in the charge basis do not depend on the values *)
Section Rerun.
  Variables (eigh : nat -> cmat -> (nat -> R) * cmat) (inv : nat -> cmat -> cmat) (z z' ka ka' kb kb' pmax pmax' : nat -> R) (chg chg' flx flx' : R).
  Let gen := getOperatorList eigh inv z ka kb pmax chg flx.
  Let gen' := getOperatorList eigh inv z' ka' kb' pmax' chg' flx'.
  Lemma rerun nodes data circ0 circ0' circ circ' : NoDup nodes -> (forall m, In m nodes -> charge_node eigh inv data m) ->
    getExpandedOperatorsMap gen nodes data None circ0 = Ok circ -> getExpandedOperatorsMap gen' nodes data None circ0' = Ok circ' -> forall m, In m nodes -> dget circ' m = dget circ m.
  Proof.
    intros ND HN Hc Hc' m Hm. pose proof (map_usable gen nodes data (gen_dim_list eigh inv z ka kb pmax chg flx) circ0 circ Hc) as U. pose proof (map_usable gen' nodes data (gen_dim_list eigh inv z' ka' kb' pmax' chg' flx') circ0' circ' Hc') as U'.
    destruct (map_ok gen nodes data U None circ0 ND) as (k & K1 & K2 & _). destruct (map_ok gen' nodes data U' None circ0' ND) as (k' & K1' & K2' & _).
    rewrite Hc in K1. injection K1 as <-. rewrite Hc' in K1'. injection K1' as <-.
    destruct (HN m Hm) as (t & Ed & _). apply In_nth_error in Hm as [i Hi].
    rewrite (K2 i m _ (charge_basis eigh inv t) Hi Ed eq_refl eq_refl), (K2' i m _ (charge_basis eigh inv t) Hi Ed eq_refl eq_refl). f_equal.
    assert (DM : node_dim gen' nodes data = node_dim gen nodes data).
    { apply functional_extensionality. intros k. unfold node_dim. destruct (nth_error nodes k) as [q|] eqn:Eq; [|reflexivity]. destruct (HN q (nth_error_In _ _ Eq)) as (tq & -> & _). reflexivity. }
    unfold lifted. now rewrite DM.
  Qed.
  Lemma rerun_vector nodes circ circ' f : (forall m, In m nodes -> dget circ' m = dget circ m) -> op_vector f nodes circ' = op_vector f nodes circ.
  Proof. intros H. unfold op_vector. induction nodes as [|m l IH]; [reflexivity|]. cbn [mapM]. rewrite (H m (or_introl eq_refl)), IH; [reflexivity|]. intros q Hq. apply H. now right. Qed.
  Lemma charge_solved data m : charge_node eigh inv data m -> exists d, dget data m = Some d /\ solved eigh inv z ka kb chg flx m d.
  Proof. intros (t & E & R). exists (mkod t BCharge). split; [exact E | exact R]. Qed.
  Lemma levels_fall y w w' Cinv P Cinv' P' ec el ej ep data circ0 circ circ0' circ' Qnp Pnp Qnp' Pnp' argord c n h h' H H' E E' :
    let N := fold_right Nat.mul 1 (c_dims c) in
    system y -> (forall l, Permutation (argord l) l) -> inverted y (v_par w) Cinv P -> inverted y (v_par w') Cinv' P' -> positive_components y (v_par w) -> grown y w w' -> (0 <= ec)%R -> (0 <= el)%R ->
    (forall m, In m (ss_nodes y) -> charge_node eigh inv data m) -> In n (ss_nodes y) -> dget circ n = Some c ->
    getExpandedOperatorsMap gen (ss_nodes y) data None circ0 = Ok circ -> op_vector cQ (ss_nodes y) circ = Ok Qnp -> op_vector cP (ss_nodes y) circ = Ok Pnp ->
    getExpandedOperatorsMap gen' (ss_nodes y) data None circ0' = Ok circ' -> op_vector cQ (ss_nodes y) circ' = Ok Qnp' -> op_vector cP (ss_nodes y) circ' = Ok Pnp' ->
    substitute y w Cinv P ec el ej ep = Ok h -> substitute y w' Cinv' P' ec el ej ep = Ok h' ->
    getHamiltonian N argord (ss_nodes y) (ss_edges y) h Qnp Pnp circ = Ok H -> getHamiltonian N argord (ss_nodes y) (ss_edges y) h' Qnp' Pnp' circ' = Ok H' ->
    spectrum N H E -> ascending N E -> spectrum N H' E' -> ascending N E' -> forall k, k < N -> (E' k <= E k + 4 * INR N / 10 ^ 12)%R.
  Proof.
    intros N Hy Hp HV HV' Hpos HG e1 e2 HN Hin Hdc Hc HQ HP Hc' HQ' HP' Sh Sh' HH HH' SE AE SE' AE' k Hk.
    pose proof (rerun (ss_nodes y) data circ0 circ0' circ circ' (sys_nodup y Hy) HN Hc Hc') as RR. rewrite (rerun_vector _ _ _ _ RR) in HQ'. rewrite (rerun_vector _ _ _ _ RR) in HP'. rewrite HQ in HQ'. injection HQ' as <-. rewrite HP in HP'. injection HP' as <-.
    assert (HK : getHamiltonian N argord (ss_nodes y) (ss_edges y) h' Qnp Pnp circ = Ok H') by (rewrite <- HH'; unfold getHamiltonian; now rewrite !(rerun_vector _ _ _ _ RR)). clear HH' Hc' RR.
    assert (Hs : forall m, In m (ss_nodes y) -> exists d, dget data m = Some d /\ solved eigh inv z ka kb chg flx m d) by (intros m Hm; now apply charge_solved, HN).
    unfold N in *. clear N. rewrite (dims_size eigh inv z ka kb pmax chg flx y data circ0 circ c n Hy Hc Hin Hdc) in *.
    destruct (forms_fall y w w' Cinv P Cinv' P' Hy HV HV' Hpos HG) as [P1 P2]. destruct HG as (W1 & W2 & W3 & _).
    destruct (inputs y Hy w Cinv P ec el ej ep h Sh) as ((A1 & A2 & A3 & A4) & (B1 & B2 & B3 & B4) & C1 & D1). destruct (inputs y Hy w' Cinv' P' ec el ej ep h' Sh') as ((A1' & A2' & A3' & A4') & (B1' & B2' & B3' & B4') & C1' & D1').
    destruct (ham_parts eigh inv z ka kb pmax chg flx (ss_nodes y) data circ0 circ (sys_nodup y Hy) Hc Hs argord (ss_edges y) Qnp Pnp Hp h H HH) as (Hj & Hq & EH & D & _). destruct (D h' H' HK) as (Hj' & Hq' & EH' & G1 & G2). clear D.
    assert (Z1 : gap (ss_edges y) (h_J h) (h_pb h) (h_J h') (h_pb h') = 0%R).
    { unfold gap, Rall. rewrite (over_seq (ss_edges y) (fun _ => 0%R)); [now apply over_0|]. intros i e Hi. destruct (D1 i e Hi) as (F1 & _), (D1' i e Hi) as (F1' & _). rewrite F1, F1'. unfold phasor. destruct (W3 e) as [-> _]. rewrite W2.
      match goal with |- Cmod ?t = _ => replace t with (RtoC 0) by (unfold phasor; ring) end. apply Cmod_0. }
    assert (Z2 : gap (ss_edges y) (h_Ps h) (h_qb h) (h_Ps h') (h_qb h') = 0%R).
    { unfold gap, Rall. rewrite (over_seq (ss_edges y) (fun _ => 0%R)); [now apply over_0|]. intros i e Hi. destruct (D1 i e Hi) as (_ & _ & F1), (D1' i e Hi) as (_ & _ & F1'). destruct (W3 e) as [_ Ve]. rewrite C1, C1', W1, zeta_minus, F1, F1', Ve, Rminus_eq_0. apply Rabs_R0. }
    rewrite Z1, Rmult_0_r in G1. rewrite Z2, Rmult_0_r in G2. clear Z1 Z2 D1 D1'.
    assert (hh : forall f g l, op_vector f (ss_nodes y) circ = Ok l -> (forall i o, f (lifted gen (ss_nodes y) data i o) = lift (node_dim gen (ss_nodes y) data) (List.length (ss_nodes y)) i (g o)) ->
      (forall o, ops_ok o -> herm (o_dim o) (g o)) -> forall i, i < List.length (ss_nodes y) -> herm (size (node_dim gen (ss_nodes y) data) (List.length (ss_nodes y))) (opn l i)).
    { intros f g l Hl Hf Hg i Hi. destruct (vector_elem gen (ss_nodes y) data (gen_dim_list eigh inv z ka kb pmax chg flx) (sys_nodup y Hy) circ0 circ Hc f l i Hl Hi) as (m & dd & o & Em & Ed & Eo & Di & ->). rewrite Hf.
      apply lift_herm; [easy|]. rewrite Di. apply Hg. now apply (generated_ok eigh inv z ka kb pmax chg flx m dd). }
    pose proof (hh cQ oQ Qnp HQ (fun _ _ => eq_refl) (fun o X => proj1 X)) as R1. pose proof (hh cP oP Pnp HP (fun _ _ => eq_refl) (fun o X => proj1 (proj2 X))) as R2. clear hh.
    pose proof (vector_len (ss_nodes y) circ cQ Qnp HQ) as LQ. pose proof (vector_len (ss_nodes y) circ cP Pnp HP) as LP.
    unfold quadratic in EH, EH'. rewrite A1, A2, A3, A4, B1, B2, B3, B4 in EH. rewrite A1', A2', A3', A4', B1', B2', B3', B4', W1, W2 in EH'.
    revert EH EH' R1 R2 G1 G2 Hk SE AE SE' AE'. clear - P1 P2 e1 e2 LQ LP. unfold gen. generalize (size (node_dim (getOperatorList eigh inv z ka kb pmax chg flx) (ss_nodes y) data) (List.length (ss_nodes y))). intros N.
    generalize (charge_bias y (v_charge w)). intros b1. match goal with |- context [quadform N Pnp ?b _] => generalize b; intros b2 end.
    revert P2. generalize (inverse_inductance (ss_nodes y) (ss_edges y) P), (inverse_inductance (ss_nodes y) (ss_edges y) P'). intros L L' P2 EH EH' R1 R2 G1 G2 Hk SE AE SE' AE'. rewrite <- LQ in P1, R1. rewrite <- LP in P2, R2.
    apply (weyl N H H' E E'); auto. intros v.
    set (K := mplus _ _) in EH. set (K' := mplus _ _) in EH'.
    assert (QS : forall l b M M', same N (quadform N l b (fun i j => M i j - M' i j)%R) (mminus (quadform N l b M) (quadform N l b M'))).
    { intros l b M M' r c _ _. unfold mminus. rewrite !quadform_eq. change (@sumn C_rng) with S. rewrite <- S_minus. apply S_ext. intros i _. rewrite <- S_minus. apply S_ext. intros j _. rewrite RtoC_minus. ring. }
    pose (T := mplus (mplus (msc (RtoC ej) (mminus Hj' Hj)) (msc (RtoC ep) (mminus Hq' Hq))) (mplus (mminus (tidyup K') K') (msc (RtoC (- 1)) (mminus (tidyup K) K)))).
    assert (BT : bounded N T (4 * INR N / 10 ^ 12)).
    { eapply bounded_le; [|apply bounded_plus; [apply bounded_plus; apply bounded_sc; [exact G1 | exact G2] | apply bounded_plus; [apply bounded_rest | apply bounded_sc, bounded_rest]]].
      rewrite !Cmod_R. replace (Rabs (-1)) with 1%R by (rewrite Rabs_left; lra). unfold atol, Rdiv. rewrite !Rmult_0_r. apply Req_le. ring. }
    pose (U := mplus (msc (RtoC (ec * (1 / 2))) (quadform N Qnp b1 (fun i j => Cinv i j - Cinv' i j)%R)) (msc (RtoC (el * (1 / 2))) (quadform N Pnp b2 (fun i j => L i j - L' i j)%R))).
    assert (DE : same N H (mplus H' (mplus U (msc (RtoC (- 1)) T)))).
    { intros r c Hr Hc. rewrite EH, EH'. unfold U, T, K, K'. unfold mplus, msc, mminus. pose proof (QS Qnp b1 Cinv Cinv' r c Hr Hc) as X1. pose proof (QS Pnp b2 L L' r c Hr Hc) as X2. unfold mminus in X1, X2. cbv beta in X1, X2. rewrite X1, X2.
      replace (RtoC (- 1)) with (- RtoC 1)%C by (apply injective_projections; cbn; ring). ring. }
    assert (IE : inner N v (app N H v) = (inner N v (app N H' v) + (inner N v (app N U v) + RtoC (- 1) * inner N v (app N T v)))%C).
    { rewrite <- inner_sc, <- !inner_plus. apply inner_ext. intros i Hi. apply app_ext; auto. }
    assert (Q : (0 <= fst (inner N v (app N U v)))%R).
    { unfold U. rewrite inner_plus, !inner_sc. pose proof (quad_nonneg N Qnp b1 (fun i j => Cinv i j - Cinv' i j)%R v R1 P1). pose proof (quad_nonneg N Pnp b2 (fun i j => L i j - L' i j)%R v R2 P2).
      cbn [fst snd Cplus Cmult RtoC]. rewrite !Rmult_0_l, !Rminus_0_r. apply Rplus_le_le_0_compat; apply Rmult_le_pos; auto; lra. }
    pose proof (bounded_re N T _ v BT) as X. pose proof (Rle_abs (fst (inner N v (app N T v)))) as Y. rewrite IE. cbn [fst snd Cplus Cmult RtoC]. lra.
  Qed.
End Rerun.
