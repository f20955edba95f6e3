(** Proofs about the split of the Hamiltonian, currents, voltages, matrix
    elements and energies (C80-C85). *)
From Coq Require Import List Bool Arith Lia ZArith Reals Lra Setoid Morphisms Permutation.
From Coquelicot Require Import Complex.
From Verif Require Import Prelude PreludeFacts Sweep SweepProofs SweepResultProofs Mat MatFacts Util UtilProofs Graph Symbolic SymbolicCap NumOp NumOpSpec NumKron NumSpectral NumCharge NumExpand NumHerm NumOsc NumPot NumOpProofs NumEval NumEvalSpec.
Import ListNotations.
Open Scope nat_scope.

(** ** The split of the Hamiltonian *)
Lemma fold_scale N z r : forall A B, (forall i j, A i j = (z * B i j)%C) -> forall i j, fold_left (mm N) r A i j = (z * fold_left (mm N) r B i j)%C.
Proof.
  induction r as [|D r IH]; intros A B H i j; cbn [fold_left]; [apply H|]. apply IH. intros a b.
  rewrite <- mm_sc_l. apply mm_ext; [intros; apply H | easy].
Qed.
Lemma product_scale N z l p : product N z l = Ok p -> exists q, product N (RtoC 1) l = Ok q /\ forall i j, p i j = (z * q i j)%C.
Proof.
  destruct l as [|A r]; [discriminate|]. cbn [product]. intros E. injection E as <-. eexists. split; [reflexivity|].
  apply fold_scale. intros a b. unfold msc. now rewrite Cmult_1_l.
Qed.
Lemma lsum_app l l' : lsum (l ++ l') = (lsum l + lsum l')%C.
Proof. induction l; cbn; [now rewrite Cplus_0_l|]. unfold lsum in *. now rewrite IHl, Cplus_assoc. Qed.
Lemma combine_app {A B} (a a' : list A) (b b' : list B) : List.length a = List.length b -> combine (a ++ a') (b ++ b') = combine a b ++ combine a' b'.
Proof. revert b. induction a as [|x a IH]; intros [|y b] H; cbn in *; try discriminate; [easy|]. rewrite IH; auto. Qed.
Lemma junctions_snoc m J : junctions (S m) J = junctions m J ++ (if Req_EM_T (J m) 0 then [] else [m]).
Proof. unfold junctions. rewrite seq_S, filter_app. cbn [Nat.add filter]. now destruct (Req_EM_T (J m) 0). Qed.
Section Split.
  Variables (N : nat) (argord : list (nat * bool) -> list (nat * bool)) (nodes : list nat) (edges : list edge) (h : hin) (X Xd : nat -> cmat).
  Let step1 := fun (H : cmat) i =>
    if Req_EM_T (h_J h i) 0 then Ok H else
    let ts := argord (branch_terms nodes edges i) in
    bind (product N (cis (2 * PI * h_pb h i)) (map (fun t : nat * bool => if snd t then X (fst t) else Xd (fst t)) ts)) (fun p1 =>
    bind (product N (cis (- 2 * PI * h_pb h i)) (map (fun t : nat * bool => if snd t then Xd (fst t) else X (fst t)) ts)) (fun p2 =>
    Ok (mplus H (msc (RtoC (- (1 / 2) * h_J h i)) (mplus p1 p2))))).
  Let step2 := fun (r : list cmat * list cmat) i =>
    if Req_EM_T (h_J h i) 0 then Ok r else
    let ts := argord (branch_terms nodes edges i) in
    bind (product N (RtoC 1) (left_ops X Xd ts)) (fun p1 =>
    bind (product N (RtoC 1) (right_ops X Xd ts)) (fun p2 =>
    let c := RtoC (- (1 / 2) * h_Ej h * h_J h i) in
    Ok (fst r ++ [msc c p1], snd r ++ [msc c p2]))).
  Lemma split_fold m H : foldM step1 (seq 0 m) mzero = Ok H ->
    exists L Rr, foldM step2 (seq 0 m) ([], []) = Ok (L, Rr) /\
      List.length L = List.length (junctions m (h_J h)) /\ List.length Rr = List.length (junctions m (h_J h)) /\
      forall r c, (RtoC (h_Ej h) * H r c)%C = recombine (h_pb h) (junctions m (h_J h)) L Rr r c.
  Proof.
    revert H. induction m as [|m IH]; intros H.
    - cbn. intros E. injection E as <-. exists [], []. repeat split. intros r c. unfold mzero, recombine. cbn. now rewrite Cmult_0_r.
    - rewrite seq_S. rewrite !foldM_app. destruct (foldM step1 (seq 0 m) mzero) as [H0|] eqn:E0; [|discriminate]. cbn [bind].
      destruct (IH H0 eq_refl) as (L & Rr & E2 & N1 & N2 & E3). rewrite E2. cbn [bind Nat.add foldM]. unfold step1 at 1, step2 at 1.
      rewrite junctions_snoc. destruct (Req_EM_T (h_J h m) 0) as [Z|Z].
      + cbn [bind]. intros E. injection E as <-. rewrite app_nil_r. exists L, Rr. auto.
      + destruct (product N (cis (2 * PI * h_pb h m)) _) as [p1|] eqn:P1; [|discriminate]. cbn [bind].
        destruct (product N (cis (- 2 * PI * h_pb h m)) _) as [p2|] eqn:P2; [|discriminate]. cbn [bind]. intros E. injection E as <-.
        destruct (product_scale _ _ _ _ P1) as (q1 & Q1 & K1). destruct (product_scale _ _ _ _ P2) as (q2 & Q2 & K2).
        unfold left_ops, right_ops. rewrite Q1. cbn [bind]. rewrite Q2. cbn [bind fst snd].
        eexists _, _. split; [reflexivity|]. rewrite !app_length. cbn [List.length]. split; [lia|]. split; [lia|].
        intros r c. specialize (E3 r c). unfold recombine in *. unfold cmat, matrix in *. rewrite combine_app by congruence. rewrite combine_app by (rewrite combine_length; lia). rewrite map_app, lsum_app.
        rewrite <- E3. cbn [combine map lsum fold_right fst snd]. unfold mplus, msc. rewrite K1, K2. change phase with cis.
        replace (- 2 * PI * h_pb h m)%R with (- (2 * PI * h_pb h m))%R by ring. rewrite !RtoC_mult. ring.
  Qed.
End Split.
Lemma c80_split N argord nodes edges h Qnp Pnp circ H :
  (forall i, h_Ps h i = 0%R) -> getHamiltonian N argord nodes edges h Qnp Pnp circ = Ok H ->
  exists L Rr, getStaticJosephsonPart N argord nodes edges h circ = Ok (L, Rr) /\
    List.length L = List.length (junctions (List.length edges) (h_J h)) /\ List.length Rr = List.length L /\
  exists H0, H = tidyup H0 /\
  forall r c, H0 r c = (getLinearPart N h Qnp Pnp r c + recombine (h_pb h) (junctions (List.length edges) (h_J h)) L Rr r c)%C.
Proof.
  intros Ps. unfold getHamiltonian, getStaticJosephsonPart.
  destruct (op_vector cD nodes circ) as [ds|] eqn:Ed; [|discriminate]. destruct (op_vector cDd nodes circ) as [dds|] eqn:Edd; [|discriminate].
  destruct (op_vector cS nodes circ) as [ss|] eqn:Es; [|discriminate]. destruct (op_vector cSd nodes circ) as [sds|] eqn:Esd; [|discriminate]. cbn [bind].
  destruct (cosine_part N argord nodes edges (h_J h) (h_pb h) (opn ds) (opn dds)) as [Hj|] eqn:Ej; [|discriminate].
  destruct (cosine_part N argord nodes edges (h_Ps h) (h_qb h) (opn ss) (opn sds)) as [Hs|] eqn:Ehs; [|discriminate]. cbn [bind].
  intros E. injection E as <-.
  assert (C2 : Hs = mzero).
  { revert Ehs. unfold cosine_part. generalize (seq 0 (List.length edges)), mzero. induction l as [|i l IH]; intros A; cbn [foldM]; [congruence|].
    destruct (Req_EM_T (h_Ps h i) 0) as [_|B]; [cbn [bind]; apply IH | now destruct B]. }
  destruct (split_fold N argord nodes edges h (opn ds) (opn dds) _ _ Ej) as (L & Rr & E2 & N1 & N2 & E3).
  exists L, Rr. split; [exact E2|]. split; [easy|]. split; [congruence|]. eexists. split; [reflexivity|].
  intros r c. rewrite <- E3, C2. unfold getLinearPart, mplus, msc, mzero. ring.
Qed.

(** ** Derivatives *)
Lemma quad_lim F t0 d a : (forall e, F (t0 + e) = F t0 + e * d + e * e * a)%R -> derivable_pt_lim F t0 d.
Proof.
  intros H eps He. assert (P : (0 < eps / (Rabs a + 1))%R) by (apply Rdiv_lt_0_compat; [easy | pose proof (Rabs_pos a); lra]).
  exists (mkposreal _ P). intros e Ne Le. cbn [pos] in Le. rewrite H.
  replace ((F t0 + e * d + e * e * a - F t0) / e - d)%R with (e * a)%R by (field; easy). rewrite Rabs_mult.
  apply Rle_lt_trans with (Rabs e * (Rabs a + 1))%R.
  - apply Rmult_le_compat_l; [apply Rabs_pos | lra].
  - apply Rlt_le_trans with (eps / (Rabs a + 1) * (Rabs a + 1))%R; [apply Rmult_lt_compat_r; [pose proof (Rabs_pos a); lra | easy]|].
    right. field. pose proof (Rabs_pos a). lra.
Qed.
Lemma rsum_plus n f g : rsum n (fun i => f i + g i)%R = (rsum n f + rsum n g)%R.
Proof. induction n as [|n IH]; cbn; [ring|]. rewrite IH. ring. Qed.
Lemma rsum_delta n i f : i < n -> rsum n (fun k => if Nat.eqb k i then f k else 0)%R = f i.
Proof.
  induction n as [|n IH]; intros H; [lia|]. cbn [rsum]. destruct (Nat.eqb_spec n i) as [->|N].
  - rewrite (rsum_ext i _ (fun k => 0 * f k)%R), rsum_mul; [ring|]. intros k Hk. destruct (Nat.eqb_spec k i); [lia | ring].
  - rewrite IH by lia. ring.
Qed.
Lemma rsum_zero n f : (forall i, i < n -> f i = 0%R) -> rsum n f = 0%R.
Proof. intros H. rewrite (rsum_ext n f (fun k => 0 * f k)%R), rsum_mul; [ring|]. intros i Hi. rewrite (H i Hi). ring. Qed.
(** what the derivative of the quadratic energy is *)
Definition qgrad (n : nat) (c : R) (M : nat -> nat -> R) (x b : nat -> R) (i : nat) : R :=
  (c / 2 * rsum n (fun j => (M i j + M j i) * (x j + b j)))%R.
Lemma put_at x i k : put x i (x i) k = x k.
Proof. unfold put. destruct (Nat.eqb_spec k i); now subst. Qed.
Lemma quad_put n c M x b i e : i < n ->
  quad_energy n c M (put x i (x i + e)%R) b = (quad_energy n c M (put x i (x i)) b + e * qgrad n c M x b i + e * e * (c / 2 * M i i))%R.
Proof.
  intros Hi. unfold quad_energy, qgrad.
  rewrite (rsum_ext n (fun i0 => rsum n (fun j => (put x i (x i) i0 + b i0) * M i0 j * (put x i (x i) j + b j))%R)
     (fun k => rsum n (fun j => (x k + b k) * M k j * (x j + b j))%R)) by (intros; apply rsum_ext; intros; now rewrite !put_at).
  rewrite (rsum_ext n _ (fun k => rsum n (fun j => (x k + b k) * M k j * (x j + b j))%R + ((x k + b k) * M k i * e +
     (if Nat.eqb k i then e * rsum n (fun j => M i j * (x j + b j))%R + e * e * M i i else 0)))%R).
  - rewrite !rsum_plus, rsum_delta by easy.
    rewrite (rsum_ext n (fun k => (x k + b k) * M k i * e)%R (fun k => e * (M k i * (x k + b k)))%R) by (intros; ring). rewrite rsum_mul.
    rewrite (rsum_ext n (fun j => (M i j + M j i) * (x j + b j))%R (fun j => M i j * (x j + b j) + M j i * (x j + b j))%R) by (intros; ring). rewrite rsum_plus. ring.
  - intros k Hk. rewrite (rsum_ext n _ (fun j => (put x i (x i + e) k + b k) * (M k j * (x j + b j)) + (if Nat.eqb j i then (put x i (x i + e) k + b k) * M k j * e else 0))%R).
    + rewrite rsum_plus, rsum_delta, rsum_mul by easy.
      rewrite (rsum_ext n (fun j => (x k + b k) * M k j * (x j + b j))%R (fun j => (x k + b k) * (M k j * (x j + b j)))%R) by (intros; ring). rewrite rsum_mul.
      unfold put. destruct (Nat.eqb_spec k i) as [->|Nk]; ring.
    + intros j _. unfold put at 2. destruct (Nat.eqb_spec j i) as [->|Nj]; ring.
Qed.
Lemma quad_partial n c M x b i : i < n -> partial_at (fun y => quad_energy n c M y b) x i (qgrad n c M x b i).
Proof. intros Hi. apply quad_lim with (c / 2 * M i i)%R. intros e. now apply quad_put. Qed.
Lemma partial_unique F x i d d' : partial_at F x i d -> partial_at F x i d' -> d = d'.
Proof. apply uniqueness_limite. Qed.
(** rows without off-diagonal entries *)
Lemma qgrad_diag n c M x b i : i < n -> qgrad n c M x b i =
  (c * M i i * (x i + b i) + c / 2 * rsum n (fun j => if Nat.eqb j i then 0 else (M i j + M j i) * (x j + b j)))%R.
Proof.
  intros Hi. unfold qgrad. rewrite (rsum_ext n (fun j => (M i j + M j i) * (x j + b j))%R
     (fun j => (if Nat.eqb j i then (M i j + M j i) * (x j + b j) else 0) + (if Nat.eqb j i then 0 else (M i j + M j i) * (x j + b j)))%R).
  - rewrite rsum_plus, rsum_delta by easy. field.
  - intros j _. destruct (Nat.eqb j i); ring.
Qed.
Lemma cos_partial a f b : derivable_pt_lim (fun t => - (a * cos (2 * PI * (t + b))))%R f (a * (2 * PI) * sin (2 * PI * (f + b)))%R.
Proof.
  replace (a * (2 * PI) * sin (2 * PI * (f + b)))%R with (- (a * (- sin (2 * PI * (f + b)) * (2 * PI))))%R by ring.
  apply (derivable_pt_lim_opp (fun t => a * cos (2 * PI * (t + b)))%R).
  apply (derivable_pt_lim_scal (fun t => cos (2 * PI * (t + b)))%R).
  apply (derivable_pt_lim_comp (fun t => 2 * PI * (t + b))%R cos); [|apply derivable_pt_lim_cos].
  match goal with |- derivable_pt_lim ?g f _ => assert (K : derivable_pt_lim g f (2 * PI * 1)%R); [|now rewrite Rmult_1_r in K] end.
  apply (derivable_pt_lim_scal (fun t => t + b)%R).
  replace 1%R with (1 + 0)%R by ring. apply (derivable_pt_lim_plus (fun t => t) (fun _ => b)); [apply derivable_pt_lim_id | apply derivable_pt_lim_const].
Qed.
Lemma branch_partial m el ej Lb J f b i : i < m ->
  partial_at (fun y => branch_energy m el ej Lb J y b) f i (qgrad m el Lb f b i + ej * J i * (2 * PI) * sin (2 * PI * (f i + b i)))%R.
Proof.
  intros Hi. unfold partial_at, branch_energy.
  assert (A := derivable_pt_lim_plus _ _ _ _ _ (derivable_pt_lim_plus _ _ _ _ _ (quad_partial m el Lb f b i Hi) (cos_partial (ej * J i) (f i) (b i)))
    (derivable_pt_lim_const (- (ej * rsum m (fun e => if Nat.eqb e i then 0 else J e * cos (2 * PI * (f e + b e)))))%R (f i))).
  rewrite Rplus_0_r in A.
  revert A. match goal with |- derivable_pt_lim ?F _ _ -> derivable_pt_lim ?G _ _ => assert (E : forall t, F t = G t) end.
  { intros t. unfold plus_fct, fct_cte. rewrite (rsum_ext m (fun e => J e * cos (2 * PI * (put f i t e + b e)))%R
      (fun e => (if Nat.eqb e i then J e * cos (2 * PI * (t + b e)) else 0) + (if Nat.eqb e i then 0 else J e * cos (2 * PI * (f e + b e))))%R).
    - rewrite rsum_plus, rsum_delta by easy. ring.
    - intros e _. unfold put. destruct (Nat.eqb e i); ring. }
  intros A eps He. destruct (A eps He) as [dl K]. exists dl. intros e Ne Le. rewrite <- !E. now apply K.
Qed.

(** ** Voltage *)
Lemma index_nth {K} `{EqB K} (l : list K) x i : NoDup l -> nth_error l i = Some x -> index_of x l = Ok i.
Proof.
  revert i. induction l as [|y l IH]; intros i ND Hi; [now destruct i|]. inversion ND as [|? ? N1 N2]; subst. cbn [index_of].
  destruct i as [|i]; cbn in Hi.
  - injection Hi as ->. now rewrite eqb_refl.
  - destruct (eqb x y) eqn:E; [apply (proj1 (eqb_eq _ _)) in E; subst; destruct N1; eapply nth_error_In; eauto|]. now rewrite (IH i N2 Hi).
Qed.
Lemma index_mem {K} `{EqB K} (l : list K) x i : index_of x l = Ok i -> mem x l = true /\ nth_error l i = Some x.
Proof.
  intros Hi. assert (E : nth_error l i = Some x).
  { revert i Hi. induction l as [|y l IH]; intros i; cbn [index_of]; [discriminate|]. destruct (eqb x y) eqn:E.
    - intros K'. injection K' as <-. apply (proj1 (eqb_eq _ _)) in E. now subst.
    - destruct (index_of x l) as [j|] eqn:Ej; [|discriminate]. cbn [bind]. intros K'. injection K' as <-. now apply IH. }
  split; [|easy]. apply (proj2 (mem_In x l)). eapply nth_error_In; eauto.
Qed.
Lemma ev_shift N A v x b : ev N A v (RtoC x) -> ev N (mplus A (msc (RtoC b) eye)) v (RtoC (x + b)).
Proof.
  intros H. replace (RtoC (x + b)) with (RtoC x + RtoC b * RtoC 1)%C by (rewrite Cmult_1_r; now rewrite RtoC_plus).
  apply ev_plus; [auto | apply ev_sc, ev_eye].
Qed.
Lemma ev_scR N c A v x : ev N A v (RtoC x) -> ev N (msc (RtoC c) A) v (RtoC (c * x)).
Proof. intros H. rewrite RtoC_mult. now apply ev_sc. Qed.
(** the voltage operator is short of the coupling terms *)
Lemma c81_exact N nodes h k Qnp n i A v x kap d :
  NoDup nodes -> nth_error nodes i = Some n -> List.length Qnp = List.length nodes ->
  (forall j B, nth_error Qnp j = Some B -> eigenvector N B v (RtoC (x j))) ->
  e_Vop k = (kap * h_Ec h)%R ->
  partial_at (fun y => quad_energy (List.length nodes) (h_Ec h) (h_Cinv h) y (h_Qb h)) x i d ->
  getVoltageOperator nodes h k Qnp (Some n) = Ok A ->
  eigenvector N A v (RtoC (kap * (d - h_Ec h / 2 * rsum (List.length nodes) (fun j => if Nat.eqb j i then 0 else (h_Cinv h i j + h_Cinv h j i) * (x j + h_Qb h j)))))%R.
Proof.
  intros ND Hi HL HQ Hk Hd. unfold getVoltageOperator. rewrite (index_nth _ _ _ ND Hi).
  destruct (negb (mem n nodes)); [discriminate|]. cbn [bind]. intros E. injection E as <-.
  assert (Li : i < List.length nodes) by (apply nth_error_Some; congruence).
  rewrite (partial_unique _ _ _ _ _ Hd (quad_partial _ _ _ _ _ _ Li)), qgrad_diag by easy.
  match goal with |- eigenvector _ _ _ (RtoC ?c) => replace c with (e_Vop k * h_Cinv h i i * (x i + h_Qb h i))%R by (rewrite Hk; ring) end.
  apply ev_scR. unfold shifted, opn. destruct (nth_error Qnp i) as [B|] eqn:EB; [|apply nth_error_None in EB; lia].
  rewrite (nth_error_nth _ _ _ EB). apply ev_shift. now apply (HQ i).
Qed.
Lemma c81_diag N nodes h k Qnp n i A v x kap d :
  NoDup nodes -> nth_error nodes i = Some n -> List.length Qnp = List.length nodes ->
  (forall j, j < List.length nodes -> j <> i -> h_Cinv h i j = 0%R /\ h_Cinv h j i = 0%R) ->
  (forall j B, nth_error Qnp j = Some B -> eigenvector N B v (RtoC (x j))) ->
  e_Vop k = (kap * h_Ec h)%R ->
  partial_at (fun y => quad_energy (List.length nodes) (h_Ec h) (h_Cinv h) y (h_Qb h)) x i d ->
  getVoltageOperator nodes h k Qnp (Some n) = Ok A ->
  eigenvector N A v (RtoC (kap * d)).
Proof.
  intros ND Hi HL HC HQ Hk Hd HA. pose proof (c81_exact N nodes h k Qnp n i A v x kap d ND Hi HL HQ Hk Hd HA) as K.
  rewrite rsum_zero in K. { now rewrite Rmult_0_r, Rminus_0_r in K. }
  intros j Hj. destruct (Nat.eqb_spec j i) as [|Nj]; [easy|]. destruct (HC j Hj Nj) as [-> ->]. ring.
Qed.
Lemma c81_errors nodes h k Qnp n : getVoltageOperator nodes h k Qnp None = Err PlainException /\
  (~ In n nodes -> getVoltageOperator nodes h k Qnp (Some n) = Err PlainException) /\
  (In n nodes -> exists A, getVoltageOperator nodes h k Qnp (Some n) = Ok A).
Proof.
  split; [easy|]. unfold getVoltageOperator. split; intros H.
  - destruct (mem n nodes) eqn:E; [|easy]. now apply mem_In in E.
  - rewrite (proj2 (mem_In n nodes) H). cbn [negb]. destruct (index_of_total n nodes H) as [i ->]. cbn [bind]. eauto.
Qed.

(** ** Current *)
Lemma op_vector_at f nodes circ l i : op_vector f nodes circ = Ok l -> i < List.length nodes ->
  exists n c, nth_error nodes i = Some n /\ dget circ n = Some c /\ opn l i = f c.
Proof.
  intros El Hi. destruct (nth_error nodes i) as [n|] eqn:En; [|apply nth_error_None in En; lia].
  destruct (mapM_nth _ _ _ i n El En) as (y & Ny & Ey). destruct (dget circ n) as [c|] eqn:Ec0; [|discriminate]. injection Ey as <-.
  exists n, c. repeat split; auto. unfold opn. now apply nth_error_nth.
Qed.
Lemma flux_sum_ev N n X v x ts A : (forall j, j < n -> ev N (X j) v (RtoC (x j))) -> (forall t, In t ts -> fst t < n) ->
  flux_sum X ts = Ok A -> ev N A v (RtoC (tsum ts x)).
Proof.
  intros HX Hn. unfold flux_sum. destruct ts as [|t0 ts0] eqn:Ets; [discriminate|]. rewrite <- Ets in *. clear Ets t0 ts0. intros E. injection E as <-.
  assert (G : forall ts F s, (forall t, In t ts -> fst t < n) -> ev N F v (RtoC s) ->
    ev N (fold_left (fun A t => mplus A (msc (RtoC (if snd t : bool then 1 else -1)) (X (fst t)))) ts F) v (RtoC (s + tsum ts x))).
  { clear ts Hn. induction ts as [|t ts IH]; intros F s Hn HF; cbn [fold_left].
    - unfold tsum. cbn. now rewrite Rplus_0_r.
    - unfold tsum. cbn [map fold_right]. fold (tsum ts x). rewrite <- Rplus_assoc. apply IH; [intros; apply Hn; now right|].
      rewrite RtoC_plus. apply ev_plus; [easy|].
      replace (sgn t x) with ((if snd t then 1 else -1) * x (fst t))%R by (unfold sgn; destruct (snd t); ring).
      apply ev_scR, HX, Hn. now left. }
  specialize (G ts mzero 0%R Hn (ev_zero N v)). now rewrite Rplus_0_l in G.
Qed.
Lemma c82_inductive N argord s nodes edges h k circ e i A v x kap b d :
  (forall l, Permutation (argord l) l) -> index_of e edges = Ok i -> isInductiveEdge s e = Ok true ->
  (forall j n c, nth_error nodes j = Some n -> dget circ n = Some c -> eigenvector N (cP c) v (RtoC (x j))) ->
  e_IopL k = (kap * h_El h)%R -> h_J h i = 0%R ->
  partial_at (fun y => branch_energy (List.length edges) (h_El h) (h_Ej h) (e_Lb k) (h_J h) y b) (branch_flux nodes edges x) i d ->
  getCurrentOperator N argord s nodes edges h k circ (Some e) = Ok A ->
  eigenvector N A v (RtoC (kap * (d - h_El h * e_Lb k i i * b i - h_El h / 2 * rsum (List.length edges) (fun j =>
     if Nat.eqb j i then 0 else (e_Lb k i j + e_Lb k j i) * (branch_flux nodes edges x j + b j)))))%R.
Proof.
  intros Hp Hi HL HP Hk HJ Hd. unfold getCurrentOperator. destruct (index_mem _ _ _ Hi) as [Hm Hn]. rewrite Hm, Hi, HL. cbn [negb bind].
  destruct (op_vector cP nodes circ) as [ps|] eqn:Ep; [|discriminate]. cbn [bind].
  destruct (flux_sum _ _) as [F|] eqn:EF; [|discriminate]. cbn [bind]. intros E. injection E as <-.
  assert (Li : i < List.length edges) by (apply nth_error_Some; congruence).
  rewrite (partial_unique _ _ _ _ _ Hd (branch_partial _ _ _ _ _ _ _ _ Li)), qgrad_diag by easy. rewrite HJ.
  match goal with |- eigenvector _ _ _ (RtoC ?c) => replace c with (e_IopL k * e_Lb k i i * branch_flux nodes edges x i)%R by (rewrite Hk; ring) end.
  apply ev_scR. rewrite <- (tsum_flux nodes edges x i), <- (tsum_perm _ _ x (Hp _)).
  apply (flux_sum_ev N (List.length nodes) (opn ps)); [| |exact EF].
  - intros j Hj. destruct (op_vector_at cP nodes circ ps j Ep Hj) as (n & c & En & Ec & ->). now apply (HP j n c).
  - intros t Ht. apply (Permutation_in _ (Hp _)) in Ht. now apply (terms_in (List.length nodes) nodes edges eq_refl) in Ht.
Qed.
Lemma c82_inductive_plain N argord s nodes edges h k circ e i A v x kap b d :
  (forall l, Permutation (argord l) l) -> index_of e edges = Ok i -> isInductiveEdge s e = Ok true ->
  (forall j n c, nth_error nodes j = Some n -> dget circ n = Some c -> eigenvector N (cP c) v (RtoC (x j))) ->
  e_IopL k = (kap * h_El h)%R -> h_J h i = 0%R -> b i = 0%R ->
  (forall j, j < List.length edges -> j <> i -> e_Lb k i j = 0%R /\ e_Lb k j i = 0%R) ->
  partial_at (fun y => branch_energy (List.length edges) (h_El h) (h_Ej h) (e_Lb k) (h_J h) y b) (branch_flux nodes edges x) i d ->
  getCurrentOperator N argord s nodes edges h k circ (Some e) = Ok A ->
  eigenvector N A v (RtoC (kap * d)).
Proof.
  intros Hp Hi HL HP Hk HJ Hb HD Hd HA. pose proof (c82_inductive N argord s nodes edges h k circ e i A v x kap b d Hp Hi HL HP Hk HJ Hd HA) as K.
  rewrite rsum_zero in K. { now rewrite Hb, !Rmult_0_r, !Rminus_0_r in K. }
  intros j Hj. destruct (Nat.eqb_spec j i) as [|Nj]; [easy|]. destruct (HD j Hj Nj) as [-> ->]. ring.
Qed.
Lemma c82_josephson N argord s nodes edges h k circ e i A v x kap d :
  (forall l, Permutation (argord l) l) -> index_of e edges = Ok i -> isInductiveEdge s e = Ok false ->
  (forall j n c, nth_error nodes j = Some n -> dget circ n = Some c ->
     eigenvector N (cD c) v (phase (2 * PI * x j)) /\ eigenvector N (cDd c) v (phase (- (2 * PI * x j)))) ->
  e_IopJ k = (kap * (2 * PI * h_Ej h))%R -> (forall j, j < List.length edges -> e_Lb k i j = 0%R /\ e_Lb k j i = 0%R) ->
  partial_at (fun y => branch_energy (List.length edges) (h_El h) (h_Ej h) (e_Lb k) (h_J h) y (h_pb h)) (branch_flux nodes edges x) i d ->
  getCurrentOperator N argord s nodes edges h k circ (Some e) = Ok A ->
  eigenvector N A v (RtoC (- (kap * d))).
Proof.
  intros Hp Hi HL HD Hk HZ Hd. unfold getCurrentOperator. destruct (index_mem _ _ _ Hi) as [Hm Hn]. rewrite Hm, Hi, HL. cbn [negb bind].
  destruct (is_type _ s e) as [[|]|]; cbn [bind]; try discriminate.
  destruct (op_vector cD nodes circ) as [ds|] eqn:Ed; [|discriminate]. destruct (op_vector cDd nodes circ) as [dds|] eqn:Edd; [|discriminate]. cbn [bind].
  destruct (product N (cis (2 * PI * h_pb h i)) _) as [p1|] eqn:P1; [|discriminate]. cbn [bind].
  destruct (product N (cis (- 2 * PI * h_pb h i)) _) as [p2|] eqn:P2; [|discriminate]. cbn [bind]. intros E. injection E as <-.
  assert (Li : i < List.length edges) by (apply nth_error_Some; congruence).
  rewrite (partial_unique _ _ _ _ _ Hd (branch_partial _ _ _ _ _ _ _ _ Li)).
  assert (Q0 : qgrad (List.length edges) (h_El h) (e_Lb k) (branch_flux nodes edges x) (h_pb h) i = 0%R).
  { unfold qgrad. rewrite rsum_zero; [ring|]. intros j Hj. destruct (HZ j Hj) as [-> ->]. ring. }
  rewrite Q0, Rplus_0_l.
  destruct (product_ev N (List.length nodes) (opn ds) (opn dds) v x) with (z := cis (2 * PI * h_pb h i)) (ts := argord (branch_terms nodes edges i)) (p1 := p1) (p2 := p2) as [K1 K2].
  - intros j Hj. destruct (op_vector_at cD nodes circ ds j Ed Hj) as (n & c & En & Ec & ->).
    destruct (op_vector_at cDd nodes circ dds j Edd Hj) as (n' & c' & En' & Ec' & ->).
    rewrite En in En'. injection En' as <-. rewrite Ec in Ec'. injection Ec' as <-. now apply (HD j n c).
  - intros t Ht. apply (Permutation_in _ (Hp _)) in Ht. now apply (terms_in (List.length nodes) nodes edges eq_refl) in Ht.
  - exact P1.
  - rewrite conj_cis. replace (- (2 * PI * h_pb h i))%R with (- 2 * PI * h_pb h i)%R by ring. exact P2.
  - rewrite (tsum_perm _ _ x (Hp _)), tsum_flux in K1, K2. rewrite conj_cis in K2. rewrite <- cis_add in K1, K2.
    rewrite <- Ropp_plus_distr in K2.
    match goal with |- eigenvector _ _ _ (RtoC ?c) => replace (RtoC c) with (Ci * RtoC (1 / 2 * e_IopJ k * h_J h i) *
      (cis (2 * PI * h_pb h i + 2 * PI * branch_flux nodes edges x i) + RtoC (-1) * cis (- (2 * PI * h_pb h i + 2 * PI * branch_flux nodes edges x i))))%C end.
    + apply ev_sc. apply (ev_ext N (mplus p1 (msc (RtoC (-1)) p2))).
      { intros r c _ _. unfold mplus, mminus, msc. replace (RtoC (-1)) with (- RtoC 1)%C by (apply injective_projections; cbn; ring). ring. }
      apply ev_plus; [easy|]. now apply ev_sc.
    + rewrite Hk. replace (2 * PI * (branch_flux nodes edges x i + h_pb h i))%R with (2 * PI * h_pb h i + 2 * PI * branch_flux nodes edges x i)%R by ring.
      apply injective_projections; cbn; rewrite ?cos_neg, ?sin_neg; field.
Qed.
(** the same for the operators themselves: the current operator is minus the
    derivative of the Josephson part with respect to the bias *)
Lemma lsum_split (f g : nat * (cmat * cmat) -> C) l : lsum (map (fun x => f x + g x)%C l) = (lsum (map f l) + lsum (map g l))%C.
Proof. induction l as [|x l IH]; cbn; [now rewrite Cplus_0_l|]. unfold lsum in *. rewrite IH. ring. Qed.
Lemma junctions_in m J e : In e (junctions m J) <-> e < m /\ J e <> 0%R.
Proof. unfold junctions. rewrite filter_In, in_seq. destruct (Req_EM_T (J e) 0); split; intros [A B]; try congruence; split; auto; lia. Qed.
Lemma junctions_nodup m J : NoDup (junctions m J).
Proof. apply NoDup_filter, seq_NoDup. Qed.
Lemma phase_lim a b c t0 : derivable_pt_lim (fun t => a + b * cos (2 * PI * t) + c * sin (2 * PI * t))%R t0 (2 * PI * (c * cos (2 * PI * t0) - b * sin (2 * PI * t0)))%R.
Proof.
  assert (L : derivable_pt_lim (fun t => 2 * PI * t)%R t0 (2 * PI)%R).
  { match goal with |- derivable_pt_lim ?g _ _ => assert (K : derivable_pt_lim g t0 (2 * PI * 1)%R); [|now rewrite Rmult_1_r in K] end.
    apply (derivable_pt_lim_scal (fun t => t)), derivable_pt_lim_id. }
  replace (2 * PI * (c * cos (2 * PI * t0) - b * sin (2 * PI * t0)))%R with (0 + b * (- sin (2 * PI * t0) * (2 * PI)) + c * (cos (2 * PI * t0) * (2 * PI)))%R by ring.
  apply (derivable_pt_lim_plus (fun t => a + b * cos (2 * PI * t))%R (fun t => c * sin (2 * PI * t))%R).
  - apply (derivable_pt_lim_plus (fun _ => a) (fun t => b * cos (2 * PI * t))%R); [apply derivable_pt_lim_const|].
    apply (derivable_pt_lim_scal (fun t => cos (2 * PI * t))). apply (derivable_pt_lim_comp (fun t => 2 * PI * t)%R cos); [exact L | apply derivable_pt_lim_cos].
  - apply (derivable_pt_lim_scal (fun t => sin (2 * PI * t))). apply (derivable_pt_lim_comp (fun t => 2 * PI * t)%R sin); [exact L | apply derivable_pt_lim_sin].
Qed.
Lemma lim_ext F G t0 d : (forall t, F t = G t) -> derivable_pt_lim F t0 d -> derivable_pt_lim G t0 d.
Proof. intros E A eps He. destruct (A eps He) as [dl K]. exists dl. intros e Ne Le. rewrite <- !E. now apply K. Qed.
(** the static part at a junction *)
Lemma static_at N argord nodes edges h circ ds dds m L Rr :
  op_vector cD nodes circ = Ok ds -> op_vector cDd nodes circ = Ok dds ->
  foldM (fun (r : list cmat * list cmat) i =>
    if Req_EM_T (h_J h i) 0 then Ok r else
    let ts := argord (branch_terms nodes edges i) in
    bind (product N (RtoC 1) (left_ops (opn ds) (opn dds) ts)) (fun p1 =>
    bind (product N (RtoC 1) (right_ops (opn ds) (opn dds) ts)) (fun p2 =>
    let c := RtoC (- (1 / 2) * h_Ej h * h_J h i) in
    Ok (fst r ++ [msc c p1], snd r ++ [msc c p2])))) (seq 0 m) ([], []) = Ok (L, Rr) ->
  List.length L = List.length (junctions m (h_J h)) /\ List.length Rr = List.length (junctions m (h_J h)) /\
  forall i A B, In (i, (A, B)) (combine (junctions m (h_J h)) (combine L Rr)) ->
    exists p1 p2, product N (RtoC 1) (left_ops (opn ds) (opn dds) (argord (branch_terms nodes edges i))) = Ok p1 /\
      product N (RtoC 1) (right_ops (opn ds) (opn dds) (argord (branch_terms nodes edges i))) = Ok p2 /\
      A = msc (RtoC (- (1 / 2) * h_Ej h * h_J h i)) p1 /\ B = msc (RtoC (- (1 / 2) * h_Ej h * h_J h i)) p2.
Proof.
  intros Ed Edd. revert L Rr. induction m as [|m IH]; intros L Rr.
  - cbn. intros E. injection E as <- <-. easy.
  - rewrite seq_S, foldM_app.
    match goal with |- bind ?F _ = _ -> _ => destruct F as [[L0 R0]|] eqn:E0; [|discriminate] end. cbn [bind Nat.add foldM].
    destruct (IH L0 R0 eq_refl) as (N1 & N2 & IH3). clear IH. rewrite junctions_snoc.
    destruct (Req_EM_T (h_J h m) 0) as [Z|Z]; [cbn [bind]; intros E; injection E as <- <-; rewrite app_nil_r; auto|]. cbv zeta.
    match goal with |- bind (bind ?F _) _ = _ -> _ => destruct F as [q1|] eqn:Q1; [|discriminate] end. cbn [bind].
    match goal with |- bind (bind ?F _) _ = _ -> _ => destruct F as [q2|] eqn:Q2; [|discriminate] end. cbn [bind fst snd].
    intros E. injection E as <- <-. rewrite !app_length. cbn [List.length]. split; [lia|]. split; [lia|].
    intros i A B. rewrite combine_app by congruence. rewrite combine_app by (rewrite combine_length; lia). intros Hin. apply in_app_or in Hin as [Hin|Hin]; [auto|].
    cbn in Hin. destruct Hin as [Hin|[]]. injection Hin as <- <- <-. eauto 6.
Qed.
Lemma lsum_one (f : nat * (cmat * cmat) -> C) (g : R -> nat * (cmat * cmat) -> C) i js M :
  NoDup js -> List.length M = List.length js -> In i js ->
  (forall t x, fst x <> i -> g t x = f x) ->
  exists X K, In (i, X) (combine js M) /\ forall t, lsum (map (g t) (combine js M)) = (K + g t (i, X))%C.
Proof.
  revert M. induction js as [|j js IH]; intros [|X M] ND HL Hi Hg; try easy. inversion ND as [|? ? N1 N2]; subst. cbn [combine map lsum fold_right].
  fold (lsum (map f (combine js M))).
  destruct (Nat.eq_dec j i) as [->|Nj].
  - exists X, (lsum (map f (combine js M))). split; [now left|]. intros t. rewrite Cplus_comm. f_equal. unfold lsum. f_equal. apply map_ext_in. intros [a b] Ha.
    apply Hg. cbn. intros ->. apply in_combine_l in Ha. contradiction.
  - destruct Hi as [->|Hi]; [easy|]. destruct (IH M N2 (f_equal pred HL) Hi Hg) as (X' & K & H1 & H2). exists X', (f (j, X) + K)%C. split; [now right|].
    intros t. specialize (H2 t). unfold lsum in H2 |- *. rewrite H2, (Hg t (j, X)) by easy. ring.
Qed.
Lemma c82_operator N argord s nodes edges h k circ e i A L Rr kap :
  index_of e edges = Ok i -> isInductiveEdge s e = Ok false -> h_J h i <> 0%R ->
  e_IopJ k = (kap * (2 * PI * h_Ej h))%R ->
  getStaticJosephsonPart N argord nodes edges h circ = Ok (L, Rr) ->
  getCurrentOperator N argord s nodes edges h k circ (Some e) = Ok A ->
  forall r c,
  derivable_pt_lim (fun t => kap * fst (recombine (put (h_pb h) i t) (junctions (List.length edges) (h_J h)) L Rr r c))%R (h_pb h i) (- fst (A r c))%R /\
  derivable_pt_lim (fun t => kap * snd (recombine (put (h_pb h) i t) (junctions (List.length edges) (h_J h)) L Rr r c))%R (h_pb h i) (- snd (A r c))%R.
Proof.
  intros Hi HL HJ Hk. unfold getStaticJosephsonPart, getCurrentOperator. destruct (index_mem _ _ _ Hi) as [Hm Hn]. rewrite Hm, Hi, HL. cbn [negb bind].
  destruct (is_type _ s e) as [[|]|]; cbn [bind]; try discriminate.
  destruct (op_vector cD nodes circ) as [ds|] eqn:Ed; [|discriminate]. destruct (op_vector cDd nodes circ) as [dds|] eqn:Edd; [|discriminate]. cbn [bind].
  intros ES. destruct (static_at _ _ _ _ _ _ _ _ _ _ _ Ed Edd ES) as (N1 & N2 & ST). clear ES.
  destruct (product N (cis (2 * PI * h_pb h i)) _) as [p1|] eqn:P1; [|discriminate]. cbn [bind].
  destruct (product N (cis (- 2 * PI * h_pb h i)) _) as [p2|] eqn:P2; [|discriminate]. cbn [bind]. intros E. injection E as <-.
  destruct (product_scale _ _ _ _ P1) as (q1 & Q1 & K1). destruct (product_scale _ _ _ _ P2) as (q2 & Q2 & K2).
  assert (Li : i < List.length edges) by (apply nth_error_Some; congruence).
  intros r c.
  set (f := fun x : nat * (cmat * cmat) => (cis (2 * PI * h_pb h (fst x)) * fst (snd x) r c + cis (- (2 * PI * h_pb h (fst x))) * snd (snd x) r c)%C).
  set (g := fun t (x : nat * (cmat * cmat)) => (cis (2 * PI * put (h_pb h) i t (fst x)) * fst (snd x) r c + cis (- (2 * PI * put (h_pb h) i t (fst x))) * snd (snd x) r c)%C).
  destruct (lsum_one f g i (junctions (List.length edges) (h_J h)) (combine L Rr)) as ([X Y] & K & H1 & H2).
  { apply junctions_nodup. } { rewrite combine_length. lia. } { now apply junctions_in. }
  { intros t [j x] Nj. unfold g, f, put. cbn [fst snd] in *. destruct (Nat.eqb_spec j i); [easy|reflexivity]. }
  destruct (ST i X Y H1) as (q1' & q2' & Q1' & Q2' & -> & ->). unfold left_ops, right_ops in *. rewrite Q1 in Q1'. injection Q1' as <-. rewrite Q2 in Q2'. injection Q2' as <-.
  assert (R0 : forall t, recombine (put (h_pb h) i t) (junctions (List.length edges) (h_J h)) L Rr r c = (K + g t (i, (msc (RtoC (- (1 / 2) * h_Ej h * h_J h i)) q1, msc (RtoC (- (1 / 2) * h_Ej h * h_J h i)) q2)))%C) by exact H2.
  set (m := (- (1 / 2) * h_Ej h * h_J h i)%R) in *.
  assert (G1 : forall t, fst (recombine (put (h_pb h) i t) (junctions (List.length edges) (h_J h)) L Rr r c) =
     (fst K + (m * (fst (q1 r c) + fst (q2 r c))) * cos (2 * PI * t) + (m * (snd (q2 r c) - snd (q1 r c))) * sin (2 * PI * t))%R).
  { intros t. rewrite R0. unfold g, put, msc. cbn [fst snd]. rewrite Nat.eqb_refl. unfold cis. rewrite cos_neg, sin_neg. cbn. ring. }
  assert (G2 : forall t, snd (recombine (put (h_pb h) i t) (junctions (List.length edges) (h_J h)) L Rr r c) =
     (snd K + (m * (snd (q1 r c) + snd (q2 r c))) * cos (2 * PI * t) + (m * (fst (q1 r c) - fst (q2 r c))) * sin (2 * PI * t))%R).
  { intros t. rewrite R0. unfold g, put, msc. cbn [fst snd]. rewrite Nat.eqb_refl. unfold cis. rewrite cos_neg, sin_neg. cbn. ring. }
  assert (A1 := phase_lim (fst K) (m * (fst (q1 r c) + fst (q2 r c))) (m * (snd (q2 r c) - snd (q1 r c))) (h_pb h i)).
  assert (A2 := phase_lim (snd K) (m * (snd (q1 r c) + snd (q2 r c))) (m * (fst (q1 r c) - fst (q2 r c))) (h_pb h i)).
  apply (derivable_pt_lim_scal _ kap) in A1. apply (derivable_pt_lim_scal _ kap) in A2.
  unfold msc, mminus. rewrite K1, K2. replace (- 2 * PI * h_pb h i)%R with (- (2 * PI * h_pb h i))%R by ring.
  split; [revert A1 | revert A2]; match goal with |- derivable_pt_lim _ _ ?d' -> derivable_pt_lim _ _ ?d => assert (W : d' = d);
    [| rewrite <- W; apply lim_ext; intros t; unfold mult_real_fct; now rewrite ?G1, ?G2] end;
    rewrite Hk; unfold m, cis; rewrite cos_neg, sin_neg; cbn; field.
Qed.
