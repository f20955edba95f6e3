(** Examples for C126: two junctions in parallel, with two truncations. *)
From Coq Require Import Nsatz.
From Coq Require Import List Bool String Ascii Arith Lia ZArith Reals Lra Permutation.
From Coquelicot Require Import Complex.
From Verif Require Import Prelude PreludeFacts Mat MatFacts Util UtilProofs Graph GraphSpec GraphView GraphForest GraphWf GraphCircuit GraphState GraphMaps GraphOps GraphProofs CollLast Sweep SweepProofs SweepResultProofs Symbolic SymbolicSpec RSum SymbolicInv SymbolicCap SymbolicCap2 SymbolicFlux SymbolicNew SymbolicProofs MutualSpec MutualProofs NumOp NumOpSpec NumKron NumSpectral NumCharge NumExpand NumHerm NumPot NumFlux NumOpProofs NumSweepRef
  SymHam SymHamSpec SymHamProofs SymHamQ SymHamT SymHamEx SymTotal SymTotalSpec SymTotalProofs SymTotalMain MoveSpec MoveProofs MoveEx NumSubst NumSymSpec NumSymProofs NumSymHam NumSymNode NumSymMain NumSymEx NumGaugeSpec NumGauge NumGaugeHam NumGaugeMain NumGaugeEx NumOsc NumTruncSpec NumTrunc NumTruncLevels.
Import ListNotations.
Open Scope string_scope.
Open Scope list_scope.
Open Scope nat_scope.

Definition one_cops (o : ops) : cops := let t A := tensor [(o_dim o, A)] in mkcops [o_dim o] (t (oQ o)) (t (oP o)) (t (oD o)) (t (oDd o)) (t (oS o)) (t (oSd o)).
Definition two : list edge := [(0, 1, 1); (1, 0, 2)].
Lemma tensor_1 n A i j : tensor [(n, A)] i j = A i j.
Proof. cbn [tensor map prodn fold_right]. unfold kron. cbn [fst map fold_right prodn]. rewrite !Nat.div_1_r. ring. Qed.
Lemma one_ham argord o h : (forall l, Permutation (argord l) l) ->
  h_J h 0 = 1%R -> h_J h 1 = 2%R -> h_Ps h 0 = 0%R -> h_Ps h 1 = 0%R -> h_Qb h 0 = 0%R -> h_Linv h 0 0 = 0%R -> h_pb h 0 = 0%R -> h_pb h 1 = 0%R -> h_Cinv h 0 0 = 1%R ->
  let c := one_cops o in let n := o_dim o in
  exists H, getHamiltonian n argord [1] two h [cQ c] [cP c] [(1, c)] = Ok H /\
    forall i j, H i j = sanC atol (RtoC (h_Ec h / 2) * S n (fun k => oQ o i k * oQ o k j) - RtoC (3 / 2 * h_Ej h) * (oD o i j + oDd o i j))%C.
Proof.
  intros Hp J0 J1 P0 P1 q0 l0 b0 b1 c0 c n.
  assert (TQ : forall i j, cQ c i j = oQ o i j) by (intros; apply tensor_1). assert (TD : forall i j, cD c i j = oD o i j) by (intros; apply tensor_1). assert (TDd : forall i j, cDd c i j = oDd o i j) by (intros; apply tensor_1).
  assert (X : forall x : nat * bool, argord [x] = [x]). { intros x. exact (Permutation_length_1_inv (Permutation_sym (Hp [x]))). }
  unfold getHamiltonian, two. change (op_vector cD [1] [(1, c)]) with (Ok [cD c]). change (op_vector cDd [1] [(1, c)]) with (Ok [cDd c]). change (op_vector cS [1] [(1, c)]) with (Ok [cS c]). change (op_vector cSd [1] [(1, c)]) with (Ok [cSd c]). cbn [bind].
  unfold cosine_part. cbn [List.length seq foldM]. rewrite J0, J1, P0, P1.
  destruct (Req_EM_T 0 0) as [_|]; [|lra]. destruct (Req_EM_T 1 0) as [|_]; [lra|]. destruct (Req_EM_T 2 0) as [|_]; [lra|]. cbn [bind].
  change (branch_terms [1] [(0, 1, 1); (1, 0, 2)] 0) with [(0, false)]. change (branch_terms [1] [(0, 1, 1); (1, 0, 2)] 1) with [(0, true)]. rewrite !X. cbn [map snd fst product bind fold_left].
  eexists. split; [reflexivity|]. intros i j. unfold tidyup. f_equal. rewrite b0, b1.
  unfold mplus, msc, mzero. rewrite !NumHerm.quadform_eq. cbn [List.length sumn kadd kmul k0 C_rng opn nth]. rewrite l0, c0.
  assert (M : mm n (shifted [cQ c] (h_Qb h) 0) (shifted [cQ c] (h_Qb h) 0) i j = S n (fun k => (oQ o i k * oQ o k j)%C)).
  { unfold mm, mmul. apply S_ext. intros k _. cbn [kmul C_rng]. unfold shifted, mplus, msc. rewrite q0. unfold opn. cbn [nth]. rewrite !TQ. cring. }
  rewrite M. unfold opn. cbn [nth]. rewrite !TD, !TDd. replace (2 * PI * 0)%R with 0%R by ring. replace (-2 * PI * 0)%R with 0%R by ring. rewrite !cis_0.
  generalize (S n (fun k => (oQ o i k * oQ o k j)%C)). intros q. generalize (mm n (shifted [cP c] (h_Pbi h) 0) (shifted [cP c] (h_Pbi h) 0) i j). intros p.
  apply injective_projections; cbn; field.
Qed.
Lemma one_circ eigh inv z ka kb pmax chg flx d o : ident_dim d = Some (o_dim o) -> getOperatorList eigh inv z ka kb pmax chg flx 1 d = Ok o ->
  getExpandedOperatorsMap (getOperatorList eigh inv z ka kb pmax chg flx) [1] [(1, d)] None [] = Ok [(1, one_cops o)].
Proof.
  intros Hd Ho. set (gen := getOperatorList eigh inv z ka kb pmax chg flx) in *.
  transitivity (bind (gen 1 d) (fun o => bind (expand [ident_dim d] 0 o) (fun e => Ok [(1, e)]))).
  - unfold getExpandedOperatorsMap. cbn [mapM bind]. change (dget [(1, d)] 1) with (Some d). cbn. unfold enumerate. cbn. destruct (gen 1 d) as [o'|]; [|reflexivity]. cbn [bind]. destruct (expand [ident_dim d] 0 o'); reflexivity.
  - rewrite Ho. reflexivity.
Qed.
Lemma two_inputs ec ej : exists y h, system y /\ ss_nodes y = [1] /\ ss_edges y = two /\ inverted y (v_par (wq 0)) id_mat (fun _ _ => 0%R) /\ ideal y (v_par (wq 0)) /\ (forall e, ~ kind_at y "L" e) /\
  substitute y (wq 0) id_mat (fun _ _ => 0%R) ec 1 ej 1 = Ok h /\ h_Ec h = ec /\ h_Ej h = ej /\
  h_J h 0 = 1%R /\ h_J h 1 = 2%R /\ h_Ps h 0 = 0%R /\ h_Ps h 1 = 0%R /\ h_Qb h 0 = 0%R /\ h_Linv h 0 0 = 0%R /\ h_pb h 0 = 0%R /\ h_pb h 1 = 0%R /\ h_Cinv h 0 0 = 1%R.
Proof.
  destruct Lsq_values as (y & Hy & E1 & E2 & E3 & E4 & K1 & K2 & HS & HV & HI & L1 & L2 & V1 & V2). exists y. eexists. do 5 (split; [assumption|]). split.
  { intros e (He & c & Ec & HL). rewrite E2 in He. unfold lname in L1, L2. destruct He as [<-|[<-|[]]]; rewrite Ec in *; destruct (starts "I" c) eqn:S1; try discriminate;
      destruct c as [|q c]; try discriminate; unfold starts, letter in *; cbn in S1, HL; apply Ascii.eqb_eq in S1, HL; subst; discriminate. }
  unfold substitute, getJosephsonVector, getPhaseSlipVector. rewrite !(vector_ok y Hy), <- (m_red y (system_inv y Hy)), (bias_ok y Hy), E2. cbn [map bind]. rewrite L1, L2, V1, V2. split; [reflexivity|].
  cbn [h_Ec h_Ej h_J h_Ps h_Qb h_Linv h_pb h_Cinv]. split; [reflexivity|]. split; [reflexivity|]. do 4 (split; [reflexivity|]).
  split; [unfold charge_bias; rewrite E1, E4; reflexivity|]. split; [unfold inverse_inductance; apply sumR_0; intros k _; apply sumR_0; intros l _; ring|].
  assert (T : forall l, SymHam.total (v_flux (wq 0)) l = 0%R). { intros l. unfold SymHam.total. cbn [v_flux wq]. induction l as [|x l IH]; cbn in *; [reflexivity|]. rewrite ?IH. lra. }
  split; [apply T|]. split; [apply T|]. reflexivity.
Qed.

(** ** the charge basis, truncated at 0 and at 1 *)
Definition ceigh (n : nat) (_ : cmat) : (nat -> R) * cmat := let t := (n - 1) / 2 in (lam t, Phi t).
Definition cinv (_ : nat) (V : cmat) : cmat := mdag V.
Lemma ceigh_right t : right_on ceigh cinv (2 * t + 1) (chargeP t).
Proof. unfold right_on, ceigh, cinv. cbn [fst snd]. replace ((2 * t + 1 - 1) / 2) with t; [apply chargeP_eigen|]. rewrite Nat.add_sub, Nat.mul_comm. symmetry. now apply Nat.div_mul. Qed.
Definition ev3 : matrix := fun i k => RtoC (match k, i with
  | 0, 1 => 2 / sqrt 6 | 0, _ => 1 / sqrt 6 | 1, 0 => 1 / sqrt 2 | 1, 1 => 0 | 1, _ => - (1 / sqrt 2) | _, 1 => - (1 / sqrt 3) | _, _ => 1 / sqrt 3 end)%R.
Definition lv3 (k : nat) : R := match k with 0 => -1 | 1 => 1 | _ => 2 end%R.
Definition m3 (i j : nat) : R := match i, j with 0, 0 => 1 | 2, 2 => 1 | 0, 1 => -1 | 1, 0 => -1 | 1, 2 => -1 | 2, 1 => -1 | _, _ => 0 end%R.
Lemma m3_spectrum H : (forall i j, i < 3 -> j < 3 -> H i j = RtoC (m3 i j)) -> spectrum 3 H lv3.
Proof.
  intros HH. assert (A6 : (sqrt 6 * sqrt 6 = 6)%R) by (apply sqrt_sqrt; lra). assert (A2 : (sqrt 2 * sqrt 2 = 2)%R) by (apply sqrt_sqrt; lra). assert (A3 : (sqrt 3 * sqrt 3 = 3)%R) by (apply sqrt_sqrt; lra).
  assert (N6 : (0 < sqrt 6)%R) by (apply sqrt_lt_R0; lra). assert (N2 : (0 < sqrt 2)%R) by (apply sqrt_lt_R0; lra). assert (N3 : (0 < sqrt 3)%R) by (apply sqrt_lt_R0; lra).
  assert (B6 : (/ sqrt 6 * / sqrt 6 = / 6)%R) by (rewrite <- Rinv_mult, A6; reflexivity). assert (B2 : (/ sqrt 2 * / sqrt 2 = / 2)%R) by (rewrite <- Rinv_mult, A2; reflexivity). assert (B3 : (/ sqrt 3 * / sqrt 3 = / 3)%R) by (rewrite <- Rinv_mult, A3; reflexivity).
  assert (C6 : (6 * (/ sqrt 6 * / sqrt 6) = 1)%R) by (rewrite B6; field). assert (C2 : (2 * (/ sqrt 2 * / sqrt 2) = 1)%R) by (rewrite B2; field). assert (C3 : (3 * (/ sqrt 3 * / sqrt 3) = 1)%R) by (rewrite B3; field).
  exists ev3. clear - HH C6 C2 C3. split; [split|]; intros i j Hi Hj; (destruct i as [|[|[|i]]]; [| | |lia]); (destruct j as [|[|[|j]]]; [| | |lia]); unfold mul, csum, adjoint, identity, diagonal, ev3; cbn [Nat.eqb]; rewrite ?HH by lia; unfold m3, lv3; clear HH Hi Hj;
    unfold Rdiv; revert C6 C2 C3; generalize (/ sqrt 6)%R, (/ sqrt 2)%R, (/ sqrt 3)%R; intros a b c C6 C2 C3; apply injective_projections; cbn; try ring; nra.
Qed.
Definition cdata (t : nat) : dict nat opdata := [(1, mkod t BCharge)].
Lemma trunc_witness argord : (forall l, Permutation (argord l) l) ->
  exists eigh inv y circ circ' Qnp Pnp Qnp' Pnp' c c' h H H' E E', let gen := getOperatorList eigh inv z1 z1 z1 z1 1 1 in let P := fun _ _ => 0%R in
  system y /\ ss_nodes y = [1] /\ inverted y (v_par (wq 0)) id_mat P /\ (forall m, In m (ss_nodes y) -> refined eigh inv y (cdata 0) (cdata 1) m) /\
  getExpandedOperatorsMap gen (ss_nodes y) (cdata 0) None [] = Ok circ /\ op_vector cQ (ss_nodes y) circ = Ok Qnp /\ op_vector cP (ss_nodes y) circ = Ok Pnp /\
  getExpandedOperatorsMap gen (ss_nodes y) (cdata 1) None [] = Ok circ' /\ op_vector cQ (ss_nodes y) circ' = Ok Qnp' /\ op_vector cP (ss_nodes y) circ' = Ok Pnp' /\
  In 1 (ss_nodes y) /\ dget circ 1 = Some c /\ dget circ' 1 = Some c' /\ c_dims c = [1] /\ c_dims c' = [3] /\ substitute y (wq 0) id_mat P 2 1 (2 / 3) 1 = Ok h /\
  getHamiltonian 1 argord (ss_nodes y) (ss_edges y) h Qnp Pnp circ = Ok H /\ getHamiltonian 3 argord (ss_nodes y) (ss_edges y) h Qnp' Pnp' circ' = Ok H' /\
  spectrum 1 H E /\ ascending 1 E /\ spectrum 3 H' E' /\ ascending 3 E' /\ E 0 = 0%R /\ E' 0 = (-1)%R.
Proof.
  intros Hp. destruct (two_inputs 2 (2 / 3)) as (y & h & Hy & E1 & E2 & HV & HI & HL & Sh & h1 & h2 & h3 & h4 & h5 & h6 & h7 & h8 & h9 & h10 & h11).
  set (o := fun t => charge_basis ceigh cinv t).
  assert (HM : forall t, exists H, getHamiltonian (2 * t + 1) argord [1] two h [cQ (one_cops (o t))] [cP (one_cops (o t))] [(1, one_cops (o t))] = Ok H /\ forall i j, i < 2 * t + 1 -> j < 2 * t + 1 ->
    H i j = sanC atol (S (2 * t + 1) (fun k => oQ (o t) i k * oQ (o t) k j) - ((if Nat.eqb j (i + 1) then RtoC 1 else RtoC 0) + (if Nat.eqb i (j + 1) then RtoC 1 else RtoC 0)))%C).
  { intros t. destruct (one_ham argord (o t) h Hp h3 h4 h5 h6 h7 h8 h9 h10 h11) as (H & EH & VH). cbv zeta in EH. change (o_dim (o t)) with (2 * t + 1) in *. exists H. split; [exact EH|]. intros i j Hi Hj. rewrite VH, h1, h2.
    destruct (charge_oD ceigh cinv t (ceigh_right t)) as [D1 D2]. fold (o t) in D1, D2. rewrite (D1 i j Hi Hj), (D2 i j Hi Hj). unfold mdag, shift.
    assert (X : Cconj (if Nat.eqb i (j + 1) then RtoC 1 else RtoC 0) = if Nat.eqb i (j + 1) then RtoC 1 else RtoC 0) by (destruct (Nat.eqb i (j + 1)); apply conj_R). rewrite X.
    f_equal. replace (2 / 2)%R with 1%R by field. replace (3 / 2 * (2 / 3))%R with 1%R by field. ring. }
  destruct (HM 0) as (H & EH & VH), (HM 1) as (H' & EH' & VH'). cbn [Nat.mul Nat.add] in EH, EH', VH, VH'.
  assert (Q : forall t i j, oQ (o t) i j = if Nat.eqb i j then RtoC (IZR (Z.of_nat t - Z.of_nat i)) else RtoC 0) by (intros; apply charge_oQ).
  assert (F : forall t, free_node ceigh cinv y (cdata t) 1). { intros t. split; [exists (mkod t BCharge); split; [reflexivity|]; split; [reflexivity | apply ceigh_right]|]. intros e He. destruct (HL e He). }
  exists ceigh, cinv, y, [(1, one_cops (o 0))], [(1, one_cops (o 1))], [cQ (one_cops (o 0))], [cP (one_cops (o 0))], [cQ (one_cops (o 1))], [cP (one_cops (o 1))], (one_cops (o 0)), (one_cops (o 1)), h, H, H', (fun _ => 0%R), lv3. cbv zeta. rewrite E1, E2.
  split; [exact Hy|]. split; [reflexivity|]. split; [exact HV|]. split. { intros m [<-|[]]. right. exists 0, 1. split; [lia|]. split; [reflexivity|]. split; [reflexivity|]. split; apply F. }
  split; [apply one_circ; reflexivity|]. split; [reflexivity|]. split; [reflexivity|]. split; [apply one_circ; reflexivity|]. split; [reflexivity|]. split; [reflexivity|]. split; [now left|]. do 4 (split; [reflexivity|]). split; [exact Sh|]. split; [exact EH|]. split; [exact EH'|].
  split. { apply spectrum_1. rewrite VH by lia. unfold S. cbn [sumn Nat.eqb Nat.add kadd k0 C_rng]. rewrite !Q. cbn [Nat.eqb]. match goal with |- sanC _ ?a = _ => replace a with (RtoC 0) by (apply injective_projections; cbn; ring) end. apply sanC_kept. now left. }
  split; [intros i j _ _; lra|]. split.
  { apply m3_spectrum. intros i j Hi Hj. rewrite VH' by easy. unfold S. cbn [sumn kadd k0 C_rng]. rewrite !Q. (destruct i as [|[|[|i]]]; [| | |lia]); (destruct j as [|[|[|j]]]; [| | |lia]); cbn [Nat.eqb Nat.add m3];
      (match goal with |- sanC _ ?a = RtoC ?b => replace a with (RtoC b) by (apply injective_projections; cbn; ring) end); apply sanC_kept; try (left; reflexivity); right; unfold Rabs; destruct (Rcase_abs _); lra. }
  split. { intros i j Hij Hj. destruct j as [|[|[|j]]]; [| | |lia]; (destruct i as [|[|[|i]]]; try lia); cbn; lra. }
  split; [reflexivity|]. reflexivity.
Qed.

(** ** the oscillator basis, truncated at 1 and at 2 *)
(** an eigensolver for matrices 0 and ((0, a), (conj a, 0)) *)
Definition oeigh (n : nat) (A : cmat) : (nat -> R) * cmat :=
  if Nat.eqb n 1 then (fun _ => 0%R, eye) else
  let a := A 0 1 in let m := Cmod a in let u := (a / RtoC m)%C in
  (fun k => if Nat.eqb k 0 then (- m)%R else m, fun i k => (RtoC (/ sqrt 2) * (if Nat.eqb i 0 then RtoC 1 else if Nat.eqb k 0 then - Cconj u else Cconj u))%C).
Definition oinv (_ : nat) (V : cmat) : cmat := mdag V.
Lemma oeigh_right1 A : A 0 0 = RtoC 0 -> right_on oeigh oinv 1 A.
Proof.
  intros HA. unfold right_on, eigen_ok, same, mul, csum, oeigh, oinv. cbn [fst snd Nat.eqb].
  split; [|split]; intros i j Hi Hj; destruct i as [|i]; try lia; destruct j as [|j]; try lia; unfold mdag, diagonal, identity, eye; cbn; rewrite ?HA; apply injective_projections; cbn; ring.
Qed.
Section Two.
  Variables (A : cmat) (m : R) (u : C).
  Hypothesis (Hm : (0 < m)%R) (Hu : (fst u * fst u + snd u * snd u = 1)%R) (A00 : A 0 0 = RtoC 0) (A11 : A 1 1 = RtoC 0) (A01 : A 0 1 = (RtoC m * u)%C) (A10 : A 1 0 = Cconj (RtoC m * u)%C).
  Lemma oeigh_2 : oeigh 2 A = (fun k => if Nat.eqb k 0 then (- m)%R else m, fun i k => (RtoC (/ sqrt 2) * (if Nat.eqb i 0 then RtoC 1 else if Nat.eqb k 0 then - Cconj u else Cconj u))%C).
  Proof.
    unfold oeigh. cbn [Nat.eqb]. rewrite A01. assert (M : Cmod (RtoC m * u)%C = m).
    { rewrite Cmod_mult, Cmod_R, (Rabs_pos_eq m) by lra. unfold Cmod. replace (fst u ^ 2 + snd u ^ 2)%R with 1%R by (cbn; lra). rewrite sqrt_1. ring. }
    rewrite M. replace (RtoC m * u / RtoC m)%C with u; [reflexivity|]. field. intros X. apply RtoC_inj in X. lra.
  Qed.
  Lemma r2 : (2 * (/ sqrt 2 * / sqrt 2) = 1)%R.
  Proof. rewrite <- Rinv_mult, sqrt_sqrt by lra. field. Qed.
  Lemma oeigh_right2 : right_on oeigh oinv 2 A.
  Proof.
    unfold right_on. rewrite oeigh_2. unfold eigen_ok, same, mul, csum, oinv. cbn [fst snd]. pose proof r2 as R2. revert R2. generalize (/ sqrt 2)%R. intros r R2.
    clear - Hu A00 A11 A01 A10 R2. destruct u as [p q]. cbn [fst snd] in Hu.
    split; [|split]; intros i j Hi Hj; (destruct i as [|[|i]]; [| |lia]); (destruct j as [|[|j]]; [| |lia]); unfold mdag, diagonal, identity; cbn [Nat.eqb sumn]; rewrite ?A00, ?A01, ?A10, ?A11; clear A00 A01 A10 A11 Hi Hj; apply injective_projections; cbn; try ring; nsatz.
  Qed.
  Lemma omatfun_2 : m = PI -> forall i j, i < 2 -> j < 2 -> matfun oeigh oinv 2 cis A i j = if Nat.eqb i j then RtoC (-1) else RtoC 0.
  Proof.
    intros E i j Hi Hj. unfold matfun. rewrite oeigh_2. unfold mm, mmul, oinv, mdag, cdiag. cbn [sumn kadd kmul k0 C_rng]. pose proof r2 as R2. revert R2. generalize (/ sqrt 2)%R. intros r R2.
    assert (X : cis PI = RtoC (-1)) by (unfold cis; now rewrite cos_PI, sin_PI). assert (X' : cis (- PI) = RtoC (-1)) by (unfold cis; rewrite cos_neg, sin_neg, cos_PI, sin_PI; unfold RtoC; f_equal; ring).
    cbn [Nat.eqb]. rewrite E, X, X'. clear - Hu R2 Hi Hj. destruct u as [p q]. cbn [fst snd] in Hu.
    (destruct i as [|[|i]]; [| |lia]); (destruct j as [|[|j]]; [| |lia]); cbn [Nat.eqb]; apply injective_projections; cbn; try ring; [lra|]. transitivity (- (2 * (r * r)) * (p * p + q * q))%R; [ring | rewrite Hu, R2; ring].
  Qed.
End Two.
Definition odata (t : nat) : dict nat opdata := [(1, mkod t BOscillator)].
Lemma oscillator_rises argord : (forall l, Permutation (argord l) l) ->
  exists eigh inv z ka kb y circ circ' Qnp Pnp Qnp' Pnp' c c' h H H' E E', let gen := getOperatorList eigh inv z ka kb z1 1 1 in let P := fun _ _ => 0%R in
  system y /\ ss_nodes y = [1] /\ inverted y (v_par (wq 0)) id_mat P /\ (forall e, ~ kind_at y "L" e) /\
  solved eigh inv z ka kb 1 1 1 (mkod 1 BOscillator) /\ solved eigh inv z ka kb 1 1 1 (mkod 2 BOscillator) /\
  getExpandedOperatorsMap gen (ss_nodes y) (odata 1) None [] = Ok circ /\ op_vector cQ (ss_nodes y) circ = Ok Qnp /\ op_vector cP (ss_nodes y) circ = Ok Pnp /\
  getExpandedOperatorsMap gen (ss_nodes y) (odata 2) None [] = Ok circ' /\ op_vector cQ (ss_nodes y) circ' = Ok Qnp' /\ op_vector cP (ss_nodes y) circ' = Ok Pnp' /\
  dget circ 1 = Some c /\ dget circ' 1 = Some c' /\ c_dims c = [1] /\ c_dims c' = [2] /\ substitute y (wq 0) id_mat P 1 1 1 1 = Ok h /\
  getHamiltonian 1 argord (ss_nodes y) (ss_edges y) h Qnp Pnp circ = Ok H /\ getHamiltonian 2 argord (ss_nodes y) (ss_edges y) h Qnp' Pnp' circ' = Ok H' /\
  spectrum 1 H E /\ ascending 1 E /\ spectrum 2 H' E' /\ ascending 2 E' /\ (E 0%nat < E' 0%nat)%R.
Proof.
  intros Hp. destruct (two_inputs 1 1) as (y & h & Hy & E1 & E2 & HV & HI & HL & Sh & h1 & h2 & h3 & h4 & h5 & h6 & h7 & h8 & h9 & h10 & h11).
  set (o := fun t => oscillator_basis oeigh oinv t 2 1 1 PI 2).
  assert (S1 : (sqrt (2 / 2) = 1)%R) by (replace (2 / 2)%R with 1%R by field; apply sqrt_1).
  assert (S2 : (sqrt (1 / (2 * 2)) = 1 / 2)%R) by (replace (1 / (2 * 2))%R with ((1 / 2) * (1 / 2))%R by field; apply sqrt_square; lra).
  set (Pp := fun i j => (RtoC PI * oscP 2 1 i j / RtoC 1)%C). set (Qp := fun i j => (RtoC 2 * oscQ 2 1 i j / RtoC 1)%C).
  assert (P0 : Pp 0 0 = RtoC 0 /\ Pp 1 1 = RtoC 0 /\ Pp 0 1 = (RtoC PI * RtoC 1)%C /\ Pp 1 0 = Cconj (RtoC PI * RtoC 1)%C).
  { unfold Pp, oscP, create, destroy. cbn [Nat.eqb Nat.add INR]. rewrite S1, sqrt_1. repeat split; apply injective_projections; cbn; field. }
  assert (Q0 : Qp 0 0 = RtoC 0 /\ Qp 1 1 = RtoC 0 /\ Qp 0 1 = (RtoC 1 * - Ci)%C /\ Qp 1 0 = Cconj (RtoC 1 * - Ci)%C).
  { unfold Qp, oscQ, create, destroy. cbn [Nat.eqb Nat.add INR]. rewrite S2, sqrt_1. repeat split; apply injective_projections; cbn; field. }
  destruct P0 as (p00 & p11 & p01 & p10), Q0 as (q00 & q11 & q01 & q10).
  assert (K : (fst (RtoC 1) * fst (RtoC 1) + snd (RtoC 1) * snd (RtoC 1) = 1)%R) by (cbn; ring). assert (K' : (fst (- Ci)%C * fst (- Ci)%C + snd (- Ci)%C * snd (- Ci)%C = 1)%R) by (cbn; ring).
  assert (Q : forall t i j, oQ (o t) i j = oscQ 2 1 i j). { intros t i j. cbn [o oscillator_basis oQ]. apply tidy_oscQ. rewrite S2, Rmult_1_r, Rabs_pos_eq; pose proof small_atol; lra. }
  assert (D1 : oD (o 1) 0 0 = RtoC 1 /\ oDd (o 1) 0 0 = RtoC 1).
  { assert (M : forall A, matfun oeigh oinv 1 cis A 0 0 = RtoC 1).
    { intros A. unfold matfun, oeigh, oinv, mm, mmul. cbn [sumn kadd kmul k0 C_rng Nat.eqb]. unfold mdag, cdiag, eye. cbn [Nat.eqb]. unfold cis. rewrite cos_0, sin_0. apply injective_projections; cbn; ring. }
    unfold o, oscillator_basis. cbn [oD oDd]. unfold tidyup. rewrite M. unfold mdag. rewrite M, conj_R. split; apply sanC_kept; right; rewrite Rabs_R1; lra. }
  assert (D2 : forall i j, i < 2 -> j < 2 -> oD (o 2) i j = (if Nat.eqb i j then RtoC (-1) else RtoC 0) /\ oDd (o 2) i j = if Nat.eqb i j then RtoC (-1) else RtoC 0).
  { intros i j Hi Hj. unfold o, oscillator_basis. cbn [oD oDd]. fold Pp. unfold tidyup, mdag.
    rewrite !(omatfun_2 Pp PI (RtoC 1) PI_RGT_0 K p01 eq_refl) by easy. rewrite (Nat.eqb_sym j i). destruct (Nat.eqb i j); rewrite conj_R; split; apply sanC_kept; try (left; reflexivity); right; unfold Rabs; destruct (Rcase_abs _); lra. }
  destruct (one_ham argord (o 1) h Hp h3 h4 h5 h6 h7 h8 h9 h10 h11) as (H & EH & VH). destruct (one_ham argord (o 2) h Hp h3 h4 h5 h6 h7 h8 h9 h10 h11) as (H' & EH' & VH'). cbv zeta in EH, EH'. change (o_dim (o 1)) with 1 in *. change (o_dim (o 2)) with 2 in *.
  exists oeigh, oinv, (fun _ => 2%R), (fun _ => PI), (fun _ => 2%R), y, [(1, one_cops (o 1))], [(1, one_cops (o 2))], [cQ (one_cops (o 1))], [cP (one_cops (o 1))], [cQ (one_cops (o 2))], [cP (one_cops (o 2))], (one_cops (o 1)), (one_cops (o 2)), h, H, H', (fun _ => (-3)%R), (fun _ => (25 / 8)%R). cbv zeta. rewrite E1, E2.
  split; [exact Hy|]. split; [reflexivity|]. split; [exact HV|]. split; [exact HL|].
  split; [split; apply oeigh_right1; [exact p00 | exact q00]|]. split; [split; [exact (oeigh_right2 Pp PI (RtoC 1) PI_RGT_0 K p00 p11 p01 p10) | exact (oeigh_right2 Qp 1 (- Ci)%C Rlt_0_1 K' q00 q11 q01 q10)]|].
  split; [apply one_circ; reflexivity|]. split; [reflexivity|]. split; [reflexivity|]. split; [apply one_circ; reflexivity|]. split; [reflexivity|]. split; [reflexivity|]. do 4 (split; [reflexivity|]). split; [exact Sh|]. split; [exact EH|]. split; [exact EH'|].
  split. { apply spectrum_1. rewrite VH, h1, h2, (proj1 D1), (proj2 D1). unfold S. cbn [sumn kadd k0 C_rng]. rewrite !Q. unfold oscQ, create, destroy. cbn [Nat.eqb Nat.add INR]. match goal with |- sanC _ ?a = RtoC ?b => replace a with (RtoC b) by (apply injective_projections; cbn; field) end. apply sanC_kept. right. rewrite Rabs_left; lra. }
  split; [intros i j _ _; lra|]. split.
  { exists eye. assert (HH : forall i j, i < 2 -> j < 2 -> H' i j = if Nat.eqb i j then RtoC (25 / 8) else RtoC 0).
    { intros i j Hi Hj. rewrite VH', h1, h2, (proj1 (D2 i j Hi Hj)), (proj2 (D2 i j Hi Hj)). unfold S. cbn [sumn kadd k0 C_rng]. rewrite !Q. unfold oscQ, create, destroy. rewrite S2. (destruct i as [|[|i]]; [| |lia]); (destruct j as [|[|j]]; [| |lia]); cbn [Nat.eqb Nat.add INR]; rewrite ?sqrt_1;
        (match goal with |- sanC _ ?a = RtoC ?b => replace a with (RtoC b) by (apply injective_projections; cbn; field) end); apply sanC_kept; try (left; reflexivity); right; rewrite Rabs_pos_eq; lra. }
    split; [split|]; intros i j Hi Hj; (destruct i as [|[|i]]; [| |lia]); (destruct j as [|[|j]]; [| |lia]); unfold mul, csum, adjoint, identity, diagonal, eye; cbn [Nat.eqb]; rewrite ?HH by lia; cbn [Nat.eqb]; apply injective_projections; cbn; ring. }
  split; [intros i j _ _; lra|]. lra.
Qed.
