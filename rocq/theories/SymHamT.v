(** Coordinate transforms of the symbolic system. *)
From Coq Require Import List Bool String Ascii Arith ZArith Reals Permutation Lra Lia.
From Coquelicot Require Import Complex.
From Verif Require Import Prelude PreludeFacts Mat MatFacts Graph GraphSpec GraphView GraphForest GraphWf GraphCircuit GraphState GraphMaps GraphOps GraphProofs Sweep Symbolic SymbolicSpec RSum SymbolicInv SymbolicCap SymbolicCap2 SymbolicFlux SymbolicNew SymbolicParam NumOp NumOpSpec NumSpectral NumHerm NumPot MutualProofs SymHam SymHamSpec SymHamProofs SymHamQ.
Import ListNotations.
Open Scope string_scope.
Open Scope list_scope.
Open Scope nat_scope.

(** ** The numerical Hamiltonian evaluates the same terms *)
Definition id_mat (i j : nat) : R := if Nat.eqb i j then 1%R else 0%R.
Lemma coef_id nodes edges i k : k < List.length nodes -> coef nodes edges id_mat i k = IZR (rbn nodes edges k i).
Proof.
  intros Hk. unfold coef. rewrite sumn_Rsum, (Rsum_single _ k); [|apply seq_NoDup|apply in_seq; lia|].
  - unfold id_mat. rewrite Nat.eqb_refl. ring.
  - intros l _ Hne. unfold id_mat. destruct (Nat.eqb_spec l k); [congruence|ring].
Qed.
Lemma pterms_id nodes edges i : pterms nodes edges id_mat i = branch_terms nodes edges i.
Proof.
  unfold pterms, branch_terms. rewrite !flat_map_concat_map. f_equal. apply map_ext_in. intros k Hk. apply in_seq in Hk. rewrite coef_id by lia.
  destruct (rbn_vals nodes edges k i) as [E|[E|E]]; rewrite E; cbn [IZR].
  - destruct (Req_EM_T _ 0); [auto|exfalso; lra].
  - destruct (Req_EM_T _ 0); [exfalso; lra|]. destruct (Rlt_dec _ _); [auto|exfalso; lra].
  - destruct (Req_EM_T _ 0); [exfalso; lra|]. destruct (Rlt_dec _ _); [exfalso; lra|auto].
Qed.
Lemma foldM_acc {A B} (f : list B -> A -> res (list B)) (g : A -> res (list B)) l :
  (forall acc x, f acc x = bind (g x) (fun r => Ok (acc ++ r))) -> forall acc, foldM f l acc = bind (foldM f l []) (fun r => Ok (acc ++ r)).
Proof.
  intros Hf. induction l as [|x l IH]; intros acc; cbn [foldM bind]; [rewrite app_nil_r; auto|]. rewrite !Hf. destruct (g x) as [r|]; cbn [bind]; auto.
  rewrite (IH (acc ++ r)), (IH ([] ++ r)). destruct (foldM f l []); cbn [bind]; auto. rewrite app_assoc. auto.
Qed.
Section Numeric.
  Variables (N : nat) (argord : list (nat * bool) -> list (nat * bool)) (y : ssys) (v : list (option string)) (B : nat -> list (Z * string)) (val ph : string -> R) (X Xd : nat -> cmat).
  Hypothesis Hval : forall i c, nth i v None = Some c -> val c <> 0%R.
  Lemma product_some z l : l <> [] -> exists p, product N z l = Ok p.
  Proof. destruct l; [congruence|]. cbn. eauto. Qed.
  Theorem numeric_terms : cosine_part N argord (ss_nodes y) (ss_edges y) (amp val v) (fun i => bias_val ph (B i) / (2 * PI))%R X Xd =
    bind (quantum_terms argord y id_mat v B) (qmat N val ph X Xd).
  Proof.
    assert (HPI := PI_RGT_0). unfold cosine_part, quantum_terms, qmat. generalize (@mzero). generalize (seq 0 (List.length (ss_edges y))).
    match goal with |- forall l H0, foldM ?F l H0 = bind (foldM ?G l []) _ => set (FF := F); set (GG := G) end.
    assert (HG : forall acc i, GG acc i = bind (match nth i v None with None => Ok [] | Some c => match argord (pterms (ss_nodes y) (ss_edges y) id_mat i) with [] => Err IndexError | ts => Ok [mkq c (B i) ts] end end) (fun r => Ok (acc ++ r))).
    { intros acc i. unfold GG. destruct (nth i v None); [|cbn [bind]; rewrite app_nil_r; auto]. destruct (argord _); auto. }
    induction l as [|i l IH]; intros H; [auto|]. cbn [foldM]. rewrite HG. unfold FF at 1. assert (Ha : amp val v i = match nth i v None with Some c => val c | None => 0%R end) by reflexivity. destruct (Req_EM_T (amp val v i) 0) as [Z|Z].
    { destruct (nth i v None) as [c|] eqn:Ev; [exfalso; apply (Hval i c Ev); congruence|]. cbn [bind app]. apply IH. }
    destruct (nth i v None) as [c|] eqn:Ev; [|congruence].
    rewrite pterms_id. cbv zeta. destruct (argord (branch_terms (ss_nodes y) (ss_edges y) i)) as [|t ts] eqn:Ea; [auto|].
    cbn [bind app]. rewrite (foldM_acc GG _ l HG [mkq c (B i) (t :: ts)]).
    assert (E1 : (2 * PI * (bias_val ph (B i) / (2 * PI)) = bias_val ph (B i))%R) by (field; lra). assert (E2 : (- 2 * PI * (bias_val ph (B i) / (2 * PI)) = - bias_val ph (B i))%R) by (field; lra). rewrite E1, E2.
    rewrite Ha. cbn [map product bind]. rewrite IH. destruct (foldM GG l []) as [r|]; [|auto]. cbn [bind app foldM]. auto.
  Qed.
End Numeric.

(** ** Energies in transformed coordinates *)
Section Forms.
  Variable n : nat.
  Open Scope R_scope.
  Lemma form_dot M x : energy n M x = 1 / 2 * dotv n x (mv n M x).
  Proof. unfold energy, dotv, mv. f_equal. apply sR_ext. intros i _. rewrite sR_mul. apply sR_ext. intros; ring. Qed.
  Lemma energy_ext M M' x x' : (forall i j, (i < n)%nat -> (j < n)%nat -> M i j = M' i j) -> (forall i, (i < n)%nat -> x i = x' i) -> energy n M x = energy n M' x'.
  Proof. intros H1 H2. unfold energy. f_equal. apply sR_ext. intros i Hi. apply sR_ext. intros j Hj. rewrite H1, !H2; auto. Qed.
  Lemma half_energy M x b : half_form n M x b = energy n M (fun i => x i + b i).
  Proof. reflexivity. Qed.
  (** x^T (A M B) x, A = B^T *)
  Lemma conj_energy A M x : energy n (fun i j => sumn (A := R_rng) n (fun k => sumn (A := R_rng) n (fun l => A k i * M k l * A l j))) x = energy n M (times n A x).
  Proof.
    rewrite !form_dot. f_equal. change (times n A x) with (mv n A x).
    transitivity (dotv n x (mv n (mmul (A := R_rng) n (fun i j => A j i) (mmul (A := R_rng) n M A)) x)).
    - apply dotv_ext; auto. intros k Hk. apply mv_ext; auto. intros l Hl. unfold mmul. apply sR_ext. intros p Hp. change (sumn (A := R_rng) n (fun q => A p k * M p q * A q l) = A p k * sumn (A := R_rng) n (fun q => M p q * A q l)). rewrite sR_mul. apply sR_ext. intros; ring.
    - transitivity (dotv n x (mv n (fun i j => A j i) (mv n M (mv n A x)))).
      + apply dotv_ext; auto. intros k Hk. rewrite mv_mul. apply mv_ext; auto. intros l Hl. apply mv_mul.
      + apply dotv_tr.
  Qed.
  Lemma flux_form t Li x : energy n (transformed_Linv n t Li) x = energy n Li (times n (t_Rinv t) x).
  Proof. apply conj_energy. Qed.
  Lemma charge_form t Ci x : energy n (transformed_Cinv n t Ci) x = energy n Ci (times n (transpose (t_R t)) x).
  Proof. rewrite <- conj_energy. reflexivity. Qed.
  Lemma times_times A B x i : times n A (times n B x) i = times n (fun i j => sumn (A := R_rng) n (fun k => A i k * B k j)) x i.
  Proof. symmetry. apply (mv_mul n A B x i). Qed.
  Lemma times_inv A B x i : inverses n A B -> (i < n)%nat -> times n A (times n B x) i = x i.
  Proof.
    intros H Hi. rewrite times_times. unfold times. rewrite sumn_Rsum, (Rsum_single _ i); [|apply seq_NoDup|apply in_seq; lia|].
    - destruct (H i i Hi Hi) as [E _]. rewrite E, Nat.eqb_refl. ring.
    - intros j Hj Hne. apply in_seq in Hj. destruct (H i j Hi ltac:(lia)) as [E _]. rewrite E. destruct (Nat.eqb_spec i j); [congruence|ring].
  Qed.
  Lemma inverses_tr A B : inverses n A B -> inverses n (transpose A) (transpose B).
  Proof.
    intros H i j Hi Hj. destruct (H j i Hj Hi) as [E1 E2]. unfold transpose. rewrite Nat.eqb_sym. split.
    - rewrite <- E2. apply sR_ext. intros; ring.
    - rewrite <- E1. apply sR_ext. intros; ring.
  Qed.
  Lemma inverses_sym A B : inverses n A B -> inverses n B A.
  Proof. intros H i j Hi Hj. destruct (H i j Hi Hj). auto. Qed.
  Lemma times_add A x y i : times n A (fun k => x k + y k) i = times n A x i + times n A y i.
  Proof. unfold times. rewrite <- sR_add. apply sR_ext. intros; ring. Qed.
  (** old charges Q, old fluxes P *)
  Lemma charging_invariant t Ci Q b : inverses n (t_R t) (t_Rinv t) ->
    half_form n (transformed_Cinv n t Ci) (times n (transpose (t_Rinv t)) Q) b = energy n Ci (fun i => Q i + times n (transpose (t_R t)) b i).
  Proof.
    intros H. rewrite half_energy, charge_form. apply energy_ext; auto. intros i Hi. rewrite times_add. f_equal. apply times_inv; auto. apply inverses_tr; auto.
  Qed.
  Lemma flux_invariant t Li P b : inverses n (t_R t) (t_Rinv t) ->
    half_form n (transformed_Linv n t Li) (times n (t_R t) P) b = energy n Li (fun i => P i + times n (t_Rinv t) b i).
  Proof.
    intros H. rewrite half_energy, flux_form. apply energy_ext; auto. intros i Hi. rewrite times_add. f_equal. apply times_inv; auto. apply inverses_sym; auto.
  Qed.
End Forms.

(** ** mode_transform *)
Section Modes.
  Variable n : nat.
  Open Scope R_scope.
  (** V symmetric with V V = c: the code's transform is diagonal *)
  Lemma mode_diagonal V W D Li c : inverses n V W -> (forall i j, (i < n)%nat -> (j < n)%nat -> V i j = V j i) ->
    (forall i j, (i < n)%nat -> (j < n)%nat -> sumn (A := R_rng) n (fun k => V i k * V k j) = if Nat.eqb i j then c else 0) ->
    (forall i j, (i < n)%nat -> (j < n)%nat -> sumn (A := R_rng) n (fun k => Li i k * V k j) = V i j * D j) -> (exists i, (i < n)%nat) ->
    c <> 0 /\ forall i j, (i < n)%nat -> (j < n)%nat -> transformed_Linv n (mkt V W true) Li i j = if Nat.eqb i j then D i / c else 0.
  Proof.
    intros HI HS HV HD (i0 & Hi0).
    assert (HW : forall i j, (i < n)%nat -> (j < n)%nat -> c * W i j = V i j).
    { intros i j Hi Hj. transitivity (times n V (fun k => times n V (fun l => W l j) k) i).
      - rewrite times_times. unfold times. rewrite sumn_Rsum, (Rsum_single _ i); [|apply seq_NoDup|apply in_seq; lia|].
        + rewrite HV, Nat.eqb_refl by auto. auto.
        + intros k Hk Hne. apply in_seq in Hk. rewrite HV by (auto; lia). destruct (Nat.eqb_spec i k); [congruence|ring].
      - unfold times at 1. rewrite sumn_Rsum, (Rsum_single _ j); [|apply seq_NoDup|apply in_seq; lia|].
        + unfold times. destruct (HI j j Hj Hj) as [E _]. rewrite E, Nat.eqb_refl. ring.
        + intros k Hk Hne. apply in_seq in Hk. unfold times. destruct (HI k j ltac:(lia) Hj) as [E _]. rewrite E. destruct (Nat.eqb_spec k j); [congruence|ring]. }
    assert (Hc : c <> 0).
    { intros ->. destruct (HI i0 i0 Hi0 Hi0) as [E _]. rewrite Nat.eqb_refl in E. rewrite sR_0 in E; [lra|]. intros k Hk. rewrite <- HW by auto. ring. }
    split; auto. intros i j Hi Hj. unfold transformed_Linv. cbn [t_Rinv].
    transitivity (sumn (A := R_rng) n (fun k => W k i * / c * (V k j * D j))).
    - apply sR_ext. intros k Hk. rewrite <- HD by auto. rewrite sR_mul. apply sR_ext. intros l Hl. rewrite <- (HW l j) by auto. field. auto.
    - transitivity (/ c * / c * D j * sumn (A := R_rng) n (fun k => V i k * V k j)).
      + rewrite sR_mul. apply sR_ext. intros k Hk. rewrite (HS i k), <- (HW k i) by auto. field. auto.
      + rewrite HV by auto. destruct (Nat.eqb_spec i j) as [->|]; field; auto.
  Qed.
End Modes.
