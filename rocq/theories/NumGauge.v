(** Proofs for C122: phases. *)
From Coq Require Import List Bool String Arith Lia ZArith Reals Lra Setoid Morphisms Permutation.
From Coquelicot Require Import Complex.
From Verif Require Import Prelude PreludeFacts Sweep SweepProofs SweepResultProofs Mat MatFacts Util UtilProofs Graph Symbolic SymbolicInv NumOp NumOpSpec NumKron NumSpectral NumCharge NumExpand NumHerm NumPot NumFlux NumSymSpec NumSymProofs NumSymHam NumSymMain NumGaugeSpec.
Import ListNotations.
Open Scope nat_scope.

Definition phases (n : nat) (u : nat -> C) : Prop := forall i, i < n -> (u i * Cconj (u i) = RtoC 1)%C.
Definition rot (u : nat -> C) (A : cmat) : cmat := fun i j => (u i * A i j * Cconj (u j))%C.
Section Rot.
  Variables (n : nat) (u : nat -> C).
  Hypothesis S : phases n u.
  Notation G := (rot u).
  Global Instance rot_proper : Proper (same n ==> same n) G.
  Proof. intros A B H i j Hi Hj. unfold rot. now rewrite H. Qed.
  Lemma rot_mm A B : same n (G (mm n A B)) (mm n (G A) (G B)).
  Proof.
    intros i j Hi Hj. unfold rot, mm, mmul. rewrite <- Cmult_assoc, (Cmult_comm _ (Cconj (u j))), Cmult_assoc.
    match goal with |- (?a * ?x)%C = _ => change (@kmul C_rng a x = @sumn C_rng n (fun k => @kmul C_rng (rot u A i k) (rot u B k j))) end. rewrite (@sumn_mul_l C_rng). apply (@sumn_ext C_rng). intros k Hk. unfold rot. cbn [kmul C_rng].
    transitivity ((u k * Cconj (u k)) * (u i * A i k * (B k j * Cconj (u j))))%C; [rewrite (S k Hk)|]; match goal with |- @eq _ ?a ?b => change (@eq C a b) end; ring.
  Qed.
  Lemma rot_plus A B : same n (G (mplus A B)) (mplus (G A) (G B)).
  Proof. intros i j _ _. unfold rot, mplus. ring. Qed.
  Lemma rot_sc c A : same n (G (msc c A)) (msc c (G A)).
  Proof. intros i j _ _. unfold rot, msc. ring. Qed.
  Lemma rot_eye : same n (G eye) eye.
  Proof. intros i j Hi _. unfold rot, eye. destruct (Nat.eqb_spec i j) as [->|]; [rewrite Cmult_1_r; now apply S | ring]. Qed.
  Lemma rot_zero : same n (G mzero) mzero.
  Proof. intros i j _ _. unfold rot, mzero. ring. Qed.
  Lemma phase_unitary : unitary n (cdiag u).
  Proof.
    assert (K : forall i k, i < n -> (cdiag u i k * Cconj (cdiag u i k))%C = eye i k /\ (i <> k -> cdiag u i k = RtoC 0)).
    { intros i k Hi. unfold cdiag, eye. destruct (Nat.eqb_spec i k) as [->|]; [split; [now apply S | easy]|]. split; [rewrite conj_R; ring | easy]. }
    unfold unitary. change (adjoint (cdiag u)) with (mdag (cdiag u)). change identity with eye. rewrite !mul_same. split; intros i j Hi Hj; unfold mm, mmul, mdag.
    - rewrite (@sumn_single C_rng n i); [|easy|]; cbn [kmul C_rng].
      + unfold cdiag, eye. rewrite Nat.eqb_refl. destruct (Nat.eqb_spec j i) as [->|N]; [rewrite Nat.eqb_refl; now apply S|]. rewrite conj_R. destruct (Nat.eqb_spec i j); [congruence|]. apply Cmult_0_r.
      + intros k Hk N. destruct (K i k Hi) as [_ ->]; [apply Cmult_0_l | congruence].
    - rewrite (@sumn_single C_rng n i); [|easy|]; cbn [kmul C_rng].
      + unfold cdiag, eye. rewrite Nat.eqb_refl. destruct (Nat.eqb_spec i j) as [->|N]; [rewrite Cmult_comm; now apply S|]. apply Cmult_0_r.
      + intros k Hk N. destruct (K k i Hk) as [_ ->]; [rewrite conj_R; apply Cmult_0_l | congruence].
  Qed.
  Lemma rot_rotated A : rotated n A (G A).
  Proof.
    exists (cdiag u). split; [exact phase_unitary|]. rewrite !mul_same. change (adjoint (cdiag u)) with (mdag (cdiag u)). intros i j Hi Hj. unfold mm, mmul, mdag.
    rewrite (@sumn_single C_rng n j); [|easy|]; cbn [kmul C_rng].
    - rewrite (@sumn_single C_rng n i); [|easy|]; cbn [kmul C_rng].
      + unfold cdiag. now rewrite !Nat.eqb_refl.
      + intros k _ N. unfold cdiag. destruct (Nat.eqb_spec i k); [congruence|]. apply Cmult_0_l.
    - intros k _ N. unfold cdiag. destruct (Nat.eqb_spec j k); [congruence|]. rewrite conj_R. apply Cmult_0_r.
  Qed.
End Rot.
Lemma rotated_spectrum n A B E : rotated n A B -> spectrum n A E -> spectrum n B E.
Proof.
  intros (U & HU & HB) (V & HV & HE). unfold unitary in HU, HV. rewrite !mul_same in HU, HV, HE, HB.
  change (adjoint U) with (mdag U) in *. change (adjoint V) with (mdag V) in *. change identity with eye in *.
  change (diagonal (fun k => RtoC (E k))) with (cdiag (fun k => RtoC (E k))) in *. destruct HU as [U1 U2], HV as [V1 V2].
  assert (D : same n (mdag (mm n U V)) (mm n (mdag V) (mdag U))) by (rewrite mdag_mul; reflexivity).
  exists (mm n U V). split.
  - unfold unitary. change (adjoint (mm n U V)) with (mdag (mm n U V)). change identity with eye. rewrite !mul_same, D. split.
    + rewrite mmA, <- (mmA n V), V1, mm_1l. exact U1.
    + rewrite mmA, <- (mmA n (mdag U)), U2, mm_1l. exact V2.
  - rewrite !mul_same, HB. change (diagonal (fun k => RtoC (E k))) with (cdiag (fun k => RtoC (E k))).
    rewrite !mmA, <- (mmA n (mdag U)), U2, mm_1l, HE. reflexivity.
Qed.
Lemma rotated_sym n A B : rotated n A B -> rotated n B A.
Proof.
  intros (U & HU & HB). unfold unitary in HU. rewrite !mul_same in HU, HB. change (adjoint U) with (mdag U) in *. change identity with eye in *. destruct HU as [U1 U2].
  assert (D : same n (mdag (mdag U)) U) by (intros i j _ _; unfold mdag; now rewrite conj_conj).
  exists (mdag U). split.
  - unfold unitary. change (adjoint (mdag U)) with (mdag (mdag U)). change identity with eye. rewrite !mul_same, D. easy.
  - rewrite !mul_same. change (adjoint (mdag U)) with (mdag (mdag U)). rewrite D, HB, !mmA, U2, mm_1r, <- mmA, U2, mm_1l. reflexivity.
Qed.
Lemma rotated_spectra n A B : rotated n A B -> forall E, spectrum n A E <-> spectrum n B E.
Proof. intros H E. split; apply rotated_spectrum; [easy | now apply rotated_sym]. Qed.
Lemma rotated_ext n A B B' : same n B B' -> rotated n A B -> rotated n A B'.
Proof. intros HB (U & H & K). exists U. split; [easy|]. now rewrite <- HB. Qed.
Lemma tidy_near n A : near n (tidyup A) A.
Proof.
  intros i j _ _. unfold tidyup, sanC. set (z := A i j). pose proof (sanR_close (fst z)) as H1. pose proof (sanR_close (snd z)) as H2.
  eapply Rle_lt_trans; [apply Cmod_2Rmax|]. cbn [fst snd Cminus Cplus Copp].
  assert (M : (Rmax (Rabs (sanR atol (fst z) + - fst z)) (Rabs (sanR atol (snd z) + - snd z)) < / 10 ^ 12)%R) by (apply Rmax_lub_lt; assumption).
  assert (Q : (sqrt 2 < 2)%R). { rewrite <- (sqrt_square 2) at 2 by lra. apply sqrt_lt_1; lra. }
  assert (P : (0 < / 10 ^ 12)%R) by (apply Rinv_0_lt_compat, pow_lt; lra). pose proof (sqrt_lt_R0 2 ltac:(lra)) as Q0. pose proof (Rmax_l (Rabs (sanR atol (fst z) + - fst z)) (Rabs (sanR atol (snd z) + - snd z))) as M0. pose proof (Rabs_pos (sanR atol (fst z) + - fst z)) as M1. unfold Rdiv. nra.
Qed.

(** ** tensor products *)
Section Tensor.
  Variables (d : nat -> nat) (u : nat -> nat -> C).
  Fixpoint tph (ks : list nat) (i : nat) : C :=
    match ks with [] => RtoC 1 | k :: r => let m := prodn (map d r) in (u k (i / m) * tph r (i mod m))%C end.
  Lemma tphases ks : (forall k, In k ks -> phases (d k) (u k)) -> phases (prodn (map d ks)) (tph ks).
  Proof.
    induction ks as [|k ks IH]; intros H i Hi.
    - cbn. rewrite conj_R. ring.
    - cbn [map prodn fold_right] in Hi. change (fold_right Nat.mul 1 (map d ks)) with (prodn (map d ks)) in Hi. cbn [tph]. set (m := prodn (map d ks)) in *.
      destruct (divmod_lt (d k) m i Hi) as [H1 H2]. pose proof (H k (or_introl eq_refl) _ H1) as A. pose proof (IH (fun k Hk => H k (or_intror Hk)) _ H2) as B.
      rewrite conj_mult. transitivity ((u k (i / m) * Cconj (u k (i / m))) * (tph ks (i mod m) * Cconj (tph ks (i mod m))))%C; [ring|]. rewrite A, B. ring.
  Qed.
  Lemma tensor_rot ks (f : nat -> cmat) : forall i j, i < prodn (map d ks) -> j < prodn (map d ks) ->
    rot (tph ks) (tensor (map (fun k => (d k, f k)) ks)) i j = tensor (map (fun k => (d k, rot (u k) (f k))) ks) i j.
  Proof.
    induction ks as [|k ks IH]; intros i j Hi Hj.
    - unfold rot. cbn. rewrite conj_R. ring.
    - cbn [map prodn fold_right] in Hi, Hj. change (fold_right Nat.mul 1 (map d ks)) with (prodn (map d ks)) in Hi, Hj. cbn [map tensor]. rewrite !map_map. cbn [fst].
      change (map (fun x => d x) ks) with (map d ks). set (m := prodn (map d ks)) in *.
      destruct (divmod_lt (d k) m i Hi) as [H1 H2], (divmod_lt (d k) m j Hj) as [H3 H4].
      unfold kron at 2. rewrite <- IH by easy. unfold rot, kron. cbn [tph]. fold m. rewrite conj_mult. ring.
  Qed.
  Lemma lift_rot n i A : (forall k, k < n -> phases (d k) (u k)) -> same (size d n) (rot (tph (seq 0 n)) (lift d n i A)) (lift d n i (rot (u i) A)).
  Proof.
    intros H r c Hr Hc. unfold lift. rewrite (tensor_rot _ (fun k => if Nat.eqb k i then A else eye)) by easy. apply tensor_ext; auto.
    intros k a b Hk Ha Hb. apply in_seq in Hk. destruct (Nat.eqb_spec k i) as [->|]; [easy|]. apply (rot_eye (d k)); auto. apply H. lia.
  Qed.
End Tensor.

(** ** cosines *)
Section Cosine.
  Variables (N n : nat) (u : nat -> C).
  Hypothesis S : phases N u.
  Notation G := (rot u).
  Variable argord : list (nat * bool) -> list (nat * bool).
  Hypothesis perm : forall l, Permutation (argord l) l.
  Variables (nodes : list nat) (edges : list edge).
  Hypothesis len : List.length nodes = n.
  Variables (X Xd : nat -> cmat) (th : nat -> R).
  Hypothesis HX : forall k, k < n -> same N (G (X k)) (msc (cis (2 * PI * th k)) (X k)) /\ same N (G (Xd k)) (msc (cis (- 2 * PI * th k)) (Xd k)).
  Lemma pick_rot t : fst t < n -> same N (G (pick X Xd t)) (msc (cis (2 * PI * sgn t th)) (pick X Xd t)) /\ same N (G (pick' X Xd t)) (msc (cis (- 2 * PI * sgn t th)) (pick' X Xd t)).
  Proof.
    intros H. destruct (HX _ H) as [A B]. unfold pick, pick', sgn. destruct (snd t); [easy|].
    replace (2 * PI * - th (fst t))%R with (- 2 * PI * th (fst t))%R by ring. replace (- 2 * PI * - th (fst t))%R with (2 * PI * th (fst t))%R by ring. easy.
  Qed.
  Lemma fold_same l : forall A B, same N A B -> same N (fold_left (mm N) l A) (fold_left (mm N) l B).
  Proof. induction l as [|C l IH]; intros A B H; cbn [fold_left]; [easy|]. apply IH. now rewrite H. Qed.
  Lemma fold_sc l c : forall A, same N (fold_left (mm N) l (msc c A)) (msc c (fold_left (mm N) l A)).
  Proof.
    induction l as [|B l IH]; intros A; cbn [fold_left]; [reflexivity|]. rewrite <- IH. apply fold_same. intros i j _ _. apply mm_sc_l.
  Qed.
  Lemma fold_rot s (g : nat * bool -> cmat) ts : (forall t, In t ts -> same N (G (g t)) (msc (cis (s * PI * sgn t th)) (g t))) -> forall A A', same N (G A) A' ->
    same N (G (fold_left (mm N) (map g ts) A)) (msc (cis (s * PI * tsum ts th)) (fold_left (mm N) (map g ts) A')).
  Proof.
    induction ts as [|t ts IH]; intros H A A' KA; cbn [map fold_left].
    - unfold tsum. cbn. rewrite Rmult_0_r, cis_0, KA. intros i j _ _. unfold msc. ring.
    - rewrite (IH (fun t' Ht => H t' (or_intror Ht)) (mm N A (g t)) (msc (cis (s * PI * sgn t th)) (mm N A' (g t)))).
      + rewrite fold_sc. intros i j _ _. unfold msc. unfold tsum. cbn [map fold_right]. fold (tsum ts th). rewrite Rmult_plus_distr_l, cis_add. ring.
      + rewrite (rot_mm _ _ S), KA, (H t (or_introl eq_refl)). intros i j _ _. apply mm_sc_r.
  Qed.
  Lemma product_rot s (g : nat * bool -> cmat) z ts : (forall t, In t ts -> same N (G (g t)) (msc (cis (s * PI * sgn t th)) (g t))) ->
    match product N z (map g ts), product N (z * cis (s * PI * tsum ts th))%C (map g ts) with Ok A, Ok B => same N (G A) B | Err e, Err f => e = f | _, _ => False end.
  Proof.
    destruct ts as [|t ts]; intros H; cbn [map product]; [easy|].
    rewrite (fold_rot s g ts (fun t' Ht => H t' (or_intror Ht)) (msc z (g t)) (msc (z * cis (s * PI * sgn t th))%C (g t))).
    - rewrite <- fold_sc. apply fold_same. intros i j _ _. unfold msc, tsum. cbn [map fold_right]. fold (tsum ts th). rewrite Rmult_plus_distr_l, cis_add. ring.
    - rewrite rot_sc, (H t (or_introl eq_refl)). intros i j _ _. unfold msc. ring.
  Qed.
  Variables (am b b' : nat -> R).
  Hypothesis Hb : forall i, i < List.length edges -> am i <> 0%R -> exists k, b' i = (b i + branch_flux nodes edges th i + IZR k)%R.
  Lemma cosine_rot :
    match cosine_part N argord nodes edges am b X Xd, cosine_part N argord nodes edges am b' X Xd with
    | Ok A, Ok B => same N (G A) B | Err e, Err f => e = f | _, _ => False end.
  Proof.
    unfold cosine_part. assert (H0 : same N (G mzero) mzero) by apply rot_zero. revert H0. generalize mzero at 1 3. generalize mzero.
    assert (HI : forall i, In i (seq 0 (List.length edges)) -> i < List.length edges) by (intros i Hi; apply in_seq in Hi; lia). revert HI.
    generalize (seq 0 (List.length edges)). induction l as [|i l IH]; intros HI B A HA; cbn [foldM]; [exact HA|].
    assert (IH' := IH (fun j Hj => HI j (or_intror Hj))). clear IH.
    destruct (Req_EM_T (am i) 0) as [|Na]; [cbn [bind]; now apply IH'|]. destruct (Hb i (HI i (or_introl eq_refl)) Na) as [k Ek].
    set (ts := argord (branch_terms nodes edges i)).
    assert (T : forall t, In t ts -> fst t < n). { intros t Ht. apply (Permutation_in _ (perm _)) in Ht. now apply (terms_in n nodes edges len) in Ht. }
    assert (E : tsum ts th = branch_flux nodes edges th i) by (unfold ts; now rewrite (tsum_perm _ _ th (perm _)), tsum_flux).
    change (fun t : nat * bool => if snd t then X (fst t) else Xd (fst t)) with (pick X Xd). change (fun t : nat * bool => if snd t then Xd (fst t) else X (fst t)) with (pick' X Xd).
    pose proof (product_rot 2 (pick X Xd) (cis (2 * PI * b i)) ts (fun t Ht => proj1 (pick_rot t (T t Ht)))) as K1.
    pose proof (product_rot (-2) (pick' X Xd) (cis (- 2 * PI * b i)) ts (fun t Ht => proj2 (pick_rot t (T t Ht)))) as K2.
    rewrite E in K1, K2.
    assert (C1 : cis (2 * PI * b' i) = (cis (2 * PI * b i) * cis (2 * PI * branch_flux nodes edges th i))%C).
    { rewrite Ek, <- cis_add, <- Rmult_plus_distr_l. apply cis_shift. }
    assert (C2 : cis (- 2 * PI * b' i) = (cis (- 2 * PI * b i) * cis (- 2 * PI * branch_flux nodes edges th i))%C).
    { rewrite Ek, <- cis_add, <- Rmult_plus_distr_l. apply cis_shift. }
    rewrite C1, C2.
    destruct (product N (cis (2 * PI * b i)) (map (pick X Xd) ts)) as [p1|], (product N (cis (2 * PI * b i) * cis (2 * PI * branch_flux nodes edges th i))%C (map (pick X Xd) ts)) as [p1'|]; try easy; cbn [bind].
    destruct (product N (cis (- 2 * PI * b i)) (map (pick' X Xd) ts)) as [p2|], (product N (cis (- 2 * PI * b i) * cis (- 2 * PI * branch_flux nodes edges th i))%C (map (pick' X Xd) ts)) as [p2'|]; try easy; cbn [bind].
    apply IH'. rewrite rot_plus, HA, rot_sc, rot_plus, K1, K2. reflexivity.
  Qed.
End Cosine.
Lemma quad_rot N u l b M : phases N u -> (forall i, i < List.length l -> same N (rot u (opn l i)) (opn l i) \/ (forall j, j < List.length l -> M i j = 0%R /\ M j i = 0%R)) ->
  same N (rot u (quadform N l b M)) (quadform N l b M).
Proof.
  intros S H r c Hr Hc. unfold rot at 1. rewrite !quadform_eq.
  transitivity (u r * Cconj (u c) * @sumn C_rng (List.length l) (fun i => @sumn C_rng (List.length l) (fun j => (RtoC (M i j) * mm N (shifted l b i) (shifted l b j) r c)%C)))%C; [ring|].
  set (a := (u r * Cconj (u c))%C). change (a * ?x)%C with (@kmul C_rng a x). rewrite (@sumn_mul_l C_rng). apply (@sumn_ext C_rng). intros i Hi. rewrite (@sumn_mul_l C_rng). apply (@sumn_ext C_rng). intros j Hj. cbn [kmul C_rng].
  destruct (H i Hi) as [H1|H1]; [|destruct (H1 j Hj) as [-> _]; match goal with |- @eq _ ?a ?b => change (@eq C a b) end; ring].
  destruct (H j Hj) as [H2|H2]; [|destruct (H2 i Hi) as [_ ->]; match goal with |- @eq _ ?a ?b => change (@eq C a b) end; ring].
  assert (K : forall i, same N (rot u (opn l i)) (opn l i) -> same N (rot u (shifted l b i)) (shifted l b i)).
  { intros k Hk. unfold shifted. rewrite rot_plus, Hk, rot_sc, (rot_eye _ _ S). reflexivity. }
  transitivity (RtoC (M i j) * rot u (mm N (shifted l b i) (shifted l b j)) r c)%C; [unfold rot, a; match goal with |- @eq _ ?a ?b => change (@eq C a b) end; ring|]. f_equal.
  rewrite (rot_mm _ _ S _ _ r c Hr Hc). apply mm_proper; auto.
Qed.
