(** Proofs for C119-C121. *)
From Coq Require Import List Bool String Arith Lia ZArith Reals Lra Setoid Morphisms Permutation.
From Coquelicot Require Import Complex.
From Verif Require Import Prelude PreludeFacts Sweep SweepProofs SweepResultProofs Mat MatFacts Util UtilProofs Graph Symbolic SymbolicInv NumOp NumOpSpec NumKron NumSpectral NumCharge NumExpand NumHerm NumSymSpec.
Import ListNotations.
Open Scope nat_scope.

Definition onsign (x : R) : Prop := x = 1%R \/ x = (-1)%R.
Lemma onsign_sq x : onsign x -> (x * x = 1)%R.
Proof. intros [->| ->]; ring. Qed.
Lemma onsign_mul x y : onsign x -> onsign y -> onsign (x * y).
Proof. intros [->| ->] [->| ->]; [left|right|right|left]; ring. Qed.

(** ** A |-> U A* U^dagger for a signed involution U of the basis states *)
Definition turn (sg : nat -> nat) (ep : nat -> R) (A : cmat) : cmat := fun i j => (RtoC (ep i * ep j) * Cconj (A (sg i) (sg j)))%C.
Definition signed (n : nat) (sg : nat -> nat) (ep : nat -> R) : Prop :=
  forall i, i < n -> sg i < n /\ sg (sg i) = i /\ onsign (ep i) /\ ep (sg i) = ep i.
Lemma sum_involution n (sg : nat -> nat) f : (forall i, i < n -> sg i < n /\ sg (sg i) = i) -> @sumn C_rng n (fun k => f (sg k)) = @sumn C_rng n f.
Proof.
  intros H. transitivity (@sumn C_rng n (fun k => @sumn C_rng n (fun l => if Nat.eqb l (sg k) then f l else RtoC 0))).
  - apply (@sumn_ext C_rng). intros k Hk. symmetry. rewrite (@sumn_single C_rng n (sg k)); [now rewrite Nat.eqb_refl | now apply H |].
    intros l _ N. now destruct (Nat.eqb_spec l (sg k)).
  - rewrite (@sumn_swap C_rng). apply (@sumn_ext C_rng). intros l Hl. rewrite (@sumn_single C_rng n (sg l)).
    + destruct (H l Hl) as [_ ->]. now rewrite Nat.eqb_refl.
    + now apply H.
    + intros k Hk N. destruct (Nat.eqb_spec l (sg k)) as [E|]; [|easy]. exfalso. apply N. rewrite E. now destruct (H k Hk) as [_ ->].
Qed.
Section Turn.
  Variables (n : nat) (sg : nat -> nat) (ep : nat -> R).
  Hypothesis S : signed n sg ep.
  Notation G := (turn sg ep).
  Global Instance turn_proper' : Proper (same n ==> same n) G.
  Proof. intros A B H i j Hi Hj. unfold turn. rewrite H; [easy | now apply S | now apply S]. Qed.
  Lemma turn_mm A B : same n (G (mm n A B)) (mm n (G A) (G B)).
  Proof.
    intros i j Hi Hj. unfold turn, mm, mmul. rewrite conj_sum.
    rewrite <- (sum_involution n sg) by (intros k Hk; split; now apply S).
    change (@sumn C_rng n (fun k => Cconj (@kmul C_rng (A (sg i) (sg k)) (B (sg k) (sg j)))))
      with (@sumn C_rng n (fun k => Cconj (A (sg i) (sg k) * B (sg k) (sg j))%C)).
    change (RtoC (ep i * ep j) * ?x)%C with (@kmul C_rng (RtoC (ep i * ep j)) x). rewrite (@sumn_mul_l C_rng). apply (@sumn_ext C_rng).
    intros k Hk. rewrite conj_mult. change (@kmul C_rng) with Cmult. destruct (S k Hk) as (_ & _ & E & _). apply onsign_sq in E.
    replace (RtoC (ep i * ep j)) with (RtoC (ep i * ep k * (ep k * ep j))) by (f_equal; replace (ep i * ep k * (ep k * ep j))%R with (ep i * (ep k * ep k) * ep j)%R by ring; rewrite E; ring).
    rewrite RtoC_mult. match goal with |- @eq _ ?a ?b => change (@eq C a b) end. ring.
  Qed.
  Lemma turn_plus A B : same n (G (mplus A B)) (mplus (G A) (G B)).
  Proof. intros i j _ _. unfold turn, mplus. rewrite conj_plus. ring. Qed.
  Lemma turn_sc c A : same n (G (msc c A)) (msc (Cconj c) (G A)).
  Proof. intros i j _ _. unfold turn, msc. rewrite conj_mult. ring. Qed.
  Lemma turn_eye : same n (G eye) eye.
  Proof.
    intros i j Hi Hj. unfold turn, eye. destruct (S i Hi) as (_ & I1 & E & _). destruct (S j Hj) as (_ & I2 & _).
    destruct (Nat.eqb_spec i j) as [->|N].
    - rewrite Nat.eqb_refl, conj_R, (onsign_sq _ E). ring.
    - destruct (Nat.eqb_spec (sg i) (sg j)) as [K|K]; [exfalso; apply N; congruence|]. rewrite conj_R. ring.
  Qed.
  Lemma turn_zero : same n (G mzero) mzero.
  Proof. intros i j _ _. unfold turn, mzero. rewrite conj_R. ring. Qed.
  Lemma san_sign x z : onsign x -> (RtoC x * sanC atol z)%C = sanC atol (RtoC x * z)%C.
  Proof.
    intros [->| ->].
    - now rewrite !Cmult_1_l.
    - apply injective_projections; cbn.
      + replace (-1 * fst z - 0 * snd z)%R with (- fst z)%R by ring. rewrite sanR_opp. ring.
      + replace (-1 * snd z + 0 * fst z)%R with (- snd z)%R by ring. rewrite sanR_opp. ring.
  Qed.
  Lemma turn_tidy A : same n (G (tidyup A)) (tidyup (G A)).
  Proof.
    intros i j Hi Hj. unfold turn, tidyup. rewrite <- san_sign by (apply onsign_mul; now apply S). f_equal.
    apply injective_projections; cbn; [easy | now rewrite sanR_opp].
  Qed.
  Lemma turn_turn A : same n (G (G A)) A.
  Proof.
    intros i j Hi Hj. unfold turn. destruct (S i Hi) as (_ & I1 & E1 & F1). destruct (S j Hj) as (_ & I2 & E2 & F2).
    rewrite I1, I2, F1, F2, conj_mult, conj_R, conj_conj, Cmult_assoc, <- RtoC_mult.
    replace (ep i * ep j * (ep i * ep j))%R with ((ep i * ep i) * (ep j * ep j))%R by ring. rewrite (onsign_sq _ E1), (onsign_sq _ E2), Rmult_1_r. ring.
  Qed.
  (** it is a mirror image *)
  Definition Uof : cmat := fun i j => if Nat.eqb j (sg i) then RtoC (ep i) else RtoC 0.
  Lemma mm_Uof_l A i j : i < n -> mm n Uof A i j = (RtoC (ep i) * A (sg i) j)%C.
  Proof.
    intros Hi. unfold mm, mmul. rewrite (@sumn_single C_rng n (sg i)).
    - unfold Uof. rewrite Nat.eqb_refl. reflexivity.
    - now apply S.
    - intros k _ N. unfold Uof. destruct (Nat.eqb_spec k (sg i)); [easy|]. apply Cmult_0_l.
  Qed.
  Lemma mm_Uof_r A i j : j < n -> mm n A (mdag Uof) i j = (A i (sg j) * RtoC (ep j))%C.
  Proof.
    intros Hj. unfold mm, mmul. rewrite (@sumn_single C_rng n (sg j)).
    - unfold mdag, Uof. rewrite Nat.eqb_refl, conj_R. reflexivity.
    - now apply S.
    - intros k _ N. unfold mdag, Uof. destruct (Nat.eqb_spec k (sg j)); [easy|]. rewrite conj_R. apply Cmult_0_r.
  Qed.
  Lemma Uof_unitary : unitary n Uof.
  Proof.
    unfold unitary. change (adjoint Uof) with (mdag Uof). change identity with eye. rewrite !mul_same.
    assert (K : same n (mdag Uof) Uof).
    { intros i j Hi Hj. unfold mdag, Uof. destruct (S i Hi) as (_ & I1 & _ & F1). destruct (S j Hj) as (_ & I2 & _ & F2).
      destruct (Nat.eqb_spec i (sg j)) as [->|N].
      - rewrite I2, Nat.eqb_refl, conj_R, F2. reflexivity.
      - destruct (Nat.eqb_spec j (sg i)) as [->|N']; [congruence | apply conj_R]. }
    assert (J : same n (mm n Uof (mdag Uof)) eye).
    { intros i j Hi Hj. rewrite mm_Uof_l by easy. unfold mdag, Uof, eye. destruct (S i Hi) as (_ & I1 & E1 & F1). destruct (S j Hj) as (_ & I2 & _).
      destruct (Nat.eqb_spec i j) as [->|N].
      - rewrite Nat.eqb_refl, conj_R, <- RtoC_mult, (onsign_sq _ E1). reflexivity.
      - destruct (Nat.eqb_spec (sg i) (sg j)) as [X|X]; [exfalso; apply N; congruence|]. rewrite conj_R. ring. }
    split; [exact J|]. rewrite K in *. exact J.
  Qed.
  Lemma turn_mirror A : mirror n A (G A).
  Proof.
    exists Uof. split; [apply Uof_unitary|]. rewrite !mul_same. change (adjoint Uof) with (mdag Uof). intros i j Hi Hj.
    rewrite mm_Uof_r by easy. rewrite mm_Uof_l by easy. unfold turn. rewrite RtoC_mult. ring.
  Qed.
End Turn.
Lemma mirror_ext n A A' B B' : same n A A' -> same n B B' -> mirror n A B -> mirror n A' B'.
Proof.
  intros HA HB (U & H & K). exists U. split; [easy|]. rewrite <- HB, K. rewrite !(mul_same n (mul n U _)). apply mm_proper; [|reflexivity]. rewrite !(mul_same n U).
  apply mm_proper; [reflexivity|]. intros i j Hi Hj. now rewrite HA.
Qed.
(** ** mirror images have the same spectrum *)
Definition cj (A : cmat) : cmat := fun i j => Cconj (A i j).
Lemma cj_mm n A B : same n (cj (mm n A B)) (mm n (cj A) (cj B)).
Proof. intros i j _ _. unfold cj, mm, mmul. rewrite conj_sum. apply (@sumn_ext C_rng). intros k _. apply conj_mult. Qed.
Lemma cj_ext n A B : same n A B -> same n (cj A) (cj B).
Proof. intros H i j Hi Hj. unfold cj. now rewrite H. Qed.
Lemma cj_eye n : same n (cj eye) eye.
Proof. intros i j _ _. unfold cj, eye. destruct (Nat.eqb i j); apply conj_R. Qed.
Lemma cj_diag n (E : nat -> R) : same n (cj (cdiag (fun k => RtoC (E k)))) (cdiag (fun k => RtoC (E k))).
Proof. intros i j _ _. unfold cj, cdiag. destruct (Nat.eqb i j); apply conj_R. Qed.
Lemma mirror_spectrum n A B E : mirror n A B -> spectrum n A E -> spectrum n B E.
Proof.
  intros (U & HU & HB) (V & HV & HE). unfold unitary in HU, HV. rewrite !mul_same in HU, HV, HE.
  change (adjoint U) with (mdag U) in *. change (adjoint V) with (mdag V) in *. change identity with eye in *.
  change (diagonal (fun k => RtoC (E k))) with (cdiag (fun k => RtoC (E k))) in *.
  rewrite !mul_same in HB. assert (HB' : same n B (mm n (mm n U (cj A)) (mdag U))).
  { rewrite HB. reflexivity. }
  clear HB. destruct HU as [U1 U2], HV as [V1 V2]. apply cj_ext in V1, V2, HE. rewrite !cj_mm in V1, V2, HE. rewrite !cj_eye in V1, V2. rewrite (cj_mm n V), (cj_diag n E) in HE.
  assert (D : same n (mdag (mm n U (cj V))) (mm n (cj (mdag V)) (mdag U))) by (rewrite mdag_mul; reflexivity).
  exists (mm n U (cj V)). split.
  - unfold unitary. change (adjoint (mm n U (cj V))) with (mdag (mm n U (cj V))). change identity with eye. rewrite !mul_same, D. split.
    + rewrite mmA, <- (mmA n (cj V)), V1, mm_1l. exact U1.
    + rewrite mmA, <- (mmA n (mdag U)), U2, mm_1l. exact V2.
  - rewrite !mul_same, HB'. change (diagonal (fun k => RtoC (E k))) with (cdiag (fun k => RtoC (E k))).
    rewrite !mmA, <- (mmA n (mdag U)), U2, mm_1l, HE. reflexivity.
Qed.
Lemma mirror_sym n A B : mirror n A B -> mirror n B A.
Proof.
  intros (U & HU & HB). assert (HU' := HU). unfold unitary in HU. rewrite !mul_same in HU, HB. change (adjoint U) with (mdag U) in *. change identity with eye in *.
  assert (HB' : same n B (mm n (mm n U (cj A)) (mdag U))).
  { rewrite HB. reflexivity. }
  clear HB. destruct HU as [U1 U2]. exists (cj (mdag U)). split.
  - unfold unitary. change (adjoint (cj (mdag U))) with (mdag (cj (mdag U))). change identity with eye. rewrite !mul_same.
    assert (D : same n (mdag (cj (mdag U))) (cj U)) by (intros i j _ _; unfold mdag, cj; now rewrite !conj_conj).
    rewrite !D, <- !cj_mm. split; [rewrite (cj_ext _ _ _ U2) | rewrite (cj_ext _ _ _ U1)]; apply cj_eye.
  - rewrite !mul_same. change (adjoint (cj (mdag U))) with (mdag (cj (mdag U))).
    assert (D : same n (mdag (cj (mdag U))) (cj U)) by (intros i j _ _; unfold mdag, cj; now rewrite !conj_conj).
    assert (X : same n A (cj (cj A))) by (intros i j _ _; unfold cj; now rewrite conj_conj).
    assert (Y : same n (mul n (cj (mdag U)) (fun i j => Cconj (B i j))) (mm n (cj (mdag U)) (cj B))) by (rewrite mul_same; reflexivity).
    rewrite Y, D, <- cj_mm, <- cj_mm. rewrite X. apply cj_ext. rewrite HB', !mmA, U2, mm_1r, <- mmA, U2, mm_1l. reflexivity.
Qed.
Lemma mirror_spectra n A B : mirror n A B -> forall E, spectrum n A E <-> spectrum n B E.
Proof. intros H E. split; apply mirror_spectrum; [easy | now apply mirror_sym]. Qed.

(** ** tensor products *)
Section Tensor.
  Variables (d : nat -> nat) (sg : nat -> nat -> nat) (ep : nat -> nat -> R).
  Fixpoint tsg (ks : list nat) (i : nat) : nat :=
    match ks with [] => i | k :: r => let m := prodn (map d r) in sg k (i / m) * m + tsg r (i mod m) end.
  Fixpoint tep (ks : list nat) (i : nat) : R :=
    match ks with [] => 1%R | k :: r => let m := prodn (map d r) in (ep k (i / m) * tep r (i mod m))%R end.
  Lemma divmod_back m a b : b < m -> (a * m + b) / m = a /\ (a * m + b) mod m = b.
  Proof. intros H. split; [rewrite Nat.div_add_l by lia; rewrite Nat.div_small by easy; lia | rewrite Nat.add_comm, Nat.mod_add by lia; now apply Nat.mod_small]. Qed.
  Lemma tsigned ks : (forall k, In k ks -> signed (d k) (sg k) (ep k)) -> signed (prodn (map d ks)) (tsg ks) (tep ks).
  Proof.
    induction ks as [|k ks IH]; intros H i Hi.
    - cbn in *. repeat split; auto. now left.
    - cbn [map prodn fold_right] in Hi. change (fold_right Nat.mul 1 (map d ks)) with (prodn (map d ks)) in Hi. cbn [tsg tep map]. set (m := prodn (map d ks)) in *.
      destruct (divmod_lt (d k) m i Hi) as [H1 H2]. destruct (H k (or_introl eq_refl) _ H1) as (A1 & A2 & A3 & A4).
      destruct (IH (fun k Hk => H k (or_intror Hk)) _ H2) as (B1 & B2 & B3 & B4). destruct (divmod_back m (sg k (i / m)) (tsg ks (i mod m)) B1) as [D1 D2].
      rewrite D1, D2. split; [|split; [|split]].
      + change (prodn (d k :: map d ks)) with (d k * m). nia.
      + rewrite A2, B2. rewrite Nat.mul_comm. symmetry. apply Nat.div_mod. lia.
      + now apply onsign_mul.
      + now rewrite A4, B4.
  Qed.
  Lemma tensor_turn ks (f : nat -> cmat) : (forall k, In k ks -> signed (d k) (sg k) (ep k)) -> forall i j, i < prodn (map d ks) -> j < prodn (map d ks) ->
    turn (tsg ks) (tep ks) (tensor (map (fun k => (d k, f k)) ks)) i j = tensor (map (fun k => (d k, turn (sg k) (ep k) (f k))) ks) i j.
  Proof.
    induction ks as [|k ks IH]; intros H i j Hi Hj.
    - unfold turn. cbn. rewrite conj_R, Rmult_1_r. ring.
    - cbn [map prodn fold_right] in Hi, Hj. change (fold_right Nat.mul 1 (map d ks)) with (prodn (map d ks)) in Hi, Hj. cbn [map tensor]. rewrite !map_map. cbn [fst].
      change (map (fun x => d x) ks) with (map d ks). set (m := prodn (map d ks)) in *.
      destruct (divmod_lt (d k) m i Hi) as [H1 H2], (divmod_lt (d k) m j Hj) as [H3 H4].
      assert (H' : forall k, In k ks -> signed (d k) (sg k) (ep k)) by (intros; apply H; now right).
      pose proof (tsigned ks H') as T. unfold kron at 2. rewrite <- (IH H') by easy. unfold turn, kron. cbn [tsg tep]. fold m.
      destruct (T _ H2) as (B1 & _), (T _ H4) as (B2 & _).
      destruct (divmod_back m (sg k (i / m)) (tsg ks (i mod m)) B1) as [-> ->]. destruct (divmod_back m (sg k (j / m)) (tsg ks (j mod m)) B2) as [-> ->].
      rewrite conj_mult, !RtoC_mult. ring.
  Qed.
  Lemma lift_turn n i A : (forall k, k < n -> signed (d k) (sg k) (ep k)) ->
    same (size d n) (turn (tsg (seq 0 n)) (tep (seq 0 n)) (lift d n i A)) (lift d n i (turn (sg i) (ep i) A)).
  Proof.
    intros H r c Hr Hc. unfold lift. assert (H' : forall k, In k (seq 0 n) -> signed (d k) (sg k) (ep k)) by (intros k Hk; apply in_seq in Hk; apply H; lia).
    rewrite (tensor_turn _ (fun k => if Nat.eqb k i then A else eye) H') by easy. apply tensor_ext; auto. intros k a b Hk Ha Hb. destruct (Nat.eqb_spec k i) as [->|]; [easy|]. apply (turn_eye (d k)); auto.
  Qed.
End Tensor.
