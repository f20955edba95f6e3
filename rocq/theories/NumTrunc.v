(** Proofs for C126: tensor products and their restriction to fewer states. *)
From Coq Require Import List Bool Arith Lia ZArith Reals Lra Setoid Morphisms Permutation.
From Coquelicot Require Import Complex.
From Verif Require Import Prelude PreludeFacts Sweep SweepProofs Mat MatFacts Util Graph Symbolic NumOp NumOpSpec NumKron NumSpectral NumExpand NumHerm NumGauge NumTruncSpec.
Import ListNotations.
Open Scope nat_scope.

Section Embed.
  Variables (d d' s : nat -> nat).
  Fixpoint em (ks : list nat) (i : nat) : nat :=
    match ks with
    | [] => i
    | k :: r => let m := prodn (map d r) in (i / m + s k) * prodn (map d' r) + em r (i mod m)
    end.
  Definition room (ks : list nat) : Prop := forall k, In k ks -> d k + s k <= d' k.
  Lemma em_lt ks : room ks -> forall i, i < prodn (map d ks) -> em ks i < prodn (map d' ks).
  Proof.
    induction ks as [|k ks IH]; intros R i Hi; cbn [em map prodn fold_right] in *; [exact Hi|].
    change (fold_right Nat.mul 1 (map d ks)) with (prodn (map d ks)) in *. change (fold_right Nat.mul 1 (map d' ks)) with (prodn (map d' ks)) in *.
    destruct (divmod_lt _ _ _ Hi) as [H1 H2]. pose proof (IH (fun k Hk => R k (or_intror Hk)) _ H2) as A. pose proof (R k (or_introl eq_refl)) as B.
    set (q := i / prodn (map d ks)) in *. set (m' := prodn (map d' ks)) in *. assert (q + s k + 1 <= d' k) by lia. nia.
  Qed.
  Lemma em_split k ks i : room (k :: ks) -> i < d k * prodn (map d ks) ->
    em (k :: ks) i / prodn (map d' ks) = i / prodn (map d ks) + s k /\ em (k :: ks) i mod prodn (map d' ks) = em ks (i mod prodn (map d ks)).
  Proof.
    intros R Hi. destruct (divmod_lt _ _ _ Hi) as [H1 H2]. pose proof (em_lt ks (fun k Hk => R k (or_intror Hk)) _ H2) as A. cbn [em]. set (m' := prodn (map d' ks)) in *.
    assert (m' <> 0) by lia. split.
    - rewrite Nat.div_add_l by easy. rewrite (Nat.div_small _ m' A). apply Nat.add_0_r.
    - rewrite Nat.add_comm, Nat.mod_add by easy. exact (Nat.mod_small _ m' A).
  Qed.
  Lemma em_inj ks : room ks -> forall i j, i < prodn (map d ks) -> j < prodn (map d ks) -> em ks i = em ks j -> i = j.
  Proof.
    induction ks as [|k ks IH]; intros R i j Hi Hj E; [exact E|]. cbn [map prodn fold_right] in Hi, Hj.
    change (fold_right Nat.mul 1 (map d ks)) with (prodn (map d ks)) in *.
    destruct (em_split k ks i R Hi) as [A1 A2], (em_split k ks j R Hj) as [B1 B2]. rewrite E in A1, A2. rewrite A1 in B1. rewrite A2 in B2.
    destruct (divmod_lt _ _ _ Hi) as [_ H2], (divmod_lt _ _ _ Hj) as [_ H4]. apply IH in B2; auto; [|intros q Hq; apply R; now right].
    assert (prodn (map d ks) <> 0) by (intros Z; rewrite Z in Hi; lia). rewrite (Nat.div_mod_eq i (prodn (map d ks))), (Nat.div_mod_eq j (prodn (map d ks))). rewrite B2. f_equal. f_equal. lia.
  Qed.
  (** one factor *)
  Definition fits (k : nat) (A A' : cmat) : Prop := forall i j, i < d k -> j < d k -> A' (i + s k) (j + s k) = A i j.
  Lemma tensor_fits ks (F F' : nat -> cmat) : room ks -> (forall k, In k ks -> fits k (F k) (F' k)) ->
    restricts (prodn (map d ks)) (em ks) (tensor (map (fun k => (d' k, F' k)) ks)) (tensor (map (fun k => (d k, F k)) ks)).
  Proof.
    induction ks as [|k ks IH]; intros R H i j Hi Hj; [reflexivity|]. cbn [map prodn fold_right] in Hi, Hj.
    change (fold_right Nat.mul 1 (map d ks)) with (prodn (map d ks)) in *. cbn [map tensor]. rewrite !map_map. cbn [fst].
    change (map (fun x => d x) ks) with (map d ks). change (map (fun x => d' x) ks) with (map d' ks). unfold kron.
    destruct (em_split k ks i R Hi) as [A1 A2], (em_split k ks j R Hj) as [B1 B2]. rewrite A1, A2, B1, B2.
    destruct (divmod_lt _ _ _ Hi) as [H1 H2], (divmod_lt _ _ _ Hj) as [H3 H4]. rewrite (H k (or_introl eq_refl)) by easy. f_equal.
    apply IH; auto; intros q Hq; [apply R | apply H]; now right.
  Qed.
  Lemma fits_eye k : fits k eye eye.
  Proof. intros i j _ _. unfold eye. destruct (Nat.eqb_spec i j) as [->|N]; [now rewrite Nat.eqb_refl|]. destruct (Nat.eqb_spec (i + s k) (j + s k)); [lia|easy]. Qed.
End Embed.

(** ** linear combinations *)
Lemma res_plus n f A A' B B' : restricts n f A' A -> restricts n f B' B -> restricts n f (mplus A' B') (mplus A B).
Proof. intros H K i j Hi Hj. unfold mplus. now rewrite H, K. Qed.
Lemma res_sc n f c A A' : restricts n f A' A -> restricts n f (msc c A') (msc c A).
Proof. intros H i j Hi Hj. unfold msc. now rewrite H. Qed.
Lemma res_zero n f : restricts n f mzero mzero.
Proof. easy. Qed.
Lemma res_eye n n' f : embedding n n' f -> restricts n f eye eye.
Proof. intros [_ H] i j Hi Hj. unfold eye. destruct (Nat.eqb_spec i j) as [->|N]; [now rewrite Nat.eqb_refl|]. destruct (Nat.eqb_spec (f i) (f j)) as [E|]; [destruct N; now apply H|easy]. Qed.
Lemma res_tidy n f A A' : restricts n f A' A -> restricts n f (tidyup A') (tidyup A).
Proof. intros H i j Hi Hj. unfold tidyup. now rewrite H. Qed.
Lemma res_same n n' f A A' B B' : embedding n n' f -> same n A B -> same n' A' B' -> restricts n f B' B -> restricts n f A' A.
Proof. intros [E _] H K R i j Hi Hj. rewrite H by easy. rewrite K by auto. now apply R. Qed.
Lemma res_sum n f q (A A' : nat -> cmat) : (forall i, i < q -> restricts n f (A' i) (A i)) ->
  restricts n f (fun r c => @sumn C_rng q (fun i => A' i r c)) (fun r c => @sumn C_rng q (fun i => A i r c)).
Proof. intros H i j Hi Hj. apply (@sumn_ext C_rng). intros k Hk. now apply H. Qed.

(** ** products of operators of different nodes *)
Section Products.
  Variables (d d' s : nat -> nat) (n : nat).
  Hypothesis R : room d d' s (seq 0 n).
  Let N := size d n.
  Let N' := size d' n.
  Let f := em d d' s (seq 0 n).
  Definition tens (D : nat -> nat) (F : nat -> cmat) : cmat := tensor (map (fun k => (D k, F k)) (seq 0 n)).
  Lemma f_emb : embedding N N' f.
  Proof. split; [intros; now apply em_lt | intros; now apply (em_inj d d' s (seq 0 n) R)]. Qed.
  Lemma tens_res F F' : (forall k, k < n -> fits d s k (F k) (F' k)) -> restricts N f (tens d' F') (tens d F).
  Proof. intros H. apply tensor_fits; auto. intros k Hk. apply in_seq in Hk. apply H. lia. Qed.
  Lemma tens_mul D F G : same (size D n) (mm (size D n) (tens D F) (tens D G)) (tens D (fun k => mm (D k) (F k) (G k))).
  Proof. intros i j Hi Hj. now apply tensor_mul. Qed.
  Lemma tens_ext D F G : (forall k, k < n -> same (D k) (F k) (G k)) -> same (size D n) (tens D F) (tens D G).
  Proof. intros H i j Hi Hj. apply tensor_ext; auto. intros k a b Hk. apply in_seq in Hk. apply H. lia. Qed.
  Definition at_site (i : nat) (A : cmat) (k : nat) : cmat := if Nat.eqb k i then A else eye.
  Lemma lift_tens D i A : lift D n i A = tens D (at_site i A).
  Proof. reflexivity. Qed.
  Lemma lift_res i A A' : (i < n -> fits d s i A A') -> restricts N f (lift d' n i A') (lift d n i A).
  Proof. intros H. rewrite !lift_tens. apply tens_res. intros k Hk. unfold at_site. destruct (Nat.eqb_spec k i) as [->|]; [auto | apply fits_eye]. Qed.
  Lemma pair_res i j A A' B B' : i < n -> j < n -> fits d s i A A' -> fits d s j B B' -> (i = j -> fits d s i (mm (d i) A B) (mm (d' i) A' B')) ->
    restricts N f (mm N' (lift d' n i A') (lift d' n j B')) (mm N (lift d n i A) (lift d n j B)).
  Proof.
    intros Hi Hj HA HB HM. rewrite !lift_tens. eapply (res_same N N'); [apply f_emb | apply tens_mul | apply tens_mul|]. apply tens_res. intros k Hk. unfold at_site.
    assert (L : forall x, x < d k -> x + s k < d' k) by (assert (Hk' : In k (seq 0 n)) by (apply in_seq; lia); intros x Hx; pose proof (R k Hk'); lia).
    destruct (Nat.eqb_spec k i) as [Ei|Ni], (Nat.eqb_spec k j) as [Ej|Nj]; try subst k; try subst j.
    - now apply HM.
    - intros a b Ha Hb. rewrite !mm_eye_r by auto. now apply HA.
    - intros a b Ha Hb. rewrite !mm_eye_l by auto. now apply HB.
    - intros a b Ha Hb. rewrite !mm_eye_l by auto. now apply (fits_eye d s k).
  Qed.
  (** the products in the cosines *)
  Variables (g g' : nat * bool -> cmat) (o o' : nat * bool -> cmat).
  Lemma fold_fits ts : NoDup (map fst ts) -> (forall t, In t ts -> fst t < n /\ same N (g t) (lift d n (fst t) (o t)) /\ same N' (g' t) (lift d' n (fst t) (o' t)) /\ fits d s (fst t) (o t) (o' t)) ->
    forall F F' A A' z, (forall k, k < n -> fits d s k (F k) (F' k)) -> (forall t, In t ts -> F (fst t) = eye /\ F' (fst t) = eye) ->
    same N A (msc z (tens d F)) -> same N' A' (msc z (tens d' F')) -> restricts N f (fold_left (mm N') (map g' ts) A') (fold_left (mm N) (map g ts) A).
  Proof.
    induction ts as [|t ts IH]; intros ND H F F' A A' z HF HE HA HA'; cbn [map fold_left].
    - eapply (res_same N N'); [apply f_emb | exact HA | exact HA' |]. apply res_sc. now apply tens_res.
    - cbn [map] in ND. inversion ND as [|? ? N1 N2]; subst. destruct (H t (or_introl eq_refl)) as (L & G1 & G2 & G3). destruct (HE t (or_introl eq_refl)) as [E1 E2].
      assert (M : forall D F0 B o0, F0 (fst t) = eye -> same (size D n) B (msc z (tens D F0)) -> same (size D n) (mm (size D n) B (lift D n (fst t) o0)) (msc z (tens D (fun k => if Nat.eqb k (fst t) then o0 else F0 k)))).
      { intros D F0 B o0 Ee HB. rewrite HB, lift_tens. intros i j Hi Hj. rewrite mm_sc_l. unfold msc. f_equal. rewrite (tens_mul D F0 _ i j Hi Hj). apply tens_ext; auto. intros k Hk a b Ha Hb. unfold at_site.
        destruct (Nat.eqb_spec k (fst t)) as [->|]; [rewrite Ee; now apply mm_eye_l | now apply mm_eye_r]. }
      apply (IH N2 (fun t' Ht => H t' (or_intror Ht)) (fun k => if Nat.eqb k (fst t) then o t else F k) (fun k => if Nat.eqb k (fst t) then o' t else F' k) _ _ z).
      + intros k Hk. destruct (Nat.eqb_spec k (fst t)) as [->|]; [exact G3 | now apply HF].
      + intros u Hu. destruct (Nat.eqb_spec (fst u) (fst t)) as [E|]; [destruct N1; rewrite <- E; now apply in_map|]. apply HE. now right.
      + rewrite G1. now apply M.
      + rewrite G2. now apply M.
  Qed.
  Lemma product_fits ts z : NoDup (map fst ts) -> (forall t, In t ts -> fst t < n /\ same N (g t) (lift d n (fst t) (o t)) /\ same N' (g' t) (lift d' n (fst t) (o' t)) /\ fits d s (fst t) (o t) (o' t)) ->
    match product N z (map g ts), product N' z (map g' ts) with Ok A, Ok A' => restricts N f A' A | Err e, Err e' => e = e' | _, _ => False end.
  Proof.
    destruct ts as [|t ts]; intros ND H; cbn [map product]; [easy|]. cbn [map] in ND. inversion ND as [|? ? N1 N2]; subst. destruct (H t (or_introl eq_refl)) as (L & G1 & G2 & G3).
    apply (fold_fits ts N2 (fun t' Ht => H t' (or_intror Ht)) (at_site (fst t) (o t)) (at_site (fst t) (o' t)) _ _ z).
    - intros k Hk. unfold at_site. destruct (Nat.eqb_spec k (fst t)) as [->|]; [exact G3 | apply fits_eye].
    - intros u Hu. unfold at_site. destruct (Nat.eqb_spec (fst u) (fst t)) as [E|]; [destruct N1; rewrite <- E; now apply in_map | easy].
    - rewrite G1. reflexivity.
    - rewrite G2. reflexivity.
  Qed.
End Products.
