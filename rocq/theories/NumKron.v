(** Kronecker products, adjoints and powers of the model's matrices. *)
From Coq Require Import List Bool Arith Lia ZArith Reals Lra.
From Coquelicot Require Import Complex.
From Verif Require Import Prelude PreludeFacts Sweep SweepProofs Mat MatFacts Util UtilProofs Graph Symbolic NumOp NumOpSpec.
Import ListNotations.
Open Scope nat_scope.

Lemma csum_sumn n f : csum n f = @sumn C_rng n f.
Proof. induction n as [|n IH]; cbn; [easy|]. now rewrite IH. Qed.
Lemma csum_ext n f g : (forall i, i < n -> f i = g i) -> csum n f = csum n g.
Proof. rewrite !csum_sumn. apply (@sumn_ext C_rng). Qed.
Lemma mul_mm n A B i j : mul n A B i j = mm n A B i j.
Proof. unfold mul. now rewrite csum_sumn. Qed.

(** products *)
Lemma mm_assoc n A B D i j : mm n (mm n A B) D i j = mm n A (mm n B D) i j.
Proof. apply (@mmul_assoc C_rng). Qed.
Lemma mm_ext n A A' B B' i j : (forall k, k < n -> A i k = A' i k) -> (forall k, k < n -> B k j = B' k j) -> mm n A B i j = mm n A' B' i j.
Proof. apply (@mmul_ext C_rng). Qed.
Lemma eye_delta i j : eye i j = @delta C_rng i j.
Proof. unfold eye, delta. now destruct (Nat.eqb i j). Qed.
Lemma mm_eye_l n A i j : i < n -> mm n eye A i j = A i j.
Proof. intros H. rewrite <- (@mmul_id_l C_rng n A i j H). apply mm_ext; intros; [apply eye_delta | easy]. Qed.
Lemma mm_eye_r n A i j : j < n -> mm n A eye i j = A i j.
Proof. intros H. rewrite <- (@mmul_id_r C_rng n A i j H). apply mm_ext; intros; [easy | apply eye_delta]. Qed.
Lemma mm_plus_l n A B D i j : mm n (mplus A B) D i j = (mm n A D i j + mm n B D i j)%C.
Proof. apply (@mmul_add_l C_rng). Qed.
Lemma mm_plus_r n A B D i j : mm n A (mplus B D) i j = (mm n A B i j + mm n A D i j)%C.
Proof. apply (@mmul_add_r C_rng). Qed.
Lemma mm_sc_l n c A B i j : mm n (msc c A) B i j = (c * mm n A B i j)%C.
Proof. apply (@mmul_scale_l C_rng). Qed.
Lemma mm_sc_r n c A B i j : mm n A (msc c B) i j = (c * mm n A B i j)%C.
Proof. apply (@mmul_scale_r C_rng). Qed.
Lemma conj_sum n f : Cconj (@sumn C_rng n f) = @sumn C_rng n (fun i => Cconj (f i)).
Proof. induction n as [|n IH]; cbn. - apply injective_projections; cbn; lra. - rewrite <- IH. apply injective_projections; cbn; lra. Qed.
Lemma conj_mult a b : Cconj (a * b)%C = (Cconj a * Cconj b)%C.
Proof. apply injective_projections; cbn; lra. Qed.
Lemma conj_plus a b : Cconj (a + b)%C = (Cconj a + Cconj b)%C.
Proof. apply injective_projections; cbn; lra. Qed.
Lemma conj_conj a : Cconj (Cconj a) = a.
Proof. apply injective_projections; cbn; lra. Qed.
Lemma conj_R x : Cconj (RtoC x) = RtoC x.
Proof. apply injective_projections; cbn; lra. Qed.
Lemma conj_cis t : Cconj (cis t) = cis (- t).
Proof. apply injective_projections; cbn; [now rewrite cos_neg | now rewrite sin_neg]. Qed.
Lemma mdag_mm n A B i j : mdag (mm n A B) i j = mm n (mdag B) (mdag A) i j.
Proof. unfold mdag, mm, mmul. rewrite conj_sum. apply (@sumn_ext C_rng). intros k _. cbn. rewrite conj_mult. apply Cmult_comm. Qed.

(** ** Kronecker products *)
Lemma kron_mul n m A B D F i j : i < n * m -> j < n * m ->
  mm (n * m) (kron m A B) (kron m D F) i j = kron m (mm n A D) (mm m B F) i j.
Proof.
  intros Hi Hj. assert (Hm : m <> 0) by (intros ->; lia). unfold mm, mmul, kron. rewrite (@sumn_mul C_rng).
  set (ia := i / m). set (ja := j / m). set (ib := i mod m). set (jb := j mod m).
  transitivity (@kmul C_rng (@sumn C_rng n (fun k => @kmul C_rng (A ia k) (D k ja))) (@sumn C_rng m (fun k => @kmul C_rng (B ib k) (F k jb)))); [|easy].
  rewrite (@sumn_mul_r C_rng). apply (@sumn_ext C_rng). intros a Ha. rewrite (@sumn_mul_l C_rng). apply (@sumn_ext C_rng). intros b Hb.
  replace ((a * m + b) / m) with a by (rewrite Nat.div_add_l by easy; rewrite Nat.div_small by easy; lia).
  replace ((a * m + b) mod m) with b by (rewrite Nat.add_comm, Nat.mod_add by easy; now rewrite Nat.mod_small).
  match goal with |- @eq _ ?a ?b => change (@eq C a b) end. cbn [kmul C_rng]. ring.
Qed.
Lemma divmod_lt n m i : i < n * m -> i / m < n /\ i mod m < m.
Proof. intros H. assert (m <> 0) by (intros ->; lia). split; [apply Nat.div_lt_upper_bound; lia | now apply Nat.mod_upper_bound]. Qed.

Definition dims (l : list (nat * cmat)) : nat := prodn (map fst l).
(** entrywise products of two lists of factors with the same dimensions *)
Lemma tensor_mul ks (d : nat -> nat) (f g : nat -> cmat) i j :
  let N := prodn (map d ks) in i < N -> j < N ->
  mm N (tensor (map (fun k => (d k, f k)) ks)) (tensor (map (fun k => (d k, g k)) ks)) i j =
  tensor (map (fun k => (d k, mm (d k) (f k) (g k))) ks) i j.
Proof.
  revert i j. induction ks as [|k ks IH]; intros i j; cbn [map prodn fold_right].
  - intros Hi Hj. unfold mm, mmul. cbn. ring.
  - fold (prodn (map d ks)). cbn [tensor]. rewrite !map_map. cbn [fst]. intros Hi Hj.
    rewrite kron_mul by easy. unfold kron. f_equal. apply IH; now apply (divmod_lt (d k)).
Qed.
Lemma tensor_ext ks (d : nat -> nat) (f g : nat -> cmat) i j :
  (forall k a b, In k ks -> a < d k -> b < d k -> f k a b = g k a b) ->
  i < prodn (map d ks) -> j < prodn (map d ks) ->
  tensor (map (fun k => (d k, f k)) ks) i j = tensor (map (fun k => (d k, g k)) ks) i j.
Proof.
  revert i j. induction ks as [|k ks IH]; intros i j H; cbn [map prodn fold_right]; [easy|]. fold (prodn (map d ks)).
  cbn [tensor]. rewrite !map_map. cbn [fst]. intros Hi Hj. unfold kron. destruct (divmod_lt _ _ _ Hi), (divmod_lt _ _ _ Hj). f_equal.
  - apply H; auto. now left.
  - apply IH; auto. intros; apply H; auto. now right.
Qed.
Lemma tensor_dag ks (d : nat -> nat) (f : nat -> cmat) i j :
  mdag (tensor (map (fun k => (d k, f k)) ks)) i j = tensor (map (fun k => (d k, mdag (f k))) ks) i j.
Proof.
  revert i j. induction ks as [|k ks IH]; intros i j; cbn [map tensor].
  - unfold mdag. apply conj_R.
  - rewrite !map_map. cbn [fst]. unfold kron. rewrite <- IH. unfold mdag. apply conj_mult.
Qed.
