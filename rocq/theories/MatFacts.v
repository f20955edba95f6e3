From Coq Require Import List Bool Arith Lia Ring_theory Ring.
From Verif Require Import Mat.
Import ListNotations.

Section F.
  Context {A : rng}.
  Add Ring Aring : (krt A).
  Implicit Types f g : nat -> A.

  Lemma sumn_ext n f g : (forall i, i < n -> f i = g i) -> sumn n f = sumn n g.
  Proof. induction n as [|n IH]; cbn; intros H; auto. rewrite IH, H; auto. Qed.
  Lemma sumn_0 n f : (forall i, i < n -> f i = k0) -> sumn n f = k0.
  Proof. induction n as [|n IH]; cbn; intros H; auto. rewrite IH, H by auto. ring. Qed.
  Lemma sumn_add n f g : sumn n (fun i => kadd (f i) (g i)) = kadd (sumn n f) (sumn n g).
  Proof. induction n as [|n IH]; cbn; [ring|]. rewrite IH. ring. Qed.
  Lemma sumn_mul_l n c f : kmul c (sumn n f) = sumn n (fun i => kmul c (f i)).
  Proof. induction n as [|n IH]; cbn; [ring|]. rewrite <- IH. ring. Qed.
  Lemma sumn_mul_r n c f : kmul (sumn n f) c = sumn n (fun i => kmul (f i) c).
  Proof. induction n as [|n IH]; cbn; [ring|]. rewrite <- IH. ring. Qed.
  Lemma sumn_opp n f : sumn n (fun i => kopp (f i)) = kopp (sumn n f).
  Proof. induction n as [|n IH]; cbn; [ring|]. rewrite IH. ring. Qed.
  Lemma sumn_sub n f g : sumn n (fun i => ksub (f i) (g i)) = ksub (sumn n f) (sumn n g).
  Proof. induction n as [|n IH]; cbn; [ring|]. rewrite IH. ring. Qed.
  Lemma sumn_swap n m (f : nat -> nat -> A) : sumn n (fun i => sumn m (fun j => f i j)) = sumn m (fun j => sumn n (fun i => f i j)).
  Proof.
    induction n as [|n IH]; cbn.
    - symmetry. now apply sumn_0.
    - rewrite IH. now rewrite <- sumn_add.
  Qed.
  Lemma sumn_single n k f : k < n -> (forall i, i < n -> i <> k -> f i = k0) -> sumn n f = f k.
  Proof.
    induction n as [|n IH]; intros L H; [lia|]. cbn. destruct (Nat.eq_dec k n) as [->|N].
    - rewrite sumn_0; [ring|]. intros i Hi. apply H; lia.
    - rewrite IH by (auto; lia). rewrite (H n) by lia. ring.
  Qed.
  Lemma delta_eq i : @delta A i i = k1. Proof. unfold delta. now rewrite Nat.eqb_refl. Qed.
  Lemma delta_neq i j : i <> j -> @delta A i j = k0. Proof. unfold delta. intros H. apply Nat.eqb_neq in H. now rewrite H. Qed.
  Lemma delta_sym i j : @delta A i j = delta j i. Proof. unfold delta. now rewrite Nat.eqb_sym. Qed.
  Lemma sumn_delta_l n k f : k < n -> sumn n (fun i => kmul (delta i k) (f i)) = f k.
  Proof.
    intros L. rewrite (sumn_single n k); auto.
    - rewrite delta_eq. ring.
    - intros i _ N. rewrite delta_neq by auto. ring.
  Qed.
  Lemma sumn_delta_l' n k f : k < n -> sumn n (fun i => kmul (delta k i) (f i)) = f k.
  Proof. intros L. rewrite <- (sumn_delta_l n k f L). apply sumn_ext. intros i _. now rewrite delta_sym. Qed.
  Lemma sumn_delta_r n k f : k < n -> sumn n (fun i => kmul (f i) (delta i k)) = f k.
  Proof. intros L. rewrite <- (sumn_delta_l n k f L). apply sumn_ext. intros i _. ring. Qed.
  Lemma sumn_app n m f : sumn (n + m) f = kadd (sumn n f) (sumn m (fun i => f (n + i))).
  Proof.
    induction m as [|m IH]; cbn.
    - rewrite Nat.add_0_r. ring.
    - rewrite Nat.add_succ_r. cbn. rewrite IH. ring.
  Qed.
  (** index i*m+j *)
  Lemma sumn_mul n m f : sumn (n * m) f = sumn n (fun i => sumn m (fun j => f (i * m + j))).
  Proof.
    induction n as [|n IH]; cbn; auto. rewrite Nat.add_comm, sumn_app, IH. reflexivity.
  Qed.

  Lemma mmul_assoc n m (X Y Z : nat -> nat -> A) i j : mmul m (mmul n X Y) Z i j = mmul n X (mmul m Y Z) i j.
  Proof.
    unfold mmul. rewrite (sumn_ext m _ (fun k => sumn n (fun l => kmul (kmul (X i l) (Y l k)) (Z k j)))).
    2:{ intros k _. apply sumn_mul_r. }
    rewrite sumn_swap. apply sumn_ext. intros l _. rewrite sumn_mul_l. apply sumn_ext. intros k _. ring.
  Qed.
  Lemma mmul_id_l n (X : nat -> nat -> A) i j : i < n -> mmul n mid X i j = X i j.
  Proof. intros L. unfold mmul, mid. now rewrite (sumn_delta_l' n i (fun k => X k j)). Qed.
  Lemma mmul_id_r n (X : nat -> nat -> A) i j : j < n -> mmul n X mid i j = X i j.
  Proof. intros L. unfold mmul, mid. now rewrite (sumn_delta_r n j (fun k => X i k)). Qed.
  Lemma mmul_ext n (X X' Y Y' : nat -> nat -> A) i j : (forall k, k < n -> X i k = X' i k) -> (forall k, k < n -> Y k j = Y' k j) ->
    mmul n X Y i j = mmul n X' Y' i j.
  Proof. intros H H'. unfold mmul. apply sumn_ext. intros k L. now rewrite H, H'. Qed.
  Lemma mmul_tr n (X Y : nat -> nat -> A) i j : mtr (mmul n X Y) i j = mmul n (mtr Y) (mtr X) i j.
  Proof. unfold mtr, mmul. apply sumn_ext. intros k _. ring. Qed.
  Lemma mmul_add_l n (X Y Z : nat -> nat -> A) i j : mmul n (madd X Y) Z i j = kadd (mmul n X Z i j) (mmul n Y Z i j).
  Proof. unfold mmul, madd. rewrite <- sumn_add. apply sumn_ext. intros. ring. Qed.
  Lemma mmul_add_r n (X Y Z : nat -> nat -> A) i j : mmul n X (madd Y Z) i j = kadd (mmul n X Y i j) (mmul n X Z i j).
  Proof. unfold mmul, madd. rewrite <- sumn_add. apply sumn_ext. intros. ring. Qed.
  Lemma mmul_scale_l n c (X Y : nat -> nat -> A) i j : mmul n (mscale c X) Y i j = kmul c (mmul n X Y i j).
  Proof. unfold mmul, mscale. rewrite sumn_mul_l. apply sumn_ext. intros. ring. Qed.
  Lemma mmul_scale_r n c (X Y : nat -> nat -> A) i j : mmul n X (mscale c Y) i j = kmul c (mmul n X Y i j).
  Proof. unfold mmul, mscale. rewrite sumn_mul_l. apply sumn_ext. intros. ring. Qed.

  (** sums over lists *)
  Lemma sumI_app (l l' : list A) : sumI (l ++ l') = kadd (sumI l) (sumI l').
  Proof. unfold sumI; induction l as [|x l IH]; cbn; [ring|]. rewrite IH. ring. Qed.
  Lemma sumI_map_add {X} (f g : X -> A) l : sumI (map (fun x => kadd (f x) (g x)) l) = kadd (sumI (map f l)) (sumI (map g l)).
  Proof. unfold sumI; induction l as [|x l IH]; cbn; [ring|]. rewrite IH. ring. Qed.
  Lemma sumI_map_mul {X} c (f : X -> A) l : sumI (map (fun x => kmul c (f x)) l) = kmul c (sumI (map f l)).
  Proof. unfold sumI; induction l as [|x l IH]; cbn; [ring|]. rewrite IH. ring. Qed.
  Lemma sumI_swap {X} n (f : X -> nat -> A) l : sumI (map (fun x => sumn n (f x)) l) = sumn n (fun i => sumI (map (fun x => f x i) l)).
  Proof.
    unfold sumI; induction l as [|x l IH]; cbn; [symmetry; now apply sumn_0|]. rewrite IH. now rewrite <- sumn_add.
  Qed.
End F.
