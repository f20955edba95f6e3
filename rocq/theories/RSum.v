(** Sums of lists of reals. *)
From Coq Require Import List Bool Arith Reals Lra Permutation Lia.
From Verif Require Import Prelude Mat MatFacts SymbolicSpec.
Import ListNotations.
Open Scope R_scope.

Lemma Rsum_nil : Rsum [] = 0. Proof. reflexivity. Qed.
Lemma Rsum_cons a l : Rsum (a :: l) = a + Rsum l. Proof. reflexivity. Qed.
Arguments Rsum : simpl never.
Ltac rs := cbn [map filter flat_map app fst snd]; rewrite ?Rsum_cons, ?Rsum_nil.
Lemma Rsum_app a b : Rsum (a ++ b) = Rsum a + Rsum b.
Proof. induction a; rs; [ring|]. rewrite IHa. ring. Qed.
Lemma Rsum_perm a b : Permutation a b -> Rsum a = Rsum b.
Proof. induction 1; rs; lra. Qed.
Lemma Rsum_map_add {A} (f g : A -> R) l : Rsum (map (fun x => f x + g x) l) = Rsum (map f l) + Rsum (map g l).
Proof. induction l; rs; [ring|]. rewrite IHl. ring. Qed.
Lemma Rsum_map_mul {A} c (f : A -> R) l : Rsum (map (fun x => c * f x) l) = c * Rsum (map f l).
Proof. induction l; rs; [ring|]. rewrite IHl. ring. Qed.
Lemma Rsum_map_0 {A} (f : A -> R) l : (forall x, In x l -> f x = 0) -> Rsum (map f l) = 0.
Proof. induction l; rs; intros H; auto. rewrite (H a), IHl by (cbn in *; auto). ring. Qed.
Lemma Rsum_ext {A} (f g : A -> R) l : (forall x, In x l -> f x = g x) -> Rsum (map f l) = Rsum (map g l).
Proof. intros H. f_equal. apply map_ext_in; auto. Qed.
Lemma Rsum_flat_map {A B} (f : A -> list B) (g : B -> R) l : Rsum (map g (flat_map f l)) = Rsum (map (fun x => Rsum (map g (f x))) l).
Proof. induction l; rs; auto. rewrite map_app, Rsum_app, IHl. auto. Qed.
Lemma Rsum_swap {A B} (f : A -> B -> R) l m : Rsum (map (fun x => Rsum (map (f x) m)) l) = Rsum (map (fun y => Rsum (map (fun x => f x y) l)) m).
Proof.
  induction l; rs.
  - symmetry. apply Rsum_map_0. auto.
  - rewrite IHl. rewrite <- Rsum_map_add. auto.
Qed.
Lemma Rsum_filter {A} (P : A -> bool) (f : A -> R) l : Rsum (map f (filter P l)) = Rsum (map (fun x => if P x then f x else 0) l).
Proof. induction l as [|x l IH]; rs; auto. destruct (P x); rs; rewrite IH; ring. Qed.
(** the term of one index *)
Lemma Rsum_single {A} (f : A -> R) (x : A) l : NoDup l -> In x l -> (forall y, In y l -> y <> x -> f y = 0) -> Rsum (map f l) = f x.
Proof.
  induction l as [|y l IH]; [easy|]. intros Hn Hi H. apply NoDup_cons_iff in Hn as [Hy Hn]. rs. destruct Hi as [->|Hi].
  - rewrite Rsum_map_0; [ring|]. intros z Hz. apply H; [right; auto|]. intros ->; auto.
  - rewrite IH; auto.
    + rewrite (H y); [ring|left; auto|]. intros ->; auto.
    + intros z Hz. apply H; right; auto.
Qed.
Lemma Rsum_nonneg l : (forall x, In x l -> 0 <= x) -> 0 <= Rsum l.
Proof. induction l; rs; intros H; [lra|]. cbn in H. assert (0 <= a) by auto. assert (0 <= Rsum l) by auto. lra. Qed.
Lemma Rsum_0_all l : (forall x, In x l -> 0 <= x) -> Rsum l = 0 -> forall x, In x l -> x = 0.
Proof.
  induction l; rs; intros H E x Hx; [easy|]. cbn in H, Hx. assert (H1 : 0 <= a) by auto. assert (H2 : 0 <= Rsum l) by (apply Rsum_nonneg; auto).
  destruct Hx as [<-|Hx]; [lra|]. apply IHl; auto. lra.
Qed.
(** sums over indices and over lists *)
Lemma sumn_Rsum n (f : nat -> R) : sumn (A := R_rng) n f = Rsum (map f (seq 0 n)).
Proof.
  induction n as [|n IH]; auto. rewrite seq_S, map_app, Rsum_app. cbn [sumn]. rewrite IH. rs. rewrite Rplus_0_r. reflexivity.
Qed.
Lemma map_nth_seq {A} (l : list A) d : map (fun i => nth i l d) (seq 0 (length l)) = l.
Proof.
  induction l as [|x l IH]; cbn; auto. f_equal. rewrite <- seq_shift, map_map. cbn. auto.
Qed.
Lemma sumn_nth {A} (l : list A) d (f : A -> R) : sumn (A := R_rng) (length l) (fun i => f (nth i l d)) = Rsum (map f l).
Proof. rewrite sumn_Rsum. rewrite <- (map_map (fun i => nth i l d) f). now rewrite map_nth_seq. Qed.
