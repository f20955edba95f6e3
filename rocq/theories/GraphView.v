(** The networkx edge views list every branch exactly once. *)
From Coq Require Import List Bool String Ascii Arith Permutation Lia.
From Verif Require Import Prelude PreludeFacts Graph GraphSpec.
Import ListNotations.
Open Scope list_scope.
Open Scope nat_scope.

Lemma Permutation_filter_split {X} (P : X -> bool) l :
  Permutation l (filter P l ++ filter (fun x => negb (P x)) l).
Proof.
  induction l as [|x l IH]; cbn; [constructor|].
  destruct (P x); cbn; [constructor; auto|].
  rewrite IH at 1. apply Permutation_middle.
Qed.
Lemma filter_filter {X} (P Q : X -> bool) l : filter P (filter Q l) = filter (fun x => Q x && P x) l.
Proof. induction l as [|x l IH]; cbn; auto. destruct (Q x); cbn; rewrite <- ?IH; auto. Qed.
Lemma filter_none {X} (P : X -> bool) l : (forall x, In x l -> P x = false) -> filter P l = [].
Proof. induction l as [|x l IH]; cbn; intros H; auto. rewrite (H x) by auto. apply IH; auto. Qed.
Lemma filter_all {X} (P : X -> bool) l : (forall x, In x l -> P x = true) -> filter P l = l.
Proof. induction l as [|x l IH]; cbn; intros H; auto. rewrite (H x) by auto. f_equal; apply IH; auto. Qed.
Lemma Permutation_filter {X} (P : X -> bool) l l' : Permutation l l' -> Permutation (filter P l) (filter P l').
Proof.
  induction 1; cbn; auto.
  - destruct (P x); auto.
  - destruct (P x), (P y); auto. constructor.
  - eapply Permutation_trans; eauto.
Qed.
Lemma map_flat_map {X Y Z} (f : Y -> Z) (g : X -> list Y) l : map f (flat_map g l) = flat_map (fun x => map f (g x)) l.
Proof. induction l; cbn; auto. rewrite map_app, IHl; auto. Qed.
Lemma flat_map_ext_in' {X Y} (f g : X -> list Y) l : (forall x, In x l -> f x = g x) -> flat_map f l = flat_map g l.
Proof. induction l; cbn; intros H; auto. rewrite H by auto. f_equal; auto. Qed.

Lemma group_perm {X} (f : X -> nat) es ms : NoDup ms -> forall P, (forall x, In x es -> P x = true -> In (f x) ms) ->
  Permutation (flat_map (fun m => filter (fun x => P x && Nat.eqb (f x) m) es) ms) (filter P es).
Proof.
  induction 1 as [|m ms Hm Hn IH]; intros P HP; cbn.
  - rewrite filter_none; [constructor|]. intros x Hx. destruct (P x) eqn:E; auto. destruct (HP x Hx E).
  - eapply Permutation_trans; [|symmetry; apply (Permutation_filter_split (fun x => Nat.eqb (f x) m))].
    rewrite !filter_filter. apply Permutation_app; [apply Permutation_refl|].
    rewrite <- (IH (fun x => P x && negb (Nat.eqb (f x) m))).
    + erewrite flat_map_ext_in'; [apply Permutation_refl|]. intros m' Hm'. apply filter_ext. intros x.
      destruct (P x); cbn; auto. destruct (Nat.eqb_spec (f x) m'), (Nat.eqb_spec (f x) m); cbn; auto. subst. congruence.
    + intros x Hx. rewrite andb_true_iff, negb_true_iff, Nat.eqb_neq. intros [H1 H2]. destruct (HP x Hx H1); [congruence|auto].
Qed.

Section U.
  Context {X Y : Type} (ed : X -> edge) (flip : X -> X) (N : X -> Y).
  Hypothesis Hflip : forall x, ed (flip x) = rev_edge (ed x).
  Hypothesis HN : forall x, N (flip x) = N x.
  Definition touch (n : nat) (x : X) : bool := Nat.eqb (src (ed x)) n || Nat.eqb (dst (ed x)) n.
  Definition other (n : nat) (x : X) : nat := if Nat.eqb (src (ed x)) n then dst (ed x) else src (ed x).
  Lemma joins_touch n m x : joins ed n m x = touch n x && Nat.eqb (other n x) m.
  Proof.
    unfold joins, touch, other. destruct (Nat.eqb_spec (src (ed x)) n), (Nat.eqb_spec (dst (ed x)) n), (Nat.eqb_spec (dst (ed x)) m), (Nat.eqb_spec (src (ed x)) m); cbn; auto; congruence.
  Qed.
  Lemma nbrs_eq n es : nbrs ed n es = dedup (map (other n) (filter (touch n) es)).
  Proof.
    unfold nbrs. f_equal. induction es as [|x es IH]; cbn; auto. unfold touch at 1, other at 1.
    destruct (Nat.eqb (src (ed x)) n) eqn:E1; cbn; [|destruct (Nat.eqb (dst (ed x)) n) eqn:E2; cbn]; rewrite ?IH; auto; unfold other; rewrite E1; auto.
  Qed.
  Definition live (seen ns : list nat) (x : X) : bool :=
    negb (mem (src (ed x)) seen) && negb (mem (dst (ed x)) seen) && (mem (src (ed x)) ns || mem (dst (ed x)) ns).
  Lemma map_orient n l : map N (map (orient ed flip n) l) = map N l.
  Proof. rewrite map_map. apply map_ext. intros x. unfold orient. destruct (Nat.eqb _ _); auto. Qed.
  Lemma node_perm n seen es : mem n seen = false ->
    Permutation (map N (flat_map (fun m => if mem m seen then [] else map (orient ed flip n) (filter (joins ed n m) es)) (nbrs ed n es)))
      (map N (filter (fun x => touch n x && negb (mem (other n x) seen)) es)).
  Proof.
    intros Hs. rewrite map_flat_map.
    erewrite (flat_map_ext_in' _ (fun m => map N (filter (fun x => (touch n x && negb (mem (other n x) seen)) && Nat.eqb (other n x) m) es))).
    - rewrite <- map_flat_map. apply Permutation_map. apply group_perm.
      + apply dedup_NoDup.
      + intros x Hx. rewrite andb_true_iff. intros [H1 H2]. rewrite nbrs_eq. apply dedup_In. apply in_map. apply filter_In; auto.
    - intros m Hm. destruct (mem m seen) eqn:E.
      + rewrite filter_none; auto. intros x Hx. destruct (Nat.eqb_spec (other n x) m); [|apply andb_false_r]. subst. rewrite E. cbn. rewrite andb_false_r. auto.
      + rewrite map_orient. f_equal. apply filter_ext. intros x. rewrite joins_touch. destruct (touch n x); cbn; auto.
        destruct (Nat.eqb_spec (other n x) m); [|rewrite andb_false_r; auto]. subst. rewrite E. auto.
  Qed.
  Lemma uview_from_perm ns es : forall seen, NoDup ns -> (forall n, In n ns -> ~ In n seen) ->
    Permutation (map N (uview_from ed flip seen ns es)) (map N (filter (live seen ns) es)).
  Proof.
    induction ns as [|n ns IH]; intros seen Hn Hs; cbn.
    - rewrite filter_none; [constructor|]. intros x _. unfold live. cbn. apply andb_false_r.
    - rewrite map_app. inversion Hn; subst.
      rewrite IH; auto.
      2:{ intros m Hm [Hq|Hq]; subst; auto. apply (Hs m); cbn; auto. }
      rewrite node_perm by (apply mem_nIn; apply Hs; cbn; auto).
      rewrite <- map_app. apply Permutation_map.
      eapply Permutation_trans; [|symmetry; apply (Permutation_filter_split (touch n))].
      rewrite !filter_filter. apply Permutation_app.
      + apply Permutation_refl'. apply filter_ext. intros x. unfold touch, other, live.
        assert (Hns : mem n seen = false) by (apply mem_nIn, Hs; cbn; auto).
        destruct (Nat.eqb_spec (src (ed x)) n) as [He|He]; cbn [orb andb].
        * rewrite <- He in *. rewrite Hns. cbn -[mem]. replace (mem (src (ed x)) (src (ed x) :: ns)) with true by (symmetry; apply mem_In; cbn; auto).
          cbn. rewrite !andb_true_r. auto.
        * destruct (Nat.eqb_spec (dst (ed x)) n) as [He'|He']; cbn [andb]; [|rewrite andb_false_r; auto].
          rewrite <- He' in *. rewrite Hns. cbn -[mem]. replace (mem (dst (ed x)) (dst (ed x) :: ns)) with true by (symmetry; apply mem_In; cbn; auto).
          rewrite orb_true_r, !andb_true_r. auto.
      + apply Permutation_refl'. apply filter_ext. intros x. unfold touch, live, mem. cbn.
        destruct (Nat.eqb_spec (src (ed x)) n), (Nat.eqb_spec (dst (ed x)) n); cbn; rewrite ?andb_false_r, ?andb_true_r; auto.
  Qed.
  Lemma uview_perm ns es : NoDup ns -> (forall x, In x es -> In (src (ed x)) ns) ->
    Permutation (map N (uview ed flip ns es)) (map N es).
  Proof.
    intros Hn He. unfold uview. rewrite uview_from_perm; auto. rewrite filter_all; auto.
    intros x Hx. unfold live. apply He, mem_In in Hx. rewrite Hx. auto.
  Qed.
  Lemma uview_from_In ns es : forall seen x, In x (uview_from ed flip seen ns es) ->
    exists l1 l2, ns = l1 ++ src (ed x) :: l2 /\ ~ In (dst (ed x)) seen /\ ~ (In (dst (ed x)) l1 ) /\ exists y, In y es /\ (x = y \/ x = flip y).
  Proof.
    induction ns as [|n ns IH]; cbn; intros seen x H; [easy|].
    apply in_app_or in H as [H|H].
    - apply in_flat_map in H as (m & Hm & Hx). destruct (mem m seen) eqn:E; [easy|].
      apply in_map_iff in Hx as (y & <- & Hy). apply filter_In in Hy as [Hy Hj]. apply mem_nIn in E.
      exists [], ns. unfold orient. unfold joins in Hj.
      destruct (Nat.eqb_spec (src (ed y)) n) as [He|He].
      + rewrite He. split; auto. split.
        * destruct (Nat.eqb_spec (dst (ed y)) m), (Nat.eqb_spec (src (ed y)) m), (Nat.eqb_spec (dst (ed y)) n); cbn in Hj; congruence.
        * split; eauto.
      + cbn in Hj. rewrite Hflip. unfold rev_edge at 1, src at 1. cbn.
        apply andb_true_iff in Hj as [H1 H2]. apply Nat.eqb_eq in H1, H2.
        split; [rewrite H2; auto|]. unfold rev_edge, dst. cbn. fold (src (ed y)). rewrite H1. split; auto. split; auto. exists y; auto.
    - apply IH in H as (l1 & l2 & Hl & Hd & Hd1 & Hy). exists (n :: l1), l2. cbn in *. rewrite Hl. intuition.
  Qed.
  Lemma uview_In ns es x : (forall y, In y es -> In (src (ed y)) ns /\ In (dst (ed y)) ns) -> In x (uview ed flip ns es) ->
    before ns (src (ed x)) (dst (ed x)) /\ exists y, In y es /\ (x = y \/ x = flip y).
  Proof.
    intros He H. apply uview_from_In in H as (l1 & l2 & Hl & _ & Hd & y & Hy & Hxy). split; [|eauto].
    exists l1, l2. split; auto. apply He in Hy. assert (Hi : In (dst (ed x)) ns).
    { destruct Hxy as [-> | ->]; [apply Hy|]. rewrite Hflip. apply Hy. }
    rewrite Hl in Hi. apply in_app_or in Hi as [Hi|Hi]; [easy|auto].
  Qed.
End U.

Section D.
  Context {X : Type} (ed : X -> edge).
  Lemma perm_flat_map {A B} (f g : A -> list B) l : (forall x, In x l -> Permutation (f x) (g x)) -> Permutation (flat_map f l) (flat_map g l).
  Proof. induction l; cbn; intros H; auto. apply Permutation_app; auto. Qed.
  Lemma dview_perm ns es : NoDup ns -> (forall x, In x es -> In (src (ed x)) ns) -> Permutation (dview ed ns es) es.
  Proof.
    intros Hn He. unfold dview.
    eapply Permutation_trans.
    - apply (perm_flat_map _ (fun n => filter (fun x => true && Nat.eqb (src (ed x)) n) es)). intros n _. cbn [andb].
      apply (group_perm (fun x => dst (ed x)) es (succs ed n es)); [apply dedup_NoDup|].
      intros x Hx Hp. apply dedup_In. apply (in_map (fun x => dst (ed x))). apply filter_In. auto.
    - rewrite (group_perm (fun x => src (ed x)) es ns Hn (fun _ => true)); auto.
      rewrite filter_all; auto.
  Qed.
End D.

Lemma before_In ns a b : before ns a b -> In a ns /\ In b ns.
Proof. intros (l1 & l2 & -> & H). rewrite !in_app_iff. cbn in *. intuition. Qed.
Lemma NoDup_split {A} (ns : list A) a : NoDup ns -> forall l1 l2 m1 m2, ns = l1 ++ a :: l2 -> ns = m1 ++ a :: m2 -> l1 = m1 /\ l2 = m2.
Proof.
  intros Hn l1. revert ns Hn. induction l1 as [|x l1 IH]; intros ns Hn l2 m1 m2 -> H; cbn in *.
  - destruct m1 as [|y m1]; cbn in H; [injection H; auto|]. injection H as -> ->. apply NoDup_cons_iff in Hn as [Hn _].
    exfalso. apply Hn. apply in_or_app. cbn; auto.
  - apply NoDup_cons_iff in Hn as [Hx Hn]. destruct m1 as [|y m1]; cbn in H; injection H as -> H.
    + exfalso. apply Hx. apply in_or_app. cbn; auto.
    + destruct (IH _ Hn l2 m1 m2 eq_refl H); subst; auto.
Qed.
Lemma before_antisym ns a b : NoDup ns -> before ns a b -> before ns b a -> a = b.
Proof.
  intros Hn (l1 & l2 & Hl & H) (m1 & m2 & Hm & H').
  destruct H as [H|H]; auto. destruct H' as [H'|H']; auto. exfalso.
  apply in_split in H as (p & q & ->).
  assert (E : ns = (l1 ++ a :: p) ++ b :: q) by (rewrite <- app_assoc; auto).
  destruct (NoDup_split ns b Hn _ _ _ _ Hm E) as [-> ->].
  rewrite <- app_assoc in E. rewrite E in Hn. cbn in Hn. apply NoDup_remove_2 in Hn. apply Hn.
  rewrite !in_app_iff. cbn. auto.
Qed.
Lemma filter_split {A} (P : A -> bool) ns : forall l1 a l2, filter P ns = l1 ++ a :: l2 ->
  exists m1 m2, ns = m1 ++ a :: m2 /\ filter P m1 = l1 /\ filter P m2 = l2 /\ P a = true.
Proof.
  induction ns as [|n ns IH]; cbn; intros l1 a l2 H; [destruct l1; discriminate|].
  destruct (P n) eqn:E.
  - destruct l1 as [|x l1]; cbn in H; injection H; intros; subst.
    + exists [], ns; auto.
    + destruct (IH _ _ _ H0) as (m1 & m2 & -> & H1 & H2 & H3). exists (x :: m1), m2. cbn. rewrite E, H1. auto.
  - destruct (IH _ _ _ H) as (m1 & m2 & -> & H1 & H2 & H3). exists (n :: m1), m2. cbn. rewrite E. auto.
Qed.
Lemma before_filter (P : nat -> bool) ns a b : before (filter P ns) a b -> before ns a b.
Proof.
  intros (l1 & l2 & H & Hb). apply filter_split in H as (m1 & m2 & -> & _ & <- & _).
  exists m1, m2. split; auto. destruct Hb as [Hb|Hb]; cbn; auto. apply filter_In in Hb. intuition.
Qed.
Lemma before_filter_inv (P : nat -> bool) ns a b : before ns a b -> P a = true -> P b = true -> before (filter P ns) a b.
Proof.
  intros (l1 & l2 & -> & Hb) Ha Hpb. exists (filter P l1), (filter P l2). split.
  - rewrite filter_app. cbn. rewrite Ha. auto.
  - destruct Hb as [Hb|Hb]; cbn; auto. right. apply filter_In; auto.
Qed.
Lemma before_total ns a b : In a ns -> In b ns -> before ns a b \/ before ns b a.
Proof.
  intros Ha Hb. apply in_split in Ha as (l1 & l2 & ->). apply in_app_or in Hb as [Hb|Hb].
  - right. apply in_split in Hb as (m1 & m2 & ->). exists m1, (m2 ++ a :: l2). rewrite <- app_assoc. split; auto. right. apply in_or_app. cbn; auto.
  - left. exists l1, l2. auto.
Qed.
