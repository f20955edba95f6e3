(** Facts about the shared vocabulary. *)
From Coq Require Import List Bool String Ascii ZArith Lia PeanoNat Permutation.
From Verif Require Import Prelude.
Import ListNotations.

Section EqBFacts.
  Context {K : Type} `{EqB K}.
  Lemma eqb_refl (x : K) : eqb x x = true.
  Proof. destruct (eqb_spec x x); congruence. Qed.
  Lemma eqb_eq (x y : K) : eqb x y = true <-> x = y.
  Proof. destruct (eqb_spec x y); split; congruence. Qed.
  Lemma eqb_neq (x y : K) : eqb x y = false <-> x <> y.
  Proof. destruct (eqb_spec x y); split; congruence. Qed.
  Lemma eqb_dec (x y : K) : {x = y} + {x <> y}.
  Proof. destruct (eqb_spec x y); [left | right]; assumption. Qed.
  Lemma eqb_sym (x y : K) : eqb x y = eqb y x.
  Proof. destruct (eqb_spec x y), (eqb_spec y x); congruence. Qed.

  Lemma mem_In (x : K) l : mem x l = true <-> In x l.
  Proof.
    unfold mem. rewrite existsb_exists. split.
    - intros (y & Hy & E). apply eqb_eq in E. now subst.
    - intros Hx. exists x. split; [assumption|apply eqb_refl].
  Qed.
  Lemma mem_nIn (x : K) l : mem x l = false <-> ~ In x l.
  Proof.
    rewrite <- mem_In. destruct (mem x l); split; congruence.
  Qed.
  Lemma mem_In_dec (x : K) l : {In x l} + {~ In x l}.
  Proof.
    destruct (mem x l) eqn:E; [left; now apply mem_In|right; now apply mem_nIn].
  Qed.

  Lemma dedup_In (x : K) l : In x (dedup l) <-> In x l.
  Proof.
    induction l as [|y r IH]; cbn; [tauto|].
    rewrite filter_In, IH, negb_true_iff, eqb_neq.
    destruct (eqb_dec y x); subst; tauto.
  Qed.
  Lemma dedup_NoDup (l : list K) : NoDup (dedup l).
  Proof.
    induction l as [|y r IH]; cbn; constructor.
    - rewrite filter_In, negb_true_iff, eqb_neq. tauto.
    - now apply NoDup_filter.
  Qed.
End EqBFacts.

Section DictFacts.
  Context {K : Type} `{EqB K} {V : Type}.
  Implicit Types d : dict K V.

  Lemma dget_In d k v : dget d k = Some v -> In (k, v) d.
  Proof.
    induction d as [|[k' v'] r IH]; cbn; [discriminate|].
    destruct (eqb_spec k k'); subst; intros E.
    - injection E as ->. now left.
    - right. auto.
  Qed.
  Lemma dget_None d k : dget d k = None <-> ~ In k (dkeys d).
  Proof.
    induction d as [|[k' v'] r IH]; cbn; [tauto|].
    destruct (eqb_spec k k'); subst.
    - split; [discriminate|intros F; exfalso; auto].
    - rewrite IH. split; intros F; [intros [<-|G]; auto| tauto].
  Qed.
  Lemma dget_Some_key d k v : dget d k = Some v -> In k (dkeys d).
  Proof. intros E. apply dget_In in E. apply (in_map fst) in E. exact E. Qed.
  Lemma dkeys_dget d k : In k (dkeys d) <-> exists v, dget d k = Some v.
  Proof.
    split.
    - intros Hk. destruct (dget d k) eqn:E; [eauto|].
      apply dget_None in E. contradiction.
    - intros (v & E). eapply dget_Some_key; eauto.
  Qed.
  Lemma In_dget d k v : NoDup (dkeys d) -> In (k, v) d -> dget d k = Some v.
  Proof.
    induction d as [|[k' v'] r IH]; cbn; [tauto|].
    intros ND [E|Hin]; inversion ND; subst.
    - injection E as -> ->. now rewrite eqb_refl.
    - destruct (eqb_spec k k'); subst.
      + exfalso. apply H2. apply (in_map fst) in Hin. exact Hin.
      + auto.
  Qed.
  Lemma dmem_dget d k : dmem d k = true <-> exists v, dget d k = Some v.
  Proof. unfold dmem. rewrite mem_In. apply dkeys_dget. Qed.
  Lemma dmem_false d k : dmem d k = false <-> dget d k = None.
  Proof. unfold dmem. rewrite mem_nIn, dget_None. tauto. Qed.

  Lemma dget_dset_eq d k v : dget (dset d k v) k = Some v.
  Proof.
    induction d as [|[k' v'] r IH]; cbn.
    - now rewrite eqb_refl.
    - destruct (eqb_spec k k'); subst; cbn.
      + now rewrite eqb_refl.
      + destruct (eqb_spec k k'); congruence.
  Qed.
  Lemma dget_dset_neq d k v k2 : k2 <> k -> dget (dset d k v) k2 = dget d k2.
  Proof.
    intros N. induction d as [|[k' v'] r IH]; cbn.
    - destruct (eqb_spec k2 k); congruence.
    - destruct (eqb_spec k k'); subst; cbn.
      + destruct (eqb_spec k2 k'); congruence.
      + destruct (eqb_spec k2 k'); congruence.
  Qed.
  Lemma dget_dset d k v k2 :
    dget (dset d k v) k2 = if eqb k2 k then Some v else dget d k2.
  Proof.
    destruct (eqb_spec k2 k); subst; [apply dget_dset_eq|now apply dget_dset_neq].
  Qed.
  Lemma dkeys_dset_in d k v : In k (dkeys d) -> dkeys (dset d k v) = dkeys d.
  Proof.
    induction d as [|[k' v'] r IH]; cbn; [tauto|].
    intros Hin. destruct (eqb_spec k k'); subst; cbn; [reflexivity|].
    f_equal. apply IH. destruct Hin; [congruence|assumption].
  Qed.
  Lemma dkeys_dset_new d k v : ~ In k (dkeys d) -> dkeys (dset d k v) = dkeys d ++ [k].
  Proof.
    induction d as [|[k' v'] r IH]; cbn; [reflexivity|].
    intros Hin. destruct (eqb_spec k k'); subst; cbn; [tauto|].
    f_equal. apply IH. tauto.
  Qed.
  Lemma dset_new d k v : ~ In k (dkeys d) -> dset d k v = d ++ [(k, v)].
  Proof.
    induction d as [|[k' v'] r IH]; cbn; [reflexivity|].
    intros Hin. destruct (eqb_spec k k'); subst; cbn; [tauto|].
    f_equal. apply IH. tauto.
  Qed.
  Lemma In_dkeys_dset d k v x : In x (dkeys (dset d k v)) <-> x = k \/ In x (dkeys d).
  Proof.
    destruct (mem_In_dec k (dkeys d)) as [Hi|Hi].
    - rewrite dkeys_dset_in by assumption. split; [tauto|intros [->|]; auto].
    - rewrite dkeys_dset_new by assumption. rewrite in_app_iff. cbn.
      split; [intros [|[|[]]]; auto|intros [|]; auto].
  Qed.
  Lemma NoDup_app_single {A} (l : list A) x : NoDup l -> ~ In x l -> NoDup (l ++ [x]).
  Proof.
    intros ND NI. apply (Permutation_NoDup (l := x :: l)).
    - apply Permutation_cons_append.
    - now constructor.
  Qed.
  Lemma NoDup_dset d k v : NoDup (dkeys d) -> NoDup (dkeys (dset d k v)).
  Proof.
    intros ND. destruct (mem_In_dec k (dkeys d)) as [Hi|Hi].
    - now rewrite dkeys_dset_in.
    - rewrite dkeys_dset_new by assumption. now apply NoDup_app_single.
  Qed.
  Lemma dkeys_ddel d k : dkeys (ddel d k) = filter (fun x => negb (eqb k x)) (dkeys d).
  Proof.
    induction d as [|[k' v'] r IH]; cbn; [reflexivity|].
    destruct (eqb_spec k k'); subst; cbn; [assumption|].
    unfold dkeys, ddel in *. now rewrite IH.
  Qed.
  Lemma In_dkeys_ddel d k x : In x (dkeys (ddel d k)) <-> x <> k /\ In x (dkeys d).
  Proof.
    rewrite dkeys_ddel, filter_In, negb_true_iff, eqb_neq. intuition congruence.
  Qed.
  Lemma NoDup_ddel d k : NoDup (dkeys d) -> NoDup (dkeys (ddel d k)).
  Proof. intros ND. rewrite dkeys_ddel. now apply NoDup_filter. Qed.
  Lemma dget_ddel d k k2 :
    dget (ddel d k) k2 = if eqb k2 k then None else dget d k2.
  Proof.
    induction d as [|[k' v'] r IH]; cbn.
    - destruct (eqb_spec k2 k); reflexivity.
    - destruct (eqb_spec k k'); subst; cbn.
      + unfold ddel in IH. rewrite IH. destruct (eqb_spec k2 k'); reflexivity.
      + unfold ddel in IH. rewrite IH.
        destruct (eqb_spec k2 k'); subst; [|reflexivity].
        destruct (eqb_spec k' k); congruence.
  Qed.
End DictFacts.
