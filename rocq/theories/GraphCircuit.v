(** Spanning tree, closure branches and loops of a whole circuit. *)
From Coq Require Import List Bool String Ascii Arith Permutation Lia.
From Verif Require Import Prelude PreludeFacts Graph GraphSpec GraphView GraphForest GraphWf GraphGround.
Import ListNotations.
Open Scope string_scope.
Open Scope list_scope.
Open Scope nat_scope.

(** Branches that survive: everything except self-loops on otherwise
    unconnected nodes. *)
Definition keepb (E : list edge) (e : edge) : bool :=
  negb (src e =? dst e) || existsb (fun f => negb (src f =? dst f) && ((src f =? src e) || (dst f =? src e))) E.
Lemma keepb_spec E e : keepb E e = true <-> src e <> dst e \/ exists f, In f E /\ src f <> dst f /\ (src f = src e \/ dst f = src e).
Proof.
  unfold keepb. rewrite orb_true_iff, negb_true_iff, Nat.eqb_neq, existsb_exists.
  split; (intros [H|(f & Hf & H)]; [left; auto|right; exists f; split; auto]); revert H; rewrite andb_true_iff, negb_true_iff, orb_true_iff, Nat.eqb_neq, !Nat.eqb_eq; auto.
Qed.
Lemma keepb_all E : no_lone_selfloop E -> filter (keepb E) E = E.
Proof.
  intros H. apply filter_all. intros e He. apply keepb_spec. destruct (Nat.eq_dec (src e) (dst e)); auto.
Qed.
Lemma norm_selfloop e f : norm e = norm f -> (src e = dst e <-> src f = dst f) .
Proof. unfold norm. intros H. injection H. lia. Qed.
Lemma keepb_norm E F e f : Permutation (map norm E) (map norm F) -> norm e = norm f -> keepb E e = keepb F f.
Proof.
  intros Hp He.
  assert (Hgen : forall E F e f, Permutation (map norm E) (map norm F) -> norm e = norm f -> keepb E e = true -> keepb F f = true).
  { clear. intros E F e f Hp He. rewrite !keepb_spec. intros [H|(g & Hg & H1 & H2)].
    - left. rewrite <- (norm_selfloop e f); auto.
    - destruct (Nat.eq_dec (src f) (dst f)) as [Hq|Hq]; auto. right.
      assert (src e = dst e) by (rewrite (norm_selfloop e f); auto).
      assert (src e = src f) by (revert He; unfold norm; intros He; injection He; lia).
      destruct (perm_norm_In E F g Hp Hg) as (h & Hh & Hgh). exists h. split; auto.
      destruct Hgh as [-> | ->]; unfold rev_edge, src, dst in *; cbn in *; intuition congruence. }
  apply eq_true_iff_eq. split; eapply Hgen; eauto using Permutation_sym.
Qed.
Lemma conn_leave E x y : conn E x y -> x <> y -> exists f, In f E /\ src f <> dst f /\ (src f = x \/ dst f = x).
Proof.
  induction 1 as [|e y He Hc IH|e y He Hc IH]; intros Hn; [easy| |].
  - destruct (Nat.eq_dec (src e) (dst e)) as [Hq|Hq].
    + rewrite Hq. apply IH. congruence.
    + exists e; auto.
  - destruct (Nat.eq_dec (src e) (dst e)) as [Hq|Hq].
    + rewrite <- Hq. apply IH. congruence.
    + exists e; auto.
Qed.
Lemma NoDup_app' {A} (l l' : list A) : NoDup l -> NoDup l' -> (forall x, In x l -> ~ In x l') -> NoDup (l ++ l').
Proof.
  induction 1; cbn; auto. intros Hl' Hd. constructor.
  - rewrite in_app_iff. intros [Hq|Hq]; auto. eapply Hd; cbn; eauto.
  - apply IHNoDup; [auto|]. intros y Hy. apply Hd. right; exact Hy.
Qed.
Lemma NoDup_flat_map {A B} (f : A -> list B) l : NoDup l -> (forall x, In x l -> NoDup (f x)) ->
  (forall x y b, In x l -> In y l -> In b (f x) -> In b (f y) -> x = y) -> NoDup (flat_map f l).
Proof.
  induction 1 as [|a l Ha Hl IH]; cbn; intros H1 H2; [constructor|]. apply NoDup_app'; [auto|apply IH; eauto|].
  intros b Hb Hi. apply in_flat_map in Hi as (y & Hy & Hby). apply Ha. rewrite (H2 a y b); auto.
Qed.
Lemma forest_app E F (c : list nat) : forest E -> forest F -> (forall e, In e E -> In (src e) c /\ In (dst e) c) ->
  (forall e, In e F -> ~ In (src e) c /\ ~ In (dst e) c) -> forest (E ++ F).
Proof.
  induction 1 as [|e E Hf IH Hc]; intros HF HE HFc; cbn; auto. constructor; [apply IH; auto; intros; apply HE; cbn; auto|].
  intros Hq. apply Hc. destruct (HE e) as [Hs Hd]; [cbn; auto|].
  apply (conn_inside (E ++ F) c) in Hq; auto.
  - destruct Hq as [_ Hq]. eapply conn_mono; [|exact Hq]. intros f Hf'. apply filter_In in Hf' as [Hf' Hi].
    apply in_app_or in Hf' as [Hf'|Hf']; auto. apply inside_In in Hi. destruct (HFc f Hf'). tauto.
  - intros f Hf'. apply in_app_or in Hf' as [Hf'|Hf'].
    + destruct (HE f); cbn; auto. tauto.
    + destruct (HFc f Hf'). tauto.
Qed.

Lemma norm_norm e : norm (norm e) = norm e.
Proof. destruct e as [[a b] k]. unfold norm, src, dst, ekey. cbn [fst snd].
  replace (Nat.min (Nat.min a b) (Nat.max a b)) with (Nat.min a b) by lia.
  replace (Nat.max (Nat.min a b) (Nat.max a b)) with (Nat.max a b) by lia. auto. Qed.

Definition trees (vg : grounds) : list edge := flat_map (fun x => snd (snd (snd x))) vg.

Section Whole.
  Variables (ns : list nat) (ce : list edge) (vg : grounds).
  Hypothesis Hns : NoDup ns.
  Hypothesis Hce : forall e, In e ce -> In (src e) ns /\ In (dst e) ns.
  Hypothesis Hnorm : NoDup (map norm ce).
  Let labels := eview ns ce.
  Let comps := component_list ns ce.
  Hypothesis Hvg : Forall2 (GE labels) comps vg.
  Let Lperm : Permutation (map norm labels) (map norm ce) := labels_perm ns ce Hns Hce.
  Let Lends := labels_ends ns ce Hce.
  Let Lnorm : NoDup (map norm labels) := labels_norm ns ce Hns Hce Hnorm.
  Lemma Lnodup : NoDup labels.
  Proof. eapply NoDup_map_inv'. apply Lnorm. Qed.

  Lemma kept_In c e : In e (kept labels c) <-> In e labels /\ In (src e) c /\ In (dst e) c /\ 1 < List.length c.
  Proof. unfold kept. rewrite filter_In, andb_true_iff, inside_In, Nat.ltb_lt. tauto. Qed.
  Lemma two_len (c : list nat) x y : In x c -> In y c -> x <> y -> 1 < List.length c.
  Proof. destruct c as [|a [|b l]]; cbn; intros; try lia; intuition congruence. Qed.
  Lemma kept_all : Permutation (flat_map (kept labels) comps) (filter (keepb ce) labels).
  Proof.
    destruct (comps_disjoint ns ce Hns Hce) as [Hd1 Hd2].
    destruct (component_list_spec ns ce Hce Hns) as (Hcs & Hcov & _ & _).
    apply NoDup_Permutation.
    - apply NoDup_flat_map; auto.
      + intros c _. apply NoDup_filter, Lnodup.
      + intros c c' e Hc Hc' He He'. apply kept_In in He, He'. apply (Hd2 c c' (src e)); tauto.
    - apply NoDup_filter, Lnodup.
    - intros e. rewrite in_flat_map, filter_In, keepb_spec. split.
      + intros (c & Hc & He). apply kept_In in He as (He & Hs & Hd & Hl). split; auto.
        destruct (Nat.eq_dec (src e) (dst e)) as [Hq|Hq]; auto. right.
        destruct (Hcs c Hc) as (_ & Hin & (P & HP) & Hcn).
        assert (exists y, In y c /\ src e <> y) as (y & Hy & Hxy).
        { assert (Hnd : NoDup c) by (rewrite HP; apply NoDup_filter; auto). destruct c as [|a [|b l]]; cbn in Hl; try lia.
          destruct (Nat.eq_dec (src e) a) as [Hxa|Hxa]; [exists b|exists a]; cbn; split; auto.
          apply NoDup_cons_iff in Hnd as [Hnd _]. intros Hqq. apply Hnd. rewrite <- Hxa, Hqq. cbn; auto. }
        apply (conn_leave ce (src e) y); auto. apply Hcn; auto.
      + intros [He H]. destruct (Lends e He) as [Hs Hd].
        destruct (Hcov _ Hs) as (c & Hc & Hsc). exists c. split; auto. apply kept_In.
        destruct (comps_good ns ce Hns Hce c Hc) as (_ & _ & _ & Hcl).
        assert (In (dst e) c) by (apply (Hcl e); auto). split; auto. split; auto. split; auto.
        destruct H as [H|(f & Hf & Hff & Ht)].
        * apply (two_len c (src e) (dst e)); auto.
        * destruct (Hcs c Hc) as (_ & Hin & _ & Hcn). destruct (Hce f Hf) as [Hfs Hfd].
          assert (Hcf : conn ce (src f) (dst f)) by (apply conn_edge; auto).
          apply (two_len c (src f) (dst f)); auto; apply (Hcn (src e)); auto; destruct Ht as [Ht|Ht]; rewrite <- Ht; auto using conn_sym; constructor.
  Qed.
  Lemma split_all : Permutation (map norm (trees vg ++ closure_branches vg)) (map norm (filter (keepb ce) ce)).
  Proof.
    transitivity (map norm (flat_map (kept labels) comps)).
    - clearbody comps. clear -Hvg. unfold trees, closure_branches. induction Hvg as [|c x cs xs H Hr IH]; cbn; auto.
      specialize (IH Hr). rewrite !map_app in *. rewrite <- IH. clear IH. rewrite <- (ge_split _ _ _ H), map_app.
      rewrite <- !app_assoc. apply Permutation_app_head. rewrite !app_assoc. apply Permutation_app_tail. apply Permutation_app_comm.
    - rewrite kept_all.
      assert (Hp := Lperm).
      assert (E : forall E, map norm (filter (keepb ce) E) = filter (keepb ce) (map norm E)).
      { intros E. rewrite filter_map_swap. f_equal. apply filter_ext. intros e. apply keepb_norm; auto. symmetry. apply norm_norm. }
      rewrite !E. apply Permutation_filter. exact Hp.
  Qed.
  Lemma Forall2_In_r {A B} (R : A -> B -> Prop) l l' y : Forall2 R l l' -> In y l' -> exists x, In x l /\ R x y.
  Proof. induction 1; cbn; [easy|]. intros [<-|Hy]; eauto. destruct IHForall2 as (z & Hz & Hr); eauto. Qed.
  Lemma Forall2_In_l {A B} (R : A -> B -> Prop) l l' x : Forall2 R l l' -> In x l -> exists y, In y l' /\ R x y.
  Proof. induction 1; cbn; [easy|]. intros [<-|Hy]; eauto. destruct IHForall2 as (z & Hz & Hr); eauto. Qed.
  Lemma GE_tree_kept c x e : GE labels c x -> In e (snd (snd (snd x))) -> In (src e) c /\ In (dst e) c.
  Proof.
    intros H He. destruct (perm_norm_In _ (kept labels c) e (ge_split _ _ _ H)) as (f & Hf & Hef); [apply in_or_app; auto|].
    apply kept_In in Hf. destruct Hef as [-> | ->]; cbn; tauto.
  Qed.
  Lemma GE_clos_kept c x e : GE labels c x -> In e (fst (snd x)) -> In (src e) c /\ In (dst e) c.
  Proof.
    intros H He. destruct (perm_norm_In _ (kept labels c) e (ge_split _ _ _ H)) as (f & Hf & Hef); [apply in_or_app; auto|].
    apply kept_In in Hf. destruct Hef as [-> | ->]; cbn; tauto.
  Qed.
  Lemma trees_forest : forest (trees vg).
  Proof.
    destruct (comps_disjoint ns ce Hns Hce) as [Hd1 Hd2]. fold comps in Hd1, Hd2.
    clearbody comps. unfold trees. revert Hd1 Hd2. induction Hvg as [|c x cs xs H Hr IH]; cbn; intros Hd1 Hd2; [constructor|].
    inversion Hd1; subst. apply (forest_app _ _ c).
    - apply (ge_forest _ _ _ H).
    - apply IH; auto. intros; eapply Hd2; cbn; eauto.
    - intros e He. eapply GE_tree_kept; eauto.
    - intros e He. apply in_flat_map in He as (y & Hy & Hey). destruct (Forall2_In_r _ _ _ _ Hr Hy) as (c' & Hc' & Hg).
      destruct (GE_tree_kept c' y e Hg Hey) as [Hs Hdd]. split; intros Hq.
      + apply H2. rewrite (Hd2 c c' (src e)); cbn; auto.
      + apply H2. rewrite (Hd2 c c' (dst e)); cbn; auto.
  Qed.
  Lemma trees_labels e : In e (trees vg) -> In e labels.
  Proof.
    unfold trees. rewrite in_flat_map. intros (x & Hx & He). destruct (Forall2_In_r _ _ _ _ Hvg Hx) as (c & Hc & Hg).
    apply (ge_labels _ _ _ Hg); auto.
  Qed.
  Lemma trees_conn x y : conn (trees vg) x y <-> conn ce x y.
  Proof.
    split; intros H.
    - apply (conn_normperm _ _ _ _ Lperm). eapply conn_mono; [|exact H]. apply trees_labels.
    - apply (conn_normperm _ _ _ _ Lperm) in H. eapply conn_incl; [|exact H]. intros e He.
      destruct (Nat.eq_dec (src e) (dst e)) as [Hq|Hq]; [rewrite Hq; constructor|].
      assert (Hk : In e (flat_map (kept labels) comps)).
      { eapply Permutation_in; [symmetry; apply kept_all|]. apply filter_In. split; auto. apply keepb_spec; auto. }
      apply in_flat_map in Hk as (c & Hc & Hk). destruct (Forall2_In_l _ _ _ _ Hvg Hc) as (z & Hz & Hg).
      eapply conn_mono with (E := snd (snd (snd z))).
      + intros f Hf. apply in_flat_map. eauto.
      + apply (ge_conn _ _ _ Hg). apply conn_edge; auto.
  Qed.
  Lemma spanning_tree_perm : Permutation (spanning_tree ns vg) (trees vg).
  Proof.
    assert (Hin : forall x e, In x vg -> In e (snd (snd (snd x))) -> In (src e) (fst (snd (snd x))) /\ In (dst e) (fst (snd (snd x))) /\ In (src e) ns).
    { intros x e Hx He. destruct (Forall2_In_r _ _ _ _ Hvg Hx) as (c & Hc & Hg). rewrite !(ge_nodes _ _ _ Hg).
      destruct (GE_tree_kept c x e Hg He). split; auto. split; auto. apply Lends. apply (ge_labels _ _ _ Hg); auto. }
    assert (Hin2 : Permutation (flat_map (fun x => deview (fst (snd (snd x))) (snd (snd (snd x)))) vg) (trees vg)).
    { apply perm_flat_map. intros x Hx. apply dview_perm.
      - destruct (Forall2_In_r _ _ _ _ Hvg Hx) as (c & Hc & Hg). apply (ge_nodup _ _ _ Hg).
      - intros e He. apply (Hin x e Hx He). }
    unfold spanning_tree. eapply Permutation_trans; [apply dview_perm; auto|auto].
    intros e He. eapply Permutation_in in He; [|exact Hin2]. apply Lends. apply trees_labels; auto.
  Qed.
  Lemma clos_ends e : In e (closure_branches vg) -> In (src e) ns /\ In (dst e) ns.
  Proof.
    unfold closure_branches. rewrite in_flat_map. intros (x & Hx & He). destruct (Forall2_In_r _ _ _ _ Hvg Hx) as (c & Hc & Hg).
    destruct (GE_clos_kept c x e Hg He) as [Hs Hd].
    destruct (component_list_spec ns ce Hce Hns) as (Hcs & _). destruct (Hcs c Hc) as (_ & Hin & _). auto.
  Qed.
  Lemma sc_circuit_perm : Permutation (sc_circuit ns (spanning_tree ns vg) vg) (trees vg ++ closure_branches vg).
  Proof.
    unfold sc_circuit. eapply Permutation_trans; [apply dview_perm; auto|apply Permutation_app_tail, spanning_tree_perm].
    intros e He. apply in_app_or in He as [He|He].
    - eapply Permutation_in in He; [|apply spanning_tree_perm]. apply Lends, trees_labels; auto.
    - apply clos_ends; auto.
  Qed.
  Lemma norm_split_nodup : NoDup (map norm (trees vg ++ closure_branches vg)).
  Proof. eapply Permutation_NoDup; [symmetry; apply split_all|]. apply NoDup_map_filter; auto. Qed.
End Whole.
