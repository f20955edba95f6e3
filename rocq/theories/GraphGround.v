(** virtual_grounds: one tree per connected part of the conductive graph. *)
From Coq Require Import List Bool String Ascii Arith Permutation Lia.
From Verif Require Import Prelude PreludeFacts Graph GraphSpec GraphView GraphForest GraphWf.
Import ListNotations.
Open Scope string_scope.
Open Scope list_scope.
Open Scope nat_scope.

Lemma map_norm_rev l : map norm (map rev_edge l) = map norm l.
Proof. rewrite map_map. apply map_ext. apply norm_rev. Qed.
Lemma NoDup_map_filter {A B} (f : A -> B) P l : NoDup (map f l) -> NoDup (map f (filter P l)).
Proof.
  induction l as [|x l IH]; cbn; auto. inversion 1; subst. destruct (P x); cbn; auto. constructor; auto.
  intros Hi. apply H2. apply in_map_iff in Hi as (y & <- & Hy). apply filter_In in Hy. apply in_map; tauto.
Qed.
Lemma inside_In c e : inside c e = true <-> In (src e) c /\ In (dst e) c.
Proof. unfold inside. rewrite andb_true_iff, !mem_In. tauto. Qed.
Lemma selfloops_kruskal l es n : (forall e, In e es -> src e = n /\ dst e = n) -> kruskal l es = [].
Proof.
  induction es as [|e es IH]; cbn; intros H; auto. destruct (H e) as [-> ->]; auto. rewrite Nat.eqb_refl. auto.
Qed.
Lemma conn_in_edge E x y : conn E x y -> x <> y -> exists e, In e E /\ (src e = x \/ dst e = x).
Proof. intros H. destruct H; [easy| |]; eauto. Qed.

Section One.
  Variables (o : orders) (ns : list nat) (labels : list edge) (c : list nat).
  Hypothesis Ho : valid_orders o.
  Hypothesis Hns : NoDup ns.
  Hypothesis Hl : forall e, In e labels -> In (src e) ns /\ In (dst e) ns.
  Hypothesis Hnorm : NoDup (map norm labels).
  Hypothesis Hc : exists P, c = filter P ns.
  Hypothesis Hne : c <> [].
  Hypothesis Hconn : forall x y, In x c -> In y c -> conn labels x y.
  Hypothesis Hclosed : forall e, In e labels -> (In (src e) c <-> In (dst e) c).
  Definition sub := sub_order o ns c.
  Definition sube := filter (inside c) labels.
  Lemma sub_perm : Permutation sub c.
  Proof. destruct Hc as [P HP]. eapply sub_order_perm; eauto. Qed.
  Lemma c_NoDup : NoDup c.
  Proof. destruct Hc as [P ->]. apply NoDup_filter; auto. Qed.
  Lemma sub_NoDup : NoDup sub.
  Proof. eapply Permutation_NoDup; [symmetry; apply sub_perm|apply c_NoDup]. Qed.
  Lemma sub_In x : In x sub <-> In x c.
  Proof. split; apply Permutation_in; [|symmetry]; apply sub_perm. Qed.
  Lemma sube_ends e : In e sube -> In (src e) sub /\ In (dst e) sub.
  Proof. unfold sube. rewrite filter_In, inside_In, !sub_In. tauto. Qed.
  Lemma sube_norm : NoDup (map norm sube).
  Proof. apply NoDup_map_filter; auto. Qed.
  Lemma sube_conn x y : In x c -> In y c -> conn sube x y.
  Proof. intros Hx Hy. apply (conn_inside labels c x y); auto. Qed.
  Definition tr := tree_of sub sube.
  Definition snodes := dedup (flat_map (fun e => [src e; dst e]) tr).
  Definition clos := map rev_edge (o_edges o (filter (fun e => negb (mem e tr)) (eview sub sube))).
  Definition pre (vg : grounds) : grounds := match sub with [n] => dset vg n ([], ([n], [])) | _ => vg end.
  Lemma one_ground_eq vg : one_ground o ns labels c vg =
    let vg := pre vg in
    if forallb (fun e => mem e labels) tr then
      (match find (fun n => in_degree tr n =? 0) snodes with Some n => dset vg n (clos, (snodes, tr)) | None => vg end, Ok tt)
    else (vg, Err KeyError).
  Proof. reflexivity. Qed.
  Lemma snodes_In x : 1 < List.length c -> (In x snodes <-> In x c).
  Proof.
    intros H1. unfold snodes. rewrite dedup_In, in_flat_map. split.
    - intros (e & He & Hx). apply tree_of_In in He as [_ He]; auto using sub_NoDup, sube_ends.
      apply before_In in He. rewrite !sub_In in He. cbn in Hx. intuition (subst; auto).
    - intros Hx.
      assert (exists y, In y c /\ x <> y) as (y & Hy & Hxy).
      { assert (Hd := c_NoDup). destruct c as [|a [|b l]]; cbn in H1; try lia.
        destruct (Nat.eq_dec x a) as [->|Hxa]; [exists b|exists a]; cbn; split; auto.
        inversion Hd; subst. intros ->. apply H2. cbn; auto. }
      assert (Hcn := sube_conn x y Hx Hy). apply (tree_of_conn sub sube sub_NoDup sube_ends) in Hcn.
      apply conn_in_edge in Hcn as (e & He & Hex); auto. exists e. split; auto. cbn. intuition.
  Qed.
  Lemma single_sub n : sub = [n] -> c = [n] /\ tr = [].
  Proof.
    intros H. assert (Hp := sub_perm). rewrite H in Hp. apply Permutation_length_1_inv in Hp. split; auto.
    unfold tr, tree_of. rewrite (selfloops_kruskal _ _ n).
    - assert (E : eview sub [] = []) by (rewrite H; auto). exact E.
    - intros e He. apply (eview_ends sub sube sube_ends) in He. rewrite H in He. cbn in He. intuition.
  Qed.
  Lemma root_exists : 1 < List.length c -> exists n, find (fun n => in_degree tr n =? 0) snodes = Some n /\ In n c /\ in_degree tr n = 0.
  Proof.
    intros H1.
    assert (Hh : exists h, In h c /\ in_degree tr h = 0).
    { assert (Hp := sub_perm). destruct sub as [|h l] eqn:E.
      - apply Permutation_length in Hp. cbn in Hp. lia.
      - exists h. split; [eapply Permutation_in; [exact Hp|]; cbn; auto|].
        unfold in_degree. rewrite filter_none; auto. intros e He. apply Nat.eqb_neq. intros Hd.
        assert (Hb := He). apply tree_of_In in Hb as [_ Hb]; auto using sub_NoDup, sube_ends.
        assert (Hf := forest_loopless tr e (tree_of_forest sub sube sub_NoDup sube_ends) He).
        apply Hf. rewrite Hd in *. eapply before_antisym; [apply sub_NoDup|exact Hb|].
        rewrite E in *. exists [], l. split; auto. destruct (before_In _ _ _ Hb) as [Hs _]. auto. }
    destruct Hh as (h & Hh & Hd).
    destruct (find _ snodes) as [n|] eqn:E.
    - exists n. apply find_some in E as [E1 E2]. split; auto. apply snodes_In in E1; auto. apply Nat.eqb_eq in E2. auto.
    - exfalso. eapply find_none in E; [|apply snodes_In; eauto]. cbn in E. rewrite Hd in E. discriminate.
  Qed.
  Definition new_entry (x : nat * (list edge * (list nat * list edge))) : Prop :=
    GE labels c x /\ (1 < List.length c -> snd (snd x) = (snodes, tr) /\ fst (snd x) = clos /\ in_degree tr (fst x) = 0).
  Lemma one_ground_ok vg : (forall n, In n c -> ~ In n (dkeys vg)) ->
    (forall e, In e tr -> In e labels) ->
    exists x, one_ground o ns labels c vg = (vg ++ [x], Ok tt) /\ new_entry x.
  Proof.
    intros Hk Hlab. rewrite one_ground_eq. cbn zeta.
    assert (Hall : forallb (fun e => mem e labels) tr = true) by (apply forallb_forall; intros e He; apply mem_In; auto).
    rewrite Hall. destruct (le_lt_dec (List.length c) 1) as [Hle|Hlt].
    - assert (Hlen := Permutation_length sub_perm).
      assert (Hs : exists n, sub = [n]).
      { destruct sub as [|n [|m l]]; cbn in Hlen; try lia.
        - destruct c; [easy|cbn in Hlen; lia].
        - eauto. }
      destruct Hs as [n Hs]. destruct (single_sub n Hs) as [Hcn Ht]. unfold pre. rewrite Hs.
      unfold snodes. rewrite Ht. cbn [flat_map dedup find].
      exists (n, ([], ([n], []))). rewrite dset_new by (apply Hk; rewrite Hcn; cbn; auto).
      split; auto. split; [|intros; lia].
      assert (Hkept : kept labels c = []).
      { unfold kept. apply filter_none. intros e _. rewrite Hcn. cbn. apply andb_false_r. }
      split; cbn; rewrite ?Hkept; try tauto.
      + rewrite Hcn. cbn; auto.
      + constructor.
      + constructor.
      + rewrite Hcn. cbn. tauto.
      + repeat constructor; auto.
    - destruct (root_exists Hlt) as (n & Hf & Hn & Hd). rewrite Hf.
      assert (Hm : pre vg = vg).
      { unfold pre. assert (Hlen := Permutation_length sub_perm). destruct sub as [|a [|b l]]; cbn in Hlen; try lia; auto. }
      rewrite Hm. exists (n, (clos, (snodes, tr))). rewrite dset_new by auto. split; auto. split; [|auto].
      assert (Hkept : kept labels c = sube).
      { unfold kept, sube. apply filter_ext. intros e. apply Nat.ltb_lt in Hlt. rewrite Hlt. apply andb_true_r. }
      split; cbn; rewrite ?Hkept; auto.
      + apply tree_of_forest; auto using sub_NoDup, sube_ends.
      + eapply Permutation_trans; [|apply (tree_split sub sube); auto using sub_NoDup, sube_ends, sube_norm].
        rewrite !map_app. apply Permutation_app_head. unfold clos. rewrite map_norm_rev. apply Permutation_map. apply Ho.
      + apply tree_of_conn; auto using sub_NoDup, sube_ends.
      + intros x. apply snodes_In; auto.
      + apply dedup_NoDup.
  Qed.
  Lemma one_ground_labels vg vg' : one_ground o ns labels c vg = (vg', Ok tt) -> forall e, In e tr -> In e labels.
  Proof.
    rewrite one_ground_eq. cbn zeta. destruct (forallb _ tr) eqn:E; [|discriminate]. intros _ e He.
    rewrite forallb_forall in E. apply mem_In. auto.
  Qed.
End One.

Section All.
  Variables (o : orders) (ns : list nat) (ce : list edge).
  Hypothesis Ho : valid_orders o.
  Hypothesis Hns : NoDup ns.
  Hypothesis Hce : forall e, In e ce -> In (src e) ns /\ In (dst e) ns.
  Hypothesis Hnorm : NoDup (map norm ce).
  Let labels := eview ns ce.
  Lemma labels_perm : Permutation (map norm labels) (map norm ce).
  Proof. apply eview_perm; auto. intros e He. apply Hce; auto. Qed.
  Lemma labels_ends e : In e labels -> In (src e) ns /\ In (dst e) ns.
  Proof. intros He. apply eview_In in He as [He _]; auto. apply before_In in He; auto. Qed.
  Lemma labels_before e : In e labels -> before ns (src e) (dst e).
  Proof. intros He. apply eview_In in He as [He _]; auto. Qed.
  Lemma labels_norm : NoDup (map norm labels).
  Proof. eapply Permutation_NoDup; [symmetry; apply labels_perm|auto]. Qed.
  Definition good (c : list nat) : Prop :=
    c <> [] /\ (exists P, c = filter P ns) /\ (forall x y, In x c -> In y c -> conn labels x y) /\
    (forall e, In e labels -> (In (src e) c <-> In (dst e) c)).
  Lemma comps_good c : In c (component_list ns ce) -> good c.
  Proof.
    intros Hc. destruct (component_list_spec ns ce Hce Hns) as (H1 & _). destruct (H1 c Hc) as (Hne & Hin & HP & Hcn).
    split; auto. split; auto. split.
    - intros x y Hx Hy. apply (conn_normperm _ _ _ _ labels_perm). apply Hcn; auto.
    - intros e He. assert (Hcon : conn ce (src e) (dst e)) by (apply (conn_normperm _ _ _ _ labels_perm), conn_edge; auto).
      destruct (labels_ends e He) as [Hs Hd]. split; intros H; eapply Hcn; eauto using conn_sym.
  Qed.
  Definition step (acc : grounds * res unit) (c : list nat) := match snd acc with Ok _ => one_ground o ns labels c (fst acc) | Err _ => acc end.
  Lemma step_err cs vg e : fold_left step cs (vg, Err e) = (vg, Err e).
  Proof. induction cs; cbn; auto. Qed.
  Definition disjoint_comps (cs : list (list nat)) : Prop :=
    NoDup cs /\ forall c c' x, In c cs -> In c' cs -> In x c -> In x c' -> c = c'.
  Lemma grounds_fold cs : forall vg vg', (forall c, In c cs -> good c) -> disjoint_comps cs ->
    (forall c n, In c cs -> In n c -> ~ In n (dkeys vg)) ->
    fold_left step cs (vg, Ok tt) = (vg', Ok tt) ->
    exists xs, vg' = vg ++ xs /\ Forall2 (fun c x => new_entry o ns labels c x) cs xs.
  Proof.
    induction cs as [|c cs IH]; intros vg vg' Hg [Hd1 Hd2] Hk H; cbn in H.
    - injection H as <-. exists []. rewrite app_nil_r. auto.
    - change (fold_left step cs (one_ground o ns labels c vg) = (vg', Ok tt)) in H.
      destruct (Hg c) as (Hne & HP & Hcn & Hcl); [cbn; auto|].
      assert (HkO : forall n, In n c -> ~ In n (dkeys vg)) by (intros n; apply Hk; cbn; auto).
      destruct (one_ground o ns labels c vg) as [vg1 r] eqn:E.
      destruct r as [[]|e]; [|rewrite step_err in H; discriminate].
      assert (Hlab := one_ground_labels o ns labels c vg vg1 E).
      destruct (one_ground_ok o ns labels c Ho Hns labels_norm HP Hne Hcn Hcl vg HkO Hlab) as (x & Ex & Hx).
      rewrite E in Ex. injection Ex as ->.
      inversion Hd1; subst.
      destruct (IH (vg ++ [x]) vg') as (xs & -> & Hxs); auto.
      + intros c' Hc'. apply Hg. cbn; auto.
      + split; auto. intros c1 c2 y H1q H2q. apply Hd2; cbn; auto.
      + intros c' n Hc' Hn. unfold dkeys. rewrite map_app, in_app_iff. cbn. intros [Hq|[Hq|[]]].
        * apply (Hk c' n); cbn; auto.
        * assert (c = c'); [|subst; auto]. apply (Hd2 c c' n); cbn; auto. destruct Hx as [Hx _]. apply ge_root in Hx. subst; auto.
      + exists (x :: xs). rewrite <- app_assoc. auto.
  Qed.
  Lemma comps_disjoint : disjoint_comps (component_list ns ce).
  Proof. destruct (component_list_spec ns ce Hce Hns) as (_ & _ & H1 & H2). split; auto. Qed.
  Lemma get_grounds_spec vg : get_grounds o ns ce = (vg, Ok tt) -> Forall2 (fun c x => new_entry o ns labels c x) (component_list ns ce) vg.
  Proof.
    intros H. apply (grounds_fold (component_list ns ce)) in H.
    - destruct H as (xs & -> & Hx). auto.
    - apply comps_good.
    - apply comps_disjoint.
    - cbn; auto.
  Qed.
  (** if the tree branches of every part keep the direction of the labels, nothing fails *)
  Lemma grounds_fold_ok cs : forall vg, (forall c, In c cs -> good c) -> disjoint_comps cs ->
    (forall c n, In c cs -> In n c -> ~ In n (dkeys vg)) ->
    (forall c e, In c cs -> In e (tr o ns labels c) -> In e labels) ->
    exists vg', fold_left step cs (vg, Ok tt) = (vg', Ok tt).
  Proof.
    induction cs as [|c cs IH]; intros vg Hg [Hd1 Hd2] Hk Hlab; cbn; [eauto|].
    change (exists vg', fold_left step cs (one_ground o ns labels c vg) = (vg', Ok tt)).
    destruct (Hg c) as (Hne & HP & Hcn & Hcl); [cbn; auto|].
    assert (HkO : forall n, In n c -> ~ In n (dkeys vg)) by (intros n; apply Hk; cbn; auto).
    assert (HlO : forall e, In e (tr o ns labels c) -> In e labels) by (intros e; apply Hlab; cbn; auto).
    destruct (one_ground_ok o ns labels c Ho Hns labels_norm HP Hne Hcn Hcl vg HkO HlO) as (x & -> & Hx).
    inversion Hd1; subst. apply IH.
    - intros c' Hc'. apply Hg. cbn; auto.
    - split; auto. intros c1 c2 y H1' H2'. apply Hd2; cbn; auto.
    - intros c' n Hc' Hn. unfold dkeys. rewrite map_app, in_app_iff. cbn. intros [Hq|[Hq|[]]].
      + apply (Hk c' n); cbn; auto.
      + assert (c = c'); [|subst; auto]. apply (Hd2 c c' n); cbn; auto. destruct Hx as [Hx _]. apply ge_root in Hx. subst; auto.
    - intros c' e Hc'. apply Hlab. cbn; auto.
  Qed.
  Lemma get_grounds_ok : (forall c e, In c (component_list ns ce) -> In e (tr o ns labels c) -> In e labels) ->
    exists vg, get_grounds o ns ce = (vg, Ok tt).
  Proof.
    intros H. apply (grounds_fold_ok (component_list ns ce)); auto.
    - apply comps_good.
    - apply comps_disjoint.
  Qed.
  Lemma tr_labels c : good c -> sub_order o ns c = filter (fun n => mem n c) ns -> forall e, In e (tr o ns labels c) -> In e labels.
  Proof.
    intros (Hne & HP & Hcn & Hcl) Hs e He.
    assert (Hb := He). apply tree_of_In in Hb as [Hv Hb]; eauto using sub_NoDup, sube_ends.
    apply eview_In in Hv as [_ (f & Hf & Hef)]; [|eauto using sube_ends].
    apply filter_In in Hf as [Hf _]. destruct Hef as [-> | ->]; auto.
    assert (Hbf := labels_before f Hf). unfold sub in Hb. rewrite Hs in Hb. apply before_filter in Hb.
    assert (src f = dst f) by (eapply before_antisym; eauto).
    destruct f as [[a b] k]. unfold rev_edge, src, dst in *. cbn in *. subst; auto.
  Qed.
End All.
