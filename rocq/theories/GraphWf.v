(** What the graphs of a CircuitGraph satisfy in every circuit. *)
From Coq Require Import List Bool String Ascii Arith Permutation Lia.
From Verif Require Import Prelude PreludeFacts Graph GraphSpec GraphView GraphForest.
Import ListNotations.
Open Scope string_scope.
Open Scope list_scope.
Open Scope nat_scope.

Lemma norm_rev e : norm (rev_edge e) = norm e.
Proof. unfold norm, rev_edge, src, dst, ekey. cbn. rewrite Nat.min_comm, Nat.max_comm. auto. Qed.
Lemma rev_rev e : rev_edge (rev_edge e) = e.
Proof. destruct e as [[a b] k]; auto. Qed.
Lemma norm_eq e f : norm e = norm f <-> same_branch e f.
Proof.
  destruct e as [[a b] k], f as [[a' b'] k']. unfold norm, same_branch, src, dst, ekey. cbn. split.
  - intros H. injection H as H1 H2 ->. assert ((a = a' /\ b = b') \/ (a = b' /\ b = a')) as [[-> ->]|[-> ->]] by lia; auto.
  - intros [H|H]; injection H as -> -> ->; auto. rewrite Nat.min_comm, Nat.max_comm; auto.
Qed.
Lemma same_rev e f : same_branch e f <-> f = e \/ f = rev_edge e.
Proof. reflexivity. Qed.

Definition bjoins := joins (fst (A := edge) (B := string)).
Definition nb (b : branch) : edge * string := (norm (fst b), snd b).
Lemma joins_norm a b x : bjoins a b x = true <-> Nat.min (src (fst x)) (dst (fst x)) = Nat.min a b /\ Nat.max (src (fst x)) (dst (fst x)) = Nat.max a b.
Proof.
  unfold bjoins, joins. rewrite orb_true_iff, !andb_true_iff, !Nat.eqb_eq. lia.
Qed.
Definition par (a b : nat) (es : list branch) : nat := List.length (filter (bjoins a b) es).
Lemma par_eq a b c d es : Nat.min a b = Nat.min c d -> Nat.max a b = Nat.max c d -> par a b es = par c d es.
Proof.
  intros H1 H2. unfold par. f_equal. apply filter_ext. intros x.
  apply eq_true_iff_eq. rewrite !joins_norm, H1, H2. tauto.
Qed.
Lemma par_app a b es es' : par a b (es ++ es') = par a b es + par a b es'.
Proof. unfold par. rewrite filter_app, app_length. auto. Qed.

Record wfg (g : mgraph) : Prop := {
  w_nodes : NoDup (g_nodes g);
  w_ends : forall b, In b (g_edges g) -> In (src (fst b)) (g_nodes g) /\ In (dst (fst b)) (g_nodes g);
  w_keys : forall b, In b (g_edges g) -> ekey (fst b) < par (src (fst b)) (dst (fst b)) (g_edges g);
  w_norm : NoDup (map (fun b => norm (fst b)) (g_edges g))
}.
Lemma add_node_In n ns x : In x (add_node n ns) <-> x = n \/ In x ns.
Proof.
  unfold add_node. destruct (mem n ns) eqn:E.
  - apply mem_In in E. split; auto. intros [->|H]; auto.
  - rewrite in_app_iff. cbn. intuition.
Qed.
Lemma add_node_NoDup n ns : NoDup ns -> NoDup (add_node n ns).
Proof. unfold add_node. destruct (mem n ns) eqn:E; auto. intros H. apply NoDup_app_single; auto. apply mem_nIn; auto. Qed.
Lemma wfg_new : wfg (mkg [] []).
Proof. split; cbn; try constructor; easy. Qed.
Lemma wfg_add g a b c : wfg g -> wfg (fst (add_edge g a b c)).
Proof.
  intros [H1 H2 H3 H4]. unfold add_edge. cbn [fst]. fold bjoins. change (List.length (filter (bjoins a b) (g_edges g))) with (par a b (g_edges g)). split; cbn [g_nodes g_edges].
  - auto using add_node_NoDup.
  - intros x Hx. rewrite !add_node_In. apply in_app_or in Hx as [Hx|[<-|[]]]; cbn; auto. apply H2 in Hx. tauto.
  - intros x Hx. rewrite par_app. apply in_app_or in Hx as [Hx|[<-|[]]].
    + apply H3 in Hx. lia.
    + assert (E : forall k, par a b [((a, b, k), c)] = 1).
      { intros k. unfold par. cbn [filter]. assert (E : bjoins a b ((a, b, k), c) = true) by (apply joins_norm; cbn; auto). rewrite E. auto. }
      change (par a b (g_edges g) < par a b (g_edges g) + par a b [(a, b, par a b (g_edges g), c)]). rewrite E. lia.
  - rewrite map_app. apply NoDup_app_single; auto. cbn. intros Hi. apply in_map_iff in Hi as (y & Hy & Hi).
    assert (Hk := H3 y Hi). unfold norm in Hy. cbn in Hy. injection Hy as E1 E2 E3.
    rewrite (par_eq (src (fst y)) (dst (fst y)) a b) in Hk by auto. lia.
Qed.

(** the view of the circuit graph *)
Lemma nb_flip b : nb (flip_branch b) = nb b.
Proof. unfold nb, flip_branch. cbn. rewrite norm_rev. auto. Qed.
Lemma edge_map_perm g : wfg g -> Permutation (map nb (edge_map g)) (map nb (g_edges g)).
Proof.
  intros H. unfold edge_map, bview. apply uview_perm.
  - apply nb_flip.
  - apply H.
  - intros x Hx. apply H; auto.
Qed.
Lemma edge_map_In g b : wfg g -> In b (edge_map g) ->
  before (g_nodes g) (src (fst b)) (dst (fst b)) /\ exists b', In b' (g_edges g) /\ (b = b' \/ b = flip_branch b').
Proof. intros H Hb. apply uview_In with (2 := fun y => w_ends g H y) in Hb; auto. Qed.
Lemma edge_map_norm g : wfg g -> NoDup (map (fun b => norm (fst b)) (edge_map g)).
Proof.
  intros H. assert (Hp := edge_map_perm g H). apply (Permutation_map fst) in Hp. rewrite !map_map in Hp.
  eapply Permutation_NoDup; [symmetry; exact Hp|]. apply H.
Qed.
Lemma NoDup_map_inv' {A B} (f : A -> B) l : NoDup (map f l) -> NoDup l.
Proof. apply NoDup_map_inv. Qed.
Lemma edge_map_keys g : wfg g -> NoDup (dkeys (edge_map g)).
Proof. intros H. apply edge_map_norm in H. rewrite <- (map_map fst norm) in H. apply NoDup_map_inv' in H. auto. Qed.
Lemma edge_map_vals g : wfg g -> Permutation (dvals (edge_map g)) (map snd (g_edges g)).
Proof. intros H. assert (Hp := edge_map_perm g H). apply (Permutation_map snd) in Hp. rewrite !map_map in Hp. exact Hp. Qed.

Lemma filter_map_swap {A B} (f : A -> B) (P : B -> bool) l : filter P (map f l) = map f (filter (fun x => P (f x)) l).
Proof. induction l; cbn; auto. destruct (P (f a)); cbn; rewrite IHl; auto. Qed.
Lemma capacitive_spec c : negb (capacitive c) = match c with String "C" _ => false | _ => true end.
Proof. destruct c as [|a c]; auto. destruct a as [[][][][][][][][]]; auto. Qed.
Lemma conductive_perm g : wfg g -> Permutation (map norm (conductive g)) (map norm (noncap g)).
Proof.
  intros H. assert (Hp := edge_map_perm g H). unfold conductive, noncap. rewrite !map_map.
  apply (Permutation_filter (fun x => negb (capacitive (snd x)))) in Hp. rewrite !filter_map_swap in Hp.
  apply (Permutation_map fst) in Hp. rewrite !map_map in Hp. cbn in Hp.
  erewrite (filter_ext (fun b : branch => match snd b with String "C" _ => false | _ => true end)); [exact Hp|].
  intros b. cbn. rewrite capacitive_spec. auto.
Qed.
Lemma conductive_In g e : In e (conductive g) <-> exists c, In (e, c) (edge_map g) /\ capacitive c = false.
Proof.
  unfold conductive. rewrite in_map_iff. split.
  - intros ([e' c] & <- & H). apply filter_In in H as [H1 H2]. apply negb_true_iff in H2. eauto.
  - intros (c & H1 & H2). exists (e, c). split; auto. apply filter_In. split; auto. cbn in *. rewrite H2. auto.
Qed.
Lemma conductive_before g e : wfg g -> In e (conductive g) -> before (g_nodes g) (src e) (dst e).
Proof. intros H He. apply conductive_In in He as (c & Hc & _). apply edge_map_In in Hc; auto. apply Hc. Qed.
Lemma conductive_ends g e : wfg g -> In e (conductive g) -> In (src e) (g_nodes g) /\ In (dst e) (g_nodes g).
Proof. intros H He. eapply before_In. apply conductive_before; auto. Qed.
Lemma conductive_norm g : wfg g -> NoDup (map norm (conductive g)).
Proof.
  intros H. eapply Permutation_NoDup; [symmetry; apply conductive_perm; auto|].
  unfold noncap. rewrite map_map. assert (Hn := w_norm g H). clear -Hn.
  induction (g_edges g) as [|b l IH]; cbn in *; [constructor|]. inversion Hn; subst.
  destruct (match snd b with String "C" _ => false | _ => true end); auto. cbn. constructor; auto.
  intros Hi. apply H1. apply in_map_iff in Hi as (x & <- & Hx). apply filter_In in Hx. apply (in_map (fun b : branch => norm (fst b))). tauto.
Qed.

(** the edge view of plain edges *)
Lemma eview_perm ns es : NoDup ns -> (forall e, In e es -> In (src e) ns) -> Permutation (map norm (eview ns es)) (map norm es).
Proof. intros H1 H2. apply uview_perm; auto using norm_rev. Qed.
Lemma eview_In ns es e : (forall e, In e es -> In (src e) ns /\ In (dst e) ns) -> In e (eview ns es) ->
  before ns (src e) (dst e) /\ exists f, In f es /\ (e = f \/ e = rev_edge f).
Proof. intros H. apply (uview_In (fun e : edge => e) rev_edge); auto. Qed.
Lemma eview_NoDup ns es : NoDup ns -> (forall e, In e es -> In (src e) ns) -> NoDup (map norm es) -> NoDup (eview ns es).
Proof. intros H1 H2 H3. apply NoDup_map_inv' with (f := norm). eapply Permutation_NoDup; [symmetry; apply eview_perm; auto|auto]. Qed.
Lemma perm_norm_In E F e : Permutation (map norm E) (map norm F) -> In e E -> exists f, In f F /\ (e = f \/ e = rev_edge f).
Proof.
  intros Hp He. apply (in_map norm) in He. eapply Permutation_in in He; [|exact Hp].
  apply in_map_iff in He as (f & Hf & Hi). apply norm_eq in Hf. exists f. split; auto.
Qed.
Lemma conn_normperm E F x y : Permutation (map norm E) (map norm F) -> conn E x y <-> conn F x y.
Proof.
  intros Hp. split; apply conn_norm; intros e He.
  - eapply Permutation_in; [exact Hp|]. apply in_map; auto.
  - eapply Permutation_in; [symmetry; exact Hp|]. apply in_map; auto.
Qed.

(** One entry of virtual_grounds. [kept] is what becomes of the branches
    inside a component: self-loops on a lone node are dropped. *)
Definition inside (c : list nat) (e : edge) : bool := mem (src e) c && mem (dst e) c.
Definition kept (labels : list edge) (c : list nat) : list edge :=
  filter (fun e => inside c e && (1 <? List.length c)) labels.
Record GE (labels : list edge) (c : list nat) (x : nat * (list edge * (list nat * list edge))) : Prop := {
  ge_root : In (fst x) c;
  ge_forest : forest (snd (snd (snd x)));
  ge_split : Permutation (map norm (snd (snd (snd x)) ++ fst (snd x))) (map norm (kept labels c));
  ge_conn : forall a b, conn (snd (snd (snd x))) a b <-> conn (kept labels c) a b;
  ge_labels : forall e, In e (snd (snd (snd x))) -> In e labels;
  ge_nodes : forall n, In n (fst (snd (snd x))) <-> In n c;
  ge_nodup : NoDup (fst (snd (snd x)))
}.

Lemma sub_order_perm o ns c P : valid_orders o -> c = filter P ns -> NoDup ns -> Permutation (sub_order o ns c) c.
Proof.
  intros [Ho _] Hc Hn. unfold sub_order. destruct (_ <? _); auto.
  apply NoDup_Permutation.
  - apply NoDup_filter; auto.
  - subst. apply NoDup_filter; auto.
  - intros x. rewrite filter_In, mem_In. split; [tauto|]. intros Hx. split; auto. subst. apply filter_In in Hx. tauto.
Qed.

Section Tree.
  Variables (sub : list nat) (sube : list edge).
  Hypothesis Hn : NoDup sub.
  Hypothesis He : forall e, In e sube -> In (src e) sub /\ In (dst e) sub.
  Hypothesis Hd : NoDup (map norm sube).
  Lemma eview_ends E : (forall e, In e E -> In (src e) sub /\ In (dst e) sub) -> forall e, In e (eview sub E) -> In (src e) sub /\ In (dst e) sub.
  Proof. intros H e Hi. apply eview_In in Hi as [Hi _]; auto. apply before_In; auto. Qed.
  Let K := kruskal (lab0 sub) (eview sub sube).
  Lemma tree_of_perm : Permutation (map norm (tree_of sub sube)) (map norm K).
  Proof. apply eview_perm; auto. intros e Hi. apply kruskal_incl in Hi. apply (eview_ends sube He e Hi). Qed.
  Lemma tree_of_forest : forest (tree_of sub sube).
  Proof.
    eapply forest_normperm; [symmetry; apply tree_of_perm|]. apply (kruskal_top sub (eview sub sube)). apply eview_ends; auto.
  Qed.
  Lemma tree_of_conn x y : conn (tree_of sub sube) x y <-> conn sube x y.
  Proof.
    rewrite (conn_normperm _ _ x y tree_of_perm). unfold K. 
    destruct (kruskal_top sub (eview sub sube) (eview_ends _ He)) as [_ ->].
    apply conn_normperm. apply eview_perm; auto. intros e Hi. apply He; auto.
  Qed.
  Lemma K_ordered e : In e K -> before sub (src e) (dst e).
  Proof. intros Hi. apply kruskal_incl in Hi. apply eview_In in Hi; auto. tauto. Qed.
  Lemma tree_of_In e : In e (tree_of sub sube) -> In e (eview sub sube) /\ before sub (src e) (dst e).
  Proof.
    intros Hi. assert (HK : forall e, In e K -> In (src e) sub /\ In (dst e) sub).
    { intros f Hf. apply kruskal_incl in Hf. apply (eview_ends sube He f Hf). }
    apply eview_In in Hi as [Hb (f & Hf & Hef)]; auto. split; auto.
    assert (Hbf := K_ordered f Hf). apply kruskal_incl in Hf. destruct Hef as [-> | ->]; auto.
    assert (src f = dst f) by (eapply before_antisym; eauto).
    destruct f as [[a b] k]. unfold rev_edge, src, dst in *. cbn in *. subst; auto.
  Qed.
  Lemma tree_of_K e : In e (tree_of sub sube) <-> In e K.
  Proof.
    assert (HK : forall e, In e K -> In (src e) sub /\ In (dst e) sub).
    { intros f Hf. apply kruskal_incl in Hf. apply (eview_ends sube He f Hf). }
    split.
    - intros Hi. assert (H := Hi). apply eview_In in H as [Hb (f & Hf & Hef)]; auto.
      assert (Hbf := K_ordered f Hf). destruct Hef as [-> | ->]; auto.
      assert (src f = dst f) by (eapply before_antisym; eauto).
      destruct f as [[a b] k]. unfold rev_edge, src, dst in *. cbn in *. subst; auto.
    - intros Hi. destruct (perm_norm_In K (tree_of sub sube) e) as (f & Hf & Hef); [symmetry; apply tree_of_perm|auto|].
      assert (Hbe := K_ordered e Hi). apply tree_of_In in Hf as Hf'. destruct Hf' as [_ Hbf].
      destruct Hef as [-> | ->]; auto.
      assert (src f = dst f) by (eapply before_antisym; eauto).
      destruct f as [[a b] k]. unfold rev_edge, src, dst in *. cbn in *. subst; auto.
  Qed.
  Lemma tree_of_NoDup : NoDup (tree_of sub sube).
  Proof.
    apply eview_NoDup; auto.
    - intros e Hi. apply kruskal_incl in Hi. apply (eview_ends sube He e Hi).
    - assert (H : NoDup (map norm (eview sub sube))).
      { eapply Permutation_NoDup; [symmetry; apply eview_perm|]; auto. intros e Hi. apply He; auto. }
      revert H. unfold K. generalize (lab0 sub). induction (eview sub sube) as [|f l IH]; intros lb H; cbn in *; [constructor|].
      inversion H; subst. destruct (lget lb (src f) =? lget lb (dst f)); auto. cbn. constructor; auto.
      intros Hi. apply H2. apply in_map_iff in Hi as (g & <- & Hg). apply in_map. eapply kruskal_incl; eauto.
  Qed.
  Lemma tree_split : Permutation (map norm (tree_of sub sube ++ filter (fun e => negb (mem e (tree_of sub sube))) (eview sub sube))) (map norm sube).
  Proof.
    eapply Permutation_trans; [|apply (eview_perm sub sube); auto; intros e Hi; apply He; auto].
    apply Permutation_map.
    eapply Permutation_trans; [|symmetry; apply (Permutation_filter_split (fun e => mem e (tree_of sub sube)))].
    apply Permutation_app_tail. apply NoDup_Permutation.
    - apply tree_of_NoDup.
    - apply NoDup_filter. apply eview_NoDup; auto. intros e Hi; apply He; auto.
    - intros e. rewrite filter_In, mem_In. split; [|tauto]. intros Hi. split; auto. apply tree_of_In; auto.
  Qed.
End Tree.
