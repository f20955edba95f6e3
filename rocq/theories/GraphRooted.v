(** Circuits whose nodes are attached one after the other: the tree of every
    part is directed away from its virtual ground, nothing fails and all loops
    are closed. *)
From Coq Require Import List Bool String Ascii Arith Permutation Lia.
From Verif Require Import Prelude PreludeFacts Graph GraphSpec GraphView GraphForest GraphWf GraphGround GraphCircuit GraphLoops GraphState.
Import ListNotations.
Open Scope string_scope.
Open Scope list_scope.
Open Scope nat_scope.

(** views are sorted by their first node *)
Lemma uview_sorted ns es : forall seen l1 e l2 f, uview_from (fun e : edge => e) rev_edge seen ns es = l1 ++ e :: l2 -> In f l2 ->
  before ns (src e) (src f).
Proof.
  induction ns as [|n ns IH]; intros seen l1 e l2 f H Hf; cbn in H; [destruct l1; discriminate|].
  set (A := flat_map (fun m => if mem m seen then [] else map (orient (fun e : edge => e) rev_edge n) (filter (joins (fun e : edge => e) n m) es)) (nbrs (fun e : edge => e) n es)) in H.
  assert (HA : forall x, In x A -> src x = n).
  { intros x Hx. apply in_flat_map in Hx as (m & _ & Hx). destruct (mem m seen); [easy|].
    apply in_map_iff in Hx as (y & <- & Hy). apply filter_In in Hy as [_ Hy]. unfold orient.
    destruct (Nat.eqb_spec (src y) n) as [Hq|Hq]; auto. unfold joins in Hy.
    apply orb_true_iff in Hy as [Hy|Hy]; apply andb_true_iff in Hy as [Hy1 Hy2]; apply Nat.eqb_eq in Hy1, Hy2; [congruence|exact Hy2]. }
  assert (HB : forall x, In x (uview_from (fun e : edge => e) rev_edge (n :: seen) ns es) -> In (src x) ns).
  { intros x Hx. apply uview_from_In in Hx as (m1 & m2 & -> & _); auto. apply in_or_app; cbn; auto. }
  set (B := uview_from (fun e : edge => e) rev_edge (n :: seen) ns es) in *.
  assert (Hcase : (exists a2, A = l1 ++ e :: a2 /\ l2 = a2 ++ B) \/ (exists b1, B = b1 ++ e :: l2)).
  { clear -H. revert l1 H. induction A as [|a A IH]; intros l1 H; cbn in H; [right; eauto|].
    destruct l1 as [|x l1]; cbn in H; injection H as -> H.
    - left. exists A. auto.
    - destruct (IH _ H) as [(a2 & -> & ->)|(b1 & Hb)]; [left; exists a2; auto|right; exists b1; auto]. }
  destruct Hcase as [(a2 & EA & ->)|(b1 & EB)].
  - rewrite (HA e) by (rewrite EA; apply in_or_app; cbn; auto). exists [], ns. split; auto.
    apply in_app_or in Hf as [Hf|Hf]; [left; symmetry; apply HA; rewrite EA; apply in_or_app; cbn; auto|right; apply HB; auto].
  - destruct (IH _ _ _ _ _ EB Hf) as (m1 & m2 & -> & Hm). exists (n :: m1), m2. auto.
Qed.

Definition touches (v : nat) (e : edge) : Prop := src e <> dst e /\ (src e = v \/ dst e = v).
Lemma kruskal_first ns v es : In v ns -> forall F l, Lab ns F l -> (forall e, In e es -> In (src e) ns /\ In (dst e) ns) ->
  (forall f, In f F -> ~ touches v f) -> (exists e, In e es /\ touches v e) ->
  exists l1 e l2, es = l1 ++ e :: l2 /\ touches v e /\ (forall f, In f l1 -> ~ touches v f) /\ In e (kruskal l es).
Proof.
  intros Hv. induction es as [|e es IH]; intros F l Hl Hi HF (e0 & He0 & Ht0); [easy|].
  destruct (Hi e) as [Hs Hd]; [cbn; auto|].
  assert (Hdec : touches v e \/ ~ touches v e).
  { unfold touches. destruct (Nat.eq_dec (src e) (dst e)), (Nat.eq_dec (src e) v), (Nat.eq_dec (dst e) v); tauto. }
  cbn [kruskal]. destruct Hdec as [Ht|Ht].
  - exists [], e, es. split; auto. split; auto. split; [easy|].
    destruct (Nat.eqb_spec (lget l (src e)) (lget l (dst e))) as [E|E]; [|cbn; auto]. exfalso.
    assert (Hc : conn F (src e) (dst e)) by (apply Hl; auto). destruct Ht as [Hn [Hq|Hq]].
    + apply conn_leave in Hc as (f & Hf & H1 & H2); auto. apply (HF f Hf). split; auto. rewrite <- Hq; auto.
    + apply conn_sym, conn_leave in Hc as (f & Hf & H1 & H2); auto. apply (HF f Hf). split; auto. rewrite <- Hq; auto.
  - assert (He0' : In e0 es) by (destruct He0 as [<-|]; [easy|auto]).
    assert (Hi' : forall f, In f es -> In (src f) ns /\ In (dst f) ns) by (intros; apply Hi; cbn; auto).
    destruct (Nat.eqb_spec (lget l (src e)) (lget l (dst e))) as [E|E].
    + destruct (IH F l Hl Hi' HF) as (l1 & f & l2 & -> & H1 & H2 & H3); eauto.
      exists (e :: l1), f, l2. split; auto. split; auto. split; auto. intros g [<-|Hg]; auto.
    + destruct (IH (e :: F) (union l (src e) (dst e))) as (l1 & f & l2 & -> & H1 & H2 & H3); eauto.
      * apply union_Lab; auto.
      * intros g [<-|Hg]; auto.
      * exists (e :: l1), f, l2. split; auto. split; auto. split; [intros g [<-|Hg]; auto|cbn; auto].
Qed.

Section Out.
  Variables (sub : list nat) (sube : list edge).
  Hypothesis Hn : NoDup sub.
  Hypothesis He : forall e, In e sube -> In (src e) sub /\ In (dst e) sub.
  Hypothesis Hd : NoDup (map norm sube).
  (** a node with an earlier neighbour gets an incoming tree branch *)
  Lemma in_edge v w e : In e sube -> before sub w v -> w <> v -> (src e = w /\ dst e = v) \/ (src e = v /\ dst e = w) ->
    exists f, In f (tree_of sub sube) /\ dst f = v /\ before sub (src f) v /\ src f <> v.
  Proof.
    intros Hes Hw Hne Hor.
    assert (Hv : In v sub) by (apply before_In in Hw; tauto).
    set (V := eview sub sube).
    assert (Hp : Permutation (map norm V) (map norm sube)) by (apply eview_perm; auto; intros x Hx; apply He; auto).
    assert (HVe : forall x, In x V -> In (src x) sub /\ In (dst x) sub) by (apply (eview_ends sub sube He)).
    assert (HVb : forall x, In x V -> before sub (src x) (dst x)) by (intros x Hx; apply (eview_In sub sube x He Hx)).
    assert (Hf : exists f, In f V /\ src f = w /\ dst f = v).
    { destruct (perm_norm_In sube V e) as (f & Hf & Hef); [symmetry; auto|auto|]. exists f. split; auto.
      assert (Hb := HVb f Hf).
      assert (Hc : (src f = w /\ dst f = v) \/ (src f = v /\ dst f = w)) by (destruct Hef as [-> | ->]; unfold rev_edge, src, dst in *; cbn in *; tauto).
      destruct Hc as [Hc|[Hc1 Hc2]]; auto. exfalso. apply Hne. rewrite Hc1, Hc2 in Hb. apply (before_antisym sub); auto. }
    destruct Hf as (f & Hf & Hfs & Hfd).
    destruct (kruskal_first sub v V Hv [] (lab0 sub) (lab0_Lab sub) HVe) as (l1 & g & l2 & EV & Hg1 & Hg2 & Hg3); [easy|exists f; split; auto; split; [congruence|auto]|].
    assert (HgV : In g V) by (rewrite EV; apply in_or_app; cbn; auto).
    assert (Hgd : dst g = v).
    { destruct Hg1 as [Hloop [Hq|Hq]]; auto. exfalso.
      rewrite EV in Hf. apply in_app_or in Hf as [Hf|[Hf|Hf]].
      - apply (Hg2 f Hf). split; [congruence|auto].
      - subst g. congruence.
      - assert (Hb : before sub (src g) (src f)) by (eapply uview_sorted; [exact EV|auto]).
        rewrite Hq, Hfs in Hb. apply Hne. apply (before_antisym sub); auto. }
    exists g. split; [apply tree_of_K; auto|]. split; auto. rewrite <- Hgd. split; [apply HVb; auto|]. apply Hg1.
  Qed.
  Variable h : nat.
  Variable rest : list nat.
  Hypothesis Hsub : sub = h :: rest.
  Hypothesis Hin : forall v, In v rest -> exists f, In f (tree_of sub sube) /\ dst f = v /\ before sub (src f) v /\ src f <> v.
  Lemma walk_snoc s p e : walk s p (src e) -> walk s (p ++ [e]) (dst e).
  Proof.
    revert s. induction p as [|f p IH]; intros s H; inversion H; subst; cbn; [repeat constructor|constructor; auto].
  Qed.
  Lemma path_to : forall n l1 v l2, List.length l1 <= n -> sub = l1 ++ v :: l2 ->
    exists p, walk h p v /\ (forall e, In e p -> In e (tree_of sub sube)) /\ NoDup (map dst p) /\ (forall x, In x (map dst p) -> In x (l1 ++ [v]) /\ x <> h).
  Proof.
    induction n as [|n IH]; intros l1 v l2 Hl E.
    - destruct l1; [|cbn in Hl; lia]. assert (v = h) by (rewrite Hsub in E; injection E; auto). subst v.
      exists []. split; [constructor|]. split; [easy|]. split; [constructor|easy].
    - destruct l1 as [|x0 l1].
      { assert (v = h) by (rewrite Hsub in E; injection E; auto). subst v.
        exists []. split; [constructor|]. split; [easy|]. split; [constructor|easy]. }
      assert (x0 = h) by (rewrite Hsub in E; injection E; auto). subst x0.
      assert (Hvr : In v rest) by (rewrite Hsub in E; injection E as ->; apply in_or_app; cbn; auto).
      destruct (Hin v Hvr) as (f & Hf & Hfd & (m1 & m2 & Em & Hvm) & Hne).
      destruct Hvm as [Hvm|Hvm]; [congruence|]. apply in_split in Hvm as (p1 & p2 & ->).
      assert (E' : sub = (m1 ++ src f :: p1) ++ v :: p2) by (rewrite <- app_assoc; auto).
      destruct (NoDup_split sub v Hn _ _ _ _ E E') as [El _].
      assert (Hlen : List.length m1 <= n).
      { assert (Hq : List.length (h :: l1) = List.length (m1 ++ src f :: p1)) by (rewrite El; auto). rewrite app_length in Hq. cbn in *. lia. }
      destruct (IH m1 (src f) (p1 ++ v :: p2) Hlen Em) as (p & Hw & Hp & Hnd & Hx).
      exists (p ++ [f]).
      assert (Hvl : ~ In v (h :: l1)).
      { rewrite E in Hn. intros Hq. apply NoDup_remove_2 in Hn. apply Hn. apply in_or_app; auto. }
      assert (Hincl : forall x, In x (m1 ++ [src f]) -> In x (h :: l1)).
      { intros x Hxx. rewrite El. rewrite in_app_iff in *. cbn in *. tauto. }
      split; [rewrite <- Hfd; apply walk_snoc; auto|]. split.
      { intros e Hq. apply in_app_or in Hq as [Hq|[<-|[]]]; auto. }
      rewrite map_app. cbn [map]. rewrite Hfd. split.
      + apply NoDup_app_single; auto. intros Hq. apply Hvl, Hincl. apply Hx; auto.
      + intros x Hq. apply in_app_or in Hq as [Hq|[<-|[]]].
        * destruct (Hx x Hq) as [H1 H2]. split; auto. apply in_or_app. left. apply Hincl; auto.
        * split; [apply in_or_app; cbn; auto|]. intros ->. apply Hvl. cbn; auto.
  Qed.
  Lemma first_path_exists sn v : In v sub -> List.length sub <= List.length sn -> first_path sn (tree_of sub sube) h v <> None.
  Proof.
    intros Hv Hlen. apply in_split in Hv as (l1 & l2 & E).
    destruct (path_to (List.length l1) l1 v l2 (le_n _) E) as (p & Hw & Hp & Hnd & Hx).
    unfold first_path. rewrite first_sorted_None. apply (paths_complete _ _ p); auto.
    - intros x Hq [<-|[]]. apply (Hx h Hq). auto.
    - rewrite <- (map_length dst). eapply Nat.le_trans; [|exact Hlen]. apply NoDup_incl_length; auto.
      intros x Hq. rewrite E. destruct (Hx x Hq) as [H1 _]. apply in_app_or in H1 as [H1|[<-|[]]]; apply in_or_app; cbn; auto.
    - cbn; auto.
  Qed.
End Out.

Section RootedAll.
  Variables (o : orders) (ns : list nat) (ce : list edge).
  Hypothesis Ho : valid_orders o.
  Hypothesis Hns : NoDup ns.
  Hypothesis Hce : forall e, In e ce -> In (src e) ns /\ In (dst e) ns.
  Hypothesis Hnorm : NoDup (map norm ce).
  Hypothesis Hag : agrees o ns ce.
  Let labels := eview ns ce.
  Lemma sub_agrees c : In c (component_list ns ce) -> sub_order o ns c = filter (fun n => mem n c) ns.
  Proof.
    intros Hc. unfold sub_order. destruct (_ <? _) eqn:E; auto. apply Nat.ltb_lt in E.
    destruct (component_list_spec ns ce Hce Hns) as (H & _). destruct (H c Hc) as (H1 & H2 & (P & HP) & H3).
    apply Hag; auto. rewrite HP. apply NoDup_filter; auto.
  Qed.
  Lemma agrees_grounds : exists vg, get_grounds o ns ce = (vg, Ok tt).
  Proof.
    apply get_grounds_ok; auto. intros c e Hc He. eapply tr_labels; eauto.
    - apply comps_good; auto.
    - apply sub_agrees; auto.
  Qed.
  Hypothesis Hroot : rooted ns ce.
  Lemma rooted_paths c x : In c (component_list ns ce) -> new_entry o ns labels c x -> 1 < List.length c ->
    forall v, In v c -> first_path (fst (snd (snd x))) (snd (snd (snd x))) (fst x) v <> None.
  Proof.
    intros Hc [Hge Hnew] Hlen v Hv. destruct (Hnew Hlen) as (Hss & Hcl & Hdeg). rewrite Hss. cbn [fst snd].
    assert (Hgood := comps_good ns ce Hns Hce c Hc).
    destruct (component_list_spec ns ce Hce Hns) as (Hcs & _). destruct (Hcs c Hc) as (_ & Hin & HP & Hcn).
    assert (Hsa := sub_agrees c Hc).
    destruct Hgood as (Hg1 & Hg2 & Hg3 & Hg4).
    assert (Sn : NoDup (sub o ns c)) by (apply (sub_NoDup o ns labels c); auto).
    assert (Se : forall e, In e (sube labels c) -> In (src e) (sub o ns c) /\ In (dst e) (sub o ns c)) by (intros e; apply sube_ends; auto).
    assert (Sin : forall y, In y (sub o ns c) <-> In y c) by (intros y; apply sub_In; auto).
    set (S := sub o ns c) in *.
    destruct S as [|h rest] eqn:ES.
    { exfalso. apply Sin in Hv. easy. }
    assert (Hh : In h c) by (apply Sin; cbn; auto).
    assert (Hin' : forall u, In u rest -> exists f, In f (tree_of (h :: rest) (sube labels c)) /\ dst f = u /\ before (h :: rest) (src f) u /\ src f <> u).
    { intros u Hu. assert (Huc : In u c) by (apply Sin; cbn; auto).
      assert (Hhu : h <> u) by (apply NoDup_cons_iff in Sn; intros ->; tauto).
      assert (Hbs : before (h :: rest) h u) by (exists [], rest; cbn; auto).
      assert (Hb : before ns h u) by (rewrite <- ES in Hbs; unfold S, sub in Hbs; rewrite Hsa in Hbs; eapply before_filter; eauto).
      destruct (Hroot u h (Hin u Huc) Hb Hhu) as (e & w & He & Hw & Hwu & Hor); [apply Hcn; auto|].
      assert (Hwc : In w c).
      { apply (Hcn u); auto.
        - apply before_In in Hw; tauto.
        - destruct Hor as [[<- <-]|[<- <-]]; [apply conn_sym|]; apply conn_edge; auto. }
      destruct (perm_norm_In ce labels e) as (f & Hf & Hef); [symmetry; apply labels_perm; auto|auto|].
      assert (Hfor : (src f = w /\ dst f = u) \/ (src f = u /\ dst f = w)) by (destruct Hef as [-> | ->]; unfold rev_edge, src, dst in *; cbn in *; tauto).
      apply (in_edge (h :: rest) (sube labels c) Sn Se u w f); auto.
      - apply filter_In. split; auto. apply inside_In. destruct Hfor as [[-> ->]|[-> ->]]; auto.
      - rewrite <- ES. unfold S, sub. rewrite Hsa. apply before_filter_inv; auto; apply mem_In; auto. }
    assert (Hroot' : fst x = h).
    { assert (Hx := ge_root _ _ _ Hge). apply Sin in Hx as [Hx|Hx]; auto. exfalso.
      destruct (Hin' _ Hx) as (f & Hf & Hfd & _). unfold in_degree in Hdeg. apply length_zero_iff_nil in Hdeg.
      assert (Hq : In f (filter (fun e => dst e =? fst x) (tr o ns labels c))).
      { apply filter_In. split; [|apply Nat.eqb_eq; auto]. unfold tr. fold S. rewrite ES. auto. }
      rewrite Hdeg in Hq. easy. }
    rewrite Hroot'. unfold tr. fold S. rewrite ES.
    apply (first_path_exists (h :: rest) (sube labels c)) with (rest := rest); auto.
    - apply Sin; auto.
    - assert (Hinc : incl (h :: rest) (snodes o ns labels c)).
      { intros y Hy. apply snodes_In; auto. apply Sin; auto. }
      apply NoDup_incl_length; auto.
  Qed.
  Lemma rooted_triples vg : Forall2 (fun c x => new_entry o ns labels c x) (component_list ns ce) vg ->
    forall t, In t (triples vg) -> 
      first_path (fst (snd (fst t))) (snd (snd (fst t))) (fst (fst t)) (src (snd t)) <> None /\
      first_path (fst (snd (fst t))) (snd (snd (fst t))) (fst (fst t)) (dst (snd t)) <> None.
  Proof.
    intros HF t Ht. apply triples_In in Ht as (x & Hx & He & E1 & E2). rewrite E1, E2.
    destruct (Forall2_In_r _ _ _ _ HF Hx) as (c & Hc & Hn).
    assert (Hge := proj1 Hn).
    destruct (perm_norm_In _ (kept labels c) (snd t) (ge_split _ _ _ Hge)) as (f & Hf & Hef); [apply in_or_app; auto|].
    apply kept_In in Hf as (_ & Hs & Hd & Hl).
    assert (Hs' : In (src (snd t)) c) by (destruct Hef as [-> | ->]; auto).
    assert (Hd' : In (dst (snd t)) c) by (destruct Hef as [-> | ->]; auto).
    split; eapply rooted_paths; eauto.
  Qed.
End RootedAll.

Lemma rooted_norm ns E F : Permutation (map norm E) (map norm F) -> rooted ns E -> rooted ns F.
Proof.
  intros Hp HE v u Hv Hb Hne Hc. destruct (HE v u Hv Hb Hne) as (e & w & He & Hw & Hwv & Hor); [apply (conn_normperm E F); auto|].
  destruct (perm_norm_In E F e Hp He) as (f & Hf & Hef). exists f, w. split; auto. split; auto. split; auto.
  destruct Hef as [-> | ->]; unfold rev_edge, src, dst in *; cbn in *; tauto.
Qed.

Lemma agrees_norm o ns E F : Permutation (map norm E) (map norm F) -> agrees o ns E -> agrees o ns F.
Proof. intros Hp H c H1 H2 H3 H4 H5. apply H; auto. intros x y Hx Hy. rewrite (H4 x y Hx Hy). symmetry. apply conn_normperm; auto. Qed.
Lemma rooted_addBranch o s a b c : wfg (c_graph s) -> valid_orders o -> NoDup (map snd (g_edges (added s a b c))) -> valid_name c = true ->
  agrees o (g_nodes (added s a b c)) (noncap (added s a b c)) -> rooted (g_nodes (added s a b c)) (noncap (added s a b c)) ->
  exists s', addBranch o s a b c = (s', Ok tt).
Proof.
  intros Hw Ho Hnd Hc Hag Hr.
  assert (Hw' : wfg (added s a b c)) by (apply wfg_add; auto).
  destruct (addBranch_cases o s a b c) as [(Hq & _)|[(_ & Hd & _)|(_ & Hd & ->)]].
  - congruence.
  - exfalso. assert (Hq : has_duplicates (dvals (edge_map (added s a b c))) = false); [|congruence].
    apply has_duplicates_spec. eapply Permutation_NoDup; [symmetry; apply edge_map_vals; auto|auto].
  - set (g := added s a b c) in *. unfold update_graphs.
    assert (E0 : c_graph (set_graph s g (both_ways (edge_map g))) = g) by auto. rewrite E0.
    assert (N1 : NoDup (g_nodes g)) by apply Hw'.
    assert (N2 : forall e, In e (conductive g) -> In (src e) (g_nodes g) /\ In (dst e) (g_nodes g)) by (intros e; apply conductive_ends; auto).
    assert (N3 : NoDup (map norm (conductive g))) by (apply conductive_norm; auto).
    assert (Hag' : agrees o (g_nodes g) (conductive g)) by (eapply agrees_norm; [symmetry; apply conductive_perm; auto|auto]).
    destruct (agrees_grounds o (g_nodes g) (conductive g) Ho N1 N2 N3 Hag') as (vg & EG).
    rewrite EG. assert (HF := get_grounds_spec o (g_nodes g) (conductive g) Ho N1 N2 N3 vg EG).
    assert (Hr' : rooted (g_nodes g) (conductive g)) by (eapply rooted_norm; [symmetry; apply conductive_perm; auto|auto]).
    rewrite get_loops_triples.
    destruct (loops_fold_ok (triples vg)) with (st := mkl 0 None [] []) as (l & El).
    + intros t Ht. apply (rooted_triples o (g_nodes g) (conductive g) Ho N1 N2 Hag' Hr' vg HF t Ht).
    + rewrite El. eauto.
Qed.
Lemma rooted_loops_closed o s a b c s' : wfg (c_graph s) -> names_ok (c_graph s) -> valid_orders o ->
  addBranch o s a b c = (s', Ok tt) -> agrees o (g_nodes (c_graph s')) (noncap (c_graph s')) -> rooted (g_nodes (c_graph s')) (noncap (c_graph s')) ->
  forall ls k l, c_loops s' = Some ls -> dget ls k = Some l -> closed l.
Proof.
  intros Hw Hv Ho H Hag Hr ls k l Hls Hk.
  destruct (derived_branch o s a b c s' Hw Hv Ho H) as (HD & Eg & _).
  assert (Hw' := d_wf s' HD).
  destruct (addBranch_cases o s a b c) as [(_ & e & E)|[(_ & _ & E)|(Hc & Hd & E)]]; try (rewrite E in H; discriminate).
  rewrite E in H. clear E. rewrite <- Eg in *.
  remember (c_graph s') as g eqn:Eq. 
  unfold update_graphs in H.
  assert (E0 : c_graph (set_graph s g (both_ways (edge_map g))) = g) by auto. rewrite E0 in H.
  assert (N1 : NoDup (g_nodes g)) by apply Hw'.
  assert (N2 : forall e, In e (conductive g) -> In (src e) (g_nodes g) /\ In (dst e) (g_nodes g)) by (intros e; apply conductive_ends; auto).
  assert (N3 : NoDup (map norm (conductive g))) by (apply conductive_norm; auto).
  destruct (get_grounds o (g_nodes g) (conductive g)) as [vg [[]|e]] eqn:EG; [|discriminate].
  assert (HF := get_grounds_spec o (g_nodes g) (conductive g) Ho N1 N2 N3 vg EG).
  assert (Hr' : rooted (g_nodes g) (conductive g)) by (eapply rooted_norm; [symmetry; apply conductive_perm; auto|auto]).
  assert (Hag' : agrees o (g_nodes g) (conductive g)) by (eapply agrees_norm; [symmetry; apply conductive_perm; auto|auto]).
  assert (HT := rooted_triples o (g_nodes g) (conductive g) Ho N1 N2 Hag' Hr' vg HF).
  destruct (get_loops vg) as [lst [[]|e]] eqn:EL; [|discriminate].
  rewrite get_loops_triples in EL.
  assert (HL := loops_fold (trees vg) (triples vg)).
  assert (Hsub : forall t f, In t (triples vg) -> In f (snd (snd (fst t))) -> In f (trees vg)).
  { intros t f Ht Hf. apply triples_In in Ht as (x & Hx & _ & _ & E). apply in_flat_map. exists x. split; auto. rewrite <- E; auto. }
  specialize (HL Hsub lst EL).
  assert (Els : ls = l_loops lst).
  { assert (Hq : c_loops s' = Some (l_loops lst)) by (injection H as <-; reflexivity). congruence. }
  subst ls.
  assert (Hkey : In k (dkeys (l_loops lst))) by (eapply dget_Some_key; eauto).
  rewrite (lo_keys _ _ _ HL), in_seq in Hkey.
  destruct (nth_error (triples vg) k) as [t|] eqn:Et; [|apply nth_error_None in Et; lia].
  destruct (lo_loop _ _ _ HL k t Et) as (bd & Hb1 & _ & Hb2 & Hb3). rewrite Hk in Hb1. injection Hb1 as ->.
  apply nth_error_In in Et. destruct (HT t Et) as [P1 P2].
  destruct (first_path _ _ _ (src (snd t))) as [p1|] eqn:F1; [|easy].
  destruct (first_path _ _ _ (dst (snd t))) as [p2|] eqn:F2; [|easy].
  rewrite (Hb3 p1 p2) by auto. apply first_path_spec in F1 as (W1 & _ & D1). apply first_path_spec in F2 as (W2 & _ & D2).
  eapply loop_closed; eauto.
Qed.

(** with at most four nodes there is no condition on the iteration order *)
Lemma agrees_small o ns E : valid_orders o -> NoDup ns -> List.length ns <= 4 -> agrees o ns E.
Proof.
  intros [Ho _] Hn Hl c Hc Hne Hi _ H2. destruct c as [|x [|y c]]; [easy| |cbn in H2; lia].
  - assert (H := Permutation_sym (Ho [x])). apply Permutation_length_1_inv in H. rewrite H. clear -Hn Hi.
    assert (Hx : In x ns) by (apply Hi; left; auto). clear Hi. induction ns as [|a l IH]; [easy|].
    apply NoDup_cons_iff in Hn as [Hn1 Hn2]. cbn [filter]. destruct Hx as [->|Hx].
    + assert (E : mem x [x] = true) by (apply mem_In; left; auto). rewrite E. f_equal.
      assert (E2 : forall l, ~ In x l -> filter (fun n => mem n [x]) l = []).
      { clear. induction l as [|a l IH]; intros H; auto. cbn [filter]. assert (E : mem a [x] = false) by (apply mem_nIn; cbn; intros [->|[]]; apply H; left; auto).
        rewrite E. apply IH. intros Hq; apply H; right; auto. }
      rewrite E2; auto.
    + assert (E : mem a [x] = false) by (apply mem_nIn; cbn; intros [->|[]]; auto). rewrite E. apply IH; auto.
Qed.
Lemma agrees_connected o ns E : (forall x y, In x ns -> In y ns -> conn E x y) -> NoDup ns -> agrees o ns E.
Proof.
  intros Hc Hn c H1 H2 H3 H4 H5. exfalso. destruct c as [|x c0]; [easy|].
  assert (Hl : List.length ns <= List.length (x :: c0)).
  { apply NoDup_incl_length; auto. intros y Hy. apply (H4 x y); auto; [left; auto|]. apply Hc; auto. apply H3; left; auto. }
  lia.
Qed.

(** growing a connected circuit *)
Definition connected (ns : list nat) (E : list edge) : Prop := forall x y, In x ns -> In y ns -> conn E x y.
Lemma before_app ns r a b : before ns a b -> before (ns ++ r) a b.
Proof. intros (l1 & l2 & -> & H). exists l1, (l2 ++ r). rewrite <- app_assoc. split; auto. cbn in *. rewrite in_app_iff. tauto. Qed.
Lemma before_last ns x w : In w ns -> before (ns ++ [x]) w x.
Proof. intros H. apply in_split in H as (l1 & l2 & ->). exists l1, (l2 ++ [x]). rewrite <- app_assoc. split; auto. right. apply in_or_app; right; left; auto. Qed.
Lemma before_app_old ns x a b : NoDup (ns ++ [x]) -> In b ns -> before (ns ++ [x]) a b -> before ns a b.
Proof.
  intros Hn Hb Hab. destruct (before_In _ _ _ Hab) as [Ha _]. apply in_app_or in Ha as [Ha|[<-|[]]].
  - destruct (before_total ns a b Ha Hb) as [H|H]; auto. assert (a = b); [|subst].
    + eapply before_antisym; [exact Hn|auto|apply before_app; auto].
    + destruct (before_total ns b b); auto.
  - exfalso. assert (x = b) by (eapply before_antisym; [exact Hn|auto|apply before_last; auto]). subst.
    apply NoDup_remove_2 in Hn. apply Hn. rewrite app_nil_r. auto.
Qed.
Lemma rooted_mono ns E F : incl E F -> connected ns E -> rooted ns E -> rooted ns F.
Proof.
  intros Hi Hc Hr v u Hv Hb Hne _. destruct (before_In _ _ _ Hb) as [Hu _]. destruct (Hr v u Hv Hb Hne) as (e & w & He & Hq); [apply Hc; auto|].
  exists e, w. split; auto.
Qed.
Lemma connected_mono ns E F : incl E F -> connected ns E -> connected ns F.
Proof. intros Hi Hc x y Hx Hy. eapply conn_mono; [exact Hi|apply Hc; auto]. Qed.
Lemma grow_node ns E x w e : NoDup ns -> ~ In x ns -> In w ns -> In e E -> ((src e = w /\ dst e = x) \/ (src e = x /\ dst e = w)) ->
  connected ns E -> rooted ns E -> connected (ns ++ [x]) E /\ rooted (ns ++ [x]) E.
Proof.
  intros Hn Hx Hw He Hj Hc Hr.
  assert (Hwx : conn E w x).
  { destruct Hj as [[<- <-]|[<- <-]]; [apply conn_edge; auto|apply conn_sym, conn_edge; auto]. }
  assert (Hn' : NoDup (ns ++ [x])) by (apply NoDup_app_single; auto).
  split.
  - assert (Hz : forall z, In z (ns ++ [x]) -> conn E w z).
    { intros z Hz. apply in_app_or in Hz as [Hz|[<-|[]]]; auto. }
    intros y z Hy Hz'. eapply conn_trans; [apply conn_sym, Hz; exact Hy|auto].
  - intros v u Hv Hb Hne Hcv. apply in_app_or in Hv as [Hv|[<-|[]]].
    + assert (Hb' := before_app_old ns x u v Hn' Hv Hb). destruct (Hr v u Hv Hb' Hne Hcv) as (f & w' & Hf & Hbw & Hq).
      exists f, w'. split; auto. split; [apply before_app; auto|auto].
    + exists e, w. split; auto. split; [apply before_last; auto|]. split; [intros ->; auto|auto].
Qed.
