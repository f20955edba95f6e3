(** Attaching the resonators to the copy of the circuit succeeds for new names. *)
From Coq Require Import List Bool String Ascii Arith ZArith NArith Reals Permutation Lia.
From Verif Require Import Prelude PreludeFacts Param Expr Coll Mat Graph GraphSpec GraphView GraphForest GraphWf GraphState GraphMaps GraphOps GraphRooted GraphCircuit GraphProofs Symbolic SymbolicSpec SymbolicInv SymbolicCap SymbolicParam SymbolicInit Sweep Reson ResonSpec ResonProofs.
Import ListNotations.
Open Scope string_scope.
Open Scope list_scope.
Open Scope nat_scope.

Lemma rooted_fresh ns E x : NoDup (ns ++ [x]) -> (forall e, In e E -> In (src e) ns /\ In (dst e) ns) -> rooted ns E -> rooted (ns ++ [x]) E.
Proof.
  intros Hn HE H v u Hv Hb Hne Hc. apply in_app_or in Hv as [Hv|[<-|[]]].
  - destruct (H v u Hv (before_app_old ns x u v Hn Hv Hb) Hne Hc) as (e & w & H1 & H2 & H3 & H4). exists e, w. auto using before_app.
  - destruct (conn_nodes E u x ns HE Hc) as [|[_ Hx]]; [easy|]. exfalso. apply NoDup_remove in Hn as [_ Hn]. rewrite app_nil_r in Hn. auto.
Qed.
Lemma conn_pendant E x w k u v : conn (E ++ [(x, w, k)]) u v -> conn E (if Nat.eqb u x then w else u) (if Nat.eqb v x then w else v) \/ exists e, In e E /\ (src e = x \/ dst e = x).
Proof.
  intros H. induction H as [z|e y He Hc IH|e y He Hc IH].
  - left. constructor.
  - destruct IH as [IH|IH]; auto. apply in_app_or in He as [He|[<-|[]]].
    + destruct (Nat.eqb_spec (src e) x) as [E1|]; [right; eauto|]. destruct (Nat.eqb_spec (dst e) x) as [E1|]; [right; eauto|]. left. apply conn_fwd; auto.
    + cbn [src dst fst snd] in *. rewrite Nat.eqb_refl. left. destruct (Nat.eqb w x); auto.
  - destruct IH as [IH|IH]; auto. apply in_app_or in He as [He|[<-|[]]].
    + destruct (Nat.eqb_spec (src e) x) as [E1|]; [right; eauto|]. destruct (Nat.eqb_spec (dst e) x) as [E1|]; [right; eauto|]. left. apply conn_bwd; auto.
    + cbn [src dst fst snd] in *. rewrite Nat.eqb_refl in IH. left. destruct (Nat.eqb w x); auto.
Qed.
Lemma rooted_pendant ns E x w k : NoDup (ns ++ [x]) -> In w ns -> (forall e, In e E -> In (src e) ns /\ In (dst e) ns) -> rooted ns E -> rooted (ns ++ [x]) (E ++ [(x, w, k)]).
Proof.
  intros Hn Hw HE H v u Hv Hb Hne Hc. assert (Hx : ~ In x ns) by (apply NoDup_remove in Hn as [_ Hn]; rewrite app_nil_r in Hn; auto).
  apply in_app_or in Hv as [Hv|[<-|[]]].
  - assert (Hb' := before_app_old ns x u v Hn Hv Hb). destruct (before_In _ _ _ Hb') as [Hu _].
    destruct (conn_pendant E x w k u v Hc) as [Hc'|(e & He & Hx')]; [|exfalso; apply HE in He; destruct Hx'; subst x; tauto].
    destruct (Nat.eqb_spec u x); [subst; easy|]. destruct (Nat.eqb_spec v x); [subst; easy|].
    destruct (H v u Hv Hb' Hne Hc') as (e & z & H1 & H2 & H3 & H4). exists e, z. split; [apply in_or_app; auto|]. auto using before_app.
  - exists (x, w, k), w. split; [apply in_or_app; right; left; auto|]. split; [apply before_last; auto|]. split; [intros ->; auto|]. right. auto.
Qed.

(** Sets of nodes are iterated in the order of [ns]. *)
Lemma in_order_agrees o ns more E : in_order o (ns ++ more) -> NoDup (ns ++ more) -> agrees o ns E.
Proof.
  intros H Hn c Hc _ Hs _ _. rewrite H by (auto; intros; apply in_or_app; auto). rewrite filter_app.
  enough (F : filter (fun n => mem n c) more = []) by (rewrite F, app_nil_r; auto).
  assert (D : forall x, In x more -> In x c -> False).
  { intros x H1 H2. apply Hs in H2. clear -Hn H1 H2. induction ns as [|a l IH]; [easy|]. cbn in Hn. apply NoDup_cons_iff in Hn as [Ha Hn]. destruct H2 as [<-|H2]; [apply Ha, in_or_app; auto|auto]. }
  clear -D. induction more as [|x l IH]; auto. cbn. destruct (mem x c) eqn:E; [exfalso; apply mem_In in E; eapply D; [left|]; eauto|]. apply IH. intros; eapply D; eauto. right; auto.
Qed.

Lemma has_space_app a b : has_space (a ++ b) = has_space a || has_space b.
Proof. induction a as [|c a IH]; cbn; auto. rewrite IH, orb_assoc. auto. Qed.
Lemma digits_nospace n : has_space (nat_str n) = false.
Proof. apply nat_str_no_space. Qed.
Lemma add_all_ok names : Forall legal names -> forall st, exists st', add_all (map (fun v => (v, None)) names) st = (st', Ok tt).
Proof.
  unfold add_all, stepM. induction 1 as [|x l [H1 H2] Hl IH]; intros st; cbn [map fold_left]; eauto. unfold addParameter at 2. cbn [fst snd].
  destruct (dmem (c_coll st) x); [apply IH|]. destruct (param_default_ok x H1 H2) as (p & -> & _). apply IH.
Qed.
Lemma NoDup_app_remove_r {A} (l l' : list A) : NoDup (l ++ l') -> NoDup l.
Proof. induction l as [|x l IH]; [constructor|]. cbn. intros H. apply NoDup_cons_iff in H as [Hx H]. constructor; auto. intros Hi. apply Hx, in_or_app; auto. Qed.
Lemma starts_branch c : starts "C" c = true -> branch_name c = true /\ capacitive c = true.
Proof. destruct c as [|a r]; cbn; [discriminate|]. intros H. rewrite H. auto. Qed.

Lemma attach_success nsx : forall l o k next s st,
  (forall k, valid_orders (o k)) -> (forall k, in_order (o k) nsx) -> nsx = g_nodes (c_graph s) ++ seq next (List.length l) ->
  reachable s -> In 0 (g_nodes (c_graph s)) -> (forall n, In n (g_nodes (c_graph s)) -> n < next) ->
  (forall n r, In (n, r) l -> In n (g_nodes (c_graph s)) /\ starts "C" (r_coupling r) = true /\ starts "C" (r_Cr r) = true /\ starts "L" (r_Lr r) = true /\ Forall legal (resonator_vars r)) ->
  NoDup (component_names (c_graph s) ++ flat_map (fun x => res_names (snd x)) l) -> rooted (g_nodes (c_graph s)) (noncap (c_graph s)) ->
  exists e st', attach o k next l (s, st) = ((e, st'), Ok tt).
Proof.
  induction l as [|[n r] l IH]; intros o k next s st Ho Hord Hnsx Hr H0 Hlt Hl Hnd Hroot; [cbn; eauto|].
  destruct (Hl n r (or_introl eq_refl)) as (Hn & S1 & S2 & S3 & S4). destruct (reachable_wf s Hr) as [Hw Hv].
  assert (Hx : ~ In next (g_nodes (c_graph s))) by (intros Hx; apply Hlt in Hx; lia).
  assert (Hnn : NoDup (g_nodes (c_graph s) ++ [next])) by (apply NoDup_app_single; auto; apply Hw).
  assert (Hall : NoDup nsx).
  { subst nsx. apply NoDup_app'; [apply Hw|apply seq_NoDup|]. intros x H1 H2. apply Hlt in H1. apply in_seq in H2. lia. }
  assert (HE : forall e, In e (noncap (c_graph s)) -> In (src e) (g_nodes (c_graph s)) /\ In (dst e) (g_nodes (c_graph s))).
  { intros e He. unfold noncap in He. apply in_map_iff in He as (b & <- & Hb). apply filter_In in Hb as [Hb _]. apply (w_ends _ Hw b Hb). }
  assert (Hns : nsx = (g_nodes (c_graph s) ++ [next]) ++ seq (S next) (List.length l)) by (rewrite Hnsx, <- app_assoc; reflexivity).
  cbn [flat_map snd res_names] in Hnd.
  assert (ND1 := Hnd). apply NoDup_app_remove_r in ND1.
  assert (F1 : ~ In (r_coupling r) (component_names (c_graph s))).
  { intros H. apply (NoDup_app_disj' _ _ (r_coupling r) Hnd H). left; auto. }
  destruct (starts_branch _ S1) as [B1 C1]. destruct (starts_branch _ S2) as [B2 C2].
  assert (B3 : branch_name (r_Lr r) = true /\ capacitive (r_Lr r) = false).
  { clear -S3. destruct (r_Lr r) as [|a q]; cbn in *; [discriminate|]. apply Ascii.eqb_eq in S3. subst a. auto. }
  destruct B3 as [B3 C3].
  (* coupling capacitor *)
  destruct (rooted_success s (o k) n next (r_coupling r)) as (s1 & E1 & _); auto.
  { rewrite with_branch_added, nodes_added, (add_node_old n), add_node_new by auto. eapply in_order_agrees; [rewrite <- Hns; apply Hord|rewrite <- Hns; auto]. }
  { rewrite noncap_with, C1, app_nil_r, with_branch_added, nodes_added, (add_node_old n), add_node_new by auto. apply rooted_fresh; auto. }
  cbn [attach]. unfold with_branch_of at 1. cbn [fst snd]. rewrite E1. cbn [andthen].
  assert (R1 : reachable s1) by (assert (H := reach_step s (GBranch (o k) n next (r_coupling r)) Hr (Ho k)); cbn in H; rewrite E1 in H; auto).
  apply addBranch_ok in E1 as (V1 & G1 & _). assert (G1' := G1). rewrite <- with_branch_added in G1'.
  assert (N1 : g_nodes (c_graph s1) = g_nodes (c_graph s) ++ [next]) by (rewrite G1, nodes_added, (add_node_old n) by auto; apply add_node_new; auto).
  assert (P1 : component_names (c_graph s1) = component_names (c_graph s) ++ [r_coupling r]) by (rewrite G1'; unfold component_names, with_branch; cbn [g_edges]; rewrite map_app; auto).
  assert (Q1 : noncap (c_graph s1) = noncap (c_graph s)) by (rewrite G1', noncap_with, C1, app_nil_r; auto).
  assert (D1 : NoDup (component_names (c_graph s1) ++ [r_Cr r; r_Lr r] ++ flat_map (fun x => res_names (snd x)) l)) by (rewrite P1, <- app_assoc; exact Hnd).
  (* capacitor of the resonator *)
  destruct (rooted_success s1 (o (k + 1)) next 0 (r_Cr r)) as (s2 & E2 & _); auto.
  { apply NoDup_app_remove_r in D1. auto. }
  { intros H. apply (NoDup_app_disj' _ _ (r_Cr r) D1 H). left; auto. }
  { rewrite with_branch_added, nodes_added, N1, !add_node_old; rewrite ?add_node_old; try (apply in_or_app; cbn; auto; fail). eapply in_order_agrees; [rewrite <- Hns; apply Hord|rewrite <- Hns; auto]. }
  { rewrite noncap_with, C2, app_nil_r, with_branch_added, nodes_added, N1, Q1, !add_node_old; rewrite ?add_node_old; try (apply in_or_app; cbn; auto; fail). apply rooted_fresh; auto. }
  unfold with_branch_of at 1. cbn [fst snd]. rewrite E2. cbn [andthen].
  assert (R2 : reachable s2) by (assert (H := reach_step s1 (GBranch (o (k + 1)) next 0 (r_Cr r)) R1 (Ho _)); cbn in H; rewrite E2 in H; auto).
  apply addBranch_ok in E2 as (V2 & G2 & _). assert (G2' := G2). rewrite <- with_branch_added in G2'.
  assert (N2 : g_nodes (c_graph s2) = g_nodes (c_graph s) ++ [next]) by (rewrite G2, nodes_added, N1, !add_node_old; auto; rewrite ?add_node_old; apply in_or_app; cbn; auto).
  assert (P2 : component_names (c_graph s2) = component_names (c_graph s1) ++ [r_Cr r]) by (rewrite G2'; unfold component_names, with_branch; cbn [g_edges]; rewrite map_app; auto).
  assert (Q2 : noncap (c_graph s2) = noncap (c_graph s)) by (rewrite G2', noncap_with, C2, app_nil_r; auto).
  assert (D2 : NoDup (component_names (c_graph s2) ++ [r_Lr r] ++ flat_map (fun x => res_names (snd x)) l)) by (rewrite P2, <- app_assoc; exact D1).
  (* inductor of the resonator *)
  assert (RT : rooted (g_nodes (with_branch (c_graph s2) next 0 (r_Lr r))) (noncap (with_branch (c_graph s2) next 0 (r_Lr r)))).
  { rewrite noncap_with, C3, with_branch_added, nodes_added, N2, Q2, !add_node_old; rewrite ?add_node_old; try (apply in_or_app; cbn; auto; fail). apply rooted_pendant; auto. }
  destruct (rooted_success s2 (o (k + 2)) next 0 (r_Lr r)) as (s3 & E3 & _); auto.
  { apply NoDup_app_remove_r in D2. auto. }
  { intros H. apply (NoDup_app_disj' _ _ (r_Lr r) D2 H). left; auto. }
  { rewrite with_branch_added, nodes_added, N2, !add_node_old; rewrite ?add_node_old; try (apply in_or_app; cbn; auto; fail). eapply in_order_agrees; [rewrite <- Hns; apply Hord|rewrite <- Hns; auto]. }
  unfold with_branch_of at 1. cbn [fst snd]. rewrite E3. cbn [andthen].
  assert (R3 : reachable s3) by (assert (H := reach_step s2 (GBranch (o (k + 2)) next 0 (r_Lr r)) R2 (Ho _)); cbn in H; rewrite E3 in H; auto).
  apply addBranch_ok in E3 as (V3 & G3 & _). assert (G3' := G3). rewrite <- with_branch_added in G3'.
  assert (N3 : g_nodes (c_graph s3) = g_nodes (c_graph s) ++ [next]) by (rewrite G3, nodes_added, N2, !add_node_old; auto; rewrite ?add_node_old; apply in_or_app; cbn; auto).
  assert (P3 : component_names (c_graph s3) = component_names (c_graph s2) ++ [r_Lr r]) by (rewrite G3'; unfold component_names, with_branch; cbn [g_edges]; rewrite map_app; auto).
  unfold with_params. cbn [fst snd]. destruct (add_all_ok _ S4 st) as (st1 & ->). cbn [andthen].
  apply IH; auto.
  - rewrite N3. exact Hns.
  - rewrite N3. apply in_or_app; auto.
  - intros m. rewrite N3, in_app_iff. cbn [In]. intros [Hm|[<-|[]]]; [apply Hlt in Hm|]; lia.
  - intros m q Hm. destruct (Hl m q (or_intror Hm)) as (A & B). split; auto. rewrite N3. apply in_or_app; auto.
  - rewrite P3, <- app_assoc. exact D2.
  - rewrite G3'. exact RT.
Qed.

Lemma remove1_keep (x n : nat) l : n <> x -> In n l -> In n (remove1 x l).
Proof. intros Hn. induction l as [|a l IH]; [easy|]. cbn [remove1 In]. destruct (Nat.eqb_spec x a) as [E|]; intros [H|H]; subst; auto; [congruence|left|right]; auto. Qed.
Lemma letter_ok c n q : Ascii.eqb c " " = false -> has_space q = false -> legal (String c EmptyString ++ nat_str n ++ q).
Proof. intros H1 H2. split; [discriminate|]. cbn [append has_space]. rewrite H1, has_space_app, digits_nospace, H2. auto. Qed.
Lemma keys_subset_length (l : list nat) ns : NoDup l -> (forall x, In x l -> In x ns) -> List.length l <= List.length ns.
Proof. intros H1 H2. apply NoDup_incl_length; auto. Qed.
Theorem ext_success o s st : circuit s -> In 0 (g_nodes (c_graph s)) -> (forall k, valid_orders (o k)) ->
  (forall k, in_order (o k) (g_nodes (c_graph s) ++ seq (S (list_max (sys_nodes s))) (List.length (coupled_resonators s)))) ->
  rooted (g_nodes (c_graph s)) (noncap (c_graph s)) ->
  NoDup (component_names (c_graph s) ++ flat_map (fun x => res_names (snd x)) (coupled_resonators s)) ->
  (forall n r, In (n, r) (coupled_resonators s) -> has_space (r_coupling r) = false) -> coupled_resonators s <> [] ->
  exists e st', extended o s st = ((e, st'), Ok tt).
Proof.
  intros Hc H0 Ho Hord Hroot Hnd Hsp Hne. assert (Hr := circuit_reachable s Hc). assert (H3 := reachable_Inv3 s Hr). unfold extended, next_node.
  assert (HN : forall n, In n (g_nodes (c_graph s)) -> n < S (list_max (sys_nodes s))).
  { intros n Hn. destruct n as [|n]; [lia|]. apply list_max_lt. apply remove1_keep; [discriminate|auto]. }
  destruct (sys_nodes s) as [|x l] eqn:E.
  - exfalso. apply Hne. destruct (coupled_resonators s) as [|[n r] q] eqn:Eq; auto. exfalso.
    assert (Hi : In (n, r) (coupled_resonators s)) by (rewrite Eq; left; auto). rewrite <- resonators_spec in Hi. apply resonators_In in Hi.
    destruct (r_desc s H3 n r Hi) as (Hn & _). assert (Hk : In n (sys_nodes s)); [|rewrite E in Hk; easy].
    apply remove1_keep; auto. apply (r_keys s H3). apply in_map_iff. exists (n, Some r). auto.
  - rewrite resonators_spec. apply (attach_success (g_nodes (c_graph s) ++ seq (S (list_max (x :: l))) (List.length (coupled_resonators s)))); auto.
    + apply (reach_step s GRemoveRes Hr I).
    + intros n r Hi. assert (Hsp' := Hsp n r Hi). rewrite <- resonators_spec in Hi. apply resonators_In in Hi. destruct (r_desc s H3 n r Hi) as (Hn & S1 & S2 & S3 & S4).
      split; [apply (r_keys s H3), in_map_iff; exists (n, Some r); auto|]. split; auto. rewrite S2, S3, S4. split; [reflexivity|]. split; [reflexivity|].
      apply Forall_cons; [split; [|auto]; destruct (r_coupling r); [discriminate|discriminate]|].
      repeat (apply Forall_cons; [apply letter_ok; reflexivity|]). constructor.
Qed.

(** ** The place of a resonator in the extended circuit *)
Lemma at_node_app m l l' : at_node m (l ++ l') = at_node m l ++ at_node m l'.
Proof. apply filter_app. Qed.
Lemma at_node_none m l : (forall a b c, In (a, b, c) l -> a <> m /\ b <> m) -> at_node m l = [].
Proof.
  intros H. unfold at_node. induction l as [|[[a b] c] l IH]; auto. cbn [filter fst snd]. destruct (H a b c (or_introl eq_refl)) as [H1 H2].
  apply Nat.eqb_neq in H1, H2. rewrite H1, H2. cbn. apply IH. intros. apply (H _ _ c0). right; auto.
Qed.
Lemma at_node_new n m r : forall l next, m <> 0 -> 0 < next -> (forall x q, In (x, q) l -> x < next) -> In (n, m, r) (numbered next l) ->
  at_node m (flat_map new_branches (numbered next l)) = new_branches (n, m, r).
Proof.
  induction l as [|[x q] l IH]; intros next Hm Hp Hl Hi; [easy|]. cbn [numbered flat_map]. rewrite at_node_app. cbn in Hi. destruct Hi as [E|Hi].
  - injection E as -> -> ->. assert (Hn : n < m) by (apply (Hl n r); left; auto).
    rewrite (at_node_none m (flat_map _ _)).
    + rewrite app_nil_r. unfold at_node. cbn [new_branches filter fst snd]. rewrite !Nat.eqb_refl, orb_true_r. reflexivity.
    + intros a b c H. apply in_flat_map in H as ([[x y] q] & H & Hb). assert (Hy := numbered_range _ _ _ _ _ H). apply numbered_list in H. assert (x < m) by (eapply Hl; right; eauto).
      cbn in Hb. destruct Hb as [Hb|[Hb|[Hb|[]]]]; injection Hb as <- <- <-; lia.
  - assert (Hy := numbered_range _ _ _ _ _ Hi). assert (x < next) by (eapply Hl; left; eauto). rewrite (at_node_none m (new_branches _)).
    + cbn [app]. apply IH; auto. intros y z Hyz. assert (y < next) by (eapply Hl; right; eauto). lia.
    + intros a b c Hb. cbn in Hb. destruct Hb as [Hb|[Hb|[Hb|[]]]]; injection Hb as <- <- <-; lia.
Qed.
Theorem indices_place o s st e st' d n i j r : circuit s -> In 0 (g_nodes (c_graph s)) -> (forall k, valid_orders (o k)) -> extended o s st = ((e, st'), Ok tt) ->
  coupled_indices s e = Ok d -> In (n, (i, j)) d -> In (n, r) (coupled_resonators s) ->
  i < List.length (sys_nodes s) /\ nth i (sys_nodes s) 0 = n /\
  exists m, j < List.length (sys_nodes e) /\ nth j (sys_nodes e) 0 = m /\ ~ In m (g_nodes (c_graph s)) /\
    at_node m (ends (c_graph e)) = [(n, m, r_coupling r); (m, 0, r_Cr r); (m, 0, r_Lr r)].
Proof.
  intros Hc H0 Ho He Hd Hi Hr. destruct (index_small o s st e st' Ho Hc H0 He d n i j r Hd Hi Hr) as [I1 I2]. split; auto. split; auto.
  destruct (indices_spec o s st e st' Hc He d n i j r Hd Hi Hr) as (next & m & Hk & Hx & E1 & E2). exists m.
  destruct (ext_at o s st e st' Ho Hc H0 He next Hk) as (Hp & Hlt & _ & _ & _ & Hb & _). assert (Hm := numbered_range _ _ _ _ _ Hx).
  apply (index_of_spec _ _ 0) in E2 as [J1 J2]. split; auto. split; auto. split; [intros H; apply Hlt in H; lia|].
  change (ends (c_graph e)) with (map strip (g_edges (c_graph e))). rewrite Hb, at_node_app, (at_node_none m (map strip _)).
  - apply at_node_new; auto; [lia|]. intros x q H. apply resonators_In in H. apply Hlt, (r_keys s (reachable_Inv3 s (circuit_reachable s Hc))). apply (in_map fst _ _ H).
  - intros a b c H. apply in_map_iff in H as (br & E & H). unfold strip in E. injection E as <- <- <-.
    destruct (reachable_wf s (circuit_reachable s Hc)) as [Hw _]. destruct (w_ends _ Hw br H) as [K1 K2]. apply Hlt in K1, K2. lia.
Qed.
Theorem ext_branches o s st e st' : circuit s -> In 0 (g_nodes (c_graph s)) -> (forall k, valid_orders (o k)) -> extended o s st = ((e, st'), Ok tt) ->
  circuit e /\ coupled_resonators e = [] /\ c_cbias e = c_cbias s /\ c_fbias e = c_fbias s /\ c_coupled e = c_coupled s /\
  exists more new, g_nodes (c_graph e) = g_nodes (c_graph s) ++ more /\ List.length more = List.length (coupled_resonators s) /\ NoDup more /\ ends (c_graph e) = ends (c_graph s) ++ new /\
    forall a b c, In (a, b, c) new -> exists n r m, In (n, r) (coupled_resonators s) /\ In m more /\ In (a, b, c) [(n, m, r_coupling r); (m, 0, r_Cr r); (m, 0, r_Lr r)].
Proof.
  intros Hc H0 Ho He. destruct (the_next o s st e st' Hc He) as (next & Hk). destruct (ext_at o s st e st' Ho Hc H0 He next Hk) as (Hp & Hlt & Hce & Hn & Hnodes & Hb & B1 & B2 & B3).
  split; auto. split; [apply (no_res_nil o s st e st' Ho Hc H0 He next Hk)|]. split; auto. split; auto. split; auto. do 2 eexists. split; [exact Hnodes|]. split; [apply seq_length|]. split; [apply seq_NoDup|].
  split; [exact Hb|]. intros a b c H. apply in_flat_map in H as ([[n m] r] & H & Hi). exists n, r, m. split; [apply numbered_list in H; auto|]. split; [apply in_seq, (numbered_range _ _ _ _ _ H)|]. exact Hi.
Qed.
