(** Circuits with resonators: the extended circuit and its matrices. *)
From Coq Require Import List Bool String Ascii Arith ZArith Reals Permutation Lia Lra.
From Verif Require Import Prelude PreludeFacts Param Expr Coll Mat MatFacts Graph GraphSpec GraphView GraphForest GraphWf GraphState GraphMaps GraphOps GraphProofs Symbolic SymbolicSpec RSum SymbolicInv SymbolicCap SymbolicCap2 SymbolicFlux SymbolicProofs Sweep Reson.
Import ListNotations.
Open Scope string_scope.
Open Scope list_scope.
Open Scope nat_scope.

(** ** The resonators of a circuit graph *)
Record Inv3 (s : cg) : Prop := {
  r_keys : forall n, In n (dkeys (c_res s)) -> In n (g_nodes (c_graph s));
  r_desc : forall n r, In (n, Some r) (c_res s) -> n <> 0 /\ starts "C" (r_coupling r) = true /\ r_Cr r = ("C" ++ nat_str n ++ "r")%string /\ r_Lr r = ("L" ++ nat_str n ++ "r")%string /\
    resonator_vars r = [r_coupling r; "f" ++ nat_str n ++ "r"; "Z" ++ nat_str n ++ "r"; "C" ++ nat_str n ++ "r"; "L" ++ nat_str n ++ "r"; "g" ++ nat_str n ++ "r"; "f" ++ nat_str n ++ "rl"; "Z" ++ nat_str n ++ "rl"]%string
}.
Lemma In_dset {K V} `{EqB K} (d : dict K V) k v x : In x (dset d k v) -> x = (k, v) \/ In x d.
Proof.
  induction d as [|[k' v'] d IH]; cbn [dset]; [intros [<-|[]]; auto|]. destruct (eqb k k') eqn:E.
  - apply (proj1 (eqb_eq _ _)) in E. subst. intros [<-|Hx]; cbn; auto.
  - intros [<-|Hx]; cbn; auto. apply IH in Hx. tauto.
Qed.
Lemma ensure_res_In d n x : In x (ensure_res d n) -> x = (n, None) \/ In x d.
Proof. unfold ensure_res. destruct (dmem d n); auto. apply In_dset. Qed.
Lemma remove_In l : forall (d : dict nat (option resonator)) n r, In (n, Some r) (fold_left (fun d n => dset d n None) l d) -> In (n, Some r) d.
Proof. induction l as [|x l IH]; intros d n r H; cbn [fold_left] in H; auto. apply IH in H. apply In_dset in H as [H|H]; auto. discriminate. Qed.
Lemma remove_keys l : forall (d : dict nat (option resonator)) n, In n (dkeys (fold_left (fun d n => dset d n None) l d)) -> In n l \/ In n (dkeys d).
Proof. induction l as [|x l IH]; intros d n H; cbn [fold_left] in H; auto. apply IH in H as [H|H]; [left; right; auto|]. apply In_dkeys_dset in H as [->|H]; cbn; auto. Qed.

Lemma gstep_Inv3 s o : Inv3 s -> Inv3 (fst (gstep s o)).
Proof.
  intros [H1 H2]. destruct o as [oo a b c|i1 i2 m|n c| |c sfx m|n sfx c]; cbn [gstep].
  - destruct (addBranch_cases oo s a b c) as [(_ & e & E)|[(_ & _ & E)|(_ & _ & E)]]; rewrite E; [split; auto| |].
    + split; cbn [fst set_graph c_res c_graph]; auto. intros n Hn. unfold added, add_edge. cbn [fst g_nodes]. rewrite !add_node_In. auto.
    + destruct (update_graph_same oo (set_graph s (added s a b c) (both_ways (edge_map (added s a b c))))) as (U1 & _ & _ & _ & U5 & _).
      destruct (update_graphs _ _) as [s1 [[]|e]]; cbn [fst set_res c_res c_graph set_graph] in *; split; cbn [set_res c_res c_graph]; rewrite ?U1, ?U5; unfold added, add_edge; cbn [fst g_nodes].
      * intros n. rewrite !ensure_res_keys, !add_node_In. intuition.
      * intros n r H. apply ensure_res_In in H as [H|H]; [discriminate|]. apply ensure_res_In in H as [H|H]; [discriminate|]. auto.
      * intros n. rewrite !add_node_In. auto.
      * auto.
  - destruct (couple_result s i1 i2 m) as [(p & -> & Hm & Hs)|(x & ->)]; split; auto.
  - unfold coupleResonator. destruct (negb (mem n _)) eqn:En; [split; auto|]. destruct (Nat.eqb_spec n 0) as [|Hn0]; [split; auto|]. destruct (dget (c_res s) n) as [[r|]|]; try (split; auto; fail).
    destruct c as [|ch c]; [split; auto|]. destruct (negb (capacitive _)) eqn:Ec; [split; auto|]. destruct (mem (String ch c) _); [split; auto|].
    apply negb_false_iff in En, Ec. apply mem_In in En. split; cbn [fst set_res c_res c_graph].
    + intros k Hk. apply In_dkeys_dset in Hk as [->|Hk]; auto.
    + intros k r Hr. apply In_dset in Hr as [Hr|Hr]; auto. injection Hr as -> ->. cbn [r_coupling r_Cr r_Lr]. auto.
  - split; cbn [fst removeAllResonators set_res c_res c_cbias c_graph].
    + intros n Hn. apply remove_keys in Hn as [Hn|Hn]; auto.
    + intros n r Hn. apply remove_In in Hn. auto.
  - destruct (flux_result s c sfx m) as [(e & b & -> & Hd & Hs & _)|(x & ->)]; split; auto.
  - destruct (charge_result s n sfx c) as [(b & E & Hd & Hs)|(x & ->)]; [rewrite E|]; split; auto.
Qed.
Lemma reachable_Inv3 s : reachable s -> Inv3 s.
Proof. induction 1; [split; cbn; easy|apply gstep_Inv3; auto]. Qed.

Lemma resonators_In s n r : In (n, r) (resonators s) <-> In (n, Some r) (c_res s).
Proof.
  unfold resonators. rewrite in_flat_map. split.
  - intros ([m [q|]] & H & Hi); cbn in Hi; [|easy]. destruct Hi as [E|[]]. injection E as <- <-. auto.
  - intros H. exists (n, Some r). split; auto. cbn. auto.
Qed.
Lemma resonators_spec s : resonators s = coupled_resonators s. Proof. reflexivity. Qed.
Lemma removed_none s : reachable s -> forall x, In x (dvals (c_res (removeAllResonators s))) -> x = None.
Proof.
  intros Hr x Hx. apply in_map_iff in Hx as ([n [r|]] & <- & Hx); auto. exfalso.
  assert (Hk : NoDup (dkeys (c_res (removeAllResonators s)))) by (apply (j_rk _ (reachable_Inv2 _ (reach_step s GRemoveRes Hr I)))).
  assert (Hd : dget (c_res (removeAllResonators s)) n = Some (Some r)) by (apply In_dget; auto).
  assert (E := remove_res s n _ (reachable_Inv s Hr) Hd). discriminate.
Qed.

(** ** One more branch *)
Lemma addBranch_ok o s a b c s' : addBranch o s a b c = (s', Ok tt) ->
  valid_name c = true /\ c_graph s' = added s a b c /\ c_res s' = ensure_res (ensure_res (c_res s) a) b /\
  c_cbias s' = c_cbias s /\ c_fbias s' = c_fbias s /\ c_coupled s' = c_coupled s.
Proof.
  intros H. assert (K := branch_keeps o s a b c). rewrite H in K. cbn [fst] in K. destruct K as (K1 & K2 & K3 & _).
  destruct (addBranch_cases o s a b c) as [(_ & e & E)|[(_ & _ & E)|(V & _ & E)]]; rewrite E in H; try discriminate.
  destruct (update_graph_same o (set_graph s (added s a b c) (both_ways (edge_map (added s a b c))))) as (U1 & _ & _ & _ & U5 & _).
  destruct (update_graphs _ _) as [s1 [[]|e]]; [|discriminate]. injection H as <-. cbn [fst set_res c_res c_graph set_graph] in *. rewrite U1, U5. auto 10.
Qed.

(** ** The extended circuit *)
Definition strip (b : branch) : nat * nat * string := (src (fst b), dst (fst b), snd b).
Fixpoint numbered (next : nat) (l : list (nat * resonator)) : list (nat * nat * resonator) :=
  match l with [] => [] | (n, r) :: l => (n, next, r) :: numbered (S next) l end.
Definition new_branches (x : nat * nat * resonator) : list (nat * nat * string) :=
  let '(n, m, r) := x in [(n, m, r_coupling r); (m, 0, r_Cr r); (m, 0, r_Lr r)].
Lemma strip_added s a b c : map strip (g_edges (added s a b c)) = map strip (g_edges (c_graph s)) ++ [(a, b, c)].
Proof. unfold added, add_edge. cbn [fst g_edges]. rewrite map_app. reflexivity. Qed.
Lemma nodes_added s a b c : g_nodes (added s a b c) = add_node b (add_node a (g_nodes (c_graph s))).
Proof. reflexivity. Qed.
Lemma add_node_old n l : In n l -> add_node n l = l.
Proof. intros H. unfold add_node. rewrite (proj2 (mem_In _ _) H). auto. Qed.
Lemma add_node_new n l : ~ In n l -> add_node n l = l ++ [n].
Proof. intros H. unfold add_node. destruct (mem n l) eqn:E; auto. apply mem_In in E. easy. Qed.
Definition no_res (s : cg) : Prop := forall n x, In (n, x) (c_res s) -> x = None.
Lemma ensure_no_res d a : (forall (n : nat) (x : option resonator), In (n, x) d -> x = None) -> forall n x, In (n, x) (ensure_res d a) -> x = None.
Proof. intros H n x Hx. apply ensure_res_In in Hx as [E|Hx]; eauto. congruence. Qed.

Lemma attach_ok o : (forall k, valid_orders (o k)) -> forall l k next s st e st',
  circuit s -> no_res s -> In 0 (g_nodes (c_graph s)) -> (forall n, In n (g_nodes (c_graph s)) -> n < next) ->
  (forall n r, In (n, r) l -> In n (g_nodes (c_graph s))) ->
  attach o k next l (s, st) = ((e, st'), Ok tt) ->
  circuit e /\ no_res e /\ g_nodes (c_graph e) = g_nodes (c_graph s) ++ seq next (List.length l) /\
  map strip (g_edges (c_graph e)) = map strip (g_edges (c_graph s)) ++ flat_map new_branches (numbered next l) /\
  c_cbias e = c_cbias s /\ c_fbias e = c_fbias s /\ c_coupled e = c_coupled s.
Proof.
  intros Ho. induction l as [|[n r] l IH]; intros k next s st e st' Hc Hr H0 Hlt Hl.
  - cbn [attach]. intros [= <- <-]. cbn [List.length seq numbered flat_map]. rewrite !app_nil_r. auto 10.
  - cbn [attach]. unfold with_branch_of at 1. cbn [fst snd].
    destruct (addBranch (o k) s n next (r_coupling r)) as [s1 [[]|x]] eqn:E1; cbn [andthen]; [|discriminate].
    unfold with_branch_of at 1. cbn [fst snd]. destruct (addBranch (o (k + 1)) s1 next 0 (r_Cr r)) as [s2 [[]|x]] eqn:E2; cbn [andthen]; [|discriminate].
    unfold with_branch_of at 1. cbn [fst snd]. destruct (addBranch (o (k + 2)) s2 next 0 (r_Lr r)) as [s3 [[]|x]] eqn:E3; cbn [andthen]; [|discriminate].
    unfold with_params. cbn [fst snd]. destruct (add_all _ st) as [st1 [[]|x]] eqn:E4; cbn [andthen]; [|discriminate].
    assert (C1 : circuit s1) by (eapply circ_branch; eauto using circuit_reachable).
    assert (C2 : circuit s2) by (eapply circ_branch; eauto using circuit_reachable).
    assert (C3 : circuit s3) by (eapply circ_branch; eauto using circuit_reachable).
    apply addBranch_ok in E1 as (V1 & G1 & R1 & A1 & B1 & D1). apply addBranch_ok in E2 as (V2 & G2 & R2 & A2 & B2 & D2). apply addBranch_ok in E3 as (V3 & G3 & R3 & A3 & B3 & D3).
    assert (Hn : In n (g_nodes (c_graph s))) by (apply (Hl n r); left; auto).
    assert (Hx : ~ In next (g_nodes (c_graph s))) by (intros Hx; apply Hlt in Hx; lia).
    assert (N1 : g_nodes (c_graph s1) = g_nodes (c_graph s) ++ [next]) by (rewrite G1, nodes_added, (add_node_old n) by auto; apply add_node_new; auto).
    assert (N2 : g_nodes (c_graph s2) = g_nodes (c_graph s) ++ [next]) by (rewrite G2, nodes_added, N1, !add_node_old; auto; rewrite ?add_node_old; apply in_or_app; cbn; auto).
    assert (N3 : g_nodes (c_graph s3) = g_nodes (c_graph s) ++ [next]) by (rewrite G3, nodes_added, N2, !add_node_old; auto; rewrite ?add_node_old; apply in_or_app; cbn; auto).
    intros E. apply IH in E; auto.
    + destruct E as (P1 & P2 & P3 & P4 & P5 & P6 & P7). split; auto. split; auto. cbn [List.length seq numbered flat_map]. rewrite P3, P4, N3, <- app_assoc. split; [reflexivity|]. split; [|split; [congruence|split; congruence]].
      rewrite G3, strip_added, G2, strip_added, G1, strip_added, <- !app_assoc. reflexivity.
    + unfold no_res. rewrite R3, R2, R1. repeat apply ensure_no_res. exact Hr.
    + rewrite N3. apply in_or_app; auto.
    + intros m. rewrite N3, in_app_iff. cbn [In]. intros [Hm|[<-|[]]]; [apply Hlt in Hm|]; lia.
    + intros m q Hm. rewrite N3. apply in_or_app. left. apply (Hl m q). right; auto.
Qed.
Lemma remove_circuit s : circuit s -> circuit (removeAllResonators s).
Proof. intros H. apply (circ_other s GRemoveRes H eq_refl). Qed.
Lemma list_max_lt l n : In n l -> n < S (list_max l).
Proof. intros H. assert (F : Forall (fun k => k <= list_max l) l) by (apply list_max_le; auto). rewrite Forall_forall in F. apply F in H. lia. Qed.
(** ** Inverses *)
Definition vec (nodes : list nat) (K : nat -> nat -> R) (c n : nat) : R := match index_of n nodes with Ok i => K i c | Err _ => 0%R end.
Lemma vec_nth nodes K c i : NoDup nodes -> i < List.length nodes -> vec nodes K c (nth i nodes 0) = K i c.
Proof.
  intros Hn Hi. unfold vec. destruct (index_of_total (nth i nodes 0) nodes) as (k & E); [apply nth_In; auto|]. rewrite E. apply (index_of_spec _ _ 0) in E as [Hk E].
  apply (NoDup_nth nodes 0) in E; auto. all: congruence.
Qed.
Lemma vec_out nodes K c n : ~ In n nodes -> vec nodes K c n = 0%R.
Proof. intros H. unfold vec. destruct (index_of n nodes) as [i|] eqn:E; auto. apply (index_of_spec _ _ 0) in E as [Hi E]. exfalso. apply H. rewrite <- E. apply nth_In; auto. Qed.
Lemma form_inverse nodes M K y c : NoDup nodes -> inverse (List.length nodes) M K -> c < List.length nodes -> form nodes M y (vec nodes K c) = y (nth c nodes 0).
Proof.
  intros Hn HK Hc. unfold form. rewrite (@sumn_single R_rng _ c _ Hc).
  - transitivity (y (nth c nodes 0%nat) * mmul (A := R_rng) (List.length nodes) M K c c)%R.
    + unfold mmul. rewrite (@sumn_mul_l R_rng). apply (@sumn_ext R_rng). intros j Hj. rewrite vec_nth by auto. cbn. ring.
    + rewrite (proj1 (HK c c Hc Hc)). unfold mid, delta. rewrite Nat.eqb_refl. cbn. ring.
  - intros i Hi Hne. transitivity (y (nth i nodes 0%nat) * mmul (A := R_rng) (List.length nodes) M K i c)%R.
    + unfold mmul. rewrite (@sumn_mul_l R_rng). apply (@sumn_ext R_rng). intros j Hj. rewrite vec_nth by auto. cbn. ring.
    + rewrite (proj1 (HK i c Hi Hc)). unfold mid, delta. destruct (Nat.eqb_spec i c); [easy|]. cbn. ring.
Qed.
Lemma inverse_sym n M K : inverse n M K -> (forall i j, i < n -> j < n -> M i j = M j i) -> forall i j, i < n -> j < n -> K i j = K j i.
Proof.
  intros HK HM i j Hi Hj.
  (* K^T = K^T (M K) = (K M)^T... *)
  assert (T : forall a b, a < n -> b < n -> mmul (A := R_rng) n (mtr (A := R_rng) K) M a b = mid (A := R_rng) a b).
  { intros a b Ha Hb. transitivity (mmul (A := R_rng) n M K b a).
    - unfold mmul, mtr. apply (@sumn_ext R_rng). intros k Hk. rewrite (HM k b) by auto. cbn. ring.
    - rewrite (proj1 (HK b a Hb Ha)). unfold mid, delta. rewrite Nat.eqb_sym. auto. }
  transitivity (mmul (A := R_rng) n (mmul (A := R_rng) n (mtr (A := R_rng) K) M) K i j).
  - rewrite (mmul_ext n _ (mid (A := R_rng)) K K i j) by auto. rewrite mmul_id_l by auto. reflexivity.
  - rewrite mmul_assoc. rewrite (mmul_ext n (mtr (A := R_rng) K) (mtr (A := R_rng) K) _ (mid (A := R_rng)) i j) by (auto; intros k Hk; apply HK; auto). rewrite mmul_id_r by auto. reflexivity.
Qed.

Section Ext.
  Variables (o : nat -> orders) (s : cg) (st : cst tree_alg) (e : cg) (st' : cst tree_alg).
  Hypothesis Ho : forall k, valid_orders (o k).
  Hypothesis Hc : circuit s.
  Hypothesis H0 : In 0 (g_nodes (c_graph s)).
  Hypothesis He : extended o s st = ((e, st'), Ok tt).
  Let HD : Derived s := circuit_derived s Hc.
  Lemma ext_next : exists next, next_node s = Ok next /\ next > 0 /\ (forall n, In n (g_nodes (c_graph s)) -> n < next).
  Proof.
    unfold extended in He. destruct (next_node s) as [next|] eqn:E; [|discriminate]. exists next. split; auto. unfold next_node in E.
    assert (Hn : next = S (list_max (sys_nodes s))) by (destruct (sys_nodes s); [discriminate|congruence]). split; [lia|]. intros n Hn'. subst next.
    destruct (Nat.eq_dec n 0) as [->|Hz]; [lia|]. apply list_max_lt. apply (nodes_In _ s HD eq_refl). auto.
  Qed.
  Lemma ext_ok : exists next, next_node s = Ok next /\ next > 0 /\ (forall n, In n (g_nodes (c_graph s)) -> n < next) /\
    circuit e /\ no_res e /\ g_nodes (c_graph e) = g_nodes (c_graph s) ++ seq next (List.length (resonators s)) /\
    map strip (g_edges (c_graph e)) = map strip (g_edges (c_graph s)) ++ flat_map new_branches (numbered next (resonators s)) /\
    c_cbias e = c_cbias s /\ c_fbias e = c_fbias s /\ c_coupled e = c_coupled s.
  Proof.
    destruct ext_next as (next & E & Hp & Hlt). exists next. split; auto. split; auto. split; auto. unfold extended in He. rewrite E in He.
    assert (H := attach_ok o Ho (resonators s) 0 next (removeAllResonators s) st e st' (remove_circuit s Hc)). apply H; auto; clear H.
    - intros n x Hx. apply (removed_none s (circuit_reachable s Hc)). apply (in_map snd _ _ Hx).
    - intros n r Hr. apply resonators_In in Hr. apply (r_keys s (reachable_Inv3 s (circuit_reachable s Hc))). apply (in_map fst _ _ Hr).
  Qed.
  Definition letter3 (a : ascii) (t : nat * nat * string) : bool := match snd t with String c _ => Ascii.eqb c a | EmptyString => false end.
  Lemma strip_filter a g : map strip (branches_of a g) = filter (letter3 a) (map strip (g_edges g)).
  Proof. unfold branches_of. induction (g_edges g) as [|b l IH]; auto. cbn [filter map]. change (letter3 a (strip b)) with (letter a b). destruct (letter a b); cbn [map]; rewrite IH; auto. Qed.
  Lemma res_named n m r next : In (n, m, r) (numbered next (resonators s)) -> In (n, r) (resonators s).
  Proof. generalize (resonators s). intros l. revert next. induction l as [|[n' r'] l IH]; intros next; [easy|]. cbn. intros [E|H]; [injection E as -> -> ->; auto|right; eauto]. Qed.
  Lemma numbered_range n m r : forall l next, In (n, m, r) (numbered next l) -> next <= m < next + List.length l.
  Proof. induction l as [|[n' r'] l IH]; intros next; [easy|]. cbn. intros [E|H]; [injection E as -> -> ->; lia|apply IH in H; lia]. Qed.
  Lemma new_C next : forall l, (forall n r, In (n, r) l -> In (n, r) (resonators s)) -> filter (letter3 "C") (flat_map new_branches (numbered next l)) =
    flat_map (fun x => let '(n, m, r) := x in [(n, m, r_coupling r); (m, 0, r_Cr r)]) (numbered next l).
  Proof.
    intros l. revert next. induction l as [|[n r] l IH]; intros next H; auto. cbn [numbered flat_map]. rewrite filter_app, IH by (intros; apply H; right; auto). f_equal.
    destruct (r_desc s (reachable_Inv3 s (circuit_reachable s Hc)) n r) as (_ & K1 & K2 & K3 & _); [apply resonators_In, H; left; auto|].
    cbn [new_branches filter]. unfold letter3. cbn [snd]. rewrite K2, K3. unfold starts in K1. destruct (r_coupling r); [discriminate|]. rewrite K1. reflexivity.
  Qed.
  Lemma new_L next : forall l, (forall n r, In (n, r) l -> In (n, r) (resonators s)) -> filter (letter3 "L") (flat_map new_branches (numbered next l)) =
    flat_map (fun x => let '(n, m, r) := x in [(m, 0, r_Lr r)]) (numbered next l).
  Proof.
    intros l. revert next. induction l as [|[n r] l IH]; intros next H; auto. cbn [numbered flat_map]. rewrite filter_app, IH by (intros; apply H; right; auto). f_equal.
    destruct (r_desc s (reachable_Inv3 s (circuit_reachable s Hc)) n r) as (_ & K1 & K2 & K3 & _); [apply resonators_In, H; left; auto|].
    cbn [new_branches filter]. unfold letter3. cbn [snd]. rewrite K2, K3. unfold starts in K1. destruct (r_coupling r) as [|a q]; [discriminate|]. destruct (Ascii.eqb_spec a "L") as [->|]; [discriminate K1|]. reflexivity.
  Qed.
  Variable next : nat.
  Hypothesis Hnext : next_node s = Ok next.
  Lemma ext_at : next > 0 /\ (forall n, In n (g_nodes (c_graph s)) -> n < next) /\
    circuit e /\ no_res e /\ g_nodes (c_graph e) = g_nodes (c_graph s) ++ seq next (List.length (resonators s)) /\
    map strip (g_edges (c_graph e)) = map strip (g_edges (c_graph s)) ++ flat_map new_branches (numbered next (resonators s)) /\
    c_cbias e = c_cbias s /\ c_fbias e = c_fbias s /\ c_coupled e = c_coupled s.
  Proof. destruct ext_ok as (k & E & H). rewrite Hnext in E. injection E as <-. exact H. Qed.
  Lemma sum_C (f : nat * nat * string -> R) : Rsum (map (fun b => f (strip b)) (branches_of "C" (c_graph e))) =
    (Rsum (map (fun b => f (strip b)) (branches_of "C" (c_graph s))) +
     Rsum (map (fun x => let '(n, m, r) := x in f (n, m, r_coupling r) + f (m, 0%nat, r_Cr r)) (numbered next (resonators s))))%R.
  Proof.
    destruct ext_at as (_ & _ & _ & _ & _ & E & _). rewrite <- !(map_map strip f), !strip_filter, E, filter_app, map_app, Rsum_app, new_C by auto. f_equal.
    rewrite Rsum_flat_map. apply Rsum_ext. intros [[n m] r] _. rs. ring.
  Qed.
  Lemma sum_L (f : nat * nat * string -> R) : Rsum (map (fun b => f (strip b)) (branches_of "L" (c_graph e))) =
    (Rsum (map (fun b => f (strip b)) (branches_of "L" (c_graph s))) + Rsum (map (fun x => let '(n, m, r) := x in f (m, 0%nat, r_Lr r)) (numbered next (resonators s))))%R.
  Proof.
    destruct ext_at as (_ & _ & _ & _ & _ & E & _). rewrite <- !(map_map strip f), !strip_filter, E, filter_app, map_app, Rsum_app, new_L by auto. f_equal.
    rewrite Rsum_flat_map. apply Rsum_ext. intros [[n m] r] _. rs. ring.
  Qed.
  Lemma no_res_nil : coupled_resonators e = [].
  Proof.
    destruct ext_at as (_ & _ & _ & H & _). unfold coupled_resonators. unfold no_res in H. revert H. induction (c_res e) as [|[n x] l IH]; intros H; auto. cbn [flat_map].
    rewrite (H n x) by (left; auto). cbn. apply IH. intros. eapply H; right; eauto.
  Qed.
  Lemma gates_same : gates e = gates s.
  Proof. destruct ext_at as (_ & _ & _ & _ & _ & _ & H & _). unfold gates. rewrite H. auto. Qed.
  Variable val : string -> R.
  (** the electrostatic form without resonators *)
  Definition bare (y x : nat -> R) : R :=
    (Rsum (map (fun b => let '((p, q, _), c) := b in val c * (y p - y q) * (x p - x q)) (branches_of "C" (c_graph s))) +
     Rsum (map (fun g => val (snd g) * y (fst g) * x (fst g)) (gates s)))%R.
  Lemma ext_electro y x : y 0 = 0%R -> x 0 = 0%R -> electrostatic val e y x = (bare y x +
    Rsum (map (fun t => let '(n, m, r) := t in val (r_coupling r) * (y n - y m) * (x n - x m) + val (r_Cr r) * y m * x m) (numbered next (resonators s))))%R.
  Proof.
    intros Hy Hx. unfold electrostatic, bare. rewrite no_res_nil, gates_same. rs.
    pose (F := fun t : nat * nat * string => (val (snd t) * (y (fst (fst t)) - y (snd (fst t))) * (x (fst (fst t)) - x (snd (fst t))))%R).
    rewrite (Rsum_ext _ (fun b => F (strip b)) (branches_of "C" (c_graph e))) by (intros [[[p q] k] c] _; reflexivity).
    rewrite (Rsum_ext _ (fun b => F (strip b)) (branches_of "C" (c_graph s))) by (intros [[[p q] k] c] _; reflexivity).
    rewrite (sum_C F).
    match goal with |- (?a + ?u + ?g + 0 = ?a + ?g + ?v)%R => enough (E : u = v) by (rewrite E; ring) end.
    apply Rsum_ext. intros [[n m] r] _. unfold F. cbn [fst snd]. rewrite Hy, Hx. ring.
  Qed.
  Lemma self_electro y x : self_capacitors val e y x = self_capacitors val s y x.
  Proof.
    unfold self_capacitors.
    pose (F := fun t : nat * nat * string => (if Nat.eqb (fst (fst t)) (snd (fst t)) then val (snd t) * (y (fst (fst t)) * x (fst (fst t))) else 0)%R).
    rewrite (Rsum_ext _ (fun b => F (strip b)) (branches_of "C" (c_graph e))) by (intros [[[p q] k] c] _; reflexivity).
    rewrite (Rsum_ext _ (fun b => F (strip b)) (branches_of "C" (c_graph s))) by (intros [[[p q] k] c] _; reflexivity).
    rewrite (sum_C F). match goal with |- (?a + ?u = _)%R => enough (E : u = 0%R) by (rewrite E; ring) end. apply Rsum_map_0. intros [[n m] r] Hi. unfold F. cbn [fst snd].
    destruct ext_at as (Hp & Hlt & _). assert (Hm := numbered_range _ _ _ _ _ Hi). apply res_named, resonators_In in Hi.
    assert (Hn : n < next) by (apply Hlt, (r_keys s (reachable_Inv3 s (circuit_reachable s Hc))), (in_map fst _ _ Hi)).
    destruct (Nat.eqb_spec n m); [lia|]. destruct (Nat.eqb_spec m 0); [lia|]. ring.
  Qed.
  (** *** Nodes *)
  Lemma sys_ext : sys_nodes e = sys_nodes s ++ seq next (List.length (resonators s)).
  Proof.
    destruct ext_at as (_ & _ & _ & _ & E & _). unfold sys_nodes. rewrite E. revert H0. generalize (g_nodes (c_graph s)) as l. induction l as [|x l IH]; intros Hi; [easy|].
    destruct x as [|x]; auto. cbn. f_equal. apply IH. destruct Hi; [congruence|auto].
  Qed.
  Lemma numbered_inj n m r n' r' : forall l k, In (n, m, r) (numbered k l) -> In (n', m, r') (numbered k l) -> (n, r) = (n', r').
  Proof.
    induction l as [|[a q] l IH]; intros k; [easy|]. cbn. intros [E|H] [E'|H'].
    - congruence.
    - injection E as -> -> ->. apply numbered_range in H'. lia.
    - injection E' as -> -> ->. apply numbered_range in H. lia.
    - eapply IH; eauto.
  Qed.
  Lemma numbered_NoDup : forall l k, NoDup (numbered k l).
  Proof. induction l as [|[a q] l IH]; intros k; constructor; auto. intros H. apply numbered_range in H. lia. Qed.
  Lemma res_node n m r : In (n, m, r) (numbered next (resonators s)) -> n < next /\ next <= m /\ In n (sys_nodes s) /\ In m (sys_nodes e).
  Proof.
    intros H. destruct ext_at as (_ & Hlt & _). assert (Hm := numbered_range _ _ _ _ _ H). apply res_named, resonators_In in H.
    assert (Hn : In n (g_nodes (c_graph s))) by (apply (r_keys s (reachable_Inv3 s (circuit_reachable s Hc))), (in_map fst _ _ H)).
    destruct (r_desc s (reachable_Inv3 s (circuit_reachable s Hc)) n r H) as (Hz & _).
    split; [apply Hlt; auto|]. split; [lia|]. split; [apply (nodes_In _ s HD eq_refl); auto|]. rewrite sys_ext. apply in_or_app. right. apply in_seq. lia.
  Qed.
  Lemma sys_lt n : In n (sys_nodes s) -> 0 < n < next.
  Proof. intros H. destruct ext_at as (_ & Hlt & _). apply (nodes_In _ s HD eq_refl) in H as [H Hz]. specialize (Hlt n H). lia. Qed.
  Lemma bare_zero y x : (forall n, n < next -> y n = 0%R) -> bare y x = 0%R /\ self_capacitors val s y x = 0%R.
  Proof.
    intros Hy. destruct ext_at as (Hp & Hlt & _).
    assert (Hb : forall p q k c, In ((p, q, k), c) (branches_of "C" (c_graph s)) -> y p = 0%R /\ y q = 0%R).
    { intros p q k c H. apply filter_In in H as [H _]. destruct (w_ends (c_graph s) (d_wf s HD) _ H) as [A B]. cbn in A, B. auto. }
    split.
    - unfold bare. rewrite !Rsum_map_0; [ring| |].
      + intros [n c] H. cbn [fst snd]. rewrite Hy; [ring|]. apply Hlt. apply (j_cb s (reachable_Inv2 s (circuit_reachable s Hc))).
        unfold gates in H. apply in_flat_map in H as ([k b] & Hk & H). cbn [fst snd] in H. destruct (cb_cap b); [|easy]. destruct H as [E|[]]. injection E as <- <-. apply (in_map fst _ _ Hk).
      + intros [[[p q] k] c] H. destruct (Hb _ _ _ _ H) as [-> ->]. ring.
    - apply Rsum_map_0. intros [[[p q] k] c] H. destruct (Hb _ _ _ _ H) as [-> _]. destruct (Nat.eqb p q); ring.
  Qed.
  (** *** The inverse of the extended matrix *)
  Variables (Me : mat) (K : nat -> nat -> R).
  Hypothesis HMe : capacitance_matrix e = Ok Me.
  Hypothesis HK : inverse (List.length (sys_nodes e)) (fun i j => lval val (Me i j)) K.
  Let ne := sys_nodes e.
  Let He' : circuit e. Proof. apply ext_at. Qed.
  Lemma ne_NoDup : NoDup ne.
  Proof. apply (nodes_NoDup _ e (circuit_derived e He') eq_refl). Qed.
  Lemma ne_zero : ~ In 0 ne.
  Proof. unfold ne. rewrite (nodes_In _ e (circuit_derived e He') eq_refl). tauto. Qed.
  Lemma column c y : c < List.length ne -> y 0 = 0%R ->
    (bare y (vec ne K c) + Rsum (map (fun t => let '(n, m, r) := t in val (r_coupling r) * (y n - y m) * (vec ne K c n - vec ne K c m) + val (r_Cr r) * y m * vec ne K c m) (numbered next (resonators s)))
     - self_capacitors val s y (vec ne K c) = y (nth c ne 0%nat))%R.
  Proof.
    intros Hi Hy. assert (X0 : vec ne K c 0 = 0%R) by (apply vec_out, ne_zero).
    rewrite <- (ext_electro y (vec ne K c)), <- (self_electro y (vec ne K c)), <- (c_cap_exact e He' Me val y (vec ne K c) HMe Hy X0) by auto.
    apply form_inverse; auto. apply ne_NoDup.
  Qed.
  (** the row of a resonator's node *)
  Lemma resonator_row c n m r : c < List.length ne -> In (n, m, r) (numbered next (resonators s)) ->
    (val (r_Cr r) * vec ne K c m - val (r_coupling r) * (vec ne K c n - vec ne K c m) = unit_at m (nth c ne 0%nat))%R.
  Proof.
    intros Hi Hr. destruct (res_node _ _ _ Hr) as (Hn & Hm & _). destruct ext_at as (Hp & _).
    assert (U : forall k, k < next -> unit_at m k = 0%R) by (intros k Hk; unfold unit_at; destruct (Nat.eqb_spec k m); [lia|auto]).
    rewrite <- (column c (unit_at m)) by auto. destruct (bare_zero (unit_at m) (vec ne K c) U) as [-> ->].
    rewrite (Rsum_single _ (n, m, r)); auto using numbered_NoDup.
    - rewrite (U n Hn). unfold unit_at. rewrite Nat.eqb_refl. ring.
    - intros [[n' m'] r'] Hr' Hne. destruct (res_node _ _ _ Hr') as (Hn' & Hm' & _).
      assert (m' <> m) by (intros ->; apply Hne; assert (E := numbered_inj _ _ _ _ _ _ _ Hr Hr'); congruence).
      rewrite (U n' Hn'). unfold unit_at. destruct (Nat.eqb_spec m' m); [easy|]. ring.
  Qed.
  Lemma series_eq a b x z : (a + b <> 0 -> b * z - a * (x - z) = 0 -> a * (x - z) = series a b * x /\ z = a / (a + b) * x)%R.
  Proof.
    intros Hab E. assert (Z : z = (a / (a + b) * x)%R). { apply (Rmult_eq_reg_l (a + b)); auto. transitivity (a * x)%R; [lra|field; auto]. }
    split; auto. rewrite Z. unfold series. field. auto.
  Qed.
  Lemma nth_ext i : i < List.length (sys_nodes s) -> nth i ne 0 = nth i (sys_nodes s) 0 /\ i < List.length ne.
  Proof. intros Hi. unfold ne. rewrite sys_ext. rewrite app_nth1 by auto. rewrite app_length. split; auto. lia. Qed.
  Hypothesis Hsum : forall n r, In (n, r) (coupled_resonators s) -> (val (r_coupling r) + val (r_Cr r) <> 0)%R.
  Lemma circuit_column c y : c < List.length (sys_nodes s) -> y 0 = 0%R -> (forall n, next <= n -> y n = 0%R) ->
    (electrostatic val s y (vec ne K c) - self_capacitors val s y (vec ne K c) = y (nth c (sys_nodes s) 0%nat))%R.
  Proof.
    intros Hi Hy Hz. destruct (nth_ext c Hi) as [En Hc']. rewrite <- En, <- (column c y Hc' Hy). unfold electrostatic. fold (bare y (vec ne K c)). f_equal. f_equal.
    rewrite <- resonators_spec. assert (G : forall l k, (forall x, In x (numbered k l) -> In x (numbered next (resonators s))) ->
      Rsum (map (fun r => series (val (r_coupling (snd r))) (val (r_Cr (snd r))) * y (fst r) * vec ne K c (fst r))%R l) =
      Rsum (map (fun t => let '(n, m, r) := t in (val (r_coupling r) * (y n - y m) * (vec ne K c n - vec ne K c m) + val (r_Cr r) * y m * vec ne K c m)%R) (numbered k l))).
    { induction l as [|[n r] l IH]; intros k H; auto. cbn [numbered]. rs. rewrite (IH (S k)) by (intros; apply H; right; auto). f_equal.
      assert (Hr : In (n, k, r) (numbered next (resonators s))) by (apply H; left; auto). destruct (res_node _ _ _ Hr) as (Hn & Hm & _).
      assert (E := resonator_row c n k r Hc' Hr). rewrite En in E. unfold unit_at in E.
      assert (Hl : nth c (sys_nodes s) 0 < next) by (apply sys_lt, nth_In; auto). destruct (Nat.eqb_spec (nth c (sys_nodes s) 0) k); [lia|].
      destruct (series_eq _ _ _ _ (Hsum n r (res_named _ _ _ _ Hr)) E) as [E1 _]. rewrite (Hz k Hm). rewrite Rminus_0_r.
      transitivity (y n * (val (r_coupling r) * (vec ne K c n - vec ne K c k)))%R; [rewrite E1; ring|ring]. }
    apply G. auto.
  Qed.
  Lemma K_sym i j : i < List.length ne -> j < List.length ne -> K i j = K j i.
  Proof. apply (inverse_sym _ _ K HK). intros a b Ha Hb. apply (c_cap_sym e He' Me val a b HMe Ha Hb). Qed.
  Theorem loading M : capacitance_matrix s = Ok M -> inverse (List.length (sys_nodes s)) (fun i j => lval val (M i j)) K.
  Proof.
    intros HM.
    assert (A : forall i j, i < List.length (sys_nodes s) -> j < List.length (sys_nodes s) -> mmul (A := R_rng) (List.length (sys_nodes s)) (fun i j => lval val (M i j)) K i j = mid (A := R_rng) i j).
    { intros i j Hi Hj. assert (Hnd := nodes_NoDup _ s HD eq_refl).
      transitivity (applied (sys_nodes s) (fun i j => lval val (M i j)) (vec ne K j) i).
      - unfold mmul, applied. apply (@sumn_ext R_rng). intros k Hk. destruct (nth_ext k Hk) as [<- Hk']. rewrite vec_nth by (auto using ne_NoDup). reflexivity.
      - rewrite <- (form_unit_l (sys_nodes s) Hnd _ i _ Hi). rewrite (c_cap_exact s Hc M val _ _ HM).
        + rewrite circuit_column; auto.
          * unfold unit_at, mid, delta. destruct (Nat.eqb_spec i j) as [->|Hne]; [rewrite Nat.eqb_refl; reflexivity|].
            destruct (Nat.eqb_spec (nth j (sys_nodes s) 0) (nth i (sys_nodes s) 0)) as [E|]; [|reflexivity]. apply (NoDup_nth (sys_nodes s) 0) in E; auto. congruence.
          * apply (unit0 s HD). auto.
          * intros n Hn. unfold unit_at. destruct (Nat.eqb_spec n (nth i (sys_nodes s) 0)) as [->|]; auto. exfalso. assert (H := sys_lt _ (nth_In _ 0 Hi)). lia.
        + apply (unit0 s HD). auto.
        + apply vec_out, ne_zero. }
    intros i j Hi Hj. split; auto. destruct (nth_ext i Hi) as [_ Hi']. destruct (nth_ext j Hj) as [_ Hj'].
    transitivity (mmul (A := R_rng) (List.length (sys_nodes s)) (fun i j => lval val (M i j)) K j i).
    - unfold mmul. apply (@sumn_ext R_rng). intros k Hk. destruct (nth_ext k Hk) as [_ Hk']. rewrite (K_sym i k), (c_cap_sym s Hc M val k j) by auto. cbn. ring.
    - rewrite A by auto. unfold mid, delta. rewrite Nat.eqb_sym. auto.
  Qed.
  (** *** Matrix elements of one resonator *)
  Section One.
    Variables (n m : nat) (r : resonator) (i j : nat).
    Hypothesis Hr : In (n, m, r) (numbered next (resonators s)).
    Hypothesis Hi : index_of n ne = Ok i.
    Hypothesis Hj : index_of m ne = Ok j.
    Let cc := val (r_coupling r).
    Let cr := val (r_Cr r).
    Lemma one_i : i < List.length ne /\ nth i ne 0 = n. Proof. apply index_of_spec; auto. Qed.
    Lemma one_j : j < List.length ne /\ nth j ne 0 = m. Proof. apply index_of_spec; auto. Qed.
    Lemma vec_n c : vec ne K c n = K i c. Proof. unfold vec. rewrite Hi. auto. Qed.
    Lemma vec_m c : vec ne K c m = K j c. Proof. unfold vec. rewrite Hj. auto. Qed.
    Lemma sum_nz : (cc + cr <> 0)%R. Proof. apply (Hsum n r). rewrite <- resonators_spec. eapply res_named; eauto. Qed.
    Lemma one_off : K i j = (cc / (cc + cr) * K i i)%R.
    Proof.
      destruct one_i as [Li Ni]. destruct one_j as [Lj Nj]. destruct (res_node _ _ _ Hr) as (Hn & Hm & _).
      assert (E := resonator_row i n m r Li Hr). rewrite vec_n, vec_m, Ni in E. unfold unit_at in E. destruct (Nat.eqb_spec n m); [lia|].
      destruct (series_eq _ _ _ _ sum_nz E) as [_ E2]. rewrite K_sym by auto. exact E2.
    Qed.
    Lemma one_diag : K j j = (1 / (cc + cr) + (cc / (cc + cr)) * (cc / (cc + cr)) * K i i)%R.
    Proof.
      destruct one_i as [Li Ni]. destruct one_j as [Lj Nj].
      assert (E := resonator_row j n m r Lj Hr). rewrite vec_n, vec_m, Nj in E. unfold unit_at in E. rewrite Nat.eqb_refl in E. rewrite one_off in E. fold cc cr in E.
      assert (Z := sum_nz). apply (Rmult_eq_reg_l (cc + cr)); auto. transitivity (1 + cc * (cc / (cc + cr) * K i i))%R; [lra|field; auto].
    Qed.
    Hypothesis Hloop : no_capacitor_loop (c_graph s).
    Hypothesis Hpos : positive_caps val s.
    Lemma self_none y x : self_capacitors val s y x = 0%R.
    Proof. apply Rsum_map_0. intros [[[p q] k] c] Hb. destruct (Nat.eqb_spec p q) as [E|]; auto. exfalso. apply (Hloop _ Hb). auto. Qed.
    Lemma bare_nonneg x : (0 <= bare x x)%R.
    Proof.
      unfold bare. apply Rplus_le_le_0_compat; apply Rsum_nonneg; intros z Hz; apply in_map_iff in Hz as (b & <- & Hb).
      - destruct b as [[[p q] k] c]. apply sq_nonneg. apply (proj1 Hpos _ Hb).
      - apply sq_nonneg. apply (proj1 (proj2 Hpos) _ Hb).
    Qed.
    Lemma res_pos n' m' r' : In (n', m', r') (numbered next (resonators s)) -> (0 < val (r_coupling r') /\ 0 < val (r_Cr r'))%R.
    Proof. intros H. apply (proj2 (proj2 Hpos) (n', r')). rewrite <- resonators_spec. eapply res_named; eauto. Qed.
    Lemma diag_energy c : c < List.length ne -> (K c c = bare (vec ne K c) (vec ne K c) +
      Rsum (map (fun t => let '(n, m, r) := t in val (r_coupling r) * (vec ne K c n - vec ne K c m) * (vec ne K c n - vec ne K c m) + val (r_Cr r) * vec ne K c m * vec ne K c m) (numbered next (resonators s))))%R.
    Proof.
      intros Lc. rewrite <- (vec_nth ne K c c ne_NoDup Lc). rewrite <- (column c (vec ne K c) Lc) by (apply vec_out, ne_zero). rewrite self_none. ring.
    Qed.
    Lemma term_nonneg c x : In x (map (fun t => let '(n, m, r) := t in (val (r_coupling r) * (vec ne K c n - vec ne K c m) * (vec ne K c n - vec ne K c m) + val (r_Cr r) * vec ne K c m * vec ne K c m)%R) (numbered next (resonators s))) -> (0 <= x)%R.
    Proof. intros H. apply in_map_iff in H as ([[n' m'] r'] & <- & H). destruct (res_pos _ _ _ H). apply Rplus_le_le_0_compat; apply sq_nonneg; auto. Qed.
    Lemma diag_nonneg c : c < List.length ne -> (0 <= K c c)%R.
    Proof. intros Lc. rewrite diag_energy by auto. apply Rplus_le_le_0_compat; [apply bare_nonneg|apply Rsum_nonneg, term_nonneg]. Qed.
    Lemma Rsum_ge l x : (forall y, In y l -> (0 <= y)%R) -> In x l -> (x <= Rsum l)%R.
    Proof.
      induction l as [|a l IH]; [easy|]. intros H Hx. rs. assert (0 <= a)%R by (apply H; left; auto). assert (0 <= Rsum l)%R by (apply Rsum_nonneg; intros; apply H; right; auto).
      destruct Hx as [->|Hx]; [lra|]. assert (x <= Rsum l)%R by (apply IH; auto; intros; apply H; right; auto). lra.
    Qed.
    Lemma one_bounds : (/ (cc + cr) <= K j j <= / cr /\ 0 < K j j)%R.
    Proof.
      destruct one_i as [Li Ni]. destruct one_j as [Lj Nj]. destruct (res_pos _ _ _ Hr) as [P1 P2]. fold cc in P1. fold cr in P2.
      assert (L : (/ (cc + cr) <= K j j)%R).
      { rewrite one_diag. assert (G := diag_nonneg i Li). assert (0 <= cc / (cc + cr) * (cc / (cc + cr)) * K i i)%R; [|unfold Rdiv at 1; lra].
        assert (0 < cc / (cc + cr))%R by (apply Rdiv_lt_0_compat; lra). apply Rmult_le_pos; auto. apply Rmult_le_pos; lra. }
      assert (Hp : (0 < / (cc + cr))%R) by (apply Rinv_0_lt_compat; lra). split; [split; auto|lra].
      assert (U : (cr * (K j j * K j j) <= K j j)%R).
      { rewrite (diag_energy j Lj) at 3. assert (B := bare_nonneg (vec ne K j)).
        assert (T := Rsum_ge _ _ (term_nonneg j) (in_map _ _ _ Hr)). cbv beta iota in T. rewrite vec_m, vec_n in T. fold cc cr in T.
        assert (0 <= cc * (K i j - K j j) * (K i j - K j j))%R by (apply sq_nonneg; auto). 
        match type of T with (_ <= ?z)%R => set (Z := z) in * end. replace (cr * (K j j * K j j))%R with (cr * K j j * K j j)%R by ring. lra. }
      apply (Rmult_le_reg_l cr); auto. rewrite Rinv_r by lra. apply (Rmult_le_reg_r (K j j)); [lra|]. rewrite Rmult_1_l. lra.
    Qed.
    (** the inverse inductance *)
    Variables (edges : list edge) (ML : imat) (P : nat -> nat -> R).
    Hypothesis Hwc : c_wc e = Some edges.
    Hypothesis Hcoup : c_coupled s = [].
    Hypothesis HML : inductance_matrix e edges = Ok ML.
    Hypothesis HP : penrose (List.length edges) (imat_val val ML) P.
    Hypothesis HvalL : forall b, In b (branches_of "L" (c_graph e)) -> val (snd b) <> 0%R.
    Lemma one_ind : inverse_inductance ne edges P j j = (/ val (r_Lr r))%R.
    Proof.
      destruct one_j as [Lj Nj]. destruct (res_node _ _ _ Hr) as (Hn & Hm & _). destruct ext_at as (Hp & Hlt & _ & _ & _ & _ & _ & _ & Ecoup).
      rewrite <- (form_units ne ne_NoDup _ j j Lj Lj), Nj. unfold ne.
      rewrite (c_linv_form e He' val ML P edges Hwc (eq_trans Ecoup Hcoup) HML HP HvalL) by (unfold unit_at; destruct (Nat.eqb_spec 0 m); [lia|auto]).
      unfold inductive_form. pose (F := fun t : nat * nat * string => ((unit_at m (fst (fst t)) - unit_at m (snd (fst t))) * (unit_at m (fst (fst t)) - unit_at m (snd (fst t))) / val (snd t))%R).
      rewrite (Rsum_ext _ (fun b => F (strip b)) (branches_of "L" (c_graph e))) by (intros [[[p q] k] c] _; reflexivity). rewrite (sum_L F).
      assert (U : forall k, k < next -> unit_at m k = 0%R) by (intros k Hk; unfold unit_at; destruct (Nat.eqb_spec k m); [lia|auto]).
      rewrite Rsum_map_0, (Rsum_single _ (n, m, r)); auto using numbered_NoDup.
      - unfold F. cbn [fst snd]. rewrite (U 0) by auto. unfold unit_at. rewrite Nat.eqb_refl. unfold Rdiv. ring.
      - intros [[n' m'] r'] Hr' Hne. destruct (res_node _ _ _ Hr') as (Hn' & Hm' & _).
        assert (m' <> m) by (intros ->; apply Hne; assert (E := numbered_inj _ _ _ _ _ _ _ Hr Hr'); congruence).
        unfold F. cbn [fst snd]. rewrite (U 0) by auto. unfold unit_at. destruct (Nat.eqb_spec m' m); [easy|]. unfold Rdiv. ring.
      - intros [[[p q] k] c] Hb. unfold F, strip. cbn. apply filter_In in Hb as [Hb _]. destruct (w_ends (c_graph s) (d_wf s HD) _ Hb) as [A B]. cbn in A, B.
        rewrite (U p), (U q) by auto. unfold Rdiv. ring.
    Qed.
  End One.
End Ext.

(** ** Summary for the properties *)
Lemma mapM_In {A B} (f : A -> res B) : forall l d, mapM f l = Ok d -> forall y, In y d -> exists x, In x l /\ f x = Ok y.
Proof.
  induction l as [|x l IH]; cbn [mapM]; intros d E y Hy; [injection E as <-; easy|].
  destruct (f x) as [b|] eqn:Ef; cbn [bind] in E; [|discriminate]. destruct (mapM f l) as [bs|]; cbn [bind] in E; [|discriminate]. injection E as <-.
  destruct Hy as [<-|Hy]; [exists x; cbn; auto|]. destruct (IH bs eq_refl y Hy) as (x' & H1 & H2). exists x'. cbn. auto.
Qed.
Lemma mapM_total {A B} (f : A -> res B) : forall l, (forall x, In x l -> exists y, f x = Ok y) -> exists d, mapM f l = Ok d.
Proof.
  induction l as [|x l IH]; intros H; [exists []; auto|]. cbn [mapM]. destruct (H x) as (y & ->); [left; auto|]. destruct IH as (d & ->); [intros; apply H; right; auto|]. cbn. eauto.
Qed.
Lemma mapM_keys {A B C} (f : A -> res B) (g : A -> C) (h : B -> C) : forall l d, mapM f l = Ok d -> (forall x y, f x = Ok y -> h y = g x) -> map h d = map g l.
Proof.
  induction l as [|x l IH]; cbn [mapM]; intros d E H; [injection E as <-; auto|].
  destruct (f x) as [b|] eqn:Ef; cbn [bind] in E; [|discriminate]. destruct (mapM f l) as [bs|]; cbn [bind] in E; [|discriminate]. injection E as <-. cbn [map]. f_equal; auto.
Qed.
Lemma coupled_numbered n a b : forall l k, In (n, (a, b)) (coupled_nodes k l) -> a = n /\ exists r, In (n, b, r) (numbered k l).
Proof. induction l as [|[n' r'] l IH]; intros k; [easy|]. cbn. intros [E|H]; [injection E as -> -> ->; eauto|]. destruct (IH _ H) as (-> & r & Hr). eauto. Qed.
Lemma coupled_keys : forall l k, map fst (coupled_nodes k l) = map fst l.
Proof. induction l as [|[n r] l IH]; intros k; cbn; auto. f_equal; auto. Qed.
Lemma numbered_list n r l : forall k m, In (n, m, r) (numbered k l) -> In (n, r) l.
Proof. induction l as [|[n' r'] l IH]; intros k m; [easy|]. cbn. intros [E|H]; [injection E as -> -> ->; auto|right; eauto]. Qed.
Lemma res_unique s n r r' : reachable s -> In (n, r) (resonators s) -> In (n, r') (resonators s) -> r = r'.
Proof.
  intros Hr H H'. apply resonators_In in H, H'. assert (N := j_rk s (reachable_Inv2 s Hr)). apply In_dget in H, H'; auto. congruence.
Qed.

Section Final.
  Variables (o : nat -> orders) (s : cg) (st : cst tree_alg) (e : cg) (st' : cst tree_alg).
  Hypothesis Ho : forall k, valid_orders (o k).
  Hypothesis Hc : circuit s.
  Hypothesis H0 : In 0 (g_nodes (c_graph s)).
  Hypothesis He : extended o s st = ((e, st'), Ok tt).
  Lemma the_next : exists next, next_node s = Ok next.
  Proof. destruct (ext_next o s st e st' Hc He) as (k & H & _). eauto. Qed.
  Lemma prefix_nodes : firstn (List.length (sys_nodes s)) (sys_nodes e) = sys_nodes s.
  Proof. destruct the_next as (k & Hk). rewrite (sys_ext o s st e st' Ho Hc H0 He k Hk). rewrite firstn_app, Nat.sub_diag, firstn_O, firstn_all, app_nil_r. auto. Qed.
  Lemma indices_total : exists d, coupled_indices s e = Ok d /\ map fst d = map fst (coupled_resonators s).
  Proof.
    destruct the_next as (k & Hk). unfold coupled_indices. rewrite Hk. cbn [bind].
    match goal with |- context[mapM ?f ?l] => destruct (mapM_total f l) as (d & Hd) end.
    - intros [n [a b]] Hx. apply coupled_numbered in Hx as (-> & r & Hr). destruct (res_node o s st e st' Ho Hc H0 He k Hk _ _ _ Hr) as (_ & _ & Hn & Hm). cbn [fst snd].
      destruct (index_of_total n (sys_nodes e)) as (i & ->); [rewrite (sys_ext o s st e st' Ho Hc H0 He k Hk); apply in_or_app; auto|]. destruct (index_of_total b (sys_nodes e) Hm) as (j & ->). cbn. eauto.
    - exists d. split; auto. rewrite <- resonators_spec, <- (coupled_keys (resonators s) k). apply (mapM_keys _ fst fst _ _ Hd).
      intros x y. destruct (index_of _ _); cbn [bind]; [|discriminate]. destruct (index_of _ _); cbn [bind]; [|discriminate]. intros [= <-]. auto.
  Qed.
  Lemma indices_spec d n i j r : coupled_indices s e = Ok d -> In (n, (i, j)) d -> In (n, r) (coupled_resonators s) ->
    exists next m, next_node s = Ok next /\ In (n, m, r) (numbered next (resonators s)) /\ index_of n (sys_nodes e) = Ok i /\ index_of m (sys_nodes e) = Ok j.
  Proof.
    destruct the_next as (k & Hk). unfold coupled_indices. rewrite Hk. cbn [bind]. intros Hd Hi Hr. destruct (mapM_In _ _ _ Hd _ Hi) as ([n' [a b]] & Hx & E). cbn [fst snd] in E.
    destruct (index_of a (sys_nodes e)) as [i'|] eqn:E1; cbn [bind] in E; [|discriminate]. destruct (index_of b (sys_nodes e)) as [j'|] eqn:E2; cbn [bind] in E; [|discriminate]. injection E as -> -> ->.
    apply coupled_numbered in Hx as (-> & r' & Hr'). exists k, b. split; auto. split; auto.
    assert (r' = r) by (eapply (res_unique s n); eauto using circuit_reachable, numbered_list). subst. auto.
  Qed.
  Lemma index_small d n i j r : coupled_indices s e = Ok d -> In (n, (i, j)) d -> In (n, r) (coupled_resonators s) ->
    i < List.length (sys_nodes s) /\ nth i (sys_nodes s) 0 = n.
  Proof.
    intros Hd Hi Hr. destruct (indices_spec d n i j r Hd Hi Hr) as (next & m & Hk & Hx & E & _). destruct (res_node o s st e st' Ho Hc H0 He next Hk _ _ _ Hx) as (_ & _ & Hn & _).
    assert (E' := E). destruct (index_of_total n (sys_nodes s) Hn) as (i' & Ei). apply (index_of_spec _ _ 0) in Ei as [Li Ni]. apply (index_of_spec _ _ 0) in E as [Le Ne].
    assert (i = i'); [|subst; auto]. apply (NoDup_nth (sys_nodes e) 0); auto.
    - apply (ne_NoDup o s st e st' Ho Hc H0 He next Hk).
    - rewrite (sys_ext o s st e st' Ho Hc H0 He next Hk), app_length. lia.
    - rewrite Ne. rewrite (sys_ext o s st e st' Ho Hc H0 He next Hk), app_nth1 by auto. auto.
  Qed.
  Variables (val : string -> R) (Me : mat) (K : nat -> nat -> R).
  Hypothesis HMe : capacitance_matrix e = Ok Me.
  Hypothesis HK : inverse (List.length (sys_nodes e)) (fun i j => lval val (Me i j)) K.
  Theorem f_loading M : (forall n r, In (n, r) (coupled_resonators s) -> (val (r_coupling r) + val (r_Cr r) <> 0)%R) -> capacitance_matrix s = Ok M ->
    firstn (List.length (sys_nodes s)) (sys_nodes e) = sys_nodes s /\ inverse (List.length (sys_nodes s)) (fun i j => lval val (M i j)) K.
  Proof. intros Hs HM. split; [apply prefix_nodes|]. destruct the_next as (k & Hk). apply (loading o s st e st' Ho Hc H0 He k Hk val Me K HMe HK Hs M HM). Qed.
  Section Res.
    Variables (edges : list edge) (ML : imat) (P : nat -> nat -> R).
    Hypothesis Hwc : c_wc e = Some edges.
    Hypothesis Hcoup : c_coupled s = [].
    Hypothesis HML : inductance_matrix e edges = Ok ML.
    Hypothesis HP : penrose (List.length edges) (imat_val val ML) P.
    Hypothesis HvalL : forall b, In b (branches_of "L" (c_graph e)) -> val (snd b) <> 0%R.
    Variables (d : list (nat * (nat * nat))) (n i j : nat) (r : resonator).
    Hypothesis Hd : coupled_indices s e = Ok d.
    Hypothesis Hi : In (n, (i, j)) d.
    Hypothesis Hr : In (n, r) (coupled_resonators s).
    Let L := inverse_inductance (sys_nodes e) edges P.
    Let cc := val (r_coupling r).
    Let cr := val (r_Cr r).
    Let lr := val (r_Lr r).
    Theorem f_elements : (forall n r, In (n, r) (coupled_resonators s) -> (val (r_coupling r) + val (r_Cr r) <> 0)%R) ->
      K i j = (cc / (cc + cr) * K i i)%R /\ K j j = (1 / (cc + cr) + (cc / (cc + cr)) * (cc / (cc + cr)) * K i i)%R /\ L j j = (/ lr)%R.
    Proof.
      intros Hs. destruct (indices_spec d n i j r Hd Hi Hr) as (next & m & Hk & Hx & E1 & E2). split; [|split].
      - apply (one_off o s st e st' Ho Hc H0 He next Hk val Me K HMe HK Hs n m r i j Hx E1 E2).
      - apply (one_diag o s st e st' Ho Hc H0 He next Hk val Me K HMe HK Hs n m r i j Hx E1 E2).
      - apply (one_ind o s st e st' Ho Hc H0 He next Hk val n m r j Hx E2 edges ML P Hwc Hcoup HML HP HvalL).
    Qed.
    Hypothesis Hloop : no_capacitor_loop (c_graph s).
    Hypothesis Hpos : positive_caps val s.
    Lemma pos_sum n' r' : In (n', r') (coupled_resonators s) -> (val (r_coupling r') + val (r_Cr r') <> 0)%R.
    Proof. intros H. destruct (proj2 (proj2 Hpos) _ H). cbn in *. lra. Qed.
    Lemma f_bounds : (/ (cc + cr) <= K j j <= / cr /\ 0 < K j j /\ 0 < cc /\ 0 < cr)%R.
    Proof.
      destruct (indices_spec d n i j r Hd Hi Hr) as (next & m & Hk & Hx & E1 & E2). destruct (proj2 (proj2 Hpos) _ Hr). cbn [snd] in *.
      destruct (one_bounds o s st e st' Ho Hc H0 He next Hk val Me K HMe HK pos_sum n m r i j Hx E1 E2 Hloop Hpos) as [A B]. auto.
    Qed.
    Hypothesis Hlr : (0 < lr)%R.
    Theorem f_loaded : let q := loaded_of K L i j in
      (sqrt (/ (lr * (cc + cr))) <= ld_fr q <= sqrt (/ (lr * cr)) /\ sqrt (lr / (cc + cr)) <= ld_Zr q <= sqrt (lr / cr) /\ 0 < ld_Zr q /\
       ld_fr q * ld_Zr q = K j j /\ ld_Zr q = ld_fr q * lr /\ ld_g q = cc / (cc + cr) * K i i / sqrt (2 * ld_Zr q))%R.
    Proof.
      intros q. destruct f_bounds as ([B1 B2] & B3 & C1 & C2). destruct (f_elements pos_sum) as (E1 & E2 & E3). unfold q, loaded_of. cbn [ld_fr ld_Zr ld_g]. rewrite E3.
      replace (K j j / / lr)%R with (K j j * lr)%R by (field; lra).
      assert (I1 : (/ (lr * (cc + cr)) = / (cc + cr) * / lr)%R) by (field; lra). assert (I2 : (/ (lr * cr) = / cr * / lr)%R) by (field; lra).
      assert (L0 : (0 < / lr)%R) by (apply Rinv_0_lt_compat; auto).
      assert (S1 : (sqrt (K j j * / lr) * sqrt (K j j * lr) = K j j)%R).
      { rewrite <- sqrt_mult_alt by (apply Rmult_le_pos; lra). replace (K j j * / lr * (K j j * lr))%R with (K j j * K j j)%R by (field; lra). apply sqrt_square. lra. }
      assert (S2 : (sqrt (K j j * lr) = sqrt (K j j * / lr) * lr)%R).
      { rewrite <- (sqrt_square lr) at 3 by lra. rewrite <- sqrt_mult_alt by (apply Rmult_le_pos; lra). f_equal. field. lra. }
      split; [|split; [|split; [|split; [|split]]]].
      - rewrite I1, I2. split; apply sqrt_le_1_alt; apply Rmult_le_compat_r; lra.
      - unfold Rdiv. rewrite (Rmult_comm lr (/ (cc + cr))), (Rmult_comm lr (/ cr)). split; apply sqrt_le_1_alt; apply Rmult_le_compat_r; lra.
      - apply sqrt_lt_R0. apply Rmult_lt_0_compat; auto.
      - exact S1.
      - exact S2.
      - rewrite E1. reflexivity.
    Qed.
    Theorem f_design fr Zr : (0 < fr)%R -> (0 < Zr)%R -> cr = design_C fr Zr -> lr = design_L fr Zr ->
      let q := loaded_of K L i j in (ld_fr q / (2 * PI) <= fr /\ ld_Zr q <= Zr)%R.
    Proof.
      intros Hf Hz Ec El q. destruct f_loaded as (A & B & _). fold q in A, B. assert (HPI := PI_RGT_0). assert (Hp : (0 < PI * fr)%R) by (apply Rmult_lt_0_compat; auto). split.
      - apply (Rmult_le_reg_r (2 * PI)); [lra|]. unfold Rdiv. rewrite Rmult_assoc, Rinv_l, Rmult_1_r by lra. replace (fr * (2 * PI))%R with (sqrt (/ (lr * cr)))%R; [apply A|].
        rewrite <- (sqrt_square (fr * (2 * PI))) by nra. f_equal. rewrite Ec, El. unfold design_C, design_L. field. lra.
      - replace Zr with (sqrt (lr / cr)); [apply B|]. rewrite <- (sqrt_square Zr) by lra. f_equal. rewrite Ec, El. unfold design_C, design_L. field. lra.
    Qed.
  End Res.
End Final.
