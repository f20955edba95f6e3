(** Facts about the dependency graph functions of Coll.v. *)
From Coq Require Import List Bool String ZArith Lia PeanoNat Relations Permutation.
From Verif Require Import Prelude PreludeFacts Float Param Expr Sweep Coll.
Import ListNotations.
Open Scope list_scope.

(** Specification vocabulary: paths along edges. *)
Definition arrow (edges : list (string * string)) (a b : string) : Prop := In (a, b) edges.
Definition path (edges : list (string * string)) : string -> string -> Prop := clos_trans string (arrow edges).
Definition acyclic (edges : list (string * string)) : Prop := forall x, ~ path edges x x.
Definition in_nodes (nodes : list string) (edges : list (string * string)) : Prop :=
  forall a b, In (a, b) edges -> In a nodes /\ In b nodes.

Lemma path_incl e1 e2 x y : incl e1 e2 -> path e1 x y -> path e2 x y.
Proof.
  intros I H. induction H as [x y H|x y z _ IH1 _ IH2]; [apply t_step; now apply I|eapply t_trans; eauto].
Qed.
Lemma acyclic_incl e1 e2 : incl e1 e2 -> acyclic e2 -> acyclic e1.
Proof. intros I H x Hx. apply (H x). eapply path_incl; eauto. Qed.

Lemma peel1_In edges rem n :
  In n (peel1 edges rem) <-> In n rem /\ exists a, In (a, n) edges /\ In a rem.
Proof.
  unfold peel1. rewrite filter_In, existsb_exists. split.
  - intros [H ([a b] & Hin & E)]. cbn [fst snd] in E. apply andb_true_iff in E as [E1 E2].
    apply (proj1 (eqb_eq _ _)) in E1. subst b. apply mem_In in E2. eauto.
  - intros [H (a & Hin & Ha)]. split; auto. exists (a, n). split; auto. cbn [fst snd].
    rewrite eqb_refl. now apply mem_In in Ha.
Qed.

Lemma path_last edges x y : path edges x y -> exists z, arrow edges z y /\ (x = z \/ path edges x z).
Proof.
  intros H. apply clos_trans_tn1 in H. induction H as [y H|y z H H1 IH].
  - eauto.
  - exists y. split; auto. right. apply clos_tn1_trans. exact H1.
Qed.

Lemma cyc_peel1 edges rem :
  (forall x, path edges x x -> In x rem) -> forall x, path edges x x -> In x (peel1 edges rem).
Proof.
  intros H x Hx. apply peel1_In. split; auto.
  destruct (path_last _ _ _ Hx) as (z & Hz & [<-|Hxz]).
  - exists x. split; auto.
  - exists z. split; auto. apply H. eapply t_trans; [apply t_step; exact Hz|exact Hxz].
Qed.
Lemma cyc_peel edges k : forall rem,
  (forall x, path edges x x -> In x rem) -> forall x, path edges x x -> In x (peel edges k rem).
Proof.
  induction k as [|k IH]; cbn; intros rem H x Hx; auto.
  apply IH; auto. now apply cyc_peel1.
Qed.

Lemma filter_len {X} (f : X -> bool) l : filter f l = l \/ List.length (filter f l) < List.length l.
Proof.
  induction l as [|x l IH]; cbn; [now left|].
  destruct (f x); cbn; [destruct IH as [->|]; [now left|right; lia]|].
  right. destruct IH as [->|]; lia.
Qed.
Lemma peel_nil edges k : peel edges k [] = [].
Proof. induction k; cbn; auto. Qed.
Lemma peel_fix edges k : forall rem, List.length rem <= k ->
  peel edges k rem = [] \/ exists r, r <> [] /\ peel1 edges r = r.
Proof.
  induction k as [|k IH]; cbn; intros rem H.
  - destruct rem; [now left|cbn in H; lia].
  - destruct rem as [|x rem]; [left; apply (peel_nil edges (S k))|].
    destruct (filter_len (fun n => existsb (fun e => eqb (snd e) n && mem (fst e) (x :: rem)) edges) (x :: rem)) as [E|L].
    + right. exists (x :: rem). split; [discriminate|exact E].
    + apply IH. unfold peel1. cbn [List.length] in *. lia.
Qed.

Lemma back_walk edges r : (forall n, In n r -> exists a, In (a, n) edges /\ In a r) ->
  forall k acc x, NoDup (x :: acc) -> incl (x :: acc) r -> (forall a, In a acc -> path edges x a) ->
  List.length r < k + List.length (x :: acc) -> exists y, path edges y y.
Proof.
  intros H. induction k as [|k IH]; intros acc x ND I P L.
  - exfalso. pose proof (NoDup_incl_length ND I). lia.
  - destruct (H x) as (y & Hy & Hr); [apply I; now left|].
    destruct (mem_In_dec y (x :: acc)) as [[->|Hin]|Hn].
    + exists y. now apply t_step.
    + exists y. eapply t_trans; [apply t_step; exact Hy|exact (P _ Hin)].
    + apply (IH (x :: acc) y).
      * now constructor.
      * intros z [<-|Hz]; auto.
      * intros a [<-|Ha]; [now apply t_step|eapply t_trans; [apply t_step; exact Hy|exact (P _ Ha)]].
      * cbn in *. lia.
Qed.

Lemma is_dag_spec nodes edges : in_nodes nodes edges -> is_dag nodes edges = true <-> acyclic edges.
Proof.
  intros HN. unfold is_dag. split.
  - intros H x Hx.
    assert (In x (peel edges (List.length nodes) nodes)) as C.
    { apply cyc_peel; auto. intros y Hy. destruct (path_last _ _ _ Hy) as (z & Hz & _).
      exact (proj2 (HN _ _ Hz)). }
    destruct (peel edges (List.length nodes) nodes); [destruct C|discriminate].
  - intros H. destruct (peel_fix edges (List.length nodes) nodes (le_n _)) as [->|(r & Hr & E)]; auto.
    exfalso. destruct r as [|x r]; [congruence|].
    destruct (back_walk edges (x :: r)) with (k := List.length (x :: r)) (acc := @nil string) (x := x) as (y & Hy).
    + intros n Hn. rewrite <- E in Hn. now apply peel1_In in Hn.
    + repeat constructor. easy.
    + intros z [<-|[]]. now left.
    + easy.
    + cbn. lia.
    + exact (H y Hy).
Qed.

(** Ranks increase along edges. *)
Lemma peel_S edges k : forall rem, peel edges (S k) rem = peel1 edges (peel edges k rem).
Proof. induction k as [|k IH]; intros rem; [reflexivity|]. cbn [peel] in *. now rewrite <- IH. Qed.
Definition rank nodes edges (n : string) : nat :=
  List.length (filter (fun i => mem n (peel edges i nodes)) (seq 0 (S (List.length nodes)))).
Lemma peel_succ edges nodes a b : in_nodes nodes edges -> In (a, b) edges -> forall i,
  In a (peel edges i nodes) -> In b (peel edges (S i) nodes).
Proof.
  intros HN He. induction i as [|i IH]; intros Ha.
  - cbn in *. apply peel1_In. split; [exact (proj2 (HN _ _ He))|eauto].
  - rewrite peel_S. apply peel1_In. split; [|eauto].
    apply IH. rewrite peel_S in Ha. now apply peel1_In in Ha.
Qed.
Lemma rank_lt nodes edges a b : in_nodes nodes edges -> acyclic edges -> In (a, b) edges ->
  rank nodes edges a < rank nodes edges b.
Proof.
  intros HN HA He.
  assert (peel edges (List.length nodes) nodes = []) as E.
  { apply (is_dag_spec _ _ HN) in HA. unfold is_dag in HA. destruct (peel _ _ _); [reflexivity|discriminate]. }
  unfold rank.
  set (fa := filter (fun i => mem a (peel edges i nodes)) (seq 0 (S (List.length nodes)))).
  set (fb := filter (fun i => mem b (peel edges i nodes)) (seq 0 (S (List.length nodes)))).
  assert (NoDup (0 :: map S fa)) as ND.
  { constructor.
    - rewrite in_map_iff. intros (x & Hx & _). discriminate.
    - apply FinFun.Injective_map_NoDup; [intros x y; lia|]. apply NoDup_filter, seq_NoDup. }
  assert (incl (0 :: map S fa) fb) as I.
  { intros i [<-|Hi].
    - apply filter_In. split; [apply in_seq; lia|]. apply mem_In. cbn. exact (proj2 (HN _ _ He)).
    - apply in_map_iff in Hi as (j & <- & Hj). apply filter_In in Hj as [Hj1 Hj2].
      apply mem_In in Hj2. apply filter_In. split.
      + apply in_seq. apply in_seq in Hj1. destruct (Nat.eq_dec j (List.length nodes)) as [->|]; [|lia].
        rewrite E in Hj2. destruct Hj2.
      + apply mem_In. eapply peel_succ; eauto. }
  pose proof (NoDup_incl_length ND I) as L. cbn [List.length] in L. rewrite map_length in L. unfold lt. exact L.
Qed.

(** Descendants are the nodes reachable by a path. *)
Lemma succs_In edges l x : In x (succs edges l) <-> exists a, In a l /\ In (a, x) edges.
Proof.
  unfold succs. rewrite in_map_iff. split.
  - intros ([a b] & <- & H). apply filter_In in H as [H1 H2]. apply mem_In in H2. eauto.
  - intros (a & Ha & He). exists (a, x). split; auto. apply filter_In. split; auto. now apply mem_In.
Qed.
Definition closed_succ edges (l : list string) : Prop := forall a b, In a l -> In (a, b) edges -> In b l.
Lemma step_In edges l x : In x (dedup (l ++ succs edges l)) <-> In x l \/ exists a, In a l /\ In (a, x) edges.
Proof. now rewrite dedup_In, in_app_iff, succs_In. Qed.
Lemma closed_step edges l : closed_succ edges l -> closed_succ edges (dedup (l ++ succs edges l)).
Proof.
  intros C a b Ha Hab. apply step_In. left. apply step_In in Ha as [Ha|(c & Hc & He)]; eauto.
Qed.
Lemma closed_closure edges k : forall l, closed_succ edges l -> closed_succ edges (closure edges k l).
Proof. induction k; cbn; auto using closed_step. Qed.
Lemma closure_mono edges k : forall l, incl l (closure edges k l).
Proof.
  induction k as [|k IH]; cbn; intros l x Hx; auto. apply IH. apply step_In. now left.
Qed.
Lemma closure_closed edges k : forall l, NoDup l -> incl l (map snd edges) ->
  List.length edges <= k + List.length l -> closed_succ edges (closure edges k l).
Proof.
  induction k as [|k IH]; intros l ND I L.
  - cbn. intros a b Ha Hab. apply (NoDup_length_incl ND (l' := map snd edges)); auto.
    + rewrite map_length. cbn in L. lia.
    + apply in_map_iff. exists (a, b). auto.
  - cbn. destruct (forallb (fun x => mem x l) (succs edges l)) eqn:F.
    + apply closed_closure, closed_step. intros a b Ha Hab.
      rewrite forallb_forall in F. apply mem_In, F, succs_In. eauto.
    + apply IH.
      * apply dedup_NoDup.
      * intros x Hx. apply step_In in Hx as [Hx|(a & _ & Ha)]; auto. apply in_map_iff. exists (a, x). auto.
      * assert (exists x, In x (succs edges l) /\ ~ In x l) as (x & Hx & Hn).
        { clear - F. induction (succs edges l) as [|y s IHs]; cbn in F; [discriminate|].
          apply andb_false_iff in F as [F|F].
          - exists y. split; [now left|now apply mem_nIn].
          - destruct (IHs F) as (x & ? & ?). exists x. split; [now right|auto]. }
        assert (List.length (x :: l) <= List.length (dedup (l ++ succs edges l))) as L2.
        { apply NoDup_incl_length; [now constructor|]. intros y [<-|Hy]; apply dedup_In, in_app_iff; auto. }
        cbn in L2. lia.
Qed.
Lemma closure_sound edges k : forall l x, In x (closure edges k l) -> exists a, In a l /\ (x = a \/ path edges a x).
Proof.
  induction k as [|k IH]; cbn; intros l x Hx; [eauto|].
  destruct (IH _ _ Hx) as (a & Ha & P). apply step_In in Ha as [Ha|(b & Hb & He)]; [eauto|].
  exists b. split; auto. right. destruct P as [->|P]; [now apply t_step|eapply t_trans; [apply t_step; exact He|exact P]].
Qed.
Lemma descendants_In edges r x : In x (descendants edges r) <-> path edges r x /\ x <> r.
Proof.
  unfold descendants. rewrite filter_In, negb_true_iff, eqb_neq. split.
  - intros [H N]. split; auto. apply closure_sound in H as (a & Ha & P).
    rewrite dedup_In in Ha. apply succs_In in Ha as (b & [<-|[]] & He).
    destruct P as [->|P]; [now apply t_step|eapply t_trans; [apply t_step; exact He|exact P]].
  - intros [P N]. split; auto.
    set (l := dedup (succs edges [r])).
    assert (closed_succ edges (closure edges (List.length edges) l)) as C.
    { apply closure_closed.
      - apply dedup_NoDup.
      - intros y Hy. apply dedup_In, succs_In in Hy as (a & _ & Ha). apply in_map_iff. exists (a, y). auto.
      - lia. }
    assert (forall y, arrow edges r y -> In y l) as S1.
    { intros y Hy. apply dedup_In, succs_In. exists r. split; [now left|exact Hy]. }
    apply clos_trans_tn1 in P. induction P as [y Hy|y z Hyz Py IH].
    + apply closure_mono, S1, Hy.
    + destruct (eqb_dec y r) as [->|Ny]; [apply closure_mono, S1, Hyz|].
      eapply C; [apply IH; exact Ny|exact Hyz].
Qed.
Lemma closure_NoDup edges k : forall l, NoDup l -> NoDup (closure edges k l).
Proof. induction k as [|k IH]; cbn; intros l H; [exact H|]. apply IH, dedup_NoDup. Qed.
Lemma descendants_NoDup edges r : NoDup (descendants edges r).
Proof. apply NoDup_filter, closure_NoDup, dedup_NoDup. Qed.

(** Adding edges. *)
Lemma add_node_In nodes n x : In x (add_node nodes n) <-> In x nodes \/ x = n.
Proof.
  unfold add_node. destruct (mem n nodes) eqn:M.
  - apply mem_In in M. split; [auto|intros [| ->]; auto].
  - rewrite in_app_iff. cbn. intuition.
Qed.
Lemma add_node_NoDup nodes n : NoDup nodes -> NoDup (add_node nodes n).
Proof.
  unfold add_node. destruct (mem n nodes) eqn:M; auto. intros. apply NoDup_app_single; auto. now apply mem_nIn.
Qed.
Lemma add_edge_In g a b e : In e (snd (add_edge g a b)) <-> In e (snd g) \/ e = (a, b).
Proof.
  unfold add_edge. cbn [snd]. destruct (mem (a, b) (snd g)) eqn:M.
  - apply mem_In in M. split; [auto|intros [| ->]; auto].
  - rewrite in_app_iff. cbn. intuition.
Qed.
Lemma add_edges_In names name : forall g e,
  In e (snd (fold_left (fun g p => add_edge g p name) names g)) <-> In e (snd g) \/ exists p, In p names /\ e = (p, name).
Proof.
  induction names as [|p ps IH]; cbn [fold_left]; intros g e.
  - split; [auto|intros [|(p & [] & _)]; auto].
  - rewrite IH, add_edge_In. split.
    + intros [[| ->]|(q & ? & ->)]; auto; right; [exists p|exists q]; cbn; auto.
    + intros [|(q & [<-|Hq] & ->)]; auto. right. eauto.
Qed.
Lemma add_edges_nodes names name : forall g x,
  In x (fst (fold_left (fun g p => add_edge g p name) names g)) <-> In x (fst g) \/ In x names \/ (names <> [] /\ x = name).
Proof.
  induction names as [|p ps IH]; cbn [fold_left]; intros g x.
  - cbn. intuition.
  - rewrite IH. unfold add_edge. cbn [fst]. rewrite !add_node_In. cbn [In].
    assert (p :: ps <> []) by discriminate. intuition (subst; auto).
Qed.
Lemma add_edges_NoDup names name : forall g,
  NoDup (fst g) -> NoDup (fst (fold_left (fun g p => add_edge g p name) names g)).
Proof.
  induction names as [|p ps IH]; cbn [fold_left]; intros g H; auto.
  apply IH. unfold add_edge. cbn [fst]. auto using add_node_NoDup.
Qed.
Lemma add_edges_in_nodes names name g :
  in_nodes (fst g) (snd g) -> in_nodes (fst (fold_left (fun g p => add_edge g p name) names g)) (snd (fold_left (fun g p => add_edge g p name) names g)).
Proof.
  intros H a b Hab. rewrite !add_edges_nodes. apply add_edges_In in Hab as [Hab|(p & Hp & E)].
  - destruct (H _ _ Hab). auto.
  - injection E as -> ->. split; auto. right. right. split; auto. intros ->. destruct Hp.
Qed.
Lemma has_in_spec edges n : has_in edges n = true <-> exists a, In (a, n) edges.
Proof.
  unfold has_in. rewrite existsb_exists. split.
  - intros ([a b] & H & E). apply (proj1 (eqb_eq _ _)) in E. cbn [snd] in E. subst. eauto.
  - intros (a & H). exists (a, n). split; auto. apply eqb_refl.
Qed.
Lemma has_in_false edges n : has_in edges n = false <-> forall a, ~ In (a, n) edges.
Proof.
  destruct (has_in edges n) eqn:E.
  - apply has_in_spec in E as (a & Ha). split; [discriminate|]. intros H. destruct (H _ Ha).
  - split; auto. intros _ a Ha. assert (has_in edges n = true) by (apply has_in_spec; eauto). congruence.
Qed.
