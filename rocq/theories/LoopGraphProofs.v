(** Proofs about the loop graph of a circuit. *)
From Coq Require Import List Bool String Arith Permutation Lia.
From Verif Require Import Prelude PreludeFacts Graph GraphSpec GraphView GraphForest GraphWf GraphGround GraphState LoopGraph LoopGraphSpec LoopGraphAlg.
Import ListNotations.
Open Scope list_scope.
Open Scope nat_scope.
#[local] Arguments xorb : simpl never.

(** *** grouping by the pair of nodes *)
Definition ofpair (p : nat * nat) (e : edge) : bool := eqb (fst e) p.
Lemma by_nodes_snoc es e : by_nodes (es ++ [e]) =
  match dget (by_nodes es) (fst e) with Some l => dset (by_nodes es) (fst e) (l ++ [e]) | None => dset (by_nodes es) (fst e) [e] end.
Proof. unfold by_nodes. now rewrite fold_left_app. Qed.
Lemma by_nodes_keys es : NoDup (dkeys (by_nodes es)).
Proof.
  induction es as [|e es IH] using rev_ind; [constructor|]. rewrite by_nodes_snoc.
  destruct (dget (by_nodes es) (fst e)); now apply NoDup_dset.
Qed.
Lemma by_nodes_get es p : dget (by_nodes es) p = match filter (ofpair p) es with [] => None | v => Some v end.
Proof.
  induction es as [|e es IH] using rev_ind; [reflexivity|]. rewrite by_nodes_snoc, filter_app. cbn [filter]. unfold ofpair at 2.
  destruct (eqb_spec (fst e) p) as [E|E].
  - subst p. rewrite IH. destruct (filter (ofpair (fst e)) es) as [|x v]; rewrite dget_dset_eq; reflexivity.
  - rewrite app_nil_r. rewrite <- IH. destruct (dget (by_nodes es) (fst e)); now rewrite dget_dset_neq by congruence.
Qed.
Lemma by_nodes_In es p v : In (p, v) (by_nodes es) -> v = filter (ofpair p) es /\ In p (map fst es).
Proof.
  intros H. apply In_dget in H; [|apply by_nodes_keys]. rewrite by_nodes_get in H.
  destruct (filter (ofpair p) es) as [|x w] eqn:E; [discriminate H|]. injection H as <-. split; auto.
  assert (In x (filter (ofpair p) es)) as Hx by (rewrite E; cbn; auto). apply filter_In in Hx as [Hx Ep].
  apply (proj1 (eqb_eq _ _)) in Ep. subst p. now apply in_map.
Qed.
Lemma by_nodes_has es p : In p (map fst es) -> In p (dkeys (by_nodes es)).
Proof.
  intros H. apply dkeys_dget. rewrite by_nodes_get. apply in_map_iff in H as (e & <- & He).
  destruct (filter (ofpair (fst e)) es) as [|x w] eqn:E; [|eauto].
  assert (In e (filter (ofpair (fst e)) es)) as Hx by (apply filter_In; split; auto; apply eqb_refl). now rewrite E in Hx.
Qed.
Lemma concat_dset {K V} `{EqB K} (d : dict K (list V)) k l e : dget d k = Some l ->
  Permutation (List.concat (map snd (dset d k (l ++ [e])))) (List.concat (map snd d) ++ [e]).
Proof.
  induction d as [|[k' l'] d IH]; intros G; [discriminate G|]. cbn in *. destruct (eqb k k') eqn:E.
  - injection G as <-. cbn. rewrite <- !app_assoc. apply Permutation_app_head. apply Permutation_app_comm.
  - cbn. rewrite <- app_assoc. apply Permutation_app_head. auto.
Qed.
Lemma by_nodes_perm es : Permutation (List.concat (map snd (by_nodes es))) es.
Proof.
  induction es as [|e es IH] using rev_ind; [constructor|]. rewrite by_nodes_snoc.
  destruct (dget (by_nodes es) (fst e)) as [l|] eqn:G.
  - rewrite (concat_dset _ _ _ _ G). now apply Permutation_app_tail.
  - rewrite dset_new.
    + rewrite map_app, concat_app. cbn. now apply Permutation_app_tail.
    + intros Hk. apply dkeys_dget in Hk as (v & Hv). congruence.
Qed.
Lemma duplicates_In es p v : In (p, v) (duplicates es) <-> In (p, v) (by_nodes es) /\ 2 <= List.length v.
Proof. unfold duplicates. rewrite filter_In. cbn [snd]. rewrite Nat.ltb_lt. reflexivity. Qed.
Lemma two_node_all es : two_node_loops es = flat_map (fun kv => pairs (snd kv)) (by_nodes es).
Proof.
  unfold two_node_loops, duplicates. induction (by_nodes es) as [|[p v] d IH]; auto. cbn [filter snd flat_map].
  destruct (1 <? List.length v) eqn:E; cbn [flat_map snd]; rewrite IH; auto.
  apply Nat.ltb_ge in E. destruct v as [|a [|b r]]; auto. cbn in E. lia.
Qed.
Lemma pairs_map {X Y} (h : X -> Y) v : pairs (map h v) = map (map h) (pairs v).
Proof. induction v as [|a [|b r] IH]; auto. change (pairs (map h (a :: b :: r))) with ([h a; h b] :: pairs (map h (b :: r))). now rewrite IH. Qed.

Lemma norm_unfold e : norm e = (unordered (fst e), ekey e).
Proof. destruct e as [[a b] k]. reflexivity. Qed.
Lemma unordered_idem p : unordered (unordered p) = unordered p.
Proof. destruct p as [a b]. unfold unordered. cbn. f_equal; lia. Qed.
Lemma unordered_touch v p : touches v (unordered p) = touches v p.
Proof.
  destruct p as [a b]. unfold touches, unordered. cbn. destruct (Nat.le_ge_cases a b) as [L|L].
  - now rewrite Nat.min_l, Nat.max_r.
  - rewrite Nat.min_r, Nat.max_l by lia. apply xorb_comm.
Qed.
Lemma unordered_swap p q : unordered p = unordered q -> p = q \/ p = (snd q, fst q).
Proof. destruct p as [a b], q as [c d]. unfold unordered. cbn. intros E. injection E as E1 E2. assert ((a = c /\ b = d) \/ (a = d /\ b = c)) as [[-> ->]|[-> ->]] by lia; auto. Qed.

(** *** the reported branches *)
Section Reported.
  Context (g : mgraph) (W : wfg g).
  Let es := map fst (edge_map g).
  Lemma es_perm : Permutation (map norm es) (branches g).
  Proof. assert (Hp := edge_map_perm g W). apply (Permutation_map fst) in Hp. rewrite !map_map in Hp. unfold es, branches. rewrite map_map. exact Hp. Qed.
  Lemma es_norm : NoDup (map norm es).
  Proof. eapply Permutation_NoDup; [symmetry; apply es_perm|]. apply W. Qed.
  Lemma es_orient e f : In e es -> In f es -> unordered (fst e) = unordered (fst f) -> fst e = fst f.
  Proof.
    intros He Hf E. apply unordered_swap in E as [E|E]; auto.
    apply in_map_iff in He as (b & <- & He). apply in_map_iff in Hf as (c & <- & Hf).
    destruct (edge_map_In g b W He) as [Bb _]. destruct (edge_map_In g c W Hf) as [Bc _].
    unfold src, dst in Bb, Bc. rewrite E in Bb. cbn in Bb.
    assert (fst (fst (fst c)) = snd (fst (fst c))) as Q by (eapply before_antisym; [apply (w_nodes g W)|exact Bc|exact Bb]).
    rewrite E. destruct (fst (fst c)) as [x y]. cbn in *. congruence.
  Qed.
  Lemma filter_norm {A B} (P : B -> bool) (h : A -> B) l : List.length (filter P (map h l)) = List.length (filter (fun x => P (h x)) l).
  Proof. induction l; cbn; auto. destruct (P (h a)); cbn; auto. Qed.
  Lemma class_size p : In p (map fst es) -> List.length (filter (ofpair p) es) = par (fst p) (snd p) (g_edges g).
  Proof.
    intros Hp. transitivity (List.length (filter (fun n => eqb (fst n) (unordered p)) (map norm es))).
    - rewrite filter_norm. f_equal. apply in_map_iff in Hp as (e & <- & He). apply filter_ext_in. intros f Hf. unfold ofpair.
      apply eq_true_iff_eq. rewrite !eqb_eq. rewrite norm_unfold. cbn [fst]. split; [intros ->; auto|]. intros E. now apply es_orient.
    - rewrite (Permutation_length (Permutation_filter _ _ _ es_perm)). unfold branches, par. rewrite filter_norm. f_equal. apply filter_ext.
      intros b. apply eq_true_iff_eq. rewrite eqb_eq, joins_norm. rewrite norm_unfold. unfold unordered, src, dst. cbn [fst]. split; [intros E; now injection E|intros [-> ->]; auto].
  Qed.
  Lemma keys_full a b k : k < par a b (g_edges g) -> In (Nat.min a b, Nat.max a b, k) (branches g).
  Proof.
    intros Hk. set (bs := filter (bjoins a b) (g_edges g)). set (ks := map (fun x => ekey (fst x)) bs).
    assert (forall x, In x bs -> norm (fst x) = (Nat.min a b, Nat.max a b, ekey (fst x))) as Hn.
    { intros x Hx. apply filter_In in Hx as [_ J]. apply joins_norm in J as [J1 J2]. unfold norm. now rewrite J1, J2. }
    assert (NoDup ks) as N.
    { assert (NoDup (map (fun x => norm (fst x)) bs)) as N by (apply NoDup_map_filter, W).
      assert (map (fun x => norm (fst x)) bs = map (fun k => (Nat.min a b, Nat.max a b, k)) ks) as E by (unfold ks; rewrite map_map; now apply map_ext_in).
      rewrite E in N. now apply NoDup_map_inv in N. }
    assert (incl (seq 0 (par a b (g_edges g))) ks) as I.
    { apply NoDup_length_incl; auto.
      - unfold ks. rewrite map_length, seq_length. unfold par. fold bs. auto.
      - intros i Hi. apply in_map_iff in Hi as (x & <- & Hx). assert (Hx' := Hx). apply filter_In in Hx as [Hx J]. apply joins_norm in J as [J1 J2].
        apply in_seq. assert (Q := w_keys g W x Hx). rewrite (par_eq _ _ a b) in Q by auto. lia. }
    specialize (I k). rewrite in_seq in I. assert (In k ks) as Ik by (apply I; lia). apply in_map_iff in Ik as (x & <- & Hx).
    rewrite <- (Hn x Hx). unfold branches. apply in_map_iff. exists x. split; auto. now apply filter_In in Hx.
  Qed.
  Lemma pair_par p : In p (node_pairs g) -> 1 <= par (fst p) (snd p) (g_edges g) /\ unordered p = p.
  Proof.
    intros H. apply (proj1 (dedup_In _ _)) in H. apply in_map_iff in H as (b & <- & Hb). rewrite unordered_idem. split; auto.
    unfold par. assert (In b (filter (bjoins (fst (unordered (fst (fst b)))) (snd (unordered (fst (fst b))))) (g_edges g))) as I.
    { apply filter_In. split; auto. apply joins_norm. clear. destruct b as [[[x y] k] c]. unfold unordered, src, dst. cbn [fst snd]. split; lia. }
    revert I. set (l := filter _ _). clearbody l. destruct l; [easy|cbn; lia].
  Qed.
  Lemma multi_par e : In e (multi_edges es) -> In e es /\ 2 <= par (src e) (dst e) (g_edges g).
  Proof.
    intros H. apply in_flat_map in H as ([p v] & Hd & He). apply duplicates_In in Hd as [Hb L]. apply by_nodes_In in Hb as [-> Hp].
    cbn [snd] in He. apply filter_In in He as [He Q]. apply (proj1 (eqb_eq _ _)) in Q. split; auto.
    rewrite class_size in L by auto. rewrite <- Q in L. exact L.
  Qed.
  Lemma pairs_es p : In p (node_pairs g) <-> In p (map (fun e => unordered (fst e)) es).
  Proof.
    unfold node_pairs. rewrite dedup_In.
    assert (Permutation (map fst (map norm es)) (map fst (branches g))) as P by (apply Permutation_map, es_perm).
    unfold branches in P. rewrite !map_map in P.
    rewrite (map_ext (fun x => fst (norm x)) (fun e => unordered (fst e))) in P by (intros; now rewrite norm_unfold).
    rewrite (map_ext (fun x : edge * string => fst (norm (fst x))) (fun b => unordered (fst (fst b)))) in P by (intros; now rewrite norm_unfold).
    split; apply Permutation_in; [symmetry|]; exact P.
  Qed.

  (** the classes of parallel branches *)
  Definition classes : list ((nat * nat) * list edge) := map (fun kv => (unordered (fst kv), map norm (snd kv))) (by_nodes es).
  Lemma classes_U : Permutation (List.concat (map snd classes)) (branches g).
  Proof.
    unfold classes. rewrite map_map. cbn. rewrite <- (map_map snd (map norm)), <- concat_map, by_nodes_perm. apply es_perm.
  Qed.
  Lemma NoDup_map_inj {A B} (h : A -> B) l : NoDup l -> (forall x y, In x l -> In y l -> h x = h y -> x = y) -> NoDup (map h l).
  Proof.
    induction 1 as [|x l Hx N IH]; intros I; cbn; constructor.
    - intros Hi. apply in_map_iff in Hi as (y & E & Hy). apply Hx. rewrite (I x y); cbn; auto.
    - apply IH. intros; apply I; cbn; auto.
  Qed.
  Lemma classes_keys : NoDup (map fst classes).
  Proof.
    unfold classes. rewrite map_map. cbn [fst]. rewrite <- (map_map fst unordered). apply NoDup_map_inj; [apply by_nodes_keys|].
    intros p q Hp Hq E. apply in_map_iff in Hp as ([p' v] & <- & Hp). apply in_map_iff in Hq as ([q' w] & <- & Hq). cbn [fst] in *.
    apply by_nodes_In in Hp as [_ Hp]. apply by_nodes_In in Hq as [_ Hq].
    apply in_map_iff in Hp as (e & <- & He). apply in_map_iff in Hq as (f & <- & Hf). now apply es_orient.
  Qed.
  Lemma classes_P : Permutation (map fst classes) (node_pairs g).
  Proof.
    apply NoDup_Permutation; [apply classes_keys|apply dedup_NoDup|]. intros p. rewrite pairs_es. unfold classes. rewrite map_map. cbn [fst].
    rewrite <- (map_map fst unordered), <- (map_map fst unordered es), !in_map_iff. split; intros (q & <- & Hq); exists q; split; auto.
    - apply in_map_iff in Hq as ([q' v] & <- & Hq). now apply by_nodes_In in Hq.
    - now apply by_nodes_has.
  Qed.
  Lemma classes_In p v x : In (p, v) classes -> In x v -> fst x = p.
  Proof.
    intros H Hx. apply in_map_iff in H as ([q w] & E & H). injection E as <- <-. apply in_map_iff in Hx as (e & <- & He). cbn [fst snd] in *.
    apply by_nodes_In in H as [-> _]. apply filter_In in He as [_ He]. apply (proj1 (eqb_eq _ _)) in He. rewrite norm_unfold. cbn. now rewrite He.
  Qed.
  Lemma classes_full p v k : In (p, v) classes -> In (p, k) (branches g) -> In (p, k) v.
  Proof.
    intros H Hk. eapply Permutation_in in Hk; [|symmetry; apply es_perm]. apply in_map_iff in Hk as (e & E & He).
    rewrite norm_unfold in E. injection E as E1 E2. apply in_map_iff in H as ([q w] & E & H). injection E as E3 <-. cbn [fst snd] in *.
    apply by_nodes_In in H as [-> Hq]. apply in_map_iff. exists e. split; [rewrite norm_unfold; congruence|]. apply filter_In. split; auto.
    unfold ofpair. apply eqb_eq. apply in_map_iff in Hq as (f & <- & Hf). apply es_orient; auto. congruence.
  Qed.
  Lemma classes_two : flat_map pairs (map snd classes) = map (map norm) (two_node_loops es).
  Proof.
    rewrite two_node_all. unfold classes. rewrite map_map. cbn [snd]. induction (by_nodes es) as [|[p v] d IH]; auto. cbn [map flat_map snd].
    rewrite map_app, IH, pairs_map. auto.
  Qed.
End Reported.

(** *** the branches of the cycles *)
Lemma sort_nodes_fst e : sort_nodes e = (unordered (fst e), ekey e).
Proof.
  destruct e as [[a b] k]. unfold sort_nodes, unordered, src, dst, ekey. cbn [fst snd]. destruct (a <? b) eqn:E.
  - apply Nat.ltb_lt in E. now rewrite Nat.min_l, Nat.max_r by lia.
  - apply Nat.ltb_ge in E. now rewrite Nat.min_r, Nat.max_l by lia.
Qed.
Lemma combine_close {A} (r : list A) x y : combine (x :: r) (r ++ [y]) = combine (x :: r) r ++ [(last r x, y)].
Proof.
  revert x. induction r as [|a r IH]; intros x; auto. change ((x, a) :: combine (a :: r) (r ++ [y]) = (x, a) :: combine (a :: r) r ++ [(last (a :: r) x, y)]).
  rewrite IH. do 3 f_equal. clear. revert a. induction r as [|b r IH]; intros a; auto. cbn [last] in *. destruct r; auto.
Qed.
Lemma cycle_edges_eq c : cycle_edges c = map (fun p => (unordered p, 0)) (around c).
Proof.
  destruct c as [|a r]; auto. unfold cycle_edges, around. rewrite combine_close, !map_app, map_map. f_equal.
  - apply map_ext. intros p. now rewrite sort_nodes_fst.
  - cbn [map]. rewrite sort_nodes_fst. unfold unordered, ekey. cbn [fst snd]. now rewrite Nat.min_comm, Nat.max_comm.
Qed.
Lemma combine_In2 {A} (l m : list A) p : In p (combine l m) -> In (fst p) l /\ In (snd p) m.
Proof. destruct p as [a b]. intros H. split; [eapply in_combine_l|eapply in_combine_r]; eauto. Qed.
Lemma path_nodup x r : NoDup (x :: r) -> NoDup (map unordered (combine (x :: r) r)).
Proof.
  revert x. induction r as [|y r IH]; intros x N; [constructor|]. apply NoDup_cons_iff in N as [Nx N].
  change (NoDup (unordered (x, y) :: map unordered (combine (y :: r) r))). constructor; [|now apply IH].
  intros H. apply in_map_iff in H as (p & E & Hp). apply combine_In2 in Hp as [H1 H2].
  apply unordered_swap in E as [-> | ->]; cbn in *; tauto.
Qed.
Lemma last_In {A} (r : list A) x : r <> [] -> In (last r x) r.
Proof. induction r as [|a [|b r] IH]; [easy|cbn; auto|]. intros _. right. now apply IH. Qed.
Lemma around_nodup c : NoDup c -> List.length c = 1 \/ 3 <= List.length c -> NoDup (map unordered (around c)).
Proof.
  destruct c as [|a r]; [constructor|]. intros N L. unfold around. rewrite combine_close, map_app. cbn [map].
  destruct r as [|b [|b' r]]; [cbn; constructor; auto; constructor|cbn in L; lia|]. clear L.
  apply NoDup_app_single; [now apply path_nodup|]. intros H. apply in_map_iff in H as (p & E & Hp).
  apply NoDup_cons_iff in N as [Na N]. apply NoDup_cons_iff in N as [Nb N].
  assert (last (b :: b' :: r) a = last (b' :: r) a) as EL by reflexivity. rewrite EL in E. clear EL.
  assert (In (last (b' :: r) a) (b' :: r)) as IL by (apply last_In; easy).
  change (combine (a :: b :: b' :: r) (b :: b' :: r)) with ((a, b) :: combine (b :: b' :: r) (b' :: r)) in Hp.
  destruct Hp as [<-|Hp].
  - apply unordered_swap in E as [E|E].
    + injection E as _ E2. apply Na. rewrite E2. cbn. auto.
    + assert (b = last (b' :: r) a) as E2 by (now injection E). apply Nb. rewrite E2. exact IL.
  - apply combine_In2 in Hp as [H1 H2]. apply unordered_swap in E as [-> | ->]; cbn [fst snd] in *; apply Na; cbn in *; tauto.
Qed.

(** what one branch of a cycle becomes *)
Definition used_as (M : list edge) (e e' : edge) : Prop := e' = e \/ (In e M /\ e' = (fst e, ekey e + 1)).
Definition used_inv (M : list edge) (st : list edge * list edge) : Prop := incl (fst st) M /\ incl (snd st) M.
Lemma use_edge_spec M st e : used_inv M st -> used_inv M (fst (use_edge st e)) /\ used_as M e (snd (use_edge st e)).
Proof.
  destruct st as [used multi]. intros [I1 I2]. unfold use_edge. cbn [fst snd] in *. destruct (mem e used) eqn:E1.
  - apply mem_In in E1. split; [split; auto|]. right. split; auto. destruct e as [[a b] k]. reflexivity.
  - destruct (mem e multi) eqn:E2; [|split; [split; auto|now left]]. apply mem_In in E2. split; [|now left]. split; cbn [fst snd].
    + intros x Hx. apply in_app_or in Hx as [Hx|[<-|[]]]; auto.
    + intros x Hx. apply filter_In in Hx as [Hx _]. auto.
Qed.
Lemma use_edges_spec M es : forall st, used_inv M st -> used_inv M (fst (use_edges st es)) /\ Forall2 (used_as M) es (snd (use_edges st es)).
Proof.
  induction es as [|e r IH]; intros st I; cbn; [split; auto|]. destruct (use_edge_spec M st e I) as [I1 U1].
  destruct (use_edge st e) as [st1 e']. cbn in *. destruct (IH st1 I1) as [I2 U2]. destruct (use_edges st1 r) as [st2 r']. cbn in *. auto.
Qed.
Lemma use_cycles_spec M cs : forall st, used_inv M st -> Forall2 (fun c l => Forall2 (used_as M) (cycle_edges c) l) cs (use_cycles st cs).
Proof.
  induction cs as [|c r IH]; intros st I; cbn; [constructor|]. destruct (use_edges_spec M (cycle_edges c) st I) as [I1 U1].
  destruct (use_edges st (cycle_edges c)) as [st1 l]. cbn in *. constructor; auto.
Qed.

Section Cycles.
  Context (g : mgraph) (W : wfg g).
  Let es := map fst (edge_map g).
  Let M := multi_edges es.
  Lemma cycles_spec cb : Forall2 (fun c l => Forall2 (used_as M) (cycle_edges c) l) cb (use_cycles ([], M) cb).
  Proof. apply use_cycles_spec. split; [intros x []|apply incl_refl]. Qed.
  Lemma Forall2_map_l {A B D} (R : B -> D -> Prop) (h : A -> B) l m : Forall2 R (map h l) m <-> Forall2 (fun a => R (h a)) l m.
  Proof. split; revert m; induction l as [|a l IH]; intros m F; inversion F; subst; cbn; constructor; auto. Qed.
  (** the branches of one cycle: one for each pair, in the circuit *)
  Lemma cycle_used c l : is_cycle g c -> Forall2 (used_as M) (cycle_edges c) l ->
    map fst l = map unordered (around c) /\ Forall (fun e => In e (branches g) /\ norm e = e) l.
  Proof.
    intros (_ & _ & HP). rewrite cycle_edges_eq, Forall2_map_l.
    induction 1 as [|p e ps l U F IH]; [split; constructor|]. destruct IH as [IH1 IH2]; [intros q Hq; apply HP; now right|].
    assert (fst e = unordered p) as E1 by (destruct U as [->|[_ ->]]; reflexivity).
    split; [cbn; now rewrite E1, IH1|]. constructor; auto.
    split; [|rewrite norm_unfold, E1, unordered_idem, <- E1; now destruct e].
    destruct (pair_par g (unordered p)) as [L _]; [apply HP; now left|].
    destruct U as [->|[HM ->]].
    - apply (keys_full g W) in L. unfold unordered in *. cbn [fst snd] in L.
      replace (Nat.min (Nat.min (fst p) (snd p)) (Nat.max (fst p) (snd p))) with (Nat.min (fst p) (snd p)) in L by lia.
      replace (Nat.max (Nat.min (fst p) (snd p)) (Nat.max (fst p) (snd p))) with (Nat.max (fst p) (snd p)) in L by lia. exact L.
    - apply (multi_par g W) in HM as [_ L2]. apply (keys_full g W) in L2. unfold unordered, src, dst, ekey in *. cbn [fst snd] in *.
      replace (Nat.min (Nat.min (fst p) (snd p)) (Nat.max (fst p) (snd p))) with (Nat.min (fst p) (snd p)) in L2 by lia.
      replace (Nat.max (Nat.min (fst p) (snd p)) (Nat.max (fst p) (snd p))) with (Nat.max (fst p) (snd p)) in L2 by lia. exact L2.
  Qed.
  Lemma cycle_norm c l : is_cycle g c -> Forall2 (used_as M) (cycle_edges c) l -> map norm l = l.
  Proof. intros Hc HF. destruct (cycle_used c l Hc HF) as [_ F]. clear -F. induction F as [|e l [_ E] F IH]; cbn; congruence. Qed.
  Lemma cycle_nodup c l : is_cycle g c -> Forall2 (used_as M) (cycle_edges c) l -> NoDup (map fst l).
  Proof. intros Hc HF. destruct (cycle_used c l Hc HF) as [-> _]. apply around_nodup; apply Hc. Qed.

  Lemma xsum_unique {X} `{EqB X} (v : list X) (f : X -> bool) a : NoDup v -> In a v -> f a = true -> (forall x, In x v -> f x = true -> x = a) -> xsum v f = true.
  Proof.
    intros N I Fa U. rewrite (xsum_ext v f (fun x => mem x [a] && f x)); [now rewrite (xsum_one v a f)|].
    intros x Hx. destruct (f x) eqn:E; [|now rewrite andb_false_r]. rewrite (U x Hx E). cbn. now rewrite eqb_refl.
  Qed.
  Lemma lift_class c l p v : is_cycle g c -> Forall2 (used_as M) (cycle_edges c) l -> In (p, v) (classes g) ->
    xsum v (fun x => mem x (map norm l)) = mem p (map unordered (around c)).
  Proof.
    intros Hc HF Hp. rewrite (cycle_norm c l Hc HF). assert (N := cycle_nodup c l Hc HF).
    destruct (cycle_used c l Hc HF) as [E F]. rewrite <- E. destruct (mem p (map fst l)) eqn:Em.
    - apply mem_In in Em. apply in_map_iff in Em as (e & Ee & He).
      apply xsum_unique with (a := e).
      + apply (class_nodup (classes g)) with p; auto. eapply Permutation_NoDup; [symmetry; apply (classes_U g W)|]. apply W.
      + rewrite Forall_forall in F. destruct (F e He) as [Hb _]. destruct e as [q k]. cbn in Ee. subst q. now apply (classes_full g W).
      + now apply mem_In.
      + intros x Hx Hm. apply mem_In in Hm. assert (Ex := classes_In g p v x Hp Hx).
        clear -N He Hm Ee Ex. rewrite <- Ex in Ee. clear Ex.
        induction l as [|y l IH]; [easy|]. cbn in N. apply NoDup_cons_iff in N as [Ny N].
        destruct He as [<-|He], Hm as [<-|Hm]; auto; exfalso; apply Ny; [rewrite Ee|rewrite <- Ee]; now apply in_map.
    - apply xsum_false. intros x Hx. destruct (mem x l) eqn:Ex; auto. apply mem_In in Ex. exfalso.
      assert (mem p (map fst l) = true); [|congruence]. apply mem_In. rewrite <- (classes_In g p v x Hp Hx). now apply in_map.
  Qed.
End Cycles.

(** *** basis *)
Lemma basis_perm {X} `{EqB X} (ends : X -> nat * nat) U U' L : Permutation U U' -> cycle_space_basis ends U L -> cycle_space_basis ends U' L.
Proof.
  intros P [B1 B2]. split.
  - intros l Hl v. rewrite <- (xsum_perm U U' _ P). now apply B1.
  - intros f F. destruct (B2 f) as (cs & Lc & C1 & C2).
    + intros v. rewrite (xsum_perm U U' _ P). apply F.
    + exists cs. repeat split; auto.
      * intros x Hx. apply C1. eapply Permutation_in; [symmetry; exact P|auto].
      * intros cs' L' C'. apply C2; auto. intros x Hx. apply C'. eapply Permutation_in; [exact P|auto].
Qed.
Lemma loops_basis g cb : wfg g -> is_cycle_basis g cb ->
  cycle_space_basis fst (branches g) (map (map norm) (loops_of (map fst (edge_map g)) cb)).
Proof.
  intros W [HC HB]. unfold loops_of. rewrite map_app, <- classes_two.
  apply (basis_perm fst (List.concat (map snd (classes g)))); [now apply classes_U|].
  apply (lift_basis fst (fun p => p) (classes g)) with (cyc := map (fun c => map unordered (around c)) cb).
  - now apply classes_keys.
  - eapply Permutation_NoDup; [symmetry; apply (classes_U g W)|]. apply W.
  - apply classes_In.
  - assert (HF := cycles_spec g cb). revert HC HF. generalize (use_cycles ([], multi_edges (map fst (edge_map g))) cb). clear HB.
    intros ls HC HF. induction HF as [|c l cb ls H1 HF IH]; cbn; constructor.
    + intros p v Hp. apply (lift_class g W c l p v); auto. apply HC. now left.
    + apply IH. intros c' Hc'. apply HC. now right.
  - eapply basis_perm; [symmetry; now apply classes_P|exact HB].
Qed.
