(** The loops of the loop graph, their adjacency and their number. *)
From Coq Require Import List Bool String Arith Permutation Lia.
From Verif Require SweepProofs.
From Verif Require Import Prelude PreludeFacts Graph GraphSpec GraphView GraphForest GraphWf GraphGround GraphLoops GraphCircuit GraphState GraphOps GraphProofs
  SymbolicProofs LoopGraph LoopGraphSpec LoopGraphAlg LoopGraphProofs.
Import ListNotations.
Open Scope string_scope.
Open Scope list_scope.
Open Scope nat_scope.
#[local] Arguments xorb : simpl never.

(** *** closed *)
Lemma degree_parity E v : Nat.even (degree E v) = negb (xsum E (fun e => touches v (fst e))).
Proof.
  induction E as [|e E IH]; auto. cbn [degree fold_right xsum]. fold (degree E v). rewrite Nat.even_add, IH.
  change (touches v (fst e)) with (xorb (src e =? v) (dst e =? v)). clear IH. set (z := xsum E _). clearbody z.
  destruct (src e =? v), (dst e =? v), z; reflexivity.
Qed.
Lemma closed_parity E : closed E <-> forall v, xsum E (fun e => touches v (fst e)) = false.
Proof.
  unfold closed. split; intros H v; specialize (H v); rewrite degree_parity in *; [|now rewrite H].
  now destruct (xsum E _).
Qed.
Lemma around_even c v : xsum (around c) (touches v) = false.
Proof.
  destruct c as [|a r]; auto. unfold around.
  assert (forall l m : list nat, List.length l = List.length m -> xsum (combine l m) (touches v) = xorb (xsum l (fun x => x =? v)) (xsum m (fun x => x =? v))) as H.
  { induction l as [|x l IH]; intros [|y m] E; try discriminate E; auto. cbn [combine xsum]. rewrite IH by (cbn in E; lia). unfold touches. cbn [fst snd].
    destruct (x =? v), (y =? v), (xsum l _), (xsum m _); auto. }
  rewrite H by (rewrite app_length; cbn; lia). rewrite (xsum_perm (r ++ [a]) (a :: r)) by (apply Permutation_app_comm). apply xorb_nilpotent.
Qed.
Section Valid.
  Context (g : mgraph) (W : wfg g).
  Let es := map fst (edge_map g).
  Lemma two_node_form l : In l (two_node_loops es) -> exists e f, l = [e; f] /\ In e es /\ In f es /\ norm e <> norm f /\ fst e = fst f /\ 2 <= par (src e) (dst e) (g_edges g).
  Proof.
    intros H. apply in_flat_map in H as ([p v] & Hd & Hl). apply duplicates_In in Hd as [Hb L]. apply by_nodes_In in Hb as [-> Hp]. cbn [snd] in *.
    assert (NoDup (filter (ofpair p) es)) as N by (apply NoDup_filter, (NoDup_map_inv norm), es_norm; auto).
    destruct (pairs_form _ _ N Hl) as (e & f & -> & He & Hf & Hn). exists e, f. split; auto.
    apply filter_In in He as [He Ee]. apply filter_In in Hf as [Hf Ef]. apply (proj1 (eqb_eq _ _)) in Ee. apply (proj1 (eqb_eq _ _)) in Ef.
    repeat split; auto; [|congruence|].
    - intros E. apply Hn. rewrite !norm_unfold in E. injection E as E1 E2 E3. destruct e as [q k], f as [q' k']. cbn in *. congruence.
    - unfold es in L. rewrite (class_size g W) in L; auto. unfold src, dst. now rewrite Ee.
  Qed.
  Lemma loop_cases cb l : In l (loops_of es cb) -> (forall c, In c cb -> is_cycle g c) ->
    In l (two_node_loops es) \/ exists c, is_cycle g c /\ Forall2 (used_as (multi_edges es)) (cycle_edges c) l.
  Proof.
    intros H HC. apply in_app_or in H as [H|H]; auto. right. destruct (Forall2_In_r _ _ _ _ (cycles_spec g cb) H) as (c & Hc & HF). eauto.
  Qed.
  Lemma loop_valid cb l : (forall c, In c cb -> is_cycle g c) -> In l (loops_of es cb) ->
    NoDup (map norm l) /\ (forall e, In e l -> In (norm e) (branches g)) /\ closed l.
  Proof.
    intros HC H. destruct (loop_cases cb l H HC) as [H2|(c & Hc & HF)].
    - destruct (two_node_form l H2) as (e & f & -> & He & Hf & Hn & Ef & _). repeat split.
      + cbn. constructor; [intros [E|[]]; congruence|]. constructor; [easy|constructor].
      + intros x Hx. eapply Permutation_in; [apply (es_perm g W)|]. apply in_map. destruct Hx as [<-|[<-|[]]]; auto.
      + apply closed_parity. intros v. cbn [xsum]. rewrite Ef, xorb_false_r. apply xorb_nilpotent.
    - assert (En := cycle_norm g W c l Hc HF). assert (N := cycle_nodup g W c l Hc HF). destruct (cycle_used g W c l Hc HF) as [E F]. repeat split.
      + rewrite En. now apply (NoDup_map_inv fst).
      + rewrite Forall_forall in F. intros e He. destruct (F e He) as [Hb ->]. exact Hb.
      + apply closed_parity. intros v. transitivity (xsum (map fst l) (touches v)); [symmetry; exact (xsum_map fst l (touches v))|]. rewrite E, xsum_map.
        rewrite (xsum_ext _ _ (touches v)) by (intros; apply unordered_touch). apply around_even.
  Qed.
  (** number of loops *)
  Lemma pairs_length {X} (v : list X) : v <> [] -> List.length (pairs v) + 1 = List.length v.
  Proof. induction v as [|a [|b r] IH]; [easy|auto|]. intros _. cbn [pairs List.length] in *. rewrite <- IH by easy. lia. Qed.
  Lemma loops_number cb : List.length (loops_of es cb) + List.length (node_pairs g) = List.length (branches g) + List.length cb.
  Proof.
    unfold loops_of, es. rewrite app_length. rewrite <- (Verif.SweepProofs.Forall2_length _ _ _ (cycles_spec g cb)).
    rewrite <- (Permutation_length (classes_P g W)), <- (Permutation_length (classes_U g W)).
    rewrite <- (map_length (map norm) (two_node_loops (map fst (edge_map g)))). rewrite <- classes_two.
    assert (forall v, In v (map snd (classes g)) -> v <> []) as HN.
    { intros v Hv. apply in_map_iff in Hv as ([p w] & <- & Hp). apply in_map_iff in Hp as ([q u] & E & Hq). injection E as <- <-. cbn [snd].
      apply by_nodes_In in Hq as [-> Hq]. apply in_map_iff in Hq as (e & <- & He). intros Z. apply map_eq_nil in Z.
      assert (In e (filter (ofpair (fst e)) (map fst (edge_map g)))) as I by (apply filter_In; split; auto; apply eqb_refl). now rewrite Z in I. }
    rewrite map_length, <- (map_length snd (classes g)). clear -HN. induction (map snd (classes g)) as [|v l IH]; [cbn; lia|].
    cbn [flat_map List.length List.concat]. rewrite !app_length. assert (Q := pairs_length v (HN v (or_introl eq_refl))).
    assert (IH' := IH (fun w Hw => HN w (or_intror Hw))). lia.
  Qed.
End Valid.

(** *** adjacency *)
Lemma adjacency_In ls i j es : In ((i, j), es) (adjacency ls) <->
  i < j < List.length ls /\ es <> [] /\ es = filter (fun k => mem k (nth j ls [])) (nth i ls []).
Proof.
  unfold adjacency. rewrite filter_In, in_flat_map. cbn [snd]. split.
  - intros [(i' & Hi & H) Hn]. apply in_map_iff in H as (j' & E & Hj). injection E as -> -> <-. rewrite in_seq in Hi, Hj.
    split; [lia|]. split; auto. intros Z. now rewrite Z in Hn.
  - intros (L & Hn & ->). split.
    + exists i. split; [apply in_seq; lia|]. apply in_map_iff. exists j. split; auto. apply in_seq. lia.
    + revert Hn. destruct (filter _ _); easy.
Qed.
Lemma adjacency_get ls i j : i < j < List.length ls ->
  let es := filter (fun k => mem k (nth j ls [])) (nth i ls []) in
  dget (adjacency ls) (i, j) = if es then None else Some es.
Proof.
  intros L es. destruct (dget (adjacency ls) (i, j)) as [v|] eqn:G.
  - apply dget_In in G. apply adjacency_In in G as (_ & Hn & E). fold es in E. subst v. destruct es; [easy|auto].
  - destruct es as [|x r] eqn:E; auto. exfalso. assert (In (i, j) (dkeys (adjacency ls))) as K.
    { apply in_map_iff. exists ((i, j), es). split; auto. apply adjacency_In. repeat split; try lia. now rewrite E. }
    apply dkeys_dget in K as (v & K). congruence.
Qed.
Lemma adjacency_sound ls i j es : dget (adjacency ls) (i, j) = Some es ->
  exists li lj, i < j /\ nth_error ls i = Some li /\ nth_error ls j = Some lj /\ es <> [] /\ forall e, In e es <-> In e li /\ In e lj.
Proof.
  intros G. apply dget_In in G. apply adjacency_In in G as (L & Hn & ->).
  exists (nth i ls []), (nth j ls []). split; [lia|]. split; [apply nth_error_nth'; lia|]. split; [apply nth_error_nth'; lia|]. split; auto.
  intros e. now rewrite filter_In, mem_In.
Qed.
(** parallel branches reported with the smaller node first *)
Lemma ascending_norm g cb l e : wfg g -> (forall c, In c cb -> is_cycle g c) ->
  (forall a b, 2 <= parallel g a b -> before (g_nodes g) a b -> a <= b) ->
  In l (loops_of (map fst (edge_map g)) cb) -> In e l -> norm e = e.
Proof.
  intros W HC HA H He. destruct (loop_cases g cb l H HC) as [H2|(c & Hc & HF)].
  - assert (forall x, In x (map fst (edge_map g)) -> 2 <= par (src x) (dst x) (g_edges g) -> norm x = x) as Q.
    { intros x Hx Lx. apply in_map_iff in Hx as (b & <- & Hb). destruct (edge_map_In g b W Hb) as [Bb _]. rewrite <- parallel_par in Lx.
      specialize (HA _ _ Lx Bb). unfold norm. rewrite Nat.min_l, Nat.max_r by auto. destruct (fst b) as [[x y] k]. reflexivity. }
    destruct (two_node_form g W l H2) as (x & y & -> & Hx & Hy & _ & E & L). destruct He as [<-|[<-|[]]]; apply Q; auto.
    unfold src, dst in *. now rewrite <- E.
  - destruct (cycle_used g W c l Hc HF) as [_ F]. rewrite Forall_forall in F. now apply F.
Qed.
Lemma adjacency_exact g cb i j li lj : wfg g -> (forall c, In c cb -> is_cycle g c) ->
  (forall a b, 2 <= parallel g a b -> before (g_nodes g) a b -> a <= b) -> let ls := loops_of (map fst (edge_map g)) cb in
  i < j -> nth_error ls i = Some li -> nth_error ls j = Some lj ->
  match dget (adjacency ls) (i, j) with
  | Some es => es <> [] /\ forall e, In e es <-> In e li /\ exists f, In f lj /\ same_branch e f
  | None => forall e f, In e li -> In f lj -> ~ same_branch e f
  end.
Proof.
  intros W HC HA ls L Hi Hj.
  assert (forall e f, In e li -> In f lj -> same_branch e f -> f = e) as HU.
  { intros e f He Hf E. apply norm_eq in E. rewrite <- (ascending_norm g cb li e), <- (ascending_norm g cb lj f); auto; eapply nth_error_In; eauto. }
  assert (j < List.length ls) by (apply nth_error_Some; congruence).
  rewrite adjacency_get by lia. rewrite (nth_error_nth ls i [] Hi), (nth_error_nth ls j [] Hj).
  assert (forall e, In e (filter (fun k => mem k lj) li) <-> In e li /\ exists f, In f lj /\ same_branch e f) as HI.
  { intros e. rewrite filter_In, mem_In. split; intros [He Hf]; split; auto; [exists e; split; auto; now left|].
    destruct Hf as (f & Hf & E). rewrite <- (HU e f); auto. }
  destruct (filter (fun k => mem k lj) li) as [|x r].
  - intros e f He Hf E. apply (HI e). split; eauto.
  - split; [easy|exact HI].
Qed.

(** *** C103 *)
Lemma shared_fold k l (ls : dict nat (list edge)) acc e :
  In e (fold_left (fun acc x => if Nat.eqb (fst x) k then acc
     else if existsb (fun e => mem e (snd x)) l then acc ++ filter (fun e => negb (mem e acc)) (dedup (snd x)) else acc) ls acc) <->
  In e acc \/ exists k' l', In (k', l') ls /\ k' <> k /\ In e l' /\ exists f, In f l /\ In f l'.
Proof.
  revert acc. induction ls as [|[k' l'] ls IH]; intros acc; cbn [fold_left fst snd].
  - split; auto. intros [H|(k' & l' & [] & _)]. exact H.
  - rewrite IH. destruct (Nat.eqb_spec k' k) as [->|N].
    + split; intros [H|(k2 & l2 & H & R)]; auto; right; exists k2, l2; split; auto; [now right|].
      destruct H as [H|H]; auto. injection H as <- <-. now destruct R.
    + destruct (existsb (fun e => mem e l') l) eqn:E.
      * apply existsb_exists in E as (f & Hf & Hm). apply mem_In in Hm. rewrite in_app_iff, filter_In, dedup_In. split.
        -- intros [[H|[H _]]|(k2 & l2 & H & R)]; auto; right; [exists k', l'|exists k2, l2]; cbn; intuition eauto.
        -- intros [H|(k2 & l2 & [H|H] & R)]; auto.
           ++ injection H as <- <-. destruct (mem e acc) eqn:Ea; [apply mem_In in Ea; auto|]. left. right. split; [tauto|auto].
           ++ right. exists k2, l2. auto.
      * split; intros [H|(k2 & l2 & H & R)]; auto; right; exists k2, l2; split; auto; [now right|].
        destruct H as [H|H]; auto. injection H as <- <-. destruct R as (_ & _ & f & Hf & Hf'). exfalso.
        assert (existsb (fun e => mem e l') l = true); [|congruence]. apply existsb_exists. exists f. split; auto. now apply mem_In.
Qed.
Lemma shared_nodup k l (ls : dict nat (list edge)) acc : NoDup acc ->
  NoDup (fold_left (fun acc x => if Nat.eqb (fst x) k then acc
     else if existsb (fun e => mem e (snd x)) l then acc ++ filter (fun e => negb (mem e acc)) (dedup (snd x)) else acc) ls acc).
Proof.
  revert acc. induction ls as [|[k' l'] ls IH]; intros acc N; cbn [fold_left fst snd]; auto.
  apply IH. destruct (k' =? k); auto. destruct (existsb _ l); auto.
  apply GraphCircuit.NoDup_app'; auto.
  - apply NoDup_filter, dedup_NoDup.
  - intros x Hx Hy. apply filter_In in Hy as [_ Hy]. rewrite negb_true_iff in Hy. apply mem_In in Hx. congruence.
Qed.
Lemma shared_spec s k : circuit s -> exists ls, c_loops s = Some ls /\
  match dget ls k with
  | None => getEdgesSharedWithLoop s k = Err ValueError
  | Some l => exists r, getEdgesSharedWithLoop s k = Ok r /\ NoDup r /\
      forall e, In e r <-> In e l \/ exists k' l', dget ls k' = Some l' /\ In e l' /\ exists f f', In f l /\ In f' l' /\ same_branch f f'
  end.
Proof.
  intros HC. assert (HD := circuit_derived s HC). destruct (loops_exist s HD) as (lst & ts & E1 & _ & HL & _ & Hts).
  exists (l_loops lst). split; auto. unfold getEdgesSharedWithLoop. rewrite E1. destruct (dget (l_loops lst) k) as [l|] eqn:G; auto.
  eexists. split; [reflexivity|]. split; [apply shared_nodup, dedup_NoDup|].
  assert (NoDup (dkeys (l_loops lst))) as NK by (rewrite (lo_keys _ _ _ HL); apply seq_NoDup).
  intros e. rewrite shared_fold, dedup_In. split.
  - intros [H|(k' & l' & H & N & He & f & Hf & Hf')]; auto. right. exists k', l'. split; [now apply In_dget|]. split; auto. exists f, f. repeat split; auto. now left.
  - intros [H|(k' & l' & H & He & f & f' & Hf & Hf' & E)]; auto. destruct (Nat.eq_dec k' k) as [->|N].
    + left. congruence.
    + right. exists k', l'. split; [now apply dget_In|]. repeat split; auto. exists f. split; auto.
      assert (f = f') as ->; auto. apply (wcs_unique s); auto; [| |now apply norm_eq]; apply loop_in_wc; auto; [exists (l_loops lst), k, l|exists (l_loops lst), k', l']; auto.
Qed.

(** *** examples *)
Lemma triangle_basis g c p q r : node_pairs g = [p; q; r] -> map unordered (around c) = [p; q; r] \/ map unordered (around c) = [p; r; q] ->
  is_cycle g c -> (forall f, even_at_nodes (fun x => x) [p; q; r] f -> f p = f q /\ f q = f r) -> is_cycle_basis g [c].
Proof.
  intros E EA HC HF. split; [intros c' [<-|[]]; exact HC|]. rewrite E. cbn [map].
  assert (forall x, In x [p; q; r] -> mem x (map unordered (around c)) = true) as M by (intros x Hx; apply mem_In; destruct EA as [-> | ->]; cbn in *; tauto).
  split.
  - intros l [<-|[]] v. transitivity (xsum [p; q; r] (touches v)); [apply xsum_ext; intros x Hx; now rewrite M|].
    assert (Permutation [p; q; r] (map unordered (around c))) as P by (destruct EA as [-> | ->]; [auto|apply perm_skip, perm_swap]).
    rewrite (xsum_perm _ _ _ P), xsum_map, (xsum_ext _ _ (touches v)) by (intros; apply unordered_touch). apply around_even.
  - intros f F. destruct (HF f F) as [E1 E2]. exists [f p]. split; auto. 
    assert (forall b x, In x [p; q; r] -> comb [b] [map unordered (around c)] x = b) as Cb.
    { intros b x Hx. change (xorb (b && mem x (map unordered (around c))) false = b). rewrite M by auto. now rewrite andb_true_r, xorb_false_r. }
    split.
    + intros x Hx. rewrite Cb by auto. destruct Hx as [<-|[<-|[<-|[]]]]; congruence.
    + intros [|b [|]] L H; try discriminate L. f_equal. rewrite (H p), Cb by (cbn; auto). reflexivity.
Qed.
Lemma xorb3 a b : xorb a (xorb b false) = false -> a = b.
Proof. destruct a, b; auto. Qed.
Lemma tri_even f p q r : (p = (0, 1) /\ q = (1, 2) /\ r = (0, 2)) \/ (p = (0, 1) /\ q = (0, 2) /\ r = (1, 2)) ->
  even_at_nodes (fun x : nat * nat => x) [p; q; r] f -> f p = f q /\ f q = f r.
Proof.
  intros C F. assert (H0 := F 0). assert (H1 := F 1). assert (H2 := F 2). clear F.
  destruct C as [(-> & -> & ->) | (-> & -> & ->)]; unfold touches in *; cbn in *; rewrite ?andb_false_r, ?andb_true_r in *;
  destruct (f (0, 1)), (f (0, 2)), (f (1, 2)); cbv in *; auto; discriminate.
Qed.
Ltac tri := intros f; apply tri_even; auto 10.
Definition Lpar := [B 0 1 "L1"; B 1 2 "L2"; B 0 2 "I1"; B 0 1 "C1"].
Lemma Lpar_circuit : circuit (grun cg_new Lpar).
Proof. last_branch [B 0 1 "L1"; B 1 2 "L2"; B 0 2 "I1"] 0 1 "C1". Qed.
Lemma triangle1 g : node_pairs g = [(0, 1); (1, 2); (0, 2)] -> is_cycle_basis g [[0; 1; 2]].
Proof.
  intros E. apply (triangle_basis _ _ (0, 1) (1, 2) (0, 2)); [exact E|left; reflexivity| |tri].
  split; [repeat constructor; cbn; intuition discriminate|]. split; [right; cbn; auto|]. rewrite E.
  intros p Hp. repeat (destruct Hp as [<-|Hp]; [cbn; auto|]). destruct Hp.
Qed.
Lemma triangle2 g : node_pairs g = [(0, 1); (0, 2); (1, 2)] -> is_cycle_basis g [[1; 0; 2]].
Proof.
  intros E. apply (triangle_basis _ _ (0, 1) (0, 2) (1, 2)); [exact E|left; reflexivity| |tri].
  split; [repeat constructor; cbn; intuition discriminate|]. split; [right; cbn; auto|]. rewrite E.
  intros p Hp. repeat (destruct Hp as [<-|Hp]; [cbn; auto|]). destruct Hp.
Qed.
Lemma Lpar_basis : is_cycle_basis (c_graph (grun cg_new Lpar)) [[0; 1; 2]].
Proof. apply triangle1. vm_compute. reflexivity. Qed.
Definition Ldesc := [B 1 0 "L1"; B 1 0 "C1"; B 0 2 "L2"; B 1 2 "L3"].
Lemma Ldesc_circuit : circuit (grun cg_new Ldesc).
Proof. last_branch [B 1 0 "L1"; B 1 0 "C1"; B 0 2 "L2"] 1 2 "L3". Qed.
Lemma Ldesc_basis : is_cycle_basis (c_graph (grun cg_new Ldesc)) [[1; 0; 2]].
Proof. apply triangle2. vm_compute. reflexivity. Qed.
Lemma Ldesc_loops : loops_map (grun cg_new Ldesc) [[1; 0; 2]] = [[(1, 0, 0); (1, 0, 1)]; [(0, 1, 0); (0, 2, 0); (1, 2, 0)]].
Proof. vm_compute. reflexivity. Qed.
Lemma C102_counter : exists s cb i j li lj e f, circuit s /\ is_cycle_basis (c_graph s) cb /\ i < j /\
  nth_error (loops_map s cb) i = Some li /\ nth_error (loops_map s cb) j = Some lj /\ In e li /\ In f lj /\ same_branch e f /\
  dget (adjacency (loops_map s cb)) (i, j) = None.
Proof.
  exists (grun cg_new Ldesc), [[1; 0; 2]], 0, 1, [(1, 0, 0); (1, 0, 1)], [(0, 1, 0); (0, 2, 0); (1, 2, 0)], (1, 0, 0), (0, 1, 0).
  split; [apply Ldesc_circuit|]. split; [apply Ldesc_basis|]. rewrite Ldesc_loops. cbn [nth_error]. repeat split; auto; [cbn; auto|cbn; auto|now right].
Qed.
Lemma Lpar_ascending : forall a b, 2 <= parallel (c_graph (grun cg_new Lpar)) a b -> before (g_nodes (c_graph (grun cg_new Lpar))) a b -> a <= b.
Proof.
  intros a b _. assert (g_nodes (c_graph (grun cg_new Lpar)) = [0; 1; 2]) as -> by (vm_compute; reflexivity).
  intros (l1 & l2 & E & H). destruct l1 as [|x [|y [|z l1]]]; [| | |destruct l1; discriminate E]; inversion E; subst; cbn in H; lia.
Qed.
Definition Lshare := [B 0 1 "L1"; B 1 2 "L2"; B 0 2 "I1"; B 2 3 "L3"; B 3 0 "L4"; B 3 4 "L5"; B 4 5 "L6"; B 3 5 "L7"].
Lemma Lshare_ok : circuit (grun cg_new Lshare) /\ exists ls l, c_loops (grun cg_new Lshare) = Some ls /\ List.length ls = 3 /\ dget ls 0 = Some l /\
  exists r, getEdgesSharedWithLoop (grun cg_new Lshare) 0 = Ok r /\ List.length r = 5 /\ List.length l = 3.
Proof.
  split; [last_branch [B 0 1 "L1"; B 1 2 "L2"; B 0 2 "I1"; B 2 3 "L3"; B 3 0 "L4"; B 3 4 "L5"; B 4 5 "L6"] 3 5 "L7"|].
  do 2 eexists. split; [vm_compute; reflexivity|]. split; [reflexivity|]. split; [reflexivity|]. eexists. split; [vm_compute; reflexivity|]. auto.
Qed.
