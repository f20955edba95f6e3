(** The capacitance matrix as a bilinear form (C45, C46). *)
From Coq Require Import List Bool String Ascii Arith ZArith Reals Permutation Lra Lia.
From Verif Require Import Prelude PreludeFacts Mat MatFacts Graph GraphSpec GraphView GraphWf GraphState GraphMaps GraphOps Symbolic SymbolicSpec RSum SymbolicInv.
Import ListNotations.
Open Scope string_scope.
Open Scope list_scope.
Open Scope nat_scope.

Lemma term_eqb_eq a b : term_eqb a b = true -> a = b.
Proof.
  destruct a, b; cbn; try discriminate; rewrite ?andb_true_iff, ?String.eqb_eq; intros; try (f_equal; tauto); try congruence.
Qed.
Lemma lval_ladd val l t z : lval val (ladd l t z) = (lval val l + IZR z * tval val t)%R.
Proof.
  induction l as [|[t' z'] l IH]; cbn [ladd].
  - destruct (Z.eqb_spec z 0) as [->|]; cbn; ring.
  - destruct (term_eqb t t') eqn:E.
    + apply term_eqb_eq in E as ->. destruct (Z.eqb_spec (z' + z) 0) as [E|E]; cbn [lval fold_right fst snd].
      * assert (Hz : IZR z = (- IZR z')%R) by (rewrite <- opp_IZR; f_equal; lia). rewrite Hz. fold (lval val l). ring.
      * rewrite plus_IZR. fold (lval val l). ring.
    + cbn [lval fold_right fst snd]. fold (lval val (ladd l t z)). rewrite IH. fold (lval val l). ring.
Qed.
Lemma index_of_spec {K} `{EqB K} (x : K) l d : forall i, index_of x l = Ok i -> i < List.length l /\ nth i l d = x.
Proof.
  induction l as [|y l IH]; cbn; intros i Hi; [discriminate|].
  destruct (eqb x y) eqn:E.
  - injection Hi as <-. apply (proj1 (eqb_eq _ _)) in E. split; [lia|auto].
  - destruct (index_of x l) as [k|]; [|discriminate]. injection Hi as <-. destruct (IH k eq_refl). split; [lia|auto].
Qed.
Lemma index_of_total {K} `{EqB K} (x : K) l : In x l -> exists i, index_of x l = Ok i.
Proof.
  induction l as [|y l IH]; [easy|]. cbn. intros [->|Hi].
  - rewrite eqb_refl. eauto.
  - destruct (eqb x y); eauto. destruct (IH Hi) as (i & ->). cbn. eauto.
Qed.
Lemma foldM_app {A S} (f : S -> A -> res S) l l' s : foldM f (l ++ l') s = bind (foldM f l s) (foldM f l').
Proof. revert s. induction l as [|x l IH]; intros s; cbn; auto. destruct (f s x); cbn; auto. Qed.
Lemma foldM_inv {A S} (P : S -> Prop) (f : S -> A -> res S) l : forall s s', (forall s x s', In x l -> P s -> f s x = Ok s' -> P s') -> P s -> foldM f l s = Ok s' -> P s'.
Proof.
  induction l as [|x l IH]; cbn; intros s s' Hf Hs E; [injection E as <-; auto|].
  destruct (f s x) as [s1|] eqn:E1; [|discriminate]. cbn in E. apply (IH s1 s'); eauto.
Qed.
Lemma foldM_total {A S} (P : S -> Prop) (f : S -> A -> res S) l : forall s, (forall s x, In x l -> P s -> exists s', f s x = Ok s' /\ P s') -> P s -> exists s', foldM f l s = Ok s' /\ P s'.
Proof.
  induction l as [|x l IH]; cbn; intros s Hf Hs; eauto. destruct (Hf s x) as (s1 & -> & H1); auto. cbn. apply IH; auto.
Qed.
Lemma enumerate_In {A} (l : list A) d i x : In (i, x) (enumerate l) -> i < List.length l /\ nth i l d = x.
Proof.
  unfold enumerate. intros H. assert (G : forall l k i x, In (i, x) (combine (seq k (List.length l)) l) -> k <= i < k + List.length l /\ nth (i - k) l d = x).
  { clear. induction l as [|y l IH]; intros k i x; cbn; [easy|]. intros [H|H].
    - injection H as <- <-. split; [lia|]. rewrite Nat.sub_diag. auto.
    - apply IH in H as [H1 H2]. split; [lia|]. replace (i - k) with (S (i - S k)) by lia. auto. }
  apply G in H as [H1 H2]. rewrite Nat.sub_0_r in H2. split; [lia|auto].
Qed.
Lemma enumerate_snd {A} (l : list A) : map snd (enumerate l) = l.
Proof. unfold enumerate. generalize 0. induction l as [|x l IH]; intros k; cbn; auto. f_equal; auto. Qed.
Lemma remove1_In n l : NoDup l -> forall x, In x (remove1 n l) <-> In x l /\ x <> n.
Proof.
  induction l as [|y l IH]; cbn; intros Hn x; [tauto|]. apply NoDup_cons_iff in Hn as [Hy Hn].
  destruct (Nat.eqb_spec n y) as [->|Hne]; cbn.
  - split; [intros H; split; auto; intros ->; auto|]. intros [[->|H] H']; auto. congruence.
  - rewrite IH by auto. split; [intros [->|[H1 H2]]; auto|]. intros [[->|H] H']; auto.
Qed.
Lemma remove1_NoDup n l : NoDup l -> NoDup (remove1 n l).
Proof.
  induction l as [|y l IH]; cbn; intros Hn; auto. apply NoDup_cons_iff in Hn as [Hy Hn].
  destruct (Nat.eqb_spec n y); auto. constructor; auto. rewrite remove1_In by auto. tauto.
Qed.

Section Form.
  Variables (val : string -> R) (nodes : list nat) (y x : nat -> R).
  Notation vm M := (fun i j => lval val (M i j)).
  Notation F M := (form nodes (fun i j => lval val (M i j)) y x).
  Lemma form_add_at M i j t z : i < List.length nodes -> j < List.length nodes ->
    F (add_at M i j t z) = (F M + IZR z * tval val t * (y (nth i nodes 0%nat) * x (nth j nodes 0%nat)))%R.
  Proof.
    intros Hi Hj. unfold form. cbv zeta. set (n := List.length nodes) in *.
    set (w := (IZR z * tval val t)%R).
    assert (E : forall i' j', lval val (add_at M i j t z i' j') = (lval val (M i' j') + (if Nat.eqb i i' then if Nat.eqb j j' then w else 0 else 0))%R).
    { intros i' j'. unfold add_at. destruct (Nat.eqb i i'); cbn [andb]; [|ring]. destruct (Nat.eqb j j'); [apply lval_ladd|ring]. }
    transitivity (sumn (A := R_rng) n (fun i' => sumn (A := R_rng) n (fun j' => y (nth i' nodes 0%nat) * lval val (M i' j') * x (nth j' nodes 0%nat))
       + sumn (A := R_rng) n (fun j' => y (nth i' nodes 0%nat) * (if Nat.eqb i i' then if Nat.eqb j j' then w else 0 else 0) * x (nth j' nodes 0%nat))))%R.
    - apply (@sumn_ext R_rng). intros i' _. rewrite <- (@sumn_add R_rng). apply (@sumn_ext R_rng). intros j' _. rewrite E. cbn. ring.
    - rewrite (@sumn_add R_rng). cbn [kadd R_rng]. f_equal.
      rewrite (@sumn_single R_rng n i); auto.
      + rewrite (@sumn_single R_rng n j); auto.
        * rewrite !Nat.eqb_refl. change (@eq R (y (nth i nodes 0%nat) * w * x (nth j nodes 0%nat)) (w * (y (nth i nodes 0%nat) * x (nth j nodes 0%nat))))%R. ring.
        * intros k _ Hk. rewrite Nat.eqb_refl. apply not_eq_sym, Nat.eqb_neq in Hk. rewrite Hk. cbn. ring.
      + intros k _ Hk. apply not_eq_sym, Nat.eqb_neq in Hk. rewrite Hk. apply (@sumn_0 R_rng). intros j' _. cbn. ring.
  Qed.
  Lemma foldM_form {A} (f : mat -> A -> res mat) w l : forall M M', (forall M a M', In a l -> f M a = Ok M' -> F M' = (F M + w a)%R) ->
    foldM f l M = Ok M' -> F M' = (F M + Rsum (map w l))%R.
  Proof.
    induction l as [|a l IH]; cbn [foldM]; intros M M' Hf E.
    - injection E as <-. rs. ring.
    - destruct (f M a) as [M1|] eqn:E1; [|discriminate]. cbn [bind] in E. rewrite (IH M1 M'); auto; [|intros; apply Hf; [right; auto|auto]].
      rewrite (Hf M a M1); [|left; auto|auto]. rs. ring.
  Qed.

  Variable s : cg.
  Hypothesis HD : Derived s.
  Hypothesis HI : Inv s.
  Hypothesis HI2 : Inv2 s.
  Hypothesis Hnodes : nodes = sys_nodes s.
  Hypothesis y0 : y 0 = 0%R.
  Hypothesis x0 : x 0 = 0%R.
  Let g := c_graph s.
  Definition capv (c : string) : R := if capacitive c then val c else 0%R.
  Definition capof (e : edge) : R := match component_of s e with Ok c => capv c | Err _ => 0%R end.
  Lemma nodes_In n : In n nodes <-> In n (g_nodes g) /\ n <> 0.
  Proof. rewrite Hnodes. apply remove1_In. apply HD. Qed.
  Lemma nodes_NoDup : NoDup nodes.
  Proof. rewrite Hnodes. apply remove1_NoDup, HD. Qed.
  Lemma pick_node a (f : nat -> R) : f 0 = 0%R -> In a (g_nodes g) -> Rsum (map (fun n => if Nat.eqb a n then f n else 0%R) nodes) = f a.
  Proof.
    intros Hf Ha. destruct (Nat.eq_dec a 0) as [->|Hn].
    - rewrite Rsum_map_0; auto. intros n Hn. apply nodes_In in Hn as [_ Hn]. destruct (Nat.eqb_spec 0 n); [congruence|auto].
    - rewrite (Rsum_single _ a); [now rewrite Nat.eqb_refl|apply nodes_NoDup|apply nodes_In; auto|].
      intros n _ Hne. destruct (Nat.eqb_spec a n); [congruence|auto].
  Qed.
  Lemma component_branch b : In (nb b) (map nb (g_edges g)) -> component_of s (fst b) = Ok (snd b).
  Proof.
    intros H. apply in_map_iff in H as (b' & E & Hb). unfold component_of. unfold nb in E. injection E as E1 E2.
    assert (C : carries g (fst b) (snd b)). { exists b'. split; [auto|]. split; [auto|]. apply norm_eq. unfold norm. congruence. }
    apply (map_get s HD) in C. rewrite C. auto.
  Qed.
  Lemma node_sum n : Rsum (map capof (edges_at n (g_edges g))) = Rsum (map (fun b => if touch fst n b then capv (snd b) else 0%R) (g_edges g)).
  Proof.
    set (lb := flat_map (fun m => if mem m [] then [] else map (orient fst flip_branch n) (filter (joins fst n m) (g_edges g))) (nbrs fst n (g_edges g))).
    assert (E : edges_at n (g_edges g) = map fst lb).
    { unfold edges_at, lb. rewrite map_flat_map. apply flat_map_ext_in'. intros m _. cbn. rewrite map_map. auto. }
    assert (P : Permutation (map nb lb) (map nb (filter (touch fst n) (g_edges g)))).
    { unfold lb. rewrite (node_perm fst flip_branch nb (nb_flip) n [] (g_edges g) eq_refl).
      erewrite filter_ext; [apply Permutation_refl|]. intros b. cbn. rewrite andb_true_r. auto. }
    rewrite E, map_map. transitivity (Rsum (map (fun q => capv (snd q)) (map nb lb))).
    - rewrite map_map. apply Rsum_ext. intros b Hb. unfold capof. rewrite component_branch; auto.
      apply (in_map nb) in Hb. eapply Permutation_in in Hb; [|exact P]. apply in_map_iff in Hb as (b' & <- & Hb'). apply in_map. apply filter_In in Hb'. tauto.
    - rewrite (Rsum_perm _ _ (Permutation_map _ P)). rewrite map_map, Rsum_filter. auto.
  Qed.
  Lemma node_total : Rsum (map (fun n => Rsum (map capof (edges_at n (g_edges g))) * (y n * x n))%R nodes) =
    Rsum (map (fun b => let '((p, q, _), c) := b in capv c * (if Nat.eqb p q then y p * x p else y p * x p + y q * x q))%R (g_edges g)).
  Proof.
    transitivity (Rsum (map (fun n => Rsum (map (fun b => (if touch fst n b then capv (snd b) else 0) * (y n * x n)) (g_edges g))) nodes))%R.
    { apply Rsum_ext. intros n _. rewrite node_sum. rewrite Rmult_comm, <- Rsum_map_mul. apply Rsum_ext. intros b _. ring. }
    rewrite Rsum_swap. apply Rsum_ext. intros [[[p q] k] c] Hb. cbn [snd]. destruct (w_ends _ (d_wf s HD) _ Hb) as [Hp Hq]. cbn in Hp, Hq.
    transitivity (Rsum (map (fun n => capv c * ((if Nat.eqb p n then y n * x n else 0) + (if Nat.eqb p q then 0 else if Nat.eqb q n then y n * x n else 0))) nodes))%R.
    { apply Rsum_ext. intros n _. unfold touch. cbn. destruct (Nat.eqb_spec p n), (Nat.eqb_spec q n), (Nat.eqb_spec p q); subst; cbn; try congruence; ring. }
    rewrite Rsum_map_mul, Rsum_map_add. rewrite (pick_node p (fun n => y n * x n)%R); auto; [|rewrite y0; ring].
    destruct (Nat.eqb_spec p q).
    - rewrite Rsum_map_0 by auto. ring.
    - rewrite (pick_node q (fun n => y n * x n)%R); auto. rewrite y0; ring.
  Qed.
  Definition offv (e : edge) : R := (- (capof e * (y (src e) * x (dst e) + y (dst e) * x (src e))))%R.
  Lemma off_total : Rsum (map offv (dkeys (edge_map g))) = Rsum (map (fun b => let '((p, q, _), c) := b in - (capv c * (y p * x q + y q * x p)))%R (g_edges g)).
  Proof.
    assert (P := edge_map_perm g (d_wf s HD)). unfold dkeys. rewrite map_map.
    set (h := fun q : edge * string => (- (capv (snd q) * (y (src (fst q)) * x (dst (fst q)) + y (dst (fst q)) * x (src (fst q)))))%R).
    assert (Hh : forall b, h (nb b) = h b).
    { intros [[[p q] k] c]. unfold h, nb, norm, src, dst. cbn. destruct (Nat.le_gt_cases p q); [rewrite Nat.min_l, Nat.max_r by lia|rewrite Nat.min_r, Nat.max_l by lia]; ring. }
    transitivity (Rsum (map h (map nb (edge_map g)))).
    - rewrite map_map. apply Rsum_ext. intros b Hb. rewrite Hh. unfold offv, h, capof. rewrite component_branch; auto.
      apply (in_map nb) in Hb. eapply Permutation_in in Hb; [|exact P]. auto.
    - rewrite (Rsum_perm _ _ (Permutation_map h P)). rewrite map_map. apply Rsum_ext. intros b Hb. rewrite Hh. destruct b as [[[p q] k] c]. reflexivity.
  Qed.
  Definition gatev (n : nat) : R := match dget (c_cbias s) n with Some b => match cb_cap b with Some c => val c | None => 0%R end | None => 0%R end.
  Definition resv (n : nat) : R := match dget (c_res s) n with Some (Some r) => series (val (r_coupling r)) (val (r_Cr r)) | _ => 0%R end.
  Lemma dict_total {V} (d : dict nat V) (f : V -> R) : NoDup (dkeys d) -> (forall n, In n (dkeys d) -> In n (g_nodes g)) ->
    Rsum (map (fun n => (match dget d n with Some v => f v | None => 0 end) * (y n * x n))%R nodes) = Rsum (map (fun kv => f (snd kv) * (y (fst kv) * x (fst kv)))%R d).
  Proof.
    induction d as [|[k v] d IH]; intros Hn Hk.
    - rewrite Rsum_map_0; auto. intros n _. cbn. ring.
    - cbn [dkeys map fst] in Hn, Hk. apply NoDup_cons_iff in Hn as [Hk' Hn]. rs. cbn [map fst snd]. rs. rewrite <- IH; auto; [|intros n Hx; apply Hk; right; auto].
      transitivity (Rsum (map (fun n => (if Nat.eqb k n then f v * (y n * x n) else 0) + (match dget d n with Some v => f v | None => 0 end) * (y n * x n)) nodes))%R.
      + apply Rsum_ext. intros n _. cbn [dget]. change (eqb n k) with (Nat.eqb n k). rewrite (Nat.eqb_sym n k). destruct (Nat.eqb_spec k n) as [->|]; [|ring].
        destruct (dget d n) eqn:E; [|ring]. exfalso. apply Hk'. apply dget_Some_key in E. auto.
      + rewrite Rsum_map_add. rewrite (pick_node k (fun n => f v * (y n * x n))%R); auto; [rewrite y0; ring|]. apply Hk; left; auto.
  Qed.
  Lemma gate_total : Rsum (map (fun n => gatev n * (y n * x n))%R nodes) = Rsum (map (fun q => val (snd q) * y (fst q) * x (fst q))%R (gates s)).
  Proof.
    transitivity (Rsum (map (fun kv => match cb_cap (snd kv) with Some c => val c | None => 0 end * (y (fst kv) * x (fst kv)))%R (c_cbias s))).
    - rewrite <- (dict_total (c_cbias s) (fun b => match cb_cap b with Some c => val c | None => 0%R end)); [|apply HI|apply HI2].
      apply Rsum_ext. intros n _. unfold gatev. destruct (dget (c_cbias s) n); auto.
    - unfold gates. rewrite Rsum_flat_map. apply Rsum_ext. intros [n b] _. cbn [fst snd]. destruct (cb_cap b); rs; ring.
  Qed.
  Lemma res_total : Rsum (map (fun n => resv n * (y n * x n))%R nodes) = Rsum (map (fun r => series (val (r_coupling (snd r))) (val (r_Cr (snd r))) * y (fst r) * x (fst r))%R (coupled_resonators s)).
  Proof.
    transitivity (Rsum (map (fun kv => match snd kv with Some r => series (val (r_coupling r)) (val (r_Cr r)) | None => 0 end * (y (fst kv) * x (fst kv)))%R (c_res s))).
    - rewrite <- (dict_total (c_res s) (fun b => match b with Some r => series (val (r_coupling r)) (val (r_Cr r)) | None => 0%R end)); [|apply HI2|apply HI].
      apply Rsum_ext. intros n _. unfold resv. destruct (dget (c_res s) n) as [[r|]|]; auto.
    - unfold coupled_resonators. rewrite Rsum_flat_map. apply Rsum_ext. intros [n [r|]] _; cbn [fst snd]; rs; ring.
  Qed.

  Lemma param_ok c c' : param s c = Ok c' -> c' = c.
  Proof. unfold param. destruct (mem _ _); congruence. Qed.
  Lemma diag_step M i n M' : In (i, n) (enumerate nodes) -> cap_diag s M (i, n) = Ok M' ->
    F M' = (F M + (Rsum (map capof (edges_at n (g_edges g))) * (y n * x n) + gatev n * (y n * x n) + resv n * (y n * x n)))%R.
  Proof.
    intros Hin. apply (enumerate_In _ 0) in Hin as [Hi Hn]. unfold cap_diag.
    match goal with |- bind ?a _ = _ -> _ => destruct a as [M1|] eqn:E1 end; [|discriminate]. cbn [bind].
    match goal with |- bind ?a _ = _ -> _ => destruct a as [M2|] eqn:E2 end; [|discriminate]. cbn [bind]. intros E3.
    apply (foldM_form _ (fun e => capof e * (y n * x n))%R) in E1.
    2:{ intros K e K' _ HK. destruct (component_of s e) as [c|] eqn:Ec; [|discriminate]. cbn [bind] in HK. unfold letter_is in HK.
        destruct c as [|a c0]; [discriminate|]. remember (String a c0) as c. cbn [bind] in HK. unfold capof, capv. rewrite Ec. unfold capacitive.
        destruct (starts "C" c) eqn:Es.
        - destruct (param s c) as [c'|] eqn:Ep; [|discriminate]. apply param_ok in Ep as ->. cbn [bind] in HK. injection HK as <-.
          rewrite form_add_at by auto. rewrite Hn. cbn [tval]. ring.
        - injection HK as <-. ring. }
    assert (F2 : F M2 = (F M1 + gatev n * (y n * x n))%R).
    { unfold gatev. destruct (dget (c_cbias s) n) as [b|]; [|injection E2 as <-; ring]. destruct (cb_cap b) as [c|]; [|injection E2 as <-; ring].
      destruct (param s c) as [c'|] eqn:Ep; [|discriminate]. apply param_ok in Ep as ->. cbn [bind] in E2. injection E2 as <-. rewrite form_add_at by auto. rewrite Hn. cbn [tval]. ring. }
    assert (F3 : F M' = (F M2 + resv n * (y n * x n))%R).
    { unfold resv. destruct (dget (c_res s) n) as [[r|]|]; [|injection E3 as <-; ring|discriminate].
      destruct (param s (r_coupling r)) as [c1|] eqn:Ep1; [|discriminate]. apply param_ok in Ep1 as ->. cbn [bind] in E3.
      destruct (param s (r_Cr r)) as [c2|] eqn:Ep2; [|discriminate]. apply param_ok in Ep2 as ->. cbn [bind] in E3. injection E3 as <-.
      rewrite form_add_at by auto. rewrite Hn. cbn [tval]. unfold series. ring. }
    rewrite F3, F2, E1.
    rewrite (Rsum_ext _ (fun e => (y n * x n) * capof e)%R) by (intros; ring). rewrite Rsum_map_mul. fold g. ring.
  Qed.
  Lemma off_step M e M' : In e (dkeys (edge_map g)) -> cap_off s nodes M e = Ok M' -> F M' = (F M + offv e)%R.
  Proof.
    intros _ H. unfold cap_off in H. destruct (component_of s e) as [c|] eqn:Ec; [|discriminate]. cbn [bind] in H.
    unfold letter_is in H. destruct c as [|a c0]; [discriminate|]. remember (String a c0) as c. cbn [bind] in H.
    unfold offv, capof, capv. rewrite Ec. unfold capacitive. destruct (starts "C" c) eqn:Es; [|injection H as <-; ring].
    destruct (Nat.eqb_spec (src e) 0) as [E0|E0]; cbn [orb] in H.
    { injection H as <-. rewrite E0, x0, y0. ring. }
    destruct (Nat.eqb_spec (dst e) 0) as [E1|E1].
    { injection H as <-. rewrite E1, x0, y0. ring. }
    destruct (index_of (src e) nodes) as [i|] eqn:Ei; [|discriminate]. cbn [bind] in H.
    destruct (index_of (dst e) nodes) as [j|] eqn:Ej; [|discriminate]. cbn [bind] in H.
    destruct (param s c) as [c'|] eqn:Ep; [|discriminate]. apply param_ok in Ep as ->. cbn [bind] in H. injection H as <-.
    apply (index_of_spec _ _ 0) in Ei as [Hi Hi'], Ej as [Hj Hj']. rewrite !form_add_at by auto. rewrite Hi', Hj'. cbn [tval]. ring.
  Qed.
  Lemma form0 : F mat0 = 0%R.
  Proof. unfold form. cbv zeta. apply (@sumn_0 R_rng). intros i _. apply (@sumn_0 R_rng). intros j _. cbn. ring. Qed.
  Definition loop_part : R := Rsum (map (fun b => let '((p, q, _), c) := b in if Nat.eqb p q then val c * (y p * x p) else 0)%R (branches_of "C" g)).
  Theorem cap_form M : capacitance_matrix s = Ok M -> F M = (electrostatic val s y x - loop_part)%R.
  Proof.
    unfold capacitance_matrix. cbv zeta. rewrite <- Hnodes. destruct (foldM (cap_diag s) (enumerate nodes) mat0) as [M1|] eqn:E1; [|discriminate]. cbn [bind]. intros E2.
    apply (foldM_form _ (fun q => let n := snd q in (Rsum (map capof (edges_at n (g_edges g))) * (y n * x n) + gatev n * (y n * x n) + resv n * (y n * x n)))%R) in E1.
    2:{ intros K [i n] K' Hin HK. apply (diag_step K i n); auto. }
    apply (foldM_form _ offv) in E2.
    2:{ intros K e K' He HK. apply off_step; auto. }
    rewrite E2, E1, form0. cbv zeta. fold g.
    rewrite <- (map_map snd (fun n => Rsum (map capof (edges_at n (g_edges g))) * (y n * x n) + gatev n * (y n * x n) + resv n * (y n * x n))%R), enumerate_snd.
    rewrite !Rsum_map_add, node_total, gate_total, res_total, off_total. unfold electrostatic, loop_part, branches_of. fold g. rewrite !Rsum_filter.
    match goal with |- (0 + (?a + ?b + ?c) + ?d = ?u + ?b + ?c - ?v)%R => enough (E : (a + d = u + (-1) * v)%R) by (rewrite (Rplus_comm 0); lra) end.
    rewrite <- Rsum_map_mul, <- !Rsum_map_add. apply Rsum_ext. intros [[[p q] k] c] _.
    unfold letter, capv, capacitive, starts. cbn [snd]. destruct c as [|a c]; [ring|]. destruct (Ascii.eqb a "C"); [|ring].
    destruct (Nat.eqb_spec p q) as [->|]; ring.
  Qed.
End Form.
