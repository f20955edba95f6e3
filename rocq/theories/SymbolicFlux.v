(** Branch fluxes and the inverse inductance matrix (C47-C49). *)
From Coq Require Import List Bool String Ascii Arith ZArith Reals Permutation Lra Lia.
From Verif Require Import Prelude PreludeFacts Mat MatFacts Graph GraphSpec GraphView GraphForest GraphWf GraphCircuit GraphState GraphMaps GraphOps Symbolic SymbolicSpec RSum SymbolicInv SymbolicCap SymbolicCap2.
Import ListNotations.
Open Scope string_scope.
Open Scope list_scope.
Open Scope nat_scope.

Definition noedge : edge := (0, 0, 0).

Section Flux.
  Variables (nodes : list nat) (edges : list edge) (f : nat -> R).
  Hypothesis Hnd : NoDup nodes.
  Hypothesis Hends : forall e, In e edges -> (src e = 0 \/ In (src e) nodes) /\ (dst e = 0 \/ In (dst e) nodes).
  Hypothesis f0 : f 0 = 0%R.
  Definition inc (e : edge) (n : nat) : R := if Nat.eqb (src e) (dst e) then 0%R else if Nat.eqb (src e) n then 1%R else if Nat.eqb (dst e) n then (-1)%R else 0%R.
  Lemma rbn_inc i j n e : nth_error nodes i = Some n -> nth_error edges j = Some e -> IZR (rbn nodes edges i j) = inc e n.
  Proof. intros H1 H2. unfold rbn, inc. rewrite H1, H2. repeat (destruct (Nat.eqb _ _)); auto. Qed.
  Lemma pick a : (a = 0 \/ In a nodes) -> Rsum (map (fun n => if Nat.eqb a n then f n else 0%R) nodes) = f a.
  Proof.
    intros [->|Ha].
    - rewrite Rsum_map_0; auto. intros n Hn. destruct (Nat.eqb_spec 0 n); auto. subst; easy.
    - rewrite (Rsum_single _ a); auto; [now rewrite Nat.eqb_refl|]. intros n _ Hne. destruct (Nat.eqb_spec a n); [congruence|auto].
  Qed.
  Lemma inc_sum e : In e edges -> Rsum (map (fun n => inc e n * f n)%R nodes) = (f (src e) - f (dst e))%R.
  Proof.
    intros He. destruct (Hends e He) as [Hs Hd]. unfold inc. destruct (Nat.eqb_spec (src e) (dst e)) as [E|E].
    - rewrite E, Rsum_map_0; [ring|]. intros; ring.
    - rewrite <- (pick (src e)), <- (pick (dst e)) by auto. unfold Rminus. replace (- Rsum (map (fun n => if Nat.eqb (dst e) n then f n else 0%R) nodes))%R with (-1 * Rsum (map (fun n => if Nat.eqb (dst e) n then f n else 0%R) nodes))%R by ring.
      rewrite <- Rsum_map_mul, <- Rsum_map_add. apply Rsum_ext. intros n _. destruct (Nat.eqb_spec (src e) n), (Nat.eqb_spec (dst e) n); try congruence; ring.
  Qed.
  Lemma branch_flux_diff j e : nth_error edges j = Some e -> branch_flux nodes edges (fun i => f (nth i nodes 0)) j = (f (src e) - f (dst e))%R.
  Proof.
    intros Hj. rewrite <- inc_sum by (eapply nth_error_In; eauto). unfold branch_flux. rewrite <- (sumn_nth nodes 0 (fun n => inc e n * f n)%R).
    apply (@sumn_ext R_rng). intros i Hi. rewrite (rbn_inc i j (nth i nodes 0) e); auto. apply nth_error_nth'; auto.
  Qed.
  Definition flux_on (e : edge) : R := match index_of e edges with Ok j => branch_flux nodes edges (fun i => f (nth i nodes 0)) j | Err _ => 0%R end.
  Lemma flux_on_diff e : In e edges -> flux_on e = (f (src e) - f (dst e))%R.
  Proof.
    intros He. unfold flux_on. destruct (index_of_total e edges He) as (j & Ej). rewrite Ej. apply branch_flux_diff.
    apply (index_of_spec e edges noedge) in Ej as [Hj Hn]. rewrite (nth_error_nth' edges noedge) by auto. congruence.
  Qed.
  Definition signed (q : bool * edge) : R := if fst q then flux_on (snd q) else (- flux_on (snd q))%R.
  Lemma walk_sum w : forall a b, walk w a b -> (forall q, In q w -> In (snd q) edges) -> Rsum (map signed w) = (f a - f b)%R.
  Proof.
    induction w as [|[d e] w IH]; intros a b Hw Hin; cbn [walk] in Hw.
    - subst. rs. ring.
    - rs. assert (He : In e edges) by (apply (Hin (d, e)); left; auto). unfold signed at 1. cbn [fst snd].
      destruct d; destruct Hw as [-> Hw]; rewrite (IH _ _ Hw) by (intros; apply Hin; right; auto); rewrite flux_on_diff by auto; ring.
  Qed.
End Flux.

(** ** the inductance matrix without mutual coupling *)
Section Inductance.
  Variable s : cg.
  Hypothesis HD : Derived s.
  Definition ind_name (e : edge) : option string := match dget (c_map s) e with Some c => if starts "L" c then Some c else None | None => None end.
  Lemma ind_diag_fold l : forall k M M', foldM (ind_diag s) (combine (seq k (List.length l)) l) M = Ok M' ->
    forall i j, M' i j = if Nat.eqb i j && (k <=? i) && (i <? k + List.length l) then
      match ind_name (nth (i - k) l noedge) with Some c => Some c | None => M i j end else M i j.
  Proof.
    induction l as [|e l IH]; intros k M M' H i j; cbn [foldM combine seq List.length] in H.
    - injection H as <-. destruct (Nat.eqb i j && (k <=? i)) eqn:E; cbn [andb]; auto. cbn [List.length]. destruct (Nat.ltb_spec i (k + 0)); auto. rewrite andb_true_iff, Nat.leb_le in E. lia.
    - destruct (ind_diag s M (k, e)) as [M1|] eqn:E1; [|discriminate]. cbn [bind] in H. rewrite (IH (S k) M1 M' H i j).
      assert (H1 : forall i j, M1 i j = if Nat.eqb i j && Nat.eqb i k then match ind_name e with Some c => Some c | None => M i j end else M i j).
      { intros a b. unfold ind_diag in E1. unfold component_of in E1. unfold ind_name. destruct (dget (c_map s) e) as [c|] eqn:Ec; [|discriminate]. cbn [bind] in E1.
        unfold letter_is in E1. destruct c as [|x c0]; [discriminate|]. remember (String x c0) as c. cbn [bind] in E1. destruct (starts "L" c).
        - destruct (param s c) as [c'|] eqn:Ep; [|discriminate]. apply param_ok in Ep as ->. cbn [bind] in E1.
          assert (E2 : M1 = put_at M k k c) by (destruct (dget (c_fbias s) e) as [fb|]; [destruct (fb_mutual fb); [discriminate|]|]; congruence).
          subst M1. unfold put_at. destruct (Nat.eqb_spec k a), (Nat.eqb_spec k b), (Nat.eqb_spec a b), (Nat.eqb_spec a k); cbn; auto; lia.
        - injection E1 as <-. destruct (Nat.eqb a b && Nat.eqb a k); auto. }
      rewrite H1. cbn [List.length]. destruct (Nat.eqb_spec i j) as [->|Hne]; cbn [andb]; auto.
      destruct (Nat.leb_spec (S k) j); cbn [andb].
      + destruct (Nat.eqb_spec j k) as [->|]; [lia|]. destruct (Nat.leb_spec k j); [|lia]. replace (k + S (List.length l)) with (S k + List.length l) by lia. cbn [andb].
        replace (j - k) with (S (j - S k)) by lia. auto.
      + destruct (Nat.eqb_spec j k) as [->|].
        * destruct (Nat.leb_spec k k); [|lia]. destruct (Nat.ltb_spec k (k + S (List.length l))); [|lia]. cbn [andb]. rewrite Nat.sub_diag. auto.
        * destruct (Nat.leb_spec k j); [lia|]. auto.
  Qed.
  Lemma inductance_entries edges M : c_coupled s = [] -> inductance_matrix s edges = Ok M ->
    forall i j, M i j = if Nat.eqb i j && (i <? List.length edges) then ind_name (nth i edges noedge) else None.
  Proof.
    unfold inductance_matrix. intros -> H i j. destruct (foldM (ind_diag s) (enumerate edges) (fun _ _ => None)) as [M1|] eqn:E; [|discriminate].
    cbn in H. injection H as <-. unfold enumerate in E. rewrite (ind_diag_fold edges 0 _ M1 E i j). cbn [Nat.leb]. rewrite andb_true_r, Nat.sub_0_r, Nat.add_0_l.
    destruct (Nat.eqb i j && _); auto. destruct (ind_name _); auto.
  Qed.
  Lemma inductance_defined edges : c_coupled s = [] -> (forall e, In e edges -> exists c, component_of s e = Ok c) ->
    (forall e b, dget (c_fbias s) e = Some b -> fb_mutual b = None) -> exists M, inductance_matrix s edges = Ok M.
  Proof.
    intros Hc He Hm. unfold inductance_matrix. rewrite Hc.
    destruct (foldM_total (fun _ => True) (ind_diag s) (enumerate edges) (fun _ _ => None)) as (M & -> & _); auto; [|cbn; eauto].
    intros M [i e] Hin _. assert (Hi : In e edges) by (apply (enumerate_In _ e) in Hin as [Hi <-]; apply nth_In; auto).
    destruct (He e Hi) as (c & Ec). destruct (param_comp s HD e c Ec) as (P1 & _ & P3). unfold ind_diag. rewrite Ec. cbn [bind]. rewrite P3. cbn [bind].
    destruct (starts "L" c); [|eauto]. rewrite P1. cbn [bind]. destruct (dget (c_fbias s) e) as [b|] eqn:Eb; [|eauto]. rewrite (Hm e b Eb). eauto.
  Qed.
End Inductance.

(** ** the pseudo-inverse of a diagonal matrix *)
Section Pinv.
  Variables (n : nat) (D : nat -> R) (P : nat -> nat -> R).
  Definition diagm (i j : nat) : R := if Nat.eqb i j then D i else 0%R.
  Hypothesis HP : penrose n diagm P.
  Lemma diag_l Q i j : i < n -> mmul (A := R_rng) n diagm Q i j = (D i * Q i j)%R.
  Proof.
    intros Hi. unfold mmul. rewrite (@sumn_single R_rng n i); auto.
    - unfold diagm. rewrite Nat.eqb_refl. reflexivity.
    - intros k _ Hk. unfold diagm. destruct (Nat.eqb_spec i k); [congruence|]. cbn. ring.
  Qed.
  Lemma diag_r Q i j : j < n -> mmul (A := R_rng) n Q diagm i j = (Q i j * D j)%R.
  Proof.
    intros Hi. unfold mmul. rewrite (@sumn_single R_rng n j); auto.
    - unfold diagm. rewrite Nat.eqb_refl. reflexivity.
    - intros k _ Hk. unfold diagm. destruct (Nat.eqb_spec k j); [congruence|]. cbn. ring.
  Qed.
  Lemma pinv_diag i j : i < n -> j < n -> P i j = (if Nat.eqb i j then if Req_EM_T (D i) 0 then 0 else / D i else 0)%R.
  Proof.
    assert (E1 : forall i j, i < n -> j < n -> (D i * P i j * D j = diagm i j)%R).
    { intros a b Ha Hb. destruct (HP a b Ha Hb) as (H & _). rewrite diag_r, diag_l in H by auto. auto. }
    assert (E3 : forall i j, i < n -> j < n -> (D i * P i j = D j * P j i)%R).
    { intros a b Ha Hb. destruct (HP a b Ha Hb) as (_ & _ & H & _). rewrite !diag_l in H by auto. auto. }
    assert (E4 : forall i j, i < n -> j < n -> (P i j * D j = P j i * D i)%R).
    { intros a b Ha Hb. destruct (HP a b Ha Hb) as (_ & _ & _ & H). rewrite !diag_r in H by auto. auto. }
    intros Hi Hj. destruct (Req_EM_T (D i) 0) as [Zi|Zi].
    - assert (G : forall k, k < n -> D k <> 0%R -> P i k = 0%R).
      { intros k Hk Nk. assert (H := E4 i k Hi Hk). rewrite Zi, Rmult_0_r in H. apply Rmult_integral in H. tauto. }
      enough (P i j = 0)%R by (destruct (Nat.eqb i j); auto).
      destruct (Req_EM_T (D j) 0) as [Zj|Zj]; auto. destruct (HP i j Hi Hj) as (_ & H & _). rewrite <- H. unfold mmul at 1. apply (@sumn_0 R_rng). intros k Hk.
      rewrite diag_r by auto. destruct (Req_EM_T (D k) 0) as [Zk|Zk]; [rewrite Zk|rewrite G by auto]; cbn; ring.
    - assert (H := E1 i j Hi Hj). unfold diagm in H. destruct (Nat.eqb_spec i j) as [<-|Hne].
      + apply (Rmult_eq_reg_l (D i)); auto. apply (Rmult_eq_reg_r (D i)); auto. rewrite H. field. auto.
      + destruct (Req_EM_T (D j) 0) as [Zj|Zj].
        * assert (H3 := E3 i j Hi Hj). rewrite Zj in H3. rewrite Rmult_0_l in H3. apply Rmult_integral in H3. tauto.
        * apply Rmult_integral in H as [H|H]; [|tauto]. apply Rmult_integral in H. tauto.
  Qed.
End Pinv.

Section Inverse.
  Variables (s : cg) (val : string -> R) (M : imat) (P : nat -> nat -> R).
  Hypothesis HD : Derived s.
  Hypothesis Hcoup : c_coupled s = [].
  Hypothesis HM : inductance_matrix s (wcs s) = Ok M.
  Hypothesis HP : penrose (List.length (wcs s)) (imat_val val M) P.
  Hypothesis Hval : forall b, In b (branches_of "L" (c_graph s)) -> val (snd b) <> 0%R.
  Let nodes := sys_nodes s.
  Let edges := wcs s.
  Let m := List.length edges.
  Definition weight (e : edge) : R := match ind_name s e with Some c => / val c | None => 0%R end.
  Lemma wcs_ends e : In e edges -> (src e = 0 \/ In (src e) nodes) /\ (dst e = 0 \/ In (dst e) nodes).
  Proof.
    intros He. destruct (wcs_carry s HD e He) as (c & (b & Hb & _ & Hs) & _). destruct (w_ends _ (d_wf s HD) _ Hb) as [H1 H2].
    assert (G : forall n, In n (g_nodes (c_graph s)) -> n = 0 \/ In n nodes) by (intros n Hn; destruct (Nat.eq_dec n 0); [auto|right; apply (nodes_In _ s HD eq_refl); auto]).
    destruct Hs as [-> | ->]; split; apply G; auto; try (rewrite src_rev; auto); try (rewrite dst_rev; auto).
  Qed.
  Lemma ind_name_branch e c : ind_name s e = Some c -> exists b, In b (branches_of "L" (c_graph s)) /\ snd b = c /\ same_branch (fst b) e.
  Proof.
    unfold ind_name. destruct (dget (c_map s) e) as [c'|] eqn:E; [|discriminate]. destruct (starts "L" c') eqn:Es; [|discriminate]. intros [= ->].
    apply (map_get s HD) in E as (b & Hb & <- & Hs). exists b. split; auto. unfold branches_of. apply filter_In. split; auto.
  Qed.
  Lemma pinv_entries k l : k < m -> l < m -> P k l = if Nat.eqb k l then weight (nth k edges noedge) else 0%R.
  Proof.
    intros Hk Hl. set (D := fun i => match ind_name s (nth i edges noedge) with Some c => val c | None => 0%R end).
    assert (HP' : penrose m (diagm D) P).
    { assert (E : forall i j, i < m -> j < m -> imat_val val M i j = diagm D i j).
      { intros i j Hi Hj. unfold imat_val, diagm, D. rewrite (inductance_entries s edges M Hcoup HM i j). apply Nat.ltb_lt in Hi. fold m. rewrite Hi, andb_true_r.
        destruct (Nat.eqb_spec i j); auto. }
      intros i j Hi Hj. destruct (HP i j Hi Hj) as (H1 & H2 & H3 & H4). fold edges in H1, H2, H3, H4. fold m in H1, H2, H3, H4.
      assert (Q1 : forall i j, i < m -> j < m -> mmul (A := R_rng) m (imat_val val M) P i j = mmul (A := R_rng) m (diagm D) P i j).
      { intros a b Ha Hb. unfold mmul. apply (@sumn_ext R_rng). intros k' Hk'. rewrite E; auto. }
      assert (Q2 : forall i j, i < m -> j < m -> mmul (A := R_rng) m P (imat_val val M) i j = mmul (A := R_rng) m P (diagm D) i j).
      { intros a b Ha Hb. unfold mmul. apply (@sumn_ext R_rng). intros k' Hk'. rewrite E; auto. }
      rewrite !Q1, !Q2 in * by auto. repeat split; auto.
      - rewrite <- E by auto. rewrite <- H1. unfold mmul at 1 3. apply (@sumn_ext R_rng). intros k' Hk'. rewrite Q1, E by auto. reflexivity.
      - rewrite <- H2. unfold mmul at 1 3. apply (@sumn_ext R_rng). intros k' Hk'. rewrite Q2 by auto. reflexivity. }
    rewrite (pinv_diag m D P HP' k l Hk Hl). destruct (Nat.eqb k l); auto. unfold D, weight.
    destruct (ind_name s (nth k edges noedge)) as [c|] eqn:Ec.
    - destruct (ind_name_branch _ _ Ec) as (b & Hb & <- & _). destruct (Req_EM_T (val (snd b)) 0) as [Z|]; auto. exfalso. apply (Hval _ Hb); auto.
    - destruct (Req_EM_T 0 0); [auto|congruence].
  Qed.
  Lemma linv_entry i j : inverse_inductance nodes edges P i j = sumn (A := R_rng) m (fun k => IZR (rbn nodes edges i k) * weight (nth k edges noedge) * IZR (rbn nodes edges j k))%R.
  Proof.
    unfold inverse_inductance. cbv zeta. fold m. apply (@sumn_ext R_rng). intros k Hk. rewrite (@sumn_single R_rng m k); auto.
    - rewrite pinv_entries, Nat.eqb_refl by auto. auto.
    - intros l Hl Hne. rewrite pinv_entries by auto. destruct (Nat.eqb_spec k l); [congruence|]. cbn. ring.
  Qed.
  Lemma linv_sym i j : inverse_inductance nodes edges P i j = inverse_inductance nodes edges P j i.
  Proof. rewrite !linv_entry. apply (@sumn_ext R_rng). intros k _. cbn. ring. Qed.
  (** over the listed branches *)
  Lemma linv_form_edges x : x 0 = 0%R -> form nodes (inverse_inductance nodes edges P) x x =
    Rsum (map (fun e => weight e * ((x (src e) - x (dst e)) * (x (src e) - x (dst e))))%R edges).
  Proof.
    intros X0. rewrite <- (sumn_nth edges noedge). fold m. unfold form. cbv zeta. set (n := List.length nodes).
    set (bf := fun k => branch_flux nodes edges (fun i => x (nth i nodes 0)) k).
    transitivity (sumn (A := R_rng) m (fun k => weight (nth k edges noedge) * (bf k * bf k)))%R.
    - transitivity (sumn (A := R_rng) n (fun i => sumn (A := R_rng) n (fun j => sumn (A := R_rng) m (fun k =>
          (IZR (rbn nodes edges i k) * x (nth i nodes 0%nat)) * (weight (nth k edges noedge) * (IZR (rbn nodes edges j k) * x (nth j nodes 0%nat)))))))%R.
      { apply (@sumn_ext R_rng). intros i _. apply (@sumn_ext R_rng). intros j _. rewrite linv_entry.
        transitivity (kmul (r := R_rng) (x (nth i nodes 0%nat) * x (nth j nodes 0%nat))%R (sumn (A := R_rng) m (fun k => IZR (rbn nodes edges i k) * weight (nth k edges noedge) * IZR (rbn nodes edges j k))%R)); [cbn; ring|].
        rewrite (@sumn_mul_l R_rng). apply (@sumn_ext R_rng). intros k _. cbn. ring. }
      transitivity (sumn (A := R_rng) n (fun i => sumn (A := R_rng) m (fun k => IZR (rbn nodes edges i k) * x (nth i nodes 0%nat) * (weight (nth k edges noedge) * bf k))))%R.
      { apply (@sumn_ext R_rng). intros i _. rewrite (@sumn_swap R_rng). apply (@sumn_ext R_rng). intros k _. unfold bf, branch_flux. fold n.
        change (sumn (A := R_rng) n (fun j => kmul (r := R_rng) (IZR (rbn nodes edges i k) * x (nth i nodes 0%nat))%R (kmul (r := R_rng) (weight (nth k edges noedge)) (IZR (rbn nodes edges j k) * x (nth j nodes 0%nat))%R)) =
          kmul (r := R_rng) (IZR (rbn nodes edges i k) * x (nth i nodes 0%nat))%R (kmul (r := R_rng) (weight (nth k edges noedge)) (sumn (A := R_rng) n (fun j => (IZR (rbn nodes edges j k) * x (nth j nodes 0%nat))%R)))).
        rewrite !(@sumn_mul_l R_rng). auto. }
      rewrite (@sumn_swap R_rng). apply (@sumn_ext R_rng). intros k _. 
      change (sumn (A := R_rng) n (fun i => kmul (r := R_rng) (IZR (rbn nodes edges i k) * x (nth i nodes 0%nat))%R (weight (nth k edges noedge) * bf k)%R) = (weight (nth k edges noedge) * (bf k * bf k))%R).
      rewrite <- (@sumn_mul_r R_rng). change (bf k * (weight (nth k edges noedge) * bf k) = weight (nth k edges noedge) * (bf k * bf k))%R. ring.
    - apply (@sumn_ext R_rng). intros k Hk. unfold bf.
      rewrite (branch_flux_diff nodes edges x (nodes_NoDup nodes s HD eq_refl) wcs_ends X0 k (nth k edges noedge)); auto. apply nth_error_nth'; auto.
  Qed.
  Lemma ind_name_norm e e' : norm e = norm e' -> ind_name s e = ind_name s e'.
  Proof.
    intros E. unfold ind_name. enough (H : forall e e' c, norm e = norm e' -> dget (c_map s) e = Some c -> dget (c_map s) e' = Some c).
    - destruct (dget (c_map s) e) as [c|] eqn:E1; [rewrite (H e e' c E E1); auto|]. destruct (dget (c_map s) e') as [c|] eqn:E2; auto. rewrite (H e' e c (eq_sym E) E2) in E1. discriminate.
    - clear e e' E. intros e e' c E H. apply (map_get s HD) in H as (b & Hb & <- & Hs). apply (map_get s HD). exists b. split; auto. split; auto. apply norm_eq. apply norm_eq in Hs. congruence.
  Qed.
  (** over the circuit's inductors *)
  Lemma edges_total x : Rsum (map (fun e => weight e * ((x (src e) - x (dst e)) * (x (src e) - x (dst e))))%R edges) = inductive_form val (c_graph s) x.
  Proof.
    set (h := fun e => (weight e * ((x (src e) - x (dst e)) * (x (src e) - x (dst e))))%R).
    assert (Hh : forall e, h (norm e) = h e).
    { intros e. unfold h, weight. rewrite (ind_name_norm (norm e) e) by (destruct e as [[p q] k]; unfold norm, src, dst, ekey; cbn [fst snd]; f_equal; f_equal; lia). destruct e as [[p q] k]. unfold norm, src, dst. cbn.
      destruct (Nat.le_gt_cases p q); [rewrite Nat.min_l, Nat.max_r by lia|rewrite Nat.min_r, Nat.max_l by lia]; ring. }
    assert (N : forall l, Rsum (map h l) = Rsum (map h (map norm l))) by (intros l; rewrite map_map; apply Rsum_ext; intros; rewrite Hh; auto).
    rewrite N. unfold edges. rewrite (Rsum_perm _ _ (Permutation_map h (Permutation_map norm (wcs_perm s HD)))), (Rsum_perm _ _ (Permutation_map h (tree_clos_split s HD))), <- N.
    rewrite Rsum_filter. transitivity (Rsum (map h (noncap (c_graph s)))).
    { apply Rsum_ext. intros e _. destruct (keepb (noncap (c_graph s)) e) eqn:E; auto. unfold h. destruct (Nat.eq_dec (src e) (dst e)) as [E'|E']; [rewrite E'; ring|].
      rewrite (proj2 (keepb_spec _ e)) in E by auto. discriminate. }
    unfold noncap, inductive_form, branches_of. rewrite map_map, !Rsum_filter. apply Rsum_ext. intros [[[p q] k] c] Hb. cbn [fst snd].
    assert (Hc : dget (c_map s) (p, q, k) = Some c) by (apply (map_get s HD); exists ((p, q, k), c); split; auto; split; auto; left; auto).
    unfold h, weight, ind_name. rewrite Hc. unfold letter, starts, src, dst. cbn [fst snd]. assert (V := d_valid s HD _ Hb). cbn [snd] in V.
    destruct c as [|a c]; [discriminate|]. destruct (Ascii.eqb_spec a "L") as [->|].
    - cbn. unfold Rdiv. ring.
    - match goal with |- (if ?b then _ else _) = _ => destruct b; ring end.
  Qed.
  Lemma linv_form x : x 0 = 0%R -> form nodes (inverse_inductance nodes edges P) x x = inductive_form val (c_graph s) x.
  Proof. intros X0. rewrite linv_form_edges by auto. apply edges_total. Qed.
  (** ** flux energies *)
  Variable bias : edge -> R.
  Let bj j := bias (nth j edges noedge).
  (** bias flowing out of a node *)
  Definition outflow (n : nat) : R := if Nat.eqb n 0 then 0%R else Rsum (map (fun e => match ind_name s e with Some _ => inc e n * bias e | None => 0 end)%R edges).
  Lemma ind_bias_at j : j < m -> ind_bias s edges bj j = match ind_name s (nth j edges noedge) with Some _ => bj j | None => 0%R end.
  Proof.
    intros Hj. unfold ind_bias. rewrite (nth_error_nth' edges noedge) by auto. unfold isInductiveEdge, is_type, ind_name.
    assert (He : In (nth j edges noedge) edges) by (apply nth_In; auto). destruct (wcs_carry s HD _ He) as (c & Hc & _). apply (map_get s HD) in Hc. rewrite Hc. destruct c as [|a c]; [reflexivity|]. destruct (starts "L" (String a c)); auto.
  Qed.
  Lemma node_bias_at i : i < List.length nodes -> node_bias nodes edges (ind_bias s edges bj) i = outflow (nth i nodes 0).
  Proof.
    intros Hi. unfold node_bias, outflow. destruct (Nat.eqb_spec (nth i nodes 0) 0) as [E|_]; [exfalso; apply (nodes0 s HD); fold nodes; rewrite <- E; apply nth_In; auto|].
    rewrite <- (sumn_nth edges noedge). apply (@sumn_ext R_rng). intros j Hj. rewrite ind_bias_at by auto.
    rewrite (rbn_inc nodes edges i j (nth i nodes 0) (nth j edges noedge)) by (apply nth_error_nth'; auto). unfold bj. destruct (ind_name s _); [auto|apply Rmult_0_r].
  Qed.
  Lemma flux_energy_exact x : x 0 = 0%R -> flux_energy s edges P bj (fun i => x (nth i nodes 0)) = (1 / 2 * inductive_form val (c_graph s) (fun n => x n + outflow n))%R.
  Proof.
    intros X0. unfold flux_energy. cbv zeta. fold nodes. f_equal. rewrite <- linv_form by (rewrite X0; unfold outflow; cbn; ring). unfold form. cbv zeta.
    apply (@sumn_ext R_rng). intros i Hi. apply (@sumn_ext R_rng). intros j Hj. rewrite !node_bias_at by auto. auto.
  Qed.
  (** the property holds when every biased inductor joins ground to a node that no other inductor touches *)
  Definition isolated (e : edge) : Prop := (src e = 0 /\ dst e <> 0 \/ dst e = 0 /\ src e <> 0) /\
    forall e', In e' edges -> e' <> e -> inductor_at s e' -> forall n, n <> 0 -> touches n e -> ~ touches n e'.
  Lemma inductor_name e : inductor_at s e <-> exists c, ind_name s e = Some c.
  Proof.
    unfold inductor_at, ind_name. split.
    - intros (c & -> & H). exists c. unfold letter in H. cbn [snd] in H. unfold starts. destruct c; [discriminate|]. rewrite H. auto.
    - intros (c & H). destruct (dget (c_map s) e) as [c'|]; [|discriminate]. destruct (starts "L" c') eqn:E; [|discriminate]. exists c'. split; auto.
  Qed.
  Hypothesis Hiso : forall e, In e edges -> inductor_at s e -> bias e = 0%R \/ isolated e.
  Hypothesis Hedup : NoDup edges.
  Lemma outflow_edge e : In e edges -> inductor_at s e -> (outflow (src e) - outflow (dst e) = bias e)%R.
  Proof.
    intros He Hi.
    assert (G : forall n, n <> 0 -> touches n e -> src e <> dst e -> outflow n = (inc e n * bias e)%R).
    { intros n Hn Ht Hne. unfold outflow. destruct (Nat.eqb_spec n 0); [easy|]. rewrite (Rsum_single _ e); auto.
      - apply inductor_name in Hi as (c & ->). auto.
      - intros e' He' Hne'. destruct (ind_name s e') eqn:En; auto. assert (Hi' : inductor_at s e') by (apply inductor_name; eauto).
        destruct (Hiso e' He' Hi') as [->|[Hg Hs]]; [ring|]. assert (Hnt : ~ touches n e').
        { intros Ht'. apply (Hs e He (not_eq_sym Hne') Hi n Hn Ht' Ht). }
        unfold inc, touches in *. destruct (Nat.eqb (src e') (dst e')); [ring|]. destruct (Nat.eqb_spec (src e') n); [tauto|]. destruct (Nat.eqb_spec (dst e') n); [tauto|]. ring. }
    assert (Z : outflow 0 = 0%R) by reflexivity.
    destruct (Nat.eq_dec (src e) (dst e)) as [E|E].
    { rewrite E. destruct (Hiso e He Hi) as [->|[[[H1 H2]|[H1 H2]] _]]; [ring|congruence|congruence]. }
    assert (S1 : outflow (src e) = if Nat.eqb (src e) 0 then 0%R else bias e).
    { destruct (Nat.eqb_spec (src e) 0) as [E0|E0]; [rewrite E0; auto|]. rewrite (G (src e)) by (unfold touches; auto). unfold inc. destruct (Nat.eqb_spec (src e) (dst e)); [easy|]. rewrite Nat.eqb_refl. ring. }
    assert (S2 : outflow (dst e) = if Nat.eqb (dst e) 0 then 0%R else (- bias e)%R).
    { destruct (Nat.eqb_spec (dst e) 0) as [E0|E0]; [rewrite E0; auto|]. rewrite (G (dst e)) by (unfold touches; auto). unfold inc. destruct (Nat.eqb_spec (src e) (dst e)); [easy|]. rewrite Nat.eqb_refl. ring. }
    rewrite S1, S2. destruct (Hiso e He Hi) as [->|[[[H1 H2]|[H1 H2]] _]].
    - destruct (Nat.eqb (src e) 0), (Nat.eqb (dst e) 0); ring.
    - destruct (Nat.eqb_spec (src e) 0); [|easy]. destruct (Nat.eqb_spec (dst e) 0); [easy|]. ring.
    - destruct (Nat.eqb_spec (dst e) 0); [|easy]. destruct (Nat.eqb_spec (src e) 0); [easy|]. ring.
  Qed.
  Lemma flux_energy_isolated x : x 0 = 0%R -> flux_energy s edges P bj (fun i => x (nth i nodes 0)) = (1 / 2 * biased_form val s edges bias x)%R.
  Proof.
    intros X0. rewrite flux_energy_exact by auto. f_equal. rewrite <- edges_total. unfold biased_form. apply Rsum_ext. intros e He.
    unfold weight. destruct (ind_name s e) as [c|] eqn:En.
    - assert (Hi : inductor_at s e) by (apply inductor_name; eauto). rewrite <- (outflow_edge e He Hi). unfold ind_name in En. destruct (dget (c_map s) e) as [c'|]; [|discriminate].
      change (letter "L" (e, c')) with (starts "L" c'). destruct (starts "L" c'); [|discriminate]. injection En as ->. unfold Rdiv. ring.
    - unfold ind_name in En. destruct (dget (c_map s) e) as [c'|]; [|ring]. change (letter "L" (e, c')) with (starts "L" c'). destruct (starts "L" c'); [discriminate|]. ring.
  Qed.
End Inverse.
