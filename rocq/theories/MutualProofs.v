(** Mutual inductances (C89). *)
From Coq Require Import List Bool String Ascii Arith ZArith Reals Permutation Lra Lia.
From Verif Require Import Prelude PreludeFacts Mat MatFacts Graph GraphSpec GraphView GraphForest GraphWf GraphCircuit GraphState GraphMaps GraphOps GraphProofs Symbolic SymbolicSpec RSum SymbolicInv SymbolicCap SymbolicCap2 SymbolicFlux SymbolicNew MutualSpec.
Import ListNotations.
Open Scope string_scope.
Open Scope list_scope.
Open Scope nat_scope.

(** ** Vectors *)
Section Vectors.
  Variable n : nat.
  Open Scope R_scope.
  Definition mv (A : nat -> nat -> R) (v : nat -> R) (k : nat) : R := sumn (A := R_rng) n (fun l => A k l * v l).
  Definition dotv (u v : nat -> R) : R := sumn (A := R_rng) n (fun k => u k * v k).
  Lemma sR_ext (f g : nat -> R) : (forall i, (i < n)%nat -> f i = g i) -> sumn (A := R_rng) n f = sumn (A := R_rng) n g.
  Proof. apply (@sumn_ext R_rng). Qed.
  Lemma sR_add (f g : nat -> R) : sumn (A := R_rng) n (fun i => f i + g i) = sumn (A := R_rng) n f + sumn (A := R_rng) n g.
  Proof. apply (@sumn_add R_rng). Qed.
  Lemma sR_mul c (f : nat -> R) : c * sumn (A := R_rng) n f = sumn (A := R_rng) n (fun i => c * f i).
  Proof. apply (@sumn_mul_l R_rng). Qed.
  Lemma sR_mulr c (f : nat -> R) : sumn (A := R_rng) n f * c = sumn (A := R_rng) n (fun i => f i * c).
  Proof. apply (@sumn_mul_r R_rng). Qed.
  Lemma sR_swap (f : nat -> nat -> R) : sumn (A := R_rng) n (fun i => sumn (A := R_rng) n (fun j => f i j)) = sumn (A := R_rng) n (fun j => sumn (A := R_rng) n (fun i => f i j)).
  Proof. apply (@sumn_swap R_rng). Qed.
  Lemma sR_0 (f : nat -> R) : (forall i, (i < n)%nat -> f i = 0) -> sumn (A := R_rng) n f = 0.
  Proof. apply (@sumn_0 R_rng). Qed.
  Lemma mv_ext A B u v k : (k < n)%nat -> (forall l, (l < n)%nat -> A k l = B k l) -> (forall l, (l < n)%nat -> u l = v l) -> mv A u k = mv B v k.
  Proof. intros Hk H1 H2. apply sR_ext. intros l Hl. rewrite H1, H2; auto. Qed.
  Lemma mv_add A u v k : mv A (fun l => u l + v l) k = mv A u k + mv A v k.
  Proof. unfold mv. rewrite <- sR_add. apply sR_ext. intros. ring. Qed.
  Lemma mv_mul A B v k : mv (mmul (A := R_rng) n A B) v k = mv A (mv B v) k.
  Proof.
    unfold mv, mmul. transitivity (sumn (A := R_rng) n (fun l => sumn (A := R_rng) n (fun m => A k m * B m l * v l))).
    - apply sR_ext. intros l _. apply sR_mulr.
    - rewrite sR_swap. apply sR_ext. intros m _. rewrite sR_mul. apply sR_ext. intros. ring.
  Qed.
  Lemma dotv_add_l u v w : dotv (fun k => u k + v k) w = dotv u w + dotv v w.
  Proof. unfold dotv. rewrite <- sR_add. apply sR_ext. intros. ring. Qed.
  Lemma dotv_add_r u v w : dotv u (fun k => v k + w k) = dotv u v + dotv u w.
  Proof. unfold dotv. rewrite <- sR_add. apply sR_ext. intros. ring. Qed.
  Lemma dotv_ext u u' v v' : (forall k, (k < n)%nat -> u k = u' k) -> (forall k, (k < n)%nat -> v k = v' k) -> dotv u v = dotv u' v'.
  Proof. intros H1 H2. apply sR_ext. intros. rewrite H1, H2; auto. Qed.
  Lemma dotv_0_l u v : (forall k, (k < n)%nat -> u k = 0) -> dotv u v = 0.
  Proof. intros H. apply sR_0. intros k Hk. rewrite H by auto. ring. Qed.
  Lemma dotv_0_r u v : (forall k, (k < n)%nat -> v k = 0) -> dotv u v = 0.
  Proof. intros H. apply sR_0. intros k Hk. rewrite H by auto. ring. Qed.
  Lemma dotv_tr A u v : dotv u (mv A v) = dotv (mv (fun i j => A j i) u) v.
  Proof.
    unfold dotv, mv. transitivity (sumn (A := R_rng) n (fun k => sumn (A := R_rng) n (fun l => u k * (A k l * v l)))).
    - apply sR_ext. intros k _. apply sR_mul.
    - rewrite sR_swap. apply sR_ext. intros l _. rewrite sR_mulr. apply sR_ext. intros. ring.
  Qed.
  (** The quadratic form of the pseudo-inverse at A J + Z, A Z = 0. *)
  Variables (A P : nat -> nat -> R) (J Z F : nat -> R).
  Hypothesis HP : penrose n A P.
  Hypothesis HA : forall i j, (i < n)%nat -> (j < n)%nat -> A i j = A j i.
  Hypothesis HZ : forall k, (k < n)%nat -> mv A Z k = 0.
  Hypothesis HF : forall k, (k < n)%nat -> F k = mv A J k + Z k.
  Lemma tr_zero B : (forall i j, (i < n)%nat -> (j < n)%nat -> mmul (A := R_rng) n A B i j = mmul (A := R_rng) n A B j i) -> forall k, (k < n)%nat -> mv (mmul (A := R_rng) n A B) Z k = 0.
  Proof.
    intros HB k Hk. rewrite (mv_ext (mmul (A := R_rng) n A B) (mmul (A := R_rng) n (fun i j => B j i) A) Z Z) by
      (auto; intros l Hl; rewrite HB by auto; unfold mmul; apply sR_ext; intros; cbn; rewrite (HA l) by auto; ring).
    rewrite mv_mul. unfold mv at 1. apply sR_0. intros l Hl. rewrite HZ by auto. ring.
  Qed.
  Lemma pinv_kernel k : (k < n)%nat -> mv P Z k = 0.
  Proof.
    intros Hk. rewrite (mv_ext P (mmul (A := R_rng) n P (mmul (A := R_rng) n A P)) Z Z); auto.
    - rewrite mv_mul. unfold mv at 1. apply sR_0. intros l Hl. rewrite tr_zero; auto; [ring|]. intros i j Hi Hj. apply (HP i j Hi Hj).
    - intros l Hl. destruct (HP k l Hk Hl) as (_ & H & _). rewrite <- H. apply (@mmul_assoc R_rng).
  Qed.
  Lemma pinv_kernel_tr k : (k < n)%nat -> mv (fun i j => P j i) Z k = 0.
  Proof.
    intros Hk. rewrite (mv_ext (fun i j => P j i) (mmul (A := R_rng) n (fun i j => P j i) (mmul (A := R_rng) n P A)) Z Z); auto.
    - rewrite mv_mul. unfold mv at 1. apply sR_0. intros l Hl. rewrite mv_mul. unfold mv at 1. rewrite sR_0; [ring|]. intros q Hq. rewrite HZ by auto. ring.
    - intros l Hl. destruct (HP l k Hl Hk) as (_ & H & _). rewrite <- H. unfold mmul at 1 3. apply sR_ext. intros q Hq.
      destruct (HP l q Hl Hq) as (_ & _ & _ & H4). rewrite H4. cbn. ring.
  Qed.
  Lemma pinv_form : dotv F (mv P F) = dotv J (mv A J).
  Proof.
    assert (E : forall k, (k < n)%nat -> mv P F k = mv P (mv A J) k).
    { intros k Hk. rewrite (mv_ext P P F (fun l => mv A J l + Z l)) by auto. rewrite mv_add, pinv_kernel by auto. ring. }
    rewrite (dotv_ext F (fun k => mv A J k + Z k) (mv P F) (mv P (mv A J))) by auto. rewrite dotv_add_l.
    rewrite (dotv_tr P Z), (dotv_0_l (mv _ Z)) by (apply pinv_kernel_tr). rewrite Rplus_0_r.
    rewrite (dotv_ext (mv A J) (mv (fun i j => A j i) J) (mv P (mv A J)) (mv P (mv A J))); [|intros k Hk; apply mv_ext; auto|auto]. rewrite <- dotv_tr.
    apply dotv_ext; auto. intros k Hk. transitivity (mv (mmul (A := R_rng) n (mmul (A := R_rng) n A P) A) J k).
    - rewrite mv_mul, mv_mul. auto.
    - apply mv_ext; auto. intros l Hl. apply (HP k l Hk Hl).
  Qed.
End Vectors.

(** ** Couplings are between inductors, each pair once *)
Definition map_sound (s : cg) : Prop := forall e c, dget (c_map s) e = Some c -> carries (c_graph s) e c.
Record CInv (s : cg) : Prop := {
  u_map : map_sound s;
  u_ind : forall m p q, In (m, (p, q)) (c_coupled s) -> (exists c, carries (c_graph s) p c /\ starts "L" c = true) /\ (exists c, carries (c_graph s) q c /\ starts "L" c = true);
  u_pairs : forall m p q m' p' q', In (m, (p, q)) (c_coupled s) -> In (m', (p', q')) (c_coupled s) -> (p', q') = (p, q) \/ (p', q') = (q, p) -> m = m'
}.
Lemma carries_more s o e c : carries (c_graph s) e c -> carries (c_graph (fst (gstep s o))) e c.
Proof. destruct (proj1 (gstep_grow s o)) as (more & E). intros (b & Hb & H). exists b. split; auto. rewrite E. apply in_or_app. auto. Qed.
Lemma map_sound_graph g : wfg g -> (forall e c, dget (edge_map g) e = Some c -> carries g e c) /\ (forall e c, dget (both_ways (edge_map g)) e = Some c -> carries g e c).
Proof.
  intros Hw. split; intros e c H.
  - apply edge_map_carries; auto. exists e. split; [apply dget_In; auto|auto].
  - apply edge_map_carries; auto. apply (proj2 (both_ways_spec _ (edge_map_norm g Hw)) e c). auto.
Qed.
Lemma couple_inv s i1 i2 m : map_sound s -> (exists x, coupleBranches s i1 i2 m = (s, Err x)) \/
  exists p q, coupleBranches s i1 i2 m = (set_coupled s (c_coupled s ++ [(m, (p, q))]), Ok tt) /\
    (exists c, carries (c_graph s) p c /\ starts "L" c = true) /\ (exists c, carries (c_graph s) q c /\ starts "L" c = true) /\
    (forall m' p' q', In (m', (p', q')) (c_coupled s) -> (p', q') <> (p, q) /\ (p', q') <> (q, p)).
Proof.
  intros HM. unfold coupleBranches. destruct m as [|a m0]; [left; cbn [bind negb]; eauto; fail|]. remember (String a m0) as m. cbn zeta.
  destruct (starts "M" m) eqn:E1; cbn [negb]; [|left; cbn [bind negb]; eauto; fail]. destruct (dmem (c_coupled s) m) eqn:E2; [left; cbn [bind negb]; eauto; fail|].
  destruct (getComponentEdge s i1) as [e1|] eqn:G1; [|left; cbn [bind negb]; eauto; fail]. cbn [bind]. destruct (getComponentEdge s i2) as [e2|] eqn:G2; [|left; cbn [bind negb]; eauto; fail]. cbn [bind].
  assert (HI : forall e, isInductiveEdge s e = Ok true -> exists c, carries (c_graph s) e c /\ starts "L" c = true).
  { intros e. unfold isInductiveEdge, is_type. destruct (dget (c_map s) e) as [c|] eqn:E; [|discriminate]. destruct c as [|x c]; [discriminate|]. intros [= H]. exists (String x c). auto. }
  destruct (isInductiveEdge s e1) as [[]|] eqn:I1; try (left; cbn [bind negb]; eauto; fail). destruct (isInductiveEdge s e2) as [[]|] eqn:I2; try (left; cbn [bind negb]; eauto; fail). cbn [bind negb].
  unfold to_wc. destruct (c_wc s) as [es|]; [|left; cbn [bind negb]; eauto; fail]. cbn [bind].
  assert (HR : forall e c, carries (c_graph s) e c -> carries (c_graph s) (rev_edge e) c).
  { intros e c (b & Hb & Hc & Hs). exists b. split; auto. split; auto. apply norm_eq. apply norm_eq in Hs. rewrite norm_rev. auto. }
  match goal with |- context[existsb (fun x => same_pair (?p, ?q) _) _] => set (p0 := p); set (q0 := q) end.
  destruct (existsb _ _) eqn:Ex; [left; cbn [bind negb]; eauto; fail|]. right. exists p0, q0. split; [rewrite dset_new; auto; apply dmem_false in E2; apply dget_None; auto|].
  destruct (HI e1 I1) as (c1 & C1 & L1), (HI e2 I2) as (c2 & C2 & L2).
  split; [exists c1; split; auto; unfold p0; destruct (mem e1 es); auto|]. split; [exists c2; split; auto; unfold q0; destruct (mem e2 es); auto|].
  intros m' p' q' Hin. split; intros E; rewrite <- not_true_iff_false in Ex; apply Ex; apply existsb_exists; exists (m', (p', q')); (split; auto); apply same_pair_spec; cbn [fst snd]; auto.
Qed.
Lemma gstep_CInv s o : reachable s -> reachable (fst (gstep s o)) -> CInv s -> CInv (fst (gstep s o)).
Proof.
  intros Hr Hr' [H1 H2 H3].
  assert (Hkeep : c_coupled (fst (gstep s o)) = c_coupled s -> map_sound (fst (gstep s o)) -> CInv (fst (gstep s o))).
  { intros E Hm. split; auto; rewrite E; auto. intros m p q Hin. destruct (H2 m p q Hin) as [(c & C & L) (c' & C' & L')]. split; [exists c|exists c']; split; auto; apply carries_more; auto. }
  destruct o as [oo a b c|i1 i2 m|n c| |c sfx m|n sfx c].
  - destruct (reachable_wf _ Hr') as [Hw' _]. cbn [gstep] in *. destruct (addBranch_cases oo s a b c) as [(_ & e & E)|[(_ & _ & E)|(_ & _ & E)]]; rewrite E in *; cbn [fst] in *.
    + apply Hkeep; auto.
    + apply Hkeep; auto. intros e x. cbn [set_graph c_map c_graph] in *. apply (map_sound_graph _ Hw').
    + destruct (update_graph_same oo (set_graph s (added s a b c) (both_ways (edge_map (added s a b c))))) as (U1 & U2 & _ & _ & _ & U6).
      destruct (update_graphs _ _) as [s1 [[]|e]]; cbn [fst set_res c_graph c_map c_coupled set_graph] in *; apply Hkeep; auto; intros e' x; cbn [set_res c_map c_graph] in *; rewrite U2, U1 in *; apply (map_sound_graph _ Hw').
  - cbn [gstep] in *. destruct (couple_inv s i1 i2 m H1) as [(x & E)|(p & q & E & C1 & C2 & Hp)]; rewrite E in *; cbn [fst set_coupled c_map c_graph c_coupled] in *; [split; auto|]. split; cbn [set_coupled c_map c_graph c_coupled]; auto.
    + intros m1 p1 q1 Hin. apply in_app_or in Hin as [Hin|[Hin|[]]]; eauto. injection Hin as <- <- <-. auto.
    + intros m1 p1 q1 m2 p2 q2 I1 I2 Hs. apply in_app_or in I1 as [I1|[I1|[]]]; apply in_app_or in I2 as [I2|[I2|[]]]; eauto.
      * injection I2 as <- <- <-. destruct (Hp _ _ _ I1) as [N1 N2]. exfalso. destruct Hs as [Hs|Hs]; injection Hs as -> ->; auto.
      * injection I1 as <- <- <-. destruct (Hp _ _ _ I2) as [N1 N2]. exfalso. destruct Hs as [Hs|Hs]; auto.
      * congruence.
  - cbn [gstep] in *. destruct (res_result s n c) as [(r & E & Hn)|(x & E)]; rewrite E in *; apply Hkeep; auto.
  - apply Hkeep; auto.
  - cbn [gstep] in *. destruct (flux_result s c sfx m) as [(e & b & E & Hd & Hs & _)|(x & E)]; rewrite E in *; apply Hkeep; auto.
  - cbn [gstep] in *. destruct (charge_result s n sfx c) as [(b & E & Hd & Hs)|(x & E)]; rewrite E in *; apply Hkeep; auto.
Qed.
Lemma reachable_CInv s : reachable s -> CInv s.
Proof. induction 1; [split; cbn; easy|apply gstep_CInv; auto; constructor; auto]. Qed.

(** ** The matrix *)
Lemma find_last {A} (f : A -> bool) l x : find f (l ++ [x]) = match find f l with Some y => Some y | None => if f x then Some x else None end.
Proof. induction l as [|a l IH]; cbn; auto. destruct (f a); auto. Qed.
Lemma nth_at (edges : list edge) i k (p : edge) : NoDup edges -> i < List.length edges -> k < List.length edges -> nth k edges noedge = p -> eqb p (nth i edges noedge) = Nat.eqb k i.
Proof.
  intros Hn Hi Hk <-. destruct (Nat.eqb_spec k i) as [->|Hne]; [apply eqb_refl|]. destruct (eqb (nth k edges noedge) (nth i edges noedge)) eqn:E; auto. apply (proj1 (eqb_eq _ _)) in E.
  exfalso. apply Hne. apply (NoDup_nth edges noedge); auto.
Qed.
Lemma off_fold s edges : NoDup edges -> forall l M0 M', foldM (ind_off s edges) l M0 = Ok M' ->
  (forall m p q, In (m, (p, q)) l -> In p edges /\ In q edges) /\
  forall i j, i < List.length edges -> j < List.length edges ->
    M' i j = match find (fun x => joins x (nth i edges noedge) (nth j edges noedge)) (rev l) with Some x => Some (fst x) | None => M0 i j end.
Proof.
  intros Hn. induction l as [|[m [p q]] l IH]; intros M0 M' H; cbn [foldM] in H.
  - injection H as <-. split; [easy|]. intros. reflexivity.
  - destruct (ind_off s edges M0 (m, (p, q))) as [M1|] eqn:E1; [|discriminate]. cbn [bind] in H. destruct (IH M1 M' H) as [I1 I2].
    unfold ind_off in E1. cbn [fst snd] in E1. destruct (index_of p edges) as [a|] eqn:Ea; [|discriminate]. cbn [bind] in E1. destruct (index_of q edges) as [b|] eqn:Eb; [|discriminate]. cbn [bind] in E1.
    destruct (param s m) as [c|] eqn:Ep; [|discriminate]. cbn [bind] in E1. injection E1 as <-. apply param_ok in Ep as ->.
    apply (index_of_spec _ _ noedge) in Ea as [La Na]. apply (index_of_spec _ _ noedge) in Eb as [Lb Nb]. split.
    + intros m' p' q' [E|Hin]; [|eauto]. injection E as <- <- <-. split; [rewrite <- Na|rewrite <- Nb]; apply nth_In; auto.
    + intros i j Hi Hj. rewrite (I2 i j Hi Hj). cbn [rev]. rewrite find_last. destruct (find _ (rev l)); auto.
      unfold joins. cbn [fst snd]. rewrite (nth_at edges i a p), (nth_at edges j b q), (nth_at edges j a p), (nth_at edges i b q) by auto.
      unfold put_at. destruct (Nat.eqb_spec b i), (Nat.eqb_spec a j), (Nat.eqb_spec a i), (Nat.eqb_spec b j); cbn; auto.
Qed.
Section Matrix.
  Variables (s : cg) (M : imat).
  Hypothesis Hc : circuit s.
  Let HD : Derived s := circuit_derived s Hc.
  Let edges := wcs s.
  Let n := List.length edges.
  Let at_ i := nth i edges noedge.
  Hypothesis HM : inductance_matrix s edges = Ok M.
  Lemma edges_NoDup : NoDup edges. Proof. apply wcs_NoDup; auto. Qed.
  Lemma matrix_entries : (forall m p q, In (m, (p, q)) (c_coupled s) -> In p edges /\ In q edges) /\
    forall i j, i < n -> j < n -> M i j = match find (fun x => joins x (at_ i) (at_ j)) (rev (c_coupled s)) with Some x => Some (fst x) | None => if Nat.eqb i j then ind_name s (at_ i) else None end.
  Proof.
    unfold inductance_matrix in HM. destruct (foldM (ind_diag s) (enumerate edges) (fun _ _ => None)) as [M1|] eqn:E; [|discriminate]. cbn [bind] in HM.
    destruct (off_fold s edges edges_NoDup _ _ _ HM) as [I1 I2]. split; auto. intros i j Hi Hj. rewrite (I2 i j Hi Hj). unfold at_. destruct (find _ _); auto.
    unfold enumerate in E. rewrite (ind_diag_fold s edges 0 _ M1 E i j). rewrite Nat.sub_0_r. cbn [Nat.leb Nat.add]. rewrite andb_true_r. unfold n in Hi. apply Nat.ltb_lt in Hi. rewrite Hi, andb_true_r.
    destruct (Nat.eqb i j); auto. destruct (ind_name _ _); auto.
  Qed.
  Lemma joins_sym x a b : joins x a b = joins x b a.
  Proof. unfold joins. apply orb_comm. Qed.
  Theorem matrix_sym i j : i < n -> j < n -> M i j = M j i.
  Proof.
    intros Hi Hj. destruct matrix_entries as [_ H]. rewrite (H i j), (H j i) by auto.
    assert (E : forall l, find (fun x => joins x (at_ i) (at_ j)) l = find (fun x => joins x (at_ j) (at_ i)) l) by (intros l; induction l as [|x l IH]; cbn; auto; rewrite joins_sym, IH; auto).
    rewrite E. rewrite Nat.eqb_sym. destruct (Nat.eqb_spec j i) as [->|]; auto.
  Qed.
  (** the inductor on a branch *)
  Variable val : string -> R.
  Lemma inductance_name e : inductance_at val (c_graph s) e = match ind_name s e with Some c => val c | None => 0%R end.
  Proof.
    unfold inductance_at. destruct (ind_name s e) as [c|] eqn:E.
    - destruct (ind_name_branch s HD e c E) as (b & Hb & <- & Hs).
      assert (Hnd : NoDup (branches_of "L" (c_graph s))) by (apply NoDup_filter; assert (W := w_norm _ (d_wf s HD)); apply NoDup_map_inv in W; auto).
      rewrite (Rsum_single _ b); auto.
      + apply norm_eq in Hs. rewrite Hs, eqb_refl. auto.
      + intros b' Hb' Hne. destruct (eqb (norm (fst b')) (norm e)) eqn:E'; auto. apply (proj1 (eqb_eq _ _)) in E'. exfalso. apply Hne.
        apply norm_eq in Hs. unfold branches_of in Hb, Hb'. apply filter_In in Hb as [Hb _]. apply filter_In in Hb' as [Hb' _].
        destruct b as [f c], b' as [f' c']. cbn [fst snd] in *. destruct (norm_unique (g_edges (c_graph s)) f' c' f c (w_norm _ (d_wf s HD)) Hb' Hb) as [-> ->]; congruence.
    - apply Rsum_map_0. intros b Hb. destruct (eqb (norm (fst b)) (norm e)) eqn:E'; auto. apply (proj1 (eqb_eq _ _)) in E'. exfalso.
      unfold branches_of in Hb. apply filter_In in Hb as [Hb HL]. assert (Hg : dget (c_map s) e = Some (snd b)) by (apply (map_get s HD); exists b; split; auto; split; auto; apply norm_eq; auto).
      unfold ind_name in E. rewrite Hg in E. unfold letter in HL. unfold starts in E. destruct (snd b); [discriminate|]. rewrite HL in E. discriminate.
  Qed.
  Hypothesis Hself : no_self_coupling s.
  Lemma find_mutual a b : match find (fun x => joins x a b) (rev (c_coupled s)) with Some x => val (fst x) | None => 0%R end = mutual val s a b.
  Proof.
    unfold mutual. assert (Hcs := reachable_CInv s (circuit_reachable s Hc)). destruct (find _ _) as [x|] eqn:E.
    - apply find_some in E as [Hx Hj]. apply in_rev in Hx. rewrite (Rsum_single _ x); [rewrite Hj; auto| |auto|].
      + apply (NoDup_map_inv fst). apply (i_mk s (reachable_Inv s (circuit_reachable s Hc))).
      + intros y Hy Hne. destruct (joins y a b) eqn:Ey; auto. exfalso. apply Hne. destruct x as [m [p q]], y as [m' [p' q']].
        assert (m = m').
        { apply (u_pairs s Hcs m p q m' p' q' Hx Hy). unfold joins in Hj, Ey. cbn [fst snd] in *. rewrite orb_true_iff, !andb_true_iff in Hj, Ey.
          repeat match goal with H : eqb _ _ = true |- _ => apply (proj1 (eqb_eq _ _)) in H | H : _ \/ _ |- _ => destruct H | H : _ /\ _ |- _ => destruct H end; subst; auto. }
        subst m'. assert (N := i_mk s (reachable_Inv s (circuit_reachable s Hc))). apply (In_dget _ _ _ N) in Hx. apply (In_dget _ _ _ N) in Hy. congruence.
    - symmetry. apply Rsum_map_0. intros x Hx. destruct (joins x a b) eqn:Ej; auto. apply in_rev in Hx. eapply find_none in E; eauto. cbn in E. congruence.
  Qed.
  Theorem matrix_values i j : i < n -> j < n -> imat_val val M i j = if Nat.eqb i j then inductance_at val (c_graph s) (at_ i) else mutual val s (at_ i) (at_ j).
  Proof.
    intros Hi Hj. unfold imat_val. destruct matrix_entries as [Hin H]. rewrite (H i j Hi Hj). destruct (Nat.eqb_spec i j) as [<-|Hne].
    - destruct (find _ _) as [x|] eqn:E; [|symmetry; apply inductance_name]. exfalso. apply find_some in E as [Hx Hjn]. apply in_rev in Hx. destruct x as [m [p q]]. apply (Hself m p q Hx).
      unfold joins in Hjn. cbn [fst snd] in Hjn. rewrite orb_true_iff, !andb_true_iff in Hjn.
      repeat match goal with H : eqb _ _ = true |- _ => apply (proj1 (eqb_eq _ _)) in H | H : _ \/ _ |- _ => destruct H | H : _ /\ _ |- _ => destruct H end; subst; auto.
    - rewrite <- find_mutual. destruct (find _ _); auto.
  Qed.
End Matrix.

(** ** The energy *)
Lemma form_dotv nodes edges (P : nat -> nat -> R) (x : nat -> R) :
  form nodes (inverse_inductance nodes edges P) x x =
  dotv (List.length edges) (fun k => branch_flux nodes edges (fun i => x (nth i nodes 0)) k) (mv (List.length edges) P (fun k => branch_flux nodes edges (fun i => x (nth i nodes 0)) k)).
Proof.
  unfold form. cbv zeta. set (n := List.length nodes). set (m := List.length edges).
  set (a := fun i k => (IZR (rbn nodes edges i k) * x (nth i nodes 0%nat))%R).
  transitivity (sumn (A := R_rng) n (fun i => sumn (A := R_rng) n (fun j => sumn (A := R_rng) m (fun k => sumn (A := R_rng) m (fun l => (a i k * (P k l * a j l))%R))))).
  { apply sR_ext. intros i _. apply sR_ext. intros j _. unfold inverse_inductance. fold m. cbv zeta. rewrite sR_mul, sR_mulr. apply sR_ext. intros k _. rewrite sR_mul, sR_mulr. apply sR_ext. intros l _. unfold a. ring. }
  assert (Hb : forall k, branch_flux nodes edges (fun i => x (nth i nodes 0)) k = sumn (A := R_rng) n (fun i => a i k)) by reflexivity.
  unfold dotv, mv.
  transitivity (sumn (A := R_rng) m (fun k => sumn (A := R_rng) m (fun l => sumn (A := R_rng) n (fun i => sumn (A := R_rng) n (fun j => (a i k * (P k l * a j l))%R))))).
  - transitivity (sumn (A := R_rng) n (fun i => sumn (A := R_rng) m (fun k => sumn (A := R_rng) m (fun l => sumn (A := R_rng) n (fun j => (a i k * (P k l * a j l))%R))))).
    + apply sR_ext. intros i _. rewrite (@sumn_swap R_rng). apply sR_ext. intros k _. apply (@sumn_swap R_rng).
    + rewrite (@sumn_swap R_rng). apply sR_ext. intros k _. apply (@sumn_swap R_rng).
  - apply sR_ext. intros k _. rewrite Hb, sR_mul. apply sR_ext. intros l _. rewrite Hb, sR_mulr. apply sR_ext. intros i _. rewrite sR_mul, sR_mul. apply sR_ext. intros j _. ring.
Qed.

Section Energy.
  Variables (s : cg) (M : imat) (val : string -> R).
  Hypothesis Hc : circuit s.
  Let HD : Derived s := circuit_derived s Hc.
  Let edges := wcs s.
  Let n := List.length edges.
  Let at_ i := nth i edges noedge.
  Hypothesis HM : inductance_matrix s edges = Ok M.
  Hypothesis Hself : no_self_coupling s.
  Variable I : edge -> R.
  Let A := imat_val val M.
  Let J k := I (at_ k).
  Lemma pick (e : edge) (f : edge -> R) : In e edges -> Rsum (map (fun g => if eqb e g then f g else 0%R) edges) = f e.
  Proof.
    intros He. rewrite (Rsum_single _ e); auto; [rewrite eqb_refl; auto|apply edges_NoDup; auto|]. intros g _ Hne. destruct (eqb e g) eqn:E; auto. apply (proj1 (eqb_eq _ _)) in E. congruence.
  Qed.
  Lemma joins_split (p q a b : edge) m (t : R) : p <> q -> (if joins (m, (p, q)) a b then t else 0)%R = ((if eqb p a then (if eqb q b then t else 0) else 0) + (if eqb q a then (if eqb p b then t else 0) else 0))%R.
  Proof.
    intros Hpq. unfold joins. cbn [fst snd]. destruct (eqb p a) eqn:E1, (eqb q a) eqn:E2, (eqb q b) eqn:E3, (eqb p b) eqn:E4; cbn; try ring.
    all: apply (proj1 (eqb_eq _ _)) in E1; apply (proj1 (eqb_eq _ _)) in E2; congruence.
  Qed.
  Lemma mutual_self e : mutual val s e e = 0%R.
  Proof.
    apply Rsum_map_0. intros [m [p q]] Hx. rewrite joins_split by (eapply Hself; eauto). assert (Hne := Hself m p q Hx).
    destruct (eqb p e) eqn:E1, (eqb q e) eqn:E2; try ring. apply (proj1 (eqb_eq _ _)) in E1. apply (proj1 (eqb_eq _ _)) in E2. congruence.
  Qed.
  Lemma mv_flux k : k < n -> mv n A J k = flux_of val s I (at_ k).
  Proof.
    intros Hk. unfold mv. set (e := at_ k).
    set (h := fun g => ((if eqb e g then inductance_at val (c_graph s) e * I g else 0) + mutual val s e g * I g)%R).
    transitivity (sumn (A := R_rng) n (fun l => h (nth l edges noedge))).
    { apply sR_ext. intros l Hl. unfold A, h. rewrite (matrix_values s M Hc HM val Hself k l Hk Hl). fold edges. unfold e, J, at_.
      rewrite (nth_at edges l k (nth k edges noedge)) by (auto; apply edges_NoDup; auto). destruct (Nat.eqb_spec k l) as [<-|]; [rewrite mutual_self|]; ring. }
    unfold n. rewrite (sumn_nth edges noedge h). unfold h. rewrite Rsum_map_add. unfold flux_of. f_equal.
    - apply (pick e (fun g => inductance_at val (c_graph s) e * I g)%R). apply nth_In; auto.
    - destruct (matrix_entries s M Hc HM) as [Hin _]. unfold mutual.
      transitivity (Rsum (map (fun g => Rsum (map (fun x => I g * (if joins x e g then val (fst x) else 0)) (c_coupled s))) edges))%R.
      { apply Rsum_ext. intros g _. rewrite Rsum_map_mul. ring. }
      rewrite Rsum_swap. apply Rsum_ext. intros [m [p q]] Hx. cbn [fst]. destruct (Hin m p q Hx) as [Hp Hq].
      transitivity (Rsum (map (fun g => (if eqb q g then (if eqb p e then val m * I g else 0) else 0) + (if eqb p g then (if eqb q e then val m * I g else 0) else 0)) edges))%R.
      { apply Rsum_ext. intros g _. rewrite joins_split by (eapply Hself; eauto). destruct (eqb p e), (eqb q e), (eqb q g), (eqb p g); ring. }
      rewrite Rsum_map_add, (pick q (fun g => if eqb p e then val m * I g else 0)%R Hq), (pick p (fun g => if eqb q e then val m * I g else 0)%R Hp).
      destruct (eqb p e), (eqb q e); ring.
  Qed.
  Lemma dot_magnetic : dotv n J (mv n A J) = magnetic val s edges I.
  Proof.
    rewrite (dotv_ext n J J (mv n A J) (fun k => flux_of val s I (at_ k))) by (auto using mv_flux). unfold dotv, J, at_, n.
    set (h := fun e => (I e * flux_of val s I e)%R).
    transitivity (sumn (A := R_rng) (List.length edges) (fun k => h (nth k edges noedge))); [auto|].
    rewrite (sumn_nth edges noedge h). unfold h, magnetic, flux_of. destruct (matrix_entries s M Hc HM) as [Hin _].
    transitivity (Rsum (map (fun e => inductance_at val (c_graph s) e * (I e * I e) + I e * Rsum (map (fun x => let '(m, (p, q)) := x in val m * ((if eqb p e then I q else 0) + (if eqb q e then I p else 0))) (c_coupled s))) edges))%R.
    { apply Rsum_ext. intros. ring. }
    rewrite Rsum_map_add. f_equal. rewrite <- Rsum_map_mul.
    transitivity (Rsum (map (fun e => Rsum (map (fun x => I e * (let '(m, (p, q)) := x in val m * ((if eqb p e then I q else 0) + (if eqb q e then I p else 0)))) (c_coupled s))) edges))%R.
    { apply Rsum_ext. intros e _. rewrite Rsum_map_mul. auto. }
    rewrite Rsum_swap. apply Rsum_ext. intros [m [p q]] Hx. destruct (Hin m p q Hx) as [Hp Hq].
    transitivity (Rsum (map (fun g => (if eqb p g then val m * (I g * I q) else 0) + (if eqb q g then val m * (I g * I p) else 0)) edges))%R.
    { apply Rsum_ext. intros g _. destruct (eqb p g), (eqb q g); ring. }
    rewrite Rsum_map_add, (pick p (fun g => val m * (I g * I q))%R Hp), (pick q (fun g => val m * (I g * I p))%R Hq). ring.
  Qed.
  (** no inductor, no entry *)
  Lemma name_carries e : holds_inductor s e <-> exists c, ind_name s e = Some c.
  Proof.
    split.
    - intros (c & (b & Hb & <- & Hs) & HL). exists (snd b). unfold ind_name. assert (Hg : dget (c_map s) e = Some (snd b)) by (apply (map_get s HD); exists b; auto). rewrite Hg, HL. auto.
    - intros (c & H). unfold ind_name in H. destruct (dget (c_map s) e) as [c'|] eqn:E; [|discriminate]. destruct (starts "L" c') eqn:Es; [|discriminate]. exists c'. split; auto. apply (map_get s HD) in E. auto.
  Qed.
  Lemma entry_zero k l : k < n -> l < n -> ~ holds_inductor s (at_ l) -> A k l = 0%R.
  Proof.
    intros Hk Hl HL. unfold A. rewrite (matrix_values s M Hc HM val Hself k l Hk Hl). fold edges. destruct (Nat.eqb_spec k l) as [->|].
    - rewrite (inductance_name s Hc). destruct (ind_name s (nth l edges noedge)) as [c|] eqn:E; auto. exfalso. apply HL. apply name_carries. exists c. auto.
    - unfold mutual. apply Rsum_map_0. intros [m [p q]] Hx. destruct (joins _ _ _) eqn:E; auto. exfalso. apply HL.
      destruct (u_ind s (reachable_CInv s (circuit_reachable s Hc)) m p q Hx) as [Hp Hq]. unfold joins in E. cbn [fst snd] in E. rewrite orb_true_iff, !andb_true_iff in E.
      unfold at_. destruct E as [[_ E]|[E _]]; apply (proj1 (eqb_eq _ _)) in E; rewrite <- E; auto.
  Qed.
  Theorem energy_form P x : penrose n A P -> x 0 = 0%R -> (forall e, In e edges -> holds_inductor s e -> (x (src e) - x (dst e) = flux_of val s I e)%R) ->
    form (sys_nodes s) (inverse_inductance (sys_nodes s) edges P) x x = magnetic val s edges I.
  Proof.
    intros HP X0 HI. rewrite form_dotv. set (F := fun k => branch_flux (sys_nodes s) edges (fun i => x (nth i (sys_nodes s) 0)) k).
    assert (HF : forall k, k < n -> F k = (x (src (at_ k)) - x (dst (at_ k)))%R).
    { intros k Hk. unfold F. apply (branch_flux_diff (sys_nodes s) edges x (nodes_NoDup (sys_nodes s) s HD eq_refl) (wcs_ends s HD) X0 k (at_ k)). apply nth_error_nth'; auto. }
    rewrite <- dot_magnetic. apply (pinv_form n A P J (fun k => F k - mv n A J k)%R F HP).
    - intros i j Hi Hj. unfold A, imat_val. rewrite (matrix_sym s M Hc HM i j); auto.
    - intros k Hk. apply sR_0. intros l Hl. destruct (ind_name s (at_ l)) as [c|] eqn:E.
      + rewrite HF, mv_flux, HI; auto; [ring|apply nth_In; auto|apply name_carries; eauto].
      + rewrite entry_zero; auto; [ring|]. rewrite name_carries. intros (c & Hc'). congruence.
    - intros k _. ring.
  Qed.
End Energy.

(** ** When the matrix exists *)
Definition coupled_current (s : cg) : Prop := forall m p q, In (m, (p, q)) (c_coupled s) -> In p (wcs s) /\ In q (wcs s).
Lemma off_total s edges l M : (forall m p q, In (m, (p, q)) l -> In p edges /\ In q edges /\ In m (dkeys (c_coupled s))) -> exists M', foldM (ind_off s edges) l M = Ok M'.
Proof.
  intros H. destruct (foldM_total (fun _ => True) (ind_off s edges) l M) as (M' & E & _); auto; [|eauto].
  intros M0 [m [p q]] Hin _. destruct (H m p q Hin) as (Hp & Hq & Hm). unfold ind_off. cbn [fst snd].
  destruct (index_of_total p edges Hp) as (i & ->), (index_of_total q edges Hq) as (j & ->). cbn [bind]. unfold param.
  assert (E : mem m (param_names s) = true) by (apply mem_In; unfold param_names, registered_names; apply in_or_app; left; apply in_or_app; right; apply in_or_app; left; auto).
  rewrite E. cbn [bind]. eauto.
Qed.
Lemma ind_defined_iff s : circuit s -> ((exists M, inductance_matrix s (wcs s) = Ok M) <->
  (forall e b m c, In e (wcs s) -> carries (c_graph s) e c -> starts "L" c = true -> dget (c_fbias s) e = Some b -> fb_mutual b = Some m -> False) /\ coupled_current s).
Proof.
  intros Hc. assert (HD := circuit_derived s Hc). split.
  - intros (M & HM). split; [|exact (proj1 (matrix_entries s M Hc HM))].
    intros e b m c He Hcar HL Hb Hm. unfold inductance_matrix in HM. destruct (foldM (ind_diag s) _ _) as [M1|] eqn:E; [|discriminate]. clear HM. unfold enumerate in E. revert E.
    generalize (fun _ _ : nat => @None string). generalize 0. revert He. induction (wcs s) as [|g l IH]; intros He k M0 E; [easy|]. cbn [foldM combine seq List.length] in E.
    destruct (ind_diag s M0 (k, g)) as [M2|] eqn:E2; [|discriminate]. cbn [bind] in E. destruct He as [->|He]; [|eapply IH; eauto].
    unfold ind_diag, component_of in E2. apply (map_get s HD) in Hcar. rewrite Hcar in E2. cbn [bind] in E2. unfold letter_is in E2. destruct c as [|x c]; [discriminate|]. rewrite HL in E2. cbn [bind] in E2.
    destruct (param s (String x c)); [|discriminate]. cbn [bind] in E2. rewrite Hb, Hm in E2. discriminate.
  - intros [Hf Hcur]. unfold inductance_matrix.
    destruct (foldM_total (fun _ => True) (ind_diag s) (enumerate (wcs s)) (fun _ _ => None)) as (M & -> & _); auto.
    + intros M [i e] Hin _. assert (Hi : In e (wcs s)) by (apply (enumerate_In _ e) in Hin as [Hi <-]; apply nth_In; auto).
      destruct (wcs_carry s HD e Hi) as (c & Hcar & _). assert (Ec : component_of s e = Ok c) by (unfold component_of; apply (map_get s HD) in Hcar; rewrite Hcar; auto).
      destruct (param_comp s HD e c Ec) as (P1 & _ & P3). unfold ind_diag. rewrite Ec. cbn [bind]. rewrite P3. cbn [bind].
      destruct (starts "L" c) eqn:EL; [|eauto]. rewrite P1. cbn [bind]. destruct (dget (c_fbias s) e) as [b|] eqn:Eb; [|eauto]. destruct (fb_mutual b) as [m|] eqn:Em; [|eauto]. exfalso. eauto.
    + cbn [bind]. apply off_total. intros m p q Hin. destruct (Hcur m p q Hin). split; auto. split; auto. apply (in_map fst) in Hin. auto.
Qed.
Lemma couple_wc s i1 i2 m : map_sound s -> (exists x, coupleBranches s i1 i2 m = (s, Err x)) \/
  exists es e1 e2 c1 c2, let w e := if mem e es then e else rev_edge e in
    coupleBranches s i1 i2 m = (set_coupled s (c_coupled s ++ [(m, (w e1, w e2))]), Ok tt) /\ c_wc s = Some es /\
    carries (c_graph s) e1 c1 /\ starts "L" c1 = true /\ carries (c_graph s) e2 c2 /\ starts "L" c2 = true.
Proof.
  intros HM. unfold coupleBranches. destruct m as [|a m0]; [left; cbn [bind negb]; eauto; fail|]. remember (String a m0) as m. cbn zeta.
  destruct (starts "M" m) eqn:E1; cbn [negb]; [|left; cbn [bind negb]; eauto; fail]. destruct (dmem (c_coupled s) m) eqn:E2; [left; cbn [bind negb]; eauto; fail|].
  destruct (getComponentEdge s i1) as [e1|] eqn:G1; [|left; cbn [bind negb]; eauto; fail]. cbn [bind]. destruct (getComponentEdge s i2) as [e2|] eqn:G2; [|left; cbn [bind negb]; eauto; fail]. cbn [bind].
  assert (HI : forall e, isInductiveEdge s e = Ok true -> exists c, carries (c_graph s) e c /\ starts "L" c = true).
  { intros e. unfold isInductiveEdge, is_type. destruct (dget (c_map s) e) as [c|] eqn:E; [|discriminate]. destruct c as [|x c]; [discriminate|]. intros [= H]. exists (String x c). auto. }
  destruct (isInductiveEdge s e1) as [[]|] eqn:I1; try (left; cbn [bind negb]; eauto; fail). destruct (isInductiveEdge s e2) as [[]|] eqn:I2; try (left; cbn [bind negb]; eauto; fail). cbn [bind negb].
  unfold to_wc. destruct (c_wc s) as [es|]; [|left; cbn [bind negb]; eauto; fail]. cbn [bind].
  destruct (existsb _ _) eqn:Ex; [left; cbn [bind negb]; eauto; fail|]. right.
  destruct (HI e1 I1) as (c1 & C1 & L1), (HI e2 I2) as (c2 & C2 & L2). exists es, e1, e2, c1, c2. split; [rewrite dset_new; auto; apply dmem_false in E2; apply dget_None; auto|]. auto 10.
Qed.
Lemma current_step s o : circuit s -> no_lone_selfloop (noncap (c_graph s)) -> is_branch o = false -> coupled_current s -> coupled_current (fst (gstep s o)).
Proof.
  intros Hc Hl Ho Hcur. assert (HD := circuit_derived s Hc). destruct (gstep_other s o Ho) as (E1 & _ & _ & _ & _ & E6 & _).
  assert (Hw : wcs (fst (gstep s o)) = wcs s) by (unfold wcs; destruct (gstep_other s o Ho) as (? & ? & ? & ? & ? & ? & ? & ?); repeat match goal with H : c_wc _ = _ |- _ => rewrite H end; auto).
  unfold coupled_current. rewrite Hw.
  assert (Hkeep : c_coupled (fst (gstep s o)) = c_coupled s -> forall m p q, In (m, (p, q)) (c_coupled (fst (gstep s o))) -> In p (wcs s) /\ In q (wcs s)) by (intros ->; auto).
  destruct o as [oo a b c|i1 i2 m|n c| |c sfx m|n sfx c]; [discriminate| | | | |]; cbn [gstep] in *.
  - destruct (couple_wc s i1 i2 m (u_map s (reachable_CInv s (circuit_reachable s Hc)))) as [(x & E)|(es & e1 & e2 & c1 & c2 & H)]; [rewrite E in *; auto|].
    cbv zeta in H. destruct H as (E & Hes & C1 & L1 & C2 & L2). rewrite E. cbn [fst set_coupled c_coupled].
    assert (G : forall e c, carries (c_graph s) e c -> starts "L" c = true -> In (if mem e es then e else rev_edge e) (wcs s)).
    { intros e c HC HL. assert (Hcap : capacitive c = false) by (unfold capacitive, starts in *; destruct c as [|x c]; auto; destruct (Ascii.eqb_spec x "L") as [->|]; [reflexivity|discriminate]).
      destruct (wcs_cover s HD c (carries_name s e c HC) Hcap Hl) as (f & Hf & HCf). assert (N := carries_norm s HD e f c HC HCf). apply norm_eq in N.
      assert (Hw' := wcs_wc s HD). rewrite Hes in Hw'. injection Hw' as Hw'. rewrite Hw'. destruct (mem e (wcs s)) eqn:Em; [apply mem_In; auto|].
      destruct N as [->| ->]; [apply mem_In in Hf; congruence|exact Hf]. }
    intros m' p q Hin. apply in_app_or in Hin as [Hin|[Hin|[]]]; [eauto|]. injection Hin as <- <- <-. split; eauto.
  - destruct (res_result s n c) as [(r & E & Hn)|(x & E)]; rewrite E in *; apply Hkeep; auto.
  - apply Hkeep; auto.
  - destruct (flux_result s c sfx m) as [(e & b & E & Hd & Hs & _)|(x & E)]; rewrite E in *; apply Hkeep; auto.
  - destruct (charge_result s n sfx c) as [(b & E & Hd & Hs)|(x & E)]; rewrite E in *; apply Hkeep; auto.
Qed.
Lemma current_run l : forall s, circuit s -> no_lone_selfloop (noncap (c_graph s)) -> Forall (fun o => is_branch o = false) l -> coupled_current s -> coupled_current (grun s l).
Proof.
  induction l as [|o l IH]; intros s Hc Hl Ho Hcur; auto. apply Forall_cons_iff in Ho as [H1 H2]. cbn [grun fold_left]. apply IH; auto.
  - apply circ_other; auto.
  - destruct (gstep_other s o H1) as (E1 & _). rewrite E1. auto.
  - apply current_step; auto.
Qed.
