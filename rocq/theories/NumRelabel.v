(** Proofs for C133, part 1: permuted tensor products. *)
From Coq Require Import List Bool String Ascii Arith Lia ZArith Reals Lra Setoid Morphisms Permutation.
From Coquelicot Require Import Complex.
From Verif Require Import Prelude PreludeFacts Sweep SweepProofs SweepResultProofs Mat MatFacts Util UtilProofs Graph GraphSpec Symbolic SymbolicSpec RSum NumOp NumOpSpec NumKron NumSpectral NumCharge NumExpand NumHerm NumPot NumFlux NumOpProofs NumSymSpec NumTruncSpec NumTrunc NumTruncHam NumTruncLevels NumBound NumBoundHam NumBoundMain NumRedraw.
Import ListNotations.
Open Scope nat_scope.

(** ** renumbering the states *)
Lemma dm a m b : b < m -> (a * m + b) / m = a /\ (a * m + b) mod m = b.
Proof. intros H. assert (m <> 0) by lia. split; [rewrite Nat.div_add_l by easy; rewrite (Nat.div_small b m H); lia | rewrite Nat.add_comm, Nat.mod_add by easy; now apply Nat.mod_small]. Qed.
Definition T (d : nat -> nat) (F : nat -> cmat) (ks : list nat) : cmat := tensor (map (fun m => (d m, F m)) ks).
Lemma T_cons d F k ks r c : T d F (k :: ks) r c = (F k (r / prodn (map d ks))%nat (c / prodn (map d ks))%nat * T d F ks (r mod prodn (map d ks))%nat (c mod prodn (map d ks))%nat)%C.
Proof. unfold T. cbn [map tensor]. rewrite map_map. cbn [fst]. reflexivity. Qed.
Lemma T_perm d ks ks' : Permutation ks ks' -> exists f, embedding (prodn (map d ks)) (prodn (map d ks')) f /\
  forall F r c, r < prodn (map d ks) -> c < prodn (map d ks) -> T d F ks' (f r) (f c) = T d F ks r c.
Proof.
  induction 1 as [|x l l' P (g & (G1 & G2) & IH)|x y l|l l' l'' P (g & (G1 & G2) & IH) P' (g' & (G1' & G2') & IH')].
  - exists (fun i => i). split; [split; auto | reflexivity].
  - cbn [map prodn fold_right]. fold (prodn (map d l)) (prodn (map d l')). assert (E : prodn (map d l') = prodn (map d l)) by (apply prodn_perm; symmetry; now apply Permutation_map). rewrite E in *. set (m := prodn (map d l)) in *.
    exists (fun i => i / m * m + g (i mod m)).
    assert (V : forall i, i < d x * m -> i / m < d x /\ i mod m < m /\ (i / m * m + g (i mod m)) / m = i / m /\ (i / m * m + g (i mod m)) mod m = g (i mod m)).
    { intros i Hi. destruct (divmod_lt _ _ _ Hi) as [H1 H2]. destruct (dm (i / m) m (g (i mod m)) (G1 _ H2)) as [H3 H4]. auto. }
    split; [split|].
    + intros i Hi. destruct (V i Hi) as (H1 & H2 & _). pose proof (G1 _ H2). nia.
    + intros i j Hi Hj X. destruct (V i Hi) as (A1 & A2 & A3 & A4), (V j Hj) as (B1 & B2 & B3 & B4). rewrite X in A3, A4. rewrite A3 in B3. rewrite A4 in B4. apply G2 in B4; auto.
      assert (m <> 0) by lia. rewrite (Nat.div_mod i m), (Nat.div_mod j m) by easy. congruence.
    + intros F r c Hr Hc. destruct (V r Hr) as (A1 & A2 & A3 & A4), (V c Hc) as (B1 & B2 & B3 & B4). rewrite !T_cons, E. fold m. rewrite A3, A4, B3, B4, IH by easy. reflexivity.
  - cbn [map prodn fold_right]. fold (prodn (map d l)). set (m := prodn (map d l)) in *.
    exists (fun i => i mod (d x * m) / m * (d y * m) + (i / (d x * m) * m + i mod (d x * m) mod m)).
    assert (V : forall i, i < d y * (d x * m) -> let a := i / (d x * m) in let b := i mod (d x * m) / m in let e := i mod (d x * m) mod m in a < d y /\ b < d x /\ e < m /\
      (b * (d y * m) + (a * m + e)) / (d y * m) = b /\ (b * (d y * m) + (a * m + e)) mod (d y * m) = a * m + e /\ (a * m + e) / m = a /\ (a * m + e) mod m = e /\ i = a * (d x * m) + (b * m + e)).
    { intros i Hi a b e. destruct (divmod_lt _ _ _ Hi) as [H1 H2]. destruct (divmod_lt _ _ _ H2) as [H3 H4]. fold a in H1. fold b in H3. fold e in H4. assert (L : a * m + e < d y * m) by nia. destruct (dm b (d y * m) (a * m + e) L) as [H5 H6]. destruct (dm a m e H4) as [H7 H8].
      repeat (split; [assumption|]). assert (m <> 0) by lia. assert (d x * m <> 0) by nia. rewrite (Nat.div_mod i (d x * m)) at 1 by easy. fold a. rewrite (Nat.div_mod (i mod (d x * m)) m) at 1 by easy. fold b e. lia. }
    split; [split|].
    + intros i Hi. destruct (V i Hi) as (H1 & H2 & H3 & _). revert H1 H2 H3. generalize (i / (d x * m)) (i mod (d x * m) / m) (i mod (d x * m) mod m). intros a b e H1 H2 H3. assert (U : Datatypes.S a * m <= d y * m) by (apply Nat.mul_le_mono_r; lia). cbn [Nat.mul] in U. assert (U' : Datatypes.S b * (d y * m) <= d x * (d y * m)) by (apply Nat.mul_le_mono_r; lia). cbn [Nat.mul] in U'. lia.
    + intros i j Hi Hj X. destruct (V i Hi) as (_ & _ & _ & A4 & A5 & A6 & A7 & A8), (V j Hj) as (_ & _ & _ & B4 & B5 & B6 & B7 & B8). rewrite X, B4 in A4. rewrite X, B5 in A5. rewrite <- A5, B6 in A6. rewrite <- A5, B7 in A7. rewrite A8, B8. congruence.
    + intros F r c Hr Hc. destruct (V r Hr) as (_ & _ & _ & A4 & A5 & A6 & A7 & _), (V c Hc) as (_ & _ & _ & B4 & B5 & B6 & B7 & _). rewrite !T_cons. cbn [map prodn fold_right]. fold (prodn (map d l)). fold m. rewrite A4, A5, B4, B5, A6, A7, B6, B7. ring.
  - exists (fun i => g' (g i)). split; [split|].
    + intros i Hi. apply G1', G1, Hi.
    + intros i j Hi Hj X. apply G2; auto. all: try (apply G2'; auto).
    + intros F r c Hr Hc. rewrite IH' by (apply G1; assumption). now apply IH.
Qed.
(** ** sums *)
Lemma map_nodup {A B} (f : A -> B) l : (forall a b, In a l -> In b l -> f a = f b -> a = b) -> NoDup l -> NoDup (map f l).
Proof.
  induction l as [|a l IH]; intros I ND; [constructor|]. inversion ND; subst. cbn. constructor; [|apply IH; auto; intros; apply I; auto; now right].
  intros X. apply in_map_iff in X as (b & E & Hb). assert (b = a) by (apply I; auto; [now right | now left]). now subst.
Qed.
Lemma emb_perm n f : embedding n n f -> Permutation (map f (seq 0 n)) (seq 0 n).
Proof.
  intros [H1 H2]. apply NoDup_Permutation_bis.
  - apply map_nodup; [|apply seq_NoDup]. intros a b Ha Hb. apply in_seq in Ha, Hb. apply H2; lia.
  - rewrite map_length. lia.
  - intros x Hx. apply in_map_iff in Hx as (a & <- & Ha). apply in_seq in Ha. apply in_seq. split; [lia|]. apply H1. lia.
Qed.
Lemma RS_list n g : RS n g = Rsum (map g (seq 0 n)).
Proof. induction n as [|n IH]; [reflexivity|]. rewrite RS_S, IH, seq_S, map_app, Rsum_app. cbn [map Nat.add]. rewrite Rsum_cons, Rsum_nil. ring. Qed.
Lemma S_list n g : S n g = Cl (map g (seq 0 n)).
Proof.
  induction n as [|n IH]; [reflexivity|]. rewrite S_S, IH, seq_S, map_app. cbn [map Nat.add]. generalize (map g (seq 0 n)). intros l. unfold Cl. induction l as [|a l IHl]; cbn in *; [ring|]. rewrite <- IHl. ring.
Qed.
Lemma RS_re n f g : embedding n n f -> RS n (fun i => g (f i)) = RS n g.
Proof. intros E. rewrite !RS_list, <- (map_map f g). apply Rsum_perm, Permutation_map, emb_perm, E. Qed.
Lemma S_re n f g : embedding n n f -> S n (fun i => g (f i)) = S n g.
Proof. intros E. rewrite !S_list, <- (map_map f g). apply Cl_perm, Permutation_map, emb_perm, E. Qed.
Section States.
  Variables (N : nat) (f : nat -> nat).
  Hypothesis E : embedding N N f.
  Lemma res_mm A A' B B' : restricts N f A' A -> restricts N f B' B -> restricts N f (mm N A' B') (mm N A B).
  Proof.
    intros HA HB i j Hi Hj. unfold mm, mmul. change (@sumn C_rng) with S. rewrite <- (S_re N f _ E). apply S_ext. intros k Hk. cbn. rewrite (HA i k Hi Hk), (HB k j Hk Hj). reflexivity.
  Qed.
  Lemma res_prodm {X} (g g' : X -> cmat) l : (forall t, In t l -> restricts N f (g' t) (g t)) -> restricts N f (prodm N (map g' l)) (prodm N (map g l)).
  Proof.
    destruct l as [|a l]; intros H; cbn [map prodm]; [apply (res_eye N N), E|]. assert (Ha := H a (or_introl eq_refl)). assert (Hl := fun t Ht => H t (or_intror Ht)). clear H. revert Ha. generalize (g a) (g' a). induction l as [|b l IH]; intros A A' HA; cbn [map fold_left]; [exact HA|].
    apply IH; [intros; apply Hl; now right|]. apply res_mm; [exact HA | apply Hl; now left].
  Qed.
  Variables (n : nat) (s : nat -> nat).
  Hypothesis Es : embedding n n s.
  Lemma quad_res l l' b b' M M' : List.length l = n -> List.length l' = n -> (forall i, i < n -> restricts N f (opn l' (s i)) (opn l i)) -> (forall i, i < n -> b' (s i) = b i) -> (forall i j, i < n -> j < n -> M' (s i) (s j) = M i j) ->
    restricts N f (quadform N l' b' M') (quadform N l b M).
  Proof.
    intros L L' HX Hb HM r c Hr Hc. rewrite !NumHerm.quadform_eq, L, L'. change (@sumn C_rng) with S. rewrite <- (S_re n s _ Es). apply S_ext. intros i Hi. rewrite <- (S_re n s _ Es). apply S_ext. intros j Hj. rewrite HM by easy. f_equal.
    assert (HS : forall k, k < n -> restricts N f (shifted l' b' (s k)) (shifted l b k)). { intros k Hk. unfold shifted. rewrite Hb by easy. apply res_plus; [now apply HX | apply res_sc, (res_eye N N), E]. }
    now apply (res_mm _ _ _ _ (HS i Hi) (HS j Hj)).
  Qed.
  Variables (nodes nodes' : list nat).
  Hypothesis Ln : List.length nodes = n.
  Hypothesis Ln' : List.length nodes' = n.
  Hypothesis Hs : forall i, i < n -> nth (s i) nodes' 0 = nth i nodes 0.
  Lemma tms_sign (l : list nat) a b k x : In (k, x) (tms l a b) -> k < List.length l /\ x = match sg a b (nth k l 0) with Zpos _ => true | _ => false end.
  Proof.
    unfold tms. intros H. apply in_flat_map in H as (k' & Hk & H). apply in_seq in Hk. destruct (sg a b (nth k' l 0)) eqn:G; cbn in H; [easy| |]; (destruct H as [H|[]]; injection H as <- <-; rewrite G; split; auto; lia).
  Qed.
  Lemma tms_perm a b : Permutation (tms nodes' a b) (map (fun t => (s (fst t), snd t)) (tms nodes a b)).
  Proof.
    unfold tms. rewrite Ln, Ln'. etransitivity; [apply Permutation_flat_map; symmetry; apply (emb_perm n s Es)|]. apply Permutation_refl'.
    assert (G : forall l, (forall k, In k l -> k < n) -> flat_map (fun k => match sg a b (nth k nodes' 0) with Z0 => [] | Zpos _ => [(k, true)] | Zneg _ => [(k, false)] end) (map s l) = map (fun t => (s (fst t), snd t)) (flat_map (fun k => match sg a b (nth k nodes 0) with Z0 => [] | Zpos _ => [(k, true)] | Zneg _ => [(k, false)] end) l)).
    { induction l as [|k l IH]; intros Hl; [reflexivity|]. cbn [map flat_map]. rewrite map_app, IH by (intros; apply Hl; now right). rewrite Hs by (apply Hl; now left). destruct (sg a b (nth k nodes 0)); reflexivity. }
    apply G. intros k Hk. apply in_seq in Hk. lia.
  Qed.
  Variables (X Xd X' Xd' : nat -> cmat).
  Hypothesis RX : forall i, i < n -> restricts N f (X' (s i)) (X i) /\ restricts N f (Xd' (s i)) (Xd i).
  Hypothesis com : forall k k', k < n -> k' < n -> k <> k' -> commute N (X' k) (X' k') /\ commute N (X' k) (Xd' k') /\ commute N (Xd' k) (X' k') /\ commute N (Xd' k) (Xd' k').
  Lemma U_res a b : restricts N f (U1 N nodes' X' Xd' a b) (U1 N nodes X Xd a b) /\ restricts N f (U2 N nodes' X' Xd' a b) (U2 N nodes X Xd a b).
  Proof.
    assert (Q : forall t t', In t (tms nodes' a b) -> In t' (tms nodes' a b) -> fst t = fst t' -> t = t').
    { intros [k x] [k' x'] H H' Ek. cbn in Ek. subst k'. apply tms_sign in H as [_ ->], H' as [_ ->]. reflexivity. }
    assert (B : forall t, In t (tms nodes' a b) -> fst t < n). { intros [k x] H. apply tms_sign in H as [H _]. now rewrite Ln' in H. }
    assert (K : forall A C : cmat, (In A (map (pick X' Xd') (tms nodes' a b)) /\ In C (map (pick X' Xd') (tms nodes' a b))) \/ (In A (map (pick' X' Xd') (tms nodes' a b)) /\ In C (map (pick' X' Xd') (tms nodes' a b))) -> commute N A C).
    { intros A C [[HA HC]|[HA HC]]; apply in_map_iff in HA as (t & <- & Ht); apply in_map_iff in HC as (t' & <- & Ht');
        (destruct (Nat.eq_dec (fst t) (fst t')) as [Et|Et]; [rewrite (Q t t' Ht Ht' Et); unfold commute; intros ? ? ? ?; reflexivity|]); destruct (com (fst t) (fst t') (B t Ht) (B t' Ht') Et) as (K1 & K2 & K3 & K4); unfold pick, pick'; destruct (snd t), (snd t'); assumption. }
    split; unfold U1, U2.
    - eapply (res_same N N f); [exact E | reflexivity | apply (prodm_perm N); [apply Permutation_map, tms_perm | intros A C HA HC; apply K; now left]|]. rewrite map_map. apply res_prodm. intros [k x] Ht. apply tms_sign in Ht as [Hk _]. rewrite Ln in Hk. destruct (RX k Hk) as [R1 R2]. unfold pick. cbn [fst snd]. now destruct x.
    - eapply (res_same N N f); [exact E | reflexivity | apply (prodm_perm N); [apply Permutation_map, tms_perm | intros A C HA HC; apply K; now right]|]. rewrite map_map. apply res_prodm. intros [k x] Ht. apply tms_sign in Ht as [Hk _]. rewrite Ln in Hk. destruct (RX k Hk) as [R1 R2]. unfold pick'. cbn [fst snd]. now destruct x.
  Qed.
  Lemma cosp_res z a b : restricts N f (cosp N nodes' X' Xd' z a b) (cosp N nodes X Xd z a b).
  Proof. destruct (U_res a b) as [R1 R2]. unfold cosp. apply res_sc, res_plus; apply res_sc; assumption. Qed.
End States.
(** ** positions of the nodes *)
Fixpoint pos (l : list nat) (m : nat) : nat := match l with [] => 0 | x :: r => if Nat.eqb x m then 0 else Datatypes.S (pos r m) end.
Lemma pos_spec l m : In m l -> pos l m < List.length l /\ nth (pos l m) l 0 = m.
Proof. induction l as [|x l IH]; intros H; [easy|]. cbn [pos List.length]. destruct (Nat.eqb_spec x m) as [->|N]; [split; [lia|reflexivity]|]. destruct H as [H|H]; [easy|]. destruct (IH H). split; [lia|assumption]. Qed.
Lemma positions nodes nodes' : NoDup nodes -> Permutation nodes nodes' -> exists s, embedding (List.length nodes) (List.length nodes) s /\ forall i, i < List.length nodes -> nth (s i) nodes' 0 = nth i nodes 0.
Proof.
  intros ND P. exists (fun i => pos nodes' (nth i nodes 0)). assert (V : forall i, i < List.length nodes -> pos nodes' (nth i nodes 0) < List.length nodes' /\ nth (pos nodes' (nth i nodes 0)) nodes' 0 = nth i nodes 0).
  { intros i Hi. apply pos_spec. eapply Permutation_in; [exact P|]. now apply nth_In. }
  split; [split|].
  - intros i Hi. rewrite (Permutation_length P). now apply V.
  - intros i j Hi Hj X. destruct (V i Hi) as [_ A], (V j Hj) as [_ B]. rewrite X, B in A. apply (proj1 (NoDup_nth nodes 0) ND); auto.
  - intros i Hi. now apply V.
Qed.
(** ** operators of the nodes *)
Definition name_ops (gen : nat -> opdata -> res ops) (data : dict nat opdata) (m : nat) : ops := match dget data m with Some d => match gen m d with Ok o => o | Err _ => no_ops end | None => no_ops end.
Definition name_dim gen data m := o_dim (name_ops gen data m).
Definition site (m : nat) (A : cmat) (k : nat) : cmat := if Nat.eqb k m then A else eye.
Lemma nodes_seq (nodes : list nat) : nodes = map (fun k => nth k nodes 0) (seq 0 (List.length nodes)).
Proof. induction nodes as [|x l IH]; [reflexivity|]. cbn [List.length seq map]. rewrite <- seq_shift, map_map. cbn [nth]. f_equal. exact IH. Qed.
Lemma node_name gen nodes data k : k < List.length nodes -> node_ops gen nodes data k = name_ops gen data (nth k nodes 0) /\ node_dim gen nodes data k = name_dim gen data (nth k nodes 0).
Proof.
  intros Hk. unfold node_ops, node_dim, name_dim, name_ops. rewrite (nth_error_nth' nodes 0 Hk). destruct (dget data (nth k nodes 0)) as [d|]; [|easy]. destruct (gen (nth k nodes 0) d); easy.
Qed.
Lemma size_name gen nodes data : size (node_dim gen nodes data) (List.length nodes) = prodn (map (name_dim gen data) nodes).
Proof. unfold size. rewrite (nodes_seq nodes) at 3. rewrite map_map. f_equal. apply map_ext_in. intros k Hk. apply in_seq in Hk. apply node_name. lia. Qed.
Lemma lift_name gen nodes data i A : NoDup nodes -> i < List.length nodes -> lift (node_dim gen nodes data) (List.length nodes) i A = T (name_dim gen data) (site (nth i nodes 0) A) nodes.
Proof.
  intros ND Hi. unfold lift, T. transitivity (tensor (map (fun m => (name_dim gen data m, site (nth i nodes 0) A m)) (map (fun k => nth k nodes 0) (seq 0 (List.length nodes))))); [|now rewrite <- nodes_seq]. rewrite map_map. f_equal. apply map_ext_in. intros k Hk. apply in_seq in Hk. destruct (node_name gen nodes data k ltac:(lia)) as [_ ->]. f_equal. unfold site.
  destruct (Nat.eqb_spec k i) as [->|Nk]; [now rewrite Nat.eqb_refl|]. destruct (Nat.eqb_spec (nth k nodes 0) (nth i nodes 0)) as [Q|_]; [|reflexivity]. destruct Nk. apply (proj1 (NoDup_nth nodes 0) ND); auto; lia.
Qed.
Lemma vectors_res gen nodes nodes' data circ0 circ circ0' circ' fc g l l' f s i : (forall n d o k, gen n d = Ok o -> ident_dim d = Some k -> o_dim o = k) -> NoDup nodes -> Permutation nodes nodes' ->
  getExpandedOperatorsMap gen nodes data None circ0 = Ok circ -> getExpandedOperatorsMap gen nodes' data None circ0' = Ok circ' -> op_vector fc nodes circ = Ok l -> op_vector fc nodes' circ' = Ok l' ->
  (forall nodes i o, fc (lifted gen nodes data i o) = lift (node_dim gen nodes data) (List.length nodes) i (g o)) ->
  let N := prodn (map (name_dim gen data) nodes) in (forall F r c, r < N -> c < N -> T (name_dim gen data) F nodes' (f r) (f c) = T (name_dim gen data) F nodes r c) ->
  embedding (List.length nodes) (List.length nodes) s -> (forall i, i < List.length nodes -> nth (s i) nodes' 0 = nth i nodes 0) -> i < List.length nodes ->
  restricts N f (opn l' (s i)) (opn l i).
Proof.
  intros GD ND P Hc Hc' Hl Hl' Hf N HF [Es _] Hs Hi. assert (ND' : NoDup nodes') by (eapply Permutation_NoDup; eauto). pose proof (Es i Hi) as Hsi. rewrite (Permutation_length P) in Hsi.
  destruct (vector_ops gen nodes data circ0 circ fc g l i GD ND Hc Hl Hi (Hf nodes)) as [-> _]. destruct (vector_ops gen nodes' data circ0' circ' fc g l' (s i) GD ND' Hc' Hl' Hsi (Hf nodes')) as [-> _].
  rewrite !lift_name by auto. destruct (node_name gen nodes data i Hi) as [-> _]. destruct (node_name gen nodes' data (s i) Hsi) as [-> _]. rewrite Hs by easy. intros r c Hr Hc0. now apply HF.
Qed.
