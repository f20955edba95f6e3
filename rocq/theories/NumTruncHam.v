(** Proofs for C126: the Hamiltonian with other truncations. *)
From Coq Require Import List Bool Arith Lia ZArith Reals Lra Setoid Morphisms Permutation.
From Coquelicot Require Import Complex.
From Verif Require Import Prelude PreludeFacts Sweep SweepProofs SweepResultProofs Mat MatFacts Util UtilProofs Graph Symbolic SymbolicInv NumOp NumOpSpec NumKron NumSpectral NumCharge NumExpand NumHerm NumSymSpec NumSymMain NumGauge NumTruncSpec NumTrunc.
Import ListNotations.
Open Scope nat_scope.

(** ** one node *)
Definition sits (n s : nat) (A A' : cmat) : Prop := forall i j, i < n -> j < n -> A' (i + s) (j + s) = A i j.
Definition sits2 (s : nat) (f : ops -> cmat) (o o' : ops) : Prop :=
  sits (o_dim o) s (f o) (f o') /\ sits (o_dim o) s (mm (o_dim o) (f o) (f o)) (mm (o_dim o') (f o') (f o')).
Definition node_fits (s : nat) (o o' : ops) : Prop :=
  let N := o_dim o in N + s <= o_dim o' /\
  sits N s (oD o) (oD o') /\ sits N s (oDd o) (oDd o') /\ sits N s (oS o) (oS o') /\ sits N s (oSd o) (oSd o').
Lemma sits_refl n A : sits n 0 A A.
Proof. intros i j _ _. now rewrite !Nat.add_0_r. Qed.
(** a multiple of the identity added *)
Definition up (d : R) (A : cmat) : cmat := mplus A (msc (RtoC d) eye).
Definition moved (s : nat) (d : R) (g : ops -> cmat) (o o' : ops) : Prop :=
  sits (o_dim o) s (g o) (up d (g o')) /\ sits (o_dim o) s (mm (o_dim o) (g o) (g o)) (mm (o_dim o') (up d (g o')) (up d (g o'))).
Lemma up_0 A i j : up 0 A i j = A i j.
Proof. unfold up, mplus, msc. ring. Qed.
Lemma moved_refl g o : moved 0 0 g o o.
Proof. split; intros i j _ _; rewrite !Nat.add_0_r; [apply up_0|]. apply mm_ext; intros; apply up_0. Qed.
Lemma same_fits o : node_fits 0 o o.
Proof. unfold node_fits. repeat split; try apply sits_refl. lia. Qed.
Lemma charge_fits eigh inv t t' s : s + 2 * t <= 2 * t' -> right_on eigh inv (2 * t + 1) (chargeP t) -> right_on eigh inv (2 * t' + 1) (chargeP t') ->
  node_fits s (charge_basis eigh inv t) (charge_basis eigh inv t').
Proof.
  intros L H H'. unfold node_fits. change (o_dim (charge_basis eigh inv t)) with (2 * t + 1). change (o_dim (charge_basis eigh inv t')) with (2 * t' + 1). cbv zeta.
  destruct (charge_oD eigh inv t H) as [E1 E2], (charge_oD eigh inv t' H') as [E1' E2'].
  split; [lia|]. split; [|split; [|split]]; intros i j Hi Hj.
  - rewrite E1, E1' by lia. unfold shift. destruct (Nat.eqb_spec j (i + 1)) as [->|N]; [|destruct (Nat.eqb_spec (j + s) (i + s + 1)); [lia|easy]].
    destruct (Nat.eqb_spec (i + 1 + s) (i + s + 1)); [easy|lia].
  - rewrite E2, E2' by lia. unfold mdag, shift. destruct (Nat.eqb_spec i (j + 1)) as [->|N]; [|destruct (Nat.eqb_spec (i + s) (j + s + 1)); [lia|easy]].
    destruct (Nat.eqb_spec (j + 1 + s) (j + s + 1)); [easy|lia].
  - rewrite !(fun t i j => proj1 (charge_oS eigh inv t i j)). apply (fits_eye (fun _ => 2 * t + 1) (fun _ => s) 0); easy.
  - rewrite !(fun t i j => proj2 (charge_oS eigh inv t i j)). apply (fits_eye (fun _ => 2 * t + 1) (fun _ => s) 0); easy.
Qed.
Lemma charge_moved eigh inv t t' s k : s + 2 * t <= 2 * t' -> (Z.of_nat s = Z.of_nat t' - Z.of_nat t + k)%Z -> moved s (IZR k) oQ (charge_basis eigh inv t) (charge_basis eigh inv t').
Proof.
  intros L E. unfold moved. change (o_dim (charge_basis eigh inv t)) with (2 * t + 1). change (o_dim (charge_basis eigh inv t')) with (2 * t' + 1).
  assert (EQ : forall i j, up (IZR k) (oQ (charge_basis eigh inv t')) (i + s) (j + s) = oQ (charge_basis eigh inv t) i j).
  { intros i j. unfold up, mplus, msc, eye. rewrite !charge_oQ. destruct (Nat.eqb_spec i j) as [->|N].
    - rewrite Nat.eqb_refl. rewrite Cmult_1_r, <- RtoC_plus, <- plus_IZR. f_equal. f_equal. lia.
    - destruct (Nat.eqb_spec (i + s) (j + s)); [lia|]. ring. }
  assert (DU : forall i j, i < 2 * t' + 1 -> mm (2 * t' + 1) (up (IZR k) (oQ (charge_basis eigh inv t'))) (up (IZR k) (oQ (charge_basis eigh inv t'))) i j = (RtoC (IZR (Z.of_nat t' - Z.of_nat i + k)) * up (IZR k) (oQ (charge_basis eigh inv t')) i j)%C).
  { intros i j Hi. rewrite <- (mm_cdiag_l (2 * t' + 1) _ (fun i => RtoC (IZR (Z.of_nat t' - Z.of_nat i + k)))) by easy. apply mm_ext; [|easy]. intros m _. unfold up, mplus, msc, eye, cdiag. rewrite charge_oQ. destruct (Nat.eqb i m); [|ring]. rewrite Cmult_1_r, <- RtoC_plus, <- plus_IZR. reflexivity. }
  assert (DQ : forall i j, i < 2 * t + 1 -> mm (2 * t + 1) (oQ (charge_basis eigh inv t)) (oQ (charge_basis eigh inv t)) i j = (RtoC (IZR (Z.of_nat t - Z.of_nat i)) * oQ (charge_basis eigh inv t) i j)%C).
  { intros i j Hi. rewrite <- (mm_cdiag_l (2 * t + 1) _ (fun k => RtoC (IZR (Z.of_nat t - Z.of_nat k)))) by easy. apply mm_ext; [|easy]. intros m _. rewrite charge_oQ. reflexivity. }
  split; intros i j Hi Hj; [apply EQ|]. rewrite DU, DQ, EQ by lia. f_equal. f_equal. f_equal. lia.
Qed.

(** ** quadratic forms and cosines *)
Lemma terms_once nodes edges i : NoDup (map fst (branch_terms nodes edges i)).
Proof.
  unfold branch_terms.
  assert (G : forall l, NoDup l -> NoDup (map fst (flat_map (fun k => match rbn nodes edges k i with Z0 => [] | Zpos _ => [(k, true)] | Zneg _ => [(k, false)] end) l)) /\
    forall k, In k (map fst (flat_map (fun k => match rbn nodes edges k i with Z0 => [] | Zpos _ => [(k, true)] | Zneg _ => [(k, false)] end) l)) -> In k l).
  { induction l as [|k l IH]; intros ND; [cbn; split; [constructor | easy]|]. inversion ND as [|? ? H1 H2]; subst. destruct (IH H2) as [I1 I2].
    cbn [flat_map]. rewrite map_app. destruct (rbn nodes edges k i); cbn [map app fst].
    - split; [easy|]. intros; right; auto.
    - split; [constructor; [intros K; apply H1; auto | easy]|]. intros k' [<-|K]; [now left | right; auto].
    - split; [constructor; [intros K; apply H1; auto | easy]|]. intros k' [<-|K]; [now left | right; auto]. }
  apply G, seq_NoDup.
Qed.
Section Parts.
  Variables (n N N' : nat) (f : nat -> nat).
  Hypothesis Ef : embedding N N' f.
  Lemma quad_fits l l' b b' M : List.length l = n -> List.length l' = n ->
    (forall i j, i < n -> j < n -> let u i := up (b' i - b i) (opn l' i) in
      M i j = 0%R \/ (restricts N f (u i) (opn l i) /\ restricts N f (u j) (opn l j) /\ restricts N f (mm N' (u i) (u j)) (mm N (opn l i) (opn l j)))) ->
    restricts N f (quadform N' l' b' M) (quadform N l b M).
  Proof.
    intros L L' H r c Hr Hc. rewrite !quadform_eq, L, L'. apply (@sumn_ext C_rng). intros i Hi. apply (@sumn_ext C_rng). intros j Hj.
    destruct (H i j Hi Hj) as [->|(H1 & H2 & H3)]; [match goal with |- @eq _ ?a ?b => change (@eq C a b) end; ring|].
    destruct Ef as [Ef1 _]. pose proof (res_eye N N' f Ef) as H4.
    rewrite (mm_ext N' (shifted l' b' i) (mplus (up (b' i - b i) (opn l' i)) (msc (RtoC (b i)) eye)) (shifted l' b' j) (mplus (up (b' j - b j) (opn l' j)) (msc (RtoC (b j)) eye))).
    2,3: intros k _; unfold shifted, up, mplus, msc; rewrite RtoC_minus; ring.
    unfold shifted. repeat (rewrite ?mm_plus_l, ?mm_plus_r, ?mm_sc_l, ?mm_sc_r). rewrite !mm_eye_l, !mm_eye_r by auto. now rewrite H1, H2, H3, H4.
  Qed.
  Variable argord : list (nat * bool) -> list (nat * bool).
  Hypothesis perm : forall l, Permutation (argord l) l.
  Variables (nodes : list nat) (edges : list edge).
  Hypothesis len : List.length nodes = n.
  Variables (X Xd X' Xd' : nat -> cmat).
  Hypothesis prod_ok : forall ts z, NoDup (map fst ts) -> (forall t, In t ts -> fst t < n) ->
    (match product N z (map (pick X Xd) ts), product N' z (map (pick X' Xd') ts) with Ok A, Ok A' => restricts N f A' A | Err e, Err e' => e = e' | _, _ => False end) /\
    (match product N z (map (pick' X Xd) ts), product N' z (map (pick' X' Xd') ts) with Ok A, Ok A' => restricts N f A' A | Err e, Err e' => e = e' | _, _ => False end).
  Lemma cosine_fits am b :
    match cosine_part N argord nodes edges am b X Xd, cosine_part N' argord nodes edges am b X' Xd' with
    | Ok A, Ok A' => restricts N f A' A | Err e, Err e' => e = e' | _, _ => False end.
  Proof.
    unfold cosine_part. pose proof (res_zero N f) as H0. revert H0. generalize mzero at 2 3. generalize mzero.
    generalize (seq 0 (List.length edges)). induction l as [|i l IH]; intros A' A HA; cbn [foldM]; [exact HA|].
    destruct (Req_EM_T (am i) 0) as [|Na]; [cbn [bind]; now apply IH|].
    set (ts := argord (branch_terms nodes edges i)).
    assert (T : forall t, In t ts -> fst t < n). { intros t Ht. apply (Permutation_in _ (perm _)) in Ht. now apply (terms_in n nodes edges len) in Ht. }
    assert (U : NoDup (map fst ts)). { eapply Permutation_NoDup; [|apply (terms_once nodes edges i)]. apply Permutation_map. symmetry. apply perm. }
    change (fun t : nat * bool => if snd t then X (fst t) else Xd (fst t)) with (pick X Xd). change (fun t : nat * bool => if snd t then Xd (fst t) else X (fst t)) with (pick' X Xd).
    change (fun t : nat * bool => if snd t then X' (fst t) else Xd' (fst t)) with (pick X' Xd'). change (fun t : nat * bool => if snd t then Xd' (fst t) else X' (fst t)) with (pick' X' Xd').
    pose proof (proj1 (prod_ok ts (cis (2 * PI * b i)) U T)) as K1. pose proof (proj2 (prod_ok ts (cis (- 2 * PI * b i)) U T)) as K2.
    destruct (product N (cis (2 * PI * b i)) (map (pick X Xd) ts)) as [p1|], (product N' (cis (2 * PI * b i)) (map (pick X' Xd') ts)) as [p1'|]; try easy; cbn [bind].
    destruct (product N (cis (- 2 * PI * b i)) (map (pick' X Xd) ts)) as [p2|], (product N' (cis (- 2 * PI * b i)) (map (pick' X' Xd') ts)) as [p2'|]; try easy; cbn [bind].
    apply IH. apply res_plus; [exact HA|]. apply res_sc. now apply res_plus.
  Qed.
End Parts.

(** ** the Hamiltonian *)
Definition no_ops : ops := mkops 0 mzero mzero mzero mzero mzero mzero.
Definition node_ops (gen : nat -> opdata -> res ops) (nodes : list nat) (data : dict nat opdata) (k : nat) : ops :=
  match nth_error nodes k with
  | Some m => match dget data m with Some d => match gen m d with Ok o => o | Err _ => no_ops end | None => no_ops end
  | None => no_ops
  end.
Lemma vector_ops gen nodes data circ0 circ f g l i : (forall n d o k, gen n d = Ok o -> ident_dim d = Some k -> o_dim o = k) -> NoDup nodes ->
  getExpandedOperatorsMap gen nodes data None circ0 = Ok circ -> op_vector f nodes circ = Ok l -> i < List.length nodes ->
  (forall i o, f (lifted gen nodes data i o) = lift (node_dim gen nodes data) (List.length nodes) i (g o)) ->
  opn l i = lift (node_dim gen nodes data) (List.length nodes) i (g (node_ops gen nodes data i)) /\ node_dim gen nodes data i = o_dim (node_ops gen nodes data i).
Proof.
  intros G ND Hc Hl Hi Hf. destruct (vector_elem gen nodes data G ND circ0 circ Hc f l i Hl Hi) as (m & d & o & Em & Ed & Eo & Di & E).
  rewrite E, Hf, Di. unfold node_ops. rewrite Em, Ed, Eo. easy.
Qed.
Lemma tensor_eye (D : nat -> nat) (l : list nat) : forall r k, r < prodn (map D l) -> k < prodn (map D l) -> tensor (map (fun x => (D x, eye)) l) r k = eye r k.
Proof.
  induction l as [|a l IH]; intros r k Hr Hk; cbn [map tensor prodn fold_right] in *; [assert (r = 0) as -> by lia; assert (k = 0) as -> by lia; reflexivity|]. unfold kron. rewrite map_map. cbn [fst]. change (map (fun x => D x) l) with (map D l).
  set (m := prodn (map D l)) in *. change (fold_right Nat.mul 1 (map D l)) with m in *. assert (Hm : m <> 0) by (intros E; rewrite E in Hr; lia).
  rewrite IH by now apply Nat.mod_upper_bound. unfold eye. destruct (Nat.eqb_spec (r / m) (k / m)) as [E|E], (Nat.eqb_spec (r mod m) (k mod m)) as [F|F], (Nat.eqb_spec r k) as [G|G]; try ring; exfalso; try (subst; easy).
  apply G. rewrite (Nat.div_mod r m), (Nat.div_mod k m) by easy. congruence.
Qed.
Lemma lift_up D n i dl A : i < n -> same (size D n) (lift D n i (up dl A)) (up dl (lift D n i A)).
Proof.
  intros Hi r k Hr Hk. unfold lift, size in *. revert r k Hr Hk. assert (In i (seq 0 n)) as H by (apply in_seq; lia). pose proof (seq_NoDup n 0) as ND'. revert H ND'.
  generalize (seq 0 n). induction l as [|a l IH]; intros H ND' r k Hr Hk; [easy|]. inversion ND' as [|? ? H1 H2]; subst.
  change (up dl ?X r k) with (X r k + RtoC dl * eye r k)%C. rewrite <- (tensor_eye D (a :: l) r k Hr Hk). cbn [map tensor prodn fold_right] in *. unfold kron. rewrite !map_map. cbn [fst].
  change (map (fun x => D x) l) with (map D l). set (m := prodn (map D l)) in *. change (fold_right Nat.mul 1 (map D l)) with m in *. assert (Hm : m <> 0) by (intros E; rewrite E in Hr; lia).
  destruct (Nat.eqb_spec a i) as [->|Na].
  - assert (E : forall B, map (fun k0 => (D k0, if Nat.eqb k0 i then B else eye)) l = map (fun x => (D x, eye)) l).
    { intros B. apply map_ext_in. intros x Hx. destruct (Nat.eqb_spec x i) as [->|]; easy. }
    rewrite !E. unfold up, mplus, msc. ring.
  - destruct H as [H|H]; [easy|]. rewrite (IH H H2) by now apply Nat.mod_upper_bound. unfold up, mplus, msc. rewrite (tensor_eye D l) by now apply Nat.mod_upper_bound. ring.
Qed.
Section Ham.
  Variables (gen : nat -> opdata -> res ops) (nodes : list nat) (data data' : dict nat opdata).
  Hypothesis gen_dim : forall n d o k, gen n d = Ok o -> ident_dim d = Some k -> o_dim o = k.
  Hypothesis ND : NoDup nodes.
  Variables (circ0 circ circ0' circ' : dict nat cops).
  Hypothesis Hcirc : getExpandedOperatorsMap gen nodes data None circ0 = Ok circ.
  Hypothesis Hcirc' : getExpandedOperatorsMap gen nodes data' None circ0' = Ok circ'.
  Let n := List.length nodes.
  Let D := node_dim gen nodes data.
  Let D' := node_dim gen nodes data'.
  Let N := size D n.
  Let N' := size D' n.
  Let O := node_ops gen nodes data.
  Let O' := node_ops gen nodes data'.
  Variable s : nat -> nat.
  Hypothesis node_ok : forall i, i < n -> node_fits (s i) (O i) (O' i).
  Let f := em D D' s (seq 0 n).
  Lemma dim_O i : D i = o_dim (O i).
  Proof. unfold D, O, node_dim, node_ops. destruct (nth_error nodes i) as [m|]; [|easy]. destruct (dget data m) as [d|]; [|easy]. now destruct (gen m d). Qed.
  Lemma dim_O' i : D' i = o_dim (O' i).
  Proof. unfold D', O', node_dim, node_ops. destruct (nth_error nodes i) as [m|]; [|easy]. destruct (dget data' m) as [d|]; [|easy]. now destruct (gen m d). Qed.
  Lemma rooms : room D D' s (seq 0 n).
  Proof. intros k Hk. apply in_seq in Hk. rewrite dim_O, dim_O'. apply node_ok. lia. Qed.
  Lemma Ef : embedding N N' f.
  Proof. apply f_emb, rooms. Qed.
  Lemma sits_fits i g : sits (o_dim (O i)) (s i) (g (O i)) (g (O' i)) -> fits D s i (g (O i)) (g (O' i)).
  Proof. intros H a b. rewrite dim_O. apply H. Qed.
  Variables (fc : cops -> cmat) (g : ops -> cmat).
  Hypothesis lift_fc : forall data i o, fc (lifted gen nodes data i o) = lift (node_dim gen nodes data) n i (g o).
  Lemma vec_res dl l l' i : op_vector fc nodes circ = Ok l -> op_vector fc nodes circ' = Ok l' -> i < n -> sits (o_dim (O i)) (s i) (g (O i)) (up dl (g (O' i))) -> restricts N f (up dl (opn l' i)) (opn l i).
  Proof.
    intros Hl Hl' Hi H. destruct (vector_ops gen nodes data circ0 circ fc g l i gen_dim ND Hcirc Hl Hi (lift_fc data)) as [-> _]. destruct (vector_ops gen nodes data' circ0' circ' fc g l' i gen_dim ND Hcirc' Hl' Hi (lift_fc data')) as [-> _].
    eapply (res_same N N'); [exact Ef | intros ? ? _ _; reflexivity | intros r c Hr Hc; symmetry; now apply (lift_up D' n i)|].
    apply (lift_res D D' s n rooms). intros _ a b. rewrite dim_O. apply H.
  Qed.
  Lemma vec_pair dl dl' l l' i j : op_vector fc nodes circ = Ok l -> op_vector fc nodes circ' = Ok l' -> i < n -> j < n -> moved (s i) dl g (O i) (O' i) -> moved (s j) dl' g (O j) (O' j) -> (i = j -> dl = dl') ->
    restricts N f (mm N' (up dl (opn l' i)) (up dl' (opn l' j))) (mm N (opn l i) (opn l j)).
  Proof.
    intros Hl Hl' Hi Hj [H1 H2] [H3 H4] Hd.
    rewrite (proj1 (vector_ops gen nodes data circ0 circ fc g l i gen_dim ND Hcirc Hl Hi (lift_fc data))), (proj1 (vector_ops gen nodes data circ0 circ fc g l j gen_dim ND Hcirc Hl Hj (lift_fc data))).
    rewrite (proj1 (vector_ops gen nodes data' circ0' circ' fc g l' i gen_dim ND Hcirc' Hl' Hi (lift_fc data'))), (proj1 (vector_ops gen nodes data' circ0' circ' fc g l' j gen_dim ND Hcirc' Hl' Hj (lift_fc data'))).
    eapply (res_same N N'); [exact Ef | intros ? ? _ _; reflexivity | intros r c Hr Hc; apply mm_ext; intros k Hk; symmetry; apply (lift_up D' n); eassumption|].
    apply (pair_res D D' s n rooms i j); auto; try (intros a b; rewrite dim_O; (apply H1 || apply H3)). intros <-. rewrite <- (Hd eq_refl). fold D D' O O'. rewrite (dim_O i), (dim_O' i). intros a b. rewrite dim_O. apply H2.
  Qed.
End Ham.
Section Ham2.
  Variables (gen : nat -> opdata -> res ops) (nodes : list nat) (data data' : dict nat opdata).
  Hypothesis gen_dim : forall n d o k, gen n d = Ok o -> ident_dim d = Some k -> o_dim o = k.
  Hypothesis ND : NoDup nodes.
  Variables (circ0 circ circ0' circ' : dict nat cops).
  Hypothesis Hcirc : getExpandedOperatorsMap gen nodes data None circ0 = Ok circ.
  Hypothesis Hcirc' : getExpandedOperatorsMap gen nodes data' None circ0' = Ok circ'.
  Let n := List.length nodes.
  Let D := node_dim gen nodes data.
  Let D' := node_dim gen nodes data'.
  Let N := size D n.
  Let N' := size D' n.
  Let O := node_ops gen nodes data.
  Let O' := node_ops gen nodes data'.
  Variable s : nat -> nat.
  Hypothesis node_ok : forall i, i < n -> node_fits (s i) (O i) (O' i).
  Let f := em D D' s (seq 0 n).
  Lemma products fx gx fd gd ls ld ls' ld' :
    (forall data i o, fx (lifted gen nodes data i o) = lift (node_dim gen nodes data) n i (gx o)) -> (forall data i o, fd (lifted gen nodes data i o) = lift (node_dim gen nodes data) n i (gd o)) ->
    op_vector fx nodes circ = Ok ls -> op_vector fd nodes circ = Ok ld -> op_vector fx nodes circ' = Ok ls' -> op_vector fd nodes circ' = Ok ld' ->
    (forall i, i < n -> sits (o_dim (O i)) (s i) (gx (O i)) (gx (O' i)) /\ sits (o_dim (O i)) (s i) (gd (O i)) (gd (O' i))) ->
    forall ts z, NoDup (map fst ts) -> (forall t, In t ts -> fst t < n) ->
    (match product N z (map (pick (opn ls) (opn ld)) ts), product N' z (map (pick (opn ls') (opn ld')) ts) with Ok A, Ok A' => restricts N f A' A | Err e, Err e' => e = e' | _, _ => False end) /\
    (match product N z (map (pick' (opn ls) (opn ld)) ts), product N' z (map (pick' (opn ls') (opn ld')) ts) with Ok A, Ok A' => restricts N f A' A | Err e, Err e' => e = e' | _, _ => False end).
  Proof.
    intros Hx Hd H1 H2 H3 H4 HS ts z Hts Hn.
    pose proof (rooms gen nodes data data' s node_ok) as R. fold n D D' in R.
    pose proof (fun i Hi => proj1 (vector_ops gen nodes data circ0 circ fx gx ls i gen_dim ND Hcirc H1 Hi (Hx data))) as V1. pose proof (fun i Hi => proj1 (vector_ops gen nodes data circ0 circ fd gd ld i gen_dim ND Hcirc H2 Hi (Hd data))) as V2.
    pose proof (fun i Hi => proj1 (vector_ops gen nodes data' circ0' circ' fx gx ls' i gen_dim ND Hcirc' H3 Hi (Hx data'))) as V3. pose proof (fun i Hi => proj1 (vector_ops gen nodes data' circ0' circ' fd gd ld' i gen_dim ND Hcirc' H4 Hi (Hd data'))) as V4.
    fold n D D' O O' in V1, V2, V3, V4.
    assert (F : forall g i, sits (o_dim (O i)) (s i) (g (O i)) (g (O' i)) -> fits D s i (g (O i)) (g (O' i))) by (intros g i; apply (sits_fits gen nodes data data' s i g)).
    split.
    - apply (product_fits D D' s n R (pick (opn ls) (opn ld)) (pick (opn ls') (opn ld')) (fun t => if snd t then gx (O (fst t)) else gd (O (fst t))) (fun t => if snd t then gx (O' (fst t)) else gd (O' (fst t)))); auto.
      intros t Ht. pose proof (Hn t Ht) as Hi. destruct (HS _ Hi) as [S1 S2]. split; [exact Hi|]. unfold pick. destruct (snd t); [rewrite (V1 _ Hi), (V3 _ Hi) | rewrite (V2 _ Hi), (V4 _ Hi)]; (split; [reflexivity|]; split; [reflexivity|]); [now apply (F gx) | now apply (F gd)].
    - apply (product_fits D D' s n R (pick' (opn ls) (opn ld)) (pick' (opn ls') (opn ld')) (fun t => if snd t then gd (O (fst t)) else gx (O (fst t))) (fun t => if snd t then gd (O' (fst t)) else gx (O' (fst t)))); auto.
      intros t Ht. pose proof (Hn t Ht) as Hi. destruct (HS _ Hi) as [S1 S2]. split; [exact Hi|]. unfold pick'. destruct (snd t); [rewrite (V2 _ Hi), (V4 _ Hi) | rewrite (V1 _ Hi), (V3 _ Hi)]; (split; [reflexivity|]; split; [reflexivity|]); [now apply (F gd) | now apply (F gx)].
  Qed.
  Lemma vec_defined fc (c0 : dict nat cops) (dt : dict nat opdata) c : getExpandedOperatorsMap gen nodes dt None c0 = Ok c -> exists l, op_vector fc nodes c = Ok l.
  Proof.
    intros Hc. pose proof (map_usable gen nodes dt gen_dim c0 c Hc) as U. destruct (map_ok gen nodes dt U None c0 ND) as (c1 & E & K & _). rewrite Hc in E. injection E as <-.
    unfold op_vector. eexists. apply (mapM_all_ok _ (fun m => match dget c m with Some o => fc o | None => mzero end)). intros m Hm. apply In_nth_error in Hm as [i Hi]. destruct (U m (nth_error_In _ _ Hi)) as (d & o & Hd & Ho & _).
    now rewrite (K i m d o Hi Hd Ho eq_refl).
  Qed.
  Lemma ham_fits argord edges h h' Qnp Pnp Qnp' Pnp' : (forall l, Permutation (argord l) l) ->
    op_vector cQ nodes circ = Ok Qnp -> op_vector cP nodes circ = Ok Pnp -> op_vector cQ nodes circ' = Ok Qnp' -> op_vector cP nodes circ' = Ok Pnp' ->
    h_Cinv h' = h_Cinv h -> h_Linv h' = h_Linv h -> h_Pbi h' = h_Pbi h -> h_J h' = h_J h -> h_Ps h' = h_Ps h -> h_pb h' = h_pb h -> h_Ec h' = h_Ec h -> h_El h' = h_El h -> h_Ej h' = h_Ej h -> h_Ep h' = h_Ep h ->
    (forall i, exists k, h_qb h' i = (h_qb h i + IZR k)%R) ->
    (forall i, i < n -> moved (s i) (h_Qb h' i - h_Qb h i) oQ (O i) (O' i)) ->
    (forall i, i < n -> moved (s i) 0 oP (O i) (O' i) \/ forall j, j < n -> h_Linv h i j = 0%R /\ h_Linv h j i = 0%R) ->
    match getHamiltonian N argord nodes edges h Qnp Pnp circ, getHamiltonian N' argord nodes edges h' Qnp' Pnp' circ' with
    | Ok A, Ok A' => restricts N f A' A | Err e, Err e' => e = e' | _, _ => False end.
  Proof.
    intros Hp HQ HP HQ' HP' e1 e2 e3 e4 e5 e6 e7 e8 e9 e10 Hqb HM HL. unfold getHamiltonian. rewrite e1, e2, e3, e4, e5, e6, e7, e8, e9, e10. pose proof (Ef gen nodes data data' s node_ok) as EF. fold n D D' N N' f in EF.
    destruct (vec_defined cD circ0 data circ Hcirc) as [ds V1]. destruct (vec_defined cDd circ0 data circ Hcirc) as [dds V2]. destruct (vec_defined cS circ0 data circ Hcirc) as [ss V3]. destruct (vec_defined cSd circ0 data circ Hcirc) as [sds V4].
    destruct (vec_defined cD circ0' data' circ' Hcirc') as [ds' V1']. destruct (vec_defined cDd circ0' data' circ' Hcirc') as [dds' V2']. destruct (vec_defined cS circ0' data' circ' Hcirc') as [ss' V3']. destruct (vec_defined cSd circ0' data' circ' Hcirc') as [sds' V4'].
    rewrite V1, V2, V3, V4, V1', V2', V3', V4'. cbn [bind]. rewrite (cosine_period N' argord nodes edges (h_Ps h) (h_qb h) (h_qb h')) by exact Hqb.
    assert (C1 := cosine_fits n N N' f argord Hp nodes edges eq_refl (opn ds) (opn dds) (opn ds') (opn dds')
      (products cD oD cDd oDd ds dds ds' dds' (fun _ _ _ => eq_refl) (fun _ _ _ => eq_refl) V1 V2 V1' V2' (fun i Hi => conj (proj1 (proj2 (node_ok i Hi))) (proj1 (proj2 (proj2 (node_ok i Hi)))))) (h_J h) (h_pb h)).
    assert (C2 := cosine_fits n N N' f argord Hp nodes edges eq_refl (opn ss) (opn sds) (opn ss') (opn sds')
      (products cS oS cSd oSd ss sds ss' sds' (fun _ _ _ => eq_refl) (fun _ _ _ => eq_refl) V3 V4 V3' V4' (fun i Hi => proj2 (proj2 (proj2 (node_ok i Hi))))) (h_Ps h) (h_qb h)).
    destruct (cosine_part N argord nodes edges (h_J h) (h_pb h) (opn ds) (opn dds)) as [HJ|], (cosine_part N' argord nodes edges (h_J h) (h_pb h) (opn ds') (opn dds')) as [HJ'|]; try easy; cbn [bind].
    destruct (cosine_part N argord nodes edges (h_Ps h) (h_qb h) (opn ss) (opn sds)) as [Hs|], (cosine_part N' argord nodes edges (h_Ps h) (h_qb h) (opn ss') (opn sds')) as [Hs'|]; try easy; cbn [bind].
    apply res_tidy. repeat apply res_plus; apply res_sc; try assumption.
    - apply (quad_fits n N N' f EF); [exact (vector_len nodes circ cQ Qnp HQ) | exact (vector_len nodes circ' cQ Qnp' HQ')|]. intros i j Hi Hj. right.
      split; [|split]; [apply (vec_res gen nodes data data' gen_dim ND circ0 circ circ0' circ' Hcirc Hcirc' s node_ok cQ oQ) .. | apply (vec_pair gen nodes data data' gen_dim ND circ0 circ circ0' circ' Hcirc Hcirc' s node_ok cQ oQ)]; auto; try now apply HM. now intros <-.
    - apply (quad_fits n N N' f EF); [exact (vector_len nodes circ cP Pnp HP) | exact (vector_len nodes circ' cP Pnp' HP')|]. intros i j Hi Hj. cbv beta zeta. rewrite !Rminus_eq_0.
      destruct (HL i Hi) as [S1|Z]; [|left; now apply Z]. destruct (HL j Hj) as [S2|Z]; [|left; now apply Z]. right.
      split; [|split]; [apply (vec_res gen nodes data data' gen_dim ND circ0 circ circ0' circ' Hcirc Hcirc' s node_ok cP oP) .. | apply (vec_pair gen nodes data data' gen_dim ND circ0 circ circ0' circ' Hcirc Hcirc' s node_ok cP oP)]; auto; (apply S1 || apply S2).
  Qed.
  Lemma charges_fit Qnp Qnp' dl i : op_vector cQ nodes circ = Ok Qnp -> op_vector cQ nodes circ' = Ok Qnp' -> i < n -> moved (s i) dl oQ (O i) (O' i) -> restricts N f (up dl (opn Qnp' i)) (opn Qnp i).
  Proof. intros HQ HQ' Hi HM. apply (vec_res gen nodes data data' gen_dim ND circ0 circ circ0' circ' Hcirc Hcirc' s node_ok cQ oQ); auto. apply HM. Qed.
End Ham2.
