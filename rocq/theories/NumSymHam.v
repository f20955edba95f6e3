(** Proofs for C119-C121: the Hamiltonian. *)
From Coq Require Import List Bool String Arith Lia ZArith Reals Lra Setoid Morphisms Permutation.
From Coquelicot Require Import Complex.
From Verif Require Import Prelude PreludeFacts Sweep SweepProofs SweepResultProofs Mat MatFacts Util UtilProofs Graph Symbolic SymbolicInv NumOp NumOpSpec NumKron NumSpectral NumCharge NumExpand NumHerm NumSymSpec NumSymProofs.
Import ListNotations.
Open Scope nat_scope.

(** equality of results up to the N x N entries *)
Definition same_res (N : nat) (a b : res cmat) : Prop :=
  match a, b with Ok A, Ok B => same N A B | Err e, Err f => e = f | _, _ => False end.
Section Cosine.
  Variables (N n : nat) (sg : nat -> nat) (ep : nat -> R).
  Hypothesis S : signed N sg ep.
  Notation G := (turn sg ep).
  Lemma product_turn z l l' : Forall2 (fun A B => same N (G A) B) l l' ->
    match product N z l, product N (Cconj z) l' with Ok A, Ok B => same N (G A) B | Err e, Err f => e = f | _, _ => False end.
  Proof.
    intros F. destruct F as [|A B l l' H F]; cbn [product]; [easy|].
    assert (K : same N (G (msc z A)) (msc (Cconj z) B)) by (rewrite turn_sc, H; reflexivity). revert K. generalize (msc z A) (msc (Cconj z) B). clear H A B.
    induction F as [|A B l l' H F IH]; intros X Y K; cbn [fold_left]; [easy|]. apply IH. rewrite (turn_mm _ _ _ S), K, H. reflexivity.
  Qed.
  Variable argord : list (nat * bool) -> list (nat * bool).
  Hypothesis perm : forall l, Permutation (argord l) l.
  Variables (nodes : list nat) (edges : list edge).
  Hypothesis len : List.length nodes = n.
  Variables (X Xd : nat -> cmat) (amp b b' : nat -> R).
  Definition map_ops (f : nat * bool -> cmat) i := map f (argord (branch_terms nodes edges i)).
  Lemma terms_turn (f g : nat * bool -> cmat) i : (forall t, fst t < n -> same N (G (f t)) (g t)) ->
    Forall2 (fun A B => same N (G A) B) (map_ops f i) (map_ops g i).
  Proof.
    intros H. unfold map_ops. assert (K : forall t, In t (argord (branch_terms nodes edges i)) -> fst t < n).
    { intros t Ht. apply (Permutation_in _ (perm _)) in Ht. now apply (terms_in n nodes edges len) in Ht. }
    induction (argord (branch_terms nodes edges i)) as [|t l IH]; cbn; constructor; [apply H, K; now left | apply IH; intros; apply K; now right].
  Qed.
  Hypothesis how :
    ((forall k, k < n -> same N (G (X k)) (X k) /\ same N (G (Xd k)) (Xd k)) /\ forall i, b' i = (- b i)%R) \/
    ((forall k, k < n -> same N (G (X k)) (Xd k) /\ same N (G (Xd k)) (X k)) /\ forall i, b' i = b i).
  Lemma cosine_turn :
    match cosine_part N argord nodes edges amp b X Xd, cosine_part N argord nodes edges amp b' X Xd with
    | Ok A, Ok B => same N (G A) B | Err e, Err f => e = f | _, _ => False end.
  Proof.
    unfold cosine_part. assert (H0 : same N (G mzero) mzero) by apply turn_zero. revert H0. generalize mzero at 1 3. generalize mzero.
    generalize (seq 0 (List.length edges)). induction l as [|i l IH]; intros B A HA; cbn [foldM]; [exact HA|].
    destruct (Req_EM_T (amp i) 0); [cbn [bind]; now apply IH|].
    set (f := fun t : nat * bool => if snd t then X (fst t) else Xd (fst t)). set (g := fun t : nat * bool => if snd t then Xd (fst t) else X (fst t)).
    assert (C1 : cis (- 2 * PI * b i) = Cconj (cis (2 * PI * b i))) by (rewrite conj_cis; f_equal; ring).
    assert (C2 : cis (2 * PI * b i) = Cconj (cis (- 2 * PI * b i))) by (rewrite conj_cis; f_equal; ring).
    change (map f (argord (branch_terms nodes edges i))) with (map_ops f i). change (map g (argord (branch_terms nodes edges i))) with (map_ops g i).
    destruct how as [[HX Hb]|[HX Hb]]; rewrite Hb.
    - replace (2 * PI * - b i)%R with (- 2 * PI * b i)%R by ring. replace (- 2 * PI * - b i)%R with (2 * PI * b i)%R by ring.
      pose proof (product_turn (cis (2 * PI * b i)) _ _ (terms_turn f f i ltac:(intros t Ht; unfold f; destruct (snd t); now apply HX))) as K1. rewrite <- C1 in K1.
      pose proof (product_turn (cis (- 2 * PI * b i)) _ _ (terms_turn g g i ltac:(intros t Ht; unfold g; destruct (snd t); now apply HX))) as K2. rewrite <- C2 in K2.
      destruct (product N (cis (2 * PI * b i)) (map_ops f i)) as [p1|], (product N (cis (- 2 * PI * b i)) (map_ops f i)) as [p1'|]; try easy; cbn [bind].
      destruct (product N (cis (- 2 * PI * b i)) (map_ops g i)) as [p2|], (product N (cis (2 * PI * b i)) (map_ops g i)) as [p2'|]; try easy; cbn [bind].
      apply IH. rewrite turn_plus, HA, turn_sc, turn_plus, K1, K2, conj_R. reflexivity.
    - pose proof (product_turn (cis (2 * PI * b i)) _ _ (terms_turn f g i ltac:(intros t Ht; unfold f, g; destruct (snd t); now apply HX))) as K1. rewrite <- C1 in K1.
      pose proof (product_turn (cis (- 2 * PI * b i)) _ _ (terms_turn g f i ltac:(intros t Ht; unfold f, g; destruct (snd t); now apply HX))) as K2. rewrite <- C2 in K2.
      destruct (product N (cis (2 * PI * b i)) (map_ops f i)) as [p1|], (product N (cis (- 2 * PI * b i)) (map_ops g i)) as [p2|]; try easy; cbn [bind].
      apply IH. rewrite turn_plus, HA, turn_sc, turn_plus, K1, K2, conj_R. intros r c _ _. unfold mplus, msc. ring.
  Qed.
End Cosine.
Lemma quad_turn N sg ep l b b' M s : signed N sg ep -> onsign s -> (forall i, i < List.length l -> same N (turn sg ep (opn l i)) (msc (RtoC s) (opn l i))) ->
  (forall i, i < List.length l -> b' i = (s * b i)%R) -> same N (turn sg ep (quadform N l b M)) (quadform N l b' M).
Proof.
  intros S Hs HG Hb. assert (K : forall i, i < List.length l -> same N (turn sg ep (shifted l b i)) (msc (RtoC s) (shifted l b' i))).
  { intros i Hi. unfold shifted. rewrite turn_plus, (HG i Hi), turn_sc, (turn_eye _ _ _ S), conj_R, (Hb i Hi). intros r c _ _. unfold mplus, msc.
    rewrite RtoC_mult. pose proof (onsign_sq s Hs) as E. replace (RtoC s * (opn l i r c + RtoC s * RtoC (b i) * eye r c))%C with (RtoC s * opn l i r c + RtoC (s * s) * RtoC (b i) * eye r c)%C by (rewrite RtoC_mult; ring).
    rewrite E. ring. }
  intros r c Hr Hc. unfold turn at 1. rewrite !quadform_eq, conj_sum.
  change (RtoC (ep r * ep c) * ?x)%C with (@kmul C_rng (RtoC (ep r * ep c)) x). rewrite (@sumn_mul_l C_rng). apply (@sumn_ext C_rng). intros i Hi.
  rewrite conj_sum, (@sumn_mul_l C_rng). apply (@sumn_ext C_rng). intros j Hj. rewrite conj_mult, conj_R. change (@kmul C_rng) with Cmult.
  transitivity (RtoC (M i j) * turn sg ep (mm N (shifted l b i) (shifted l b j)) r c)%C; [unfold turn; match goal with |- @eq _ ?a ?b => change (@eq C a b) end; ring|]. f_equal.
  rewrite (turn_mm _ _ _ S _ _ r c Hr Hc). transitivity (mm N (msc (RtoC s) (shifted l b' i)) (msc (RtoC s) (shifted l b' j)) r c); [apply mm_proper; auto|].
  rewrite mm_sc_l, mm_sc_r, Cmult_assoc, <- RtoC_mult, (onsign_sq s Hs). ring.
Qed.

(** ** the operators of one node *)
(** s = 1: charges are kept and fluxes change sign; s = -1: the reverse *)
Definition turned (sg : nat -> nat) (ep : nat -> R) (s : R) (o : ops) : Prop :=
  let N := o_dim o in let G := turn sg ep in
  same N (G (oQ o)) (msc (RtoC s) (oQ o)) /\ same N (G (oP o)) (msc (RtoC (- s)) (oP o)) /\
  (s = 1%R -> same N (G (oD o)) (oD o) /\ same N (G (oDd o)) (oDd o) /\ same N (G (oS o)) (oSd o) /\ same N (G (oSd o)) (oS o)) /\
  (s = (-1)%R -> same N (G (oD o)) (oDd o) /\ same N (G (oDd o)) (oD o) /\ same N (G (oS o)) (oS o) /\ same N (G (oSd o)) (oSd o)).

Section Ham.
  Variables (gen : nat -> opdata -> res ops) (nodes : list nat) (data : dict nat opdata).
  Hypothesis gen_dim : forall n d o k, gen n d = Ok o -> ident_dim d = Some k -> o_dim o = k.
  Hypothesis ND : NoDup nodes.
  Variables (circ0 circ : dict nat cops).
  Hypothesis Hcirc : getExpandedOperatorsMap gen nodes data None circ0 = Ok circ.
  Let n := List.length nodes.
  Let D := node_dim gen nodes data.
  Let N := size D n.
  Variables (sg : nat -> nat -> nat) (ep : nat -> nat -> R) (s : R).
  Hypothesis Hs : onsign s.
  Hypothesis node_ok : forall i m d o, nth_error nodes i = Some m -> dget data m = Some d -> gen m d = Ok o ->
    signed (o_dim o) (sg i) (ep i) /\ turned (sg i) (ep i) s o.
  Let sgn := tsg D sg (seq 0 n).
  Let epn := tep D ep (seq 0 n).
  Lemma dims_signed : forall k, k < n -> signed (D k) (sg k) (ep k).
  Proof.
    intros k Hk. destruct (nth_error nodes k) as [m|] eqn:Em; [|apply nth_error_None in Em; unfold n in Hk; lia].
    destruct (map_usable gen nodes data gen_dim circ0 circ Hcirc m (nth_error_In _ _ Em)) as (d & o & Hd & Ho & _).
    assert (E : D k = o_dim o) by (unfold D, node_dim; now rewrite Em, Hd, Ho). rewrite E. now apply (node_ok k m d o).
  Qed.
  Lemma whole_signed : signed N sgn epn.
  Proof. apply tsigned. intros k Hk. apply in_seq in Hk. apply dims_signed. lia. Qed.
  Lemma vector_turn f f' g g' l l' (c : R) : op_vector f nodes circ = Ok l -> op_vector f' nodes circ = Ok l' ->
    (forall i o, f (lifted gen nodes data i o) = lift D n i (g o)) -> (forall i o, f' (lifted gen nodes data i o) = lift D n i (g' o)) ->
    (forall sg ep o, turned sg ep s o -> same (o_dim o) (turn sg ep (g o)) (g' o)) ->
    forall i, i < n -> same N (turn sgn epn (opn l i)) (opn l' i).
  Proof.
    intros Hl Hl' Hf Hf' Hg i Hi. destruct (vector_elem gen nodes data gen_dim ND circ0 circ Hcirc f l i Hl Hi) as (m & d & o & Em & Ed & Eo & Di & ->).
    destruct (vector_elem gen nodes data gen_dim ND circ0 circ Hcirc f' l' i Hl' Hi) as (m' & d' & o' & Em' & Ed' & Eo' & Di' & ->).
    assert (o' = o) as -> by congruence. rewrite Hf, Hf'. unfold N, sgn, epn. rewrite (lift_turn D sg ep n i (g o) dims_signed).
    apply lift_ext; [easy|]. fold D in Di. rewrite Di. apply Hg. now apply (node_ok i m d o).
  Qed.
  Lemma lift_sc c i A : i < n -> same N (lift D n i (msc c A)) (msc c (lift D n i A)).
  Proof.
    intros Hi r k Hr Hk. unfold lift, N, size in *. revert r k Hr Hk. assert (In i (seq 0 n)) as H by (apply in_seq; lia). pose proof (seq_NoDup n 0) as ND'. revert H ND'.
    generalize (seq 0 n). induction l as [|a l IH]; intros H ND' r k Hr Hk; [easy|]. cbn [map tensor]. match goal with |- _ = msc c ?X r k => change (msc c X r k) with (c * X r k)%C end. unfold kron. inversion ND' as [|? ? H1 H2]; subst.
    destruct (Nat.eqb_spec a i) as [->|Na].
    - rewrite !map_map. cbn [fst]. assert (E : map (fun k0 => (D k0, if Nat.eqb k0 i then msc c A else eye)) l = map (fun k0 => (D k0, if Nat.eqb k0 i then A else eye)) l).
      { apply map_ext_in. intros x Hx. destruct (Nat.eqb_spec x i) as [->|]; easy. }
      rewrite E. unfold msc. ring.
    - destruct H as [H|H]; [congruence|]. rewrite !map_map. cbn [fst]. change (map (fun x => D x) l) with (map D l).
      cbn [map prodn fold_right] in Hr, Hk. change (fold_right Nat.mul 1 (map D l)) with (prodn (map D l)) in Hr, Hk.
      destruct (divmod_lt _ _ _ Hr) as [_ Hr2], (divmod_lt _ _ _ Hk) as [_ Hk2]. rewrite (IH H H2 _ _ Hr2 Hk2). unfold msc. ring.
  Qed.
  Lemma vector_scaled f g l (c : R) : op_vector f nodes circ = Ok l -> (forall i o, f (lifted gen nodes data i o) = lift D n i (g o)) ->
    (forall sg ep o, turned sg ep s o -> same (o_dim o) (turn sg ep (g o)) (msc (RtoC c) (g o))) ->
    forall i, i < List.length l -> same N (turn sgn epn (opn l i)) (msc (RtoC c) (opn l i)).
  Proof.
    intros Hl Hf Hg i Hi. rewrite (vector_len nodes circ f l Hl) in Hi. destruct (vector_elem gen nodes data gen_dim ND circ0 circ Hcirc f l i Hl Hi) as (m & d & o & Em & Ed & Eo & Di & ->).
    rewrite Hf. unfold sgn, epn. transitivity (lift D n i (turn (sg i) (ep i) (g o))); [apply (lift_turn D sg ep n i (g o) dims_signed)|].
    rewrite <- lift_sc by easy. apply lift_ext; [easy|]. fold D in Di. rewrite Di. apply Hg. now apply (node_ok i m d o).
  Qed.
  Lemma ham_turn argord edges h h' Qnp Pnp : (forall l, Permutation (argord l) l) ->
    op_vector cQ nodes circ = Ok Qnp -> op_vector cP nodes circ = Ok Pnp ->
    h_Cinv h' = h_Cinv h -> h_Linv h' = h_Linv h -> h_J h' = h_J h -> h_Ps h' = h_Ps h ->
    h_Ec h' = h_Ec h -> h_El h' = h_El h -> h_Ej h' = h_Ej h -> h_Ep h' = h_Ep h ->
    (forall i, h_Qb h' i = (s * h_Qb h i)%R) -> (forall i, h_qb h' i = (s * h_qb h i)%R) ->
    (forall i, h_Pbi h' i = (- s * h_Pbi h i)%R) -> (forall i, h_pb h' i = (- s * h_pb h i)%R) ->
    match getHamiltonian N argord nodes edges h Qnp Pnp circ, getHamiltonian N argord nodes edges h' Qnp Pnp circ with
    | Ok A, Ok B => same N (turn sgn epn A) B | Err e, Err f => e = f | _, _ => False end.
  Proof.
    intros Hp HQ HP e1 e2 e3 e4 e5 e6 e7 e8 E1 E2 E3 E4. unfold getHamiltonian.
    destruct (op_vector cD nodes circ) as [ds|] eqn:V1; [|easy]. destruct (op_vector cDd nodes circ) as [dds|] eqn:V2; [|easy].
    destruct (op_vector cS nodes circ) as [ss|] eqn:V3; [|easy]. destruct (op_vector cSd nodes circ) as [sds|] eqn:V4; [|easy]. cbn [bind].
    rewrite e1, e2, e3, e4, e5, e6, e7, e8. pose proof whole_signed as W.
    assert (C1 := cosine_turn N n sgn epn W argord Hp nodes edges eq_refl (opn ds) (opn dds) (h_J h) (h_pb h) (h_pb h')).
    assert (C2 := cosine_turn N n sgn epn W argord Hp nodes edges eq_refl (opn ss) (opn sds) (h_Ps h) (h_qb h) (h_qb h')).
    match type of C1 with ?P -> _ => assert (K1 : P) end.
    { destruct Hs as [Es|Es]; [left|right]; (split; [|intros i; rewrite E4, Es; ring]); intros k Hk; split;
        [eapply (vector_turn cD cD oD oD) | eapply (vector_turn cDd cDd oDd oDd) | eapply (vector_turn cD cDd oD oDd) | eapply (vector_turn cDd cD oDd oD)];
        eauto using 0%R; try reflexivity; intros ? ? o (_ & _ & T1 & T2); first [apply (T1 Es) | apply (T2 Es)]. }
    specialize (C1 K1). match type of C2 with ?P -> _ => assert (K2 : P) end.
    { destruct Hs as [Es|Es]; [right|left]; (split; [|intros i; rewrite E2, Es; ring]); intros k Hk; split;
        [eapply (vector_turn cS cSd oS oSd) | eapply (vector_turn cSd cS oSd oS) | eapply (vector_turn cS cS oS oS) | eapply (vector_turn cSd cSd oSd oSd)];
        eauto using 0%R; try reflexivity; intros ? ? o (_ & _ & T1 & T2); first [apply (T1 Es) | apply (T2 Es)]. }
    specialize (C2 K2).
    destruct (cosine_part N argord nodes edges (h_J h) (h_pb h) (opn ds) (opn dds)) as [Hj|], (cosine_part N argord nodes edges (h_J h) (h_pb h') (opn ds) (opn dds)) as [Hj'|]; try easy; cbn [bind].
    destruct (cosine_part N argord nodes edges (h_Ps h) (h_qb h) (opn ss) (opn sds)) as [Hp1|], (cosine_part N argord nodes edges (h_Ps h) (h_qb h') (opn ss) (opn sds)) as [Hp1'|]; try easy; cbn [bind].
    rewrite (turn_tidy _ _ _ W), !turn_plus, !turn_sc, !conj_R, C1, C2.
    assert (Hs' : onsign (- s)) by (destruct Hs as [->| ->]; [right|left]; ring).
    assert (A1 := quad_turn N sgn epn Qnp (h_Qb h) (h_Qb h') (h_Cinv h) s W Hs (vector_scaled cQ oQ Qnp s HQ (fun _ _ => eq_refl) (fun _ _ _ T => proj1 T)) (fun i _ => E1 i)).
    assert (A2 := quad_turn N sgn epn Pnp (h_Pbi h) (h_Pbi h') (h_Linv h) (- s) W Hs' (vector_scaled cP oP Pnp (- s) HP (fun _ _ => eq_refl) (fun _ _ _ T => proj1 (proj2 T))) (fun i _ => E3 i)).
    rewrite A1, A2. reflexivity.
  Qed.
End Ham.
