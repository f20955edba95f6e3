(** Proofs for C128: circuits. *)
From Coq Require Import List Bool String Ascii Arith Lia ZArith Reals Lra Setoid Morphisms Permutation FunctionalExtensionality.
From Coquelicot Require Import Complex.
From Verif Require Import Prelude PreludeFacts Sweep SweepProofs SweepResultProofs Mat MatFacts Util UtilProofs Graph GraphSpec Symbolic SymbolicSpec RSum SymbolicInv SymbolicCap SymbolicCap2 SymbolicFlux SymbolicNew SymbolicProofs NumOp NumOpSpec NumKron NumSpectral NumCharge NumExpand NumHerm NumOpProofs SymHam SymHamSpec SymHamProofs SymHamT SymTotal SymTotalSpec SymTotalProofs SymTotalMain MoveSpec MoveProofs NumSubst NumSymSpec NumSymProofs NumSymNode NumSymMain NumSymEx NumGaugeSpec NumGaugeMain NumTruncSpec NumTruncLevels NumTruncMain LevMoveSpec NumBound NumBoundHam.
Import ListNotations.
Open Scope nat_scope.

(** ** quadratic forms *)
Definition nonneg (n : nat) (M : nat -> nat -> R) : Prop := forall x : nat -> R, (0 <= RS n (fun i => RS n (fun j => x i * M i j * x j)))%R.
Lemma RS_single n k f : k < n -> (forall i, i < n -> i <> k -> f i = 0%R) -> RS n f = f k.
Proof. intros Hk H. apply (sumn_single (A := R_rng) n k f Hk). exact H. Qed.
Lemma spread nodes (v : nat -> R) : NoDup nodes -> ~ In 0 nodes -> exists x : nat -> R, x 0 = 0%R /\ forall k, k < List.length nodes -> x (nth k nodes 0) = v k.
Proof.
  intros ND NZ. exists (fun m => RS (List.length nodes) (fun k => if Nat.eqb (nth k nodes 0) m then v k else 0%R)). split.
  - transitivity (RS (List.length nodes) (fun _ => 0%R)); [|rewrite RS_const; ring]. apply RS_ext. intros i Hi. destruct (Nat.eqb_spec (nth i nodes 0) 0) as [E|_]; [|easy]. destruct NZ. rewrite <- E. now apply nth_In.
  - intros k Hk. rewrite (RS_single _ k); auto; [now rewrite Nat.eqb_refl|]. intros i Hi N. destruct (Nat.eqb_spec (nth i nodes 0) (nth k nodes 0)) as [E|_]; [|easy]. destruct N. now apply (proj1 (NoDup_nth nodes 0) ND).
Qed.
Lemma nonneg_form nodes M : NoDup nodes -> ~ In 0 nodes -> (forall x, x 0 = 0%R -> (0 <= SymbolicSpec.form nodes M x x)%R) -> nonneg (List.length nodes) M.
Proof.
  intros ND NZ H v. destruct (spread nodes v ND NZ) as (x & X0 & X). specialize (H x X0). unfold SymbolicSpec.form in H. cbv zeta in H.
  erewrite RS_ext; [exact H|]. intros i Hi. cbv beta. apply RS_ext. intros j Hj. now rewrite !X.
Qed.
Lemma positive_forms y w Cinv P : system y -> inverted y (v_par w) Cinv P -> positive_components y (v_par w) ->
  nonneg (List.length (ss_nodes y)) Cinv /\ nonneg (List.length (ss_nodes y)) (inverse_inductance (ss_nodes y) (ss_edges y) P).
Proof.
  intros Hy ((M & HM & HI) & L & HL & HP) ((I1 & I2 & I3) & PC & PL). pose proof (sys_nodup y Hy) as ND. assert (NZ : ~ In 0 (ss_nodes y)) by (intros X; exact (nodes_nz y Hy 0 X eq_refl)).
  pose proof (m_circ y (system_inv y Hy)) as HC. split.
  - intros x. set (n := List.length (ss_nodes y)) in *. set (v := times n Cinv x). destruct (spread (ss_nodes y) v ND NZ) as (u & U0 & U). fold n in U.
    assert (HX : forall i, i < n -> times n (fun i j => lval (v_par w) (M i j)) v i = x i) by (intros i Hi; apply (times_inv n _ Cinv x i HI Hi)).
    destruct (energy_dual n _ _ _ _ HI HX) as [E _]. unfold energy in E.
    assert (F : (0 <= SymbolicSpec.form (ss_nodes y) (fun i j => lval (v_par w) (M i j)) u u)%R).
    { rewrite (system_nodes y Hy). rewrite (c_cap_energy (ss_cg y) HC M (v_par w) u u HM I1 U0 U0). apply electrostatic_nonneg. exact PC. }
    unfold SymbolicSpec.form in F. cbv zeta in F. fold n in F.
    match type of F with (0 <= ?a)%R => assert (Q : a = RS n (fun i => RS n (fun j => v i * lval (v_par w) (M i j) * v j))%R) end.
    { apply RS_ext. intros i Hi. cbv beta. apply RS_ext. intros j Hj. now rewrite !U. }
    rewrite Q in F. change (@sumn R_rng) with RS in E. lra.
  - apply nonneg_form; auto. intros x X0. rewrite (system_nodes y Hy).
    apply (c_linv_psd (ss_cg y) HC (v_par w) L P (ss_edges y)); auto. exact (m_edges y (system_inv y Hy)).
Qed.
Lemma inner_mm n A B u v : inner n u (app n (mm n A B) v) = inner n (app n (mdag A) u) (app n B v).
Proof.
  transitivity (S n (fun k => S n (fun i => (Cconj (u i) * A i k * app n B v k)%C))).
  - transitivity (S n (fun i => S n (fun k => (Cconj (u i) * A i k * app n B v k)%C))); [|apply S_swap].
    apply S_ext. intros i Hi. transitivity (Cconj (u i) * S n (fun k => (A i k * app n B v k)%C))%C; [|rewrite S_l; apply S_ext; intros; ring]. f_equal.
    unfold app, mm, mmul. cbn [kmul C_rng]. transitivity (S n (fun j => S n (fun k => (A i k * B k j * v j)%C))).
    + apply S_ext. intros j _. rewrite S_r. reflexivity.
    + rewrite S_swap. apply S_ext. intros k _. rewrite S_l. apply S_ext. intros; ring.
  - unfold inner. apply S_ext. intros k Hk. unfold app at 2. rewrite conj_sum, S_r. apply S_ext. intros i _. unfold mdag. rewrite conj_mult, conj_conj. ring.
Qed.
Lemma app_herm n A v i : herm n A -> i < n -> app n (mdag A) v i = app n A v i.
Proof. intros H Hi. now apply app_ext. Qed.
Lemma inner_ext_l n u u' v : (forall i, i < n -> u i = u' i) -> inner n u v = inner n u' v.
Proof. intros H. apply S_ext. intros i Hi. now rewrite H. Qed.
Lemma inner_app_sum N n (f : nat -> cmat) v : inner N v (app N (fun r c => S n (fun i => f i r c)) v) = S n (fun i => inner N v (app N (f i) v)).
Proof.
  unfold inner, app. transitivity (S N (fun r => S n (fun i => (Cconj (v r) * S N (fun k => (f i r k * v k)%C))%C))); [|apply S_swap].
  apply S_ext. intros r _. rewrite <- S_l. f_equal. rewrite <- (S_swap N n). apply S_ext. intros k _. apply S_r.
Qed.
Lemma fst_S n f : fst (S n f) = RS n (fun i => fst (f i)).
Proof. induction n as [|n IH]; [reflexivity|]. change (fst (S n f + f n)%C = RS n (fun i => fst (f i)) + fst (f n))%R. cbn [fst Cplus]. now rewrite IH. Qed.
Lemma quad_nonneg N l b M v : (forall i, i < List.length l -> herm N (opn l i)) -> nonneg (List.length l) M -> (0 <= fst (inner N v (app N (quadform N l b M) v)))%R.
Proof.
  intros Hh HM. set (n := List.length l) in *. set (x := fun i => app N (shifted l b i) v).
  assert (HS : forall i, i < n -> herm N (shifted l b i)) by (intros i Hi; apply herm_plus; [now apply Hh | apply herm_sc, herm_eye]).
  assert (E : inner N v (app N (quadform N l b M) v) = S n (fun i => S n (fun j => (RtoC (M i j) * inner N (x i) (x j))%C))).
  { transitivity (inner N v (app N (fun r c => S n (fun i => (fun r c => S n (fun j => msc (RtoC (M i j)) (mm N (shifted l b i) (shifted l b j)) r c)) r c)) v)).
    - apply inner_ext. intros i Hi. apply app_ext; auto. intros r c _ _. rewrite quadform_eq. reflexivity.
    - rewrite inner_app_sum. apply S_ext. intros i Hi. rewrite inner_app_sum. apply S_ext. intros j Hj. rewrite inner_sc, inner_mm. f_equal. apply inner_ext_l. intros r Hr. apply app_herm; auto. }
  rewrite E, fst_S. erewrite RS_ext. 2:{ intros i _. rewrite fst_S. reflexivity. }
  assert (Q : forall i j, (fst (RtoC (M i j) * inner N (x i) (x j))%C = RS N (fun r => fst (x i r) * M i j * fst (x j r) + snd (x i r) * M i j * snd (x j r)))%R).
  { intros i j. transitivity (M i j * fst (inner N (x i) (x j)))%R; [cbn; ring|]. unfold inner. rewrite fst_S, <- RS_l. apply RS_ext. intros r _. cbn. ring. }
  erewrite RS_ext. 2:{ intros i _. erewrite RS_ext; [|intros j _; apply Q]. rewrite RS_swap. reflexivity. }
  rewrite RS_swap. apply RS_nonneg. intros r _.
  rewrite (RS_ext n _ (fun i => RS n (fun j => fst (x i r) * M i j * fst (x j r)) + RS n (fun j => snd (x i r) * M i j * snd (x j r)))%R) by (intros i _; apply RS_add). rewrite RS_add.
  pose proof (HM (fun i => fst (x i r))). pose proof (HM (fun i => snd (x i r))). cbv beta in *. lra.
Qed.
Lemma bounded_re n A c v : bounded n A c -> (Rabs (fst (inner n v (app n A v))) <= c * nsq n v)%R.
Proof.
  intros [_ H]. specialize (H v v). rewrite Rmult_assoc, nrm_sq in H. eapply Rle_trans; [|exact H]. eapply Rle_trans; [|apply Rmax_Cmod]. apply Rmax_l.
Qed.
Lemma near_levels n A A' E E' d : bounded n (mminus A' A) d -> spectrum n A E -> ascending n E -> spectrum n A' E' -> ascending n E' -> forall k, k < n -> (Rabs (E' k - E k) <= d)%R.
Proof.
  intros B SE OE SE' OE' k Hk.
  assert (D : forall v, inner n v (app n A' v) = (inner n v (app n A v) + inner n v (app n (mminus A' A) v))%C).
  { intros v. rewrite <- inner_plus. apply inner_ext. intros i Hi. apply app_ext; auto. intros r c _ _. unfold mplus, mminus. ring. }
  assert (U : (E' k <= E k + d)%R). { apply (weyl n A A'); auto. intros v. rewrite D. cbn [fst Cplus]. pose proof (bounded_re n _ d v B) as X. pose proof (Rle_abs (fst (inner n v (app n (mminus A' A) v)))); pose proof (Rle_abs (- fst (inner n v (app n (mminus A' A) v)))) as Y; rewrite Rabs_Ropp in Y; lra. }
  assert (L : (E k <= E' k + d)%R). { apply (weyl n A' A); auto. intros v. rewrite D. cbn [fst Cplus]. pose proof (bounded_re n _ d v B) as X. pose proof (Rle_abs (fst (inner n v (app n (mminus A' A) v)))); pose proof (Rle_abs (- fst (inner n v (app n (mminus A' A) v)))) as Y; rewrite Rabs_Ropp in Y; lra. }
  apply Rabs_le. lra.
Qed.
Lemma zero_spectrum n : spectrum n mzero (fun _ => 0%R).
Proof.
  exists identity. split; [split; rewrite mul_same; change identity with eye; [rewrite mm_1l | rewrite mm_1r]; intros i j _ _; apply mdag_eye|]. rewrite !mul_same. change identity with eye. rewrite mm_1r, mm_1l. intros i j _ _. unfold mzero, diagonal. now destruct (Nat.eqb i j).
Qed.

(** ** one circuit, two sets of numbers *)
Lemma prods_nodes (g : nat -> R) l : prods (fun k => g (nth k l 0)) (seq 0 (List.length l)) = fold_right (fun m r => (g m * r)%R) 1%R l.
Proof.
  assert (G : forall a l', prods (fun k => g (nth (k - a) l' 0)) (seq a (List.length l')) = fold_right (fun m r => (g m * r)%R) 1%R l').
  { intros a l'. revert a. induction l' as [|m l' IH]; intros a; [reflexivity|]. cbn [List.length seq prods fold_right]. rewrite Nat.sub_diag. cbn [nth]. f_equal. rewrite <- (IH (Datatypes.S a)).
    assert (K : forall k, In k (seq (Datatypes.S a) (List.length l')) -> Datatypes.S a <= k) by (intros k Hk; apply in_seq in Hk; lia). revert K. generalize (seq (Datatypes.S a) (List.length l')). intros q. induction q as [|k q IQ]; intros K; [reflexivity|]. cbn [fold_right prods].
    assert (Datatypes.S a <= k) by (apply K; now left). replace (k - a) with (Datatypes.S (k - Datatypes.S a)) by lia. cbn [nth]. f_equal. apply IQ. intros; apply K; now right. }
  rewrite <- (G 0 l). apply f_equal2; [|reflexivity]. apply functional_extensionality. intros k. now rewrite Nat.sub_0_r.
Qed.
Lemma over_seq (l : list edge) (g : edge -> R) (f : nat -> R) : (forall i e, nth_error l i = Some e -> f i = g e) -> Rs (seq 0 (List.length l)) f = over l g.
Proof.
  assert (G : forall l a, (forall i e, nth_error l i = Some e -> f (a + i) = g e) -> Rs (seq a (List.length l)) f = over l g).
  { clear l. induction l as [|e l IH]; intros a H; [reflexivity|]. cbn [List.length seq Rs over fold_right]. f_equal; [rewrite <- (H 0 e eq_refl); f_equal; lia|]. apply IH. intros i e' E. rewrite <- (H (Datatypes.S i) e' E). f_equal. lia. }
  intros H. apply G. exact H.
Qed.
Section Ham.
  Variables (eigh : nat -> cmat -> (nat -> R) * cmat) (inv : nat -> cmat -> cmat) (z ka kb pmax : nat -> R) (chg flx : R).
  Let gen := getOperatorList eigh inv z ka kb pmax chg flx.
  Variables (nodes : list nat) (data : dict nat opdata) (circ0 circ : dict nat cops).
  Hypothesis ND : NoDup nodes.
  Hypothesis Hc : getExpandedOperatorsMap gen nodes data None circ0 = Ok circ.
  Hypothesis Hs : forall m, In m nodes -> exists d, dget data m = Some d /\ solved eigh inv z ka kb chg flx m d.
  Let N := size (node_dim gen nodes data) (List.length nodes).
  Let G := excesses data nodes.
  Let cf k := excess data (nth k nodes 0).
  Lemma vector_bounds f g l k : op_vector f nodes circ = Ok l -> (forall i o, f (lifted gen nodes data i o) = lift (node_dim gen nodes data) (List.length nodes) i (g o)) -> (forall o c, contracts o c -> bounded (o_dim o) (g o) c) ->
    k < List.length nodes -> bounded N (opn l k) (cf k) /\ (1 <= cf k)%R.
  Proof.
    intros Hl Hf Hg Hk. destruct (vector_elem gen nodes data (gen_dim_list eigh inv z ka kb pmax chg flx) ND circ0 circ Hc f l k Hl Hk) as (m & d & o & Em & Ed & Eo & Di & ->).
    destruct (Hs m (nth_error_In _ _ Em)) as (d' & Ed' & Sd). rewrite Ed in Ed'. injection Ed' as <-.
    assert (CF : cf k = fac d) by (unfold cf, excess, fac; rewrite (nth_error_nth _ _ _ Em), Ed; reflexivity). rewrite CF, Hf. split; [|apply fac_1].
    apply bounded_lift; auto. rewrite Di. apply Hg. exact (node_contracts eigh inv z ka kb pmax chg flx m d o Sd Eo).
  Qed.
  Variables (argord : list (nat * bool) -> list (nat * bool)) (edges : list edge) (Qnp Pnp : list cmat).
  Hypothesis perm : forall l, Permutation (argord l) l.
  Hypothesis HQ : op_vector cQ nodes circ = Ok Qnp.
  Hypothesis HP : op_vector cP nodes circ = Ok Pnp.
  Definition quadratic (h : hin) : cmat := mplus (msc (RtoC (h_Ec h * (1 / 2))) (quadform N Qnp (h_Qb h) (h_Cinv h))) (msc (RtoC (h_El h * (1 / 2))) (quadform N Pnp (h_Pbi h) (h_Linv h))).
  Definition Rall (f : nat -> R) : R := Rs (seq 0 (List.length edges)) f.
  Definition gap (amp bias amp' bias' : nat -> R) : R := Rall (fun i => Cmod (zeta (amp' i) (bias' i) - zeta (amp i) (bias i))%C).
  Lemma ham_parts h H : getHamiltonian N argord nodes edges h Qnp Pnp circ = Ok H -> exists Hj Hp,
    H = tidyup (mplus (mplus (quadratic h) (msc (RtoC (h_Ej h)) Hj)) (msc (RtoC (h_Ep h)) Hp)) /\
    (forall h' H', getHamiltonian N argord nodes edges h' Qnp Pnp circ = Ok H' -> exists Hj' Hp',
      H' = tidyup (mplus (mplus (quadratic h') (msc (RtoC (h_Ej h')) Hj')) (msc (RtoC (h_Ep h')) Hp')) /\
      bounded N (mminus Hj' Hj) (G * gap (h_J h) (h_pb h) (h_J h') (h_pb h')) /\ bounded N (mminus Hp' Hp) (G * gap (h_Ps h) (h_qb h) (h_Ps h') (h_qb h'))) /\
    bounded N Hj (G * gap (fun _ => 0%R) (h_pb h) (h_J h) (h_pb h)) /\ bounded N Hp (G * gap (fun _ => 0%R) (h_qb h) (h_Ps h) (h_qb h)).
  Proof.
    unfold getHamiltonian. destruct (op_vector cD nodes circ) as [ds|] eqn:V1; [|easy]. destruct (op_vector cDd nodes circ) as [dds|] eqn:V2; [|easy].
    destruct (op_vector cS nodes circ) as [ss|] eqn:V3; [|easy]. destruct (op_vector cSd nodes circ) as [sds|] eqn:V4; [|easy]. cbn [bind].
    assert (B1 : forall k, k < List.length nodes -> bounded N (opn ds k) (cf k) /\ bounded N (opn dds k) (cf k) /\ (1 <= cf k)%R).
    { intros k Hk. destruct (vector_bounds cD oD ds k V1) as [A B]; auto; [now intros o c (X & _)|]. destruct (vector_bounds cDd oDd dds k V2) as [A' _]; auto. now intros o c (_ & X & _). }
    assert (B2 : forall k, k < List.length nodes -> bounded N (opn ss k) (cf k) /\ bounded N (opn sds k) (cf k) /\ (1 <= cf k)%R).
    { intros k Hk. destruct (vector_bounds cS oS ss k V3) as [A B]; auto; [now intros o c (_ & _ & X & _)|]. destruct (vector_bounds cSd oSd sds k V4) as [A' _]; auto. now intros o c (_ & _ & _ & X). }
    assert (GP : prods cf (seq 0 (List.length nodes)) = G) by apply (prods_nodes (excess data)).
    pose proof (part_diff N argord nodes edges (opn ds) (opn dds) cf perm B1) as D1. pose proof (part_diff N argord nodes edges (opn ss) (opn sds) cf perm B2) as D2. rewrite GP in D1, D2.
    destruct (cosine_part N argord nodes edges (h_J h) (h_pb h) (opn ds) (opn dds)) as [Hj|] eqn:E1; [|easy]. destruct (cosine_part N argord nodes edges (h_Ps h) (h_qb h) (opn ss) (opn sds)) as [Hp|] eqn:E2; [|easy]. cbn [bind].
    intros E. injection E as <-. exists Hj, Hp. split; [reflexivity|]. split; [|split].
    - intros h' H'. destruct (cosine_part N argord nodes edges (h_J h') (h_pb h') (opn ds) (opn dds)) as [Hj'|] eqn:E1'; [|easy]. destruct (cosine_part N argord nodes edges (h_Ps h') (h_qb h') (opn ss) (opn sds)) as [Hp'|] eqn:E2'; [|easy]. cbn [bind].
      intros E. injection E as <-. exists Hj', Hp'. split; [reflexivity|]. split; [exact (D1 _ _ _ _ _ _ E1 E1') | exact (D2 _ _ _ _ _ _ E2 E2')].
    - eapply bounded_ext; [|exact (D1 _ _ _ _ _ _ (part_none N argord nodes edges (opn ds) (opn dds) (h_pb h)) E1)]. intros r c _ _. unfold mminus, mzero. ring.
    - eapply bounded_ext; [|exact (D2 _ _ _ _ _ _ (part_none N argord nodes edges (opn ss) (opn sds) (h_qb h)) E2)]. intros r c _ _. unfold mminus, mzero. ring.
  Qed.
  Lemma ham_diff h h' H H' : same N (quadratic h') (quadratic h) -> h_Ej h' = h_Ej h -> h_Ep h' = h_Ep h ->
    getHamiltonian N argord nodes edges h Qnp Pnp circ = Ok H -> getHamiltonian N argord nodes edges h' Qnp Pnp circ = Ok H' ->
    bounded N (mminus H' H) (G * (Rabs (h_Ej h) * gap (h_J h) (h_pb h) (h_J h') (h_pb h') + Rabs (h_Ep h) * gap (h_Ps h) (h_qb h) (h_Ps h') (h_qb h')) + INR N * (4 * atol)).
  Proof.
    intros SQ E1 E2 HH HH'. destruct (ham_parts h H HH) as (Hj & Hp & EH & D & _). destruct (D h' H' HH') as (Hj' & Hp' & EH' & B1 & B2).
    set (K := mplus (mplus (quadratic h) (msc (RtoC (h_Ej h)) Hj)) (msc (RtoC (h_Ep h)) Hp)) in *. set (K' := mplus (mplus (quadratic h') (msc (RtoC (h_Ej h')) Hj')) (msc (RtoC (h_Ep h')) Hp')) in *.
    apply (bounded_ext N (mplus (mplus (msc (RtoC (h_Ej h)) (mminus Hj' Hj)) (msc (RtoC (h_Ep h)) (mminus Hp' Hp))) (mplus (mminus (tidyup K') K') (msc (RtoC (- 1)) (mminus (tidyup K) K))))).
    - rewrite EH, EH'. intros r c Hr Hc'. unfold mminus, K, K'. unfold mplus, msc. generalize (SQ r c Hr Hc'). intros ->. rewrite E1, E2. replace (RtoC (- 1)) with (- RtoC 1)%C by (apply injective_projections; cbn; ring). ring.
    - eapply bounded_le; [|apply bounded_plus; [apply bounded_plus; apply bounded_sc; [exact B1 | exact B2] | apply bounded_plus; [apply bounded_rest | apply bounded_sc, bounded_rest]]].
      rewrite !Cmod_R. replace (Rabs (-1)) with 1%R by (rewrite Rabs_left; lra). lra.
  Qed.
  Lemma ham_floor h H v : nonneg (List.length nodes) (h_Cinv h) -> nonneg (List.length nodes) (h_Linv h) -> (0 <= h_Ec h)%R -> (0 <= h_El h)%R ->
    getHamiltonian N argord nodes edges h Qnp Pnp circ = Ok H ->
    (0 <= fst (inner N v (app N H v)) + (G * (Rabs (h_Ej h) * gap (fun _ => 0%R) (h_pb h) (h_J h) (h_pb h) + Rabs (h_Ep h) * gap (fun _ => 0%R) (h_qb h) (h_Ps h) (h_qb h)) + INR N * (2 * atol)) * nsq N v)%R.
  Proof.
    intros P1 P2 e1 e2 HH. destruct (ham_parts h H HH) as (Hj & Hp & EH & _ & B1 & B2).
    set (d := (G * _ + _)%R). set (K := mplus (mplus (quadratic h) (msc (RtoC (h_Ej h)) Hj)) (msc (RtoC (h_Ep h)) Hp)) in *.
    assert (B : bounded N (mminus H (quadratic h)) d).
    { apply (bounded_ext N (mplus (mplus (msc (RtoC (h_Ej h)) Hj) (msc (RtoC (h_Ep h)) Hp)) (mminus (tidyup K) K))).
      - rewrite EH. intros r c Hr Hc'. unfold mminus, K. unfold mplus, msc. ring.
      - eapply bounded_le; [|apply bounded_plus; [apply bounded_plus; apply bounded_sc; [exact B1 | exact B2] | apply bounded_rest]]. rewrite !Cmod_R. unfold d. lra. }
    assert (D : inner N v (app N H v) = (inner N v (app N (quadratic h) v) + inner N v (app N (mminus H (quadratic h)) v))%C).
    { rewrite <- inner_plus. apply inner_ext. intros i Hi. apply app_ext; auto. intros r c _ _. unfold mplus, mminus. ring. }
    assert (Q : (0 <= fst (inner N v (app N (quadratic h) v)))%R).
    { unfold quadratic. rewrite inner_plus, !inner_sc.
      assert (hh : forall f g l, op_vector f nodes circ = Ok l -> (forall i o, f (lifted gen nodes data i o) = lift (node_dim gen nodes data) (List.length nodes) i (g o)) ->
        (forall o, ops_ok o -> herm (o_dim o) (g o)) -> forall i, i < List.length nodes -> herm N (opn l i)).
      { intros f g l Hl Hf Hg i Hi. destruct (vector_elem gen nodes data (gen_dim_list eigh inv z ka kb pmax chg flx) ND circ0 circ Hc f l i Hl Hi) as (m & dd & o & Em & Ed & Eo & Di & ->). rewrite Hf.
        apply lift_herm; [easy|]. rewrite Di. apply Hg. now apply (generated_ok eigh inv z ka kb pmax chg flx m dd). }
      assert (A1 := quad_nonneg N Qnp (h_Qb h) (h_Cinv h) v). assert (A2 := quad_nonneg N Pnp (h_Pbi h) (h_Linv h) v). rewrite (vector_len nodes circ cQ Qnp HQ) in A1. rewrite (vector_len nodes circ cP Pnp HP) in A2.
      specialize (A1 (hh cQ oQ Qnp HQ (fun _ _ => eq_refl) (fun o X => proj1 X)) P1). specialize (A2 (hh cP oP Pnp HP (fun _ _ => eq_refl) (fun o X => proj1 (proj2 X))) P2).
      cbn [fst snd Cplus Cmult RtoC]. rewrite !Rmult_0_l, !Rminus_0_r. apply Rplus_le_le_0_compat; apply Rmult_le_pos; auto; lra. }
    rewrite D. cbn [fst Cplus]. pose proof (bounded_re N _ d v B) as X. pose proof (Rle_abs (- fst (inner N v (app N (mminus H (quadratic h)) v)))) as Y. rewrite Rabs_Ropp in Y. lra.
  Qed.
End Ham.

(** ** circuits *)
Section Circuits.
  Variable y : ssys.
  Hypothesis Hy : system y.
  Lemma value_lname w p e : value_of y w p e = match lname y p e with Some c => v_par w c | None => 0%R end.
  Proof. unfold value_of, lname. destruct (dget (c_map (ss_cg y)) e) as [c|]; [|easy]. replace (letter p (e, c)) with (starts p c) by (unfold letter, starts; destruct c; reflexivity). now destruct (starts p c). Qed.
  Lemma inputs w Cinv P ec el ej ep h : substitute y w Cinv P ec el ej ep = Ok h ->
    (h_Cinv h = Cinv /\ h_Linv h = inverse_inductance (ss_nodes y) (ss_edges y) P /\ h_Qb h = charge_bias y (v_charge w) /\
      h_Pbi h = node_bias (ss_nodes y) (ss_edges y) (ind_bias (ss_cg y) (ss_edges y) (fun j => branch_bias y (v_flux w) (nth j (ss_edges y) noedge)))) /\
    (h_Ec h = ec /\ h_El h = el /\ h_Ej h = ej /\ h_Ep h = ep) /\ (forall i, h_qb h i = bias_val (v_charge w) (slip_bias y i)) /\
    forall i e, nth_error (ss_edges y) i = Some e -> zeta (h_J h i) (h_pb h i) = phasor y w e /\ h_J h i = value_of y w "I" e /\ h_Ps h i = value_of y w "V" e.
  Proof.
    unfold substitute, getJosephsonVector, getPhaseSlipVector. rewrite !(vector_ok y Hy), <- (m_red y (system_inv y Hy)), (bias_ok y Hy). cbn [bind]. intros E. injection E as <-. cbn [h_Cinv h_Linv h_Qb h_Pbi h_J h_Ps h_pb h_qb h_Ec h_El h_Ej h_Ep].
    split; [auto|]. split; [auto|]. split; [auto|]. intros i e Hi. unfold amp.
    assert (L : forall p, nth i (map (lname y p) (ss_edges y)) None = lname y p e). { intros p. apply (map_nth_error (lname y p)) in Hi. apply nth_error_nth with (d := None) in Hi. exact Hi. }
    rewrite !L, !value_lname. split; [|auto].
    assert (X : nth i (map (fun e => match lname y "I" e, dget (ss_red y) e with Some _, Some l => l | _, _ => [] end) (ss_edges y)) [] = match lname y "I" e, dget (ss_red y) e with Some _, Some l => l | _, _ => [] end) by (apply nth_error_nth; now rewrite nth_error_map, Hi).
    rewrite X. unfold zeta, phasor. rewrite value_lname. destruct (lname y "I" e) as [c|]; [|ring]. unfold branch_bias. rewrite (m_red y (system_inv y Hy)). destruct (dget (ss_flux y) e); reflexivity.
  Qed.
End Circuits.
Lemma Cmod_zeta a b : Cmod (zeta a b) = Rabs a.
Proof. unfold zeta. rewrite Cmod_mult, Cmod_R. assert (E : Cmod (cis (2 * PI * b)) = 1%R). { unfold Cmod, cis. cbn [fst snd]. replace (cos (2 * PI * b) ^ 2 + sin (2 * PI * b) ^ 2)%R with 1%R; [apply sqrt_1|]. rewrite <- (sin2_cos2 (2 * PI * b)). unfold Rsqr. ring. } rewrite E. ring. Qed.
Lemma zeta_minus a a' b : Cmod (zeta a' b - zeta a b)%C = Rabs (a' - a).
Proof. rewrite <- (Cmod_zeta (a' - a) b). f_equal. unfold zeta. rewrite RtoC_minus. ring. Qed.
Lemma sin_abs x : (Rabs (sin x) <= Rabs x)%R.
Proof.
  assert (G : forall x, (0 <= x)%R -> (Rabs (sin x) <= x)%R).
  { clear x. intros x Hx. destruct (Rle_lt_dec x 1) as [L|L].
    - destruct Hx as [Hx|<-]; [|rewrite sin_0, Rabs_R0; lra]. assert (0 < sin x)%R by (apply sin_gt_0; pose proof PI_RGT_0; pose proof PI2_3_2; unfold PI2 in *; lra). rewrite Rabs_pos_eq by lra. left. now apply sin_lt_x.
    - pose proof (SIN_bound x). assert (Rabs (sin x) <= 1)%R by (apply Rabs_le; lra). lra. }
  unfold Rabs at 2. destruct (Rcase_abs x) as [L|L]; [|apply G; lra]. replace (sin x) with (- sin (- x))%R by (rewrite sin_neg; ring). rewrite Rabs_Ropp. apply G. lra.
Qed.
Lemma cis_dist a b : (Cmod ((cos a, sin a) - (cos b, sin b))%C <= Rabs (a - b))%R.
Proof.
  rewrite <- (Rabs_pos_eq (Cmod _)) by apply Cmod_ge_0. apply Rsqr_le_abs_0.
  assert (E : Rsqr (Cmod ((cos a, sin a) - (cos b, sin b))%C) = Rsqr (2 * sin ((a - b) / 2))).
  { unfold Rsqr. rewrite Cmod_sq. unfold sq. cbn [fst snd Cminus Cplus Copp]. replace (a - b)%R with (2 * ((a - b) / 2))%R by field.
    assert (C2 : cos (a - b) = (1 - 2 * (sin ((a - b) / 2) * sin ((a - b) / 2)))%R) by (rewrite <- Rmult_assoc, <- cos_2a_sin; f_equal; field).
    rewrite cos_minus in C2. pose proof (sin2_cos2 a) as A. pose proof (sin2_cos2 b) as B. unfold Rsqr in A, B. replace (2 * ((a - b) / 2) / 2)%R with ((a - b) / 2)%R by field. nra. }
  rewrite E. pose proof (sin_abs ((a - b) / 2)) as X. apply Rsqr_le_abs_1. rewrite Rabs_mult. replace (Rabs (a - b)) with (Rabs 2 * Rabs ((a - b) / 2))%R by (rewrite <- Rabs_mult; f_equal; field). apply Rmult_le_compat_l; [apply Rabs_pos | exact X].
Qed.
Lemma over_le (l : list edge) f g : (forall e, In e l -> (f e <= g e)%R) -> (over l f <= over l g)%R.
Proof. induction l as [|e l IH]; intros H; cbn [over fold_right]; [lra|]. apply Rplus_le_compat; [apply H; now left | apply IH; intros; apply H; now right]. Qed.
Lemma over_0 (l : list edge) f : (forall e, In e l -> f e = 0%R) -> over l f = 0%R.
Proof. induction l as [|e l IH]; intros H; cbn [over fold_right]; [easy|]. rewrite (H e) by now left. rewrite Rplus_0_l. apply IH. intros; apply H; now right. Qed.
Lemma flux_josephson y w w' : v_par w' = v_par w -> (josephson_change y w w' <= flux_change y w w')%R /\ slip_change y w w' = 0%R.
Proof.
  intros E. assert (V : forall p e, value_of y w' p e = value_of y w p e) by (intros; unfold value_of; now rewrite E). split.
  - apply over_le. intros e _. unfold phasor. rewrite V. set (a := (2 * PI * branch_bias y (v_flux w') e)%R). set (b := (2 * PI * branch_bias y (v_flux w) e)%R).
    replace (_ - _)%C with (RtoC (value_of y w "I" e) * ((cos a, sin a) - (cos b, sin b)))%C by ring. rewrite Cmod_mult, Cmod_R. apply Rmult_le_compat_l; [apply Rabs_pos|]. eapply Rle_trans; [apply cis_dist|]. apply Req_le. unfold a, b.
    rewrite <- Rmult_minus_distr_l, Rabs_mult. f_equal. apply Rabs_pos_eq. pose proof PI_RGT_0. lra.
  - apply over_0. intros e _. rewrite V, Rminus_eq_0. apply Rabs_R0.
Qed.
Lemma excess_1 data m : (1 <= excess data m)%R.
Proof. unfold excess. destruct (dget data m) as [d|]; [|lra]. apply (fac_1 d). Qed.
Lemma excesses_1 data l : (1 <= excesses data l)%R.
Proof. induction l as [|m l IH]; cbn [excesses fold_right]; [lra|]. fold (excesses data l). pose proof (excess_1 data m). nra. Qed.
Section Main.
  Variables (eigh : nat -> cmat -> (nat -> R) * cmat) (inv : nat -> cmat -> cmat) (z ka kb pmax : nat -> R) (chg flx : R).
  Let gen := getOperatorList eigh inv z ka kb pmax chg flx.
  Lemma levels_move y w w' Cinv P ec el ej ep data circ0 circ Qnp Pnp argord c n h h' H H' E E' :
    let N := fold_right Nat.mul 1 (c_dims c) in
    system y -> (forall l, Permutation (argord l) l) -> same_quadratic y w w' ->
    getExpandedOperatorsMap gen (ss_nodes y) data None circ0 = Ok circ -> op_vector cQ (ss_nodes y) circ = Ok Qnp -> op_vector cP (ss_nodes y) circ = Ok Pnp ->
    (forall m, In m (ss_nodes y) -> exists d, dget data m = Some d /\ solved eigh inv z ka kb chg flx m d) -> In n (ss_nodes y) -> dget circ n = Some c ->
    substitute y w Cinv P ec el ej ep = Ok h -> substitute y w' Cinv P ec el ej ep = Ok h' ->
    getHamiltonian N argord (ss_nodes y) (ss_edges y) h Qnp Pnp circ = Ok H -> getHamiltonian N argord (ss_nodes y) (ss_edges y) h' Qnp Pnp circ = Ok H' ->
    spectrum N H E -> ascending N E -> spectrum N H' E' -> ascending N E' -> forall k, k < N ->
    (Rabs (E' k - E k) <= excesses data (ss_nodes y) * (Rabs ej * josephson_change y w w' + Rabs ep * slip_change y w w') + 4 * INR N / 10 ^ 12)%R.
  Proof.
    intros N Hy Hp [W1 W2] Hc HQ HP Hs Hin Hdc Sh Sh' HH HH' SE AE SE' AE'. unfold N in *. clear N. rewrite (dims_size eigh inv z ka kb pmax chg flx y data circ0 circ c n Hy Hc Hin Hdc) in *.
    destruct (inputs y Hy w Cinv P ec el ej ep h Sh) as ((A1 & A2 & A3 & A4) & (B1 & B2 & B3 & B4) & C1 & D1). destruct (inputs y Hy w' Cinv P ec el ej ep h' Sh') as ((A1' & A2' & A3' & A4') & (B1' & B2' & B3' & B4') & C1' & D1').
    apply near_levels with (2 := SE) (4 := SE'); auto.
    pose proof (ham_diff eigh inv z ka kb pmax chg flx (ss_nodes y) data circ0 circ (sys_nodup y Hy) Hc Hs argord (ss_edges y) Qnp Pnp Hp h h' H H') as T.
    match type of T with ?X -> _ => assert (SQ : X) end.
    { assert (PB : forall i, h_Pbi h' i = h_Pbi h i).
      { intros i. rewrite A4, A4'. unfold node_bias. apply RS_ext. intros j _. cbv beta. f_equal. unfold ind_bias. destruct (nth_error (ss_edges y) j) as [e|] eqn:Ej; [|easy]. destruct (isInductiveEdge (ss_cg y) e) as [[|]|] eqn:Ie; try easy.
        rewrite (nth_error_nth _ _ _ Ej). apply W2. now apply (inductive_kind y j). }
      intros r q _ _. unfold quadratic. rewrite A1, A2, A3, A1', A2', A3', B1, B1', B2, B2', W1. unfold mplus, msc. f_equal. f_equal. rewrite !quadform_eq. apply (@sumn_ext C_rng). intros i _. apply (@sumn_ext C_rng). intros j _. unfold shifted. now rewrite !PB. }
    rewrite B3, B4 in T. specialize (T SQ B3' B4' HH HH'). eapply bounded_le; [|exact T]. apply Req_le. f_equal; [|unfold atol, Rdiv; ring]. f_equal. f_equal; f_equal; apply over_seq; intros i e Hi; destruct (D1 i e Hi) as (F1 & F2 & F3), (D1' i e Hi) as (F1' & F2' & F3').
    - now rewrite F1, F1'.
    - rewrite C1, C1', W1, zeta_minus, F3, F3'. reflexivity.
  Qed.
  Lemma levels_flux y w w' Cinv P ec el ej ep data circ0 circ Qnp Pnp argord c n h h' H H' E E' :
    let N := fold_right Nat.mul 1 (c_dims c) in
    system y -> (forall l, Permutation (argord l) l) -> same_quadratic y w w' -> v_par w' = v_par w ->
    getExpandedOperatorsMap gen (ss_nodes y) data None circ0 = Ok circ -> op_vector cQ (ss_nodes y) circ = Ok Qnp -> op_vector cP (ss_nodes y) circ = Ok Pnp ->
    (forall m, In m (ss_nodes y) -> exists d, dget data m = Some d /\ solved eigh inv z ka kb chg flx m d) -> In n (ss_nodes y) -> dget circ n = Some c ->
    substitute y w Cinv P ec el ej ep = Ok h -> substitute y w' Cinv P ec el ej ep = Ok h' ->
    getHamiltonian N argord (ss_nodes y) (ss_edges y) h Qnp Pnp circ = Ok H -> getHamiltonian N argord (ss_nodes y) (ss_edges y) h' Qnp Pnp circ = Ok H' ->
    spectrum N H E -> ascending N E -> spectrum N H' E' -> ascending N E' -> forall k, k < N ->
    (Rabs (E' k - E k) <= excesses data (ss_nodes y) * (Rabs ej * flux_change y w w') + 4 * INR N / 10 ^ 12)%R.
  Proof.
    intros N Hy Hp HW EV Hc HQ HP Hs Hin Hdc Sh Sh' HH HH' SE AE SE' AE' k Hk.
    pose proof (levels_move y w w' Cinv P ec el ej ep data circ0 circ Qnp Pnp argord c n h h' H H' E E' Hy Hp HW Hc HQ HP Hs Hin Hdc Sh Sh' HH HH' SE AE SE' AE' k Hk) as T. eapply Rle_trans; [exact T|]. apply Rplus_le_compat_r.
    destruct (flux_josephson y w w' EV) as [F1 ->]. pose proof (excesses_1 data (ss_nodes y)). apply Rmult_le_compat_l; [lra|]. rewrite Rmult_0_r, Rplus_0_r. apply Rmult_le_compat_l; [apply Rabs_pos | exact F1].
  Qed.
  Lemma levels_floor y w Cinv P ec el ej ep data circ0 circ Qnp Pnp argord c n h H E :
    let N := fold_right Nat.mul 1 (c_dims c) in
    system y -> (forall l, Permutation (argord l) l) -> inverted y (v_par w) Cinv P -> positive_components y (v_par w) -> (0 <= ec)%R -> (0 <= el)%R ->
    getExpandedOperatorsMap gen (ss_nodes y) data None circ0 = Ok circ -> op_vector cQ (ss_nodes y) circ = Ok Qnp -> op_vector cP (ss_nodes y) circ = Ok Pnp ->
    (forall m, In m (ss_nodes y) -> exists d, dget data m = Some d /\ solved eigh inv z ka kb chg flx m d) -> In n (ss_nodes y) -> dget circ n = Some c ->
    substitute y w Cinv P ec el ej ep = Ok h -> getHamiltonian N argord (ss_nodes y) (ss_edges y) h Qnp Pnp circ = Ok H ->
    spectrum N H E -> ascending N E -> forall k, k < N ->
    (- (excesses data (ss_nodes y) * (Rabs ej * josephson_total y w + Rabs ep * slip_total y w) + 2 * INR N / 10 ^ 12) <= E k)%R.
  Proof.
    intros N Hy Hp HV Hpos e1 e2 Hc HQ HP Hs Hin Hdc Sh HH SE AE k Hk. unfold N in *. clear N. rewrite (dims_size eigh inv z ka kb pmax chg flx y data circ0 circ c n Hy Hc Hin Hdc) in *.
    destruct (inputs y Hy w Cinv P ec el ej ep h Sh) as ((A1 & A2 & A3 & A4) & (B1 & B2 & B3 & B4) & C1 & D1). destruct (positive_forms y w Cinv P Hy HV Hpos) as [P1 P2].
    assert (T : forall v, (0 <= fst (inner (size (node_dim gen (ss_nodes y) data) (List.length (ss_nodes y))) v (app (size (node_dim gen (ss_nodes y) data) (List.length (ss_nodes y))) H v)) + (excesses data (ss_nodes y) * (Rabs ej * josephson_total y w + Rabs ep * slip_total y w) + 2 * INR (size (node_dim gen (ss_nodes y) data) (List.length (ss_nodes y))) / 10 ^ 12) * nsq (size (node_dim gen (ss_nodes y) data) (List.length (ss_nodes y))) v)%R).
    { intros v. pose proof (ham_floor eigh inv z ka kb pmax chg flx (ss_nodes y) data circ0 circ (sys_nodup y Hy) Hc Hs argord (ss_edges y) Qnp Pnp Hp HQ HP h H v) as T. rewrite A1, A2, B1, B2, B3, B4 in T. specialize (T P1 P2 e1 e2 HH).
      assert (Z : forall b, zeta 0 b = RtoC 0) by (intros b; unfold zeta; ring).
      replace (josephson_total y w) with (gap (ss_edges y) (fun _ => 0%R) (h_pb h) (h_J h) (h_pb h)). 2:{ apply over_seq. intros i e Hi. destruct (D1 i e Hi) as (F1 & F2 & F3). rewrite zeta_minus, F2, Rminus_0_r. reflexivity. }
      replace (slip_total y w) with (gap (ss_edges y) (fun _ => 0%R) (h_qb h) (h_Ps h) (h_qb h)). 2:{ apply over_seq. intros i e Hi. destruct (D1 i e Hi) as (F1 & F2 & F3). rewrite zeta_minus, F3, Rminus_0_r. reflexivity. }
      replace (2 * INR (size (node_dim gen (ss_nodes y) data) (List.length (ss_nodes y))) / 10 ^ 12)%R with (INR (size (node_dim gen (ss_nodes y) data) (List.length (ss_nodes y))) * (2 * atol))%R by (unfold atol, Rdiv; ring). exact T. }
    revert T Hk SE AE. unfold gen; generalize (size (node_dim (getOperatorList eigh inv z ka kb pmax chg flx) (ss_nodes y) data) (List.length (ss_nodes y))). generalize (excesses data (ss_nodes y) * (Rabs ej * josephson_total y w + Rabs ep * slip_total y w))%R. intros x N T Hk SE AE.
    enough (0 <= E k + (x + 2 * INR N / 10 ^ 12))%R by (revert H0; generalize (2 * INR N / 10 ^ 12)%R; intros; lra). apply (weyl N H mzero E (fun _ => 0%R)); auto; [apply zero_spectrum | intros i j _ _; lra |].
    intros v. eapply Rle_trans; [|apply T]. apply Req_le. replace (inner N v (app N mzero v)) with (RtoC 0); [reflexivity|]. symmetry. apply S_0. intros i _. unfold app. rewrite S_0; [ring|]. intros; unfold mzero; ring.
  Qed.
End Main.
