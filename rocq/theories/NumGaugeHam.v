(** Proofs for C122: the Hamiltonian under phases. *)
From Coq Require Import List Bool String Ascii Arith Lia ZArith Reals Lra Setoid Morphisms Permutation.
From Coquelicot Require Import Complex.
From Verif Require Import Prelude PreludeFacts Sweep SweepProofs SweepResultProofs Mat MatFacts Util UtilProofs Graph Symbolic SymbolicInv NumOp NumOpSpec NumKron NumSpectral NumCharge NumExpand NumHerm NumPot NumFlux NumSymSpec NumSymProofs NumSymHam NumSymMain NumGaugeSpec NumGauge.
Import ListNotations.
Open Scope nat_scope.

(** ** one node *)
Definition keeps (u : nat -> C) (t : R) (o : ops) : Prop :=
  let N := o_dim o in phases N u /\ same N (rot u (oQ o)) (oQ o) /\
  same N (rot u (oD o)) (msc (cis (2 * PI * t)) (oD o)) /\ same N (rot u (oDd o)) (msc (cis (- 2 * PI * t)) (oDd o)) /\
  same N (rot u (oS o)) (oS o) /\ same N (rot u (oSd o)) (oSd o).
Definition wind (t : nat) (x : R) (i : nat) : C := cis (2 * PI * x * IZR (Z.of_nat t - Z.of_nat i)).
Lemma cis_phase x : (cis x * Cconj (cis x) = RtoC 1)%C.
Proof. rewrite conj_cis, <- cis_add, Rplus_opp_r. apply cis_0. Qed.
Lemma wind_phases n t x : phases n (wind t x).
Proof. intros i _. apply cis_phase. Qed.
Lemma wind_up t x i : (wind t x i * Cconj (wind t x (i + 1)) = cis (2 * PI * x))%C.
Proof.
  unfold wind. rewrite conj_cis, <- cis_add. f_equal. rewrite !minus_IZR, Nat2Z.inj_add, plus_IZR. cbn [Z.of_nat Pos.of_succ_nat]. ring.
Qed.
Lemma wind_int t k i : wind t (IZR k) i = RtoC 1.
Proof. unfold wind. rewrite Rmult_assoc, <- mult_IZR. apply cis_2PI_Z. Qed.
Lemma rot_one n u A : (forall i, u i = RtoC 1) -> same n (rot u A) A.
Proof. intros H i j _ _. unfold rot. rewrite !H, conj_R. ring. Qed.
Lemma charge_keeps eigh inv t x : right_on eigh inv (2 * t + 1) (chargeP t) -> keeps (wind t x) x (charge_basis eigh inv t).
Proof.
  intros H. unfold keeps. change (o_dim (charge_basis eigh inv t)) with (2 * t + 1). cbv zeta. destruct (charge_oD eigh inv t H) as [E1 E2].
  assert (U : forall i, (wind t x i * Cconj (wind t x i) = RtoC 1)%C) by (intros; apply cis_phase).
  split; [apply wind_phases|]. split; [|split; [|split; [|split]]].
  - intros i j _ _. unfold rot. rewrite !charge_oQ. destruct (Nat.eqb_spec i j) as [->|]; [|ring]. transitivity (RtoC (IZR (Z.of_nat t - Z.of_nat j)) * (wind t x j * Cconj (wind t x j)))%C; [ring|]. rewrite U. ring.
  - rewrite E1. intros i j _ _. unfold rot, msc, shift. destruct (Nat.eqb_spec j (i + 1)) as [->|]; [|ring]. rewrite Cmult_1_r, wind_up. ring.
  - rewrite E2. intros i j _ _. unfold rot, msc, mdag, shift. destruct (Nat.eqb_spec i (j + 1)) as [->|]; rewrite conj_R; [|ring]. rewrite Cmult_1_r.
    replace (wind t x (j + 1) * Cconj (wind t x j))%C with (Cconj (wind t x j * Cconj (wind t x (j + 1))))%C by (rewrite conj_mult, conj_conj; ring).
    rewrite wind_up, conj_cis, Cmult_1_r. f_equal. ring.
  - assert (E : same (2 * t + 1) (oS (charge_basis eigh inv t)) eye) by (intros i j _ _; apply charge_oS). rewrite E. apply rot_eye, wind_phases.
  - assert (E : same (2 * t + 1) (oSd (charge_basis eigh inv t)) eye) by (intros i j _ _; apply charge_oS). rewrite E. apply rot_eye, wind_phases.
Qed.
Lemma one_keeps u k o : (forall i, u i = RtoC 1) -> keeps u (IZR k) o.
Proof.
  intros H. assert (K : forall A, same (o_dim o) (rot u A) A) by (intros; now apply rot_one). split; [intros i _; rewrite H, conj_R; ring|].
  assert (C1 : cis (2 * PI * IZR k) = RtoC 1) by apply cis_2PI_Z.
  assert (C2 : cis (- 2 * PI * IZR k) = RtoC 1). { replace (- 2 * PI * IZR k)%R with (2 * PI * IZR (- k))%R by (rewrite opp_IZR; ring). apply cis_2PI_Z. }
  rewrite C1, C2. repeat split; rewrite ?K; try reflexivity; intros i j _ _; unfold msc; ring.
Qed.

(** ** the Hamiltonian *)
Section Ham.
  Variables (gen : nat -> opdata -> res ops) (nodes : list nat) (data : dict nat opdata).
  Hypothesis gen_dim : forall n d o k, gen n d = Ok o -> ident_dim d = Some k -> o_dim o = k.
  Hypothesis ND : NoDup nodes.
  Variables (circ0 circ : dict nat cops).
  Hypothesis Hcirc : getExpandedOperatorsMap gen nodes data None circ0 = Ok circ.
  Let n := List.length nodes.
  Let D := node_dim gen nodes data.
  Let N := size D n.
  Variables (u : nat -> nat -> C) (th : nat -> R).
  Hypothesis node_ok : forall i m d o, nth_error nodes i = Some m -> dget data m = Some d -> gen m d = Ok o -> keeps (u i) (th i) o.
  Let un := tph D u (seq 0 n).
  Lemma dims_phases : forall k, k < n -> phases (D k) (u k).
  Proof.
    intros k Hk. destruct (nth_error nodes k) as [m|] eqn:Em; [|apply nth_error_None in Em; unfold n in Hk; lia].
    destruct (map_usable gen nodes data gen_dim circ0 circ Hcirc m (nth_error_In _ _ Em)) as (d & o & Hd & Ho & _).
    assert (E : D k = o_dim o) by (unfold D, node_dim; now rewrite Em, Hd, Ho). rewrite E. now apply (node_ok k m d o).
  Qed.
  Lemma whole_phases : phases N un.
  Proof. apply tphases. intros k Hk. apply in_seq in Hk. apply dims_phases. lia. Qed.
  Lemma vector_rot f g l i (c : C) : op_vector f nodes circ = Ok l -> (forall i o, f (lifted gen nodes data i o) = lift D n i (g o)) -> i < n ->
    (forall m d o, nth_error nodes i = Some m -> dget data m = Some d -> gen m d = Ok o -> same (o_dim o) (rot (u i) (g o)) (msc c (g o))) ->
    same N (rot un (opn l i)) (msc c (opn l i)).
  Proof.
    intros Hl Hf Hi Hg. destruct (vector_elem gen nodes data gen_dim ND circ0 circ Hcirc f l i Hl Hi) as (m & d & o & Em & Ed & Eo & Di & ->).
    rewrite Hf. unfold un. transitivity (lift D n i (rot (u i) (g o))); [apply (lift_rot D u n i (g o) dims_phases)|].
    transitivity (lift D n i (msc c (g o))); [|now apply (lift_sc gen nodes data)]. apply lift_ext; [easy|]. fold D in Di. rewrite Di. now apply (Hg m d o).
  Qed.
  Lemma vector_fix f g l i : op_vector f nodes circ = Ok l -> (forall i o, f (lifted gen nodes data i o) = lift D n i (g o)) -> i < n ->
    (forall m d o, nth_error nodes i = Some m -> dget data m = Some d -> gen m d = Ok o -> same (o_dim o) (rot (u i) (g o)) (g o)) ->
    same N (rot un (opn l i)) (opn l i).
  Proof.
    intros Hl Hf Hi Hg. rewrite (vector_rot f g l i (RtoC 1) Hl Hf Hi).
    - intros r c _ _. unfold msc. ring.
    - intros m d o H1 H2 H3. rewrite (Hg m d o H1 H2 H3). intros r c _ _. unfold msc. ring.
  Qed.
  (** what is rounded *)
  Lemma ham_rot argord edges h h' Qnp Pnp : (forall l, Permutation (argord l) l) ->
    op_vector cQ nodes circ = Ok Qnp -> op_vector cP nodes circ = Ok Pnp ->
    h_Cinv h' = h_Cinv h -> h_Linv h' = h_Linv h -> h_J h' = h_J h -> h_Ps h' = h_Ps h ->
    h_Ec h' = h_Ec h -> h_El h' = h_El h -> h_Ej h' = h_Ej h -> h_Ep h' = h_Ep h ->
    h_Qb h' = h_Qb h -> h_qb h' = h_qb h -> (forall i, h_Pbi h' i = h_Pbi h i) ->
    (forall i, i < List.length edges -> h_J h i <> 0%R -> exists k, h_pb h' i = (h_pb h i + branch_flux nodes edges th i + IZR k)%R) ->
    (forall i m d o, nth_error nodes i = Some m -> dget data m = Some d -> gen m d = Ok o ->
       same (o_dim o) (rot (u i) (oP o)) (oP o) \/ forall j, j < n -> h_Linv h i j = 0%R /\ h_Linv h j i = 0%R) ->
    match getHamiltonian N argord nodes edges h Qnp Pnp circ, getHamiltonian N argord nodes edges h' Qnp Pnp circ with
    | Ok A, Ok B => exists X Y, A = tidyup X /\ B = tidyup Y /\ same N (rot un X) Y | Err e, Err f => e = f | _, _ => False end.
  Proof.
    intros Hp HQ HP e1 e2 e3 e4 e5 e6 e7 e8 E1 E2 E3 E4 E5. unfold getHamiltonian.
    destruct (op_vector cD nodes circ) as [ds|] eqn:V1; [|easy]. destruct (op_vector cDd nodes circ) as [dds|] eqn:V2; [|easy].
    destruct (op_vector cS nodes circ) as [ss|] eqn:V3; [|easy]. destruct (op_vector cSd nodes circ) as [sds|] eqn:V4; [|easy]. cbn [bind].
    rewrite e1, e2, e3, e4, e5, e6, e7, e8, E1, E2. pose proof whole_phases as W.
    assert (C1 := cosine_rot N n un W argord Hp nodes edges eq_refl (opn ds) (opn dds) th).
    assert (C2 := cosine_rot N n un W argord Hp nodes edges eq_refl (opn ss) (opn sds) (fun _ => 0%R)).
    match type of C1 with ?P -> _ => assert (K1 : P) end.
    { intros k Hk. split; [eapply (vector_rot cD oD) | eapply (vector_rot cDd oDd)]; eauto; try reflexivity; intros m d o H1 H2 H3; now apply (node_ok k m d o). }
    specialize (C1 K1 (h_J h) (h_pb h) (h_pb h') E4). match type of C2 with ?P -> _ => assert (K2 : P) end.
    { intros k Hk. rewrite !Rmult_0_r, cis_0. split; [eapply (vector_rot cS oS) | eapply (vector_rot cSd oSd)]; eauto; try reflexivity; intros m d o H1 H2 H3; destruct (node_ok k m d o H1 H2 H3) as (_ & _ & _ & _ & A & B);
        [rewrite A | rewrite B]; intros r c _ _; unfold msc; ring. }
    specialize (C2 K2 (h_Ps h) (h_qb h) (h_qb h)). match type of C2 with ?P -> _ => assert (K3 : P) end.
    { intros i _ _. exists 0%Z. unfold branch_flux. rewrite (@sumn_ext R_rng _ _ (fun _ => 0%R)) by (intros; apply Rmult_0_r).
      assert (Z : forall q, @sumn R_rng q (fun _ => 0%R) = 0%R) by (induction q as [|q IH]; [reflexivity | cbn [sumn]; rewrite IH; apply Rplus_0_r]). rewrite Z. match goal with |- @eq _ ?a ?b => change (@eq R a b) end. ring. }
    specialize (C2 K3).
    destruct (cosine_part N argord nodes edges (h_J h) (h_pb h) (opn ds) (opn dds)) as [Hj|], (cosine_part N argord nodes edges (h_J h) (h_pb h') (opn ds) (opn dds)) as [Hj'|]; try easy; cbn [bind].
    destruct (cosine_part N argord nodes edges (h_Ps h) (h_qb h) (opn ss) (opn sds)) as [Hp1|]; try easy; cbn [bind].
    eexists. eexists. split; [reflexivity|]. split; [reflexivity|].
    rewrite !rot_plus, !rot_sc, C1, C2.
    assert (A1 := quad_rot N un Qnp (h_Qb h) (h_Cinv h) W). rewrite A1.
    2:{ intros i Hi. left. rewrite (vector_len nodes circ cQ Qnp HQ) in Hi. apply (vector_fix cQ oQ); auto. intros m d o H1 H2 H3. now apply (node_ok i m d o). }
    assert (A2 := quad_rot N un Pnp (h_Pbi h) (h_Linv h) W). rewrite A2.
    2:{ intros i Hi. rewrite (vector_len nodes circ cP Pnp HP) in *. destruct (nth_error nodes i) as [m|] eqn:Em; [|apply nth_error_None in Em; lia].
        destruct (map_usable gen nodes data gen_dim circ0 circ Hcirc m (nth_error_In _ _ Em)) as (d & o & Hd & Ho & _).
        destruct (E5 i m d o Em Hd Ho) as [F|F]; [left|right; exact F]. apply (vector_fix cP oP); auto. intros m' d' o' H1 H2 H3. assert (o' = o) as -> by congruence. exact F. }
    assert (Q : same N (quadform N Pnp (h_Pbi h) (h_Linv h)) (quadform N Pnp (h_Pbi h') (h_Linv h))).
    { intros r c _ _. rewrite !quadform_eq. apply (@sumn_ext C_rng). intros i _. apply (@sumn_ext C_rng). intros j _. unfold shifted. now rewrite !E3. }
    rewrite Q. reflexivity.
  Qed.
End Ham.
