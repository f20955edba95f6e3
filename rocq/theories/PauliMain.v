(** pauliCoefficients as a whole. *)
From Coq Require Import List Bool ZArith Reals Lia Lra.
From Coquelicot Require Import Complex.
From Verif Require Import Prelude PreludeFacts Mat MatFacts Sweep SweepProofs Util UtilLinProofs NumOp NumKron NumEval Pauli PauliSpec PauliProofs.
Import ListNotations.
Open Scope list_scope.
Open Scope nat_scope.

Lemma melem_conj n O v w : (forall i j, i < n -> j < n -> O i j = Cconj (O j i)) -> matrix_element n O v w = Cconj (matrix_element n O w v).
Proof.
  intros H. unfold matrix_element. rewrite conj_sum. rewrite (@sumn_swap C_rng). apply (@sumn_ext C_rng). intros i Hi.
  rewrite conj_sum. apply (@sumn_ext C_rng). intros j Hj. rewrite !conj_mult, conj_conj, (H j i Hj Hi). match goal with |- @eq _ ?a ?b => change (@eq C a b) end. ring.
Qed.
Lemma sub_hermitian n O v w : (forall i j, i < n -> j < n -> O i j = Cconj (O j i)) -> hermitian2 (get_subspace_operator n v w O).
Proof. intros H i j Hi Hj. unfold get_subspace_operator. destruct i as [|[|]], j as [|[|]]; try lia; cbn [mk2]; now apply melem_conj. Qed.
Lemma melem_phase n O v w a b : matrix_element n O (fun i => a * v i)%C (fun i => b * w i)%C = (Cconj a * b * matrix_element n O v w)%C.
Proof.
  unfold matrix_element. change Cmult with (@kmul C_rng). rewrite (@sumn_mul_l C_rng). apply (@sumn_ext C_rng). intros i _. rewrite (@sumn_mul_l C_rng). apply (@sumn_ext C_rng). intros j _.
  change (@kmul C_rng) with Cmult. rewrite conj_mult. match goal with |- @eq _ ?x ?y => change (@eq C x y) end. ring.
Qed.
Lemma unit_conj a : Cmod a = 1%R -> (Cconj a * a)%C = RtoC 1.
Proof. intros H. rewrite conj_self, H. f_equal. ring. Qed.
Lemma local_phase E0 E1 n O v w a b : Cmod a = 1%R -> Cmod b = 1%R ->
  local_pauli E0 E1 (get_subspace_operator n (fun i => a * v i)%C (fun i => b * w i)%C O) = local_pauli E0 E1 (get_subspace_operator n v w O).
Proof.
  intros Ha Hb. unfold local_pauli, get_subspace_operator. cbn [mk2]. rewrite !melem_phase, !unit_conj by auto.
  rewrite !Cmod_mult, Cmod_cj, Ha, Hb. rewrite !Rmult_1_l. rewrite !Cmult_1_l. reflexivity.
Qed.

Section P.
  Variable eigh : (nat -> nat -> C) -> (nat -> R) * (nat -> nat -> C).
  Hypothesis EG : forall M, hermitian2 M -> eigen2 M (fst (eigh M)) (snd (eigh M)).
  Lemma mapM_map {X Y} (f : X -> res Y) g l : (forall x, In x l -> f x = Ok (g x)) -> mapM f l = Ok (map g l).
  Proof. induction l as [|x l IH]; intros H; cbn; auto. rewrite H by now left. cbn. rewrite IH; auto. intros y Hy. apply H. now right. Qed.
  Lemma nth_seq {X} (g : nat -> X) n i : i < n -> nth_error (map g (seq 0 n)) i = Some (g i).
  Proof. intros H. rewrite nth_error_map. rewrite (nth_error_nth' _ 0) by now rewrite seq_length. cbn. now rewrite seq_nth. Qed.
  Lemma at1_seq {X} (g : nat -> X) n i : i < n -> at1 (map g (seq 0 n)) i = Ok (g i).
  Proof. intros H. unfold at1. now rewrite nth_seq. Qed.
  Lemma run_ops rE cE fE rV cV fV b (ops : nat -> nat -> nat -> C) : 2 <= rE -> 2 <= rV -> cE <= cV -> b <> BNeither ->
    (forall i, i < cE -> match b with BQobj n op => Ok (get_subspace_operator n (fV 0 i) (fV 1 i) op) | BOps l => at1 l i | BNeither => Err PlainException end = Ok (ops i)) ->
    pauliCoefficients eigh (AArr rE cE fE) (AArr rV cV fV) b = Ok (map (fun i => pauli_or_nan (fE 0 i) (fE 1 i) (snd (eigh (ops i)))) (seq 0 cE)).
  Proof.
    intros HE HV HC NB HO. unfold pauliCoefficients, row. cbn [is_arr andb].
    replace (0 <? rE) with true by (symmetry; apply Nat.ltb_lt; lia). replace (1 <? rE) with true by (symmetry; apply Nat.ltb_lt; lia).
    replace (0 <? rV) with true by (symmetry; apply Nat.ltb_lt; lia). replace (1 <? rV) with true by (symmetry; apply Nat.ltb_lt; lia).
    cbn [bind]. rewrite map_length, seq_length.
    match goal with |- match b with _ => _ end = _ => idtac | |- _ => idtac end.
    assert (forall X, match b with BNeither => Err PlainException | _ => X end = X :> res (list (option (R * R * R)))) as ->.
    { intros X. destruct b; congruence. }
    apply mapM_map. intros i Hi. apply in_seq in Hi. rewrite !at1_seq by lia. cbn [bind]. rewrite HO by lia. reflexivity.
  Qed.
  Lemma run_qobj rE cE fE rV cV fV n O : 2 <= rE -> 2 <= rV -> cE <= cV ->
    (forall i j, i < n -> j < n -> O i j = Cconj (O j i)) -> (forall i, i < cE -> matrix_element n O (fV 0 i) (fV 1 i) <> RtoC 0) ->
    pauliCoefficients eigh (AArr rE cE fE) (AArr rV cV fV) (BQobj n O) =
      Ok (map (fun i => Some (local_pauli (fE 0 i) (fE 1 i) (get_subspace_operator n (fV 0 i) (fV 1 i) O))) (seq 0 cE)).
  Proof.
    intros HE HV HC HO NZ. rewrite (run_ops _ _ _ _ _ _ _ (fun i => get_subspace_operator n (fV 0 i) (fV 1 i) O)); auto; [|discriminate].
    f_equal. apply map_ext_in. intros i Hi. apply in_seq in Hi. eapply point_is; [apply EG, sub_hermitian, HO|]. apply NZ. lia.
  Qed.
  Lemma run_nan rE cE fE rV cV fV n O i : 2 <= rE -> 2 <= rV -> cE <= cV -> i < cE ->
    (forall i j, i < n -> j < n -> O i j = Cconj (O j i)) -> matrix_element n O (fV 0 i) (fV 1 i) = RtoC 0 ->
    matrix_element n O (fV 0 i) (fV 0 i) <> matrix_element n O (fV 1 i) (fV 1 i) ->
    exists l, pauliCoefficients eigh (AArr rE cE fE) (AArr rV cV fV) (BQobj n O) = Ok l /\ nth_error l i = Some None.
  Proof.
    intros HE HV HC Hi HO Z N. rewrite (run_ops _ _ _ _ _ _ _ (fun i => get_subspace_operator n (fV 0 i) (fV 1 i) O)); auto; [|discriminate].
    eexists. split; [reflexivity|]. rewrite nth_seq by auto. f_equal.
    pose proof (EG _ (sub_hermitian n O (fV 0 i) (fV 1 i) HO)) as E. unfold pauli_or_nan.
    set (M := get_subspace_operator n (fV 0 i) (fV 1 i) O) in *. set (V := snd (eigh M)) in *. set (l := fst (eigh M)) in *.
    assert (M 0 1 = RtoC 0) as M01 by exact Z. assert (M 1 0 = RtoC 0) as M10.
    { change (M 1 0) with (matrix_element n O (fV 1 i) (fV 0 i)). rewrite melem_conj, Z by auto. apply conj_RtoC. }
    assert (M 0 0 <> M 1 1) as ND by exact N.
    destruct (Ceq_dec (V 0 0) (RtoC 0)) as [|X]; auto. destruct (Ceq_dec (V 0 1) (RtoC 0)) as [|Y]; auto. exfalso.
    pose proof (eig_entries M l V E) as EE. destruct E as (_ & U & _). destruct (unitary2_eqs V U) as (_ & _ & OR & _).
    assert (forall k, k < 2 -> V 0 k <> RtoC 0 -> V 1 k = RtoC 0) as H1.
    { intros k Hk Nk. pose proof (EE 0 k ltac:(lia) Hk) as E0. pose proof (EE 1 k ltac:(lia) Hk) as E1. rewrite M01 in E0. rewrite M10 in E1.
      assert (M 0 0 = RtoC (l k)) as L. { transitivity ((M 0%nat 0%nat * V 0%nat k + RtoC 0 * V 1%nat k) / V 0%nat k)%C; [field; auto|]. rewrite E0. field. auto. }
      destruct (Ceq_dec (V 1 k) (RtoC 0)) as [|Q]; auto. exfalso. apply ND. rewrite L.
      transitivity ((V 1%nat k * RtoC (l k)) / V 1%nat k)%C; [field; auto|]. rewrite <- E1. field. auto. }
    rewrite (H1 0 ltac:(lia) X), (H1 1 ltac:(lia) Y) in OR.
    assert (Cconj (V 0 0) = RtoC 0) as W. { transitivity ((Cconj (V 0%nat 0%nat) * V 0%nat 1%nat + Cconj (RtoC 0) * RtoC 0) / V 0%nat 1%nat)%C; [field; auto|]. rewrite OR. field. auto. }
    apply X. rewrite <- (conj_conj (V 0 0)), W. apply conj_RtoC.
  Qed.
End P.

Lemma pauli_phase eigh eigh' rE cE fE rV cV fV n O u :
  (forall M, hermitian2 M -> eigen2 M (fst (eigh M)) (snd (eigh M))) -> (forall M, hermitian2 M -> eigen2 M (fst (eigh' M)) (snd (eigh' M))) ->
  2 <= rE -> 2 <= rV -> cE <= cV ->
  (forall i j, i < n -> j < n -> O i j = Cconj (O j i)) -> (forall i, i < cE -> matrix_element n O (fV 0 i) (fV 1 i) <> RtoC 0) ->
  (forall r i, Cmod (u r i) = 1%R) ->
  pauliCoefficients eigh' (AArr rE cE fE) (AArr rV cV (fun r i a => (u r i * fV r i a)%C)) (BQobj n O) =
  pauliCoefficients eigh (AArr rE cE fE) (AArr rV cV fV) (BQobj n O).
Proof.
  intros E1 E2 HE HV HC HO NZ HU. rewrite (run_qobj eigh E1), (run_qobj eigh' E2); auto.
  - f_equal. apply map_ext_in. intros i _. f_equal. apply local_phase; apply HU.
  - intros i Hi Z. apply (NZ i Hi). rewrite melem_phase in Z.
    assert (forall a, Cmod a = 1%R -> a <> RtoC 0) as N1 by (intros a Ha ->; rewrite Cmod_0 in Ha; lra).
    assert (Cconj (u 0 i) <> RtoC 0) as A by (apply N1; rewrite Cmod_cj; apply HU). assert (u 1 i <> RtoC 0) as B by apply N1, HU.
    transitivity ((Cconj (u 0%nat i) * u 1%nat i * matrix_element n O (fV 0%nat i) (fV 1%nat i)) / (Cconj (u 0%nat i) * u 1%nat i))%C; [field; auto|].
    rewrite Z. field. auto.
Qed.

Lemma create_ok m (a b c d : nat -> C) : createSubspaceOperators (map a (seq 0 m)) (map b (seq 0 m)) (map c (seq 0 m)) (map d (seq 0 m)) =
  Ok (map (fun i => mk2 (a i) (b i) (c i) (d i)) (seq 0 m)).
Proof.
  unfold createSubspaceOperators. rewrite map_length, seq_length. apply mapM_map. intros i Hi. apply in_seq in Hi. rewrite !nth_seq by lia. reflexivity.
Qed.
Lemma pauli_list eigh rE cE fE rV cV fV n O : cE <= cV -> let m r s := map (fun i => matrix_element n O (fV r i) (fV s i)) (seq 0 cE) in
  exists l, createSubspaceOperators (m 0 0) (m 0 1) (m 1 0) (m 1 1) = Ok l /\
    pauliCoefficients eigh (AArr rE cE fE) (AArr rV cV fV) (BOps l) = pauliCoefficients eigh (AArr rE cE fE) (AArr rV cV fV) (BQobj n O).
Proof.
  intros HC m. eexists. split; [apply create_ok|]. unfold pauliCoefficients, row. cbn [is_arr andb].
  destruct (0 <? rE); [|reflexivity]. cbn [bind]. destruct (1 <? rE); [|reflexivity]. cbn [bind].
  destruct (0 <? rV); [|reflexivity]. cbn [bind]. destruct (1 <? rV); [|reflexivity]. cbn [bind]. rewrite map_length, seq_length.
  assert (forall l, incl l (seq 0 cE) -> forall f g : nat -> res (option (R * R * R)), (forall i, i < cE -> f i = g i) -> mapM f l = mapM g l) as ME.
  { induction l as [|i l IH]; intros I f g H; cbn; auto. rewrite H by (specialize (I i (or_introl eq_refl)); apply in_seq in I; lia).
    destruct (g i); cbn; auto. rewrite (IH (fun x Hx => I x (or_intror Hx)) f g H). reflexivity. }
  apply ME; [apply incl_refl|]. intros i Hi. rewrite !at1_seq by lia. cbn [bind]. reflexivity.
Qed.
Lemma create_short m00 m01 m10 m11 : List.length m01 < List.length m00 \/ List.length m10 < List.length m00 \/ List.length m11 < List.length m00 ->
  createSubspaceOperators m00 m01 m10 m11 = Err IndexError.
Proof.
  intros H. unfold createSubspaceOperators.
  set (f := fun i => _). assert (forall l, incl l (seq 0 (List.length m00)) -> (exists i, In i l /\ f i = Err IndexError) -> mapM f l = Err IndexError) as G.
  { induction l as [|i l IH]; intros I (k & Hk & Ek); [destruct Hk|]. cbn. destruct (f i) as [x|e] eqn:Fi.
    - cbn. rewrite IH; auto; [intros z Hz; apply I; now right|]. destruct Hk as [->|Hk]; [congruence|eauto].
    - cbn. f_equal. unfold f in Fi. destruct (nth_error m00 i), (nth_error m01 i), (nth_error m10 i), (nth_error m11 i); congruence. }
  apply G; [apply incl_refl|]. exists (List.length m00 - 1). split; [apply in_seq; lia|]. unfold f.
  assert (forall l : list C, List.length l < List.length m00 -> nth_error l (List.length m00 - 1) = None) as NN by (intros l Hl; apply nth_error_None; lia).
  destruct (nth_error m00 _); [|reflexivity]. destruct H as [H|[H|H]]; rewrite (NN _ H); repeat (destruct (nth_error _ _)); reflexivity.
Qed.

(** ** A diagonaliser of 2 by 2 matrices *)
Definition eigh2 (M : nat -> nat -> C) : (nat -> R) * (nat -> nat -> C) :=
  let a := fst (M 0 0) in let d := fst (M 1 1) in let b := M 0 1 in
  if Ceq_dec b (RtoC 0) then
    if Rle_dec a d then (fun k => match k with 0 => a | _ => d end, mk2 (RtoC 1) (RtoC 0) (RtoC 0) (RtoC 1))
    else (fun k => match k with 0 => d | _ => a end, mk2 (RtoC 0) (RtoC 1) (RtoC 1) (RtoC 0))
  else
    let D := sqrt ((a - d) ^ 2 + 4 * Cmod b ^ 2) in
    let l k := match k with 0 => ((a + d - D) / 2)%R | _ => ((a + d + D) / 2)%R end in
    let r k := sqrt (Cmod b ^ 2 + (l k - a) ^ 2) in
    (l, fun i k => match i with 0 => (b / RtoC (r k))%C | _ => RtoC ((l k - a) / r k) end).
Lemma eigh2_ok M : hermitian2 M -> eigen2 M (fst (eigh2 M)) (snd (eigh2 M)).
Proof.
  intros H. pose proof (H 0 0 ltac:(lia) ltac:(lia)) as H00. pose proof (H 1 1 ltac:(lia) ltac:(lia)) as H11. pose proof (H 1 0 ltac:(lia) ltac:(lia)) as H10.
  assert (forall c, c = Cconj c -> c = RtoC (fst c)) as RE.
  { intros [x y] E. unfold Cconj in E. cbn in E. injection E as E. unfold RtoC. cbn. f_equal. lra. }
  apply RE in H00, H11. clear RE H. unfold eigh2. set (a := fst (M 0 0)) in *. set (d := fst (M 1 1)) in *. set (b := M 0 1) in *.
  assert (forall l V, (l 0%nat <= l 1%nat)%R -> (Cconj (V 0 0) * V 0 0 + Cconj (V 1 0) * V 1 0)%C = RtoC 1 -> (Cconj (V 0 1) * V 0 1 + Cconj (V 1 1) * V 1 1)%C = RtoC 1 ->
    (Cconj (V 0 0) * V 0 1 + Cconj (V 1 0) * V 1 1)%C = RtoC 0 -> (Cconj (V 0 1) * V 0 0 + Cconj (V 1 1) * V 1 0)%C = RtoC 0 ->
    (forall k, k < 2 -> (RtoC a * V 0 k + b * V 1 k)%C = (V 0 k * RtoC (l k))%C /\ (Cconj b * V 0 k + RtoC d * V 1 k)%C = (V 1 k * RtoC (l k))%C) -> eigen2 M l V) as MK.
  { intros l V L A0 A1 A2 A3 E. split; auto. split.
    - intros i j Hi Hj. unfold mmul, mdag. cbn [sumn k0 kadd kmul C_rng]. destruct i as [|[|]], j as [|[|]]; try lia; unfold mid, delta; cbn [Nat.eqb k0 k1 C_rng];
        match goal with |- @eq _ ?x ?y => change (@eq C x y) end; [etransitivity; [|exact A0]|etransitivity; [|exact A2]|etransitivity; [|exact A3]|etransitivity; [|exact A1]]; ring.
    - intros i j Hi Hj. unfold mmul. cbn [sumn k0 kadd kmul C_rng]. destruct (E j Hj) as [E1 E2].
      destruct i as [|[|]]; try lia; match goal with |- @eq _ ?x ?y => change (@eq C x y) end; [rewrite <- E1, H00|rewrite <- E2, H11, H10]; fold b; ring. }
  destruct (Ceq_dec b (RtoC 0)) as [Z|NZ].
  - assert (Cconj b = RtoC 0) as Zc by (rewrite Z; apply conj_RtoC).
    destruct (Rle_dec a d) as [L|L]; cbn [fst snd]; apply MK; cbn [mk2]; rewrite ?conj_RtoC; try ring; try lra.
    + intros k Hk. rewrite Zc, Z. destruct k as [|[|]]; try lia; cbn [mk2]; split; ring.
    + intros k Hk. rewrite Zc, Z. destruct k as [|[|]]; try lia; cbn [mk2]; split; ring.
  - cbn [fst snd]. set (D := sqrt _). apply Cmod_gt_0 in NZ.
    assert (0 < Cmod b ^ 2)%R as B2 by (apply pow_lt; exact NZ).
    assert (0 < (a - d) ^ 2 + 4 * Cmod b ^ 2)%R as P by (pose proof (pow2_ge_0 (a - d)); lra). assert (D * D = (a - d) ^ 2 + 4 * Cmod b ^ 2)%R as DD by (apply sqrt_sqrt; lra).
    assert (0 < D)%R as DP by now apply sqrt_lt_R0.
    set (l := fun k : nat => match k with 0 => ((a + d - D) / 2)%R | _ => ((a + d + D) / 2)%R end).
    set (r := fun k : nat => sqrt (Cmod b ^ 2 + (l k - a) ^ 2)).
    assert (forall k, 0 < r k)%R as RP by (intros k; apply sqrt_lt_R0; pose proof (pow2_ge_0 (l k - a)); lra).
    assert (forall k, r k * r k = Cmod b ^ 2 + (l k - a) ^ 2)%R as RR by (intros k; apply sqrt_sqrt; pose proof (pow2_ge_0 (l k - a)); lra).
    assert (forall k, k < 2 -> ((l k - a) * (l k - d) = Cmod b ^ 2)%R) as CH.
    { intros k Hk. destruct k as [|[|]]; try lia; unfold l; lra. }
    assert ((l 0%nat - a) * (l 1%nat - a) = - Cmod b ^ 2)%R as OP by (unfold l; lra).
    assert (forall k, RtoC (r k) <> RtoC 0) as RN by (intros k E; apply (f_equal fst) in E; cbn in E; specialize (RP k); lra).
    assert (forall j k, (Cconj (b / RtoC (r j)) * (b / RtoC (r k)) + Cconj (RtoC ((l j - a) / r j)) * RtoC ((l k - a) / r k))%C =
      (RtoC (Cmod b ^ 2 + (l j - a) * (l k - a)) / RtoC (r j * r k))%C) as GR.
    { intros j k. rewrite conj_RtoC. unfold Cdiv. rewrite conj_mult. rewrite <- !RtoC_inv by (apply Rgt_not_eq, RP).
      rewrite conj_RtoC. transitivity (Cconj b * b * (RtoC (/ r j) * RtoC (/ r k)) + RtoC ((l j - a) / r j) * RtoC ((l k - a) / r k))%C; [ring|].
      rewrite conj_self, <- !RtoC_mult, <- RtoC_plus. rewrite <- RtoC_inv by (pose proof (RP j); pose proof (RP k); apply Rgt_not_eq, Rmult_lt_0_compat; auto). rewrite <- RtoC_mult. f_equal. field. pose proof (RP j). pose proof (RP k). lra. }
    apply (MK l (fun i k => match i with 0 => (b / RtoC (r k))%C | _ => RtoC ((l k - a) / r k) end)); cbv beta iota.
    + unfold l. lra.
    + rewrite GR, RR. replace (Cmod b ^ 2 + (l 0%nat - a) * (l 0%nat - a))%R with (r 0%nat * r 0%nat)%R by (rewrite RR; ring). rewrite <- RR.
      rewrite RtoC_mult. field. auto.
    + rewrite GR, RR. replace (Cmod b ^ 2 + (l 1%nat - a) * (l 1%nat - a))%R with (r 1%nat * r 1%nat)%R by (rewrite RR; ring). rewrite <- RR.
      rewrite RtoC_mult. field. auto.
    + rewrite GR. replace (Cmod b ^ 2 + (l 0%nat - a) * (l 1%nat - a))%R with 0%R by lra. rewrite RtoC_mult. field. auto.
    + rewrite GR. replace (Cmod b ^ 2 + (l 1%nat - a) * (l 0%nat - a))%R with 0%R by lra. rewrite RtoC_mult. field. auto.
    + intros k Hk. unfold Rdiv. rewrite RtoC_mult, RtoC_inv by (specialize (RP k); lra). split.
      * rewrite RtoC_minus. field. auto.
      * transitivity ((Cconj b * b + RtoC (d * (l k - a))) / RtoC (r k))%C; [rewrite RtoC_mult, RtoC_minus; field; auto|].
        rewrite conj_self, <- RtoC_plus. replace (Cmod b ^ 2 + d * (l k - a))%R with ((l k - a) * l k)%R by (specialize (CH k Hk); lra).
        rewrite RtoC_mult. field. auto.
Qed.

(** ** Concrete operators of one qubit *)
Definition e2 (r i : nat) : nat -> C := fun a => if Nat.eqb a r then RtoC 1 else RtoC 0.
Lemma melem_e2 O r s i j : r < 2 -> s < 2 -> matrix_element 2 O (e2 r i) (e2 s j) = O r s.
Proof.
  intros Hr Hs. unfold matrix_element, e2. cbn [sumn k0 kadd C_rng Nat.eqb]. destruct r as [|[|]], s as [|[|]]; try lia; cbn [Nat.eqb]; rewrite !conj_RtoC;
    match goal with |- @eq _ ?x ?y => change (@eq C x y) end; ring.
Qed.
Lemma sigma_herm O : O = sigma_x \/ O = sigma_z -> forall i j, i < 2 -> j < 2 -> O i j = Cconj (O j i).
Proof.
  intros H i j Hi Hj. destruct H as [-> | ->]; destruct i as [|[|]], j as [|[|]]; try lia; cbn; unfold Cconj, RtoC, Copp; cbn; f_equal; ring.
Qed.
Lemma nan_ref : forall eigh, (forall M, hermitian2 M -> eigen2 M (fst (eigh M)) (snd (eigh M))) ->
  pauliCoefficients eigh (AArr 2 1 (fun r _ => INR r)) (AArr 2 1 e2) (BQobj 2 sigma_z) = Ok [None].
Proof.
  intros eigh EG. destruct (run_nan eigh EG 2 1 (fun r _ => INR r) 2 1 e2 2 sigma_z 0) as (l & E & N); auto.
  - apply sigma_herm. now right.
  - now rewrite melem_e2 by lia.
  - rewrite !melem_e2 by lia. cbn. unfold Copp, RtoC. cbn. intros H. injection H. lra.
  - rewrite E. pose proof E as L. rewrite (run_ops eigh 2 1 (fun r _ => INR r) 2 1 e2 (BQobj 2 sigma_z) (fun i => get_subspace_operator 2 (e2 0 i) (e2 1 i) sigma_z)) in L; auto; [|discriminate].
    injection L as <-. cbn [seq map nth_error] in *. injection N as ->. reflexivity.
Qed.
Lemma list_ref : forall eigh V b, b <> BNeither -> V <> AOther -> pauliCoefficients eigh (AList [[0%R]; [1%R]]) V b = Err TypeError.
Proof. intros eigh V b NB NV. unfold pauliCoefficients. destruct V; try easy; destruct b; easy. Qed.
Lemma pauli_wit : (forall M, hermitian2 M -> eigen2 M (fst (eigh2 M)) (snd (eigh2 M))) /\
  pauliCoefficients eigh2 (AArr 2 1 (fun r _ => INR r)) (AArr 2 1 e2) (BQobj 2 sigma_x) = Ok [Some ((- (1 / 2))%R, 0%R, 0%R)].
Proof.
  split; [exact eigh2_ok|]. rewrite (run_qobj eigh2 eigh2_ok); auto.
  - cbn [seq map]. do 3 f_equal. unfold local_pauli, get_subspace_operator. cbn [mk2]. rewrite !melem_e2 by lia. cbn [sigma_x mk2 RtoC fst INR].
    replace (Cmod (RtoC 1)) with 1%R by (rewrite Cmod_R, Rabs_R1; reflexivity).
    replace ((0 - 0) ^ 2 + 4 * 1 ^ 2)%R with (2 ^ 2)%R by ring. rewrite sqrt_pow2 by lra. f_equal; [f_equal|]; field.
  - apply sigma_herm. now left.
  - intros i Hi. rewrite melem_e2 by lia. cbn. intros E. injection E. lra.
Qed.
