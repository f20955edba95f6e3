(** Proofs about Util.v: permutation decomposition, sorting of solver output,
    Pauli coefficients, isStoquastic. *)
From Coq Require Import List Bool String Ascii ZArith Reals SpecFloat Lia Lra Ring Permutation Sorted.
From Coquelicot Require Import Complex.
From Verif Require Import Prelude PreludeFacts Float Mat MatFacts Sweep SweepProofs SweepResultProofs Util UtilProofs.
Import ListNotations.
Open Scope list_scope.
Open Scope nat_scope.

(** ** decomposition *)
Lemma roll_spec M j i c : j < M -> i < M -> c < M -> (c = roll M j i <-> (c + j) mod M = i).
Proof.
  intros Hj Hi Hc. unfold roll. split.
  - intros ->. destruct (Nat.lt_ge_cases i j).
    + rewrite (Nat.mod_small (i + (M - j))) by lia. replace (i + (M - j) + j) with (i + 1 * M) by lia. rewrite Nat.mod_add by lia. now apply Nat.mod_small.
    + replace (i + (M - j)) with (i - j + 1 * M) by lia. rewrite Nat.mod_add, (Nat.mod_small (i - j)) by lia. rewrite Nat.mod_small; lia.
  - intros <-. destruct (Nat.lt_ge_cases (c + j) M).
    + rewrite (Nat.mod_small (c + j)) by lia. replace (c + j + (M - j)) with (c + 1 * M) by lia. rewrite Nat.mod_add by lia. symmetry. now apply Nat.mod_small.
    + replace (c + j) with (c + j - M + 1 * M) by lia. rewrite Nat.mod_add, (Nat.mod_small (c + j - M)) by lia. rewrite Nat.mod_small; lia.
Qed.
Lemma roll_lt M j i : 0 < M -> roll M j i < M.
Proof. intros. unfold roll. apply Nat.mod_upper_bound. lia. Qed.
Lemma roll_inj M j i i' : j < M -> i < M -> i' < M -> roll M j i = roll M j i' -> i = i'.
Proof.
  intros Hj Hi Hi' E. assert (L : roll M j i < M) by (apply roll_lt; lia).
  rewrite <- (proj1 (roll_spec M j i (roll M j i) Hj Hi L) eq_refl). now apply (roll_spec M j i' (roll M j i) Hj Hi' L).
Qed.
(** the shift that takes column [c] to row [i] *)
Definition shift_of (M i c : nat) : nat := (i + (M - c)) mod M.
Lemma shift_of_spec M i c j : j < M -> i < M -> c < M -> (c = roll M j i <-> j = shift_of M i c).
Proof.
  intros. rewrite roll_spec by auto. unfold shift_of. change ((i + (M - c)) mod M) with (roll M c i).
  rewrite roll_spec by auto. now rewrite (Nat.add_comm j c).
Qed.

Definition is_inverse (M : nat) (X Y : nat -> nat -> C) : Prop :=
  (forall i j, i < M -> j < M -> @mmul C_rng M X Y i j = @mid C_rng i j) /\
  (forall i j, i < M -> j < M -> @mmul C_rng M Y X i j = @mid C_rng i j).

Lemma perm_entry M j r c : perm_matrix M j r c = @delta C_rng c (roll M j r).
Proof. reflexivity. Qed.
Lemma perm_inv M j Y : j < M -> is_inverse M (perm_matrix M j) Y -> forall i k, i < M -> k < M -> Y i k = perm_matrix M j k i.
Proof.
  intros Hj [_ H] i k Hi Hk. rewrite <- (@mmul_id_l C_rng M (fun i k => perm_matrix M j k i) i k Hi).
  transitivity (@mmul C_rng M Y (@mmul C_rng M (perm_matrix M j) (fun i k => perm_matrix M j k i)) i k).
  - rewrite <- (@mmul_id_r C_rng M Y i k Hk) at 1. apply (@mmul_ext C_rng); [easy|]. intros l Hl.
    unfold mmul. rewrite (@sumn_ext C_rng M _ (fun c => @kmul C_rng (@delta C_rng c (roll M j l)) (@delta C_rng c (roll M j k)))) by (intros; now rewrite !perm_entry).
    rewrite (@sumn_delta_l C_rng M (roll M j l) (fun c => @delta C_rng c (roll M j k))) by (apply roll_lt; lia).
    unfold mid, delta. destruct (Nat.eqb_spec l k) as [->|N]; [now rewrite Nat.eqb_refl|].
    destruct (Nat.eqb_spec (roll M j l) (roll M j k)) as [E|E]; [|easy]. now apply roll_inj in E.
  - rewrite <- (@mmul_assoc C_rng). apply (@mmul_ext C_rng); [|easy]. intros l Hl. apply H; auto.
Qed.

(** D_j before sanitising: entry (i, i') *)
Lemma decomp_entry M j H Y i i' : j < M -> is_inverse M (perm_matrix M j) Y -> i < M -> i' < M ->
  @mmul C_rng M (hdot H (perm_matrix M j)) Y i i' = if Nat.eqb i i' then H i (roll M j i) else RtoC 0.
Proof.
  intros Hj HY Hi Hi'. unfold mmul, hdot.
  rewrite (@sumn_ext C_rng M _ (fun k => @kmul C_rng (@delta C_rng k (roll M j i)) (@kmul C_rng (H i k) (perm_matrix M j i' k)))).
  - rewrite (@sumn_delta_l C_rng M (roll M j i) (fun k => @kmul C_rng (H i k) (perm_matrix M j i' k))) by (apply roll_lt; lia).
    unfold perm_matrix. destruct (Nat.eqb_spec i i') as [->|N].
    + rewrite Nat.eqb_refl. cbn. ring.
    + destruct (Nat.eqb_spec (roll M j i) (roll M j i')) as [E|E]; [now apply roll_inj in E|]. cbn. ring.
  - intros k Hk. rewrite (perm_inv M j Y Hj HY k i' Hk Hi'), perm_entry. cbn. ring.
Qed.
Lemma sanC_0 tol : sanC tol (RtoC 0) = RtoC 0.
Proof. unfold sanC, sanR, RtoC. cbn. now destruct (Rlt_dec (Rabs 0) tol). Qed.
Lemma sumI_seq (A : rng) (f : nat -> A) n : sumI (map f (seq 0 n)) = sumn n f.
Proof.
  induction n as [|n IH]; [easy|]. rewrite seq_S, map_app, sumI_app, IH. cbn. f_equal. destruct A as [K ? ? ? ? ? ? rt]. cbn. destruct rt.
  rewrite Radd_comm. apply Radd_0_l.
Qed.
Section Decomposition.
  Context (M : nat) (inv : (nat -> nat -> C) -> nat -> nat -> C) (tol : R) (H : nat -> nat -> C)
    (Hinv : forall j, j < M -> is_inverse M (perm_matrix M j) (inv (perm_matrix M j))).
  Lemma decomp_D D P : In (D, P) (decomposition M inv tol H) ->
    exists j, j < M /\ P = perm_matrix M j /\ forall i i', i < M -> i' < M ->
      D i i' = if Nat.eqb i i' then sanC tol (H i (roll M j i)) else RtoC 0.
  Proof.
    unfold decomposition, perm_matrices. rewrite map_map, in_map_iff. intros [j [[= <- <-] Hj]]. apply in_seq in Hj.
    exists j. split; [lia|]. split; [easy|]. intros i i' Hi Hi'. rewrite decomp_entry by (auto; try apply Hinv; lia).
    destruct (Nat.eqb i i'); [easy|apply sanC_0].
  Qed.
  Lemma decomposition_sum : forall i c, i < M -> c < M ->
    @sumI C_rng (map (fun DP => @mmul C_rng M (fst DP) (snd DP) i c) (decomposition M inv tol H)) = sanC tol (H i c).
  Proof.
    intros i c Hi Hc. unfold decomposition, perm_matrices. rewrite !map_map. cbn [fst snd].
    rewrite (sumI_seq C_rng (fun j => @mmul C_rng M (fun i0 j0 => sanC tol (@mmul C_rng M (hdot H (perm_matrix M j)) (inv (perm_matrix M j)) i0 j0)) (perm_matrix M j) i c) M).
    rewrite (@sumn_ext C_rng M _ (fun j => @kmul C_rng (@delta C_rng j (shift_of M i c)) (sanC tol (H i c)))).
    - rewrite (@sumn_delta_l C_rng M (shift_of M i c) (fun _ => sanC tol (H i c))); [easy|].
      unfold shift_of. apply Nat.mod_upper_bound. lia.
    - intros j Hj. unfold mmul at 1.
      rewrite (@sumn_ext C_rng M _ (fun k => @kmul C_rng (@delta C_rng k i) (@kmul C_rng (sanC tol (H i (roll M j i))) (@delta C_rng c (roll M j k))))).
      + rewrite (@sumn_delta_l C_rng M i (fun k => @kmul C_rng (sanC tol (H i (roll M j i))) (@delta C_rng c (roll M j k)))) by auto.
        unfold delta. destruct (Nat.eqb_spec j (shift_of M i c)) as [E|E].
        * apply (shift_of_spec M i c j) in E; auto. rewrite <- E, Nat.eqb_refl. cbn. ring.
        * destruct (Nat.eqb_spec c (roll M j i)) as [E'|E']; [apply (shift_of_spec M i c j) in E'; auto; congruence|]. cbn. ring.
      + intros k Hk. rewrite decomp_entry by (auto; try apply Hinv; lia). rewrite perm_entry. unfold delta at 2.
        rewrite (Nat.eqb_sym k i). destruct (Nat.eqb i k); [|rewrite sanC_0]; cbn; ring.
  Qed.
  (** a component that the default tolerance does not touch *)
  Definition kept (x : R) : Prop := x = 0%R \/ (tol <= Rabs x)%R.
  Lemma sanR_kept x : kept x -> sanR tol x = x.
  Proof. unfold sanR. intros [->|K]; destruct (Rlt_dec _ _); auto. lra. Qed.
  Lemma sanR_near x : (0 < tol)%R -> (Rabs (x - sanR tol x) < tol)%R.
  Proof. unfold sanR. intros T. destruct (Rlt_dec _ _); [now rewrite Rminus_0_r|]. now rewrite Rminus_diag_eq, Rabs_R0. Qed.
  Lemma decomposition_C69 :
    (forall D P, In (D, P) (decomposition M inv tol H) ->
       (forall i i', i < M -> i' < M -> i <> i' -> D i i' = RtoC 0) /\ exists j, j < M /\ forall i c, i < M -> c < M ->
         P i c = if Nat.eqb ((c + j) mod M) i then RtoC 1 else RtoC 0) /\
    (forall i c, i < M -> c < M ->
       let S := @sumI C_rng (map (fun DP => @mmul C_rng M (fst DP) (snd DP) i c) (decomposition M inv tol H)) in
       (kept (fst (H i c)) -> kept (snd (H i c)) -> S = H i c) /\
       ((0 < tol)%R -> (Rabs (fst (H i c) - fst S) < tol)%R /\ (Rabs (snd (H i c) - snd S) < tol)%R)).
  Proof.
    split.
    - intros D P I. apply decomp_D in I as [j [Hj [-> E]]]. split.
      + intros i i' Hi Hi' N. rewrite E by auto. apply Nat.eqb_neq in N. now rewrite N.
      + exists j. split; [auto|]. intros i c Hi Hc. unfold perm_matrix.
        pose proof (roll_spec M j i c Hj Hi Hc) as [A B].
        destruct (Nat.eqb_spec c (roll M j i)), (Nat.eqb_spec ((c + j) mod M) i); auto; exfalso; auto.
    - intros i c Hi Hc S. unfold S. rewrite decomposition_sum by auto. split.
      + intros K1 K2. unfold sanC. rewrite !sanR_kept by auto. now destruct (H i c).
      + intros T. cbn. split; now apply sanR_near.
  Qed.
End Decomposition.

(** ** sorting *)
Definition rlt (a b : R * nat) : Prop := (fst a < fst b)%R \/ fst a = fst b /\ snd a <= snd b.
Lemma lex_le_spec a b : lex_le a b = true <-> rlt a b.
Proof.
  unfold lex_le, rlt. destruct (Rlt_dec (fst a) (fst b)); [tauto|]. destruct (Rlt_dec (fst b) (fst a)).
  - split; [discriminate|intros [?|[? ?]]; lra].
  - rewrite Nat.leb_le. split; [intros; right; split; [lra|auto]|intros [?|[? ?]]; [lra|auto]].
Qed.
Lemma lex_le_total a b : lex_le a b = false -> rlt b a.
Proof.
  unfold lex_le, rlt. destruct (Rlt_dec (fst a) (fst b)); [discriminate|]. destruct (Rlt_dec (fst b) (fst a)); [auto|].
  rewrite Nat.leb_gt. intros. right. split; [lra|lia].
Qed.
Lemma insert_perm x l : Permutation (insert_pair x l) (x :: l).
Proof. induction l as [|y l IH]; [easy|]. cbn. destruct (lex_le x y); [easy|]. rewrite IH. apply perm_swap. Qed.
Lemma sort_perm l : Permutation (sort_pairs l) l.
Proof. induction l as [|x l IH]; [easy|]. cbn. rewrite insert_perm. now constructor. Qed.
Lemma rlt_trans a b c : rlt a b -> rlt b c -> rlt a c.
Proof. unfold rlt. intros [?|[? ?]] [?|[? ?]]; [left; lra|left; lra|left; lra|right; split; [lra|lia]]. Qed.
Lemma insert_sorted x l : StronglySorted rlt l -> StronglySorted rlt (insert_pair x l).
Proof.
  induction l as [|y l IH]; intros S; [repeat constructor|]. inversion S as [|? ? S' F]; subst. cbn. destruct (lex_le x y) eqn:E.
  - apply lex_le_spec in E. constructor; [auto|]. constructor; [auto|]. eapply Forall_impl; [|exact F]. intros z Hz. eapply rlt_trans; eauto.
  - apply lex_le_total in E. constructor; [auto|]. apply Forall_forall. intros z Hz. apply (Permutation_in _ (insert_perm x l)) in Hz as [<-|Hz]; [auto|].
    rewrite Forall_forall in F. auto.
Qed.
Lemma sort_sorted l : StronglySorted rlt (sort_pairs l).
Proof. induction l as [|x l IH]; [constructor|]. now apply insert_sorted. Qed.

Definition is_eigen (n : nat) (H : nat -> nat -> C) (e : R) (v : nat -> C) : Prop :=
  forall i, i < n -> @sumn C_rng n (fun k => H i k * v k)%C = (RtoC e * v i)%C.
Definition nonzero (n : nat) (v : nat -> C) : Prop := exists i, i < n /\ v i <> RtoC 0.
Definition norm2 (n : nat) (v : nat -> C) : R := @sumn R_rng n (fun i => (Cmod (v i) ^ 2)%R).

Lemma sumn_fst n (v : nat -> C) : fst (@sumn C_rng n v) = @sumn R_rng n (fun i => fst (v i)).
Proof. induction n as [|n IH]; [easy|]. cbn in *. now rewrite IH. Qed.
Lemma vnorm_norm2 n v : vnorm n v = sqrt (norm2 n v).
Proof.
  unfold vnorm, norm2. rewrite sumn_fst. f_equal. apply (@sumn_ext R_rng). intros i _. unfold Cmod. rewrite pow2_sqrt by nra.
  destruct (v i) as [a b]. cbn. ring.
Qed.
Lemma norm2_nonneg n v : (0 <= norm2 n v)%R.
Proof. induction n as [|n IH]; [cbn; lra|]. change (norm2 (S n) v) with (norm2 n v + Cmod (v n) ^ 2)%R. nra. Qed.
Lemma norm2_pos n v : nonzero n v -> (0 < norm2 n v)%R.
Proof.
  intros [i [Hi N]]. induction n as [|n IH]; [lia|]. change (norm2 (S n) v) with (norm2 n v + Cmod (v n) ^ 2)%R.
  pose proof (norm2_nonneg n v). destruct (Nat.eq_dec i n) as [->|D].
  - apply Cmod_gt_0 in N. nra.
  - assert (0 < norm2 n v)%R by (apply IH; lia). nra.
Qed.
Lemma norm2_div n v r : (0 < r)%R -> norm2 n (fun i => v i / RtoC r)%C = (norm2 n v / r ^ 2)%R.
Proof.
  intros P. induction n as [|n IH]; [cbn; unfold Rdiv; now rewrite Rmult_0_l|].
  change (norm2 (S n) (fun i => v i / RtoC r)%C) with (norm2 n (fun i => v i / RtoC r)%C + Cmod (v n / RtoC r)%C ^ 2)%R.
  change (norm2 (S n) v) with (norm2 n v + Cmod (v n) ^ 2)%R. rewrite IH, Cmod_div by (intros E; apply RtoC_inj in E; lra).
  rewrite Cmod_R, Rabs_pos_eq by lra. field. lra.
Qed.
Lemma eigen_scale n H e v r : is_eigen n H e v -> is_eigen n H e (fun i => v i / RtoC r)%C.
Proof.
  intros E i Hi. transitivity (@sumn C_rng n (fun k => @kmul C_rng (H i k * v k)%C (/ RtoC r)%C)).
  - apply (@sumn_ext C_rng). intros k _. cbn. unfold Cdiv. ring.
  - rewrite <- (@sumn_mul_r C_rng). cbn [kmul C_rng]. specialize (E i Hi). cbn in E. rewrite E. change (RtoC e * v i * / RtoC r = RtoC e * (v i * / RtoC r))%C. ring.
Qed.

Lemma sorted_fst l : StronglySorted rlt l -> StronglySorted Rle (map fst l).
Proof.
  induction 1 as [|x l S IH F]; cbn; constructor; auto. apply Forall_forall. intros y Hy. apply in_map_iff in Hy as [z [<- Hz]].
  rewrite Forall_forall in F. apply F in Hz. destruct Hz as [?|[? ?]]; lra.
Qed.
Lemma combine_in_seq (E : list R) m p : In p (combine E (seq 0 m)) -> snd p < m /\ snd p < List.length E /\ fst p = nth (snd p) E 0%R.
Proof.
  intros H. apply In_nth with (d := (0%R, 0)) in H as [i [L N]]. rewrite combine_length, seq_length in L.
  assert (X : nth_error (combine E (seq 0 m)) i = Some p).
  { rewrite <- N. apply nth_error_nth'. rewrite combine_length, seq_length. lia. }
  assert (Y : p = (nth i E 0%R, i)).
  { clear N. revert X. assert (G : forall (E : list R) s i p, nth_error (combine E (seq s m)) i = Some p -> p = (nth i E 0%R, s + i)).
    { clear. induction m as [|m IH]; intros E s i p X; [destruct E, i; discriminate|]. destruct E as [|e E]; [destruct i; discriminate|].
      destruct i as [|i]; cbn in *; [injection X as <-; f_equal; lia|]. apply IH in X as ->. f_equal. lia. }
    intros X. apply G in X. now rewrite Nat.add_0_l in X. }
  rewrite Y. cbn. split; [lia|]. split; [lia|easy].
Qed.
Lemma combine_snd_seq (E : list R) m : map snd (combine E (seq 0 m)) = seq 0 (Nat.min (List.length E) m).
Proof.
  generalize 0. revert E. induction m as [|m IH]; intros E s; [destruct E; now rewrite ?Nat.min_0_r|]. destruct E as [|e E]; [easy|]. cbn. now rewrite IH.
Qed.
(** [perm]: which solver column each result came from *)
Lemma diag_C71 : forall n E V m, m <= List.length E -> 0 < m ->
  exists Es Vs perm, diag_post n E V m = Ok (Es, Vs) /\
    Permutation perm (seq 0 m) /\ Es = map (fun k => nth k E 0%R) perm /\ StronglySorted Rle Es /\
    List.length Vs = m /\
    (forall i j, i < j -> j < m -> nth i Es 0%R = nth j Es 0%R -> nth i perm 0 < nth j perm 0) /\
    (forall i, i < m -> let v := nth i Vs (fun _ => RtoC 0) in let k := nth i perm 0 in
       (forall r, v r = (V k r / RtoC (sqrt (norm2 n (V k))))%C) /\
       (nonzero n (V k) -> norm2 n v = 1%R) /\
       (forall H, is_eigen n H (nth k E 0%R) (V k) -> is_eigen n H (nth i Es 0%R) v)).
Proof.
  intros n E V m L P. set (z := sort_pairs (combine E (seq 0 m))).
  assert (Pz : Permutation z (combine E (seq 0 m))) by apply sort_perm.
  assert (Sz : StronglySorted rlt z) by apply sort_sorted.
  assert (Lz : List.length z = m) by (rewrite (Permutation_length Pz), combine_length, seq_length; lia).
  assert (Iz : forall p, In p z -> fst p = nth (snd p) E 0%R) by (intros p Hp; apply (Permutation_in _ Pz) in Hp; now apply combine_in_seq in Hp).
  exists (map fst z), (map (fun p => let v := V (snd p) in fun i => (v i / RtoC (vnorm n v))%C) z), (map snd z).
  assert (Pp : Permutation (map snd z) (seq 0 m)).
  { rewrite (Permutation_map snd Pz), combine_snd_seq. now rewrite Nat.min_r. }
  assert (EE : map fst z = map (fun k => nth k E 0%R) (map snd z)) by (rewrite map_map; apply map_ext_in; auto).
  assert (NV : forall i, i < m -> nth i (map (fun p => let v := V (snd p) in fun i => (v i / RtoC (vnorm n v))%C) z) (fun _ => RtoC 0) =
     fun r => (V (nth i (map snd z) 0) r / RtoC (vnorm n (V (nth i (map snd z) 0))))%C).
  { intros i Hi. rewrite nth_indep with (d' := (fun p => let v := V (snd p) in fun i => (v i / RtoC (vnorm n v))%C) (0%R, 0)) by (rewrite map_length; lia).
    rewrite (map_nth (fun p => let v := V (snd p) in fun i => (v i / RtoC (vnorm n v))%C)). pose proof (map_nth snd z (0%R, 0) i) as Q. cbn [snd] in Q. rewrite Q. reflexivity. }
  split; [|split; [exact Pp|split; [exact EE|split; [now apply sorted_fst|split; [now rewrite map_length|split]]]]].
  - unfold diag_post. fold z. destruct z; [cbn in Lz; lia|easy].
  - intros i j Hij Hj Eij. assert (ND : NoDup (map snd z)) by (eapply Permutation_NoDup; [symmetry; exact Pp|apply seq_NoDup]).
    assert (Q : rlt (nth i z (0%R, 0)) (nth j z (0%R, 0))).
    { clear - Sz Hij Hj Lz. rewrite <- Lz in Hj. clear Lz. revert i j Hij Hj. induction Sz as [|x l S IH F]; intros i j Hij Hj; [cbn in Hj; lia|].
      destruct j as [|j]; [lia|]. destruct i as [|i]; cbn.
      - rewrite Forall_forall in F. apply F, nth_In. cbn in Hj. lia.
      - apply IH; [lia|cbn in Hj; lia]. }
    change 0%R with (fst (0%R, 0)) in Eij. rewrite !(map_nth fst) in Eij.
    change 0 with (snd (0%R, 0)). rewrite !(map_nth snd). destruct Q as [Q|[_ Q]]; [lra|].
    enough (snd (nth i z (0%R, 0)) <> snd (nth j z (0%R, 0))) by lia. rewrite <- !(map_nth snd). cbn [snd].
    intros X. apply (proj1 (NoDup_nth _ 0) ND) in X; rewrite ?map_length; lia.
  - intros i Hi v k. unfold v. rewrite NV by auto. fold k. split; [|split].
    + intros r. now rewrite vnorm_norm2.
    + intros N. apply norm2_pos in N. rewrite vnorm_norm2, norm2_div by (now apply sqrt_lt_R0). rewrite pow2_sqrt by lra. field. lra.
    + intros H Ee. rewrite EE. assert (nth i (map (fun k0 => nth k0 E 0%R) (map snd z)) 0%R = nth k E 0%R) as ->.
      { rewrite nth_indep with (d' := nth 0 E 0%R) by (rewrite !map_length; lia). now rewrite (map_nth (fun k0 => nth k0 E 0%R)). }
      apply (eigen_scale n H _ (V k)). exact Ee.
Qed.
Lemma diag_values_C71 : forall E, Permutation (diag_post_values E) E /\ StronglySorted Rle (diag_post_values E).
Proof.
  intros E. unfold diag_post_values. split; [|apply sorted_fst, sort_sorted].
  rewrite (Permutation_map fst (sort_perm _)).
  assert (G : forall s, map fst (combine E (seq s (List.length E))) = E) by (induction E as [|e E IH]; intros s; [easy|cbn; now rewrite IH]).
  now rewrite G.
Qed.
Lemma diag_empty : forall n E V, diag_post n E V 0 = Err ValueError.
Proof. intros n E V. unfold diag_post. now destruct E. Qed.

(** ** Pauli coefficients *)
Definition unitary2 (V : nat -> nat -> C) : Prop :=
  forall i j, i < 2 -> j < 2 -> @mmul C_rng 2 (mdag V) V i j = @mid C_rng i j.

Lemma gauge_first V k : V 0 k <> RtoC 0 -> gauge V 0 k = RtoC (Cmod (V 0 k)).
Proof. intros N. unfold gauge. field. exact N. Qed.
Definition gph (V : nat -> nat -> C) (k : nat) : C := (RtoC (Cmod (V 0 k)) / V 0 k)%C.
Lemma conj_mult a b : Cconj (Cmult a b) = (Cconj a * Cconj b)%C.
Proof. destruct a, b. unfold Cconj, Cmult. cbn. f_equal; ring. Qed.
Lemma conj_self a : (Cconj a * a)%C = RtoC (Cmod a ^ 2).
Proof. destruct a as [x y]. unfold Cmod. cbn [fst snd]. rewrite pow2_sqrt by nra. unfold Cconj, Cmult, RtoC. cbn. f_equal; ring. Qed.
Lemma gph_unit V k : V 0 k <> RtoC 0 -> (Cconj (gph V k) * gph V k)%C = RtoC 1.
Proof.
  intros N. rewrite conj_self. unfold gph. rewrite Cmod_div, Cmod_R, Rabs_pos_eq by (auto; apply Cmod_ge_0).
  apply Cmod_gt_0 in N. f_equal. field. lra.
Qed.
Lemma gauge_unitary V : unitary2 V -> (forall k, k < 2 -> V 0 k <> RtoC 0) -> unitary2 (gauge V).
Proof.
  intros U N i j Hi Hj. specialize (U i j Hi Hj).
  assert (E : @mmul C_rng 2 (mdag (gauge V)) (gauge V) i j = (Cconj (gph V i) * gph V j * @mmul C_rng 2 (mdag V) V i j)%C).
  { unfold mmul, mdag. cbn -[gauge Cconj Cmult Cplus]. unfold gauge. fold (gph V i) (gph V j). rewrite !conj_mult. ring. }
  rewrite E, U. unfold mid, delta. destruct (Nat.eqb_spec i j) as [->|D].
  - rewrite gph_unit by auto. cbn. ring.
  - cbn. ring.
Qed.
Lemma trace_x H : fst (RtoC (/ 2) * trace2 (@mmul C_rng 2 H sigma_x))%C = ((fst (H 0%nat 1%nat) + fst (H 1%nat 0%nat)) / 2)%R.
Proof. unfold trace2, mmul, sigma_x. cbn [sumn k0 kadd kmul C_rng mk2]. destruct (H 0 0), (H 0 1), (H 1 0), (H 1 1). cbn. field. Qed.
Lemma trace_y H : fst (RtoC (/ 2) * trace2 (@mmul C_rng 2 H sigma_y))%C = ((snd (H 1%nat 0%nat) - snd (H 0%nat 1%nat)) / 2)%R.
Proof. unfold trace2, mmul, sigma_y. cbn [sumn k0 kadd kmul C_rng mk2]. destruct (H 0 0), (H 0 1), (H 1 0), (H 1 1). cbn. field. Qed.
Lemma trace_z H : fst (RtoC (/ 2) * trace2 (@mmul C_rng 2 H sigma_z))%C = ((fst (H 0%nat 0%nat) - fst (H 1%nat 1%nat)) / 2)%R.
Proof. unfold trace2, mmul, sigma_z. cbn [sumn k0 kadd kmul C_rng mk2]. destruct (H 0 0), (H 0 1), (H 1 0), (H 1 1). cbn. field. Qed.
Lemma pauli_entry E0 E1 W i j : @mmul C_rng 2 (mdag W) (@mmul C_rng 2 (mk2 (RtoC E0) (RtoC 0) (RtoC 0) (RtoC E1)) W) i j =
  (RtoC E0 * (Cconj (W 0%nat i) * W 0%nat j) + RtoC E1 * (Cconj (W 1%nat i) * W 1%nat j))%C.
Proof. unfold mmul, mdag. cbn [sumn k0 kadd kmul C_rng mk2]. match goal with |- @eq _ ?a ?b => change (@eq C a b) end. ring. Qed.
Lemma pauli_C72 : forall E0 E1 V, unitary2 V -> (forall k, k < 2 -> V 0 k <> RtoC 0) ->
  exists hx hz, pauli_point E0 E1 V = (hx, 0%R, hz) /\ (hx ^ 2 + 0 ^ 2 + hz ^ 2)%R = (((E1 - E0) / 2) ^ 2)%R /\
    hx = ((E0 - E1) * Cmod (V 0 0)%nat * Cmod (V 0 1)%nat)%R /\ hz = ((E0 - E1) * (Cmod (V 0 0)%nat ^ 2 - Cmod (V 0 1)%nat ^ 2) / 2)%R.
Proof.
  intros E0 E1 V U N. pose proof (gauge_unitary V U N) as G.
  assert (A := gauge_first V 0 (N 0 ltac:(lia))). assert (B := gauge_first V 1 (N 1 ltac:(lia))).
  unfold pauli_point, pauli_Hq. cbv zeta. generalize dependent (gauge V). intros W G A B.
  set (a := Cmod (V 0 0)) in *. set (b := Cmod (V 0 1)) in *.
  assert (G00 := G 0 0 ltac:(lia) ltac:(lia)). assert (G01 := G 0 1 ltac:(lia) ltac:(lia)). assert (G11 := G 1 1 ltac:(lia) ltac:(lia)).
  unfold mmul, mdag, mid, delta in G00, G01, G11. cbn [sumn Nat.eqb k0 k1 kadd kmul C_rng] in G00, G01, G11.
  rewrite A in G00. rewrite A, B in G01. rewrite B in G11.
  rewrite trace_x, trace_y, trace_z, !pauli_entry, A, B.
  destruct (W 1 0) as [c1 c2]. destruct (W 1 1) as [d1 d2]. clearbody a b. clear - G00 G01 G11.
  unfold Cconj, Cmult, Cplus, Copp, RtoC, Ci in *. cbn [fst snd] in *.
  injection G00 as G00 _. injection G01 as G01 G01'. injection G11 as G11 _.
  assert (H1 : (a ^ 2 + c1 ^ 2 + c2 ^ 2 = 1)%R) by lra. assert (H2 : (b ^ 2 + d1 ^ 2 + d2 ^ 2 = 1)%R) by lra.
  assert (H3 : (c1 * d1 + c2 * d2 = - (a * b))%R) by lra. assert (H4 : (c1 * d2 - c2 * d1 = 0)%R) by lra.
  assert (Hab : (a ^ 2 + b ^ 2 = 1)%R).
  { assert ((c1 ^ 2 + c2 ^ 2) * (d1 ^ 2 + d2 ^ 2) = (a * b) ^ 2)%R.
    { replace ((a * b) ^ 2)%R with ((c1 * d1 + c2 * d2) ^ 2 + (c1 * d2 - c2 * d1) ^ 2)%R by (rewrite H3, H4; ring). ring. }
    replace (c1 ^ 2 + c2 ^ 2)%R with (1 - a ^ 2)%R in H by lra. replace (d1 ^ 2 + d2 ^ 2)%R with (1 - b ^ 2)%R in H by lra.
    replace ((a * b) ^ 2)%R with (a ^ 2 * b ^ 2)%R in H by ring. lra. }
  exists ((E0 - E1) * a * b)%R, ((E0 - E1) * (a ^ 2 - b ^ 2) / 2)%R. split; [|split; [|split; reflexivity]].
  - assert (C1 : (c1 ^ 2 = 1 - a ^ 2 - c2 ^ 2)%R) by lra. assert (D1 : (d1 ^ 2 = 1 - b ^ 2 - d2 ^ 2)%R) by lra.
    f_equal; [f_equal|].
    + transitivity (E0 * a * b + E1 * (c1 * d1 + c2 * d2))%R; [field|rewrite H3; ring].
    + transitivity (E1 * - (c1 * d2 - c2 * d1))%R; [field|rewrite H4; ring].
    + transitivity (/ 2 * (E0 * a ^ 2 + E1 * (c1 ^ 2 + c2 ^ 2) - E0 * b ^ 2 - E1 * (d1 ^ 2 + d2 ^ 2)))%R; [field|rewrite C1, D1; field].
  - transitivity ((E0 - E1) ^ 2 * (a ^ 2 + b ^ 2) ^ 2 / 4)%R; [field|rewrite Hab; field].
Qed.

(** ** isStoquastic *)
Lemma decomposition_length M inv tol H : List.length (decomposition M inv tol H) = M.
Proof. unfold decomposition, perm_matrices. now rewrite !map_length, seq_length. Qed.
Lemma coefficient_raises M z0 s V Dj : s <> [] -> 0 < M -> Forall (fun x => x < M) s -> List.length Dj = M ->
  coefficient M z0 s (basis_states M V) Dj = Err IndexError.
Proof.
  intros N P F L. destruct s as [|x s]; [congruence|]. inversion F as [|? ? Fx F']; subst.
  unfold coefficient. cbn [List.length seq combine mapM fst snd state_indices nth_error].
  destruct (nth_error Dj x) as [D|] eqn:ED; [|apply nth_error_None in ED; lia].
  unfold basis_states at 1. rewrite nth_error_map.
  assert (B : (z0 + x) mod List.length Dj < List.length Dj) by (apply Nat.mod_upper_bound; lia).
  rewrite nth_error_nth' with (d := 0) by (now rewrite seq_length). rewrite seq_nth by auto. cbn [option_map].
  unfold mdot. cbn [rev app mdot_loop]. cbn [npdot]. rewrite Nat.eqb_refl. cbn [bind npdot]. rewrite Nat.eqb_refl. reflexivity.
Qed.
Definition seq_step M z Dj (acc : res bool) (zs : nat * list nat) : res bool :=
  bind acc (fun ok => if negb ok then Ok false else
    bind (coefficient M (fst zs) (snd zs) z Dj) (fun c => Ok (if Rlt_dec (fst c) 0 then false else true))).
Definition order_step M z Dj (acc : res bool) (q : nat) : res bool :=
  bind acc (fun ok => if negb ok then Ok false else
    bind (getUniqueSequences M q) (fun seqs =>
      fold_left (seq_step M z Dj) (flat_map (fun z0 => map (pair z0) seqs) (seq 0 M)) (Ok true))).
Lemma seq_step_err M z Dj l : fold_left (seq_step M z Dj) l (Err IndexError) = Err IndexError.
Proof. induction l; auto. Qed.
Lemma order_step_err M z Dj l : fold_left (order_step M z Dj) l (Err IndexError) = Err IndexError.
Proof. induction l; auto. Qed.
(** a non-empty closed sequence of q shifts *)
Definition closed_sequence (M : nat) (q : nat) (s : list nat) : Prop :=
  List.length s = q /\ s <> [] /\ Forall (fun x => 1 <= x < M) s /\ Nat.divide M (list_sum s).
Lemma order_step_val M V Dj q : 0 < M -> List.length Dj = M ->
  (forall s, closed_sequence M q s -> order_step M (basis_states M V) Dj (Ok true) q = Err IndexError) /\
  ((forall s, ~ closed_sequence M q s) -> order_step M (basis_states M V) Dj (Ok true) q = Ok true).
Proof.
  intros P L. unfold order_step. cbn [bind negb]. destruct (sequences_C68 M q) as [seqs [Es [_ I]]]. rewrite Es. cbn [bind]. split.
  - intros s [Ls [Ns [Fs Ds]]]. destruct seqs as [|s0 seqs]; [exfalso; apply (I s); auto|].
    destruct M as [|M']; [lia|]. set (M := S M') in *. change (seq 0 M) with (0 :: seq 1 M'). cbn [flat_map map app fold_left].
    assert (N0 : s0 <> [] /\ Forall (fun x => x < M) s0).
    { destruct (proj1 (I s0) (or_introl eq_refl)) as [L0 [F0 _]]. split.
      - intros ->. cbn in L0. rewrite <- L0 in Ls. apply length_zero_iff_nil in Ls. congruence.
      - eapply Forall_impl; [|exact F0]. intros; cbn in *; lia. }
    unfold seq_step at 2. cbn [bind negb fst snd]. rewrite coefficient_raises by tauto. cbn [bind]. apply seq_step_err.
  - intros NC. assert (T : forall s, In s seqs -> s = []).
    { intros s Hs. destruct s as [|x s]; [easy|]. exfalso. apply (NC (x :: s)). apply I in Hs. unfold closed_sequence. intuition discriminate. }
    assert (G : forall l, (forall zs, In zs l -> snd zs = []) -> fold_left (seq_step M (basis_states M V) Dj) l (Ok true) = Ok true).
    { induction l as [|[z0 s] l IH]; intros Hl; [easy|]. cbn [fold_left]. pose proof (Hl _ (or_introl eq_refl)) as E0. cbn in E0. subst s.
      unfold seq_step at 2. cbn. destruct (Rlt_dec 1 0); [lra|]. apply IH. intros; apply Hl; now right. }
    apply G. intros [z0 s] Hz. apply in_flat_map in Hz as [z1 [_ Hz]]. apply in_map_iff in Hz as [s1 [[= <- <-] Hs]]. cbn. auto.
Qed.
Lemma closed_dec M q : 0 < M -> (exists s, closed_sequence M q s) \/ (forall s, ~ closed_sequence M q s).
Proof.
  intros _. destruct (sequences_C68 M q) as [seqs [_ [_ I]]]. destruct seqs as [|s0 seqs].
  - right. intros s [A [_ [B C]]]. apply (I s). auto.
  - destruct (proj1 (I s0) (or_introl eq_refl)) as [A [B C]]. destruct q as [|q].
    + right. intros s [A' [N _]]. apply length_zero_iff_nil in A'. auto.
    + left. exists s0. repeat split; auto. intros ->. discriminate.
Qed.
Lemma isStoquastic_C76 : forall M inv eig tol H order, 0 < M ->
  ((exists q s, In q order /\ closed_sequence M q s) -> isStoquastic M inv eig tol H order = Err IndexError) /\
  (~ (exists q s, In q order /\ closed_sequence M q s) -> isStoquastic M inv eig tol H order = Ok true).
Proof.
  intros M inv eig tol H order P. unfold isStoquastic. pose proof (decomposition_length M inv tol H) as L. set (Dj := map fst (decomposition M inv tol H)).
  assert (LD : List.length Dj = M) by (unfold Dj; now rewrite map_length). clearbody Dj.
  destruct Dj as [|D0 Dj'] eqn:ED; [cbn in LD; lia|]. rewrite <- ED in *. clear ED.
  change (((exists q s, In q order /\ closed_sequence M q s) -> fold_left (order_step M (basis_states M (eig D0)) Dj) order (Ok true) = Err IndexError) /\
    (~ (exists q s, In q order /\ closed_sequence M q s) -> fold_left (order_step M (basis_states M (eig D0)) Dj) order (Ok true) = Ok true)).
  induction order as [|q order [IH1 IH2]]; cbn [fold_left].
  - split; [intros [q [s [[] _]]]|easy].
  - destruct (order_step_val M (eig D0) Dj q P LD) as [A B]. destruct (closed_dec M q P) as [[s Hs]|Hn].
    + rewrite (A s Hs), order_step_err. split; [easy|]. intros N. exfalso. apply N. exists q, s. split; [now left|auto].
    + rewrite (B Hn). split.
      * intros [q' [s [[<-|Hq] Hs]]]; [now apply Hn in Hs|]. apply IH1; eauto.
      * intros N. apply IH2. intros [q' [s [Hq Hs]]]. apply N. exists q', s. split; [now right|auto].
Qed.
Lemma isStoquastic_default : forall M inv eig tol H, 2 <= M -> isStoquastic M inv eig tol H [2; 3] = Err IndexError.
Proof.
  intros M inv eig tol H HM. apply isStoquastic_C76; [lia|]. exists 2, [1; M - 1]. split; [now left|].
  repeat split; [discriminate|repeat constructor; lia|]. exists 1. cbn. lia.
Qed.
Lemma isStoquastic_never_false : forall M inv eig tol H order, 0 < M -> isStoquastic M inv eig tol H order <> Ok false.
Proof.
  intros M inv eig tol H order P. destruct (isStoquastic_C76 M inv eig tol H order P) as [A B].
  assert (D : (exists q s, In q order /\ closed_sequence M q s) \/ ~ (exists q s, In q order /\ closed_sequence M q s)).
  { clear - P. induction order as [|q order IH]; [right; intros [q [s [[] _]]]|].
    destruct (closed_dec M q P) as [[s Hs]|Hn]; [left; exists q, s; split; [now left|auto]|].
    destruct IH as [[q' [s [Hq Hs]]]|N]; [left; exists q', s; split; [now right|auto]|].
    right. intros [q' [s [[<-|Hq] Hs]]]; [now apply Hn in Hs|]. apply N; eauto. }
  destruct D as [D|D]; [rewrite A|rewrite B]; auto; discriminate.
Qed.
