(** Property theorems: C67-C76 (pyscqed/util.py). *)
From Coq Require Import List Bool String Ascii ZArith Reals SpecFloat Lia Lra Permutation Sorted.
From Coquelicot Require Import Complex.
From Verif Require Import Prelude PreludeFacts Float FloatFacts Mat MatFacts Util UtilProofs UtilLinProofs.
Import ListNotations.
Open Scope list_scope.
Open Scope nat_scope.

(** C67. *)
Theorem C67_getNeighbours_exact : forall bits, Forall is_bit bits ->
  exists l, getNeighbours bits 1 = Ok l /\ List.length l = List.length bits /\ NoDup l /\
    (forall i s, nth_error l i = Some s -> differ_only_at i bits s) /\
    (forall s, In s l <-> List.length s = List.length bits /\ Forall is_bit s /\ hamming bits s = 1).
Proof. exact getNeighbours_C67. Qed.
Print Assumptions C67_getNeighbours_exact.

(** The error branch: [int] of a character that is not a digit. *)
Theorem C67_getNeighbours_bad_character : forall bits c, In c bits -> ~ is_digit c -> getNeighbours bits 1 = Err ValueError.
Proof. exact getNeighbours_nondigit. Qed.
Print Assumptions C67_getNeighbours_bad_character.

Example C67_nonvacuous : Forall is_bit ["0"; "1"; "1"]%char /\
  getNeighbours ["0"; "1"; "1"]%char 1 = Ok [["1"; "1"; "1"]; ["0"; "0"; "1"]; ["0"; "1"; "0"]]%char /\
  In "x"%char ["0"; "x"]%char /\ ~ is_digit "x"%char.
Proof.
  split; [repeat (apply Forall_cons; [unfold is_bit; auto|]); constructor|]. split; [reflexivity|]. split; [cbn; auto|].
  unfold is_digit. cbn. lia.
Qed.

(** C68. *)
Theorem C68_sequences_sound_complete : forall M q, exists seqs, getUniqueSequences M q = Ok seqs /\ NoDup seqs /\
  forall s, In s seqs <-> List.length s = q /\ Forall (fun x => 1 <= x < M) s /\ Nat.divide M (list_sum s).
Proof. exact sequences_C68. Qed.
Print Assumptions C68_sequences_sound_complete.

Theorem C68_sequences_return_to_start : forall M s z, s <> [] -> z < M ->
  (last (state_indices M z s) 0 = z <-> Nat.divide M (list_sum s)).
Proof. exact sequences_return. Qed.
Print Assumptions C68_sequences_return_to_start.

Example C68_nonvacuous : getUniqueSequences 3 2 = Ok [[1; 2]; [2; 1]] /\ state_indices 3 2 [1; 2] = [0; 2].
Proof. split; reflexivity. Qed.

(** C69. False as stated: matrix elements with a component below the
    tolerance 1e-10 are dropped by [sanArray]. *)
Theorem C69_decomposition_refuted : exists M inv H,
  (forall j, j < M -> is_inverse M (perm_matrix M j) (inv (perm_matrix M j))) /\
  @sumI C_rng (map (fun DP => @mmul C_rng M (fst DP) (snd DP) 0 0) (decomposition M inv (/ 10 ^ 10) H)) <> H 0 0.
Proof.
  exists 1, (fun q => q), (fun _ _ => RtoC (/ 10 ^ 11)). split.
  - intros j Hj. assert (j = 0) as -> by lia.
    split; intros i k Hi Hk; assert (i = 0) as -> by lia; assert (k = 0) as -> by lia; unfold mmul, mid, delta, perm_matrix, roll; cbn; ring.
  - rewrite (decomposition_sum 1 (fun q => q) (/ 10 ^ 10) (fun _ _ => RtoC (/ 10 ^ 11))); [| |lia|lia].
    + unfold sanC, sanR. cbn [fst snd RtoC]. assert (P : (0 < / 10 ^ 11)%R) by (apply Rinv_0_lt_compat; lra).
      rewrite Rabs_pos_eq by lra. destruct (Rlt_dec (/ 10 ^ 11) (/ 10 ^ 10)) as [L|L].
      * intros E. injection E as E _. lra.
      * exfalso. apply L. apply Rinv_lt_contravar; lra.
    + intros j Hj. assert (j = 0) as -> by lia.
      split; intros i k Hi Hk; assert (i = 0) as -> by lia; assert (k = 0) as -> by lia; unfold mmul, mid, delta, perm_matrix, roll; cbn; ring.
Qed.
Print Assumptions C69_decomposition_refuted.

(** What holds: the D_j are diagonal, the P_j are the M cyclic shifts, and the
    sum reproduces every matrix element whose components are 0 or at least
    the tolerance; any other element within the tolerance. Missing: elements
    below the tolerance. *)
Theorem C69_decomposition_partial : forall M inv tol H,
  (forall j, j < M -> is_inverse M (perm_matrix M j) (inv (perm_matrix M j))) ->
  (forall D P, In (D, P) (decomposition M inv tol H) ->
     (forall i i', i < M -> i' < M -> i <> i' -> D i i' = RtoC 0) /\ exists j, j < M /\ forall i c, i < M -> c < M ->
       P i c = if Nat.eqb ((c + j) mod M) i then RtoC 1 else RtoC 0) /\
  (forall i c, i < M -> c < M ->
     let S := @sumI C_rng (map (fun DP => @mmul C_rng M (fst DP) (snd DP) i c) (decomposition M inv tol H)) in
     (kept tol (fst (H i c)) -> kept tol (snd (H i c)) -> S = H i c) /\
     ((0 < tol)%R -> (Rabs (fst (H i c) - fst S) < tol)%R /\ (Rabs (snd (H i c) - snd S) < tol)%R)).
Proof. exact decomposition_C69. Qed.
Print Assumptions C69_decomposition_partial.

(** The transpose satisfies the law asked of numpy.linalg.inv. *)
Example C69_nonvacuous : (forall j, j < 2 -> is_inverse 2 (perm_matrix 2 j) (fun i k => perm_matrix 2 j k i)) /\
  kept (/ 10 ^ 10) 1 /\ kept (/ 10 ^ 10) 0.
Proof.
  split; [|split; [right|now left]].
  - intros j Hj. split; intros i k Hi Hk; destruct j as [|[|]]; try lia; destruct i as [|[|]]; try lia; destruct k as [|[|]]; try lia;
      unfold mmul, mid, delta, perm_matrix, roll; cbn; ring.
  - rewrite Rabs_R1. rewrite <- Rinv_1. apply Rinv_le_contravar; lra.
Qed.

(** C70. False for k = 1: the result is 0.0. *)
Theorem C70_mdot_refuted : exists m : mat Z_rng, mdot [nd_of m] <> Ok (nd_of m).
Proof. exists (mkmat (A := Z_rng) 1 1 (fun _ _ => 7%Z)). rewrite mdot_one. discriminate. Qed.
Print Assumptions C70_mdot_refuted.

(** For two or more matrices over any commutative ring: the product in order
    when the shapes fit, ValueError when they do not. Missing: k = 1. *)
Theorem C70_mdot_partial : forall (A : rng) (m x : mat A) r, compatible m (x :: r) ->
  exists f, mdot (map nd_of (m :: x :: r)) = Ok (ND2 (rows m) (cols (last (x :: r) x)) f) /\
    forall i j, f i j = ent (left_product m (x :: r)) i j.
Proof. exact @mdot_C70. Qed.
Print Assumptions C70_mdot_partial.

Theorem C70_mdot_mismatch : forall (A : rng) (m x : mat A) r, ~ compatible m (x :: r) -> mdot (map nd_of (m :: x :: r)) = Err ValueError.
Proof. exact @mdot_mismatch. Qed.
Print Assumptions C70_mdot_mismatch.

Example C70_nonvacuous :
  let m n k := mkmat (A := Z_rng) n k (fun i j => Z.of_nat (1 + i + 2 * j)) in
  compatible (m 2 3) [m 3 1; m 1 2] /\ ~ compatible (m 2 3) [m 2 2] /\
  ent (left_product (m 2 3) [m 3 1; m 1 2]) 1 1 = 84%Z.
Proof. cbn. repeat split; auto. intros [H _]. discriminate. Qed.

(** C71. [E], [V]: eigenvalues and columns returned by scipy, [m] = eigvalues;
    [perm]: the solver's column behind each result. *)
Theorem C71_sorted_and_paired : forall n E V m, m <= List.length E -> 0 < m ->
  exists Es Vs perm, diag_post n E V m = Ok (Es, Vs) /\
    Permutation perm (seq 0 m) /\ Es = map (fun k => nth k E 0%R) perm /\ StronglySorted Rle Es /\
    List.length Vs = m /\
    (forall i j, i < j -> j < m -> nth i Es 0%R = nth j Es 0%R -> nth i perm 0 < nth j perm 0) /\
    (forall i, i < m -> let v := nth i Vs (fun _ => RtoC 0) in let k := nth i perm 0 in
       (forall r, v r = (V k r / RtoC (sqrt (norm2 n (V k))))%C) /\
       (nonzero n (V k) -> norm2 n v = 1%R) /\
       (forall H, is_eigen n H (nth k E 0%R) (V k) -> is_eigen n H (nth i Es 0%R) v)).
Proof. exact diag_C71. Qed.
Print Assumptions C71_sorted_and_paired.

Theorem C71_values_only : forall E, Permutation (diag_post_values E) E /\ StronglySorted Rle (diag_post_values E).
Proof. exact diag_values_C71. Qed.
Print Assumptions C71_values_only.

Theorem C71_no_eigenvalues : forall n E V, diag_post n E V 0 = Err ValueError.
Proof. exact diag_empty. Qed.
Print Assumptions C71_no_eigenvalues.

Example C71_nonvacuous : let E := [3; 1; 2]%R in let V := fun k r => if Nat.eqb k r then RtoC 2 else RtoC 0 in
  2 <= List.length E /\ nonzero 3 (V 1) /\ is_eigen 3 (fun i j => if Nat.eqb i j then RtoC (nth i E 0%R) else RtoC 0) (nth 1 E 0%R) (V 1).
Proof.
  cbn. split; [lia|]. split; [exists 1; split; [lia|]; cbn; intros H; injection H; lra|].
  intros i Hi. destruct i as [|[|[|]]]; try lia; cbn; ring.
Qed.

(** C72. Columns of [V]: eigenvectors of the basis operator. *)
Theorem C72_gap_preserved : forall E0 E1 V, unitary2 V -> (forall k, k < 2 -> V 0 k <> RtoC 0) ->
  exists hx hz, pauli_point E0 E1 V = (hx, 0%R, hz) /\ (hx ^ 2 + 0 ^ 2 + hz ^ 2)%R = (((E1 - E0) / 2) ^ 2)%R /\
    hx = ((E0 - E1) * Cmod (V 0 0)%nat * Cmod (V 0 1)%nat)%R /\ hz = ((E0 - E1) * (Cmod (V 0 0)%nat ^ 2 - Cmod (V 0 1)%nat ^ 2) / 2)%R.
Proof. exact pauli_C72. Qed.
Print Assumptions C72_gap_preserved.

Example C72_nonvacuous : let V := mk2 (RtoC (3 / 5)) (RtoC (4 / 5)) (Ci * RtoC (4 / 5))%C (Copp (Ci * RtoC (3 / 5)))%C in
  unitary2 V /\ (forall k, k < 2 -> V 0 k <> RtoC 0).
Proof.
  split.
  - intros i j Hi Hj. destruct i as [|[|]], j as [|[|]]; try lia; unfold mmul, mdag, mid, delta; cbn; unfold Cconj, RtoC, Ci, Cmult, Cplus, Copp; cbn; f_equal; lra.
  - intros k Hk. destruct k as [|[|]]; try lia; cbn; intros H; injection H; lra.
Qed.

(** C73. [entry t q n]: row q, column n of the returned table. *)
Theorem C73_shift_tables : forall (A : rng) levels cols (E : nat -> nat -> A), levels <= cols ->
  (exists t, getACStarkShift levels cols E = Ok (seq 0 (cols - levels), t) /\ shaped (levels - 1) (cols - levels) t /\
     forall q n, q < levels - 1 -> n < cols - levels -> entry t q n = Some (ksub (E (q + 1) (n + q + 1)) (E 0 n))) /\
  (exists t, getCircuitLambShift levels cols E = Ok t /\ List.length t = levels /\
     forall q, q < levels -> nth_error t q = Some (E q q)) /\
  (exists t, getResonatorShift levels cols E = Ok t /\ shaped (levels - 1) (cols - levels) t /\
     forall q n, q < levels - 1 -> n < cols - levels -> entry t q n = Some (ksub (E q (n + q + 1)) (E q (n + q)))).
Proof. exact @shifts_C73. Qed.
Print Assumptions C73_shift_tables.

Theorem C73_lamb_shift_narrow_array : forall (A : rng) levels cols (E : nat -> nat -> A), cols < levels ->
  getCircuitLambShift levels cols E = Err IndexError.
Proof. exact @lamb_narrow. Qed.
Print Assumptions C73_lamb_shift_narrow_array.

Example C73_nonvacuous : getACStarkShift (A := Z_rng) 2 4 (fun i j => Z.of_nat (i * 10 + j * j)) = Ok ([0; 1], [[11; 13]%Z]).
Proof. reflexivity. Qed.

(** C74. *)
Theorem C74_orthonormal_encoding :
  (forall bits, bits <> [] -> exists v, stateFromBitstring bits = Ok v /\ List.length v = 2 ^ List.length bits /\
      Forall (fun x => x = 0 \/ x = 1)%Z v /\ dotZ v v = 1%Z) /\
  (forall bits bits' v v', Forall is_bit bits -> Forall is_bit bits' -> List.length bits = List.length bits' -> bits <> bits' ->
      stateFromBitstring bits = Ok v -> stateFromBitstring bits' = Ok v' -> dotZ v v' = 0%Z) /\
  stateFromBitstring [] = Err TypeError.
Proof. exact stateFromBitstring_C74. Qed.
Print Assumptions C74_orthonormal_encoding.

Example C74_nonvacuous : stateFromBitstring ["1"; "0"]%char = Ok [0; 1; 0; 0]%Z /\ stateFromBitstring ["0"; "1"]%char = Ok [0; 0; 1; 0]%Z.
Proof. split; reflexivity. Qed.

(** C75. *)
Theorem C75_sanArray : forall tol a, valid tol = true -> Forall (fun z => valid (fst z) = true /\ valid (snd z) = true) a ->
  List.length (sanArray tol a) = List.length a /\
  forall i z, nth_error a i = Some z -> exists z', nth_error (sanArray tol a) i = Some z' /\
    compspec tol (fst z) (fst z') /\ compspec tol (snd z) (snd z').
Proof. exact sanArray_C75. Qed.
Print Assumptions C75_sanArray.

(** sanFloat: false for complex numbers (the imaginary part is added to the
    real part), at the tolerance and for NaN. *)
Theorem C75_sanFloat_refuted :
  (exists tol z, flt (fabs (fst z)) tol = false /\ flt (fabs (snd z)) tol = false /\
     sanFloat tol z <> fst z /\ feq (snd z) fzero = false) /\
  (exists tol x, flt (fabs x) tol = false /\ feq (sanFloat tol (x, fzero)) x = false /\ is_nan x = false) /\
  (exists tol, is_nan (sanFloat tol (fnan, fzero)) = false).
Proof.
  split; [|split].
  - exists (fdiv (round_Z 1) (round_Z 10)), (round_Z 1, round_Z 2). vm_compute. repeat split; discriminate.
  - exists (round_Z 1), (round_Z 1). vm_compute. repeat split.
  - exists (round_Z 1). reflexivity.
Qed.
Print Assumptions C75_sanFloat_refuted.

(** sanFloat on real numbers: missing |x| = tol, NaN, and complex numbers. *)
Theorem C75_sanFloat_partial : forall tol x, valid tol = true -> valid x = true -> xle (XFin 0) (X tol) ->
  (xlt (xabs (X x)) (X tol) -> sanFloat tol (x, fzero) = fzero) /\
  (xlt (X tol) (xabs (X x)) -> sanFloat tol (x, fzero) = x).
Proof. exact sanFloat_real. Qed.
Print Assumptions C75_sanFloat_partial.

Example C75_nonvacuous :
  let tol := fdiv (round_Z 1) (round_Z 10) in
  valid tol = true /\ fle fzero tol = true /\ flt tol (fabs (round_Z (-3))) = true /\
  sanArray tol [(fdiv (round_Z 1) (round_Z 20), round_Z (-3))] = [(fzero, round_Z (-3))].
Proof. vm_compute. repeat split. Qed.

(** C76. isStoquastic never gives a verdict that depends on the Hamiltonian:
    [closed_sequence M q s] says s is a non-empty sequence of q shifts that
    leads back to the start; as soon as one has to be looked at,
    [mdot(...)[0,0]] indexes a number. *)
Theorem C76_isStoquastic_refuted : forall M inv eig tol H, 2 <= M -> isStoquastic M inv eig tol H [2; 3] = Err IndexError.
Proof. exact isStoquastic_default. Qed.
Print Assumptions C76_isStoquastic_refuted.

Theorem C76_isStoquastic_all_orders_partial : forall M inv eig tol H order, 0 < M ->
  ((exists q s, In q order /\ closed_sequence M q s) -> isStoquastic M inv eig tol H order = Err IndexError) /\
  (~ (exists q s, In q order /\ closed_sequence M q s) -> isStoquastic M inv eig tol H order = Ok true).
Proof. exact isStoquastic_C76. Qed.
Print Assumptions C76_isStoquastic_all_orders_partial.

Theorem C76_isStoquastic_never_false : forall M inv eig tol H order, 0 < M -> isStoquastic M inv eig tol H order <> Ok false.
Proof. exact isStoquastic_never_false. Qed.
Print Assumptions C76_isStoquastic_never_false.

Example C76_nonvacuous : closed_sequence 4 2 [1; 3] /\ ~ (exists q s, In q [1] /\ closed_sequence 4 q s).
Proof.
  split; [repeat split; [discriminate|repeat constructor; lia|exists 1; reflexivity]|].
  intros [q [s [[<-|[]] [L [_ [F [c D]]]]]]]. destruct s as [|x [|]]; try discriminate. inversion F; subst.
  cbn in D. assert (c = 0 \/ 1 <= c) as [->|] by lia; lia.
Qed.
