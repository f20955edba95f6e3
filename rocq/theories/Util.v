(** Model of pyscqed/util.py. *)
From Coq Require Import List Bool String Ascii ZArith Reals SpecFloat.
From Coquelicot Require Import Complex.
From Verif Require Import Prelude Float Mat Sweep.
Import ListNotations.
Open Scope list_scope.

(** ** numpy arrays of up to two dimensions *)
Section Arrays.
  Context {A : rng}.
  Inductive nd :=
  | ND0 (x : A)                              (* a number *)
  | ND1 (n : nat) (f : nat -> A)
  | ND2 (n m : nat) (f : nat -> nat -> A).
  (** numpy.dot *)
  Definition npdot (a b : nd) : res nd :=
    match a, b with
    | ND0 x, ND0 y => Ok (ND0 (kmul x y))
    | ND0 x, ND1 n f => Ok (ND1 n (fun i => kmul x (f i)))
    | ND1 n f, ND0 x => Ok (ND1 n (fun i => kmul (f i) x))
    | ND0 x, ND2 n m f => Ok (ND2 n m (fun i j => kmul x (f i j)))
    | ND2 n m f, ND0 x => Ok (ND2 n m (fun i j => kmul (f i j) x))
    | ND1 n f, ND1 n' g => if Nat.eqb n n' then Ok (ND0 (sumn n (fun k => kmul (f k) (g k)))) else Err ValueError
    | ND1 n f, ND2 n' m g => if Nat.eqb n n' then Ok (ND1 m (fun j => sumn n (fun k => kmul (f k) (g k j)))) else Err ValueError
    | ND2 n m f, ND1 m' g => if Nat.eqb m m' then Ok (ND1 n (fun i => sumn m (fun k => kmul (f i k) (g k)))) else Err ValueError
    | ND2 n m f, ND2 m' p g => if Nat.eqb m m' then Ok (ND2 n p (mmul m f g)) else Err ValueError
    end.
  (** util.py lines 10-24 [mdot]: from the right; 0.0 when there is only one
      argument. [args] in the order given. *)
  Fixpoint mdot_loop (rest : list nd) (acc : nd) : res nd :=   (* [rest]: arguments still to do, last first *)
    match rest with
    | [] => Ok acc
    | a :: r => bind (npdot a acc) (mdot_loop r)
    end.
  Definition mdot (args : list nd) : res nd :=
    match rev args with
    | [] => Err IndexError
    | [_] => Ok (ND0 k0)
    | last :: r => mdot_loop r last
    end.
  (** a[i,j] *)
  Definition at2 (a : nd) (i j : nat) : res A :=
    match a with
    | ND2 n m f => if Nat.ltb i n && Nat.ltb j m then Ok (f i j) else Err IndexError
    | _ => Err IndexError
    end.
End Arrays.
Arguments nd A : clear implicits.

(** ** lines 40-74 [sanArray], [sanFloat] on a complex double (real, imag).
    For arrays of real dtype the second part is the skipped [except] branch,
    and imag is 0. *)
Definition san1 (tol x : f64) : f64 := if flt (fabs x) tol then fzero else x.
Definition sanArray (tol : f64) (a : list (f64 * f64)) : list (f64 * f64) :=
  map (fun z => (san1 tol (fst z), san1 tol (snd z))) a.
Definition sanFloat (tol : f64) (z : f64 * f64) : f64 :=
  let temp := if flt tol (fabs (fst z)) then fadd fzero (fst z) else fzero in
  if flt tol (fabs (snd z)) then fadd temp (snd z) else temp.

(** ** lines 76-176 [diagSparseH], [diagDenseH]: what is done with the solver's
    answer. [E]: eigenvalues; [V k]: k-th column. Eigenvalues are taken as
    reals (no NaN). *)
Definition lex_le (a b : R * nat) : bool :=
  if Rlt_dec (fst a) (fst b) then true else if Rlt_dec (fst b) (fst a) then false else Nat.leb (snd a) (snd b).
(** [list.sort]: pairs with different second entries are never equal, so there
    is only one sorted order; insertion sort finds it. *)
Fixpoint insert_pair (x : R * nat) (l : list (R * nat)) : list (R * nat) :=
  match l with [] => [x] | y :: r => if lex_le x y then x :: y :: r else y :: insert_pair x r end.
Definition sort_pairs (l : list (R * nat)) : list (R * nat) := fold_right insert_pair [] l.
Definition vnorm (n : nat) (v : nat -> C) : R := sqrt (fst (@sumn C_rng n (fun i => v i * Cconj (v i))%C)).
Definition diag_post (n : nat) (E : list R) (V : nat -> nat -> C) (eigvalues : nat) : res (list R * list (nat -> C)) :=
  match sort_pairs (combine E (seq 0 eigvalues)) with
  | [] => Err ValueError                     (* E, perm = [] *)
  | z => Ok (map fst z, map (fun p => let v := V (snd p) in fun i => (v i / RtoC (vnorm n v))%C) z)
  end.
(** without vectors: [ret.sort()] *)
Definition diag_post_values (E : list R) : list R := map fst (sort_pairs (combine E (seq 0 (List.length E)))).

(** ** lines 178-240 [getACStarkShift], [getCircuitLambShift],
    [getResonatorShift] on a two-dimensional array of [levels] rows and [cols]
    columns (all indices used are non-negative). The second copy of each table
    (lines 199, 239) is the identity. *)
Section Shifts.
  Context {A : rng} (levels cols : nat) (E : nat -> nat -> A).
  Let at_ (i j : nat) : res A := at2 (ND2 levels cols E) i j.
  Definition table (rows n : nat) (f : nat -> nat -> res A) : res (list (list A)) :=
    mapM (fun q => mapM (fun n => f q n) (seq 0 n)) (seq 0 rows).
  Definition diff (a b : res A) : res A := bind a (fun x => bind b (fun y => Ok (ksub x y))).
  Definition getACStarkShift : res (list nat * list (list A)) :=
    let photons := cols - levels in
    bind (table (levels - 1) photons (fun q n => diff (at_ (q + 1) (n + q + 1)) (at_ 0 n))) (fun t =>
    Ok (seq 0 photons, t)).
  Definition getCircuitLambShift : res (list A) := mapM (fun i => at_ i i) (seq 0 levels).
  Definition getResonatorShift : res (list (list A)) :=
    table (levels - 1) (cols - levels) (fun q n => diff (at_ q (n + q + 1)) (at_ q (n + q))).
End Shifts.

(** ** lines 360-390, body of the loop of [pauliCoefficients] at one sweep
    point. [Vl]: the eigenvector matrix returned by numpy.linalg.eigh. Exact
    numbers instead of complex64. *)
Definition mk2 (a b c d : C) : nat -> nat -> C := fun i j =>
  match i, j with 0, 0 => a | 0, 1 => b | 1, 0 => c | 1, 1 => d | _, _ => RtoC 0 end.
Definition sigma_x := (mk2 (RtoC 0) (RtoC 1) (RtoC 1) (RtoC 0)).
Definition sigma_y := mk2 (RtoC 0) (Copp Ci) Ci (RtoC 0).
Definition sigma_z := mk2 (RtoC 1) (RtoC 0) (RtoC 0) (Copp (RtoC 1)).
(** line 375 *)
Definition gauge (Vl : nat -> nat -> C) : nat -> nat -> C := fun r k => (RtoC (Cmod (Vl 0 k)) / Vl 0 k * Vl r k)%C.
Definition mdag (X : nat -> nat -> C) : nat -> nat -> C := fun i j => Cconj (X j i).
Definition pauli_Hq (E0 E1 : R) (Vl : nat -> nat -> C) : nat -> nat -> C :=
  let U := gauge Vl in
  @mmul C_rng 2 (mdag U) (@mmul C_rng 2 (mk2 (RtoC E0) (RtoC 0) (RtoC 0) (RtoC E1)) U).
Definition trace2 (X : nat -> nat -> C) : C := @sumn C_rng 2 (fun i => X i i).
Definition pauli_point (E0 E1 : R) (Vl : nat -> nat -> C) : R * R * R :=
  let Hq := pauli_Hq E0 E1 Vl in
  let h s := fst (RtoC (/ 2) * trace2 (@mmul C_rng 2 Hq s))%C in
  (h sigma_x, h sigma_y, h sigma_z).

(** ** lines 456-474 [getNeighbours]. [int(c)] of one ASCII character. *)
Definition int_of_char (c : ascii) : res Z :=
  let n := Z.of_nat (nat_of_ascii c) in
  if (48 <=? n)%Z && (n <=? 57)%Z then Ok (n - 48)%Z else Err ValueError.
Definition flip_char (c : ascii) : res ascii :=
  bind (int_of_char c) (fun z => Ok (if (z =? 0)%Z then "1"%char else "0"%char)).
Definition neighbour (bits : list ascii) (i : nat) : res (list ascii) :=
  mapM (fun j => let c := nth j bits "0"%char in if Nat.eqb i j then flip_char c else Ok c) (seq 0 (List.length bits)).
Definition getNeighbours (bits : list ascii) (HW : Z) : res (list (list ascii)) :=
  if (HW =? 1)%Z then mapM (neighbour bits) (seq 0 (List.length bits)) else Ok [].

(** ** lines 478-490 [stateFromBitstring]. qutip.tensor of kets is the
    Kronecker product, first factor most significant; with no argument it
    raises TypeError. *)
Definition ket (b : ascii) : list Z := if Ascii.eqb b "0" then [0; 1]%Z else [1; 0]%Z.
Definition kron (u v : list Z) : list Z := flat_map (fun x => map (Z.mul x) v) u.
Definition stateFromBitstring (bits : list ascii) : res (list Z) :=
  match map ket bits with
  | [] => Err TypeError
  | k :: r => Ok (fold_left kron r k)
  end.

(** ** lines 496-546, used by [isStoquastic] *)
(** lines 496-505 [_get_permutation_matrices]; numpy.roll: b[i] = a[(i-j) mod M] *)
Definition roll (M j i : nat) : nat := (i + (M - j)) mod M.
Definition perm_matrix (M j : nat) : nat -> nat -> C := fun r c => if Nat.eqb c (roll M j r) then RtoC 1 else RtoC 0.
Definition perm_matrices (M : nat) : list (nat -> nat -> C) := map (perm_matrix M) (seq 0 M).
(** lines 26-38 [hdot] *)
Definition hdot (X Y : nat -> nat -> C) : nat -> nat -> C := fun i j => (X i j * Y i j)%C.
(** lines 40-58 on exact numbers *)
Definition sanR (tol x : R) : R := if Rlt_dec (Rabs x) tol then 0%R else x.
Definition sanC (tol : R) (z : C) : C := (sanR tol (fst z), sanR tol (snd z)).
(** lines 507-512 [_get_decomposition] after line 266; [inv]: numpy.linalg.inv *)
Definition decomposition (M : nat) (inv : (nat -> nat -> C) -> nat -> nat -> C) (tol : R) (H : nat -> nat -> C)
  : list ((nat -> nat -> C) * (nat -> nat -> C)) :=
  map (fun q => (fun i j => sanC tol (@mmul C_rng M (hdot H q) (inv q) i j), q)) (perm_matrices M).

(** lines 518-531 [_get_k_ij_map] and lines 536-538 *)
Definition shifts (M : nat) : list Z :=
  (map (fun a => - Z.of_nat a)%Z (rev (seq 1 (M - 1))) ++ map Z.of_nat (seq 1 (M - 1)))%list.
Definition k_ij_map (M : nat) : dict Z nat :=
  fold_left (fun d kv => dset d (fst kv) (snd kv)) (combine (shifts M) (seq 1 (M - 1) ++ seq 1 (M - 1))) [].
(** itertools.product(l, repeat=q) *)
Fixpoint product {X} (l : list X) (q : nat) : list (list X) :=
  match q with O => [[]] | S q => flat_map (fun x => map (cons x) (product l q)) l end.
(** membership test on lists of numbers *)
Fixpoint list_eqb (a b : list nat) : bool :=
  match a, b with [], [] => true | x :: a, y :: b => Nat.eqb x y && list_eqb a b | _, _ => false end.
(** lines 532-549 [_get_unique_sequences] *)
Definition getUniqueSequences (M q : nat) : res (list (list nat)) :=
  fold_left (fun acc perm =>
    bind acc (fun seqs =>
    if (fold_left Z.add perm 0 =? 0)%Z then
      bind (mapM (fun i => match dget (k_ij_map M) i with Some x => Ok x | None => Err KeyError end) perm) (fun ijs =>
      Ok (if existsb (list_eqb ijs) seqs then seqs else seqs ++ [ijs]))
    else Ok seqs)) (product (shifts M) q) (Ok []).
(** lines 551-557 [_get_state_indices] *)
Fixpoint state_indices (M zacc : nat) (seq : list nat) : list nat :=
  match seq with [] => [] | ij :: r => ((zacc + ij) mod M) :: state_indices M (zacc + ij) r end.

(** lines 514-516 [_get_basis_states]: the rows of an ndarray, each of one
    dimension. [V]: eigenvector matrix of numpy.linalg.eig. *)
Definition basis_states (M : nat) (V : nat -> nat -> C) : list (nd C_rng) := map (fun r => ND1 (A := C_rng) M (V r)) (seq 0 M).
(** lines 559-569 [_get_coefficient]; real part as used at line 282 *)
Definition coefficient (M z0 : nat) (seq : list nat) (z : list (nd C_rng)) (Dj : list (nat -> nat -> C)) : res C :=
  let idx := state_indices M z0 seq in
  bind (mapM (fun cij =>
    match nth_error idx (fst cij), nth_error Dj (snd cij) with
    | Some zi, Some D =>
        match nth_error z zi with
        | Some (ND1 n f as zj) =>
            bind (mdot [ND1 (A := C_rng) n (fun i => Cconj (f i)); ND2 (A := C_rng) M M D; zj]) (fun a => at2 a 0 0)
        | Some _ => Err IndexError
        | None => Err IndexError
        end
    | _, _ => Err IndexError
    end) (combine (List.seq 0 (List.length seq)) seq)) (fun subs =>
  Ok (fold_left Cmult (map Copp subs) (RtoC 1))).
(** lines 242-284 [isStoquastic]. [eig]: numpy.linalg.eig's vectors of D_0. *)
Definition isStoquastic (M : nat) (inv : (nat -> nat -> C) -> nat -> nat -> C) (eig : (nat -> nat -> C) -> nat -> nat -> C)
    (tol : R) (H : nat -> nat -> C) (order : list nat) : res bool :=
  let Dj := map fst (decomposition M inv tol H) in
  match Dj with
  | [] => Err IndexError
  | D0 :: _ =>
      let z := basis_states M (eig D0) in
      fold_left (fun acc q => bind acc (fun ok => if negb ok then Ok false else
        bind (getUniqueSequences M q) (fun seqs =>
        fold_left (fun acc zs => bind acc (fun ok => if negb ok then Ok false else
          bind (coefficient M (fst zs) (snd zs) z Dj) (fun c => Ok (if Rlt_dec (fst c) 0 then false else true))))
          (flat_map (fun z0 => map (pair z0) seqs) (seq 0 M)) (Ok true)))) order (Ok true)
  end.
