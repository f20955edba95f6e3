(** Model of pyscqed/symbolic_system.py: the Josephson and phase slip terms,
    the Hamiltonian (lines 396-551) and coordinate transforms (lines 93-116,
    194-200, 363-394, 584-611, 794-823).

    What stands for sympy: an expression is represented by its value for given
    real values of the symbols; products of displacement operators, which do
    not commute, by the list of their factors. *)
From Coq Require Import List Bool String Ascii Arith ZArith Reals.
From Coquelicot Require Import Complex.
From Verif Require Import Prelude Mat Graph Sweep Symbolic NumOp.
Import ListNotations.
Open Scope string_scope.
Open Scope list_scope.
Open Scope nat_scope.

(** lines 396-402 [getJosephsonVector], 468-474 [getPhaseSlipVector]: None
    where the entry stays 0 *)
Definition letter_vector (p : ascii) (s : cg) (edges : list edge) : res (list (option string)) :=
  mapM (fun e => bind (component_of s e) (fun c => bind (letter_is p c) (fun b =>
    if b then bind (param s c) (fun x => Ok (Some x)) else Ok None))) edges.
Definition getJosephsonVector (y : ssys) := letter_vector "I" (ss_cg y) (ss_edges y).
Definition getPhaseSlipVector (y : ssys) := letter_vector "V" (ss_cg y) (ss_edges y).
Definition amp (val : string -> R) (v : list (option string)) (i : nat) : R := match nth i v None with Some c => val c | None => 0%R end.
(** lines 404-409 [getJosephsonEnergies] *)
Definition sym_getJosephsonEnergies (y : ssys) (val : string -> R) (phi0 : R) : res (dict edge R) :=
  bind (getJosephsonVector y) (fun v => Ok (map (fun x => (snd x, (phi0 * amp val v (fst x) / (2 * PI))%R)) (enumerate (ss_edges y)))).
(** lines 226-231 [getSingleParticleChargingEnergies]; [Cinv]: the value of
    getInverseCapacitanceMatrix() *)
Definition getSingleParticleChargingEnergies (y : ssys) (e : R) (Cinv : nat -> nat -> R) : dict nat R :=
  map (fun x => (snd x, (1 / 2 * (2 * e) ^ 2 * Cinv (fst x) (fst x))%R)) (enumerate (ss_nodes y)).

(** lines 279-296 [getFluxBiasVector] in branch mode; the prefactors are 1.0
    (line 760). [d]: flux_bias or red_flux_bias. *)
Definition josephson_bias (y : ssys) (d : dict edge (list string)) : res (list (list string)) :=
  mapM (fun e => bind (is_type "I" (ss_cg y) e) (fun b =>
    if b then match dget d e with Some l => Ok l | None => Err KeyError end else Ok [])) (ss_edges y).
Definition total (ph : string -> R) (l : list string) : R := fold_right (fun x r => (ph x + r)%R) 0%R l.
(** lines 411-416 [getClassicalJosephsonEnergies]; [ph]: the value of the
    symbol phi_{suffix}, [phi]: of phi_{node} *)
Definition getClassicalJosephsonEnergies (y : ssys) (val ph : string -> R) (phi : nat -> R) : res R :=
  bind (getJosephsonVector y) (fun v => bind (josephson_bias y (ss_red y)) (fun B =>
  Ok (fold_right (fun i r => (- amp val v i * cos (branch_flux (ss_nodes y) (ss_edges y) (fun k => phi (nth k (ss_nodes y) 0%nat)) i + total ph (nth i B [])) + r)%R)
        0%R (seq 0 (List.length (ss_edges y)))))).

(** Rnb * Rinv, computed exactly: sympy uses floats of 15 digits *)
Definition coef (nodes : list nat) (edges : list edge) (Ri : nat -> nat -> R) (i k : nat) : R :=
  sumn (A := R_rng) (List.length nodes) (fun l => (IZR (rbn nodes edges l i) * Ri l k)%R).
(** The terms of Pp[i] as far as the loops use them: the index of the node and
    whether the coefficient is positive. *)
Definition pterms (nodes : list nat) (edges : list edge) (Ri : nat -> nat -> R) (i : nat) : list (nat * bool) :=
  flat_map (fun k => if Req_EM_T (coef nodes edges Ri i k) 0 then [] else [(k, if Rlt_dec 0 (coef nodes edges Ri i k) then true else false)])
    (seq 0 (List.length nodes)).
(** lines 418-463, 479-524: the term of a branch is
    -0.5 amp (exp(i bias) prod + exp(-i bias) prod'), where prod' has D and
    D^dagger exchanged. [argord]: the order of sympy's args. *)
Record qterm := mkq { q_amp : string; q_bias : list (Z * string); q_args : list (nat * bool) }.
Definition quantum_terms (argord : list (nat * bool) -> list (nat * bool)) (y : ssys) (Ri : nat -> nat -> R) (v : list (option string)) (B : nat -> list (Z * string)) : res (list qterm) :=
  foldM (fun l i => match nth i v None with
    | None => Ok l
    | Some c => match argord (pterms (ss_nodes y) (ss_edges y) Ri i) with
                | [] => Err IndexError             (* 0 has no args *)
                | ts => Ok (l ++ [mkq c (B i) ts])
                end
    end) (seq 0 (List.length (ss_edges y))) [].
Definition getQuantumJosephsonEnergies argord (y : ssys) (Ri : nat -> nat -> R) : res (list qterm) :=
  bind (getJosephsonVector y) (fun v => bind (josephson_bias y (ss_red y)) (fun B =>
  quantum_terms argord y Ri v (fun i => map (fun x => (1%Z, x)) (nth i B [])))).
(** lines 127-135 [getChargeBiasVector]; Rnb * it *)
Definition slip_bias (y : ssys) (i : nat) : list (Z * string) :=
  flat_map (fun k => match dget (ss_charge y) (nth k (ss_nodes y) 0) with Some (Some x) => [(rbn (ss_nodes y) (ss_edges y) k i, x)] | _ => [] end)
    (seq 0 (List.length (ss_nodes y))).
Definition getQuantumPhaseSlipEnergies argord (y : ssys) (Ri : nat -> nat -> R) : res (list qterm) :=
  bind (getPhaseSlipVector y) (fun v => quantum_terms argord y Ri v (slip_bias y)).
(** The value of the terms when operators are replaced by numbers *)
Definition bias_val (ph : string -> R) (l : list (Z * string)) : R := fold_right (fun x r => (IZR (fst x) * ph (snd x) + r)%R) 0%R l.
Definition cprod (l : list C) : C := fold_right Cmult (RtoC 1) l.
Definition qterm_val (val ph : string -> R) (X Xd : nat -> C) (t : qterm) : C :=
  (RtoC (- (1 / 2) * val (q_amp t)) *
   (cis (bias_val ph (q_bias t)) * cprod (map (fun a : nat * bool => if snd a then X (fst a) else Xd (fst a)) (q_args t)) +
    cis (- bias_val ph (q_bias t)) * cprod (map (fun a : nat * bool => if snd a then Xd (fst a) else X (fst a)) (q_args t))))%C.
Definition qval (val ph : string -> R) (X Xd : nat -> C) (l : list qterm) : C := fold_right (fun t r => (qterm_val val ph X Xd t + r)%C) (RtoC 0) l.
(** ... by N x N matrices *)
Definition qterm_mat (N : nat) (val ph : string -> R) (X Xd : nat -> cmat) (t : qterm) : res cmat :=
  bind (product N (cis (bias_val ph (q_bias t))) (map (fun a : nat * bool => if snd a then X (fst a) else Xd (fst a)) (q_args t))) (fun p1 =>
  bind (product N (cis (- bias_val ph (q_bias t))) (map (fun a : nat * bool => if snd a then Xd (fst a) else X (fst a)) (q_args t))) (fun p2 =>
  Ok (msc (RtoC (- (1 / 2) * val (q_amp t))) (mplus p1 p2)))).
Definition qmat (N : nat) (val ph : string -> R) (X Xd : nat -> cmat) (l : list qterm) : res cmat :=
  foldM (fun H t => bind (qterm_mat N val ph X Xd t) (fun A => Ok (mplus H A))) l mzero.

(** ** Coordinate transforms *)
(** lines 93-98; 811-815. [t_exact]: the entries are sympy Integers or
    Rationals, not Floats. *)
Record transform := mkt { t_R : nat -> nat -> R; t_Rinv : nat -> nat -> R; t_exact : bool }.
(** lines 197-198; 370-371 *)
Definition transformed_Cinv (n : nat) (t : transform) (Ci : nat -> nat -> R) (i j : nat) : R :=
  sumn (A := R_rng) n (fun k => sumn (A := R_rng) n (fun l => (t_R t i k * Ci k l * t_R t j l)%R)).
Definition transformed_Linv (n : nat) (t : transform) (Li : nat -> nat -> R) (i j : nat) : R :=
  sumn (A := R_rng) n (fun k => sumn (A := R_rng) n (fun l => (t_Rinv t k i * Li k l * t_Rinv t l j)%R)).
(** lines 529-533 [getChargingEnergies], 535-540 [getFluxEnergies] for given
    matrices, coordinates and biases *)
Definition half_form (n : nat) (M : nat -> nat -> R) (x b : nat -> R) : R :=
  (1 / 2 * sumn (A := R_rng) n (fun i => sumn (A := R_rng) n (fun j => (x i + b i) * M i j * (x j + b j))))%R.

(** lines 584-611: the first coefficient of a row of R * P (of RinvT * Q).
    Integer 1 times a symbol is the symbol itself. [ord]: sympy's order of the
    terms of a sum (noncommutative symbols). *)
Definition row_terms (n : nat) (M : nat -> nat -> R) (i : nat) : list R :=
  flat_map (fun k => if Req_EM_T (M i k) 0 then [] else [M i k]) (seq 0 n).
Definition bare (exact : bool) (c : R) : bool := exact && (if Req_EM_T c 1 then true else false).
(** distinct numbers among the coefficients that are written *)
Fixpoint distinct (l : list R) : nat :=
  match l with [] => 0 | c :: r => (if in_dec Req_EM_T c r then 0 else 1) + distinct r end.
Definition displacement (ord : list R -> list R) (exact : bool) (n : nat) (M : nat -> nat -> R) (i : nat) : res R :=
  let ts := ord (row_terms n M i) in
  let atoms := List.length ts + distinct (filter (fun c => negb (bare exact c)) ts) in
  match ts with
  | [] => Err IndexError
  | c :: r =>
      if 2 <? atoms then (if bare exact c then Err IndexError else Ok (Rabs c))
      else match r with
           | [] => if bare exact c then Err IndexError else Ok (Rabs c)
           | _ => Err TypeError                   (* P_1 + P_2: float of a symbol *)
           end
  end.
Definition displacements ord exact n M : res (list R) := mapM (displacement ord exact n M) (seq 0 n).
(** cooper_disp and fluxon_disp *)
Definition cooper_disp ord n t := displacements ord (t_exact t) n (t_R t).
Definition fluxon_disp ord n t := displacements ord (t_exact t) n (fun i j => t_Rinv t j i).

(** lines 105-111, 817-823: coordinate_modes after a transform. [L]: the
    entries of Linv, each a list of multiples of symbols, here the names of
    parameters and 1/L for the inductors. The sum is 0 for sympy if the terms
    with the same symbol cancel. *)
Definition entry := list (string * R).
(** Linv without mutual inductances: an entry with one inductor is kept, one
    with several becomes a parameter (lines 375-384) *)
Definition entry_of (name : string) (l : lin) : entry :=
  match l with [] => [] | [(TmL c, z)] => [(("1/" ++ c)%string, IZR z)] | _ => [(name, 1%R)] end.
Definition linv_entries (nodes : list nat) (edges : list edge) (M : imat) (i j : nat) : entry :=
  entry_of (mat_name "L" "i" (Nat.min i j) (Nat.max i j)) (linv_diag nodes edges M i j).
Fixpoint collect (e : entry) (x : string) : R := match e with [] => 0%R | (y, c) :: r => ((if String.eqb x y then c else 0) + collect r x)%R end.
Definition transformed_entry (n : nat) (t : transform) (L : nat -> nat -> entry) (i : nat) : entry :=
  flat_map (fun k => flat_map (fun l => map (fun x => (fst x, (t_Rinv t k i * snd x * t_Rinv t l i)%R)) (L k l)) (seq 0 n)) (seq 0 n).
Definition transformed_mode (n : nat) (t : transform) (L : nat -> nat -> entry) (i : nat) : mode :=
  let e := transformed_entry n t L i in
  if forallb (fun x => if Req_EM_T (collect e (fst x)) 0 then true else false) e then Charge else Oscillator.
