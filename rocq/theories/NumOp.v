(** Model of pyscqed/numerical_system.py, part 1: operators, Hamiltonian,
    classical potential and resonator response.

    Exact real and complex numbers stand for numpy floats, qutip.Qobj data is a
    matrix given as a function of two indices, together with a dimension (or
    list of dimensions). Eigensolvers and matrix inversion are arguments; the
    theorems say what is assumed about their answers. Only
    mode_transform=False is modelled (Rinv is the identity). An oscillator
    truncation of 0, which qutip rejects, is not special. *)
From Coq Require Import List Bool String Arith ZArith Reals.
From Coquelicot Require Import Complex.
From Verif Require Import Prelude Sweep Mat Util Graph Symbolic.
Import ListNotations.
Open Scope string_scope.
Open Scope list_scope.
Open Scope nat_scope.

Definition cmat := nat -> nat -> C.
(** exp(i t) *)
Definition cis (t : R) : C := (cos t, sin t).
Definition mplus (A B : cmat) : cmat := fun i j => (A i j + B i j)%C.
Definition mminus (A B : cmat) : cmat := fun i j => (A i j - B i j)%C.
Definition msc (c : C) (A : cmat) : cmat := fun i j => (c * A i j)%C.
Definition mm (n : nat) (A B : cmat) : cmat := @mmul C_rng n A B.
Definition eye : cmat := fun i j => if Nat.eqb i j then RtoC 1 else RtoC 0.
Definition mzero : cmat := fun _ _ => RtoC 0.
Definition cdiag (f : nat -> C) : cmat := fun i j => if Nat.eqb i j then f i else RtoC 0.
(** qutip.basis(N, k) and |k><l| *)
Definition basis (k : nat) : nat -> C := fun i => if Nat.eqb i k then RtoC 1 else RtoC 0.
Definition ketbra (u v : nat -> C) : cmat := fun i j => (u i * Cconj (v j))%C.
(** line 19 and qutip.Qobj.tidyup: real and imaginary parts below the
    tolerance become 0 *)
Definition atol : R := (/ 10 ^ 12)%R.
Definition tidyup (A : cmat) : cmat := fun i j => sanC atol (A i j).

(** ** Operators of one node *)
(** lines 126-131, 133-164: what operator_data holds for a node *)
Inductive basis_kind := BCharge | BOscillator | BFlux | BDiscretized | BOther.
Record opdata := mkod { od_trunc : nat; od_basis : basis_kind }.
(** Q, P, D, Ddag, S, Sdag and the common dimension *)
Record ops := mkops { o_dim : nat; oQ : cmat; oP : cmat; oD : cmat; oDd : cmat; oS : cmat; oSd : cmat }.

Section Bases.
  (** numpy.linalg.eigh (eigenvalues, matrix of columns), numpy.linalg.inv *)
  Variable eigh : nat -> cmat -> (nat -> R) * cmat.
  Variable inv : nat -> cmat -> cmat.

  (** U f(E) U^-1, as in lines 1080-1089, 1137-1144 *)
  Definition matfun (n : nat) (f : R -> C) (A : cmat) : cmat :=
    let (E, V) := eigh n A in mm n (mm n V (cdiag (fun k => f (E k)))) (inv n V).

  (** qutip.create(N), qutip.destroy(N) *)
  Definition create : cmat := fun i j => if Nat.eqb i (j + 1) then RtoC (sqrt (INR (j + 1))) else RtoC 0.
  Definition destroy : cmat := fun i j => if Nat.eqb (i + 1) j then RtoC (sqrt (INR (i + 1))) else RtoC 0.
  (** lines 1063-1108 [_get_oscillator_basis]: [z] the impedance times its
      unit prefactor, [chg] and [flx] the prefactors ChgOsc and FlxOsc, [ka] is
      a*2*pi/phi0*sqrt(hbar) and [kb] is b*pi/e*sqrt(hbar) *)
  Definition oscQ (z chg : R) : cmat :=
    fun i j => (Ci * RtoC (sqrt (1 / (2 * z))) * (create i j - destroy i j) * RtoC chg)%C.
  Definition oscP (z flx : R) : cmat :=
    fun i j => (RtoC (sqrt (z / 2)) * (create i j + destroy i j) * RtoC flx)%C.
  Definition oscillator_basis (t : nat) (z chg flx ka kb : R) : ops :=
    let Q := oscQ z chg in
    let P := oscP z flx in
    let Pp := fun i j => (RtoC ka * P i j / RtoC flx)%C in
    let Qp := fun i j => (RtoC kb * Q i j / RtoC chg)%C in
    let D := matfun t cis Pp in
    let S := matfun t cis Qp in
    mkops t (tidyup Q) (tidyup P) (tidyup D) (tidyup (mdag D)) (tidyup S) (tidyup (mdag S)).

  (** lines 1111-1157 [_get_charge_basis]. qutip.num(N, offset) is the diagonal
      matrix offset .. offset+N-1. *)
  Definition qm (t a : nat) : R := IZR (Z.of_nat a - Z.of_nat t).
  (** line 1115: eigenstates of -num(2t+1, t) = diag(-t .. -3t), ascending:
      eigenvalue j-3t with eigenstate basis(2t-j). (Simplification: LAPACK
      returns unit vectors without a phase for a diagonal matrix.) *)
  Definition qeig (t j : nat) : R := IZR (Z.of_nat j - 3 * Z.of_nat t).
  Definition seig (t j : nat) : nat -> C := basis (2 * t - j).
  (** lines 1118-1125 *)
  Definition phik (t a : nat) : nat -> C := fun m =>
    @sumn C_rng (2 * t + 1) (fun j =>
      (RtoC (sqrt (1 / INR (2 * t + 1))) * cis (2 * PI * qm t a * qm t j / INR (2 * t + 1)) * seig t j m)%C).
  (** lines 1128-1131 *)
  Definition chargeP (t : nat) : cmat := fun i j =>
    @sumn C_rng (2 * t + 1) (fun a => (RtoC (qm t a / INR (2 * t + 1)) * ketbra (phik t a) (phik t a) i j)%C).
  (** line 1134: -num(2t+1) + t *)
  Definition numQ (t : nat) : cmat := fun i j => if Nat.eqb i j then (- RtoC (INR i) + RtoC (INR t))%C else RtoC 0.
  Definition corner (t : nat) : cmat := ketbra (basis (2 * t)) (basis 0).
  Definition charge_basis (t : nat) : ops :=
    let N := 2 * t + 1 in
    let P := chargeP t in
    let D := mminus (matfun N (fun e => cis (- 2 * PI * e)) P) (corner t) in
    let S := cdiag (fun j => cis (- 2 * PI * qeig t j)) in
    mkops N (tidyup (numQ t)) (tidyup P) (tidyup D) (tidyup (mdag D)) (tidyup S) (tidyup (mdag S)).

  (** lines 1159-1209 [_get_flux_basis]: the roles of charge and flux are
      exchanged, both displacements lose the corner *)
  Definition flux_basis (t : nat) : ops :=
    let N := 2 * t + 1 in
    let P := numQ t in
    let Q := chargeP t in
    let D := mminus (matfun N (fun e => cis (- 2 * PI * e)) P) (corner t) in
    let S := mminus (matfun N (fun e => cis (- 2 * PI * e)) Q) (corner t) in
    mkops N (tidyup Q) (tidyup P) (tidyup D) (tidyup (mdag D)) (tidyup S) (tidyup (mdag S)).

  (** lines 1211-1268 [_get_discretized_flux_basis]: the flux operator is a
      grid from -pmax to pmax, the charge operator is divided by the spacing;
      grid[1] raises IndexError when there is one point. *)
  Definition grid (t : nat) (pmax : R) (i : nat) : R := (- pmax + INR i * (2 * pmax / INR (2 * t)))%R.
  (* lines 1219-1229; the eigenstates of the flux operator in ascending order
     are basis(j) *)
  Definition gphi (t a : nat) : nat -> C := fun m =>
    (RtoC (sqrt (1 / INR (2 * t + 1))) * cis (2 * PI * qm t a * qm t m / INR (2 * t + 1)))%C.
  (* lines 1232-1237 *)
  Definition gridQ (t : nat) (pmax : R) : cmat := fun i j =>
    (@sumn C_rng (2 * t + 1) (fun a => (RtoC (qm t a / INR (2 * t + 1)) * ketbra (gphi t a) (gphi t a) i j)%C) / RtoC (grid t pmax 1 - grid t pmax 0))%C.
  Definition discretized_flux_basis (t : nat) (pmax : R) : res ops :=
    if Nat.eqb t 0 then Err IndexError else
    let N := 2 * t + 1 in
    let P := cdiag (fun i => RtoC (grid t pmax i)) in
    let Q := gridQ t pmax in
    let D := mminus (matfun N (fun e => cis (- 2 * PI * e)) P) (corner t) in
    let S := mminus (matfun N (fun e => cis (- 2 * PI * e)) Q) (corner t) in
    Ok (mkops N (tidyup Q) (tidyup P) (tidyup D) (tidyup (mdag D)) (tidyup S) (tidyup (mdag S))).

  (** lines 106-123 [getCommutator]. [dims]: 2*e*phi0/hbar. None: no branch is
      taken. [inv] is numpy.linalg.inv. *)
  Definition comm (n : nat) (A B : cmat) : cmat := mminus (mm n A B) (mm n B A).
  Definition correction (n : nat) : cmat := mminus eye (msc (RtoC (INR n)) (ketbra (basis (n - 1)) (basis (n - 1)))).
  Definition getCommutator (dims : R) (n : nat) (Q P : cmat) (b : basis_kind) : option cmat :=
    match b with
    | BCharge => Some (msc (RtoC dims) (comm n P Q))
    | BOscillator => Some (mm n (comm n P Q) (inv n (correction n)))
    | _ => None
    end.
End Bases.

(** ** Operators in the space of the circuit *)
(** lines 83-97 [getHilbertSpaceSize] *)
Definition getHilbertSpaceSize (data : dict nat opdata) : nat :=
  fold_left (fun r kv =>
    match od_basis (snd kv) with
    | BCharge => r * (2 * od_trunc (snd kv) + 1)
    | BOscillator => r * od_trunc (snd kv)
    | _ => r
    end) data 1.
(** lines 133-164 [configureOperator]: its effect on operator_data (the
    parameters it adds for oscillator nodes are not part of this state) *)
Definition configureOperator (nodes : list nat) (data : dict nat opdata) (n t : nat) (b : basis_kind) : dict nat opdata * res unit :=
  if mem n nodes then (dset data n (mkod t b), Ok tt) else (data, Err PlainException).

(** qutip.tensor: Kronecker product of a list of operators with dimensions *)
Definition prodn (l : list nat) : nat := fold_right Nat.mul 1 l.
Definition kron (m : nat) (A B : cmat) : cmat := fun i j => (A (i / m)%nat (j / m)%nat * B (i mod m)%nat (j mod m)%nat)%C.
Fixpoint tensor (l : list (nat * cmat)) : cmat :=
  match l with
  | [] => fun _ _ => RtoC 1
  | (_, A) :: r => kron (prodn (map fst r)) A (tensor r)
  end.
(** lines 203-210: Ilist, None where the basis is neither *)
Definition ident_dim (d : opdata) : option nat :=
  match od_basis d with BOscillator => Some (od_trunc d) | BCharge => Some (2 * od_trunc d + 1) | _ => None end.
(** lines 227-251: Olist for node i; tensor raises TypeError on None *)
Definition olist (il : list (option nat)) (i d : nat) (A : cmat) : res (list (nat * cmat)) :=
  mapM (fun x => if Nat.eqb (fst x) i then Ok (d, A) else match snd x with Some n => Ok (n, eye) | None => Err TypeError end)
    (Symbolic.enumerate il).
Record cops := mkcops { c_dims : list nat; cQ : cmat; cP : cmat; cD : cmat; cDd : cmat; cS : cmat; cSd : cmat }.
Definition expand (il : list (option nat)) (i : nat) (o : ops) : res cops :=
  let ex A := bind (olist il i (o_dim o) A) (fun l => Ok (tensor l)) in
  bind (olist il i (o_dim o) (oQ o)) (fun l =>
  bind (ex (oQ o)) (fun q => bind (ex (oP o)) (fun p => bind (ex (oD o)) (fun d =>
  bind (ex (oDd o)) (fun dd => bind (ex (oS o)) (fun s => bind (ex (oSd o)) (fun sd =>
  Ok (mkcops (map fst l) q p d dd s sd)))))))).
(** lines 190-253 [getExpandedOperatorsMap]; [gen] is getOperatorList (166-187).
    (What is left in circ_operators when it raises is not modelled.) *)
Definition getExpandedOperatorsMap (gen : nat -> opdata -> res ops) (node_list : list nat) (data : dict nat opdata)
    (only : option (list nat)) (circ : dict nat cops) : res (dict nat cops) :=
  bind (mapM (fun n => match dget data n with Some d => Ok (ident_dim d) | None => Err KeyError end) node_list) (fun il =>
  foldM (fun c x =>
    let '(i, n) := x in
    if match only with None => true | Some l => mem n l end then
      match dget data n with
      | None => Err KeyError
      | Some d => bind (gen n d) (fun o => bind (expand il i o) (fun e => Ok (dset c n e)))
      end
    else Ok c) (Symbolic.enumerate node_list) circ).
(** lines 166-187 [getOperatorList] *)
Definition getOperatorList (eigh : nat -> cmat -> (nat -> R) * cmat) (inv : nat -> cmat -> cmat) (z ka kb pmax : nat -> R) (chg flx : R)
    (n : nat) (d : opdata) : res ops :=
  match od_basis d with
  | BCharge => Ok (charge_basis eigh inv (od_trunc d))
  | BOscillator => Ok (oscillator_basis eigh inv (od_trunc d) (z n) chg flx (ka n) (kb n))
  | BFlux => Ok (flux_basis eigh inv (od_trunc d))
  | BDiscretized => discretized_flux_basis eigh inv (od_trunc d) (pmax n)
  | BOther => Err PlainException
  end.
(** lines 259-271 [getChargeOpVector], [getFluxOpVector] *)
Definition op_vector (f : cops -> cmat) (node_list : list nat) (circ : dict nat cops) : res (list cmat) :=
  mapM (fun n => match dget circ n with Some o => Ok (f o) | None => Err KeyError end) node_list.

(** ** lines 509-594 [getHamiltonian] *)
Record hin := mkhin {
  h_Cinv : nat -> nat -> R; h_Linv : nat -> nat -> R;      (* Cinvnp, Linvnp *)
  h_Qb : nat -> R; h_Pbi : nat -> R;                       (* Qbnp, Pbinp, by node *)
  h_J : nat -> R; h_Ps : nat -> R;                         (* Jvecnp, Pvecnp, by branch *)
  h_pb : nat -> R; h_qb : nat -> R;                        (* Pbsm[i,i], Qbtnp[i], by branch *)
  h_Ec : R; h_El : R; h_Ej : R; h_Ep : R                   (* unit prefactors *)
}.
Definition opn (l : list cmat) (i : nat) : cmat := nth i l mzero.
(** (X + b)^T M (X + b); adding a number to a Qobj adds a multiple of the
    identity *)
Definition shifted (l : list cmat) (b : nat -> R) (i : nat) : cmat := mplus (opn l i) (msc (RtoC (b i)) eye).
Definition quadform (N : nat) (l : list cmat) (b : nat -> R) (M : nat -> nat -> R) : cmat :=
  let n := List.length l in
  fun r c => @sumn C_rng n (fun i => mm N (shifted l b i)
    (fun r c => @sumn C_rng n (fun j => (RtoC (M i j) * shifted l b j r c)%C)) r c).
(** lines 519, 530-553: the terms of Pp[i], by index of node and whether the
    coefficient is positive. [argord]: the order of sympy's args. *)
Definition branch_terms (nodes : list nat) (edges : list edge) (i : nat) : list (nat * bool) :=
  flat_map (fun k => match rbn nodes edges k i with Z0 => [] | Zpos _ => [(k, true)] | Zneg _ => [(k, false)] end) (seq 0 (List.length nodes)).
Definition product (N : nat) (z : C) (l : list cmat) : res cmat :=
  match l with
  | [] => Err IndexError                  (* Pp[i] is 0: args[1] fails *)
  | A :: r => Ok (fold_left (mm N) r (msc z A))
  end.
(** one of the two loops over the branches, [X], [Xd]: displacement operators
    and their adjoints by node *)
Definition cosine_part (N : nat) (argord : list (nat * bool) -> list (nat * bool)) (nodes : list nat) (edges : list edge)
    (amp bias : nat -> R) (X Xd : nat -> cmat) : res cmat :=
  foldM (fun H i =>
    if Req_EM_T (amp i) 0 then Ok H else
    let ts := argord (branch_terms nodes edges i) in
    bind (product N (cis (2 * PI * bias i)) (map (fun t : nat * bool => if snd t then X (fst t) else Xd (fst t)) ts)) (fun p1 =>
    bind (product N (cis (- 2 * PI * bias i)) (map (fun t : nat * bool => if snd t then Xd (fst t) else X (fst t)) ts)) (fun p2 =>
    Ok (mplus H (msc (RtoC (- (1 / 2) * amp i)) (mplus p1 p2)))))) (seq 0 (List.length edges)) mzero.
Definition getHamiltonian (N : nat) (argord : list (nat * bool) -> list (nat * bool)) (nodes : list nat) (edges : list edge)
    (h : hin) (Qnp Pnp : list cmat) (circ : dict nat cops) : res cmat :=
  bind (op_vector cD nodes circ) (fun ds => bind (op_vector cDd nodes circ) (fun dds =>
  bind (op_vector cS nodes circ) (fun ss => bind (op_vector cSd nodes circ) (fun sds =>
  let Hq := msc (RtoC (h_Ec h * (1 / 2))) (quadform N Qnp (h_Qb h) (h_Cinv h)) in
  let Hf := msc (RtoC (h_El h * (1 / 2))) (quadform N Pnp (h_Pbi h) (h_Linv h)) in
  bind (cosine_part N argord nodes edges (h_J h) (h_pb h) (opn ds) (opn dds)) (fun Hj =>
  bind (cosine_part N argord nodes edges (h_Ps h) (h_qb h) (opn ss) (opn sds)) (fun Hp =>
  Ok (tidyup (mplus (mplus (mplus Hq Hf) (msc (RtoC (h_Ej h)) Hj)) (msc (RtoC (h_Ep h)) Hp))))))))).

(** ** lines 1290-1352 [ClassicalPotentialBuilder]: [phi] node fluxes, [b]
    branch biases, [nb] inductive bias by node; J and Linv already numbers *)
Definition classical_potential (nodes : list nat) (edges : list edge) (h : hin) (phi : nat -> R) (b nb : nat -> R) : R :=
  let n := List.length nodes in
  let jj := fold_left (fun r i => (r + h_Ej h * h_J h i * cos (2 * PI * (branch_flux nodes edges phi i + b i)))%R)
              (seq 0 (List.length edges)) 0%R in
  (jj + sumn (A := R_rng) n (fun i => sumn (A := R_rng) n (fun j =>
          (phi i + nb i) * (1 / 2 * h_El h * h_Linv h i j) * (phi j + nb j))))%R.

(** ** lines 736-784 [getResonatorResponse] *)
Section Resonator.
  (** numpy/scipy eigvalsh of a real symmetric matrix *)
  Variable eigvalsh : nat -> (nat -> nat -> R) -> nat -> R.
  (** lines 768-772: first index where equal; index[0] of an empty result
      raises IndexError *)
  Fixpoint first_index (x : R) (e : nat -> R) (k n : nat) : res nat :=
    match n with
    | O => Err IndexError
    | S n => if Req_EM_T (e k) x then Ok k else first_index x e (S k) n
    end.
  Definition strip_diag (wrl : R) (E : nat -> R) (n i : nat) : R := (IZR (Z.of_nat n - Z.of_nat i) * wrl + E i)%R.
  Definition strip_off (g : nat -> R) (n i : nat) : R := (g i * sqrt (INR (n - i)))%R.
  Definition strip (wrl : R) (E g : nat -> R) (n : nat) : nat -> nat -> R := fun i j =>
    ((if Nat.eqb i j then strip_diag wrl E n i else 0) +
     (if Nat.eqb (i + 1) j then strip_off g n i else 0) +
     (if Nat.eqb i (j + 1) then strip_off g n j else 0))%R.
  Definition diag_matrix (f : nat -> R) : nat -> nat -> R := fun i j => if Nat.eqb i j then f i else 0%R.
  (** [me i j]: matrix element of the charge operator between eigenstates i and
      j. V[1] raises IndexError when there is one state. When the norm is 0
      numpy gives nan, on which scipy's eigvalsh raises ValueError. *)
  Definition getResonatorResponse (cpl : bool) (gC wrl : R) (E0 : nat -> R) (tmax nmax : nat) (me : nat -> nat -> C)
    : option (res (list (list R))) :=
    if negb cpl then None else Some (
    if Nat.ltb tmax 2 then Err IndexError else
    let E i := (E0 i - E0 0%nat)%R in
    let g i := (gC * Cmod (me i (S i) / me 0%nat 1%nat)%C)%R in
    let nmax := nmax + 1 + tmax in
    let bare := strip_diag wrl E 0 in
    let srt := eigvalsh tmax (diag_matrix bare) in
    bind (mapM (fun i => first_index (bare i) srt 0 tmax) (seq 0 tmax)) (fun order =>
    if Ceq_dec (me 0 1) (RtoC 0) then Err ValueError else
    Ok (map (fun n => let e := eigvalsh tmax (strip wrl E g n) in map e order) (seq 0 nmax)))).
End Resonator.
