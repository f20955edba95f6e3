(** Model of pyscqed/numerical_system.py, part 3: the split of the Hamiltonian
    used by callers that vary only flux biases, and the evaluables other than
    the Hamiltonian and the resonator: branch current, node voltage, their
    matrix elements, and the energies.

    Simplifications as in NumOp.v: exact numbers, mode_transform=False, and the
    operators of all nodes are looked up first (the code raises the same
    KeyError for a missing node when it gets there). *)
From Coq Require Import List Bool Ascii String Arith ZArith Reals.
From Coquelicot Require Import Complex.
From Verif Require Import Prelude Sweep Mat Graph Symbolic NumOp.
Import ListNotations.
Open Scope string_scope.
Open Scope list_scope.
Open Scope nat_scope.

(** lines 439-448 [getLinearPart] *)
Definition getLinearPart (N : nat) (h : hin) (Qnp Pnp : list cmat) : cmat :=
  mplus (msc (RtoC (h_Ec h * (1 / 2))) (quadform N Qnp (h_Qb h) (h_Cinv h)))
        (msc (RtoC (h_El h * (1 / 2))) (quadform N Pnp (h_Pbi h) (h_Linv h))).

(** the loops of lines 463-478 and 626-650: the operators multiplied in prod1
    and prod2 *)
Definition left_ops (X Xd : nat -> cmat) (ts : list (nat * bool)) : list cmat :=
  map (fun t : nat * bool => if snd t then X (fst t) else Xd (fst t)) ts.
Definition right_ops (X Xd : nat -> cmat) (ts : list (nat * bool)) : list cmat :=
  map (fun t : nat * bool => if snd t then Xd (fst t) else X (fst t)) ts.

(** lines 450-493 [getStaticJosephsonPart]: the lists Hj_l and Hj_r *)
Definition getStaticJosephsonPart (N : nat) (argord : list (nat * bool) -> list (nat * bool)) (nodes : list nat) (edges : list edge)
    (h : hin) (circ : dict nat cops) : res (list cmat * list cmat) :=
  bind (op_vector cD nodes circ) (fun ds => bind (op_vector cDd nodes circ) (fun dds =>
  foldM (fun r i =>
    if Req_EM_T (h_J h i) 0 then Ok r else
    let ts := argord (branch_terms nodes edges i) in
    bind (product N (RtoC 1) (left_ops (opn ds) (opn dds) ts)) (fun p1 =>
    bind (product N (RtoC 1) (right_ops (opn ds) (opn dds) ts)) (fun p2 =>
    let c := RtoC (- (1 / 2) * h_Ej h * h_J h i) in
    Ok (fst r ++ [msc c p1], snd r ++ [msc c p2])))) (seq 0 (List.length edges)) ([], []))).

(** line 355: branch inverse inductance matrix Linvnp_b, and unit prefactors *)
Record ein := mkein { e_Lb : nat -> nat -> R; e_IopL : R; e_IopJ : R; e_Vop : R }.

(** lines 609-616: the sum of node flux operators; Pp[i] = 0 has no args[1] *)
Definition flux_sum (X : nat -> cmat) (ts : list (nat * bool)) : res cmat :=
  match ts with
  | [] => Err IndexError
  | _ => Ok (fold_left (fun A t => mplus A (msc (RtoC (if snd t : bool then 1 else -1)) (X (fst t)))) ts mzero)
  end.
(** lines 596-654 [getCurrentOperator] *)
Definition getCurrentOperator (N : nat) (argord : list (nat * bool) -> list (nat * bool)) (s : cg) (nodes : list nat) (edges : list edge)
    (h : hin) (k : ein) (circ : dict nat cops) (e : option edge) : res cmat :=
  match e with
  | None => Err PlainException
  | Some e =>
    if negb (mem e edges) then Err PlainException else
    bind (index_of e edges) (fun i =>
    let ts := argord (branch_terms nodes edges i) in
    bind (isInductiveEdge s e) (fun b => if b : bool then
      bind (op_vector cP nodes circ) (fun ps =>
      bind (flux_sum (opn ps) ts) (fun A => Ok (msc (RtoC (e_IopL k * e_Lb k i i)) A)))
    else bind (is_type "I"%char s e) (fun b => if b : bool then
      bind (op_vector cD nodes circ) (fun ds => bind (op_vector cDd nodes circ) (fun dds =>
      bind (product N (cis (2 * PI * h_pb h i)) (left_ops (opn ds) (opn dds) ts)) (fun p1 =>
      bind (product N (cis (- 2 * PI * h_pb h i)) (right_ops (opn ds) (opn dds) ts)) (fun p2 =>
      Ok (msc (Ci * RtoC (1 / 2 * e_IopJ k * h_J h i))%C (mminus p1 p2))))))
    else Err PlainException)))
  end.
(** lines 669-681 [getVoltageOperator]; [Qnp] is the vector of charge
    operators *)
Definition getVoltageOperator (nodes : list nat) (h : hin) (k : ein) (Qnp : list cmat) (n : option nat) : res cmat :=
  match n with
  | None => Err PlainException
  | Some n =>
    if negb (mem n nodes) then Err PlainException else
    bind (index_of n nodes) (fun i => Ok (msc (RtoC (e_Vop k * h_Cinv h i i)) (shifted Qnp (h_Qb h) i)))
  end.

(** V[i] for a numpy array of vectors *)
Definition pyget {A} (l : list A) (z : Z) : res A :=
  let n := Z.of_nat (List.length l) in
  let z := if (z <? 0)%Z then (z + n)%Z else z in
  if (z <? 0)%Z then Err IndexError else
  match nth_error l (Z.to_nat z) with Some a => Ok a | None => Err IndexError end.
(** qutip Qobj.matrix_element(u, v) *)
Definition matrix_element (N : nat) (O : cmat) (u v : nat -> C) : C :=
  @sumn C_rng N (fun i => @sumn C_rng N (fun j => (Cconj (u i) * O i j * v j)%C)).
(** lines 656-667 [getCurrentMatrixElement] and 683-694
    [getVoltageMatrixElement]: [op] is the operator they start from *)
Definition matrix_elements (N : nat) (op : res cmat) (V : list (nat -> C)) (elements : option (list (Z * Z))) : res (list R) :=
  bind op (fun O =>
  match elements with
  | None => Err PlainException
  | Some l => mapM (fun p => bind (pyget V (fst p)) (fun u => bind (pyget V (snd p)) (fun v => Ok (fst (matrix_element N O u v))))) l
  end).
Definition getCurrentMatrixElement N argord s nodes edges h k circ V e elements :=
  matrix_elements N (getCurrentOperator N argord s nodes edges h k circ e) V elements.
Definition getVoltageMatrixElement N nodes h k Qnp V n elements :=
  matrix_elements N (getVoltageOperator nodes h k Qnp n) V elements.

(** lines 696-734: a dictionary for None, else one number; list.index raises
    ValueError *)
Definition energies {K} `{EqB K} (l : list K) (f : nat -> R) (x : option K) : res (dict K R + R) :=
  match x with
  | None => Ok (inl (fold_left (fun d p => dset d (snd p) (f (fst p))) (Symbolic.enumerate l) []))
  | Some a => bind (index_of a l) (fun i => Ok (inr (f i)))
  end.
Definition getChargingEnergies (nodes : list nat) (h : hin) := energies nodes (fun i => (1 / 2 * h_Cinv h i i * h_Ec h)%R).
Definition getFluxEnergies (nodes : list nat) (h : hin) := energies nodes (fun i => (1 / 2 * h_Linv h i i * h_El h)%R).
Definition getJosephsonEnergies (edges : list edge) (h : hin) := energies edges (fun i => (h_J h i * h_Ej h)%R).
Definition getPhaseSlipEnergies (edges : list edge) (h : hin) := energies edges (fun i => (h_Ps h i * h_Ep h)%R).
