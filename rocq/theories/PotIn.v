(** Model of pyscqed/numerical_system.py 310-314
    [getClassicalPotentialFunction] and 1290-1352 [ClassicalPotentialBuilder]:
    which inputs the function takes and what it returns. *)
From Coq Require Import List Bool String Ascii Arith ZArith Reals.
From Verif Require Import Prelude Coll Mat Graph Sweep Symbolic SymHam.
Import ListNotations.
Open Scope string_scope.
Open Scope list_scope.
Open Scope nat_scope.

(** The symbols: Phi_{n} of a node (symbolic_system.py 568, commutative=False)
    and Phi_{suffix} of a bias (765). sympy tells them apart even when the names
    are the same. *)
Inductive psym := NodeFlux (n : nat) | BiasFlux (x : string).
Definition psym_eqb (a b : psym) : bool :=
  match a, b with NodeFlux n, NodeFlux m => Nat.eqb n m | BiasFlux x, BiasFlux y => String.eqb x y | _, _ => false end.
(** A sum of multiples of symbols *)
Definition lform := list (Z * psym).
Definition symbols_of (f : lform) : list psym := map snd f.
Definition lform_val (env : psym -> R) (f : lform) : R := fold_right (fun t r => (IZR (fst t) * env (snd t) + r)%R) 0%R f.

(** lines 1295-1296: entry i of getFluxVector("branch") +
    getFluxBiasVector("branch") (symbolic_system.py 236-241, 279-296) *)
Definition jj_form (nodes : list nat) (edges : list edge) (B : list (list string)) (i : nat) : lform :=
  flat_map (fun k => let z := rbn nodes edges k i in if (z =? 0)%Z then [] else [(z, NodeFlux (nth k nodes 0))]) (seq 0 (List.length nodes))
  ++ map (fun x => (1%Z, BiasFlux x)) (nth i B []).
(** symbolic_system.py 301-308 [getFluxBiasVectorInd], the branch vector *)
Definition inductor_bias (y : ssys) : res (list (list string)) :=
  mapM (fun e => bind (is_type "L" (ss_cg y) e) (fun b =>
    if b then match dget (ss_flux y) e with Some l => Ok l | None => Err KeyError end else Ok [])) (ss_edges y).
(** lines 1314-1315: entry i of P + Pe *)
Definition ind_form (nodes : list nat) (edges : list edge) (B : list (list string)) (i : nat) : lform :=
  (1%Z, NodeFlux (nth i nodes 0)) ::
  flat_map (fun j => let z := rbn nodes edges i j in if (z =? 0)%Z then [] else map (fun x => (z, BiasFlux x)) (nth j B [])) (seq 0 (List.length edges)).
(** line 1316: the free symbols of (P + Pe)^T M (P + Pe): sympy drops a product
    with 0.0. *)
Definition quad_symbols (n : nat) (M : nat -> nat -> R) (u : nat -> lform) : list psym :=
  flat_map (fun i => flat_map (fun j => if Req_EM_T (M i j) 0 then [] else symbols_of (u i) ++ symbols_of (u j)) (seq 0 n)) (seq 0 n).
(** lines 1301-1302: lambdify prints a symbol that is no argument as it is
    named, and \Phi_{..} is not Python *)
Definition lambdify (args free : list psym) : res unit :=
  if forallb (fun x => existsb (psym_eqb x) args) free then Ok tt else Err SyntaxError.

Record pot := mkpot {
  p_dof : dict string psym;                 (* _dof_map *)
  p_branches : nat; p_I : nat -> R; p_jj : nat -> lform;
  p_nodes : nat; p_M : nat -> nat -> R; p_u : nat -> lform
}.
(** lines 1319-1327 [_get_input_format]; [sord]: the iteration order of the set
    free_symbols. node_dofs has the nodes of the circuit as keys. *)
Definition input_format (sord : list string -> list string) (y : ssys) : res (dict string psym) :=
  bind (josephson_bias y (ss_flux y)) (fun B =>
  foldM (fun d x => bind (getParameterFromSymbol (ss_par y) ("\Phi_{" ++ x ++ "}")%string) (fun nm => Ok (dset d nm (BiasFlux x))))
    (sord (List.concat B)) (fold_left (fun d n => dset d ("phi" ++ nat_str n)%string (NodeFlux n)) (ss_nodes y) [])).
(** lines 1290-1317; [val]: the values of the parameters, [Linv]: the matrix
    Linvnp of the NumericalSystem. *)
Definition builder (sord : list string -> list string) (y : ssys) (val : string -> option R) (Ej El : R) (Linv : nat -> nat -> R) : res pot :=
  if negb (forallb (fun k => match val k with Some _ => true | None => false end) (dkeys (c_coll (ss_par y)))) then Err AssertionError else
  bind (getJosephsonVector y) (fun v =>
  bind (josephson_bias y (ss_flux y)) (fun B =>
  bind (input_format sord y) (fun d =>
  bind (inductor_bias y) (fun Bi =>
  let n := List.length (ss_nodes y) in
  let jj := jj_form (ss_nodes y) (ss_edges y) B in
  let M i j := (1 / 2 * El * Linv i j)%R in
  let u := ind_form (ss_nodes y) (ss_edges y) Bi in
  bind (lambdify (dvals d) (flat_map (fun i => symbols_of (jj i)) (seq 0 (List.length (ss_edges y))))) (fun _ =>
  bind (lambdify (dvals d) (quad_symbols n M u)) (fun _ =>
  Ok (mkpot d (List.length (ss_edges y)) (fun i => Ej * amp (fun c => match val c with Some x => x | None => 0 end) v i)%R jj n M u))))))).
(** lines 1329-1330 [getDefaultInputs] *)
Definition getDefaultInputs (p : pot) : dict string R := map (fun k => (k, 0%R)) (dkeys (p_dof p)).
(** lambdify's function: the i-th argument is the value of the i-th symbol *)
Fixpoint arg_value (args : list psym) (xs : list R) (s : psym) : R :=
  match args, xs with a :: args, x :: xs => if psym_eqb s a then x else arg_value args xs s | _, _ => 0%R end.
(** lines 1332-1352 [getPotentialFunction]; the inputs are floats *)
Definition potential_at (p : pot) (inputs : dict string R) : res R :=
  if negb (forallb (fun k => dmem inputs k) (dkeys (p_dof p))) then Err AssertionError else
  let env := arg_value (dvals (p_dof p)) (map (fun k => match dget inputs k with Some x => x | None => 0%R end) (dkeys (p_dof p))) in
  Ok (fold_left (fun r i => (r + p_I p i * cos (2 * PI * lform_val env (p_jj p i)))%R) (seq 0 (p_branches p)) 0%R
      + sumn (A := R_rng) (p_nodes p) (fun i => sumn (A := R_rng) (p_nodes p) (fun j => lform_val env (p_u p i) * p_M p i j * lform_val env (p_u p j))))%R.
(** lines 310-314 *)
Definition getClassicalPotentialFunction (sord : list string -> list string) (y : ssys) (val : string -> option R) (Ej El : R) (Linv : nat -> nat -> R)
  : res (pot * dict string R) := bind (builder sord y val Ej El Linv) (fun p => Ok (p, getDefaultInputs p)).
