(** Model of pyscqed/symbolic_system.py (class SymbolicSystem), for circuits
    without resonators where said so and without mode transformation
    (mode_transform=False).

    What stands for sympy: a matrix entry is a sum of integer multiples of the
    terms below, with like terms collected and zero terms dropped as sympy's
    Add does; it has a value for given real component values, and a set of
    free symbols. Pseudo-inverses of matrices with mutual inductances are not
    computed: they are given by an argument ([oracle]) or characterised by the
    Penrose equations. The symbol of a component is represented by its name
    (simplification: sympy.symbols is taken to return one symbol, which it does
    unless the name contains a comma, a colon or white space). *)
From Coq Require Import List Bool String Ascii Arith ZArith Reals.
From Verif Require Import Prelude Param Expr Coll Mat Graph.
Import ListNotations.
Open Scope string_scope.
Open Scope list_scope.
Open Scope nat_scope.

Fixpoint foldM {A S} (f : S -> A -> res S) (l : list A) (s : S) : res S :=
  match l with [] => Ok s | x :: l => bind (f s x) (foldM f l) end.

(** C; 1/L; Cc*Cr/(Cc + Cr) *)
Inductive term := TmC (c : string) | TmL (l : string) | TmR (cc cr : string).
Definition term_eqb (a b : term) : bool :=
  match a, b with
  | TmC x, TmC y | TmL x, TmL y => String.eqb x y
  | TmR x y, TmR x' y' => String.eqb x x' && String.eqb y y'
  | _, _ => false
  end.
Definition lin := list (term * Z).
Fixpoint ladd (l : lin) (t : term) (z : Z) : lin :=
  match l with
  | [] => if (z =? 0)%Z then [] else [(t, z)]
  | (t', z') :: r => if term_eqb t t' then (if (z' + z =? 0)%Z then r else (t', (z' + z)%Z) :: r) else (t', z') :: ladd r t z
  end.
Section Values.
  Variable val : string -> R.
  Definition tval (t : term) : R :=
    match t with TmC c => val c | TmL l => / val l | TmR a b => val a * val b / (val a + val b) end%R.
  Definition lval (l : lin) : R := fold_right (fun x r => IZR (snd x) * tval (fst x) + r)%R 0%R l.
End Values.

Definition mat := nat -> nat -> lin.
Definition add_at (M : mat) (i j : nat) (t : term) (z : Z) : mat :=
  fun i' j' => if Nat.eqb i i' && Nat.eqb j j' then ladd (M i' j') t z else M i' j'.
Definition mat0 : mat := fun _ _ => [].

(** Python list.index *)
Fixpoint index_of {K} `{EqB K} (x : K) (l : list K) : res nat :=
  match l with
  | [] => Err ValueError
  | y :: l => if eqb x y then Ok 0 else bind (index_of x l) (fun i => Ok (S i))
  end.
Definition enumerate {A} (l : list A) : list (nat * A) := combine (seq 0 (List.length l)) l.
(** cstr[0] == prefix *)
Definition letter_is (p : ascii) (c : string) : res bool := match c with EmptyString => Err IndexError | _ => Ok (starts p c) end.

(** lines 29, 33-34: the nodes without ground *)
Fixpoint remove1 (n : nat) (l : list nat) : list nat :=
  match l with [] => [] | x :: l => if Nat.eqb n x then l else x :: remove1 n l end.
Definition sys_nodes (s : cg) : list nat := remove1 0 (g_nodes (c_graph s)).
(** lines 646-677: the keys of circuit_params, in the order in which they are
    added; 679-688 for the resonators *)
Definition opt1 {A} (o : option A) : list A := match o with Some x => [x] | None => [] end.
Definition has_resonators (s : cg) : bool := existsb (fun r => match r with Some _ => true | None => false end) (dvals (c_res s)).
Definition resonator_vars (r : resonator) : list string := [r_coupling r; r_fr r; r_Zr r; r_Cr r; r_Lr r; r_gC r; r_frl r; r_Zrl r].
Definition registered_names (s : cg) : list string :=
  dvals (edge_map (c_graph s)) ++ dkeys (c_coupled s)
  ++ flat_map (fun b => opt1 (cb_cap b)) (dvals (c_cbias s)) ++ flat_map (fun b => opt1 (fb_mutual b)) (dvals (c_fbias s)).
Definition param_names (s : cg) : list string :=
  registered_names s ++ flat_map (fun r => match r with Some r => resonator_vars r | None => [] end) (dvals (c_res s)).
(** circuit_params[c] *)
Definition param (s : cg) (c : string) : res string := if mem c (param_names s) then Ok c else Err KeyError.

(** circuit_graph.edges(node, keys=True): networkx reports every branch at the
    node once, from that node *)
Definition edges_at (n : nat) (es : list branch) : list edge :=
  flat_map (fun m => map (fun b => fst (orient fst flip_branch n b)) (filter (joins fst n m) es)) (nbrs fst n es).
Definition component_of (s : cg) (e : edge) : res string := match dget (c_map s) e with Some c => Ok c | None => Err KeyError end.

(** lines 137-179 [getCapacitanceMatrix], before the entries are replaced by
    parameters *)
Definition cap_diag (s : cg) (M : mat) (x : nat * nat) : res mat :=
  let (i, node) := x in
  bind (foldM (fun M e => bind (component_of s e) (fun c => bind (letter_is "C" c) (fun b =>
          if b then bind (param s c) (fun c => Ok (add_at M i i (TmC c) 1)) else Ok M))) (edges_at node (g_edges (c_graph s))) M) (fun M =>
  bind (match dget (c_cbias s) node with
        | Some b => match cb_cap b with Some c => bind (param s c) (fun c => Ok (add_at M i i (TmC c) 1)) | None => Ok M end
        | None => Ok M
        end) (fun M =>
  match dget (c_res s) node with
  | None => Err KeyError
  | Some None => Ok M
  | Some (Some r) => bind (param s (r_coupling r)) (fun cc => bind (param s (r_Cr r)) (fun cr => Ok (add_at M i i (TmR cc cr) 1)))
  end)).
Definition cap_off (s : cg) (nodes : list nat) (M : mat) (e : edge) : res mat :=
  bind (component_of s e) (fun c => bind (letter_is "C" c) (fun b =>
  if b then
    if Nat.eqb (src e) 0 || Nat.eqb (dst e) 0 then Ok M
    else bind (index_of (src e) nodes) (fun i => bind (index_of (dst e) nodes) (fun j => bind (param s c) (fun c =>
         Ok (add_at (add_at M i j (TmC c) (-1)) j i (TmC c) (-1)))))
  else Ok M)).
Definition capacitance_matrix (s : cg) : res mat :=
  let nodes := sys_nodes s in
  bind (foldM (cap_diag s) (enumerate nodes) mat0) (foldM (cap_off s nodes) (dkeys (edge_map (c_graph s)))).

(** lines 636-644 [_get_topology_matrices]: networkx's oriented incidence
    matrix is -1 at the source and 1 at the target, 0 for a branch from a node
    to itself; its sign is changed and the row of ground removed. The rows
    follow sc_spanning_tree_wc.nodes, which is circuit_graph.nodes
    (circuit_graph.py 423, 476-477). *)
Definition rbn (nodes : list nat) (edges : list edge) (i j : nat) : Z :=
  match nth_error nodes i, nth_error edges j with
  | Some n, Some e => if Nat.eqb (src e) (dst e) then 0 else if Nat.eqb (src e) n then 1 else if Nat.eqb (dst e) n then -1 else 0
  | _, _ => 0
  end%Z.
(** lines 240-245 [getFluxVector] in branch mode: Rnb * P; also 247-252 *)
Definition branch_flux (nodes : list nat) (edges : list edge) (P : nat -> R) (j : nat) : R :=
  sumn (A := R_rng) (List.length nodes) (fun i => IZR (rbn nodes edges i j) * P i)%R.

(** lines 315-342 [getInductanceMatrix] in branch mode: 0 or a symbol. Line
    331 uses a dict as a key. *)
Definition imat := nat -> nat -> option string.
Definition put_at (M : imat) (i j : nat) (c : string) : imat :=
  fun i' j' => if Nat.eqb i i' && Nat.eqb j j' then Some c else M i' j'.
Definition ind_diag (s : cg) (M : imat) (x : nat * edge) : res imat :=
  let (i, e) := x in
  bind (component_of s e) (fun c => bind (letter_is "L" c) (fun b =>
  if b then bind (param s c) (fun l =>
    match dget (c_fbias s) e with
    | None => Ok (put_at M i i l)
    | Some fb => match fb_mutual fb with None => Ok (put_at M i i l) | Some _ => Err TypeError end
    end)
  else Ok M)).
Definition ind_off (s : cg) (edges : list edge) (M : imat) (x : string * (edge * edge)) : res imat :=
  bind (index_of (fst (snd x)) edges) (fun i => bind (index_of (snd (snd x)) edges) (fun j =>
  bind (param s (fst x)) (fun c => Ok (put_at (put_at M i j c) j i c)))).
Definition inductance_matrix (s : cg) (edges : list edge) : res imat :=
  bind (foldM (ind_diag s) (enumerate edges) (fun _ _ => None)) (foldM (ind_off s edges) (c_coupled s)).
Definition imat_val (val : string -> R) (M : imat) : nat -> nat -> R := fun i j => match M i j with Some c => val c | None => 0%R end.

(** A real pseudo-inverse of an n x n matrix: the Penrose equations. *)
Definition penrose (n : nat) (A P : nat -> nat -> R) : Prop :=
  forall i j, i < n -> j < n ->
    mmul (A := R_rng) n (mmul (A := R_rng) n A P) A i j = A i j /\ mmul (A := R_rng) n (mmul (A := R_rng) n P A) P i j = P i j /\
    mmul (A := R_rng) n A P i j = mmul (A := R_rng) n A P j i /\ mmul (A := R_rng) n P A i j = mmul (A := R_rng) n P A j i.
(** lines 363-369 [getInverseInductanceMatrix] in node mode: Rbn * pinv * Rnb *)
Definition inverse_inductance (nodes : list nat) (edges : list edge) (P : nat -> nat -> R) (i j : nat) : R :=
  let m := List.length edges in
  sumn (A := R_rng) m (fun k => sumn (A := R_rng) m (fun l => IZR (rbn nodes edges i k) * P k l * IZR (rbn nodes edges j l)))%R.
(** The same as sympy expressions when there is no mutual inductance: the
    pseudo-inverse of a diagonal matrix of symbols and zeros. *)
Definition linv_diag (nodes : list nat) (edges : list edge) (M : imat) (i j : nat) : lin :=
  fold_left (fun l k => match M k k with Some c => ladd l (TmL c) (rbn nodes edges i k * rbn nodes edges j k) | None => l end)
    (seq 0 (List.length edges)) [].

(** lines 535-540 [getFluxEnergies], 298-313 [getFluxBiasVectorInd]; b j is
    flux_bias of branch j (its prefactor is 1) *)
Definition ind_bias (s : cg) (edges : list edge) (b : nat -> R) (j : nat) : R :=
  match nth_error edges j with
  | Some e => match isInductiveEdge s e with Ok true => b j | _ => 0%R end
  | None => 0%R
  end.
Definition node_bias (nodes : list nat) (edges : list edge) (b : nat -> R) (i : nat) : R :=
  sumn (A := R_rng) (List.length edges) (fun j => IZR (rbn nodes edges i j) * b j)%R.
Definition flux_energy (s : cg) (edges : list edge) (P : nat -> nat -> R) (b phi : nat -> R) : R :=
  let nodes := sys_nodes s in let n := List.length nodes in
  let y i := (phi i + node_bias nodes edges (ind_bias s edges b) i)%R in
  (1 / 2 * sumn (A := R_rng) n (fun i => sumn (A := R_rng) n (fun j => y i * inverse_inductance nodes edges P i j * y j)))%R.

(** ** Parameters for matrix entries *)
(** "%s_{%s}" % (c[0], c[1:]) *)
Definition sym_of (c : string) : string := match c with EmptyString => "" | String a r => String a ("_{" ++ r ++ "}")%string end.
Definition term_tree (t : term) : tree :=
  match t with
  | TmC c => TSym (sym_of c)
  | TmL l => TInv (TSym (sym_of l))
  | TmR a b => TMul (TMul (TSym (sym_of a)) (TSym (sym_of b))) (TInv (TAdd (TSym (sym_of a)) (TSym (sym_of b))))
  end.
(** None: the entry is 0 *)
Fixpoint lin_tree (l : lin) : option tree :=
  match l with
  | [] => None
  | (t, z) :: r => let a := TMul (TNum z) (term_tree t) in Some (match lin_tree r with None => a | Some b => TAdd a b end)
  end.
(** "C%i%i" and so on *)
Definition mat_name (p sfx : string) (i j : nat) : string := (p ++ nat_str i ++ nat_str j ++ sfx)%string.
Definition upper (n : nat) : list (nat * nat) := flat_map (fun i => map (fun j => (i, j)) (seq i (n - i))) (seq 0 n).
(** a step that may raise, keeping what was done before *)
Definition stepM {A S} (f : S -> A -> S * res unit) (l : list A) (s : S) : S * res unit :=
  fold_left (fun acc x => match acc with (s, Ok _) => f s x | _ => acc end) l (s, Ok tt).
(** lines 181-192, 211-224, 350-359, 375-384. [name] is the format of the
    parameter names; the iteration order of free_symbols is [ord]. *)
Definition parameterise_entry (ord : ordr) (name : nat -> nat -> string) (M : nat -> nat -> option tree) (st : cst tree_alg) (x : nat * nat)
  : cst tree_alg * res unit :=
  match M (fst x) (snd x) with
  | None => (st, Ok tt)
  | Some e =>
      if List.length (tfree e) <? 2 then (st, Ok tt) else
      let nm := name (fst x) (snd x) in
      match addParameter st nm None with
      | (st, Err e) => (st, Err e)
      | (st, Ok _) => addParameterisation ord st nm e
      end
  end.
Definition parameterise (ord : ordr) (name : nat -> nat -> string) (n : nat) (M : nat -> nat -> option tree) (st : cst tree_alg)
  : cst tree_alg * res unit := stepM (parameterise_entry ord name M) (upper n) st.

(** ** The object *)
Inductive mode := Charge | Oscillator.
Record ssys := mkss {
  ss_cg : cg;
  ss_nodes : list nat;
  ss_edges : list edge;
  ss_par : cst tree_alg;                    (* the ParamCollection part *)
  ss_flux : dict edge (list string);        (* flux_bias: the symbols summed, [] for 0.0 *)
  ss_red : dict edge (list string);         (* red_flux_bias *)
  ss_fnames : dict string edge;             (* flux_bias_names *)
  ss_charge : dict nat (option string);     (* charge_bias *)
  ss_cnames : dict string nat;              (* charge_bias_names *)
  ss_modes : dict nat mode                  (* coordinate_modes *)
}.

(** lines 835-858: the loop over the indices; z i j: Linv[i, j] == 0. *)
Fixpoint modes_loop (fuel n : nat) (z : nat -> nat -> bool) (nodes : list nat) (index : nat) (ch : list nat) (d : dict nat mode) : res (dict nat mode) :=
  if forallb (fun i => mem i ch) (seq 0 n) then Ok d else
  match fuel with
  | 0 => Err Diverges
  | S fuel =>
      match nth_error nodes index with
      | None => Err IndexError
      | Some v =>
          if z index index then modes_loop fuel n z nodes (S index) (index :: ch) (dset d v Charge)
          else
            let later := filter (fun i => negb (z index i)) (seq (S index) (n - S index)) in
            let d := fold_left (fun d i => dset d (nth i nodes 0) Charge) later d in
            let d := dset d v (match later with [] => Oscillator | _ => Charge end) in
            modes_loop fuel n z nodes (S index) (index :: later ++ ch) d
      end
  end.
Definition coordinate_modes (z : nat -> nat -> bool) (nodes : list nat) : res (dict nat mode) :=
  let n := List.length nodes in modes_loop n n z nodes 0 [] [].

(** The sympy entries of Linv: computed without mutual inductances, otherwise
    given. *)
Definition linv_tree (oracle : imat -> nat -> nat -> option tree) (s : cg) (nodes : list nat) (edges : list edge) (M : imat) (i j : nat) : option tree :=
  match c_coupled s with [] => lin_tree (linv_diag nodes edges M i j) | _ => oracle M i j end.

Definition add_all (names : list (string * option string)) (st : cst tree_alg) : cst tree_alg * res unit :=
  stepM (fun st x => addParameter st (fst x) (snd x)) names st.
(** lines 757-775 [_create_flux_bias_symbols]: flux_bias[edge] += ... raises
    KeyError when the edge is not one of the branches *)
Definition flux_symbols (s : cg) (edges : list edge) : res (dict edge (list string)) :=
  foldM (fun d x => match dget d (fst x) with None => Err KeyError | Some l => Ok (dset d (fst x) (l ++ [fb_suffix (snd x)])) end)
    (c_fbias s) (fold_left (fun d e => dset d e []) edges []).
(** lines 777-792 [_create_charge_bias_symbols] *)
Definition charge_symbols (s : cg) (nodes : list nat) : dict nat (option string) :=
  fold_left (fun d x => dset d (fst x) (Some (cb_suffix (snd x)))) (c_cbias s) (fold_left (fun d n => dset d n None) nodes []).
Definition ok_st {A} (x : A * res unit) : res A := match snd x with Ok _ => Ok (fst x) | Err e => Err e end.

(** lines 15-88 [__init__] with mode_transform=False, for a circuit without
    resonators (otherwise [None]: not modelled). Simplifications: the sympy
    and numpy calls on matrices with no rows or columns are taken to return;
    lines 553-633 raise nothing and define nothing used below. *)
Definition new_system (ord : ordr) (oracle : imat -> nat -> nat -> option tree) (s : cg) : option (res ssys) :=
  if negb (mem 0 (g_nodes (c_graph s))) then Some (Err PlainException) else
  match c_wc s with
  | None => Some (Err AttributeError)
  | Some edges =>
      if has_resonators s then None else Some (
      let nodes := sys_nodes s in
      bind (ok_st (add_all (map (fun c => (c, None)) (registered_names s)) (mkcst [] [] [] [] []))) (fun st =>
      bind (flux_symbols s edges) (fun fl =>
      bind (ok_st (add_all (map (fun b => ("phi" ++ fb_suffix b, Some ("\Phi_{" ++ fb_suffix b ++ "}")))%string (dvals (c_fbias s))) st)) (fun st =>
      bind (ok_st (add_all (map (fun b => ("Q" ++ cb_suffix b, Some ("Q_{" ++ cb_suffix b ++ "}")))%string (dvals (c_cbias s))) st)) (fun st =>
      bind (inductance_matrix s edges) (fun M =>
      let L := linv_tree oracle s nodes edges M in
      bind (ok_st (parameterise ord (mat_name "L" "i") (List.length nodes) L st)) (fun st =>
      bind (coordinate_modes (fun i j => match L i j with None => true | Some _ => false end) nodes) (fun modes =>
      Ok (mkss s nodes edges st fl fl
            (fold_left (fun d x => dset d ("phi" ++ fb_suffix (snd x))%string (fst x)) (c_fbias s) [])
            (charge_symbols s nodes)
            (fold_left (fun d x => dset d ("Q" ++ cb_suffix (snd x))%string (fst x)) (c_cbias s) []) modes)))))))))
  end.

(** lines 253-277 [moveFluxBias] (printing left out) *)
Definition set_bias (y : ssys) f r : ssys :=
  mkss (ss_cg y) (ss_nodes y) (ss_edges y) (ss_par y) f r (ss_fnames y) (ss_charge y) (ss_cnames y) (ss_modes y).
Definition moveFluxBias (y : ssys) (a b : edge) : ssys * res unit :=
  if negb (mem a (ss_edges y)) then (y, Err PlainException)
  else if negb (mem b (ss_edges y)) then (y, Err PlainException)
  else match dget (ss_flux y) a with
       | None => (y, Err KeyError)
       | Some [] => (y, Err PlainException)
       | Some x =>
           let f := dset (dset (ss_flux y) a []) b x in
           match dget (ss_red y) a with
           | None => (set_bias y f (ss_red y), Err KeyError)
           | Some x' =>
               (set_bias y f (dset (dset (ss_red y) a []) b x'),
                match isInductiveEdge (ss_cg y) b with Ok _ => Ok tt | Err e => Err e end)
           end
       end.

(** lines 181-194: getCapacitanceMatrix with its default parameterise=True.
    The symbols put into the matrix are read after the loop (simplification:
    line 190 reads each right after its addParameter; neither call changes the
    symbol of an existing parameter). *)
Definition set_par (y : ssys) st : ssys :=
  mkss (ss_cg y) (ss_nodes y) (ss_edges y) st (ss_flux y) (ss_red y) (ss_fnames y) (ss_charge y) (ss_cnames y) (ss_modes y).
Definition with_symbols (name : nat -> nat -> string) (st : cst tree_alg) (M : nat -> nat -> option tree) (i j : nat) : option tree :=
  match M (Nat.min i j) (Nat.max i j) with
  | None => M i j
  | Some e => if List.length (tfree e) <? 2 then M i j
              else match dget (c_sym st) (name (Nat.min i j) (Nat.max i j)) with Some x => Some (TSym x) | None => None end
  end.
Definition getCapacitanceMatrix (ord : ordr) (y : ssys) : ssys * res (nat -> nat -> option tree) :=
  match capacitance_matrix (ss_cg y) with
  | Err e => (y, Err e)
  | Ok M =>
      let T i j := lin_tree (M i j) in
      match parameterise ord (mat_name "C" "") (List.length (ss_nodes y)) T (ss_par y) with
      | (st, Err e) => (set_par y st, Err e)
      | (st, Ok _) => (set_par y st, Ok (with_symbols (mat_name "C" "") st T))
      end
  end.
