(** Model of pyscqed/symbolic_system.py 679-755: the resonators coupled to a
    circuit. Values of expressions are reals, as in Symbolic.v. *)
From Coq Require Import List Bool String Ascii Arith Reals.
From Verif Require Import Prelude Param Expr Coll Mat Graph Symbolic Sweep.
Import ListNotations.
Open Scope string_scope.
Open Scope list_scope.
Open Scope nat_scope.

(** lines 697-699: the resonators of resonators_cap, in its order *)
Definition resonators (s : cg) : list (nat * resonator) := flat_map (fun x => match snd x with Some r => [(fst x, r)] | None => [] end) (c_res s).
(** line 696: max raises on an empty list *)
Definition next_node (s : cg) : res nat := match sys_nodes s with [] => Err ValueError | l => Ok (S (list_max l)) end.
(** lines 697-709: for each resonator the branches on the copy CG, then the
    parameters in the collection of the outer system. The k-th addBranch
    iterates sets in the order [o k]. *)
Definition rstate := (cg * cst tree_alg)%type.
Definition with_branch_of (o : orders) (x : rstate) (a b : nat) (c : string) : rstate * res unit :=
  match addBranch o (fst x) a b c with (s, r) => ((s, snd x), r) end.
Definition with_params (x : rstate) (r : resonator) : rstate * res unit :=
  match add_all (map (fun v => (v, None)) (resonator_vars r)) (snd x) with (st, r) => ((fst x, st), r) end.
Definition andthen {A} (p : A * res unit) (f : A -> A * res unit) : A * res unit := match p with (a, Ok _) => f a | (a, Err e) => (a, Err e) end.
Fixpoint attach (o : nat -> orders) (k next : nat) (l : list (nat * resonator)) (x : rstate) : rstate * res unit :=
  match l with
  | [] => (x, Ok tt)
  | (node, r) :: l =>
      andthen (with_branch_of (o k) x node next (r_coupling r)) (fun x =>
      andthen (with_branch_of (o (k + 1)) x next 0 (r_Cr r)) (fun x =>
      andthen (with_branch_of (o (k + 2)) x next 0 (r_Lr r)) (fun x =>
      andthen (with_params x r) (attach o (k + 3) (S next) l))))
  end.
(** lines 692-709: the copy with the resonators as branches *)
Definition extended (o : nat -> orders) (s : cg) (st : cst tree_alg) : rstate * res unit :=
  let x := (removeAllResonators s, st) in
  match next_node s with
  | Err e => (x, Err e)
  | Ok next => attach o 0 next (resonators s) x
  end.
(** lines 707-708 coupled_nodes *)
Fixpoint coupled_nodes (next : nat) (l : list (nat * resonator)) : list (nat * (nat * nat)) :=
  match l with [] => [] | (node, _) :: l => (node, (node, next)) :: coupled_nodes (S next) l end.
(** lines 710-715 coupled_indices; e is the extended circuit *)
Definition coupled_indices (s e : cg) : res (list (nat * (nat * nat))) :=
  bind (next_node s) (fun next =>
  mapM (fun x => bind (index_of (fst (snd x)) (sys_nodes e)) (fun i => bind (index_of (snd (snd x)) (sys_nodes e)) (fun j => Ok (fst x, (i, j)))))
    (coupled_nodes next (resonators s))).

(** The inverse of an n x n matrix: sympy's Matrix.inv (line 209), whose
    entries are expanded in 729-730. *)
Definition inverse (n : nat) (M K : nat -> nat -> R) : Prop :=
  forall i j, i < n -> j < n -> mmul (A := R_rng) n M K i j = mid (A := R_rng) i j /\ mmul (A := R_rng) n K M i j = mid (A := R_rng) i j.
(** lines 726-740: loaded frequency, loaded impedance and coupling, from Cinv
    and Linv of the extended circuit *)
Record loaded := mkload { ld_fr : R; ld_Zr : R; ld_g : R }.
Definition loaded_of (K L : nat -> nat -> R) (i j : nat) : loaded :=
  let frd := sqrt (K j j * L j j) in
  let Zrd := sqrt (K j j / L j j) in
  mkload frd Zrd (K i j / sqrt (2 * Zrd)).
(** lines 747-748: capacitance and inductance from the design values *)
Definition design_C (fr Zr : R) : R := (/ 2 / (PI * fr * Zr))%R.
Definition design_L (fr Zr : R) : R := (/ 2 * Zr / (PI * fr))%R.

(** lines 15-69 [__init__] of a circuit with resonators, up to the inverse of
    the capacitance matrix of the extended circuit: [Some] if it raises before,
    [None] otherwise (what follows is not modelled here). The iteration orders
    inside the extended system are [ord], as in [new_system]. *)
Definition create_symbols (s : cg) (edges : list edge) : res (cst tree_alg) :=
  bind (ok_st (add_all (map (fun c => (c, None)) (registered_names s)) (mkcst [] [] [] [] []))) (fun st =>
  bind (flux_symbols s edges) (fun _ =>
  bind (ok_st (add_all (map (fun b => ("phi" ++ fb_suffix b, Some ("\Phi_{" ++ fb_suffix b ++ "}")))%string (dvals (c_fbias s))) st)) (fun st =>
  ok_st (add_all (map (fun b => ("Q" ++ cb_suffix b, Some ("Q_{" ++ cb_suffix b ++ "}")))%string (dvals (c_cbias s))) st)))).
Definition init_resonators (ord : ordr) (oracle : imat -> nat -> nat -> option tree) (o : nat -> orders) (s : cg) : option exn :=
  if negb (mem 0 (g_nodes (c_graph s))) then Some PlainException else
  match c_wc s with
  | None => Some AttributeError
  | Some edges =>
      match create_symbols s edges with
      | Err x => Some x
      | Ok st =>
          match extended o s st with
          | (_, Err x) => Some x
          | ((e, _), Ok _) =>
              match new_system ord oracle e with
              | Some (Err x) => Some x
              | Some (Ok y) => match getCapacitanceMatrix ord y with (_, Err x) => Some x | _ => None end
              | None => None
              end
          end
      end
  end.
