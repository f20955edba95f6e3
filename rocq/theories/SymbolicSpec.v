(** Vocabulary for the properties of SymbolicSystem: energies of a circuit
    written directly from its branches, and capacitive connection. *)
From Coq Require Import List Bool String Ascii Arith Reals.
From Verif Require Import Prelude Param Expr Coll Mat Graph GraphSpec Symbolic.
Import ListNotations.
Open Scope string_scope.
Open Scope list_scope.
Open Scope nat_scope.

Definition Rsum (l : list R) : R := fold_right Rplus 0%R l.
(** Branches whose component starts with the given letter. *)
Definition letter (a : ascii) (b : branch) : bool := match snd b with String c _ => Ascii.eqb c a | EmptyString => false end.
Definition branches_of (a : ascii) (g : mgraph) : list branch := filter (letter a) (g_edges g).
Definition no_capacitor_loop (g : mgraph) : Prop := forall b, In b (branches_of "C" g) -> src (fst b) <> dst (fst b).

(** Capacitors from a node to ground other than branches: gate capacitors, and
    a coupling capacitor in series with its resonator's capacitance. *)
Definition gates (s : cg) : list (nat * string) := flat_map (fun x => match cb_cap (snd x) with Some c => [(fst x, c)] | None => [] end) (c_cbias s).
Definition coupled_resonators (s : cg) : list (nat * resonator) := flat_map (fun x => match snd x with Some r => [(fst x, r)] | None => [] end) (c_res s).
Section Energy.
  Variable val : string -> R.
  Definition series (a b : R) : R := (a * b / (a + b))%R.
  (** The electrostatic form for node voltages y, x with ground at 0. *)
  Definition electrostatic (s : cg) (y x : nat -> R) : R :=
    (Rsum (map (fun b => let '((p, q, _), c) := b in val c * (y p - y q) * (x p - x q)) (branches_of "C" (c_graph s))) +
     Rsum (map (fun g => val (snd g) * y (fst g) * x (fst g)) (gates s)) +
     Rsum (map (fun r => series (val (r_coupling (snd r))) (val (r_Cr (snd r))) * y (fst r) * x (fst r)) (coupled_resonators s)))%R.
  (** The energy of the inductors (times 2) for node fluxes f with ground at 0. *)
  Definition inductive_form (g : mgraph) (f : nat -> R) : R :=
    Rsum (map (fun b => let '((p, q, _), c) := b in (f p - f q) * (f p - f q) / val c)%R (branches_of "L" g)).
  Definition positive_caps (s : cg) : Prop :=
    (forall b, In b (branches_of "C" (c_graph s)) -> (0 < val (snd b))%R) /\ (forall g, In g (gates s) -> (0 < val (snd g))%R) /\
    (forall r, In r (coupled_resonators s) -> (0 < val (r_coupling (snd r)) /\ 0 < val (r_Cr (snd r)))%R).
End Energy.
(** y^T M x for a matrix over the given nodes *)
Definition form (nodes : list nat) (M : nat -> nat -> R) (y x : nat -> R) : R :=
  let n := List.length nodes in
  sumn (A := R_rng) n (fun i => sumn (A := R_rng) n (fun j => y (nth i nodes 0%nat) * M i j * x (nth j nodes 0%nat)))%R.
(** (M x)_i *)
Definition applied (nodes : list nat) (M : nat -> nat -> R) (x : nat -> R) (i : nat) : R :=
  sumn (A := R_rng) (List.length nodes) (fun j => M i j * x (nth j nodes 0%nat))%R.
(** The node is joined by capacitors to ground, or to a node with a gate or
    resonator capacitor. *)
Definition grounded (s : cg) (n : nat) : Prop :=
  exists m, conn (map fst (branches_of "C" (c_graph s))) n m /\ (m = 0 \/ In m (map fst (gates s)) \/ In m (map fst (coupled_resonators s))).

(** A walk along branches, each in its direction (true) or against it. *)
Fixpoint walk (w : list (bool * edge)) (a b : nat) : Prop :=
  match w with
  | [] => a = b
  | (true, e) :: w => a = src e /\ walk w (dst e) b
  | (false, e) :: w => a = dst e /\ walk w (src e) b
  end.

(** Inductors of a list of branches that touch node n. *)
Definition touches (n : nat) (e : edge) : Prop := src e = n \/ dst e = n.
(** Inductive energy of the branches [edges], each with its bias added to its
    flux (times 2). *)
Definition biased_form (val : string -> R) (s : cg) (edges : list edge) (bias : edge -> R) (f : nat -> R) : R :=
  Rsum (map (fun e => match dget (c_map s) e with
                      | Some c => if letter "L" (e, c) then (f (src e) - f (dst e) + bias e) * (f (src e) - f (dst e) + bias e) / val c else 0
                      | None => 0 end)%R edges).
(** The branch e is an inductor. *)
Definition inductor_at (s : cg) (e : edge) : Prop := exists c, dget (c_map s) e = Some c /\ letter "L" (e, c) = true.

(** Calls in a construction: branches; biases without mutual inductance. *)
Definition bias_call (o : gop) : Prop := match o with GFlux _ _ m => m = None | GCharge _ _ _ => True | _ => False end.
(** The strings handed to a call. *)
Definition arg_strings (a : pyarg) : list string := match a with PStr x => [x] | PNotStr => [] end.
Definition call_strings (o : gop) : list string :=
  match o with
  | GBranch _ _ _ c => [c]
  | GCouple a b m => [a; b; m]
  | GRes _ c => [c]
  | GRemoveRes => []
  | GFlux c a m => c :: arg_strings a ++ opt_list m
  | GCharge _ a c => arg_strings a ++ opt_list c
  end.
Fixpoint spaceless (c : string) : Prop := match c with EmptyString => True | String a r => a <> " "%char /\ spaceless r end.

(** ** Systems *)
(** A SymbolicSystem of a circuit after any calls of moveFluxBias. *)
Inductive system : ssys -> Prop :=
| system_new ord oracle s y : circuit s -> new_system ord oracle s = Some (Ok y) -> system y
| system_move y a b : system y -> system (fst (moveFluxBias y a b)).
(** All bias terms of the system, over all branches. *)
Definition bias_terms (y : ssys) : list string := List.concat (dvals (ss_flux y)).
(** An inductor joins the nodes a and b. *)
Definition joined (s : cg) (a b : nat) : Prop :=
  exists x, In x (branches_of "L" (c_graph s)) /\ (src (fst x) = a /\ dst (fst x) = b \/ src (fst x) = b /\ dst (fst x) = a).
(** No component is called [p] followed by two numbers below the number of
    nodes other than ground, and [sfx]. *)
Definition number_str (n : nat) : string := dec (N.of_nat n).
Definition unnumbered (s : cg) (p sfx : string) : Prop :=
  forall c i j, In c (element_names s) -> i <= j -> S j < List.length (g_nodes (c_graph s)) -> c <> (p ++ number_str i ++ number_str j ++ sfx)%string.
(** The value of an expression over the reals. *)
Fixpoint rval (v : string -> R) (e : tree) : R :=
  match e with
  | TNum z => IZR z
  | TSym x => v x
  | TAdd a b => rval v a + rval v b
  | TMul a b => rval v a * rval v b
  | TInv a => / rval v a
  end%R.
Definition entry_val (v : string -> R) (e : option tree) : R := match e with Some e => rval v e | None => 0%R end.
(** The values of the symbols agree with the parameterisations of the
    collection: a parameterised symbol has the value of its expression. *)
Definition consistent (v : string -> R) (st : cst tree_alg) : Prop :=
  forall k sy e names, dget (c_sym st) k = Some sy -> dget (c_par st) k = Some (e, names) -> v sy = rval v e.

(** Sum of the biases of the inductors at a node: those directed away from it
    minus those directed to it. *)
Definition shift (s : cg) (edges : list edge) (bias : edge -> R) (n : nat) : R :=
  if Nat.eqb n 0 then 0%R else
  Rsum (map (fun e => match dget (c_map s) e with
                      | Some c => if letter "L" (e, c) then
                                    if Nat.eqb (src e) (dst e) then 0 else if Nat.eqb (src e) n then bias e else if Nat.eqb (dst e) n then - bias e else 0
                                  else 0
                      | None => 0 end)%R edges).
(** The branch joins ground to a node, and no other inductor touches that
    node. *)
Definition alone (s : cg) (edges : list edge) (e : edge) : Prop :=
  (src e = 0 /\ dst e <> 0 \/ dst e = 0 /\ src e <> 0) /\
  forall e', In e' edges -> e' <> e -> inductor_at s e' -> forall n, n <> 0 -> touches n e -> ~ touches n e'.
(** Capacitors from a node to itself count negatively in the matrix. *)
Definition self_capacitors (val : string -> R) (s : cg) (y x : nat -> R) : R :=
  Rsum (map (fun b => let '((p, q, _), c) := b in if Nat.eqb p q then val c * (y p * x p) else 0)%R (branches_of "C" (c_graph s))).
