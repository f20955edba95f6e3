(** Model of pyscqed/symbolic_system.py 542-545: getClassicalHamiltonian() at
    given values of its sympy symbols. Two sympy symbols are the same if they
    have the same name and are both commutative or both not. *)
From Coq Require Import List Bool String Ascii Arith ZArith Reals.
From Verif Require Import Prelude Mat Graph Symbolic SymHam SymTotal.
Import ListNotations.
Open Scope string_scope.
Open Scope list_scope.
Open Scope nat_scope.

(** commutative, name *)
Definition symbol := (bool * string)%type.
(** line 651 and 656-670: a component *)
Definition component_symbol (c : string) : symbol := (true, sym_of c).
(** lines 768, 770, 786: the biases *)
Definition flux_bias_symbol (x : string) : symbol := (true, "\Phi_{" ++ x ++ "}")%string.
Definition redflux_bias_symbol (x : string) : symbol := (true, "\phi_{" ++ x ++ "}")%string.
Definition charge_bias_symbol (x : string) : symbol := (true, "Q_{" ++ x ++ "}")%string.
(** lines 569-577: node_dofs[node][0] and [1] *)
Definition flux_symbol (n : nat) : symbol := (false, "\Phi_{" ++ nat_str n ++ "}")%string.
Definition charge_symbol (n : nat) : symbol := (false, "Q_{" ++ nat_str n ++ "}")%string.
(** line 244 [getRedFluxVector] *)
Definition redflux_symbol (n : nat) : symbol := (true, "\phi_{" ++ nat_str n ++ "}")%string.
(** .subs(..) of getClassicalHamiltonian(); the reduced charge biases are not in
    it. *)
Definition hamiltonian_subs (y : ssys) (Cinv P : nat -> nat -> R) (sub : symbol -> R) : res R :=
  getClassicalHamiltonian y
    (mkvals (fun c => sub (component_symbol c)) (fun x => sub (charge_bias_symbol x)) (fun x => sub (flux_bias_symbol x)) (fun x => sub (redflux_bias_symbol x)) (fun _ => 0%R))
    Cinv P (fun n => sub (charge_symbol n)) (fun n => sub (flux_symbol n)) (fun n => sub (redflux_symbol n)).
