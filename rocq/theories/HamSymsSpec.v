(** Specification for C125: values of the symbols of the Hamiltonian. *)
From Coq Require Import List Bool String Ascii Arith ZArith Reals.
From Verif Require Import Prelude Graph GraphSpec Symbolic SymbolicSpec SymTotal PotInSpec HamSyms.
Import ListNotations.
Open Scope string_scope.
Open Scope list_scope.
Open Scope nat_scope.

Definition sub_name (p x : string) : string := (p ++ "_{" ++ x ++ "}")%string.
(** sub gives the components, node coordinates and biases of y the values w, Q,
    F and phi, with or without the reduced flux biases; the charges and fluxes
    of the nodes are noncommutative symbols. *)
Record realises_rest (y : ssys) (w : vals) (Q F phi : nat -> R) (sub : symbol -> R) : Prop := {
  rl_par : forall a c, In (String a c) (registered_names (ss_cg y)) -> sub (true, sub_name (String a "") c) = v_par w (String a c);
  rl_charge : forall x, sub (true, sub_name "Q" x) = v_charge w x;
  rl_flux : forall x, sub (true, sub_name "\Phi" x) = v_flux w x;
  rl_nodes : forall n, In n (ss_nodes y) -> sub (false, sub_name "Q" (number_str n)) = Q n /\ sub (false, sub_name "\Phi" (number_str n)) = F n /\ sub (true, sub_name "\phi" (number_str n)) = phi n
}.
Definition realises (y : ssys) (w : vals) (Q F phi : nat -> R) (sub : symbol -> R) : Prop :=
  realises_rest y w Q F phi sub /\ forall e x, biased_at y "I" e x -> sub (true, sub_name "\phi" x) = v_redflux w x.
