(** C125: the symbols of the classical Hamiltonian. *)
From Coq Require Import List Bool String Ascii Arith ZArith Reals.
From Verif Require Import Prelude Mat Graph GraphSpec GraphProofs Symbolic SymbolicSpec SymHam SymTotal MoveSpec PotInSpec PotInProofs PotInEx HamSyms HamSymsSpec HamSymsProofs.
Import ListNotations.
Open Scope string_scope.
Open Scope list_scope.
Open Scope nat_scope.

(** C125. All values of components, biases and coordinates can be substituted
    exactly if no bias of a junction has the number of a node as suffix. *)
Theorem C125_independent_exact : forall y, system y ->
  ((forall w Q F phi, exists sub, realises y w Q F phi sub) <-> (forall n e, In n (ss_nodes y) -> ~ biased_at y "I" e (number_str n))).
Proof. intros y Hy. exact (independent y Hy). Qed.
Print Assumptions C125_independent_exact.
Example C125_independent_nonvacuous : exists y, system y /\ biased_at y "I" (1, 0, 2) "e" /\ (forall n e, In n (ss_nodes y) -> ~ biased_at y "I" e (number_str n)).
Proof. destruct good_system as (y & Hy & _ & Hf & _ & Hb). exact (ex_intro _ y (conj Hy (conj Hb Hf))). Qed.

(** The Hamiltonian after such a substitution is its value at these values. *)
Theorem C125_value : forall y w Cinv P Q F phi sub, system y -> realises y w Q F phi sub -> hamiltonian_subs y Cinv P sub = getClassicalHamiltonian y w Cinv P Q F phi.
Proof. intros y w Cinv P Q F phi sub Hy HR. exact (subs_value y w Cinv P Q F phi sub Hy HR). Qed.
Print Assumptions C125_value.
Example C125_value_nonvacuous : forall w Q F phi, exists y sub, system y /\ ss_nodes y = [1] /\ realises y w Q F phi sub.
Proof. intros w Q F phi. destruct good_system as (y & Hy & E & Hf & _). destruct (proj2 (independent y Hy) Hf w Q F phi) as (sub & HS). exact (ex_intro _ y (ex_intro _ sub (conj Hy (conj E HS)))). Qed.

(** Refuted: for an rf-SQUID with the bias "1" there are values of which the
    Hamiltonian cannot be computed, whatever is substituted for the bias. *)
Theorem C125_refuted : exists y w phi, system y /\ (forall Q F, exists sub, realises_rest y w Q F phi sub) /\ forall Cinv P Q F sub, realises_rest y w Q F phi sub -> hamiltonian_subs y Cinv P sub <> getClassicalHamiltonian y w Cinv P Q F phi.
Proof. exact squid_counter. Qed.
Print Assumptions C125_refuted.
