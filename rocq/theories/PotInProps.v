(** C124: the inputs and values of the classical potential function. *)
From Coq Require Import List Bool String Ascii Arith ZArith Reals.
From Verif Require Import Prelude Mat Graph GraphSpec GraphProofs Coll Sweep Symbolic SymbolicSpec SymHam SymHamSpec MoveSpec PotIn PotInSpec PotInProofs PotInEx.
Import ListNotations.
Open Scope string_scope.
Open Scope list_scope.
Open Scope nat_scope.

(** C124. If no inductor is biased and no bias of a junction has the number of a
    node as suffix: the inputs are one flux for each node and each bias, 0 by
    default. The value at any inputs, in units of the flux quantum, is the
    inductive energy minus the energy of the junctions (as in C63, where the sign
    is discussed), up to the self-loops of the circuit. *)
Theorem C124_inputs_partial : forall y sord val Ej El Linv, system y -> set_order sord -> all_values y val ->
  (forall n e, In n (ss_nodes y) -> ~ biased_at y "I" e (number_str n)) -> (forall e x, ~ biased_at y "L" e x) ->
  exists p d, getClassicalPotentialFunction sord y val Ej El Linv = Ok (p, d) /\
  NoDup (dkeys d) /\ (forall k, In k (dkeys d) <-> input_name y k) /\ (forall k, In k (dkeys d) -> dget d k = Some 0%R) /\
  (forall ph, exists K, (no_lone_selfloop (noncap (c_graph (ss_cg y))) -> K = 0%R) /\
    forall d', (forall k, input_name y k -> In k (dkeys d')) -> (forall e x, biased_at y "I" e x -> input d' ("phi" ++ x) = ph x) ->
    potential_at p d' = Ok (- Ej * (junction_energy (value_of val) (fun x => 2 * PI * ph x) (ss_flux y) (c_graph (ss_cg y)) (fun n => 2 * PI * node_input d' n) + K)
      + El * energy (List.length (ss_nodes y)) Linv (fun i => node_input d' (nth i (ss_nodes y) 0%nat)))%R) /\
  (forall d' k, input_name y k -> ~ In k (dkeys d') -> potential_at p d' = Err AssertionError).
Proof. intros y sord val Ej El Linv Hy Hs Hv Hf Hp. exact (result_ok y Hy sord Hs val Ej El Linv Hv Hf Hp). Qed.
Print Assumptions C124_inputs_partial.
Example C124_inputs_nonvacuous : exists y, system y /\ ss_nodes y = [1] /\ biased_at y "I" (1, 0, 2) "e" /\ set_order anyset /\ all_values y ones /\
  (forall n e, In n (ss_nodes y) -> ~ biased_at y "I" e (number_str n)) /\ (forall e x, ~ biased_at y "L" e x).
Proof. destruct good_system as (y & Hy & E & Hf & Hp & Hb). exact (ex_intro _ y (conj Hy (conj E (conj Hb (conj anyset_ok (conj (ones_ok y) (conj Hf Hp))))))). Qed.

(** Some parameter has no value: AssertionError. *)
Theorem C124_unset : forall y sord val Ej El Linv, ~ all_values y val -> getClassicalPotentialFunction sord y val Ej El Linv = Err AssertionError.
Proof. intros y sord val Ej El Linv H. exact (unset y sord val Ej El Linv H). Qed.
Print Assumptions C124_unset.
Example C124_unset_nonvacuous : exists y, system y /\ ~ all_values y (fun _ => None).
Proof. exact unset_system. Qed.

(** A junction's bias with the number of a connected node as suffix: no
    function, whatever the values. *)
Theorem C124_suffix_exact : forall y sord val Ej El Linv n e f, system y -> set_order sord -> all_values y val ->
  In n (ss_nodes y) -> biased_at y "I" f (number_str n) -> In e (ss_edges y) -> src e <> dst e -> src e = n \/ dst e = n ->
  getClassicalPotentialFunction sord y val Ej El Linv = Err SyntaxError.
Proof. intros y sord val Ej El Linv n e f Hy Hs Hv Hn Hf He Hd Ho. exact (clash y Hy sord Hs val Ej El Linv n e f Hv Hn Hf He Hd Ho). Qed.
Print Assumptions C124_suffix_exact.
Example C124_suffix_nonvacuous : exists y, system y /\ set_order anyset /\ all_values y ones /\ In 1 (ss_nodes y) /\ biased_at y "I" (1, 0, 2) (number_str 1) /\ In (1, 0, 2) (ss_edges y).
Proof. destruct clash_system as (y & Hy & Hn & Hb & He). exact (ex_intro _ y (conj Hy (conj anyset_ok (conj (ones_ok y) (conj Hn (conj Hb He)))))). Qed.

(** A biased inductor between two nodes, one of which has a nonzero element in
    the inverse inductance matrix: the same. *)
Theorem C124_inductor_exact : forall y sord val Ej El Linv e x i j, system y -> set_order sord -> all_values y val -> biased_at y "L" e x -> src e <> dst e ->
  nth_error (ss_nodes y) i = Some (src e) \/ nth_error (ss_nodes y) i = Some (dst e) -> j < List.length (ss_nodes y) -> El <> 0%R -> Linv i j <> 0%R ->
  getClassicalPotentialFunction sord y val Ej El Linv = Err SyntaxError.
Proof. intros y sord val Ej El Linv e x i j Hy Hs Hv Hb Hd Hi Hj HE HL. exact (biased_inductor y Hy sord Hs val Ej El Linv e x i j Hv Hb Hd Hi Hj HE HL). Qed.
Print Assumptions C124_inductor_exact.
Example C124_inductor_nonvacuous : exists y, system y /\ set_order anyset /\ all_values y ones /\ biased_at y "L" (0, 1, 1) "e" /\ nth_error (ss_nodes y) 0 = Some (dst (0, 1, 1)) /\ 0 < List.length (ss_nodes y).
Proof. destruct inductor_system as (y & Hy & E & Hb). exists y. rewrite E. exact (conj Hy (conj anyset_ok (conj (ones_ok y) (conj Hb (conj eq_refl (le_n 1)))))). Qed.

(** Refuted: both happen for an rf-SQUID, with the bias "1" on the junction or
    with the bias on the inductor. *)
Theorem C124_refuted : (exists y sord val Ej El Linv, system y /\ set_order sord /\ all_values y val /\ (forall e x, ~ biased_at y "L" e x) /\ getClassicalPotentialFunction sord y val Ej El Linv = Err SyntaxError) /\
  (exists y sord val Ej El Linv, system y /\ set_order sord /\ all_values y val /\ (forall n e, In n (ss_nodes y) -> ~ biased_at y "I" e (number_str n)) /\ getClassicalPotentialFunction sord y val Ej El Linv = Err SyntaxError).
Proof. exact refuted. Qed.
Print Assumptions C124_refuted.
