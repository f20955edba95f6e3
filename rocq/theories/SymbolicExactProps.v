(** C50 for circuits with couplings. *)
From Coq Require Import List Bool String Ascii Arith.
From Verif Require Import Prelude Param Expr Coll CollSpec Graph GraphSpec GraphProofs Symbolic SymbolicSpec MutualSpec SymbolicExact.
Import ListNotations.
Open Scope string_scope.
Open Scope list_scope.
Open Scope nat_scope.

(** C50. For a circuit without resonators in which no component is called L..i
    with two numbers below the number of nodes other than ground, and provided
    the entries of sympy's simplified matrix mention only symbols of the
    inductance matrix, SymbolicSystem succeeds if and only if: node 0 is a node;
    no component name and no suffix has a space; the branch of every flux bias
    is still in the list of branches, and it has no mutual inductance if it is
    an inductor; both branches of every coupling are still in that list. *)
Theorem C50_exact : forall ord oracle s edges, good_ord ord -> circuit s -> c_wc s = Some edges -> has_resonators s = false -> symbols_from (List.length edges) oracle -> unnumbered s "L" "i" ->
  ((exists y, new_system ord oracle s = Some (Ok y)) <->
   In 0 (g_nodes (c_graph s)) /\ (forall c, In c (element_names s) -> c <> "" /\ spaceless c) /\
   (forall e b, dget (c_fbias s) e = Some b -> spaceless (fb_suffix b) /\ In e edges /\ (holds_inductor s e -> fb_mutual b = None)) /\
   (forall n b, dget (c_cbias s) n = Some b -> spaceless (cb_suffix b)) /\
   (forall m p q, In (m, (p, q)) (c_coupled s) -> In p edges /\ In q edges)).
Proof. exact new_exact. Qed.
Print Assumptions C50_exact.
(** So it succeeds after accepted calls that add all branches first and then,
    in any order, couplings, biases without mutual inductance, and resonators
    removed again. *)
Theorem C50_calls_partial : forall ord oracle l1 l2 edges, let s := grun cg_new (l1 ++ l2) in
  good_ord ord -> l1 <> [] -> Forall valid_op l1 -> Forall (fun o => is_branch o = true) l1 -> Forall late_call l2 -> Forall (fun o => Forall spaceless (call_strings o)) (l1 ++ l2) -> accepted cg_new (l1 ++ l2) ->
  In 0 (g_nodes (c_graph s)) -> has_resonators s = false -> no_lone_selfloop (noncap (c_graph s)) -> unnumbered s "L" "i" -> c_wc s = Some edges -> symbols_from (List.length edges) oracle ->
  exists y, new_system ord oracle s = Some (Ok y) /\ ss_cg y = s /\ ss_nodes y = sys_nodes s /\ ss_edges y = edges.
Proof. exact calls_ok. Qed.
Print Assumptions C50_calls_partial.
(** Three branches, a coupling, two biases, and a resonator that is removed. *)
Example C50_calls_witness : let l1 := [B 0 1 "L1"; B 1 2 "L2"; B 1 2 "I1"] in
  let l2 := [GCouple "L1" "L2" "M1"; GFlux "L2" (PStr "a") None; GRes 1 "Cr"; GCharge 2 (PStr "g") (Some "Cg"); GRemoveRes] in let s := grun cg_new (l1 ++ l2) in
  (l1 <> [] /\ Forall valid_op l1 /\ Forall (fun o => is_branch o = true) l1 /\ Forall late_call l2 /\ Forall (fun o => Forall spaceless (call_strings o)) (l1 ++ l2) /\ accepted cg_new (l1 ++ l2) /\
   In 0 (g_nodes (c_graph s)) /\ has_resonators s = false /\ no_lone_selfloop (noncap (c_graph s)) /\ unnumbered s "L" "i" /\ c_wc s = Some [(0, 1, 0); (1, 2, 0); (2, 1, 1)] /\
   c_coupled s <> [] /\ dkeys (c_fbias s) = [(1, 2, 0)] /\ circuit s) /\ exists oracle, symbols_from 3 oracle.
Proof. exact (conj calls_witness (ex_intro _ (small_oracle 3) (small_oracle_ok 3))). Qed.
