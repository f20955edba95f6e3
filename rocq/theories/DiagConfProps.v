(** C115: diagonalize follows the last setDiagConfig of its system. *)
From Coq Require Import List Bool String Arith.
From Verif Require Import Prelude DiagConf DiagConfSpec DiagConfProofs.
Import ListNotations.
Open Scope string_scope.
Open Scope list_scope.

(** Any systems, any calls, as long as options are only changed in dictionaries
    passed by the caller. *)
Theorem C115_conf_partial : forall (OV M X : Type) (diagSparseH : M -> nat -> bool -> dict string OV -> res X) (diagDenseH : M -> nat -> bool -> res X)
    default_opts i ops eig vec sparse opts m, asked i ops eig vec sparse opts -> own_options i ops ->
  diagonalize diagSparseH diagDenseH (drun default_opts ops) i m =
    if sparse then diagSparseH m eig vec (match opts with Some d => d | None => default_opts end) else diagDenseH m eig vec.
Proof. exact @conf_lemma. Qed.
Print Assumptions C115_conf_partial.
(** The dense solver: without that condition. *)
Theorem C115_dense : forall (OV M X : Type) (diagSparseH : M -> nat -> bool -> dict string OV -> res X) (diagDenseH : M -> nat -> bool -> res X)
    default_opts i ops eig vec opts m, asked i ops eig vec false opts ->
  diagonalize diagSparseH diagDenseH (drun default_opts ops) i m = diagDenseH m eig vec.
Proof. exact @dense_lemma. Qed.
Print Assumptions C115_dense.
(** System 1 changes the tolerance in its configuration; system 2 asks for the
    default and gets the changed one. *)
Theorem C115_refuted : asked 2 tol_ops 3 true true None /\
  forall M X (dS : M -> nat -> bool -> dict string nat -> res X) dD m, diagonalize dS dD (drun [("tol", 1)] tol_ops) 2 m = dS m 3 true [("tol", 7)].
Proof. exact conf_ref. Qed.
Print Assumptions C115_refuted.
Example C115_witness : let ops := [DNew 1; DSet 1 4 true true (Some [("tol", 2)]); DPoke 1 "tol" 7; DNew 2; DSet 2 3 true true None] in
  asked 2 ops 3 true true None /\ own_options 2 ops.
Proof. exact conf_wit. Qed.
