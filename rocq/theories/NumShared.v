(** NumericalSystem.setParameterValues as a call that may raise half way, and
    two NumericalSystems of one SymbolicSystem. *)
From Coq Require Import List Bool String.
From Verif Require Import Prelude Float Param Expr Sweep Coll NumOp NumSweep.
Import ListNotations.

Section S.
  Context {A : alg}.
  (** numerical_system.py:831-837. What was set in the SymbolicSystem before an
      exception stays set. Simplification: the numbers and operators computed
      before an exception in substitute or prepareOperators are not stored. *)
  Definition ns_set_st (ord : ordr) (fuel : nat) (sq : sq_t) (s : nsys A) (a : svargs) : nsys A * res unit :=
    match setParameterValues ord fuel (n_cst s) a with
    | (c, Err e) => (with_cst s c, Err e)
    | (c, Ok _) =>
        let s1 := with_cst s c in
        if all_set (getParameterValuesDict c) then
          match bind (substitute sq s1) prepareOperators with Ok s2 => (s2, Ok tt) | Err e => (s1, Err e) end
        else (s1, Err AssertionError)
    end.
  (** lines 41 ([self.SS = symbolic_system]): a NumericalSystem refers to its
      SymbolicSystem, so after a call on one of two systems that share it, the
      other one reports the values now in the collection. *)
  Definition shared (s1 s2 : nsys A) : nsys A := with_cst s2 (n_cst s1).
End S.
