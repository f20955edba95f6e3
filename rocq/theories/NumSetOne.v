(** NumericalSystem.setParameterValue. *)
From Coq Require Import List Bool String.
From Verif Require Import Prelude Float Param Expr Sweep Coll NumOp NumSweep.
Import ListNotations.

Section S.
  Context {A : alg}.
  (** numerical_system.py:817-824. What was set in the SymbolicSystem before an
      exception stays set. Simplification: the numbers and operators computed
      before an exception in substitute or prepareOperators are not stored. *)
  Definition ns_set_one_st (ord : ordr) (fuel : nat) (sq : sq_t) (s : nsys A) (name : string) (value : pyval) : nsys A * res unit :=
    match setParameterValue ord fuel (n_cst s) name value with
    | (c, Err e) => (with_cst s c, Err e)
    | (c, Ok _) =>
        let s1 := with_cst s c in
        if all_set (getParameterValuesDict c) then
          match bind (substitute sq s1) prepareOperators with Ok s2 => (s2, Ok tt) | Err e => (s1, Err e) end
        else (s1, Err AssertionError)
    end.
End S.
