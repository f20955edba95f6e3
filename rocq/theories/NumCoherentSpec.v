(** A NumericalSystem whose numbers and operators are those of the parameter
    values it reports. *)
From Coq Require Import List Bool String.
From Verif Require Import Prelude Float Param Expr Sweep Coll CollSpec NumOp NumSweep NumSweepSpec.
Import ListNotations.

Section S.
  Context {A : alg}.
  Variable sg : string -> string.
  (** every number is the float of the value its expression has when the
      symbols take the reported values *)
  Definition current_numbers (s : nsys A) : Prop :=
    Forall2 (fun e x => forall r v, reads sg (n_cst s) r -> eval e r = Some v -> toF v = Ok x) (n_exprs s) (n_nums s).
  Definition coherent (s : nsys A) : Prop := current_numbers s /\ in_sync s.
End S.
