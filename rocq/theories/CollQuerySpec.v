(** Vocabulary of C98. *)
From Coq Require Import List Bool String.
From Verif Require Import Prelude Param.
Import ListNotations.

(** the symbol given for the [i]-th name, if any *)
Definition given (ov : option (list (option string))) (i : nat) : option string :=
  match ov with None => None | Some l => match nth_error l i with Some o => o | None => None end end.
(** symbol_overrides, if given, has at least [n] entries *)
Definition enough_ov (ov : option (list (option string))) (n : nat) : Prop :=
  match ov with None => True | Some l => n <= List.length l end.
(** names that a new parameter can have *)
Definition valid_name (n : string) : Prop := n <> ""%string /\ has_space n = false.
Definition symbol_for (o : option string) (n : string) : res string :=
  match o with Some s => Ok s | None => default_symbol n end.
