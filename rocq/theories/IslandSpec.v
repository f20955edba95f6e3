(** Notions for C130: islands and their charges. *)
From Coq Require Import List String Ascii Arith Reals.
From Coquelicot Require Import Complex.
From Verif Require Import Prelude Graph Symbolic NumOp NumOpSpec SymTotal MoveSpec.
Import ListNotations.
Open Scope nat_scope.

(** A set of nodes other than ground that no junction leaves *)
Definition island (y : ssys) (l : list nat) : Prop :=
  incl l (ss_nodes y) /\ forall e, kind_at y "I"%char e -> (In (src e) l <-> In (dst e) l).
(** The sum of the charge operators (getChargeOpVector) of the nodes of l *)
Fixpoint charge_on (l nodes : list nat) (Q : list matrix) : matrix :=
  match nodes, Q with
  | m :: nodes, A :: Q => fun r c => ((if existsb (Nat.eqb m) l then A r c else RtoC 0) + charge_on l nodes Q r c)%C
  | _, _ => fun _ _ => RtoC 0
  end.
