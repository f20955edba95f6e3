(** What was asked of the diagonaliser of a system. *)
From Coq Require Import List Bool String Arith.
From Verif Require Import Prelude DiagConf.
Import ListNotations.

Section D.
  Context {OV : Type}.
  Implicit Types ops : list (@dop OV).
  Definition configures (i : nat) (o : @dop OV) : Prop :=
    match o with DNew j => j = i | DSet j _ _ _ _ => j = i | DPoke _ _ _ => False end.
  (** the last configuring call on system [i] asked for this *)
  Definition asked (i : nat) ops (eig : nat) (vec sparse : bool) (opts : option (dict string OV)) : Prop :=
    exists a o b, ops = a ++ o :: b /\ (forall o', In o' b -> ~ configures i o') /\
      (o = DSet i eig vec sparse opts \/ (o = DNew i /\ (eig, vec, sparse, opts) = (5, false, false, None))).
  (** options are only changed in dictionaries the caller passed, and not in
      those of system [i] *)
  Definition own_options (i : nat) ops : Prop :=
    forall a j k v b, ops = a ++ DPoke j k v :: b -> j <> i /\ exists eig vec sparse d, asked j a eig vec sparse (Some d).
End D.
