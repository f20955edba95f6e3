(** Notions for C129: larger capacitances and inductances. *)
From Coq Require Import List String Ascii Arith Reals.
From Verif Require Import Prelude Mat Graph GraphSpec Symbolic SymbolicSpec NumOp NumOpSpec SymHam SymTotal NumSymSpec LevMoveSpec.
Import ListNotations.
Open Scope nat_scope.

(** Other values: capacitances and inductances at least as large, all else the
    same *)
Definition grown (y : ssys) (w w' : vals) : Prop :=
  v_charge w' = v_charge w /\ v_flux w' = v_flux w /\
  (forall e, value_of y w' "I"%char e = value_of y w "I"%char e /\ value_of y w' "V"%char e = value_of y w "V"%char e) /\
  (forall b, In b (branches_of "C"%char (c_graph (ss_cg y))) -> (v_par w (snd b) <= v_par w' (snd b))%R) /\
  (forall b, In b (branches_of "L"%char (c_graph (ss_cg y))) -> (v_par w (snd b) <= v_par w' (snd b))%R) /\
  (forall g, In g (gates (ss_cg y)) -> (v_par w (snd g) <= v_par w' (snd g))%R) /\
  forall r, In r (coupled_resonators (ss_cg y)) -> (v_par w (r_coupling (snd r)) <= v_par w' (r_coupling (snd r)))%R /\ (v_par w (r_Cr (snd r)) <= v_par w' (r_Cr (snd r)))%R.
(** A node in the charge basis, with eigenvectors of its displacement operator
    as they should be *)
Definition charge_node eigh inv (data : dict nat opdata) (m : nat) : Prop :=
  exists t, dget data m = Some (mkod t BCharge) /\ right_on eigh inv (2 * t + 1) (chargeP t).
