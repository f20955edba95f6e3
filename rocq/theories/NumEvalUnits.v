(** The unit prefactors of currents and voltages against those of energies. *)
From Coq Require Import List Bool String Reals Lra.
From Verif Require Import Prelude Units UnitsSpec UnitsPhysProofs.
Open Scope string_scope.
Open Scope R_scope.

Lemma units_kappa (h : rheap) (u : runits) (s : usys R) el ej ec il ij vo : refreshed h u -> has_factors h u s -> positive s ->
  getPrefactor u "El" = Ok el -> getPrefactor u "Ej" = Ok ej -> getPrefactor u "Ec" = Ok ec ->
  getPrefactor u "IopL" = Ok il -> getPrefactor u "IopJ" = Ok ij -> getPrefactor u "Vop" = Ok vo ->
  il = oI s / (oE s * sWb s) * el /\ ij = oI s / (oE s * sWb s) * (2 * PI * ej) /\ vo = oU s / (oE s * sC s) * ec.
Proof.
  intros Rf F P H1 H2 H3 H4 H5 H6.
  rewrite (get_value h u s "El" el _ Rf F H1 eq_refl), (get_value h u s "Ej" ej _ Rf F H2 eq_refl), (get_value h u s "Ec" ec _ Rf F H3 eq_refl),
    (get_value h u s "IopL" il _ Rf F H4 eq_refl), (get_value h u s "IopJ" ij _ Rf F H5 eq_refl), (get_value h u s "Vop" vo _ Rf F H6 eq_refl).
  destruct P as (?&?&?&?&?&?&?&?&?&?&?). pose proof PI_RGT_0. repeat split; match goal with |- @eq _ ?a ?b => change (@eq R a b) end; field; lra.
Qed.
