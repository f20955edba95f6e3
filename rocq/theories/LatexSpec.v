(** The Greek letters LaTeX has a command for; independent of the model. *)
From Coq Require Import List String.
Import ListNotations.
Open Scope string_scope.

Definition greek_lower : list string :=
  ["alpha"; "beta"; "gamma"; "delta"; "epsilon"; "zeta"; "eta"; "theta"; "iota"; "kappa"; "lambda"; "mu";
   "nu"; "xi"; "pi"; "rho"; "sigma"; "tau"; "upsilon"; "phi"; "chi"; "psi"; "omega"].
Definition greek_variants : list string := ["varepsilon"; "vartheta"; "varpi"; "varrho"; "varsigma"; "varphi"].
Definition greek_upper : list string :=
  ["Gamma"; "Delta"; "Theta"; "Lambda"; "Xi"; "Pi"; "Sigma"; "Upsilon"; "Phi"; "Psi"; "Omega"].
Definition greek_letters : list string := greek_lower ++ greek_variants ++ greek_upper.
