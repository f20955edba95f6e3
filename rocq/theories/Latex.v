(** Model of pyscqed/text2latex.py. *)
From Coq Require Import List Bool String Ascii PeanoNat.
From Verif Require Import Prelude.
Import ListNotations.
Open Scope string_scope.

(** text2latex.py:9-50 [supported_symbols]; every value is "\\" followed by
    its key, so only the keys are listed (in order). *)
Definition supported_symbols : list string :=
  ["alpha"; "beta"; "gamma"; "delta"; "epsilon"; "varepsilon"; "zeta"; "eta";
   "theta"; "vartheta"; "kappa"; "lambda"; "mu"; "nu"; "xi"; "pi"; "varpi";
   "rho"; "varrho"; "sigma"; "varsigma"; "tau"; "upsilon"; "phi"; "varphi";
   "chi"; "psi"; "omega"; "Gamma"; "Delta"; "Theta"; "Lambda"; "Xi"; "Pi";
   "Sigma"; "Upsilon"; "Phi"; "Psi"; "Omega"].

Definition latex_symbol (s : string) : string := String "\" s.

(** Python [t.rfind(s)]: the highest index at which [s] occurs in [t]. *)
Fixpoint rfind (s t : string) : option nat :=
  match t with
  | EmptyString => if prefix s t then Some 0 else None
  | String _ t' =>
      match rfind s t' with
      | Some i => Some (S i)
      | None => if prefix s t then Some 0 else None
      end
  end.

(** Python [t[n:]]. *)
Fixpoint drop (n : nat) (t : string) : string :=
  match n, t with
  | O, _ => t
  | S n', String _ t' => drop n' t'
  | S _, EmptyString => EmptyString
  end.

(** text2latex.py:58-62: the first key [s] with [param_string.rfind(s) == 0]. *)
Fixpoint find_symbol (keys : list string) (t : string) : option string :=
  match keys with
  | [] => None
  | s :: r => match rfind s t with
              | Some O => Some s
              | _ => find_symbol r t
              end
  end.

(** text2latex.py:53-70 [latexify_param_name]; [param_string[0]] of the empty
    string raises IndexError. *)
Definition latexify_param_name (t : string) : res string :=
  match find_symbol supported_symbols t with
  | Some s => Ok (latex_symbol s ++ "_\mathrm{" ++ drop (String.length s) t ++ "}")
  | None =>
      match t with
      | EmptyString => Err IndexError
      | String c r => Ok (String c EmptyString ++ "_\mathrm{" ++ r ++ "}")
      end
  end.
