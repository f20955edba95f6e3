(** What has been asked for since some point. *)
From Coq Require Import List Bool String ZArith.
From Verif Require Import Prelude Float Param Expr Sweep Coll CollSpec NumSweep NumSweepSpec SweepConf.
Import ListNotations.
Open Scope list_scope.

(** A system during whose life [ops] are called, beginning with [s], has been
    asked to sweep [sp] and evaluate [ev], in this order; calls with a name
    that is not a parameter or an evaluable ask for nothing. *)
Inductive asked {A : alg} {K : Type} : nsys A -> list (aop A K) -> list spec -> list (entry K) -> Prop :=
| as_nil s : asked s [] [] []
| as_other s s' ops sp ev : asked s' ops sp ev -> asked s (AOther s' :: ops) sp ev
| as_sweep s k a b n ops sp ev : registered (n_cst s) k -> asked s ops sp ev -> asked s (AAdd (PStr k) a b n :: ops) (mkspec k a b n :: sp) ev
| as_bad_sweep s x a b n ops sp ev : (forall k, x = PStr k -> ~ registered (n_cst s) k) -> asked s ops sp ev -> asked s (AAdd x a b n :: ops) sp ev
| as_eval s name m eig kw ops sp ev : stands_for name m eig -> asked s ops sp ev ->
    asked s (AEval name kw :: ops) sp (mkentry m (String.eqb name "Hamiltonian") (if eig then Some "getHamiltonian"%string else None) kw :: ev)
| as_bad_eval s name kw ops sp ev : (forall m eig, ~ stands_for name m eig) -> asked s ops sp ev -> asked s (AEval name kw :: ops) sp ev.
