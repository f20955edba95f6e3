(** The sweep configuration of a NumericalSystem: newSweep, addSweep,
    addEvaluation and paramSweep as calls on an object. *)
From Coq Require Import List Bool String Arith ZArith SpecFloat.
From Verif Require Import Prelude Float Param Expr Sweep Coll Temp NumOp NumSweep.
Import ListNotations.
Open Scope string_scope.
Open Scope list_scope.

(** The attributes these calls use. *)
Record api (A : alg) (D K : Type) := mkapi {
  a_sys : nsys A;
  a_specs : list spec;              (* sweep_specs *)
  a_evals : list (entry K);         (* evaluations *)
  a_fs : fs (part D);
  a_temp : temp
}.
Arguments mkapi {A D K}. Arguments a_sys {A D K}. Arguments a_specs {A D K}. Arguments a_evals {A D K}.
Arguments a_fs {A D K}. Arguments a_temp {A D K}.

(** [AOther s]: any calls that change the system and not the configuration;
    used for the rest of the API, and for what a raising paramSweep leaves. *)
Inductive aop (A : alg) (K : Type) :=
| ANew
| AAdd (name start stop n : pyval)
| AEval (evaluable : string) (kw : K)
| ARun
| AOther (s : nsys A).
Arguments ANew {A K}. Arguments AAdd {A K}. Arguments AEval {A K}. Arguments ARun {A K}. Arguments AOther {A K}.

Section Conf.
  Context {A : alg} {D K : Type}.
  Variable meth : string -> K -> option (D * D) -> view -> res (value D).
  Variable diagonalize : value D -> res (value D).
  Variables (o_set o_sw : nat -> ordr) (fuel : nat) (sq_post : nat -> sq_t) (kw0 : K) (o_non o_re : ordr) (sq_pre : sq_t).

  (** numerical_system.py:1052-1054 [_init_sweep_data], called by the
      constructor (line 55) and by newSweep (lines 860-861) *)
  Definition init_sweep_data (a : api A D K) : api A D K := mkapi (a_sys a) [] [] (a_fs a) (a_temp a).
  (** lines 864-865; three sweep arguments *)
  Definition addSweep (a : api A D K) (name start stop n : pyval) : api A D K * res unit :=
    match paramSweepSpec (c_coll (n_cst (a_sys a))) name start stop n with
    | Ok sp => (mkapi (a_sys a) (a_specs a ++ [sp]) (a_evals a) (a_fs a) (a_temp a), Ok tt)
    | Err e => (a, Err e)
    end.
  (** lines 868-875 *)
  Definition addEval (a : api A D K) (evaluable : string) (kw : K) : api A D K * res unit :=
    match addEvaluation (a_evals a) evaluable kw with
    | Ok l => (mkapi (a_sys a) (a_specs a) l (a_fs a) (a_temp a), Ok tt)
    | Err e => (a, Err e)
    end.
  (** lines 884-931: the default evaluation is stored (line 894) before anything
      can raise, and the configuration is reset (line 915) only if nothing has
      raised. The system and the files a raising sweep leaves are not modelled
      (see [AOther]). Returns the list of files. *)
  Definition runSweep (a : api A D K) : api A D K * res (list string) :=
    let evals := match a_evals a with [] => [mkentry "getHamiltonian" true None kw0] | l => l end in
    match paramSweep meth diagonalize o_set o_sw fuel sq_post kw0 o_non o_re sq_pre (a_sys a) (a_specs a) evals (a_fs a) (a_temp a) with
    | Ok w => (init_sweep_data (mkapi (w_sys w) (a_specs a) evals (w_fs w) (w_temp w)), Ok (w_files w))
    | Err e => (mkapi (a_sys a) (a_specs a) evals (a_fs a) (a_temp a), Err e)
    end.

  Definition astep (a : api A D K) (o : aop A K) : api A D K :=
    match o with
    | ANew => init_sweep_data a
    | AAdd n x y z => fst (addSweep a n x y z)
    | AEval e kw => fst (addEval a e kw)
    | ARun => fst (runSweep a)
    | AOther s => mkapi s (a_specs a) (a_evals a) (a_fs a) (a_temp a)
    end.
  Definition arun (a : api A D K) (ops : list (aop A K)) : api A D K := fold_left astep ops a.
End Conf.
