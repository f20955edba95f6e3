(** Model of ParamCollection.computeExprSweep (pyscqed/parameters.py, lines
    974-1002). *)
From Coq Require Import List Bool String.
From Verif Require Import Prelude Float Param Expr Sweep Coll NumSweep.
Import ListNotations.
Open Scope list_scope.

Section A.
  Context {A : alg}.
  (** lines 1000-1002: the dictionary symbol -> value of a point, and
      expr.subs of it; [sq] is the order in which sympy substitutes. *)
  Definition point_subs (sq : sq_t) (syparams : dict string string) (names : list string) (expr : E A) (params : dict string f64) : res (E A) :=
    bind (mapM (fun p => match dget syparams p, dget params p with Some s, Some x => Ok (s, x) | _, _ => Err KeyError end) names) (fun kvs =>
    Ok (subs_seq expr (sq (dict_zip (map fst kvs) (map snd kvs))))).
  (** lines 982-1002. [old]: sweep_grid_result before. [paramcb]: the attribute
      of the object holding its symbols, None when there is none. [exprcb]: what
      calling the method gives, None when there is none. The result: the sweep
      attributes, sweep_grid_result and how the call ends. *)
  Definition computeExprSweep (sq : sq_t) (old : list (E A)) (paramcb : option (dict string string)) (exprcb : option (res (E A)))
      (st : swst) (specs : list spec) : swst * list (E A) * res unit :=
    match ndSweep st specs with
    | (st', Err e) => (st', old, Err e)
    | (st', Ok tt) =>
        match paramcb, exprcb with
        | None, _ | _, None => (st', old, Err AttributeError)
        | Some _, Some (Err e) => (st', old, Err e)
        | Some syparams, Some (Ok expr) =>
            match s_clen st' with
            | None => (st', [], Err AttributeError)
            | Some n =>
                let '(_, l, r) := compute_loop (fun (_ : unit) params => (tt, point_subs sq syparams (s_params st') expr params)) st' tt [] (seq 0 n) in
                (st', l, r)
            end
        end
    end.
End A.
