(** Vocabulary in which the properties of numerical sweeps are stated. *)
From Coq Require Import List Bool String Arith ZArith SpecFloat Permutation.
From Verif Require Import Prelude Float Param Expr Sweep Coll CollSpec CollFinal Temp NumOp NumSweep.
Import ListNotations.
Open Scope string_scope.
Open Scope list_scope.

(** sympy may substitute the entries of a dict in any order. *)
Definition good_sq (q : sq_t) : Prop := forall d, Permutation (q d) d.

Section Spec.
  Context {A : alg}.
  Variable sg : string -> string.
  Implicit Types st : cst A.

  (** [r] gives the symbol of every parameter the value the parameter holds,
      and nothing else a value. *)
  Definition reads st (r : string -> option (V A)) : Prop :=
    forall s v, r s = Some v <-> exists q x, registered st q /\ s = sg q /\ value_of st q = Some x /\ v = ofF x.
  (** the expression is a number under the values held *)
  Definition has_number st (e : E A) : Prop := exists r v, reads st r /\ eval e r = Some v.
  (** from [st] to [st'] only swept parameters and what depends on them have
      changed value *)
  Definition steady st st' (swept : list string) : Prop :=
    forall q, registered st q -> ~ dependents st swept q -> value_of st' q = value_of st q.
  (** every parametric parameter holds the float of its expression, a value
      its bounds admit *)
  Definition settled st : Prop := forall q, parametric st q ->
    exists r v x p, solution st r /\ r (sg q) = Some v /\ toF v = Ok x /\
      dget (c_coll st) q = Some p /\ p_value p = Some x /\ snd (setValue p (PFloat x)) = Ok tt.

  (** circ_operators and the operator vectors are those of the current
      parameter values *)
  Definition in_sync (s : nsys A) : Prop :=
    (forall n d e, dget (n_data s) n = Some (d, e) ->
       exists o, gen_op (n_cst s) n d = Ok o /\ dget (n_circ s) n = Some o) /\
    Forall2 (fun n o => dget (n_circ s) n = Some o) (dkeys (n_data s)) (n_qp s).
  (** no impedance of an oscillator node depends on a swept parameter *)
  Definition fixed_impedances (s : nsys A) (swept : list string) : Prop :=
    forall n d e, dget (n_data s) n = Some (d, e) -> od_basis d = BOscillator -> ~ dependents (n_cst s) swept (zname n).

  Section Explicit.
    Context {D K : Type}.
    Variable meth : string -> K -> option (D * D) -> view -> res (value D).
    Variable diagonalize : value D -> res (value D).
    (** The requested evaluations, one after the other, at the current
        values. *)
    Definition evaluate (es : list (entry K)) (vw : view) : res (part D) :=
      match es with
      | [e] => bind (call meth diagonalize vw e None) (fun v => Ok (PVal v))
      | _ => bind (run_entries meth diagonalize vw (results0 es) es) (fun r => Ok (PDict r))
      end.
    (** The loop a user would write: set the parameters of the next grid point
        with setParameterValues, then evaluate. *)
    Fixpoint explicit (ord : nat -> ordr) (fuel : nat) (sq : nat -> sq_t) (es : list (entry K)) (s : nsys A) (is : list nat)
      : res (list (nsys A * part D)) :=
      match is with
      | [] => Ok []
      | i :: r =>
          bind (grid_point (n_sw s) i) (fun pt =>
          bind (ns_set (ord i) fuel (sq i) s (SVDict (map (fun kv => (fst kv, PFloat (snd kv))) pt))) (fun s' =>
          bind (evaluate es (view_of s')) (fun p =>
          bind (explicit ord fuel sq es s' r) (fun l => Ok ((s', p) :: l)))))
      end.
    (** At every grid point the loop reaches, every expression is a number. *)
    Fixpoint numbers_along (ord : nat -> ordr) (fuel : nat) (sq : nat -> sq_t) (s : nsys A) (is : list nat) : Prop :=
      match is with
      | [] => True
      | i :: r =>
          forall pt st', grid_point (n_sw s) i = Ok pt ->
            setParameterValues (ord i) fuel (n_cst s) (SVDict (map (fun kv => (fst kv, PFloat (snd kv))) pt)) = (st', Ok tt) ->
            (forall e, In e (n_exprs s) -> has_number st' e) /\
            forall s', ns_set (ord i) fuel (sq i) s (SVDict (map (fun kv => (fst kv, PFloat (snd kv))) pt)) = Ok s' ->
              numbers_along ord fuel sq s' r
      end.
    (** [outs]: for every entry the pair (E, V) it was called with, if any, and
        its result. An entry with a dependency is called with the result of the
        nearest earlier entry of that name, at the same view. *)
    Definition received (vw : view) (es : list (entry K)) (outs : list (option (D * D) * value D)) : Prop :=
      List.length outs = List.length es /\
      forall j e dep v, nth_error es j = Some e -> nth_error outs j = Some (dep, v) ->
        call meth diagonalize vw e dep = Ok v /\
        match e_dep e with
        | None => dep = None
        | Some k => exists i e' dep' v' p, i < j /\ nth_error es i = Some e' /\ e_eval e' = k /\
            (forall m e'', i < m < j -> nth_error es m = Some e'' -> e_eval e'' <> k) /\
            nth_error outs i = Some (dep', v') /\ unpack2 v' = Ok p /\ dep = Some p
        end.
    (** Under each name the result of the last entry of that name. *)
    Definition stored (es : list (entry K)) (outs : list (option (D * D) * value D)) (results : dict string (value D)) : Prop :=
      forall k v, dget results k = Some v <->
        exists i e dep, nth_error es i = Some e /\ e_eval e = k /\ nth_error outs i = Some (dep, v) /\
          forall m e', i < m -> nth_error es m = Some e' -> e_eval e' <> k.
  End Explicit.

  (** The swept parameters hold the values of grid point [i]. *)
  Definition at_point (s : nsys A) (i : nat) : Prop :=
    forall k arr x, dget (s_c (n_sw s)) k = Some arr -> nth_error arr i = Some x -> independent (n_cst s) k ->
      getParameterValue (n_cst s) k = Ok (Some x).
End Spec.

(** The system with the grid of [specs] built (paramSweep's first step), or the
    error. *)
Definition with_grid {A} (s : nsys A) (specs : list spec) : res (nsys A) :=
  match ndSweep (mksw (c_coll (n_cst s)) (s_spec (n_sw s)) (s_npts (n_sw s)) (s_params (n_sw s)) (s_ndims (n_sw s))
                      (s_nc (n_sw s)) (s_c (n_sw s)) (s_clen (n_sw s))) specs with
  | (_, Err e) => Err e
  | (sw, Ok _) => Ok (mkns (with_coll (n_cst s) (s_coll sw)) sw (n_exprs s) (n_data s) (n_nums s) (n_circ s) (n_qp s))
  end.

(** What paramSweep evaluates when nothing was requested: the Hamiltonian. *)
Definition requested {K} (kw0 : K) (evals : list (entry K)) : list (entry K) :=
  match evals with [] => [mkentry "getHamiltonian" true None kw0] | _ => evals end.
(** The directory temporary files go to exists. *)
Definition can_write {D} (f : fs (part D)) (t : temp) : Prop := session_path t = "" \/ In (session_path t) (dirs f).

(** [st'] follows from [st] by successful setParameterValues calls that name
    only swept parameters. *)
Inductive swept_sets {A : alg} (swept : list string) (st : cst A) : cst A -> Prop :=
| sets_none : swept_sets swept st st
| sets_more ord fuel st' kvs st'' : swept_sets swept st st' -> good_ord ord -> incl (map fst kvs) swept ->
    setParameterValues ord fuel st' (SVDict kvs) = (st'', Ok tt) -> swept_sets swept st st''.

(** The method each evaluable stands for, and whether it works on the
    eigenvectors of the Hamiltonian. *)
Inductive stands_for : string -> string -> bool -> Prop :=
| sf_hamiltonian : stands_for "Hamiltonian" "getHamiltonian" false
| sf_resonator : stands_for "Resonator" "getResonatorResponse" true
| sf_current : stands_for "Current" "getCurrentMatrixElement" true
| sf_voltage : stands_for "Voltage" "getVoltageMatrixElement" true
| sf_charging : stands_for "ChargingEnergy" "getChargingEnergies" false
| sf_flux : stands_for "FluxEnergy" "getFluxEnergies" false
| sf_josephson : stands_for "JosephsonEnergy" "getJosephsonEnergies" false.
(** Entries made by addEvaluation. *)
Definition built {K} (es : list (entry K)) : Prop :=
  forall e, In e es -> exists name, dget eval_spec name = Some (e_eval e, e_diag e, e_dep e).

(** A collection as [reach] describes it (CollSpec.v), on which sweep grids have
    also been built, successfully or not. *)
Inductive sreach {A : alg} (sg : string -> string) : cst A -> list string -> Prop :=
| sreach_new st ow : reach sg st ow -> sreach sg st ow
| sreach_op fuel st ow o : sreach sg st ow -> good_ord (fst o) -> op_ok sg st ow (snd o) ->
    sreach sg (fst (cstep fuel st o)) (op_ow st ow (snd o))
| sreach_sweep st ow sw specs : sreach sg st ow -> s_coll sw = c_coll st ->
    sreach sg (with_coll st (s_coll (fst (ndSweep sw specs)))) ow.
