(** Model of pyscqed/numerical_system.py, part 2: substitution of parameter
    values (lines 318-437), setting values (815-838) and parameter sweeps
    (499-507, 860-1044), on top of ParamCollection (Coll.v), its sweep grid
    (Sweep.v) and the temporary files (Temp.v).

    Simplifications. The sympy matrices and vectors Cinv, Linv, Jvec, Pvec, Qb,
    Qbt, Pbm, Pbi, Linv_b are one list of expressions, their numpy versions one
    list of doubles; _presub, which asks the SymbolicSystem for them again, gets
    the same ones (the circuit is not edited in between). Qbt = Rnb*Qb counts as
    expressions of its own. Pbnp, which no evaluable reads, is left out; the
    exponentials Pexp and Qexp are functions of the doubles. An operator is
    represented by what it is computed from ([opval]; the expansion to the
    Hilbert space of the circuit only adds the fixed dimensions). Evaluables are arbitrary
    functions of everything they can read. The state left behind by a sweep
    that raises is not modelled, nor are the timing and progress bar. *)
From Coq Require Import List Bool String Arith NArith ZArith SpecFloat.
From Verif Require Import Prelude Float Param Expr Sweep Coll Temp Symbolic NumOp.
Import ListNotations.
Open Scope string_scope.
Open Scope list_scope.
Open Scope nat_scope.

(** The operators of one node: those of a charge, flux or discretized flux
    basis depend on operator_data only, those of an oscillator basis also on
    the impedance (lines 1063-1205; [getOperatorList] of NumOp.v). *)
Inductive opval := OFixed (d : opdata) | OOsc (d : opdata) (z : f64).
(** "Zosc%i" % node, line 1068 *)
Definition zname (n : nat) : string := "Zosc" ++ dec (N.of_nat n).

(** Python values evaluables return: a pair (E, V), an array or list, a dict
    whose keys are nodes or edges, anything else. [E, V = x] needs exactly two
    items. *)
Inductive value (D : Type) := VPair (a b : D) | VSeq (l : list D) | VMap (l : list D) | VObj (d : D).
Arguments VPair {D}. Arguments VSeq {D}. Arguments VMap {D}. Arguments VObj {D}.
Definition unpack2 {D} (v : value D) : res (D * D) :=
  match v with
  | VPair a b => Ok (a, b)
  | VSeq [a; b] => Ok (a, b)
  | VMap [a; b] => Ok (a, b)
  | _ => Err PlainException
  end.
(** What one temporary file holds: a bare value (one evaluation) or the dict
    of results. *)
Inductive part (D : Type) := PVal (v : value D) | PDict (d : dict string (value D)).
Arguments PVal {D}. Arguments PDict {D}.

(** An entry of [evaluations]; [K] are keyword arguments. *)
Record entry (K : Type) := mkentry { e_eval : string; e_diag : bool; e_dep : option string; e_kw : K }.
Arguments mkentry {K}. Arguments e_eval {K}. Arguments e_diag {K}. Arguments e_dep {K}. Arguments e_kw {K}.
(** lines 499-507 [__eval_spec] *)
Definition eval_spec : dict string (string * bool * option string) := [
  ("Hamiltonian", ("getHamiltonian", true, None));
  ("Resonator", ("getResonatorResponse", false, Some "getHamiltonian"));
  ("Current", ("getCurrentMatrixElement", false, Some "getHamiltonian"));
  ("Voltage", ("getVoltageMatrixElement", false, Some "getHamiltonian"));
  ("ChargingEnergy", ("getChargingEnergies", false, None));
  ("FluxEnergy", ("getFluxEnergies", false, None));
  ("JosephsonEnergy", ("getJosephsonEnergies", false, None))].
(** lines 867-876 [addEvaluation] *)
Definition addEvaluation {K} (l : list (entry K)) (evaluable : string) (kw : K) : res (list (entry K)) :=
  match dget eval_spec evaluable with
  | None => Err PlainException
  | Some (ev, dg, dep) => Ok (l ++ [mkentry ev dg dep kw])
  end.

Section WithAlg.
  Context {A : alg}.

  (** ** Substitution *)
  (** sympy's [subs(dict)] with values None (SympifyError, a ValueError) or
      doubles; it substitutes one symbol after the other in an order of its own,
      [sq]. *)
  Definition sq_t := dict string f64 -> dict string f64.
  Definition given (d : dict string (option f64)) : res (dict string f64) :=
    mapM (fun kv => match snd kv with Some x => Ok (fst kv, x) | None => Err ValueError end) d.
  Definition subs_seq (e : E A) (d : dict string f64) : E A :=
    fold_left (fun e kv => subs e (fst kv) (const (ofF (snd kv)))) d e.
  Definition subs_dict (sq : sq_t) (e : E A) (d : dict string (option f64)) : res (E A) :=
    bind (given d) (fun d => Ok (subs_seq e (sq d))).

  (** parameters.py:274-280 [getSymbolValuesDict] *)
  Definition getSymbolValuesDict (st : cst A) : res (dict string (option f64)) :=
    foldM (fun d kv => match dget (c_sym st) (fst kv) with
                       | Some s => Ok (dset d s (getValue (snd kv)))
                       | None => Err KeyError
                       end) (c_coll st) [].
  (** parameters.py:266-272 [getParameterValuesDict] *)
  Definition getParameterValuesDict (st : cst A) : dict string (option f64) :=
    map (fun kv => (fst kv, getValue (snd kv))) (c_coll st).

  (** ** The system *)
  Record nsys := mkns {
    n_cst : cst A;                                 (* SS, as a ParamCollection *)
    n_sw : swst;                                   (* SS's sweep attributes; its s_coll is n_cst's *)
    n_exprs : list (E A);
    n_data : dict nat (opdata * E A);              (* operator_data: also the impedance expression *)
    n_nums : list f64;
    n_circ : dict nat opval;                       (* circ_operators *)
    n_qp : list opval                              (* Qnp, Pnp *)
  }.
  (** Everything an evaluable can read: parameter values (getParameterValue),
      the substituted numbers, circ_operators, and the operator vectors. *)
  Record view := mkview {
    v_par : dict string (option f64); v_nums : list f64; v_circ : dict nat opval; v_qp : list opval }.
  Definition view_of (s : nsys) : view :=
    mkview (getParameterValuesDict (n_cst s)) (n_nums s) (n_circ s) (n_qp s).
  Definition with_cst s c := mkns c (n_sw s) (n_exprs s) (n_data s) (n_nums s) (n_circ s) (n_qp s).
  Definition with_nums s l := mkns (n_cst s) (n_sw s) (n_exprs s) (n_data s) l (n_circ s) (n_qp s).
  Definition with_circ s c := mkns (n_cst s) (n_sw s) (n_exprs s) (n_data s) (n_nums s) c (n_qp s).
  Definition with_qp s q := mkns (n_cst s) (n_sw s) (n_exprs s) (n_data s) (n_nums s) (n_circ s) q.

  (** lines 318-356 [substitute] *)
  Definition substitute (sq : sq_t) (s : nsys) : res nsys :=
    bind (getSymbolValuesDict (n_cst s)) (fun d =>
    bind (mapM (fun e => bind (subs_dict sq e d) tofloat) (n_exprs s)) (fun l => Ok (with_nums s l))).

  (** lines 166-206, 1063-1205: the operators of one node. An unset impedance
      is None*float, a TypeError. *)
  Definition gen_op (c : cst A) (n : nat) (d : opdata) : res opval :=
    match od_basis d with
    | BOscillator =>
        bind (getParameterValue c (zname n)) (fun z => match z with Some z => Ok (OOsc d z) | None => Err TypeError end)
    | BOther => Err PlainException
    | _ => Ok (OFixed d)
    end.
  (** lines 208-231 [getExpandedOperatorsMap]: the given nodes' operators are
      generated and replace those in circ_operators *)
  Definition expandOps (c : cst A) (data : dict nat (opdata * E A)) (circ : dict nat opval) (node_list : list nat)
    : res (dict nat opval) :=
    foldM (fun circ n =>
      match dget data n with
      | None => Err KeyError
      | Some (d, _) => bind (gen_op c n d) (fun o => Ok (dset circ n o))
      end) node_list circ.
  (** lines 233-259, 303-306 [prepareOperators]: all operators, then the vectors
      of the operators in circ_operators *)
  Definition prepareOperators (s : nsys) : res nsys :=
    bind (expandOps (n_cst s) (n_data s) (n_circ s) (dkeys (n_data s))) (fun circ =>
    bind (mapM (fun n => match dget circ n with Some o => Ok o | None => Err KeyError end) (dkeys (n_data s))) (fun qp =>
    Ok (with_qp (with_circ s circ) qp))).

  (** lines 831-837 [setParameterValues] *)
  Definition all_set (d : dict string (option f64)) : bool :=
    forallb (fun kv => match snd kv with Some _ => true | None => false end) d.
  Definition ns_set (ord : ordr) (fuel : nat) (sq : sq_t) (s : nsys) (a : svargs) : res nsys :=
    match setParameterValues ord fuel (n_cst s) a with
    | (_, Err e) => Err e
    | (c, Ok _) =>
        if all_set (getParameterValuesDict c) then bind (substitute sq (with_cst s c)) prepareOperators
        else Err AssertionError
    end.

  (** ** The two stages of a sweep *)
  (** lines 358-378 [_presub]: the *_pre expressions *)
  Definition presub (ord : ordr) (sq : sq_t) (s : nsys) : res (list (E A)) :=
    bind (getNonSweepParametersDict ord (n_cst s) (s_params (n_sw s))) (fun d =>
    mapM (fun e => subs_dict sq e d) (n_exprs s)).
  (** lines 380-393 [_get_regen_coordinate_nodes] *)
  Definition regen_nodes (ord : ordr) (s : nsys) : res (list nat) :=
    bind (getSweepParametersDict ord (n_cst s) (s_params (n_sw s))) (fun d =>
    Ok (map fst (filter (fun nd =>
      match od_basis (fst (snd nd)) with
      | BOscillator => existsb (fun x => mem x (dkeys d)) (free (snd (snd nd)))
      | _ => false
      end) (n_data s)))).
  (** lines 395-437 [_postsub]: Qnp and Pnp stay as they are *)
  Definition postsub (ord ord' : ordr) (fuel : nat) (sq : sq_t) (pre : list (E A)) (regen : list nat) (s : nsys)
      (pt : dict string f64) : res nsys :=
    match setParameterValues ord fuel (n_cst s) (SVDict (map (fun kv => (fst kv, PFloat (snd kv))) pt)) with
    | (_, Err e) => Err e
    | (c, Ok _) =>
        bind (getSweepParametersDict ord' c (s_params (n_sw s))) (fun d =>
        bind (mapM (fun e => bind (subs_dict sq e d) tofloat) pre) (fun l =>
        bind (expandOps c (n_data s) (n_circ s) regen) (fun circ =>
        Ok (with_circ (with_nums (with_cst s c) l) circ))))
    end.

  (** [{k: v[i] for k, v in sweep_grid_c.items()}], line 991 *)
  Definition grid_point (sw : swst) (i : nat) : res (dict string f64) :=
    mapM (fun kv => match nth_error (snd kv) i with Some x => Ok (fst kv, x) | None => Err IndexError end) (s_c sw).

  Section Sweeps.
    (** [D]: numbers, arrays and objects; [K]: keyword arguments. [meth name kw
        dep vw] is the method called with E, V and the keyword arguments, or
        with the keyword arguments only when [dep] is None; it may raise. [diagonalize] as configured (lines 839-858). *)
    Context {D K : Type}.
    Variable meth : string -> K -> option (D * D) -> view -> res (value D).
    Variable diagonalize : value D -> res (value D).

    (** lines 957-965, 1009-1021: calling one entry *)
    Definition call (vw : view) (e : entry K) (dep : option (D * D)) : res (value D) :=
      bind (meth (e_eval e) (e_kw e) dep vw) (fun m => if e_diag e then diagonalize m else Ok m).
    (** lines 995-1027: the entries at one grid point *)
    Fixpoint run_entries (vw : view) (results : dict string (value D)) (es : list (entry K)) : res (dict string (value D)) :=
      match es with
      | [] => Ok results
      | e :: r =>
          bind (match e_dep e with
                | None => Ok None
                | Some k => match dget results k with
                            | None => Err PlainException
                            | Some v => bind (unpack2 v) (fun p => Ok (Some p))
                            end
                end) (fun dep =>
          bind (call vw e dep) (fun v => run_entries vw (dset results (e_eval e) v) r))
      end.
    (** lines 980-982 *)
    Definition results0 (es : list (entry K)) : dict string (value D) :=
      fold_left (fun d e => dset d (e_eval e) (VSeq [])) es [].

    (** What the sweep keeps between grid points. *)
    Record swp := mkswp { w_sys : nsys; w_fs : fs (part D); w_temp : temp; w_res : dict string (value D); w_files : list string }.

    (** set orders met at grid point [i] *)
    Variables (o_set o_sw : nat -> ordr).
    Variables (fuel : nat) (sq_post : nat -> sq_t).

    (** one grid point of [_evaluate_single] (937-975) or [_evaluate_multiple]
        (977-1044); use_temp is always True (line 899) *)
    Definition sweep_point (es : list (entry K)) (pre : list (E A)) (regen : list nat) (w : swp) (i : nat) : res swp :=
      bind (grid_point (n_sw (w_sys w)) i) (fun pt =>
      bind (postsub (o_set i) (o_sw i) fuel (sq_post i) pre regen (w_sys w) pt) (fun s =>
      bind (match es with
            | [e] => bind (call (view_of s) e None) (fun v => Ok (w_res w, PVal v))
            | _ => bind (run_entries (view_of s) (w_res w) es) (fun r => Ok (r, PDict r))
            end) (fun rp =>
      match writePart (w_fs w) (w_temp w) (snd rp) with
      | (_, _, Err e) => Err e
      | (f, t, Ok p) => Ok (mkswp s f t (fst rp) (w_files w ++ [p]))
      end))).

    (** lines 884-931 [paramSweep]; [kw0]: no keyword arguments. Returns the
        system, file system and TempData afterwards, and the list of files. *)
    Variable kw0 : K.
    Definition paramSweep (o_non o_re : ordr) (sq_pre : sq_t) (s : nsys) (specs : list spec) (evals : list (entry K))
        (f : fs (part D)) (t : temp) : res swp :=
      let es := match evals with [] => [mkentry "getHamiltonian" true None kw0] | _ => evals end in
      match ndSweep (mksw (c_coll (n_cst s)) (s_spec (n_sw s)) (s_npts (n_sw s)) (s_params (n_sw s)) (s_ndims (n_sw s))
                          (s_nc (n_sw s)) (s_c (n_sw s)) (s_clen (n_sw s))) specs with
      | (_, Err e) => Err e
      | (sw, Ok _) =>
          let s := mkns (with_coll (n_cst s) (s_coll sw)) sw (n_exprs s) (n_data s) (n_nums s) (n_circ s) (n_qp s) in
          bind (presub o_non sq_pre s) (fun pre =>
          bind (regen_nodes o_re s) (fun regen =>
          foldM (sweep_point es pre regen) (seq 0 (Z.to_nat (s_npts sw))) (mkswp s f t (results0 es) [])))
      end.

    (** lines 878-882 [getSweep] with parameters.py:1029-1043, 1099-1105: the
        reader of one file; whether the data are keyed is decided on the first
        file *)
    Definition is_dict (p : part D) : bool := match p with PDict _ => true | PVal (VMap _) => true | _ => false end.
    Definition read_key (f : fs (part D)) (keyed : bool) (key : string) (p : string) : res (value D) :=
      bind (readPart f p) (fun c =>
      match c, keyed with
      | PVal v, false => Ok v
      | PDict d, true => match dget d key with Some v => Ok v | None => Err KeyError end
      | PVal (VMap _), true => Err KeyError
      | PVal _, true => Err TypeError
      | PDict d, false => Err TypeError                  (* not reached: the files of one sweep are alike *)
      end).
    Definition getSweep (f : fs (part D)) (sw : swst) (data : list string) (iv : string) (static_vars : dict string f64)
        (evaluable : string) : res (list f64 * list (value D) * dict string f64) :=
      match dget eval_spec evaluable with
      | None => Err PlainException
      | Some (key, _, _) =>
          match data with
          | [] => Err IndexError
          | p0 :: _ => bind (readPart f p0) (fun c0 => getSweepResult1 (read_key f (is_dict c0) key) sw iv static_vars data)
          end
      end.
    Definition getSweepN (f : fs (part D)) (sw : swst) (data : list string) (ivs : list string) (static_vars : dict string f64)
        (evaluable : string) : res (list (list f64) * ndarray (value D) * dict string f64) :=
      match dget eval_spec evaluable with
      | None => Err PlainException
      | Some (key, _, _) =>
          match data with
          | [] => Err IndexError
          | p0 :: _ => bind (readPart f p0) (fun c0 => getSweepResultN (read_key f (is_dict c0) key) sw ivs static_vars data)
          end
      end.
  End Sweeps.
End WithAlg.
Arguments nsys A : clear implicits.
Arguments swp A D : clear implicits.
