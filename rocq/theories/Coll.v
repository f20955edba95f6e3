(** Model of pyscqed/parameters.py, class [ParamCollection] (lines 196-760,
    888-927, 1207-1240). *)
From Coq Require Import List Bool String ZArith SpecFloat.
From Verif Require Import Prelude Float Param Expr Sweep.
Import ListNotations.
Open Scope string_scope.
Open Scope list_scope.

(** The order in which a Python set is iterated: any rearrangement, possibly a
    different one at every use; the first argument names the use. *)
Definition ordr := list nat -> list string -> list string.

(** ** networkx.DiGraph: nodes and edges in insertion order *)
Definition add_node (nodes : list string) (n : string) : list string :=
  if mem n nodes then nodes else nodes ++ [n].
Definition add_edge (g : list string * list (string * string)) (a b : string) : list string * list (string * string) :=
  (add_node (add_node (fst g) a) b, if mem (a, b) (snd g) then snd g else snd g ++ [(a, b)]).
(** nodes of [rem] that have a predecessor in [rem] *)
Definition peel1 (edges : list (string * string)) (rem : list string) : list string :=
  filter (fun n => existsb (fun e => eqb (snd e) n && mem (fst e) rem) edges) rem.
Fixpoint peel (edges : list (string * string)) (k : nat) (rem : list string) : list string :=
  match k with O => rem | S k => peel edges k (peel1 edges rem) end.
(** networkx.is_directed_acyclic_graph: Kahn's algorithm, layer by layer. *)
Definition is_dag (nodes : list string) (edges : list (string * string)) : bool :=
  match peel edges (List.length nodes) nodes with [] => true | _ => false end.
Definition succs (edges : list (string * string)) (l : list string) : list string :=
  map snd (filter (fun e => mem (fst e) l) edges).
Fixpoint closure (edges : list (string * string)) (k : nat) (l : list string) : list string :=
  match k with O => l | S k => closure edges k (dedup (l ++ succs edges l)) end.
(** networkx.descendants: reachable nodes, the start excluded. *)
Definition descendants (edges : list (string * string)) (r : string) : list string :=
  filter (fun x => negb (eqb x r)) (closure edges (List.length edges) (dedup (succs edges [r]))).
Definition has_in (edges : list (string * string)) (n : string) : bool :=
  existsb (fun e => eqb (snd e) n) edges.

Section WithAlg.
  Context {A : alg}.

  (** Private attributes, lines 220-223. Sympy symbols are represented by
      strings. *)
  Record cst := mkcst {
    c_coll : dict string param;
    c_sym : dict string string;
    c_par : dict string (E A * list string);
    c_nodes : list string;
    c_edges : list (string * string)
  }.
  Definition with_coll st c := mkcst c (c_sym st) (c_par st) (c_nodes st) (c_edges st).

  (** [Param(name)] with its default arguments (line 50). *)
  Definition param_default (name : string) : res param :=
    param_new (PStr name) PNone (PList [PFloat (S754_infinity true); PFloat (S754_infinity false)]) (PFloat (round_Z 1)).

  (** lines 219-227 [__init__]. *)
  Definition coll_new (names : list string) : res cst :=
    fold_left (fun acc name =>
      bind acc (fun st =>
      bind (param_default name) (fun p =>
      Ok (mkcst (dset (c_coll st) name p) (dset (c_sym st) name (p_symbol p)) (c_par st)
                (add_node (c_nodes st) name) (c_edges st))))) names (Ok (mkcst [] [] [] [] [])).

  (** lines 251-264 [getSymbol]. *)
  Definition getSymbol (st : cst) (name : string) : res string :=
    match dget (c_sym st) name with Some s => Ok s | None => Err KeyError end.

  Definition with_symbol (p : param) (s : string) : param :=
    mkparam (p_name p) s (p_value p) (p_lo p) (p_hi p) (p_upref p) (p_latex p) (p_sweep p) (p_N p).

  (** lines 282-307 [addParameter]; [override] is the name of the sympy symbol
      given, if any. *)
  Definition addParameter (st : cst) (name : string) (override : option string) : cst * res unit :=
    if dmem (c_coll st) name then (st, Ok tt) else
    match param_default name with
    | Err e => (st, Err e)
    | Ok p0 =>
        let p := match override with Some s => with_symbol p0 s | None => p0 end in
        (mkcst (dset (c_coll st) name p) (dset (c_sym st) name (p_symbol p)) (c_par st)
               (add_node (c_nodes st) name) (c_edges st), Ok tt)
    end.

  (** lines 320-334 [rmParameter]. *)
  Definition rmParameter (st : cst) (name : string) : cst * res unit :=
    if dmem (c_coll st) name then
      (mkcst (ddel (c_coll st) name) (ddel (c_sym st) name) (c_par st) (c_nodes st) (c_edges st), Ok tt)
    else (st, Err ValueError).

  (** lines 352-364 [getParameterFromSymbol]: first match. *)
  Fixpoint find_symbol (l : dict string string) (s : string) : option string :=
    match l with
    | [] => None
    | (k, v) :: r => if eqb s v then Some k else find_symbol r s
    end.
  Definition getParameterFromSymbol (st : cst) (s : string) : res string :=
    match find_symbol (c_sym st) s with Some k => Ok k | None => Err ValueError end.

  (** lines 392-407 [getParameterValue]. *)
  Definition getParameterValue (st : cst) (name : string) : res (option f64) :=
    match dget (c_coll st) name with Some p => Ok (getValue p) | None => Err ValueError end.

  (** lines 646-652 [exprParametric] on the free symbols in iteration order. *)
  Fixpoint exprParametric (st : cst) (syms : list string) : res bool :=
    match syms with
    | [] => Ok false
    | s :: r => bind (getParameterFromSymbol st s) (fun p =>
                if dmem (c_par st) p then Ok true else exprParametric st r)
    end.
  (** lines 658-665: one round; every parametric symbol overwrites [expr], so
      only the last substitution survives. *)
  Definition expand_round (st : cst) (base : E A) (syms : list string) : option (E A) :=
    fold_left (fun acc s =>
      match getParameterFromSymbol st s with
      | Err _ => acc
      | Ok q => match dget (c_par st) q with
                | None => acc
                | Some (t, _) => Some (subs base s t)
                end
      end) syms None.
  (** lines 655-667: the while loop, [k] counts rounds. With [fuel] rounds
      allowed; [Diverges] when they are used up. *)
  Fixpoint expand_loop (ord : ordr) (tag : list nat) (st : cst) (fuel k : nat) (base : E A) : res (E A) :=
    bind (exprParametric st (ord (0 :: k :: tag) (free base))) (fun b =>
    if b then
      match fuel with
      | O => Err Diverges
      | S fuel =>
          match expand_round st base (ord (1 :: k :: tag) (free base)) with
          | Some e => expand_loop ord tag st fuel (S k) e
          | None => Err AttributeError
          end
      end
    else Ok base).
  (** lines 627-667 [getParametricExpression]. *)
  Definition getParametricExpression (ord : ordr) (tag : list nat) (fuel : nat) (st : cst) (name : string) (expand : bool)
    : res (E A) :=
    match dget (c_par st) name with
    | None => Err ValueError
    | Some (e, _) => if expand then expand_loop ord tag st fuel 0 e else Ok e
    end.

  (** lines 1207-1233 [_update_parameterisations], the substitution loops. *)
  Fixpoint path_loop (ord : ordr) (tag : list nat) (fuel : nat) (st : cst) (sym : string) (x : f64)
      (vals : dict string (option (E A))) (j : nat) (path : list string) : res (dict string (option (E A))) :=
    match path with
    | [] => Ok vals
    | d :: r =>
        match dget vals d with
        | None => Err KeyError
        | Some cur =>
            bind (match cur with
                  | None => getParametricExpression ord (j :: tag) fuel st d true
                  | Some e => Ok e
                  end) (fun e =>
            path_loop ord tag fuel st sym x (dset vals d (Some (subs e sym (const (ofF x))))) (S j) r)
        end
    end.
  Fixpoint root_loop (ord : ordr) (fuel : nat) (st : cst) (vals : dict string (option (E A))) (i : nat) (roots : list string)
    : res (dict string (option (E A))) :=
    match roots with
    | [] => Ok vals
    | r :: rest =>
        bind (getSymbol st r) (fun sym =>
        bind (getParameterValue st r) (fun v =>
        match v with
        | None => root_loop ord fuel st vals (S i) rest
        | Some x =>
            bind (path_loop ord [3; i] fuel st sym x vals 0 (ord [2; i] (descendants (c_edges st) r))) (fun vals' =>
            root_loop ord fuel st vals' (S i) rest)
        end))
    end.
  (** lines 1235-1240: any failure is ignored. *)
  Definition store_one (c : dict string param) (k : string) (v : option (E A)) : dict string param :=
    match v with
    | None => c                                          (* float(None) *)
    | Some e =>
        match dget c k, tofloat e with
        | Some p, Ok x => match setValue p (PFloat x) with (p', Ok _) => dset c k p' | (_, Err _) => c end
        | _, _ => c
        end
    end.
  Definition update (ord : ordr) (fuel : nat) (st : cst) : cst * res unit :=
    let roots := filter (fun n => negb (has_in (c_edges st) n)) (ord [0] (c_nodes st)) in
    let deps := filter (has_in (c_edges st)) (ord [1] (c_nodes st)) in
    match root_loop ord fuel st (map (fun k => (k, None)) deps) 0 roots with
    | Err e => (st, Err e)
    | Ok vals => (with_coll st (fold_left (fun c kv => store_one c (fst kv) (snd kv)) vals (c_coll st)), Ok tt)
    end.

  (** lines 366-390 [setParameterValue]. *)
  Definition setParameterValue (ord : ordr) (fuel : nat) (st : cst) (name : string) (value : pyval) : cst * res unit :=
    match dget (c_coll st) name with
    | None => (st, Err ValueError)
    | Some p =>
        if dmem (c_par st) name then (st, Ok tt) else
        match setValue p value with
        | (p', Err e) => (with_coll st (dset (c_coll st) name p'), Err e)
        | (p', Ok _) => update ord fuel (with_coll st (dset (c_coll st) name p'))
        end
    end.

  (** lines 472-479: the loop of [setParameterValues]. *)
  Fixpoint set_loop (st : cst) (kvs : list (string * pyval)) : cst * res unit :=
    match kvs with
    | [] => (st, Ok tt)
    | (name, v) :: r =>
        match dget (c_coll st) name with
        | None => (st, Err ValueError)
        | Some p =>
            if dmem (c_par st) name then set_loop st r else
            match setValue p v with
            | (p', Err e) => (with_coll st (dset (c_coll st) name p'), Err e)
            | (p', Ok _) => set_loop (with_coll st (dset (c_coll st) name p')) r
            end
        end
    end.
  Definition set_pairs (ord : ordr) (fuel : nat) (st : cst) (kvs : list (string * pyval)) : cst * res unit :=
    match set_loop st kvs with
    | (st', Err e) => (st', Err e)
    | (st', Ok _) => update ord fuel st'
    end.
  (** lines 441-480 [setParameterValues]: one dict, or alternating names and
      values. Simplification: the names given are strings (any other object
      would be reported as not found). *)
  Inductive svargs := SVDict (d : dict string pyval) | SVPos (names : list string) (values : list pyval).
  Definition setParameterValues (ord : ordr) (fuel : nat) (st : cst) (a : svargs) : cst * res unit :=
    match a with
    | SVDict d => set_pairs ord fuel st d
    | SVPos [] _ => (st, Err IndexError)                 (* no argument: line 461 *)
    | SVPos [_] [] => (st, Err TypeError)                (* line 453 *)
    | SVPos ns vs => if Nat.eqb (List.length ns) (List.length vs) then set_pairs ord fuel st (combine ns vs)
                     else (st, Err ValueError)
    end.

  (** lines 586-590: names of the symbols of the expression; [rev_map] keeps
      the last name registered for a symbol. *)
  Definition rev_map (st : cst) : dict string string :=
    fold_left (fun d kv => dset d (snd kv) (fst kv)) (c_sym st) [].
  Definition expr_names (st : cst) (syms : list string) : res (list string) :=
    mapM (fun s => match dget (rev_map st) s with Some k => Ok k | None => Err ValueError end) syms.

  (** lines 567-607 [addParameterisation]. *)
  Definition addParameterisation (ord : ordr) (st : cst) (name : string) (e : E A) : cst * res unit :=
    if negb (dmem (c_coll st) name) then (st, Err ValueError) else
    match expr_names st (ord [0] (free e)) with
    | Err x => (st, Err x)
    | Ok names =>
        let g := fold_left (fun g p => add_edge g p name) names (c_nodes st, c_edges st) in
        if is_dag (fst g) (snd g) then
          (mkcst (c_coll st) (c_sym st) (dset (c_par st) name (e, names)) (fst g) (snd g), Ok tt)
        else (st, Err AssertionError)
    end.

  (** lines 609-625 [addParameterisationPrefactor]. *)
  Definition addParameterisationPrefactor (st : cst) (name : string) (f : E A) : cst * res unit :=
    match dget (c_par st) name with
    | None => (st, Err ValueError)
    | Some (e, names) => (mkcst (c_coll st) (c_sym st) (dset (c_par st) name (mul e f, names)) (c_nodes st) (c_edges st), Ok tt)
    end.

  (** lines 669-683 [getParameterisationParameters]. *)
  Definition getParameterisationParameters (st : cst) (name : string) : res (list string) :=
    match dget (c_par st) name with Some (_, names) => Ok names | None => Err ValueError end.

  (** lines 685-709 [rmParameterisation]; remove_edge raises NetworkXError when
      the edge is absent. *)
  Fixpoint remove_edges (edges : list (string * string)) (names : list string) (name : string)
    : list (string * string) * res unit :=
    match names with
    | [] => (edges, Ok tt)
    | p :: r => if mem (p, name) edges
                then remove_edges (filter (fun e => negb (eqb e (p, name))) edges) r name
                else (edges, Err NetworkXError)
    end.
  Definition rmParameterisation (st : cst) (name : string) : cst * res unit :=
    if negb (dmem (c_coll st) name) then (st, Err ValueError) else
    match dget (c_par st) name with
    | None => (st, Err ValueError)
    | Some (_, names) =>
        match remove_edges (c_edges st) names name with
        | (edges, Err e) => (mkcst (c_coll st) (c_sym st) (c_par st) (c_nodes st) edges, Err e)
        | (edges, Ok _) => (mkcst (c_coll st) (c_sym st) (ddel (c_par st) name) (c_nodes st) edges, Ok tt)
        end
    end.

  (** lines 730-754 [getParameterisationsInvolving] for one name. *)
  Definition getParameterisationsInvolving (st : cst) (name : string) : res (list string) :=
    if negb (dmem (c_coll st) name) then Err ValueError else
    if dmem (c_par st) name then Ok [] else
    Ok (filter (fun p => match dget (c_par st) p with Some (_, ns) => mem name ns | None => false end) (dkeys (c_par st))).

  (** lines 896-905 (and 916-924): the swept parameters and what depends on
      them. networkx.dfs_successors(G, param) lists, over all its entries,
      the descendants of param. *)
  Definition not_for_presub (st : cst) (swept : list string) : res (list string) :=
    bind (mapM (getParameterisationsInvolving st) swept) (fun ps =>
    Ok (dedup (swept ++ List.concat (map (fun p => p :: descendants (c_edges st) p) (List.concat ps)))%list)).
  (** lines 501-518 [getSymbolValues]. *)
  Definition getSymbolValues (st : cst) (names : list string) : res (dict string (option f64)) :=
    fold_left (fun acc n =>
      bind acc (fun d =>
      match dget (c_coll st) n, dget (c_sym st) n with
      | Some p, Some s => Ok (dset d s (getValue p))
      | None, _ => Err ValueError
      | _, None => Err KeyError
      end)) names (Ok []).
  Definition getSweepParametersDict (ord : ordr) (st : cst) (swept : list string) : res (dict string (option f64)) :=
    bind (not_for_presub st swept) (fun l => getSymbolValues st (ord [0] l)).
  Definition getNonSweepParametersDict (ord : ordr) (st : cst) (swept : list string) : res (dict string (option f64)) :=
    bind (not_for_presub st swept) (fun l =>
    getSymbolValues st (ord [0] (filter (fun k => negb (mem k l)) (dkeys (c_coll st))))).

  (** ** Histories. Each call comes with the set orders it meets. *)
  Inductive cop :=
  | CAdd (name : string) (override : option string)
  | CRm (name : string)
  | CSet (name : string) (v : pyval)
  | CSets (a : svargs)
  | CAddP (name : string) (e : E A)
  | CPre (name : string) (f : E A)
  | CRmP (name : string)
  | CBounds (name : string) (b : pyval)      (* getParameterList()[name].setBounds(b) *)
  | CSweep (name : string) (s e n : pyval).  (* linear sweep of one parameter, as ndSweep does *)
  Definition on_param (st : cst) (name : string) (f : param -> param * res unit) : cst * res unit :=
    match dget (c_coll st) name with
    | None => (st, Err KeyError)
    | Some p => let (p', r) := f p in (with_coll st (dset (c_coll st) name p'), r)
    end.
  Definition cstep (fuel : nat) (st : cst) (o : ordr * cop) : cst * res unit :=
    match snd o with
    | CAdd n s => addParameter st n s
    | CRm n => rmParameter st n
    | CSet n v => setParameterValue (fst o) fuel st n v
    | CSets a => setParameterValues (fst o) fuel st a
    | CAddP n e => addParameterisation (fst o) st n e
    | CPre n f => addParameterisationPrefactor st n f
    | CRmP n => rmParameterisation st n
    | CBounds n b => on_param st n (fun p => setBounds p b)
    | CSweep n s e k => on_param st n (fun p => match linearSweep p s e k with (p', Ok _) => (p', Ok tt) | (p', Err x) => (p', Err x) end)
    end.
  Definition crun (fuel : nat) (st : cst) (l : list (ordr * cop)) : cst :=
    fold_left (fun st o => fst (cstep fuel st o)) l st.
End WithAlg.
Arguments cst A : clear implicits.
Arguments cop A : clear implicits.
