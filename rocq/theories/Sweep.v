(** Model of the sweep functions of pyscqed/parameters.py, class
    [ParamCollection] (lines 771-1166). The collection is the ordered dict of
    [Param] objects (Param.v). Before the first ndSweep call the sweep
    attributes do not exist (AttributeError); that case is not modelled. *)
From Coq Require Import List Bool String ZArith SpecFloat.
From Verif Require Import Prelude Float Param.
Import ListNotations.
Open Scope string_scope.

(** A sweep specification entry, parameters.py:794-799. *)
Record spec := mkspec { sp_name : string; sp_start : pyval; sp_end : pyval; sp_N : pyval }.

(** numpy array: shape and entries in C (row-major) order. *)
Record ndarray (A : Type) := mknd { nd_shape : list nat; nd_data : list A }.
Arguments mknd {A}. Arguments nd_shape {A}. Arguments nd_data {A}.

(** Attributes set by ndSweep (lines 861-886). *)
Record swst := mksw {
  s_coll : dict string param;
  s_spec : list spec;
  s_npts : Z;
  s_params : list string;
  s_ndims : nat;
  s_nc : dict string (ndarray f64);
  s_c : dict string (list f64);
  s_clen : option nat
}.

(** Index tuples of an array of the given shape in C order. *)
Fixpoint tuples (shape : list nat) : list (list nat) :=
  match shape with
  | [] => [[]]
  | n :: r => flat_map (fun i => map (cons i) (tuples r)) (seq 0 n)
  end.

(** numpy.meshgrid( *xs, indexing="ij"): the k-th array has shape
    (len(x_1),...,len(x_n)) and entry x_k[i_k] at (i_1,...,i_n). *)
Definition meshgrid_ij {A} (d : A) (xs : list (list A)) : list (ndarray A) :=
  let shape := map (@List.length A) xs in
  map (fun k => mknd shape (map (fun idx => nth (nth k idx 0) (nth k xs []) d) (tuples shape)))
      (seq 0 (List.length xs)).

(** parameters.py:785-799 [paramSweepSpec] with exactly three sweep
    arguments (fewer raise IndexError). *)
Definition paramSweepSpec (coll : dict string param) (name : pyval) (start stop n : pyval) : res spec :=
  match name with
  | PStr k => if dmem coll k then Ok (mkspec k start stop n) else Err ValueError
  | _ => Err TypeError
  end.

(** parameters.py:867-871: the loop over the specification. *)
Fixpoint nd_loop (coll : dict string param) (npts : Z) (keys : list string) (sweeps : list (list f64))
    (specs : list spec) : dict string param * Z * res (list string * list (list f64)) :=
  match specs with
  | [] => (coll, npts, Ok (keys, sweeps))
  | s :: r =>
      let k := sp_name s in
      match dget coll k with
      | None => (coll, npts, Err KeyError)
      | Some p =>
          match linearSweep p (sp_start s) (sp_end s) (sp_N s) with
          | (p', Err e) => (dset coll k p', npts, Err e)
          | (p', Ok sw) =>
              let n := match sp_N s with PInt z => z | _ => 0%Z end in
              nd_loop (dset coll k p') (npts * n) (keys ++ [k]) (sweeps ++ [sw]) r
          end
      end
  end.

(** Python [dict(zip(keys, values))]. *)
Definition dict_zip {V} (keys : list string) (vals : list V) : dict string V :=
  fold_left (fun d kv => dset d (fst kv) (snd kv)) (combine keys vals) [].

(** parameters.py:882-886. *)
Definition collapse (keys : list string) (nc : dict string (ndarray f64)) : dict string (list f64) :=
  fold_left (fun c k => match dget nc k with Some a => dset c k (nd_data a) | None => c end) keys [].

(** parameters.py:801-886 [ndSweep]. *)
Definition ndSweep (st : swst) (specs : list spec) : swst * res unit :=
  match nd_loop (s_coll st) 1 [] [] specs with
  | (coll, npts, Err e) =>
      (mksw coll specs npts (s_params st) (s_ndims st) (s_nc st) (s_c st) (s_clen st), Err e)
  | (coll, npts, Ok (keys, sweeps)) =>
      let grid := meshgrid_ij fnan sweeps in
      let nc := dict_zip keys grid in
      let c := collapse keys nc in
      let clen := match keys with
                  | [] => s_clen st
                  | k :: _ => match dget c k with Some a => Some (List.length a) | None => None end
                  end in
      (mksw coll specs npts keys (List.length sweeps) nc c clen, Ok tt)
  end.

(** Map a fallible function over a list, stopping at the first error. *)
Fixpoint mapM {A B} (f : A -> res B) (l : list A) : res (list B) :=
  match l with
  | [] => Ok []
  | x :: r => bind (f x) (fun y => bind (mapM f r) (fun ys => Ok (y :: ys)))
  end.

Definition prodZ (l : list Z) : Z := fold_right Z.mul 1%Z l.
Definition sumZ (l : list Z) : Z := fold_right Z.add 0%Z l.
Definition enumerate {A} (l : list A) : list (nat * A) := combine (seq 0 (List.length l)) l.

(** parameters.py:929-944 [collapsedIndices]. Simplification: the products of
    sweep lengths, which the code forms in doubles, are exact (they are below
    2^53 for any grid that fits in memory). *)
Definition collapsedIndices (st : swst) (indices : list Z) : res Z :=
  bind (mapM (fun k => match dget (s_coll st) k with Some p => Ok (p_N p) | None => Err KeyError end)
             (s_params st))
  (fun Narr =>
     Ok (sumZ (map (fun ii => (prodZ (skipn (fst ii + 1) Narr) * snd ii)%Z) (enumerate indices)))).

(** parameters.py:946-972 [computeFuncSweep]. [func] may have effects (state
    [S]) and may raise; the result list collected so far stays in
    [sweep_grid_result]. *)
Section Compute.
  Context {S B : Type}.
  Variable func : S -> dict string f64 -> S * res B.
  Definition point (st : swst) (i : nat) : res (dict string f64) :=
    bind (mapM (fun p => match dget (s_c st) p with
                         | None => Err KeyError
                         | Some a => match nth_error a i with Some x => Ok (p, x) | None => Err IndexError end
                         end) (s_params st))
    (fun kvs => Ok (dict_zip (map fst kvs) (map snd kvs))).
  Fixpoint compute_loop (st : swst) (s : S) (results : list B) (is : list nat) : S * list B * res unit :=
    match is with
    | [] => (s, results, Ok tt)
    | i :: r =>
        match point st i with
        | Err e => (s, results, Err e)
        | Ok params =>
            match func s params with
            | (s', Err e) => (s', results, Err e)
            | (s', Ok b) => compute_loop st s' (results ++ [b]) r
            end
        end
    end.
  Definition computeFuncSweep (st : swst) (specs : list spec) (s : S) : swst * (S * list B * res unit) :=
    match ndSweep st specs with
    | (st', Err e) => (st', (s, [], Err e))
    | (st', Ok tt) =>
        match s_clen st' with
        | None => (st', (s, [], Err AttributeError))
        | Some n => (st', compute_loop st' s [] (seq 0 n))
        end
    end.
End Compute.

(** numpy.abs on a double. *)
Definition fabs (x : f64) : f64 :=
  match x with
  | S754_zero _ => S754_zero false
  | S754_infinity _ => S754_infinity false
  | S754_finite _ m e => S754_finite false m e
  | S754_nan => S754_nan
  end.

(** numpy.argmin on a 1-d double array: first minimum, a NaN counts as
    smallest; ValueError when empty. *)
Fixpoint argmin_aux (best : f64) (bi i : nat) (l : list f64) : nat :=
  match l with
  | [] => bi
  | x :: r => if is_nan best then bi
              else if is_nan x then i
              else if flt x best then argmin_aux x i (S i) r
              else argmin_aux best bi (S i) r
  end.
Definition argmin (l : list f64) : res nat :=
  match l with [] => Err ValueError | x :: r => Ok (argmin_aux x 0 1 r) end.

(** parameters.py:409-423 [getParameterSweep]. *)
Definition getParameterSweep (coll : dict string param) (k : string) : res (list f64) :=
  match dget coll k with Some p => Ok (p_sweep p) | None => Err ValueError end.

(** parameters.py:1081-1085 (and 1134-1138): nearest sweep point. *)
Definition static_one (coll : dict string param) (k : string) (v : f64) : res (nat * f64) :=
  bind (getParameterSweep coll k) (fun p =>
  bind (argmin (map (fun x => fabs (fsub x v)) p)) (fun i =>
  match nth_error p i with Some x => Ok (i, x) | None => Err IndexError end)).
Definition statics (coll : dict string param) (static_vars : dict string f64)
  : res (list (string * (nat * f64))) :=
  mapM (fun kv => bind (static_one coll (fst kv) (snd kv)) (fun r => Ok (fst kv, r))) static_vars.

(** parameters.py:1072-1076: reversed positions and lengths by name. *)
Definition rev_positions (specs : list spec) : dict string nat :=
  fold_left (fun d is => dset d (sp_name (snd is)) (List.length specs - fst is - 1)) (enumerate specs) [].
Definition lengths (specs : list spec) : dict string Z :=
  fold_left (fun d s => dset d (sp_name s) (match sp_N s with PInt z => z | _ => 0%Z end)) specs [].

(** A slot of the Python list [final]: an int or a list of ints. *)
Inductive cell := CInt (n : nat) | CList (l : list nat).
Fixpoint set_nth {A} (l : list A) (i : nat) (x : A) : res (list A) :=
  match l, i with
  | [], _ => Err IndexError
  | _ :: r, O => Ok (x :: r)
  | y :: r, S i => bind (set_nth r i x) (fun r' => Ok (y :: r'))
  end.
Definition range (n : Z) : list nat := seq 0 (Z.to_nat n).

(** Python list indexing, negative indices included. *)
Definition py_nth {A} (l : list A) (z : Z) : res A :=
  let n := Z.of_nat (List.length l) in
  let i := if (z <? 0)%Z then (n + z)%Z else z in
  if (i <? 0)%Z then Err IndexError else
  match nth_error l (Z.to_nat i) with Some x => Ok x | None => Err IndexError end.

Section Result.
  Context {A B : Type}.
  (** How an entry of [data] becomes a value: itself, [pickleRead(f)] or
      [pickleRead(f)[key]] (lines 1099-1105). *)
  Variable rd : A -> res B.

  (** parameters.py:1087-1091. *)
  Definition fill1 (pos : dict string nat) (iv : string) (n : Z)
      (sts : list (string * (nat * f64))) : res (list cell) :=
    bind (match dget pos iv with Some i => Ok i | None => Err KeyError end) (fun i =>
    bind (set_nth (repeat (CInt 0) (1 + List.length sts)) i (CList (range n))) (fun f0 =>
    fold_left (fun acc kv =>
      bind acc (fun f =>
      bind (match dget pos (fst kv) with Some j => Ok j | None => Err KeyError end) (fun j =>
      set_nth f j (CList (map (fun _ => fst (snd kv)) (range n)))))) sts (Ok f0))).

  (** parameters.py:1092 [np.array(final).T]: ValueError when int and list
      slots are mixed (inhomogeneous shape). All lists have n entries. *)
  Definition columns (f : list cell) : res (list (list nat)) :=
    mapM (fun c => match c with CList l => Ok l | CInt _ => Err ValueError end) f.
  Definition row (cols : list (list nat)) (r : nat) : list nat := map (fun l => nth r l 0) cols.

  (** parameters.py:1050-1105 [getSweepResult] with [ind_var] a string; the
      result is given before the final [.T], which reverses the axes. *)
  Definition getSweepResult1 (st : swst) (iv : string) (static_vars : dict string f64) (data : list A)
    : res (list f64 * list B * dict string f64) :=
    match data with
    | [] => Err IndexError                                        (* line 1030 data[0] *)
    | _ =>
    if negb (dmem (s_coll st) iv) then Err ValueError else
    if negb (forallb (dmem (s_coll st)) (dkeys static_vars)) then Err ValueError else
    bind (getParameterSweep (s_coll st) iv) (fun sw =>
    if Nat.eqb (List.length (s_spec st)) 1 then
      bind (mapM rd data) (fun r => Ok (sw, r, []))
    else
      bind (statics (s_coll st) static_vars) (fun sts =>
      let pos := rev_positions (s_spec st) in
      bind (match dget (lengths (s_spec st)) iv with Some n => Ok n | None => Err KeyError end) (fun n =>
      bind (fill1 pos iv n sts) (fun final =>
      bind (columns final) (fun cols =>
      bind (mapM (fun r => bind (collapsedIndices st (map Z.of_nat (rev (row cols r)))) (py_nth data)) (range n)) (fun res =>
      bind (mapM rd res) (fun vals =>
      Ok (sw, vals, map (fun kv => (fst kv, snd (snd kv))) sts)))))))
    )
    end.

  (** parameters.py:1107-1164 [getSweepResult] with [ind_var] a list. *)
  Definition fillN (pos : dict string nat) (lens : dict string Z) (ivs : list string)
      (sts : list (string * (nat * f64))) : res (list cell) :=
    bind (fold_left (fun acc iv =>
      bind acc (fun f =>
      match dget pos iv, dget lens iv with
      | Some j, Some n => set_nth f j (CList (range n))
      | _, _ => Err KeyError
      end)) ivs (Ok (repeat (CInt 0) (List.length ivs + List.length sts)))) (fun f0 =>
    fold_left (fun acc kv =>
      bind acc (fun f =>
      bind (match dget pos (fst kv) with Some j => Ok j | None => Err KeyError end) (fun j =>
      set_nth f j (CInt (fst (snd kv)))))) sts (Ok f0)).

  Definition cell_list (c : cell) : list nat := match c with CInt n => [n] | CList l => l end.

  (** [np.array([x.flatten() for x in meshgrid( *cells, indexing="ij")]).T]:
      the rows, in C order; no row at all when there are no cells. *)
  Definition mesh_rows (cells : list (list nat)) : list (list nat) :=
    match cells with
    | [] => []
    | _ => map (fun idx => map (fun ci => nth (snd ci) (fst ci) 0) (combine cells idx))
               (tuples (map (@List.length nat) cells))
    end.

  (** parameters.py:1124-1129: the requested variables in specification
      order. *)
  Definition sort_ivs (specs : list spec) (ivs : list string) : list string :=
    filter (fun k => mem k ivs) (map sp_name specs).

  (** The reshaped array before the final [.T]. numpy's reshape raises
      ValueError when the sizes differ. *)
  Definition getSweepResultN (st : swst) (ivs : list string) (static_vars : dict string f64) (data : list A)
    : res (list (list f64) * ndarray B * dict string f64) :=
    match data with
    | [] => Err IndexError
    | _ =>
    if negb (forallb (dmem (s_coll st)) ivs) then Err ValueError else
    if negb (forallb (dmem (s_coll st)) (dkeys static_vars)) then Err ValueError else
    let ivs' := sort_ivs (s_spec st) ivs in
    bind (statics (s_coll st) static_vars) (fun sts =>
    bind (fillN (rev_positions (s_spec st)) (lengths (s_spec st)) ivs' sts) (fun final =>
    let rows := mesh_rows (map cell_list (rev final)) in
    bind (mapM (fun r => bind (collapsedIndices st (map Z.of_nat r)) (py_nth data)) rows) (fun res =>
    match rows with
    | [] => Err UnboundLocalError                                  (* line 1156 uses [l] after the loop *)
    | _ =>
      bind (mapM rd res) (fun vals =>
      let shape := map (fun k => match dget (lengths (s_spec st)) k with Some n => Z.to_nat n | None => 0 end) ivs' in
      if Nat.eqb (fold_right Nat.mul 1 shape) (List.length vals) then
        bind (mapM (getParameterSweep (s_coll st)) ivs') (fun sws =>
        Ok (sws, mknd shape vals, map (fun kv => (fst kv, snd (snd kv))) sts))
      else Err ValueError)
    end)))
    end.
End Result.

(** Entry of an array at an index tuple (C order). *)
Fixpoint flat_index (shape idx : list nat) : option nat :=
  match shape, idx with
  | [], [] => Some 0
  | n :: s, i :: r =>
      if Nat.ltb i n then
        match flat_index s r with Some j => Some (i * fold_right Nat.mul 1 s + j) | None => None end
      else None
  | _, _ => None
  end.
Definition nd_at {A} (a : ndarray A) (idx : list nat) : option A :=
  match flat_index (nd_shape a) idx with Some j => nth_error (nd_data a) j | None => None end.
(** [a.T[idx] = a[reversed idx]]. *)
Definition nd_T_at {A} (a : ndarray A) (idx : list nat) : option A := nd_at a (rev idx).
