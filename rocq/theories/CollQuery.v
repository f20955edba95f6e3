(** Model of pyscqed/parameters.py, class [ParamCollection]: the functions that
    report on the collection (lines 266-280, 482-557, 711-755). *)
From Coq Require Import List Bool String SpecFloat.
From Verif Require Import Prelude Float Param Expr Sweep Coll.
Import ListNotations.
Open Scope string_scope.
Open Scope list_scope.

(** [None in d.values()] *)
Definition none_in {K} (d : dict K (option f64)) : bool :=
  existsb (fun kv => match snd kv with None => true | Some _ => false end) d.

Section WithAlg.
  Context {A : alg}.
  Implicit Types st : cst A.

  (** lines 266-272 [getParameterValuesDict]. *)
  Definition getParameterValuesDict st : dict string (option f64) :=
    map (fun kv => (fst kv, getValue (snd kv))) (c_coll st).
  (** lines 274-280 [getSymbolValuesDict]: a dict comprehension, so a later
      parameter with the same symbol overwrites an earlier one. *)
  Definition getSymbolValuesDict st : res (dict string (option f64)) :=
    fold_left (fun acc kv =>
      bind acc (fun d =>
      match dget (c_sym st) (fst kv) with
      | Some s => Ok (dset d s (getValue (snd kv)))
      | None => Err KeyError
      end)) (c_coll st) (Ok []).
  (** lines 482-499 [getParameterValues]. *)
  Definition getParameterValues st (names : list string) : res (dict string (option f64)) :=
    fold_left (fun acc n =>
      bind acc (fun d =>
      match dget (c_coll st) n with
      | Some p => Ok (dset d n (getValue p))
      | None => Err ValueError
      end)) names (Ok []).
  (** lines 520-528 [allParametersSet]. *)
  Definition allParametersSet st : bool := negb (none_in (getParameterValuesDict st)).
  (** lines 711-728 [parameterisationParametersSet]. *)
  Definition parameterisationParametersSet st (name : string) : res bool :=
    match dget (c_par st) name with
    | None => Err ValueError
    | Some (_, names) => bind (getParameterValues st names) (fun d => Ok (negb (none_in d)))
    end.

  (** lines 534-557 [getSymbols]. [overrides]: the argument symbol_overrides,
      None when it is not given; its entries are None or the names of sympy
      symbols. Simplification: the names are strings (anything else raises
      TypeError at line 554 or in addParameter). *)
  Fixpoint symbols_loop st (overrides : option (list (option string))) (i : nat) (names : list string) (values : dict string string)
    : cst A * res (dict string string) :=
    match names with
    | [] => (st, Ok values)
    | name :: r =>
        match (match overrides with
               | None => Some None
               | Some l => nth_error l i
               end) with
        | None => (st, Err IndexError)
        | Some o =>
            match addParameter st name o with
            | (st', Err e) => (st', Err e)
            | (st', Ok _) =>
                match dget (c_sym st') name with
                | None => (st', Err KeyError)
                | Some s => symbols_loop st' overrides (S i) r (dset values name s)
                end
            end
        end
    end.
  Definition getSymbols st (names : list string) (overrides : option (list (option string))) : cst A * res (dict string string) :=
    symbols_loop st overrides 0 names [].

  (** lines 730-755 [getParameterisationsInvolving]. *)
  Fixpoint involving_loop st (names : list string) (pnames : list string) : res (list string) :=
    match names with
    | [] => Ok pnames
    | name :: r =>
        if negb (dmem (c_coll st) name) then Err ValueError else
        if dmem (c_par st) name then Ok [] else
        involving_loop st r
          (fold_left (fun acc p =>
             match getParameterisationParameters st p with
             | Ok ns => if mem name ns then if mem p acc then acc else acc ++ [p] else acc
             | Err _ => acc
             end) (dkeys (c_par st)) pnames)
    end.
  Definition getParameterisationsInvolvingAll st (names : list string) : res (list string) :=
    involving_loop st names [].
End WithAlg.
