(** Vocabulary in which the ParamCollection properties are stated. *)
From Coq Require Import List Bool String ZArith SpecFloat Permutation Relations.
From Verif Require Import Prelude Float Param Expr Sweep Coll CollGraph.
Import ListNotations.
Open Scope list_scope.

(** An iteration order of sets: always a rearrangement. *)
Definition good_ord (o : ordr) : Prop := forall tag l, Permutation (o tag l) l.

Section Spec.
  Context {A : alg}.
  Implicit Types st : cst A.

  Definition registered st q : Prop := In q (dkeys (c_coll st)).
  Definition parametric st q : Prop := exists e ns, dget (c_par st) q = Some (e, ns).
  Definition independent st q : Prop := registered st q /\ ~ parametric st q.
  (** current value, None when unset or not registered *)
  Definition value_of st q : option f64 :=
    match dget (c_coll st) q with Some p => p_value p | None => None end.
  (** [q] is one of getParameterisationParameters([p]) *)
  Definition depends st p q : Prop := exists ns, getParameterisationParameters st p = Ok ns /\ In q ns.
  Definition depends_tr st : string -> string -> Prop := clos_trans string (depends st).

  (** the symbol of [q] occurs in getParametricExpression([p]) *)
  Definition mentions st p q : Prop :=
    exists e ns s, dget (c_par st) p = Some (e, ns) /\ In s (free e) /\ dget (c_sym st) q = Some s.
  Definition mentions_tr st : string -> string -> Prop := clos_trans string (mentions st).

  (** [r] gives every symbol its value: the symbol of an independent parameter
      the parameter's current value, the symbol of a parametric parameter the
      value of its expression, nested expressions being evaluated under the
      same assignment. *)
  Definition solves st (ind : string -> option (V A)) (r : string -> option (V A)) : Prop :=
    forall q s, dget (c_sym st) q = Some s ->
      match dget (c_par st) q with
      | Some (e, _) => r s = eval e r
      | None => r s = ind q
      end.
  Definition current st q : option (V A) := option_map ofF (value_of st q).
  Definition solution st (r : string -> option (V A)) : Prop := solves st (current st) r.

  (** ** Histories in which symbols are used consistently.
      [sg n] is the symbol of [n] throughout. [ow] lists the names that were
      re-parameterised while parametric. *)
  Definition op_ok (sg : string -> string) st (ow : list string) (o : cop A) : Prop :=
    match o with
    | CAdd n None => default_symbol n = Ok (sg n)
    | CAdd n (Some s) => s = sg n
    | CRm _ => False
    | CPre n f => forall e ns, dget (c_par st) n = Some (e, ns) -> incl (free f) (free e)
    | CRmP n => ~ In n ow
    | _ => True
    end.
  Definition op_ow st (ow : list string) (o : cop A) : list string :=
    match o with
    | CAddP n _ => if dmem (c_par st) n then n :: ow else ow
    | _ => ow
    end.
  Inductive reach (sg : string -> string) : cst A -> list string -> Prop :=
  | reach_new names st : coll_new names = Ok st -> (forall n, In n names -> default_symbol n = Ok (sg n)) -> reach sg st []
  | reach_op fuel st ow o : reach sg st ow -> good_ord (fst o) -> op_ok sg st ow (snd o) ->
      reach sg (fst (cstep fuel st o)) (op_ow st ow (snd o)).

  (** As [op_ok], but parameters may also be removed. *)
  Definition op_ok_rm (sg : string -> string) st (o : cop A) : Prop :=
    match o with
    | CAdd n None => default_symbol n = Ok (sg n)
    | CAdd n (Some s) => s = sg n
    | CPre n f => forall e ns, dget (c_par st) n = Some (e, ns) -> incl (free f) (free e)
    | _ => True
    end.
  Inductive reach_rm (sg : string -> string) : cst A -> Prop :=
  | reach_rm_new names st : coll_new names = Ok st -> (forall n, In n names -> default_symbol n = Ok (sg n)) -> reach_rm sg st
  | reach_rm_op fuel st o : reach_rm sg st -> good_ord (fst o) -> op_ok_rm sg st (snd o) ->
      reach_rm sg (fst (cstep fuel st o)).
  (** No restriction at all. *)
  Inductive reach_any : cst A -> Prop :=
  | reach_any_new names st : coll_new names = Ok st -> reach_any st
  | reach_any_op fuel st o : reach_any st -> good_ord (fst o) -> reach_any (fst (cstep fuel st o)).

  (** [n] is the parameter that a new expression containing symbol [s] will
      depend on: the last registered one with that symbol. *)
  Definition names_symbol st s n : Prop :=
    exists l1 l2, c_sym st = l1 ++ (n, s) :: l2 /\ ~ In s (map snd l2).
End Spec.
