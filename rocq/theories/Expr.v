(** The part of sympy that pyscqed/parameters.py relies on (calls at lines
    587, 625, 648-663, 1231-1238): expressions with free symbols,
    substitution, products, and conversion to float. sympy itself is not
    modelled: theorems quantify over every structure with the laws below, and
    two concrete structures are given, a plain expression tree ([tree_alg]) and
    a tree that, like sympy, replaces a product with 0 by 0 ([simp_alg]). *)
From Coq Require Import List Bool String ZArith SpecFloat.
From Verif Require Import Prelude Float.
Import ListNotations.
Open Scope string_scope.
Open Scope list_scope.

Definition upd {V} (r : string -> option V) (s : string) (v : option V) : string -> option V :=
  fun x => if eqb x s then v else r x.

Record alg := mkalg {
  E : Type;                                      (* expressions *)
  V : Type;                                      (* numbers *)
  free : E -> list string;                       (* expr.free_symbols *)
  subs : E -> string -> E -> E;                  (* expr.subs({sym: expr'}) *)
  const : V -> E;
  mul : E -> E -> E;
  eval : E -> (string -> option V) -> option V;  (* meaning; None = no number *)
  vmul : V -> V -> option V;
  ofF : f64 -> V;                                (* the number a Python float stands for *)
  toF : V -> res f64;                            (* float(number) *)
  undefF : E -> res f64                          (* float(expr) when expr has no symbols and no
                                                    finite value: TypeError for zoo or a complex
                                                    number, nan for nan *)
}.
Arguments free {a}. Arguments subs {a}. Arguments const {a}. Arguments mul {a}.
Arguments eval {a}. Arguments vmul {a}. Arguments ofF {a}. Arguments toF {a}. Arguments undefF {a}.

(** float(expr): TypeError when symbols are left. *)
Definition tofloat {A : alg} (e : E A) : res f64 :=
  match free e with
  | [] => match eval e (fun _ => None) with Some v => toF v | None => undefF e end
  | _ => Err TypeError
  end.

(** What is assumed of sympy. [free] may shrink under substitution (terms may
    cancel) and an expression may become defined by cancellation, but a
    defined value is never changed. *)
Record alg_ok (A : alg) : Prop := {
  free_nodup : forall e : E A, NoDup (free e);
  free_subs : forall (e : E A) s t x, In x (free (subs e s t)) -> (In x (free e) /\ x <> s) \/ In x (free t);
  free_const : forall c : V A, free (@const A c) = [];
  free_mul : forall (a b : E A) x, In x (free (mul a b)) -> In x (free a) \/ In x (free b);
  eval_ext : forall (e : E A) r r', (forall x, In x (free e) -> r x = r' x) -> eval e r = eval e r';
  eval_strict : forall (e : E A) r v x, eval e r = Some v -> In x (free e) -> r x <> None;
  eval_const : forall (c : V A) r, eval (@const A c) r = Some c;
  eval_mul : forall (a b : E A) r x y v, eval a r = Some x -> eval b r = Some y -> vmul x y = Some v -> eval (mul a b) r = Some v;
  eval_subs : forall (e : E A) s t r v, eval e (upd r s (eval t r)) = Some v -> eval (subs e s t) r = Some v
}.

(** No cancellation: the additional laws of plain trees. *)
Record alg_plain (A : alg) : Prop := {
  plain_free : forall (e : E A) s t x, In x (free e) -> x <> s -> In x (free (subs e s t));
  plain_free2 : forall (e : E A) s t x, In s (free e) -> In x (free t) -> In x (free (subs e s t));
  plain_eval : forall (e : E A) s t r, In s (free e) -> eval (subs e s t) r = eval e (upd r s (eval t r));
  plain_noop : forall (e : E A) s t, ~ In s (free e) -> subs e s t = e;
  plain_undef : forall e : E A, undefF e = Err TypeError
}.

(** ** Two concrete structures over the doubles' dyadic numbers *)
Inductive tree := TNum (z : Z) | TSym (s : string) | TAdd (a b : tree) | TMul (a b : tree) | TInv (a : tree).
Fixpoint tfree (e : tree) : list string :=
  match e with
  | TNum _ => []
  | TSym s => [s]
  | TAdd a b | TMul a b => dedup (tfree a ++ tfree b)%list
  | TInv a => tfree a
  end.
(** Numbers: integers, with 1/1 = 1 and 1/-1 = -1 the only defined inverses.
    Enough for witnesses; nothing in the theorems depends on it. *)
Definition zinv (z : Z) : option Z := if (z =? 1)%Z then Some 1%Z else if (z =? -1)%Z then Some (-1)%Z else None.
Fixpoint teval (e : tree) (r : string -> option Z) : option Z :=
  match e with
  | TNum z => Some z
  | TSym s => r s
  | TAdd a b => match teval a r, teval b r with Some x, Some y => Some (x + y)%Z | _, _ => None end
  | TMul a b => match teval a r, teval b r with Some x, Some y => Some (x * y)%Z | _, _ => None end
  | TInv a => match teval a r with Some x => zinv x | None => None end
  end.
Fixpoint tsubs (e : tree) (s : string) (t : tree) : tree :=
  match e with
  | TNum z => TNum z
  | TSym x => if eqb x s then t else TSym x
  | TAdd a b => TAdd (tsubs a s t) (tsubs b s t)
  | TMul a b => TMul (tsubs a s t) (tsubs b s t)
  | TInv a => TInv (tsubs a s t)
  end.
(** Integer value of a double, 0 for anything else (witnesses only use
    integers). *)
Definition zofF (x : f64) : Z :=
  match x with
  | S754_finite s m e =>
      let a := (if (0 <=? e)%Z then Z.pos m * 2 ^ e else Z.pos m / 2 ^ (- e))%Z in if s then (- a)%Z else a
  | _ => 0%Z
  end.
Definition ztoF (z : Z) : res f64 := float_of_int z.

Definition tree_alg : alg :=
  mkalg tree Z tfree tsubs TNum TMul teval (fun x y => Some (x * y)%Z) zofF ztoF (fun _ => Err TypeError).

(** sympy's [Mul.flatten] returns the coefficient when it is 0 and no factor
    is known to be infinite or nan (sympy/core/mul.py). A closed undefined
    factor stands for an infinite or nan one. *)
Definition fine (e : tree) : bool :=
  match tfree e with [] => match teval e (fun _ => None) with Some _ => true | None => false end | _ => true end.
Definition is_zero (e : tree) : bool := match e with TNum 0 => true | _ => false end.
Definition smul (a b : tree) : tree :=
  if (is_zero a && fine b) || (is_zero b && fine a) then TNum 0 else TMul a b.
Fixpoint ssubs (e : tree) (s : string) (t : tree) : tree :=
  match e with
  | TNum z => TNum z
  | TSym x => if eqb x s then t else TSym x
  | TAdd a b => TAdd (ssubs a s t) (ssubs b s t)
  | TMul a b => smul (ssubs a s t) (ssubs b s t)
  | TInv a => TInv (ssubs a s t)
  end.
Definition simp_alg : alg :=
  mkalg tree Z tfree ssubs TNum smul teval (fun x y => Some (x * y)%Z) zofF ztoF (fun _ => Err TypeError).
