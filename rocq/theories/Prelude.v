(** Shared vocabulary of the model: Python exceptions as values, boolean
    equality, and Python dictionaries as association lists in insertion
    order. Nothing here is specific to one file of /repo. *)
From Coq Require Import List Bool String Ascii ZArith NArith Lia PeanoNat.
From Coq Require Import DecimalString DecimalN.
Import ListNotations.

(** Exception classes raised (or provoked) by the modelled code. *)
Inductive exn :=
| TypeError | ValueError | KeyError | IndexError | AttributeError
| OverflowError | AssertionError | UnboundLocalError | ZeroDivisionError
| FileNotFoundError | NetworkXError | SyntaxError | PlainException (** raise Exception(...) *) | Diverges (** not an exception: the loop never ends *).

Inductive res (A : Type) := Ok (a : A) | Err (e : exn).
Arguments Ok {A} a.
Arguments Err {A} e.

Definition bind {A B} (x : res A) (f : A -> res B) : res B :=
  match x with Ok a => f a | Err e => Err e end.

Definition is_ok {A} (x : res A) : bool :=
  match x with Ok _ => true | Err _ => false end.

Class EqB (K : Type) := {
  eqb : K -> K -> bool;
  eqb_spec : forall x y, reflect (x = y) (eqb x y)
}.

#[global] Instance EqB_string : EqB string :=
  {| eqb := String.eqb; eqb_spec := String.eqb_spec |}.
#[global] Instance EqB_nat : EqB nat :=
  {| eqb := Nat.eqb; eqb_spec := Nat.eqb_spec |}.
#[global] Instance EqB_Z : EqB Z :=
  {| eqb := Z.eqb; eqb_spec := Z.eqb_spec |}.
#[global] Instance EqB_bool : EqB bool :=
  {| eqb := Bool.eqb; eqb_spec := Bool.eqb_spec |}.

Definition prod_eqb {A B} `{EqB A} `{EqB B} (x y : A * B) : bool :=
  eqb (fst x) (fst y) && eqb (snd x) (snd y).
Lemma prod_eqb_spec {A B} `{EqB A} `{EqB B} (x y : A * B) :
  reflect (x = y) (prod_eqb x y).
Proof.
  destruct x as [a b], y as [c d]. unfold prod_eqb. cbn.
  destruct (eqb_spec a c); destruct (eqb_spec b d); constructor; congruence.
Qed.
#[global] Instance EqB_prod {A B} `{EqB A} `{EqB B} : EqB (A * B) :=
  {| eqb := prod_eqb; eqb_spec := prod_eqb_spec |}.

(** Membership test, Python's [x in l]. *)
Definition mem {K} `{EqB K} (x : K) (l : list K) : bool := existsb (eqb x) l.

(** Keep the first occurrence of each element. *)
Fixpoint dedup {K} `{EqB K} (l : list K) : list K :=
  match l with
  | [] => []
  | x :: r => x :: filter (fun y => negb (eqb x y)) (dedup r)
  end.

(** Python dict: insertion ordered; assigning to a present key keeps its
    place. *)
Definition dict (K V : Type) := list (K * V).

Section Dict.
  Context {K : Type} `{EqB K} {V : Type}.
  Fixpoint dget (d : dict K V) (k : K) : option V :=
    match d with
    | [] => None
    | (k', v) :: r => if eqb k k' then Some v else dget r k
    end.
  Fixpoint dset (d : dict K V) (k : K) (v : V) : dict K V :=
    match d with
    | [] => [(k, v)]
    | (k', v') :: r => if eqb k k' then (k', v) :: r else (k', v') :: dset r k v
    end.
  Definition ddel (d : dict K V) (k : K) : dict K V :=
    filter (fun kv => negb (eqb k (fst kv))) d.
  Definition dkeys (d : dict K V) : list K := map fst d.
  Definition dvals (d : dict K V) : list V := map snd d.
  Definition dmem (d : dict K V) (k : K) : bool := mem k (dkeys d).
End Dict.

(** Python [str(n)], ["%i" % n] and ["%d" % n] for a non-negative int. *)
Definition dec (n : N) : string := NilZero.string_of_uint (N.to_uint n).
