(** IEEE binary64 as used by CPython and numpy: the stdlib's computable
    specification floats with precision 53 and maximal exponent 1024. *)
From Coq Require Import ZArith Bool SpecFloat.
From Verif Require Import Prelude.

Definition f64 := spec_float.
Definition prec : Z := 53.
Definition emax : Z := 1024.
Definition fadd : f64 -> f64 -> f64 := SFadd prec emax.
Definition fsub : f64 -> f64 -> f64 := SFsub prec emax.
Definition fmul : f64 -> f64 -> f64 := SFmul prec emax.
Definition fdiv : f64 -> f64 -> f64 := SFdiv prec emax.
(** Python's [x < y], [x <= y], [x == y] on floats: false on NaN. *)
Definition flt : f64 -> f64 -> bool := SFltb.
Definition fle : f64 -> f64 -> bool := SFleb.
Definition feq : f64 -> f64 -> bool := SFeqb.
Definition fabs : f64 -> f64 := SFabs.
Definition fzero : f64 := S754_zero false.
Definition finf : f64 := S754_infinity false.
Definition fninf : f64 := S754_infinity true.
Definition fnan : f64 := S754_nan.

(** A representable double: the canonical mantissa/exponent pairs. *)
Definition valid (x : f64) : bool := valid_binary prec emax x.
Definition is_finite (x : f64) : bool :=
  match x with S754_zero _ | S754_finite _ _ _ => true | _ => false end.
Definition is_nan (x : f64) : bool :=
  match x with S754_nan => true | _ => false end.

(** Correctly rounded conversion of an integer (numpy int to double). *)
Definition round_Z (z : Z) : f64 := binary_normalize prec emax z 0 false.

(** CPython [float(n)] of an int: correctly rounded, or OverflowError. *)
Definition float_of_int (z : Z) : res f64 :=
  match round_Z z with
  | S754_infinity _ => Err OverflowError
  | x => Ok x
  end.
