(** Model of pyscqed/parameters.py, class [Param] (lines 19-193). *)
From Coq Require Import List Bool String Ascii ZArith SpecFloat.
From Verif Require Import Prelude Float Latex.
Import ListNotations.
Open Scope string_scope.

(** Python argument values, as far as [type(x)] tests can tell them apart. *)
Inductive pyval :=
| PNone
| PBool (b : bool)
| PInt (z : Z)
| PFloat (x : f64)
| PNp (x : f64)            (* numpy.float64 *)
| PStr (s : string)
| PList (l : list pyval)
| PObj.                    (* anything else *)

(** parameters.py:48 [__valid_scalar_types = [int, float, np.float64]]; the
    test is on [type(x)], so bool is not an int. *)
Definition valid_scalar (v : pyval) : bool :=
  match v with PInt _ | PFloat _ | PNp _ => true | _ => false end.

(** Python [float(x)] for the types that can reach it. *)
Definition to_float (v : pyval) : res f64 :=
  match v with
  | PInt z => float_of_int z
  | PFloat x | PNp x => Ok x
  | _ => Err TypeError
  end.

(** parameters.py:67/145: both exactly [float] or both exactly [int]; then
    line 70/148 [bounds[0] > bounds[1]], exact on ints. *)
Definition bounds_types_ok (a b : pyval) : bool :=
  match a, b with
  | PFloat _, PFloat _ | PInt _, PInt _ => true
  | _, _ => false
  end.
Definition py_gt (a b : pyval) : bool :=
  match a, b with
  | PFloat x, PFloat y => flt y x
  | PInt x, PInt y => Z.ltb y x
  | _, _ => false
  end.

(** parameters.py:79-90. The sympy symbol is represented by its name. *)
Record param := mkparam {
  p_name : string;
  p_symbol : string;
  p_value : option f64;
  p_lo : f64;
  p_hi : f64;
  p_upref : f64;
  p_latex : string;
  p_sweep : list f64;
  p_N : Z
}.

(** Python [' ' in s]. *)
Fixpoint has_space (s : string) : bool :=
  match s with
  | EmptyString => false
  | String c r => Ascii.eqb c " " || has_space r
  end.

(** parameters.py:80 ["%s_{%s}" % (name[0], name[1:])], IndexError on "".
    Simplification: sympy.symbols is taken to return the single symbol of
    that name (true unless the name contains one of [, : ( ) \]). *)
Definition default_symbol (name : string) : res string :=
  match name with
  | EmptyString => Err IndexError
  | String c r => Ok (String c ("_{" ++ r ++ "}"))
  end.

(** parameters.py:50-90 [Param.__init__]; checks in source order. The value
    is not compared with the bounds. *)
Definition param_new (name value bounds unit_pref : pyval) : res param :=
  match name with
  | PStr nm =>
    if has_space nm then Err ValueError else
    if negb (match value with PNone => true | v => valid_scalar v end) then Err TypeError else
    match bounds with
    | PList [b0; b1] =>
      if negb (bounds_types_ok b0 b1) then Err TypeError else
      if py_gt b0 b1 then Err ValueError else
      if negb (valid_scalar unit_pref) then Err TypeError else
      bind (to_float unit_pref) (fun u =>
      if flt u fzero then Err ValueError else
      bind (default_symbol nm) (fun sym =>
      bind (match value with PNone => Ok None | v => bind (to_float v) (fun x => Ok (Some x)) end) (fun v =>
      bind (to_float b0) (fun lo =>
      bind (to_float b1) (fun hi =>
      bind (latexify_param_name nm) (fun lx =>
      Ok (mkparam nm sym v lo hi u lx [] 0)))))))
    | _ => Err TypeError
    end
  | _ => Err TypeError
  end.

(** parameters.py:92-98. *)
Definition getValue (p : param) : option f64 := p_value p.
(** parameters.py:121-127. *)
Definition getBounds (p : param) : f64 * f64 := (p_lo p, p_hi p).

Definition with_value (p : param) (v : option f64) : param :=
  mkparam (p_name p) (p_symbol p) v (p_lo p) (p_hi p) (p_upref p) (p_latex p) (p_sweep p) (p_N p).
Definition with_lo (p : param) (x : f64) : param :=
  mkparam (p_name p) (p_symbol p) (p_value p) x (p_hi p) (p_upref p) (p_latex p) (p_sweep p) (p_N p).
Definition with_hi (p : param) (x : f64) : param :=
  mkparam (p_name p) (p_symbol p) (p_value p) (p_lo p) x (p_upref p) (p_latex p) (p_sweep p) (p_N p).
Definition with_sweep (p : param) (l : list f64) (n : Z) : param :=
  mkparam (p_name p) (p_symbol p) (p_value p) (p_lo p) (p_hi p) (p_upref p) (p_latex p) l n.

(** parameters.py:100-119 [setValue]. *)
Definition setValue (p : param) (v : pyval) : param * res unit :=
  if negb (valid_scalar v) then (p, Err TypeError) else
  match to_float v with
  | Err e => (p, Err e)
  | Ok x =>
      if fle (p_hi p) x then (p, Err ValueError) else
      if fle x (p_lo p) then (p, Err ValueError) else
      (with_value p (Some x), Ok tt)
  end.

(** parameters.py:129-152 [setBounds]; line 151 assigns the lower bound
    before line 152 converts the upper one. *)
Definition setBounds (p : param) (bounds : pyval) : param * res unit :=
  match bounds with
  | PList l =>
    match l with
    | [b0; b1] =>
      if negb (bounds_types_ok b0 b1) then (p, Err TypeError) else
      if py_gt b0 b1 then (p, Err ValueError) else
      match to_float b0 with
      | Err e => (p, Err e)
      | Ok lo =>
          match to_float b1 with
          | Err e => (with_lo p lo, Err e)
          | Ok hi => (with_hi (with_lo p lo) hi, Ok tt)
          end
      end
    | _ => (p, Err ValueError)
    end
  | _ => (p, Err TypeError)
  end.

(** numpy.linspace(start, stop, num) for Python floats (numpy 2.0
    _core/function_base.py): raises ValueError for num < 0;
    y = arange(0, num); if num > 1, step = (stop - start)/(num - 1) and
    y = y*step, or y = y/(num-1)*delta when step == 0; otherwise
    y = y*(stop - start); then y += start and y[-1] = stop when num > 1.
    Simplification: memory is unbounded. *)
Definition linspace_raw (s e : f64) (N : Z) (i : nat) : f64 :=
  let delta := fsub e s in
  let y := round_Z (Z.of_nat i) in
  let z :=
    if (1 <? N)%Z then
      let dv := round_Z (N - 1) in
      let step := fdiv delta dv in
      if feq step fzero then fmul (fdiv y dv) delta else fmul y step
    else fmul y delta in
  fadd z s.
Definition linspace (s e : f64) (N : Z) : res (list f64) :=
  if (N <? 0)%Z then Err ValueError else
  Ok (map (fun i => if (1 <? N)%Z && (Z.of_nat i =? N - 1)%Z then e else linspace_raw s e N i)
          (seq 0 (Z.to_nat N))).

(** parameters.py:154-193 [linearSweep]. *)
Definition linearSweep (p : param) (start stop n : pyval) : param * res (list f64) :=
  if negb (valid_scalar start) then (p, Err TypeError) else
  if negb (valid_scalar stop) then (p, Err TypeError) else
  match n with
  | PInt N =>
    match to_float start with
    | Err e => (p, Err e)
    | Ok s =>
      if flt (p_hi p) s then (p, Err ValueError) else
      if flt s (p_lo p) then (p, Err ValueError) else
      match to_float stop with
      | Err e => (p, Err e)
      | Ok t =>
        if flt (p_hi p) t then (p, Err ValueError) else
        if flt t (p_lo p) then (p, Err ValueError) else
        match linspace s t N with
        | Err e => (p, Err e)
        | Ok l => (with_sweep p l N, Ok l)
        end
      end
    end
  | _ => (p, Err TypeError)
  end.

(** Histories of one Param object. *)
Inductive pop :=
| PSetValue (v : pyval)
| PSetBounds (b : pyval)
| PSweep (s e n : pyval).
Definition pstep (p : param) (o : pop) : param :=
  match o with
  | PSetValue v => fst (setValue p v)
  | PSetBounds b => fst (setBounds p b)
  | PSweep s e n => fst (linearSweep p s e n)
  end.
Definition prun (p : param) (l : list pop) : param := fold_left pstep l p.
