(** util.py: createSubspaceOperators and the whole of pauliCoefficients. *)
From Coq Require Import List Bool Reals.
From Coquelicot Require Import Complex.
From Verif Require Import Prelude Mat Sweep Util NumOp NumEval.
Import ListNotations.
Open Scope nat_scope.

(** lines 286-298. The list is [len(m00)] long; the entries are complex64 there
    and exact here. *)
Definition createSubspaceOperators (m00 m01 m10 m11 : list C) : res (list (nat -> nat -> C)) :=
  mapM (fun i => match nth_error m00 i, nth_error m01 i, nth_error m10 i, nth_error m11 i with
    | Some a, Some b, Some c, Some d => Ok (mk2 a b c d)
    | _, _, _, _ => Err IndexError
    end) (seq 0 (List.length m00)).

(** lines 318-324 *)
Definition get_subspace_operator (n : nat) (V0 V1 : nat -> C) (op : nat -> nat -> C) : nat -> nat -> C :=
  mk2 (matrix_element n op V0 V0) (matrix_element n op V0 V1) (matrix_element n op V1 V0) (matrix_element n op V1 V1).

(** arguments E and V: a list, a two-dimensional array, anything else *)
Inductive arr2 (X : Type) : Type := AList (l : list (list X)) | AArr (rows cols : nat) (f : nat -> nat -> X) | AOther.
Arguments AList {X}. Arguments AArr {X}. Arguments AOther {X}.
(** argument basis_op: a Qobj of dimension [n], a list or array, anything else *)
Inductive basis_op : Type := BQobj (n : nat) (op : nat -> nat -> C) | BOps (l : list (nat -> nat -> C)) | BNeither.

(** [A[r, :]] *)
Definition row {X} (a : arr2 X) (r : nat) : res (list X) :=
  match a with
  | AList _ => Err TypeError                 (* list indices must be integers *)
  | AArr rows cols f => if Nat.ltb r rows then Ok (map (f r) (seq 0 cols)) else Err IndexError
  | AOther => Err TypeError
  end.
Definition is_arr {X} (a : arr2 X) : bool := match a with AOther => false | _ => true end.
Definition at1 {X} (l : list X) (i : nat) : res X := match nth_error l i with Some x => Ok x | None => Err IndexError end.

(** [|z| / z] of line 375 is NaN for z = 0, and so are then the three results of
    the point: [None]. *)
Definition pauli_or_nan (E0 E1 : R) (Vl : nat -> nat -> C) : option (R * R * R) :=
  if Ceq_dec (Vl 0 0) (RtoC 0) then None else if Ceq_dec (Vl 0 1) (RtoC 0) then None else Some (pauli_point E0 E1 Vl).

(** lines 300-391. [eigh]: numpy.linalg.eigh. The three returned arrays are one
    list of triples here. *)
Definition pauliCoefficients (eigh : (nat -> nat -> C) -> (nat -> R) * (nat -> nat -> C)) (E : arr2 R) (V : arr2 (nat -> C)) (b : basis_op)
    : res (list (option (R * R * R))) :=
  match b with BNeither => Err PlainException | _ =>
    if is_arr E && is_arr V then
      bind (row E 0) (fun E0 => bind (row E 1) (fun E1 => bind (row V 0) (fun V0 => bind (row V 1) (fun V1 =>
        mapM (fun i =>
          bind (at1 V0 i) (fun v0 => bind (at1 V1 i) (fun v1 =>
          bind (match b with BQobj n op => Ok (get_subspace_operator n v0 v1 op) | BOps l => at1 l i | BNeither => Err PlainException end) (fun Op =>
          bind (at1 E0 i) (fun e0 => bind (at1 E1 i) (fun e1 =>
          Ok (pauli_or_nan e0 e1 (snd (eigh Op)))))))))
        (seq 0 (List.length E0))))))
    else Err PlainException
  end.
