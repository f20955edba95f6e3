(** Specification of the unit system: the real numbers, SI tables and the
    physical formulas, written without the functions of Units.v. *)
From Coq Require Import List Bool String Ascii ZArith Reals.
From Verif Require Import Prelude Units Mat.
Import ListNotations.
Open Scope string_scope.
Open Scope list_scope.

(** Exact real arithmetic. *)
Definition R_num : num :=
  mknum R (fun m e => (IZR m * powerRZ 10 e)%R) Rmult Rdiv (fun x => (x * x)%R) sqrt (fun x => sqrt (sqrt x)) PI
    (fun x => if Req_EM_T x 0 then true else false).
Notation rheap := (@heap R_num).
Notation runits := (@units R_num).

(** SI prefixes, as the code documents them ("D" deca, "0" none). *)
Definition si_exponent (p : ascii) : option Z :=
  match p with
  | "E" => Some 18 | "P" => Some 15 | "T" => Some 12 | "G" => Some 9 | "M" => Some 6 | "k" => Some 3 | "h" => Some 2
  | "D" => Some 1 | "0" => Some 0 | "d" => Some (-1) | "c" => Some (-2) | "m" => Some (-3) | "u" => Some (-6)
  | "n" => Some (-9) | "p" => Some (-12) | "f" => Some (-15) | "a" => Some (-18) | _ => None
  end%char%Z.
Definition base_units : list string := ["F"; "H"; "Ohm"; "A"; "V"; "Hz"; "Wb"; "C"; "J"; "K"; "eV"].
(** physical constants, SI *)
Definition e_SI : R := (160217662 * / powerRZ 10 27)%R.
Definition h_SI : R := (662607004 * / powerRZ 10 42)%R.
Definition hbar_SI : R := (1054571800 * / powerRZ 10 43)%R.
Definition kB_SI : R := (138064852 * / powerRZ 10 31)%R.
Definition phi0_SI : R := (2067833831 * / powerRZ 10 24)%R.
(** the energy in joule of one base unit *)
Definition joule (b : string) : option R :=
  if String.eqb b "Hz" then Some h_SI else if String.eqb b "J" then Some 1%R
  else if String.eqb b "K" then Some kB_SI else if String.eqb b "eV" then Some e_SI else None.

(** The factor of a key of self.c / self.cd, if any. *)
Definition in_factor {A : num} (h : @heap A) (u : @units A) (k : string) : option A :=
  match dget (u_c u) k with None => None | Some a => match nth_error h a with Some e => Some (e_factor e) | None => None end end.
Definition out_factor {A : num} (h : @heap A) (u : @units A) (k : string) : option A :=
  match dget (u_cd u) k with None => None | Some a => match nth_error h a with Some e => Some (e_factor e) | None => None end end.
Definition in_name {A : num} (h : @heap A) (u : @units A) (k : string) : option string :=
  match dget (u_c u) k with None => None | Some a => match nth_error h a with Some e => Some (e_unit e) | None => None end end.
Definition out_name {A : num} (h : @heap A) (u : @units A) (k : string) : option string :=
  match dget (u_cd u) k with None => None | Some a => match nth_error h a with Some e => Some (e_unit e) | None => None end end.

(** All factors of a unit system. *)
Record usys (T : Type) := mks { sF : T; sH : T; sOhm : T; sA : T; sV : T; sHz : T; sWb : T; sC : T; oE : T; oI : T; oU : T }.
Arguments mks {T}. Arguments sF {T}. Arguments sH {T}. Arguments sOhm {T}. Arguments sA {T}. Arguments sV {T}. Arguments sHz {T}.
Arguments sWb {T}. Arguments sC {T}. Arguments oE {T}. Arguments oI {T}. Arguments oU {T}.
Definition has_factors {A : num} (h : @heap A) (u : @units A) (s : usys A) : Prop :=
  in_factor h u "F" = Some (sF s) /\ in_factor h u "H" = Some (sH s) /\ in_factor h u "Ohm" = Some (sOhm s) /\
  in_factor h u "A" = Some (sA s) /\ in_factor h u "V" = Some (sV s) /\ in_factor h u "Hz" = Some (sHz s) /\
  in_factor h u "Wb" = Some (sWb s) /\ in_factor h u "C" = Some (sC s) /\
  out_factor h u "Energy" = Some (oE s) /\ out_factor h u "Current" = Some (oI s) /\ out_factor h u "Voltage" = Some (oU s).
Definition positive (s : usys R) : Prop :=
  (0 < sF s /\ 0 < sH s /\ 0 < sOhm s /\ 0 < sA s /\ 0 < sV s /\ 0 < sHz s /\ 0 < sWb s /\ 0 < sC s /\ 0 < oE s /\ 0 < oI s /\ 0 < oU s)%R.

(** The defining formula of each prefactor, for reals. *)
Definition prefactor_of (s : usys R) (name : string) : option R :=
  let is := String.eqb name in
  (if is "Ec" then Some (oE s * (sC s)^2 / sF s)
  else if is "El" then Some (oE s * (sWb s)^2 / sH s)
  else if is "Ej" then Some (oE s * sWb s * sA s / (2 * PI))
  else if is "Ep" then Some (oE s * sC s * sV s / (2 * PI))
  else if is "Freq" then Some (1 / (sHz s * sqrt (sF s * sH s) * 2 * PI))
  else if is "Impe" then Some (sqrt (sH s / sF s))
  else if is "FlxOsc" then Some (sqrt hbar_SI / sWb s)
  else if is "ChgOsc" then Some (sqrt hbar_SI / sC s)
  else if is "Vop" then Some (oU s * sC s / sF s)
  else if is "IopL" then Some (oI s * sWb s / sH s)
  else if is "IopJ" then Some (oI s * sA s)
  else if is "Flx" then Some (sWb s)
  else if is "Chg" then Some (sC s)
  else if is "Pha" then Some (sWb s / phi0_SI)
  else if is "ChgOscCpl" then Some (oE s * sqrt hbar_SI * sC s / (sF s * sqrt (sqrt (sH s / sF s))))
  else if is "FlxOscCpl" then Some 0
  else None)%R.
Definition refreshed (h : rheap) (u : runits) : Prop :=
  exists s, has_factors h u s /\ forall name, getPrefactor u name = match prefactor_of s name with Some x => Ok x | None => Err KeyError end.

(** What an observer sees of a Units object. *)
Definition same_view {A : num} (h : @heap A) (u : @units A) (h' : @heap A) (u' : @units A) : Prop :=
  (forall k, in_factor h' u' k = in_factor h u k /\ in_name h' u' k = in_name h u k) /\
  (forall k, out_factor h' u' k = out_factor h u k /\ out_name h' u' k = out_name h u k) /\
  (forall k, getPrefactor u' k = getPrefactor u k).

(** Which Units object a call is made on, and whether it raised one of the two
    errors after which the object is left half updated. *)
Definition target {A : num} (w : @world A) (o : @wop A) : option nat :=
  match o with CallUnits i _ => Some i | CallNS j _ => nth_error (w_ns w) j | NewUnits _ | NewNS _ => None end.
Definition call_of {A : num} (o : @wop A) : option (@uop A) := match o with CallUnits _ x | CallNS _ x => Some x | _ => None end.
Definition raised {A : num} (w : @world A) (o : @wop A) : option exn :=
  match target w o, call_of o with
  | Some i, Some x =>
      match nth_error (w_units w) i with
      | Some u => match run_op (w_heap w) u x with (_, _, Err e) => Some e | (_, _, Ok _) => None end
      | None => None
      end
  | _, _ => None
  end.
(** No call on object k raised one of them. *)
Fixpoint clean {A : num} (k : nat) (w : @world A) (l : list (@wop A)) : Prop :=
  match l with
  | [] => True
  | o :: l => (target w o = Some k -> raised w o <> Some AttributeError /\ raised w o <> Some ZeroDivisionError) /\ clean k (step w o) l
  end.
(** No call in the history is made on object k. *)
Fixpoint untouched {A : num} (k : nat) (w : @world A) (l : list (@wop A)) : Prop :=
  match l with [] => True | o :: l => target w o <> Some k /\ untouched k (step w o) l end.
Definition reachable {A : num} (w : @world A) : Prop := exists l, w = run_world world0 l.

(** A quadratic form over n nodes. *)
Definition quad (n : nat) (x : nat -> R) (K : nat -> nat -> R) : R :=
  sumn (A := R_rng) n (fun i => sumn (A := R_rng) n (fun j => (x i * K i j * x j)%R)).

(** what a successful call changes *)
Definition only_in (h : rheap) (u : runits) h' (u' : runits) (key : string) (x : R) (name : string) : Prop :=
  in_factor h' u' key = Some x /\ in_name h' u' key = Some name /\
  (forall k, k <> key -> in_factor h' u' k = in_factor h u k /\ in_name h' u' k = in_name h u k) /\
  (forall k, out_factor h' u' k = out_factor h u k /\ out_name h' u' k = out_name h u k).
Definition only_out (h : rheap) (u : runits) h' (u' : runits) (key : string) (x : R) (name : string) : Prop :=
  out_factor h' u' key = Some x /\ out_name h' u' key = Some name /\
  (forall k, k <> key -> out_factor h' u' k = out_factor h u k /\ out_name h' u' k = out_name h u k) /\
  (forall k, in_factor h' u' k = in_factor h u k /\ in_name h' u' k = in_name h u k).
(** a unit string: an optional prefix and a base *)
Definition spelled (s b : string) (z : Z) : Prop := (s = b /\ z = 0%Z) \/ exists p, s = String p b /\ si_exponent p = Some z.
(** The parameterisations of a fresh SymbolicSystem carry no unit factor. *)
Definition mu1 : @mults R_num := mkmu (A := R_num) 1%R 1%R 1%R 1%R 1%R.
