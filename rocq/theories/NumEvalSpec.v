(** Notions used in the statements about currents, voltages and energies;
    independent of the model. *)
From Coq Require Import List Bool Arith ZArith Reals.
From Coquelicot Require Import Complex.
From Verif Require Import NumOpSpec.
Import ListNotations.
Open Scope nat_scope.

(** f with the value at i replaced *)
Definition put (f : nat -> R) (i : nat) (t : R) : nat -> R := fun k => if Nat.eqb k i then t else f k.
(** c/2 (x+b)^T M (x+b) *)
Definition quad_energy (n : nat) (c : R) (M : nat -> nat -> R) (x b : nat -> R) : R :=
  (c / 2 * rsum n (fun i => rsum n (fun j => (x i + b i) * M i j * (x j + b j))))%R.
(** energy of the branches: [f] branch fluxes, [b] their biases *)
Definition branch_energy (m : nat) (el ej : R) (Lb : nat -> nat -> R) (J : nat -> R) (f b : nat -> R) : R :=
  (quad_energy m el Lb f b - ej * rsum m (fun e => J e * cos (2 * PI * (f e + b e))))%R.
(** energy of cosines with amplitudes [J], unit [ej] *)
Definition cosine_energy (m : nat) (ej : R) (J : nat -> R) (f b : nat -> R) : R :=
  (- (ej * rsum m (fun e => J e * cos (2 * PI * (f e + b e)))))%R.
(** d/dx_i of a function of a vector, at x *)
Definition partial_at (F : (nat -> R) -> R) (x : nat -> R) (i : nat) (d : R) : Prop :=
  derivable_pt_lim (fun t => F (put x i t)) (x i) d.
(** A v = c v *)
Definition eigenvector (N : nat) (A : matrix) (v : nat -> C) (c : C) : Prop :=
  forall k, k < N -> apply N A v k = (c * v k)%C.
(** <u|v> *)
Definition inner (N : nat) (u v : nat -> C) : C := csum N (fun i => (Cconj (u i) * v i)%C).
(** the branches with a junction, in order *)
Definition junctions (m : nat) (J : nat -> R) : list nat := filter (fun e => if Req_EM_T (J e) 0 then false else true) (seq 0 m).
(** e^(i t), and the sum over k of e^(2 pi i b_k) L_k + e^(-2 pi i b_k) R_k, k
    running over the list js *)
Definition phase (t : R) : C := (cos t, sin t).
Definition lsum (l : list C) : C := fold_right Cplus (RtoC 0) l.
Definition recombine (b : nat -> R) (js : list nat) (L R : list matrix) (r c : nat) : C :=
  lsum (map (fun x : nat * (matrix * matrix) =>
    (phase (2 * PI * b (fst x)) * fst (snd x) r c + phase (- (2 * PI * b (fst x))) * snd (snd x) r c)%C) (combine js (combine L R))).
(** [z] as a Python index of [l] stands for [a]: counted from the start, or
    backwards from the end if negative *)
Definition indexes {A} (l : list A) (z : Z) (a : A) : Prop :=
  exists i, nth_error l i = Some a /\ (z = Z.of_nat i \/ z = Z.of_nat i - Z.of_nat (List.length l))%Z.
