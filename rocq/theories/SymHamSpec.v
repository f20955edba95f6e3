(** Specification of the symbolic Hamiltonian and its transforms (C90-C95). *)
From Coq Require Import List Bool String Ascii Arith ZArith Reals.
From Coquelicot Require Import Complex.
From Verif Require Import Prelude Mat Graph GraphSpec Symbolic SymbolicSpec RSum.
Import ListNotations.
Open Scope string_scope.
Open Scope list_scope.
Open Scope nat_scope.

(** The bias of a branch in the direction of e. *)
Definition signed_bias (d : dict edge (list string)) (ph : string -> R) (e : edge) : R :=
  match dget d e with
  | Some l => Rsum (map ph l)
  | None => match dget d (dst e, src e, ekey e) with Some l => (- Rsum (map ph l))%R | None => 0%R end
  end.
(** The energy of the junctions: minus the amplitude times the cosine of the
    phase difference plus bias. *)
Definition junction_energy (val ph : string -> R) (d : dict edge (list string)) (g : mgraph) (phi : nat -> R) : R :=
  Rsum (map (fun b => - val (snd b) * cos (phi (src (fst b)) - phi (dst (fst b)) + signed_bias d ph (fst b)))%R (branches_of "I" g)).
(** The energy of the phase slip nanowires for charges q: the same of the
    difference of charges, with the charge bias of the nodes added. *)
Definition charge_offset (d : dict nat (option string)) (ph : string -> R) (n : nat) : R :=
  match n with 0 => 0%R | _ => match dget d n with Some (Some x) => ph x | _ => 0%R end end.
Definition slip_energy (val ph : string -> R) (d : dict nat (option string)) (g : mgraph) (q : nat -> R) : R :=
  Rsum (map (fun b => - val (snd b) * cos ((q (src (fst b)) + charge_offset d ph (src (fst b))) - (q (dst (fst b)) + charge_offset d ph (dst (fst b)))))%R (branches_of "V" g)).
(** e^(i x) *)
Definition expi (x : R) : C := (cos x, sin x).
(** some branch in the list whose component has this letter joins a node to
    itself *)
Definition self_branch (p : ascii) (s : cg) (edges : list edge) : Prop := exists e c, In e edges /\ carries (c_graph s) e c /\ starts p c = true /\ src e = dst e.
(** ** Coordinates *)
Definition times (n : nat) (M : nat -> nat -> R) (x : nat -> R) (i : nat) : R := sumn (A := R_rng) n (fun k => M i k * x k)%R.
Definition transpose (M : nat -> nat -> R) : nat -> nat -> R := fun i j => M j i.
Definition inverses (n : nat) (A B : nat -> nat -> R) : Prop :=
  forall i j, i < n -> j < n -> sumn (A := R_rng) n (fun k => A i k * B k j)%R = (if Nat.eqb i j then 1 else 0)%R /\ sumn (A := R_rng) n (fun k => B i k * A k j)%R = (if Nat.eqb i j then 1 else 0)%R.
(** 1/2 x^T M x *)
Definition energy (n : nat) (M : nat -> nat -> R) (x : nat -> R) : R :=
  (1 / 2 * sumn (A := R_rng) n (fun i => sumn (A := R_rng) n (fun j => x i * M i j * x j)))%R.
Definition diagonal_upto (n : nat) (M : nat -> nat -> R) : Prop := forall i j, i < n -> j < n -> i <> j -> M i j = 0%R.
(** X k a: the phase of node a when the new coordinate k is 1 and the others
    are 0. *)
Definition node_phases (nodes : list nat) (Ri : nat -> nat -> R) (X : nat -> nat -> R) : Prop :=
  (forall k, X k 0 = 0%R) /\ forall k l, k < List.length nodes -> l < List.length nodes -> X k (nth l nodes 0) = Ri l k.
Definition phases_at (n : nat) (X : nat -> nat -> R) (th : nat -> R) (a : nat) : R := sumn (A := R_rng) n (fun k => X k a * th k)%R.
(** All branches of this letter see the new coordinate k not at all or with the
    weight kap k. *)
Definition uniform (p : ascii) (s : cg) (edges : list edge) (n : nat) (X : nat -> nat -> R) (kap : nat -> R) : Prop :=
  forall e c k, In e edges -> carries (c_graph s) e c -> starts p c = true -> k < n -> (X k (src e) - X k (dst e) = 0 \/ Rabs (X k (src e) - X k (dst e)) = kap k)%R.
