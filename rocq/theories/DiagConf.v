(** numerical_system.py: the diagonaliser configuration of NumericalSystem
    objects, as calls on a common heap of option dictionaries. *)
From Coq Require Import List Bool String Arith.
From Verif Require Import Prelude.
Import ListNotations.
Open Scope string_scope.
Open Scope list_scope.

Section D.
  (** [OV]: values of solver options; [M]: operators; [X]: what a solver
      returns *)
  Context {OV M X : Type}.
  (** util.diagSparseH(M, eigvalues, get_vectors, sparsesolveropts) and
      util.diagDenseH (util.py 76-176), whose last argument is not used *)
  Variable diagSparseH : M -> nat -> bool -> dict string OV -> res X.
  Variable diagDenseH : M -> nat -> bool -> res X.
  (** line 790: the value of the default argument [sparsesolveropts] when the
      function is defined *)
  Variable default_opts : dict string OV.

  (** line 791: [diagonalizer_config]; the options dictionary by its address *)
  Record conf := mkconf { d_eig : nat; d_vec : bool; d_sparse : bool; d_opts : nat }.
  (** heap of dictionaries, the next address, the systems. Address 0 is the
      default argument, one object for all calls. *)
  Record world := mkworld { heap : dict nat (dict string OV); next : nat; systems : dict nat conf }.
  Definition world0 : world := mkworld [(0, default_opts)] 1 [].

  (** lines 790-804. Simplification: a dictionary passed by the caller is one
      no other call has. *)
  Definition setDiagConfig (w : world) (i eig : nat) (vec sparse : bool) (opts : option (dict string OV)) : world :=
    match opts with
    | None => mkworld (heap w) (next w) (dset (systems w) i (mkconf eig vec sparse 0))
    | Some d => mkworld (dset (heap w) (next w) d) (S (next w)) (dset (systems w) i (mkconf eig vec sparse (next w)))
    end.
  Inductive dop :=
    | DNew (i : nat)                                                  (* lines 51-52 of __init__: setDiagConfig() *)
    | DSet (i eig : nat) (vec sparse : bool) (opts : option (dict string OV))
    | DPoke (i : nat) (k : string) (v : OV).                          (* getDiagConfig()['kwargs']['sparsesolveropts'][k] = v (806-807) *)
  Definition dstep (w : world) (o : dop) : world :=
    match o with
    | DNew i => setDiagConfig w i 5 false false None
    | DSet i eig vec sparse opts => setDiagConfig w i eig vec sparse opts
    | DPoke i k v =>
        match dget (systems w) i with
        | None => w
        | Some c => match dget (heap w) (d_opts c) with
          | None => w
          | Some d => mkworld (dset (heap w) (d_opts c) (dset d k v)) (next w) (systems w) end
        end
    end.
  Definition drun (ops : list dop) : world := fold_left dstep ops world0.
  (** lines 809-810 *)
  Definition diagonalize (w : world) (i : nat) (m : M) : res X :=
    match dget (systems w) i with
    | None => Err AttributeError
    | Some c => match dget (heap w) (d_opts c) with
      | None => Err KeyError
      | Some d => if d_sparse c then diagSparseH m (d_eig c) (d_vec c) d else diagDenseH m (d_eig c) (d_vec c)
      end
    end.
End D.
