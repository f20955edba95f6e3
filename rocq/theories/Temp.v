(** Model of pyscqed/dataspec.py [TempData] together with the file system it
    uses. Simplifications: POSIX separator; pickling is the identity on an
    arbitrary type [D] of serialisable objects; the disk is never full; no
    other process touches the files; the current directory exists. *)
From Coq Require Import List Bool String Ascii NArith.
From Coq Require Import HexString.
From Verif Require Import Prelude.
Import ListNotations.
Open Scope string_scope.

(** Python [hex(n)[2:]] (dataspec.py:67). *)
Definition drop2 (s : string) : string :=
  match s with String _ (String _ r) => r | _ => "" end.
Definition hex2 (n : N) : string := drop2 (HexString.of_N n).

Record fs (D : Type) := mkfs { files : dict string D; dirs : list string }.
Arguments mkfs {D} _ _.
Arguments files {D} _.
Arguments dirs {D} _.

(** dataspec.py:49-52: the mutable attributes of a TempData object. *)
Record temp := mktemp {
  session_path : string;
  session_exists : bool;
  part_count : N
}.

(** dataspec.py:34,41: [tempfile.gettempdir() + os.sep + ".pycqed" + os.sep]. *)
Definition temp_out_root : string := "/tmp/.pycqed/".

Section Temp.
  Context {D : Type}.

  (** os.makedirs guarded by os.path.isdir (dataspec.py:42-44, 71-72). *)
  Definition ensure_dir (f : fs D) (p : string) : fs D :=
    if mem p (dirs f) then f else mkfs (files f) (p :: dirs f).

  (** dataspec.py:38-52 [__init__]. *)
  Definition temp_init (f : fs D) : fs D * temp :=
    (ensure_dir f temp_out_root, mktemp temp_out_root false 0).

  (** dataspec.py:67,70. *)
  Definition session_dir (obj_id : N) : string :=
    temp_out_root ++ "session-" ++ hex2 obj_id ++ "/".

  (** dataspec.py:54-74 [newSession]: the part counter is not reset. *)
  Definition newSession (f : fs D) (t : temp) (obj_id : N) : fs D * temp * string :=
    let p := session_dir obj_id in
    (ensure_dir f p, mktemp p true (part_count t), p).

  (** dataspec.py:98. *)
  Definition part_name (t : temp) : string :=
    session_path t ++ "part-" ++ dec (part_count t) ++ ".bin".

  (** dataspec.py:83-104 [writePart]; opening a file in a directory that does
      not exist raises FileNotFoundError before the counter is increased; an
      empty session path writes to the current directory. *)
  Definition writePart (f : fs D) (t : temp) (d : D) : fs D * temp * res string :=
    if eqb (session_path t) "" || mem (session_path t) (dirs f) then
      (mkfs (dset (files f) (part_name t) d) (dirs f),
       mktemp (session_path t) (session_exists t) (part_count t + 1),
       Ok (part_name t))
    else (f, t, Err FileNotFoundError).

  (** dataspec.py:106-116 [readPart]. *)
  Definition readPart (f : fs D) (p : string) : res D :=
    match dget (files f) p with Some d => Ok d | None => Err FileNotFoundError end.

  (** shutil.rmtree: removes the directory and everything below it. *)
  Definition rmtree (f : fs D) (p : string) : option (fs D) :=
    if mem p (dirs f) then
      Some (mkfs (filter (fun kv => negb (prefix p (fst kv))) (files f))
                 (filter (fun q => negb (prefix p q)) (dirs f)))
    else None.

  (** dataspec.py:127-136 [clearSessionData]. *)
  Definition clearSessionData (f : fs D) (t : temp) : fs D * temp * res unit :=
    if session_exists t then
      match rmtree f (session_path t) with
      | Some f' => (f', mktemp "" false 0, Ok tt)
      | None => (f, t, Err FileNotFoundError)
      end
    else (f, mktemp "" false 0, Ok tt).

  (** ** Worlds: any number of objects sharing one file system *)
  Record world := mkworld { wfs : fs D; objs : dict nat temp }.

  Inductive op :=
  | ONew (i : nat)                 (* i = TempData() *)
  | OSession (i : nat) (id : N)    (* i.newSession(id) *)
  | OWrite (i : nat) (d : D)       (* i.writePart(d) *)
  | OClear (i : nat).              (* i.clearSessionData() *)

  Inductive out := OutNone | OutPath (p : string) | OutErr (e : exn).

  (** Calls on objects that do not exist do nothing. *)
  Definition step (w : world) (o : op) : world * out :=
    match o with
    | ONew i => let '(f, t) := temp_init (wfs w) in
                (mkworld f (dset (objs w) i t), OutNone)
    | OSession i id =>
        match dget (objs w) i with
        | None => (w, OutNone)
        | Some t => let '(f, t', p) := newSession (wfs w) t id in
                    (mkworld f (dset (objs w) i t'), OutPath p)
        end
    | OWrite i d =>
        match dget (objs w) i with
        | None => (w, OutNone)
        | Some t => let '(f, t', r) := writePart (wfs w) t d in
                    (mkworld f (dset (objs w) i t'),
                     match r with Ok p => OutPath p | Err e => OutErr e end)
        end
    | OClear i =>
        match dget (objs w) i with
        | None => (w, OutNone)
        | Some t => let '(f, t', r) := clearSessionData (wfs w) t in
                    (mkworld f (dset (objs w) i t'),
                     match r with Ok _ => OutNone | Err e => OutErr e end)
        end
    end.

  Definition run (w : world) (l : list op) : world :=
    fold_left (fun w o => fst (step w o)) l w.

  Definition world0 : world := mkworld (mkfs [] []) [].
End Temp.
Arguments world : clear implicits.
Arguments op : clear implicits.
