(** Property theorems: C65, C66. *)
From Coq Require Import List String NArith.
From Verif Require Import Prelude Temp TempProofs.
Import ListNotations.
Open Scope string_scope.

(** C65: for every history [l1] of any number of objects, every write by an
    object with a session, and every continuation [l2] that neither clears
    nor re-creates that object, reading the returned path gives the object
    written - provided no two objects use the same session identifier. *)
Theorem C65_write_read_roundtrip :
  forall (D : Type) (l1 l2 : list (op D)) i d t f,
  unique_ids (l1 ++ OWrite i d :: l2) ->
  ~ In (ONew i) l2 -> ~ In (OClear i) l2 ->
  dget (objs (run world0 l1)) i = Some t -> session_exists t = true ->
  snd (step (run world0 l1) (OWrite i d)) = OutPath f ->
  readPart (wfs (run world0 (l1 ++ OWrite i d :: l2))) f = Ok d.
Proof. exact @temp_roundtrip. Qed.
Print Assumptions C65_write_read_roundtrip.

Definition ex_l1 : list (op nat) := [ONew 0; OSession 0 4096; OWrite 0 7; ONew 1; OSession 1 8192].
Definition ex_l2 : list (op nat) := [OWrite 0 2; OWrite 1 3; OClear 1; OWrite 1 4].
Example C65_write_read_roundtrip_nonvacuous :
  unique_ids (ex_l1 ++ OWrite 0 1 :: ex_l2) /\
  ~ In (ONew 0) ex_l2 /\ ~ In (OClear 0) ex_l2 /\
  dget (objs (run world0 ex_l1)) 0 = Some (mktemp "/tmp/.pycqed/session-1000/" true 1) /\
  snd (step (run world0 ex_l1) (OWrite 0 1)) = OutPath "/tmp/.pycqed/session-1000/part-1.bin".
Proof.
  split; [|split; [|split; [|split; vm_compute; reflexivity]]].
  - intros i j id. cbn. intros H1 H2.
    repeat (destruct H1 as [H1|H1]; [try discriminate H1|]); try contradiction;
    injection H1 as <- <-;
    repeat (destruct H2 as [H2|H2]; [try discriminate H2|]); try contradiction;
    injection H2 as <-; try discriminate; reflexivity.
  - cbn. intuition discriminate.
  - cbn. intuition discriminate.
Qed.

(** C65/C66: identifiers are memory addresses, which can be reused: then a
    new object overwrites the data of the earlier one. *)
Theorem C66_id_reuse_refuted :
  exists (l1 l2 : list (op nat)) t f,
    ~ In (ONew 0) l2 /\ ~ In (OClear 0) l2 /\
    dget (objs (run world0 l1)) 0 = Some t /\ session_exists t = true /\
    snd (step (run world0 l1) (OWrite 0 1)) = OutPath f /\
    readPart (wfs (run world0 (l1 ++ OWrite 0 1 :: l2))) f = Ok 2.
Proof.
  exists [ONew 0; OSession 0 4096], [ONew 1; OSession 1 4096; OWrite 1 2].
  do 2 eexists. cbn [In]. repeat split; try (intuition discriminate); try (vm_compute; reflexivity).
Qed.
Print Assumptions C66_id_reuse_refuted.

(** C66: a cleared object goes on writing, to the current directory, where
    different objects overwrite each other's parts. *)
Theorem C66_after_clear_refuted :
  exists (l : list (op nat)),
    unique_ids l /\
    snd (step (run world0 l) (OWrite 0 1)) = OutPath "part-0.bin" /\
    snd (step (run world0 (l ++ [OWrite 0 1])) (OWrite 1 2)) = OutPath "part-0.bin" /\
    readPart (wfs (run world0 (l ++ [OWrite 0 1; OWrite 1 2]))) "part-0.bin" = Ok 2.
Proof.
  exists [ONew 0; OSession 0 4096; OClear 0; ONew 1; OSession 1 8192; OClear 1].
  split.
  - intros i j id. cbn. intros H1 H2.
    repeat (destruct H1 as [H1|H1]; [try discriminate H1|]); try contradiction;
    injection H1 as <- <-;
    repeat (destruct H2 as [H2|H2]; [try discriminate H2|]); try contradiction;
    injection H2 as <-; try discriminate; reflexivity.
  - repeat split; vm_compute; reflexivity.
Qed.
Print Assumptions C66_after_clear_refuted.

(** C66: clearing removes exactly the files below the session directory and
    leaves all other objects alone. *)
Theorem C66_clear_exact_partial :
  forall (D : Type) (w : world D) i t w',
  dget (objs w) i = Some t -> session_exists t = true ->
  step w (OClear i) = (w', OutNone) ->
  (forall p, readPart (wfs w') p =
     if prefix (session_path t) p then Err FileNotFoundError else readPart (wfs w) p) /\
  (forall j, j <> i -> dget (objs w') j = dget (objs w) j) /\
  dget (objs w') i = Some (mktemp "" false 0).
Proof. exact @clear_exact. Qed.
Print Assumptions C66_clear_exact_partial.

Example C66_clear_exact_nonvacuous :
  exists w', step (run world0 ex_l1) (OClear 0) = (w', OutNone).
Proof. eexists. vm_compute. reflexivity. Qed.

(** C66: with distinct identifiers no call of another object (including its
    clear) can change or delete a part - an instance of C65. *)
Theorem C66_others_cannot_touch_partial :
  forall (D : Type) (l1 l2 : list (op D)) i d t f,
  unique_ids (l1 ++ OWrite i d :: l2) ->
  (forall o, In o l2 -> match o with
     | ONew j | OSession j _ | OWrite j _ | OClear j => j <> i end) ->
  dget (objs (run world0 l1)) i = Some t -> session_exists t = true ->
  snd (step (run world0 l1) (OWrite i d)) = OutPath f ->
  readPart (wfs (run world0 (l1 ++ OWrite i d :: l2))) f = Ok d.
Proof.
  exact (fun D l1 l2 i d t f HU HO => temp_roundtrip l1 l2 i d t f HU
     (fun X => HO _ X eq_refl) (fun X => HO _ X eq_refl)).
Qed.
Print Assumptions C66_others_cannot_touch_partial.
