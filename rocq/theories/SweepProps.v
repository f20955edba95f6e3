(** Property theorems: C19-C25 (sweep grids and their results). *)
From Coq Require Import List Bool String ZArith SpecFloat Reals Lra Lia.
From Flocq Require Import Core.Core.
From Verif Require Import Prelude PreludeFacts Float FloatFacts Param ParamProofs ParamSweepProofs
  Sweep SweepProofs SweepResultProofs SweepSliceProofs.
Import ListNotations.
Open Scope string_scope.
Open Scope nat_scope.

(** A concrete collection and a three-dimensional 2 x 3 x 2 sweep. *)
Definition mkp (n : string) : string * param :=
  (n, match param_new (PStr n) PNone (PList [PInt (-100); PInt 100]) (PInt 1) with
      | Ok p => p | Err _ => mkparam n n None fzero fzero fzero n [] 0 end).
Definition ex_st0 : swst := mksw [mkp "a"; mkp "b"; mkp "c"] [] 0 [] 0 [] [] None.
Definition ex_specs : list spec :=
  [mkspec "a" (PInt 0) (PInt 1) (PInt 2); mkspec "b" (PInt 0) (PInt 4) (PInt 3); mkspec "c" (PInt 5) (PInt 6) (PInt 2)].
Definition ex_st : swst := fst (ndSweep ex_st0 ex_specs).
Definition z (n : Z) : f64 := round_Z n.
Definition ex_sweeps : list (list f64) := [[z 0; z 1]; [z 0; z 2; z 4]; [z 5; z 6]].

(** C19. [grid_of st names sweeps]: [sweeps] are the stored sweep arrays of the
    parameters; [inr Ns idx]: every index is within its sweep; [nd_at]: entry
    of a numpy array at an index tuple. *)
Theorem C19_grid_is_row_major_product : forall st specs st',
  ndSweep st specs = (st', Ok tt) -> NoDup (map sp_name specs) ->
  exists sweeps,
    Forall2 (fun sp s => exists p, dget (s_coll st) (sp_name sp) = Some p /\
       snd (linearSweep p (sp_start sp) (sp_end sp) (sp_N sp)) = Ok s) specs sweeps /\
    grid_of st' (map sp_name specs) sweeps /\
    s_npts st' = Z.of_nat (prodn (map (@List.length f64) sweeps)) /\
    (forall idx, inr (map (@List.length f64) sweeps) idx ->
       exists j, collapsedIndices st' (map Z.of_nat idx) = Ok (Z.of_nat j) /\
       forall k name s, nth_error (map sp_name specs) k = Some name -> nth_error sweeps k = Some s ->
         exists arr a x, dget (s_c st') name = Some arr /\ Z.of_nat (List.length arr) = s_npts st' /\
           nth_error s (nth k idx 0) = Some x /\ nth_error arr j = Some x /\
           dget (s_nc st') name = Some a /\ nd_at a idx = Some x) /\
    (forall idx i j, inr (map (@List.length f64) sweeps) (idx ++ [S i]) ->
       collapsedIndices st' (map Z.of_nat (idx ++ [i])) = Ok j ->
       collapsedIndices st' (map Z.of_nat (idx ++ [S i])) = Ok (j + 1)%Z).
Proof. exact ndSweep_C19. Qed.
Print Assumptions C19_grid_is_row_major_product.

Example C19_nonvacuous :
  ndSweep ex_st0 ex_specs = (ex_st, Ok tt) /\ NoDup (map sp_name ex_specs) /\
  grid_of ex_st ["a"; "b"; "c"] ex_sweeps /\
  collapsedIndices ex_st [1; 2; 0]%Z = Ok 10%Z /\
  dget (s_c ex_st) "b" = Some [z 0; z 0; z 2; z 2; z 4; z 4; z 0; z 0; z 2; z 2; z 4; z 4].
Proof.
  split; [vm_compute; reflexivity|]. split; [repeat (constructor; [cbn; intuition discriminate|]); constructor|].
  split; [repeat constructor; vm_compute; reflexivity|]. split; vm_compute; reflexivity.
Qed.

(** C20. *)
Theorem C20_collapsedIndices_bijection : forall st specs st' sweeps,
  ndSweep st specs = (st', Ok tt) -> NoDup (map sp_name specs) -> grid_of st' (map sp_name specs) sweeps ->
  let Ns := map (@List.length f64) sweeps in
  (forall idx, inr Ns idx -> exists j, collapsedIndices st' (map Z.of_nat idx) = Ok j /\ (0 <= j < s_npts st')%Z) /\
  (forall idx idx', inr Ns idx -> inr Ns idx' ->
     collapsedIndices st' (map Z.of_nat idx) = collapsedIndices st' (map Z.of_nat idx') -> idx = idx') /\
  (forall j, (0 <= j < s_npts st')%Z -> exists idx, inr Ns idx /\ collapsedIndices st' (map Z.of_nat idx) = Ok j).
Proof. exact collapsedIndices_C20. Qed.
Print Assumptions C20_collapsedIndices_bijection.

Example C20_nonvacuous :
  ndSweep ex_st0 ex_specs = (ex_st, Ok tt) /\ grid_of ex_st (map sp_name ex_specs) ex_sweeps /\
  s_npts ex_st = 12%Z /\ inr (map (@List.length f64) ex_sweeps) [1; 2; 1].
Proof. split; [vm_compute; reflexivity|]. split; [repeat constructor; vm_compute; reflexivity|]. split; [vm_compute; reflexivity|]. repeat constructor. Qed.

(** C21. [call_all func s ds] is: call [func] on each element of [ds] in
    order, exactly once, collect the results, stop at the first exception.
    [func] may change a state [s] and may raise. *)
Theorem C21_computeFuncSweep_each_point_once : forall (S B : Type) (func : S -> dict string f64 -> S * res B) st specs s st',
  ndSweep st specs = (st', Ok tt) -> specs <> [] -> NoDup (map sp_name specs) ->
  exists sweeps ds,
    grid_of st' (map sp_name specs) sweeps /\
    List.length ds = prodn (map (@List.length f64) sweeps) /\
    (forall idx, inr (map (@List.length f64) sweeps) idx ->
       exists j d, collapsedIndices st' (map Z.of_nat idx) = Ok (Z.of_nat j) /\ nth_error ds j = Some d /\
         dkeys d = map sp_name specs /\
         forall k name sw, nth_error (map sp_name specs) k = Some name -> nth_error sweeps k = Some sw ->
           dget d name = nth_error sw (nth k idx 0)) /\
    computeFuncSweep func st specs s = (st', call_all func s ds).
Proof. exact @computeFuncSweep_calls. Qed.
Print Assumptions C21_computeFuncSweep_each_point_once.

(** For a function that only returns a value: the result at the collapsed
    index is the function at that grid point. *)
Theorem C21_result_at_point : forall (B : Type) (f : dict string f64 -> B) st specs st',
  ndSweep st specs = (st', Ok tt) -> specs <> [] -> NoDup (map sp_name specs) ->
  exists sweeps results,
    grid_of st' (map sp_name specs) sweeps /\
    computeFuncSweep (fun (n : nat) d => (n + 1, Ok (f d))) st specs 0
      = (st', (prodn (map (@List.length f64) sweeps), results, Ok tt)) /\
    List.length results = prodn (map (@List.length f64) sweeps) /\
    forall idx, inr (map (@List.length f64) sweeps) idx ->
      exists j d, collapsedIndices st' (map Z.of_nat idx) = Ok (Z.of_nat j) /\ nth_error results j = Some (f d) /\
        dkeys d = map sp_name specs /\
        forall k name sw, nth_error (map sp_name specs) k = Some name -> nth_error sweeps k = Some sw ->
          dget d name = nth_error sw (nth k idx 0).
Proof. exact @computeFuncSweep_pure. Qed.
Print Assumptions C21_result_at_point.

Example C21_nonvacuous :
  let f := fun d : dict string f64 => match dget d "a", dget d "b" with Some x, Some y => fadd x y | _, _ => fnan end in
  snd (computeFuncSweep (fun (n : nat) d => (n + 1, Ok (f d))) ex_st0 ex_specs 0) =
    (12, [z 0; z 0; z 2; z 2; z 4; z 4; z 1; z 1; z 3; z 3; z 5; z 5], Ok tt).
Proof. vm_compute. reflexivity. Qed.

(** C22. [selected names sweeps static ix]: [ix k] is the first index of
    smallest distance |sweep_k - static[k]| ; [statics_ok]: no NaN distance.
    [rd] is how a stored entry is read back (itself or from a file). *)
Theorem C22_slice : forall (A B : Type) (rd : A -> res B) (rv : A -> B) st0 specs st names sweeps data iv static_vars,
  ndSweep st0 specs = (st, Ok tt) -> names = map sp_name specs -> NoDup names -> grid_of st names sweeps ->
  In iv names -> NoDup (dkeys static_vars) ->
  (forall k, In k (dkeys static_vars) <-> (In k names /\ k <> iv)) ->
  statics_ok names sweeps static_vars ->
  data <> [] -> List.length data = prodn (map (@List.length f64) sweeps) -> (forall a, In a data -> rd a = Ok (rv a)) ->
  exists sw vals sv,
    getSweepResult1 rd st iv static_vars data = Ok (sw, vals, sv) /\
    getParameterSweep (s_coll st) iv = Ok sw /\
    List.length vals = List.length sw /\
    (exists ix, selected names sweeps static_vars ix) /\
    forall ix, selected names sweeps static_vars ix ->
      (forall k v i s, In (k, v) static_vars -> nth_error names i = Some k -> nth_error sweeps i = Some s ->
         dget sv k = nth_error s (ix k)) /\
      forall r, r < List.length sw ->
        exists j a, collapsedIndices st (map Z.of_nat (map (fun k => if eqb k iv then r else ix k) names)) = Ok (Z.of_nat j) /\
          nth_error data j = Some a /\ nth_error vals r = Some (rv a).
Proof. exact @getSweepResult1_C22. Qed.
Print Assumptions C22_slice.

Definition ex_data : list nat := seq 100 12.
Lemma ex_statics_ok l : (forall k v, In (k, v) l -> In k ["a"; "b"; "c"] /\ exists n, (0 <= n < 8)%nat /\ v = z (Z.of_nat n)) ->
  statics_ok ["a"; "b"; "c"] ex_sweeps l.
Proof.
  intros H k v i s Hk Hi Hs. destruct (H _ _ Hk) as (_ & n & Hn & ->).
  assert (Hc : In s ex_sweeps) by (eapply nth_error_In; eassumption). clear - Hn Hc.
  do 8 (destruct n as [|n]; [repeat (destruct Hc as [<-|Hc]; [repeat split; try discriminate; repeat constructor; vm_compute; reflexivity|]); contradiction|]).
  lia.
Qed.
Example C22_nonvacuous :
  ndSweep ex_st0 ex_specs = (ex_st, Ok tt) /\ grid_of ex_st ["a"; "b"; "c"] ex_sweeps /\
  statics_ok ["a"; "b"; "c"] ex_sweeps [("c", z 7); ("a", z 1)] /\
  getSweepResult1 (fun x => Ok x) ex_st "b" [("c", z 7); ("a", z 1)] ex_data =
    Ok ([z 0; z 2; z 4], [107; 109; 111], [("c", z 6); ("a", z 1)]) /\
  getSweepResult1 (fun x => Ok x) ex_st "b" [("a", z 1); ("c", z 7)] ex_data =
    Ok ([z 0; z 2; z 4], [107; 109; 111], [("a", z 1); ("c", z 6)]).
Proof.
  split; [vm_compute; reflexivity|]. split; [repeat constructor; vm_compute; reflexivity|].
  split; [|split; vm_compute; reflexivity].
  apply ex_statics_ok. intros k v [[= <- <-]|[[= <- <-]|[]]].
  - split; [cbn; auto|]. exists 7. split; [lia|reflexivity].
  - split; [cbn; auto|]. exists 1. split; [lia|reflexivity].
Qed.

(** C23 is false: leaving out the first parameter of the specification can
    give an answer, made of entries that belong to different values of the
    missing parameter (the first entry is at index 0, the second at 4, i.e.
    "a" moved instead of "b"), *)
Definition ex_specs2 : list spec :=
  [mkspec "a" (PInt 0) (PInt 4) (PInt 3); mkspec "b" (PInt 0) (PInt 1) (PInt 2); mkspec "c" (PInt 5) (PInt 6) (PInt 2)].
Definition ex_st2 : swst := fst (ndSweep ex_st0 ex_specs2).
Theorem C23_outermost_missing_refuted :
  exists sw sv, ndSweep ex_st0 ex_specs2 = (ex_st2, Ok tt) /\
    ~ In "a" ("b" :: dkeys [("c", z 5)]) /\
    getSweepResult1 (fun x => Ok x) ex_st2 "b" [("c", z 5)] (seq 0 12) = Ok (sw, [0; 4], sv) /\
    collapsedIndices ex_st2 [1; 0; 0]%Z = Ok 4%Z.
Proof. do 2 eexists. split; [vm_compute; reflexivity|]. split; [cbn; intuition discriminate|]. split; vm_compute; reflexivity. Qed.
Print Assumptions C23_outermost_missing_refuted.
(** likewise with a list of variables, *)
Theorem C23_outermost_missing_list_refuted :
  exists sws arr sv, ndSweep ex_st0 ex_specs2 = (ex_st2, Ok tt) /\
    ~ In "a" ["b"; "c"] /\
    getSweepResultN (fun x => Ok x) ex_st2 ["b"; "c"] [] (seq 0 12) = Ok (sws, arr, sv) /\
    nd_T_at arr [0; 1] = Some 4.
Proof. do 3 eexists. split; [vm_compute; reflexivity|]. split; [cbn; intuition discriminate|]. split; vm_compute; reflexivity. Qed.
Print Assumptions C23_outermost_missing_list_refuted.
(** and a one-dimensional sweep answers for any parameter of the collection. *)
Theorem C23_one_dimensional_refuted :
  let specs := [mkspec "a" (PInt 0) (PInt 1) (PInt 2)] in let st := fst (ndSweep ex_st specs) in
  exists r, snd (ndSweep ex_st specs) = Ok tt /\
    getSweepResult1 (fun x => Ok x) st "b" [] [7; 8] = Ok r /\ ~ In "a" ["b"].
Proof. eexists. split; [vm_compute; reflexivity|]. split; [vm_compute; reflexivity|]. cbn; intuition discriminate. Qed.
Print Assumptions C23_one_dimensional_refuted.

(** C23, what holds for two or more swept parameters: an answer is only given
    when the m requested names are distinct and are exactly the last m names
    of the specification, so a missing parameter is noticed unless all
    parameters before it are missing too. *)
Theorem C23_answer_covers_suffix_partial : forall (A B : Type) (rd : A -> res B) st0 specs st names sweeps data iv static_vars r,
  ndSweep st0 specs = (st, Ok tt) -> names = map sp_name specs -> NoDup names -> grid_of st names sweeps ->
  List.length specs <> 1 -> NoDup (dkeys static_vars) ->
  getSweepResult1 rd st iv static_vars data = Ok r ->
  let m := S (List.length static_vars) in
  NoDup (iv :: dkeys static_vars) /\ m <= List.length names /\
  forall k, In k (iv :: dkeys static_vars) <-> In k (skipn (List.length names - m) names).
Proof. exact @getSweepResult1_C23. Qed.
Print Assumptions C23_answer_covers_suffix_partial.

Theorem C23_answer_covers_suffix_list_partial : forall (A B : Type) (rd : A -> res B) st0 specs st names sweeps data ivs static_vars r,
  ndSweep st0 specs = (st, Ok tt) -> names = map sp_name specs -> NoDup names -> grid_of st names sweeps ->
  NoDup (dkeys static_vars) -> (forall k, In k ivs -> In k (dkeys static_vars) -> False) ->
  getSweepResultN rd st ivs static_vars data = Ok r ->
  let asked := (filter (fun k => mem k ivs) names ++ dkeys static_vars)%list in
  List.length asked <= List.length names /\
  forall k, In k asked <-> In k (skipn (List.length names - List.length asked) names).
Proof. exact @getSweepResultN_C23. Qed.
Print Assumptions C23_answer_covers_suffix_list_partial.

Example C23_nonvacuous :
  getSweepResult1 (fun x => Ok x) ex_st "b" [("a", z 1)] ex_data = Err IndexError /\
  getSweepResult1 (fun x => Ok x) ex_st "a" [("c", z 1)] ex_data = Err IndexError /\
  getSweepResultN (fun x => Ok x) ex_st ["a"; "b"] [] ex_data = Err IndexError /\
  is_ok (getSweepResult1 (fun x => Ok x) ex_st "b" [("a", z 1); ("c", z 7)] ex_data) = true.
Proof. repeat split; vm_compute; reflexivity. Qed.

(** C24. [project sel names idx] keeps the indices of the independent
    variables, in specification order; the returned array is indexed in the
    reverse order (the final [.T]). *)
Theorem C24_submesh : forall (A B : Type) (rd : A -> res B) (rv : A -> B) st0 specs st names sweeps data ivs static_vars,
  ndSweep st0 specs = (st, Ok tt) -> names = map sp_name specs -> NoDup names -> grid_of st names sweeps ->
  names <> [] ->
  (forall k, In k ivs -> In k names) -> NoDup (dkeys static_vars) ->
  (forall k, In k (dkeys static_vars) <-> (In k names /\ ~ In k ivs)) ->
  statics_ok names sweeps static_vars ->
  data <> [] -> List.length data = prodn (map (@List.length f64) sweeps) -> (forall a, In a data -> rd a = Ok (rv a)) ->
  let sel := fun k => mem k ivs in
  exists sws arr sv,
    getSweepResultN rd st ivs static_vars data = Ok (sws, arr, sv) /\
    Forall2 (fun k s => getParameterSweep (s_coll st) k = Ok s) (filter sel names) sws /\
    nd_shape arr = map (@List.length f64) sws /\
    (exists ix, selected names sweeps static_vars ix) /\
    forall ix, selected names sweeps static_vars ix ->
      (forall k v i s, In (k, v) static_vars -> nth_error names i = Some k -> nth_error sweeps i = Some s ->
         dget sv k = nth_error s (ix k)) /\
      forall js, inr (nd_shape arr) js ->
        exists idx j a, inr (map (@List.length f64) sweeps) idx /\
          project sel names idx = js /\
          (forall i k j, nth_error names i = Some k -> nth_error idx i = Some j -> ~ In k ivs -> j = ix k) /\
          collapsedIndices st (map Z.of_nat idx) = Ok (Z.of_nat j) /\
          nth_error data j = Some a /\ nd_T_at arr (rev js) = Some (rv a).
Proof. exact @getSweepResultN_C24. Qed.
Print Assumptions C24_submesh.

Theorem C24_order_irrelevant : forall (A B : Type) (rd : A -> res B) st ivs ivs' static_vars data,
  (forall k, In k ivs <-> In k ivs') ->
  getSweepResultN rd st ivs static_vars data = getSweepResultN rd st ivs' static_vars data.
Proof. exact @getSweepResultN_perm. Qed.
Print Assumptions C24_order_irrelevant.

Example C24_nonvacuous :
  statics_ok ["a"; "b"; "c"] ex_sweeps [("b", z 3)] /\
  (exists sws arr sv, getSweepResultN (fun x => Ok x) ex_st ["c"; "a"] [("b", z 3)] ex_data = Ok (sws, arr, sv) /\
    sws = [[z 0; z 1]; [z 5; z 6]] /\ sv = [("b", z 2)] /\
    nd_T_at arr [0; 0] = Some 102 /\ nd_T_at arr [1; 0] = Some 103 /\
    nd_T_at arr [0; 1] = Some 108 /\ nd_T_at arr [1; 1] = Some 109).
Proof.
  split.
  - apply ex_statics_ok. intros k v [[= <- <-]|[]]. split; [cbn; auto|]. exists 3. split; [lia|reflexivity].
  - do 3 eexists. split; [vm_compute; reflexivity|]. repeat split; vm_compute; reflexivity.
Qed.

(** C25 is false in exact arithmetic: far away from the sweep the rounded
    distances coincide and the first point is taken though the second is
    closer. *)
Theorem C25_far_value_refuted :
  exists (sw : list f64) (v : f64) i x y,
    static_one [("a", mkparam "a" "a_{}" None (z (-1)) (z 9) (z 1) "a" sw 2)] "a" v = Ok (i, x) /\
    nth_error sw 1 = Some y /\ (exists rx ry rv, X x = XFin rx /\ X y = XFin ry /\ X v = XFin rv /\
      Rabs (ry - rv) < Rabs (rx - rv))%R.
Proof.
  exists [z 0; z 1], (z (2 ^ 54)), 0, (z 0), (z 1).
  split; [vm_compute; reflexivity|]. split; [reflexivity|].
  exists 0%R, 1%R, (IZR (2 ^ 54)). exact far_value.
Qed.
Print Assumptions C25_far_value_refuted.

(** C25, what holds: the reported value is a sweep point; no point is closer
    unless the two distances round to the same double; points before the
    reported one are strictly farther. *)
Theorem C25_nearest_partial : forall coll k sw v rv,
  getParameterSweep coll k = Ok sw -> sw <> [] -> valid v = true -> X v = XFin rv ->
  Forall (fun y => valid y = true /\ (exists r, X y = XFin r) /\ Float.is_finite (fsub y v) = true) sw ->
  exists i x rx, static_one coll k v = Ok (i, x) /\ nth_error sw i = Some x /\ X x = XFin rx /\
    forall j y ry, nth_error sw j = Some y -> X y = XFin ry ->
      (Rabs (rx - rv) <= Rabs (ry - rv) \/ rnd (Rabs (rx - rv)) = rnd (Rabs (ry - rv)))%R /\
      ((j < i)%nat -> (Rabs (rx - rv) < Rabs (ry - rv))%R).
Proof. exact static_one_C25. Qed.
Print Assumptions C25_nearest_partial.

(** In double arithmetic (distances as numpy computes them, infinities
    allowed) the claim holds without exception. *)
Theorem C25_nearest_computed : forall coll k sw v,
  getParameterSweep coll k = Ok sw -> static_ok sw v ->
  exists i x, static_one coll k v = Ok (i, x) /\ nth_error sw i = Some x /\
    forall j y, nth_error sw j = Some y ->
      xle (X (dist v x)) (X (dist v y)) /\ (j < i -> xlt (X (dist v x)) (X (dist v y))).
Proof. exact static_one_computed. Qed.
Print Assumptions C25_nearest_computed.

Example C25_nonvacuous :
  static_one (s_coll ex_st) "b" (z 3) = Ok (1, z 2) /\ static_one (s_coll ex_st) "b" (z (-7)) = Ok (0, z 0) /\
  Forall (fun y => valid y = true /\ (exists r, X y = XFin r) /\ Float.is_finite (fsub y (z 3)) = true) [z 0; z 2; z 4].
Proof.
  split; [vm_compute; reflexivity|]. split; [vm_compute; reflexivity|].
  repeat constructor; try (vm_compute; reflexivity); eexists; reflexivity.
Qed.
