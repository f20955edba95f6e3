(** Concrete sweeps for the refutations of NumSweepProps.v. *)
From Coq Require Import List Bool String Arith NArith ZArith Lia Reals Lra SpecFloat Permutation Relations.
From Coquelicot Require Import Complex.
From Verif Require Import Prelude PreludeFacts Mat Util UtilLinProofs Symbolic Float Param Expr ExprProofs Sweep
  Coll CollGraph CollSpec CollProofs CollUpdate CollFinal CollLast Temp NumOp NumOsc NumOpProofs NumSweep NumSweepSpec NumSweepRun NumSweepProofs NumSweepFinal NumSweepWit.
Import ListNotations.
Open Scope string_scope.
Open Scope list_scope.

(** The empty file system, and a TempData object on the current directory. *)
Definition fs0 {X} : fs X := mkfs [] [].
Definition temp0 : temp := mktemp "" true 0.
Lemma fs0_write {D} : @can_write D fs0 temp0.
Proof. left. reflexivity. Qed.

(** ** One oscillator node whose impedance is the swept parameter x *)
Definition z_ops : list (cop tree_alg) := [CAddP "Zosc1" (sy "x"); set0 [("x", 1%Z)]].
Definition z_cst : cst tree_alg := hist ["x"; "Zosc1"] z_ops.
Definition z_data : dict nat (opdata * E tree_alg) := [(1, (mkod 2 BOscillator, sy "Zosc1"))].
Definition z_sys0 : nsys tree_alg := mkns z_cst sw0 [sy "x"] z_data [] [] [].
Definition zsys : nsys tree_alg := getok z_sys0 (ns_set idord 50 idsq z_sys0 (SVDict [("x", PInt 1)])).
Definition zspecs : list spec := [mkspec "x" (PInt 1) (PInt 2) (PInt 2)].
Definition zgrid : nsys tree_alg := getok zsys (with_grid zsys zspecs).
Lemma z_set : ns_set idord 50 idsq z_sys0 (SVDict [("x", PInt 1)]) = Ok zsys.
Proof. apply isok_ok. vm_compute. reflexivity. Qed.
Lemma z_grid : with_grid zsys zspecs = Ok zgrid.
Proof. apply isok_ok. vm_compute. reflexivity. Qed.
Lemma z_reach : reach dsg (n_cst zsys) [].
Proof.
  eapply ns_set_reach; [|apply idord_good|exact z_set]. cbn [z_sys0 n_cst]. unfold z_cst. reach_lit; [unfold z_ops, set0; oks|vmr].
Qed.
Lemma z_sync : in_sync zsys.
Proof. eapply ns_set_sync; [|exact z_set]. vm_compute. repeat constructor; cbn; intuition discriminate. Qed.
Lemma z_sreach : sreach dsg (n_cst zsys) []. Proof. apply sreach_new, z_reach. Qed.
Definition z_sol : string -> option Z := fun t =>
  if String.eqb t (dsg "x") then Some 1%Z else if String.eqb t (dsg "Zosc1") then Some 1%Z else None.
Lemma z_solution : @solution tree_alg (n_cst zsys) z_sol.
Proof. solve_lit. Qed.
Lemma z_settled : settled dsg (n_cst zsys).
Proof.
  intros q (e & ns & H). apply dget_In in H. vm_compute in H.
  destruct H as [H|[]]; injection H as <- _ _.
  destruct (dget (c_coll (n_cst zsys)) "Zosc1") as [p|] eqn:G; [|vm_compute in G; discriminate].
  exists z_sol, 1%Z, (fz 1), p. split; [exact z_solution|]. split; [vm_compute; reflexivity|]. split; [vm_compute; reflexivity|].
  split; auto. vm_compute in G. injection G as <-. split; vm_compute; reflexivity.
Qed.
Lemma z_given q : registered (n_cst zsys) q -> value_of (n_cst zsys) q <> None.
Proof. unfold registered. vm_compute. intros H. repeat (destruct H as [<-|H]; [discriminate|]). destruct H. Qed.
Lemma z_ind n : In n (map sp_name zspecs) -> independent (n_cst zsys) n.
Proof. cbn. intros [<-|[]]. split; [vm_compute; tauto|]. intros (e & ns & H). vm_compute in H. discriminate. Qed.
Lemma z_numbers : @numbers_along tree_alg dsg (fun _ => idord) 50 (fun _ => idsq) zgrid [0; 1]%nat.
Proof. cbn [numbers_along]. do 2 number_step. exact I. Qed.
Lemma z_points : seq 0 (Z.to_nat (s_npts (n_sw zgrid))) = [0; 1]%nat.
Proof. vm_compute. reflexivity. Qed.


Section G.
  (** the Hamiltonian as a function of the operator vector and circ_operators *)
  Context {D : Type}.
  Variables (g : list opval -> dict nat opval -> D) (one : D).
  Definition zmeth : string -> unit -> option (D * D) -> view -> res (value D) := fun _ _ _ vw => Ok (VObj (g (v_qp vw) (v_circ vw))).
  (** the Hamiltonian is diagonal *)
  Definition zdiag : value D -> res (value D) := fun v => match v with VObj h => Ok (VPair h one) | _ => Err PlainException end.
  Definition osc (z : Z) : opval := OOsc (mkod 2 BOscillator) (fz z).
  Lemma z_explicit : exists l, explicit zmeth zdiag (fun _ => idord) 50 (fun _ => idsq) (requested tt []) zgrid [0; 1]%nat = Ok l /\
    map snd l = [PVal (VPair (g [osc 1] [(1, osc 1)]) one); PVal (VPair (g [osc 2] [(1, osc 2)]) one)].
  Proof.
    eexists. split; [apply (isok_ok []); vm_compute; reflexivity|]. vm_compute. reflexivity.
  Qed.
  Lemma z_sweep : exists w, paramSweep zmeth zdiag (fun _ => idord) (fun _ => idord) 50 (fun _ => idsq) tt idord idord idsq zsys zspecs [] fs0 temp0 = Ok w /\
    mapM (readPart (w_fs w)) (w_files w) = Ok [PVal (VPair (g [osc 1] [(1, osc 1)]) one); PVal (VPair (g [osc 1] [(1, osc 2)]) one)].
  Proof.
    eexists. split; [apply (isok_ok (mkswp zsys fs0 temp0 [] [])); vm_compute; reflexivity|]. vm_compute. reflexivity.
  Qed.
End G.

(** *** The Hamiltonian of the node, with inverse capacitance 1 *)
Definition eigh0 : nat -> cmat -> (nat -> R) * cmat := fun _ _ => (fun _ => 0%R, eye).
Definition zh : hin := mkhin (fun _ _ => 1%R) (fun _ _ => 0%R) (fun _ => 0%R) (fun _ => 0%R) (fun _ => 0%R) (fun _ => 0%R) (fun _ => 0%R) (fun _ => 0%R) 1%R 1%R 1%R 1%R.
Definition zops (z : R) : ops := oscillator_basis eigh0 (fun _ A => A) 2 z 1 1 1 1.
Definition zcirc (z : R) : dict nat cops := let o := zops z in [(1%nat, mkcops [2%nat] (oQ o) (oP o) (oD o) (oDd o) (oS o) (oSd o))].
(** circ_operators regenerated at [z'], operator vectors of [z] *)
Definition zham (z z' : R) : res cmat := getHamiltonian 2 (fun l => l) [1%nat] [] zh [oQ (zops z)] [oP (zops z)] (zcirc z').
Lemma zham_is z z' : (1 <= z <= 2)%R -> exists H, zham z z' = Ok H /\ H 0%nat 0%nat = RtoC (1 / (4 * z)) /\ H 1%nat 1%nat = RtoC (1 / (4 * z)) /\ H 0%nat 1%nat = RtoC 0 /\ H 1%nat 0%nat = RtoC 0.
Proof.
  intros Hz. unfold zham, getHamiltonian, op_vector, zcirc. cbn [mapM].
  change (dget _ 1%nat) with (Some (let o := zops z' in mkcops [2%nat] (oQ o) (oP o) (oD o) (oDd o) (oS o) (oSd o))). cbn [bind cosine_part Symbolic.foldM List.length seq].
  eexists. split; [reflexivity|].
  assert (S2 : (sqrt (1 / (2 * z)) * sqrt (1 / (2 * z)) = 1 / (2 * z))%R).
  { apply sqrt_sqrt. apply Rlt_le. apply Rdiv_lt_0_compat; lra. }
  assert (B : (1 / 4 <= 1 / (2 * z))%R) by (apply Rmult_le_compat_l; [lra|]; apply Rinv_le_contravar; lra).
  assert (S0 : (1 / 2 <= sqrt (1 / (2 * z)))%R).
  { pose proof (sqrt_pos (1 / (2 * z))). nra. }
  assert (Hi : (atol <= 1 / 100)%R). { unfold atol. apply Rmult_le_reg_l with (10 ^ 12)%R; [apply pow_lt; lra|]. rewrite Rinv_r by (apply pow_nonzero; lra). cbn. lra. }
  assert (Q : forall i j, oQ (zops z) i j = oscQ z 1 i j).
  { intros i j. cbn [zops oscillator_basis oQ]. apply tidy_oscQ. rewrite Rmult_1_r, Rabs_pos_eq; lra. }
  assert (X : forall r c, mplus (mplus (mplus (msc (RtoC (h_Ec zh * (1 / 2))) (quadform 2 [oQ (zops z)] (h_Qb zh) (h_Cinv zh)))
      (msc (RtoC (h_El zh * (1 / 2))) (quadform 2 [oP (zops z)] (h_Pbi zh) (h_Linv zh)))) (msc (RtoC (h_Ej zh)) mzero)) (msc (RtoC (h_Ep zh)) mzero) r c =
      (RtoC (1 / 2) * (oscQ z 1 r 0%nat * oscQ z 1 0%nat c + oscQ z 1 r 1%nat * oscQ z 1 1%nat c))%C).
  { intros r c. unfold mplus, msc, quadform, mm, mmul, shifted, mzero. cbn [List.length sumn kadd kmul k0 C_rng opn nth zh h_Cinv h_Linv h_Qb h_Pbi h_Ec h_El h_Ej h_Ep].
    unfold mplus, msc. rewrite !Q. generalize (oP (zops z)). intros P.
    replace (RtoC (1 * (1 / 2))) with (RtoC (1 / 2)) by (f_equal; lra). ring. }
  unfold tidyup. rewrite !X. unfold oscQ, create, destroy. cbn [Nat.eqb Nat.add INR]. rewrite sqrt_1.
  set (s := sqrt (1 / (2 * z))) in *. assert (E : (1 / (4 * z) = 1 / 2 * (s * s))%R) by (rewrite S2; field; lra). rewrite E.
  assert (1 / 100 <= 1 / 2 * (s * s))%R by nra.
  repeat split; match goal with |- sanC _ ?y = RtoC ?v => replace y with (RtoC v) by (apply injective_projections; cbn; try ring; field) end;
    try apply sanC_0; unfold sanC, RtoC; cbn [fst snd]; rewrite (proj1 (conj (eq_refl) I)) || idtac; f_equal; unfold sanR;
    (destruct (Rlt_dec _ _) as [L|L]; [|reflexivity]); try reflexivity; exfalso; rewrite Rabs_pos_eq in L by lra; lra.
Qed.

Definition zg (qp : list opval) (circ : dict nat opval) : cmat :=
  match qp, dget circ 1 with
  | [OOsc _ z], Some (OOsc _ z') => match zham (IZR (zofF z)) (IZR (zofF z')) with Ok H => H | Err _ => mzero end
  | _, _ => mzero
  end.
Lemma c58_stale : exists l w rs, with_grid zsys zspecs = Ok zgrid /\ dependents (n_cst zsys) ["x"] "Zosc1" /\
  numbers_along dsg (fun _ => idord) 50 (fun _ => idsq) zgrid (seq 0 (Z.to_nat (s_npts (n_sw zgrid)))) /\
  explicit (zmeth zg) (zdiag eye) (fun _ => idord) 50 (fun _ => idsq) (requested tt []) zgrid (seq 0 (Z.to_nat (s_npts (n_sw zgrid)))) = Ok l /\
  paramSweep (zmeth zg) (zdiag eye) (fun _ => idord) (fun _ => idord) 50 (fun _ => idsq) tt idord idord idsq zsys zspecs [] fs0 temp0 = Ok w /\
  mapM (readPart (w_fs w)) (w_files w) = Ok rs /\
  exists H1 H2, nth_error (map snd l) 1 = Some (PVal (VPair H1 eye)) /\ nth_error rs 1 = Some (PVal (VPair H2 eye)) /\
    H1 0%nat 0%nat = RtoC (1 / 8) /\ H2 0%nat 0%nat = RtoC (1 / 4).
Proof.
  destruct (z_explicit zg eye) as (l & E1 & E2). destruct (z_sweep zg eye) as (w & E3 & E4).
  exists l, w. eexists. split; [exact z_grid|]. split.
  { right. exists "x". split; [now left|]. apply t_step. eexists. split; [vm_compute; reflexivity|]. now left. }
  rewrite z_points. split; [exact z_numbers|]. split; [exact E1|]. split; [exact E3|]. split; [exact E4|].
  rewrite E2. do 2 eexists. split; [reflexivity|]. split; [reflexivity|].
  split.
  - destruct (zham_is 2 2 ltac:(lra)) as (H & EH & H0 & _). change (zg _ _) with (match zham (IZR 2) (IZR 2) with Ok H => H | Err _ => mzero end).
    rewrite EH, H0. f_equal. lra.
  - destruct (zham_is 1 2 ltac:(lra)) as (H & EH & H0 & _). change (zg _ _) with (match zham (IZR 1) (IZR 2) with Ok H => H | Err _ => mzero end).
    rewrite EH, H0. f_equal. lra.
Qed.

(** ** A parametric parameter still holding the value it was set to before *)
Definition t_ops : list (cop tree_alg) := [set0 [("x", 1%Z); ("y", 1%Z); ("p", 5%Z)]; CAddP "p" (sy "y")].
Definition tsys0 : nsys tree_alg := mkns (hist ["x"; "y"; "p"] t_ops) sw0 [sy "p"] [] [] [] [].
Definition tsys : nsys tree_alg := getok tsys0 (with_grid tsys0 zspecs).
Definition t_cst : cst tree_alg := n_cst tsys.
Definition t_cst' : cst tree_alg := fst (setParameterValues idord 50 t_cst (SVDict [("x", PFloat (fz 2))])).
Lemma t_grid : with_grid tsys0 zspecs = Ok tsys.
Proof. apply isok_ok. vm_compute. reflexivity. Qed.
Lemma t_reach : sreach dsg t_cst [].
Proof. apply (grid_sreach dsg _ _ _ _ t_grid), sreach_new. cbn [tsys0 n_cst]. reach_lit; [unfold t_ops, set0; oks|vmr]. Qed.
Lemma t_given q : registered t_cst q -> value_of t_cst q <> None.
Proof. unfold registered. vm_compute. intros H. repeat (destruct H as [<-|H]; [discriminate|]). destruct H. Qed.
Lemma t_ind : independent t_cst "x".
Proof. split; [vm_compute; tauto|]. intros (e & ns & H). vm_compute in H. discriminate. Qed.
Lemma t_sets : swept_sets ["x"] t_cst t_cst'.
Proof.
  eapply sets_more with (ord := idord) (fuel := 50%nat) (kvs := [("x", PFloat (fz 2))]); [apply sets_none|apply idord_good| |].
  - intros a [<-|[]]. now left.
  - unfold t_cst'. apply pair_res. vm_compute. reflexivity.
Qed.
Lemma t_number : has_number dsg t_cst' (sy "p").
Proof. eapply (has_number_reading dsg dsg_inj); [nodup_lit|vm_compute; reflexivity]. Qed.
Lemma t_numbers e : In e (n_exprs tsys) -> has_number dsg t_cst' e.
Proof. replace (n_exprs tsys) with [sy "p"] by (vm_compute; reflexivity). intros [<-|[]]. exact t_number. Qed.
Lemma c59_stale : exists pre d d',
  presub idord idsq tsys = Ok pre /\ getSweepParametersDict idord t_cst' ["x"] = Ok d /\ getSymbolValuesDict t_cst' = Ok d' /\
  mapM (fun e => bind (subs_dict idsq e d) tofloat) pre = Ok [fz 5] /\
  mapM (fun e => bind (subs_dict idsq e d') tofloat) (n_exprs tsys) = Ok [fz 1].
Proof.
  do 3 eexists. split; [vm_compute; reflexivity|]. split; [vm_compute; reflexivity|]. split; [vm_compute; reflexivity|].
  split; vm_compute; reflexivity.
Qed.

(** ** The value of a product depends on the order of substitution when it has
    no number: 0 * (1/x) at x = 0 *)
Definition u_e : E simp_alg := TMul (TSym (dsg "y")) (TInv (TSym (dsg "x"))).
Definition u_ops : list (cop simp_alg) := [CSets (SVDict [("x", PInt 1%Z); ("y", PInt 0%Z)])].
Definition usys0 : nsys simp_alg := mkns (hist ["x"; "y"] u_ops) sw0 [u_e] [] [] [] [].
Definition usys : nsys simp_alg := getok usys0 (with_grid usys0 [mkspec "x" (PInt 0) (PInt 1) (PInt 2)]).
Definition u_cst : cst simp_alg := n_cst usys.
Definition u_cst' : cst simp_alg := fst (setParameterValues idord 50 u_cst (SVDict [("x", PFloat (fz 0))])).
Lemma u_grid : with_grid usys0 [mkspec "x" (PInt 0) (PInt 1) (PInt 2)] = Ok usys.
Proof. apply isok_ok. vm_compute. reflexivity. Qed.
Lemma u_reach : sreach dsg u_cst [].
Proof. apply (grid_sreach dsg _ _ _ _ u_grid), sreach_new. cbn [usys0 n_cst]. reach_lit; [unfold u_ops; oks|vmr]. Qed.
Lemma u_settled : settled dsg u_cst.
Proof. intros q (e & ns & H). vm_compute in H. discriminate. Qed.
Lemma u_given q : registered u_cst q -> value_of u_cst q <> None.
Proof. unfold registered. vm_compute. intros H. repeat (destruct H as [<-|H]; [discriminate|]). destruct H. Qed.
Lemma u_ind : independent u_cst "x".
Proof. split; [vm_compute; tauto|]. intros (e & ns & H). vm_compute in H. discriminate. Qed.
Lemma u_sets : swept_sets ["x"] u_cst u_cst'.
Proof.
  eapply sets_more with (ord := idord) (fuel := 50%nat) (kvs := [("x", PFloat (fz 0))]); [apply sets_none|apply idord_good| |].
  - intros a [<-|[]]. now left.
  - unfold u_cst'. apply pair_res. vm_compute. reflexivity.
Qed.
Lemma c59_order : exists pre d d',
  presub idord idsq usys = Ok pre /\ getSweepParametersDict idord u_cst' ["x"] = Ok d /\ getSymbolValuesDict u_cst' = Ok d' /\
  mapM (fun e => bind (subs_dict idsq e d) tofloat) pre = Ok [fz 0] /\
  isok (mapM (fun e => bind (subs_dict idsq e d') tofloat) (n_exprs usys)) = false.
Proof.
  do 3 eexists. split; [vm_compute; reflexivity|]. split; [vm_compute; reflexivity|]. split; [vm_compute; reflexivity|].
  split; vm_compute; reflexivity.
Qed.

(** ** Two eigenvalues in place of a pair (E, V) *)
Definition hentry {K} (kw : K) : entry K := mkentry "getHamiltonian" true None kw.
Definition centry {K} (kw : K) : entry K := mkentry "getCurrentMatrixElement" false (Some "getHamiltonian") kw.
(** every method returns the pair it is called with *)
Definition emeth : string -> unit -> option (string * string) -> view -> res (value string) :=
  fun _ _ dep _ => match dep with Some (a, b) => Ok (VPair a b) | None => Ok (VObj "H") end.
(** get_vectors=False: the array of eigenvalues *)
Definition ediag : value string -> res (value string) := fun _ => Ok (VSeq ["E0"; "E1"]).
Lemma e_built : built [hentry tt; centry tt].
Proof. intros e [<-|[<-|[]]]; [exists "Hamiltonian"|exists "Current"]; reflexivity. Qed.
Lemma c60_values : exists w rs, paramSweep emeth ediag (fun _ => idord) (fun _ => idord) 50 (fun _ => idsq) tt idord idord idsq wsys wspecs
    [hentry tt; centry tt] fs0 temp0 = Ok w /\
  mapM (readPart (w_fs w)) (w_files w) = Ok rs /\
  exists d, nth_error rs 0 = Some (PDict d) /\ dget d "getHamiltonian" = Some (VSeq ["E0"; "E1"]) /\
    dget d "getCurrentMatrixElement" = Some (VPair "E0" "E1").
Proof.
  do 2 eexists. split; [apply (isok_ok (mkswp wsys fs0 temp0 [] [])); vm_compute; reflexivity|]. split; [vm_compute; reflexivity|].
  eexists. split; [reflexivity|]. split; reflexivity.
Qed.

(** ** Two evaluations of one evaluable *)
Definition cmeth : string -> nat -> option (nat * nat) -> view -> res (value nat) := fun _ kw _ _ => Ok (VObj kw).
Definition cdiagz : value nat -> res (value nat) := fun _ => Ok (VPair 7 7)%nat.
Definition cevals : list (entry nat) := [hentry 0; centry 1; centry 2]%nat.
Lemma c61_collision : exists w, paramSweep cmeth cdiagz (fun _ => idord) (fun _ => idord) 50 (fun _ => idsq) 0%nat idord idord idsq wsys wspecs
    cevals fs0 temp0 = Ok w /\
  forall name iv static arr vals st, getSweep (w_fs w) (n_sw (w_sys w)) (w_files w) iv static name = Ok (arr, vals, st) -> ~ In (VObj 1%nat) vals.
Proof.
  eexists. split; [apply (isok_ok (mkswp wsys fs0 temp0 [] [])); vm_compute; reflexivity|].
  intros name iv static arr vals st. set (w := getok _ _).
  assert (exists a b c, w_files w = [a; b; c] /\ readPart (w_fs w) a = Ok (PDict [("getHamiltonian", VPair 7 7); ("getCurrentMatrixElement", VObj 2)]%nat) /\
    readPart (w_fs w) b = readPart (w_fs w) a /\ readPart (w_fs w) c = readPart (w_fs w) a) as (a & b & c & F & Ra & Rb & Rc).
  { do 3 eexists. split; [vm_compute; reflexivity|]. split; [vm_compute; reflexivity|]. split; vm_compute; reflexivity. }
  rewrite F. generalize dependent (w_fs w). generalize (n_sw (w_sys w)). intros sw fs' Ra Rb Rc.
  unfold getSweep. destruct (dget eval_spec name) as [[[key dg] dp]|]; [|discriminate].
  rewrite Ra. cbn [bind is_dict]. intros G I. destruct (gsr1_from _ _ _ _ _ _ _ _ G _ I) as (d & Id & Hd).
  unfold read_key in Hd. assert (readPart fs' d = readPart fs' a) as E by (cbn in Id; intuition congruence). rewrite E, Ra in Hd. cbn [bind dget] in Hd.
  destruct (eqb _ _); [discriminate|]. destruct (eqb _ _); discriminate.
Qed.

(** ** One evaluation that returns a dict *)
Definition chentry : entry unit := mkentry "getChargingEnergies" false None tt.
Definition dmeth : string -> unit -> option (nat * nat) -> view -> res (value nat) := fun _ _ _ _ => Ok (VMap [4; 5])%nat.
Lemma c79_keyerror : exists w, paramSweep dmeth (fun v => Ok v) (fun _ => idord) (fun _ => idord) 50 (fun _ => idsq) tt idord idord idsq wsys wspecs
    [chentry] fs0 temp0 = Ok w /\
  getSweep (w_fs w) (n_sw (w_sys w)) (w_files w) "x" [] "ChargingEnergy" = Err KeyError.
Proof.
  eexists. split; [apply (isok_ok (mkswp wsys fs0 temp0 [] [])); vm_compute; reflexivity|]. vm_compute. reflexivity.
Qed.

(** ** Non-vacuity *)
Lemma c59_wit : sreach dsg (n_cst wgrid) [] /\ settled dsg (n_cst wgrid) /\ (forall q, registered (n_cst wgrid) q -> value_of (n_cst wgrid) q <> None) /\
  s_params (n_sw wgrid) = ["x"] /\ independent (n_cst wgrid) "x" /\
  swept_sets ["x"] (n_cst wgrid) (fst (setParameterValues idord 50 (n_cst wgrid) (SVDict [("x", PFloat (fz 2))]))) /\
  alg_plain tree_alg.
Proof.
  split; [apply (grid_sreach dsg _ _ _ _ w_grid), w_sreach|]. split; [exact (grid_settled dsg _ _ _ w_settled w_grid)|].
  split; [exact (grid_given _ _ _ w_given w_grid)|]. split; [vm_compute; reflexivity|].
  split; [apply (grid_ind _ _ _ w_ind w_grid); vm_compute; tauto|]. split; [|exact tree_alg_plain].
  eapply sets_more with (ord := idord) (fuel := 50%nat) (kvs := [("x", PFloat (fz 2))]); [apply sets_none|apply idord_good| |].
  - intros a [<-|[]]. now left.
  - apply pair_res. vm_compute. reflexivity.
Qed.
Lemma c60_wit : exists w, sreach dsg (n_cst wsys) [] /\ built cevals /\
  paramSweep cmeth cdiagz (fun _ => idord) (fun _ => idord) 50 (fun _ => idsq) 0%nat idord idord idsq wsys wspecs cevals fs0 temp0 = Ok w /\
  s_npts (n_sw (w_sys w)) = 3%Z.
Proof.
  eexists. split; [exact w_sreach|]. split; [intros e [<-|[<-|[<-|[]]]]; [exists "Hamiltonian"|exists "Current"|exists "Current"]; reflexivity|].
  split; [apply (isok_ok (mkswp wsys fs0 temp0 [] [])); vm_compute; reflexivity|]. vm_compute. reflexivity.
Qed.
Lemma c61_wit : forall m' e', (2 < m')%nat -> nth_error cevals m' = Some e' -> e_eval e' <> "getCurrentMatrixElement".
Proof. intros [|[|[|m]]] e L H; try lia. destruct m; discriminate. Qed.
Lemma t_params : s_params (n_sw tsys) = ["x"]. Proof. vm_compute. reflexivity. Qed.
Lemma u_params : s_params (n_sw usys) = ["x"]. Proof. vm_compute. reflexivity. Qed.
Lemma w_npts : s_npts (n_sw wgrid) = 3%Z. Proof. vm_compute. reflexivity. Qed.
