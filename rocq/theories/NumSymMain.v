(** Proofs for C119-C121: systems. *)
From Coq Require Import List Bool String Ascii Arith Lia ZArith Reals Lra Setoid Morphisms Permutation FunctionalExtensionality.
From Coquelicot Require Import Complex.
From Verif Require Import Prelude PreludeFacts Sweep SweepProofs SweepResultProofs Mat MatFacts Util UtilProofs Graph GraphSpec Symbolic SymbolicInv SymbolicFlux NumOp NumOpSpec NumKron NumSpectral NumCharge NumExpand NumHerm NumOpProofs
  SymHam SymTotal MoveSpec SymbolicSpec SymHamEx SymTotalMain NumSubst NumSymSpec NumSymProofs NumSymHam NumSymNode.
Import ListNotations.
Open Scope nat_scope.

(** ** C119 *)
Lemma cis_shift b k : cis (2 * PI * (b + IZR k)) = cis (2 * PI * b) /\ cis (- 2 * PI * (b + IZR k)) = cis (- 2 * PI * b).
Proof.
  split.
  - rewrite Rmult_plus_distr_l, cis_add, cis_2PI_Z. ring.
  - replace (- 2 * PI * (b + IZR k))%R with (- 2 * PI * b + 2 * PI * IZR (- k))%R by (rewrite opp_IZR; ring). rewrite cis_add, cis_2PI_Z. ring.
Qed.
Lemma cosine_period N argord nodes edges am b b' X Xd : (forall i, exists k, b' i = (b i + IZR k)%R) ->
  cosine_part N argord nodes edges am b' X Xd = cosine_part N argord nodes edges am b X Xd.
Proof.
  intros H. unfold cosine_part. generalize mzero. generalize (seq 0 (List.length edges)). induction l as [|i l IH]; intros A; cbn [foldM]; [easy|].
  destruct (Req_EM_T (am i) 0); [cbn [bind]; apply IH|]. destruct (H i) as [k ->]. destruct (cis_shift (b i) k) as [-> ->].
  destruct (product N (cis (2 * PI * b i)) _); [|easy]. cbn [bind]. destruct (product N (cis (- 2 * PI * b i)) _); [|easy]. cbn [bind]. apply IH.
Qed.
Lemma total_shift f g l : (forall x, exists k, g x = (f x + IZR k)%R) -> exists k, SymHam.total g l = (SymHam.total f l + IZR k)%R.
Proof.
  intros H. induction l as [|x l [k E]]; [exists 0%Z; cbn; ring|]. destruct (H x) as [k' E']. exists (k' + k)%Z. cbn [SymHam.total fold_right]. fold (SymHam.total g l) (SymHam.total f l).
  rewrite E, E', plus_IZR. ring.
Qed.
Lemma total_ext f g l : (forall x, In x l -> g x = f x) -> SymHam.total g l = SymHam.total f l.
Proof. induction l as [|x l IH]; intros H; [easy|]. cbn [SymHam.total fold_right]. fold (SymHam.total g l) (SymHam.total f l). rewrite (H x) by now left. rewrite IH by (intros; apply H; now right). ring. Qed.
Lemma total_opp f g l : (forall x, g x = (- f x)%R) -> SymHam.total g l = (- SymHam.total f l)%R.
Proof. intros H. induction l as [|x l IH]; cbn [SymHam.total fold_right]; [ring|]. fold (SymHam.total g l) (SymHam.total f l). rewrite IH, H. ring. Qed.
Lemma bias_val_opp f g l : (forall x, g x = (- f x)%R) -> bias_val g l = (- bias_val f l)%R.
Proof. intros H. induction l as [|x l IH]; cbn [bias_val fold_right]; [ring|]. fold (bias_val g l) (bias_val f l). rewrite IH, H. ring. Qed.
(** the biases of inductors *)
Lemma inductive_kind y j e : nth_error (ss_edges y) j = Some e -> isInductiveEdge (ss_cg y) e = Ok true -> kind_at y "L"%char e.
Proof.
  intros Hj H. split; [now apply nth_error_In in Hj|]. unfold isInductiveEdge, is_type in H. destruct (dget (c_map (ss_cg y)) e) as [c|]; [|discriminate].
  exists c. split; [easy|]. unfold letter. destruct c; [discriminate|]. injection H as H. exact H.
Qed.
Lemma ind_bias_ext y f g : (forall x, biases_inductor y x -> g x = f x) -> forall j,
  ind_bias (ss_cg y) (ss_edges y) (fun j => branch_bias y g (nth j (ss_edges y) noedge)) j = ind_bias (ss_cg y) (ss_edges y) (fun j => branch_bias y f (nth j (ss_edges y) noedge)) j.
Proof.
  intros H j. unfold ind_bias. destruct (nth_error (ss_edges y) j) as [e|] eqn:E; [|easy]. destruct (isInductiveEdge (ss_cg y) e) as [[|]|] eqn:K; try easy.
  rewrite (nth_error_nth _ _ _ E). unfold branch_bias. destruct (dget (ss_flux y) e) as [l|] eqn:F; [|easy]. apply total_ext. intros x Hx. apply H. exists e, l. split; [now apply (inductive_kind y j)|]. auto.
Qed.
Lemma ind_bias_opp y f g : (forall x, g x = (- f x)%R) -> forall j,
  ind_bias (ss_cg y) (ss_edges y) (fun j => branch_bias y g (nth j (ss_edges y) noedge)) j = (- ind_bias (ss_cg y) (ss_edges y) (fun j => branch_bias y f (nth j (ss_edges y) noedge)) j)%R.
Proof.
  intros H j. unfold ind_bias. destruct (nth_error (ss_edges y) j) as [e|]; [|ring]. destruct (isInductiveEdge (ss_cg y) e) as [[|]|]; try ring.
  unfold branch_bias. destruct (dget (ss_flux y) _) as [l|]; [now apply total_opp | ring].
Qed.
Lemma node_bias_opp nodes edges b b' i : (forall j, b' j = (- b j)%R) -> node_bias nodes edges b' i = (- node_bias nodes edges b i)%R.
Proof.
  intros H. unfold node_bias. change (- ?x)%R with (@kopp R_rng x) at 1. rewrite <- (@sumn_opp R_rng). apply (@sumn_ext R_rng). intros j _. rewrite H. cbn [kopp R_rng]. match goal with |- @eq _ ?a ?b => change (@eq R a b) end. ring.
Qed.
Lemma period N argord y w w' Cinv P ec el ej ep h h' Qnp Pnp circ : flux_shifted y w w' ->
  substitute y w Cinv P ec el ej ep = Ok h -> substitute y w' Cinv P ec el ej ep = Ok h' ->
  getHamiltonian N argord (ss_nodes y) (ss_edges y) h' Qnp Pnp circ = getHamiltonian N argord (ss_nodes y) (ss_edges y) h Qnp Pnp circ.
Proof.
  intros (E1 & E2 & E3). unfold substitute. rewrite E1, E2. destruct (getJosephsonVector y) as [J|]; [|discriminate]. destruct (getPhaseSlipVector y) as [V|]; [|discriminate]. destruct (josephson_bias y (ss_flux y)) as [B|]; [|discriminate].
  cbn [bind]. intros H H'. injection H as <-. injection H' as <-. unfold getHamiltonian. cbn [h_Cinv h_Linv h_Qb h_Pbi h_J h_Ps h_pb h_qb h_Ec h_El h_Ej h_Ep].
  assert (X : node_bias (ss_nodes y) (ss_edges y) (ind_bias (ss_cg y) (ss_edges y) (fun j => branch_bias y (v_flux w') (nth j (ss_edges y) noedge))) =
              node_bias (ss_nodes y) (ss_edges y) (ind_bias (ss_cg y) (ss_edges y) (fun j => branch_bias y (v_flux w) (nth j (ss_edges y) noedge)))).
  { f_equal. apply functional_extensionality. apply ind_bias_ext. intros x Hx. destruct (E3 x) as (k & -> & K). rewrite (K Hx). ring. }
  rewrite X. destruct (op_vector cD _ circ); [|easy]. destruct (op_vector cDd _ circ); [|easy]. destruct (op_vector cS _ circ); [|easy]. destruct (op_vector cSd _ circ); [|easy]. cbn [bind].
  rewrite (cosine_period N argord (ss_nodes y) (ss_edges y) (amp (v_par w) J) (fun i => SymHam.total (v_flux w) (nth i B []))); [easy|].
  intros i. apply total_shift. intros x. destruct (E3 x) as (k & E & _). now exists k.
Qed.

(** ** C120, C121 *)
Section Main.
  Variables (eigh : nat -> cmat -> (nat -> R) * cmat) (inv : nat -> cmat -> cmat) (z ka kb pmax : nat -> R) (chg flx : R).
  Let gen := getOperatorList eigh inv z ka kb pmax chg flx.
  Variables (nodes : list nat) (data : dict nat opdata) (circ0 circ : dict nat cops) (Qnp Pnp : list cmat).
  Hypothesis ND : NoDup nodes.
  Hypothesis Hc : getExpandedOperatorsMap gen nodes data None circ0 = Ok circ.
  Hypothesis HQ : op_vector cQ nodes circ = Ok Qnp.
  Hypothesis HP : op_vector cP nodes circ = Ok Pnp.
  Hypothesis sol : forall m d, In m nodes -> dget data m = Some d -> solved eigh inv z ka kb chg flx m d.
  (* what to do at the i-th node *)
  Definition at_node {X} (dflt : X) (fc fo : nat -> X) (i : nat) : X :=
    match nth_error nodes i with
    | Some m => match dget data m with Some d => match od_basis d with BCharge => fc (od_trunc d) | _ => fo (od_trunc d) end | None => dflt end
    | None => dflt
    end.
  Lemma main_turn argord edges h h' c n (s : R) : (forall l, Permutation (argord l) l) -> onsign s -> In n nodes -> dget circ n = Some c ->
    h_Cinv h' = h_Cinv h -> h_Linv h' = h_Linv h -> h_J h' = h_J h -> h_Ps h' = h_Ps h ->
    h_Ec h' = h_Ec h -> h_El h' = h_El h -> h_Ej h' = h_Ej h -> h_Ep h' = h_Ep h ->
    (forall i, h_Qb h' i = (s * h_Qb h i)%R) -> (forall i, h_qb h' i = (s * h_qb h i)%R) ->
    (forall i, h_Pbi h' i = (- s * h_Pbi h i)%R) -> (forall i, h_pb h' i = (- s * h_pb h i)%R) ->
    let N := fold_right Nat.mul 1 (c_dims c) in
    match getHamiltonian N argord nodes edges h Qnp Pnp circ, getHamiltonian N argord nodes edges h' Qnp Pnp circ with
    | Ok A, Ok B => mirror N A B /\ forall E, spectrum N A E <-> spectrum N B E | Err e, Err f => e = f | _, _ => False end.
  Proof.
    intros Hp Hs Hn Hdc e1 e2 e3 e4 e5 e6 e7 e8 E1 E2 E3 E4.
    pose proof (gen_dim_list eigh inv z ka kb pmax chg flx) as GD.
    pose proof (map_usable gen nodes data GD circ0 circ Hc) as U.
    destruct (map_ok gen nodes data U None circ0 ND) as (circ' & E' & K & _). rewrite Hc in E'. injection E' as <-.
    apply In_nth_error in Hn as [i Hi]. destruct (U n (nth_error_In _ _ Hi)) as (d & o & Ed & Eo & _).
    rewrite (K i n d o Hi Ed Eo eq_refl) in Hdc. injection Hdc as <-. unfold lifted. cbn [c_dims].
    change (fold_right Nat.mul 1 (map (node_dim gen nodes data) (seq 0 (List.length nodes)))) with (size (node_dim gen nodes data) (List.length nodes)). set (N := size (node_dim gen nodes data) (List.length nodes)).
    set (sg := if Req_EM_T s 1 then at_node idn (fun _ => idn) (fun _ => idn) else at_node idn back (fun _ => idn)).
    set (ep := if Req_EM_T s 1 then at_node ones (fun _ => ones) (fun _ => alt) else at_node ones (fun _ => ones) (fun _ => ones)).
    assert (NO : forall i m d o, nth_error nodes i = Some m -> dget data m = Some d -> gen m d = Ok o -> signed (o_dim o) (sg i) (ep i) /\ turned (sg i) (ep i) s o).
    { intros j m d' o' Hj Hd Ho. pose proof (sol m d' (nth_error_In _ _ Hj) Hd) as SO. unfold solved in SO. unfold gen, getOperatorList in Ho. unfold sg, ep. destruct (Req_EM_T s 1) as [->|Ns]; unfold at_node; rewrite Hj, Hd.
      - destruct (od_basis d'); try easy; injection Ho as <-.
        + split; [apply id_signed | now apply charge_flux].
        + split; [apply alt_signed | now apply osc_flux].
      - assert (s = (-1)%R) as -> by (destruct Hs; easy). destruct (od_basis d'); try easy; injection Ho as <-.
        + split; [apply back_signed | now apply charge_charge].
        + split; [apply id_signed | now apply osc_charge]. }
    pose proof (ham_turn gen nodes data GD ND circ0 circ Hc sg ep s Hs NO argord edges h h' Qnp Pnp Hp HQ HP e1 e2 e3 e4 e5 e6 e7 e8 E1 E2 E3 E4) as T.
    pose proof (whole_signed gen nodes data GD circ0 circ Hc sg ep s NO) as W. change (size (node_dim gen nodes data) (List.length nodes)) with N in T, W.
    destruct (getHamiltonian N argord nodes edges h Qnp Pnp circ) as [A|], (getHamiltonian N argord nodes edges h' Qnp Pnp circ) as [B|]; try easy.
    assert (M : mirror N A B) by (eapply mirror_ext; [reflexivity | exact T | now apply turn_mirror]).
    split; [exact M | now apply mirror_spectra].
  Qed.
End Main.
Lemma flux_main eigh inv z ka kb pmax chg flx y w w' Cinv P ec el ej ep data circ0 circ Qnp Pnp argord c n h h' H :
  let gen := getOperatorList eigh inv z ka kb pmax chg flx in let N := fold_right Nat.mul 1 (c_dims c) in
  NoDup (ss_nodes y) -> (forall l, Permutation (argord l) l) ->
  getExpandedOperatorsMap gen (ss_nodes y) data None circ0 = Ok circ -> op_vector cQ (ss_nodes y) circ = Ok Qnp -> op_vector cP (ss_nodes y) circ = Ok Pnp ->
  (forall m d, In m (ss_nodes y) -> dget data m = Some d -> solved eigh inv z ka kb chg flx m d) -> In n (ss_nodes y) -> dget circ n = Some c ->
  substitute y w Cinv P ec el ej ep = Ok h -> substitute y w' Cinv P ec el ej ep = Ok h' -> flux_reversed y w w' ->
  getHamiltonian N argord (ss_nodes y) (ss_edges y) h Qnp Pnp circ = Ok H ->
  exists H', getHamiltonian N argord (ss_nodes y) (ss_edges y) h' Qnp Pnp circ = Ok H' /\ mirror N H H' /\ forall E, spectrum N H E <-> spectrum N H' E.
Proof.
  intros gen N ND Hp Hc HQ HP So Hn Hd Sh Sh' (E1 & E2 & E3) HH.
  set (w0 := mkvals (v_par w) (v_charge w) (fun x => - v_flux w x)%R (v_redflux w) (v_redcharge w)).
  assert (X : exists h0, substitute y w0 Cinv P ec el ej ep = Ok h0).
  { unfold substitute in *. destruct (getJosephsonVector y); [|discriminate]. destruct (getPhaseSlipVector y); [|discriminate]. destruct (josephson_bias y (ss_flux y)); [|discriminate]. cbn [bind] in *. eauto. }
  destruct X as [h0 S0]. assert (F : flux_shifted y w0 w').
  { split; [exact E1|split; [exact E2|]]. intros x. destruct (E3 x) as (k & Ek & K). exists k. split; [|exact K]. rewrite Ek. unfold w0. cbn [v_flux]. ring. }
  rewrite (period N argord y w0 w' Cinv P ec el ej ep h0 h' Qnp Pnp circ F S0 Sh').
  pose proof (main_turn eigh inv z ka kb pmax chg flx (ss_nodes y) data circ0 circ Qnp Pnp ND Hc HQ HP So argord (ss_edges y) h h0 c n 1 Hp (or_introl eq_refl) Hn Hd) as T.
  assert (A : (h_Cinv h0 = h_Cinv h /\ h_Linv h0 = h_Linv h /\ h_J h0 = h_J h /\ h_Ps h0 = h_Ps h) /\ (h_Ec h0 = h_Ec h /\ h_El h0 = h_El h /\ h_Ej h0 = h_Ej h /\ h_Ep h0 = h_Ep h) /\
    (forall i, h_Qb h0 i = (1 * h_Qb h i)%R) /\ (forall i, h_qb h0 i = (1 * h_qb h i)%R) /\ (forall i, h_Pbi h0 i = (- (1) * h_Pbi h i)%R) /\ (forall i, h_pb h0 i = (- (1) * h_pb h i)%R)).
  { revert Sh S0. unfold substitute. destruct (getJosephsonVector y) as [J|]; [|discriminate]. destruct (getPhaseSlipVector y) as [V|]; [|discriminate]. destruct (josephson_bias y (ss_flux y)) as [B|]; [|discriminate].
    cbn [bind]. intros Sh S0. injection Sh as <-. injection S0 as <-. cbn [h_Cinv h_Linv h_Qb h_Pbi h_J h_Ps h_pb h_qb h_Ec h_El h_Ej h_Ep w0 v_par v_flux v_charge].
    split; [repeat split; reflexivity|]. split; [repeat split; reflexivity|]. split; [|split; [|split]]; intros i; try ring.
    - rewrite (node_bias_opp _ _ _ _ i (ind_bias_opp y (v_flux w) (fun x => - v_flux w x)%R (fun x => eq_refl))). ring.
    - rewrite (total_opp (v_flux w)) by reflexivity. ring. }
  destruct A as ((A1 & A2 & A3 & A4) & (A5 & A6 & A7 & A8) & T1 & T2 & T3 & T4).
  specialize (T A1 A2 A3 A4 A5 A6 A7 A8 T1 T2 T3 T4). cbv zeta in T. fold N in T. rewrite HH in T.
  destruct (getHamiltonian N argord (ss_nodes y) (ss_edges y) h0 Qnp Pnp circ) as [B'|]; [|easy]. exists B'. split; [reflexivity | exact T].
Qed.
Lemma charge_main eigh inv z ka kb pmax chg flx y w w' Cinv P ec el ej ep data circ0 circ Qnp Pnp argord c n h h' H :
  let gen := getOperatorList eigh inv z ka kb pmax chg flx in let N := fold_right Nat.mul 1 (c_dims c) in
  NoDup (ss_nodes y) -> (forall l, Permutation (argord l) l) ->
  getExpandedOperatorsMap gen (ss_nodes y) data None circ0 = Ok circ -> op_vector cQ (ss_nodes y) circ = Ok Qnp -> op_vector cP (ss_nodes y) circ = Ok Pnp ->
  (forall m d, In m (ss_nodes y) -> dget data m = Some d -> solved eigh inv z ka kb chg flx m d) -> In n (ss_nodes y) -> dget circ n = Some c ->
  substitute y w Cinv P ec el ej ep = Ok h -> substitute y w' Cinv P ec el ej ep = Ok h' -> charge_reversed w w' ->
  getHamiltonian N argord (ss_nodes y) (ss_edges y) h Qnp Pnp circ = Ok H ->
  exists H', getHamiltonian N argord (ss_nodes y) (ss_edges y) h' Qnp Pnp circ = Ok H' /\ mirror N H H' /\ forall E, spectrum N H E <-> spectrum N H' E.
Proof.
  intros gen N ND Hp Hc HQ HP So Hn Hd Sh Sh' (E1 & E2 & E3) HH.
  pose proof (main_turn eigh inv z ka kb pmax chg flx (ss_nodes y) data circ0 circ Qnp Pnp ND Hc HQ HP So argord (ss_edges y) h h' c n (-1) Hp (or_intror eq_refl) Hn Hd) as T.
  assert (A : (h_Cinv h' = h_Cinv h /\ h_Linv h' = h_Linv h /\ h_J h' = h_J h /\ h_Ps h' = h_Ps h) /\ (h_Ec h' = h_Ec h /\ h_El h' = h_El h /\ h_Ej h' = h_Ej h /\ h_Ep h' = h_Ep h) /\
    (forall i, h_Qb h' i = (-1 * h_Qb h i)%R) /\ (forall i, h_qb h' i = (-1 * h_qb h i)%R) /\ (forall i, h_Pbi h' i = (- (-1) * h_Pbi h i)%R) /\ (forall i, h_pb h' i = (- (-1) * h_pb h i)%R)).
  { revert Sh Sh'. unfold substitute. rewrite E1, E2. destruct (getJosephsonVector y) as [J|]; [|discriminate]. destruct (getPhaseSlipVector y) as [V|]; [|discriminate]. destruct (josephson_bias y (ss_flux y)) as [B|]; [|discriminate].
    cbn [bind]. intros Sh Sh'. injection Sh as <-. injection Sh' as <-. cbn [h_Cinv h_Linv h_Qb h_Pbi h_J h_Ps h_pb h_qb h_Ec h_El h_Ej h_Ep].
    split; [repeat split; reflexivity|]. split; [repeat split; reflexivity|]. split; [|split; [|split]]; intros i; try ring.
    - unfold charge_bias. destruct (dget (ss_charge y) _) as [[x|]|]; [rewrite E3|..]; ring.
    - rewrite (bias_val_opp (v_charge w)) by exact E3. ring. }
  destruct A as ((A1 & A2 & A3 & A4) & (A5 & A6 & A7 & A8) & T1 & T2 & T3 & T4).
  specialize (T A1 A2 A3 A4 A5 A6 A7 A8 T1 T2 T3 T4). cbv zeta in T. fold N in T. rewrite HH in T.
  destruct (getHamiltonian N argord (ss_nodes y) (ss_edges y) h' Qnp Pnp circ) as [B'|]; [|easy]. exists B'. split; [reflexivity | exact T].
Qed.
