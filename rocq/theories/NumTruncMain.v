(** Proofs for C126 and C127: circuits. *)
From Coq Require Import List Bool String Ascii Arith Lia ZArith Reals Lra Permutation.
From Coquelicot Require Import Complex.
From Verif Require Import Prelude PreludeFacts Sweep SweepProofs Mat MatFacts Graph GraphSpec Symbolic SymbolicSpec NumOp NumOpSpec NumKron NumSpectral NumCharge NumExpand NumHerm SymHam SymHamSpec SymHamT SymTotal SymTotalSpec SymTotalMain MoveSpec NumSubst NumSymSpec NumSymEx NumGaugeSpec NumGaugeMain NumTruncSpec NumTrunc NumTruncHam NumTruncLevels.
Import ListNotations.
Open Scope nat_scope.

Definition offset (data data' : dict nat opdata) (m : nat) (dl : R) : nat :=
  match dget data m, dget data' m with Some d, Some d' => match od_basis d with BCharge => Z.to_nat (Z.of_nat (od_trunc d') - Z.of_nat (od_trunc d) + Int_part dl) | _ => 0 end | _, _ => 0 end.
Lemma Int_part_IZR k : Int_part (IZR k) = k.
Proof. unfold Int_part. rewrite <- (tech_up (IZR k) (k + 1)); [lia | |]; rewrite plus_IZR; lra. Qed.
Section Main.
  Variables (eigh : nat -> cmat -> (nat -> R) * cmat) (inv : nat -> cmat -> cmat) (z ka kb pmax : nat -> R) (chg flx : R).
  Let gen := getOperatorList eigh inv z ka kb pmax chg flx.
  Lemma dims_size y data circ0 circ c n : system y -> getExpandedOperatorsMap gen (ss_nodes y) data None circ0 = Ok circ -> In n (ss_nodes y) -> dget circ n = Some c ->
    fold_right Nat.mul 1 (c_dims c) = size (node_dim gen (ss_nodes y) data) (List.length (ss_nodes y)).
  Proof.
    intros Hy Hc Hin Hdc. pose proof (sys_nodup y Hy) as ND. pose proof (gen_dim_list eigh inv z ka kb pmax chg flx) as GD.
    pose proof (map_usable gen (ss_nodes y) data GD circ0 circ Hc) as U.
    destruct (map_ok gen (ss_nodes y) data U None circ0 ND) as (circ' & E' & K & _). rewrite Hc in E'. injection E' as <-.
    apply In_nth_error in Hin as [i0 Hi0]. destruct (U n (nth_error_In _ _ Hi0)) as (d0 & o0 & Ed0 & Eo0 & _).
    rewrite (K i0 n d0 o0 Hi0 Ed0 Eo0 eq_refl) in Hdc. injection Hdc as <-. reflexivity.
  Qed.
  Lemma raised_bias y w w' i m k : nth_error (ss_nodes y) i = Some m -> raised_by y w w' m k -> charge_bias y (v_charge w') i = (charge_bias y (v_charge w) i + IZR k)%R.
  Proof. intros Hi H. unfold charge_bias. rewrite (nth_error_nth _ _ _ Hi). unfold raised_by in H. destruct (dget (ss_charge y) m) as [[x|]|]; [exact H | subst k; ring | subst k; ring]. Qed.
  Lemma raised_slip y w w' i : (forall m, In m (ss_nodes y) -> exists k, raised_by y w w' m k) -> exists k, bias_val (v_charge w') (slip_bias y i) = (bias_val (v_charge w) (slip_bias y i) + IZR k)%R.
  Proof.
    intros H. unfold slip_bias. assert (HL : forall k, In k (seq 0 (List.length (ss_nodes y))) -> k < List.length (ss_nodes y)) by (intros k Hk; apply in_seq in Hk; lia). revert HL.
    generalize (seq 0 (List.length (ss_nodes y))). induction l as [|a l IH]; intros HL; [exists 0%Z; cbn; ring|]. destruct IH as [k E]; [intros; apply HL; now right|]. cbn [flat_map].
    destruct (H (nth a (ss_nodes y) 0)) as [k' R]. { apply nth_In, HL. now left. }
    unfold raised_by in R. destruct (dget (ss_charge y) (nth a (ss_nodes y) 0)) as [[x|]|]; cbn [app]; eauto.
    cbn [bias_val fold_right fst snd]. set (c := rbn (ss_nodes y) (ss_edges y) a i). fold (bias_val (v_charge w')) (bias_val (v_charge w)). exists (c * k' + k)%Z.
    match goal with |- (_ + ?a = _ + ?b + _)%R => change a with (bias_val (v_charge w') (flat_map (fun k => match dget (ss_charge y) (nth k (ss_nodes y) 0) with Some (Some x) => [(rbn (ss_nodes y) (ss_edges y) k i, x)] | _ => [] end) l));
      change b with (bias_val (v_charge w) (flat_map (fun k => match dget (ss_charge y) (nth k (ss_nodes y) 0) with Some (Some x) => [(rbn (ss_nodes y) (ss_edges y) k i, x)] | _ => [] end) l)) end.
    rewrite E, R, plus_IZR, mult_IZR. ring.
  Qed.
  Lemma charge_main y w w' Cinv P ec el ej ep data data' circ0 circ circ0' circ' Qnp Pnp Qnp' Pnp' argord c c' n h h' H :
    let N := fold_right Nat.mul 1 (c_dims c) in let N' := fold_right Nat.mul 1 (c_dims c') in
    system y -> (forall l, Permutation (argord l) l) -> inverted y (v_par w) Cinv P -> only_charges w w' ->
    getExpandedOperatorsMap gen (ss_nodes y) data None circ0 = Ok circ -> op_vector cQ (ss_nodes y) circ = Ok Qnp -> op_vector cP (ss_nodes y) circ = Ok Pnp ->
    getExpandedOperatorsMap gen (ss_nodes y) data' None circ0' = Ok circ' -> op_vector cQ (ss_nodes y) circ' = Ok Qnp' -> op_vector cP (ss_nodes y) circ' = Ok Pnp' ->
    (forall m, In m (ss_nodes y) -> follows eigh inv y w w' data data' m) -> In n (ss_nodes y) -> dget circ n = Some c -> dget circ' n = Some c' ->
    substitute y w Cinv P ec el ej ep = Ok h -> substitute y w' Cinv P ec el ej ep = Ok h' -> getHamiltonian N argord (ss_nodes y) (ss_edges y) h Qnp Pnp circ = Ok H ->
    exists H' f, getHamiltonian N' argord (ss_nodes y) (ss_edges y) h' Qnp' Pnp' circ' = Ok H' /\ embedding N N' f /\ restricts N f H' H /\
      forall i m k A A', nth_error (ss_nodes y) i = Some m -> raised_by y w w' m k -> nth_error Qnp i = Some A -> nth_error Qnp' i = Some A' -> restricts N f (plus_number (IZR k) A') A.
  Proof.
    intros N N' Hy Hp HV [W1 W2] Hc HQ HP Hc' HQ' HP' Hr Hin Hdc Hdc' Sh Sh' HH. unfold N, N' in *. clear N N'.
    rewrite (dims_size y data' circ0' circ' c' n Hy Hc' Hin Hdc'). rewrite (dims_size y data circ0 circ c n Hy Hc Hin Hdc) in *.
    pose proof (sys_nodup y Hy) as ND. pose proof (gen_dim_list eigh inv z ka kb pmax chg flx) as GD. fold gen in GD.
    pose proof (map_usable gen (ss_nodes y) data GD circ0 circ Hc) as U. pose proof (map_usable gen (ss_nodes y) data' GD circ0' circ' Hc') as U'.
    assert (SL : forall i, exists k, bias_val (v_charge w') (slip_bias y i) = (bias_val (v_charge w) (slip_bias y i) + IZR k)%R) by (intros i; apply raised_slip; intros m Hm; destruct (Hr m Hm) as (k & Hk & _); eauto).
    assert (RB := raised_bias y w w'). set (nodes := ss_nodes y) in *.
    unfold substitute in Sh, Sh'. rewrite W1, W2 in Sh'. destruct (getJosephsonVector y) as [J|]; [|easy]. destruct (getPhaseSlipVector y) as [V|]; [|easy]. destruct (josephson_bias y (ss_flux y)) as [B|]; [|easy]. cbn [bind] in Sh, Sh'. injection Sh as Eh. injection Sh' as Eh'.
    set (dl := fun i => (h_Qb h' i - h_Qb h i)%R). assert (DL : forall i m k, nth_error nodes i = Some m -> raised_by y w w' m k -> dl i = IZR k). { intros i m k Hi Hk. unfold dl. rewrite <- Eh, <- Eh'. cbn [h_Qb]. rewrite (RB i m k Hi Hk). ring. }
    set (s := fun i => match nth_error nodes i with Some m => offset data data' m (dl i) | None => 0 end).
    assert (LI : h_Linv h = inverse_inductance nodes (ss_edges y) P) by now rewrite <- Eh.
    assert (NO : forall i, i < List.length nodes -> node_fits (s i) (node_ops gen nodes data i) (node_ops gen nodes data' i) /\ moved (s i) (dl i) oQ (node_ops gen nodes data i) (node_ops gen nodes data' i) /\
      (moved (s i) 0 oP (node_ops gen nodes data i) (node_ops gen nodes data' i) \/ forall j, j < List.length nodes -> h_Linv h i j = 0%R /\ h_Linv h j i = 0%R)).
    { intros i Hi. destruct (nth_error nodes i) as [m|] eqn:Em; [|apply nth_error_None in Em; lia]. pose proof (nth_error_In _ _ Em) as Hm.
      destruct (U m Hm) as (d & o & Ed & Eo & _), (U' m Hm) as (d' & o' & Ed' & Eo' & _). unfold s, node_ops, offset. rewrite Em, Ed, Ed', Eo, Eo'.
      destruct (Hr m Hm) as (k & Hk & HC). rewrite (DL i m k Em Hk), Int_part_IZR. destruct HC as [[-> Q]|(t & t' & L & F1 & F2 & ((d1 & G1 & G2 & G3) & G4) & ((d2 & K1 & K2 & K3) & _))].
      - rewrite Ed, Ed' in Q. injection Q as ->. rewrite Eo in Eo'. injection Eo' as <-. assert (Z : match od_basis d with BCharge => Z.to_nat (Z.of_nat (od_trunc d) - Z.of_nat (od_trunc d) + 0) | _ => 0 end = 0) by (destruct (od_basis d); try reflexivity; lia). rewrite Z.
        split; [apply same_fits|]. split; [apply moved_refl | left; apply moved_refl].
      - rewrite F1 in Ed, G1. rewrite F2 in Ed', K1. injection Ed as <-. injection Ed' as <-. injection G1 as <-. injection K1 as <-. cbn [od_basis od_trunc] in *. cbn in Eo, Eo'. injection Eo as <-. injection Eo' as <-.
        split; [apply charge_fits; try easy; lia|]. split; [apply charge_moved; lia|]. right. intros j _. rewrite LI. exact (free_row y (v_par w) Cinv P i m Hy HV Em G4 j). }
    set (f := em (node_dim gen nodes data) (node_dim gen nodes data') s (seq 0 (List.length nodes))).
    assert (NO1 := fun i Hi => proj1 (NO i Hi)). assert (T : match getHamiltonian (size (node_dim gen nodes data) (List.length nodes)) argord nodes (ss_edges y) h Qnp Pnp circ, getHamiltonian (size (node_dim gen nodes data') (List.length nodes)) argord nodes (ss_edges y) h' Qnp' Pnp' circ' with
      | Ok A, Ok A' => restricts (size (node_dim gen nodes data) (List.length nodes)) f A' A | Err e, Err e' => e = e' | _, _ => False end).
    { apply (ham_fits gen nodes data data' GD ND circ0 circ circ0' circ' Hc Hc' s NO1 argord (ss_edges y) h h' Qnp Pnp Qnp' Pnp' Hp HQ HP HQ' HP'); try (now rewrite <- Eh, <- Eh'); try (intros i Hi; apply (NO i Hi)).
      }
    rewrite HH in T. destruct (getHamiltonian (size (node_dim gen nodes data') (List.length nodes)) argord nodes (ss_edges y) h' Qnp' Pnp' circ') as [H'|]; [|easy].
    exists H', f. split; [reflexivity|]. split; [apply (Ef gen nodes data data' s NO1)|]. split; [exact T|].
    intros i m k A A' Hi Hk HA HA'. assert (Hl : i < List.length nodes) by (apply nth_error_Some; congruence).
    pose proof (charges_fit gen nodes data data' GD ND circ0 circ circ0' circ' Hc Hc' s NO1 Qnp Qnp' (dl i) i HQ HQ' Hl (proj1 (proj2 (NO i Hl)))) as K. unfold opn in K. rewrite (nth_error_nth _ _ _ HA), (nth_error_nth _ _ _ HA'), (DL i m k Hi Hk) in K.
    intros r q Hr' Hq. rewrite <- (K r q Hr' Hq). unfold plus_number, up, mplus, msc, eye. fold f. match goal with |- @eq _ ?a ?b => change (@eq C a b) end. destruct (Nat.eqb (f r) (f q)); ring.
  Qed.
  Lemma charge_levels y w w' Cinv P ec el ej ep data data' circ0 circ circ0' circ' Qnp Pnp Qnp' Pnp' argord c c' n h h' H H' E E' :
    let N := fold_right Nat.mul 1 (c_dims c) in let N' := fold_right Nat.mul 1 (c_dims c') in
    system y -> (forall l, Permutation (argord l) l) -> inverted y (v_par w) Cinv P -> only_charges w w' ->
    getExpandedOperatorsMap gen (ss_nodes y) data None circ0 = Ok circ -> op_vector cQ (ss_nodes y) circ = Ok Qnp -> op_vector cP (ss_nodes y) circ = Ok Pnp ->
    getExpandedOperatorsMap gen (ss_nodes y) data' None circ0' = Ok circ' -> op_vector cQ (ss_nodes y) circ' = Ok Qnp' -> op_vector cP (ss_nodes y) circ' = Ok Pnp' ->
    (forall m, In m (ss_nodes y) -> follows eigh inv y w w' data data' m) -> In n (ss_nodes y) -> dget circ n = Some c -> dget circ' n = Some c' ->
    substitute y w Cinv P ec el ej ep = Ok h -> substitute y w' Cinv P ec el ej ep = Ok h' ->
    getHamiltonian N argord (ss_nodes y) (ss_edges y) h Qnp Pnp circ = Ok H -> getHamiltonian N' argord (ss_nodes y) (ss_edges y) h' Qnp' Pnp' circ' = Ok H' ->
    spectrum N H E -> ascending N E -> spectrum N' H' E' -> ascending N' E' -> forall k, k < N -> (E' k <= E k)%R.
  Proof.
    intros N N' Hy Hp HV HW Hc HQ HP Hc' HQ' HP' Hr Hin Hdc Hdc' Sh Sh' HH HH' SE AE SE' AE'.
    destruct (charge_main y w w' Cinv P ec el ej ep data data' circ0 circ circ0' circ' Qnp Pnp Qnp' Pnp' argord c c' n h h' H Hy Hp HV HW Hc HQ HP Hc' HQ' HP' Hr Hin Hdc Hdc' Sh Sh' HH) as (H1 & f & E1 & Ef & R & _).
    fold N' in E1. rewrite HH' in E1. injection E1 as <-. exact (levels_drop N N' f H H' E E' Ef R SE SE' AE AE').
  Qed.
  Lemma refined_follows y w data data' m : refined eigh inv y data data' m -> follows eigh inv y w w data data' m.
  Proof.
    intros [H|(t & t' & L & F1 & F2 & F3 & F4)]; exists 0%Z; (split; [unfold raised_by; destruct (dget (ss_charge y) m) as [[x|]|]; [ring | easy | easy]|]); [now left|].
    right. exists t, t'. split; [cbn; lia|]. auto.
  Qed.
  Lemma trunc_main y w Cinv P ec el ej ep data data' circ0 circ circ0' circ' Qnp Pnp Qnp' Pnp' argord c c' n h H :
    let N := fold_right Nat.mul 1 (c_dims c) in let N' := fold_right Nat.mul 1 (c_dims c') in
    system y -> (forall l, Permutation (argord l) l) -> inverted y (v_par w) Cinv P ->
    getExpandedOperatorsMap gen (ss_nodes y) data None circ0 = Ok circ -> op_vector cQ (ss_nodes y) circ = Ok Qnp -> op_vector cP (ss_nodes y) circ = Ok Pnp ->
    getExpandedOperatorsMap gen (ss_nodes y) data' None circ0' = Ok circ' -> op_vector cQ (ss_nodes y) circ' = Ok Qnp' -> op_vector cP (ss_nodes y) circ' = Ok Pnp' ->
    (forall m, In m (ss_nodes y) -> refined eigh inv y data data' m) -> In n (ss_nodes y) -> dget circ n = Some c -> dget circ' n = Some c' ->
    substitute y w Cinv P ec el ej ep = Ok h -> getHamiltonian N argord (ss_nodes y) (ss_edges y) h Qnp Pnp circ = Ok H ->
    exists H' f, getHamiltonian N' argord (ss_nodes y) (ss_edges y) h Qnp' Pnp' circ' = Ok H' /\ embedding N N' f /\ restricts N f H' H /\
      forall i A A', nth_error Qnp i = Some A -> nth_error Qnp' i = Some A' -> restricts N f A' A.
  Proof.
    intros N N' Hy Hp HV Hc HQ HP Hc' HQ' HP' Hr Hin Hdc Hdc' Sh HH.
    destruct (charge_main y w w Cinv P ec el ej ep data data' circ0 circ circ0' circ' Qnp Pnp Qnp' Pnp' argord c c' n h h H Hy Hp HV (conj eq_refl eq_refl) Hc HQ HP Hc' HQ' HP' (fun m Hm => refined_follows y w data data' m (Hr m Hm)) Hin Hdc Hdc' Sh Sh HH) as (H1 & f & E1 & Ef & R & K).
    exists H1, f. split; [exact E1|]. split; [exact Ef|]. split; [exact R|]. intros i A A' HA HA'.
    assert (Hi : i < List.length (ss_nodes y)). { rewrite <- (vector_len (ss_nodes y) circ cQ Qnp HQ). apply nth_error_Some. congruence. }
    destruct (nth_error (ss_nodes y) i) as [m|] eqn:Em; [|apply nth_error_None in Em; lia].
    assert (R0 : raised_by y w w m 0) by (unfold raised_by; destruct (dget (ss_charge y) m) as [[x|]|]; [ring | easy | easy]).
    pose proof (K i m 0%Z A A' Em R0 HA HA') as X. intros r q Hr' Hq. rewrite <- (X r q Hr' Hq). unfold plus_number. destruct (Nat.eqb _ _); ring.
  Qed.
  Lemma trunc_levels y w Cinv P ec el ej ep data data' circ0 circ circ0' circ' Qnp Pnp Qnp' Pnp' argord c c' n h H H' E E' :
    let N := fold_right Nat.mul 1 (c_dims c) in let N' := fold_right Nat.mul 1 (c_dims c') in
    system y -> (forall l, Permutation (argord l) l) -> inverted y (v_par w) Cinv P ->
    getExpandedOperatorsMap gen (ss_nodes y) data None circ0 = Ok circ -> op_vector cQ (ss_nodes y) circ = Ok Qnp -> op_vector cP (ss_nodes y) circ = Ok Pnp ->
    getExpandedOperatorsMap gen (ss_nodes y) data' None circ0' = Ok circ' -> op_vector cQ (ss_nodes y) circ' = Ok Qnp' -> op_vector cP (ss_nodes y) circ' = Ok Pnp' ->
    (forall m, In m (ss_nodes y) -> refined eigh inv y data data' m) -> In n (ss_nodes y) -> dget circ n = Some c -> dget circ' n = Some c' ->
    substitute y w Cinv P ec el ej ep = Ok h -> getHamiltonian N argord (ss_nodes y) (ss_edges y) h Qnp Pnp circ = Ok H -> getHamiltonian N' argord (ss_nodes y) (ss_edges y) h Qnp' Pnp' circ' = Ok H' ->
    spectrum N H E -> ascending N E -> spectrum N' H' E' -> ascending N' E' -> forall k, k < N -> (E' k <= E k)%R.
  Proof.
    intros N N' Hy Hp HV Hc HQ HP Hc' HQ' HP' Hr Hin Hdc Hdc' Sh HH HH' SE AE SE' AE'.
    destruct (trunc_main y w Cinv P ec el ej ep data data' circ0 circ circ0' circ' Qnp Pnp Qnp' Pnp' argord c c' n h H Hy Hp HV Hc HQ HP Hc' HQ' HP' Hr Hin Hdc Hdc' Sh HH) as (H1 & f & E1 & Ef & R & _).
    fold N' in E1. rewrite HH' in E1. injection E1 as <-. exact (levels_drop N N' f H H' E E' Ef R SE SE' AE AE').
  Qed.
End Main.
