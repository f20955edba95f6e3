(** Symbols of the classical Hamiltonian (C125). *)
From Coq Require Import List Bool String Ascii Arith ZArith NArith Reals Permutation Lra Lia.
From Verif Require Import Prelude PreludeFacts StrFacts Coll Mat MatFacts Graph GraphSpec GraphView GraphForest GraphWf GraphCircuit GraphState GraphMaps GraphOps GraphProofs CollLast Sweep Symbolic SymbolicSpec RSum SymbolicInv SymbolicCap SymbolicCap2 SymbolicFlux SymbolicParam SymbolicNew SymbolicProofs MutualProofs NumOp SymHam SymHamSpec SymHamProofs SymHamQ SymHamT SymHamEx SymTotal MoveSpec MoveProofs PotInSpec PotInSyms PotInProofs PotInEx HamSyms HamSymsSpec.
Import ListNotations.
Open Scope string_scope.
Open Scope list_scope.
Open Scope nat_scope.

Lemma jvals y val val' ph ph' phi phi' : system y -> (forall c, In c (registered_names (ss_cg y)) -> val c = val' c) -> (forall e x, biased_at y "I" e x -> ph x = ph' x) -> (forall n, In n (ss_nodes y) -> phi n = phi' n) ->
  getClassicalJosephsonEnergies y val ph phi = getClassicalJosephsonEnergies y val' ph' phi'.
Proof.
  intros Hy Hv Hph Hphi. unfold getClassicalJosephsonEnergies, getJosephsonVector, josephson_bias. rewrite (vector_ok y Hy). cbn [bind]. rewrite (m_red y (system_inv y Hy)), (letter_bias_ok y Hy). cbn [bind]. f_equal.
  rewrite !fold_seq_Rsum. apply Rsum_ext. intros i Hi. apply in_seq in Hi. f_equal.
  - f_equal. unfold amp. assert (Hi' : i < List.length (ss_edges y)) by lia. rewrite (nth_indep _ None (lname y "I" noedge)) by (rewrite map_length; auto). rewrite map_nth.
    destruct (lname y "I" (nth i (ss_edges y) noedge)) as [c|] eqn:E; auto. apply Hv. assert (HD := circuit_derived _ (m_circ y (system_inv y Hy))).
    unfold lname in E. destruct (dget (c_map (ss_cg y)) _) as [c'|] eqn:Em; [|discriminate]. destruct (starts "I" c'); [|discriminate]. injection E as ->.
    unfold registered_names. apply in_or_app. left. apply (map_get _ HD) in Em. eapply Permutation_in; [symmetry; apply edge_map_vals, HD|]. exact (carries_name _ _ _ Em).
  - f_equal. f_equal.
    + unfold branch_flux. apply (sR_ext (List.length (ss_nodes y))). intros k Hk. rewrite Hphi by now apply nth_In. reflexivity.
    + apply total_ext. intros x Hx. apply (nth_jb y Hy) in Hx as (e & He & _). eauto.
Qed.
Lemma hvals y w w' Cinv P Q Q' F F' phi phi' : system y -> (forall c, In c (registered_names (ss_cg y)) -> v_par w c = v_par w' c) -> (forall x, v_charge w x = v_charge w' x) -> (forall x, v_flux w x = v_flux w' x) ->
  (forall n, In n (ss_nodes y) -> Q n = Q' n /\ F n = F' n) -> getClassicalJosephsonEnergies y (v_par w) (v_redflux w) phi = getClassicalJosephsonEnergies y (v_par w') (v_redflux w') phi' ->
  getClassicalHamiltonian y w Cinv P Q F phi = getClassicalHamiltonian y w' Cinv P Q' F' phi'.
Proof.
  intros Hy Hp Hc Hf HQ HJ. unfold getClassicalHamiltonian. rewrite HJ. destruct (getClassicalJosephsonEnergies y (v_par w') _ _) as [j|]; [|reflexivity]. cbn [bind]. do 3 f_equal.
  - unfold sym_getChargingEnergies, half_form. f_equal. assert (G : forall i, i < List.length (ss_nodes y) -> (Q (nth i (ss_nodes y) 0%nat) + charge_bias y (v_charge w) i = Q' (nth i (ss_nodes y) 0%nat) + charge_bias y (v_charge w') i)%R).
    { intros i Hi. destruct (HQ (nth i (ss_nodes y) 0)) as [-> _]; [now apply nth_In|]. f_equal. unfold charge_bias. destruct (dget _ _) as [[|]|]; auto. }
    apply (sR_ext (List.length (ss_nodes y))). intros i Hi. apply (sR_ext (List.length (ss_nodes y))). intros k Hk. now rewrite !G.
  - unfold sym_getFluxEnergies, flux_energy. cbv zeta. rewrite <- (system_nodes y Hy). f_equal.
    assert (B : forall e, branch_bias y (v_flux w) e = branch_bias y (v_flux w') e). { intros e. unfold branch_bias. destruct (dget _ _) as [l|]; auto. apply total_ext. auto. }
    assert (G : forall i, i < List.length (ss_nodes y) -> (F (nth i (ss_nodes y) 0%nat) + node_bias (ss_nodes y) (ss_edges y) (ind_bias (ss_cg y) (ss_edges y) (fun j => branch_bias y (v_flux w) (nth j (ss_edges y) noedge))) i =
      F' (nth i (ss_nodes y) 0%nat) + node_bias (ss_nodes y) (ss_edges y) (ind_bias (ss_cg y) (ss_edges y) (fun j => branch_bias y (v_flux w') (nth j (ss_edges y) noedge))) i)%R).
    { intros i Hi. destruct (HQ (nth i (ss_nodes y) 0)) as [_ ->]; [now apply nth_In|]. f_equal. unfold node_bias. apply (sR_ext (List.length (ss_edges y))). intros k Hk. f_equal. unfold ind_bias. now rewrite B. }
    apply (sR_ext (List.length (ss_nodes y))). intros i Hi. apply (sR_ext (List.length (ss_nodes y))). intros k Hk. now rewrite !G.
Qed.

(** a substitution *)
Fixpoint trim (s : string) : string := match s with String c ((String _ _) as r) => String c (trim r) | _ => "" end.
Lemma trim_app x : trim (x ++ "}") = x.
Proof. induction x as [|c x IH]; [reflexivity|]. cbn [append trim]. destruct (x ++ "}")%string eqn:E; [destruct x; discriminate|]. now rewrite IH. Qed.
Definition tl1 (s : string) : string := match s with String _ r => r | _ => "" end.
Fixpoint dropn (n : nat) (s : string) : string := match n with 0 => s | S n => dropn n (tl1 s) end.
Definition node_of (nodes : list nat) (x : string) : option nat := find (fun n => String.eqb (number_str n) x) nodes.
Definition the_sub (y : ssys) (w : vals) (Q F phi : nat -> R) (s : symbol) : R :=
  let x6 := trim (dropn 6 (snd s)) in let x3 := trim (dropn 3 (snd s)) in
  if fst s then
    if String.prefix "\Phi" (snd s) then v_flux w x6 else
    if String.prefix "\phi" (snd s) then match node_of (ss_nodes y) x6 with Some n => phi n | None => v_redflux w x6 end else
    if String.prefix "Q" (snd s) then v_charge w x3 else match snd s with String a _ => v_par w (String a x3) | _ => 0%R end
  else if String.prefix "\Phi" (snd s) then match node_of (ss_nodes y) x6 with Some n => F n | None => 0%R end else match node_of (ss_nodes y) x3 with Some n => Q n | None => 0%R end.
Lemma node_of_in nodes n : In n nodes -> node_of nodes (number_str n) = Some n.
Proof.
  unfold node_of. induction nodes as [|m l IH]; [intros []|]. intros H. cbn [find]. destruct (String.eqb_spec (number_str m) (number_str n)) as [E|N].
  - apply dec_inj, Nnat.Nat2N.inj in E. now subst.
  - apply IH. destruct H as [->|]; [now destruct N|auto].
Qed.
Lemma node_of_none nodes x : (forall n, In n nodes -> x <> number_str n) -> node_of nodes x = None.
Proof. intros H. unfold node_of. induction nodes as [|m l IH]; [reflexivity|]. cbn [find]. destruct (String.eqb_spec (number_str m) x) as [E|N]; [exfalso; apply (H m); [left|]; auto|]. apply IH. intros n Hn. apply H. right. auto. Qed.
Lemma letter_of s a c : circuit s -> In (String a c) (registered_names s) -> a <> "\"%char /\ a <> "Q"%char.
Proof.
  intros Hc. assert (HD := circuit_derived s Hc). unfold registered_names. rewrite !in_app_iff. intros [H|[H|[H|H]]].
  - eapply Permutation_in in H; [|apply edge_map_vals, HD]. apply in_map_iff in H as (b & E & Hb). assert (V := d_valid s HD b Hb). rewrite <- branch_valid, E in V. cbn in V.
    split; intros ->; discriminate.
  - assert (M := i_mm s (reachable_Inv s (circuit_reachable s Hc)) _ H). cbn in M. apply Ascii.eqb_eq in M. subst a. split; discriminate.
  - apply in_flat_map in H as (b & Hb & H). destruct (cb_cap b) as [c'|] eqn:E; [|easy]. destruct H as [->|[]]. assert (J := j_gate s (reachable_Inv2 s (circuit_reachable s Hc)) b _ Hb E). cbn in J. apply Ascii.eqb_eq in J. subst a. split; discriminate.
  - apply in_flat_map in H as (b & Hb & H). destruct (fb_mutual b) as [c'|] eqn:E; [|easy]. destruct H as [->|[]]. assert (J := reachable_mutual s (circuit_reachable s Hc) b _ Hb E). cbn in J. apply Ascii.eqb_eq in J. subst a. split; discriminate.
Qed.
Lemma rest_ok y w Q F phi : system y -> realises_rest y w Q F phi (the_sub y w Q F phi).
Proof.
  intros Hy. split.
  - intros a c H. destruct (letter_of _ a c (m_circ y (system_inv y Hy)) H) as [N1 N2]. unfold the_sub, sub_name. cbn [fst snd append dropn tl1 String.prefix]. rewrite trim_app.
    destruct (ascii_dec "\" a); [congruence|]. destruct (ascii_dec "Q" a); [congruence|]. reflexivity.
  - intros x. unfold the_sub, sub_name. cbn [fst snd append dropn tl1]. rewrite !trim_app. reflexivity.
  - intros x. unfold the_sub, sub_name. cbn [fst snd append dropn tl1]. rewrite !trim_app. reflexivity.
  - intros n Hn. unfold the_sub, sub_name. cbn [fst snd append dropn tl1]. rewrite !trim_app. rewrite node_of_in by auto. repeat split; reflexivity.
Qed.
Lemma the_sub_ok y w Q F phi : system y -> free_suffixes y -> realises y w Q F phi (the_sub y w Q F phi).
Proof.
  intros Hy Hf. split; [now apply rest_ok|]. intros e x H. unfold the_sub, sub_name. cbn [fst snd append dropn tl1]. rewrite !trim_app. rewrite node_of_none; [reflexivity|]. intros n Hn ->. exact (Hf n e Hn H).
Qed.
Lemma par_value y w Q F phi sub : system y -> realises_rest y w Q F phi sub -> forall c, In c (registered_names (ss_cg y)) -> sub (component_symbol c) = v_par w c.
Proof.
  intros Hy [R1 _ _ _] [|a c] H; [|apply R1; exact H]. exfalso. assert (HD := circuit_derived _ (m_circ y (system_inv y Hy))). revert H. unfold registered_names. rewrite !in_app_iff. intros [H|[H|[H|H]]].
  - eapply Permutation_in in H; [|apply edge_map_vals, HD]. apply in_map_iff in H as (b & E & Hb). assert (V := d_valid _ HD b Hb). rewrite <- branch_valid, E in V. discriminate.
  - assert (M := i_mm _ (reachable_Inv _ (circuit_reachable _ (m_circ y (system_inv y Hy)))) _ H). discriminate.
  - apply in_flat_map in H as (b & Hb & H). destruct (cb_cap b) as [c'|] eqn:E; [|easy]. destruct H as [->|[]]. assert (J := j_gate _ (reachable_Inv2 _ (circuit_reachable _ (m_circ y (system_inv y Hy)))) b _ Hb E). discriminate.
  - apply in_flat_map in H as (b & Hb & H). destruct (fb_mutual b) as [c'|] eqn:E; [|easy]. destruct H as [->|[]]. assert (J := reachable_mutual _ (circuit_reachable _ (m_circ y (system_inv y Hy))) b _ Hb E). discriminate.
Qed.
Lemma subs_value y w Cinv P Q F phi sub : system y -> realises y w Q F phi sub -> hamiltonian_subs y Cinv P sub = getClassicalHamiltonian y w Cinv P Q F phi.
Proof.
  intros Hy [HR R4]. assert (HP := par_value y w Q F phi sub Hy HR). destruct HR as [R1 R2 R3 R5]. unfold hamiltonian_subs. 
  apply hvals; auto; cbn [v_par v_charge v_flux v_redflux].
  - intros n Hn. destruct (R5 n Hn) as (A & B & _). split; assumption.
  - apply jvals; auto. intros n Hn. exact (proj2 (proj2 (R5 n Hn))).
Qed.
Lemma independent y : system y -> ((forall w Q F phi, exists sub, realises y w Q F phi sub) <-> (forall n e, In n (ss_nodes y) -> ~ biased_at y "I" e (number_str n))).
Proof.
  intros Hy. split.
  - intros H n e Hn He. destruct (H (mkvals (fun _ => 0%R) (fun _ => 0%R) (fun _ => 0%R) (fun _ => 1%R) (fun _ => 0%R)) (fun _ => 0%R) (fun _ => 0%R) (fun _ => 0%R)) as (sub & [_ _ _ R5] & R4).
    destruct (R5 n Hn) as (_ & _ & R). rewrite (R4 e _ He) in R. cbn in R. lra.
  - intros Hf w Q F phi. exists (the_sub y w Q F phi). now apply the_sub_ok.
Qed.
(** The rf-SQUID with the bias "1": whatever is substituted for the bias, the
    energy is not the one at phase 0 and bias pi. *)
Lemma squid_counter : exists y w phi, system y /\ (forall Q F, exists sub, realises_rest y w Q F phi sub) /\ forall Cinv P Q F sub, realises_rest y w Q F phi sub -> hamiltonian_subs y Cinv P sub <> getClassicalHamiltonian y w Cinv P Q F phi.
Proof.
  destruct (Lrf_facts "I1" "1") as (y & Hy & E1 & E2 & D1 & D2 & F1 & F2); [auto|]. cbn in F1, F2.
  exists y, (mkvals (fun _ => 1%R) (fun _ => 0%R) (fun _ => 0%R) (fun _ => PI) (fun _ => 0%R)), (fun _ => 0%R). split; auto. split; [intros Q F; eexists; now apply rest_ok|]. intros Cinv P Q F sub HR E. assert (R1 := par_value y _ Q F _ sub Hy HR). destruct HR as [_ R2 R3 R4]. cbn [v_par v_charge v_flux v_redflux] in *.
  assert (JE : forall val ph phi, phi 0 = 0%R -> getClassicalJosephsonEnergies y val ph phi = Ok (- val "I1" * cos (phi 1%nat + ph "1"))%R).
  { intros val ph phi P0. rewrite (josephson_terms y val ph phi Hy P0), E2. f_equal. cbn [map]. rewrite !Rsum_cons, Rsum_nil. unfold jterm, lname, branch_bias. rewrite D1, D2, F1, F2. cbn [starts Ascii.eqb Bool.eqb src dst fst snd]. unfold SymHam.total. cbn [fold_right]. cbn. rewrite P0.
    replace (phi 1%nat - 0 + (ph "1" + 0))%R with (phi 1%nat + ph "1")%R by ring. ring. }
  set (phs := fun n => if Nat.eqb n 0 then 0%R else sub (redflux_symbol n)).
  assert (H1 : getClassicalJosephsonEnergies y (fun c => sub (component_symbol c)) (fun x => sub (redflux_bias_symbol x)) (fun n => sub (redflux_symbol n)) = Ok (-1)%R).
  { rewrite (jvals y (fun c => sub (component_symbol c)) (fun _ => 1%R) (fun x => sub (redflux_bias_symbol x)) (fun _ => 0%R) (fun n => sub (redflux_symbol n)) (fun _ => 0%R)); auto.
    - rewrite JE by auto. rewrite Rplus_0_r, cos_0. f_equal. ring.
    - intros e x (_ & l & Hl & Hx). destruct (R4 1) as (_ & _ & R); [rewrite E1; left; auto|]. assert (x = "1").
      { assert (He : In e (ss_edges y)). { rewrite <- (m_keys y (system_inv y Hy)). apply dkeys_dget. eauto. } rewrite E2 in He. destruct He as [<-|[<-|[]]]; [rewrite F1 in Hl; injection Hl as <-; destruct Hx|]. rewrite F2 in Hl. injection Hl as <-. destruct Hx as [<-|[]]. reflexivity. }
      subst x. exact R.
    - intros n Hn. destruct (R4 n Hn) as (_ & _ & R). exact R. }
  assert (H2 := JE (fun _ => 1%R) (fun _ => PI) (fun _ => 0%R) eq_refl). rewrite Rplus_0_l, cos_PI in H2.
  unfold hamiltonian_subs in E. 
  rewrite (hvals y _ (mkvals (fun _ => 1%R) (fun _ => 0%R) (fun _ => 0%R) (fun x => sub (redflux_bias_symbol x)) (fun _ => 0%R)) Cinv P (fun n => sub (charge_symbol n)) Q (fun n => sub (flux_symbol n)) F (fun n => sub (redflux_symbol n)) (fun n => sub (redflux_symbol n))) in E; auto.
  - unfold getClassicalHamiltonian in E. cbn [v_par v_charge v_flux v_redflux] in E. rewrite (jvals y (fun _ => 1%R) (fun c => sub (component_symbol c)) (fun x => sub (redflux_bias_symbol x)) (fun x => sub (redflux_bias_symbol x)) (fun n => sub (redflux_symbol n)) (fun n => sub (redflux_symbol n))) in E; auto; [|intros; symmetry; auto].
    rewrite H1, H2 in E. cbn [bind] in E. injection E as E. unfold sym_getChargingEnergies, sym_getFluxEnergies, charge_bias in E. cbn [v_charge v_flux] in E. lra.
  - intros n Hn. destruct (R4 n Hn) as (A & B & _). split; assumption.
  - cbn [v_par v_redflux]. apply jvals; auto.
Qed.
