(** The symbolic Hamiltonian (C90, C91). *)
From Coq Require Import List Bool String Ascii Arith ZArith Reals Permutation Lra Lia.
From Coquelicot Require Import Complex.
From Verif Require Import Prelude PreludeFacts Mat MatFacts Graph GraphSpec GraphView GraphForest GraphWf GraphCircuit GraphState GraphMaps GraphOps GraphProofs Sweep Symbolic SymbolicSpec RSum SymbolicInv SymbolicCap SymbolicCap2 SymbolicFlux SymbolicNew NumOp NumOpSpec NumHerm NumPot SymHam SymHamSpec.
Import ListNotations.
Open Scope string_scope.
Open Scope list_scope.
Open Scope nat_scope.

Lemma src_rev e : src (rev_edge e) = dst e. Proof. destruct e as [[? ?] ?]; auto. Qed.
Lemma dst_rev e : dst (rev_edge e) = src e. Proof. destruct e as [[? ?] ?]; auto. Qed.
Lemma mapM_map {A B} (f : A -> res B) (g : A -> B) l : (forall x, In x l -> f x = Ok (g x)) -> mapM f l = Ok (map g l).
Proof. induction l as [|x l IH]; intros H; cbn [mapM map]; auto. rewrite H by (left; auto). cbn [bind]. rewrite IH by (intros; apply H; right; auto). auto. Qed.
Lemma fold_seq_Rsum (f : nat -> R) l : fold_right (fun i r => (f i + r)%R) 0%R l = Rsum (map f l).
Proof. induction l as [|x l IH]; cbn; auto. rewrite IH. auto. Qed.
Lemma total_Rsum ph l : SymHam.total ph l = Rsum (map ph l).
Proof. unfold SymHam.total. induction l as [|x l IH]; cbn; auto. rewrite IH. auto. Qed.
Lemma system_nodes y : system y -> ss_nodes y = sys_nodes (ss_cg y).
Proof.
  induction 1 as [ord oracle s y Hc Hn|y a b Hy IH].
  - assert (HD := circuit_derived s Hc). unfold new_system in Hn. destruct (negb _); [discriminate|]. rewrite (wcs_wc s HD) in Hn. destruct (has_resonators s); [discriminate|]. cbv zeta in Hn. revert Hn.
    destruct (ok_st _) as [st1|]; [|discriminate]. cbn [bind]. destruct (flux_symbols s (wcs s)) as [fl|] eqn:Ef; [|discriminate]. cbn [bind].
    repeat (match goal with |- context[ok_st ?x] => destruct (ok_st x); [|discriminate]; cbn [bind] | |- context[bind ?x _] => destruct x; [|discriminate]; cbn [bind] end).
    intros H. injection H as <-. reflexivity.
  - unfold moveFluxBias. destruct (negb _); auto. destruct (negb _); auto. destruct (dget (ss_flux y) a) as [[|]|]; auto. destruct (dget (ss_red y) a); auto.
Qed.
Section Josephson.
  Variable y : ssys.
  Hypothesis Hy : system y.
  Variables val ph : string -> R.
  Let s := ss_cg y.
  Let edges := ss_edges y.
  Let I := moves_inv.
  Let HI : moves_inv y := system_inv y Hy.
  Let Hc : circuit s := m_circ y HI.
  Let HD : Derived s := circuit_derived s Hc.
  Lemma y_edges : edges = wcs s.
  Proof. assert (H := m_edges y HI). fold s in H. rewrite (wcs_wc s HD) in H. injection H as H. auto. Qed.
  Definition jname (e : edge) : option string := match dget (c_map s) e with Some c => if starts "I" c then Some c else None | None => None end.
  Lemma y_comp e : In e edges -> exists c, dget (c_map s) e = Some c /\ component_of s e = Ok c /\ param s c = Ok c /\ forall p, letter_is p c = Ok (starts p c) /\ is_type p s e = Ok (starts p c).
  Proof.
    intros He. rewrite y_edges in He. destruct (wcs_carry s HD e He) as (c & Hcar & _). apply (map_get s HD) in Hcar. exists c.
    assert (Ec : component_of s e = Ok c) by (unfold component_of; rewrite Hcar; auto). destruct (param_comp s HD e c Ec) as (P1 & _ & P3). split; auto. split; auto. split; auto.
    intros p. unfold letter_is, is_type in *. rewrite Hcar. destruct c; [discriminate|auto].
  Qed.
  Definition lname (p : ascii) (e : edge) : option string := match dget (c_map s) e with Some c => if starts p c then Some c else None | None => None end.
  Lemma vector_ok p : letter_vector p s edges = Ok (map (lname p) edges).
  Proof.
    apply mapM_map. intros e He. destruct (y_comp e He) as (c & E & E1 & E2 & E3). rewrite E1. cbn [bind]. destruct (E3 p) as [E4 _]. rewrite E4. cbn [bind]. unfold lname. rewrite E.
    destruct (starts p c); auto. rewrite E2. auto.
  Qed.
  Lemma bias_ok : josephson_bias y (ss_red y) = Ok (map (fun e => match lname "I" e, dget (ss_red y) e with Some _, Some l => l | _, _ => [] end) edges).
  Proof.
    apply mapM_map. intros e He. destruct (y_comp e He) as (c & E & _ & _ & E3). destruct (E3 "I"%char) as [_ E4]. fold s. rewrite E4. cbn [bind]. unfold lname. rewrite E. destruct (starts "I" c); auto.
    assert (Hk : In e (dkeys (ss_red y))) by (rewrite (m_red y HI), (m_keys y HI); auto). apply dkeys_dget in Hk as (l & ->). auto.
  Qed.
  Lemma keys_edges e : dget (ss_red y) e <> None <-> In e edges.
  Proof.
    rewrite (m_red y HI). split; intros H.
    - destruct (dget (ss_flux y) e) as [l|] eqn:E; [|congruence]. unfold edges. rewrite <- (m_keys y HI). apply dkeys_dget; eauto.
    - unfold edges in H. rewrite <- (m_keys y HI) in H. apply dkeys_dget in H as (l & ->). discriminate.
  Qed.
  Lemma rev_self e : rev_edge e = e <-> src e = dst e.
  Proof. destruct e as [[a b] k]. unfold rev_edge, src, dst. cbn. split; [intros E; injection E; auto|intros ->; auto]. Qed.
  Lemma lname_rev p e : lname p (rev_edge e) = lname p e.
  Proof.
    unfold lname. enough (H : forall e c, dget (c_map s) e = Some c -> dget (c_map s) (rev_edge e) = Some c).
    - destruct (dget (c_map s) e) as [c|] eqn:E1; [rewrite (H e c E1); auto|]. destruct (dget (c_map s) (rev_edge e)) as [c|] eqn:E2; auto. apply H in E2. rewrite rev_rev in E2. congruence.
    - intros f c H. apply (map_get s HD) in H. apply (map_get s HD). apply (carries_rev s); auto.
  Qed.
  (** Sums over the branches of one letter, with a bias that changes sign with
      the direction *)
  Section Letter.
    Variables (p : ascii) (sb : edge -> R).
    Hypothesis Hp : p <> "C"%char.
    Hypothesis Hsb : forall e, src e <> dst e -> sb (rev_edge e) = (- sb e)%R.
    Definition hj (phi : nat -> R) (e : edge) : R := (- match lname p e with Some c => val c | None => 0 end * cos (phi (src e) - phi (dst e) + sb e))%R.
    Lemma hj_rev phi e : hj phi (rev_edge e) = hj phi e.
    Proof.
      destruct (Nat.eq_dec (src e) (dst e)) as [Hs|Hs]; [apply rev_self in Hs; rewrite Hs; auto|].
      unfold hj. rewrite lname_rev, Hsb, src_rev, dst_rev by auto. f_equal. rewrite <- cos_neg. f_equal. ring.
    Qed.
    Lemma hj_norm phi e : hj phi (norm e) = hj phi e.
    Proof.
      assert (H : norm e = e \/ norm e = rev_edge e).
      { destruct e as [[a b] k]. unfold norm, rev_edge, src, dst, ekey. cbn [fst snd]. destruct (Nat.le_gt_cases a b); [left; rewrite Nat.min_l, Nat.max_r by lia|right; rewrite Nat.min_r, Nat.max_l by lia]; auto. }
      destruct H as [-> | ->]; auto using hj_rev.
    Qed.
    Definition left_out (b : branch) : bool := negb (keepb (noncap (c_graph s)) (fst b)).
    Definition rest : R := Rsum (map (fun b => if left_out b then val (snd b) * cos (sb (fst b)) else 0)%R (branches_of p (c_graph s))).
    Lemma letter_energy phi : Rsum (map (hj phi) edges) = (Rsum (map (fun b => - val (snd b) * cos (phi (src (fst b)) - phi (dst (fst b)) + sb (fst b))) (branches_of p (c_graph s))) + rest)%R.
    Proof.
      assert (N : forall l, Rsum (map (hj phi) l) = Rsum (map (hj phi) (map norm l))) by (intros l; rewrite map_map; apply Rsum_ext; intros; rewrite hj_norm; auto).
      rewrite N. rewrite y_edges. rewrite (Rsum_perm _ _ (Permutation_map (hj phi) (Permutation_map norm (wcs_perm s HD)))), (Rsum_perm _ _ (Permutation_map (hj phi) (tree_clos_split s HD))), <- N.
      unfold rest. rewrite <- Rsum_map_add. rewrite Rsum_filter. unfold noncap at 2. rewrite map_map. unfold branches_of. rewrite !Rsum_filter. apply Rsum_ext. intros [e c] Hb. cbn [fst snd].
      assert (Hcm : dget (c_map s) e = Some c) by (apply (map_get s HD); exists (e, c); split; auto; split; auto; left; auto).
      unfold left_out. cbn [fst]. unfold hj, lname. rewrite Hcm. unfold letter, starts. assert (V := d_valid s HD _ Hb). cbn [snd] in V. destruct c as [|a c]; [discriminate V|].
      cbn [snd]. destruct (Ascii.eqb_spec a p) as [->|Hne].
      - assert (Ep : match p with "C"%char => false | _ => true end = true) by (destruct p as [[] [] [] [] [] [] [] []]; auto; congruence).
        rewrite Ep. destruct (keepb (noncap (c_graph s)) e) eqn:Ek; cbn [negb]; [ring|].
        destruct (Nat.eq_dec (src e) (dst e)) as [E|E]; [|rewrite (proj2 (keepb_spec _ e)) in Ek by auto; discriminate]. rewrite E. replace (phi (dst e) - phi (dst e) + sb e)%R with (sb e) by ring. ring.
      - repeat match goal with |- context[if ?b then _ else _] => destruct b end; ring.
    Qed.
    Lemma rest_0 : no_lone_selfloop (noncap (c_graph s)) -> rest = 0%R.
    Proof.
      intros Hl. apply Rsum_map_0. intros [e c] Hb. unfold left_out. cbn [fst snd]. destruct (keepb (noncap (c_graph s)) e) eqn:E; auto. exfalso.
      destruct (Nat.eq_dec (src e) (dst e)) as [Es|Es]; [|rewrite (proj2 (keepb_spec _ e)) in E by auto; discriminate].
      unfold branches_of in Hb. apply filter_In in Hb as [Hb HL]. cbn [snd] in HL.
      rewrite (proj2 (keepb_spec _ e)) in E; [discriminate|]. right. apply Hl; auto. unfold noncap. apply in_map_iff. exists (e, c). split; auto. apply filter_In. split; auto. cbn [snd].
      unfold letter in HL. destruct c as [|a c]; auto. cbn [snd] in HL. destruct (Ascii.eqb_spec a p) as [->|]; [|discriminate HL]. destruct p as [[] [] [] [] [] [] [] []]; auto; congruence.
    Qed.
    Lemma edge_sum v B phi : phi 0 = 0%R -> v = map (lname p) edges -> (forall i, i < List.length edges -> lname p (nth i edges noedge) <> None -> B i = sb (nth i edges noedge)) ->
      Rsum (map (fun i => - amp val v i * cos (branch_flux (ss_nodes y) edges (fun k => phi (nth k (ss_nodes y) 0%nat)) i + B i))%R (seq 0 (List.length edges))) = Rsum (map (hj phi) edges).
    Proof.
      intros P0 -> HB. rewrite <- (sumn_nth edges noedge), sumn_Rsum. apply Rsum_ext. intros i Hi. apply in_seq in Hi. destruct Hi as [_ Hi]. cbn in Hi.
      specialize (HB i Hi).
      assert (He : In (nth i edges noedge) edges) by (apply nth_In; auto).
      unfold amp, hj. rewrite (nth_indep _ None (lname p noedge)) by (rewrite map_length; auto). rewrite map_nth.
      rewrite (system_nodes y Hy). fold s.
      assert (Hw : forall e, In e edges -> (src e = 0 \/ In (src e) (sys_nodes s)) /\ (dst e = 0 \/ In (dst e) (sys_nodes s))) by (rewrite y_edges; apply (wcs_ends s HD)).
      rewrite (branch_flux_diff (sys_nodes s) edges phi (nodes_NoDup (sys_nodes s) s HD eq_refl) Hw P0 i (nth i edges noedge)) by (apply nth_error_nth'; auto).
      destruct (lname p (nth i edges noedge)); [|ring]. rewrite HB by discriminate. auto.
    Qed.
  End Letter.
  Lemma signed_rev e : src e <> dst e -> signed_bias (ss_red y) ph (rev_edge e) = (- signed_bias (ss_red y) ph e)%R.
  Proof.
    intros Hs. unfold signed_bias. assert (Er : (dst e, src e, ekey e) = rev_edge e) by (destruct e as [[? ?] ?]; auto). assert (Er2 : (dst (rev_edge e), src (rev_edge e), ekey (rev_edge e)) = e) by (destruct e as [[? ?] ?]; auto).
    rewrite Er, Er2. destruct (dget (ss_red y) e) as [l|] eqn:E1, (dget (ss_red y) (rev_edge e)) as [l'|] eqn:E2; try ring.
    exfalso. assert (I1 : In e edges) by (apply keys_edges; congruence). assert (I2 : In (rev_edge e) edges) by (apply keys_edges; congruence). rewrite y_edges in I1, I2.
    assert (E := wcs_unique s (rev_edge e) e HD I2 I1 (norm_rev e)). apply rev_self in E. auto.
  Qed.
  Definition jbias (i : nat) : list string := nth i (map (fun e => match lname "I" e, dget (ss_red y) e with Some _, Some l => l | _, _ => [] end) edges) [].
  Lemma jbias_signed i : i < List.length edges -> lname "I" (nth i edges noedge) <> None -> SymHam.total ph (jbias i) = signed_bias (ss_red y) ph (nth i edges noedge).
  Proof.
    intros Hi Hn. unfold jbias. set (fb := fun e => match lname "I" e, dget (ss_red y) e with Some _, Some l => l | _, _ => [] end).
    rewrite (nth_indep (map fb edges) [] (fb noedge)) by (rewrite map_length; auto). rewrite map_nth, total_Rsum. unfold fb, signed_bias.
    assert (He : In (nth i edges noedge) edges) by (apply nth_In; auto). apply keys_edges in He. destruct (lname "I" (nth i edges noedge)); [|congruence]. destruct (dget (ss_red y) (nth i edges noedge)); [auto|congruence].
  Qed.
  Definition jrest : R := rest "I" (signed_bias (ss_red y) ph).
  Theorem classical_energy phi : phi 0 = 0%R -> getClassicalJosephsonEnergies y val ph phi = Ok (junction_energy val ph (ss_red y) (c_graph s) phi + jrest)%R.
  Proof.
    intros P0. unfold getClassicalJosephsonEnergies, getJosephsonVector. fold s edges. rewrite vector_ok. cbn [bind]. rewrite bias_ok. cbn [bind]. f_equal.
    rewrite fold_seq_Rsum. etransitivity; [exact (edge_sum "I" (signed_bias (ss_red y) ph) _ (fun i => SymHam.total ph (jbias i)) phi P0 eq_refl jbias_signed)|].
    apply (letter_energy "I" (signed_bias (ss_red y) ph)); [discriminate|apply signed_rev].
  Qed.
End Josephson.
