(** The displacement operator terms of the symbolic Hamiltonian. *)
From Coq Require Import List Bool String Ascii Arith ZArith Reals Permutation Lra Lia.
From Coquelicot Require Import Complex.
From Verif Require Import Prelude PreludeFacts Mat MatFacts Graph GraphSpec GraphView GraphForest GraphWf GraphCircuit GraphState GraphMaps GraphOps GraphProofs Sweep Symbolic SymbolicSpec RSum SymbolicInv SymbolicCap SymbolicCap2 SymbolicFlux SymbolicNew NumOp NumOpSpec NumSpectral NumHerm NumPot SymHam SymHamSpec SymHamProofs.
Import ListNotations.
Open Scope string_scope.
Open Scope list_scope.
Open Scope nat_scope.

Lemma flat_map_nil {A B} (f : A -> list B) l : (forall x, In x l -> f x = []) -> flat_map f l = [].
Proof. induction l as [|x l IH]; intros H; auto. cbn. rewrite H by (left; auto). apply IH. intros; apply H; right; auto. Qed.
Lemma fold_map_Rsum {A} (f : A -> R) l : fold_right (fun x r => (f x + r)%R) 0%R l = Rsum (map f l).
Proof. induction l as [|x l IH]; auto. cbn [fold_right map]. rewrite IH. auto. Qed.
Section Terms.
  Variables (nodes : list nat) (edges : list edge) (Ri : nat -> nat -> R).
  Notation n := (List.length nodes).
  Lemma coef_flux th i : Rsum (map (fun k => coef nodes edges Ri i k * th k)%R (seq 0 n)) = branch_flux nodes edges (times n Ri th) i.
  Proof.
    unfold coef, branch_flux, times. rewrite (sumn_Rsum n (fun i0 => IZR (rbn nodes edges i0 i) * sumn (A := R_rng) n (fun k => Ri i0 k * th k))%R).
    transitivity (Rsum (map (fun k => Rsum (map (fun l => IZR (rbn nodes edges l i) * Ri l k * th k)%R (seq 0 n))) (seq 0 n))).
    - apply Rsum_ext. intros k _. rewrite sumn_Rsum. rewrite Rmult_comm, <- Rsum_map_mul. apply Rsum_ext. intros; ring.
    - rewrite Rsum_swap. apply Rsum_ext. intros l _. rewrite sumn_Rsum, <- Rsum_map_mul. apply Rsum_ext. intros; ring.
  Qed.
  Variables (kap th : nat -> R).
  Definition signs i := forall k, k < n -> coef nodes edges Ri i k = 0%R \/ Rabs (coef nodes edges Ri i k) = kap k.
  Lemma pterms_sum i : signs i -> tsum (pterms nodes edges Ri i) (fun k => kap k * th k)%R = branch_flux nodes edges (times n Ri th) i.
  Proof.
    intros Hs. rewrite <- coef_flux. unfold tsum. change (Rsum (map (fun t => sgn t (fun k => kap k * th k)%R) (pterms nodes edges Ri i)) = Rsum (map (fun k => coef nodes edges Ri i k * th k)%R (seq 0 n))).
    unfold pterms. rewrite Rsum_flat_map. apply Rsum_ext. intros k Hk. apply in_seq in Hk. destruct (Req_EM_T _ 0) as [E|E]; rs; [rewrite E; ring|].
    destruct (Hs k) as [F|F]; [lia|congruence|]. unfold sgn. cbn [fst snd]. rewrite <- F. destruct (Rlt_dec 0 _) as [G|G]; [rewrite Rabs_right by lra|rewrite Rabs_left by lra]; ring.
  Qed.
  Lemma cprod_cis l : cprod (map (fun a : nat * bool => if snd a then cis (kap (fst a) * th (fst a)) else cis (- (kap (fst a) * th (fst a)))) l) = cis (tsum l (fun k => kap k * th k)%R)
    /\ cprod (map (fun a : nat * bool => if snd a then cis (- (kap (fst a) * th (fst a))) else cis (kap (fst a) * th (fst a))) l) = cis (- tsum l (fun k => kap k * th k)%R).
  Proof.
    induction l as [|[k b] l [IH1 IH2]]; [unfold tsum; cbn; rewrite Ropp_0, cis_0; auto|]. cbn [map cprod fold_right fst snd]. fold cprod. unfold cprod in IH1, IH2. rewrite IH1, IH2.
    unfold tsum. cbn [map fold_right]. fold (tsum l (fun k => kap k * th k)%R). rewrite Ropp_plus_distr, !cis_add. unfold sgn. cbn [fst snd]. destruct b; rewrite ?Ropp_involutive; auto.
  Qed.
End Terms.
Section Invertible.
  Variables (nodes : list nat) (edges : list edge) (Ri Rm : nat -> nat -> R).
  Notation n := (List.length nodes).
  Hypothesis Hinv : inverses n Rm Ri.
  Hypothesis Hn0 : ~ In 0 nodes.
  Lemma pterms_nil i : pterms nodes edges Ri i = [] <-> forall k, k < n -> coef nodes edges Ri i k = 0%R.
  Proof.
    unfold pterms. split.
    - intros H k Hk. destruct (Req_EM_T (coef nodes edges Ri i k) 0) as [E|E]; auto. exfalso.
      assert (Hi : In (k, if Rlt_dec 0 (coef nodes edges Ri i k) then true else false) []).
      { rewrite <- H. apply in_flat_map. exists k. split; [apply in_seq; lia|]. destruct (Req_EM_T _ 0); [congruence|left; auto]. }
      destruct Hi.
    - intros H. apply flat_map_nil. intros k Hk. apply in_seq in Hk. rewrite (H k) by lia. destruct (Req_EM_T 0 0); congruence.
  Qed.
  Lemma coef_0 i : (forall k, k < n -> coef nodes edges Ri i k = 0%R) <-> forall k, k < n -> rbn nodes edges k i = 0%Z.
  Proof.
    split; intros H.
    - intros k Hk. apply eq_IZR. transitivity (Rsum (map (fun p => coef nodes edges Ri i p * Rm p k)%R (seq 0 n))).
      + unfold coef. transitivity (Rsum (map (fun p => Rsum (map (fun l => IZR (rbn nodes edges l i) * Ri l p * Rm p k)%R (seq 0 n))) (seq 0 n))).
        * rewrite Rsum_swap. rewrite (Rsum_single _ k); [|apply seq_NoDup|apply in_seq; lia|].
          { symmetry. rewrite (Rsum_ext _ (fun p => IZR (rbn nodes edges k i) * (Ri k p * Rm p k))%R) by (intros; ring). rewrite Rsum_map_mul, <- sumn_Rsum. destruct (Hinv k k Hk Hk) as [_ E]. rewrite E, Nat.eqb_refl. ring. }
          intros l Hl Hne. apply in_seq in Hl. rewrite (Rsum_ext _ (fun p => IZR (rbn nodes edges l i) * (Ri l p * Rm p k))%R) by (intros; ring). rewrite Rsum_map_mul, <- sumn_Rsum.
          destruct (Hinv l k ltac:(lia) Hk) as [_ E]. rewrite E. destruct (Nat.eqb_spec l k); [congruence|ring].
        * apply Rsum_ext. intros p _. rewrite sumn_Rsum, Rmult_comm, <- Rsum_map_mul. apply Rsum_ext. intros; ring.
      + apply Rsum_map_0. intros p Hp. apply in_seq in Hp. rewrite H by lia. ring.
    - intros k Hk. unfold coef. rewrite sumn_Rsum. apply Rsum_map_0. intros l Hl. apply in_seq in Hl. rewrite H by lia. ring.
  Qed.
  Lemma rbn_0 i e : nth_error edges i = Some e -> (src e = 0 \/ In (src e) nodes) -> (dst e = 0 \/ In (dst e) nodes) -> ((forall k, k < n -> rbn nodes edges k i = 0%Z) <-> src e = dst e).
  Proof.
    intros He Hs Hd. split; intros H.
    - destruct (Nat.eq_dec (src e) (dst e)) as [E|E]; auto. exfalso.
      assert (Hp : exists a, In a nodes /\ (a = src e \/ a = dst e)) by (destruct Hs as [Hs|Hs], Hd as [Hd|Hd]; [congruence|eauto|eauto|eauto]).
      destruct Hp as (a & Ha & Hae). apply In_nth_error in Ha as (k & Hk). assert (Hkn : k < n) by (apply nth_error_Some; congruence). specialize (H k Hkn). unfold rbn in H. rewrite Hk, He in H.
      destruct (Nat.eqb_spec (src e) (dst e)); [congruence|]. destruct (Nat.eqb_spec (src e) a); [discriminate|]. destruct (Nat.eqb_spec (dst e) a); [discriminate|]. destruct Hae; congruence.
    - intros k _. unfold rbn. rewrite He. destruct (nth_error nodes k); auto. destruct (Nat.eqb_spec (src e) (dst e)); [auto|congruence].
  Qed.
End Invertible.
Section Fold.
  Variables (argord : list (nat * bool) -> list (nat * bool)) (y : ssys) (Ri : nat -> nat -> R) (v : list (option string)) (B : nat -> list (Z * string)).
  Hypothesis Hperm : forall l, Permutation (argord l) l.
  Let ts i := argord (pterms (ss_nodes y) (ss_edges y) Ri i).
  Definition qt i := match nth i v None with Some c => [mkq c (B i) (ts i)] | None => [] end.
  Lemma ts_nil i : ts i = [] <-> pterms (ss_nodes y) (ss_edges y) Ri i = [].
  Proof. unfold ts. split; intros H; [|rewrite H]; [apply Permutation_nil; rewrite <- H; auto|]. apply Permutation_nil. symmetry. apply Hperm. Qed.
  Lemma qterms_ok : (forall i, i < List.length (ss_edges y) -> nth i v None <> None -> pterms (ss_nodes y) (ss_edges y) Ri i <> []) ->
    quantum_terms argord y Ri v B = Ok (flat_map qt (seq 0 (List.length (ss_edges y)))).
  Proof.
    intros H. unfold quantum_terms.
    match goal with |- foldM ?F _ _ = _ => enough (G : forall l acc, (forall i, In i l -> i < List.length (ss_edges y)) -> foldM F l acc = Ok (acc ++ flat_map qt l)) end.
    { rewrite G; auto. intros i Hi. apply in_seq in Hi. lia. }
    induction l as [|i l IH]; intros acc Hl; cbn [foldM flat_map]; [rewrite app_nil_r; auto|].
    assert (Hi := Hl i (or_introl eq_refl)). specialize (H i Hi). unfold qt at 1. destruct (nth i v None) as [c|]; [|cbn [bind]; rewrite IH by (intros; apply Hl; right; auto); auto].
    specialize (H ltac:(discriminate)). rewrite <- ts_nil in H. fold (ts i). destruct (ts i) as [|t r]; [congruence|]. cbn [bind]. rewrite IH by (intros; apply Hl; right; auto). rewrite <- app_assoc. auto.
  Qed.
  Lemma qterms_err i : i < List.length (ss_edges y) -> nth i v None <> None -> pterms (ss_nodes y) (ss_edges y) Ri i = [] -> quantum_terms argord y Ri v B = Err IndexError.
  Proof.
    intros Hi Hv Hp. apply ts_nil in Hp. unfold quantum_terms.
    match goal with |- foldM ?F _ _ = _ => enough (G : forall l acc, In i l -> foldM F l acc = Err IndexError) end.
    { apply G. apply in_seq. lia. }
    induction l as [|j l IH]; intros acc Hl; [destruct Hl|]. cbn [foldM]. destruct Hl as [->|Hl].
    - destruct (nth i v None); [|congruence]. fold (ts i). rewrite Hp. auto.
    - destruct (nth j v None); [|cbn [bind]; auto]. fold (ts j). destruct (ts j); cbn [bind]; auto.
  Qed.
  Lemma qval_flat val ph X Xd l : qval val ph X Xd (flat_map qt l) = fold_right (fun i r => (match nth i v None with Some c => qterm_val val ph X Xd (mkq c (B i) (ts i)) | None => RtoC 0 end + r)%C) (RtoC 0) l.
  Proof.
    induction l as [|i l IH]; auto. cbn [flat_map fold_right]. rewrite <- IH. unfold qt at 1. destruct (nth i v None); cbn [app]; [auto|]. rewrite Cplus_0_l. auto.
  Qed.
  Lemma qterms_val val ph (kap th : nat -> R) : (forall i, i < List.length (ss_edges y) -> nth i v None <> None -> signs (ss_nodes y) (ss_edges y) Ri kap i) ->
    qval val ph (fun k => cis (kap k * th k)) (fun k => cis (- (kap k * th k))) (flat_map qt (seq 0 (List.length (ss_edges y)))) =
    RtoC (Rsum (map (fun i => - amp val v i * cos (branch_flux (ss_nodes y) (ss_edges y) (times (List.length (ss_nodes y)) Ri th) i + bias_val ph (B i)))%R (seq 0 (List.length (ss_edges y))))).
  Proof.
    intros H. rewrite qval_flat. assert (Hl : forall i, In i (seq 0 (List.length (ss_edges y))) -> i < List.length (ss_edges y)) by (intros i Hi; apply in_seq in Hi; lia). revert Hl.
    generalize (seq 0 (List.length (ss_edges y))). induction l as [|i l IH]; intros Hl; [auto|]. cbn [fold_right]. rewrite IH by (intros; apply Hl; right; auto). rs. rewrite RtoC_plus. f_equal.
    specialize (H i (Hl i (or_introl eq_refl))). unfold amp. destruct (nth i v None) as [c|] eqn:E; [|rewrite Ropp_0, Rmult_0_l; auto]. specialize (H ltac:(discriminate)).
    unfold qterm_val. cbn [q_amp q_bias q_args].
    rewrite (proj1 (cprod_cis kap th (ts i))), (proj2 (cprod_cis kap th (ts i))), <- !cis_add.
    assert (T : tsum (ts i) (fun k => kap k * th k)%R = branch_flux (ss_nodes y) (ss_edges y) (times (List.length (ss_nodes y)) Ri th) i) by (unfold ts; rewrite (tsum_perm _ _ _ (Hperm _)); apply pterms_sum; auto).
    rewrite T. set (b := bias_val ph (B i)). set (f := branch_flux _ _ _ _). rewrite <- Ropp_plus_distr, cis_sum, <- RtoC_mult. f_equal. rewrite (Rplus_comm f b). field.
  Qed.
End Fold.
Section Quantum.
  Variable y : ssys.
  Hypothesis Hy : system y.
  Variable argord : list (nat * bool) -> list (nat * bool).
  Hypothesis Hperm : forall l, Permutation (argord l) l.
  Variables Rm Ri : nat -> nat -> R.
  Hypothesis Hinv : inverses (List.length (ss_nodes y)) Rm Ri.
  Let HI : moves_inv y := system_inv y Hy.
  Let HD : Derived (ss_cg y) := circuit_derived (ss_cg y) (m_circ y HI).
  Lemma node_0 : ~ In 0 (ss_nodes y).
  Proof. rewrite (system_nodes y Hy). apply (nodes0 (ss_cg y) HD). Qed.
  Lemma edge_ends e : In e (ss_edges y) -> (src e = 0 \/ In (src e) (ss_nodes y)) /\ (dst e = 0 \/ In (dst e) (ss_nodes y)).
  Proof. rewrite (y_edges y Hy), (system_nodes y Hy). apply (wcs_ends (ss_cg y) HD). Qed.
  Lemma nil_iff i e : nth_error (ss_edges y) i = Some e -> (pterms (ss_nodes y) (ss_edges y) Ri i = [] <-> src e = dst e).
  Proof.
    intros He. destruct (edge_ends e (nth_error_In _ _ He)) as [Hs Hd]. rewrite pterms_nil, (coef_0 (ss_nodes y) (ss_edges y) Ri Rm Hinv). apply rbn_0; auto. 
  Qed.
  Lemma name_some p i : i < List.length (ss_edges y) -> nth i (map (lname y p) (ss_edges y)) None = lname y p (nth i (ss_edges y) noedge).
  Proof. intros Hi. rewrite (nth_indep _ None (lname y p noedge)) by (rewrite map_length; auto). apply map_nth. Qed.
  Lemma lname_carries p e : lname y p e <> None <-> exists c, carries (c_graph (ss_cg y)) e c /\ starts p c = true.
  Proof.
    unfold lname. split.
    - destruct (dget (c_map (ss_cg y)) e) as [c|] eqn:E; [|congruence]. destruct (starts p c) eqn:S; [|congruence]. intros _. exists c. split; auto. apply (map_get _ HD); auto.
    - intros (c & Hc & S). apply (map_get _ HD) in Hc. rewrite Hc, S. discriminate.
  Qed.
  Lemma terms_dec p B : (~ (exists e c, In e (ss_edges y) /\ carries (c_graph (ss_cg y)) e c /\ starts p c = true /\ src e = dst e) ->
      quantum_terms argord y Ri (map (lname y p) (ss_edges y)) B = Ok (flat_map (qt argord y Ri (map (lname y p) (ss_edges y)) B) (seq 0 (List.length (ss_edges y)))))
    /\ ((exists e c, In e (ss_edges y) /\ carries (c_graph (ss_cg y)) e c /\ starts p c = true /\ src e = dst e) -> quantum_terms argord y Ri (map (lname y p) (ss_edges y)) B = Err IndexError).
  Proof.
    split.
    - intros H. apply qterms_ok; auto. intros i Hi Hn Hp. apply H. rewrite name_some in Hn by auto. apply lname_carries in Hn as (c & Hc & S). exists (nth i (ss_edges y) noedge), c. split; [apply nth_In; auto|]. split; auto. split; auto.
      apply (nil_iff i); auto. apply nth_error_nth'; auto.
    - intros (e & c & He & Hc & S & E). apply In_nth_error in He as (i & Hi). assert (Hl : i < List.length (ss_edges y)) by (apply nth_error_Some; congruence).
      apply (qterms_err argord y Ri _ B Hperm i); auto.
      + rewrite name_some by auto. rewrite (nth_error_nth _ _ _ Hi). apply lname_carries. eauto.
      + apply (nil_iff i e); auto.
  Qed.
  Lemma quantum_def : getQuantumJosephsonEnergies argord y Ri = quantum_terms argord y Ri (map (lname y "I") (ss_edges y)) (fun i => map (fun x => (1%Z, x)) (nth i (map (fun e => match lname y "I" e, dget (ss_red y) e with Some _, Some l => l | _, _ => [] end) (ss_edges y)) [])).
  Proof. unfold getQuantumJosephsonEnergies, getJosephsonVector. rewrite (vector_ok y Hy). cbn [bind]. rewrite (bias_ok y Hy). auto. Qed.
  Lemma slip_def : getQuantumPhaseSlipEnergies argord y Ri = quantum_terms argord y Ri (map (lname y "V") (ss_edges y)) (slip_bias y).
  Proof. unfold getQuantumPhaseSlipEnergies, getPhaseSlipVector. rewrite (vector_ok y Hy). auto. Qed.
  Lemma bias_one ph l : bias_val ph (map (fun x => (1%Z, x)) l) = SymHam.total ph l.
  Proof. unfold SymHam.total, bias_val. induction l as [|x l IH]; auto. cbn [map fold_right fst snd]. rewrite IH. ring. Qed.
  Variables (kap th : nat -> R) (phi : nat -> R).
  Hypothesis Hphi0 : phi 0 = 0%R.
  Hypothesis Hphi : forall k, k < List.length (ss_nodes y) -> phi (nth k (ss_nodes y) 0) = times (List.length (ss_nodes y)) Ri th k.
  Lemma letter_terms p sb B val ph l : p <> "C"%char -> (forall e, src e <> dst e -> sb (rev_edge e) = (- sb e)%R) ->
    (forall i, i < List.length (ss_edges y) -> lname y p (nth i (ss_edges y) noedge) <> None -> bias_val ph (B i) = sb (nth i (ss_edges y) noedge)) ->
    (forall i, i < List.length (ss_edges y) -> lname y p (nth i (ss_edges y) noedge) <> None -> signs (ss_nodes y) (ss_edges y) Ri kap i) ->
    quantum_terms argord y Ri (map (lname y p) (ss_edges y)) B = Ok l ->
    qval val ph (fun k => cis (kap k * th k)) (fun k => cis (- (kap k * th k))) l =
    RtoC (Rsum (map (fun b => - val (snd b) * cos (phi (src (fst b)) - phi (dst (fst b)) + sb (fst b))) (branches_of p (c_graph (ss_cg y)))) + rest y val p sb)%R.
  Proof.
    intros Hp Hsb HB Hs Hl. destruct (terms_dec p B) as [T1 T2].
    assert (E : l = flat_map (qt argord y Ri (map (lname y p) (ss_edges y)) B) (seq 0 (List.length (ss_edges y)))).
    { rewrite T1 in Hl; [congruence|]. intros Hex. rewrite (T2 Hex) in Hl. discriminate Hl. }
    rewrite E. clear T1 T2 Hl E l. rewrite qterms_val; auto.
    2: { intros i Hi Hn. apply Hs; auto. rewrite <- name_some; auto. }
    f_equal. rewrite <- (letter_energy y Hy val p sb Hp Hsb phi). rewrite <- (edge_sum y Hy val p sb _ (fun i => bias_val ph (B i)) phi Hphi0 eq_refl HB).
    apply Rsum_ext. intros i _. f_equal. f_equal. f_equal. unfold branch_flux. apply (@sumn_ext R_rng). intros k Hk. rewrite Hphi by auto. auto.
  Qed.
  Theorem junction_terms val ph l : getQuantumJosephsonEnergies argord y Ri = Ok l ->
    (forall i, i < List.length (ss_edges y) -> lname y "I" (nth i (ss_edges y) noedge) <> None -> signs (ss_nodes y) (ss_edges y) Ri kap i) ->
    qval val ph (fun k => expi (kap k * th k)) (fun k => expi (- (kap k * th k))) l = RtoC (junction_energy val ph (ss_red y) (c_graph (ss_cg y)) phi + jrest y val ph)%R.
  Proof.
    intros Hl Hs. rewrite quantum_def in Hl. refine (letter_terms "I" (signed_bias (ss_red y) ph) _ val ph l _ _ _ Hs Hl).
    - discriminate.
    - intros; apply (signed_rev y Hy); auto.
    - intros i Hi Hn. cbv beta. rewrite bias_one. apply (jbias_signed y Hy); auto.
  Qed.
  Definition slip_signed (ph : string -> R) (e : edge) : R := (charge_offset (ss_charge y) ph (src e) - charge_offset (ss_charge y) ph (dst e))%R.
  Lemma slip_bias_val ph i : i < List.length (ss_edges y) -> bias_val ph (slip_bias y i) = slip_signed ph (nth i (ss_edges y) noedge).
  Proof.
    intros Hi. unfold slip_signed. assert (Hn := nodes_NoDup (ss_nodes y) (ss_cg y) HD (system_nodes y Hy)).
    rewrite <- (branch_flux_diff (ss_nodes y) (ss_edges y) (charge_offset (ss_charge y) ph) Hn edge_ends eq_refl i) by (apply nth_error_nth'; auto).
    unfold branch_flux. rewrite sumn_Rsum. unfold slip_bias, bias_val. change (fold_right (fun (x : Z * string) r => (IZR (fst x) * ph (snd x) + r)%R) 0%R) with (fun l => fold_right (fun (x : Z * string) r => (IZR (fst x) * ph (snd x) + r)%R) 0%R l).
    cbv beta. rewrite (fold_map_Rsum (fun x : Z * string => IZR (fst x) * ph (snd x))%R), Rsum_flat_map. apply Rsum_ext. intros k Hk. apply in_seq in Hk.
    assert (Hne : nth k (ss_nodes y) 0 <> 0) by (intros E; apply node_0; rewrite <- E; apply nth_In; lia). unfold charge_offset. destruct (nth k (ss_nodes y) 0) as [|m]; [congruence|].
    destruct (dget (ss_charge y) (S m)) as [[x|]|]; rs; ring.
  Qed.
  Theorem slip_terms val ph l : getQuantumPhaseSlipEnergies argord y Ri = Ok l ->
    (forall i, i < List.length (ss_edges y) -> lname y "V" (nth i (ss_edges y) noedge) <> None -> signs (ss_nodes y) (ss_edges y) Ri kap i) ->
    qval val ph (fun k => expi (kap k * th k)) (fun k => expi (- (kap k * th k))) l = RtoC (slip_energy val ph (ss_charge y) (c_graph (ss_cg y)) phi + rest y val "V" (slip_signed ph))%R.
  Proof.
    intros Hl Hs. rewrite slip_def in Hl. transitivity (RtoC (Rsum (map (fun b => - val (snd b) * cos (phi (src (fst b)) - phi (dst (fst b)) + slip_signed ph (fst b))) (branches_of "V" (c_graph (ss_cg y)))) + rest y val "V" (slip_signed ph))%R).
    - refine (letter_terms "V" (slip_signed ph) _ val ph l _ _ _ Hs Hl).
      + discriminate.
      + intros e _. unfold slip_signed. rewrite src_rev, dst_rev. ring.
      + intros i Hi _. apply slip_bias_val; auto.
    - f_equal. f_equal. unfold slip_energy. apply Rsum_ext. intros b _. f_equal. f_equal. unfold slip_signed. ring.
  Qed.
End Quantum.
