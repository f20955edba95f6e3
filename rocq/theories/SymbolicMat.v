(** The parameterised capacitance matrix (C78) and coordinate modes of a
    constructed system (C51). *)
From Coq Require Import List Bool String Ascii Arith ZArith Reals Permutation Lia Lra.
From Verif Require Import Prelude PreludeFacts Float Param Expr Coll CollGraph CollSpec CollProofs Mat MatFacts Graph GraphSpec GraphView GraphForest GraphWf GraphCircuit GraphState GraphMaps GraphOps GraphProofs Symbolic SymbolicSpec RSum SymbolicInv SymbolicCap SymbolicCap2 SymbolicFlux SymbolicParam SymbolicInit SymbolicNew.
Import ListNotations.
Open Scope string_scope.
Open Scope list_scope.
Open Scope nat_scope.

Lemma remove1_length n l : In n l -> S (List.length (remove1 n l)) = List.length l.
Proof.
  induction l as [|x l IH]; cbn; [easy|]. intros H. destruct (Nat.eqb_spec n x) as [->|N]; auto. destruct H as [->|H]; [easy|]. cbn. rewrite <- IH; auto.
Qed.
Lemma sys_nodes_length s : In 0 (g_nodes (c_graph s)) -> S (List.length (sys_nodes s)) = List.length (g_nodes (c_graph s)).
Proof. apply remove1_length. Qed.
Lemma unnumbered_free s p sfx : In 0 (g_nodes (c_graph s)) -> unnumbered s p sfx -> forall c i j, In c (element_names s) -> i <= j < List.length (sys_nodes s) -> c <> mat_name p sfx i j.
Proof. intros Hg Hu c i j Hc Hij. apply Hu; auto; [lia|]. assert (H := sys_nodes_length s Hg). lia. Qed.
Lemma branch_element s a b : In b (branches_of a (c_graph s)) -> In (snd b) (element_names s).
Proof. intros H. unfold branches_of in H. apply filter_In in H as [H _]. unfold element_names, component_names. apply in_or_app. left. apply in_map; auto. Qed.
Lemma unnumbered_matrix s : In 0 (g_nodes (c_graph s)) -> unnumbered s "L" "i" -> free_matrix_names s.
Proof. intros Hg Hu b i j Hb Hij. apply (unnumbered_free s "L" "i" Hg Hu); auto. eapply branch_element; eauto. Qed.
Lemma registered_element s c : Derived s -> In c (registered_names s) -> In c (element_names s).
Proof.
  intros HD. unfold registered_names, element_names. rewrite !in_app_iff. intros [H|[H|[H|H]]]; auto.
  - left. eapply Permutation_in in H; [|apply edge_map_vals, HD]. auto.
Qed.

(** ** entries of the capacitance matrix *)
Lemma no_res_params s : has_resonators s = false -> forall c, param s c = Ok c -> In c (registered_names s).
Proof.
  intros H c. unfold param. destruct (mem c (param_names s)) eqn:E; [|discriminate]. intros _. apply mem_In in E. unfold param_names in E. apply in_app_or in E as [E|E]; auto. exfalso.
  apply in_flat_map in E as (r & Hr & Hc). destruct r as [r|]; [|easy]. assert (X : has_resonators s = true) by (apply existsb_exists; exists (Some r); auto). congruence.
Qed.
Definition cap_terms (s : cg) (M : mat) : Prop := forall i j t z, In (t, z) (M i j) -> exists c, t = TmC c /\ starts "C" c = true /\ In c (registered_names s).
Lemma cap_terms_add s M i j c z : cap_terms s M -> starts "C" c = true -> In c (registered_names s) -> cap_terms s (add_at M i j (TmC c) z).
Proof.
  intros HM H1 H2 i' j' t z'. unfold add_at. destruct (Nat.eqb i i' && Nat.eqb j j'); [|apply HM]. intros H. apply ladd_terms in H as [H|([t' z''] & Hy & E)]; cbn [fst] in *; [subst t; eauto|]. subst t'. eapply HM; eauto.
Qed.
Lemma cap_terms_ok s M : Inv2 s -> has_resonators s = false -> capacitance_matrix s = Ok M -> cap_terms s M.
Proof.
  intros HI Hr. unfold capacitance_matrix.
  assert (P : forall c c', param s c = Ok c' -> c' = c /\ In c (registered_names s)).
  { intros c c' H. assert (c' = c) by (unfold param in H; destruct (mem _ _); congruence). subst. split; auto. apply no_res_params; auto. }
  destruct (foldM (cap_diag s) (enumerate (sys_nodes s)) mat0) as [M1|] eqn:E1; [|discriminate]. cbn [bind].
  assert (H1 : cap_terms s M1).
  { revert E1. apply foldM_inv; [|easy]. intros M0 [i node] M' _ H0. unfold cap_diag.
    match goal with |- context[bind (foldM ?f ?l M0) _] => destruct (foldM f l M0) as [Ma|] eqn:Ea; [|discriminate] end. cbn [bind].
    assert (Ha : cap_terms s Ma).
    { revert Ea. apply foldM_inv; auto. intros Mx e My _ Hx. destruct (component_of s e) as [c|]; [|discriminate]. cbn [bind]. unfold letter_is. destruct c as [|a c]; [discriminate|]. cbn [bind].
      destruct (starts "C" (String a c)) eqn:Es; [|intros [= <-]; auto]. destruct (param s (String a c)) as [c'|] eqn:Ep; [|discriminate]. cbn [bind]. intros [= <-]. apply P in Ep as [-> Ep]. apply cap_terms_add; auto. }
    match goal with |- context[bind ?q _] => destruct q as [Mb|] eqn:Eb; [|discriminate] end. cbn [bind].
    assert (Hb : cap_terms s Mb).
    { destruct (dget (c_cbias s) node) as [b|] eqn:Ec; [|injection Eb as <-; auto]. destruct (cb_cap b) as [c|] eqn:Eg; [|injection Eb as <-; auto].
      destruct (param s c) as [c'|] eqn:Ep; [|discriminate]. cbn [bind] in Eb. injection Eb as <-. apply P in Ep as [-> Ep]. apply cap_terms_add; auto. apply (j_gate s HI b); auto. apply dget_In in Ec. apply (in_map snd) in Ec. auto. }
    destruct (dget (c_res s) node) as [[r|]|] eqn:Er; [|intros [= <-]; auto|discriminate]. exfalso.
    assert (X : has_resonators s = true); [|congruence]. apply existsb_exists. exists (Some r). split; auto. apply dget_In in Er. apply (in_map snd) in Er. auto. }
  apply foldM_inv; auto. intros M0 e M' _ H0. unfold cap_off. destruct (component_of s e) as [c|]; [|discriminate]. cbn [bind]. unfold letter_is. destruct c as [|a c]; [discriminate|]. cbn [bind].
  destruct (starts "C" (String a c)) eqn:Es; [|intros [= <-]; auto]. destruct (_ || _); [intros [= <-]; auto|]. destruct (index_of _ _) as [i|]; [|discriminate]. cbn [bind]. destruct (index_of _ _) as [j|]; [|discriminate]. cbn [bind].
  destruct (param s (String a c)) as [c'|] eqn:Ep; [|discriminate]. cbn [bind]. intros [= <-]. apply P in Ep as [-> Ep]. apply cap_terms_add; auto. apply cap_terms_add; auto.
Qed.
Lemma rval_term v t : rval v (term_tree t) = tval (fun c => v (sym_of c)) t.
Proof. destruct t; cbn [term_tree rval tval]; auto. Qed.
Lemma lin_tree_val v l : entry_val v (lin_tree l) = lval (fun c => v (sym_of c)) l.
Proof.
  induction l as [|[t z] l IH]; [reflexivity|]. cbn [lin_tree entry_val lval fold_right fst snd]. change (fold_right _ 0%R l) with (lval (fun c => v (sym_of c)) l). rewrite <- IH.
  destruct (lin_tree l) as [e|]; cbn [rval entry_val]; rewrite rval_term; ring.
Qed.

(** Circuits for which the constructor is known to succeed. *)
Record regular (s : cg) : Prop := {
  g_circuit : circuit s;
  g_covered : covered s;
  g_ground : In 0 (g_nodes (c_graph s));
  g_plain : plain s;
  g_bias : forall e, In e (dkeys (c_fbias s)) -> In e (wcs s);
  g_free : unnumbered s "L" "i"
}.
Lemma regular_init ord oracle s : good_ord ord -> regular s -> exists y, new_system ord oracle s = Some (Ok y) /\ ss_cg y = s /\ ss_nodes y = sys_nodes s /\
  exists M, ready (mat_name "L" "i") (List.length (sys_nodes s)) (fun i j => lin_tree (linv_diag (sys_nodes s) (wcs s) M i j)) (fun c => starts "L" c = true) (fun _ => False) (registered_names s) (ss_par y).
Proof.
  intros Ho [H1 H2 H3 H4 H5 H6]. assert (HD := circuit_derived s H1). destruct (plain_ready s HD H4) as (R1 & R2 & R3).
  destruct (init_ok ord oracle s) as (y & Hy & E1 & E2 & M & _ & _ & _ & Hr); eauto.
  - apply H4.
  - intros b Hq. apply (p_mut s H4); auto.
  - intros b Hq. apply (p_cb s H4); auto.
  - apply unnumbered_matrix; auto.
  - exists y. split; auto. split; [|eauto]. assert (Hy' := Hy). unfold new_system in Hy'. rewrite (proj2 (mem_In _ _) H3), (wcs_wc s HD), R1 in Hy'. cbn [negb] in Hy'. cbv zeta in Hy'.
    revert Hy'. repeat (match goal with |- context[bind ?x _] => destruct x; [|discriminate]; cbn [bind] end). intros [= <-]. auto.
Qed.
(** Any values of the components extend to consistent values of the symbols. *)
Lemma rval_ext v v' e : (forall sy, In sy (tfree e) -> v sy = v' sy) -> rval v e = rval v' e.
Proof.
  induction e as [z|x|a IHa b IHb|a IHa b IHb|a IHa]; cbn [rval tfree]; intros H; auto.
  - apply H. left; auto.
  - rewrite IHa, IHb; auto; intros sy Hs; apply H; apply dedup_In; apply in_or_app; auto.
  - rewrite IHa, IHb; auto; intros sy Hs; apply H; apply dedup_In; apply in_or_app; auto.
  - rewrite IHa; auto.
Qed.
Lemma find_sym (l : list string) c : c <> "" -> In c l -> find (fun k => String.eqb (sym_of k) (sym_of c)) l = Some c.
Proof.
  intros Hc. induction l as [|x l IH]; intros H; [easy|]. cbn [find]. destruct (String.eqb_spec (sym_of x) (sym_of c)) as [E|E].
  - symmetry in E. apply sym_of_inj in E; auto. congruence.
  - destruct H as [<-|H]; [easy|auto].
Qed.
Lemma find_sym_none (l : list string) c : c <> "" -> ~ In c l -> find (fun k => String.eqb (sym_of k) (sym_of c)) l = None.
Proof.
  intros Hc Hn. destruct (find _ l) as [x|] eqn:E; auto. apply find_some in E as [H1 H2]. apply String.eqb_eq in H2. symmetry in H2. apply sym_of_inj in H2; auto. subst. easy.
Qed.
Lemma consistent_exists name n M Q Old reg st (w : string -> R) : ready name n M Q Old reg st ->
  (forall k, generated name n k \/ Old k -> k <> "" /\ starts "p" k = false /\ ~ In k reg) -> (forall c, In c reg -> c <> "") ->
  exists v, consistent v st /\ forall c, In c reg -> v (sym_of c) = w c.
Proof.
  intros Hr Hk Hc. pose (ws sy := match find (fun c => String.eqb (sym_of c) sy) reg with Some c => w c | None => 0%R end).
  pose (v sy := match find (fun k => String.eqb (sym_of k) sy) (dkeys (c_par st)) with
                | Some k => match dget (c_par st) k with Some (e, _) => rval ws e | None => 0%R end
                | None => ws sy end).
  assert (Hw : forall c, In c reg -> ws (sym_of c) = w c) by (intros c H; unfold ws; rewrite find_sym; auto).
  assert (Hv : forall c, In c reg -> v (sym_of c) = w c).
  { intros c H. unfold v. rewrite find_sym_none; auto. intros Hin. apply dkeys_dget in Hin as ((e & names) & He). apply (r_exp _ _ _ _ _ _ _ Hr) in He as [He _]. apply Hk in He. tauto. }
  exists v. split; auto. intros k sy e names Hs He. assert (He' := He). apply (r_exp _ _ _ _ _ _ _ Hr) in He' as [Hg Hf]. apply Hk in Hg as (K1 & K2 & _).
  apply (r_sym _ _ _ _ _ _ _ Hr) in Hs as [-> |[_ Hs]]; [|congruence].
  unfold v at 1. rewrite find_sym; auto; [|eapply dget_Some_key; eauto]. rewrite He. apply rval_ext. intros sy Hsy. apply Hf in Hsy as (c & -> & Hcr). rewrite Hv, Hw; auto.
Qed.
Lemma cap_matrix_parameterised ord oracle s y : good_ord ord -> regular s -> unnumbered s "C" "" -> List.length (sys_nodes s) <= 111 -> new_system ord oracle s = Some (Ok y) ->
  exists M y' R, capacitance_matrix s = Ok M /\ getCapacitanceMatrix ord y = (y', Ok R) /\
  (forall c, In c (registered_names s) -> dget (c_par (ss_par y')) c = dget (c_par (ss_par y)) c /\ dget (c_coll (ss_par y')) c = dget (c_coll (ss_par y)) c) /\
  (forall v, consistent v (ss_par y') -> forall i j, i < List.length (sys_nodes s) -> j < List.length (sys_nodes s) -> entry_val v (R i j) = lval (fun c => v (sym_of c)) (M i j)) /\
  (forall w, exists v, consistent v (ss_par y') /\ forall c, In c (registered_names s) -> v (sym_of c) = w c).
Proof.
  intros Ho Hg Hu Hn Hy. destruct (regular_init ord oracle s Ho Hg) as (y0 & Hy0 & Ec & En & ML & Hr). rewrite Hy in Hy0. injection Hy0 as <-.
  destruct Hg as [H1 H2 H3 H4 H5 H6]. assert (HD := circuit_derived s H1). assert (HI := reachable_Inv s (circuit_reachable s H1)). assert (HI2 := reachable_Inv2 s (circuit_reachable s H1)).
  destruct (plain_ready s HD H4) as (R1 & R2 & R3). destruct (cap_defined s HD H2) as (M & HM). assert (HT := cap_terms_ok s M HI2 R1 HM).
  unfold getCapacitanceMatrix. rewrite Ec, HM, En. set (n := List.length (sys_nodes s)) in *. set (T := fun i j => lin_tree (M i j)).
  assert (Gf : forall c, In c (registered_names s) -> ~ generated (mat_name "C" "") n c).
  { intros c Hc (i & j & Hij & E). apply upper_In in Hij. eapply (unnumbered_free s "C" "" H3 Hu c i j); eauto. apply registered_element; auto. }
  assert (HrC : ready (mat_name "C" "") n T (fun _ => True) (generated (mat_name "L" "i") n) (registered_names s) (ss_par y)).
  { destruct Hr as [W1 W2 W3 W4 W5 W6 W7]. split; auto.
    - intros i j e sy Hij HTe Hsy. destruct (lin_tree_free _ _ _ HTe Hsy) as (t & z & Ht & Hx). destruct (HT i j t z Ht) as (c & -> & Hc & Hreg). apply term_tree_free in Hx. subst sy.
      exists c. destruct (R3 c Hreg) as [L1 L2]. split; auto. split; auto. split; [destruct c as [|a c]; [easy|]; cbn in Hc |- *; apply Ascii.eqb_eq in Hc; subst a; reflexivity|]. split; [apply W5; auto|]. split; [|split]; auto.
    - intros a b Hab. split; auto. destruct (W4 a b Hab) as [_ Ha]. intros (i & j & _ & ->). discriminate Ha.
    - intros k e names He. apply W7 in He as [[He|[]] He']. auto. }
  assert (Hname : forall i j, mat_name "C" "" i j <> "" /\ has_space (mat_name "C" "" i j) = false /\ starts "\" (mat_name "C" "" i j) = false).
  { intros i j. split; [discriminate|]. split; [apply mat_name_no_space; auto|reflexivity]. }
  destruct (parameterise_ok ord (mat_name "C" "") n T Ho Hname _ _ _ (ss_par y) HrC) as (st' & E & Hr'). rewrite E.
  assert (Hnd : NoDup (map (name_of (mat_name "C" "")) (upper n))) by (apply mat_names_distinct; auto).
  destruct (parameterise_stored ord (mat_name "C" "") n T Ho Hname _ _ _ (ss_par y) st' HrC Hnd E) as [S1 S2].
  exists M. eexists. eexists. split; auto. split; [reflexivity|]. cbn [ss_par set_par]. split; [|split].
  - intros c Hc. apply S2. auto.
  - intros v Hv i j Hi Hj. unfold with_symbols. set (a := Nat.min i j). set (b := Nat.max i j). assert (Hab : In (a, b) (upper n)) by (apply upper_In; lia).
    assert (Hsym : lval (fun c => v (sym_of c)) (M a b) = lval (fun c => v (sym_of c)) (M i j)).
    { unfold a, b. destruct (Nat.le_ge_cases i j); [rewrite Nat.min_l, Nat.max_r by auto; auto|]. rewrite Nat.min_r, Nat.max_l by auto. apply (cap_sym s M HD HI HI2 HM); auto. }
    destruct (T a b) as [e|] eqn:Et; [|apply lin_tree_val]. destruct (List.length (tfree e) <? 2) eqn:El; [apply lin_tree_val|]. apply Nat.ltb_ge in El.
    destruct (S1 a b e Hab Et El) as (names & Hp & _). destruct (dget (c_sym st') (mat_name "C" "" a b)) as [sy|] eqn:Es.
    + cbn [entry_val rval]. rewrite (Hv _ _ _ _ Es Hp). rewrite <- Hsym, <- lin_tree_val. change (lin_tree (M a b)) with (T a b). rewrite Et. auto.
    + exfalso. apply dget_None in Es. apply Es. rewrite <- (wf_keys _ (r_wf _ _ _ _ _ _ _ Hr')).
      apply (r_par _ _ _ _ _ _ _ Hr'). eapply dget_Some_key; eauto.
  - intros w. apply (consistent_exists _ _ _ _ _ _ _ w Hr').
    + intros k [Hk|Hk].
      * split; [|split]; [| |intros Hc; eapply Gf; eauto]; destruct Hk as (i & j & _ & ->); [discriminate|reflexivity].
      * split; [|split]; [| |intros Hc; destruct Hk as (i & j & Hij & E'); apply upper_In in Hij; eapply (unnumbered_free s "L" "i" H3 H6 k i j); eauto; apply registered_element; auto]; destruct Hk as (i & j & _ & ->); [discriminate|reflexivity].
    + intros c Hc. apply R3; auto.
Qed.

(** ** which histories give a regular circuit *)
Lemma history_regular l1 l2 : l1 <> [] -> Forall valid_op l1 -> Forall (fun o => is_branch o = true) l1 -> Forall bias_call l2 ->
  Forall (fun o => Forall spaceless (call_strings o)) (l1 ++ l2) -> accepted cg_new (l1 ++ l2) -> In 0 (g_nodes (c_graph (grun cg_new (l1 ++ l2)))) ->
  unnumbered (grun cg_new (l1 ++ l2)) "L" "i" -> regular (grun cg_new (l1 ++ l2)).
Proof.
  intros Hl Hv Hb Hc Hs Ha Hg Hf. assert (Hcov : covered (grun cg_new (l1 ++ l2))) by (apply accepted_covered; auto; intros n []).
  apply Forall_app in Hs as [Hs1 Hs2]. apply accepted_app in Ha as [Ha1 Ha2].
  assert (P0 : plain cg_new) by (split; cbn; easy). destruct (branches_run l1 cg_new P0 eq_refl Hb Hs1 Ha1) as [P1 F1].
  assert (C1 : circuit (grun cg_new l1)) by (apply branches_circuit; auto; constructor).
  rewrite grun_app in *. destruct (biases_run l2 (grun cg_new l1) C1 P1) as (C2 & P2 & _ & K); auto; [rewrite F1; easy|]. split; auto.
Qed.

(** ** coordinate modes of a system *)
Lemma new_system_modes ord oracle s y : circuit s -> c_coupled s = [] -> new_system ord oracle s = Some (Ok y) -> exists M, inductance_matrix s (wcs s) = Ok M /\
  coordinate_modes (fun i j => match lin_tree (linv_diag (sys_nodes s) (wcs s) M i j) with None => true | Some _ => false end) (sys_nodes s) = Ok (ss_modes y).
Proof.
  intros Hc Hcoup. assert (HD := circuit_derived s Hc). unfold new_system. destruct (negb _); [discriminate|]. rewrite (wcs_wc s HD). destruct (has_resonators s); [discriminate|]. cbv zeta.
  destruct (ok_st _) as [st1|]; [|discriminate]. cbn [bind]. destruct (flux_symbols s (wcs s)) as [fl|] eqn:Ef; [|discriminate]. cbn [bind].
  destruct (ok_st _); [|discriminate]. cbn [bind]. destruct (ok_st _); [|discriminate]. cbn [bind]. destruct (inductance_matrix s (wcs s)) as [M|]; [|discriminate]. cbn [bind].
  destruct (ok_st _); [|discriminate]. cbn [bind]. unfold linv_tree. rewrite Hcoup. intros H. exists M. split; auto.
  destruct (coordinate_modes _ _) as [d|] eqn:Ed; [|discriminate]. cbn [bind] in H. injection H as <-. cbn [ss_modes]. rewrite <- Ed. reflexivity.
Qed.
Lemma before_nth ns i j : NoDup ns -> i < List.length ns -> j < List.length ns -> before ns (nth i ns 0) (nth j ns 0) -> i <= j.
Proof.
  intros Hn Hi Hj (l1 & l2 & E & H). assert (Hi' : i = List.length l1).
  { apply (proj1 (NoDup_nth ns 0) Hn); auto; [rewrite E, app_length; cbn; lia|]. rewrite E at 2. rewrite app_nth2, Nat.sub_diag; [reflexivity|lia]. }
  apply In_nth with (d := 0) in H as (k & Hk & Ek). assert (j = i + k); [|lia]. apply (proj1 (NoDup_nth ns 0) Hn); auto.
  - rewrite E, app_length. lia.
  - rewrite <- Ek. rewrite E at 2. rewrite app_nth2 by lia. f_equal. lia.
Qed.
Lemma before_remove1 l : forall u v, NoDup l -> u <> 0 -> v <> 0 -> before l u v -> before (remove1 0 l) u v.
Proof.
  intros u v Hn Hu Hv (l1 & l2 & E & H). subst l. clear Hn. induction l1 as [|x l1 IH].
  - exists [], (remove1 0 l2). cbn [app remove1]. destruct (Nat.eqb_spec 0 u); [congruence|]. split; auto. destruct H as [H|H]; [left; auto|right].
    clear -H Hv. induction l2 as [|y l2 IH]; [easy|]. cbn [remove1]. destruct (Nat.eqb_spec 0 y) as [<-|N]; [destruct H; [congruence|auto]|]. destruct H as [->|H]; [left; auto|right; auto].
  - cbn [app remove1]. destruct (Nat.eqb_spec 0 x) as [<-|N]; [exists l1, l2; auto|]. destruct IH as (a & b & E & H'). exists (x :: a), b. rewrite E. auto.
Qed.
Lemma circuit_modes ord oracle s y : circuit s -> c_coupled s = [] -> new_system ord oracle s = Some (Ok y) ->
  NoDup (dkeys (ss_modes y)) /\ (forall n, In n (dkeys (ss_modes y)) <-> In n (g_nodes (c_graph s)) /\ n <> 0) /\
  (forall n, dget (ss_modes y) n = Some Oscillator -> (exists x, In x (branches_of "L" (c_graph s)) /\ src (fst x) <> dst (fst x) /\ touches n (fst x)) /\
     forall m, m <> 0 -> m <> n -> before (g_nodes (c_graph s)) n m -> ~ joined s n m) /\
  (forall n, dget (ss_modes y) n = Some Charge -> (forall x, In x (branches_of "L" (c_graph s)) -> src (fst x) <> dst (fst x) -> ~ touches n (fst x)) \/
     exists m, In m (g_nodes (c_graph s)) /\ m <> 0 /\ m <> n /\ joined s n m).
Proof.
  intros Hc Hcoup Hy. assert (HD := circuit_derived s Hc). destruct (new_system_modes ord oracle s y Hc Hcoup Hy) as (M & HM & Hm).
  assert (Hnd := nodes_NoDup _ s HD eq_refl). assert (HNI := nodes_In _ s HD eq_refl).
  match type of Hm with coordinate_modes ?z _ = _ => destruct (modes_total z (sys_nodes s) Hnd) as (d & Ed & D1 & D2 & D3) end. rewrite Hm in Ed. injection Ed as <-.
  assert (Hjs : forall a b, joined s a b -> joined s b a). { intros a b (x & Hx & H). exists x. split; auto. tauto. }
  split; auto. split; [intros n; rewrite D2; apply HNI|].
  assert (Hkey : forall n m, dget (ss_modes y) n = Some m -> exists k, k < List.length (sys_nodes s) /\ nth k (sys_nodes s) 0 = n).
  { intros n m H. apply dget_Some_key in H. apply D2 in H. apply In_nth; auto. }
  split.
  - intros n Hn. destruct (Hkey n _ Hn) as (k & Hk & <-). destruct (D3 k Hk) as (O & _ & _). destruct (O Hn) as [O1 O2]. split.
    + apply (z_diag s M HD Hcoup HM); auto.
    + intros m Hm0 Hmn Hb Hj. assert (Hin : In m (sys_nodes s)). { apply HNI. split; auto. destruct Hb as (l1 & l2 & E & H). rewrite E. apply in_or_app. auto. }
      apply In_nth with (d := 0) in Hin as (j & Hj' & <-). assert (Hle : k <= j).
      { apply (before_nth (sys_nodes s)); auto. apply before_remove1; auto; [apply (w_nodes _), HD|]. intros E. assert (X : In (nth k (sys_nodes s) 0) (sys_nodes s)) by (apply nth_In; auto). apply HNI in X as [_ X]. auto. }
      assert (Hlt : k < j < List.length (sys_nodes s)). { split; auto. assert (k <> j); [|lia]. intros ->. auto. }
      assert (Z := O2 j Hlt). cbv beta in Z. assert (Z' := proj2 (z_off s M HD Hcoup HM k j Hk Hj' ltac:(lia)) Hj). cbv beta zeta in Z'. congruence.
  - intros n Hn. destruct (Hkey n _ Hn) as (k & Hk & <-). destruct (D3 k Hk) as (_ & C & _). destruct (C Hn) as [C1|(j & Hj & Hne & C1)].
    + left. intros x Hx Hl Ht. assert (Z := proj2 (z_diag s M HD Hcoup HM k Hk) (ex_intro _ x (conj Hx (conj Hl Ht)))). cbv beta zeta in Z. congruence.
    + right. exists (nth j (sys_nodes s) 0). assert (Hin : In (nth j (sys_nodes s) 0) (sys_nodes s)) by (apply nth_In; auto). apply HNI in Hin as [I1 I2]. split; auto. split; auto.
      split; [intros E; apply Hne, (proj1 (NoDup_nth _ 0) Hnd); auto|]. destruct C1 as [C1|C1]; [|apply Hjs]; apply (z_off s M HD Hcoup HM); auto.
Qed.
