(** Consequences of the bilinear form: definedness, symmetry, definiteness. *)
From Coq Require Import List Bool String Ascii Arith ZArith Reals Permutation Lra Lia.
From Verif Require Import Prelude PreludeFacts Mat MatFacts Graph GraphSpec GraphView GraphForest GraphWf GraphState GraphMaps GraphOps Symbolic SymbolicSpec RSum SymbolicInv SymbolicCap.
Import ListNotations.
Open Scope string_scope.
Open Scope list_scope.
Open Scope nat_scope.

Section Defined.
  Variable s : cg.
  Hypothesis HD : Derived s.
  Hypothesis HC : covered s.
  Lemma In_dval {K V} `{EqB K} (d : dict K V) k v : dget d k = Some v -> In v (dvals d).
  Proof. intros H'. apply dget_In in H'. apply (in_map snd) in H'. auto. Qed.
  Lemma param_comp e c : component_of s e = Ok c -> param s c = Ok c /\ letter_is "C" c = Ok (starts "C" c) /\ letter_is "L" c = Ok (starts "L" c).
  Proof.
    unfold component_of. destruct (dget (c_map s) e) as [c'|] eqn:E; [|discriminate]. intros [= ->].
    apply (map_get s HD) in E. destruct E as (b & Hb & <- & _). split.
    - unfold param. replace (mem (snd b) (param_names s)) with true; auto. symmetry. apply mem_In. unfold param_names, registered_names.
      apply in_or_app. left. apply in_or_app. left. eapply Permutation_in; [apply Permutation_sym, edge_map_vals, HD|]. apply in_map; auto.
    - assert (V := d_valid s HD b Hb). unfold valid_name in V. destruct (snd b); [discriminate|]. split; reflexivity.
  Qed.
  Lemma edges_at_branch n e : In e (edges_at n (g_edges (c_graph s))) -> exists b, In b (g_edges (c_graph s)) /\ (e = fst b \/ e = rev_edge (fst b)).
  Proof.
    unfold edges_at. rewrite in_flat_map. intros (m & _ & H). apply in_map_iff in H as (b & <- & Hb). apply filter_In in Hb as [Hb _]. exists b. split; auto.
    unfold orient. destruct (Nat.eqb _ _); auto.
  Qed.
  Lemma component_total e : (exists b, In b (g_edges (c_graph s)) /\ (e = fst b \/ e = rev_edge (fst b))) -> exists c, component_of s e = Ok c.
  Proof.
    intros (b & Hb & He). exists (snd b). apply (component_branch s HD (e, snd b)). apply in_map_iff. exists b. split; auto. unfold nb. cbn [fst snd]. destruct He as [-> | ->]; rewrite ?norm_rev; auto.
  Qed.
  Lemma cap_defined : exists M, capacitance_matrix s = Ok M.
  Proof.
    unfold capacitance_matrix. cbv zeta.
    destruct (foldM_total (fun _ => True) (cap_diag s) (enumerate (sys_nodes s)) mat0) as (M1 & -> & _); auto.
    - intros M [i n] Hin _. apply (enumerate_In _ 0) in Hin as [Hi Hn]. unfold cap_diag.
      match goal with |- context[foldM ?f ?l M] => destruct (foldM_total (fun _ => True) f l M) as (M1 & -> & _); auto end.
      { intros K e He _. destruct (component_total e (edges_at_branch n e He)) as (c & Ec). rewrite Ec. destruct (param_comp e c Ec) as (P1 & P2 & _). cbn [bind]. rewrite P2. cbn [bind].
        destruct (starts "C" c); [rewrite P1; cbn [bind]|]; eauto. }
      cbn [bind].
      assert (H2 : exists M2, match dget (c_cbias s) n with
        | Some b => match cb_cap b with Some c => bind (param s c) (fun c => Ok (add_at M1 i i (TmC c) 1)) | None => Ok M1 end
        | None => Ok M1 end = Ok M2).
      { destruct (dget (c_cbias s) n) as [b|] eqn:Eb; eauto. destruct (cb_cap b) as [c|] eqn:Ec; eauto. unfold param. replace (mem c (param_names s)) with true; [cbn; eauto|].
        symmetry. apply mem_In. unfold param_names, registered_names. apply in_or_app. left. apply in_or_app. right. apply in_or_app. right. apply in_or_app. left.
        apply in_flat_map. exists b. split; [eapply In_dval; eauto|]. rewrite Ec. cbn. auto. }
      destruct H2 as (M2 & ->). cbn [bind].
      assert (Hn' : In n (g_nodes (c_graph s))) by (apply (nodes_In _ s HD eq_refl); rewrite <- Hn; apply nth_In; auto).
      apply HC in Hn'. apply dkeys_dget in Hn' as (v & Hv). rewrite Hv. destruct v as [r|]; eauto.
      assert (G : forall v, In v (resonator_vars r) -> param s v = Ok v).
      { intros v Hr. unfold param. replace (mem v (param_names s)) with true; auto. symmetry. apply mem_In. unfold param_names. apply in_or_app. right. apply in_flat_map. exists (Some r). split; auto. eapply In_dval; eauto. }
      rewrite !G by (cbn; auto 10). cbn. eauto.
    - cbn [bind]. match goal with |- context[foldM ?f ?l ?M] => destruct (foldM_total (fun _ => True) f l M) as (M2 & E2 & _); [|exact I|exists M2; exact E2] end.
      intros K e He _. unfold cap_off.
      assert (Hb : exists b, In b (g_edges (c_graph s)) /\ (e = fst b \/ e = rev_edge (fst b))).
      { apply in_map_iff in He as ([e' c] & <- & He). assert (C : carries (c_graph s) e' c) by (apply edge_map_carries; [apply HD|exists e'; auto]).
        destruct C as (b & Hb & _ & Hs). exists b. split; auto. }
      destruct (component_total e Hb) as (c & Ec). rewrite Ec. destruct (param_comp e c Ec) as (P1 & P2 & _). cbn [bind]. rewrite P2. cbn [bind]. destruct (starts "C" c); eauto.
      destruct (Nat.eqb_spec (src e) 0) as [E0|E0]; cbn [orb]; eauto. destruct (Nat.eqb_spec (dst e) 0) as [E1|E1]; eauto.
      assert (Hn : In (src e) (g_nodes (c_graph s)) /\ In (dst e) (g_nodes (c_graph s))).
      { destruct Hb as (b & Hb & He'). destruct (w_ends _ (d_wf s HD) _ Hb). destruct He' as [-> | ->]; auto. }
      destruct (index_of_total (src e) (sys_nodes s)) as (i & ->); [apply (nodes_In _ s HD eq_refl); tauto|].
      destruct (index_of_total (dst e) (sys_nodes s)) as (j & ->); [apply (nodes_In _ s HD eq_refl); tauto|]. cbn [bind]. rewrite P1. cbn. eauto.
  Qed.
End Defined.

Lemma conn_dec E : forall x y, {conn E x y} + {~ conn E x y}.
Proof.
  induction E as [|e E IH]; intros x y.
  - destruct (Nat.eq_dec x y) as [->|N]; [left; constructor|right]. intros H. inversion H; subst; auto; easy.
  - destruct (IH x y) as [H|H]; [left; apply conn_cons; auto|].
    destruct (IH x (src e)) as [H1|H1], (IH (dst e) y) as [H2|H2], (IH x (dst e)) as [H3|H3], (IH (src e) y) as [H4|H4];
      first [left; apply conn_cons; tauto | right; rewrite conn_cons; tauto].
Qed.

Section Entries.
  Variable nodes : list nat.
  Hypothesis Hnd : NoDup nodes.
  Definition unit_at (n : nat) (k : nat) : R := if Nat.eqb k n then 1%R else 0%R.
  Lemma form_unit_l M i x : i < List.length nodes -> form nodes M (unit_at (nth i nodes 0)) x = applied nodes M x i.
  Proof.
    intros Hi. unfold form, applied. cbv zeta. rewrite (@sumn_single R_rng _ i); auto.
    - apply (@sumn_ext R_rng). intros j _. unfold unit_at. rewrite Nat.eqb_refl. cbn. ring.
    - intros k Hk Hne. apply (@sumn_0 R_rng). intros j _. unfold unit_at. destruct (Nat.eqb_spec (nth k nodes 0) (nth i nodes 0)) as [E|_]; [|cbn; ring].
      exfalso. apply Hne. apply (proj1 (NoDup_nth nodes 0) Hnd); auto.
  Qed.
  Lemma form_units M i j : i < List.length nodes -> j < List.length nodes -> form nodes M (unit_at (nth i nodes 0)) (unit_at (nth j nodes 0)) = M i j.
  Proof.
    intros Hi Hj. rewrite form_unit_l by auto. unfold applied. rewrite (@sumn_single R_rng _ j); auto.
    - unfold unit_at. rewrite Nat.eqb_refl. cbn. ring.
    - intros k Hk Hne. unfold unit_at. destruct (Nat.eqb_spec (nth k nodes 0) (nth j nodes 0)) as [E|_]; [|cbn; ring].
      exfalso. apply Hne. apply (proj1 (NoDup_nth nodes 0) Hnd); auto.
  Qed.
  Lemma form_applied M y x : (forall i, i < List.length nodes -> applied nodes M x i = 0%R) -> form nodes M y x = 0%R.
  Proof.
    intros H. unfold form. cbv zeta. apply (@sumn_0 R_rng). intros i Hi. transitivity (y (nth i nodes 0%nat) * applied nodes M x i)%R; [|rewrite H; auto; cbn; ring].
    unfold applied. transitivity (sumn (A := R_rng) (List.length nodes) (fun j => kmul (r := R_rng) (y (nth i nodes 0%nat)) (M i j * x (nth j nodes 0%nat))))%R.
    - apply (@sumn_ext R_rng). intros j _. cbn. ring.
    - symmetry. apply (@sumn_mul_l R_rng).
  Qed.
  Lemma form_agree M y x y' x' : (forall n, In n nodes -> y n = y' n) -> (forall n, In n nodes -> x n = x' n) -> form nodes M y x = form nodes M y' x'.
  Proof.
    intros H1 H2. unfold form. cbv zeta. apply (@sumn_ext R_rng). intros i Hi. apply (@sumn_ext R_rng). intros j Hj. rewrite H1, H2 by (apply nth_In; auto). auto.
  Qed.
  Lemma applied_agree M x x' i : (forall n, In n nodes -> x n = x' n) -> applied nodes M x i = applied nodes M x' i.
  Proof. intros H2. unfold applied. apply (@sumn_ext R_rng). intros j Hj. rewrite H2 by (apply nth_In; auto). auto. Qed.
End Entries.

Section Consequences.
  Variables (s : cg) (M : mat).
  Hypothesis HD : Derived s.
  Hypothesis HI : Inv s.
  Hypothesis HI2 : Inv2 s.
  Hypothesis HM : capacitance_matrix s = Ok M.
  Let nodes := sys_nodes s.
  Let V val := fun i j => lval val (M i j).
  Lemma nodes0 : ~ In 0 nodes.
  Proof. unfold nodes. rewrite (nodes_In _ s HD eq_refl). tauto. Qed.
  Lemma unit0 i : i < List.length nodes -> unit_at (nth i nodes 0) 0 = 0%R.
  Proof. intros Hi. unfold unit_at. destruct (Nat.eqb_spec 0 (nth i nodes 0)) as [E|]; auto. exfalso. apply nodes0. rewrite E. apply nth_In; auto. Qed.
  Lemma electrostatic_sym val y x : electrostatic val s y x = electrostatic val s x y.
  Proof. unfold electrostatic. f_equal; [f_equal|]; apply Rsum_ext; [intros [[[p q] k] c] _|intros [n c] _|intros [n r] _]; cbn [fst snd]; ring. Qed.
  Lemma loop_sym val y x : loop_part val y x s = loop_part val x y s.
  Proof. unfold loop_part. apply Rsum_ext. intros [[[p q] k] c] _. destruct (Nat.eqb p q); ring. Qed.
  Lemma cap_sym val i j : i < List.length nodes -> j < List.length nodes -> V val i j = V val j i.
  Proof.
    intros Hi Hj. assert (Hn := nodes_NoDup nodes s HD eq_refl).
    rewrite <- (form_units nodes Hn (V val) i j), <- (form_units nodes Hn (V val) j i) by auto.
    unfold V. rewrite !(cap_form val nodes _ _ s HD HI HI2 eq_refl) by auto using unit0. rewrite electrostatic_sym, loop_sym. auto.
  Qed.
  Lemma cap_energy val y x : no_capacitor_loop (c_graph s) -> y 0 = 0%R -> x 0 = 0%R -> form nodes (V val) y x = electrostatic val s y x.
  Proof.
    intros Hl Hy Hx. unfold V. rewrite (cap_form val nodes y x s HD HI HI2 eq_refl Hy Hx M HM).
    enough (E : loop_part val y x s = 0%R) by (rewrite E; ring).
    apply Rsum_map_0. intros [[[p q] k] c] Hb. destruct (Nat.eqb_spec p q) as [E|]; auto. exfalso. apply (Hl _ Hb). auto.
  Qed.
  Section Definite.
    Variable val : string -> R.
    Hypothesis Hpos : positive_caps val s.
    Let br x := map (fun b : branch => let '((p, q, _), c) := b in (val c * (x p - x q) * (x p - x q))%R) (branches_of "C" (c_graph s)).
    Let ga x := map (fun g : nat * string => (val (snd g) * x (fst g) * x (fst g))%R) (gates s).
    Let re x := map (fun r : nat * resonator => (series (val (r_coupling (snd r))) (val (r_Cr (snd r))) * x (fst r) * x (fst r))%R) (coupled_resonators s).
    Lemma series_pos a b : (0 < a -> 0 < b -> 0 < series a b)%R.
    Proof. intros. unfold series. apply Rdiv_lt_0_compat; [apply Rmult_lt_0_compat; auto|lra]. Qed.
    Lemma sq_nonneg a z : (0 < a -> 0 <= a * z * z)%R.
    Proof. intros. rewrite Rmult_assoc. apply Rmult_le_pos; [lra|]. apply Rle_0_sqr. Qed.
    Lemma sq_zero a z : (0 < a -> a * z * z = 0 -> z = 0)%R.
    Proof. intros Ha H. rewrite Rmult_assoc in H. apply Rmult_integral in H as [H|H]; [lra|]. apply Rmult_integral in H. tauto. Qed.
    Lemma nonneg_br x : forall r, In r (br x) -> (0 <= r)%R.
    Proof. intros r H. apply in_map_iff in H as ([[[p q] k] c] & <- & H). apply sq_nonneg. apply (proj1 Hpos _ H). Qed.
    Lemma nonneg_ga x : forall r, In r (ga x) -> (0 <= r)%R.
    Proof. intros r H. apply in_map_iff in H as (g & <- & H). apply sq_nonneg. apply Hpos; auto. Qed.
    Lemma nonneg_re x : forall r, In r (re x) -> (0 <= r)%R.
    Proof. intros r H. apply in_map_iff in H as (g & <- & H). apply sq_nonneg. destruct Hpos as (_ & _ & H3). destruct (H3 _ H). apply series_pos; auto. Qed.
    Lemma electrostatic_nonneg x : (0 <= electrostatic val s x x)%R.
    Proof.
      change (0 <= Rsum (br x) + Rsum (ga x) + Rsum (re x))%R. assert (A := Rsum_nonneg _ (nonneg_br x)). assert (B := Rsum_nonneg _ (nonneg_ga x)). assert (C := Rsum_nonneg _ (nonneg_re x)). lra.
    Qed.
    Lemma electrostatic_zero x : x 0 = 0%R -> electrostatic val s x x = 0%R -> forall n, grounded s n -> x n = 0%R.
    Proof.
      intros Hx0 H n (m & Hc & Hm). change (Rsum (br x) + Rsum (ga x) + Rsum (re x) = 0)%R in H.
      assert (A := Rsum_nonneg _ (nonneg_br x)). assert (B := Rsum_nonneg _ (nonneg_ga x)). assert (C := Rsum_nonneg _ (nonneg_re x)).
      assert (A0 : Rsum (br x) = 0%R) by lra. assert (B0 : Rsum (ga x) = 0%R) by lra. assert (C0 : Rsum (re x) = 0%R) by lra.
      assert (Hm0 : x m = 0%R).
      { destruct Hm as [->|[Hm|Hm]]; auto; apply in_map_iff in Hm as ([m' c] & <- & Hm); cbn [fst].
        - apply (sq_zero (val c)); [apply (proj1 (proj2 Hpos) _ Hm)|]. apply (Rsum_0_all _ (nonneg_ga x) B0). apply (in_map (fun g : nat * string => (val (snd g) * x (fst g) * x (fst g))%R) _ _ Hm).
        - apply (sq_zero (series (val (r_coupling c)) (val (r_Cr c)))); [destruct (proj2 (proj2 Hpos) _ Hm); apply series_pos; auto|]. apply (Rsum_0_all _ (nonneg_re x) C0).
          apply (in_map (fun r : nat * resonator => (series (val (r_coupling (snd r))) (val (r_Cr (snd r))) * x (fst r) * x (fst r))%R) _ _ Hm). }
      assert (HE : forall e, In e (map fst (branches_of "C" (c_graph s))) -> x (src e) = x (dst e)).
      { intros e He. apply in_map_iff in He as ([[[p q] k] c] & <- & Hb). cbn. apply Rminus_diag_uniq. apply (sq_zero (val c)); [apply (proj1 Hpos _ Hb)|].
        apply (Rsum_0_all _ (nonneg_br x) A0). apply (in_map (fun b : branch => let '((p, q, _), c) := b in (val c * (x p - x q) * (x p - x q))%R) _ _ Hb). }
      clear -Hc Hm0 HE. induction Hc as [z|e z He Hc IH|e z He Hc IH]; auto.
      - rewrite HE by auto. auto.
      - rewrite <- HE by auto. auto.
    Qed.
    Definition pinned (x : nat -> R) (n : nat) : R := if Nat.eqb n 0 then 0%R else x n.
    Lemma cap_pos_def x : no_capacitor_loop (c_graph s) -> (forall n, In n nodes -> grounded s n) -> (exists n, In n nodes /\ x n <> 0%R) ->
      (0 < form nodes (V val) x x)%R.
    Proof.
      intros Hl Hg (n & Hn & Hx).
      assert (P : forall k, In k nodes -> x k = pinned x k) by (intros k Hk; unfold pinned; destruct (Nat.eqb_spec k 0) as [->|]; auto; exfalso; apply nodes0; auto).
      rewrite (form_agree nodes _ x x (pinned x) (pinned x)) by auto. rewrite cap_energy by auto.
      destruct (electrostatic_nonneg (pinned x)) as [H|H]; auto. exfalso. apply Hx. rewrite P by auto. apply electrostatic_zero; auto.
    Qed.
    Lemma cap_injective x : no_capacitor_loop (c_graph s) -> (forall n, In n nodes -> grounded s n) ->
      (forall i, i < List.length nodes -> applied nodes (V val) x i = 0%R) -> forall n, In n nodes -> x n = 0%R.
    Proof.
      intros Hl Hg Ha n Hn. destruct (Req_dec (x n) 0) as [E|E]; auto. exfalso.
      assert (H := cap_pos_def x Hl Hg (ex_intro _ n (conj Hn E))). rewrite (form_applied nodes (V val) x x Ha) in H. lra.
    Qed.
  End Definite.
  Lemma cap_singular val n : no_capacitor_loop (c_graph s) -> In n nodes -> ~ grounded s n ->
    exists x, x n = 1%R /\ (forall i, i < List.length nodes -> applied nodes (V val) x i = 0%R) /\ form nodes (V val) x x = 0%R.
  Proof.
    intros Hl Hn Hg. set (E := map fst (branches_of "C" (c_graph s))) in *.
    set (x := fun k => if conn_dec E n k then 1%R else 0%R).
    assert (X0 : x 0 = 0%R).
    { unfold x. destruct (conn_dec E n 0) as [H|]; auto. exfalso. apply Hg. exists 0. auto. }
    assert (HE : forall e, In e E -> x (src e) = x (dst e)).
    { intros e He. unfold x. destruct (conn_dec E n (src e)) as [H1|H1], (conn_dec E n (dst e)) as [H2|H2]; auto; exfalso.
      - apply H2. eapply conn_trans; [exact H1|apply conn_edge; auto].
      - apply H1. eapply conn_trans; [exact H2|apply conn_sym, conn_edge; auto]. }
    assert (Z : forall y, electrostatic val s y x = 0%R).
    { intros y. unfold electrostatic. rewrite !Rsum_map_0; [ring| | |].
      - intros [m r] Hm. cbn [fst snd]. replace (x m) with 0%R; [ring|]. unfold x. destruct (conn_dec E n m) as [H|]; auto. exfalso. apply Hg. exists m. split; auto. right; right. apply (in_map fst _ _ Hm).
      - intros [m r] Hm. cbn [fst snd]. replace (x m) with 0%R; [ring|]. unfold x. destruct (conn_dec E n m) as [H|]; auto. exfalso. apply Hg. exists m. split; auto. right; left. apply (in_map fst _ _ Hm).
      - intros [[[p q] k] c] Hb. assert (H := HE (p, q, k) (in_map fst _ _ Hb)). cbn in H. rewrite H. ring. }
    assert (A : forall i, i < List.length nodes -> applied nodes (V val) x i = 0%R).
    { intros i Hi. rewrite <- (form_unit_l nodes (nodes_NoDup nodes s HD eq_refl) (V val) i x Hi). rewrite cap_energy by auto using unit0. apply Z. }
    exists x. split; [|split; auto].
    - unfold x. destruct (conn_dec E n n) as [|H]; auto. exfalso. apply H. constructor.
    - apply form_applied; auto.
  Qed.
End Consequences.
