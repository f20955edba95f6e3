(** Displacements and coordinate modes after a transform. *)
From Coq Require Import List Bool String Ascii Arith ZArith Reals Permutation Lra Lia.
From Verif Require Import Prelude PreludeFacts Mat MatFacts Graph GraphSpec GraphView GraphForest GraphWf GraphCircuit GraphState GraphMaps GraphOps GraphProofs Sweep Symbolic SymbolicSpec RSum SymbolicInv SymbolicCap SymbolicCap2 SymbolicFlux SymbolicNew SymbolicParam SymbolicInit MutualProofs SymHam SymHamSpec SymHamProofs SymHamT.
Import ListNotations.
Open Scope string_scope.
Open Scope list_scope.
Open Scope nat_scope.

Section Displacements.
  Variable ord : list R -> list R.
  Hypothesis Hord : forall l, Permutation (ord l) l.
  Lemma row_terms_In n M i c : In c (row_terms n M i) <-> c <> 0%R /\ exists k, k < n /\ M i k = c.
  Proof.
    unfold row_terms. rewrite in_flat_map. split.
    - intros (k & Hk & Hc). apply in_seq in Hk. destruct (Req_EM_T (M i k) 0); [destruct Hc|]. destruct Hc as [<-|[]]. split; auto. exists k. split; [lia|auto].
    - intros (H0 & k & Hk & <-). exists k. split; [apply in_seq; lia|]. destruct (Req_EM_T (M i k) 0); [congruence|left; auto].
  Qed.
  Lemma displacement_float n M i : (exists k, k < n /\ M i k <> 0%R) -> exists k, k < n /\ M i k <> 0%R /\ displacement ord false n M i = Ok (Rabs (M i k)).
  Proof.
    intros (k & Hk & Hne). unfold displacement. destruct (ord (row_terms n M i)) as [|c r] eqn:E.
    - exfalso. assert (H : In (M i k) (row_terms n M i)) by (apply row_terms_In; eauto). apply (Permutation_in _ (Permutation_sym (Hord _))) in H. rewrite E in H. destruct H.
    - assert (Hc : In c (row_terms n M i)) by (apply (Permutation_in _ (Hord _)); rewrite E; left; auto). apply row_terms_In in Hc as (H0 & k' & Hk' & <-). exists k'. split; auto. split; auto. cbn [bare andb].
      destruct r as [|c' r].
      + destruct (2 <? _); auto.
      + cbn zeta. match goal with |- (if 2 <? ?a then _ else _) = _ => assert (H : 2 < a) end; [|apply Nat.ltb_lt in H; rewrite H; auto].
        cbn [List.length filter bare andb negb]. assert (D : forall l, l <> [] -> 0 < distinct l).
        { induction l as [|x l IH]; [congruence|]. intros _. cbn [distinct]. destruct (in_dec Req_EM_T x l) as [Hx|]; [|lia]. cbn. apply IH. intros ->. destruct Hx. }
        match goal with |- 2 < S (S ?a) + distinct ?l => assert (0 < distinct l) by (apply D; discriminate) end. lia.
  Qed.
  Lemma displacements_float n M : (forall i, i < n -> exists k, k < n /\ M i k <> 0%R) ->
    exists l, displacements ord false n M = Ok l /\ List.length l = n /\ forall i, i < n -> exists k, k < n /\ M i k <> 0%R /\ nth i l 0%R = Rabs (M i k).
  Proof.
    intros H. unfold displacements. assert (G : forall is_, (forall i, In i is_ -> i < n) -> exists l, mapM (displacement ord false n M) is_ = Ok l /\ List.length l = List.length is_ /\ forall p i, nth_error is_ p = Some i -> exists k, k < n /\ M i k <> 0%R /\ nth p l 0%R = Rabs (M i k)).
    { induction is_ as [|i is_ IH]; intros Hi.
      - exists []. split; auto. split; auto. intros [|p] i E; discriminate E.
      - destruct (displacement_float n M i (H i (Hi i (or_introl eq_refl)))) as (k & Hk & Hne & E). destruct IH as (l & El & Hl & Hn); [intros; apply Hi; right; auto|].
        exists (Rabs (M i k) :: l). cbn [mapM]. rewrite E. cbn [bind]. rewrite El. split; auto. split; [cbn; auto|]. intros [|p] j Ej; [injection Ej as <-; eauto|apply Hn; auto]. }
    destruct (G (seq 0 n)) as (l & El & Hl & Hn); [intros i Hi; apply in_seq in Hi; lia|]. exists l. split; auto. rewrite seq_length in Hl. split; auto. intros i Hi. apply Hn.
    rewrite nth_error_nth' with (d := 0) by (rewrite seq_length; auto). rewrite seq_nth; auto.
  Qed.
  Lemma inverse_row n A B i : inverses n A B -> i < n -> exists k, k < n /\ A i k <> 0%R.
  Proof.
    intros H Hi. destruct (H i i Hi Hi) as [E _]. rewrite Nat.eqb_refl in E.
    assert (D : (exists k, k < n /\ A i k <> 0%R) \/ forall k, k < n -> A i k = 0%R).
    { clear. induction n as [|n [IH|IH]]; [right; lia| |].
      - destruct IH as (k & Hk & Hne). left. exists k. split; auto.
      - destruct (Req_EM_T (A i n) 0) as [Z|Z]; [right|left; exists n; split; auto]. intros k Hk. destruct (Nat.eq_dec k n) as [->|]; auto. apply IH. lia. }
    destruct D as [D|D]; auto. exfalso. rewrite sR_0 in E; [lra|]. intros k Hk. rewrite D by auto. ring.
  Qed.
  Lemma cooper_ok n t : t_exact t = false -> inverses n (t_R t) (t_Rinv t) ->
    exists l, cooper_disp ord n t = Ok l /\ List.length l = n /\ forall i, i < n -> exists k, k < n /\ t_R t i k <> 0%R /\ nth i l 0%R = Rabs (t_R t i k).
  Proof. intros He Hi. unfold cooper_disp. rewrite He. apply displacements_float. intros i Hn. eapply inverse_row; eauto. Qed.
  Lemma fluxon_ok n t : t_exact t = false -> inverses n (t_R t) (t_Rinv t) ->
    exists l, fluxon_disp ord n t = Ok l /\ List.length l = n /\ forall i, i < n -> exists k, k < n /\ t_Rinv t k i <> 0%R /\ nth i l 0%R = Rabs (t_Rinv t k i).
  Proof.
    intros He Hi. unfold fluxon_disp. rewrite He. apply (displacements_float n (fun i j => t_Rinv t j i)). intros i Hn. eapply (inverse_row n (transpose (t_Rinv t)) (transpose (t_R t))); eauto. apply inverses_tr, inverses_sym; auto.
  Qed.
  (** scaling *)
  Lemma diagonal_inv n A B i : inverses n A B -> diagonal_upto n A -> i < n -> (A i i * B i i = 1)%R.
  Proof.
    intros H Hd Hi. destruct (H i i Hi Hi) as [E _]. rewrite Nat.eqb_refl in E. rewrite <- E. rewrite sumn_Rsum, (Rsum_single _ i); auto; [apply seq_NoDup|apply in_seq; lia|].
    intros k Hk Hne. apply in_seq in Hk. rewrite Hd by (auto; lia). ring.
  Qed.
  Lemma scaling n t l : t_exact t = false -> inverses n (t_R t) (t_Rinv t) -> diagonal_upto n (t_R t) -> cooper_disp ord n t = Ok l ->
    ((forall k, k < n -> Rabs (t_Rinv t k k) = nth k l 0%R) <-> forall k, k < n -> Rabs (t_R t k k) = 1%R).
  Proof.
    intros He Hi Hd Hl. destruct (cooper_ok n t He Hi) as (l' & Hl' & _ & Hn). rewrite Hl in Hl'. injection Hl' as <-.
    assert (G : forall k, k < n -> nth k l 0%R = Rabs (t_R t k k) /\ (Rabs (t_R t k k) * Rabs (t_Rinv t k k) = 1)%R).
    { intros k Hk. destruct (Hn k Hk) as (j & Hj & Hne & E). destruct (Nat.eq_dec k j) as [->|N]; [|exfalso; apply Hne, Hd; auto]. split; auto. rewrite <- Rabs_mult, (diagonal_inv n _ _ j Hi Hd Hj). apply Rabs_R1. }
    split; intros H k Hk; specialize (H k Hk); destruct (G k Hk) as [G1 G2]; assert (P := Rabs_pos (t_R t k k)); rewrite ?G1 in *.
    - rewrite H in G2. nra.
    - rewrite H in *. lra.
  Qed.
End Displacements.

(** ** coordinate modes *)
Definition eval_entry (v : string -> R) (e : entry) : R := Rsum (map (fun x => snd x * v (fst x))%R e).
Lemma collect_zero v e : (forall x, In x e -> collect e (fst x) = 0%R) -> eval_entry v e = 0%R.
Proof.
  remember (List.length e) as m eqn:Hm. assert (Hle : List.length e <= m) by lia. clear Hm. revert e Hle. induction m as [|m IH]; intros [|[a c] e] Hle H; auto; [cbn in Hle; lia|].
  set (E := (a, c) :: e) in *. unfold eval_entry.
  assert (S1 : forall l, Rsum (map (fun x => snd x * v (fst x))%R l) = (v a * collect l a + Rsum (map (fun x => snd x * v (fst x))%R (filter (fun x => negb (String.eqb a (fst x))) l)))%R).
  { induction l as [|[b d] l IHl]; [unfold Rsum; cbn; ring|]. cbn [map filter collect fst snd]. rewrite Rsum_cons, IHl. destruct (String.eqb_spec a b) as [->|]; cbn [negb map fst snd]; rewrite ?Rsum_cons; ring. }
  assert (Ha := H (a, c) (or_introl eq_refl)). cbn [fst] in Ha. rewrite S1, Ha. fold (eval_entry v (filter (fun x => negb (String.eqb a (fst x))) E)).
  assert (S2 : forall l b, b <> a -> collect (filter (fun x => negb (String.eqb a (fst x))) l) b = collect l b).
  { induction l as [|[b d] l IHl]; intros b' Hb; auto. cbn [filter collect fst]. destruct (String.eqb_spec a b) as [->|]; cbn [negb collect]; rewrite IHl by auto; auto. destruct (String.eqb_spec b' b); [congruence|ring]. }
  rewrite IH; [ring| |].
  - unfold E. cbn [filter fst]. rewrite String.eqb_refl. cbn [negb]. cbn in Hle. assert (F : List.length (filter (fun x : string * R => negb (String.eqb a (fst x))) e) <= List.length e) by (clear; induction e as [|x e IHe]; cbn; [lia|]; destruct (negb _); cbn; lia). lia.
  - intros x Hx. apply filter_In in Hx as [Hx Hn]. destruct (String.eqb_spec a (fst x)); [discriminate Hn|]. rewrite S2 by auto. apply H; auto.
Qed.
Lemma collect_eval e x : collect e x = eval_entry (fun y => if String.eqb x y then 1%R else 0%R) e.
Proof. induction e as [|[y c] e IH]; auto. cbn [collect]. rewrite IH. unfold eval_entry. cbn [map fst snd]. rewrite Rsum_cons. destruct (String.eqb x y); ring. Qed.
Lemma eval_transformed v n t L i : eval_entry v (transformed_entry n t L i) = sumn (A := R_rng) n (fun k => sumn (A := R_rng) n (fun l => t_Rinv t k i * eval_entry v (L k l) * t_Rinv t l i))%R.
Proof.
  unfold eval_entry, transformed_entry. rewrite Rsum_flat_map, sumn_Rsum. apply Rsum_ext. intros k _. rewrite Rsum_flat_map, sumn_Rsum. apply Rsum_ext. intros l _. rewrite map_map. cbn [fst snd].
  rewrite (Rsum_ext _ (fun x => t_Rinv t k i * t_Rinv t l i * (snd x * v (fst x)))%R) by (intros; ring). rewrite Rsum_map_mul. ring.
Qed.
Lemma mode_charge n t L i : transformed_mode n t L i = Charge <-> forall v, eval_entry v (transformed_entry n t L i) = 0%R.
Proof.
  unfold transformed_mode. cbv zeta. split.
  - destruct (forallb _ _) eqn:E; [|discriminate]. intros _ v. apply collect_zero. intros x Hx. rewrite forallb_forall in E. specialize (E x Hx). destruct (Req_EM_T _ 0); [auto|discriminate].
  - intros H. destruct (forallb _ _) eqn:E; auto. exfalso. apply Bool.not_true_iff_false in E. apply E, forallb_forall. intros x _. rewrite collect_eval, H. destruct (Req_EM_T 0 0); congruence.
Qed.
Section Circuit.
  Variables (s : cg) (M : imat).
  Hypothesis Hc : circuit s.
  Hypothesis Hcoup : c_coupled s = [].
  Hypothesis HM : inductance_matrix s (wcs s) = Ok M.
  Let HD : Derived s := circuit_derived s Hc.
  Let nodes := sys_nodes s.
  Let edges := wcs s.
  Notation n := (List.length nodes).
  Lemma lval_linv val i j : lval val (linv_diag nodes edges M i j) = sumn (A := R_rng) (List.length edges) (fun k => IZR (rbn nodes edges i k) * weight s val (nth k edges noedge) * IZR (rbn nodes edges j k))%R.
  Proof.
    rewrite sumn_Rsum. unfold linv_diag. assert (Hk : forall k, In k (seq 0 (List.length edges)) -> k < List.length edges) by (intros k H; apply in_seq in H; lia). revert Hk.
    assert (G : forall ks l, (forall k, In k ks -> k < List.length edges) -> lval val (fold_left (fun l k => match M k k with Some c => ladd l (TmL c) (rbn nodes edges i k * rbn nodes edges j k) | None => l end) ks l) =
      (lval val l + Rsum (map (fun k => IZR (rbn nodes edges i k) * weight s val (nth k edges noedge) * IZR (rbn nodes edges j k)) ks))%R).
    { induction ks as [|k ks IH]; intros l H; cbn [fold_left map]; [unfold Rsum; cbn; ring|]. rewrite IH by (intros; apply H; right; auto). rewrite Rsum_cons.
      rewrite (inductance_entries s edges M Hcoup HM k k), Nat.eqb_refl. specialize (H k (or_introl eq_refl)). apply Nat.ltb_lt in H. rewrite H. cbn [andb]. unfold weight. destruct (ind_name s (nth k edges noedge)) as [c|].
      - rewrite lval_ladd, mult_IZR. cbn [tval]. ring.
      - ring. }
    intros Hk. rewrite G by auto. cbn. ring.
  Qed.
  Lemma lval_form val x : (forall b, In b (branches_of "L" (c_graph s)) -> val (snd b) <> 0%R) -> x 0 = 0%R ->
    sumn (A := R_rng) n (fun k => sumn (A := R_rng) n (fun l => x (nth k nodes 0%nat) * lval val (linv_diag nodes edges M k l) * x (nth l nodes 0%nat)))%R = inductive_form val (c_graph s) x.
  Proof.
    intros Hv X0. destruct (pinv_exists s val M HD Hcoup HM) as (P & HP). rewrite <- (linv_form s val M P HD Hcoup HM HP Hv x X0). unfold form. cbv zeta. fold nodes edges.
    apply (sR_ext n). intros k _. apply (sR_ext n). intros l _. rewrite lval_linv. assert (E := linv_entry s val M P HD Hcoup HM HP Hv k l). fold nodes edges in E. rewrite E. ring.
  Qed.
  (** symbol values of the parameterised matrix *)
  Definition sym_val (val : string -> R) (x : string) : R :=
    match find (fun p => String.eqb x (mat_name "L" "i" (fst p) (snd p))) (upper n) with
    | Some p => lval val (linv_diag nodes edges M (fst p) (snd p))
    | None => match x with String _ (String _ c) => / val c | _ => 0 end
    end%R.
  Lemma upper_In i j : In (i, j) (upper n) <-> i <= j < n.
  Proof.
    unfold upper. rewrite in_flat_map. split.
    - intros (k & Hk & H). apply in_seq in Hk. apply in_map_iff in H as (l & E & Hl). injection E as <- <-. apply in_seq in Hl. lia.
    - intros H. exists i. split; [apply in_seq; lia|]. apply in_map_iff. exists j. split; auto. apply in_seq. lia.
  Qed.
  Lemma linv_terms i j t z : In (t, z) (linv_diag nodes edges M i j) -> exists c, t = TmL c.
  Proof. rewrite linv_diag_all. intros H. apply ladd_all_terms in H as [(k & c & _ & _ & E)|(y & [] & _)]. exists c. exact E. Qed.
  Lemma entry_value val i j : n <= 111 -> i < n -> j < n -> eval_entry (sym_val val) (linv_entries nodes edges M i j) = lval val (linv_diag nodes edges M i j).
  Proof.
    intros Hn Hi Hj. unfold linv_entries, entry_of.
    assert (Gn : eval_entry (sym_val val) [(mat_name "L" "i" (Nat.min i j) (Nat.max i j), 1%R)] = lval val (linv_diag nodes edges M i j)).
    { unfold eval_entry. cbn [map fst snd]. rewrite Rsum_cons, Rsum_nil. unfold sym_val. destruct (find _ _) as [[p q]|] eqn:E.
      - apply find_some in E as [E1 E2]. cbn [fst snd] in *. apply String.eqb_eq in E2. apply (mat_name_inj "L" "i" _ _ _ _ n Hn) in E2; [|apply upper_In; lia|auto]. injection E2 as <- <-. rewrite Rmult_1_l, Rplus_0_r, !lval_linv.
        destruct (Nat.le_gt_cases i j); [rewrite Nat.min_l, Nat.max_r by lia|rewrite Nat.min_r, Nat.max_l by lia]; auto. apply (sR_ext (List.length edges)). intros; ring.
      - exfalso. eapply find_none in E; [|apply (proj2 (upper_In (Nat.min i j) (Nat.max i j))); lia]. cbn [fst snd] in E. rewrite String.eqb_refl in E. discriminate E. }
    destruct (linv_diag nodes edges M i j) as [|[t z] r] eqn:El; [reflexivity|]. destruct (linv_terms i j t z) as (c & ->); [rewrite El; left; auto|]. destruct r as [|x r]; [|auto].
    unfold eval_entry. cbn [map fst snd lval fold_right tval]. rewrite Rsum_cons, Rsum_nil. f_equal. f_equal. unfold sym_val. destruct (find _ _) as [[p q]|] eqn:E; [|reflexivity].
    apply find_some in E as [_ E]. apply String.eqb_eq in E. unfold mat_name in E. cbn in E. discriminate E.
  Qed.
  (** the node fluxes of mode i *)
  Definition mode_flux (t : transform) (i : nat) (m : nat) : R := match index_of m nodes with Ok k => t_Rinv t k i | Err _ => 0%R end.
  Lemma mode_flux_nth t i k : k < n -> mode_flux t i (nth k nodes 0) = t_Rinv t k i.
  Proof.
    intros Hk. unfold mode_flux. assert (Hnd := nodes_NoDup nodes s HD eq_refl). replace (index_of (nth k nodes 0) nodes) with (Ok (A := nat) k); auto. symmetry.
    revert k Hk. induction nodes as [|m l IH]; intros k Hk; [cbn in Hk; lia|]. apply NoDup_cons_iff in Hnd as [Hm Hnd]. cbn [index_of]. destruct k as [|k]; cbn [nth].
    - replace (eqb m m) with true; auto. symmetry. apply eqb_eq; auto.
    - cbn in Hk. destruct (eqb (nth k l 0) m) eqn:E; [apply (proj1 (eqb_eq _ _)) in E; exfalso; apply Hm; rewrite <- E; apply nth_In; lia|]. rewrite IH by (auto; lia). auto.
  Qed.
  Lemma mode_flux_0 t i : mode_flux t i 0 = 0%R.
  Proof.
    unfold mode_flux. destruct (index_of 0 nodes) as [k|] eqn:E; auto. exfalso. apply (nodes0 s HD). fold nodes. revert k E. induction nodes as [|m l IH]; intros k E; [discriminate E|].
    cbn [index_of] in E. destruct (eqb 0 m) eqn:E0; [apply (proj1 (eqb_eq _ _)) in E0; left; auto|]. destruct (index_of 0 l) as [k'|]; [|discriminate E]. right. eauto.
  Qed.
  Lemma mode_value val t i : n <= 111 -> (forall b, In b (branches_of "L" (c_graph s)) -> val (snd b) <> 0%R) -> eval_entry (sym_val val) (transformed_entry n t (linv_entries nodes edges M) i) = inductive_form val (c_graph s) (mode_flux t i).
  Proof.
    intros Hn Hv. rewrite eval_transformed, <- (lval_form val (mode_flux t i) Hv (mode_flux_0 t i)). apply (sR_ext n). intros k Hk. apply (sR_ext n). intros l Hl. rewrite entry_value, !mode_flux_nth by auto. auto.
  Qed.
  Lemma form_zero x : inductive_form (fun _ => 1%R) (c_graph s) x = 0%R -> forall b, In b (branches_of "L" (c_graph s)) -> x (src (fst b)) = x (dst (fst b)).
  Proof.
    unfold inductive_form. intros H b Hb. eapply (Rsum_0_all _) in H; [|intros z Hz; apply in_map_iff in Hz as ([[[p q] k] c] & <- & _)|apply in_map_iff; exists b; split; [reflexivity|exact Hb]].
    - destruct b as [[[p q] k] c]. cbn [fst snd src dst]. assert ((x p - x q) * (x p - x q) = 0)%R by (rewrite <- H; field). assert (x p - x q = 0)%R by (destruct (Rmult_integral _ _ H0); auto). unfold src, dst. cbn. lra.
    - replace ((x p - x q) * (x p - x q) / 1)%R with (Rsqr (x p - x q))%R by (unfold Rsqr; field). apply Rle_0_sqr.
  Qed.
  Theorem charge_no_energy t i : n <= 111 -> transformed_mode n t (linv_entries nodes edges M) i = Charge -> forall b, In b (branches_of "L" (c_graph s)) -> mode_flux t i (src (fst b)) = mode_flux t i (dst (fst b)).
  Proof.
    intros Hn H. apply form_zero. rewrite <- mode_value by (auto; intros; lra). apply (proj1 (mode_charge _ _ _ _) H).
  Qed.
  (** without parameterised entries *)
  Hypothesis Hsingle : forall k l, k < n -> l < n -> List.length (linv_diag nodes edges M k l) <= 1.
  Lemma single_value v k l : k < n -> l < n -> (forall x, v x <> 0%R) -> eval_entry v (linv_entries nodes edges M k l) = lval (fun c => / v (("1/" ++ c)%string))%R (linv_diag nodes edges M k l).
  Proof.
    intros Hk Hl Hv. unfold linv_entries, entry_of. specialize (Hsingle k l Hk Hl). destruct (linv_diag nodes edges M k l) as [|[t z] r] eqn:El; [reflexivity|]. destruct (linv_terms k l t z) as (c & ->); [rewrite El; left; auto|].
    destruct r as [|x r]; [|cbn in Hsingle; lia]. unfold eval_entry. cbn [map fst snd lval fold_right tval]. rewrite Rsum_cons, Rsum_nil, Rinv_inv. auto.
  Qed.
  Lemma nonzero_suffices e : (forall v, (forall x, v x <> 0%R) -> eval_entry v e = 0%R) -> forall v, eval_entry v e = 0%R.
  Proof.
    intros H. assert (H1 : eval_entry (fun _ => 1%R) e = 0%R) by (apply H; intros; lra).
    assert (C : forall x, collect e x = 0%R).
    { intros x. rewrite collect_eval. assert (H2 : eval_entry (fun y => (1 + (if String.eqb x y then 1 else 0))%R) e = 0%R) by (apply H; intros y; destruct (String.eqb x y); lra).
      assert (A : eval_entry (fun y => (1 + (if String.eqb x y then 1 else 0))%R) e = (eval_entry (fun _ => 1%R) e + eval_entry (fun y => if String.eqb x y then 1%R else 0%R) e)%R).
      { unfold eval_entry. rewrite <- Rsum_map_add. apply Rsum_ext. intros; ring. }
      lra. }
    intros v. apply collect_zero. auto.
  Qed.
  Theorem no_energy_charge t i : (forall b, In b (branches_of "L" (c_graph s)) -> mode_flux t i (src (fst b)) = mode_flux t i (dst (fst b))) -> transformed_mode n t (linv_entries nodes edges M) i = Charge.
  Proof.
    intros H. apply mode_charge. apply nonzero_suffices. intros v Hv. rewrite eval_transformed. set (val := fun c => (/ v (("1/" ++ c)%string))%R).
    assert (Hval : forall b, In b (branches_of "L" (c_graph s)) -> val (snd b) <> 0%R) by (intros b _; apply Rinv_neq_0_compat; auto).
    transitivity (inductive_form val (c_graph s) (mode_flux t i)).
    - rewrite <- (lval_form val (mode_flux t i) Hval (mode_flux_0 t i)). apply (sR_ext n). intros k Hk. apply (sR_ext n). intros l Hl. rewrite single_value, !mode_flux_nth by auto. auto.
    - unfold inductive_form. apply Rsum_map_0. intros [[[p q] k] c] Hb. specialize (H _ Hb). cbn [fst] in H. unfold src, dst in H. cbn [fst snd] in H. rewrite H. unfold Rdiv. ring.
  Qed.
End Circuit.

(** C104 *)
Lemma enum_dict {V} (f : nat -> V) nodes i n : NoDup nodes -> nth_error nodes i = Some n ->
  dget (map (fun x : nat * nat => (snd x, f (fst x))) (enumerate nodes)) n = Some (f i).
Proof.
  intros ND Hi. unfold enumerate. assert (G : forall l k i, NoDup l -> nth_error l i = Some n -> dget (map (fun x : nat * nat => (snd x, f (fst x))) (combine (seq k (List.length l)) l)) n = Some (f (k + i))).
  { clear. induction l as [|m l IH]; intros k [|i] ND Hi; try discriminate Hi; cbn [List.length seq combine map fst snd dget].
    - injection Hi as ->. rewrite eqb_refl, Nat.add_0_r. auto.
    - inversion ND; subst. assert (In n l) by (eapply nth_error_In; eauto). rewrite (proj2 (eqb_neq n m)) by (intros ->; auto). cbn in Hi. rewrite (IH (S k) i); auto. do 2 f_equal. lia. }
  now rewrite (G nodes 0 i ND Hi).
Qed.
Lemma enum_keys {V} (f : nat -> V) nodes : dkeys (map (fun x : nat * nat => (snd x, f (fst x))) (enumerate nodes)) = nodes.
Proof.
  unfold enumerate. generalize 0. induction nodes as [|m l IH]; intros k; auto. cbn [List.length seq combine map fst snd dkeys]. exact (f_equal (cons m) (IH (S k))).
Qed.
Lemma single_charge n (Cm Ci : nat -> nat -> R) i q V : inverses n Cm Ci -> i < n ->
  (forall k, k < n -> times n Cm V k = if Nat.eqb k i then q else 0%R) -> energy n Cm V = (1 / 2 * q ^ 2 * Ci i i)%R.
Proof.
  intros HI Hi HV. unfold energy.
  assert (E : forall k, k < n -> V k = (Ci k i * q)%R).
  { intros k Hk. transitivity (sumn (A := R_rng) n (fun l => Ci k l * times n Cm V l)%R).
    - unfold times. transitivity (sumn (A := R_rng) n (fun m => (sumn (A := R_rng) n (fun l => Ci k l * Cm l m) * V m)%R)).
      + rewrite (@sumn_single R_rng n k); auto.
        * destruct (HI k k Hk Hk) as [_ ->]. rewrite Nat.eqb_refl. change (V k = 1 * V k)%R. ring.
        * intros m Hm Hn. destruct (HI k m Hk Hm) as [_ ->]. destruct (Nat.eqb_spec k m); [congruence|]. change (0 * V m = 0)%R. ring.
      + rewrite (@sumn_ext R_rng n _ (fun m => sumn (A := R_rng) n (fun l => (Ci k l * (Cm l m * V m))%R))).
        * rewrite (@sumn_swap R_rng). apply (@sumn_ext R_rng). intros l Hl. symmetry. exact (@sumn_mul_l R_rng n (Ci k l) _).
        * intros m Hm. rewrite (@sumn_mul_r R_rng n (V m)). apply (@sumn_ext R_rng). intros l Hl. change (Ci k l * Cm l m * V m = Ci k l * (Cm l m * V m))%R. ring.
    - rewrite (@sumn_single R_rng n i); auto; [now rewrite HV, Nat.eqb_refl by auto|].
      intros l Hl Hn. rewrite HV by auto. destruct (Nat.eqb_spec l i); [congruence|]. change (Ci k l * 0 = 0)%R. ring. }
  rewrite (@sumn_ext R_rng n _ (fun k => (V k * times n Cm V k)%R)).
  - rewrite (@sumn_single R_rng n i); auto.
    + rewrite HV, Nat.eqb_refl, E by auto. ring.
    + intros k Hk Hn. rewrite HV by auto. destruct (Nat.eqb_spec k i); [congruence|]. change (V k * 0 = 0)%R. ring.
  - intros k Hk. unfold times. rewrite (@sumn_mul_l R_rng n (V k)). apply (@sumn_ext R_rng). intros j Hj. change (V k * Cm k j * V j = V k * (Cm k j * V j))%R. ring.
Qed.
Lemma single_particle y e Cm Ci : NoDup (ss_nodes y) -> inverses (List.length (ss_nodes y)) Cm Ci ->
  let d := getSingleParticleChargingEnergies y e Ci in dkeys d = ss_nodes y /\
  forall i n V, nth_error (ss_nodes y) i = Some n ->
    (forall k, k < List.length (ss_nodes y) -> times (List.length (ss_nodes y)) Cm V k = if Nat.eqb k i then (2 * e)%R else 0%R) ->
    dget d n = Some (energy (List.length (ss_nodes y)) Cm V).
Proof.
  intros ND HI d. split; [exact (enum_keys (fun i => (1 / 2 * (2 * e) ^ 2 * Ci i i)%R) (ss_nodes y))|]. intros i n V Hi HV.
  assert (i < List.length (ss_nodes y)) by (apply nth_error_Some; congruence).
  rewrite (single_charge _ Cm Ci i (2 * e) V); auto. unfold d, getSingleParticleChargingEnergies.
  exact (enum_dict (fun i => (1 / 2 * (2 * e) ^ 2 * Ci i i)%R) (ss_nodes y) i n ND Hi).
Qed.
