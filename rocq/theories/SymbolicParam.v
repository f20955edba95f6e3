(** Replacing matrix entries by parameters (C52, C78). *)
From Coq Require Import List Bool String Ascii Arith ZArith Permutation Lia Relations DecimalString DecimalNat DecimalN.
From Verif Require Import Prelude PreludeFacts Float Param Expr Sweep SweepProofs Latex LatexProofs Coll CollGraph CollSpec CollProofs SweepSliceProofs Graph Symbolic.
Import ListNotations.
Open Scope string_scope.
Open Scope list_scope.
Open Scope nat_scope.

(** ** legal parameter names *)
Lemma param_default_ok nm : nm <> "" -> has_space nm = false -> exists p, param_default nm = Ok p /\ p_symbol p = sym_of nm.
Proof.
  intros H1 H2. unfold param_default, param_new. rewrite H2. change (bounds_types_ok _ _) with true. cbv beta iota delta [negb].
  destruct (py_gt _ _) eqn:E1; [vm_compute in E1; discriminate|]. destruct (valid_scalar _) eqn:E2; [|vm_compute in E2; discriminate]. cbn [to_float bind].
  destruct (flt _ _) eqn:E3; [vm_compute in E3; discriminate|]. destruct nm as [|a r]; [easy|]. cbn [default_symbol bind].
  destruct (latexify_total (String a r)) as (l & ->); [discriminate|]. cbn [bind]. eauto.
Qed.
Lemma has_space_app a b : has_space (a ++ b)%string = has_space a || has_space b.
Proof. induction a as [|c a IH]; cbn; auto. rewrite IH, orb_assoc. auto. Qed.
Lemma uint_no_space u : has_space (NilEmpty.string_of_uint u) = false.
Proof. induction u; cbn; auto. Qed.
Lemma nat_str_no_space n : has_space (nat_str n) = false.
Proof. unfold nat_str, dec, NilZero.string_of_uint. destruct (N.to_uint _) eqn:E; [reflexivity|..]; rewrite <- E; apply uint_no_space. Qed.
Lemma mat_name_no_space p sfx i j : has_space p = false -> has_space sfx = false -> has_space (mat_name p sfx i j) = false.
Proof. intros H1 H2. unfold mat_name. rewrite !has_space_app, H1, H2, !nat_str_no_space. auto. Qed.
Lemma append_len a b : String.length (a ++ b)%string = String.length a + String.length b.
Proof. induction a; cbn; auto. Qed.
Lemma str_append_inj_r a b c : (a ++ c = b ++ c)%string -> a = b.
Proof.
  revert b. induction a as [|x a IH]; intros b H; destruct b as [|y b]; cbn in H; auto.
  - exfalso. apply (f_equal String.length) in H. cbn in H. rewrite append_len in H. lia.
  - exfalso. apply (f_equal String.length) in H. cbn in H. rewrite append_len in H. lia.
  - injection H as -> H. f_equal. auto.
Qed.
Lemma sym_of_inj a b : a <> "" -> sym_of a = sym_of b -> a = b.
Proof. destruct a as [|x a]; [easy|]. destruct b as [|y b]; cbn; [discriminate|]. intros _ [= -> H]. f_equal. eapply str_append_inj_r; eauto. Qed.
Lemma sym_of_head a x r : sym_of a = String x r -> exists r', a = String x r'.
Proof. destruct a; cbn; [discriminate|]. intros [= -> _]. eauto. Qed.

Lemma stepM_inv {A S} (P : S -> Prop) (f : S -> A -> S * res unit) l : forall s, (forall s x, In x l -> P s -> exists s', f s x = (s', Ok tt) /\ P s') -> P s ->
  exists s', stepM f l s = (s', Ok tt) /\ P s'.
Proof.
  unfold stepM. induction l as [|x l IH]; intros s Hf Hs; cbn [fold_left]; eauto.
  destruct (Hf s x) as (s' & -> & H'); [left; auto|auto|]. apply IH; auto. intros; apply Hf; auto. right; auto.
Qed.
Lemma stepM_app {A S} (f : S -> A -> S * res unit) l l' s s' : stepM f l s = (s', Ok tt) -> stepM f (l ++ l') s = stepM f l' s'.
Proof. unfold stepM. intros H. rewrite fold_left_app, H. auto. Qed.

(** ** edges into fresh names make no cycle *)
Lemma path_out edges x y : path edges x y -> exists b, In (x, b) edges.
Proof. induction 1 as [x y H|x y z _ IH1 _ IH2]; eauto. Qed.
Lemma path_in edges x y : path edges x y -> exists a, In (a, y) edges.
Proof. induction 1 as [x y H|x y z _ IH1 _ IH2]; eauto. Qed.
Lemma acyclic_sink edges edges' nm : acyclic edges -> (forall a b, In (a, b) edges' -> In (a, b) edges \/ b = nm) -> (forall b, ~ In (nm, b) edges') -> acyclic edges'.
Proof.
  intros Ha Hin Hno x Hx.
  assert (G : forall x y, path edges' x y -> y = nm \/ path edges x y).
  { clear x Hx. induction 1 as [x y H|x y z H1 IH1 H2 IH2].
    - destruct (Hin _ _ H) as [H'| ->]; [right; apply t_step; auto|auto].
    - destruct IH2 as [->|IH2]; auto. destruct IH1 as [->|IH1].
      + apply path_out in H2 as (b & Hb). exfalso. eapply Hno; eauto.
      + right. eapply t_trans; eauto. }
  destruct (G _ _ Hx) as [->|H]; [|eapply Ha; eauto]. apply path_out in Hx as (b & Hb). eapply Hno; eauto.
Qed.

(** the symbol of a parameter: made from its name, or that of a flux bias *)
Definition named (k sy : string) : Prop := sy = sym_of k \/ (starts "\" sy = true /\ starts "p" k = true).
Section Parameterise.
  Variables (ord : ordr) (name : nat -> nat -> string) (n : nat) (M : nat -> nat -> option tree).
  Hypothesis Hord : good_ord ord.
  Hypothesis Hname : forall i j, name i j <> "" /\ has_space (name i j) = false /\ starts "\" (name i j) = false.
  Variables (Q Old : string -> Prop) (reg : list string).
  Definition generated (c : string) : Prop := exists i j, In (i, j) (upper n) /\ c = name i j.
  (** what the collection looks like before and between the entries *)
  Record ready (st : cst tree_alg) : Prop := {
    r_wf : wf st;
    r_sym : forall k sy, dget (c_sym st) k = Some sy -> named k sy;
    r_used : forall i j e sy, In (i, j) (upper n) -> M i j = Some e -> In sy (tfree e) -> exists c, sy = sym_of c /\ c <> "" /\ starts "\" c = false /\ dget (c_sym st) c = Some sy /\ ~ generated c /\ Q c /\ In c reg;
    r_out : forall a b, In (a, b) (c_edges st) -> ~ generated a /\ Q a;
    r_reg : forall c, In c reg -> dget (c_sym st) c = Some (sym_of c);
    r_par : forall k, In k (dkeys (c_par st)) -> In k (dkeys (c_coll st));
    r_exp : forall k e names, dget (c_par st) k = Some (e : E tree_alg, names) -> (generated k \/ Old k) /\ forall sy, In sy (tfree e) -> exists c, sy = sym_of c /\ In c reg
  }.
  Lemma resolve st sy k : ready st -> (exists i j e, In (i, j) (upper n) /\ M i j = Some e /\ In sy (tfree e)) -> names_symbol st sy k -> sy = sym_of k /\ ~ generated k /\ Q k.
  Proof.
    intros Hr (i & j & e & Hi & HM & Hs) Hk. destruct (r_used st Hr i j e sy Hi HM Hs) as (c & -> & Hc & Hc' & Hd & Hg & HQ & _).
    assert (Hk' : dget (c_sym st) k = Some (sym_of c)).
    { apply names_symbol_dget; auto. rewrite <- (wf_keys st (r_wf st Hr)). apply (r_wf st Hr). }
    destruct (r_sym st Hr _ _ Hk') as [E|[E _]].
    - apply sym_of_inj in E; auto. subst. auto.
    - exfalso. destruct c as [|a c]; [easy|]. cbn in Hc', E. congruence.
  Qed.
  Definition stored (st : cst tree_alg) (i j : nat) (e : tree) : Prop := exists names, dget (c_par st) (name i j) = Some (e : E tree_alg, names) /\
    Forall2 (fun sy k => sy = sym_of k) (ord [0] (tfree e)) names.
  Lemma entry_step st i j : In (i, j) (upper n) -> ready st -> exists st', parameterise_entry ord name M st (i, j) = (st', Ok tt) /\ ready st' /\
    (forall k, k <> name i j -> dget (c_par st') k = dget (c_par st) k /\ dget (c_coll st') k = dget (c_coll st) k) /\
    match M i j with Some e => if List.length (tfree e) <? 2 then st' = st else stored st' i j e | None => st' = st end.
  Proof.
    intros Hij Hr. unfold parameterise_entry. cbn [fst snd]. destruct (M i j) as [e|] eqn:HM; [|exists st; auto]. destruct (List.length (tfree e) <? 2) eqn:HL; [exists st; auto|].
    set (nm := name i j). destruct (Hname i j) as (N1 & N2 & N3). fold nm in N1, N2, N3. assert (Gn : generated nm) by (exists i, j; auto).
    assert (H1 : exists st1, addParameter st nm None = (st1, Ok tt) /\ ready st1 /\ dmem (c_coll st1) nm = true /\ c_par st1 = c_par st /\ (forall k, k <> nm -> dget (c_coll st1) k = dget (c_coll st) k)).
    { unfold addParameter. destruct (dmem (c_coll st) nm) eqn:Ed; [exists st; auto|]. destruct (param_default_ok nm N1 N2) as (p & Ep & Es). rewrite Ep.
      eexists. split; [reflexivity|]. split; [|split; [|split; [auto|]]]; cs.
      - destruct Hr as [Hw Hs Hu Ho HR HP HE]. split; cs.
        + apply wf_add; auto.
        + intros k sy. rewrite dget_dset. destruct (eqb_spec k nm) as [->|]; [intros [= <-]; left; auto|auto].
        + intros i' j' e' sy Hi' HM' Hs'. destruct (Hu i' j' e' sy Hi' HM' Hs') as (c & E1 & E2 & E3 & E4 & E5 & E6 & E7). exists c. repeat split; auto.
          rewrite dget_dset. destruct (eqb_spec c nm) as [->|]; [tauto|auto].
        + auto.
        + intros c Hc. rewrite dget_dset. destruct (eqb_spec c nm) as [->|]; [congruence|auto].
        + intros k Hk. apply In_dkeys_dset. auto.
        + exact HE.
      - apply mem_In. apply In_dkeys_dset. auto.
      - intros k Hk. rewrite dget_dset_neq; auto. }
    destruct H1 as (st1 & -> & Hr1 & Hd & Hp & Hcc).
    destruct (addP_cases ord st1 nm (e : E tree_alg)) as [(_ & [Hn|(sy & Hs & Hn)])|(names & _ & HN & Hg)].
    - exfalso. apply Hn. apply mem_In in Hd. auto.
    - exfalso. apply Hn. eapply Permutation_in in Hs; [|apply Hord]. destruct (r_used st1 Hr1 i j e sy Hij HM Hs) as (c & _ & _ & _ & Hc & _). apply dget_In in Hc. apply (in_map snd) in Hc. auto.
    - assert (HF := expr_names_spec _ _ _ HN).
      assert (HF' : Forall2 (fun sy k => sy = sym_of k /\ ~ generated k /\ Q k) (ord [0] (tfree e)) names).
      { assert (G : forall sy, In sy (ord [0] (tfree e)) -> In sy (tfree e)) by (intros sy; apply Permutation_in, Hord).
        change (@free tree_alg e) with (tfree e) in HF. clear Hg HN. revert G HF. generalize (ord [0] (tfree e)). intros l G HF. induction HF as [|sy k l l' Hk HF IH]; constructor.
        - apply (resolve st1); auto. exists i, j, e. repeat split; auto. apply G. left; auto.
        - apply IH. intros; apply G; right; auto. }
      cbv zeta in Hg. set (g := fold_left (fun g p => Coll.add_edge g p nm) names (c_nodes st1, c_edges st1)) in *.
      assert (Hed : forall a b, In (a, b) (snd g) -> In (a, b) (c_edges st1) \/ In a names /\ b = nm).
      { intros a b H. apply add_edges_In in H as [H|(p & Hp' & E)]; auto. injection E as -> ->. auto. }
      assert (Hout : forall a b, In (a, b) (snd g) -> ~ generated a /\ Q a).
      { intros a b H. apply Hed in H as [H|[H ->]]; [eapply r_out; eauto|]. destruct (Forall2_In_r _ _ _ _ HF' H) as (sy & _ & _ & H1' & H2'). auto. }
      assert (Hdag : is_dag (fst g) (snd g) = true).
      { apply is_dag_spec; [apply add_edges_in_nodes, (r_wf st1 Hr1)|]. apply (acyclic_sink (c_edges st1) _ nm); [apply (r_wf st1 Hr1)| |].
        - intros a b H. apply Hed in H as [H|[_ H]]; auto.
        - intros b H. apply Hout in H as [H _]. auto. }
      destruct Hg as [[_ Hg]|[Hg _]]; [|congruence]. rewrite Hg. eexists. split; [reflexivity|]. split; [|split].
      + assert (Hw := wf_addP ord st1 nm (e : E tree_alg) (r_wf st1 Hr1)). rewrite Hg in Hw. assert (HX : forall sy, In sy (tfree e) -> exists c, sy = sym_of c /\ In c reg) by (intros sy Hs; destruct (r_used st1 Hr1 i j e sy Hij HM Hs) as (c & ? & _ & _ & _ & _ & _ & ?); eauto).
        destruct Hr1 as [_ Hs Hu Ho HR HP HE]. split; cs; auto; [intros k Hk; apply In_dkeys_dset in Hk as [->|Hk]; auto; apply mem_In; auto|].
        intros k e' names'. rewrite dget_dset. destruct (eqb_spec k nm) as [->|]; [|apply HE]. intros H. injection H as <- _. split; auto.
      + intros k Hk. cs. split; [rewrite dget_dset_neq by auto; congruence|auto].
      + exists names. cs. split; [apply dget_dset_eq|]. clear -HF'. induction HF' as [|sy k l l' [H _] HF IH]; constructor; auto.
  Qed.
  Lemma parameterise_ok st : ready st -> exists st', parameterise ord name n M st = (st', Ok tt) /\ ready st'.
  Proof.
    intros Hr. unfold parameterise. apply stepM_inv; auto. intros s [i j] Hij Hs. destruct (entry_step s i j Hij Hs) as (s' & E & Hs' & _). eauto.
  Qed.
  Definition name_of (x : nat * nat) : string := name (fst x) (snd x).
  Lemma parameterise_stored st st' : ready st -> NoDup (map name_of (upper n)) -> parameterise ord name n M st = (st', Ok tt) ->
    (forall i j e, In (i, j) (upper n) -> M i j = Some e -> 2 <= List.length (tfree e) -> stored st' i j e) /\
    (forall k, ~ generated k -> dget (c_par st') k = dget (c_par st) k /\ dget (c_coll st') k = dget (c_coll st) k).
  Proof.
    intros Hr Hnd. unfold parameterise.
    assert (G : forall l st st', (forall x, In x l -> In x (upper n)) -> NoDup (map name_of l) -> ready st -> stepM (parameterise_entry ord name M) l st = (st', Ok tt) ->
      (forall i j e, In (i, j) l -> M i j = Some e -> 2 <= List.length (tfree e) -> stored st' i j e) /\
      (forall k, ~ In k (map name_of l) -> dget (c_par st') k = dget (c_par st) k /\ dget (c_coll st') k = dget (c_coll st) k)).
    { clear st st' Hr Hnd. induction l as [|[i j] l IH]; intros st st' Hl Hn Hr E.
      - injection E as <-. split; [easy|auto].
      - cbn [map] in Hn. apply NoDup_cons_iff in Hn as [Hx Hn]. destruct (entry_step st i j (Hl _ (or_introl eq_refl)) Hr) as (s1 & E1 & Hr1 & Hk1 & HM1).
        assert (E2 : stepM (parameterise_entry ord name M) l s1 = (st', Ok tt)). { rewrite <- E. symmetry. apply (stepM_app (parameterise_entry ord name M) [(i, j)] l st s1). cbn. auto. }
        destruct (IH s1 st' (fun x H => Hl x (or_intror H)) Hn Hr1 E2) as [I1 I2]. split.
        + intros i' j' e [H|H] HM He; [|eauto]. injection H as <- <-. rewrite HM in HM1. apply Nat.ltb_ge in He. rewrite He in HM1.
          destruct HM1 as (names & Hd & HF). exists names. split; auto. rewrite <- Hd. apply (I2 _ Hx).
        + intros k Hk. cbn [map] in Hk. destruct (I2 k) as [H1 H2]; [intros H; apply Hk; right; auto|]. destruct (Hk1 k) as [H3 H4]; [intros ->; apply Hk; left; auto|]. split; congruence. }
    intros E. destruct (G (upper n) st st' (fun _ H => H) Hnd Hr E) as [G1 G2]. split; auto. intros k Hk. apply G2. intros H. apply Hk. apply in_map_iff in H as ([i j] & <- & H). exists i, j. auto.
  Qed.
End Parameterise.

(** ** distinct names *)
Lemma upper_In n i j : In (i, j) (upper n) <-> i <= j < n.
Proof.
  unfold upper. rewrite in_flat_map. split.
  - intros (a & Ha & H). apply in_map_iff in H as (b & E & Hb). injection E as -> ->. apply in_seq in Ha, Hb. lia.
  - intros H. exists i. split; [apply in_seq; lia|]. apply in_map. apply in_seq. lia.
Qed.
Definition digit (c : ascii) : nat := nat_of_ascii c - 48.
Fixpoint digits (s : string) : list nat := match s with EmptyString => [] | String c r => digit c :: digits r end.
Definition number (l : list nat) : nat := fold_left (fun a d => 10 * a + d) l 0.
(** which two numbers, the first at most the second and both below 111, were
    written one after the other *)
Definition decode (s : string) : nat * nat :=
  let l := digits s in
  let at_ k := (number (firstn k l), number (skipn k l)) in
  if Nat.eqb (hd 0 l) 0 then at_ 1 else
  match List.length l with
  | 2 | 3 => at_ 1
  | 4 => if fst (at_ 2) <=? snd (at_ 2) then at_ 2 else at_ 1
  | 5 => at_ 2
  | _ => at_ 3
  end.
Lemma decode_ok : forallb (fun x => eqb (decode (nat_str (fst x) ++ nat_str (snd x))%string) x) (upper 111) = true.
Proof. vm_compute. reflexivity. Qed.
Lemma str_append_inj_l a b c : (c ++ a = c ++ b)%string -> a = b.
Proof. induction c; cbn; auto. intros [= H]. auto. Qed.
Lemma append_assoc' a b c : ((a ++ b) ++ c = a ++ (b ++ c))%string.
Proof. induction a; cbn; auto. now rewrite IHa. Qed.
Lemma mat_name_inj p sfx i j i' j' n : n <= 111 -> In (i, j) (upper n) -> In (i', j') (upper n) -> mat_name p sfx i j = mat_name p sfx i' j' -> (i, j) = (i', j').
Proof.
  intros Hn H1 H2 E. unfold mat_name in E. apply str_append_inj_l in E. rewrite <- !append_assoc' in E. apply str_append_inj_r in E.
  assert (D := decode_ok). rewrite forallb_forall in D.
  assert (G : forall a b, In (a, b) (upper n) -> decode (nat_str a ++ nat_str b)%string = (a, b)).
  { intros a b H. apply (proj1 (eqb_eq _ _)). apply (D (a, b)). apply upper_In. apply upper_In in H. lia. }
  rewrite <- (G i j), <- (G i' j') by auto. now rewrite E.
Qed.
Lemma NoDup_flat {A B} (f : A -> list B) l : NoDup l -> (forall a, In a l -> NoDup (f a)) -> (forall a a' b, In a l -> In a' l -> In b (f a) -> In b (f a') -> a = a') -> NoDup (flat_map f l).
Proof.
  induction l as [|a l IH]; cbn; intros Hn Hf Hd; [constructor|]. apply NoDup_cons_iff in Hn as [Ha Hn]. apply NoDup_app_disj; auto.
  - apply IH; auto. intros; eapply Hd; eauto.
  - intros b H1 H2. apply in_flat_map in H2 as (a' & Ha' & H2). assert (a = a') by (eapply Hd; eauto). subst. auto.
Qed.
Lemma upper_NoDup n : NoDup (upper n).
Proof.
  unfold upper. apply NoDup_flat; [apply seq_NoDup| |].
  - intros a _. apply FinFun.Injective_map_NoDup; [|apply seq_NoDup]. intros x y [= H]. auto.
  - intros a a' b _ _ H1 H2. apply in_map_iff in H1 as (x & <- & _). apply in_map_iff in H2 as (y & E & _). congruence.
Qed.
Lemma NoDup_map_on {A B} (f : A -> B) l : NoDup l -> (forall x y, In x l -> In y l -> f x = f y -> x = y) -> NoDup (map f l).
Proof.
  induction l as [|a l IH]; cbn; intros Hn Hf; [constructor|]. apply NoDup_cons_iff in Hn as [Ha Hn]. constructor; auto.
  intros H. apply in_map_iff in H as (x & E & Hx). assert (x = a) by auto. subst. auto.
Qed.
Lemma mat_names_distinct p sfx n : NoDup (map (name_of (mat_name p sfx)) (upper n)) <-> n <= 111.
Proof.
  split.
  - intros H. destruct (Nat.le_gt_cases n 111) as [|Hn]; auto. exfalso.
    assert (E : name_of (mat_name p sfx) (1, 111) = name_of (mat_name p sfx) (11, 11)) by reflexivity.
    assert (H1 : In (1, 111) (upper n)) by (apply upper_In; lia). assert (H2 : In (11, 11) (upper n)) by (apply upper_In; lia).
    assert (G : forall l, NoDup (map (name_of (mat_name p sfx)) l) -> In (1, 111) l -> In (11, 11) l -> False).
    { clear -E. induction l as [|x l IH]; cbn [map In]; intros Hn A B; [easy|]. apply NoDup_cons_iff in Hn as [Hx Hn].
      destruct A as [->|A], B as [B|B]; [discriminate| | |auto].
      - apply Hx. rewrite E. apply in_map; auto.
      - subst. apply Hx. rewrite <- E. apply in_map; auto. }
    eapply G; eauto.
  - intros Hn. apply NoDup_map_on; [apply upper_NoDup|]. intros [i j] [i' j'] H1 H2 E. eapply mat_name_inj; eauto.
Qed.
