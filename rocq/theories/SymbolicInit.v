(** Constructing a SymbolicSystem (C50), coordinate modes (C51), moving a flux
    bias (C53). *)
From Coq Require Import List Bool String Ascii Arith ZArith Permutation Lia.
From Verif Require Import Prelude PreludeFacts Float Param Expr Coll CollGraph CollSpec CollProofs Graph GraphSpec GraphView GraphForest GraphWf GraphCircuit GraphState GraphMaps GraphOps Symbolic SymbolicSpec SymbolicInv SymbolicCap SymbolicCap2 SymbolicFlux SymbolicParam.
Import ListNotations.
Open Scope string_scope.
Open Scope list_scope.
Open Scope nat_scope.

(** ** entries of the inverse inductance matrix as sums of like signs *)
Lemma ladd_sign (sg : Z) l t z : sg <> 0%Z -> (forall x, In x l -> (0 < sg * snd x)%Z) -> (0 <= sg * z)%Z -> (forall x, In x (ladd l t z) -> (0 < sg * snd x)%Z).
Proof.
  intros Hsg. induction l as [|[t' z'] l IH]; cbn [ladd]; intros Hl Hz x Hx.
  - destruct (Z.eqb_spec z 0); [easy|]. destruct Hx as [<-|[]]. cbn [snd]. nia.
  - assert (H' : (0 < sg * z')%Z) by (apply (Hl (t', z')); left; auto). destruct (term_eqb t t').
    + destruct (Z.eqb_spec (z' + z) 0); [nia|]. destruct Hx as [<-|Hx]; [cbn [snd]; nia|]. apply Hl. right; auto.
    + destruct Hx as [<-|Hx]; [auto|]. apply IH; auto. intros; apply Hl; right; auto.
Qed.
Lemma ladd_nil (sg : Z) l t z : (forall x, In x l -> (0 < sg * snd x)%Z) -> (0 <= sg * z)%Z -> ladd l t z = [] <-> l = [] /\ z = 0%Z.
Proof.
  intros Hl Hz. destruct l as [|[t' z'] l]; cbn [ladd].
  - destruct (Z.eqb_spec z 0); split; auto; try discriminate. intros [_ H]; easy.
  - assert (H' : (0 < sg * z')%Z) by (apply (Hl (t', z')); left; auto). split; [|intros [H _]; discriminate]. destruct (term_eqb t t'); [|discriminate]. destruct (Z.eqb_spec (z' + z) 0); [nia|discriminate].
Qed.
Lemma ladd_terms l t z x : In x (ladd l t z) -> fst x = t \/ exists y, In y l /\ fst y = fst x.
Proof.
  induction l as [|[t' z'] l IH]; cbn [ladd]; intros H.
  - destruct (Z.eqb z 0); [easy|]. destruct H as [<-|[]]. auto.
  - destruct (term_eqb t t').
    + destruct (Z.eqb (z' + z) 0); [right; exists x; split; [right|]; auto|]. destruct H as [<-|H]; right; [exists (t', z'); split; [left|]|exists x; split; [right|]]; auto.
    + destruct H as [<-|H]; [right; exists (t', z'); split; [left|]; auto|]. destruct (IH H) as [|(y & Hy & E)]; auto. right; exists y; split; [right|]; auto.
Qed.
Section Linv.
  Variables (nodes : list nat) (edges : list edge) (M : imat).
  Definition coef (i j k : nat) : Z := (rbn nodes edges i k * rbn nodes edges j k)%Z.
  Definition ladd_all (i j : nat) (ks : list nat) (l : lin) : lin := fold_left (fun l k => match M k k with Some c => ladd l (TmL c) (coef i j k) | None => l end) ks l.
  Lemma ladd_all_nil sg i j : sg <> 0%Z -> (forall k, (0 <= sg * coef i j k)%Z) -> forall ks l, (forall x, In x l -> (0 < sg * snd x)%Z) ->
    ladd_all i j ks l = [] <-> l = [] /\ forall k c, In k ks -> M k k = Some c -> coef i j k = 0%Z.
  Proof.
    intros Hsg Hs. induction ks as [|k ks IH]; intros l Hl; cbn [ladd_all fold_left]; [split; [intros ->; auto; split; easy|tauto]|].
    destruct (M k k) as [c|] eqn:E.
    - change (ladd_all i j ks (ladd l (TmL c) (coef i j k)) = [] <-> l = [] /\ (forall k0 c0, In k0 (k :: ks) -> M k0 k0 = Some c0 -> coef i j k0 = 0%Z)).
      rewrite IH by (intros; eapply ladd_sign; eauto). rewrite (ladd_nil sg) by auto. split.
      + intros [[-> H1] H2]. split; auto. intros k' c' [<-|H]; auto. intros H'. eauto.
      + intros [-> H2]. split; [split; auto; eapply H2; [left; auto|eauto]|]. intros; eapply H2; [right; eauto|eauto].
    - change (ladd_all i j ks l = [] <-> l = [] /\ (forall k0 c0, In k0 (k :: ks) -> M k0 k0 = Some c0 -> coef i j k0 = 0%Z)).
      rewrite IH by auto. split; intros [-> H]; split; auto; intros k' c'; [|intros; eapply H; [right; eauto|eauto]]. intros [<-|Hk] H'; [congruence|eauto].
  Qed.
  Lemma ladd_all_terms i j ks : forall l x, In x (ladd_all i j ks l) -> (exists k c, In k ks /\ M k k = Some c /\ fst x = TmL c) \/ exists y, In y l /\ fst y = fst x.
  Proof.
    induction ks as [|k ks IH]; intros l x; cbn [ladd_all fold_left]; [eauto|]. destruct (M k k) as [c|] eqn:E.
    - intros H. apply IH in H as [(k' & c' & H1 & H2 & H3)|(y & Hy & E')]; [left; exists k', c'; split; [right|]; auto|].
      apply ladd_terms in Hy as [Hy|(z & Hz & E'')]; [left; exists k, c; split; [left; auto|split; congruence]|right; exists z; split; congruence].
    - intros H. apply IH in H as [(k' & c' & H1 & H2 & H3)|H]; auto. left; exists k', c'; split; [right|]; auto.
  Qed.
  Lemma linv_diag_all i j : linv_diag nodes edges M i j = ladd_all i j (seq 0 (List.length edges)) [].
  Proof. reflexivity. Qed.
  Lemma coef_sign i j : NoDup nodes -> i < List.length nodes -> j < List.length nodes -> forall k, (0 <= (if Nat.eqb i j then 1 else -1) * coef i j k)%Z.
  Proof.
    intros Hn Hi Hj k. unfold coef, rbn. rewrite (nth_error_nth' nodes 0 Hi), (nth_error_nth' nodes 0 Hj). destruct (nth_error edges k) as [e|]; [|destruct (Nat.eqb i j); cbn; lia].
    destruct (Nat.eqb_spec (src e) (dst e)) as [Esd|Esd]; [destruct (Nat.eqb i j); cbn; lia|].
    destruct (Nat.eqb_spec i j) as [-> |Hne].
    - destruct (Nat.eqb (src e) _); [lia|]. destruct (Nat.eqb (dst e) _); lia.
    - destruct (Nat.eqb_spec (src e) (nth i nodes 0)) as [E1|E1], (Nat.eqb_spec (src e) (nth j nodes 0)) as [E2|E2]; try (exfalso; apply Hne; apply (proj1 (NoDup_nth nodes 0) Hn); congruence);
      destruct (Nat.eqb_spec (dst e) (nth i nodes 0)) as [E3|E3], (Nat.eqb_spec (dst e) (nth j nodes 0)) as [E4|E4]; try (exfalso; apply Hne; apply (proj1 (NoDup_nth nodes 0) Hn); congruence); lia.
  Qed.
  Lemma linv_zero i j : NoDup nodes -> i < List.length nodes -> j < List.length nodes ->
    linv_diag nodes edges M i j = [] <-> forall k c, k < List.length edges -> M k k = Some c -> coef i j k = 0%Z.
  Proof.
    intros Hn Hi Hj. rewrite linv_diag_all, (ladd_all_nil (if Nat.eqb i j then 1 else -1)%Z); [|destruct (Nat.eqb i j); discriminate|auto using coef_sign|easy].
    split; [intros [_ H] k c Hk; apply H; apply in_seq; lia|]. intros H. split; auto. intros k c Hk. apply H. apply in_seq in Hk. lia.
  Qed.
End Linv.
Lemma term_tree_free t x : In x (tfree (term_tree t)) -> match t with TmC c | TmL c => x = sym_of c | TmR a b => x = sym_of a \/ x = sym_of b end.
Proof.
  destruct t; cbn [term_tree tfree].
  - intros [<-|[]]; auto.
  - intros [<-|[]]; auto.
  - rewrite dedup_In, in_app_iff, !dedup_In, !in_app_iff. cbn. intuition.
Qed.
Lemma lin_tree_free l e x : lin_tree l = Some e -> In x (tfree e) -> exists t z, In (t, z) l /\ In x (tfree (term_tree t)).
Proof.
  revert e. induction l as [|[t z] l IH]; cbn [lin_tree]; intros e; [discriminate|]. intros [= <-] H. destruct (lin_tree l) as [e'|].
  - cbn [tfree] in H. rewrite dedup_In, in_app_iff in H. destruct H as [H|H].
    + rewrite dedup_In, in_app_iff in H. destruct H as [[]|H]. exists t, z. split; [left|]; auto.
    + destruct (IH e' eq_refl H) as (t' & z' & H1 & H2). exists t', z'. split; [right|]; auto.
  - cbn [tfree] in H. rewrite dedup_In, in_app_iff in H. destruct H as [[]|H]. exists t, z. split; [left|]; auto.
Qed.
Lemma lin_tree_none l : lin_tree l = None <-> l = [].
Proof. destruct l as [|[t z] l]; cbn; split; auto; discriminate. Qed.

(** ** coordinate modes *)
Section Modes.
  Variables (z : nat -> nat -> bool) (nodes : list nat).
  Hypothesis Hnd : NoDup nodes.
  Let n := List.length nodes.
  Let nd k := nth k nodes 0.
  Definition mode_at (k : nat) : mode := if z k k then Charge else if existsb (fun i => negb (z k i)) (seq (S k) (n - S k)) then Charge else Oscillator.
  Record minv (index : nat) (ch : list nat) (d : dict nat mode) : Prop := {
    m_lt : forall k, k < index -> In k ch;
    m_n : forall k, In k ch -> k < n;
    m_keys : forall v, In v (dkeys d) <-> exists k, In k ch /\ v = nd k;
    m_nd : NoDup (dkeys d);
    m_done : forall k, k < index -> dget d (nd k) = Some (mode_at k);
    m_rest : forall k, In k ch -> index <= k -> dget d (nd k) = Some Charge /\ exists k', k' < index /\ k' < k /\ z k' k = false
  }.
  Lemma nd_inj a b : a < n -> b < n -> nd a = nd b -> a = b.
  Proof. intros. apply (proj1 (NoDup_nth nodes 0) Hnd); auto. Qed.
  Lemma fold_charge later : forall d, (forall v, dget (fold_left (fun d i => dset d (nth i nodes 0) Charge) later d) v = if mem v (map nd later) then Some Charge else dget d v) /\
    (forall v, In v (dkeys (fold_left (fun d i => dset d (nth i nodes 0) Charge) later d)) <-> In v (map nd later) \/ In v (dkeys d)) /\ (NoDup (dkeys d) -> NoDup (dkeys (fold_left (fun d i => dset d (nth i nodes 0) Charge) later d))).
  Proof.
    induction later as [|i l IH]; intros d; cbn [fold_left map]; [cbn [mem existsb In]; split; [auto|split; [tauto|auto]]|].
    destruct (IH (dset d (nth i nodes 0) Charge)) as (I1 & I2 & I3). split; [|split].
    - intros v. rewrite I1, dget_dset. destruct (mem v (map nd l)) eqn:E1; [rewrite (proj2 (mem_In _ _)); auto; right; apply mem_In; auto|].
      destruct (eqb_spec v (nth i nodes 0)) as [-> |Hv].
      + rewrite (proj2 (mem_In _ _)); auto. left; auto.
      + rewrite (proj2 (mem_nIn _ _)); auto. intros [H|H]; [unfold nd in H; congruence|]. apply mem_In in H. congruence.
    - intros v. rewrite I2, In_dkeys_dset. cbn [In]. unfold nd at 2. intuition congruence.
    - intros H. apply I3, NoDup_dset; auto.
  Qed.
  Lemma modes_ok fuel : forall index ch d, fuel + index = n -> minv index ch d -> exists d' ch' index', modes_loop fuel n z nodes index ch d = Ok d' /\ minv index' ch' d' /\ (forall k, k < n -> In k ch').
  Proof.
    induction fuel as [|fuel IH]; intros index ch d Hf Hm; cbn [modes_loop]; destruct (forallb (fun i => mem i ch) (seq 0 n)) eqn:Ef.
    - exists d, ch, index. split; auto. split; auto. intros k Hk. rewrite forallb_forall in Ef. apply mem_In, Ef, in_seq. lia.
    - exfalso. assert (forallb (fun i => mem i ch) (seq 0 n) = true); [|congruence]. apply forallb_forall. intros k Hk. apply mem_In. apply in_seq in Hk. apply (m_lt _ _ _ Hm). lia.
    - exists d, ch, index. split; auto. split; auto. intros k Hk. rewrite forallb_forall in Ef. apply mem_In, Ef, in_seq. lia.
    - assert (Hi : index < n) by lia. rewrite (nth_error_nth' nodes 0) by auto. destruct Hm as [H1 H2 H3 H4 H5 H6]. fold (nd index).
      assert (Hne : forall k, k < index -> nd k <> nd index) by (intros k Hk E; apply nd_inj in E; lia).
      destruct (z index index) eqn:Ez.
      + apply IH; [lia|]. split.
        * intros k Hk. destruct (Nat.eq_dec k index) as [-> |]; [left; auto|right; apply H1; lia].
        * intros k [<-|Hk]; auto.
        * intros v. rewrite In_dkeys_dset, H3. split; [intros [-> |(k & Hk & ->)]; [exists index; split; [left|]; auto|exists k; split; [right|]; auto]|intros (k & [<-|Hk] & ->); [auto|right; exists k; auto]].
        * apply NoDup_dset; auto.
        * intros k Hk. destruct (Nat.eq_dec k index) as [-> |]; [rewrite dget_dset_eq; unfold mode_at; rewrite Ez; auto|]. rewrite dget_dset_neq by (intros E; apply nd_inj in E; lia). apply H5; lia.
        * intros k [<-|Hk] Hle; [lia|]. assert (Hkn : k < n) by auto. rewrite dget_dset_neq by (intros E; apply nd_inj in E; lia). destruct (H6 k Hk) as [G1 (k' & G2 & G3 & G4)]; [lia|]. split; auto. exists k'. split; auto.
      + set (later := filter (fun i => negb (z index i)) (seq (S index) (n - S index))). cbv zeta.
        assert (Hl : forall i, In i later <-> index < i < n /\ z index i = false) by (intros i; unfold later; rewrite filter_In, in_seq, negb_true_iff; intuition lia).
        destruct (fold_charge later d) as (F1 & F2 & F3).
        set (d1 := fold_left (fun d i => dset d (nth i nodes 0) Charge) later d) in *.
        apply IH; [lia|]. split.
        * intros k Hk. destruct (Nat.eq_dec k index) as [-> |]; [left; auto|right; apply in_or_app; right; apply H1; lia].
        * intros k [<-|Hk]; auto. apply in_app_or in Hk as [Hk|Hk]; auto. apply Hl in Hk. lia.
        * intros v. rewrite In_dkeys_dset, F2, H3. split.
          -- intros [-> |[H|(k & Hk & ->)]]; [exists index; split; [left|]; auto| |exists k; split; [right; apply in_or_app|]; auto]. apply in_map_iff in H as (k & <- & Hk). exists k. split; [right; apply in_or_app|]; auto.
          -- intros (k & [<-|Hk] & ->); auto. apply in_app_or in Hk as [Hk|Hk]; [right; left; apply in_map; auto|right; right; exists k; auto].
        * apply NoDup_dset; auto.
        * intros k Hk. destruct (Nat.eq_dec k index) as [-> |].
          -- rewrite dget_dset_eq. unfold mode_at. rewrite Ez. destruct later as [|x l] eqn:El.
             ++ destruct (existsb _ _) eqn:Ex; auto. apply existsb_exists in Ex as (i & Hi1 & Hi2). exfalso. apply (proj2 (Hl i)). apply in_seq in Hi1. split; [lia|]. now apply negb_true_iff.
             ++ rewrite (proj2 (existsb_exists _ _)); auto. exists x. destruct (proj1 (Hl x)) as [G1 G2]; [left; auto|]. split; [apply in_seq; lia|]. now rewrite G2.
          -- rewrite dget_dset_neq by (intros E; apply nd_inj in E; lia). rewrite F1, (proj2 (mem_nIn _ _)); [apply H5; lia|].
             intros H. apply in_map_iff in H as (i & E & Hi'). apply Hl in Hi'. apply nd_inj in E; lia.
        * intros k [<-|Hk] Hle; [lia|]. assert (Hkn : k < n) by (apply in_app_or in Hk as [Hk|Hk]; auto; apply Hl in Hk; lia).
          rewrite dget_dset_neq by (intros E; apply nd_inj in E; lia). rewrite F1. apply in_app_or in Hk as [Hk|Hk].
          -- rewrite (proj2 (mem_In _ _)) by (apply in_map; auto). split; auto. apply Hl in Hk. exists index. repeat split; try lia; tauto.
          -- destruct (H6 k Hk) as [G1 (k' & G2 & G3 & G4)]; [lia|]. split; [destruct (mem (nd k) _); auto|]. exists k'. split; auto.
  Qed.
  Lemma modes_total : exists d, coordinate_modes z nodes = Ok d /\ NoDup (dkeys d) /\ (forall v, In v (dkeys d) <-> In v nodes) /\
    forall k, k < n -> (dget d (nd k) = Some Oscillator -> z k k = false /\ forall j, k < j < n -> z k j = true) /\
      (dget d (nd k) = Some Charge -> z k k = true \/ exists j, j < n /\ j <> k /\ (z k j = false \/ z j k = false)) /\
      (dget d (nd k) = Some Charge \/ dget d (nd k) = Some Oscillator).
  Proof.
    unfold coordinate_modes. cbv zeta. fold n. destruct (modes_ok n 0 [] []) as (d & ch & idx & E & [H1 H2 H3 H4 H5 H6] & Hall); [lia| |].
    { split; try easy; [|constructor]. intros v. split; [easy|intros (k & [] & _)]. }
    exists d. split; auto. split; auto. split.
    - intros v. rewrite H3. split; [intros (k & Hk & ->); apply nth_In; apply H2; auto|]. intros Hv. apply (In_nth _ _ 0) in Hv as (k & Hk & <-). exists k. auto.
    - intros k Hk. destruct (Nat.lt_ge_cases k idx) as [Hlt|Hge].
      + rewrite (H5 k Hlt). unfold mode_at. destruct (z k k) eqn:Ez; [split; [discriminate|split; auto]|]. destruct (existsb _ _) eqn:Ex.
        * split; [discriminate|]. split; auto. intros _. apply existsb_exists in Ex as (i & Hi1 & Hi2). apply in_seq in Hi1. right. exists i. split; [lia|]. split; [lia|]. left. now apply negb_true_iff.
        * split; [|split; [discriminate|auto]]. intros _. split; auto. intros j Hj. destruct (z k j) eqn:Ej; auto. rewrite (proj2 (existsb_exists _ _)) in Ex; [discriminate|]. exists j. split; [apply in_seq; lia|now rewrite Ej].
      + destruct (H6 k (Hall k Hk) Hge) as [-> (k' & G1 & G2 & G3)]. split; [discriminate|]. split; auto. intros _. right. exists k'. split; [lia|]. split; [lia|auto].
  Qed.
End Modes.

(** ** registering the parameters *)
Definition legal (c : string) : Prop := c <> "" /\ has_space c = false.
Record fresh_st (used : list string) (st : cst tree_alg) : Prop := {
  f_wf : wf st;
  f_sym : forall k sy, dget (c_sym st) k = Some sy -> named k sy;
  f_edges : c_edges st = [];
  f_par : c_par st = [];
  f_used : forall c, In c used -> dget (c_sym st) c = Some (sym_of c)
}.
Lemma addParameter_fresh used st nm o : fresh_st used st -> legal nm -> (match o with None => True | Some sy => named nm sy end) ->
  exists st', addParameter st nm o = (st', Ok tt) /\ fresh_st used st' /\ (o = None -> ~ In nm (dkeys (c_coll st)) \/ In nm used -> dget (c_sym st') nm = Some (sym_of nm)) /\
    (forall k, In k (dkeys (c_coll st')) <-> In k (dkeys (c_coll st)) \/ k = nm).
Proof.
  intros [H1 H2 H3 H4 H5] [L1 L2] Ho. unfold addParameter. destruct (dmem (c_coll st) nm) eqn:Ed.
  - apply mem_In in Ed. exists st. split; auto. split; [split; auto|]. split; [|intros k; split; [auto|intros [| ->]; auto]]. intros _ [H|H]; [easy|auto].
  - destruct (param_default_ok nm L1 L2) as (p & Ep & Es). rewrite Ep. apply mem_nIn in Ed. eexists. split; [reflexivity|]. split; [|split; [|cs; intros k; rewrite In_dkeys_dset; tauto]].
    + split; cs; auto.
      * apply wf_add; auto.
      * intros k sy. rewrite dget_dset. destruct (eqb_spec k nm) as [-> |]; auto. intros [= <-]. destruct o as [sy|]; cbn [with_symbol p_symbol]; auto. left. auto.
      * intros c Hc. rewrite dget_dset. destruct (eqb_spec c nm) as [-> |]; auto. exfalso. apply Ed. change (dkeys (c_coll st)) with (dkeys (c_coll st)). rewrite (wf_keys st H1). eapply dget_Some_key; eauto.
    + intros -> _. cs. rewrite dget_dset_eq. congruence.
Qed.
Lemma add_all_plain names : forall used st, fresh_st used st -> (forall k, In k (dkeys (c_coll st)) -> In k used) -> Forall legal names ->
  exists st', add_all (map (fun c => (c, None)) names) st = (st', Ok tt) /\ fresh_st (used ++ names) st'.
Proof.
  unfold add_all, stepM. induction names as [|c l IH]; intros used st Hf Hu Hl; cbn [map fold_left]; [rewrite app_nil_r; eauto|]. apply Forall_cons_iff in Hl as [Hc Hl].
  destruct (addParameter_fresh used st c None Hf Hc I) as (st1 & E & Hf1 & Hs & Hk). cbn [fst snd]. rewrite E.
  assert (Hs' : dget (c_sym st1) c = Some (sym_of c)). { apply Hs; auto. destruct (in_dec string_dec c (dkeys (c_coll st))); auto. }
  destruct (IH (used ++ [c]) st1) as (st' & E' & Hf'); auto.
  - destruct Hf1 as [G1 G2 G3 G4 G5]. split; auto. intros x Hx. apply in_app_or in Hx as [Hx|[<-|[]]]; auto.
  - intros k Hk'. apply Hk in Hk' as [Hk'| ->]; apply in_or_app; [left; auto|right; left; auto].
  - exists st'. split; auto. rewrite <- app_assoc in Hf'. auto.
Qed.
Lemma add_all_over names used : forall st, fresh_st used st -> Forall (fun x => legal (fst x) /\ exists sy, snd x = Some sy /\ named (fst x) sy) names ->
  exists st', add_all names st = (st', Ok tt) /\ fresh_st used st'.
Proof.
  intros st Hf Hl. apply (stepM_inv (fresh_st used)); auto. intros s [nm o] Hin Hs. rewrite Forall_forall in Hl. destruct (Hl _ Hin) as [L (sy & E & Hsy)]. cbn [fst snd] in *. subst o.
  destruct (addParameter_fresh used s nm (Some sy) Hs L Hsy) as (s' & E' & Hs' & _). eauto.
Qed.

(** ** the constructor *)
Section Init.
  Variables (ord : ordr) (oracle : imat -> nat -> nat -> option tree) (s : cg).
  Hypothesis Hord : good_ord ord.
  Hypothesis HD : Derived s.
  Let nodes := sys_nodes s.
  Let edges := wcs s.
  Lemma flux_symbols_ok : (forall e, In e (dkeys (c_fbias s)) -> In e edges) -> exists d, flux_symbols s edges = Ok d.
  Proof.
    intros Hb. unfold flux_symbols. set (d0 := fold_left (fun d e => dset d e []) edges []).
    assert (H0 : forall l d e, In e l \/ In e (dkeys d) -> In e (dkeys (fold_left (fun (d : dict edge (list string)) e => dset d e []) l d))).
    { induction l as [|x l IH]; intros d e; cbn [fold_left]; [intros [[]|]; auto|]. intros H. apply IH. rewrite In_dkeys_dset. destruct H as [[-> |H]|H]; auto. }
    destruct (foldM_total (fun d => forall e, In e edges -> In e (dkeys d)) (fun d x => match dget d (fst x) with None => Err KeyError | Some l => Ok (dset d (fst x) (l ++ [fb_suffix (snd x)])) end) (c_fbias s) d0) as (d & E & _); [| |eauto].
    - intros d [e b] Hin Hd. cbn [fst snd]. assert (He : In e (dkeys d)) by (apply Hd, Hb; apply (in_map fst) in Hin; auto). apply dkeys_dget in He as (l & ->). eexists. split; [reflexivity|].
      intros e' He'. apply In_dkeys_dset. auto.
    - intros e He. apply H0. auto.
  Qed.
  Lemma edge_component e : In e edges -> exists c, component_of s e = Ok c.
  Proof. intros He. destruct (wcs_carry s HD e He) as (c & Hc & _). apply (map_get s HD) in Hc. exists c. unfold component_of. rewrite Hc. auto. Qed.
  Hypothesis Hground : In 0 (g_nodes (c_graph s)).
  Hypothesis Hres : has_resonators s = false.
  Hypothesis Hcoup : c_coupled s = [].
  Hypothesis Hmut : forall e b, dget (c_fbias s) e = Some b -> fb_mutual b = None.
  Hypothesis Hedges : forall e, In e (dkeys (c_fbias s)) -> In e edges.
  Hypothesis Hlegal : forall c, In c (registered_names s) -> legal c.
  Hypothesis Hfsfx : forall b, In b (dvals (c_fbias s)) -> has_space (fb_suffix b) = false.
  Hypothesis Hcsfx : forall b, In b (dvals (c_cbias s)) -> has_space (cb_suffix b) = false.
  Hypothesis Hclash : forall b i j, In b (branches_of "L" (c_graph s)) -> i <= j < List.length nodes -> snd b <> mat_name "L" "i" i j.
  Lemma entry_symbols M st i j e sy : c_coupled s = [] -> inductance_matrix s edges = Ok M -> fresh_st (registered_names s) st ->
    lin_tree (linv_diag nodes edges M i j) = Some e -> In sy (tfree e) ->
    exists c, sy = sym_of c /\ c <> "" /\ starts "\" c = false /\ dget (c_sym st) c = Some sy /\ ~ generated (mat_name "L" "i") (List.length nodes) c /\ starts "L" c = true /\ In c (registered_names s).
  Proof.
    intros Hc HM Hf He Hsy. destruct (lin_tree_free _ _ _ He Hsy) as (t & z & Ht & Hx). rewrite linv_diag_all in Ht. apply ladd_all_terms in Ht as [(k & c & Hk & HMk & E)|(y & [] & _)].
    cbn [fst] in E. subst t. apply term_tree_free in Hx. subst sy. exists c. rewrite (inductance_entries s edges M Hc HM) in HMk. destruct (Nat.eqb k k && _); [|discriminate].
    destruct (ind_name_branch s HD _ _ HMk) as (b & Hb & <- & _). assert (Hb' := Hb). unfold branches_of in Hb. apply filter_In in Hb as [Hb HL]. unfold letter in HL.
    assert (R : In (snd b) (registered_names s)). { unfold registered_names. apply in_or_app. left. eapply Permutation_in; [apply Permutation_sym, edge_map_vals, HD|]. apply in_map; auto. }
    split; auto. destruct (snd b) as [|a r] eqn:Eb; [discriminate|]. apply Ascii.eqb_eq in HL. subst a. split; [discriminate|]. split; auto. split; [apply Hf; auto|].
    split; [|split; auto]. intros (i' & j' & Hu & E). apply upper_In in Hu. apply (Hclash b i' j' Hb'); auto. congruence.
  Qed.
  Theorem init_ok : exists y, new_system ord oracle s = Some (Ok y) /\ ss_nodes y = nodes /\ ss_edges y = edges /\
    exists M, inductance_matrix s edges = Ok M /\ coordinate_modes (fun i j => match lin_tree (linv_diag nodes edges M i j) with None => true | Some _ => false end) nodes = Ok (ss_modes y) /\
      (List.length nodes <= 111 -> forall i j e, In (i, j) (upper (List.length nodes)) -> lin_tree (linv_diag nodes edges M i j) = Some e -> 2 <= List.length (tfree e) ->
         stored ord (mat_name "L" "i") (ss_par y) i j e) /\
      ready (mat_name "L" "i") (List.length nodes) (fun i j => lin_tree (linv_diag nodes edges M i j)) (fun c => starts "L" c = true) (fun _ => False) (registered_names s) (ss_par y).
  Proof.
    unfold new_system. rewrite (proj2 (mem_In _ _) Hground). cbn [negb]. rewrite (wcs_wc s HD), Hres. fold nodes edges.
    destruct (add_all_plain (registered_names s) [] (mkcst [] [] [] [] [])) as (st1 & E1 & F1).
    { split; cs; try easy. split; cs; try constructor; try easy. intros x Hx. apply path_out in Hx as (b & []). }
    { easy. } { apply Forall_forall; auto. }
    cbv zeta. rewrite E1. unfold ok_st. cbn [fst snd bind app] in *. destruct (flux_symbols_ok Hedges) as (fl & ->). cbn [bind].
    match goal with |- context[add_all ?l st1] => destruct (add_all_over l _ st1 F1) as (st2 & E2 & F2) end.
    { apply Forall_forall. intros x Hx. apply in_map_iff in Hx as (b & <- & Hb). cbn [fst snd]. split; [split; [discriminate|cbn; auto]|]. eexists. split; [reflexivity|]. right. split; reflexivity. }
    rewrite E2. cbn [fst snd bind].
    match goal with |- context[add_all ?l st2] => destruct (add_all_over l _ st2 F2) as (st3 & E3 & F3) end.
    { apply Forall_forall. intros x Hx. apply in_map_iff in Hx as (b & <- & Hb). cbn [fst snd]. split; [split; [discriminate|cbn; auto]|]. eexists. split; [reflexivity|]. left. reflexivity. }
    rewrite E3. cbn [fst snd bind].
    destruct (inductance_defined s HD edges Hcoup edge_component Hmut) as (M & HM). rewrite HM. cbn [bind].
    unfold linv_tree. rewrite Hcoup.
    set (L := fun i j => lin_tree (linv_diag nodes edges M i j)).
    assert (Hr : ready (mat_name "L" "i") (List.length nodes) L (fun c => starts "L" c = true) (fun _ => False) (registered_names s) st3).
    { split.
      - apply F3.
      - apply F3.
      - intros i j e sy Hu HL Hsy. eapply entry_symbols; eauto.
      - rewrite (f_edges _ _ F3). easy.
      - apply F3.
      - rewrite (f_par _ _ F3). easy.
      - rewrite (f_par _ _ F3). discriminate. }
    assert (Hname : forall i j, mat_name "L" "i" i j <> "" /\ has_space (mat_name "L" "i" i j) = false /\ starts "\" (mat_name "L" "i" i j) = false).
    { intros i j. split; [discriminate|]. split; [apply mat_name_no_space; auto|reflexivity]. }
    destruct (parameterise_ok ord (mat_name "L" "i") (List.length nodes) L Hord Hname _ _ _ st3 Hr) as (st4 & E4 & Hr4). rewrite E4. cbn [fst snd bind].
    destruct (modes_total (fun i j => match L i j with None => true | Some _ => false end) nodes) as (d & Ed & _); [apply nodes_NoDup with (s := s); auto|]. cbv beta delta [L] in Ed. rewrite Ed. cbn [bind].
    eexists. split; [reflexivity|]. cbn [ss_nodes ss_edges ss_par ss_modes]. split; auto. split; auto. exists M. split; auto. split; auto. split; [|exact Hr4].
    intros Hn i j e Hu HL He. refine (proj1 (parameterise_stored ord _ _ L Hord Hname _ _ _ st3 st4 Hr _ E4) i j e Hu HL He). apply mat_names_distinct; auto.
  Qed.
End Init.

(** ** modes of a circuit without mutual inductances *)
Section CircuitModes.
  Variables (s : cg) (M : imat).
  Hypothesis HD : Derived s.
  Hypothesis Hcoup : c_coupled s = [].
  Hypothesis HM : inductance_matrix s (wcs s) = Ok M.
  Let nodes := sys_nodes s.
  Let edges := wcs s.
  Let z i j := match lin_tree (linv_diag nodes edges M i j) with None => true | Some _ => false end.
  Lemma z_spec i j : i < List.length nodes -> j < List.length nodes -> z i j = false <-> exists k e c, nth_error edges k = Some e /\ ind_name s e = Some c /\ coef nodes edges i j k <> 0%Z.
  Proof.
    intros Hi Hj. unfold z. destruct (lin_tree (linv_diag nodes edges M i j)) eqn:E.
    - split; auto. intros _. destruct (existsb (fun k => match M k k with Some _ => negb (Z.eqb (coef nodes edges i j k) 0) | None => false end) (seq 0 (List.length edges))) eqn:Ex.
      + apply existsb_exists in Ex as (k & Hk & Hx). destruct (M k k) as [c|] eqn:Ec; [|discriminate]. rewrite (inductance_entries s (wcs s) M Hcoup HM), Nat.eqb_refl in Ec. cbn [andb] in Ec. destruct (Nat.ltb_spec k (List.length (wcs s))); [|discriminate].
        exists k, (nth k edges noedge), c. split; [apply nth_error_nth'; auto|]. split; auto. apply negb_true_iff, Z.eqb_neq in Hx. auto.
      + exfalso. assert (H : linv_diag nodes edges M i j = []); [|rewrite H in E; discriminate].
        apply linv_zero; auto; [apply (nodes_NoDup nodes s HD eq_refl)|]. intros k c Hk Hc. destruct (Z.eqb_spec (coef nodes edges i j k) 0) as [|Hne]; auto. exfalso.
        assert (F : forall l (f : nat -> bool), existsb f l = false -> forall x, In x l -> f x = false). { clear. induction l; cbn; [easy|]. intros f H x. apply orb_false_iff in H as [H1 H2]. intros [-> |Hx]; auto. }
        assert (H := F _ _ Ex k). cbv beta in H. rewrite Hc in H. apply Z.eqb_neq in Hne. rewrite Hne in H. discriminate H. apply in_seq. lia.
    - split; [discriminate|]. intros (k & e & c & Hk & Hc & Hne). exfalso. apply Hne. apply lin_tree_none in E. rewrite (linv_zero nodes edges M i j) in E by (auto; apply (nodes_NoDup nodes s HD eq_refl)).
      assert (Hlt : k < List.length edges) by (apply nth_error_Some; congruence). apply (E k c Hlt). rewrite (inductance_entries s (wcs s) M Hcoup HM), Nat.eqb_refl. apply Nat.ltb_lt in Hlt. fold edges. rewrite Hlt. cbn [andb].
      rewrite (nth_error_nth _ _ noedge Hk). auto.
  Qed.
  Lemma branch_in_edges x : In x (branches_of "L" (c_graph s)) -> src (fst x) <> dst (fst x) -> exists k e, nth_error edges k = Some e /\ same_branch (fst x) e /\ ind_name s e = Some (snd x).
  Proof.
    intros Hx Hne. assert (Hx' := Hx). unfold branches_of in Hx. apply filter_In in Hx as [Hx HL].
    assert (Hn : In (fst x) (noncap (c_graph s))). { apply noncap_In. exists (snd x). split; [destruct x; auto|]. unfold letter in HL. destruct (snd x) as [|a r]; [discriminate|]. apply Ascii.eqb_eq in HL. subst a. reflexivity. }
    assert (Hf : In (norm (fst x)) (map norm (filter (keepb (noncap (c_graph s))) (noncap (c_graph s))))). { apply in_map. apply filter_In. split; auto. apply keepb_spec. auto. }
    eapply Permutation_in in Hf; [|apply Permutation_sym, (tree_clos_split s HD)]. apply in_map_iff in Hf as (e & He & Hi). eapply Permutation_in in Hi; [|apply Permutation_sym, (wcs_perm s HD)].
    apply In_nth_error in Hi as (k & Hk). exists k, e. split; auto. assert (Hs : same_branch (fst x) e) by (apply norm_eq; auto). split; auto.
    unfold ind_name. assert (Hc : dget (c_map s) e = Some (snd x)) by (apply (map_get s HD); exists x; auto). rewrite Hc. unfold letter in HL. destruct (snd x); [discriminate|]. cbn. rewrite HL. auto.
  Qed.
  Lemma same_ends (e f : edge) : same_branch e f -> (src f = src e /\ dst f = dst e) \/ (src f = dst e /\ dst f = src e).
  Proof. intros [-> | ->]; auto. Qed.
  Lemma z_off i j : i < List.length nodes -> j < List.length nodes -> i <> j -> z i j = false <-> joined s (nth i nodes 0) (nth j nodes 0).
  Proof.
    intros Hi Hj Hne. assert (Hnn : nth i nodes 0 <> nth j nodes 0) by (intros E; apply Hne, (proj1 (NoDup_nth nodes 0) (nodes_NoDup nodes s HD eq_refl)); auto).
    rewrite z_spec by auto. split.
    - intros (k & e & c & Hk & Hc & Hco). destruct (ind_name_branch s HD _ _ Hc) as (x & Hx & _ & Hs). exists x. split; auto.
      unfold coef, rbn in Hco. rewrite (nth_error_nth' nodes 0 Hi), (nth_error_nth' nodes 0 Hj), Hk in Hco. apply same_ends in Hs.
      destruct (Nat.eqb_spec (src e) (dst e)); [easy|]. destruct (Nat.eqb_spec (src e) (nth i nodes 0)), (Nat.eqb_spec (src e) (nth j nodes 0)), (Nat.eqb_spec (dst e) (nth i nodes 0)), (Nat.eqb_spec (dst e) (nth j nodes 0)); cbn in Hco; try lia; destruct Hs as [[H1 H2]|[H1 H2]]; try congruence; lia.
    - intros (x & Hx & Hs). destruct (branch_in_edges x Hx) as (k & e & Hk & He & Hc); [destruct Hs as [[? ?]|[? ?]]; congruence|]. exists k, e, (snd x). split; auto. split; auto.
      unfold coef, rbn. rewrite (nth_error_nth' nodes 0 Hi), (nth_error_nth' nodes 0 Hj), Hk. apply same_ends in He.
      destruct (Nat.eqb_spec (src e) (dst e)); [destruct He as [[? ?]|[? ?]], Hs as [[? ?]|[? ?]]; congruence|].
      destruct (Nat.eqb_spec (src e) (nth i nodes 0)), (Nat.eqb_spec (src e) (nth j nodes 0)), (Nat.eqb_spec (dst e) (nth i nodes 0)), (Nat.eqb_spec (dst e) (nth j nodes 0)); destruct He as [[? ?]|[? ?]], Hs as [[? ?]|[? ?]]; cbn; try lia; congruence.
  Qed.
  Lemma z_diag i : i < List.length nodes -> z i i = false <-> exists x, In x (branches_of "L" (c_graph s)) /\ src (fst x) <> dst (fst x) /\ touches (nth i nodes 0) (fst x).
  Proof.
    intros Hi. rewrite z_spec by auto. unfold touches. split.
    - intros (k & e & c & Hk & Hc & Hco). destruct (ind_name_branch s HD _ _ Hc) as (x & Hx & _ & Hs). exists x. split; auto.
      unfold coef, rbn in Hco. rewrite (nth_error_nth' nodes 0 Hi), Hk in Hco. apply same_ends in Hs.
      destruct (Nat.eqb_spec (src e) (dst e)); [easy|]. destruct (Nat.eqb_spec (src e) (nth i nodes 0)), (Nat.eqb_spec (dst e) (nth i nodes 0)); cbn in Hco; try lia; destruct Hs as [[H1 H2]|[H1 H2]]; split; try congruence; try lia; try (left; congruence); right; congruence.
    - intros (x & Hx & Hn & Ht). destruct (branch_in_edges x Hx Hn) as (k & e & Hk & He & Hc). exists k, e, (snd x). split; auto. split; auto.
      unfold coef, rbn. rewrite (nth_error_nth' nodes 0 Hi), Hk. apply same_ends in He.
      destruct (Nat.eqb_spec (src e) (dst e)); [destruct He as [[? ?]|[? ?]]; congruence|].
      destruct (Nat.eqb_spec (src e) (nth i nodes 0)), (Nat.eqb_spec (dst e) (nth i nodes 0)); destruct He as [[? ?]|[? ?]], Ht; cbn; try lia; congruence.
  Qed.
End CircuitModes.
