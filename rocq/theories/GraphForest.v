(** Connectedness, forests, and networkx's Kruskal algorithm. *)
From Coq Require Import List Bool String Ascii Arith Permutation Lia.
From Verif Require Import Prelude PreludeFacts Graph GraphSpec GraphView.
Import ListNotations.
Open Scope list_scope.
Open Scope nat_scope.

Lemma conn_trans E x y z : conn E x y -> conn E y z -> conn E x z.
Proof. induction 1; intros H2; auto; [eapply conn_fwd | eapply conn_bwd]; eauto. Qed.
Lemma conn_edge E e : In e E -> conn E (src e) (dst e).
Proof. intros H. eapply conn_fwd; eauto. constructor. Qed.
Lemma conn_sym E x y : conn E x y -> conn E y x.
Proof.
  induction 1; [constructor| |].
  - eapply conn_trans; [eauto|]. eapply conn_bwd; eauto. constructor.
  - eapply conn_trans; [eauto|]. eapply conn_edge; auto.
Qed.
Lemma conn_incl E F x y : (forall e, In e E -> conn F (src e) (dst e)) -> conn E x y -> conn F x y.
Proof.
  intros H. induction 1; [constructor| |].
  - eapply conn_trans; eauto.
  - eapply conn_trans; [apply conn_sym; eauto|eauto].
Qed.
Lemma conn_mono E F x y : (forall e, In e E -> In e F) -> conn E x y -> conn F x y.
Proof. intros H. apply conn_incl. intros e He. apply conn_edge; auto. Qed.
Lemma conn_norm E F x y : (forall e, In e E -> In (norm e) (map norm F)) -> conn E x y -> conn F x y.
Proof.
  intros H. apply conn_incl. intros e He. apply H, in_map_iff in He as (f & Hf & Hi).
  assert (Hc := conn_edge _ _ Hi). unfold norm in Hf. injection Hf as H1 H2 _.
  assert ((src e = src f /\ dst e = dst f) \/ (src e = dst f /\ dst e = src f)) as [[-> ->]|[-> ->]] by lia; auto using conn_sym.
Qed.
Lemma conn_nodes E x y (ns : list nat) : (forall e, In e E -> In (src e) ns /\ In (dst e) ns) -> conn E x y -> x = y \/ (In x ns /\ In y ns).
Proof.
  intros H. induction 1 as [|e y He _ IH|e y He _ IH]; auto; destruct (H e He); right; split; auto; destruct IH as [IH|[_ IH]]; subst; auto.
Qed.
Lemma conn_cons E e x y : conn (e :: E) x y <->
  conn E x y \/ (conn E x (src e) /\ conn E (dst e) y) \/ (conn E x (dst e) /\ conn E (src e) y).
Proof.
  split.
  - induction 1 as [|f y Hf _ IH|f y Hf _ IH]; [left; constructor| |].
    + destruct Hf as [<-|Hf].
      * destruct IH as [IH|[[IH1 IH2]|[IH1 IH2]]]; [right; left|right; left|left]; auto; try split; auto; constructor.
      * assert (Hc := conn_edge _ _ Hf). destruct IH as [IH|[[IH1 IH2]|[IH1 IH2]]]; [left|right; left|right; right]; try split; auto; eapply conn_trans; eauto.
    + destruct Hf as [<-|Hf].
      * destruct IH as [IH|[[IH1 IH2]|[IH1 IH2]]]; [right; right|left|right; right]; auto; try split; auto; constructor.
      * assert (Hc := conn_sym _ _ _ (conn_edge _ _ Hf)). destruct IH as [IH|[[IH1 IH2]|[IH1 IH2]]]; [left|right; left|right; right]; try split; auto; eapply conn_trans; eauto.
  - assert (Hi : conn (e :: E) (src e) (dst e)) by (apply conn_edge; cbn; auto).
    assert (Hm : forall a b, conn E a b -> conn (e :: E) a b) by (intros a b; apply conn_mono; cbn; auto).
    intros [H|[[H1 H2]|[H1 H2]]]; auto.
    + eapply conn_trans; [apply Hm, H1|]. eapply conn_trans; [apply Hi|auto].
    + eapply conn_trans; [apply Hm, H1|]. eapply conn_trans; [apply conn_sym, Hi|auto].
Qed.

Inductive forest : list edge -> Prop :=
| forest_nil : forest []
| forest_cons e E : forest E -> ~ conn E (src e) (dst e) -> forest (e :: E).
Lemma forest_perm E F : Permutation E F -> forest E -> forest F.
Proof.
  induction 1; intros Hf; auto.
  - inversion Hf; subst. constructor; auto. intros Hc. apply H3. eapply conn_mono; [|exact Hc].
    intros e. apply Permutation_in. symmetry; auto.
  - inversion Hf as [|a b H1 H2]; subst. inversion H1 as [|a b H3 H4]; subst.
    constructor; [constructor; auto|].
    + intros Hc. apply H2. eapply conn_mono; [|exact Hc]. cbn; auto.
    + intros Hc. apply conn_cons in Hc as [Hc|[[Hc1 Hc2]|[Hc1 Hc2]]]; auto; apply H2; apply conn_cons.
      * right. left. split; apply conn_sym; auto.
      * right. right. split; auto using conn_sym.
Qed.
Lemma forest_norm E F : map norm E = map norm F -> forest E -> forest F.
Proof.
  revert F. induction E as [|e E IH]; intros F Hm Hf; destruct F as [|f F]; cbn in Hm; try discriminate; [constructor|].
  injection Hm as H1 H2 H3 Hm. inversion Hf; subst. constructor; [apply IH; auto|].
  intros Hc. apply H5.
  assert (Hc' : conn E (src f) (dst f)).
  { eapply conn_norm; [|exact Hc]. intros x Hx. rewrite Hm. apply in_map; auto. }
  assert ((src e = src f /\ dst e = dst f) \/ (src e = dst f /\ dst e = src f)) as [[-> ->]|[-> ->]] by lia; auto using conn_sym.
Qed.
Lemma forest_normperm E F : Permutation (map norm E) (map norm F) -> forest E -> forest F.
Proof.
  intros Hp Hf. apply Permutation_sym in Hp. apply Permutation_map_inv in Hp as (E' & Hm & HE).
  eapply forest_norm; [symmetry; exact Hm|]. eapply forest_perm; eauto.
Qed.
Lemma forest_acyclic E : forest E <-> acyclic E.
Proof.
  split.
  - intros Hf l1 e l2 ->. eapply forest_perm in Hf; [|symmetry; apply Permutation_middle]. inversion Hf; auto.
  - induction E as [|e E IH]; intros H; constructor.
    + apply IH. intros l1 f l2 -> Hc. apply (H (e :: l1) f l2 eq_refl). eapply conn_mono; [|exact Hc]. cbn; auto.
    + apply (H [] e E eq_refl).
Qed.
Lemma forest_loopless E e : forest E -> In e E -> src e <> dst e.
Proof. induction 1; cbn; [easy|]. intros [<-|Hi]; auto. intros Hq. apply H0. rewrite Hq. constructor. Qed.
Lemma forest_app_l E F : forest (E ++ F) -> forest F.
Proof. induction E; cbn; auto. inversion 1; auto. Qed.

(** Euler's count: branches of a forest + connected parts = nodes. *)
Lemma forest_count E ns : forest E -> NoDup ns -> (forall e, In e E -> In (src e) ns /\ In (dst e) ns) ->
  forall R, parts E ns R -> List.length E + List.length R = List.length ns.
Proof.
  intros Hf Hn. induction Hf as [|e E Hf IH Hc]; intros Hi R (HR1 & HR2 & HR3 & HR4).
  - cbn. apply Permutation_length. apply NoDup_Permutation; auto. intros x. split; auto.
    intros Hx. destruct (HR3 x Hx) as (r & Hr & Hcr). inversion Hcr; subst; auto; easy.
  - destruct (Hi e) as [Hs Hd]; [cbn; auto|].
    assert (He : forall f, In f E -> In (src f) ns /\ In (dst f) ns) by (intros f Hf'; apply Hi; cbn; auto).
    assert (Hm : forall a b, conn E a b -> conn (e :: E) a b) by (intros a b; apply conn_mono; cbn; auto).
    assert (Hcase : forall a b, In a ns -> In b ns -> conn (e :: E) a b -> (a = src e /\ b = dst e) \/ (a = dst e /\ b = src e) -> 
             forall r, In r R -> conn E r a -> parts E ns (b :: R)).
    { intros a b Ha Hb Hab Heq r Hr Hra.
      assert (Hnab : ~ conn E a b) by (destruct Heq as [[-> ->]|[-> ->]]; auto using conn_sym).
      assert (Hone : forall r', In r' R -> ~ conn E r' b).
      { intros r' Hr' Hcb. assert (r' = r).
        { apply HR4; auto. eapply conn_trans; [apply Hm, Hcb|]. eapply conn_trans; [apply conn_sym, Hab|]. apply conn_sym, Hm, Hra. }
        subst. apply Hnab. eapply conn_trans; [apply conn_sym, Hra|auto]. }
      split; [constructor; auto; intros Hbr; apply (Hone b Hbr); constructor|]. split; [|split].
      - intros x [<-|Hx]; auto.
      - intros x Hx. destruct (HR3 x Hx) as (r' & Hr' & Hc').
        apply conn_cons in Hc' as [Hc'|Hc'].
        + exists r'; cbn; auto.
        + assert (Hab2 : (conn E r' a /\ conn E b x) \/ (conn E r' b /\ conn E a x)) by (destruct Heq as [[-> ->]|[-> ->]]; tauto).
          destruct Hab2 as [[_ Hbx]|[Hrb _]].
          * exists b; cbn; auto.
          * destruct (Hone r' Hr' Hrb).
      - intros x y [<-|Hx] [<-|Hy] Hxy; auto.
        + destruct (Hone y Hy). auto using conn_sym.
        + destruct (Hone x Hx). auto. }
    destruct (HR3 _ Hs) as (r & Hr & Hcr).
    assert (Hee : conn (e :: E) (src e) (dst e)) by (apply conn_edge; cbn; auto).
    assert (Hor : conn E r (src e) \/ conn E r (dst e)).
    { apply conn_cons in Hcr as [Hcr|[[Hcr _]|[Hcr _]]]; auto. }
    destruct Hor as [Hr1|Hr1].
    + specialize (IH He _ (Hcase (src e) (dst e) Hs Hd Hee (or_introl (conj eq_refl eq_refl)) r Hr Hr1)). cbn in *. lia.
    + specialize (IH He _ (Hcase (dst e) (src e) Hd Hs (conn_sym _ _ _ Hee) (or_intror (conj eq_refl eq_refl)) r Hr Hr1)). cbn in *. lia.
Qed.

(** Labellings *)
Definition Lab (ns : list nat) (E : list edge) (l : labelling) : Prop :=
  dkeys l = ns /\ forall x y, In x ns -> In y ns -> (lget l x = lget l y <-> conn E x y).
Lemma lab0_keys ns : dkeys (lab0 ns) = ns.
Proof. unfold lab0, dkeys. rewrite map_map. apply map_id. Qed.
Lemma lab0_get ns x : lget (lab0 ns) x = x.
Proof. unfold lget. induction ns as [|n ns IH]; cbn; auto. destruct (Nat.eqb_spec x n); auto. Qed.
Lemma lab0_Lab ns : Lab ns [] (lab0 ns).
Proof.
  split; [apply lab0_keys|]. intros x y _ _. rewrite !lab0_get. split; [intros ->; constructor|]. inversion 1; auto; easy.
Qed.
Lemma union_keys l u v : dkeys (union l u v) = dkeys l.
Proof. unfold union, dkeys. rewrite map_map. apply map_ext. intros [k w]. cbn. destruct (Nat.eqb w _); auto. Qed.
Lemma dget_map_val (f : nat -> nat) (l : labelling) x : dget (map (fun p => (fst p, f (snd p))) l) x = option_map f (dget l x).
Proof. induction l as [|[k v] l IH]; cbn; auto. destruct (Nat.eqb x k); auto. Qed.
Lemma union_get l u v x : In x (dkeys l) -> lget (union l u v) x = if Nat.eqb (lget l x) (lget l u) then lget l v else lget l x.
Proof.
  intros Hx. set (f := fun w => if Nat.eqb w (lget l u) then lget l v else w).
  assert (E : union l u v = map (fun p => (fst p, f (snd p))) l).
  { unfold union. apply map_ext. intros [k w]. unfold f. cbn. destruct (Nat.eqb w _); auto. }
  rewrite E. apply dkeys_dget in Hx as (w & Hw). 
  assert (Hg : lget l x = w) by (unfold lget; rewrite Hw; auto). rewrite Hg. unfold lget at 1. rewrite dget_map_val, Hw. auto.
Qed.
Lemma union_Lab ns E l e : In (src e) ns -> In (dst e) ns -> Lab ns E l -> Lab ns (e :: E) (union l (src e) (dst e)).
Proof.
  intros Hs Hd [Hk Hl]. split; [rewrite union_keys; auto|]. intros x y Hx Hy.
  rewrite !union_get by (rewrite Hk; auto). rewrite conn_cons.
  rewrite <- !Hl by auto.
  destruct (Nat.eqb_spec (lget l x) (lget l (src e))), (Nat.eqb_spec (lget l y) (lget l (src e))); intuition congruence.
Qed.

Lemma kruskal_spec ns es : forall F l, Lab ns F l -> (forall e, In e es -> In (src e) ns /\ In (dst e) ns) -> forest F ->
  forest (rev (kruskal l es) ++ F) /\ (forall x y, conn (kruskal l es ++ F) x y <-> conn (es ++ F) x y).
Proof.
  induction es as [|e es IH]; intros F l Hl Hi Hf; cbn; [tauto|].
  destruct (Hi e) as [Hs Hd]; [cbn; auto|].
  destruct (Nat.eqb_spec (lget l (src e)) (lget l (dst e))) as [Heq|Hne].
  - assert (Hc : conn F (src e) (dst e)) by (apply Hl; auto).
    destruct (IH F l Hl) as [H1 H2]; auto; [intros; apply Hi; cbn; auto|]. split; auto.
    intros x y. rewrite H2. split; [apply conn_mono; cbn; auto|].
    apply conn_incl. intros f [<-|Hf'].
    + eapply conn_mono; [|exact Hc]. intros. apply in_or_app; auto.
    + apply conn_edge; auto.
  - assert (Hc : ~ conn F (src e) (dst e)) by (intros Hc; apply Hne, Hl; auto).
    destruct (IH (e :: F) (union l (src e) (dst e))) as [H1 H2]; [apply union_Lab; auto|intros; apply Hi; cbn; auto|constructor; auto|].
    split.
    + cbn. rewrite <- app_assoc. auto.
    + intros x y. 
      assert (P1 : forall z, In z ((e :: kruskal (union l (src e) (dst e)) es) ++ F) <-> In z (kruskal (union l (src e) (dst e)) es ++ e :: F)) by (intros z; cbn; rewrite !in_app_iff; cbn; tauto).
      assert (P2 : forall z, In z (e :: es ++ F) <-> In z (es ++ e :: F)) by (intros z; cbn; rewrite !in_app_iff; cbn; tauto).
      split; intros H.
      * eapply conn_mono; [apply P2|]. apply H2. eapply conn_mono; [apply P1|auto].
      * eapply conn_mono; [apply P1|]. apply H2. eapply conn_mono; [apply P2|auto].
Qed.
Lemma kruskal_incl l es e : In e (kruskal l es) -> In e es.
Proof. revert l. induction es as [|f es IH]; intros l; cbn; auto. destruct (Nat.eqb _ _); cbn; intuition eauto. Qed.
Lemma kruskal_NoDup l es : NoDup es -> NoDup (kruskal l es).
Proof.
  revert l. induction es as [|e es IH]; intros l Hn; cbn; auto. inversion Hn; subst.
  destruct (Nat.eqb _ _); auto. constructor; auto. intros H. apply kruskal_incl in H. auto.
Qed.
Lemma kruskal_top ns es : (forall e, In e es -> In (src e) ns /\ In (dst e) ns) ->
  forest (kruskal (lab0 ns) es) /\ forall x y, conn (kruskal (lab0 ns) es) x y <-> conn es x y.
Proof.
  intros Hi. destruct (kruskal_spec ns es [] (lab0 ns) (lab0_Lab ns) Hi forest_nil) as [H1 H2].
  rewrite app_nil_r in H1. split.
  - eapply forest_perm; [|exact H1]. symmetry. apply Permutation_rev.
  - intros x y. specialize (H2 x y). rewrite !app_nil_r in H2. auto.
Qed.

Lemma components_Lab ns es : (forall e, In e es -> In (src e) ns /\ In (dst e) ns) -> Lab ns es (components ns es).
Proof.
  intros Hi. unfold components.
  enough (H : forall F l, Lab ns F l -> Lab ns (rev es ++ F) (fold_left (fun l e => union l (src e) (dst e)) es l)).
  { specialize (H [] (lab0 ns) (lab0_Lab ns)). rewrite app_nil_r in H. destruct H as [H1 H2]. split; auto.
    intros x y Hx Hy. rewrite H2 by auto. split; apply conn_mono; intros e; rewrite <- in_rev; auto. }
  induction es as [|e es IH]; intros F l Hl; cbn; auto.
  rewrite <- app_assoc. apply IH; [intros; apply Hi; cbn; auto|]. apply union_Lab; auto; apply Hi; cbn; auto.
Qed.
(** component_list partitions the nodes into connected parts *)
Lemma component_list_spec ns es : (forall e, In e es -> In (src e) ns /\ In (dst e) ns) -> NoDup ns ->
  (forall c, In c (component_list ns es) -> c <> [] /\ (forall x, In x c -> In x ns) /\ (exists P, c = filter P ns) /\
      forall x y, In x c -> In y ns -> (In y c <-> conn es x y)) /\
  (forall x, In x ns -> exists c, In c (component_list ns es) /\ In x c) /\
  NoDup (component_list ns es) /\
  (forall c c' x, In c (component_list ns es) -> In c' (component_list ns es) -> In x c -> In x c' -> c = c').
Proof.
  intros Hi Hn. destruct (components_Lab ns es Hi) as [Hk Hl]. unfold component_list.
  set (l := components ns es) in *.
  assert (Hin : forall r x, In x (filter (fun n => Nat.eqb (lget l n) r) ns) <-> In x ns /\ lget l x = r).
  { intros r x. rewrite filter_In, Nat.eqb_eq. tauto. }
  split; [|split; [|split]].
  - intros c Hc. apply in_map_iff in Hc as (r & <- & Hr). apply dedup_In, in_map_iff in Hr as (x & <- & Hx).
    split; [|split; [|split; [eauto|]]].
    + intros E. assert (H : In x []) by (rewrite <- E; apply Hin; auto). easy.
    + intros y Hy. apply Hin in Hy. tauto.
    + intros y z Hy Hz. rewrite Hin in *. rewrite <- Hl by tauto. intuition congruence.
  - intros x Hx. exists (filter (fun n => Nat.eqb (lget l n) (lget l x)) ns). split; [|apply Hin; auto].
    apply (in_map (fun r => filter (fun n => Nat.eqb (lget l n) r) ns)), dedup_In, in_map; auto.
  - assert (Hd := dedup_NoDup (map (lget l) ns)).
    assert (Hr : forall r, In r (dedup (map (lget l) ns)) -> exists x, In x ns /\ lget l x = r).
    { intros r Hr. apply dedup_In, in_map_iff in Hr as (x & <- & Hx). eauto. }
    induction Hd as [|r rs Hnr Hd IH]; cbn; constructor.
    + intros Hc. apply in_map_iff in Hc as (r' & Heq & Hr'). destruct (Hr r) as (x & Hx & Hxr); [cbn; auto|].
      assert (H : In x (filter (fun n => Nat.eqb (lget l n) r') ns)) by (rewrite Heq; apply Hin; auto).
      apply Hin in H. destruct H as [_ H]. congruence.
    + apply IH. intros r' Hr'. apply Hr. cbn; auto.
  - intros c c' x Hc Hc' Hx Hx'. apply in_map_iff in Hc as (r & <- & _). apply in_map_iff in Hc' as (r' & <- & _).
    apply Hin in Hx, Hx'. destruct Hx as [_ <-], Hx' as [_ <-]. auto.
Qed.

(** Connection inside a set of nodes that no branch leaves *)
Lemma conn_inside E (c : list nat) x y : (forall e, In e E -> (In (src e) c <-> In (dst e) c)) -> In x c -> conn E x y ->
  In y c /\ conn (filter (fun e => mem (src e) c && mem (dst e) c) E) x y.
Proof.
  intros H Hx Hc. induction Hc as [x|e y He _ IH|e y He _ IH]; [split; auto; constructor| |].
  - assert (In (dst e) c) by (apply H; auto). destruct IH as [IH1 IH2]; auto. split; auto.
    eapply conn_fwd; [|exact IH2]. apply filter_In. split; auto. apply andb_true_iff. split; apply mem_In; auto.
  - assert (In (src e) c) by (apply H; auto). destruct IH as [IH1 IH2]; auto. split; auto.
    eapply conn_bwd; [|exact IH2]. apply filter_In. split; auto. apply andb_true_iff. split; apply mem_In; auto.
Qed.
