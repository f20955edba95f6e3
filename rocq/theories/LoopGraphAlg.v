(** Sums over the field with two elements: a basis of the cycle space of a
    multigraph from one of the graph without parallel edges. *)
From Coq Require Import List Bool Arith Permutation Lia.
From Verif Require Import Prelude PreludeFacts Graph GraphSpec LoopGraph LoopGraphSpec.
Import ListNotations.
Open Scope list_scope.
Open Scope nat_scope.

Lemma NoDup_app_remove_l {Y} (l m : list Y) : NoDup (l ++ m) -> NoDup m.
Proof. induction l; cbn; auto. intros N. inversion N; auto. Qed.
Lemma NoDup_app_remove_r {Y} (l m : list Y) : NoDup (l ++ m) -> NoDup l.
Proof. intros N. apply (NoDup_app_remove_l m l). eapply Permutation_NoDup; [apply Permutation_app_comm|exact N]. Qed.
#[local] Arguments xorb : simpl never.
Section XS.
  Context {X : Type}.
  Lemma xsum_ext (l : list X) f g : (forall x, In x l -> f x = g x) -> xsum l f = xsum l g.
  Proof. induction l as [|x r IH]; intros H; cbn; auto. rewrite H, IH; cbn; auto. intros y Hy. apply H. now right. Qed.
  Lemma xsum_app (l m : list X) f : xsum (l ++ m) f = xorb (xsum l f) (xsum m f).
  Proof. induction l as [|x r IH]; cbn; [now rewrite xorb_false_l|]. now rewrite IH, xorb_assoc. Qed.
  Lemma xsum_perm (l m : list X) f : Permutation l m -> xsum l f = xsum m f.
  Proof.
    induction 1; cbn; auto.
    - now rewrite IHPermutation.
    - rewrite <- !xorb_assoc. f_equal. apply xorb_comm.
    - congruence.
  Qed.
  Lemma xsum_xor (l : list X) f g : xsum l (fun x => xorb (f x) (g x)) = xorb (xsum l f) (xsum l g).
  Proof.
    induction l as [|x r IH]; cbn; auto. rewrite IH. destruct (f x), (g x), (xsum r f), (xsum r g); auto.
  Qed.
  Lemma xsum_false (l : list X) f : (forall x, In x l -> f x = false) -> xsum l f = false.
  Proof. induction l as [|x r IH]; intros H; cbn; auto. rewrite H, IH; cbn; auto. intros y Hy. apply H. now right. Qed.
  Lemma xsum_and (l : list X) f b : xsum l (fun x => f x && b) = xsum l f && b.
  Proof. induction l as [|x r IH]; cbn; auto. rewrite IH. destruct (f x), (xsum r f), b; auto. Qed.
  Lemma xsum_and_l (l : list X) f b : xsum l (fun x => b && f x) = b && xsum l f.
  Proof. induction l as [|x r IH]; cbn; [now rewrite andb_false_r|]. rewrite IH. destruct (f x), (xsum r f), b; auto. Qed.
  Lemma xsum_map {Y} (h : Y -> X) l f : xsum (map h l) f = xsum l (fun y => f (h y)).
  Proof. induction l as [|x r IH]; cbn; congruence. Qed.
  Lemma xsum_flat {Y} (h : Y -> list X) l f : xsum (flat_map h l) f = xsum l (fun y => xsum (h y) f).
  Proof. induction l as [|x r IH]; cbn; auto. now rewrite xsum_app, IH. Qed.
End XS.

Section CB.
  Context {X : Type} `{EqB X}.
  Implicit Types (L : list (list X)) (cs : list bool).
  Lemma comb_app cs1 cs2 L1 L2 x : List.length cs1 = List.length L1 -> comb (cs1 ++ cs2) (L1 ++ L2) x = xorb (comb cs1 L1 x) (comb cs2 L2 x).
  Proof.
    revert L1. induction cs1 as [|c cs IH]; intros [|l L] E; try discriminate; cbn; [now rewrite xorb_false_l|].
    rewrite IH by (cbn in E; lia). now rewrite xorb_assoc.
  Qed.
  Lemma comb_none cs L x : (forall l, In l L -> ~ In x l) -> comb cs L x = false.
  Proof.
    revert L. induction cs as [|c cs IH]; intros [|l L] E; cbn; auto.
    assert (mem x l = false) as -> by (destruct (mem x l) eqn:M; auto; apply mem_In in M; exfalso; apply (E l); cbn; auto).
    rewrite IH, andb_false_r by (intros m Hm; apply E; now right). reflexivity.
  Qed.
  Lemma split_length {Y} (cs : list Y) n m : List.length cs = n + m -> exists c1 c2, cs = c1 ++ c2 /\ List.length c1 = n /\ List.length c2 = m.
  Proof. intros E. exists (firstn n cs), (skipn n cs). rewrite firstn_skipn, firstn_length, skipn_length. split; [auto|lia]. Qed.

  (** *** one class of parallel branches *)
  Lemma pairs_In (v : list X) l x : In l (pairs v) -> In x l -> In x v.
  Proof.
    induction v as [|a [|b r] IH]; cbn [pairs]; intros Hl Hx; try contradiction.
    destruct Hl as [<-|Hl]; [destruct Hx as [<-|[<-|[]]]; cbn; auto|]. right. apply IH; auto.
  Qed.
  Lemma pairs_sum (v : list X) cs : NoDup v -> List.length cs = List.length (pairs v) -> xsum v (comb cs (pairs v)) = false.
  Proof.
    revert cs. induction v as [|a [|b r] IH]; intros cs ND E.
    - destruct cs; auto.
    - destruct cs; auto.
    - destruct cs as [|c cs]; [discriminate|].
      inversion ND as [|? ? N1 N2]; subst. inversion N2 as [|? ? N3 N4]; subst.
      rewrite (xsum_ext (a :: b :: r) _ (fun x => xorb (c && (eqb x a || eqb x b)) (comb cs (pairs (b :: r)) x))).
      2:{ intros x _. change (comb (c :: cs) (pairs (a :: b :: r)) x) with (xorb (c && mem x [a; b]) (comb cs (pairs (b :: r)) x)). cbn [mem existsb]. now rewrite orb_false_r. }
      rewrite (xsum_xor (a :: b :: r) (fun x => c && (eqb x a || eqb x b)) (comb cs (pairs (b :: r)))).
      assert (xsum (a :: b :: r) (comb cs (pairs (b :: r))) = false) as ->.
      { change (xorb (comb cs (pairs (b :: r)) a) (xsum (b :: r) (comb cs (pairs (b :: r)))) = false).
        rewrite IH; [|exact N2|]; [|change (pairs (a :: b :: r)) with ([a; b] :: pairs (b :: r)) in E; cbn [List.length] in E; lia].
        rewrite comb_none; auto. intros l Hl Hx. apply N1. eapply pairs_In; eauto. }
      cbn [xsum]. rewrite !eqb_refl. rewrite (xsum_false r).
      + assert (eqb a b = false) as -> by (apply eqb_neq; intros ->; apply N1; cbn; auto).
        assert (eqb b a = false) as -> by (apply eqb_neq; intros ->; apply N1; cbn; auto). now destruct c.
      + intros x Hx. assert (eqb x a = false) as -> by (apply eqb_neq; intros ->; apply N1; cbn; auto).
        assert (eqb x b = false) as -> by (apply eqb_neq; intros ->; auto). now destruct c.
  Qed.
  Lemma comb_pairs a b (r : list X) c cs x : comb (c :: cs) (pairs (a :: b :: r)) x = xorb (c && mem x [a; b]) (comb cs (pairs (b :: r)) x).
  Proof. reflexivity. Qed.
  Lemma pairs_basis (v : list X) : NoDup v -> forall h, xsum v h = false ->
    exists cs, List.length cs = List.length (pairs v) /\ (forall x, In x v -> h x = comb cs (pairs v) x) /\
      forall cs', List.length cs' = List.length (pairs v) -> (forall x, In x v -> h x = comb cs' (pairs v) x) -> cs' = cs.
  Proof.
    induction v as [|a [|b r] IH]; intros ND h S.
    - exists []. split; auto. split; [intros x []|]. intros [|]; auto. discriminate.
    - exists []. cbn in S. rewrite xorb_false_r in S. split; auto. split; [intros x [<-|[]]; auto|]. intros [|]; auto. discriminate.
    - inversion ND as [|? ? N1 N2]; subst. inversion N2 as [|? ? N3 N4]; subst.
      set (h' := fun x => xorb (h x) (h a && eqb x b)).
      destruct (IH N2 h') as (cs & E & C & U).
      { cbn [xsum] in *. unfold h'. rewrite eqb_refl. rewrite (xsum_ext r _ h).
        - destruct (h a), (h b), (xsum r h); auto.
        - intros x Hx. assert (eqb x b = false) as -> by (apply eqb_neq; intros ->; auto). now rewrite andb_false_r, xorb_false_r. }
      assert (forall c0 k, comb (c0 :: k) (pairs (a :: b :: r)) a = c0) as CA.
      { intros c0 k. rewrite comb_pairs. rewrite (comb_none k (pairs (b :: r)) a) by (intros l Hl Hx; apply N1; eapply pairs_In; eauto).
        rewrite xorb_false_r. assert (mem a [a; b] = true) as -> by (apply mem_In; cbn; auto). now rewrite andb_true_r. }
      exists (h a :: cs). split; [change (pairs (a :: b :: r)) with ([a; b] :: pairs (b :: r)); cbn [List.length]; lia|]. split.
      + intros x [<-|Hx]; [now rewrite CA|]. rewrite comb_pairs. change (In x (b :: r)) in Hx. rewrite <- (C x Hx). unfold h'.
        assert (mem x [a; b] = eqb x b) as ->.
        { cbn [mem existsb]. assert (eqb x a = false) as -> by (apply eqb_neq; intros ->; auto). now rewrite orb_false_r. }
        destruct (h x), (h a), (eqb x b); auto.
      + intros cs' E' C'. destruct cs' as [|c0 k]; [discriminate|]. assert (c0 = h a) as -> by (rewrite (C' a (or_introl eq_refl)); now rewrite CA).
        f_equal. apply U; [change (pairs (a :: b :: r)) with ([a; b] :: pairs (b :: r)) in E'; cbn [List.length] in E'; lia|]. intros x Hx. unfold h'. rewrite (C' x (or_intror Hx)). rewrite comb_pairs.
        assert (mem x [a; b] = eqb x b) as ->.
        { cbn [mem existsb]. assert (eqb x a = false) as -> by (apply eqb_neq; intros ->; auto). now rewrite orb_false_r. }
        destruct (h a), (eqb x b), (comb k (pairs (b :: r)) x); auto.
  Qed.
  (** *** all classes *)
  Lemma classes_basis (C : list (list X)) : NoDup (List.concat C) -> forall h, (forall v, In v C -> xsum v h = false) ->
    exists cs, List.length cs = List.length (flat_map pairs C) /\ (forall x, In x (List.concat C) -> h x = comb cs (flat_map pairs C) x) /\
      forall cs', List.length cs' = List.length (flat_map pairs C) -> (forall x, In x (List.concat C) -> h x = comb cs' (flat_map pairs C) x) -> cs' = cs.
  Proof.
    induction C as [|v C IH]; intros ND h S; cbn [List.concat flat_map] in *.
    - exists []. split; auto. split; [intros x []|]. intros [|]; auto. discriminate.
    - apply NoDup_app_remove_l in ND as ND2. apply NoDup_app_remove_r in ND as ND1.
      assert (forall x, In x v -> ~ In x (List.concat C)) as D.
      { intros x Hx Hc. apply in_split in Hx as (p & q & ->). rewrite <- app_assoc in ND. cbn in ND. apply NoDup_remove_2 in ND.
        apply ND. rewrite !in_app_iff. auto. }
      destruct (pairs_basis v ND1 h (S v (or_introl eq_refl))) as (c1 & E1 & C1 & U1).
      destruct (IH ND2 h (fun w Hw => S w (or_intror Hw))) as (c2 & E2 & C2 & U2).
      assert (forall k x, In x v -> comb k (flat_map pairs C) x = false) as Z2.
      { intros k x Hx. apply comb_none. intros l Hl Hi. apply in_flat_map in Hl as (w & Hw & Hl). apply (D x Hx). apply in_concat. exists w. split; auto.
        eapply pairs_In; eauto. }
      assert (forall k x, In x (List.concat C) -> comb k (pairs v) x = false) as Z1.
      { intros k x Hx. apply comb_none. intros l Hl Hi. apply (D x); auto. eapply pairs_In; eauto. }
      exists (c1 ++ c2). rewrite !app_length. split; [lia|]. split.
      + intros x Hx. rewrite comb_app by auto. apply in_app_iff in Hx as [Hx|Hx].
        * rewrite Z2, xorb_false_r by auto. auto.
        * rewrite Z1, xorb_false_l by auto. auto.
      + intros cs' E' C'. apply split_length in E' as (k1 & k2 & -> & K1 & K2).
        assert (k1 = c1) as ->.
        { apply U1; auto. intros x Hx. rewrite (C' x) by (apply in_app_iff; auto). rewrite comb_app by auto. now rewrite Z2, xorb_false_r. }
        f_equal. apply U2; auto. intros x Hx. rewrite (C' x) by (apply in_app_iff; auto). rewrite comb_app by auto. now rewrite Z1, xorb_false_l.
  Qed.
End CB.

(** *** lifting a basis from the pairs of nodes to the branches *)
Section Lift.
  Context {X P : Type} `{EqB X} `{EqB P}.
  Context (pr : X -> P) (ends : P -> nat * nat).
  (** classes of parallel branches with their pair of nodes *)
  Context (C : list (P * list X)) (NP : NoDup (map fst C)) (NX : NoDup (List.concat (map snd C)))
          (CP : forall p v x, In (p, v) C -> In x v -> pr x = p).
  Let U := List.concat (map snd C).
  Let PU := map fst C.
  (** the cycles, and the branches chosen for them *)
  Context (cyc : list (list P)) (lif : list (list X))
          (LIFT : Forall2 (fun c l => forall p v, In (p, v) C -> xsum v (fun x => mem x l) = mem p c) cyc lif).

  Lemma class_sum cs p v : In (p, v) C -> xsum v (comb cs lif) = comb cs cyc p.
  Proof.
    intros Hp. revert cs. induction LIFT as [|c l cy li Hh HF IH]; intros cs.
    - assert (comb cs (@nil (list P)) p = false) as -> by (destruct cs; reflexivity). apply xsum_false. intros x _. now destruct cs.
    - destruct cs as [|k cs]; [now apply xsum_false|].
      change (comb (k :: cs) (c :: cy) p) with (xorb (k && mem p c) (comb cs cy p)).
      rewrite (xsum_ext v _ (fun x => xorb (k && mem x l) (comb cs li x))) by reflexivity.
      rewrite (xsum_xor v (fun x => k && mem x l) (comb cs li)), xsum_and_l, (Hh p v Hp). f_equal. apply IH. exact HF.
  Qed.
  Lemma xsum_concat (l : list (list X)) f : xsum (List.concat l) f = xsum l (fun v => xsum v f).
  Proof. induction l as [|v r IH]; cbn; auto. now rewrite xsum_app, IH. Qed.

  Lemma lift_generates : generates ends PU cyc -> generates (fun x => ends (pr x)) U (flat_map pairs (map snd C) ++ lif).
  Proof.
    intros B f F.
    set (g := fun p => match dget C p with Some v => xsum v f | None => false end).
    assert (forall p v, In (p, v) C -> g p = xsum v f) as G.
    { intros p v Hp. unfold g. rewrite (In_dget C p v NP Hp). reflexivity. }
    destruct (B g) as (c2 & E2 & C2 & U2).
    { intros w. specialize (F w). unfold U in F. rewrite xsum_concat, xsum_map in F. unfold PU. rewrite xsum_map. rewrite <- F.
      apply xsum_ext. intros [p v] Hp. cbn [fst snd]. rewrite (G p v Hp), <- xsum_and. apply xsum_ext. intros x Hx. now rewrite (CP p v x Hp Hx). }
    assert (List.length cyc = List.length lif) as LL by (clear -LIFT; induction LIFT; cbn; auto).
    destruct (classes_basis (map snd C) NX (fun x => xorb (f x) (comb c2 lif x))) as (c1 & E1 & C1 & U1).
    { intros v Hv. apply in_map_iff in Hv as ([p v'] & <- & Hp). cbn [snd]. rewrite xsum_xor, (class_sum c2 p v' Hp), <- (G p v' Hp).
      rewrite <- (C2 p) by (unfold PU; change p with (fst (p, v')); now apply in_map). now rewrite xorb_nilpotent. }
    exists (c1 ++ c2). rewrite !app_length. split; [lia|]. split.
    - intros x Hx. rewrite comb_app by auto. rewrite <- (C1 x Hx). destruct (f x), (comb c2 lif x); auto.
    - intros cs' E' C'. apply split_length in E' as (k1 & k2 & -> & K1 & K2).
      assert (k2 = c2) as ->.
      { apply U2; [lia|]. intros p Hp. unfold PU in Hp. apply in_map_iff in Hp as ([p' v] & <- & Hp). cbn [fst].
        rewrite (G p' v Hp). rewrite <- (class_sum k2 p' v Hp). 
        rewrite (xsum_ext v f (fun x => xorb (comb k1 (flat_map pairs (map snd C)) x) (comb k2 lif x))).
        2:{ intros x Hx. rewrite <- comb_app by auto. apply C'. unfold U. apply in_concat. exists v. split; auto. apply in_map_iff. exists (p', v). auto. }
        rewrite xsum_xor. replace (xsum v (comb k1 (flat_map pairs (map snd C)))) with false; [now rewrite xorb_false_l|]. symmetry.
        apply in_split in Hp as (Ca & Cb & EC). clear - K1 EC NX H0.
        assert (forall D1 D2 : list (list X), map snd C = D1 ++ v :: D2 -> xsum v (comb k1 (flat_map pairs (map snd C))) = false) as Q.
        { intros D1 D2 ED. rewrite ED in *. rewrite flat_map_app in *. cbn [flat_map] in *. rewrite !app_length in K1.
          apply split_length in K1 as (a1 & a2 & -> & A1 & A2). apply split_length in A2 as (a3 & a4 & -> & A3 & A4).
          rewrite concat_app in NX. cbn [List.concat] in NX.
          assert (NoDup v) as NV by (apply NoDup_app_remove_l in NX; now apply NoDup_app_remove_r in NX).
          rewrite (xsum_ext v _ (comb a3 (pairs v))); [now apply pairs_sum|]. intros x Hx. rewrite !comb_app by auto.
          rewrite (comb_none a1), (comb_none a4), xorb_false_l, xorb_false_r; auto.
          - intros l Hl Hi. apply in_flat_map in Hl as (w & Hw & Hl). assert (In x w) as Hxw by (eapply pairs_In; eauto).
            apply NoDup_app_remove_l in NX. apply in_split in Hx as (s1 & s2 & ->). rewrite <- app_assoc in NX. cbn in NX. apply NoDup_remove_2 in NX.
            apply NX. rewrite !in_app_iff. right. right. apply in_concat. eauto.
          - intros l Hl Hi. apply in_flat_map in Hl as (w & Hw & Hl). assert (In x w) as Hxw by (eapply pairs_In; eauto).
            apply in_split in Hx as (s1 & s2 & ->). rewrite <- app_assoc in NX. cbn in NX. rewrite app_assoc in NX. apply NoDup_remove_2 in NX.
            apply NX. rewrite !in_app_iff. left. left. apply in_concat. eauto. }
        rewrite EC in *. apply (Q (map snd Ca) (map snd Cb)). rewrite map_app. reflexivity. }
      f_equal. apply U1; auto. intros x Hx. rewrite (C' x Hx), comb_app by auto.
      destruct (comb k1 _ x), (comb c2 lif x); auto.
  Qed.
  Lemma class_eq f w : xsum U (fun x => f x && touches w (ends (pr x))) = xsum C (fun kv => xsum (snd kv) f && touches w (ends (fst kv))).
  Proof.
    unfold U. rewrite xsum_concat, xsum_map. apply xsum_ext. intros [p v] Hp. cbn [fst snd]. rewrite <- xsum_and.
    apply xsum_ext. intros x Hx. now rewrite (CP p v x Hp Hx).
  Qed.
  Lemma Forall2_In_r {A B} (R : A -> B -> Prop) l m b : Forall2 R l m -> In b m -> exists a, In a l /\ R a b.
  Proof. induction 1 as [|a b' l m Hr HF IH]; intros []; [subst; exists a; cbn; auto|]. destruct (IH H1) as (a' & Ha & Hb). exists a'; cbn; auto. Qed.
  Lemma xsum_one {Y} `{EqB Y} (v : list Y) a f : NoDup v -> In a v -> xsum v (fun x => mem x [a] && f x) = f a.
  Proof.
    induction v as [|b v IH]; intros N I; [easy|]. apply NoDup_cons_iff in N as [Nb N]. change (xorb (mem b [a] && f b) (xsum v (fun x => mem x [a] && f x)) = f a).
    destruct (mem b [a]) eqn:E.
    - apply mem_In in E as [<-|[]]. rewrite xsum_false, xorb_false_r; auto. intros x Hx. destruct (mem x [a]) eqn:E; auto. apply mem_In in E as [<-|[]]. easy.
    - destruct I as [->|I]; [exfalso; assert (mem a [a] = true) by (apply mem_In; cbn; auto); congruence|].
      rewrite IH by auto. apply xorb_false_l.
  Qed.
  Lemma pairs_form {Y} (v : list Y) l : NoDup v -> In l (pairs v) -> exists a b, l = [a; b] /\ In a v /\ In b v /\ a <> b.
  Proof.
    induction v as [|a [|b r] IH]; try easy. intros N [<-|I].
    - exists a, b. cbn. repeat split; auto. apply NoDup_cons_iff in N as [N _]. cbn in N. intros ->. tauto.
    - apply NoDup_cons_iff in N as [_ N]. destruct (IH N I) as (x & y & -> & Hx & Hy & Hn). exists x, y. cbn in *. auto.
  Qed.
  Lemma class_nodup p v : In (p, v) C -> NoDup v.
  Proof.
    intros Hp. apply (in_map snd) in Hp. cbn in Hp. clear -NX Hp. induction (map snd C) as [|w l IH]; [easy|]. cbn in NX.
    destruct Hp as [->|Hp]; [eapply NoDup_app_remove_r|apply IH; auto; eapply NoDup_app_remove_l]; eauto.
  Qed.
  Lemma mem_two {Y} `{EqB Y} (x a b : Y) : a <> b -> mem x [a; b] = xorb (mem x [a]) (mem x [b]).
  Proof.
    intros N. destruct (mem x [a]) eqn:Ea, (mem x [b]) eqn:Eb; cbn in *; rewrite ?orb_false_r in *; rewrite ?Ea, ?Eb; auto.
    apply (proj1 (eqb_eq _ _)) in Ea. apply (proj1 (eqb_eq _ _)) in Eb. congruence.
  Qed.
  Theorem lift_basis : cycle_space_basis ends PU cyc -> cycle_space_basis (fun x => ends (pr x)) U (flat_map pairs (map snd C) ++ lif).
  Proof.
    intros [B1 B2]. split; [|now apply lift_generates]. intros l Hl w. apply in_app_or in Hl as [Hl|Hl].
    - apply in_flat_map in Hl as (v & Hv & Hl). apply in_map_iff in Hv as ([p v'] & E & Hp). cbn in E. subst v'.
      destruct (pairs_form v l (class_nodup p v Hp) Hl) as (a & b & -> & Ha & Hb & Hn).
      rewrite (xsum_ext U _ (fun x => xorb (mem x [a] && touches w (ends (pr x))) (mem x [b] && touches w (ends (pr x))))).
      2:{ intros x _. rewrite mem_two by auto. destruct (mem x [a]), (mem x [b]), (touches w (ends (pr x))); auto. }
      rewrite (xsum_xor U (fun x => mem x [a] && touches w (ends (pr x))) (fun x => mem x [b] && touches w (ends (pr x)))).
      assert (forall y, In y v -> In y U) as HU by (intros y Hy; apply in_concat; exists v; split; auto; apply (in_map snd) in Hp; auto).
      rewrite (xsum_one U a (fun x => touches w (ends (pr x)))), (xsum_one U b (fun x => touches w (ends (pr x)))); auto.
      rewrite (CP p v a), (CP p v b) by auto. apply xorb_nilpotent.
    - destruct (Forall2_In_r _ _ _ _ LIFT Hl) as (c & Hc & E). rewrite class_eq.
      rewrite <- (B1 c Hc w). unfold PU. rewrite xsum_map. apply xsum_ext. intros [p v] Hp. cbn [fst snd]. now rewrite (E p v Hp).
  Qed.
End Lift.
