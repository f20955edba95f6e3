(** Paths, parity of degrees, and the list of superconducting loops. *)
From Coq Require Import List Bool String Ascii Arith Permutation Lia.
From Verif Require Import Prelude PreludeFacts Graph GraphSpec GraphView GraphForest GraphWf GraphGround GraphCircuit.
Import ListNotations.
Open Scope string_scope.
Open Scope list_scope.
Open Scope nat_scope.

Inductive walk : nat -> list edge -> nat -> Prop :=
| walk_nil s : walk s [] s
| walk_cons e p t : walk (dst e) p t -> walk (src e) (e :: p) t.

Lemma paths_spec es t : forall fuel vis s p, In p (paths fuel es vis s t) ->
  walk s p t /\ (forall e, In e p -> In e es) /\ NoDup (map dst p) /\ (forall x, In x (map dst p) -> ~ In x vis).
Proof.
  assert (Hnil : forall vis s p, In p [[]] -> s = t -> walk s p t /\ (forall e, In e p -> In e es) /\ NoDup (map dst p) /\ (forall x, In x (map dst p) -> ~ In x vis)).
  { intros vis s p [<-|[]] ->. split; [constructor|]. split; [easy|]. split; [constructor|easy]. }
  induction fuel as [|fuel IH]; intros vis s p; cbn; destruct (Nat.eqb_spec s t) as [Hst|Hst]; auto; [easy|].
  intros H. apply in_flat_map in H as (e & He & Hp).
  destruct (negb (src e =? s) || mem (dst e) vis) eqn:E; [easy|].
  apply orb_false_iff in E as [E1 E2]. apply negb_false_iff, Nat.eqb_eq in E1. apply mem_nIn in E2.
  apply in_map_iff in Hp as (q & <- & Hq). apply IH in Hq as (H1 & H2 & H3 & H4). subst s. split; [constructor; auto|].
  split; [intros f [<-|Hf]; auto|]. cbn. split.
  - constructor; auto. intros Hi. apply (H4 _ Hi). cbn; auto.
  - intros x [<-|Hx]; auto. intros Hv. apply (H4 _ Hx). cbn; auto.
Qed.
Lemma paths_complete es t : forall p fuel vis s, walk s p t -> (forall e, In e p -> In e es) -> NoDup (map dst p) ->
  (forall x, In x (map dst p) -> ~ In x vis) -> List.length p <= fuel -> In s vis -> paths fuel es vis s t <> [].
Proof.
  induction p as [|e p IH]; intros fuel vis s Hw Hi Hn Hv Hl Hs.
  - inversion Hw; subst. destruct fuel; cbn; rewrite Nat.eqb_refl; discriminate.
  - inversion Hw; subst. destruct fuel as [|fuel]; [cbn in Hl; lia|]. cbn [paths].
    destruct (Nat.eqb (src e) t); [discriminate|].
    inversion Hn; subst.
    assert (Hne : paths fuel es (dst e :: vis) (dst e) t <> []).
    { apply IH; auto.
      - intros f Hf. apply Hi. cbn; auto.
      - intros x Hx [Hq|Hxv]; [subst x; auto|]. apply (Hv x); cbn; auto.
      - cbn in Hl. lia.
      - cbn; auto. }
    assert (Hf : exists q, In q (paths fuel es (dst e :: vis) (dst e) t)) by (destruct (paths fuel es (dst e :: vis) (dst e) t) as [|q l]; [easy|]; exists q; cbn; auto).
    destruct Hf as [q Hq].
    intros E.
    assert (Hin : In (e :: q) (flat_map (fun e0 => if negb (src e0 =? src e) || mem (dst e0) vis then [] else map (cons e0) (paths fuel es (dst e0 :: vis) (dst e0) t)) es)).
    { apply in_flat_map. exists e. split; [apply Hi; cbn; auto|]. rewrite Nat.eqb_refl. cbn [negb orb].
      assert (Em : mem (dst e) vis = false) by (apply mem_nIn, Hv; cbn; auto). rewrite Em. apply in_map; auto. }
    rewrite E in Hin. easy.
Qed.

Lemma first_sorted_In l p : first_sorted l = Some p -> In p l.
Proof.
  destruct l as [|q l]; cbn; [discriminate|]. intros H. injection H as <-.
  assert (G : forall l q, fold_left (fun m r => if path_le m r then m else r) l q = q \/ In (fold_left (fun m r => if path_le m r then m else r) l q) l).
  { clear. induction l as [|r l IH]; intros q; cbn; auto.
    destruct (IH (if path_le q r then q else r)) as [->|H]; auto. destruct (path_le q r); auto. }
  destruct (G l q) as [->|H]; auto.
Qed.
Lemma first_sorted_None l : first_sorted l = None <-> l = [].
Proof. destruct l; cbn; split; congruence. Qed.
Lemma first_path_spec ns es s t p : first_path ns es s t = Some p -> walk s p t /\ (forall e, In e p -> In e es) /\ NoDup p.
Proof.
  intros H. apply first_sorted_In, paths_spec in H as (H1 & H2 & H3 & _). split; auto. split; auto.
  eapply NoDup_map_inv'; eauto.
Qed.

(** parity *)
Definition one (a x : nat) : nat := if Nat.eqb a x then 1 else 0.
Lemma degree_cons e E x : degree (e :: E) x = one (src e) x + one (dst e) x + degree E x.
Proof. reflexivity. Qed.
Lemma degree_app E F x : degree (E ++ F) x = degree E x + degree F x.
Proof. induction E as [|e E IH]; auto. rewrite <- app_comm_cons, !degree_cons, IH. lia. Qed.
Lemma degree_perm E F x : Permutation E F -> degree E x = degree F x.
Proof. induction 1; auto; rewrite ?degree_cons; lia. Qed.
Lemma walk_degree s p t x : walk s p t -> exists k, degree p x + one s x + one t x = 2 * k.
Proof.
  induction 1 as [s|e p t Hw [k IH]].
  - exists (one s x). cbn. lia.
  - rewrite degree_cons. exists (k + one (src e) x). lia.
Qed.
Lemma symdiff_degree p q x : NoDup p -> NoDup q -> exists k, degree p x + degree q x = degree (symdiff p q) x + 2 * k.
Proof.
  intros Hp Hq. unfold symdiff. rewrite degree_app.
  rewrite (degree_perm _ _ x (Permutation_filter_split (fun e => mem e q) p)).
  rewrite (degree_perm _ _ x (Permutation_filter_split (fun e => mem e p) q)). rewrite !degree_app.
  assert (Permutation (filter (fun e => mem e q) p) (filter (fun e => mem e p) q)) as E.
  { apply NoDup_Permutation; try (apply NoDup_filter; auto). intros e. rewrite !filter_In, !mem_In. tauto. }
  rewrite (degree_perm _ _ x E). exists (degree (filter (fun e => mem e p) q) x). lia.
Qed.
Lemma loop_closed s p1 p2 e : walk s p1 (src e) -> walk s p2 (dst e) -> NoDup p1 -> NoDup p2 -> closed (symdiff p1 p2 ++ [e]).
Proof.
  intros H1 H2 N1 N2 x. rewrite degree_app, degree_cons.
  destruct (walk_degree _ _ _ x H1) as [k1 E1], (walk_degree _ _ _ x H2) as [k2 E2], (symdiff_degree p1 p2 x N1 N2) as [k3 E3].
  apply Nat.even_spec. exists (k1 + k2 - k3 - one s x). change (degree [] x) with 0. lia.
Qed.

(** the loops *)
Notation triple := (nat * (list nat * list edge) * edge)%type (only parsing).
Definition triples (vg : grounds) : list triple := flat_map (fun x => map (fun e => (fst x, snd (snd x), e)) (fst (snd x))) vg.
Definition lstep (acc : loopst * res unit) (t : triple) := one_loop (fst (fst t)) (snd (fst t)) acc (snd t).
Lemma get_loops_triples vg : get_loops vg = fold_left lstep (triples vg) (mkl 0 None [] [], Ok tt).
Proof.
  unfold get_loops. generalize (mkl 0 None [] [], @Ok unit tt). induction vg as [|x vg IH]; intros acc; cbn; auto.
  rewrite fold_left_app, IH. f_equal. clear. revert acc. induction (fst (snd x)) as [|e l IH]; intros acc; cbn; auto.
Qed.
Lemma triples_closures vg : map snd (triples vg) = closure_branches vg.
Proof. unfold triples, closure_branches. rewrite map_flat_map. apply flat_map_ext. intros x. rewrite map_map. apply map_id. Qed.
Lemma triples_In vg t : In t (triples vg) <-> exists x, In x vg /\ In (snd t) (fst (snd x)) /\ fst (fst t) = fst x /\ snd (fst t) = snd (snd x).
Proof.
  unfold triples. rewrite in_flat_map. split; intros (x & Hx & H); exists x; split; auto.
  - apply in_map_iff in H as (e & <- & He). cbn; auto.
  - destruct H as (H1 & H2 & H3). apply in_map_iff. exists (snd t). destruct t as [[a b] e]. cbn in *. subst; auto.
Qed.
Lemma lstep_err ts st e : fold_left lstep ts (st, Err e) = (st, Err e).
Proof. induction ts; cbn; auto. Qed.

(** the body of the loop of a closure branch, when both paths exist *)
Definition body_ok (T : list edge) (t : triple) (b : list edge) : Prop :=
  (forall f, In f b -> In f T) /\
  forall p1 p2, first_path (fst (snd (fst t))) (snd (snd (fst t))) (fst (fst t)) (src (snd t)) = Some p1 ->
    first_path (fst (snd (fst t))) (snd (snd (fst t))) (fst (fst t)) (dst (snd t)) = Some p2 -> b = symdiff p1 p2.
Record Loops (T : list edge) (ts : list triple) (st : loopst) : Prop := {
  lo_c : l_c st = List.length ts;
  lo_keys : dkeys (l_loops st) = seq 0 (List.length ts);
  lo_ckeys : dkeys (l_clos st) = seq 0 (List.length ts);
  lo_p1 : forall p, l_p1 st = Some p -> forall f, In f p -> In f T;
  lo_loop : forall i t, nth_error ts i = Some t ->
    exists b, dget (l_loops st) i = Some (b ++ [snd t]) /\ dget (l_clos st) i = Some (snd t) /\ body_ok T t b
}.
Lemma loops_put T ts st t p1 b : Loops T ts st -> (forall p, p1 = Some p -> forall f, In f p -> In f T) -> body_ok T t b ->
  Loops T (ts ++ [t]) (mkl (l_c st + 1) p1 (dset (l_loops st) (l_c st) (b ++ [snd t])) (dset (l_clos st) (l_c st) (snd t))).
Proof.
  intros [H1 H2 H3 H4 H5] Hp Hb.
  assert (N1 : ~ In (l_c st) (dkeys (l_loops st))) by (rewrite H2, H1, in_seq; lia).
  assert (N2 : ~ In (l_c st) (dkeys (l_clos st))) by (rewrite H3, H1, in_seq; lia).
  split; cbn [l_c l_p1 l_loops l_clos].
  - rewrite app_length, H1. auto.
  - rewrite dkeys_dset_new by auto. rewrite H2, H1, app_length. cbn. rewrite Nat.add_1_r, seq_S. auto.
  - rewrite dkeys_dset_new by auto. rewrite H3, H1, app_length. cbn. rewrite Nat.add_1_r, seq_S. auto.
  - auto.
  - intros i t' Hi. destruct (Nat.eq_dec i (List.length ts)) as [->|Hne].
    + rewrite nth_error_app2, Nat.sub_diag in Hi by lia. cbn in Hi. injection Hi as <-.
      exists b. rewrite H1, !dget_dset_eq. auto.
    + assert (i < List.length ts).
      { assert (Hq : nth_error (ts ++ [t]) i <> None) by congruence. apply nth_error_Some in Hq. rewrite app_length in Hq. cbn in Hq. lia. }
      rewrite nth_error_app1 in Hi by auto. rewrite !dget_dset_neq by (rewrite H1; auto). auto.
Qed.
Lemma loops_fold T ts : (forall t f, In t ts -> In f (snd (snd (fst t))) -> In f T) ->
  forall st, fold_left lstep ts (mkl 0 None [] [], Ok tt) = (st, Ok tt) -> Loops T ts st.
Proof.
  induction ts as [|t ts IH] using rev_ind; intros HT st H.
  - cbn in H. injection H as <-. split; cbn; auto; try easy. intros i t; destruct i; discriminate.
  - rewrite fold_left_app in H. destruct (fold_left lstep ts _) as [st1 r] eqn:E. destruct r as [[]|x]; [|cbn in H; discriminate].
    assert (HL : Loops T ts st1) by (apply IH; auto; intros t' f Ht; apply HT; apply in_or_app; auto). clear IH E.
    assert (Ht : forall f, In f (snd (snd (fst t))) -> In f T) by (intros f; apply HT; apply in_or_app; cbn; auto).
    cbn [fold_left] in H. unfold lstep, one_loop in H.
    destruct (first_path _ _ _ (src (snd t))) as [p1|] eqn:P1.
    + assert (Hp1 : forall f, In f p1 -> In f T) by (intros f Hf; apply Ht; eapply first_path_spec; eauto).
      destruct (first_path _ _ _ (dst (snd t))) as [p2|] eqn:P2; injection H as <-; apply loops_put; auto; try (intros p Hp; injection Hp as <-; auto).
      * split; [|congruence]. intros f Hf. unfold symdiff in Hf. apply in_app_or in Hf as [Hf|Hf]; apply filter_In in Hf as [Hf _]; auto.
        apply Ht. eapply first_path_spec; eauto.
      * split; auto; congruence.
    + destruct (l_p1 st1) as [p|] eqn:P; [|discriminate]. injection H as <-. 
      assert (Hp : forall f, In f p -> In f T) by (apply (lo_p1 _ _ _ HL p P)).
      apply loops_put; auto; [intros q Hq; injection Hq as <-; auto|]. split; auto; congruence.
Qed.
(** when all the paths exist nothing fails *)
Lemma loops_fold_ok ts : (forall t, In t ts -> first_path (fst (snd (fst t))) (snd (snd (fst t))) (fst (fst t)) (src (snd t)) <> None) ->
  forall st, exists st', fold_left lstep ts (st, Ok tt) = (st', Ok tt).
Proof.
  induction ts as [|t ts IH]; intros H st; cbn [fold_left]; [eauto|].
  unfold lstep at 2, one_loop. destruct (first_path _ _ _ (src (snd t))) as [p1|] eqn:P1; [|destruct (H t); cbn; auto].
  destruct (first_path _ _ _ (dst (snd t))) as [p2|] eqn:P2; apply IH; intros t' Ht'; apply H; cbn; auto.
Qed.
