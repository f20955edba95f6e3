(** The two concrete expression structures satisfy the assumed laws. *)
From Coq Require Import List Bool String ZArith SpecFloat.
From Verif Require Import Prelude PreludeFacts Float Expr.
Import ListNotations.

Lemma tfree_nodup e : NoDup (tfree e).
Proof. induction e; cbn; try apply dedup_NoDup; auto; repeat constructor; auto. Qed.
Lemma In_dd (x : string) a b : In x (dedup (a ++ b)%list) <-> In x a \/ In x b.
Proof. now rewrite dedup_In, in_app_iff. Qed.
Lemma teval_ext e r r' : (forall x, In x (tfree e) -> r x = r' x) -> teval e r = teval e r'.
Proof.
  induction e; cbn -[dedup]; intros H; auto.
  - rewrite IHe1, IHe2; auto; intros x Hx; apply H, In_dd; auto.
  - rewrite IHe1, IHe2; auto; intros x Hx; apply H, In_dd; auto.
  - rewrite IHe; auto.
Qed.
Lemma teval_strict e r v x : teval e r = Some v -> In x (tfree e) -> r x <> None.
Proof.
  revert v. induction e; cbn -[dedup]; intros v Hv Hx.
  - easy.
  - destruct Hx as [<-|[]]. congruence.
  - apply In_dd in Hx. destruct (teval e1 r) eqn:E1; [|easy]. destruct (teval e2 r) eqn:E2; [|easy].
    destruct Hx; [eapply IHe1|eapply IHe2]; eauto.
  - apply In_dd in Hx. destruct (teval e1 r) eqn:E1; [|easy]. destruct (teval e2 r) eqn:E2; [|easy].
    destruct Hx; [eapply IHe1|eapply IHe2]; eauto.
  - destruct (teval e r) eqn:E1; [|easy]. eapply IHe; eauto.
Qed.
Lemma tree_free_subs e s t x :
  In x (tfree (tsubs e s t)) -> (In x (tfree e) /\ x <> s) \/ In x (tfree t).
Proof.
  induction e; cbn -[dedup eqb]; rewrite ?In_dd; try tauto.
  destruct (eqb_spec s0 s); [tauto|]. cbn. intros [<-|[]]. left. split; auto.
Qed.
Lemma tree_eval_subs e s t r : teval (tsubs e s t) r = teval e (upd r s (teval t r)).
Proof.
  induction e; cbn -[eqb]; auto.
  - unfold upd. destruct (eqb_spec s0 s); reflexivity.
  - now rewrite IHe1, IHe2.
  - now rewrite IHe1, IHe2.
  - now rewrite IHe.
Qed.
Lemma tree_alg_ok : alg_ok tree_alg.
Proof.
  constructor.
  - exact tfree_nodup.
  - exact tree_free_subs.
  - reflexivity.
  - intros a b x. cbn -[dedup]. now rewrite In_dd.
  - exact teval_ext.
  - exact teval_strict.
  - reflexivity.
  - cbn. intros a b r x y v -> -> E. exact E.
  - intros e s t r v. cbn. now rewrite tree_eval_subs.
Qed.
Lemma tree_noop e s t : ~ In s (tfree e) -> tsubs e s t = e.
Proof.
  induction e; cbn -[dedup eqb]; rewrite ?In_dd; intros H; auto.
  - destruct (eqb_spec s0 s); [tauto|reflexivity].
  - rewrite IHe1, IHe2 by tauto. reflexivity.
  - rewrite IHe1, IHe2 by tauto. reflexivity.
  - rewrite IHe by tauto. reflexivity.
Qed.
Lemma tree_alg_plain : alg_plain tree_alg.
Proof.
  constructor.
  - intros e s t x. cbn. induction e; cbn -[dedup eqb]; rewrite ?In_dd; try tauto.
    destruct (eqb_spec s0 s); cbn; [|tauto]. intros [<-|[]] N. congruence.
  - intros e s t x. cbn. induction e; cbn -[dedup eqb]; rewrite ?In_dd; try tauto.
    intros [->|[]] Hx. now rewrite eqb_refl.
  - intros e s t r _. apply tree_eval_subs.
  - exact tree_noop.
  - reflexivity.
Qed.

Lemma smul_free a b x : In x (tfree (smul a b)) -> In x (tfree a) \/ In x (tfree b).
Proof. unfold smul. destruct (_ || _); cbn -[dedup]; [easy|]. now rewrite In_dd. Qed.
Lemma smul_eval a b r x y : teval a r = Some x -> teval b r = Some y -> teval (smul a b) r = Some (x * y)%Z.
Proof.
  intros Ha Hb. unfold smul. destruct ((is_zero a && fine b) || (is_zero b && fine a)) eqn:Z.
  - apply orb_true_iff in Z. rewrite !andb_true_iff in Z.
    destruct Z as [[Z _]|[Z _]].
    + destruct a as [[]| | | |]; try discriminate. cbn in *. injection Ha as <-. reflexivity.
    + destruct b as [[]| | | |]; try discriminate. cbn in *. injection Hb as <-. now rewrite Z.mul_0_r.
  - cbn. now rewrite Ha, Hb.
Qed.
Lemma simp_alg_ok : alg_ok simp_alg.
Proof.
  constructor.
  - exact tfree_nodup.
  - intros e s t x. cbn. induction e; cbn -[dedup eqb]; rewrite ?In_dd; try tauto.
    + destruct (eqb_spec s0 s); [tauto|]. cbn. intros [<-|[]]. left. split; auto.
    + intros H. apply smul_free in H. tauto.
  - reflexivity.
  - exact smul_free.
  - exact teval_ext.
  - exact teval_strict.
  - reflexivity.
  - cbn. intros a b r x y v Ha Hb E. injection E as <-. now apply smul_eval.
  - intros e s t r v. cbn. revert v. induction e; cbn -[eqb]; intros v H; auto.
    + unfold upd in H. destruct (eqb_spec s0 s); auto.
    + destruct (teval e1 _); [|easy]. destruct (teval e2 _); [|easy].
      rewrite (IHe1 _ eq_refl), (IHe2 _ eq_refl). exact H.
    + destruct (teval e1 _); [|easy]. destruct (teval e2 _); [|easy].
      rewrite (smul_eval _ _ _ _ _ (IHe1 _ eq_refl) (IHe2 _ eq_refl)). exact H.
    + destruct (teval e _); [|easy]. now rewrite (IHe _ eq_refl).
Qed.
