(** Proofs for C126: the levels of a restricted matrix (Cauchy's interlacing). *)
From Coq Require Import List Bool Arith Lia ZArith Reals Lra Setoid Morphisms.
From Coquelicot Require Import Complex.
From Verif Require Import Prelude Mat MatFacts Util NumOp NumOpSpec NumKron NumSpectral NumSymSpec NumTruncSpec.
Import ListNotations.
Open Scope nat_scope.

Definition S (n : nat) (f : nat -> C) : C := @sumn C_rng n f.
Ltac cring := match goal with |- @eq _ ?a ?b => change (@eq C a b) end; ring.
Lemma S_single n i f : i < n -> (forall k, k < n -> k <> i -> f k = RtoC 0) -> S n f = f i.
Proof. intros Hi H. apply (@sumn_single C_rng n i); auto. Qed.
Lemma S_ext n f g : (forall i, i < n -> f i = g i) -> S n f = S n g.
Proof. apply (@sumn_ext C_rng). Qed.
Lemma S_add n f g : S n (fun i => (f i + g i)%C) = (S n f + S n g)%C.
Proof. apply (@sumn_add C_rng). Qed.
Lemma S_l n c f : (c * S n f)%C = S n (fun i => (c * f i)%C).
Proof. apply (@sumn_mul_l C_rng). Qed.
Lemma S_r n c f : (S n f * c)%C = S n (fun i => (f i * c)%C).
Proof. apply (@sumn_mul_r C_rng). Qed.
Lemma S_swap n m f : S n (fun i => S m (fun j => f i j)) = S m (fun j => S n (fun i => f i j)).
Proof. apply (@sumn_swap C_rng). Qed.
Lemma S_S n f : S (Datatypes.S n) f = (S n f + f n)%C.
Proof. reflexivity. Qed.
Lemma S_0 n f : (forall i, i < n -> f i = RtoC 0) -> S n f = RtoC 0.
Proof. intros H. rewrite (S_ext n f (fun _ => RtoC 0) H). induction n as [|n IH]; [reflexivity|]. rewrite S_S, IH by (intros; apply H; lia). ring. Qed.

(** ** fewer equations than unknowns *)
Definition skip (p j : nat) : nat := if Nat.ltb j p then j else j + 1.
Lemma S_skip n p f : p <= n -> S (Datatypes.S n) f = (f p + S n (fun j => f (skip p j)))%C.
Proof.
  revert p. induction n as [|n IH]; intros p Hp.
  - assert (p = 0) by lia. subst p. rewrite S_S. unfold S. cbn [sumn]. cbn. ring.
  - destruct (Nat.eq_dec p (Datatypes.S n)) as [->|N].
    + rewrite S_S. rewrite (S_ext (Datatypes.S n) (fun j => f (skip (Datatypes.S n) j)) f). { ring. } intros i Hi. unfold skip. destruct (Nat.ltb_spec i (Datatypes.S n)); [easy|lia].
    + rewrite S_S, (IH p) by lia. rewrite S_S. unfold skip at 3. destruct (Nat.ltb_spec n p); [lia|]. rewrite Nat.add_1_r. ring.
Qed.
Lemma underdetermined m : forall n (a : nat -> nat -> C), m < n -> exists c : nat -> C, (exists j, j < n /\ c j <> RtoC 0) /\ forall i, i < m -> S n (fun j => (a i j * c j)%C) = RtoC 0.
Proof.
  induction m as [|m IH]; intros n a Hn.
  - exists (fun _ => RtoC 1). split; [exists 0; split; [easy|]; intros Q; apply RtoC_inj in Q; lra | easy].
  - destruct n as [|n]; [lia|].
    assert (P : (exists p, p < Datatypes.S n /\ a m p <> RtoC 0) \/ forall p, p < Datatypes.S n -> a m p = RtoC 0).
    { clear IH Hn. generalize (Datatypes.S n). induction n0 as [|q IH]; [right; lia|]. destruct IH as [(p & Hp & Np)|A]; [left; exists p; split; [lia|easy]|].
      destruct (Ceq_dec (a m q) (RtoC 0)) as [E|N]; [|left; exists q; split; [lia|easy]]. right. intros p Hp. destruct (Nat.eq_dec p q) as [->|]; [easy | apply A; lia]. }
    destruct P as [(p & Hp & Np)|Z].
    + destruct (IH n (fun i j => (a i (skip p j) - a i p * a m (skip p j) / a m p)%C) ltac:(lia)) as (c & (j0 & Hj0 & Nj0) & Hc).
      set (x := (- S n (fun j => a m (skip p j) * c j) / a m p)%C).
      exists (fun k => if Nat.eqb k p then x else c (if Nat.ltb k p then k else k - 1)).
      assert (Sk : forall j, (if Nat.eqb (skip p j) p then x else c (if Nat.ltb (skip p j) p then skip p j else skip p j - 1)) = c j).
      { intros j. unfold skip. destruct (Nat.ltb_spec j p).
        - destruct (Nat.eqb_spec j p); [lia|]. destruct (Nat.ltb_spec j p); [easy|lia].
        - destruct (Nat.eqb_spec (j + 1) p); [lia|]. destruct (Nat.ltb_spec (j + 1) p); [lia|]. f_equal. lia. }
      split. { exists (skip p j0). rewrite Sk. split; [unfold skip; destruct (Nat.ltb_spec j0 p); lia | easy]. }
      assert (G : forall i, S (Datatypes.S n) (fun k => a i k * (if Nat.eqb k p then x else c (if Nat.ltb k p then k else (k - 1)%nat)))%C = (a i p * x + S n (fun j => a i (skip p j) * c j))%C).
      { intros i. rewrite (S_skip n p) by lia. rewrite Nat.eqb_refl. f_equal. apply S_ext. intros j _. now rewrite Sk. }
      intros i Hi. rewrite G. destruct (Nat.eq_dec i m) as [->|Ni].
      * unfold x. set (s := S n (fun j => a m (skip p j) * c j)%C). field. exact Np.
      * specialize (Hc i ltac:(lia)). transitivity (S n (fun j => (a i (skip p j) - a i p * a m (skip p j) / a m p) * c j)%C); [|exact Hc].
        unfold x. transitivity (S n (fun j => a i (skip p j) * c j)%C + (- a i p / a m p) * S n (fun j => a m (skip p j) * c j)%C)%C.
        { set (s := S n (fun j => a m (skip p j) * c j)%C). field. exact Np. }
        rewrite S_l, <- S_add. apply S_ext. intros j _. field. exact Np.
    + destruct (IH (Datatypes.S n) a ltac:(lia)) as (c & Nc & Hc). exists c. split; [exact Nc|]. intros i Hi. destruct (Nat.eq_dec i m) as [->|Ni]; [|apply Hc; lia].
      apply S_0. intros j Hj. rewrite Z by easy. ring.
Qed.

(** ** sums of squares *)
Definition RS (n : nat) (f : nat -> R) : R := @sumn R_rng n f.
Lemma RS_S n f : RS (Datatypes.S n) f = (RS n f + f n)%R.
Proof. reflexivity. Qed.
Lemma RS_0 n f : (forall i, i < n -> f i = 0%R) -> RS n f = 0%R.
Proof. induction n as [|n IH]; intros H; [reflexivity|]. rewrite RS_S, IH, H by (intros; auto). ring. Qed.
Definition sq (z : C) : R := (fst z * fst z + snd z * snd z)%R.
Lemma sq_C z : (Cconj z * z)%C = RtoC (sq z).
Proof. apply injective_projections; unfold sq; cbn; ring. Qed.
Lemma sq_pos z : (0 <= sq z)%R.
Proof. unfold sq. nra. Qed.
Lemma sq_zero z : sq z = 0%R -> z = RtoC 0.
Proof. unfold sq. intros H. apply injective_projections; cbn; nra. Qed.
Lemma S_R n (f : nat -> R) : S n (fun i => RtoC (f i)) = RtoC (RS n f).
Proof. induction n as [|n IH]; [reflexivity|]. rewrite S_S, IH, RS_S. symmetry. apply RtoC_plus. Qed.
Lemma RS_le n f g : (forall i, i < n -> (f i <= g i)%R) -> (RS n f <= RS n g)%R.
Proof. induction n as [|n IH]; intros H; [apply Rle_refl|]. rewrite !RS_S. apply Rplus_le_compat; [apply IH; intros; apply H; lia | apply H; lia]. Qed.
Lemma RS_l n c f : RS n (fun i => (c * f i)%R) = (c * RS n f)%R.
Proof. symmetry. apply (@sumn_mul_l R_rng). Qed.
Lemma RS_pos n f j : (forall i, i < n -> (0 <= f i)%R) -> j < n -> (0 < f j)%R -> (0 < RS n f)%R.
Proof.
  intros H Hj P. induction n as [|n IH]; [lia|]. rewrite RS_S.
  assert (Q : (0 <= RS n f)%R). { clear - H. induction n as [|n IH]; [apply Rle_refl|]. rewrite RS_S. pose proof (H n ltac:(lia)). assert (0 <= RS n f)%R by (apply IH; intros; apply H; lia). lra. }
  destruct (Nat.eq_dec j n) as [->|N]; [lra|]. assert (0 < RS n f)%R by (apply IH; [intros; apply H; lia | lia]). pose proof (H n ltac:(lia)). lra.
Qed.

(** ** interlacing *)
Section Levels.
  Variables (n n' : nat) (f : nat -> nat) (A A' : matrix) (E E' : nat -> R).
  Hypothesis Hf : embedding n n' f.
  Hypothesis HA : restricts n f A' A.
  Variables (V V' : matrix).
  Hypothesis HV : unitary n V.
  Hypothesis HV' : unitary n' V'.
  Hypothesis HE : same n (mul n A V) (mul n V (diagonal (fun k => RtoC (E k)))).
  Hypothesis HE' : same n' (mul n' A' V') (mul n' V' (diagonal (fun k => RtoC (E' k)))).
  (** V'^dagger A' V' with weights *)
  Lemma spectral a b : a < n' -> b < n' -> A' a b = S n' (fun l => (RtoC (E' l) * (V' a l * Cconj (V' b l)))%C).
  Proof.
    intros Ha Hb. destruct HV' as [U1 U2]. rewrite !mul_same in *. change identity with eye in *.
    change (diagonal (fun k => RtoC (E' k))) with (cdiag (fun k => RtoC (E' k))) in HE'.
    assert (X : same n' A' (mm n' (mm n' V' (cdiag (fun k => RtoC (E' k)))) (adjoint V'))).
    { rewrite <- HE', mmA, U1, mm_1r. reflexivity. }
    rewrite (X a b Ha Hb). unfold mm at 1, mmul. apply S_ext. intros l Hl. cbn [kmul C_rng].
    change (@mmul C_rng n' V' (cdiag (fun k => RtoC (E' k))) a l) with (mm n' V' (cdiag (fun k => RtoC (E' k))) a l). rewrite mm_cdiag_r by easy. unfold adjoint. cring.
  Qed.
  Lemma resolution a b : a < n' -> b < n' -> eye a b = S n' (fun l => (V' a l * Cconj (V' b l))%C).
  Proof. intros Ha Hb. destruct HV' as [U1 _]. rewrite mul_same in U1. change identity with eye in U1. rewrite <- (U1 a b Ha Hb). reflexivity. Qed.
  (** the overlap of eigenvectors of the two matrices *)
  Definition overlap (l j : nat) : C := S n (fun i => (Cconj (V' (f i) l) * V i j)%C).
  Lemma weighted (w : nat -> R) (K : matrix) a b : (forall i k, i < n -> k < n -> K i k = S n' (fun l => (RtoC (w l) * (V' (f i) l * Cconj (V' (f k) l)))%C)) ->
    S n' (fun l => (RtoC (w l) * (Cconj (overlap l a) * overlap l b))%C) = S n (fun i => S n (fun k => (Cconj (V i a) * K i k * V k b)%C)).
  Proof.
    intros HK. transitivity (S n' (fun l => S n (fun i => S n (fun k => (Cconj (V i a) * (RtoC (w l) * (V' (f i) l * Cconj (V' (f k) l))) * V k b)%C)))).
    - apply S_ext. intros l _. unfold overlap. rewrite conj_sum, S_r, S_l. apply S_ext. intros i _. rewrite S_l, S_l. apply S_ext. intros k _. rewrite conj_mult, conj_conj. ring.
    - rewrite S_swap. apply S_ext. intros i Hi. rewrite S_swap. apply S_ext. intros k Hk. rewrite (HK i k Hi Hk), S_l, S_r. apply S_ext. intros; ring.
  Qed.
  Lemma isometry a b : a < n -> b < n -> S n' (fun l => (RtoC 1 * (Cconj (overlap l a) * overlap l b))%C) = eye a b.
  Proof.
    intros Ha Hb. destruct Hf as [F1 F2]. rewrite (weighted (fun _ => 1%R) eye).
    - destruct HV as [_ U2]. rewrite mul_same in U2. change identity with eye in U2. rewrite <- (U2 a b Ha Hb). unfold mm, mmul. apply S_ext. intros i Hi. cbn [kmul C_rng]. unfold adjoint.
      transitivity (Cconj (V i a) * mm n eye V i b)%C; [|now rewrite mm_eye_l]. unfold mm, mmul. change (Cconj (V i a) * ?x)%C with (@kmul C_rng (Cconj (V i a)) x). rewrite (@sumn_mul_l C_rng). apply S_ext. intros k _. cbn [kmul C_rng]. cring.
    - intros i k Hi Hk. transitivity (eye (f i) (f k)). { unfold eye. destruct (Nat.eqb_spec i k) as [->|N]; [now rewrite Nat.eqb_refl|]. destruct (Nat.eqb_spec (f i) (f k)) as [Q|]; [destruct N; now apply F2 | easy]. }
      rewrite resolution by auto. apply S_ext. intros; ring.
  Qed.
  Lemma energies a b : a < n -> b < n -> S n' (fun l => (RtoC (E' l) * (Cconj (overlap l a) * overlap l b))%C) = (RtoC (E a) * eye a b)%C.
  Proof.
    intros Ha Hb. destruct Hf as [F1 F2]. rewrite (weighted E' A).
    - transitivity (mm n (adjoint V) (mm n A V) a b).
      + unfold mm, mmul. apply S_ext. intros i Hi. change (@kmul C_rng ?x ?y) with (x * y)%C. rewrite S_l. apply S_ext. intros k _. unfold adjoint. cbn [kmul C_rng]. ring.
      + destruct HV as [_ U2]. rewrite mul_same in U2, HE. rewrite mul_same in HE. change identity with eye in U2. change (diagonal (fun k => RtoC (E k))) with (cdiag (fun k => RtoC (E k))) in HE.
        assert (X : same n (mm n (adjoint V) (mm n A V)) (cdiag (fun k => RtoC (E k)))) by (rewrite HE, <- mmA, U2, mm_1l; reflexivity).
        rewrite (X a b Ha Hb). unfold cdiag, eye. destruct (Nat.eqb a b); ring.
    - intros i k Hi Hk. rewrite <- (HA i k Hi Hk). apply spectral; auto.
  Qed.
  Lemma form (w e : nat -> R) (c : nat -> C) : (forall a b, a < n -> b < n -> S n' (fun l => (RtoC (w l) * (Cconj (overlap l a) * overlap l b))%C) = (RtoC (e a) * eye a b)%C) ->
    RS n' (fun l => (w l * sq (S n (fun j => overlap l j * c j)%C))%R) = RS n (fun a => (e a * sq (c a))%R).
  Proof.
    intros H. apply RtoC_inj. rewrite <- !S_R.
    transitivity (S n (fun a => S n (fun b => (Cconj (c a) * S n' (fun l => RtoC (w l) * (Cconj (overlap l a) * overlap l b)) * c b)%C))).
    - transitivity (S n' (fun l => S n (fun a => S n (fun b => (Cconj (c a) * (RtoC (w l) * (Cconj (overlap l a) * overlap l b)) * c b)%C)))).
      + apply S_ext. intros l _. rewrite RtoC_mult, <- sq_C, conj_sum, S_r, S_l. apply S_ext. intros a _. rewrite S_l, S_l. apply S_ext. intros b _. rewrite conj_mult. ring.
      + rewrite S_swap. apply S_ext. intros a _. rewrite S_swap. apply S_ext. intros b _. rewrite S_l, S_r. reflexivity.
    - apply S_ext. intros a Ha. rewrite (S_single n a); auto.
      + rewrite H by easy. unfold eye. rewrite Nat.eqb_refl. rewrite RtoC_mult, <- sq_C. cring.
      + intros b Hb N. rewrite H by easy. unfold eye. destruct (Nat.eqb_spec a b); [congruence|]. cring.
  Qed.
  Hypothesis OE : ascending n E.
  Hypothesis OE' : ascending n' E'.
  Lemma fewer : n <= n'.
  Proof.
    destruct (le_lt_dec n n') as [|L]; [easy|]. exfalso. destruct (underdetermined n' n overlap L) as (c & (j & Hj & Nj) & Hc).
    pose proof (form (fun _ => 1%R) (fun _ => 1%R) c) as F. rewrite (RS_0 n') in F.
    -       assert (P : (0 < RS n (fun a => (1 * sq (c a))%R))%R).
      { apply (RS_pos n _ j); auto; [intros; pose proof (sq_pos (c i)); lra|]. pose proof (sq_pos (c j)). destruct (Req_dec (sq (c j)) 0) as [Q|Q]; [destruct Nj; now apply sq_zero | lra]. }
      rewrite <- F in P; [lra|]. intros a b Ha Hb. rewrite isometry by easy. ring.
    - intros l Hl. rewrite Hc by easy. unfold sq. cbn. ring.
  Qed.
  Lemma level_drops k : k < n -> (E' k <= E k)%R.
  Proof.
    intros Hk. destruct (underdetermined k (k + 1) overlap ltac:(lia)) as (c & (j & Hj & Nj) & Hc).
    set (c' := fun a => if Nat.ltb a (k + 1) then c a else RtoC 0).
    assert (T : forall l, S n (fun a => (overlap l a * c' a)%C) = S (k + 1) (fun a => (overlap l a * c a)%C)).
    { intros l. replace n with (k + 1 + (n - (k + 1))) by lia. generalize (n - (k + 1)). intros q. induction q as [|q IH].
      - rewrite Nat.add_0_r. apply S_ext. intros i Hi. unfold c'. destruct (Nat.ltb_spec i (k + 1)); [easy|lia].
      - rewrite Nat.add_succ_r, S_S, IH. unfold c'. destruct (Nat.ltb_spec (k + 1 + q) (k + 1)); [lia|]. ring. }
    pose proof (form (fun _ => 1%R) (fun _ => 1%R) c') as F1. pose proof (form E' E c') as F2.
    specialize (F1 ltac:(intros a b Ha Hb; rewrite isometry by easy; ring)). specialize (F2 energies).
    set (y := fun l => sq (S n (fun a => (overlap l a * c' a)%C))) in *.
    assert (Y0 : forall l, l < k -> y l = 0%R). { intros l Hl. unfold y. rewrite T, Hc by easy. unfold sq. cbn. ring. }
    assert (L1 : (E' k * RS n' (fun l => 1 * y l)%R <= RS n' (fun l => E' l * y l)%R)%R).
    { rewrite <- RS_l. apply RS_le. intros l Hl. destruct (le_lt_dec k l) as [G|G]; [|rewrite Y0 by easy; lra]. pose proof (OE' k l G Hl). pose proof (sq_pos (S n (fun a => (overlap l a * c' a)%C))) as P. fold (y l) in P. nra. }
    assert (L2 : (RS n (fun a => E a * sq (c' a))%R <= E k * RS n (fun a => 1 * sq (c' a))%R)%R).
    { rewrite <- RS_l. apply RS_le. intros a Ha. unfold c'. destruct (Nat.ltb_spec a (k + 1)) as [G|G]; [|unfold sq; cbn; lra]. pose proof (OE a k ltac:(lia) Hk). pose proof (sq_pos (c a)). nra. }
    assert (P : (0 < RS n (fun a => (1 * sq (c' a))%R))%R).
    { apply (RS_pos n _ j); [intros i _; pose proof (sq_pos (c' i)); lra | lia |]. unfold c'. destruct (Nat.ltb_spec j (k + 1)); [|lia]. pose proof (sq_pos (c j)). destruct (Req_dec (sq (c j)) 0) as [Q|Q]; [destruct Nj; now apply sq_zero | lra]. }
    unfold y in L1. rewrite F1, F2 in L1. nra.
  Qed.
End Levels.
Lemma levels_drop n n' f A A' E E' : embedding n n' f -> restricts n f A' A -> spectrum n A E -> spectrum n' A' E' -> ascending n E -> ascending n' E' ->
  forall k, k < n -> (E' k <= E k)%R.
Proof. intros Hf HA (V & HV & HE) (V' & HV' & HE') OE OE'. exact (level_drops n n' f A A' E E' Hf HA V V' HV HV' HE HE' OE OE'). Qed.
