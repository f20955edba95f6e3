From Coq Require Import List Bool String ZArith SpecFloat Lia PeanoNat Permutation Reals Lra.
From Flocq Require Import Core.Core IEEE754.BinarySingleNaN.
From Verif Require Import Prelude PreludeFacts Float FloatFacts Param ParamProofs ParamSweepProofs Sweep SweepProofs.
Import ListNotations.
Open Scope nat_scope.
Open Scope list_scope.

(** ** C21: computeFuncSweep *)
(** Call [func] on the given arguments in order; stop at the first exception. *)
Fixpoint call_all {S D B} (func : S -> D -> S * res B) (s : S) (ds : list D) : S * list B * res unit :=
  match ds with
  | [] => (s, [], Ok tt)
  | d :: r =>
      match func s d with
      | (s', Err e) => (s', [], Err e)
      | (s', Ok b) => let '(s2, bs, o) := call_all func s' r in (s2, b :: bs, o)
      end
  end.

Lemma compute_loop_call {S B} (func : S -> dict string f64 -> S * res B) st is ds s acc :
  mapM (point st) is = Ok ds ->
  compute_loop func st s acc is = let '(s', bs, o) := call_all func s ds in (s', acc ++ bs, o).
Proof.
  revert ds s acc. induction is as [|i is IH]; intros ds s acc E; cbn in E.
  - injection E as <-. cbn. now rewrite app_nil_r.
  - destruct (point st i) as [d|] eqn:P; [|discriminate]. cbn in E.
    destruct (mapM (point st) is) as [ds'|] eqn:M; [|discriminate]. injection E as <-.
    cbn. rewrite P. destruct (func s d) as [s' [b|e]]; [|now rewrite app_nil_r].
    rewrite (IH ds') by reflexivity. destruct (call_all func s' ds') as [[s2 bs] o].
    now rewrite <- app_assoc.
Qed.

Lemma point_at st names Ns sweeps idx : NoDup names -> swept st names Ns sweeps -> inr Ns idx ->
  exists d, point st (flat Ns idx) = Ok d /\ dkeys d = names /\
    forall k name s, nth_error names k = Some name -> nth_error sweeps k = Some s ->
      dget d name = nth_error s (nth k idx 0).
Proof.
  intros ND S H. unfold point. rewrite (sw_params _ _ _ _ S).
  set (g := fun ik : nat * string => (snd ik, nth (nth (fst ik) idx 0) (nth (fst ik) sweeps []) fnan)).
  assert (M : mapM (fun p => match dget (s_c st) p with
                         | None => Err KeyError
                         | Some a => match nth_error a (flat Ns idx) with Some x => Ok (p, x) | None => Err IndexError end
                         end) names = Ok (map g (enumerate names))).
  { apply mapM_ok. unfold enumerate.
    assert (G : forall pre l, names = pre ++ l ->
      Forall2 (fun p y => match dget (s_c st) p with
                         | None => Err KeyError
                         | Some a => match nth_error a (flat Ns idx) with Some x => Ok (p, x) | None => Err IndexError end
                         end = Ok y) l (map g (combine (seq (List.length pre) (List.length l)) l))).
    { intros pre l. revert pre. induction l as [|k l IH]; intros pre E; cbn; constructor.
      - assert (Hk : nth_error names (List.length pre) = Some k).
        { rewrite E, nth_error_app2, Nat.sub_diag by lia. reflexivity. }
        assert (Hlt : List.length pre < List.length sweeps).
        { rewrite (sw_lenn _ _ _ _ S). apply nth_error_Some. congruence. }
        destruct (swept_at _ _ _ _ _ _ _ _ S H Hk (nth_error_nth_lt sweeps _ [] Hlt)) as (arr & E1 & _ & E2 & L).
        rewrite E1, E2, (nth_error_nth_lt _ _ fnan L). reflexivity.
      - specialize (IH (pre ++ [k])). rewrite app_length in IH. cbn in IH. rewrite Nat.add_1_r in IH.
        apply IH. rewrite <- app_assoc. exact E. }
    apply (G []). reflexivity. }
  rewrite M. cbn [bind]. eexists. split; [reflexivity|].
  assert (E1 : map fst (map g (enumerate names)) = names).
  { rewrite map_map. unfold g, enumerate. cbn. clear.
    generalize 0 as a. induction names as [|k l IH]; intros a; cbn; [reflexivity|]. f_equal. apply IH. }
  assert (LE : List.length names = List.length (map snd (map g (enumerate names)))).
  { rewrite !map_length. unfold enumerate. rewrite combine_length, seq_length. lia. }
  rewrite E1. destruct (dict_zip_get names _ ND LE) as [Z1 Z2]. split; [exact Z1|].
  intros k name s Hk Hs. rewrite (Z2 _ _ Hk), !nth_error_map. unfold enumerate.
  assert (Hn : nth_error (combine (seq 0 (List.length names)) names) k = Some (k, name)).
  { clear - Hk. assert (G : forall a, nth_error (combine (seq a (List.length names)) names) k = Some (a + k, name)).
    { revert k Hk. induction names as [|x l IH]; intros [|k] Hk a; cbn in *; try discriminate.
      - injection Hk as ->. f_equal. f_equal. lia.
      - rewrite (IH k Hk (S a)). f_equal. f_equal. lia. }
    apply (G 0). }
  rewrite Hn. cbn. rewrite (nth_error_nth _ _ [] Hs).
  symmetry. apply nth_error_nth_lt. apply (nth_inr Ns); [assumption|].
  rewrite <- (sw_len _ _ _ _ S), nth_error_map, Hs. reflexivity.
Qed.

Lemma clen_swept st specs st' : ndSweep st specs = (st', Ok tt) -> specs <> [] ->
  NoDup (map sp_name specs) -> forall names Ns sweeps, swept st' names Ns sweeps -> s_clen st' = Some (prodn Ns).
Proof.
  unfold ndSweep. intros E NE ND names Ns sweeps S.
  destruct (nd_loop (s_coll st) 1 [] [] specs) as [[coll npts] [[keys sw]|e]] eqn:L; [|discriminate].
  injection E as <-. apply nd_loop_ok in L; [|assumption|constructor].
  destruct L as (-> & _). cbn [app] in *.
  pose proof (sw_params _ _ _ _ S) as Ep. cbn in Ep. subst names.
  destruct specs as [|sp specs]; [congruence|]. cbn [map s_clen] in *.
  pose proof (sw_grid _ _ _ _ S 0 (sp_name sp) eq_refl) as G. cbn [s_c] in G. rewrite G.
  now rewrite map_length, tuples_length.
Qed.

Lemma mapM_exists {A B} (f : A -> res B) l : (forall x, In x l -> exists y, f x = Ok y) -> exists r, mapM f l = Ok r.
Proof.
  induction l as [|x l IH]; intros H; [eexists; reflexivity|].
  destruct (H x (or_introl eq_refl)) as (y & E). destruct IH as (r & Er); [intros; apply H; now right|].
  exists (y :: r). cbn. now rewrite E, Er.
Qed.

Lemma mapM_nth {A B} (f : A -> res B) l r i x : mapM f l = Ok r -> nth_error l i = Some x ->
  exists y, nth_error r i = Some y /\ f x = Ok y.
Proof.
  intros E. apply mapM_ok in E. revert i. induction E as [|a b l r Hab F IH]; intros [|i] H; cbn in *; try discriminate.
  - injection H as <-. eauto.
  - apply IH. assumption.
Qed.

Lemma mapM_length {A B} (f : A -> res B) l r : mapM f l = Ok r -> List.length r = List.length l.
Proof. intros E. apply mapM_ok, Forall2_length in E. now symmetry. Qed.

Lemma nth_error_seq a n i : i < n -> nth_error (seq a n) i = Some (a + i).
Proof. intros H. rewrite (nth_error_nth' _ 0) by (rewrite seq_length; lia). now rewrite seq_nth. Qed.

Lemma computeFuncSweep_calls {S B} (func : S -> dict string f64 -> S * res B) st specs s st' :
  ndSweep st specs = (st', Ok tt) -> specs <> [] -> NoDup (map sp_name specs) ->
  exists sweeps ds,
    grid_of st' (map sp_name specs) sweeps /\
    List.length ds = prodn (map (@List.length f64) sweeps) /\
    (forall idx, inr (map (@List.length f64) sweeps) idx ->
       exists j d, collapsedIndices st' (map Z.of_nat idx) = Ok (Z.of_nat j) /\ nth_error ds j = Some d /\
         dkeys d = map sp_name specs /\
         forall k name sw, nth_error (map sp_name specs) k = Some name -> nth_error sweeps k = Some sw ->
           dget d name = nth_error sw (nth k idx 0)) /\
    computeFuncSweep func st specs s = (st', call_all func s ds).
Proof.
  intros E NE ND. destruct (ndSweep_swept _ _ _ E ND) as (Ns & sweeps & S0 & _).
  exists sweeps. pose proof (sw_len _ _ _ _ S0) as EN.
  destruct (mapM_exists (point st') (seq 0 (prodn Ns))) as (ds & Eds).
  { intros j Hj. apply in_seq in Hj. destruct (flat_surj Ns j) as (idx & Hi & <-); [lia|].
    destruct (point_at _ _ _ _ _ ND S0 Hi) as (d & Hd & _). eauto. }
  exists ds. split; [eapply swept_sweeps; eassumption|]. rewrite EN.
  split; [rewrite (mapM_length _ _ _ Eds); apply seq_length|]. split.
  - intros idx Hi. exists (flat Ns idx).
    pose proof (flat_lt _ _ Hi) as Hlt.
    destruct (mapM_nth _ _ _ (flat Ns idx) (flat Ns idx) Eds) as (d & Hd & Hp).
    { rewrite nth_error_seq by assumption. reflexivity. }
    destruct (point_at _ _ _ _ _ ND S0 Hi) as (d' & Hd' & K & G).
    rewrite Hp in Hd'. injection Hd' as <-. exists d.
    split; [eapply collapsedIndices_flat; [eassumption|]; now apply inr_length|]. auto.
  - unfold computeFuncSweep. rewrite E, (clen_swept _ _ _ E NE ND _ _ _ S0).
    rewrite (compute_loop_call _ _ _ _ _ _ Eds). destruct (call_all func s ds) as [[s2 bs] o]. reflexivity.
Qed.

(** ** C25: nearest point *)
Lemma fabs_valid x : valid (fabs x) = valid x.
Proof. destruct x; reflexivity. Qed.
Lemma is_nan_X x : is_nan x = false <-> X x <> XNaN.
Proof. destruct x as [|[]| |]; cbn; split; congruence. Qed.
Lemma xle_refl a : a <> XNaN -> xle a a.
Proof. destruct a; cbn; auto; try congruence. intros _. lra. Qed.
Lemma xlt_le a b : xlt a b -> xle a b.
Proof. destruct a, b; cbn; auto. lra. Qed.
Lemma xlt_trans a b c : xlt a b -> xlt b c -> xlt a c.
Proof. destruct a, b, c; cbn; auto; try tauto. lra. Qed.
Lemma xle_trans a b c : xle a b -> xle b c -> xle a c.
Proof. destruct a, b, c; cbn; auto; try tauto. lra. Qed.
Lemma xlt_le_trans a b c : xlt a b -> xle b c -> xlt a c.
Proof. destruct a, b, c; cbn; auto; try tauto. lra. Qed.
Lemma xnlt_le a b : a <> XNaN -> b <> XNaN -> ~ xlt a b -> xle b a.
Proof. destruct a, b; cbn; auto; try tauto; try congruence. lra. Qed.

Definition clean (l : list f64) : Prop := Forall (fun x => valid x = true /\ is_nan x = false) l.

Lemma argmin_aux_spec l : forall pre best bi,
  clean (pre ++ l) ->
  nth_error pre bi = Some best ->
  (forall j y, nth_error pre j = Some y -> xle (X best) (X y) /\ (j < bi -> xlt (X best) (X y))) ->
  let i := argmin_aux best bi (List.length pre) l in
  exists m, nth_error (pre ++ l) i = Some m /\
    forall j y, nth_error (pre ++ l) j = Some y -> xle (X m) (X y) /\ (j < i -> xlt (X m) (X y)).
Proof.
  induction l as [|x l IH]; intros pre best bi C Hb H; cbn.
  - rewrite app_nil_r. eauto.
  - assert (Cx : valid x = true /\ is_nan x = false).
    { unfold clean in C. rewrite Forall_forall in C. apply C, in_or_app. right. now left. }
    assert (Cb : valid best = true /\ is_nan best = false).
    { unfold clean in C. rewrite Forall_forall in C. apply C, in_or_app. left. eapply nth_error_In; eassumption. }
    destruct Cx as [Vx Nx], Cb as [Vb Nb]. rewrite Nx, Nb.
    replace (pre ++ x :: l) with ((pre ++ [x]) ++ l) in * by now rewrite <- app_assoc.
    pose proof (flt_spec _ _ Vx Vb) as Sp.
    replace (S (List.length pre)) with (List.length (pre ++ [x])) by (rewrite app_length; cbn; lia).
    assert (Hcase : forall j y, nth_error (pre ++ [x]) j = Some y ->
       (nth_error pre j = Some y /\ j < List.length pre) \/ (j = List.length pre /\ y = x)).
    { intros j y Hj. destruct (Nat.lt_ge_cases j (List.length pre)).
      - left. rewrite nth_error_app1 in Hj by assumption. auto.
      - right. rewrite nth_error_app2 in Hj by assumption.
        destruct (j - List.length pre) as [|n] eqn:E; cbn in Hj.
        + injection Hj as <-. split; [lia|reflexivity].
        + destruct n; discriminate. }
    destruct (flt x best).
    + pose proof (proj1 Sp eq_refl) as L. apply IH; [assumption| |].
      * rewrite nth_error_app2, Nat.sub_diag by lia. reflexivity.
      * intros j y Hj. destruct (Hcase _ _ Hj) as [[Hp _]|[-> ->]].
        -- destruct (H _ _ Hp) as [Hle _]. pose proof (xlt_le_trans _ _ _ L Hle). split; [now apply xlt_le|auto].
        -- split; [apply xle_refl; now apply is_nan_X|lia].
    + pose proof (bool_false_neg _ _ Sp eq_refl) as L. apply IH; [assumption| |].
      * rewrite nth_error_app1; [assumption|]. apply nth_error_Some. congruence.
      * intros j y Hj. destruct (Hcase _ _ Hj) as [[Hp _]|[-> ->]].
        -- apply H. assumption.
        -- split; [apply xnlt_le; auto; now apply is_nan_X|].
           assert (bi < List.length pre) by (apply nth_error_Some; congruence). lia.
Qed.

Lemma argmin_spec l i : clean l -> argmin l = Ok i ->
  exists m, nth_error l i = Some m /\
    forall j y, nth_error l j = Some y -> xle (X m) (X y) /\ (j < i -> xlt (X m) (X y)).
Proof.
  destruct l as [|x l]; [discriminate|]. intros C [= <-].
  apply (argmin_aux_spec l [x] x 0 C); [reflexivity|].
  intros [|j] y Hj; cbn in Hj; [|destruct j; discriminate]. injection Hj as <-.
  unfold clean in C. inversion C as [|? ? [_ N] _]; subst.
  split; [apply xle_refl; now apply is_nan_X|lia].
Qed.

(** Distance of a sweep point to the requested value, as numpy computes it. *)
Definition dist (v x : f64) : f64 := fabs (fsub x v).
(** [i] is the first index at minimal distance. *)
Definition nearest (sw : list f64) (v : f64) (i : nat) : Prop :=
  exists x, nth_error sw i = Some x /\
    forall j y, nth_error sw j = Some y ->
      xle (X (dist v x)) (X (dist v y)) /\ (j < i -> xlt (X (dist v x)) (X (dist v y))).
Definition static_ok (sw : list f64) (v : f64) : Prop :=
  sw <> [] /\ valid v = true /\ Forall (fun x => valid x = true /\ is_nan (dist v x) = false) sw.

Lemma nearest_unique sw v i i' : nearest sw v i -> nearest sw v i' -> i = i'.
Proof.
  intros (x & Hx & H) (y & Hy & H').
  destruct (Nat.lt_trichotomy i i') as [L|[E|L]]; [exfalso|assumption|exfalso].
  - destruct (H' _ _ Hx) as [_ A]. specialize (A L). destruct (H _ _ Hy) as [B _].
    pose proof (xlt_le_trans _ _ _ A B) as F. destruct (X (dist v y)); cbn in F; auto. lra.
  - destruct (H _ _ Hy) as [_ A]. specialize (A L). destruct (H' _ _ Hx) as [B _].
    pose proof (xlt_le_trans _ _ _ A B) as F. destruct (X (dist v x)); cbn in F; auto. lra.
Qed.

Lemma static_one_spec coll k v sw : getParameterSweep coll k = Ok sw -> static_ok sw v ->
  exists i x, static_one coll k v = Ok (i, x) /\ nearest sw v i /\ nth_error sw i = Some x.
Proof.
  intros E (NE & Vv & C). unfold static_one. rewrite E. cbn [bind].
  assert (Cl : clean (map (fun x => fabs (fsub x v)) sw)).
  { unfold clean. rewrite Forall_map. eapply Forall_impl; [|exact C].
    intros x [Vx N]. split; [|exact N]. rewrite fabs_valid. now apply fsub_valid. }
  destruct (argmin (map (fun x => fabs (fsub x v)) sw)) as [i|e] eqn:A.
  2:{ destruct sw; [congruence|discriminate]. }
  destruct (argmin_spec _ _ Cl A) as (m & Hm & H). cbn [bind].
  rewrite nth_error_map in Hm. destruct (nth_error sw i) as [x|] eqn:Hx; [|discriminate].
  cbn in Hm. injection Hm as <-. exists i, x. split; [reflexivity|]. split; [|assumption || reflexivity].
  exists x. split; [assumption|]. intros j y Hj. apply H. rewrite nth_error_map, Hj. reflexivity.
Qed.

(** In real numbers. *)
Local Open Scope R_scope.
Lemma X_fabs x : X (fabs x) = match X x with XFin r => XFin (Rabs r) | XNInf => XPInf | a => a end.
Proof.
  destruct x as [s|[]| |s m e]; cbn -[SF2R]; try reflexivity.
  - now rewrite Rabs_R0.
  - f_equal. unfold SF2R, F2R. cbn [Fnum Fexp]. rewrite Rabs_mult, (Rabs_pos_eq (bpow radix2 e)) by apply bpow_ge_0.
    f_equal. rewrite <- abs_IZR. f_equal. destruct s; reflexivity.
Qed.

Lemma rnd_abs x : Rabs (rnd x) = rnd (Rabs x).
Proof.
  unfold rnd. unfold Rabs at 2. destruct (Rcase_abs x) as [L|L].
  - change ZnearestE with (Znearest (fun x => negb (Z.even x))).
    rewrite round_NE_opp. rewrite Rabs_left1; [reflexivity|].
    rewrite <- (round_0 radix2 (FLT_exp (-1074) 53) ZnearestE). apply rnd_le. lra.
  - rewrite Rabs_pos_eq; [reflexivity|].
    rewrite <- (round_0 radix2 (FLT_exp (-1074) 53) ZnearestE). apply rnd_le. lra.
Qed.

Lemma dist_real v x rv rx : valid v = true -> valid x = true ->
  X v = XFin rv -> X x = XFin rx -> Float.is_finite (fsub x v) = true ->
  X (dist v x) = XFin (rnd (Rabs (rx - rv))).
Proof.
  intros Vv Vx Xv Xx F. unfold dist. rewrite X_fabs.
  destruct (X_fin_bf _ _ Vv Xv) as (a & <- & Fa & Ra). destruct (X_fin_bf _ _ Vx Xx) as (b & <- & Fb & Rb).
  rewrite fsub_B in *. rewrite fin_iff in F. rewrite X_finite by assumption.
  rewrite (Bminus_R b a Fb Fa F), Ra, Rb. f_equal. apply rnd_abs.
Qed.

Lemma nearest_real sw v i rv x rx :
  valid v = true -> X v = XFin rv -> nearest sw v i -> nth_error sw i = Some x ->
  Forall (fun y => valid y = true /\ Float.is_finite (fsub y v) = true) sw ->
  X x = XFin rx ->
  forall j y ry, nth_error sw j = Some y -> X y = XFin ry ->
    (Rabs (rx - rv) <= Rabs (ry - rv) \/ rnd (Rabs (rx - rv)) = rnd (Rabs (ry - rv))) /\
    ((j < i)%nat -> Rabs (rx - rv) < Rabs (ry - rv)).
Proof.
  intros Vv Xv (x' & Hx' & H) Hx F Xx j y ry Hy Xy. rewrite Hx in Hx'. injection Hx' as <-.
  rewrite Forall_forall in F.
  destruct (F x (nth_error_In _ _ Hx)) as [Vx Fx]. destruct (F y (nth_error_In _ _ Hy)) as [Vy Fy].
  destruct (H _ _ Hy) as [H1 H2].
  rewrite (dist_real v x rv rx), (dist_real v y rv ry) in H1 by assumption.
  rewrite (dist_real v x rv rx), (dist_real v y rv ry) in H2 by assumption. cbn in H1, H2.
  split.
  - destruct (Rle_or_lt (Rabs (rx - rv)) (Rabs (ry - rv))) as [L|L]; [now left|right].
    apply Rle_antisym; [assumption|]. apply rnd_le. lra.
  - intros Hj. specialize (H2 Hj). destruct (Rlt_or_le (Rabs (rx - rv)) (Rabs (ry - rv))) as [L|L]; [assumption|exfalso].
    apply rnd_le in L. lra.
Qed.
