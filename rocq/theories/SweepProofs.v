From Coq Require Import List Bool String ZArith SpecFloat Lia PeanoNat Permutation.
From Verif Require Import Prelude PreludeFacts Float FloatFacts Param ParamProofs ParamSweepProofs Sweep.
Import ListNotations.
Open Scope nat_scope.
Open Scope list_scope.

Lemma Forall2_length {A B} (R : A -> B -> Prop) l l' : Forall2 R l l' -> List.length l = List.length l'.
Proof. induction 1; cbn; lia. Qed.

(** ** Index arithmetic *)
Definition inr (Ns idx : list nat) : Prop := Forall2 lt idx Ns.
Definition prodn (l : list nat) : nat := fold_right Nat.mul 1 l.
(** Row-major rank of an index tuple (last index fastest). *)
Fixpoint flat (Ns idx : list nat) : nat :=
  match Ns, idx with
  | _ :: s, i :: r => i * prodn s + flat s r
  | _, _ => 0
  end.

Lemma inr_length Ns idx : inr Ns idx -> List.length idx = List.length Ns.
Proof. apply Forall2_length. Qed.

Lemma flat_lt Ns idx : inr Ns idx -> flat Ns idx < prodn Ns.
Proof.
  intros H. induction H as [|i n r s Hi H IH]; cbn; [lia|].
  fold (prodn s). nia.
Qed.

Lemma flat_inj Ns idx idx' : inr Ns idx -> inr Ns idx' -> flat Ns idx = flat Ns idx' -> idx = idx'.
Proof.
  intros H. revert idx'. induction H as [|i n r s Hi H IH]; intros idx' H' E; inversion H'; subst; [reflexivity|].
  cbn in E. pose proof (flat_lt s r H). pose proof (flat_lt s l H4).
  assert (i = x) by nia. subst. f_equal. apply IH; [assumption|lia].
Qed.

Lemma flat_surj Ns j : j < prodn Ns -> exists idx, inr Ns idx /\ flat Ns idx = j.
Proof.
  revert j. induction Ns as [|n s IH]; intros j Hj; cbn in Hj.
  - exists []. split; [constructor|]. cbn. lia.
  - fold (prodn s) in Hj. assert (Hp : prodn s <> 0) by nia.
    destruct (IH (j mod prodn s)) as (r & Hr & Er); [now apply Nat.mod_upper_bound|].
    exists (j / prodn s :: r). split.
    + constructor; [|assumption]. apply Nat.div_lt_upper_bound; lia.
    + cbn. rewrite Er. rewrite (Nat.div_mod j (prodn s)) at 3 by assumption. lia.
Qed.

Lemma tuples_length Ns : List.length (tuples Ns) = prodn Ns.
Proof.
  induction Ns as [|n s IH]; [reflexivity|]. cbn [tuples]. change (prodn (n :: s)) with (n * prodn s).
  assert (G : forall a k, List.length (flat_map (fun i => map (cons i) (tuples s)) (seq a k)) = k * prodn s).
  { intros a k. revert a. induction k as [|k IHk]; intros a; [reflexivity|].
    cbn. rewrite app_length, map_length, IHk, IH. lia. }
  apply G.
Qed.

Lemma nth_tuples Ns idx : inr Ns idx -> nth_error (tuples Ns) (flat Ns idx) = Some idx.
Proof.
  intros H. induction H as [|i n r s Hi H IH]; [reflexivity|].
  cbn [tuples flat].
  assert (G : forall k a, i < k ->
    nth_error (flat_map (fun i => map (cons i) (tuples s)) (seq a k)) (i * prodn s + flat s r) = Some (a + i :: r)).
  { clear n Hi. induction i as [|i IHi]; intros k a Hk; destruct k as [|k]; try lia; cbn [seq flat_map].
    - rewrite nth_error_app1 by (rewrite map_length, tuples_length; pose proof (flat_lt s r H); lia).
      cbn. rewrite nth_error_map, IH. cbn. now rewrite Nat.add_0_r.
    - rewrite nth_error_app2 by (rewrite map_length, tuples_length; cbn; lia).
      rewrite map_length, tuples_length.
      replace (S i * prodn s + flat s r - prodn s) with (i * prodn s + flat s r) by (cbn; lia).
      rewrite IHi by lia. f_equal. f_equal. lia. }
  apply (G n 0 Hi).
Qed.

Lemma flat_index_flat Ns idx : inr Ns idx -> flat_index Ns idx = Some (flat Ns idx).
Proof.
  intros H. induction H as [|i n r s Hi H IH]; [reflexivity|]. cbn [flat_index].
  destruct (Nat.ltb_spec i n); [|lia]. rewrite IH. reflexivity.
Qed.

(** ** collapsedIndices computes the rank *)
Lemma mapM_ok {A B} (f : A -> res B) l r : mapM f l = Ok r <-> Forall2 (fun x y => f x = Ok y) l r.
Proof.
  revert r. induction l as [|x l IH]; intros r; cbn.
  - split; [intros [= <-]; constructor|intros H; inversion H; reflexivity].
  - destruct (f x) as [y|] eqn:E; cbn.
    + destruct (mapM f l) as [ys|] eqn:E2; cbn.
      * split; [intros [= <-]; constructor; [assumption|now apply IH]|].
        intros H; inversion H; subst. rewrite E in H2. injection H2 as <-.
        apply IH in H4. congruence.
      * split; [discriminate|]. intros H; inversion H; subst. apply IH in H4. discriminate.
    + split; [discriminate|]. intros H; inversion H; subst. congruence.
Qed.

Lemma prodZ_nat l : prodZ (map Z.of_nat l) = Z.of_nat (prodn l).
Proof. induction l as [|x l IH]; [reflexivity|]. cbn. unfold prodZ in IH. rewrite IH. fold (prodn l). lia. Qed.

Lemma sum_flat pre Ns idx : List.length idx = List.length Ns ->
  sumZ (map (fun ii => (prodZ (skipn (fst ii + 1) (pre ++ map Z.of_nat Ns)) * snd ii)%Z)
            (combine (seq (List.length pre) (List.length idx)) (map Z.of_nat idx)))
  = Z.of_nat (flat Ns idx).
Proof.
  revert pre idx. induction Ns as [|n s IH]; intros pre idx E; destruct idx as [|i r]; try discriminate; [reflexivity|].
  cbn [List.length seq map combine sumZ fold_right fst snd flat].
  replace (skipn (List.length pre + 1) (pre ++ Z.of_nat n :: map Z.of_nat s)) with (map Z.of_nat s).
  2:{ rewrite skipn_app. rewrite skipn_all2 by lia. replace (List.length pre + 1 - List.length pre) with 1 by lia. reflexivity. }
  rewrite prodZ_nat.
  specialize (IH (pre ++ [Z.of_nat n]) r). rewrite <- app_assoc in IH. cbn in IH.
  rewrite app_length in IH. cbn in IH. rewrite Nat.add_1_r in IH.
  unfold sumZ in IH. rewrite IH by (cbn in E; lia). lia.
Qed.

(** What an accepted ndSweep establishes. *)
Record swept (st : swst) (names : list string) (Ns : list nat) (sweeps : list (list f64)) : Prop := {
  sw_names : map sp_name (s_spec st) = names;
  sw_params : s_params st = names;
  sw_ndims : s_ndims st = List.length names;
  sw_len : map (@List.length f64) sweeps = Ns;
  sw_lenn : List.length sweeps = List.length names;
  sw_N : map sp_N (s_spec st) = map (fun n => PInt (Z.of_nat n)) Ns;
  sw_coll : Forall2 (fun k s => exists p, dget (s_coll st) k = Some p /\ p_sweep p = s /\ p_N p = Z.of_nat (List.length s)) names sweeps;
  sw_npts : s_npts st = Z.of_nat (prodn Ns);
  sw_grid : forall i k, nth_error names i = Some k ->
     dget (s_c st) k = Some (map (fun idx => nth (nth i idx 0) (nth i sweeps []) fnan) (tuples Ns));
  sw_grid_keys : dkeys (s_c st) = names;
  sw_nc : forall k a, dget (s_c st) k = Some a -> dget (s_nc st) k = Some (mknd Ns a)
}.

Lemma combine_map_r {A B C} (f : B -> C) (l : list A) (l' : list B) :
  combine l (map f l') = map (fun p => (fst p, f (snd p))) (combine l l').
Proof. revert l'. induction l as [|a l IH]; intros [|b l']; cbn; try reflexivity. now rewrite IH. Qed.

Lemma collapsedIndices_flat st names Ns sweeps idx : swept st names Ns sweeps ->
  List.length idx = List.length Ns ->
  collapsedIndices st (map Z.of_nat idx) = Ok (Z.of_nat (flat Ns idx)).
Proof.
  intros S E. unfold collapsedIndices.
  assert (M : mapM (fun k => match dget (s_coll st) k with Some p => Ok (p_N p) | None => Err KeyError end)
             (s_params st) = Ok (map Z.of_nat Ns)).
  { apply mapM_ok. rewrite (sw_params _ _ _ _ S), <- (sw_len _ _ _ _ S), map_map.
    pose proof (sw_coll _ _ _ _ S) as H. clear S E.
    induction H as [|k s names sweeps (p & E1 & E2 & E3) H IH]; cbn; constructor; [|assumption].
    rewrite E1, E3. reflexivity. }
  rewrite M. cbn [bind]. f_equal. unfold enumerate. rewrite map_length.
  exact (sum_flat [] Ns idx E).
Qed.

(** ** ndSweep *)
Lemma nd_loop_ok specs : forall coll npts keys sweeps coll' npts' keys' sweeps',
  nd_loop coll npts keys sweeps specs = (coll', npts', Ok (keys', sweeps')) ->
  NoDup (keys ++ map sp_name specs) ->
  Forall2 (fun k s => exists p, dget coll k = Some p /\ p_sweep p = s /\ p_N p = Z.of_nat (List.length s)) keys sweeps ->
  keys' = keys ++ map sp_name specs /\
  exists new, sweeps' = sweeps ++ new /\
    map sp_N specs = map (fun s => PInt (Z.of_nat (List.length s))) new /\
    npts' = (npts * Z.of_nat (prodn (map (@List.length f64) new)))%Z /\
    Forall2 (fun sp s => exists p, dget coll (sp_name sp) = Some p /\
       snd (linearSweep p (sp_start sp) (sp_end sp) (sp_N sp)) = Ok s) specs new /\
    Forall2 (fun k s => exists p, dget coll' k = Some p /\ p_sweep p = s /\ p_N p = Z.of_nat (List.length s)) keys' sweeps'.
Proof.
  induction specs as [|s specs IH]; intros coll npts keys sweeps coll' npts' keys' sweeps' E ND F.
  - cbn in E. injection E as <- <- <- <-. rewrite app_nil_r. split; [reflexivity|].
    exists []. rewrite app_nil_r. cbn. repeat split; auto. lia.
  - cbn in E. destruct (dget coll (sp_name s)) as [p|] eqn:G; [|discriminate].
    destruct (linearSweep p (sp_start s) (sp_end s) (sp_N s)) as [p' [sw|e]] eqn:L; [|discriminate].
    destruct (linearSweep_cases p (sp_start s) (sp_end s) (sp_N s)) as [(l & N & x & y & En & _ & _ & _ & _ & _ & _ & _ & _ & Ls & E1)|(e & E1)];
      rewrite E1 in L; [|discriminate]. injection L as <- <-.
    destruct (linspace_ok _ _ _ _ Ls) as (HN & Len & _).
    rewrite En in E. apply IH in E.
    + destruct E as (-> & new & -> & M & -> & Src & F'). rewrite <- app_assoc. split; [reflexivity|].
      exists (l :: new). rewrite <- app_assoc. split; [reflexivity|]. cbn. rewrite M, En, Len.
      rewrite Z2Nat.id by assumption. split; [reflexivity|].
      split; [fold (prodn (map (@List.length f64) new)); rewrite Nat2Z.inj_mul, Z2Nat.id by assumption; ring|].
      split; [|rewrite <- !app_assoc in F'; exact F'].
      constructor; [exists p; rewrite G, E1; auto|].
      assert (NI : ~ In (sp_name s) (map sp_name specs)).
      { cbn in ND. apply NoDup_remove_2 in ND. intros H. apply ND, in_or_app. now right. }
      clear - Src NI. induction Src as [|sp sw specs new (q & A1 & A2) F IH]; constructor.
      -- exists q. rewrite dget_dset_neq in A1; [auto|]. intros E. apply NI. left. exact E.
      -- apply IH. intros H. apply NI. now right.
    + rewrite <- app_assoc. exact ND.
    + apply Forall2_app.
      * assert (NI : ~ In (sp_name s) keys).
        { cbn in ND. apply NoDup_remove_2 in ND. intros H. apply ND, in_or_app. now left. }
        clear - F NI. induction F as [|k sw keys sweeps (q & A1 & A2 & A3) F IH]; constructor.
        -- exists q. rewrite dget_dset_neq; [auto|]. intros ->. apply NI. now left.
        -- apply IH. intros H. apply NI. now right.
      * constructor; [|constructor]. eexists. rewrite dget_dset_eq. split; [reflexivity|].
        cbn. split; [reflexivity|]. rewrite Len. lia.
Qed.

Lemma dict_zip_get {V} (keys : list string) (vals : list V) : NoDup keys -> List.length keys = List.length vals ->
  dkeys (dict_zip keys vals) = keys /\
  forall i k, nth_error keys i = Some k -> dget (dict_zip keys vals) k = nth_error vals i.
Proof.
  intros ND E.
  assert (G : forall keys vals (d : dict string V), NoDup (dkeys d ++ keys) -> List.length keys = List.length vals ->
    let d' := fold_left (fun d kv => dset d (fst kv) (snd kv)) (combine keys vals) d in
    dkeys d' = dkeys d ++ keys /\ (forall k, In k (dkeys d) -> dget d' k = dget d k) /\
    forall i k, nth_error keys i = Some k -> dget d' k = nth_error vals i).
  { clear. induction keys as [|k keys IH]; intros [|v vals] d ND E; try discriminate; cbn.
    - rewrite app_nil_r. repeat split. intros [|]; discriminate.
    - assert (NI : ~ In k (dkeys d)).
      { apply NoDup_remove_2 in ND. intros H. apply ND, in_or_app. now left. }
      destruct (IH vals (dset d k v)) as (A1 & A2 & A3).
      + rewrite dkeys_dset_new by assumption. rewrite <- app_assoc. exact ND.
      + cbn in E. lia.
      + rewrite dkeys_dset_new in A1, A2 by assumption. rewrite <- app_assoc in A1. split; [exact A1|].
        split.
        * intros k' H. rewrite A2 by (apply in_or_app; now left). apply dget_dset_neq. intros ->. contradiction.
        * intros [|i] k' H; cbn in H.
          -- injection H as <-. rewrite A2 by (apply in_or_app; right; now left). apply dget_dset_eq.
          -- apply A3. assumption. }
  destruct (G keys vals [] ND E) as (A1 & _ & A3). split; assumption.
Qed.

Lemma collapse_get keys nc : NoDup keys ->
  (forall k, In k keys -> exists a, dget nc k = Some a) ->
  dkeys (collapse keys nc) = keys /\
  forall k a, In k keys -> dget nc k = Some a -> dget (collapse keys nc) k = Some (nd_data a).
Proof.
  intros ND H.
  assert (G : forall keys (d : dict string (list f64)), NoDup (dkeys d ++ keys) ->
    (forall k, In k keys -> exists a, dget nc k = Some a) ->
    let d' := fold_left (fun c k => match dget nc k with Some a => dset c k (nd_data a) | None => c end) keys d in
    dkeys d' = dkeys d ++ keys /\ (forall k, In k (dkeys d) -> dget d' k = dget d k) /\
    forall k a, In k keys -> dget nc k = Some a -> dget d' k = Some (nd_data a)).
  { clear. induction keys as [|k keys IH]; intros d ND H; cbn.
    - rewrite app_nil_r. repeat split. contradiction.
    - destruct (H k (or_introl eq_refl)) as (a & Ea). rewrite Ea.
      assert (NI : ~ In k (dkeys d)).
      { apply NoDup_remove_2 in ND. intros X. apply ND, in_or_app. now left. }
      destruct (IH (dset d k (nd_data a))) as (A1 & A2 & A3).
      + rewrite dkeys_dset_new by assumption. rewrite <- app_assoc. exact ND.
      + intros k' Hk. apply H. now right.
      + rewrite dkeys_dset_new in A1, A2 by assumption. rewrite <- app_assoc in A1. split; [exact A1|].
        split.
        * intros k' X. rewrite A2 by (apply in_or_app; now left). apply dget_dset_neq. intros ->. contradiction.
        * intros k' a' [<-|X] E'.
          -- rewrite A2 by (apply in_or_app; right; now left). rewrite dget_dset_eq. congruence.
          -- eapply A3; eassumption. }
  destruct (G keys [] ND H) as (A1 & _ & A3). split; assumption.
Qed.

Lemma ndSweep_swept st specs st' : ndSweep st specs = (st', Ok tt) -> NoDup (map sp_name specs) ->
  exists Ns sweeps, swept st' (map sp_name specs) Ns sweeps /\
    Forall2 (fun sp s => exists p, dget (s_coll st) (sp_name sp) = Some p /\
       snd (linearSweep p (sp_start sp) (sp_end sp) (sp_N sp)) = Ok s) specs sweeps.
Proof.
  unfold ndSweep. intros E ND.
  destruct (nd_loop (s_coll st) 1 [] [] specs) as [[coll npts] [[keys sweeps]|e]] eqn:L; [|discriminate].
  injection E as <-. apply nd_loop_ok in L; [|assumption|constructor].
  destruct L as (-> & new & -> & M & -> & Src & F). cbn [app] in *.
  pose proof (Forall2_length _ _ _ F) as Len.
  exists (map (@List.length f64) new), new.
  set (names := map sp_name specs) in *.
  assert (LG : List.length names = List.length (meshgrid_ij fnan new)).
  { unfold meshgrid_ij. now rewrite map_length, seq_length. }
  destruct (dict_zip_get names (meshgrid_ij fnan new) ND LG) as [Z1 Z2].
  assert (Hg : forall i k, nth_error names i = Some k ->
     dget (dict_zip names (meshgrid_ij fnan new)) k =
     Some (mknd (map (@List.length f64) new)
        (map (fun idx => nth (nth i idx 0) (nth i new []) fnan) (tuples (map (@List.length f64) new))))).
  { intros i k Hi. rewrite (Z2 _ _ Hi). unfold meshgrid_ij. rewrite nth_error_map.
    assert (i < List.length names) by (apply nth_error_Some; congruence).
    rewrite (nth_error_nth' _ 0) by (rewrite seq_length; lia). rewrite seq_nth by lia. reflexivity. }
  assert (Hall : forall k, In k names -> exists a, dget (dict_zip names (meshgrid_ij fnan new)) k = Some a).
  { intros k Hk. apply In_nth_error in Hk. destruct Hk as (i & Hi). rewrite (Hg _ _ Hi). eauto. }
  destruct (collapse_get names _ ND Hall) as [C1 C2].
  split; [|exact Src].
  constructor; cbn [s_spec s_params s_ndims s_coll s_npts s_c s_nc]; auto; try lia.
  - rewrite M, map_map. reflexivity.
  - intros i k Hi. rewrite (C2 k _ (nth_error_In _ _ Hi) (Hg _ _ Hi)). reflexivity.
  - intros k a Hk. assert (Hin : In k names).
    { rewrite <- C1. apply dkeys_dget. eauto. }
    pose proof (In_nth_error _ _ Hin) as (i & Hi).
    rewrite (C2 k _ Hin (Hg _ _ Hi)) in Hk. cbn in Hk. injection Hk as <-. apply (Hg _ _ Hi).
Qed.

(** ** C19-C21 *)
Lemma nth_inr Ns idx k n : inr Ns idx -> nth_error Ns k = Some n -> nth k idx 0 < n.
Proof.
  intros H. revert k. induction H as [|i m r s Hi H IH]; intros [|k] E; cbn in *; try discriminate.
  - injection E as <-. assumption.
  - apply IH. assumption.
Qed.

Lemma nth_error_nth_lt {A} (l : list A) i d : i < List.length l -> nth_error l i = Some (nth i l d).
Proof. intros. now apply nth_error_nth'. Qed.

Lemma swept_at st names Ns sweeps idx k name s : swept st names Ns sweeps -> inr Ns idx ->
  nth_error names k = Some name -> nth_error sweeps k = Some s ->
  exists arr, dget (s_c st) name = Some arr /\ List.length arr = prodn Ns /\
    nth_error arr (flat Ns idx) = nth_error s (nth k idx 0) /\ nth k idx 0 < List.length s.
Proof.
  intros S H Hk Hs. rewrite (sw_grid _ _ _ _ S _ _ Hk). eexists. split; [reflexivity|].
  split; [now rewrite map_length, tuples_length|].
  rewrite nth_error_map, nth_tuples by assumption. cbn.
  rewrite (nth_error_nth _ _ [] Hs).
  assert (L : nth k idx 0 < List.length s).
  { apply (nth_inr Ns); [assumption|]. rewrite <- (sw_len _ _ _ _ S), nth_error_map, Hs. reflexivity. }
  split; [|assumption]. symmetry. now apply nth_error_nth_lt.
Qed.

Lemma swept_nc_at st names Ns sweeps idx k name s : swept st names Ns sweeps -> inr Ns idx ->
  nth_error names k = Some name -> nth_error sweeps k = Some s ->
  exists a, dget (s_nc st) name = Some a /\ nd_at a idx = nth_error s (nth k idx 0).
Proof.
  intros S H Hk Hs. destruct (swept_at _ _ _ _ _ _ _ _ S H Hk Hs) as (arr & E & _ & Ea & _).
  eexists. split; [apply (sw_nc _ _ _ _ S _ _ E)|].
  unfold nd_at. cbn. rewrite flat_index_flat by assumption. exact Ea.
Qed.

Definition grid_of (st : swst) (names : list string) (sweeps : list (list f64)) : Prop :=
  Forall2 (fun k s => getParameterSweep (s_coll st) k = Ok s) names sweeps.

Lemma swept_sweeps st names Ns sweeps : swept st names Ns sweeps -> grid_of st names sweeps.
Proof.
  intros S. pose proof (sw_coll _ _ _ _ S) as F. clear S. unfold grid_of. induction F as [|k s l l' (p & E & Es & _) F IH].
  - constructor.
  - constructor; [|exact IH]. unfold getParameterSweep. now rewrite E, Es.
Qed.
