From Coq Require Import List Bool String ZArith SpecFloat Lia PeanoNat Permutation Reals Lra.
From Flocq Require Import Core.Core IEEE754.BinarySingleNaN.
From Verif Require Import Prelude PreludeFacts Float FloatFacts Param ParamProofs ParamSweepProofs
  Sweep SweepProofs SweepResultProofs.
Import ListNotations.
Open Scope nat_scope.
Open Scope list_scope.

Lemma NoDup_app_disj {A} (l l' : list A) : NoDup l -> NoDup l' -> (forall x, In x l -> In x l' -> False) -> NoDup (l ++ l').
Proof.
  intros H H' D. induction H as [|x l N H IH]; cbn; [assumption|]. constructor.
  - rewrite in_app_iff. intros [|]; [contradiction|]. eapply D; [now left|eassumption].
  - apply IH. intros y Hy. apply D. now right.
Qed.

(** ** Dictionaries built by the specification loops *)
Lemma fold_left_map {A B C} (f : A -> C -> A) (g : B -> C) l a :
  fold_left f (map g l) a = fold_left (fun a b => f a (g b)) l a.
Proof. revert a. induction l as [|x l IH]; intros a; cbn; auto. Qed.

Lemma combine_enum {A B C} (f : A -> B) (g : nat -> C) l a :
  map (fun is : nat * A => (f (snd is), g (fst is))) (combine (seq a (List.length l)) l) =
  combine (map f l) (map g (seq a (List.length l))).
Proof. revert a. induction l as [|x l IH]; intros a; cbn; [reflexivity|]. f_equal. apply IH. Qed.

Lemma rev_positions_get specs i k : NoDup (map sp_name specs) ->
  nth_error (map sp_name specs) i = Some k ->
  dget (rev_positions specs) k = Some (List.length specs - i - 1).
Proof.
  intros ND Hi. set (n := List.length specs).
  assert (E : rev_positions specs = dict_zip (map sp_name specs) (map (fun i => n - i - 1) (seq 0 n))).
  { unfold rev_positions, dict_zip, enumerate. fold n.
    replace (combine (map sp_name specs) (map (fun i => n - i - 1) (seq 0 n)))
      with (map (fun is : nat * spec => (sp_name (snd is), n - fst is - 1)) (combine (seq 0 n) specs)).
    - rewrite fold_left_map. reflexivity.
    - apply (combine_enum sp_name (fun i => n - i - 1) specs 0). }
  assert (Hlt : i < n) by (unfold n; rewrite <- (map_length sp_name); apply nth_error_Some; congruence).
  rewrite E. destruct (dict_zip_get (map sp_name specs) (map (fun i => n - i - 1) (seq 0 n)) ND) as [_ G].
  { rewrite !map_length, seq_length. reflexivity. }
  rewrite (G _ _ Hi), nth_error_map, nth_error_seq by assumption. reflexivity.
Qed.

Lemma rev_positions_keys specs k j : NoDup (map sp_name specs) -> dget (rev_positions specs) k = Some j ->
  exists i, nth_error (map sp_name specs) i = Some k /\ j = List.length specs - i - 1.
Proof.
  intros ND H. assert (Hin : In k (map sp_name specs)).
  { assert (G : forall l (d : dict string nat), In k (dkeys (fold_left (fun d (is : nat * spec) => dset d (sp_name (snd is)) (List.length specs - fst is - 1)) l d)) ->
       In k (dkeys d) \/ In k (map sp_name (map snd l))).
    { clear. induction l as [|x l IH]; intros d Hk; cbn in *; [now left|].
      apply IH in Hk. destruct Hk as [Hk|Hk]; [|tauto].
      apply In_dkeys_dset in Hk. destruct Hk as [->|Hk]; tauto. }
    assert (Hk : In k (dkeys (rev_positions specs))) by (apply dkeys_dget; eauto).
    apply G in Hk. destruct Hk as [[]|Hk].
    replace (map snd (enumerate specs)) with specs in Hk; [assumption|].
    unfold enumerate. generalize 0 as a. clear. induction specs as [|s l IH]; intros a; cbn; [reflexivity|]. f_equal. apply IH. }
  apply In_nth_error in Hin. destruct Hin as (i & Hi). exists i. split; [assumption|].
  rewrite (rev_positions_get _ _ _ ND Hi) in H. now injection H as <-.
Qed.

Lemma lengths_get specs i k s : NoDup (map sp_name specs) ->
  nth_error specs i = Some s -> k = sp_name s ->
  dget (lengths specs) k = Some (match sp_N s with PInt z => z | _ => 0%Z end).
Proof.
  intros ND Hi ->.
  assert (E : lengths specs = dict_zip (map sp_name specs) (map (fun s => match sp_N s with PInt z => z | _ => 0%Z end) specs)).
  { unfold lengths, dict_zip.
    replace (combine (map sp_name specs) (map (fun s => match sp_N s with PInt z => z | _ => 0%Z end) specs))
      with (map (fun s : spec => (sp_name s, match sp_N s with PInt z => z | _ => 0%Z end)) specs).
    - rewrite fold_left_map. reflexivity.
    - clear. induction specs as [|s l IH]; cbn; [reflexivity|]. f_equal. apply IH. }
  rewrite E. destruct (dict_zip_get (map sp_name specs) (map (fun s => match sp_N s with PInt z => z | _ => 0%Z end) specs) ND) as [_ G].
  { now rewrite !map_length. }
  rewrite (G i (sp_name s)) by (rewrite nth_error_map, Hi; reflexivity).
  now rewrite nth_error_map, Hi.
Qed.

Lemma nth_const {A B} (l : list A) (b d : B) r : r < List.length l -> nth r (map (fun _ => b) l) d = b.
Proof. revert r. induction l as [|x l IH]; intros [|r] H; cbn in *; try lia; [reflexivity|]. apply IH. lia. Qed.

(** ** Filling the index list *)
Definition setall (pos : dict string nat) (l : list (string * cell)) (f : list cell) : res (list cell) :=
  fold_left (fun acc kc =>
    bind acc (fun f =>
    bind (match dget pos (fst kc) with Some j => Ok j | None => Err KeyError end) (fun j =>
    set_nth f j (snd kc)))) l (Ok f).

Lemma setall_err (pos : dict string nat) (l : list (string * cell)) e : fold_left (fun (acc : res (list cell)) kc =>
    bind acc (fun f =>
    bind (match dget pos (fst kc) with Some j => Ok j | None => Err KeyError end) (fun j =>
    set_nth f j (snd kc)))) l (Err e) = Err e :> res (list cell).
Proof. induction l as [|x l IH]; [reflexivity|exact IH]. Qed.

Lemma set_nth_ok {A} (l : list A) i x : i < List.length l ->
  exists l', set_nth l i x = Ok l' /\ List.length l' = List.length l /\
    nth_error l' i = Some x /\ forall j, j <> i -> nth_error l' j = nth_error l j.
Proof.
  revert i. induction l as [|y l IH]; intros i H; cbn in H; [lia|].
  destruct i as [|i]; cbn.
  - eexists. repeat split. intros [|j] Hj; [congruence|reflexivity].
  - destruct (IH i) as (l' & E & L & G & K); [lia|]. rewrite E. cbn. eexists.
    split; [reflexivity|]. cbn. split; [congruence|]. split; [assumption|].
    intros [|j] Hj; [reflexivity|]. apply K. congruence.
Qed.
Lemma set_nth_inv {A} (l : list A) i x l' : set_nth l i x = Ok l' -> i < List.length l.
Proof.
  revert i l'. induction l as [|y l IH]; intros [|i] l' H; cbn in H; try discriminate; cbn; [lia|].
  destruct (set_nth l i x) as [r|] eqn:E; [|discriminate]. apply IH in E. lia.
Qed.

Lemma setall_inv pos l : forall f f', setall pos l f = Ok f' ->
  List.length f' = List.length f /\
  (forall k c, In (k, c) l -> exists j, dget pos k = Some j /\ j < List.length f) /\
  (forall j, (forall k c, In (k, c) l -> dget pos k <> Some j) -> nth_error f' j = nth_error f j).
Proof.
  induction l as [|[k c] l IH]; intros f f' H.
  - injection H as <-. repeat split. intros k c [].
  - unfold setall in H. cbn in H. destruct (dget pos k) as [j|] eqn:E; cbn in H; [|rewrite setall_err in H; discriminate].
    destruct (set_nth f j c) as [f1|] eqn:E1; [|rewrite setall_err in H; discriminate].
    pose proof (set_nth_inv _ _ _ _ E1) as Hj.
    destruct (set_nth_ok f j c Hj) as (f1' & E1' & L1 & _ & K1). rewrite E1 in E1'. injection E1' as <-.
    destruct (IH _ _ H) as (L & A & B). split; [congruence|]. split.
    + intros k' c' [[= <- <-]|H']; [eauto|]. rewrite <- L1. eapply A; eassumption.
    + intros j' Hn. rewrite B by (intros k' c' H'; apply (Hn k' c'); now right).
      apply K1. intros ->. apply (Hn k c); [now left|assumption].
Qed.

Lemma setall_ok pos l : forall f, NoDup (map fst l) ->
  (forall k c, In (k, c) l -> exists j, dget pos k = Some j /\ j < List.length f) ->
  (forall k k' j, In k (map fst l) -> In k' (map fst l) -> dget pos k = Some j -> dget pos k' = Some j -> k = k') ->
  exists f', setall pos l f = Ok f' /\
    forall k c j, In (k, c) l -> dget pos k = Some j -> nth_error f' j = Some c.
Proof.
  induction l as [|[k c] l IH]; intros f ND P Inj.
  - eexists. split; [reflexivity|]. intros k c j [].
  - destruct (P k c (or_introl eq_refl)) as (j & Ej & Hj).
    destruct (set_nth_ok f j c Hj) as (f1 & E1 & L1 & G1 & K1).
    cbn in ND. inversion ND as [|? ? NI ND']; subst.
    destruct (IH f1 ND') as (f' & E' & G').
    { intros k' c' H'. rewrite L1. apply (P k' c'). now right. }
    { intros a b i Ha Hb. apply Inj; now right. }
    assert (E2 : setall pos ((k, c) :: l) f = Ok f').
    { unfold setall. cbn. rewrite Ej. cbn. rewrite E1. exact E'. }
    exists f'. split; [assumption|].
    intros k' c' i [[= <- <-]|H'] Hi; [|eapply G'; eassumption].
    rewrite Ej in Hi. injection Hi as <-.
    destruct (setall_inv _ _ _ _ E') as (_ & _ & B). rewrite B; [assumption|].
    intros k' c' H' Hk'. assert (k = k').
    { apply (Inj k k' j); auto; [now left|right; now apply (in_map fst) in H']. }
    subst. apply NI. now apply (in_map fst) in H'.
Qed.

Lemma nth_error_rev {A} (l : list A) j : j < List.length l -> nth_error (rev l) j = nth_error l (List.length l - S j).
Proof.
  intros H. destruct l as [|d l0] eqn:E; [cbn in H; lia|]. rewrite <- E in *.
  rewrite (nth_error_nth' _ d) by (now rewrite rev_length).
  rewrite (nth_error_nth' _ d) by lia. now rewrite rev_nth.
Qed.
Lemma nth_error_ext {A} (l l' : list A) : (forall i, nth_error l i = nth_error l' i) -> l = l'.
Proof.
  revert l'. induction l as [|x l IH]; intros [|y l'] H; try reflexivity; try (specialize (H 0); discriminate).
  f_equal; [specialize (H 0); now injection H|]. apply IH. intros i. apply (H (S i)).
Qed.

Section WithState.
  Variables (st : swst) (names : list string) (Ns : list nat) (sweeps : list (list f64)).
  Hypothesis SW : swept st names Ns sweeps.
  Hypothesis ND : NoDup names.
  Let n := List.length names.
  Let pos := rev_positions (s_spec st).

  Lemma spec_len : List.length (s_spec st) = n.
  Proof. unfold n. rewrite <- (sw_names _ _ _ _ SW). now rewrite map_length. Qed.

  Lemma pos_get i k : nth_error names i = Some k -> dget pos k = Some (n - i - 1) /\ i < n.
  Proof.
    intros H. split; [|apply nth_error_Some; congruence]. unfold pos. rewrite <- spec_len.
    apply rev_positions_get; rewrite (sw_names _ _ _ _ SW); assumption.
  Qed.
  Lemma pos_inv k j : dget pos k = Some j -> exists i, nth_error names i = Some k /\ j = n - i - 1 /\ i < n.
  Proof.
    intros H. apply rev_positions_keys in H; [|now rewrite (sw_names _ _ _ _ SW)].
    rewrite (sw_names _ _ _ _ SW), spec_len in H. destruct H as (i & Hi & ->). exists i.
    repeat split; auto. apply nth_error_Some. congruence.
  Qed.
  Lemma pos_inj k k' j : dget pos k = Some j -> dget pos k' = Some j -> k = k'.
  Proof.
    intros H H'. apply pos_inv in H, H'. destruct H as (i & Hi & -> & L), H' as (i' & Hi' & E & L').
    assert (i = i') by lia. subst. congruence.
  Qed.
  Lemma pos_in k : In k names -> exists j, dget pos k = Some j /\ j < n.
  Proof.
    intros H. apply In_nth_error in H. destruct H as (i & Hi). destruct (pos_get _ _ Hi). eexists. split; [eassumption|]. lia.
  Qed.
  Lemma len_get i k N : nth_error names i = Some k -> nth_error Ns i = Some N ->
    dget (lengths (s_spec st)) k = Some (Z.of_nat N).
  Proof.
    intros Hk HN. pose proof (sw_names _ _ _ _ SW) as En. pose proof (sw_N _ _ _ _ SW) as EN.
    rewrite <- En in Hk. rewrite nth_error_map in Hk. destruct (nth_error (s_spec st) i) as [s|] eqn:Es; [|discriminate].
    injection Hk as <-. rewrite (lengths_get _ i _ s) by (auto; rewrite En; assumption).
    assert (E : nth_error (map sp_N (s_spec st)) i = Some (PInt (Z.of_nat N))) by (rewrite EN, nth_error_map, HN; reflexivity).
    rewrite nth_error_map, Es in E. injection E as ->. reflexivity.
  Qed.
  Lemma names_coll k : In k names -> dmem (s_coll st) k = true.
  Proof.
    intros H. apply dmem_dget. pose proof (sw_coll _ _ _ _ SW) as F. clear - F H.
    induction F as [|a b l l' (p & E & _) F IH]; [destruct H|]. destruct H as [->|H]; eauto.
  Qed.
  Lemma Ns_len : List.length Ns = n.
  Proof. unfold n. rewrite <- (sw_len _ _ _ _ SW), map_length. apply (sw_lenn _ _ _ _ SW). Qed.
  Lemma sweep_get i k : nth_error names i = Some k -> exists s N, nth_error sweeps i = Some s /\
    nth_error Ns i = Some N /\ N = List.length s /\ getParameterSweep (s_coll st) k = Ok s.
  Proof.
    intros H. pose proof (swept_sweeps _ _ _ _ SW) as F. unfold grid_of in F.
    assert (G : exists s, nth_error sweeps i = Some s /\ getParameterSweep (s_coll st) k = Ok s).
    { clear - F H. revert i H. induction F as [|a b l l' E F IH]; intros [|i] H; cbn in *; try discriminate.
      - injection H as ->. eauto.
      - apply IH. assumption. }
    destruct G as (s & E1 & E2). exists s, (List.length s). repeat split; auto.
    rewrite <- (sw_len _ _ _ _ SW), nth_error_map, E1. reflexivity.
  Qed.

  (** The fill lists: one cell for every name, whatever the order. *)
  Lemma setall_full l cellf : NoDup (map fst l) ->
    (forall k, In k (map fst l) <-> In k names) ->
    (forall k c, In (k, c) l -> c = cellf k) ->
    setall pos l (repeat (CInt 0) (List.length l)) = Ok (rev (map cellf names)).
  Proof.
    intros NDl Hin Hc.
    assert (Len : List.length l = n).
    { unfold n. rewrite <- (map_length fst l).
      apply PeanoNat.Nat.le_antisymm; apply NoDup_incl_length; auto; intros k; apply Hin. }
    assert (P : forall k c, In (k, c) l -> exists j, dget pos k = Some j /\ j < List.length (repeat (CInt 0) (List.length l))).
    { intros k c H. rewrite repeat_length, Len. apply pos_in, Hin. now apply (in_map fst) in H. }
    destruct (setall_ok pos l (repeat (CInt 0) (List.length l)) NDl P) as (f' & E & G).
    { intros k k' j _ _. apply pos_inj. }
    rewrite E. f_equal. destruct (setall_inv _ _ _ _ E) as (L & _). rewrite repeat_length, Len in L.
    apply nth_error_ext. intros j. destruct (Nat.lt_ge_cases j n) as [H|H].
    - rewrite nth_error_rev by (rewrite map_length; exact H). rewrite map_length, nth_error_map.
      destruct (nth_error names (List.length names - S j)) as [k|] eqn:Ek.
      2:{ apply nth_error_None in Ek. unfold n in H. lia. }
      destruct (pos_get _ _ Ek) as [Ep _]. unfold n in *.
      replace (List.length names - (List.length names - S j) - 1) with j in Ep by lia.
      assert (Hk : In k (map fst l)) by (apply Hin; eapply nth_error_In; eassumption).
      apply in_map_iff in Hk. destruct Hk as ([k' c] & Ek' & Hk). cbn in Ek'. subst k'.
      rewrite (G _ _ _ Hk Ep). cbn. f_equal. now apply Hc.
    - rewrite !(proj2 (nth_error_None _ _)); [reflexivity| |lia]. rewrite rev_length, map_length. exact H.
  Qed.

  (** The static indices. *)
  Lemma statics_spec static_vars :
    (forall k, In k (dkeys static_vars) -> In k names) -> NoDup (dkeys static_vars) ->
    (forall k v i s, In (k, v) static_vars -> nth_error names i = Some k -> nth_error sweeps i = Some s -> static_ok s v) ->
    exists sts ix, statics (s_coll st) static_vars = Ok sts /\
      map fst sts = dkeys static_vars /\
      (forall k r, In (k, r) sts -> fst r = ix k) /\
      (forall k v i s, In (k, v) static_vars -> nth_error names i = Some k -> nth_error sweeps i = Some s ->
         nearest s v (ix k) /\ ix k < List.length s /\
         dget (map (fun kv => (fst kv, snd (snd kv))) sts) k = nth_error s (ix k)).
  Proof.
    intros Hin NDs Hok.
    assert (Ex : exists sts, statics (s_coll st) static_vars = Ok sts).
    { unfold statics. apply mapM_exists. intros [k v] Hkv. cbn.
      destruct (In_nth_error names k) as (i & Hi). { apply Hin. now apply (in_map fst) in Hkv. }
      destruct (sweep_get _ _ Hi) as (s & N & Hs & _ & _ & Eg).
      destruct (static_one_spec _ _ v _ Eg) as (j & x & E & _); [eapply Hok; eassumption|].
      rewrite E. cbn. eauto. }
    destruct Ex as (sts & Es). pose proof Es as F. unfold statics in F. apply mapM_ok in F.
    assert (EK : map fst sts = dkeys static_vars).
    { clear - F. induction F as [|[k v] y l l' E F IH]; [reflexivity|]. cbn in *.
      destruct (static_one (s_coll st) k v); [|discriminate]. cbn in E. injection E as <-. cbn. now f_equal. }
    exists sts, (fun k => match dget sts k with Some r => fst r | None => 0 end).
    split; [assumption|]. split; [assumption|].
    assert (NDS : NoDup (dkeys sts)) by (unfold dkeys; rewrite EK; exact NDs).
    split.
    { intros k r H. rewrite (In_dget _ _ _ NDS H). reflexivity. }
    intros k v i s Hkv Hi Hs.
    destruct (sweep_get _ _ Hi) as (s' & N & Hs' & _ & _ & Eg). rewrite Hs in Hs'. injection Hs' as <-.
    destruct (static_one_spec _ _ v _ Eg) as (j & x & E & Hn & Hx); [eapply Hok; eassumption|].
    assert (Hst : In (k, (j, x)) sts).
    { clear - F E Hkv. induction F as [|[k' v'] y l l' E' F IH]; [destruct Hkv|].
      destruct Hkv as [[= -> ->]|H]; [|right; auto]. left. cbn in E'. rewrite E in E'. cbn in E'. now injection E' as <-. }
    rewrite (In_dget _ _ _ NDS Hst). cbn [fst]. split; [assumption|].
    split; [apply nth_error_Some; congruence|]. rewrite Hx.
    apply In_dget.
    - unfold dkeys. rewrite map_map. cbn. exact NDS.
    - change (k, x) with ((fun kv : string * (nat * f64) => (fst kv, snd (snd kv))) (k, (j, x))). now apply in_map.
  Qed.

  (** ** C22 *)
  Lemma fill1_setall iv N sts :
    fill1 pos iv N sts =
    setall pos ((iv, CList (range N)) :: map (fun kv => (fst kv, CList (map (fun _ => fst (snd kv)) (range N)))) sts)
           (repeat (CInt 0) (S (List.length sts))).
  Proof.
    unfold fill1, setall. cbn [fold_left fst snd].
    change (1 + List.length sts) with (S (List.length sts)).
    destruct (dget pos iv) as [i|].
    - cbn [bind]. destruct (set_nth (repeat (CInt 0) (S (List.length sts))) i (CList (range N))) as [f0|e].
      + cbn [bind]. rewrite fold_left_map. reflexivity.
      + cbn [bind]. symmetry. apply setall_err.
    - cbn [bind]. symmetry. apply setall_err.
  Qed.

  Definition idx1 (iv : string) (ix : string -> nat) (r : nat) : list nat :=
    map (fun k => if eqb k iv then r else ix k) names.

  Lemma columns_lists (f : list (list nat)) : columns (map CList f) = Ok f.
  Proof. unfold columns. induction f as [|x f IH]; [reflexivity|]. cbn. rewrite IH. reflexivity. Qed.

  Lemma inr_idx (h : string -> nat) :
    (forall i k N, nth_error names i = Some k -> nth_error Ns i = Some N -> h k < N) -> inr Ns (map h names).
  Proof.
    intros H. pose proof Ns_len as L. unfold n in L. clear SW ND pos n. unfold inr. revert names H L.
    induction Ns as [|N r IH]; intros [|k l] H L; try discriminate; cbn; constructor.
    - apply (H 0); reflexivity.
    - apply IH; [|cbn in L; lia]. intros i k' N' E1 E2. apply (H (S i)); assumption.
  Qed.

  Lemma dist_one {A B} (rd : A -> res B) (rv : A -> B) data iv static_vars :
    List.length (s_spec st) <> 1 ->
    In iv names -> NoDup (dkeys static_vars) ->
    (forall k, In k (dkeys static_vars) <-> (In k names /\ k <> iv)) ->
    (forall k v i s, In (k, v) static_vars -> nth_error names i = Some k -> nth_error sweeps i = Some s -> static_ok s v) ->
    data <> [] -> List.length data = prodn Ns -> (forall a, In a data -> rd a = Ok (rv a)) ->
    exists sw vals sv ix,
      getSweepResult1 rd st iv static_vars data = Ok (sw, vals, sv) /\
      getParameterSweep (s_coll st) iv = Ok sw /\
      List.length vals = List.length sw /\
      (forall k v i s, In (k, v) static_vars -> nth_error names i = Some k -> nth_error sweeps i = Some s ->
         nearest s v (ix k) /\ dget sv k = nth_error s (ix k)) /\
      (forall r, r < List.length sw ->
         inr Ns (idx1 iv ix r) /\
         nth_error vals r = option_map rv (nth_error data (flat Ns (idx1 iv ix r)))).
  Proof.
    intros L1 Hiv NDs Hk Hok NE LD Hrd.
    destruct (statics_spec static_vars) as (sts & ix & Es & EK & Eix & Hix); auto.
    { intros k H. now apply Hk. }
    destruct (In_nth_error _ _ Hiv) as (i0 & Hi0). destruct (sweep_get _ _ Hi0) as (sw & N & Hs & HN & EN & Eg).
    pose proof (len_get _ _ _ Hi0 HN) as ELen.
    unfold getSweepResult1. destruct data as [|d0 data0] eqn:ED; [congruence|]. rewrite <- ED in *. clear NE.
    rewrite (names_coll _ Hiv). cbn [negb].
    assert (FA : forallb (dmem (s_coll st)) (dkeys static_vars) = true).
    { apply forallb_forall. intros k H. apply names_coll. now apply Hk. }
    rewrite FA. cbn [negb]. rewrite Eg. cbn [bind].
    destruct (Nat.eqb_spec (List.length (s_spec st)) 1) as [E|_]; [contradiction|].
    rewrite Es. cbn [bind]. rewrite ELen. cbn [bind].
    fold pos. rewrite fill1_setall.
    set (l := (iv, CList (range (Z.of_nat N))) :: map (fun kv => (fst kv, CList (map (fun _ => fst (snd kv)) (range (Z.of_nat N))))) sts).
    set (col := fun k => if eqb k iv then range (Z.of_nat N) else map (fun _ => ix k) (range (Z.of_nat N))).
    assert (Efst : map fst l = iv :: dkeys static_vars).
    { unfold l. cbn. f_equal. rewrite map_map. cbn. exact EK. }
    replace (S (List.length sts)) with (List.length l) by (unfold l; cbn; now rewrite map_length).
    rewrite (setall_full l (fun k => CList (col k))).
    2:{ rewrite Efst. constructor; [|assumption]. intros H. apply Hk in H. tauto. }
    2:{ intros k. rewrite Efst. cbn. rewrite Hk. destruct (eqb_dec k iv) as [->|H]; [tauto|]. split; [intros [->|H']; tauto|auto]. }
    2:{ intros k c H. unfold l in H. destruct H as [[= <- <-]|H].
        - unfold col. now rewrite eqb_refl.
        - apply in_map_iff in H. destruct H as ([k' r] & [= <- <-] & H). cbn. unfold col.
          assert (k' <> iv). { apply (in_map fst) in H. rewrite EK in H. apply Hk in H. tauto. }
          rewrite (proj2 (eqb_neq _ _)) by assumption. now rewrite (Eix _ _ H). }
    cbn [bind]. rewrite <- map_map with (f := col), <- map_rev, columns_lists. cbn [bind].
    assert (Erow : forall r, r < N -> rev (row (rev (map col names)) r) = idx1 iv ix r).
    { intros r Hr. unfold row, idx1. rewrite map_rev, rev_involutive, map_map. apply map_ext. intros k. unfold col.
      destruct (eqb k iv).
      - unfold range. rewrite Nat2Z.id, seq_nth by assumption. reflexivity.
      - apply nth_const. unfold range. rewrite Nat2Z.id, seq_length. assumption. }
    assert (Hinr : forall r, r < N -> inr Ns (idx1 iv ix r)).
    { intros r Hr. unfold idx1. apply inr_idx. intros i k N' Ei EN'.
      destruct (eqb_spec k iv) as [->|Hne].
      - assert (i = i0). { eapply NoDup_nth_error; [exact ND| |congruence]. apply nth_error_Some. congruence. }
        subst. congruence.
      - assert (Hs' : In k (dkeys static_vars)) by (apply Hk; split; [eapply nth_error_In; eassumption|assumption]).
        apply in_map_iff in Hs'. destruct Hs' as ([k' v] & <- & Hkv). cbn in *.
        destruct (sweep_get _ _ Ei) as (s' & N2 & Hs' & HN2 & -> & _).
        destruct (Hix _ _ _ _ Hkv Ei Hs') as (_ & Hlt & _). congruence. }
    assert (M : exists res, mapM (fun r => bind (collapsedIndices st (map Z.of_nat (rev (row (rev (map col names)) r)))) (py_nth data)) (range (Z.of_nat N)) = Ok res
       /\ List.length res = N /\ forall r, r < N -> nth_error res r = nth_error data (flat Ns (idx1 iv ix r))).
    { assert (K : forall r, r < N -> exists a, bind (collapsedIndices st (map Z.of_nat (rev (row (rev (map col names)) r)))) (py_nth data) = Ok a /\
         nth_error data (flat Ns (idx1 iv ix r)) = Some a).
      { intros r Hr. rewrite Erow by assumption. specialize (Hinr r Hr).
        rewrite (collapsedIndices_flat _ _ _ _ _ SW) by now apply inr_length. cbn [bind].
        pose proof (flat_lt _ _ Hinr) as Hlt. unfold py_nth.
        destruct (Z.ltb_spec (Z.of_nat (flat Ns (idx1 iv ix r))) 0); [lia|].
        destruct (Z.ltb_spec (Z.of_nat (flat Ns (idx1 iv ix r))) 0); [lia|]. rewrite Nat2Z.id.
        destruct (nth_error data (flat Ns (idx1 iv ix r))) as [a|] eqn:Ea; [eauto|].
        apply nth_error_None in Ea. lia. }
      destruct (mapM_exists (fun r => bind (collapsedIndices st (map Z.of_nat (rev (row (rev (map col names)) r)))) (py_nth data)) (range (Z.of_nat N))) as (res & Er).
      { intros r Hr. unfold range in Hr. rewrite Nat2Z.id in Hr. apply in_seq in Hr. destruct (K r) as (a & Ea & _); [lia|]. eauto. }
      exists res. split; [assumption|]. split.
      { rewrite (mapM_length _ _ _ Er). unfold range. now rewrite Nat2Z.id, seq_length. }
      intros r Hr. destruct (mapM_nth _ _ _ r r Er) as (a & Ha & Hb).
      { unfold range. rewrite Nat2Z.id. now apply nth_error_seq. }
      destruct (K r Hr) as (a' & Ea & Ea'). cbn beta in Hb. rewrite Hb in Ea. injection Ea as <-. now rewrite Ha. }
    destruct M as (res & Er & LR & GR). rewrite Er. cbn [bind].
    assert (Erd : mapM rd res = Ok (map rv res)).
    { apply mapM_ok. assert (HI : forall a, In a res -> In a data).
      { intros a Ha. apply In_nth_error in Ha. destruct Ha as (r & Ha).
        assert (r < N) by (rewrite <- LR; apply nth_error_Some; congruence).
        rewrite GR in Ha by assumption. eapply nth_error_In; eassumption. }
      clear - Hrd HI. induction res as [|a l IH]; cbn; constructor; [apply Hrd, HI; now left|].
      apply IH. intros b Hb. apply HI. now right. }
    rewrite Erd. cbn [bind]. do 3 eexists. exists ix. split; [reflexivity|]. split; [reflexivity|].
    split; [rewrite map_length; congruence|]. split.
    - intros k v i s H1 H2 H3. destruct (Hix _ _ _ _ H1 H2 H3) as (A1 & _ & A3). split; [exact A1|exact A3].
    - intros r Hr. rewrite <- EN in Hr. split; [now apply Hinr|]. rewrite nth_error_map, GR by assumption. reflexivity.
  Qed.

  (** ** C23: what an answer implies *)
  Lemma getSweepResult1_complete {A B} (rd : A -> res B) data iv static_vars r :
    List.length (s_spec st) <> 1 ->
    NoDup (dkeys static_vars) ->
    getSweepResult1 rd st iv static_vars data = Ok r ->
    let m := S (List.length static_vars) in
    NoDup (iv :: dkeys static_vars) /\
    (m <= n)%nat /\
    forall k, In k (iv :: dkeys static_vars) <-> In k (skipn (n - m) names).
  Proof.
    intros L1 NDs E. unfold getSweepResult1 in E. destruct data as [|d0 data0]; [discriminate|].
    destruct (dmem (s_coll st) iv); [|discriminate]. cbn [negb] in E.
    destruct (forallb _ _); [|discriminate]. cbn [negb] in E.
    destruct (getParameterSweep (s_coll st) iv) as [sw|]; [|discriminate]. cbn [bind] in E.
    destruct (Nat.eqb_spec (List.length (s_spec st)) 1) as [|_]; [contradiction|].
    destruct (statics (s_coll st) static_vars) as [sts|] eqn:Es; [|discriminate]. cbn [bind] in E.
    destruct (dget (lengths (s_spec st)) iv) as [N|]; [|discriminate]. cbn [bind] in E.
    destruct (fill1 (rev_positions (s_spec st)) iv N sts) as [final|] eqn:Ef; [|discriminate]. cbn [bind] in E.
    destruct (columns final) as [cols|] eqn:Ec; [|discriminate]. clear E.
    fold pos in Ef. rewrite fill1_setall in Ef.
    assert (EK : map fst sts = dkeys static_vars).
    { unfold statics in Es. apply mapM_ok in Es. clear - Es.
      induction Es as [|[k v] y l l' E F IH]; [reflexivity|]. cbn in *.
      destruct (static_one (s_coll st) k v); [|discriminate]. cbn in E. injection E as <-. cbn. now f_equal. }
    set (l := (iv, CList (range N)) :: map (fun kv => (fst kv, CList (map (fun _ => fst (snd kv)) (range N)))) sts) in Ef.
    assert (Efst : map fst l = iv :: dkeys static_vars).
    { unfold l. cbn. f_equal. rewrite map_map. cbn. exact EK. }
    destruct (setall_inv _ _ _ _ Ef) as (L & P & U). rewrite repeat_length in L, P.
    assert (Lm : List.length sts = List.length static_vars).
    { rewrite <- (map_length fst), EK. apply map_length. }
    rewrite Lm in *. set (m := S (List.length static_vars)) in *. cbn zeta.
    set (P0 := fun k => match dget pos k with Some j => j | None => 0 end).
    assert (HP : forall k, In k (iv :: dkeys static_vars) -> dget pos k = Some (P0 k) /\ P0 k < m).
    { intros k H. rewrite <- Efst in H. apply in_map_iff in H. destruct H as ([k' c] & <- & H). cbn.
      destruct (P _ _ H) as (j & Ej & Hj). unfold P0. rewrite Ej. auto. }
    assert (Cov : incl (seq 0 m) (map P0 (iv :: dkeys static_vars))).
    { intros j Hj. apply in_seq in Hj.
      destruct (in_dec Nat.eq_dec j (map P0 (iv :: dkeys static_vars))) as [|NI]; [assumption|exfalso].
      assert (Hz : nth_error final j = Some (CInt 0)).
      { rewrite U.
        - rewrite (nth_error_nth' _ (CInt 0)) by (rewrite repeat_length; lia).
          f_equal. apply nth_repeat.
        - intros k c H Hp. apply NI. apply (in_map fst) in H. change (fst (k, c)) with k in H. rewrite Efst in H.
          destruct (HP _ H) as [Ep _]. rewrite Ep in Hp. injection Hp as <-. now apply in_map. }
      unfold columns in Ec. destruct (mapM_nth _ _ _ _ _ Ec Hz) as (y & _ & F). discriminate. }
    assert (NDm : NoDup (map P0 (iv :: dkeys static_vars))).
    { eapply NoDup_incl_NoDup; [apply (seq_NoDup m 0)| |exact Cov].
      rewrite map_length, seq_length. cbn. unfold dkeys. rewrite map_length. lia. }
    assert (NDk : NoDup (iv :: dkeys static_vars)) by (eapply NoDup_map_inv; exact NDm).
    assert (HIn : forall k, In k (iv :: dkeys static_vars) -> In k (skipn (n - m) names)).
    { intros k H. destruct (HP _ H) as [Ep Hlt]. apply pos_inv in Ep. destruct Ep as (i & Hi & Ej & Hin).
      assert (i >= n - m) by lia.
      assert (nth_error (skipn (n - m) names) (i - (n - m)) = Some k).
      { rewrite <- Hi. rewrite <- (firstn_skipn (n - m) names) at 2.
        rewrite nth_error_app2; rewrite firstn_length_le; unfold n in *; try lia. reflexivity. }
      eapply nth_error_In; eassumption. }
    assert (Hm : m <= n).
    { assert (incl (iv :: dkeys static_vars) names).
      { intros k H. destruct (HP _ H) as [Ep _]. apply pos_inv in Ep. destruct Ep as (i & Hi & _). eapply nth_error_In; eassumption. }
      pose proof (NoDup_incl_length NDk H) as Q. cbn in Q. unfold dkeys in Q. rewrite map_length in Q. unfold n. lia. }
    split; [assumption|]. split; [assumption|]. intros k. split; [apply HIn|].
    apply (NoDup_length_incl NDk); [|exact HIn].
    rewrite skipn_length. cbn. unfold dkeys. rewrite map_length. unfold n in *. lia.
  Qed.

  (** ** C24 *)
  Lemma fillN_setall lens ivs sts (g : string -> Z) :
    (forall k, In k ivs -> dget lens k = Some (g k)) ->
    fillN pos lens ivs sts =
    setall pos (map (fun k => (k, CList (range (g k)))) ivs ++ map (fun kv => (fst kv, CInt (fst (snd kv)))) sts)
           (repeat (CInt 0) (List.length ivs + List.length sts)).
  Proof.
    intros Hg. unfold fillN, setall. rewrite fold_left_app.
    generalize (repeat (CInt 0) (List.length ivs + List.length sts)) as f0. intros f0.
    assert (E : forall l, (forall k, In k l -> dget lens k = Some (g k)) -> forall a,
      fold_left (fun acc iv => bind acc (fun f =>
        match dget pos iv, dget lens iv with
        | Some j, Some n => set_nth f j (CList (range n)) | _, _ => Err KeyError end)) l a =
      fold_left (fun acc k => bind acc (fun f =>
        bind (match dget pos (fst (k, CList (range (g k)))) with Some j => Ok j | None => Err KeyError end)
             (fun j => set_nth f j (snd (k, CList (range (g k))))))) l a).
    { induction l as [|k l IH]; intros H a; cbn; [reflexivity|]. rewrite IH by (intros; apply H; now right).
      f_equal. destruct a as [f|e]; cbn; [|reflexivity]. rewrite (H k) by now left. destruct (dget pos k); reflexivity. }
    rewrite (E ivs Hg). cbn [fst snd].
    match goal with |- bind ?x _ = _ => destruct x as [f1|e] eqn:E1 end; cbn [bind].
    - rewrite !fold_left_map. cbn [fst snd]. rewrite E1. reflexivity.
    - rewrite !fold_left_map. cbn [fst snd]. rewrite E1. symmetry.
      clear. induction sts as [|x l IH]; [reflexivity|exact IH].
  Qed.
End WithState.

(** Restriction of an index tuple to the independent variables. *)
Fixpoint project (sel : string -> bool) (names : list string) (idx : list nat) : list nat :=
  match names, idx with
  | k :: r, i :: s => if sel k then i :: project sel r s else project sel r s
  | _, _ => []
  end.

Definition shape' (sel : string -> bool) (names : list string) (Ns : list nat) : list nat :=
  map (fun kn => if sel (fst kn) : bool then snd kn else 1) (combine names Ns).

Lemma prod_shape sel names Ns : List.length names = List.length Ns ->
  prodn (shape' sel names Ns) = prodn (project sel names Ns).
Proof.
  revert Ns. induction names as [|k names IH]; intros [|N Ns] E; try discriminate; [reflexivity|].
  unfold shape' in *. cbn. specialize (IH Ns). cbn in E. fold (prodn (map (fun kn => if sel (fst kn) : bool then snd kn else 1) (combine names Ns))).
  rewrite IH by lia. destruct (sel k); cbn; fold (prodn (project sel names Ns)); lia.
Qed.

(** The row of the mesh at the projected index is the full index. *)
Lemma mesh_row sel ix names Ns idx : List.length names = List.length Ns -> inr Ns idx ->
  (forall i k j, nth_error names i = Some k -> nth_error idx i = Some j -> sel k = false -> j = ix k) ->
  let cells := map (fun kn => if sel (fst kn) : bool then seq 0 (snd kn) else [ix (fst kn)]) (combine names Ns) in
  exists t, inr (map (@List.length nat) cells) t /\
    flat (map (@List.length nat) cells) t = flat (project sel names Ns) (project sel names idx) /\
    inr (project sel names Ns) (project sel names idx) /\
    map (fun ci => nth (snd ci) (fst ci) 0) (combine cells t) = idx.
Proof.
  intros E H. revert Ns idx E H. induction names as [|k names IH]; intros [|N Ns] [|i idx] E H Hst; try discriminate;
    inversion H; subst; cbn zeta.
  - exists []. repeat split; constructor.
  - cbn [combine map fst snd]. destruct (IH Ns idx) as (t & I1 & F1 & I2 & M); auto.
    { intros i0 k0 j0 A B. apply (Hst (S i0)); assumption. }
    assert (PE : prodn (map (@List.length nat) (map (fun kn : string * nat => if sel (fst kn) then seq 0 (snd kn) else [ix (fst kn)]) (combine names Ns)))
               = prodn (project sel names Ns)).
    { rewrite <- prod_shape by (cbn in E; lia). f_equal. unfold shape'. rewrite map_map. apply map_ext. intros [a b]. cbn.
      destruct (sel a); [apply seq_length|reflexivity]. }
    destruct (sel k) eqn:Sk.
    + exists (i :: t). cbn [project]. rewrite Sk. cbn [List.length map]. rewrite seq_length. split; [constructor; assumption|].
      split; [cbn [flat]; rewrite F1; f_equal; f_equal; exact PE|].
      split; [constructor; assumption|]. cbn. rewrite M. f_equal. now rewrite seq_nth.
    + exists (0 :: t). cbn [project]. rewrite Sk. cbn [List.length map]. split; [constructor; [lia|assumption]|].
      split; [cbn [flat]; rewrite F1; lia|]. split; [assumption|]. cbn. rewrite M. f_equal.
      symmetry. apply (Hst 0 k i); auto.
Qed.

Lemma getSweepResultN_mesh {A B} (rd : A -> res B) (rv : A -> B) st names Ns sweeps data ivs static_vars :
  swept st names Ns sweeps -> NoDup names -> names <> [] ->
  (forall N, In N Ns -> 0 < N) ->
  (forall k, In k ivs -> In k names) -> NoDup (dkeys static_vars) ->
  (forall k, In k (dkeys static_vars) <-> (In k names /\ ~ In k ivs)) ->
  (forall k v i s, In (k, v) static_vars -> nth_error names i = Some k -> nth_error sweeps i = Some s -> static_ok s v) ->
  List.length data = prodn Ns -> (forall a, In a data -> rd a = Ok (rv a)) ->
  let sel := fun k => mem k ivs in
  exists sws arr sv ix,
    getSweepResultN rd st ivs static_vars data = Ok (sws, arr, sv) /\
    Forall2 (fun k s => getParameterSweep (s_coll st) k = Ok s) (filter sel names) sws /\
    nd_shape arr = map (@List.length f64) sws /\
    (forall k v i s, In (k, v) static_vars -> nth_error names i = Some k -> nth_error sweeps i = Some s ->
       nearest s v (ix k) /\ dget sv k = nth_error s (ix k)) /\
    (forall idx, inr Ns idx ->
       (forall i k j, nth_error names i = Some k -> nth_error idx i = Some j -> ~ In k ivs -> j = ix k) ->
       nd_T_at arr (rev (project sel names idx)) = option_map rv (nth_error data (flat Ns idx))) /\
    (forall js, inr (nd_shape arr) js -> exists idx, inr Ns idx /\ project sel names idx = js /\
       forall i k j, nth_error names i = Some k -> nth_error idx i = Some j -> ~ In k ivs -> j = ix k).
Proof.
  intros SW ND NE Npos Hiv NDs Hk Hok LD Hrd sel.
  destruct (statics_spec st names Ns sweeps SW static_vars) as (sts & ix & Es & EK & Eix & Hix); auto.
  { intros k H. now apply Hk. }
  assert (LN : List.length names = List.length Ns) by (symmetry; eapply Ns_len; eassumption).
  set (Nof := fun k => match dget (lengths (s_spec st)) k with Some z => Z.to_nat z | None => 0 end).
  assert (HNof : forall i k N, nth_error names i = Some k -> nth_error Ns i = Some N ->
     dget (lengths (s_spec st)) k = Some (Z.of_nat N) /\ Nof k = N).
  { intros i k N H1 H2. pose proof (len_get _ _ _ _ SW ND _ _ _ H1 H2) as E. split; [assumption|]. unfold Nof. rewrite E. apply Nat2Z.id. }
  assert (ENs : Ns = map Nof names).
  { apply nth_error_ext. intros i. rewrite nth_error_map. destruct (nth_error names i) as [k|] eqn:E1.
    - destruct (nth_error Ns i) as [N|] eqn:E2.
      + cbn [option_map]. destruct (HNof _ _ _ E1 E2) as [_ ->]. reflexivity.
      + apply nth_error_None in E2. assert (i < List.length names) by (apply nth_error_Some; congruence). lia.
    - apply nth_error_None in E1. apply nth_error_None. lia. }
  assert (Hlen : forall k, In k names -> dget (lengths (s_spec st)) k = Some (Z.of_nat (Nof k))).
  { intros k H. apply In_nth_error in H. destruct H as (i & Hi).
    destruct (nth_error Ns i) as [N|] eqn:E2.
    - destruct (HNof _ _ _ Hi E2) as [E ->]. assumption.
    - apply nth_error_None in E2. assert (i < List.length names) by (apply nth_error_Some; congruence). lia. }
  set (ivs' := filter sel names).
  assert (Hiv' : forall k, In k ivs' <-> In k names /\ In k ivs).
  { intros k. unfold ivs'. rewrite filter_In. unfold sel. rewrite mem_In. tauto. }
  set (cellf := fun k => if sel k then CList (range (Z.of_nat (Nof k))) else CInt (ix k)).
  set (l := map (fun k => (k, CList (range (Z.of_nat (Nof k))))) ivs' ++ map (fun kv => (fst kv, CInt (fst (snd kv)))) sts).
  assert (Efst : map fst l = ivs' ++ dkeys static_vars).
  { unfold l. rewrite map_app, !map_map. cbn. rewrite map_id. f_equal. exact EK. }
  assert (Efill : fillN (rev_positions (s_spec st)) (lengths (s_spec st)) ivs' sts = Ok (rev (map cellf names))).
  { rewrite (fillN_setall st (lengths (s_spec st)) ivs' sts (fun k => Z.of_nat (Nof k))).
    2:{ intros k H. apply Hlen. now apply Hiv'. }
    fold l. replace (List.length ivs' + List.length sts) with (List.length l) by (unfold l; now rewrite app_length, !map_length).
    apply (setall_full st names Ns sweeps SW ND).
    - rewrite Efst. apply NoDup_app_disj; [now apply NoDup_filter|assumption|].
      intros k H1 H2. apply Hiv' in H1. apply Hk in H2. tauto.
    - intros k. rewrite Efst, in_app_iff, Hiv', Hk. destruct (in_dec string_dec k ivs); tauto.
    - intros k c H. unfold l in H. apply in_app_or in H. destruct H as [H|H]; apply in_map_iff in H.
      + destruct H as (k' & [= <- <-] & H). apply Hiv' in H. unfold cellf, sel.
        now rewrite (proj2 (mem_In _ _)) by tauto.
      + destruct H as ([k' r] & [= <- <-] & H). cbn. unfold cellf, sel.
        rewrite (proj2 (mem_nIn _ _)).
        * now rewrite (Eix _ _ H).
        * apply (in_map fst) in H. rewrite EK in H. apply Hk in H. tauto. }
  unfold getSweepResultN. destruct data as [|d0 data0] eqn:ED.
  { exfalso. cbn in LD. assert (0 < prodn Ns); [|lia]. clear - Npos. induction Ns as [|N r IH]; cbn; [lia|].
    fold (prodn r). assert (0 < N) by (apply Npos; now left). assert (0 < prodn r) by (apply IH; intros; apply Npos; now right). nia. }
  rewrite <- ED in *. clear d0 data0 ED.
  assert (FA : forallb (dmem (s_coll st)) ivs = true).
  { apply forallb_forall. intros k H. eapply names_coll; [eassumption|]. auto. }
  assert (FB : forallb (dmem (s_coll st)) (dkeys static_vars) = true).
  { apply forallb_forall. intros k H. eapply names_coll; [eassumption|]. now apply Hk. }
  rewrite FA, FB. cbn [negb].
  assert (Eiv : sort_ivs (s_spec st) ivs = ivs').
  { unfold sort_ivs. rewrite (sw_names _ _ _ _ SW). reflexivity. }
  rewrite Eiv, Es. cbn [bind]. rewrite Efill. cbn [bind]. rewrite rev_involutive.
  set (cells := map cell_list (map cellf names)).
  assert (Ecells : cells = map (fun kn => if sel (fst kn) then seq 0 (snd kn) else [ix (fst kn)]) (combine names Ns)).
  { unfold cells. rewrite map_map, ENs. clear. induction names as [|k r IH]; [reflexivity|]. cbn. rewrite <- IH. f_equal.
    unfold cellf. destruct (sel k); [|reflexivity]. cbn. unfold range. now rewrite Nat2Z.id. }
  assert (Hrows : mesh_rows cells = map (fun idx => map (fun ci => nth (snd ci) (fst ci) 0) (combine cells idx)) (tuples (map (@List.length nat) cells))).
  { unfold mesh_rows. destruct cells eqn:E; [|reflexivity]. exfalso. unfold cells in E. destruct names; [congruence|discriminate]. }
  set (sh := map (@List.length nat) cells) in *.
  assert (Psh : prodn sh = prodn (project sel names Ns)).
  { rewrite <- prod_shape by assumption. unfold sh, shape'. rewrite Ecells, map_map. f_equal. apply map_ext. intros [a b]. cbn.
    destruct (sel a); [apply seq_length|reflexivity]. }
  (* every row is a full index with the statics fixed *)
  assert (Hrow : forall t, inr sh t -> let idx := map (fun ci => nth (snd ci) (fst ci) 0) (combine cells t) in
     inr Ns idx /\ flat sh t = flat (project sel names Ns) (project sel names idx) /\
     (forall i k j, nth_error names i = Some k -> nth_error idx i = Some j -> sel k = false -> j = ix k) /\
     inr (project sel names Ns) (project sel names idx)).
  { assert (Hixlt : forall i k N, nth_error names i = Some k -> nth_error Ns i = Some N -> sel k = false -> ix k < N).
    { intros i k N H1 H2 H3. assert (Hs : In k (dkeys static_vars)).
      { apply Hk. split; [eapply nth_error_In; eassumption|]. unfold sel in H3. now apply mem_nIn in H3. }
      apply in_map_iff in Hs. destruct Hs as ([k' v] & <- & Hkv). cbn in *.
      destruct (sweep_get _ _ _ _ SW _ _ H1) as (s & N' & E1 & E2 & -> & _). rewrite H2 in E2. injection E2 as ->.
      apply (Hix _ _ _ _ Hkv H1 E1). }
    unfold sh. rewrite Ecells. clear - LN Hixlt. revert Ns LN Hixlt. induction names as [|k r IH]; intros [|N Ns] LN Hixlt t Ht; try discriminate;
      cbn [combine map] in Ht; inversion Ht as [|j0 n0 t' sh' Hj Ht']; subst; cbn zeta.
    - repeat split; try constructor. intros [|i] k j; discriminate.
    - cbn [combine map fst snd].
      destruct (IH Ns) with (t := t') as (A1 & A2 & A3 & A4); auto.
      { intros i k0 N0 H1 H2. apply (Hixlt (S i)); assumption. }
      cbn [fst snd] in Hj.
      assert (PE : prodn (map (@List.length nat) (map (fun kn : string * nat => if sel (fst kn) then seq 0 (snd kn) else [ix (fst kn)]) (combine r Ns)))
               = prodn (project sel r Ns)).
      { rewrite <- prod_shape by (cbn in LN; lia). f_equal. unfold shape'. rewrite map_map. apply map_ext. intros [a b]. cbn.
        destruct (sel a); [apply seq_length|reflexivity]. }
      destruct (sel k) eqn:Sk.
      + rewrite seq_length in Hj. rewrite seq_nth by assumption. cbn [Nat.add].
        split; [constructor; assumption|]. cbn [project]. rewrite Sk. split; [cbn [map flat]; rewrite A2; f_equal; f_equal; exact PE|].
        split; [|constructor; assumption]. intros [|i] k0 j0' E1 E2 E3; cbn in E1, E2; [congruence|]. eapply A3; eassumption.
      + cbn in Hj. assert (j0 = 0) by lia. subst j0. cbn [nth].
        split; [constructor; [apply (Hixlt 0); auto|assumption]|]. cbn [project]. rewrite Sk. split; [cbn [map flat]; rewrite A2; lia|].
        split; [|assumption]. intros [|i] k0 j0' E1 E2 E3; cbn in E1, E2; [congruence|]. eapply A3; eassumption. }
  set (rowf := fun t => map (fun ci => nth (snd ci) (fst ci) 0) (combine cells t)) in *.
  rewrite Hrows. fold rowf.
  assert (HT : forall t, In t (tuples sh) -> inr sh t).
  { intros t Ht. apply In_nth_error in Ht. destruct Ht as (j & Hj).
    assert (Hjl : j < prodn sh) by (rewrite <- tuples_length; apply nth_error_Some; congruence).
    destruct (flat_surj sh j Hjl) as (t' & It & <-). rewrite nth_tuples in Hj by assumption. now injection Hj as <-. }
  assert (K : forall t, inr sh t -> exists a, bind (collapsedIndices st (map Z.of_nat (rowf t))) (py_nth data) = Ok a /\
         nth_error data (flat Ns (rowf t)) = Some a).
  { intros t Ht. destruct (Hrow t Ht) as (Hinr & _).
    rewrite (collapsedIndices_flat _ _ _ _ _ SW) by now apply inr_length. cbn [bind].
    pose proof (flat_lt _ _ Hinr) as Hlt. unfold py_nth. fold rowf in Hlt. fold (rowf t) in *.
    destruct (Z.ltb_spec (Z.of_nat (flat Ns (rowf t))) 0); [lia|].
    destruct (Z.ltb_spec (Z.of_nat (flat Ns (rowf t))) 0); [lia|]. rewrite Nat2Z.id.
    destruct (nth_error data (flat Ns (rowf t))) as [a|] eqn:Ea; [eauto|].
    apply nth_error_None in Ea. lia. }
  destruct (mapM_exists (fun r => bind (collapsedIndices st (map Z.of_nat r)) (py_nth data)) (map rowf (tuples sh))) as (res & Er).
  { intros r Hr. apply in_map_iff in Hr. destruct Hr as (t & <- & Ht). destruct (K t (HT t Ht)) as (a & Ea & _). eauto. }
  rewrite Er. cbn [bind].
  assert (GR : forall t, inr sh t -> nth_error res (flat sh t) = nth_error data (flat Ns (rowf t))).
  { intros t Ht. destruct (mapM_nth _ _ _ (flat sh t) (rowf t) Er) as (a & Ha & Hb).
    { rewrite nth_error_map, nth_tuples by assumption. reflexivity. }
    destruct (K t Ht) as (a' & Ea & Ea'). cbn beta in Hb. rewrite Hb in Ea. injection Ea as <-. now rewrite Ha. }
  assert (LR : List.length res = prodn sh) by (rewrite (mapM_length _ _ _ Er), map_length; apply tuples_length).
  assert (Hne : exists t0 ts, map rowf (tuples sh) = t0 :: ts).
  { destruct (map rowf (tuples sh)) as [|t0 ts] eqn:E; [exfalso|eauto].
    assert (L0 : List.length (map rowf (tuples sh)) = 0) by now rewrite E.
    rewrite map_length, tuples_length, Psh in L0.
    assert (0 < prodn (project sel names Ns)); [|lia]. clear - Npos. revert Ns Npos. induction names as [|k r IH]; intros [|N Ns] Npos; cbn; try lia.
    assert (0 < N) by (apply Npos; now left). assert (0 < prodn (project sel r Ns)) by (apply IH; intros; apply Npos; now right).
    destruct (sel k); cbn; fold (prodn (project sel r Ns)); nia. }
  destruct Hne as (t0 & ts & Hne). rewrite Hne.
  assert (Erd : mapM rd res = Ok (map rv res)).
  { apply mapM_ok. assert (HI : forall a, In a res -> In a data).
    { intros a Ha. apply In_nth_error in Ha. destruct Ha as (j & Ha).
      assert (Hj : j < prodn sh) by (rewrite <- LR; apply nth_error_Some; congruence).
      destruct (flat_surj sh j Hj) as (t & It & <-).
      rewrite GR in Ha by assumption. eapply nth_error_In; eassumption. }
    clear - Hrd HI. induction res as [|a r IH]; cbn; constructor; [apply Hrd, HI; now left|].
    apply IH. intros b Hb. apply HI. now right. }
  rewrite Erd. cbn [bind].
  assert (Esh : map (fun k => match dget (lengths (s_spec st)) k with Some n => Z.to_nat n | None => 0 end) ivs' = project sel names Ns).
  { change (map Nof ivs' = project sel names Ns). unfold ivs'. rewrite ENs. clear. induction names as [|k r IH]; [reflexivity|].
    cbn. destruct (sel k); cbn; now rewrite <- IH. }
  rewrite Esh.
  fold (prodn (project sel names Ns)). rewrite map_length, LR, Psh, Nat.eqb_refl.
  destruct (mapM_exists (getParameterSweep (s_coll st)) ivs') as (sws & Esw).
  { intros k H. apply Hiv' in H. destruct H as [H _]. apply In_nth_error in H. destruct H as (i & Hi).
    destruct (sweep_get _ _ _ _ SW _ _ Hi) as (s & N & _ & _ & _ & Eg). eauto. }
  rewrite Esw. cbn [bind]. do 3 eexists. exists ix. split; [reflexivity|].
  split; [now apply mapM_ok|]. split.
  { cbn [nd_shape]. apply mapM_ok in Esw. rewrite <- Esh. change (map Nof ivs' = map (@List.length f64) sws).
    assert (Hsub : forall k, In k ivs' -> In k names) by (intros k H; now apply Hiv').
    clear - Esw Hsub HNof SW LN. induction Esw as [|k s r sws E F IH]; [reflexivity|]. cbn. f_equal; [|apply IH; intros; apply Hsub; now right].
    destruct (In_nth_error names k) as (i & Hi); [apply Hsub; now left|].
    destruct (sweep_get _ _ _ _ SW _ _ Hi) as (s' & N & _ & E2 & -> & Eg). rewrite E in Eg. injection Eg as <-.
    destruct (HNof _ _ _ Hi E2) as [_ ->]. reflexivity. }
  split.
  { intros k v i s H1 H2 H3. destruct (Hix _ _ _ _ H1 H2 H3) as (A1 & _ & A3). split; [exact A1|exact A3]. }
  assert (Msel : forall k, sel k = false <-> ~ In k ivs) by (intros k; unfold sel; apply mem_nIn).
  split.
  - intros idx Hi Hst. destruct (mesh_row sel ix names Ns idx LN Hi) as (t & I1 & F1 & I2 & M).
    { intros i k j E1 E2 E3. apply (Hst i k j); auto. now apply Msel. }
    rewrite <- Ecells in I1, F1, M. fold sh in I1, F1.
    unfold nd_T_at, nd_at. rewrite rev_involutive. cbn [nd_shape nd_data]. rewrite flat_index_flat by assumption.
    rewrite nth_error_map, <- F1, GR by assumption. unfold rowf. now rewrite M.
  - cbn [nd_shape]. intros js Hj.
    assert (Hfl : flat (project sel names Ns) js < prodn sh) by (rewrite Psh; now apply flat_lt).
    destruct (flat_surj sh _ Hfl) as (t & It & Et). destruct (Hrow t It) as (A1 & A2 & A3 & A4).
    exists (rowf t). split; [exact A1|]. split.
    + eapply flat_inj; [exact A4|exact Hj|]. unfold rowf. rewrite <- A2. exact Et.
    + intros i k j E1 E2 E3. eapply A3; eauto. now apply Msel.
Qed.

(** The order of the requested variables is irrelevant. *)
Lemma getSweepResultN_perm {A B} (rd : A -> res B) st ivs ivs2 static_vars data :
  (forall k, In k ivs <-> In k ivs2) ->
  getSweepResultN rd st ivs static_vars data = getSweepResultN rd st ivs2 static_vars data.
Proof.
  intros H. unfold getSweepResultN.
  assert (M : forall k, mem k ivs = mem k ivs2).
  { intros k. destruct (mem k ivs2) eqn:E.
    - apply mem_In. apply H. now apply mem_In.
    - apply mem_nIn. rewrite H. now apply mem_nIn. }
  assert (S : sort_ivs (s_spec st) ivs = sort_ivs (s_spec st) ivs2) by (unfold sort_ivs; apply filter_ext; intros; apply M).
  assert (F : forallb (dmem (s_coll st)) ivs = forallb (dmem (s_coll st)) ivs2).
  { destruct (forallb (dmem (s_coll st)) ivs2) eqn:E.
    - apply forallb_forall. intros k Hk. rewrite forallb_forall in E. apply E. now apply H.
    - destruct (forallb (dmem (s_coll st)) ivs) eqn:E2; [|reflexivity].
      rewrite <- E. symmetry. apply forallb_forall. intros k Hk. rewrite forallb_forall in E2. apply E2. now apply H. }
  rewrite F, S. reflexivity.
Qed.

(** ** C23, several variables *)
Lemma getSweepResultN_complete {A B} (rd : A -> res B) st names Ns sweeps data ivs static_vars r :
  swept st names Ns sweeps -> NoDup names ->
  NoDup (dkeys static_vars) -> (forall k, In k ivs -> In k (dkeys static_vars) -> False) ->
  getSweepResultN rd st ivs static_vars data = Ok r ->
  let asked := filter (fun k => mem k ivs) names ++ dkeys static_vars in
  (List.length asked <= List.length names)%nat /\
  forall k, In k asked <-> In k (skipn (List.length names - List.length asked) names).
Proof.
  intros SW ND NDs Dj E asked. unfold getSweepResultN in E. destruct data as [|d0 data0]; [discriminate|].
  destruct (forallb (dmem (s_coll st)) ivs); [|discriminate]. cbn [negb] in E.
  destruct (forallb _ _); [|discriminate]. cbn [negb] in E.
  assert (Eiv : sort_ivs (s_spec st) ivs = filter (fun k => mem k ivs) names).
  { unfold sort_ivs. now rewrite (sw_names _ _ _ _ SW). }
  rewrite Eiv in E. set (ivs' := filter (fun k => mem k ivs) names) in *.
  destruct (statics (s_coll st) static_vars) as [sts|] eqn:Es; [|discriminate]. cbn [bind] in E.
  destruct (fillN (rev_positions (s_spec st)) (lengths (s_spec st)) ivs' sts) as [final|] eqn:Ef; [|discriminate]. clear E.
  assert (EK : map fst sts = dkeys static_vars).
  { unfold statics in Es. apply mapM_ok in Es. clear - Es.
    induction Es as [|[k v] y l l' E F IH]; [reflexivity|]. cbn in *.
    destruct (static_one (s_coll st) k v); [|discriminate]. cbn in E. injection E as <-. cbn. now f_equal. }
  pose proof (Ns_len _ _ _ _ SW) as LN.
  assert (Hlen : forall k, In k ivs' -> dget (lengths (s_spec st)) k = Some (match dget (lengths (s_spec st)) k with Some z => z | None => 0%Z end)).
  { intros k H. unfold ivs' in H. apply filter_In in H. destruct H as [H _]. apply In_nth_error in H. destruct H as (i & Hi).
    destruct (nth_error Ns i) as [N|] eqn:E2.
    - now rewrite (len_get _ _ _ _ SW ND _ _ _ Hi E2).
    - apply nth_error_None in E2. assert (i < List.length names) by (apply nth_error_Some; congruence). lia. }
  rewrite (fillN_setall st _ _ _ _ Hlen) in Ef.
  match type of Ef with setall _ ?L _ = _ => set (l := L) in Ef end.
  assert (Efst : map fst l = asked).
  { unfold l, asked. rewrite map_app, !map_map. cbn. rewrite map_id. f_equal. exact EK. }
  assert (Len : List.length ivs' + List.length sts = List.length asked).
  { unfold asked. rewrite app_length. f_equal. rewrite <- EK. now rewrite map_length. }
  destruct (setall_inv _ _ _ _ Ef) as (L & P & _). rewrite repeat_length, Len in P.
  assert (NDk : NoDup asked).
  { unfold asked. apply NoDup_app_disj; [now apply NoDup_filter|assumption|].
    intros k H1 H2. unfold ivs' in H1. apply filter_In in H1. destruct H1 as [_ H1]. apply mem_In in H1. eauto. }
  assert (HP : forall k, In k asked -> exists j, dget (rev_positions (s_spec st)) k = Some j /\ j < List.length asked).
  { intros k H. rewrite <- Efst in H. apply in_map_iff in H. destruct H as ([k' c] & <- & H). cbn. eapply P; eassumption. }
  assert (Hsub : incl asked names).
  { intros k H. destruct (HP _ H) as (j & Ep & _). apply (pos_inv _ _ _ _ SW ND) in Ep. destruct Ep as (i & Hi & _). eapply nth_error_In; eassumption. }
  assert (Hm : List.length asked <= List.length names) by now apply NoDup_incl_length.
  split; [assumption|].
  assert (HIn : forall k, In k asked -> In k (skipn (List.length names - List.length asked) names)).
  { intros k H. destruct (HP _ H) as (j & Ep & Hlt). apply (pos_inv _ _ _ _ SW ND) in Ep. destruct Ep as (i & Hi & Ej & Hin).
    assert (i >= List.length names - List.length asked) by lia.
    assert (nth_error (skipn (List.length names - List.length asked) names) (i - (List.length names - List.length asked)) = Some k).
    { rewrite <- Hi. rewrite <- (firstn_skipn (List.length names - List.length asked) names) at 4.
      rewrite nth_error_app2; rewrite firstn_length_le; try lia. reflexivity. }
    eapply nth_error_In; eassumption. }
  intros k. split; [apply HIn|].
  apply (NoDup_length_incl NDk); [|exact HIn].
  rewrite skipn_length. lia.
Qed.

Lemma grid_fun st names sweeps sweeps' : grid_of st names sweeps -> grid_of st names sweeps' -> sweeps = sweeps'.
Proof.
  unfold grid_of. intros F. revert sweeps'. induction F as [|k s l l' E F IH]; intros s' F'; inversion F'; subst; [reflexivity|].
  f_equal; [congruence|]. now apply IH.
Qed.

(** An accepted sweep, seen from its public data. *)
Lemma ndSweep_grid st specs st' sweeps : ndSweep st specs = (st', Ok tt) -> NoDup (map sp_name specs) ->
  grid_of st' (map sp_name specs) sweeps ->
  swept st' (map sp_name specs) (map (@List.length f64) sweeps) sweeps.
Proof.
  intros E ND G. destruct (ndSweep_swept _ _ _ E ND) as (Ns & sw & S & _).
  assert (sw = sweeps) by (eapply grid_fun; [eapply swept_sweeps; eassumption|assumption]). subst sw.
  pose proof (sw_len _ _ _ _ S). now subst Ns.
Qed.

Lemma ndSweep_C19 st specs st' : ndSweep st specs = (st', Ok tt) -> NoDup (map sp_name specs) ->
  exists sweeps,
    Forall2 (fun sp s => exists p, dget (s_coll st) (sp_name sp) = Some p /\
       snd (linearSweep p (sp_start sp) (sp_end sp) (sp_N sp)) = Ok s) specs sweeps /\
    grid_of st' (map sp_name specs) sweeps /\
    s_npts st' = Z.of_nat (prodn (map (@List.length f64) sweeps)) /\
    (forall idx, inr (map (@List.length f64) sweeps) idx ->
       exists j, collapsedIndices st' (map Z.of_nat idx) = Ok (Z.of_nat j) /\
       forall k name s, nth_error (map sp_name specs) k = Some name -> nth_error sweeps k = Some s ->
         exists arr a x, dget (s_c st') name = Some arr /\ Z.of_nat (List.length arr) = s_npts st' /\
           nth_error s (nth k idx 0) = Some x /\ nth_error arr j = Some x /\
           dget (s_nc st') name = Some a /\ nd_at a idx = Some x) /\
    (forall idx i j, inr (map (@List.length f64) sweeps) (idx ++ [S i]) ->
       collapsedIndices st' (map Z.of_nat (idx ++ [i])) = Ok j ->
       collapsedIndices st' (map Z.of_nat (idx ++ [S i])) = Ok (j + 1)%Z).
Proof.
  intros E ND. destruct (ndSweep_swept _ _ _ E ND) as (Ns & sweeps & S & F).
  exists sweeps. split; [exact F|]. split; [eapply swept_sweeps; eassumption|].
  rewrite (sw_len _ _ _ _ S). split; [apply (sw_npts _ _ _ _ S)|]. split.
  - intros idx Hi. exists (flat Ns idx). split; [apply (collapsedIndices_flat _ _ _ _ _ S), inr_length, Hi|].
    intros k name s Hk Hs. destruct (swept_at _ _ _ _ _ _ _ _ S Hi Hk Hs) as (arr & E1 & E2 & E3 & E4).
    destruct (swept_nc_at _ _ _ _ _ _ _ _ S Hi Hk Hs) as (a & E5 & E6).
    destruct (nth_error s (nth k idx 0)) as [x|] eqn:Ex; [|apply nth_error_None in Ex; lia].
    exists arr, a, x. rewrite E2, (sw_npts _ _ _ _ S). auto 10.
  - intros idx i j Hi Ej.
    pose proof (inr_length _ _ Hi) as HL. rewrite app_length in HL. cbn in HL.
    rewrite (collapsedIndices_flat _ _ _ _ _ S) in Ej by (rewrite app_length; exact HL).
    rewrite (collapsedIndices_flat _ _ _ _ _ S) by (rewrite app_length; exact HL).
    injection Ej as <-. f_equal.
    assert (G : forall Ns idx, inr Ns (idx ++ [Datatypes.S i]) -> flat Ns (idx ++ [Datatypes.S i]) = Datatypes.S (flat Ns (idx ++ [i]))).
    { clear. intros Ns idx. revert Ns. induction idx as [|a r IH]; intros [|N Ns] H; inversion H; subst.
      - inversion H5; subst. cbn. lia.
      - cbn. rewrite IH by assumption. lia. }
    rewrite G by assumption. lia.
Qed.

Definition selected (names : list string) (sweeps : list (list f64)) (static_vars : dict string f64) (ix : string -> nat) : Prop :=
  forall k v i s, In (k, v) static_vars -> nth_error names i = Some k -> nth_error sweeps i = Some s -> nearest s v (ix k).
Definition statics_ok (names : list string) (sweeps : list (list f64)) (static_vars : dict string f64) : Prop :=
  forall k v i s, In (k, v) static_vars -> nth_error names i = Some k -> nth_error sweeps i = Some s -> static_ok s v.

Lemma getSweepResult1_C22 {A B} (rd : A -> res B) (rv : A -> B) st0 specs st names sweeps data iv static_vars :
  ndSweep st0 specs = (st, Ok tt) -> names = map sp_name specs -> NoDup names -> grid_of st names sweeps ->
  In iv names -> NoDup (dkeys static_vars) ->
  (forall k, In k (dkeys static_vars) <-> (In k names /\ k <> iv)) ->
  statics_ok names sweeps static_vars ->
  data <> [] -> List.length data = prodn (map (@List.length f64) sweeps) -> (forall a, In a data -> rd a = Ok (rv a)) ->
  exists sw vals sv,
    getSweepResult1 rd st iv static_vars data = Ok (sw, vals, sv) /\
    getParameterSweep (s_coll st) iv = Ok sw /\
    List.length vals = List.length sw /\
    (exists ix, selected names sweeps static_vars ix) /\
    forall ix, selected names sweeps static_vars ix ->
      (forall k v i s, In (k, v) static_vars -> nth_error names i = Some k -> nth_error sweeps i = Some s ->
         dget sv k = nth_error s (ix k)) /\
      forall r, r < List.length sw ->
        exists j a, collapsedIndices st (map Z.of_nat (map (fun k => if eqb k iv then r else ix k) names)) = Ok (Z.of_nat j) /\
          nth_error data j = Some a /\ nth_error vals r = Some (rv a).
Proof.
  intros E -> ND G Hiv NDs Hk Hok NE LD Hrd. pose proof (ndSweep_grid _ _ _ _ E ND G) as SW.
  destruct (Nat.eq_dec (List.length (s_spec st)) 1) as [E1|N1].
  - pose proof (sw_names _ _ _ _ SW) as En. destruct (s_spec st) as [|sp [|? ?]] eqn:Es; try discriminate.
    cbn in En. rewrite <- En in *. assert (iv = sp_name sp) by (destruct Hiv as [|[]]; congruence). subst iv.
    assert (static_vars = []).
    { destruct static_vars as [|[k v] r]; [reflexivity|]. destruct (proj1 (Hk k) (or_introl eq_refl)) as [[<-|[]] H]. congruence. }
    subst static_vars. unfold grid_of in G. inversion G as [|? sw ? sws Eg Gs]; subst. inversion Gs; subst.
    exists sw, (map rv data), []. unfold getSweepResult1. destruct data as [|d0 data0] eqn:ED; [congruence|]. rewrite <- ED in *.
    rewrite (names_coll _ _ _ _ SW (sp_name sp)) by now left. cbn [negb dkeys map forallb]. rewrite Eg, Es. cbn [bind List.length Nat.eqb].
    assert (Erd : mapM rd data = Ok (map rv data)).
    { apply mapM_ok. clear - Hrd. induction data as [|a r IH]; cbn; constructor; [apply Hrd; now left|]. apply IH. intros; apply Hrd; now right. }
    rewrite Erd. cbn [bind]. cbn [map prodn fold_right] in LD. rewrite Nat.mul_1_r in LD.
    split; [reflexivity|]. split; [reflexivity|]. split; [now rewrite map_length|].
    split; [exists (fun _ => 0); intros k v i s []|]. intros ix _. split; [intros k v i s []|].
    intros r Hr. exists r. destruct (nth_error data r) as [a|] eqn:Ea; [|apply nth_error_None in Ea; lia]. exists a.
    split; [|split; [reflexivity|now rewrite nth_error_map, Ea]].
    change (collapsedIndices st (map Z.of_nat [if eqb (sp_name sp) (sp_name sp) then r else ix (sp_name sp)]) = Ok (Z.of_nat r)).
    rewrite (collapsedIndices_flat _ _ _ _ _ SW) by reflexivity. f_equal. f_equal. cbn [map flat prodn fold_right]. rewrite eqb_refl. lia.
  - destruct (dist_one st _ _ _ SW ND rd rv data iv static_vars) as (sw & vals & sv & ix & R1 & R2 & R3 & R4 & R5); auto.
    exists sw, vals, sv. split; [assumption|]. split; [assumption|]. split; [assumption|].
    split; [exists ix; intros k v i s A1 A2 A3; now apply (R4 k v i s)|].
    intros ix' Hix'.
    assert (Eix : forall k v i s, In (k, v) static_vars -> nth_error (map sp_name specs) i = Some k -> nth_error sweeps i = Some s -> ix' k = ix k).
    { intros k v i s A1 A2 A3. eapply nearest_unique; [eapply Hix'; eassumption|now apply (R4 k v i s)]. }
    split.
    + intros k v i s A1 A2 A3. rewrite (Eix k v i s) by assumption. now apply (R4 k v i s).
    + intros r Hr. destruct (R5 r Hr) as (I & V).
      assert (Em : map (fun k => if eqb k iv then r else ix' k) (map sp_name specs) = idx1 (map sp_name specs) iv ix r).
      { unfold idx1. apply map_ext_in. intros k Hkn. destruct (eqb_spec k iv) as [->|Hne]; [reflexivity|].
        assert (Hs' : In k (dkeys static_vars)) by (apply Hk; auto).
        apply in_map_iff in Hs'. destruct Hs' as ([k' v] & <- & Hkv). cbn in *.
        destruct (In_nth_error _ _ Hkn) as (i & Hi). destruct (sweep_get _ _ _ _ SW _ _ Hi) as (s & N & Hs & _).
        eapply Eix; eassumption. }
      rewrite Em. pose proof (flat_lt _ _ I) as Hlt.
      destruct (nth_error data (flat (map (@List.length f64) sweeps) (idx1 (map sp_name specs) iv ix r))) as [a|] eqn:Ea;
        [|apply nth_error_None in Ea; lia].
      eexists _, a. split; [apply (collapsedIndices_flat _ _ _ _ _ SW), inr_length, I|]. split; [assumption|]. now rewrite V.
Qed.

Lemma prodn_pos Ns : prodn Ns <> 0 -> forall N, In N Ns -> 0 < N.
Proof.
  induction Ns as [|M r IH]; intros H N Hin; [destruct Hin|]. cbn in H. fold (prodn r) in H.
  destruct Hin as [->|Hin]; [nia|]. apply IH; [nia|assumption].
Qed.

Lemma getSweepResultN_C24 {A B} (rd : A -> res B) (rv : A -> B) st0 specs st names sweeps data ivs static_vars :
  ndSweep st0 specs = (st, Ok tt) -> names = map sp_name specs -> NoDup names -> grid_of st names sweeps ->
  names <> [] ->
  (forall k, In k ivs -> In k names) -> NoDup (dkeys static_vars) ->
  (forall k, In k (dkeys static_vars) <-> (In k names /\ ~ In k ivs)) ->
  statics_ok names sweeps static_vars ->
  data <> [] -> List.length data = prodn (map (@List.length f64) sweeps) -> (forall a, In a data -> rd a = Ok (rv a)) ->
  let sel := fun k => mem k ivs in
  exists sws arr sv,
    getSweepResultN rd st ivs static_vars data = Ok (sws, arr, sv) /\
    Forall2 (fun k s => getParameterSweep (s_coll st) k = Ok s) (filter sel names) sws /\
    nd_shape arr = map (@List.length f64) sws /\
    (exists ix, selected names sweeps static_vars ix) /\
    forall ix, selected names sweeps static_vars ix ->
      (forall k v i s, In (k, v) static_vars -> nth_error names i = Some k -> nth_error sweeps i = Some s ->
         dget sv k = nth_error s (ix k)) /\
      forall js, inr (nd_shape arr) js ->
        exists idx j a, inr (map (@List.length f64) sweeps) idx /\
          project sel names idx = js /\
          (forall i k j, nth_error names i = Some k -> nth_error idx i = Some j -> ~ In k ivs -> j = ix k) /\
          collapsedIndices st (map Z.of_nat idx) = Ok (Z.of_nat j) /\
          nth_error data j = Some a /\ nd_T_at arr (rev js) = Some (rv a).
Proof.
  intros E -> ND G NEn Hiv NDs Hk Hok NE LD Hrd sel. pose proof (ndSweep_grid _ _ _ _ E ND G) as SW.
  destruct (getSweepResultN_mesh rd rv st _ _ _ data ivs static_vars SW ND NEn) as (sws & arr & sv & ix & R1 & R2 & R3 & R4 & R5 & R6); auto.
  { apply prodn_pos. rewrite <- LD. destruct data; [congruence|discriminate]. }
  fold sel in R2, R5, R6.
  exists sws, arr, sv. split; [assumption|]. split; [assumption|]. split; [assumption|].
  split; [exists ix; intros k v i s A1 A2 A3; now apply (R4 k v i s)|].
  intros ix' Hix'.
  assert (Eix : forall k v i s, In (k, v) static_vars -> nth_error (map sp_name specs) i = Some k -> nth_error sweeps i = Some s -> ix' k = ix k).
  { intros k v i s A1 A2 A3. eapply nearest_unique; [eapply Hix'; eassumption|now apply (R4 k v i s)]. }
  split.
  - intros k v i s A1 A2 A3. rewrite (Eix k v i s) by assumption. now apply (R4 k v i s).
  - intros js Hj. destruct (R6 js Hj) as (idx & I & Pj & Hst). pose proof (flat_lt _ _ I) as Hlt.
    destruct (nth_error data (flat (map (@List.length f64) sweeps) idx)) as [a|] eqn:Ea; [|apply nth_error_None in Ea; lia].
    exists idx, (flat (map (@List.length f64) sweeps) idx), a. split; [assumption|]. split; [assumption|].
    split.
    { intros i k j Hi Hj' Hn. rewrite (Hst i k j) by assumption. symmetry.
      assert (Hkn : In k (map sp_name specs)) by (eapply nth_error_In; eassumption).
      assert (Hs' : In k (dkeys static_vars)) by (apply Hk; auto).
      apply in_map_iff in Hs'. destruct Hs' as ([k' v] & <- & Hkv). cbn in *.
      destruct (sweep_get _ _ _ _ SW _ _ Hi) as (s & N & Hs & _). eapply Eix; eassumption. }
    split; [apply (collapsedIndices_flat _ _ _ _ _ SW), inr_length, I|]. split; [assumption|].
    rewrite <- Pj, (R5 idx I Hst), Ea. reflexivity.
Qed.

Lemma collapsedIndices_C20 st specs st' sweeps :
  ndSweep st specs = (st', Ok tt) -> NoDup (map sp_name specs) -> grid_of st' (map sp_name specs) sweeps ->
  let Ns := map (@List.length f64) sweeps in
  (forall idx, inr Ns idx -> exists j, collapsedIndices st' (map Z.of_nat idx) = Ok j /\ (0 <= j < s_npts st')%Z) /\
  (forall idx idx', inr Ns idx -> inr Ns idx' ->
     collapsedIndices st' (map Z.of_nat idx) = collapsedIndices st' (map Z.of_nat idx') -> idx = idx') /\
  (forall j, (0 <= j < s_npts st')%Z -> exists idx, inr Ns idx /\ collapsedIndices st' (map Z.of_nat idx) = Ok j).
Proof.
  intros E ND G Ns. pose proof (ndSweep_grid _ _ _ _ E ND G) as SW. fold Ns in SW.
  assert (C : forall idx, inr Ns idx -> collapsedIndices st' (map Z.of_nat idx) = Ok (Z.of_nat (flat Ns idx))).
  { intros idx H. apply (collapsedIndices_flat _ _ _ _ _ SW), inr_length, H. }
  rewrite (sw_npts _ _ _ _ SW). split; [|split].
  - intros idx H. rewrite C by assumption. eexists. split; [reflexivity|]. pose proof (flat_lt _ _ H). lia.
  - intros idx idx' H H'. rewrite !C by assumption. intros [= Q]. apply Nat2Z.inj in Q. now apply (flat_inj Ns).
  - intros j Hj. destruct (flat_surj Ns (Z.to_nat j)) as (idx & H & Q); [lia|].
    exists idx. split; [assumption|]. rewrite C by assumption. f_equal. lia.
Qed.

Lemma call_all_pure {D B} (f : D -> B) ds n :
  call_all (fun (n : nat) d => (n + 1, Ok (f d))) n ds = (n + List.length ds, map f ds, Ok tt).
Proof.
  revert n. induction ds as [|d r IH]; intros n; cbn; [now rewrite Nat.add_0_r|].
  rewrite IH. f_equal. f_equal. lia.
Qed.

Lemma computeFuncSweep_pure {B} (f : dict string f64 -> B) st specs st' :
  ndSweep st specs = (st', Ok tt) -> specs <> [] -> NoDup (map sp_name specs) ->
  exists sweeps results,
    grid_of st' (map sp_name specs) sweeps /\
    computeFuncSweep (fun (n : nat) d => (n + 1, Ok (f d))) st specs 0
      = (st', (prodn (map (@List.length f64) sweeps), results, Ok tt)) /\
    List.length results = prodn (map (@List.length f64) sweeps) /\
    forall idx, inr (map (@List.length f64) sweeps) idx ->
      exists j d, collapsedIndices st' (map Z.of_nat idx) = Ok (Z.of_nat j) /\ nth_error results j = Some (f d) /\
        dkeys d = map sp_name specs /\
        forall k name sw, nth_error (map sp_name specs) k = Some name -> nth_error sweeps k = Some sw ->
          dget d name = nth_error sw (nth k idx 0).
Proof.
  intros E NE ND. destruct (computeFuncSweep_calls (fun (n : nat) d => (n + 1, Ok (f d))) st specs 0 st' E NE ND) as (sweeps & ds & G & L & H & C).
  exists sweeps, (map f ds). split; [assumption|]. rewrite C, call_all_pure, L. split; [reflexivity|].
  split; [now rewrite map_length|]. intros idx Hi. destruct (H idx Hi) as (j & d & A1 & A2 & A3).
  exists j, d. split; [assumption|]. split; [now rewrite nth_error_map, A2|assumption].
Qed.

Lemma getSweepResult1_C23 {A B} (rd : A -> res B) st0 specs st names sweeps data iv static_vars r :
  ndSweep st0 specs = (st, Ok tt) -> names = map sp_name specs -> NoDup names -> grid_of st names sweeps ->
  List.length specs <> 1 -> NoDup (dkeys static_vars) ->
  getSweepResult1 rd st iv static_vars data = Ok r ->
  let m := S (List.length static_vars) in
  NoDup (iv :: dkeys static_vars) /\ m <= List.length names /\
  forall k, In k (iv :: dkeys static_vars) <-> In k (skipn (List.length names - m) names).
Proof.
  intros E -> ND G N1 NDs R. pose proof (ndSweep_grid _ _ _ _ E ND G) as SW.
  apply (getSweepResult1_complete st _ _ _ SW ND rd data iv static_vars r); auto.
  rewrite (spec_len _ _ _ _ SW), map_length. assumption.
Qed.
Lemma getSweepResultN_C23 {A B} (rd : A -> res B) st0 specs st names sweeps data ivs static_vars r :
  ndSweep st0 specs = (st, Ok tt) -> names = map sp_name specs -> NoDup names -> grid_of st names sweeps ->
  NoDup (dkeys static_vars) -> (forall k, In k ivs -> In k (dkeys static_vars) -> False) ->
  getSweepResultN rd st ivs static_vars data = Ok r ->
  let asked := filter (fun k => mem k ivs) names ++ dkeys static_vars in
  List.length asked <= List.length names /\
  forall k, In k asked <-> In k (skipn (List.length names - List.length asked) names).
Proof.
  intros E -> ND G NDs Dj R. pose proof (ndSweep_grid _ _ _ _ E ND G) as SW.
  exact (getSweepResultN_complete rd st _ _ _ data ivs static_vars r SW ND NDs Dj R).
Qed.

Lemma static_one_computed coll k sw v :
  getParameterSweep coll k = Ok sw -> static_ok sw v ->
  exists i x, static_one coll k v = Ok (i, x) /\ nth_error sw i = Some x /\
    forall j y, nth_error sw j = Some y ->
      xle (X (dist v x)) (X (dist v y)) /\ (j < i -> xlt (X (dist v x)) (X (dist v y))).
Proof.
  intros E S. destruct (static_one_spec _ _ _ _ E S) as (i & x & E1 & (x' & Ex' & H) & Ex).
  rewrite Ex in Ex'. injection Ex' as <-. eauto.
Qed.

Lemma static_one_C25 coll k sw v rv :
  getParameterSweep coll k = Ok sw -> sw <> [] -> valid v = true -> X v = XFin rv ->
  Forall (fun y => valid y = true /\ (exists r, X y = XFin r) /\ Float.is_finite (fsub y v) = true) sw ->
  exists i x rx, static_one coll k v = Ok (i, x) /\ nth_error sw i = Some x /\ X x = XFin rx /\
    forall j y ry, nth_error sw j = Some y -> X y = XFin ry ->
      (Rabs (rx - rv) <= Rabs (ry - rv) \/ rnd (Rabs (rx - rv)) = rnd (Rabs (ry - rv)))%R /\
      ((j < i)%nat -> (Rabs (rx - rv) < Rabs (ry - rv))%R).
Proof.
  intros E NE Vv Xv F.
  assert (S : static_ok sw v).
  { split; [assumption|]. split; [assumption|]. eapply Forall_impl; [|exact F].
    intros y (Vy & (r & Xy) & Fy). split; [assumption|].
    apply is_nan_X. rewrite (dist_real v y rv r) by assumption. discriminate. }
  destruct (static_one_spec _ _ _ _ E S) as (i & x & E1 & N & Ex).
  destruct (proj1 (Forall_forall _ _) F x (nth_error_In _ _ Ex)) as (_ & (rx & Xx) & _).
  exists i, x, rx. split; [assumption|]. split; [assumption|]. split; [assumption|].
  eapply nearest_real; try eassumption. eapply Forall_impl; [|exact F]. intros y (A1 & _ & A3). auto.
Qed.

Lemma far_value : (X (round_Z 0) = XFin 0 /\ X (round_Z 1) = XFin 1 /\ X (round_Z (2 ^ 54)) = XFin (IZR (2 ^ 54)) /\
      Rabs (1 - IZR (2 ^ 54)) < Rabs (0 - IZR (2 ^ 54)))%R.
Proof.
  split; [reflexivity|]. split.
  - replace (round_Z 1) with (S754_finite false 4503599627370496 (-52)) by (vm_compute; reflexivity).
    cbn -[SF2R]. f_equal. unfold SF2R, F2R. cbn -[bpow]. change (bpow radix2 (-52)) with (/ IZR (2 ^ 52))%R. change (2 ^ 52)%Z with 4503599627370496%Z. lra.
  - split.
    + replace (round_Z (2 ^ 54)) with (S754_finite false 4503599627370496 2) by (vm_compute; reflexivity).
      cbn -[SF2R]. f_equal. unfold SF2R, F2R. cbn -[bpow]. change (bpow radix2 2) with 4%R. lra.
    + change (2 ^ 54)%Z with 18014398509481984%Z. rewrite !Rabs_left by lra. lra.
Qed.
