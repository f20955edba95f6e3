(** getExpandedOperatorsMap: what the expanded operators are; C54 and C55. *)
From Coq Require Import List Bool Arith Lia ZArith Reals Lra.
From Coquelicot Require Import Complex.
From Verif Require Import Prelude PreludeFacts Sweep SweepProofs SweepResultProofs Mat MatFacts Util UtilProofs Graph Symbolic SymbolicInv NumOp NumOpSpec NumKron.
Import ListNotations.
Open Scope nat_scope.

Definition lift (D : nat -> nat) (n i : nat) (A : cmat) : cmat :=
  tensor (map (fun k => (D k, if Nat.eqb k i then A else eye)) (seq 0 n)).
Definition size (D : nat -> nat) (n : nat) : nat := prodn (map D (seq 0 n)).

Lemma lift_mul D n i A B : same (size D n) (mul (size D n) (lift D n i A) (lift D n i B)) (lift D n i (mm (D i) A B)).
Proof.
  intros r c Hr Hc. rewrite mul_mm. unfold lift.
  etransitivity; [apply (tensor_mul (seq 0 n) D (fun k => if Nat.eqb k i then A else eye) (fun k => if Nat.eqb k i then B else eye)); auto|].
  apply tensor_ext; auto. intros k a b _ Ha Hb. destruct (Nat.eqb_spec k i) as [->|N]; [easy|]. now apply mm_eye_l.
Qed.
Lemma lift_commute D n i i' A B : i <> i' -> commute (size D n) (lift D n i A) (lift D n i' B).
Proof.
  intros Hi r c Hr Hc. rewrite !mul_mm. unfold lift.
  etransitivity; [apply (tensor_mul (seq 0 n) D (fun k => if Nat.eqb k i then A else eye) (fun k => if Nat.eqb k i' then B else eye)); auto|].
  symmetry.
  etransitivity; [apply (tensor_mul (seq 0 n) D (fun k => if Nat.eqb k i' then B else eye) (fun k => if Nat.eqb k i then A else eye)); auto|].
  symmetry. apply tensor_ext; auto. intros k a b _ Ha Hb.
  destruct (Nat.eqb_spec k i) as [E|N]; destruct (Nat.eqb_spec k i') as [E'|N']; try congruence; now rewrite ?mm_eye_r, ?mm_eye_l.
Qed.
Lemma mdag_eye i j : mdag eye i j = eye i j.
Proof. unfold mdag, eye. rewrite Nat.eqb_sym. destruct (Nat.eqb i j); apply conj_R. Qed.
Lemma lift_dag D n i A r c : r < size D n -> c < size D n -> mdag (lift D n i A) r c = lift D n i (mdag A) r c.
Proof.
  intros Hr Hc. unfold lift. etransitivity; [apply (tensor_dag (seq 0 n) D (fun k => if Nat.eqb k i then A else eye))|]. apply tensor_ext; auto. intros k a b _ _ _.
  destruct (Nat.eqb k i); [easy | apply mdag_eye].
Qed.
Lemma lift_ext D n i A B : i < n -> same (D i) A B -> same (size D n) (lift D n i A) (lift D n i B).
Proof.
  intros Hi H r c Hr Hc. apply tensor_ext; auto. intros k a b _ Ha Hb. destruct (Nat.eqb_spec k i) as [->|N]; auto.
Qed.

(** ** olist and expand *)
Definition idim (il : list (option nat)) (k : nat) : nat := match nth k il None with Some n => n | None => 0 end.
Definition dimf (il : list (option nat)) (i d k : nat) : nat := if Nat.eqb k i then d else idim il k.
Lemma mapM_combine_seq {B X} (f : nat * B -> res X) (g : nat -> X) (l : list B) s :
  (forall k b, nth_error l k = Some b -> f (s + k, b) = Ok (g (s + k))) ->
  mapM f (combine (seq s (List.length l)) l) = Ok (map g (seq s (List.length l))).
Proof.
  revert s. induction l as [|b l IH]; intros s H; cbn [List.length seq combine mapM map]; [easy|].
  pose proof (H 0 b eq_refl) as H0. rewrite Nat.add_0_r in H0. rewrite H0. cbn [bind].
  rewrite (IH (S s)); [easy|]. intros k b' Hk. specialize (H (S k) b' Hk). now rewrite Nat.add_succ_r in H.
Qed.
Lemma olist_ok il i d A : (forall k, k < List.length il -> k <> i -> nth k il None <> None) ->
  olist il i d A = Ok (map (fun k => (dimf il i d k, if Nat.eqb k i then A else eye)) (seq 0 (List.length il))).
Proof.
  intros H. unfold olist, enumerate. apply mapM_combine_seq. intros k b Hk. cbn [fst snd Nat.add]. unfold dimf.
  destruct (Nat.eqb_spec k i) as [->|N]; [easy|].
  assert (Hl : k < List.length il) by (apply nth_error_Some; congruence).
  specialize (H k Hl N). unfold idim. rewrite (nth_error_nth _ _ None Hk) in *. now destruct b.
Qed.
Lemma expand_ok il i o : (forall k, k < List.length il -> k <> i -> nth k il None <> None) ->
  let D := dimf il i (o_dim o) in let n := List.length il in
  expand il i o = Ok (mkcops (map D (seq 0 n)) (lift D n i (oQ o)) (lift D n i (oP o)) (lift D n i (oD o))
    (lift D n i (oDd o)) (lift D n i (oS o)) (lift D n i (oSd o))).
Proof. intros H D n. unfold expand. rewrite !olist_ok by easy. cbn [bind]. rewrite map_map. cbn [fst]. easy. Qed.
Lemma mapM_combine_err {B X} (f : nat * B -> res X) e (l : list B) s k b :
  (forall x, (exists y, f x = Ok y) \/ f x = Err e) -> nth_error l k = Some b -> f (s + k, b) = Err e ->
  mapM f (combine (seq s (List.length l)) l) = Err e.
Proof.
  intros Hf. revert s k. induction l as [|c l IH]; intros s [|k] Hk E; try discriminate; cbn [nth_error] in Hk; cbn [List.length seq combine mapM].
  - injection Hk as ->. rewrite Nat.add_0_r in E. now rewrite E.
  - destruct (Hf (s, c)) as [[y Hy]|Hy]; rewrite Hy; [|easy]. cbn [bind]. rewrite (IH (S s) k); auto. now rewrite Nat.add_succ_l, <- Nat.add_succ_r.
Qed.
(** a node whose identity is missing makes every other node fail *)
Lemma expand_err il i k o : k < List.length il -> k <> i -> nth k il None = None -> expand il i o = Err TypeError.
Proof.
  intros Hk N E. unfold expand, olist, enumerate.
  rewrite (mapM_combine_err _ TypeError il 0 k None).
  - easy.
  - intros [a b]. cbn. destruct (Nat.eqb a i); [left; eauto|]. destruct b; [left; eauto | now right].
  - rewrite <- E. now apply nth_error_nth'.
  - cbn. destruct (Nat.eqb_spec k i); [easy|reflexivity].
Qed.

(** ** getExpandedOperatorsMap *)
Section Map.
  Variable gen : nat -> opdata -> res ops.
  Variables (nodes : list nat) (data : dict nat opdata).
  Definition selected (only : option (list nat)) (n : nat) : bool := match only with None => true | Some l => mem n l end.
  (** dimension of the operators generated for the k-th node *)
  Definition node_dim (k : nat) : nat :=
    match nth_error nodes k with
    | Some n => match dget data n with Some d => match gen n d with Ok o => o_dim o | Err _ => 0 end | None => 0 end
    | None => 0
    end.
  Definition ilist : list (option nat) := map (fun n => match dget data n with Some d => ident_dim d | None => None end) nodes.
  (** every node can be generated and expanded *)
  Definition usable : Prop := forall n, In n nodes -> exists d o, dget data n = Some d /\ gen n d = Ok o /\
    (List.length nodes = 1 \/ ident_dim d = Some (o_dim o)).
  Definition lifted (i : nat) (o : ops) : cops :=
    let n := List.length nodes in
    mkcops (map node_dim (seq 0 n)) (lift node_dim n i (oQ o)) (lift node_dim n i (oP o)) (lift node_dim n i (oD o))
      (lift node_dim n i (oDd o)) (lift node_dim n i (oS o)) (lift node_dim n i (oSd o)).
  Lemma ilist_len : List.length ilist = List.length nodes.
  Proof. apply map_length. Qed.
  Lemma nth_ilist i n : nth_error nodes i = Some n -> nth i ilist None = match dget data n with Some d => ident_dim d | None => None end.
  Proof. intros E. unfold ilist. apply nth_error_nth. now rewrite nth_error_map, E. Qed.
  Lemma lift_dims D D' n i A : (forall k, k < n -> D k = D' k) -> lift D n i A = lift D' n i A.
  Proof. intros H. unfold lift. f_equal. apply map_ext_in. intros k Hk. apply in_seq in Hk. rewrite H by lia. reflexivity. Qed.

  Section Usable.
  Hypothesis conf : usable.
  Lemma ilist_ok : mapM (fun n => match dget data n with Some d => Ok (ident_dim d) | None => Err KeyError end) nodes = Ok ilist.
  Proof. apply mapM_all_ok. intros n Hn. destruct (conf n Hn) as (d & o & E & _). now rewrite E. Qed.
  Lemma expand_node i n d o : nth_error nodes i = Some n -> dget data n = Some d -> gen n d = Ok o -> expand ilist i o = Ok (lifted i o).
  Proof.
    intros Hi Hd Ho. assert (Li : i < List.length nodes) by (apply nth_error_Some; congruence).
    assert (E : forall k, k < List.length nodes -> dimf ilist i (o_dim o) k = node_dim k /\ (k <> i -> nth k ilist None <> None)).
    { intros k Hk. unfold dimf, node_dim. destruct (Nat.eqb_spec k i) as [->|N]; [split; [now rewrite Hi, Hd, Ho | easy]|].
      destruct (nth_error nodes k) as [m|] eqn:Ek; [|apply nth_error_None in Ek; lia].
      destruct (conf m (nth_error_In _ _ Ek)) as (d' & o' & Hd' & Ho' & [H1|Hk']); [lia|]. unfold idim.
      rewrite (nth_ilist k m Ek), Hd', Hk', Ho'. easy. }
    rewrite expand_ok by (rewrite ilist_len; intros k Hk; now apply E). cbv zeta. rewrite ilist_len. unfold lifted. f_equal.
    rewrite !(lift_dims (dimf ilist i (o_dim o)) node_dim) by (intros; now apply E). f_equal.
    apply map_ext_in. intros k Hk. apply in_seq in Hk. now apply E.
  Qed.
  Lemma map_loop only rest s circ : (forall k n, nth_error rest k = Some n -> nth_error nodes (s + k) = Some n) -> NoDup rest ->
    exists circ', foldM (fun c x => let '(i, n) := x in
      if selected only n then
        match dget data n with
        | None => Err KeyError
        | Some d => bind (gen n d) (fun o => bind (expand ilist i o) (fun e => Ok (dset c n e)))
        end
      else Ok c) (combine (seq s (List.length rest)) rest) circ = Ok circ' /\
    (forall k n d o, nth_error rest k = Some n -> dget data n = Some d -> gen n d = Ok o ->
       selected only n = true -> dget circ' n = Some (lifted (s + k) o)) /\
    (forall n, ~ In n rest \/ selected only n = false -> dget circ' n = dget circ n).
  Proof.
    revert s circ. induction rest as [|n rest IH]; intros s circ Hr Hnd.
    - exists circ. cbn. repeat split; auto. now intros [|k].
    - inversion Hnd as [|? ? Hn Hnd']; subst. cbn [List.length seq combine foldM].
      pose proof (Hr 0 n eq_refl) as H0. rewrite Nat.add_0_r in H0.
      destruct (conf n (nth_error_In _ _ H0)) as (d & o & Hd & Ho & _).
      pose proof (expand_node s n d o H0 Hd Ho) as He. rewrite Hd, Ho. cbn [bind]. rewrite He. cbn [bind].
      assert (Hr' : forall k m, nth_error rest k = Some m -> nth_error nodes (S s + k) = Some m).
      { intros k m Hm. specialize (Hr (S k) m Hm). now rewrite Nat.add_succ_r in Hr. }
      destruct (selected only n) eqn:Eo.
      + destruct (IH (S s) (dset circ n (lifted s o)) Hr' Hnd') as (circ' & E1 & E2 & E3). exists circ'. split; [exact E1|]. split.
        * intros [|k] m d' o' Hm Hd' Ho' Em; cbn [nth_error] in Hm.
          -- injection Hm as <-. rewrite Nat.add_0_r. rewrite E3 by now left. rewrite dget_dset_eq. congruence.
          -- rewrite Nat.add_succ_r. now apply (E2 k m d').
        * intros m [Hm|Hm].
          -- rewrite E3 by (left; intros K; apply Hm; now right). rewrite dget_dset_neq; [easy|]. intros ->. apply Hm. now left.
          -- rewrite E3 by now right. rewrite dget_dset_neq; [easy|]. congruence.
      + destruct (IH (S s) circ Hr' Hnd') as (circ' & E1 & E2 & E3). exists circ'. split; [exact E1|]. split.
        * intros [|k] m d' o' Hm Hd' Ho' Em; cbn [nth_error] in Hm; [congruence|].
          rewrite Nat.add_succ_r. now apply (E2 k m d').
        * intros m [Hm|Hm]; apply E3; [left; intros K; apply Hm; now right | now right].
  Qed.
  Lemma map_ok only circ : NoDup nodes -> exists circ', getExpandedOperatorsMap gen nodes data only circ = Ok circ' /\
    (forall i n d o, nth_error nodes i = Some n -> dget data n = Some d -> gen n d = Ok o ->
       selected only n = true -> dget circ' n = Some (lifted i o)) /\
    (forall n, ~ In n nodes \/ selected only n = false -> dget circ' n = dget circ n).
  Proof.
    intros ND. unfold getExpandedOperatorsMap. rewrite ilist_ok. cbn [bind]. unfold enumerate.
    destruct (map_loop only nodes 0 circ) as (c & E1 & E2 & E3); [easy | easy |]. exists c. split; [exact E1|]. split; [|exact E3].
    intros i n d o H. now apply (E2 i n d o).
  Qed.
  End Usable.

  (** ** when it returns, the configuration is usable *)
  Lemma loop_ok_gen rest s circ circ' :
    foldM (fun c x => let '(i, n) := x in
      if selected None n then
        match dget data n with
        | None => Err KeyError
        | Some d => bind (gen n d) (fun o => bind (expand ilist i o) (fun e => Ok (dset c n e)))
        end
      else Ok c) (combine (seq s (List.length rest)) rest) circ = Ok circ' ->
    forall k n, nth_error rest k = Some n -> exists d o e, dget data n = Some d /\ gen n d = Ok o /\ expand ilist (s + k) o = Ok e.
  Proof.
    revert s circ. induction rest as [|m rest IH]; intros s circ H k n Hk; [destruct k; discriminate|].
    cbn [List.length seq combine foldM selected] in H. destruct (dget data m) as [d|] eqn:Ed; [|discriminate].
    destruct (gen m d) as [o|] eqn:Eg; [|discriminate]. cbn [bind] in H. destruct (expand ilist s o) as [e|] eqn:Ee; [|discriminate]. cbn [bind] in H.
    destruct k as [|k]; cbn [nth_error] in Hk.
    - injection Hk as <-. rewrite Nat.add_0_r. eauto 7.
    - rewrite Nat.add_succ_r. now apply (IH (S s) _ H k n).
  Qed.
  Hypothesis gen_dim : forall n d o k, gen n d = Ok o -> ident_dim d = Some k -> o_dim o = k.
  Lemma map_usable circ circ' : getExpandedOperatorsMap gen nodes data None circ = Ok circ' -> usable.
  Proof.
    unfold getExpandedOperatorsMap. destruct (mapM _ nodes) as [il|] eqn:Em; [|discriminate]. cbn [bind]. intros H.
    assert (Hil : il = ilist).
    { assert (E : mapM (fun n => match dget data n with Some d => Ok (ident_dim d) | None => Err KeyError end) nodes = Ok ilist).
      { apply mapM_all_ok. intros n Hn. apply In_nth_error in Hn as [i Hi]. destruct (mapM_nth _ _ _ _ _ Em Hi) as (y & _ & Hy).
        now destruct (dget data n). }
      congruence. }
    subst il. pose proof (loop_ok_gen nodes 0 circ circ' H) as L. intros n Hn. apply In_nth_error in Hn as [i Hi].
    destruct (L i n Hi) as (d & o & e & Hd & Ho & He). exists d, o. repeat split; auto.
    destruct (Nat.eq_dec (List.length nodes) 1) as [E1|N1]; [now left|]. right.
    assert (Li : i < List.length nodes) by (apply nth_error_Some; congruence).
    destruct (ident_dim d) as [k|] eqn:Ek; [f_equal; symmetry; now apply (gen_dim n d)|]. exfalso.
    set (j := if Nat.eqb i 0 then 1 else 0). assert (Nj : j <> i /\ j < List.length nodes) by (unfold j; destruct (Nat.eqb_spec i 0); lia).
    destruct (nth_error nodes j) as [m|] eqn:Ej; [|apply nth_error_None in Ej; lia].
    destruct (L j m Ej) as (d' & o' & e' & _ & _ & He'). cbn [Nat.add] in He'.
    rewrite (expand_err ilist j i o') in He'; [discriminate | now rewrite ilist_len | lia |].
    now rewrite (nth_ilist i n Hi), Hd, Ek.
  Qed.
End Map.

(** ** the Hilbert space size (C54) *)
Lemma gen_dim_list eigh inv z ka kb pmax chg flx n d o k :
  getOperatorList eigh inv z ka kb pmax chg flx n d = Ok o -> ident_dim d = Some k -> o_dim o = k.
Proof. unfold getOperatorList, ident_dim. destruct (od_basis d); intros H K; try discriminate; injection H as <-; injection K as <-; reflexivity. Qed.
Definition cmd := (nat * (nat * basis_kind))%type.
Definition configure_all (nodes : list nat) (l : list cmd) : dict nat opdata :=
  fold_left (fun d c => fst (configureOperator nodes d (fst c) (fst (snd c)) (snd (snd c)))) l [].
Lemma configure_inv nodes l : let data := configure_all nodes l in NoDup (dkeys data) /\ forall n, In n (dkeys data) -> In n nodes.
Proof.
  unfold configure_all. cbv zeta.
  assert (H0 : NoDup (dkeys (@nil (nat * opdata))) /\ forall n, In n (dkeys (@nil (nat * opdata))) -> In n nodes) by (split; [constructor | easy]).
  revert H0. generalize (@nil (nat * opdata)). induction l as [|c l IH]; intros d [H1 H2]; cbn [fold_left]; [easy|].
  apply IH. unfold configureOperator. destruct (mem (fst c) nodes) eqn:E; cbn [fst]; [|easy]. split; [now apply NoDup_dset|].
  intros n Hn. apply In_dkeys_dset in Hn as [->|Hn]; [now apply mem_In | auto].
Qed.
Definition plain_dim (d : opdata) : nat := match ident_dim d with Some k => k | None => 1 end.
Lemma size_fold data r : fold_left (fun r kv => match od_basis (snd kv) with BCharge => r * (2 * od_trunc (snd kv) + 1) | BOscillator => r * od_trunc (snd kv) | _ => r end) data r
  = r * prodn (map (fun kv : nat * opdata => plain_dim (snd kv)) data).
Proof.
  revert r. induction data as [|[k [t b]] data IH]; intros r; cbn [fold_left map prodn fold_right]; [lia|].
  rewrite IH. unfold plain_dim, ident_dim. cbn [snd od_basis od_trunc]. unfold prodn. destruct b; lia.
Qed.
Lemma prodn_perm l l' : Permutation.Permutation l l' -> prodn l = prodn l'.
Proof. induction 1; cbn [prodn fold_right]; unfold prodn in *; lia. Qed.
Lemma size_nodes (data : dict nat opdata) nodes : NoDup nodes -> NoDup (dkeys data) -> (forall n, In n nodes <-> In n (dkeys data)) ->
  getHilbertSpaceSize data = prodn (map (fun n => match dget data n with Some d => plain_dim d | None => 0 end) nodes).
Proof.
  intros H1 H2 H3. unfold getHilbertSpaceSize. rewrite size_fold, Nat.mul_1_l.
  assert (P : Permutation.Permutation nodes (dkeys data)) by (apply Permutation.NoDup_Permutation; auto).
  rewrite (prodn_perm _ _ (Permutation.Permutation_map _ P)). f_equal. unfold dkeys. rewrite map_map. apply map_ext_in. intros [k d] Hk. cbn [fst snd].
  now rewrite (In_dget data k d H2 Hk).
Qed.
