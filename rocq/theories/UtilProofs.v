(** Proofs about Util.v: bit strings, cyclic sequences, products, shift
    tables and sanitising. *)
From Coq Require Import List Bool String Ascii ZArith Reals SpecFloat Lia Lra Ring Permutation.
From Flocq Require Import Core.Core.
From Verif Require Import Prelude PreludeFacts Float FloatFacts Mat MatFacts Sweep SweepProofs SweepResultProofs Util.
Import ListNotations.
Open Scope list_scope.
Open Scope nat_scope.

(** ** Vocabulary *)
Definition is_bit (c : ascii) : Prop := c = "0"%char \/ c = "1"%char.
Fixpoint hamming (a b : list ascii) : nat :=
  match a, b with
  | x :: a, y :: b => (if Ascii.eqb x y then 0 else 1) + hamming a b
  | _, _ => 0
  end.
(** [a] and [b] have the same length and differ at position [i] and nowhere else *)
Definition differ_only_at (i : nat) (a b : list ascii) : Prop :=
  List.length a = List.length b /\ i < List.length a /\ nth_error a i <> nth_error b i /\
  forall j, j <> i -> nth_error a j = nth_error b j.
Definition is_digit (c : ascii) : Prop := 48 <= nat_of_ascii c <= 57.

Lemma nth_error_ext {X} (a : list X) : forall b, (forall i, nth_error a i = nth_error b i) -> a = b.
Proof.
  induction a as [|x a IH]; intros [|y b] H; [easy|specialize (H 0); discriminate|specialize (H 0); discriminate|].
  f_equal; [specialize (H 0); now injection H|]. apply IH. intros i. apply (H (S i)).
Qed.

(** ** getNeighbours *)
Lemma mapM_all_ok {A B} (f : A -> res B) (g : A -> B) l : (forall x, In x l -> f x = Ok (g x)) -> mapM f l = Ok (map g l).
Proof.
  induction l as [|x l IH]; intros H; cbn; [easy|].
  rewrite (H x (or_introl eq_refl)). cbn. rewrite IH; [easy|]. intros; apply H; now right.
Qed.
Lemma mapM_err {A B} (f : A -> res B) e l : (forall x, In x l -> (exists y, f x = Ok y) \/ f x = Err e) ->
  (exists x, In x l /\ f x = Err e) -> mapM f l = Err e.
Proof.
  induction l as [|x l IH]; intros H [y [Hy E]]; [easy|]. cbn.
  destruct (H x (or_introl eq_refl)) as [[z Z]|Z]; rewrite Z; cbn; [|easy].
  rewrite IH; [easy| |]. { intros; apply H; now right. }
  destruct Hy as [->|Hy]; [congruence|]. eauto.
Qed.

Definition flipb (c : ascii) : ascii := if Ascii.eqb c "0" then "1"%char else "0"%char.
Definition flip_at (i : nat) (l : list ascii) : list ascii :=
  map (fun j => if Nat.eqb i j then flipb (nth j l "0"%char) else nth j l "0"%char) (seq 0 (List.length l)).

Lemma flip_char_bit c : is_bit c -> flip_char c = Ok (flipb c).
Proof. intros [-> | ->]; reflexivity. Qed.
Lemma neighbour_ok l i : Forall is_bit l -> neighbour l i = Ok (flip_at i l).
Proof.
  intros H. unfold neighbour, flip_at. apply mapM_all_ok. intros j Hj. apply in_seq in Hj.
  destruct (Nat.eqb i j); [|easy]. apply flip_char_bit.
  rewrite Forall_forall in H. apply H, nth_In. lia.
Qed.
Lemma flip_at_length i l : List.length (flip_at i l) = List.length l.
Proof. unfold flip_at. now rewrite map_length, seq_length. Qed.
Lemma flip_at_nth i l j : j < List.length l ->
  nth_error (flip_at i l) j = Some (if Nat.eqb i j then flipb (nth j l "0"%char) else nth j l "0"%char).
Proof.
  intros H. unfold flip_at. apply map_nth_error with (f := fun j => if Nat.eqb i j then flipb (nth j l "0"%char) else nth j l "0"%char).
  rewrite nth_error_nth' with (d := 0) by (rewrite seq_length; lia). now rewrite seq_nth.
Qed.
Lemma flipb_neq c : flipb c <> c.
Proof. unfold flipb. destruct (Ascii.eqb c "0") eqn:E; [apply Ascii.eqb_eq in E; now subst|]. intros <-. discriminate. Qed.
Lemma flip_at_differ i l : i < List.length l -> differ_only_at i l (flip_at i l).
Proof.
  intros H. repeat split; rewrite ?flip_at_length; auto.
  - rewrite flip_at_nth, Nat.eqb_refl by auto. rewrite nth_error_nth' with (d := "0"%char) by auto.
    intros [= E]. symmetry in E. now apply flipb_neq in E.
  - intros j Hj. destruct (Nat.lt_ge_cases j (List.length l)) as [L|L].
    + rewrite flip_at_nth by auto. replace (Nat.eqb i j) with false by (symmetry; apply Nat.eqb_neq; lia).
      now apply nth_error_nth'.
    + rewrite (proj2 (nth_error_None l j)) by lia. symmetry. apply nth_error_None. rewrite flip_at_length. lia.
Qed.
Lemma flip_at_bits i l : Forall is_bit l -> Forall is_bit (flip_at i l).
Proof.
  intros H. apply Forall_forall. intros c Hc. unfold flip_at in Hc. apply in_map_iff in Hc as [j [<- Hj]]. apply in_seq in Hj.
  assert (B : is_bit (nth j l "0"%char)) by (rewrite Forall_forall in H; apply H, nth_In; lia).
  destruct (Nat.eqb i j); [|easy]. destruct B as [-> | ->]; [right|left]; reflexivity.
Qed.

Lemma hamming_0 a : forall b, List.length a = List.length b -> hamming a b = 0 -> a = b.
Proof.
  induction a as [|x a IH]; intros [|y b] L H; try discriminate; [easy|]. cbn in H.
  destruct (Ascii.eqb x y) eqn:E; [|discriminate]. apply Ascii.eqb_eq in E as ->. f_equal. apply IH; [now injection L|easy].
Qed.
Lemma hamming_refl a : hamming a a = 0.
Proof. induction a as [|x a IH]; [easy|]. cbn. now rewrite Ascii.eqb_refl. Qed.
Lemma hamming_1 a : forall b, List.length a = List.length b -> (hamming a b = 1 <-> exists i, differ_only_at i a b).
Proof.
  induction a as [|x a IH]; intros [|y b] L; try discriminate; cbn [hamming].
  { split; [discriminate|]. intros [i [_ [H _]]]. cbn in H. lia. }
  injection L as L. destruct (Ascii.eqb x y) eqn:E.
  - apply Ascii.eqb_eq in E as ->. cbn. rewrite IH by auto. split.
    + intros [i [_ [H1 [H2 H3]]]]. exists (S i). repeat split; cbn; [lia|lia|auto|].
      intros [|j] Hj; [easy|]. cbn. apply H3. lia.
    + intros [[|i] [_ [H1 [H2 H3]]]]; [now cbn in H2|]. exists i. cbn in *. repeat split; [auto|lia|auto|].
      intros j Hj. apply (H3 (S j)). lia.
  - apply Ascii.eqb_neq in E. split.
    + intros H. assert (a = b) as -> by (apply hamming_0; [auto|lia]). exists 0. repeat split; cbn; [lia|congruence|].
      intros [|j] Hj; [easy|]. reflexivity.
    + intros [[|i] [_ [H1 [H2 H3]]]].
      * assert (a = b) as ->. { clear - H3. apply nth_error_ext. intros j. apply (H3 (S j)). lia. } now rewrite hamming_refl.
      * specialize (H3 0 ltac:(lia)). cbn in H3. congruence.
Qed.
Lemma differ_bits_unique i a b b' : Forall is_bit a -> Forall is_bit b -> Forall is_bit b' ->
  differ_only_at i a b -> differ_only_at i a b' -> b = b'.
Proof.
  intros Ha Hb Hb' [L [I [D S]]] [L' [_ [D' S']]]. apply nth_error_ext. intros j.
  destruct (Nat.eq_dec j i) as [->|N]; [|rewrite <- S, <- S'; auto].
  destruct (nth_error a i) as [x|] eqn:Ex; [|apply nth_error_None in Ex; lia].
  destruct (nth_error b i) as [y|] eqn:Ey; [|apply nth_error_None in Ey; lia].
  destruct (nth_error b' i) as [z|] eqn:Ez; [|apply nth_error_None in Ez; lia].
  apply nth_error_In in Ex, Ey, Ez. rewrite Forall_forall in Ha, Hb, Hb'.
  destruct (Ha _ Ex), (Hb _ Ey), (Hb' _ Ez); subst; congruence.
Qed.

Lemma getNeighbours_C67 : forall bits, Forall is_bit bits ->
  exists l, getNeighbours bits 1 = Ok l /\ List.length l = List.length bits /\ NoDup l /\
    (forall i s, nth_error l i = Some s -> differ_only_at i bits s) /\
    (forall s, In s l <-> List.length s = List.length bits /\ Forall is_bit s /\ hamming bits s = 1).
Proof.
  intros bits B. exists (map (fun i => flip_at i bits) (seq 0 (List.length bits))).
  assert (N : forall i s, nth_error (map (fun i => flip_at i bits) (seq 0 (List.length bits))) i = Some s ->
              i < List.length bits /\ s = flip_at i bits).
  { intros i s H. rewrite nth_error_map in H. destruct (nth_error (seq 0 (List.length bits)) i) as [k|] eqn:E; [|discriminate].
    assert (i < List.length bits) by (rewrite <- (seq_length (List.length bits) 0); apply nth_error_Some; congruence).
    rewrite nth_error_nth' with (d := 0) in E by (rewrite seq_length; lia). rewrite seq_nth in E by auto.
    injection E as <-. injection H as <-. auto. }
  split; [|split; [|split; [|split]]].
  - unfold getNeighbours. cbn. apply mapM_all_ok. intros; now apply neighbour_ok.
  - now rewrite map_length, seq_length.
  - apply NoDup_nth_error. intros i j Hi E. rewrite map_length, seq_length in Hi.
    destruct (nth_error (map _ _) i) as [s|] eqn:Ei; [|apply nth_error_None in Ei; rewrite map_length, seq_length in Ei; lia].
    symmetry in E. apply N in Ei as [_ Ei], E as [Lj Ej]. subst s.
    destruct (Nat.eq_dec i j) as [->|D]; [easy|]. exfalso.
    destruct (flip_at_differ j bits Lj) as [_ [_ [X _]]]. destruct (flip_at_differ i bits Hi) as [_ [_ [_ Y]]].
    apply X. rewrite <- Ej. apply Y. lia.
  - intros i s H. apply N in H as [L ->]. now apply flip_at_differ.
  - intros s. rewrite in_map_iff. split.
    + intros [i [<- Hi]]. apply in_seq in Hi. repeat split; [apply flip_at_length|now apply flip_at_bits|].
      apply hamming_1; [now rewrite flip_at_length|]. exists i. apply flip_at_differ. lia.
    + intros [L [Bs H]]. apply hamming_1 in H as [i D]; [|auto]. assert (I : i < List.length bits) by apply D.
      exists i. split; [|apply in_seq; lia].
      eapply differ_bits_unique; [| | |apply flip_at_differ; apply D|exact D]; auto. now apply flip_at_bits.
Qed.

Lemma digit_flip c : is_digit c -> exists y, flip_char c = Ok y.
Proof.
  intros [A B]. unfold flip_char, int_of_char. destruct (_ && _) eqn:E; [cbn; eauto|].
  apply andb_false_iff in E as [E|E]; apply Z.leb_gt in E; lia.
Qed.
Lemma nondigit_flip c : ~ is_digit c -> flip_char c = Err ValueError.
Proof.
  intros H. unfold flip_char, int_of_char. destruct (_ && _) eqn:E; [|easy].
  apply andb_true_iff in E as [E1 E2]. apply Z.leb_le in E1, E2. exfalso. apply H. unfold is_digit. lia.
Qed.
Lemma flip_char_cases c : (exists y, flip_char c = Ok y) \/ flip_char c = Err ValueError.
Proof. unfold flip_char, int_of_char. destruct (_ && _); cbn; eauto. Qed.
Lemma neighbour_cases l i : (exists y, neighbour l i = Ok y) \/ neighbour l i = Err ValueError.
Proof.
  unfold neighbour. generalize (seq 0 (List.length l)). intros js. induction js as [|j js IH]; cbn; [eauto|].
  destruct (Nat.eqb i j).
  - destruct (flip_char_cases (nth j l "0"%char)) as [[y ->]| ->]; cbn; [|eauto].
    destruct IH as [[r ->]| ->]; cbn; eauto.
  - cbn. destruct IH as [[r ->]| ->]; cbn; eauto.
Qed.
Lemma getNeighbours_nondigit : forall bits c, In c bits -> ~ is_digit c -> getNeighbours bits 1 = Err ValueError.
Proof.
  intros bits c H D. unfold getNeighbours. cbn. apply mapM_err; [intros; apply neighbour_cases|].
  apply In_nth with (d := "0"%char) in H as [i [L E]]. exists i. split; [apply in_seq; lia|].
  unfold neighbour. apply mapM_err.
  - intros j _. destruct (Nat.eqb i j); [apply flip_char_cases|eauto].
  - exists i. split; [apply in_seq; lia|]. rewrite Nat.eqb_refl, E. now apply nondigit_flip.
Qed.

(** ** stateFromBitstring *)
Definition dotZ (u v : list Z) : Z := fold_right Z.add 0%Z (map (fun p => (fst p * snd p)%Z) (combine u v)).
Lemma dotZ_app u u' v v' : List.length u = List.length v -> dotZ (u ++ u') (v ++ v') = (dotZ u v + dotZ u' v')%Z.
Proof.
  revert v. induction u as [|x u IH]; intros [|y v] L; try discriminate; [easy|].
  injection L as L. specialize (IH v L). unfold dotZ in *. cbn [app combine map fold_right fst snd]. rewrite IH. lia.
Qed.
Lemma dotZ_scale x y u : forall v, dotZ (map (Z.mul x) u) (map (Z.mul y) v) = (x * y * dotZ u v)%Z.
Proof.
  induction u as [|a u IH]; intros [|b v]; unfold dotZ in *; cbn; try lia. rewrite IH. lia.
Qed.
Lemma kron_length u v : List.length (kron u v) = List.length u * List.length v.
Proof. unfold kron. induction u as [|x u IH]; [easy|]. cbn. rewrite app_length, map_length, IH. lia. Qed.
Lemma kron_dot u v : forall u' v', List.length u = List.length u' -> List.length v = List.length v' ->
  dotZ (kron u v) (kron u' v') = (dotZ u u' * dotZ v v')%Z.
Proof.
  induction u as [|x u IH]; intros [|x' u'] v' Lu Lv; try discriminate; [easy|].
  unfold kron in *. cbn [flat_map]. rewrite dotZ_app by (now rewrite !map_length).
  rewrite IH by (auto; now injection Lu). rewrite dotZ_scale.
  change (dotZ (x :: u) (x' :: u')) with (x * x' + dotZ u u')%Z. lia.
Qed.
Definition bdot (a b : ascii) : Z := if Bool.eqb (Ascii.eqb a "0") (Ascii.eqb b "0") then 1%Z else 0%Z.
Lemma ket_dot a b : dotZ (ket a) (ket b) = bdot a b.
Proof. unfold ket, bdot. destruct (Ascii.eqb a "0"), (Ascii.eqb b "0"); reflexivity. Qed.
Lemma ket_length a : List.length (ket a) = 2.
Proof. unfold ket. now destruct (Ascii.eqb a "0"). Qed.
Lemma fold_kron_length r : forall k, List.length (fold_left kron (map ket r) k) = List.length k * 2 ^ List.length r.
Proof. induction r as [|a r IH]; intros k; cbn -[Nat.pow]; [cbn; lia|]. rewrite IH, kron_length, ket_length. cbn. lia. Qed.
Fixpoint bprod (a b : list ascii) : Z := match a, b with x :: a, y :: b => (bdot x y * bprod a b)%Z | _, _ => 1%Z end.
Lemma fold_kron_dot r : forall r' k k', List.length r = List.length r' -> List.length k = List.length k' ->
  dotZ (fold_left kron (map ket r) k) (fold_left kron (map ket r') k') = (dotZ k k' * bprod r r')%Z.
Proof.
  induction r as [|a r IH]; intros [|a' r'] k k' L Lk; try discriminate; cbn [map fold_left bprod]; [lia|].
  rewrite IH; [|now injection L|rewrite !kron_length, !ket_length; lia].
  rewrite kron_dot, ket_dot by (rewrite ?ket_length; auto). lia.
Qed.
Lemma bprod_eq a : bprod a a = 1%Z.
Proof. induction a as [|x a IH]; [easy|]. cbn. rewrite IH. unfold bdot. now rewrite Bool.eqb_reflx. Qed.
Lemma bprod_neq a : forall b, Forall is_bit a -> Forall is_bit b -> List.length a = List.length b -> a <> b -> bprod a b = 0%Z.
Proof.
  induction a as [|x a IH]; intros [|y b] Ha Hb L N; try discriminate; [congruence|].
  inversion Ha as [|? ? Hx Ha']; inversion Hb as [|? ? Hy Hb']; subst. cbn.
  destruct (ascii_dec x y) as [->|D].
  - rewrite IH; auto; [lia|congruence].
  - assert (bdot x y = 0%Z) as ->; [|lia]. destruct Hx, Hy; subst; try congruence; reflexivity.
Qed.
(** entries are 0 or 1 *)
Lemma kron_01 u v : Forall (fun x => x = 0 \/ x = 1)%Z u -> Forall (fun x => x = 0 \/ x = 1)%Z v -> Forall (fun x => x = 0 \/ x = 1)%Z (kron u v).
Proof.
  intros Hu Hv. unfold kron. apply Forall_forall. intros x Hx. apply in_flat_map in Hx as [a [Ha Hx]].
  apply in_map_iff in Hx as [b [<- Hb]]. rewrite Forall_forall in Hu, Hv. destruct (Hu _ Ha) as [-> | ->], (Hv _ Hb) as [-> | ->]; lia.
Qed.
Lemma stateFromBitstring_C74 :
  (forall bits, bits <> [] -> exists v, stateFromBitstring bits = Ok v /\ List.length v = 2 ^ List.length bits /\
      Forall (fun x => x = 0 \/ x = 1)%Z v /\ dotZ v v = 1%Z) /\
  (forall bits bits' v v', Forall is_bit bits -> Forall is_bit bits' -> List.length bits = List.length bits' -> bits <> bits' ->
      stateFromBitstring bits = Ok v -> stateFromBitstring bits' = Ok v' -> dotZ v v' = 0%Z) /\
  stateFromBitstring [] = Err TypeError.
Proof.
  split; [|split; [|reflexivity]].
  - intros [|b r] N; [congruence|]. exists (fold_left kron (map ket r) (ket b)). repeat split.
    + rewrite fold_kron_length, ket_length. reflexivity.
    + assert (K : forall a, Forall (fun x => x = 0 \/ x = 1)%Z (ket a)).
      { intros a. unfold ket. destruct (Ascii.eqb a "0"); repeat (apply Forall_cons; [lia|]); constructor. }
      clear N. generalize (K b). generalize (ket b). induction r as [|a r IH]; intros k Hk; [easy|]. cbn. apply IH. now apply kron_01.
    + rewrite fold_kron_dot, ket_dot, bprod_eq by auto. unfold bdot. now rewrite Bool.eqb_reflx.
  - intros [|b r] [|b' r'] v v' H H' L N E E'; try discriminate.
    injection E as <-. injection E' as <-. rewrite fold_kron_dot; [|now injection L|now rewrite !ket_length].
    rewrite ket_dot. change (bprod (b :: r) (b' :: r') = 0%Z). now apply bprod_neq.
Qed.

(** ** mdot *)
Section Mdot.
  Context {A : rng}.
  Add Ring Aring : (krt A).
  (** a matrix with its numbers of rows and columns *)
  Record mat := mkmat { rows : nat; cols : nat; ent : nat -> nat -> A }.
  Definition nd_of (m : mat) : nd A := ND2 (rows m) (cols m) (ent m).
  Fixpoint compatible (m : mat) (r : list mat) : Prop :=
    match r with [] => True | x :: r => cols m = rows x /\ compatible x r end.
  (** ((A1 A2) A3) ... *)
  Definition left_product (m : mat) (r : list mat) : mat :=
    fold_left (fun acc x => mkmat (rows acc) (cols x) (mmul (cols acc) (ent acc) (ent x))) r m.

  Lemma left_product_shape r : forall m, rows (left_product m r) = rows m /\ cols (left_product m r) = cols (last r m).
  Proof.
    unfold left_product. induction r as [|x r IH]; intros m; [easy|]. cbn [fold_left].
    destruct (IH (mkmat (rows m) (cols x) (mmul (cols m) (ent m) (ent x)))) as [-> ->]. cbn [rows]. split; [easy|].
    destruct r as [|y r]; [easy|]. cbn [last]. clear. revert y. induction r as [|z r IH]; intros y; [easy|]. apply IH.
  Qed.
  (** right fold *)
  Fixpoint right_product (m : mat) (r : list mat) : mat :=
    match r with
    | [] => m
    | x :: r => let p := right_product x r in mkmat (rows m) (cols p) (mmul (cols m) (ent m) (ent p))
    end.
  Lemma right_rows m r : rows (right_product m r) = rows m.
  Proof. now destruct r. Qed.
  Lemma right_cols r : forall m, cols (right_product m r) = cols (last r m).
  Proof.
    induction r as [|x r IH]; intros m; [easy|]. cbn [right_product cols]. rewrite IH. destruct r as [|y r]; [easy|].
    cbn [last]. clear. revert y. induction r as [|z r IH]; intros y; [easy|]. apply IH.
  Qed.
  Lemma left_right r : forall m x, compatible m (x :: r) -> forall i j,
    ent (left_product m (x :: r)) i j = mmul (cols m) (ent m) (ent (right_product x r)) i j.
  Proof.
    induction r as [|y r IH]; intros m x [C1 C2] i j; [reflexivity|].
    change (left_product m (x :: y :: r)) with (left_product (mkmat (rows m) (cols x) (mmul (cols m) (ent m) (ent x))) (y :: r)).
    destruct C2 as [C2 C3]. rewrite IH by (split; auto). cbn [cols ent right_product]. apply mmul_assoc.
  Qed.
  (** the loop works on the arguments from the last to the first *)
  Lemma mdot_loop_app r1 : forall r2 acc, mdot_loop (r1 ++ r2) acc = bind (mdot_loop (A := A) r1 acc) (mdot_loop r2).
  Proof. induction r1 as [|a r1 IH]; intros r2 acc; [easy|]. cbn. destruct (npdot a acc); cbn; auto. Qed.
  Lemma mdot_loop_right r : forall m x, compatible m (x :: r) ->
    mdot_loop (rev (map nd_of (m :: removelast (x :: r)))) (nd_of (last (x :: r) x)) = Ok (nd_of (right_product m (x :: r))).
  Proof.
    induction r as [|y r IH]; intros m x [C1 C2].
    - cbn. rewrite C1, Nat.eqb_refl. cbn. reflexivity.
    - specialize (IH x y C2). change (removelast (x :: y :: r)) with (x :: removelast (y :: r)).
      change (last (x :: y :: r) x) with (last (y :: r) x).
      replace (last (y :: r) x) with (last (y :: r) y) by (clear; revert y; induction r as [|z r IH]; intros y; [easy|]; cbn [last] in *; destruct r; auto; apply (IH z)).
      cbn [map rev]. change (nd_of x :: map nd_of (removelast (y :: r))) with (map nd_of (x :: removelast (y :: r))).
      change (rev (map nd_of (removelast (y :: r))) ++ [nd_of x]) with (rev (map nd_of (x :: removelast (y :: r)))).
      rewrite mdot_loop_app, IH. cbn [bind mdot_loop npdot nd_of]. rewrite right_rows, (proj2 (Nat.eqb_eq _ _) C1). reflexivity.
  Qed.
  Lemma rev_args {X} (m x : X) r : rev (m :: x :: r) = last (x :: r) x :: rev (m :: removelast (x :: r)).
  Proof.
    change (m :: x :: r) with ([m] ++ (x :: r)). rewrite (app_removelast_last x (l := x :: r)) at 1 by discriminate.
    rewrite !rev_app_distr. reflexivity.
  Qed.
  Lemma mdot_unfold (m x : nd A) r : mdot (m :: x :: r) = mdot_loop (rev (m :: removelast (x :: r))) (last (x :: r) x).
  Proof.
    unfold mdot. rewrite rev_args. destruct (rev (m :: removelast (x :: r))) as [|y l] eqn:E; [|easy].
    apply (f_equal (@List.length _)) in E. rewrite rev_length in E. discriminate.
  Qed.
  Lemma map_last {X Y} (f : X -> Y) l d : last (map f l) (f d) = f (last l d).
  Proof. induction l as [|x [|y l] IH]; auto. Qed.
  Lemma map_removelast {X Y} (f : X -> Y) l : removelast (map f l) = map f (removelast l).
  Proof. induction l as [|x [|y l] IH]; auto. cbn in *. now rewrite IH. Qed.
  Lemma mdot_C70 : forall m x r, compatible m (x :: r) ->
    exists f, mdot (map nd_of (m :: x :: r)) = Ok (ND2 (rows m) (cols (last (x :: r) x)) f) /\
      forall i j, f i j = ent (left_product m (x :: r)) i j.
  Proof.
    intros m x r C. exists (ent (right_product m (x :: r))). split.
    - cbn [map]. rewrite mdot_unfold. change (nd_of x :: map nd_of r) with (map nd_of (x :: r)).
      rewrite map_last, map_removelast, <- map_cons, mdot_loop_right by auto. unfold nd_of. rewrite right_rows, right_cols.
      cbn [last]. destruct r; [easy|]. do 2 f_equal. clear. revert m0. induction r as [|z r IH]; intros y; [easy|]. apply IH.
    - intros i j. now rewrite left_right by auto.
  Qed.
  Lemma mdot_loop_err r : forall m x, ~ compatible m (x :: r) ->
    mdot_loop (rev (map nd_of (m :: removelast (x :: r)))) (nd_of (last (x :: r) x)) = Err ValueError.
  Proof.
    induction r as [|y r IH]; intros m x NC.
    - cbn. destruct (Nat.eqb (cols m) (rows x)) eqn:E; [|easy]. apply Nat.eqb_eq in E. exfalso. apply NC. now split.
    - change (removelast (x :: y :: r)) with (x :: removelast (y :: r)).
      change (last (x :: y :: r) x) with (last (y :: r) x).
      replace (last (y :: r) x) with (last (y :: r) y) by (clear; revert y; induction r as [|z r IH]; intros y; [easy|]; cbn [last] in *; destruct r; auto; apply (IH z)).
      cbn [map rev]. change (rev (map nd_of (removelast (y :: r))) ++ [nd_of x]) with (rev (map nd_of (x :: removelast (y :: r)))).
      rewrite mdot_loop_app.
      assert (D : compatible x (y :: r) \/ ~ compatible x (y :: r)).
      { clear. revert x y. induction r as [|z r IH]; intros x y; cbn; [destruct (Nat.eq_dec (cols x) (rows y)); tauto|].
        destruct (Nat.eq_dec (cols x) (rows y)), (IH y z); cbn in *; tauto. }
      destruct D as [D|D]; [|now rewrite IH].
      rewrite mdot_loop_right by auto. cbn [bind mdot_loop npdot nd_of]. rewrite right_rows.
      destruct (Nat.eqb (cols m) (rows x)) eqn:E; [|easy]. apply Nat.eqb_eq in E. exfalso. apply NC. now split.
  Qed.
  Lemma mdot_mismatch : forall m x r, ~ compatible m (x :: r) -> mdot (map nd_of (m :: x :: r)) = Err ValueError.
  Proof.
    intros m x r C. cbn [map]. rewrite mdot_unfold. change (nd_of x :: map nd_of r) with (map nd_of (x :: r)).
    now rewrite map_last, map_removelast, <- map_cons, mdot_loop_err.
  Qed.
  Lemma mdot_one : forall m, mdot [nd_of m] = Ok (ND0 k0).
  Proof. reflexivity. Qed.
End Mdot.
Arguments mat A : clear implicits.

(** ** shift tables *)
Section Shift.
  Context {A : rng} (levels cols : nat) (E : nat -> nat -> A).
  Lemma table_ok rows n f (g : nat -> nat -> A) : (forall q k, q < rows -> k < n -> f q k = Ok (g q k)) ->
    table rows n f = Ok (map (fun q => map (g q) (seq 0 n)) (seq 0 rows)).
  Proof.
    intros H. apply mapM_all_ok. intros q Hq. apply in_seq in Hq. apply mapM_all_ok. intros k Hk. apply in_seq in Hk. apply H; lia.
  Qed.
  Lemma at2_in i j : i < levels -> j < cols -> at2 (ND2 levels cols E) i j = Ok (E i j).
  Proof. intros H1 H2. unfold at2. apply Nat.ltb_lt in H1, H2. now rewrite H1, H2. Qed.
  (** entry (q, n) of a table given as list of rows *)
  Definition entry (t : list (list A)) (q n : nat) : option A :=
    match nth_error t q with Some r => nth_error r n | None => None end.
  Definition shaped (r c : nat) (t : list (list A)) : Prop := List.length t = r /\ Forall (fun x => List.length x = c) t.
  Lemma entry_map rows n (g : nat -> nat -> A) q k : q < rows -> k < n ->
    entry (map (fun q => map (g q) (seq 0 n)) (seq 0 rows)) q k = Some (g q k).
  Proof.
    intros Hq Hk. unfold entry. rewrite nth_error_map, nth_error_nth' with (d := 0) by (rewrite seq_length; lia).
    rewrite seq_nth by auto. cbn. rewrite nth_error_map, nth_error_nth' with (d := 0) by (rewrite seq_length; lia).
    now rewrite seq_nth.
  Qed.
  Lemma shaped_map rows n (g : nat -> nat -> A) : shaped rows n (map (fun q => map (g q) (seq 0 n)) (seq 0 rows)).
  Proof.
    split; [now rewrite map_length, seq_length|]. apply Forall_forall. intros x H. apply in_map_iff in H as [q [<- _]].
    now rewrite map_length, seq_length.
  Qed.
  Lemma shifts_C73 : levels <= cols ->
    (exists t, getACStarkShift levels cols E = Ok (seq 0 (cols - levels), t) /\ shaped (levels - 1) (cols - levels) t /\
       forall q n, q < levels - 1 -> n < cols - levels -> entry t q n = Some (ksub (E (q + 1) (n + q + 1)) (E 0 n))) /\
    (exists t, getCircuitLambShift levels cols E = Ok t /\ List.length t = levels /\
       forall q, q < levels -> nth_error t q = Some (E q q)) /\
    (exists t, getResonatorShift levels cols E = Ok t /\ shaped (levels - 1) (cols - levels) t /\
       forall q n, q < levels - 1 -> n < cols - levels -> entry t q n = Some (ksub (E q (n + q + 1)) (E q (n + q)))).
  Proof.
    intros L. split; [|split].
    - eexists. split; [|split]; cycle 1.
      + apply shaped_map.
      + intros q n Hq Hn. apply (entry_map _ _ (fun q n => ksub (E (q + 1) (n + q + 1)) (E 0 n))); auto.
      + unfold getACStarkShift. rewrite (table_ok _ _ _ (fun q n => ksub (E (q + 1) (n + q + 1)) (E 0 n))); [reflexivity|].
        intros q k Hq Hk. rewrite !at2_in by lia. reflexivity.
    - exists (map (fun i => E i i) (seq 0 levels)). split; [|split].
      + apply mapM_all_ok. intros i Hi. apply in_seq in Hi. apply at2_in; lia.
      + now rewrite map_length, seq_length.
      + intros q Hq. rewrite nth_error_map, nth_error_nth' with (d := 0) by (rewrite seq_length; lia). now rewrite seq_nth.
    - eexists. split; [|split]; cycle 1.
      + apply shaped_map.
      + intros q n Hq Hn. apply (entry_map _ _ (fun q n => ksub (E q (n + q + 1)) (E q (n + q)))); auto.
      + unfold getResonatorShift. apply table_ok. intros q k Hq Hk. rewrite !at2_in by lia. reflexivity.
  Qed.
  Lemma lamb_narrow : cols < levels -> getCircuitLambShift levels cols E = Err IndexError.
  Proof.
    intros L. apply mapM_err.
    - intros i _. unfold at2. destruct (_ && _); eauto.
    - exists cols. split; [apply in_seq; lia|]. unfold at2. rewrite Nat.ltb_irrefl, andb_false_r. reflexivity.
  Qed.
End Shift.

(** ** cyclic sequences *)
Definition kmod (M : nat) (k : Z) : nat := Z.to_nat (k mod Z.of_nat M).
Lemma shifts_in M k : In k (shifts M) <-> (k <> 0 /\ - Z.of_nat M < k < Z.of_nat M)%Z.
Proof.
  unfold shifts. rewrite in_app_iff, !in_map_iff. split.
  - intros [[a [<- H]]|[a [<- H]]]; [apply in_rev in H|]; apply in_seq in H; lia.
  - intros [N H]. destruct (Z.lt_ge_cases k 0).
    + left. exists (Z.to_nat (- k)). split; [lia|]. apply -> in_rev. apply in_seq. lia.
    + right. exists (Z.to_nat k). split; [lia|]. apply in_seq. lia.
Qed.
Lemma kmod_shift M k : In k (shifts M) -> (0 < k /\ kmod M k = Z.to_nat k \/ k < 0 /\ kmod M k = Z.to_nat (k + Z.of_nat M))%Z.
Proof.
  intros H. apply shifts_in in H as [N H]. unfold kmod. destruct (Z.lt_ge_cases k 0).
  - right. split; [easy|]. f_equal. symmetry. apply Z.mod_unique with (q := (-1)%Z); lia.
  - left. split; [lia|]. f_equal. apply Z.mod_small. lia.
Qed.
Lemma combine_app {X Y} (a a' : list X) (b b' : list Y) : List.length a = List.length b ->
  combine (a ++ a') (b ++ b') = combine a b ++ combine a' b'.
Proof. revert b. induction a as [|x a IH]; intros [|y b] L; try discriminate; [easy|]. cbn. f_equal. apply IH. now injection L. Qed.
Lemma kij_pairs M k v : In (k, v) (combine (shifts M) (seq 1 (M - 1) ++ seq 1 (M - 1))) -> v = kmod M k.
Proof.
  unfold shifts. rewrite combine_app by (now rewrite map_length, rev_length, !seq_length). rewrite in_app_iff.
  assert (S0 : forall i, i < M - 1 -> nth i (seq 1 (M - 1)) 0 = 1 + i) by (intros; apply seq_nth; lia).
  intros [H|H]; apply In_nth with (d := (0%Z, 0)) in H as [i [L E]];
    rewrite combine_length, map_length, ?rev_length, seq_length, Nat.min_id in L;
    rewrite combine_nth in E by (now rewrite map_length, ?rev_length, seq_length);
    injection E as <- <-; rewrite S0 by auto.
  - change 0%Z with (- Z.of_nat 0)%Z. rewrite (map_nth (fun a => - Z.of_nat a)%Z). rewrite rev_nth, seq_length, S0 by (rewrite ?seq_length; lia).
    unfold kmod. replace (_ mod _)%Z with (Z.of_nat (1 + i)); [lia|]. apply Z.mod_unique with (q := (-1)%Z); lia.
  - change 0%Z with (Z.of_nat 0). rewrite (map_nth Z.of_nat), S0 by auto. unfold kmod. rewrite Z.mod_small; lia.
Qed.
Lemma dset_fold_get (g : Z -> nat) l : forall d k, (forall p, In p l -> snd p = g (fst p)) ->
  dget (fold_left (fun d kv => dset d (fst kv) (snd kv)) l d) k =
  if existsb (Z.eqb k) (map fst l) then Some (g k) else dget d k.
Proof.
  induction l as [|[k' v] l IH]; intros d k H; [easy|]. cbn [fold_left map existsb fst snd].
  rewrite IH by (intros; apply H; now right). destruct (existsb (Z.eqb k) (map fst l)); [now rewrite orb_true_r|].
  rewrite orb_false_r. destruct (Z.eqb k k') eqn:E.
  - apply Z.eqb_eq in E as ->. rewrite dget_dset_eq. f_equal. apply (H (k', v)). now left.
  - apply Z.eqb_neq in E. apply dget_dset_neq. congruence.
Qed.
Lemma kij_get M k : In k (shifts M) -> dget (k_ij_map M) k = Some (kmod M k).
Proof.
  intros H. unfold k_ij_map. rewrite (dset_fold_get (kmod M)) by (intros [a b] P; now apply kij_pairs in P).
  assert (existsb (Z.eqb k) (map fst (combine (shifts M) (seq 1 (M - 1) ++ seq 1 (M - 1)))) = true) as ->; [|easy].
  apply existsb_exists. exists k. split; [|apply Z.eqb_refl].
  assert (L : List.length (shifts M) = List.length (seq 1 (M - 1) ++ seq 1 (M - 1))) by (unfold shifts; now rewrite !app_length, !map_length, rev_length, !seq_length).
  revert L H. generalize (shifts M), (seq 1 (M - 1) ++ seq 1 (M - 1)). clear. intros a. induction a as [|x a IH]; intros [|y b] L H; try easy.
  cbn. destruct H as [->|H]; [now left|right]. apply IH; auto.
Qed.
Lemma product_in {X} (l : list X) q : forall s, In s (product l q) <-> List.length s = q /\ forall x, In x s -> In x l.
Proof.
  induction q as [|q IH]; intros s; cbn.
  - split; [intros [<-|[]]; now split|]. intros [L _]. destruct s; [now left|discriminate].
  - rewrite in_flat_map. split.
    + intros [x [Hx H]]. apply in_map_iff in H as [s' [<- H]]. apply IH in H as [L H]. cbn. split; [lia|]. intros y [<-|Hy]; auto.
    + intros [L H]. destruct s as [|x s]; [discriminate|]. exists x. split; [apply H; now left|]. apply in_map, IH. split; [now injection L|]. intros; apply H; now right.
Qed.
Lemma list_eqb_eq a : forall b, list_eqb a b = true <-> a = b.
Proof.
  induction a as [|x a IH]; intros [|y b]; cbn; try (split; congruence). rewrite andb_true_iff, Nat.eqb_eq, IH. split; [intros [-> ->]; easy|intros [= -> ->]; easy].
Qed.
Definition zsum (l : list Z) : Z := fold_left Z.add l 0%Z.
Lemma zsum_acc l : forall a, fold_left Z.add l a = (a + zsum l)%Z.
Proof. unfold zsum. induction l as [|x l IH]; intros a; cbn; [lia|]. rewrite IH, (IH x). lia. Qed.
Lemma zsum_cons x l : zsum (x :: l) = (x + zsum l)%Z.
Proof. unfold zsum. cbn. rewrite zsum_acc. reflexivity. Qed.
Lemma seqs_fold M perms : (forall p, In p perms -> forall x, In x p -> In x (shifts M)) -> forall init, NoDup init ->
  exists seqs, fold_left (fun acc perm =>
    bind acc (fun seqs =>
    if (fold_left Z.add perm 0 =? 0)%Z then
      bind (mapM (fun i => match dget (k_ij_map M) i with Some x => Ok x | None => Err KeyError end) perm) (fun ijs =>
      Ok (if existsb (list_eqb ijs) seqs then seqs else seqs ++ [ijs]))
    else Ok seqs)) perms (Ok init) = Ok seqs /\ NoDup seqs /\
    forall s, In s seqs <-> In s init \/ exists p, In p perms /\ zsum p = 0%Z /\ map (kmod M) p = s.
Proof.
  induction perms as [|p perms IH]; intros H init ND; cbn [fold_left].
  { exists init. repeat split; auto. intros [?|[p [[] _]]]; auto. }
  assert (H' : forall q, In q perms -> forall x, In x q -> In x (shifts M)) by (intros; eapply H; [right|]; eauto).
  cbn [bind]. change (fold_left Z.add p 0%Z) with (zsum p). destruct (Z.eqb_spec (zsum p) 0) as [Z|NZ].
  - rewrite (mapM_all_ok _ (kmod M)) by (intros x Hx; rewrite kij_get; [easy|eapply H; [now left|easy]]). cbn [bind].
    set (s0 := map (kmod M) p). destruct (existsb (list_eqb s0) init) eqn:X.
    + destruct (IH H' init ND) as [seqs [E [N I]]]. exists seqs. repeat split; auto.
      * intros Hs. apply I in Hs as [?|[q [? ?]]]; [now left|right; exists q; cbn; tauto].
      * intros Hs. apply I. destruct Hs as [?|[q [[->|?] [? ?]]]]; [now left| |right; eauto].
        left. apply existsb_exists in X as [t [Ht X]]. apply list_eqb_eq in X. subst. exact Ht.
    + assert (NI : ~ In s0 init). { intros K. apply (eq_true_false_abs _ (proj2 (existsb_exists _ _) (ex_intro _ s0 (conj K (proj2 (list_eqb_eq _ _) eq_refl)))) X). }
      destruct (IH H' (init ++ [s0])) as [seqs [E [N I]]].
      { apply Permutation_NoDup with (l := s0 :: init); [apply Permutation_cons_append|]. now constructor. }
      exists seqs. repeat split; auto.
      * intros Hs. apply I in Hs as [Hs|[q [? ?]]]; [|right; exists q; cbn; tauto].
        apply in_app_iff in Hs as [?|[<-|[]]]; [now left|]. right. exists p. cbn. auto.
      * intros Hs. apply I. rewrite in_app_iff. destruct Hs as [?|[q [[->|?] [? ?]]]]; [tauto| |right; eauto]. left. right. now left.
  - destruct (IH H' init ND) as [seqs [E [N I]]]. exists seqs. repeat split; auto.
    + intros Hs. apply I in Hs as [?|[q [? ?]]]; [now left|right; exists q; cbn; tauto].
    + intros Hs. apply I. destruct Hs as [?|[q [[->|?] [? ?]]]]; [now left|congruence|right; eauto].
Qed.
(** sums *)
Lemma kmod_sum M p : (forall x, In x p -> In x (shifts M)) -> exists c, Z.of_nat (list_sum (map (kmod M) p)) = (zsum p + c * Z.of_nat M)%Z.
Proof.
  induction p as [|k p IH]; intros H; [exists 0%Z; reflexivity|].
  destruct IH as [c E]; [intros; apply H; now right|]. change (list_sum (map (kmod M) (k :: p))) with (kmod M k + list_sum (map (kmod M) p)).
  rewrite zsum_cons. assert (I : In k (shifts M)) by (apply H; now left). pose proof (proj1 (shifts_in M k) I) as B.
  destruct (kmod_shift M k I) as [[P Q]|[P Q]]; rewrite Q; [exists c|exists (c + 1)%Z]; lia.
Qed.
Lemma lift_seq M s : forall c, (forall x, In x s -> 1 <= x < M) -> c <= List.length s ->
  exists p, List.length p = List.length s /\ (forall x, In x p -> In x (shifts M)) /\ map (kmod M) p = s /\
    zsum p = (Z.of_nat (list_sum s) - Z.of_nat c * Z.of_nat M)%Z.
Proof.
  induction s as [|x s IH]; intros c H L.
  { exists []. cbn in *. repeat split; auto; [easy|]. unfold zsum. cbn. lia. }
  assert (Hx : 1 <= x < M) by (apply H; now left).
  assert (Hs : forall y, In y s -> 1 <= y < M) by (intros; apply H; now right).
  assert (one : forall k, In k (shifts M) -> kmod M k = x -> forall c', c' <= List.length s ->
     (k = Z.of_nat x - (Z.of_nat c - Z.of_nat c') * Z.of_nat M)%Z ->
     exists p, List.length p = List.length (x :: s) /\ (forall x, In x p -> In x (shifts M)) /\ map (kmod M) p = x :: s /\
       zsum p = (Z.of_nat (list_sum (x :: s)) - Z.of_nat c * Z.of_nat M)%Z).
  { intros k Ik Ek c' Lc Kc. destruct (IH c' Hs Lc) as [p [E1 [E2 [E3 E4]]]]. exists (k :: p). cbn [List.length map].
    repeat split; [lia|intros y [<-|?]; auto|now rewrite Ek, E3|]. rewrite zsum_cons, E4.
    change (list_sum (x :: s)) with (x + list_sum s). lia. }
  destruct c as [|c].
  - apply (one (Z.of_nat x)) with (c' := 0); [apply shifts_in; lia| |lia|lia].
    unfold kmod. rewrite Z.mod_small; lia.
  - apply (one (Z.of_nat x - Z.of_nat M)%Z) with (c' := c); [apply shifts_in; lia| |cbn in L; lia|lia].
    unfold kmod. rewrite <- (Z.mod_unique (Z.of_nat x - Z.of_nat M) (Z.of_nat M) (-1) (Z.of_nat x)); lia.
Qed.
Lemma sum_le M s : (forall x, In x s -> 1 <= x < M) -> list_sum s <= List.length s * M.
Proof.
  induction s as [|x s IH]; intros H; [easy|]. change (list_sum (x :: s)) with (x + list_sum s). cbn [List.length].
  assert (1 <= x < M) by (apply H; now left). specialize (IH (fun y Hy => H y (or_intror Hy))). lia.
Qed.
Lemma sequences_C68 : forall M q, exists seqs, getUniqueSequences M q = Ok seqs /\ NoDup seqs /\
  forall s, In s seqs <-> List.length s = q /\ Forall (fun x => 1 <= x < M) s /\ Nat.divide M (list_sum s).
Proof.
  intros M q. unfold getUniqueSequences.
  destruct (seqs_fold M (product (shifts M) q)) with (init := @nil (list nat)) as [seqs [E [N I]]].
  { intros p Hp. apply product_in in Hp. tauto. } { constructor. }
  exists seqs. split; [exact E|]. split; [exact N|]. intros s. rewrite I. split.
  - intros [[]|[p [Hp [Z <-]]]]. apply product_in in Hp as [L Hp]. split; [now rewrite map_length|]. split.
    + apply Forall_forall. intros x Hx. apply in_map_iff in Hx as [k [<- Hk]]. apply Hp in Hk. pose proof (proj1 (shifts_in M k) Hk).
      destruct (kmod_shift M k Hk) as [[P Q]|[P Q]]; rewrite Q; lia.
    + destruct (kmod_sum M p Hp) as [c Ec]. rewrite Z in Ec. destruct M as [|M].
      * destruct p as [|k p]; [exists 0; reflexivity|]. exfalso. specialize (Hp k (or_introl eq_refl)). apply shifts_in in Hp. lia.
      * exists (Z.to_nat c). apply Nat2Z.inj. rewrite Nat2Z.inj_mul, Ec. assert (0 <= c)%Z by nia. rewrite Z2Nat.id by auto. lia.
  - intros [L [H [c Hc]]]. right. rewrite Forall_forall in H.
    destruct (Nat.eq_dec M 0) as [->|M0].
    + destruct s as [|x s]; [|exfalso; specialize (H x (or_introl eq_refl)); lia]. exists []. cbn in L. subst q. repeat split. now left.
    + assert (c <= List.length s). { pose proof (sum_le M s H). nia. }
      destruct (lift_seq M s c H H0) as [p [P1 [P2 [P3 P4]]]]. exists p. repeat split; auto.
      * apply product_in. split; [lia|auto].
      * rewrite P4, Hc. lia.
Qed.
Lemma state_indices_nth M s : forall z i, i < List.length s -> nth i (state_indices M z s) 0 = (z + list_sum (firstn (S i) s)) mod M.
Proof.
  induction s as [|x s IH]; intros z i L; [cbn in L; lia|]. destruct i as [|i]; cbn [state_indices nth].
  - cbn. f_equal. lia.
  - rewrite IH by (cbn in L; lia). change (firstn (S (S i)) (x :: s)) with (x :: firstn (S i) s).
    change (list_sum (x :: firstn (S i) s)) with (x + list_sum (firstn (S i) s)). f_equal. lia.
Qed.
Lemma state_indices_length M s : forall z, List.length (state_indices M z s) = List.length s.
Proof. induction s as [|x s IH]; intros z; [easy|]. cbn. now rewrite IH. Qed.
(** a sequence of shifts leads from a state back to itself exactly when its sum is a multiple of M *)
Lemma sequences_return : forall M s z, s <> [] -> z < M ->
  (last (state_indices M z s) 0 = z <-> Nat.divide M (list_sum s)).
Proof.
  intros M s z N Hz. assert (P : 0 < List.length s) by (destruct s; [congruence|cbn; lia]).
  assert (last (state_indices M z s) 0 = (z + list_sum s) mod M) as ->.
  { assert (LN : forall l : list nat, last l 0 = nth (List.length l - 1) l 0).
    { clear. induction l as [|a [|b l] IH]; [easy|easy|]. change (last (a :: b :: l) 0) with (last (b :: l) 0). rewrite IH.
      cbn [List.length]. replace (S (S (List.length l)) - 1) with (S (S (List.length l) - 1)) by lia. reflexivity. }
    rewrite LN, state_indices_length, state_indices_nth by lia.
    rewrite firstn_all2 by lia. reflexivity. }
  split.
  - intros E. exists ((z + list_sum s) / M). pose proof (Nat.div_mod (z + list_sum s) M ltac:(lia)). nia.
  - intros [c ->]. rewrite Nat.mod_add by lia. now apply Nat.mod_small.
Qed.

(** ** sanitising *)
(** absolute value of what a double stands for *)
Definition xabs (a : xreal) : xreal := match a with XFin x => XFin (Rabs x) | XNInf => XPInf | _ => a end.
Lemma X_fabs x : X (fabs x) = xabs (X x).
Proof.
  destruct x as [s|[]| |s m e]; cbn; try reflexivity; [now rewrite Rabs_R0|].
  f_equal. unfold F2R. cbn [Defs.Fnum Defs.Fexp].
  rewrite Rabs_mult, (Rabs_pos_eq (Raux.bpow _ _)) by apply Raux.bpow_ge_0. f_equal. rewrite <- abs_IZR. now destruct s.
Qed.
(** the component [x] became [y] *)
Definition compspec (tol x y : f64) : Prop :=
  (xlt (xabs (X x)) (X tol) -> y = fzero) /\ (~ xlt (xabs (X x)) (X tol) -> y = x).
Lemma fabs_valid x : valid x = true -> valid (fabs x) = true.
Proof. destruct x; auto. Qed.
Lemma sanArray_C75 : forall tol a, valid tol = true -> Forall (fun z => valid (fst z) = true /\ valid (snd z) = true) a ->
  List.length (sanArray tol a) = List.length a /\
  forall i z, nth_error a i = Some z -> exists z', nth_error (sanArray tol a) i = Some z' /\
    compspec tol (fst z) (fst z') /\ compspec tol (snd z) (snd z').
Proof.
  intros tol a Vt Va. split; [apply map_length|]. intros i z E.
  exists (san1 tol (fst z), san1 tol (snd z)). split; [unfold sanArray; now rewrite nth_error_map, E|].
  apply nth_error_In in E. rewrite Forall_forall in Va. apply Va in E as [V1 V2].
  assert (S1 : forall x, valid x = true -> compspec tol x (san1 tol x)).
  { intros x Vx. unfold san1, compspec. pose proof (flt_spec _ _ (fabs_valid _ Vx) Vt) as F. rewrite X_fabs in F.
    destruct (flt (fabs x) tol); split; intros H; auto; [exfalso; apply H; now apply F|]. apply F in H. discriminate. }
  cbn. split; auto.
Qed.
(** sanFloat of a real number *)
Lemma sanFloat_real : forall tol x, valid tol = true -> valid x = true -> xle (XFin 0) (X tol) ->
  (xlt (xabs (X x)) (X tol) -> sanFloat tol (x, fzero) = fzero) /\
  (xlt (X tol) (xabs (X x)) -> sanFloat tol (x, fzero) = x).
Proof.
  intros tol x Vt Vx P. pose proof (flt_spec _ _ Vt (fabs_valid _ Vx)) as F. rewrite X_fabs in F.
  assert (Z : flt tol (fabs fzero) = false).
  { destruct (flt tol (fabs fzero)) eqn:E; [|easy]. exfalso. apply flt_spec in E; [|auto|reflexivity].
    cbn in E. destruct (X tol); cbn in *; auto. lra. }
  unfold sanFloat. cbn [fst snd]. rewrite Z. split; intros H.
  - destruct (flt tol (fabs x)) eqn:E; [|easy]. exfalso. pose proof (proj1 F eq_refl) as H'.
    destruct (X tol), (xabs (X x)); cbn in *; try tauto. lra.
  - apply F in H. rewrite H. destruct x as [s|[]| |s m e]; try reflexivity.
    exfalso. change (fabs (S754_zero s)) with fzero in H. change (fabs fzero) with fzero in Z. congruence.
Qed.
