(** The system built inside the constructor of a circuit with resonators (C88). *)
From Coq Require Import List Bool String Ascii Arith ZArith NArith Reals Permutation Lia DecimalString.
From Verif Require Import Prelude PreludeFacts Float Param Expr ExprProofs Coll CollGraph CollSpec CollProofs CollExpand CollUpdate Mat Graph GraphSpec GraphView GraphForest GraphWf GraphCircuit GraphState GraphMaps GraphOps GraphProofs Symbolic SymbolicSpec SymbolicInv SymbolicCap SymbolicCap2 SymbolicFlux SymbolicParam SymbolicInit SymbolicNew SymbolicMat SymbolicProofs Sweep Reson ResonInit ResonInitProofs.
Import ListNotations.
Open Scope string_scope.
Open Scope list_scope.
Open Scope nat_scope.

(** ** names *)
Fixpoint has_char (a : ascii) (s : string) : bool := match s with EmptyString => false | String b s => Ascii.eqb a b || has_char a s end.
Lemma has_char_app a x y : has_char a (x ++ y)%string = has_char a x || has_char a y.
Proof. induction x as [|b x IH]; cbn; auto. rewrite IH. apply orb_assoc. Qed.
Lemma uint_no_char a u : (forall d, In d ["0"; "1"; "2"; "3"; "4"; "5"; "6"; "7"; "8"; "9"]%char -> Ascii.eqb a d = false) -> has_char a (NilEmpty.string_of_uint u) = false.
Proof. intros H. induction u; cbn [NilEmpty.string_of_uint has_char]; auto; rewrite IHu, orb_false_r; apply H; cbn; tauto. Qed.
Lemma nat_str_no_char a n : (forall d, In d ["0"; "1"; "2"; "3"; "4"; "5"; "6"; "7"; "8"; "9"]%char -> Ascii.eqb a d = false) -> has_char a (nat_str n) = false.
Proof.
  intros H. unfold nat_str, dec, NilZero.string_of_uint. destruct (N.to_uint _) eqn:E; [cbn; rewrite orb_false_r; apply H; cbn; tauto|..]; rewrite <- E; apply uint_no_char; auto.
Qed.
Lemma no_i n : has_char "i" (nat_str n) = false.
Proof. apply nat_str_no_char. intros d Hd. cbn in Hd. intuition (subst d; reflexivity). Qed.
Lemma no_l n : has_char "l" (nat_str n) = false.
Proof. apply nat_str_no_char. intros d Hd. cbn in Hd. intuition (subst d; reflexivity). Qed.
Lemma mat_suffix i j k l : mat_name "C" "" i j <> mat_name "C" "i" k l.
Proof.
  intros H. apply (f_equal (has_char "i")) in H. unfold mat_name in H. rewrite !has_char_app, !no_i in H. discriminate H.
Qed.
Lemma mat_ok p sfx i j : has_space p = false -> has_space sfx = false -> p <> "" -> starts "p" p = false -> legal (mat_name p sfx i j) /\ starts "p" (mat_name p sfx i j) = false.
Proof.
  intros H1 H2 H3 H4. split; [split; [|now apply mat_name_no_space]|]; destruct p; try easy.
Qed.

Lemma NoDup_map_eq {A B} (f : A -> B) l x y : NoDup (map f l) -> In x l -> In y l -> f x = f y -> x = y.
Proof.
  induction l as [|a l IH]; [easy|]. cbn. intros H. apply NoDup_cons_iff in H as [Ha H]. intros [->|Hx] [->|Hy] E; auto.
  - exfalso. apply Ha. rewrite E. now apply in_map.
  - exfalso. apply Ha. rewrite <- E. now apply in_map.
Qed.

(** ** the parameters before any parameterisation *)
Definition bases (s : cg) : list string :=
  registered_names s ++ map (fun b => "phi" ++ fb_suffix b)%string (dvals (c_fbias s)) ++ map (fun b => "Q" ++ cb_suffix b)%string (dvals (c_cbias s)).
Section Base.
  Variables (s : cg).
  Hypothesis Hc : circuit s.
  Let HD : Derived s := circuit_derived s Hc.
  Hypothesis Hcoup : c_coupled s = [].
  Hypothesis Hmut : forall b, In b (dvals (c_fbias s)) -> fb_mutual b = None.
  Lemma registered_letter c : In c (registered_names s) -> branch_name c = true.
  Proof.
    unfold registered_names. rewrite Hcoup, !in_app_iff. intros [H|[H|[H|H]]].
    - eapply Permutation_in in H; [|apply edge_map_vals, HD]. apply in_map_iff in H as (b & <- & Hb). rewrite branch_valid. exact (d_valid s HD b Hb).
    - destruct H.
    - apply in_flat_map in H as (b & Hb & H). destruct (cb_cap b) as [c'|] eqn:E; [|easy]. destruct H as [<-|[]]. assert (J := j_gate s (reachable_Inv2 s (circuit_reachable s Hc)) b c' Hb E).
      destruct c' as [|a r]; [discriminate|]. cbn in J |- *. now rewrite J.
    - apply in_flat_map in H as (b & Hb & H). rewrite (Hmut b Hb) in H. destruct H.
  Qed.
  Lemma base_letter k : In k (bases s) -> exists a r, k = String a r /\ In a ["C"; "L"; "I"; "V"; "p"; "Q"]%char.
  Proof.
    unfold bases. rewrite !in_app_iff. intros [H|[H|H]].
    - apply registered_letter in H. destruct k as [|a r]; [discriminate|]. exists a, r. split; [reflexivity|]. cbn in H |- *.
      destruct (Ascii.eqb_spec a "C") as [->|]; [tauto|]. destruct (Ascii.eqb_spec a "L") as [->|]; [tauto|]. destruct (Ascii.eqb_spec a "I") as [->|]; [tauto|]. destruct (Ascii.eqb_spec a "V") as [->|]; [tauto|]. discriminate.
    - apply in_map_iff in H as (b & <- & _). eexists _, _. split; [reflexivity|]. cbn. tauto.
    - apply in_map_iff in H as (b & <- & _). eexists _, _. split; [reflexivity|]. cbn. tauto.
  Qed.
  Lemma base_mat p sfx i j : p = "L" \/ p = "C" -> In 0 (g_nodes (c_graph s)) -> unnumbered s p sfx -> In (mat_name p sfx i j) (bases s) -> i <= j < List.length (sys_nodes s) -> False.
  Proof.
    intros Hp H0 Hu H Hij. unfold bases in H. rewrite !in_app_iff in H. destruct H as [H|[H|H]].
    - apply (registered_element s _ HD) in H. exact (unnumbered_free s p sfx H0 Hu _ i j H Hij eq_refl).
    - apply in_map_iff in H as (b & E & _). destruct Hp as [-> | ->]; discriminate E.
    - apply in_map_iff in H as (b & E & _). destruct Hp as [-> | ->]; discriminate E.
  Qed.
  Hypothesis Hlegal : forall c, In c (registered_names s) -> legal c.
  Hypothesis Hfsfx : forall b, In b (dvals (c_fbias s)) -> has_space (fb_suffix b) = false.
  Hypothesis Hcsfx : forall b, In b (dvals (c_cbias s)) -> has_space (cb_suffix b) = false.
  Hypothesis Hedges : forall e, In e (dkeys (c_fbias s)) -> In e (wcs s).
  Lemma create_good rho : exists st1 fl st2 st3, add_all (map (fun c => (c, None)) (registered_names s)) (mkcst [] [] [] [] []) = (st1, Ok tt) /\ flux_symbols s (wcs s) = Ok fl /\
    add_all (map (fun b => ("phi" ++ fb_suffix b, Some ("\Phi_{" ++ fb_suffix b ++ "}")))%string (dvals (c_fbias s))) st1 = (st2, Ok tt) /\
    add_all (map (fun b => ("Q" ++ cb_suffix b, Some ("Q_{" ++ cb_suffix b ++ "}")))%string (dvals (c_cbias s))) st2 = (st3, Ok tt) /\
    good rho st3 /\ c_par st3 = [] /\ forall k, registered st3 k <-> In k (bases s).
  Proof.
    destruct (add_all_good rho (map (fun c => (c, None)) (registered_names s)) _ (good_new rho)) as (st1 & E1 & G1 & P1 & R1).
    { apply Forall_forall. intros x Hx. apply in_map_iff in Hx as (c & <- & H). cbn [fst snd]. split; [auto|]. left. split; [reflexivity|]. apply registered_letter in H. destruct c as [|a r]; [discriminate|]. cbn. destruct (Ascii.eqb_spec a "p") as [->|]; [discriminate H|reflexivity]. }
    destruct (flux_symbols_ok s Hedges) as (fl & Ef).
    destruct (add_all_good rho (map (fun b => ("phi" ++ fb_suffix b, Some ("\Phi_{" ++ fb_suffix b ++ "}")))%string (dvals (c_fbias s))) st1 G1) as (st2 & E2 & G2 & P2 & R2).
    { apply Forall_forall. intros x Hx. apply in_map_iff in Hx as (b & <- & H). cbn [fst snd]. split; [split; [discriminate|cbn; auto]|]. right. reflexivity. }
    destruct (add_all_good rho (map (fun b => ("Q" ++ cb_suffix b, Some ("Q_{" ++ cb_suffix b ++ "}")))%string (dvals (c_cbias s))) st2 G2) as (st3 & E3 & G3 & P3 & R3).
    { apply Forall_forall. intros x Hx. apply in_map_iff in Hx as (b & <- & H). cbn [fst snd]. split; [split; [discriminate|cbn; auto]|]. right. reflexivity. }
    exists st1, fl, st2, st3. split; [exact E1|]. split; [exact Ef|]. split; [exact E2|]. split; [exact E3|]. split; [exact G3|]. split; [rewrite P3, P2, P1; reflexivity|].
    intros k. rewrite R3, R2, R1. unfold bases. rewrite !in_app_iff, !map_map. cbn [fst]. rewrite map_id. assert (N : ~ registered (A := tree_alg) (mkcst [] [] [] [] []) k) by (intros []). tauto.
  Qed.
  (** symbols of the inverse inductance matrix *)
  Lemma ladd_nonzero l t z x : In x (ladd l t z) -> (fst x = t /\ z <> 0%Z) \/ exists y, In y l /\ fst y = fst x.
  Proof.
    induction l as [|[t' z'] l IH]; cbn [ladd]; intros H.
    - destruct (Z.eqb_spec z 0); [easy|]. destruct H as [<-|[]]. auto.
    - destruct (term_eqb t t').
      + destruct (Z.eqb (z' + z) 0); [right; exists x; split; [right|]; auto|]. destruct H as [<-|H]; right; [exists (t', z'); split; [left|]; auto|exists x; split; [right|]; auto].
      + destruct H as [<-|H]; [right; exists (t', z'); split; [left|]; auto|]. destruct (IH H) as [H'|(y & Hy & E)]; [auto|]. right. exists y. split; [right|]; auto.
  Qed.
  Lemma ladd_all_nonzero nodes edges M i j ks : forall l x, In x (ladd_all nodes edges M i j ks l) -> (exists k c, In k ks /\ M k k = Some c /\ fst x = TmL c /\ coef nodes edges i j k <> 0%Z) \/ exists y, In y l /\ fst y = fst x.
  Proof.
    induction ks as [|k ks IH]; intros l x; cbn [ladd_all fold_left]; [eauto|]. destruct (M k k) as [c|] eqn:E.
    - intros H. apply IH in H as [(k' & c' & H1 & H2)|(y & Hy & E')]; [left; exists k', c'; split; [right; exact H1|exact H2]|].
      apply ladd_nonzero in Hy as [[Hy Hz]|(z & Hz & E'')]; [left; exists k, c; split; [left; auto|]; split; [exact E|]; split; [congruence|exact Hz]|right; exists z; split; [exact Hz|congruence]].
    - intros H. apply IH in H as [(k' & c' & H1 & H2)|H]; auto. left; exists k', c'; split; [right; exact H1|exact H2].
  Qed.
  Lemma linv_names oracle M i j t sy : inductance_matrix s (wcs s) = Ok M -> linv_tree oracle s (sys_nodes s) (wcs s) M i j = Some t -> In sy (tfree t) ->
    exists c k b, sy = sym_of c /\ In c (registered_names s) /\ starts "L" c = true /\ k < List.length (wcs s) /\ coef (sys_nodes s) (wcs s) i j k <> 0%Z /\
      In b (branches_of "L" (c_graph s)) /\ snd b = c /\ same_branch (fst b) (nth k (wcs s) noedge).
  Proof.
    intros HM HL Hsy. unfold linv_tree in HL. rewrite Hcoup in HL. destruct (lin_tree_free _ _ _ HL Hsy) as (u & z & Ht & Hx). rewrite linv_diag_all in Ht.
    apply ladd_all_nonzero in Ht as [(k & c & Hk & HMk & E & Hz)|(y & [] & _)]. cbn [fst] in E. subst u. apply term_tree_free in Hx. subst sy. apply in_seq in Hk.
    rewrite (inductance_entries s (wcs s) M Hcoup HM), Nat.eqb_refl in HMk. cbn [andb] in HMk. destruct (Nat.ltb_spec k (List.length (wcs s))); [|discriminate].
    destruct (ind_name_branch s HD _ _ HMk) as (b & Hb & Eb & Hs). exists c, k, b. split; [reflexivity|]. assert (Hb' := Hb). unfold branches_of in Hb'. apply filter_In in Hb' as [Hi HL']. subst c. split.
    - unfold registered_names. apply in_or_app. left. eapply Permutation_in; [apply Permutation_sym, edge_map_vals, HD|]. apply in_map. exact Hi.
    - split; [unfold letter in HL'; destruct (snd b); [discriminate|exact HL']|]. auto 10.
  Qed.
End Base.

(** ** systems without resonators *)
Lemma expanded_ok rho ord fuel (st : cst tree_alg) k : good_ord ord -> good rho st -> parametric st k -> enough st <= fuel ->
  exists t, expanded ord fuel st (Some (TSym (sg k))) = Ok t /\ forall sy, In sy (tfree t) -> exists q, sy = sg q /\ registered st q /\ ~ parametric st q.
Proof.
  intros Ho G Hp Hf. destruct G as [(ow & G) HR]. assert (T := gi_t _ _ _ G). cbn [expanded].
  assert (D := reg_sym sg st ow G k (gi_par _ _ _ G k Hp)). apply (find_iff sg st T sg_inj) in D. unfold getParameterFromSymbol. rewrite D. cbn [bind].
  destruct (getP_ok tree_alg_ok sg st ow G sg_inj ord fuel Ho Hf [] k Hp) as (t & E). exists t. split; [exact E|]. destruct Hp as (e & ns & He). unfold getParametricExpression in E. rewrite He in E.
  apply (expand_ind (fun _ => True) ord [] st Ho) in E as [_ E]; [|auto|auto]. intros sy Hsy. destruct (E sy Hsy) as (q & F & N). apply (find_iff sg st T sg_inj) in F. exists q. destruct (sym_reg sg st ow G q sy F). auto.
Qed.
(** the entries of the capacitance matrix as they are shown *)
Definition shown (Mc : mat) (i j : nat) : option tree :=
  match lin_tree (Mc (Nat.min i j) (Nat.max i j)) with
  | None => lin_tree (Mc i j)
  | Some t => if List.length (tfree t) <? 2 then lin_tree (Mc i j) else Some (TSym (sym_of (mat_name "C" "" (Nat.min i j) (Nat.max i j))))
  end.
Section Nested.
  Variables (ord : ordr) (X : sympy) (s : cg) (Mc : mat) (ML : imat).
  Hypothesis Hord : good_ord ord.
  Hypothesis Hc : circuit s.
  Hypothesis Hground : In 0 (g_nodes (c_graph s)).
  Hypothesis Hres : has_resonators s = false.
  Hypothesis Hcoup : c_coupled s = [].
  Hypothesis Hmut : forall b, In b (dvals (c_fbias s)) -> fb_mutual b = None.
  Hypothesis Hlegal : forall c, In c (registered_names s) -> legal c.
  Hypothesis Hfsfx : forall b, In b (dvals (c_fbias s)) -> has_space (fb_suffix b) = false.
  Hypothesis Hcsfx : forall b, In b (dvals (c_cbias s)) -> has_space (cb_suffix b) = false.
  Hypothesis Hedges : forall e, In e (dkeys (c_fbias s)) -> In e (wcs s).
  Hypothesis HuL : unnumbered s "L" "i".
  Hypothesis HuC : unnumbered s "C" "".
  Hypothesis HuK : unnumbered s "C" "i".
  Hypothesis HMc : capacitance_matrix s = Ok Mc.
  Hypothesis HML : inductance_matrix s (wcs s) = Ok ML.
  Let n := List.length (sys_nodes s).
  Definition gen (k : string) : Prop := generated (mat_name "L" "i") n k \/ generated (mat_name "C" "") n k \/ generated (mat_name "C" "i") n k.
  Definition rhon (k : string) : nat := if mem k (bases s) then 0 else if existsb (fun x => String.eqb k (mat_name "C" "i" (fst x) (snd x))) (upper n) then 2 else 1.
  Definition inside (st : cst tree_alg) : Prop :=
    good rhon st /\ (forall k, In k (bases s) -> registered st k) /\ (forall k, registered st k -> In k (bases s) \/ parametric st k) /\ (forall k, parametric st k -> gen k).
  Lemma rhon_base k : In k (bases s) -> rhon k = 0.
  Proof. intros H. unfold rhon. apply mem_In in H. now rewrite H. Qed.
  Lemma rhon_free k : ~ In k (bases s) -> 1 <= rhon k.
  Proof. intros H. unfold rhon. apply mem_nIn in H. rewrite H. destruct (existsb _ _); lia. Qed.
  Lemma rhon_L i j : In (i, j) (upper n) -> 1 <= rhon (mat_name "L" "i" i j).
  Proof. intros H. apply upper_In in H. apply rhon_free. intros Hi. eapply (base_mat s Hc "L" "i"); eauto. Qed.
  Lemma rhon_C i j : In (i, j) (upper n) -> rhon (mat_name "C" "" i j) = 1.
  Proof.
    intros H. apply upper_In in H. unfold rhon. assert (N : ~ In (mat_name "C" "" i j) (bases s)) by (intros Hi; eapply (base_mat s Hc "C" ""); eauto). apply mem_nIn in N. rewrite N.
    destruct (existsb _ _) eqn:E; [|reflexivity]. apply existsb_exists in E as (x & _ & E). apply String.eqb_eq in E. now apply mat_suffix in E.
  Qed.
  Lemma rhon_K i j : In (i, j) (upper n) -> rhon (mat_name "C" "i" i j) = 2.
  Proof.
    intros H. unfold rhon. assert (N : ~ In (mat_name "C" "i" i j) (bases s)) by (intros Hi; apply upper_In in H; eapply (base_mat s Hc "C" "i"); eauto). apply mem_nIn in N. rewrite N.
    rewrite (proj2 (existsb_exists _ _)); [reflexivity|]. exists (i, j). split; [exact H|]. apply String.eqb_refl.
  Qed.
  Lemma inside_param p sfx M st : p = "L" \/ p = "C" -> has_space sfx = false -> (forall i j, In (i, j) (upper n) -> gen (mat_name p sfx i j)) -> inside st ->
    (forall i j e sy, In (i, j) (upper n) -> M i j = Some e -> In sy (tfree e) -> exists c, sy = sg c /\ registered st c /\ rhon c < rhon (mat_name p sfx i j)) ->
    exists st', parameterise ord (mat_name p sfx) n M st = (st', Ok tt) /\ inside st' /\ (forall k, parametric st k -> parametric st' k) /\
      (forall i j e, In (i, j) (upper n) -> M i j = Some e -> 2 <= List.length (tfree e) -> parametric st' (mat_name p sfx i j)) /\
      (forall k, (forall i j, k <> mat_name p sfx i j) -> dget (c_par st') k = dget (c_par st) k) /\
      (forall k, parametric st' k -> parametric st k \/ exists i j, k = mat_name p sfx i j) /\
      (n <= 111 -> (forall i j, ~ parametric st (mat_name p sfx i j)) -> forall i j e, In (i, j) (upper n) -> M i j = Some e -> 2 <= List.length (tfree e) -> exists ns, dget (c_par st') (mat_name p sfx i j) = Some (e, ns)).
  Proof.
    intros Hp Hs Hg (G & B & R & P) HE. assert (Hname : forall i j, legal (mat_name p sfx i j) /\ starts "p" (mat_name p sfx i j) = false) by (intros i j; destruct Hp as [-> | ->]; apply mat_ok; (reflexivity || discriminate || exact Hs)).
    destruct (parameterise_good ord rhon Hord (mat_name p sfx) M Hname (upper n) st G HE) as (st' & E & G' & R' & P1 & P2 & P3). exists st'. split; [exact E|]. split; [|split; [|split; [|split; [|split]]]].
    - split; [exact G'|]. split; [intros k Hk; apply R'; auto|]. split.
      + intros k Hk. apply R' in Hk as [Hk|Hk]; [|right; apply P2; auto]. apply R in Hk as [Hk|Hk]; [auto|right; apply P2; auto].
      + intros k (e & ns & Hk). apply P3 in Hk as [Hk|(i & j & Hi & _ & _ & ->)]; [|auto]. apply P. exists e, ns. exact Hk.
    - intros k Hk. apply P2. auto.
    - intros i j e Hi He H2. apply P2. right. exists i, j, e. auto.
    - intros k Hk. apply P1. intros (i & j & e & _ & _ & _ & E'). exact (Hk i j E').
    - intros k (e & ns & Hk). apply P3 in Hk as [Hk|(i & j & _ & _ & _ & ->)]; [left; exists e, ns; exact Hk|right; eauto].
    - intros Hn Hold i j e Hi He H2. destruct (P2 (mat_name p sfx i j)) as (e' & ns & Hd); [right; exists i, j, e; auto|]. exists ns. rewrite Hd. f_equal. f_equal.
      apply P3 in Hd as [Hd|(i' & j' & Hi' & He' & _ & En)]; [destruct (Hold i j); exists e', ns; exact Hd|].
      assert (Ex : (i, j) = (i', j')); [|injection Ex as <- <-; congruence]. apply (NoDup_map_eq (name_of (mat_name p sfx)) (upper n)); auto. apply mat_names_distinct. exact Hn.
  Qed.
  Variable Q : tmat -> Prop.
  Hypothesis HK : forall y y' M, new_system ord (sy_pinv X) s = Some (Ok y) -> getCapacitanceMatrix ord y = (y', Ok M) -> (forall i j, i < n -> j < n -> M i j = shown Mc i j) -> exists K, sy_inv X n M = Ok K /\ Q K.
  Hypothesis HQ : forall K i j t sy, Q K -> In (i, j) (upper n) -> K i j = Some t -> In sy (tfree t) -> exists k l t', k < n /\ l < n /\ shown Mc k l = Some t' /\ In sy (tfree t').
  Let L := linv_tree (sy_pinv X) s (sys_nodes s) (wcs s) ML.
  Lemma sg_registered c : In c (registered_names s) -> sym_of c = sg c.
  Proof.
    intros H. rewrite sg_plain; [reflexivity|]. apply (registered_letter s Hc Hcoup Hmut) in H. destruct c as [|a r]; [discriminate|]. cbn. destruct (Ascii.eqb_spec a "p") as [->|]; [discriminate H|reflexivity].
  Qed.
  Lemma registered_base c : In c (registered_names s) -> In c (bases s).
  Proof. intros H. unfold bases. apply in_or_app. auto. Qed.
  Lemma L_symbols st i j e sy : inside st -> In (i, j) (upper n) -> L i j = Some e -> In sy (tfree e) -> exists c, sy = sg c /\ registered st c /\ rhon c < rhon (mat_name "L" "i" i j).
  Proof.
    intros (G & B & _) Hi He Hsy. destruct (linv_names s Hc Hcoup (sy_pinv X) ML i j e sy HML He Hsy) as (c & _ & _ & -> & Hr & _). exists c. split; [now apply sg_registered|].
    apply registered_base in Hr. split; [auto|]. rewrite (rhon_base c Hr). assert (H := rhon_L i j Hi). lia.
  Qed.
  Lemma C_symbols st i j e sy : inside st -> lin_tree (Mc i j) = Some e -> In sy (tfree e) -> exists c, sy = sg c /\ registered st c /\ rhon c = 0.
  Proof.
    intros (G & B & _) He Hsy. destruct (lin_tree_free _ _ _ He Hsy) as (t & z & Ht & Hx). destruct (cap_terms_ok s Mc (reachable_Inv2 s (circuit_reachable s Hc)) Hres HMc i j t z Ht) as (c & -> & _ & Hr).
    apply term_tree_free in Hx. subst sy. exists c. split; [now apply sg_registered|]. apply registered_base in Hr. split; [auto|]. now apply rhon_base.
  Qed.
  Lemma L_gen i j : In (i, j) (upper n) -> gen (mat_name "L" "i" i j).
  Proof. intros H. left. exists i, j. auto. Qed.
  Lemma nested : exists y y2 K' y3 L' K, new_system ord (sy_pinv X) s = Some (Ok y) /\ getInverseCapacitanceMatrix ord X y = (y2, Ok K') /\ getInverseInductanceMatrix ord X y2 = (y3, Ok L') /\ inside (ss_par y3) /\ Q K /\
    (forall i j t, i <= j < n -> K i j = Some t -> 2 <= List.length (tfree t) -> K' i j = Some (TSym (sg (mat_name "C" "i" i j))) /\ parametric (ss_par y3) (mat_name "C" "i" i j)) /\
    (forall j, (forall t, L j j = Some t -> List.length (tfree t) < 2) -> L' j j = L j j) /\
    (n <= 111 -> forall v, consistent v (ss_par y3) -> (forall i j, i < n -> j < n -> i <= j \/ entry_val v (lin_tree (Mc i j)) = entry_val v (lin_tree (Mc j i)) -> entry_val v (shown Mc i j) = entry_val v (lin_tree (Mc i j))) /\
      (forall i j t, i <= j < n -> K i j = Some t -> 2 <= List.length (tfree t) -> v (sg (mat_name "C" "i" i j)) = rval v t)).
  Proof.
    assert (HD := circuit_derived s Hc). destruct (create_good s Hc Hcoup Hmut Hlegal Hfsfx Hcsfx Hedges rhon) as (st1 & fl & st2 & st3 & E1 & Ef & E2 & E3 & G3 & P3 & R3).
    assert (I3 : inside st3). { split; [exact G3|]. split; [intros k; apply R3|]. split; [intros k Hk; left; apply R3, Hk|]. intros k (e & ns & H). rewrite P3 in H. discriminate. }
    destruct (inside_param "L" "i" L st3) as (st4 & E4 & I4 & P4 & _ & _ & D4 & _); [auto|reflexivity|exact L_gen|exact I3|intros i j e sy; apply L_symbols; exact I3|].
    destruct (modes_total (fun i j => match L i j with None => true | Some _ => false end) (sys_nodes s)) as (d & Ed & _); [apply nodes_NoDup with (s := s); auto|].
    destruct (inside_param "C" "" (fun i j => lin_tree (Mc i j)) st4) as (st5 & E5 & I5 & P5 & C5 & _ & D5 & V5); [auto|reflexivity|intros i j H; right; left; exists i, j; auto|exact I4| |].
    { intros i j e sy Hi He Hsy. destruct (C_symbols st4 i j e sy I4 He Hsy) as (c & H1 & H2 & H3). exists c. rewrite H3, (rhon_C i j Hi). auto. }
    assert (SH : forall i j, i < n -> j < n -> with_symbols (mat_name "C" "") st5 (fun i j => lin_tree (Mc i j)) i j = shown Mc i j).
    { intros i j Hi Hj. unfold with_symbols, shown. destruct (lin_tree (Mc (Nat.min i j) (Nat.max i j))) as [t|] eqn:Et; [|reflexivity]. destruct (Nat.ltb_spec (List.length (tfree t)) 2) as [|H2]; [reflexivity|].
      assert (Hu : In (Nat.min i j, Nat.max i j) (upper n)) by (apply upper_In; lia). assert (Hp := C5 _ _ _ Hu Et H2).
      rewrite (good_sym rhon st5); [now rewrite sg_plain by reflexivity|apply I5|]. destruct I5 as [[(ow & G) _] _]. apply (gi_par _ _ _ G _ Hp). }
    assert (EN : new_system ord (sy_pinv X) s = Some (Ok (mkss s (sys_nodes s) (wcs s) st4 fl fl (fold_left (fun d x => dset d ("phi" ++ fb_suffix (snd x))%string (fst x)) (c_fbias s) []) (charge_symbols s (sys_nodes s)) (fold_left (fun d x => dset d ("Q" ++ cb_suffix (snd x))%string (fst x)) (c_cbias s) []) d))).
    { unfold new_system. rewrite (proj2 (mem_In _ _) Hground). cbn [negb]. rewrite (wcs_wc s HD), Hres. cbv zeta. rewrite E1. unfold ok_st. cbn [fst snd bind]. rewrite Ef. cbn [bind]. rewrite E2. cbn [fst snd bind]. rewrite E3. cbn [fst snd bind].
      rewrite HML. cbn [bind]. change (linv_tree (sy_pinv X) s (sys_nodes s) (wcs s) ML) with L. change (List.length (sys_nodes s)) with n. rewrite E4. cbn [fst snd bind]. rewrite Ed. cbn [bind]. reflexivity. }
    match type of EN with _ = Some (Ok ?y) => assert (EG : exists y', getCapacitanceMatrix ord y = (y', Ok (with_symbols (mat_name "C" "") st5 (fun i j => lin_tree (Mc i j))))) end.
    { unfold getCapacitanceMatrix. cbn [ss_cg ss_nodes ss_par]. rewrite HMc. cbv zeta. change (List.length (sys_nodes s)) with n. rewrite E5. eexists. reflexivity. }
    destruct EG as (y' & EG). destruct (HK _ _ _ EN EG SH) as (K & EK & QK).
    destruct (inside_param "C" "i" K st5) as (st6 & E6 & I6 & P6 & C6 & F6 & _ & V6); [auto|reflexivity|intros i j H; right; right; exists i, j; auto|exact I5| |].
    { intros i j e sy Hi He Hsy. destruct (HQ K i j e sy QK Hi He Hsy) as (k & l & t & Hk & Hl & Ht & Hs). rewrite (rhon_K i j Hi). unfold shown in Ht.
      destruct (lin_tree (Mc (Nat.min k l) (Nat.max k l))) as [u|] eqn:Eu.
      - destruct (Nat.ltb_spec (List.length (tfree u)) 2) as [|H2].
        + destruct (C_symbols st5 k l t sy I5 Ht Hs) as (c & H1 & H2 & H3). exists c. rewrite H3. auto.
        + injection Ht as <-. cbn in Hs. destruct Hs as [<-|[]]. assert (Hu : In (Nat.min k l, Nat.max k l) (upper n)) by (apply upper_In; lia). exists (mat_name "C" "" (Nat.min k l) (Nat.max k l)).
          split; [now rewrite sg_plain by reflexivity|]. split; [|rewrite (rhon_C _ _ Hu); lia]. assert (Hp := C5 _ _ _ Hu Eu H2). destruct I5 as [[(ow & G) _] _]. apply (gi_par _ _ _ G _ Hp).
      - destruct (C_symbols st5 k l t sy I5 Ht Hs) as (c & H1 & H2 & H3). exists c. rewrite H3. auto. }
    destruct (inside_param "L" "i" L st6) as (st7 & E7 & I7 & P7 & _ & F7 & _ & _); [auto|reflexivity|exact L_gen|exact I6|intros i j e sy; apply L_symbols; exact I6|].
    eexists. eexists. exists (with_symbols (mat_name "C" "i") st6 K). eexists. exists (with_symbols (mat_name "L" "i") st7 L), K. split; [|split; [|split; [|split; [|split; [|split; [|split]]]]]].
    - exact EN.
    - unfold getInverseCapacitanceMatrix, getCapacitanceMatrix. cbn [ss_cg ss_nodes ss_par]. rewrite HMc. cbv zeta. change (List.length (sys_nodes s)) with n. rewrite E5. cbn [set_par ss_nodes ss_par ss_cg]. change (List.length (sys_nodes s)) with n. rewrite EK, E6. reflexivity.
    - unfold getInverseInductanceMatrix. cbn [set_par ss_nodes ss_par ss_cg ss_edges]. rewrite HML. cbv zeta. change (linv_tree (sy_pinv X) s (sys_nodes s) (wcs s) ML) with L. change (List.length (sys_nodes s)) with n. rewrite E7. reflexivity.
    - exact I7.
    - exact QK.
    - intros i j t Hij Ht H2. assert (Hu : In (i, j) (upper n)) by (apply upper_In; exact Hij). assert (Hp := C6 i j t Hu Ht H2). split; [|apply P7, Hp].
      unfold with_symbols. rewrite Nat.min_l, Nat.max_r by lia. rewrite Ht. destruct (Nat.ltb_spec (List.length (tfree t)) 2); [lia|]. rewrite (good_sym rhon st6); [reflexivity|apply I6|].
      destruct I6 as [[(ow & G) _] _]. apply (gi_par _ _ _ G _ Hp).
    - intros j Hj. unfold with_symbols. rewrite Nat.min_id, Nat.max_id. destruct (L j j) as [t|] eqn:E; [|reflexivity]. specialize (Hj t eq_refl). apply Nat.ltb_lt in Hj. now rewrite Hj.
    - intros Hn v Hv. cbn [set_par ss_par] in Hv.
      assert (N3 : forall k, ~ parametric st3 k) by (intros k (e & ns & H); rewrite P3 in H; discriminate).
      assert (N4 : forall k, parametric st4 k -> exists i j, k = mat_name "L" "i" i j) by (intros k H; apply D4 in H as [H|H]; [destruct (N3 k H)|exact H]).
      assert (N5 : forall k, parametric st5 k -> (exists i j, k = mat_name "L" "i" i j) \/ exists i j, k = mat_name "C" "" i j) by (intros k H; apply D5 in H as [H|H]; auto).
      assert (W : forall k e ns, dget (c_par st7) k = Some (e, ns) -> v (sg k) = rval v e).
      { intros k e ns H. apply (Hv k (sg k) e ns); [|exact H]. apply (good_sym rhon st7); [apply I7|]. destruct I7 as [[(ow & G) _] _]. apply (gi_par _ _ _ G). exists e, ns. exact H. }
      split.
      + assert (WC : forall i j t, i <= j < n -> lin_tree (Mc i j) = Some t -> 2 <= List.length (tfree t) -> v (sym_of (mat_name "C" "" i j)) = rval v t).
        { intros i j t Hij Ht H2. destruct (V5 Hn) with (i := i) (j := j) (e := t) as (ns & Hd); auto; [intros a b H; apply N4 in H as (a' & b' & H); discriminate H|apply upper_In; exact Hij|].
          rewrite <- (sg_plain (mat_name "C" "" i j)) by reflexivity. apply (W _ _ ns). rewrite F7 by (intros a b H; discriminate H). rewrite F6 by (intros a b; apply mat_suffix). exact Hd. }
        intros i j Hi Hj Hs. unfold shown. destruct (lin_tree (Mc (Nat.min i j) (Nat.max i j))) as [t|] eqn:Et; [|reflexivity]. destruct (Nat.ltb_spec (List.length (tfree t)) 2) as [|H2]; [reflexivity|]. cbn [entry_val rval].
        rewrite (WC _ _ t); [|lia|exact Et|exact H2]. destruct (Nat.le_gt_cases i j) as [Hl|Hl]; [rewrite Nat.min_l, Nat.max_r in Et by lia; now rewrite Et|].
        destruct Hs as [Hs|Hs]; [lia|]. rewrite Nat.min_r, Nat.max_l in Et by lia. rewrite Hs, Et. reflexivity.
      + intros i j t Hij Ht H2. destruct (V6 Hn) with (i := i) (j := j) (e := t) as (ns & Hd); auto; [|apply upper_In; exact Hij|].
        * intros a b H. apply N5 in H as [(a' & b' & H)|(a' & b' & H)]; [discriminate H|]. symmetry in H. now apply mat_suffix in H.
        * apply (W _ _ ns). rewrite F7 by (intros a b H; discriminate H). exact Hd.
  Qed.
End Nested.
