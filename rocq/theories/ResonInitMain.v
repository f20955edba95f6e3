(** The constructor of a circuit with resonators (C88): the outer collection. *)
From Coq Require Import List Bool String Ascii Arith ZArith NArith Reals Permutation Lia DecimalString.
From Verif Require Import Prelude PreludeFacts StrFacts Float Param Expr ExprProofs Coll CollGraph CollSpec CollProofs CollExpand CollUpdate Mat Graph GraphSpec GraphView GraphForest GraphWf GraphCircuit GraphState GraphMaps GraphOps GraphProofs Symbolic SymbolicSpec SymbolicInv SymbolicCap SymbolicCap2 SymbolicFlux SymbolicParam SymbolicInit SymbolicNew SymbolicMat SymbolicProofs SymHamD Sweep Reson ResonSpec ResonProofs ResonBuild ResonInit ResonInitSpec ResonInitProofs ResonInitNest ResonInitOuter.
Import ListNotations.
Open Scope string_scope.
Open Scope list_scope.
Open Scope nat_scope.

(** ** several parameterisations *)
Lemma addPs_good ord rho : good_ord ord -> forall (l : list (string * tree)) st, good rho st -> NoDup (map fst l) ->
  (forall p, In p l -> registered st (fst p) /\ forall sy, In sy (tfree (snd p)) -> exists c, sy = sg c /\ registered st c /\ rho c < rho (fst p)) ->
  exists st', stepM (fun st p => addParameterisation ord st (fst p) (snd p : E tree_alg)) l st = (st', Ok tt) /\ good rho st' /\ c_coll st' = c_coll st /\
    (forall k, ~ In k (map fst l) -> dget (c_par st') k = dget (c_par st) k) /\ (forall p, In p l -> exists ns, dget (c_par st') (fst p) = Some (snd p : E tree_alg, ns)).
Proof.
  intros Ho. unfold stepM. induction l as [|[k e] l IH]; intros st G Hn H; cbn [fold_left].
  - exists st. split; [reflexivity|]. split; [exact G|]. split; [reflexivity|]. split; [auto|intros p []].
  - destruct (H (k, e) (or_introl eq_refl)) as [Rk HE]. cbn [fst snd] in *. cbn [map fst] in Hn. apply NoDup_cons_iff in Hn as [Hk Hn].
    destruct (good_addP ord rho Ho st k e G Rk HE) as (st1 & names & E1 & G1 & P1 & C1). rewrite E1.
    destruct (IH st1 G1 Hn) as (st' & E2 & G2 & C2 & K2 & D2).
    { intros p Hp. unfold registered. rewrite C1. apply H. right. exact Hp. }
    exists st'. split; [exact E2|]. split; [exact G2|]. split; [congruence|]. split.
    + intros q Hq. cbn [map fst In] in Hq. rewrite K2 by tauto. rewrite P1. apply dget_dset_neq. intros ->. tauto.
    + intros p [<-|Hp]; [|auto]. cbn [fst snd]. exists names. rewrite K2 by exact Hk. rewrite P1. apply dget_dset_eq.
Qed.

(** ** the names of the resonators *)
Definition five_names (n : nat) : list string := ["C" ++ nat_str n ++ "r"; "L" ++ nat_str n ++ "r"; "f" ++ nat_str n ++ "rl"; "Z" ++ nat_str n ++ "rl"; "g" ++ nat_str n ++ "r"]%string.
Lemma tail_inj n n' q : (nat_str n ++ q)%string = (nat_str n' ++ q)%string -> n = n'.
Proof. intros H. apply str_append_inj_r in H. unfold nat_str in H. apply dec_inj in H. lia. Qed.
Lemma five_disjoint n n' k : In k (five_names n) -> In k (five_names n') -> n = n'.
Proof.
  cbn. intros H H'. repeat (destruct H as [<-|H]); try destruct H; repeat (destruct H' as [E|H']); try destruct H'; try discriminate E; injection E as E; symmetry; eapply tail_inj; exact E.
Qed.
Lemma five_NoDup n : NoDup (five_names n).
Proof. unfold five_names. repeat constructor; cbn; intuition discriminate. Qed.
Lemma five_mat n i j : ~ In (mat_name "L" "i" i j) (five_names n).
Proof.
  unfold five_names. intros H. destruct H as [H|[H|[H|[H|[H|[]]]]]]; try discriminate H. apply (f_equal (has_char "i")) in H. unfold mat_name in H.
  rewrite !has_char_app, !no_i in H. discriminate H.
Qed.
Lemma r_names s n r : reachable s -> In (n, r) (resonators s) -> n <> 0 /\ starts "C" (r_coupling r) = true /\ r_fr r = ("f" ++ nat_str n ++ "r")%string /\ r_Zr r = ("Z" ++ nat_str n ++ "r")%string /\
  r_Cr r = ("C" ++ nat_str n ++ "r")%string /\ r_Lr r = ("L" ++ nat_str n ++ "r")%string /\ r_gC r = ("g" ++ nat_str n ++ "r")%string /\ r_frl r = ("f" ++ nat_str n ++ "rl")%string /\ r_Zrl r = ("Z" ++ nat_str n ++ "rl")%string.
Proof.
  intros Hr H. apply resonators_In in H. destruct (r_desc s (reachable_Inv3 s Hr) n r H) as (H1 & H2 & _ & _ & H3). unfold resonator_vars in H3. injection H3 as -> -> -> -> -> -> ->. auto 10.
Qed.
Definition five (X : sympy) (r : resonator) (a b l : tree) : list (string * tree) :=
  [(r_Cr r, sy_C X (sym_of (r_fr r)) (sym_of (r_Zr r))); (r_Lr r, sy_L X (sym_of (r_fr r)) (sym_of (r_Zr r))); (r_frl r, sy_f X a b l); (r_Zrl r, sy_Z X a b l); (r_gC r, sy_g X a b l)].
Lemma five_keys s n X r a b l : reachable s -> In (n, r) (resonators s) -> map fst (five X r a b l) = five_names n.
Proof. intros Hr H. destruct (r_names s n r Hr H) as (_ & _ & _ & _ & H1 & H2 & H3 & H4 & H5). unfold five, five_names. cbn [map fst]. now rewrite H1, H2, H3, H4, H5. Qed.

Section Outer.
  Variables (ord : ordr) (X : sympy) (o : nat -> orders) (s e : cg) (st0 st0' : cst tree_alg) (d : list (nat * (nat * nat))) (Mc : mat) (ML MLs : imat).
  Hypothesis Hord : good_ord ord.
  Hypothesis Hc : circuit s.
  Hypothesis H0 : In 0 (g_nodes (c_graph s)).
  Hypothesis Ho : forall k, valid_orders (o k).
  Hypothesis He : extended o s st0 = ((e, st0'), Ok tt).
  Hypothesis Hd : coupled_indices s e = Ok d.
  Hypothesis Hcoup : c_coupled s = [].
  Hypothesis Hmut : forall b, In b (dvals (c_fbias s)) -> fb_mutual b = None.
  Hypothesis Hlegal : forall c, In c (registered_names s) -> legal c.
  Hypothesis Hrsp : forall n r, In (n, r) (resonators s) -> has_space (r_coupling r) = false.
  Hypothesis Hfsfx : forall b, In b (dvals (c_fbias s)) -> has_space (fb_suffix b) = false.
  Hypothesis Hcsfx : forall b, In b (dvals (c_cbias s)) -> has_space (cb_suffix b) = false.
  Hypothesis Hedges : forall f, In f (dkeys (c_fbias s)) -> In f (wcs s).
  Hypothesis Hedgese : forall f, In f (dkeys (c_fbias s)) -> In f (wcs e).
  Hypothesis HuL : unnumbered e "L" "i".
  Hypothesis HuC : unnumbered e "C" "".
  Hypothesis HuK : unnumbered e "C" "i".
  Hypothesis HMc : capacitance_matrix e = Ok Mc.
  Hypothesis HML : inductance_matrix e (wcs e) = Ok ML.
  Hypothesis HMLs : inductance_matrix s (wcs s) = Ok MLs.
  Let ne := List.length (sys_nodes e).
  Let ns := List.length (sys_nodes s).
  Hypothesis HX : sympy_ok X ne.
  Hypothesis HF : inverse_found ord X e d.
  Let Hreach : reachable s := circuit_reachable s Hc.

  Lemma e_facts : circuit e /\ no_res e /\ In 0 (g_nodes (c_graph e)) /\ c_cbias e = c_cbias s /\ c_fbias e = c_fbias s /\ c_coupled e = [] /\ has_resonators e = false /\ ns <= ne /\
    (forall c, In c (registered_names e) -> In c (registered_names s) \/ exists n r, In (n, r) (resonators s) /\ In c (res_names r)) /\ (forall c, In c (registered_names s) -> In c (registered_names e)).
  Proof.
    destruct (the_next o s st0 e st0' Hc He) as (next & Hk). destruct (ext_at o s st0 e st0' Ho Hc H0 He next Hk) as (_ & _ & Ce & Ne & Gn & Hb & Ec & Ef & Ecp).
    split; [exact Ce|]. split; [exact Ne|]. split; [rewrite Gn; apply in_or_app; auto|]. split; [exact Ec|]. split; [exact Ef|]. split; [congruence|]. split; [|split; [|split]].
    - unfold has_resonators. destruct (existsb _ _) eqn:E; [|reflexivity]. apply existsb_exists in E as ([r|] & Hr & E); [|discriminate]. unfold dvals in Hr. apply in_map_iff in Hr as ([n x] & Ex & Hx). cbn in Ex. subst x. specialize (Ne _ _ Hx). discriminate.
    - unfold ns, ne. rewrite (sys_ext o s st0 e st0' Ho Hc H0 He next Hk), app_length. lia.
    - intros c. unfold registered_names. rewrite Ec, Ef, Ecp, !in_app_iff. intros [H|H]; [|auto]. eapply Permutation_in in H; [|apply edge_map_vals, (circuit_derived e Ce)].
      assert (H' : In c (map snd (map strip (g_edges (c_graph e))))) by (rewrite map_map; exact H). rewrite Hb, map_app, in_app_iff in H'. destruct H' as [H'|H'].
      + left. left. eapply Permutation_in; [apply Permutation_sym, edge_map_vals, (circuit_derived s Hc)|]. rewrite map_map in H'. exact H'.
      + right. apply in_map_iff in H' as (x & <- & H'). apply in_flat_map in H' as ([[n m] r] & Hn & H'). exists n, r. split; [eapply numbered_list; exact Hn|]. cbn in H'. unfold res_names. cbn. intuition (subst x; cbn; auto).
    - intros c. unfold registered_names. rewrite Ec, Ef, Ecp, !in_app_iff. intros [H|H]; [|auto]. left. eapply Permutation_in in H; [|apply edge_map_vals, (circuit_derived s Hc)].
      eapply Permutation_in; [apply Permutation_sym, edge_map_vals, (circuit_derived e Ce)|]. assert (H' : In c (map snd (map strip (g_edges (c_graph s))))) by (rewrite map_map; exact H).
      assert (H2 : In c (map snd (map strip (g_edges (c_graph e))))) by (rewrite Hb, map_app; apply in_or_app; auto). rewrite map_map in H2. exact H2.
  Qed.
  Definition RG (k : string) : Prop := In k (bases s) \/ exists n r, In (n, r) (resonators s) /\ In k (resonator_vars r).
  Lemma res_names_vars r k : In k (res_names r) -> In k (resonator_vars r).
  Proof. unfold res_names, resonator_vars. cbn. tauto. Qed.
  Lemma bases_ext k : In k (bases e) -> RG k.
  Proof.
    destruct e_facts as (_ & _ & _ & Ec & Ef & _ & _ & _ & HR & _). unfold bases, RG. rewrite Ec, Ef. unfold bases. rewrite !in_app_iff. intros [H|H]; [|auto]. apply HR in H as [H|(n & r & Hn & H)]; [auto|].
    right. exists n, r. auto using res_names_vars.
  Qed.
  Lemma all_vars_ok n r : In (n, r) (resonators s) -> vars_ok r.
  Proof.
    intros H. assert (Hs := Hrsp n r H). destruct (r_names s n r Hreach H) as (_ & H1 & H2 & H3 & H4 & H5 & H6 & H7 & H8). unfold vars_ok, resonator_vars. rewrite H2, H3, H4, H5, H6, H7, H8.
    assert (LT : forall c q, Ascii.eqb c " " = false -> Ascii.eqb c "p" = false -> has_space q = false -> legal (String c EmptyString ++ nat_str n ++ q) /\ starts "p" (String c EmptyString ++ nat_str n ++ q) = false).
    { intros c q E1 E2 E3. split; [now apply letter_ok|exact E2]. }
    constructor; [|repeat constructor; try (apply (letter_ok _ n); reflexivity)].
    - destruct (r_coupling r) as [|a c] eqn:E; [discriminate H1|]. split; [split; [discriminate|exact Hs]|]. cbn in H1 |- *. destruct (Ascii.eqb_spec a "C") as [->|]; [reflexivity|discriminate].
  Qed.
  Lemma e_legal c : In c (registered_names e) -> legal c.
  Proof.
    intros H. destruct e_facts as (_ & _ & _ & _ & _ & _ & _ & _ & HR & _). apply HR in H as [H|(n & r & Hn & H)]; [auto|]. apply res_names_vars in H. assert (V := all_vars_ok n r Hn). unfold vars_ok in V. rewrite Forall_forall in V. apply V, H.
  Qed.
  (** ** ranks *)
  Definition rhoo (k : string) : nat :=
    if (starts "f" k || starts "Z" k) && negb (has_char "l" k) then 0
    else if starts "f" k || starts "Z" k || starts "g" k || existsb (fun x => String.eqb k (mat_name "L" "i" (fst x) (snd x))) (upper ne) then 2 else 1.
  Lemma rho_design c n : c = "f"%char \/ c = "Z"%char -> rhoo (String c EmptyString ++ nat_str n ++ "r") = 0.
  Proof. intros H. unfold rhoo. rewrite !has_char_app, no_l. destruct H as [-> | ->]; reflexivity. Qed.
  Lemma rho_loaded c n : c = "f"%char \/ c = "Z"%char -> rhoo (String c EmptyString ++ nat_str n ++ "rl") = 2.
  Proof. intros H. unfold rhoo. rewrite !has_char_app, no_l. destruct H as [-> | ->]; reflexivity. Qed.
  Lemma rho_g n : rhoo ("g" ++ nat_str n ++ "r") = 2. Proof. reflexivity. Qed.
  Lemma rho_CL c n : c = "C"%char \/ c = "L"%char -> 1 <= rhoo (String c EmptyString ++ nat_str n ++ "r").
  Proof. intros [-> | ->]; unfold rhoo; cbn [append starts Ascii.eqb Bool.eqb orb andb]; destruct (existsb _ _); lia. Qed.
  Lemma rho_gen i j : In (i, j) (upper ns) -> rhoo (mat_name "L" "i" i j) = 2.
  Proof.
    intros H. unfold rhoo. cbn [mat_name append starts Ascii.eqb Bool.eqb orb andb]. rewrite (proj2 (existsb_exists _ _)); [reflexivity|]. exists (i, j). split; [|apply String.eqb_refl].
    apply upper_In in H. apply upper_In. destruct e_facts as (_ & _ & _ & _ & _ & _ & _ & Hn & _). lia.
  Qed.
  Lemma rho_base k : In k (bases e) -> rhoo k = 1.
  Proof.
    intros H. destruct e_facts as (Ce & _ & G0 & _ & Ef & Ecp & _). assert (Hm : forall b, In b (dvals (c_fbias e)) -> fb_mutual b = None) by (rewrite Ef; exact Hmut).
    destruct (base_letter e Ce Ecp Hm k H) as (a & q & -> & Ha). unfold rhoo.
    assert (E : starts "f" (String a q) = false /\ starts "Z" (String a q) = false /\ starts "g" (String a q) = false) by (cbn in Ha; cbn; intuition (subst a; reflexivity)).
    destruct E as (-> & -> & ->). cbn [orb andb]. destruct (existsb _ _) eqn:E; [|reflexivity]. apply existsb_exists in E as ([i j] & Hi & E). apply String.eqb_eq in E. cbn [fst snd] in E. exfalso.
    rewrite E in H. apply upper_In in Hi. eapply (base_mat e Ce "L" "i"); eauto.
  Qed.
  Lemma sg_base k : In k (registered_names e) -> sym_of k = sg k.
  Proof.
    destruct e_facts as (Ce & _ & _ & _ & Ef & Ecp & _). assert (Hm : forall b, In b (dvals (c_fbias e)) -> fb_mutual b = None) by (rewrite Ef; exact Hmut). apply (sg_registered e Ce Ecp Hm).
  Qed.
  (** ** the inverse inductance of a resonator *)
  Let Le := linv_tree (sy_pinv X) e (sys_nodes e) (wcs e) ML.
  Let Ls := linv_tree (sy_pinv X) s (sys_nodes s) (wcs s) MLs.
  Lemma Lr_only n i j r t sy : In (n, (i, j)) d -> In (n, r) (resonators s) -> Le j j = Some t -> In sy (tfree t) -> sy = sym_of (r_Lr r).
  Proof.
    intros Hi Hr Ht Hsy. destruct e_facts as (Ce & _ & _ & _ & _ & Ecp & _). destruct (linv_names e Ce Ecp (sy_pinv X) ML j j t sy HML Ht Hsy) as (c & k & b & -> & _ & HL & Hk & Hz & Hb & Eb & Hs).
    destruct (indices_place o s st0 e st0' d n i j r Hc H0 Ho He Hd Hi Hr) as (_ & _ & m & Hj & Hm & _ & Hat).
    assert (Hin : In (strip b) (at_node m (ends (c_graph e)))).
    { unfold at_node. apply filter_In. split; [unfold branches_of in Hb; apply filter_In in Hb as [Hb _]; unfold ends; apply in_map_iff; exists b; split; [reflexivity|exact Hb]|].
      unfold coef in Hz. assert (Hz' : rbn (sys_nodes e) (wcs e) j k <> 0%Z) by (intros E; rewrite E in Hz; lia). unfold rbn in Hz'. rewrite (nth_error_nth' _ 0 Hj), Hm, (nth_error_nth' _ noedge Hk) in Hz'.
      unfold strip. cbn [fst snd]. destruct Hs as [Hs|Hs]; rewrite Hs in Hz'; destruct (fst b) as [[p q] w]; unfold src, dst in *; cbn [fst snd] in *; destruct (Nat.eqb p m), (Nat.eqb q m); try reflexivity; exfalso; apply Hz'; solve [destruct (Nat.eqb p q); reflexivity|destruct (Nat.eqb q p); reflexivity]. }
    rewrite Hat in Hin. destruct (r_names s n r Hreach Hr) as (_ & HC & _ & _ & HCr & _). unfold strip in Hin. cbn in Hin. destruct Hin as [E|[E|[E|[]]]]; injection E as _ _ E; rewrite <- E in Eb; subst c.
    - destruct (r_coupling r) as [|a q]; [discriminate|]. cbn in HC, HL. destruct (Ascii.eqb_spec a "C") as [->|]; discriminate.
    - rewrite HCr in HL. discriminate HL.
    - reflexivity.
  Qed.
  Lemma Ljj_small n i j r t : In (n, (i, j)) d -> In (n, r) (resonators s) -> Le j j = Some t -> List.length (tfree t) < 2.
  Proof.
    intros Hi Hr Ht. assert (A : forall sy, In sy (tfree t) -> sy = sym_of (r_Lr r)) by (intros sy; apply (Lr_only n i j r t sy Hi Hr Ht)). assert (N := tfree_nodup t).
    destruct (tfree t) as [|x [|y l]]; cbn; try lia. exfalso. apply NoDup_cons_iff in N as [N _]. apply N. left. rewrite (A y), (A x); cbn; auto.
  Qed.
  Lemma Ljj_value n i j r v : In (n, (i, j)) d -> In (n, r) (resonators s) -> (forall b, In b (branches_of "L" (c_graph e)) -> v (sym_of (snd b)) <> 0%R) -> entry_val v (Le j j) = (/ v (sym_of (r_Lr r)))%R.
  Proof.
    intros Hi Hr Hv. destruct e_facts as (Ce & _ & _ & _ & _ & Ecp & _). unfold Le, linv_tree. rewrite Ecp, lin_tree_val. rewrite (lval_linv e ML Ecp HML).
    destruct (pinv_exists e (fun c => v (sym_of c)) ML (circuit_derived e Ce) Ecp HML) as (P & HP). rewrite <- (linv_entry e (fun c => v (sym_of c)) ML P (circuit_derived e Ce) Ecp HML HP Hv j j).
    destruct (indices_spec o s st0 e st0' Hc He d n i j r Hd Hi Hr) as (next & m & Hk & Hx & E1 & E2).
    exact (one_ind o s st0 e st0' Ho Hc H0 He next Hk (fun c => v (sym_of c)) n m r j Hx E2 (wcs e) ML P (wcs_wc e (circuit_derived e Ce)) Hcoup HML HP Hv).
  Qed.
  (** ** one round of the loop *)
  Section Load.
    Variables (yn : ssys) (K' L' : tmat) (fuel : nat).
    Hypothesis Hin : inside e (ss_par yn).
    Hypothesis HKn : forall n i j, In (n, (i, j)) d -> K' j j = Some (TSym (sg (mat_name "C" "i" j j))) /\ parametric (ss_par yn) (mat_name "C" "i" j j) /\
      K' i j = Some (TSym (sg (mat_name "C" "i" i j))) /\ parametric (ss_par yn) (mat_name "C" "i" i j).
    Hypothesis HLn : forall n i j r, In (n, (i, j)) d -> In (n, r) (resonators s) -> L' j j = Le j j.
    Hypothesis Hfuel : enough (ss_par yn) <= fuel.
    Definition facts (i j : nat) (a b l : tree) : Prop :=
      expanded ord fuel (ss_par yn) (K' j j) = Ok a /\ expanded ord fuel (ss_par yn) (K' i j) = Ok b /\ l = match L' j j with Some t => t | None => TNum 0 end.
    Definition ready_st (st : cst tree_alg) : Prop := good rhoo st /\ forall k, RG k -> registered st k.
    Lemma e_symbols k t sy : parametric (ss_par yn) k -> expanded ord fuel (ss_par yn) (Some (TSym (sg k))) = Ok t -> In sy (tfree t) -> exists q, sy = sg q /\ In q (bases e).
    Proof.
      intros Hp E Hsy. destruct Hin as (G & B & R & P). destruct (expanded_ok (rhon e) ord fuel (ss_par yn) k Hord G Hp Hfuel) as (t' & E' & HS). rewrite E in E'. injection E' as <-.
      destruct (HS sy Hsy) as (q & -> & Rq & Nq). exists q. split; [reflexivity|]. destruct (R q Rq) as [|Pq]; [auto|destruct (Nq Pq)].
    Qed.
    Lemma one_round st n i j r : In (n, (i, j)) d -> In (n, r) (resonators s) -> ready_st st -> exists a b l st', facts i j a b l /\ load_one ord X fuel s yn K' L' st (n, (i, j)) = (st', Ok tt) /\
      ready_st st' /\ c_coll st' = c_coll st /\ (forall k, ~ In k (five_names n) -> dget (c_par st') k = dget (c_par st) k) /\ (forall p, In p (five X r a b l) -> exists ns, dget (c_par st') (fst p) = Some (snd p : E tree_alg, ns)).
    Proof.
      intros Hi Hr (G & HG). destruct (HKn n i j Hi) as (K1 & P1 & K2 & P2). assert (Gn := proj1 Hin).
      destruct (expanded_ok (rhon e) ord fuel (ss_par yn) _ Hord Gn P1 Hfuel) as (a & Ea & _). destruct (expanded_ok (rhon e) ord fuel (ss_par yn) _ Hord Gn P2 Hfuel) as (b & Eb & _).
      set (l := match L' j j with Some t => t | None => TNum 0 end). exists a, b, l.
      assert (Hv : forall k, In k (resonator_vars r) -> registered st k) by (intros k Hk; apply HG; right; exists n, r; auto).
      destruct (r_names s n r Hreach Hr) as (_ & _ & Nf & NZ & NC & NL & Ng & Nfl & NZl).
      assert (Sf : dget (c_sym st) (r_fr r) = Some (sym_of (r_fr r))) by (rewrite (good_sym rhoo st (r_fr r) G) by (apply Hv; cbn; auto); rewrite sg_plain; [reflexivity|rewrite Nf; reflexivity]).
      assert (SZ : dget (c_sym st) (r_Zr r) = Some (sym_of (r_Zr r))) by (rewrite (good_sym rhoo st (r_Zr r) G) by (apply Hv; cbn; auto); rewrite sg_plain; [reflexivity|rewrite NZ; reflexivity]).
      assert (Ff : sym_of (r_fr r) = sg (r_fr r)) by (rewrite sg_plain; [reflexivity|rewrite Nf; reflexivity]).
      assert (FZ : sym_of (r_Zr r) = sg (r_Zr r)) by (rewrite sg_plain; [reflexivity|rewrite NZ; reflexivity]).
      assert (Rk0 : rhoo (r_fr r) = 0 /\ rhoo (r_Zr r) = 0) by (rewrite Nf, NZ; split; apply rho_design; auto).
      assert (Rk1 : 1 <= rhoo (r_Cr r) /\ 1 <= rhoo (r_Lr r)) by (rewrite NC, NL; split; apply rho_CL; auto).
      assert (Rk2 : rhoo (r_frl r) = 2 /\ rhoo (r_Zrl r) = 2 /\ rhoo (r_gC r) = 2) by (rewrite Nfl, NZl, Ng; split; [apply rho_loaded; auto|split; [apply rho_loaded; auto|apply rho_g]]).
      assert (HA : forall sy, In sy (tfree a) \/ In sy (tfree b) \/ In sy (tfree l) -> exists c, sy = sg c /\ registered st c /\ rhoo c < 2).
      { intros sy H. assert (Q : exists q, sy = sg q /\ In q (bases e)).
        { destruct H as [H|[H|H]]; [exact (e_symbols _ _ _ P1 Ea H)|exact (e_symbols _ _ _ P2 Eb H)|]. unfold l in H. rewrite (HLn n i j r Hi Hr) in H. destruct (Le j j) as [t|] eqn:Et; [|destruct H].
          destruct e_facts as (Ce & _ & _ & _ & _ & Ecp & _). destruct (linv_names e Ce Ecp (sy_pinv X) ML j j t sy HML Et H) as (c & _ & _ & -> & Hc' & _). exists c. split; [now apply sg_base|]. now apply registered_base. }
        destruct Q as (q & -> & Hq). exists q. split; [reflexivity|]. split; [apply HG, bases_ext, Hq|]. rewrite (rho_base q Hq). lia. }
      assert (HD : forall sy k, 1 <= rhoo k -> sy = sym_of (r_fr r) \/ sy = sym_of (r_Zr r) -> exists c, sy = sg c /\ registered st c /\ rhoo c < rhoo k).
      { intros sy k Hk [-> | ->]; [exists (r_fr r)|exists (r_Zr r)]; (split; [assumption|split; [apply Hv; cbn; auto|destruct Rk0 as [E1 E2]; rewrite ?E1, ?E2; lia]]). }
      destruct (addPs_good ord rhoo Hord (five X r a b l) st G) as (st' & E' & G' & C' & U' & D').
      { rewrite (five_keys s n X r a b l Hreach Hr). apply five_NoDup. }
      { intros p Hp. unfold five in Hp. cbn in Hp. destruct Rk1 as [R1 R2], Rk2 as (R3 & R4 & R5). destruct Hp as [<-|[<-|[<-|[<-|[<-|[]]]]]]; cbn [fst snd]; (split; [apply Hv; cbn; auto 10|]); intros sy Hsy.
        - apply HD; [exact R1|]. apply (so_C X ne HX _ _ _ Hsy).
        - apply HD; [exact R2|]. apply (so_L X ne HX _ _ _ Hsy).
        - rewrite R3. apply HA. apply (so_f X ne HX _ _ _ _ Hsy).
        - rewrite R4. apply HA. apply (so_Z X ne HX _ _ _ _ Hsy).
        - rewrite R5. apply HA. apply (so_g X ne HX _ _ _ _ Hsy). }
      exists st'. split; [|split; [|split; [|split; [exact C'|split; [|exact D']]]]].
      - unfold facts. rewrite K1, K2. split; [exact Ea|]. split; [exact Eb|reflexivity].
      - unfold load_one. cbn [fst snd]. rewrite K1, K2, Ea. cbn [bind]. rewrite Eb. cbn [bind].
        assert (Er : dget (c_res s) n = Some (Some r)) by (apply resonators_In in Hr; apply In_dget; [apply (j_rk s (reachable_Inv2 s Hreach))|exact Hr]).
        rewrite Er. unfold getSymbol. rewrite Sf. cbn [bind]. rewrite SZ. cbn [bind]. exact E'.
      - split; [exact G'|]. intros k Hk. unfold registered. rewrite C'. apply HG, Hk.
      - intros k Hk. apply U'. rewrite (five_keys s n X r a b l Hreach Hr). exact Hk.
    Qed.
    Lemma load_loop : forall l st, (forall x, In x l -> In x d /\ exists r, In (fst x, r) (resonators s)) -> NoDup (map fst l) -> ready_st st ->
      exists st', stepM (load_one ord X fuel s yn K' L') l st = (st', Ok tt) /\ ready_st st' /\ c_coll st' = c_coll st /\
        (forall k, (forall n, In n (map fst l) -> ~ In k (five_names n)) -> dget (c_par st') k = dget (c_par st) k) /\
        (forall n i j r, In (n, (i, j)) l -> In (n, r) (resonators s) -> exists a b t, facts i j a b t /\ forall p, In p (five X r a b t) -> exists ns, dget (c_par st') (fst p) = Some (snd p : E tree_alg, ns)).
    Proof.
      unfold stepM. induction l as [|[n [i j]] l IH]; intros st Hl Hn G; cbn [fold_left].
      - exists st. split; [reflexivity|]. split; [exact G|]. split; [reflexivity|]. split; [auto|intros n i j r []].
      - destruct (Hl (n, (i, j)) (or_introl eq_refl)) as [Hi (r & Hr)]. cbn [fst] in Hr. cbn [map fst] in Hn. apply NoDup_cons_iff in Hn as [Nn Hn].
        destruct (one_round st n i j r Hi Hr G) as (a & b & t & st1 & F1 & E1 & G1 & C1 & U1 & D1). rewrite E1.
        destruct (IH st1) as (st' & E2 & G2 & C2 & U2 & D2); [intros x Hx; apply Hl; right; exact Hx|exact Hn|exact G1|].
        exists st'. split; [exact E2|]. split; [exact G2|]. split; [congruence|]. split.
        + intros k Hk. rewrite U2 by (intros m Hm; apply Hk; right; exact Hm). apply U1. apply Hk. left. reflexivity.
        + intros n' i' j' r' [E|H] Hr'; [|apply (D2 n' i' j' r' H Hr')]. injection E as <- <- <-. assert (r' = r) by (eapply res_unique; eauto). subst r'.
          exists a, b, t. split; [exact F1|]. intros p Hp. destruct (D1 p Hp) as (nm & Dp). exists nm. rewrite U2; [exact Dp|]. intros m Hm Hq. apply Nn.
          assert (Hf : In (fst p) (five_names n)) by (rewrite <- (five_keys s n X r a b t Hreach Hr); now apply in_map). rewrite (five_disjoint n m (fst p) Hf Hq). exact Hm.
    Qed.
  End Load.

  Lemma index_order n i j r : In (n, (i, j)) d -> In (n, r) (resonators s) -> i <= j < ne.
  Proof.
    intros Hi Hr. destruct (indices_place o s st0 e st0' d n i j r Hc H0 Ho He Hd Hi Hr) as (H1 & _ & m & Hj & Hm & Hnm & _). split; [|exact Hj].
    destruct (Nat.le_gt_cases i j) as [|Hlt]; [auto|]. exfalso. apply Hnm. destruct (the_next o s st0 e st0' Hc He) as (next & Hk).
    assert (Hjs : j < ns) by (fold ns in H1; lia). rewrite (sys_ext o s st0 e st0' Ho Hc H0 He next Hk), app_nth1 in Hm by exact Hjs. rewrite <- Hm.
    assert (HI : In (nth j (sys_nodes s) 0) (sys_nodes s)) by (apply nth_In; exact Hjs). apply (nodes_In _ s (circuit_derived s Hc) eq_refl) in HI. tauto.
  Qed.
  Lemma index_res x : In x d -> exists r, In (fst x, r) (resonators s).
  Proof.
    intros H. destruct (indices_total o s st0 e st0' Ho Hc H0 He) as (d' & Hd' & Hm). assert (d' = d) by congruence. subst d'. apply (in_map fst) in H. rewrite Hm in H. apply in_map_iff in H as ([n r] & E & H). cbn in E. exists r. rewrite <- E. exact H.
  Qed.
  Lemma index_nodup : NoDup (map fst d).
  Proof.
    destruct (indices_total o s st0 e st0' Ho Hc H0 He) as (d' & Hd' & Hm). assert (d' = d) by congruence. subst d'. rewrite Hm. change (NoDup (map fst (resonators s))).
    assert (N := j_rk s (reachable_Inv2 s Hreach)). unfold resonators. unfold dkeys in N. induction (c_res s) as [|[n [r|]] l IH]; cbn [flat_map map fst snd app] in *; [constructor| |].
    - apply NoDup_cons_iff in N as [N1 N2]. constructor; [|auto]. intros H. apply N1. apply in_map_iff in H as ([m q] & E & H). cbn in E. subst m. apply in_flat_map in H as ([k [z|]] & Hk & H); cbn in H; [|easy]. destruct H as [H|[]]. injection H as -> _. now apply (in_map fst) in Hk.
    - apply NoDup_cons_iff in N as [_ N]. auto.
  Qed.
  Definition QK (K : tmat) : Prop :=
    (forall i j t sy, i < ne -> j < ne -> K i j = Some t -> In sy (tfree t) -> exists k l t', k < ne /\ l < ne /\ shown Mc k l = Some t' /\ In sy (tfree t')) /\
    (forall n i j, In (n, (i, j)) d -> exists t u, K j j = Some t /\ 2 <= List.length (tfree t) /\ K i j = Some u /\ 2 <= List.length (tfree u)) /\
    (forall v W, inverse ne (fun i j => entry_val v (shown Mc i j)) W -> forall i j, i < ne -> j < ne -> entry_val v (K i j) = W i j).
  Lemma inverse_ext n A B W : (forall i j, i < n -> j < n -> A i j = B i j) -> inverse n A W -> inverse n B W.
  Proof.
    intros E H i j Hi Hj. destruct (H i j Hi Hj) as [H1 H2]. split; [rewrite <- H1|rewrite <- H2]; unfold mmul; apply (@MatFacts.sumn_ext R_rng); intros k Hk; rewrite E; auto.
  Qed.
  Lemma gen_base k : gen e k -> ~ In k (bases e).
  Proof.
    intros Hg Hb. destruct e_facts as (Ce & _ & G0 & _). destruct Hg as [(i & j & Hi & ->)|[(i & j & Hi & ->)|(i & j & Hi & ->)]]; apply upper_In in Hi.
    - eapply (base_mat e Ce "L" "i"); eauto.
    - eapply (base_mat e Ce "C" ""); eauto.
    - eapply (base_mat e Ce "C" "i"); eauto.
  Qed.
  Lemma lval_same v v' i j : (forall c, In c (registered_names e) -> v (sym_of c) = v' (sym_of c)) -> lval (fun c => v (sym_of c)) (Mc i j) = lval (fun c => v' (sym_of c)) (Mc i j).
  Proof.
    intros H. destruct e_facts as (Ce & _ & _ & _ & _ & _ & Hr & _). assert (T : forall t z, In (t, z) (Mc i j) -> tval (fun c => v (sym_of c)) t = tval (fun c => v' (sym_of c)) t).
    { intros t z Ht. destruct (cap_terms_ok e Mc (reachable_Inv2 e (circuit_reachable e Ce)) Hr HMc i j t z Ht) as (c & -> & _ & Hc'). cbn. auto. }
    induction (Mc i j) as [|[t z] l IH]; [reflexivity|]. cbn [lval fold_right fst snd]. rewrite (T t z) by (left; reflexivity). f_equal. apply IH. intros t' z' H'. apply (T t' z'). right. exact H'.
  Qed.
  Lemma outer : has_resonators s = true -> exists N, forall fuel, N <= fuel -> exists y, new_full ord X fuel o s = Ok y /\ ss_cg y = s /\ ss_nodes y = sys_nodes s /\ ss_edges y = wcs s /\
    forall n i j r, In (n, (i, j)) d -> In (n, r) (resonators s) -> exists a b l, (forall p, In p (five X r a b l) -> stored y (fst p) (snd p)) /\
      (ne <= 111 -> forall v W, inverse ne (fun i j => lval (fun c => v (sym_of c)) (Mc i j)) W -> rval v a = W j j /\ rval v b = W i j) /\
      (forall v, (forall b, In b (branches_of "L" (c_graph e)) -> v (sym_of (snd b)) <> 0%R) -> rval v l = (/ v (sym_of (r_Lr r)))%R).
  Proof.
    intros Hres. destruct e_facts as (Ce & Ne & G0 & Ec & Ef & Ecp & Hre & Hn & HR & HS).
    assert (Hm : forall b, In b (dvals (c_fbias e)) -> fb_mutual b = None) by (rewrite Ef; exact Hmut).
    destruct (nested ord X e Mc ML Hord Ce G0 Hre Ecp Hm e_legal) with (Q := QK) as (y & y2 & K' & y3 & L' & K & E1 & E2 & E3 & I3 & Q & HK & HL & HV); auto; try (rewrite ?Ef, ?Ec; assumption).
    { intros y y' M Hy HM HSh. destruct (HF y y' M Hy HM) as (K & EK & H2). exists K. split; [exact EK|]. destruct (so_inv X ne HX M K EK) as [S1 S2]. split; [|split; [exact H2|]].
      - intros i j t sy Hi Hj Ht Hsy. destruct (S1 i j t sy Hi Hj Ht Hsy) as (k & l & u & Hk & Hl & Hu & Hx). exists k, l, u. rewrite <- HSh by assumption. auto.
      - intros v W HW. apply S2. eapply inverse_ext; [|exact HW]. intros i j Hi Hj. cbv beta. now rewrite HSh. }
    { intros M i j t sy (S1 & _) Hi Ht Hsy. apply upper_In in Hi. apply (S1 i j t sy); auto; lia. }
    exists (enough (ss_par y3)). intros fuel Hfuel.
    destruct (create_good s Hc Hcoup Hmut Hlegal Hfsfx Hcsfx Hedges rhoo) as (st1 & fl & st2 & st3 & A1 & Af & A2 & A3 & G3 & P3 & R3).
    assert (He' := He). unfold extended in He'. destruct (next_node s) as [next|] eqn:Hk; [|discriminate]. destruct (attach_state o _ _ _ _ _ _ _ He' (removed_covered s)) as (_ & AT).
    destruct (AT rhoo st3 G3 all_vars_ok) as (st4 & A4 & G4 & P4 & R4).
    assert (RD : ready_st st4) by (split; [exact G4|]; intros k Hk'; apply R4; destruct Hk' as [Hk'|Hk']; [left; apply R3, Hk'|right; exact Hk']).
    assert (HKn : forall n i j, In (n, (i, j)) d -> K' j j = Some (TSym (sg (mat_name "C" "i" j j))) /\ parametric (ss_par y3) (mat_name "C" "i" j j) /\
      K' i j = Some (TSym (sg (mat_name "C" "i" i j))) /\ parametric (ss_par y3) (mat_name "C" "i" i j)).
    { intros n i j Hi. destruct (index_res _ Hi) as (r & Hr). cbn [fst] in Hr. assert (Hij := index_order n i j r Hi Hr). destruct Q as (_ & Q2 & _). destruct (Q2 n i j Hi) as (t & u & T1 & T2 & U1 & U2).
      destruct (HK j j t) as [X1 X2]; [fold ne; lia|exact T1|exact T2|]. destruct (HK i j u) as [X3 X4]; [fold ne; lia|exact U1|exact U2|]. auto. }
    assert (HLn : forall n i j r, In (n, (i, j)) d -> In (n, r) (resonators s) -> L' j j = Le j j) by (intros n i j r Hi Hr; apply HL; intros t Ht; exact (Ljj_small n i j r t Hi Hr Ht)).
    destruct (load_loop y3 K' L' fuel I3 HKn HLn Hfuel d st4) as (st5 & A5 & (G5 & R5) & C5 & U5 & D5); [intros x Hx; split; [exact Hx|apply index_res, Hx]|exact index_nodup|exact RD|].
    assert (BR : forall c, In c (registered_names s) -> registered st5 c /\ In c (bases e)).
    { intros c Hc'. split; [apply R5; left; unfold bases; apply in_or_app; auto|]. apply registered_base, HS, Hc'. }
    destruct (parameterise_good ord rhoo Hord (mat_name "L" "i") Ls) with (l := upper ns) (st := st5) as (st6 & A6 & G6 & R6 & P6 & _); [intros i j; apply mat_ok; (reflexivity || discriminate)|exact G5| |].
    { intros i j t sy Hi Ht Hsy. destruct (linv_names s Hc Hcoup (sy_pinv X) MLs i j t sy HMLs Ht Hsy) as (c & _ & _ & -> & Hc' & _). destruct (BR c Hc') as [B1 B2]. exists c. split; [apply sg_base, HS, Hc'|]. split; [exact B1|]. rewrite (rho_base c B2), (rho_gen i j Hi). lia. }
    destruct (modes_total (fun i j => match Ls i j with None => true | Some _ => false end) (sys_nodes s)) as (md & Ed & _); [apply nodes_NoDup with (s := s); auto; apply circuit_derived, Hc|].
    eexists. split; [|split; [|split; [|split]]].
    - unfold new_full. rewrite (proj2 (mem_In _ _) H0). cbn [negb]. rewrite (wcs_wc s (circuit_derived s Hc)). cbv zeta. unfold create_symbols. rewrite A1. unfold ok_st. cbn [fst snd bind]. rewrite Af. cbn [bind]. rewrite A2. cbn [fst snd bind]. rewrite A3. cbn [fst snd bind].
      rewrite Hres. unfold load_resonators, extended. rewrite Hk, A4. rewrite Hd. cbn [bind]. rewrite E1, E2, E3, A5. unfold ok_st. cbn [fst snd bind]. rewrite HMLs. cbn [bind].
      change (linv_tree (sy_pinv X) s (sys_nodes s) (wcs s) MLs) with Ls. change (List.length (sys_nodes s)) with ns. unfold parameterise. rewrite A6. cbn [fst snd bind]. rewrite Ed. cbn [bind]. reflexivity.
    - reflexivity.
    - reflexivity.
    - reflexivity.
    - intros n i j r Hi Hr. destruct (D5 n i j r Hi Hr) as (a & b & l & (Fa & Fb & Fl) & D). exists a, b, l. destruct (HKn n i j Hi) as (K1 & X1 & K2 & X2). assert (Hij := index_order n i j r Hi Hr). split; [|split].
      + intros p Hp. destruct (D p Hp) as (nm & Hnm). exists nm. cbn [ss_par]. rewrite P6; [exact Hnm|]. intros (i' & j' & t & _ & _ & _ & Ep).
        assert (Hq : In (fst p) (five_names n)) by (rewrite <- (five_keys s n X r a b l Hreach Hr); now apply in_map). rewrite Ep in Hq. exact (five_mat n i' j' Hq).
      + intros Hsmall v W HW. destruct (solve (rhon e) (ss_par y3) v (proj1 I3) 3) as (v' & Cv & Ev); [intros k; unfold rhon; destruct (mem _ _); [lia|destruct (existsb _ _); lia]|].
        assert (EB : forall q, In q (bases e) -> v' (sg q) = v (sg q)) by (intros q Hq; apply Ev; [apply I3, Hq|]; intros Hp; apply (proj2 (proj2 (proj2 I3))) in Hp; exact (gen_base q Hp Hq)).
        destruct (HV Hsmall v' Cv) as [V1 V2]. destruct Q as (_ & Q2 & Q3). destruct (Q2 n i j Hi) as (t & u & T1 & T2 & U1 & U2).
        assert (HW' : inverse ne (fun i j => entry_val v' (shown Mc i j)) W).
        { eapply inverse_ext; [|exact HW]. intros p q Hp Hq. cbv beta. rewrite V1; [|exact Hp|exact Hq|].
          - rewrite lin_tree_val. apply lval_same. intros c Hc'. rewrite (sg_base c Hc'). symmetry. apply EB. now apply registered_base.
          - right. rewrite !lin_tree_val. apply (c_cap_sym e Ce); auto. }
        assert (FR : forall k w, parametric (ss_par y3) k -> expanded ord fuel (ss_par y3) (Some (TSym (sg k))) = Ok w -> rval v w = v' (sg k)).
        { intros k w Hp Hw. rewrite <- (expanded_val (rhon e) ord fuel (ss_par y3) k w v' Hord (proj1 I3) Hp Hw Cv). apply rval_ext. intros x Hx. destruct (e_symbols y3 fuel I3 Hfuel k w x Hp Hw Hx) as (q & -> & Hq). symmetry. apply EB, Hq. }
        rewrite K1 in Fa. rewrite K2 in Fb. rewrite (FR _ _ X1 Fa), (FR _ _ X2 Fb). rewrite (V2 j j t) by (auto; fold ne; lia). rewrite (V2 i j u) by (auto; fold ne; lia).
        assert (Z1 := Q3 v' W HW' j j). assert (Z2 := Q3 v' W HW' i j). rewrite T1 in Z1. rewrite U1 in Z2. cbn [entry_val] in Z1, Z2. split; [apply Z1; lia|apply Z2; lia].
      + intros v Hv. rewrite <- (Ljj_value n i j r v Hi Hr Hv). rewrite Fl, (HLn n i j r Hi Hr). destruct (Le j j); reflexivity.
  Qed.
End Outer.

(** ** the whole constructor *)
Lemma constructed ord X o s e st st' : good_ord ord -> circuit s -> In 0 (g_nodes (c_graph s)) -> (forall k, valid_orders (o k)) -> extended o s st = ((e, st'), Ok tt) -> has_resonators s = true ->
  c_coupled s = [] -> (forall b, In b (dvals (c_fbias s)) -> fb_mutual b = None) -> (forall c, In c (registered_names s) -> legal c) ->
  (forall n r, In (n, r) (coupled_resonators s) -> has_space (r_coupling r) = false) -> (forall b, In b (dvals (c_fbias s)) -> has_space (fb_suffix b) = false) -> (forall b, In b (dvals (c_cbias s)) -> has_space (cb_suffix b) = false) ->
  (forall f, In f (dkeys (c_fbias s)) -> In f (wcs s) /\ In f (wcs e)) -> unnumbered e "L" "i" -> unnumbered e "C" "" -> unnumbered e "C" "i" ->
  sympy_ok X (List.length (sys_nodes e)) -> (forall d, coupled_indices s e = Ok d -> inverse_found ord X e d) ->
  exists d Me N, coupled_indices s e = Ok d /\ map fst d = map fst (coupled_resonators s) /\ capacitance_matrix e = Ok Me /\
  forall fuel, N <= fuel -> exists y, new_full ord X fuel o s = Ok y /\ ss_cg y = s /\ ss_nodes y = sys_nodes s /\ ss_edges y = wcs s /\
  forall n i j r, In (n, (i, j)) d -> In (n, r) (coupled_resonators s) ->
  stored y (r_Cr r) (sy_C X (sym_of (r_fr r)) (sym_of (r_Zr r))) /\ stored y (r_Lr r) (sy_L X (sym_of (r_fr r)) (sym_of (r_Zr r))) /\
  exists a b l, stored y (r_frl r) (sy_f X a b l) /\ stored y (r_Zrl r) (sy_Z X a b l) /\ stored y (r_gC r) (sy_g X a b l) /\
    (List.length (sys_nodes e) <= 111 -> forall v W, inverse (List.length (sys_nodes e)) (fun i j => lval (fun c => v (sym_of c)) (Me i j)) W -> rval v a = W j j /\ rval v b = W i j) /\
    (forall v, (forall b, In b (branches_of "L" (c_graph e)) -> v (sym_of (snd b)) <> 0%R) -> rval v l = (/ v (sym_of (r_Lr r)))%R).
Proof.
  intros Hord Hc H0 Ho He Hres Hcoup Hmut Hleg Hrsp Hf Hq Hed HuL HuC HuK HX HF.
  destruct (indices_total o s st e st' Ho Hc H0 He) as (d & Hd & Hm).
  assert (Hfb : forall f b, dget (c_fbias s) f = Some b -> fb_mutual b = None) by (intros f b H; apply Hmut; apply dget_In in H; exact (in_map snd _ _ H)).
  destruct (c_inductance_defined s Hc (wcs s) (wcs_wc s (circuit_derived s Hc)) Hcoup Hfb) as (MLs & HMLs & _).
  destruct (ext_branches o s st e st' Hc H0 Ho He) as (Ce & _ & _ & Ef & Ecp & _).
  destruct (c_inductance_defined e Ce (wcs e) (wcs_wc e (circuit_derived e Ce)) (eq_trans Ecp Hcoup)) as (ML & HML & _); [rewrite Ef; exact Hfb|].
  assert (He' := He). unfold extended in He'. destruct (next_node s) as [next|] eqn:Hk; [|discriminate]. destruct (attach_state o _ _ _ _ _ _ _ He' (removed_covered s)) as (Hcov & _).
  destruct (cap_defined e (circuit_derived e Ce) Hcov) as (Me & HMe).
  destruct (outer ord X o s e st st' d Me ML MLs Hord Hc H0 Ho He Hd Hcoup Hmut Hleg Hrsp Hf Hq (fun f H => proj1 (Hed f H)) (fun f H => proj2 (Hed f H)) HuL HuC HuK HMe HML HMLs HX (HF d Hd) Hres) as (N & HN).
  exists d, Me, N. split; [exact Hd|]. split; [exact Hm|]. split; [exact HMe|]. intros fuel Hfu. destruct (HN fuel Hfu) as (y & E & Y1 & Y2 & Y3 & HY). exists y. split; [exact E|]. split; [exact Y1|]. split; [exact Y2|]. split; [exact Y3|].
  intros n i j r Hi Hr. destruct (HY n i j r Hi Hr) as (a & b & l & HS & HA & HB). split; [apply (HS (_, _)); left; reflexivity|]. split; [apply (HS (_, _)); right; left; reflexivity|].
  exists a, b, l. split; [apply (HS (_, _)); do 2 right; left; reflexivity|]. split; [apply (HS (_, _)); do 3 right; left; reflexivity|]. split; [apply (HS (_, _)); do 4 right; left; reflexivity|]. split; [exact HA|exact HB].
Qed.
(** without resonators this is the constructor of Symbolic.v *)
Lemma plain ord X fuel o s r : has_resonators s = false -> new_system ord (sy_pinv X) s = Some r -> new_full ord X fuel o s = r.
Proof.
  intros H. unfold new_system, new_full, create_symbols. rewrite H. destruct (negb _); [intros [= <-]; reflexivity|]. destruct (c_wc s) as [edges|]; [|intros [= <-]; reflexivity]. cbv zeta. intros [= <-].
  destruct (ok_st (add_all (map (fun c => (c, None)) (registered_names s)) _)) as [st|]; [|reflexivity]. cbn [bind]. destruct (flux_symbols s edges) as [fl|]; [|reflexivity]. cbn [bind].
  destruct (ok_st (add_all _ st)) as [st1|]; [|reflexivity]. cbn [bind]. destruct (ok_st (add_all _ st1)) as [st2|]; reflexivity.
Qed.
Lemma loaded_values ord X o s e st st' : good_ord ord -> circuit s -> In 0 (g_nodes (c_graph s)) -> (forall k, valid_orders (o k)) -> extended o s st = ((e, st'), Ok tt) -> has_resonators s = true ->
  c_coupled s = [] -> (forall b, In b (dvals (c_fbias s)) -> fb_mutual b = None) -> (forall c, In c (registered_names s) -> legal c) ->
  (forall n r, In (n, r) (coupled_resonators s) -> has_space (r_coupling r) = false) -> (forall b, In b (dvals (c_fbias s)) -> has_space (fb_suffix b) = false) -> (forall b, In b (dvals (c_cbias s)) -> has_space (cb_suffix b) = false) ->
  (forall f, In f (dkeys (c_fbias s)) -> In f (wcs s) /\ In f (wcs e)) -> unnumbered e "L" "i" -> unnumbered e "C" "" -> unnumbered e "C" "i" ->
  sympy_ok X (List.length (sys_nodes e)) -> (forall d, coupled_indices s e = Ok d -> inverse_found ord X e d) -> List.length (sys_nodes e) <= 111 ->
  exists Me N, capacitance_matrix e = Ok Me /\ forall fuel, N <= fuel -> exists y, new_full ord X fuel o s = Ok y /\
  forall n r, In (n, r) (coupled_resonators s) -> exists i a b l, nth_error (sys_nodes s) i = Some n /\ stored y (r_frl r) (sy_f X a b l) /\ stored y (r_Zrl r) (sy_Z X a b l) /\ stored y (r_gC r) (sy_g X a b l) /\
  forall v W, inverse (List.length (sys_nodes e)) (fun i j => lval (fun c => v (sym_of c)) (Me i j)) W ->
    (forall b, In b (branches_of "L" (c_graph e)) -> v (sym_of (snd b)) <> 0%R) -> (forall n r, In (n, r) (coupled_resonators s) -> (v (sym_of (r_coupling r)) + v (sym_of (r_Cr r)) <> 0)%R) ->
    let cc := v (sym_of (r_coupling r)) in let cr := v (sym_of (r_Cr r)) in
    (rval v a = 1 / (cc + cr) + (cc / (cc + cr)) * (cc / (cc + cr)) * W i i /\ rval v b = cc / (cc + cr) * W i i /\ rval v l = / v (sym_of (r_Lr r)))%R.
Proof.
  intros Hord Hc H0 Ho He Hres Hcoup Hmut Hleg Hrsp Hf Hq Hed HuL HuC HuK HX HF Hsmall.
  destruct (constructed ord X o s e st st' Hord Hc H0 Ho He Hres Hcoup Hmut Hleg Hrsp Hf Hq Hed HuL HuC HuK HX HF) as (d & Me & N & Hd & Hk & HMe & HN). exists Me, N. split; [exact HMe|].
  intros fuel Hfu. destruct (HN fuel Hfu) as (y & E & _ & _ & _ & HY). exists y. split; [exact E|]. intros n r Hr.
  assert (Hn : In n (map fst d)) by (rewrite Hk; apply (in_map fst) in Hr; exact Hr). apply in_map_iff in Hn as ([n' [i j]] & En & Hi). cbn in En. subst n'. destruct (HY n i j r Hi Hr) as (_ & _ & a & b & l & S1 & S2 & S3 & HA & HB).
  exists i, a, b, l. destruct (index_small o s st e st' Ho Hc H0 He d n i j r Hd Hi Hr) as [I1 I2]. split; [rewrite (nth_error_nth' _ 0 I1), I2; reflexivity|]. split; [exact S1|]. split; [exact S2|]. split; [exact S3|].
  intros v W HW HvL Hsum. cbv zeta. destruct (HA Hsmall v W HW) as [-> ->].
  destruct (ext_branches o s st e st' Hc H0 Ho He) as (Ce & _ & _ & Ef & Ecp & _).
  assert (Hfb : forall f b, dget (c_fbias e) f = Some b -> fb_mutual b = None) by (rewrite Ef; intros f q H; apply Hmut; apply dget_In in H; exact (in_map snd _ _ H)).
  destruct (c_inductance_defined e Ce (wcs e) (wcs_wc e (circuit_derived e Ce)) (eq_trans Ecp Hcoup) Hfb) as (ML & HML & _).
  destruct (pinv_exists e (fun c => v (sym_of c)) ML (circuit_derived e Ce) (eq_trans Ecp Hcoup) HML) as (P & HP).
  destruct (f_elements o s st e st' Ho Hc H0 He (fun c => v (sym_of c)) Me W HMe HW (wcs e) ML P (wcs_wc e (circuit_derived e Ce)) Hcoup HML HP HvL d n i j r Hd Hi Hr Hsum) as (F1 & F2 & _).
  split; [exact F2|]. split; [exact F1|]. apply HB, HvL.
Qed.
