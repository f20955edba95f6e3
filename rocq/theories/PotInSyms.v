(** The parameters and biases of a constructed system, for C124. *)
From Coq Require Import List Bool String Ascii Arith ZArith Reals Permutation Lia.
From Verif Require Import Prelude PreludeFacts Float Param Expr ExprProofs Coll CollGraph CollSpec CollProofs CollExpand CollUpdate Mat Graph GraphSpec GraphView GraphForest GraphWf GraphCircuit GraphState GraphMaps GraphOps GraphProofs Symbolic SymbolicSpec SymbolicInv SymbolicCap SymbolicCap2 SymbolicFlux SymbolicParam SymbolicInit SymbolicNew SymbolicMat SymbolicProofs Sweep Reson ResonInit ResonInitProofs ResonInitNest SymHam SymHamProofs.
Import ListNotations.
Open Scope string_scope.
Open Scope list_scope.
Open Scope nat_scope.

(** ** mutual inductances of flux biases *)
Definition mutual_ok (s : cg) : Prop := forall b m, In b (dvals (c_fbias s)) -> fb_mutual b = Some m -> starts "M" m = true.
Lemma flux_mutual s c sfx m s' : addFluxBias s c sfx m = (s', Ok tt) -> forall x, m = Some x -> starts "M" x = true.
Proof.
  unfold addFluxBias. intros H x ->. revert H. destruct (getComponentEdge s c) as [e|]; [|discriminate]. cbn [bind]. destruct (isEdgeInLoop s e) as [[]|]; [|discriminate|discriminate]. cbn [bind negb].
  destruct sfx as [z|]; [|discriminate]. destruct (8 <? _); [discriminate|]. destruct (c_wc s) as [wc|]; [|discriminate]. destruct (negb _ && negb _); [discriminate|]. destruct x as [|a r]; [discriminate|].
  destruct (negb (starts "M" _)) eqn:E; [discriminate|]. intros _. now apply negb_false_iff in E.
Qed.
Lemma reachable_mutual s : reachable s -> mutual_ok s.
Proof.
  induction 1 as [|s o Hr IH]; [easy|]. revert IH. generalize s. clear. intros s H. destruct o as [oo a b c|i1 i2 m|n c| |c sfx m|n sfx c]; cbn [gstep].
  - destruct (branch_keeps oo s a b c) as (E1 & _). unfold mutual_ok. rewrite E1. exact H.
  - destruct (couple_result s i1 i2 m) as [(p & -> & _)|(x & ->)]; exact H.
  - destruct (res_result s n c) as [(r & -> & _)|(x & ->)]; exact H.
  - exact H.
  - destruct (flux_result s c sfx m) as [(e & b & E & _ & _ & _ & Em)|(x & ->)]; [|exact H]. rewrite E. cbn [fst set_fbias]. intros b' m' Hb Hm. cbn [c_fbias set_fbias] in Hb.
    apply dvals_dset in Hb as [->|Hb]; [|eauto]. eapply flux_mutual; [exact E|congruence].
  - destruct (charge_result s n sfx c) as [(b & -> & _)|(x & ->)]; exact H.
Qed.
Lemma registered_plain s c : circuit s -> In c (registered_names s) -> phi_name c = None.
Proof.
  intros Hc. assert (HD := circuit_derived s Hc). unfold registered_names. rewrite !in_app_iff. intros [H|[H|[H|H]]].
  - eapply Permutation_in in H; [|apply edge_map_vals, HD]. apply in_map_iff in H as (b & <- & Hb). assert (V := d_valid s HD b Hb). apply phi_name_not. rewrite <- branch_valid in V.
    destruct (snd b) as [|a r]; [reflexivity|]. cbn in V |- *. destruct (Ascii.eqb_spec a "p") as [->|]; [discriminate|reflexivity].
  - apply phi_name_not. assert (M := i_mm s (reachable_Inv s (circuit_reachable s Hc)) c H). destruct c as [|a r]; [reflexivity|]. cbn in M |- *. apply Ascii.eqb_eq in M. subst a. reflexivity.
  - apply in_flat_map in H as (b & Hb & H). destruct (cb_cap b) as [c'|] eqn:E; [|easy]. destruct H as [<-|[]]. assert (J := j_gate s (reachable_Inv2 s (circuit_reachable s Hc)) b c' Hb E).
    apply phi_name_not. destruct c' as [|a r]; [discriminate|]. cbn in J |- *. apply Ascii.eqb_eq in J. subst a. reflexivity.
  - apply in_flat_map in H as (b & Hb & H). destruct (fb_mutual b) as [c'|] eqn:E; [|easy]. destruct H as [<-|[]]. assert (J := reachable_mutual s (circuit_reachable s Hc) b c' Hb E).
    apply phi_name_not. destruct c' as [|a r]; [discriminate|]. cbn in J |- *. apply Ascii.eqb_eq in J. subst a. reflexivity.
Qed.

(** ** the symbols of the collection *)
Record syms_ok (st : cst tree_alg) : Prop := {
  sk_keys : dkeys (c_coll st) = dkeys (c_sym st);
  sk_nd : NoDup (dkeys (c_sym st));
  sk_sg : forall k sy, dget (c_sym st) k = Some sy -> sy = sg k
}.
Lemma stepM_cons {A S} (f : S -> A -> S * res unit) x l s s' : stepM f (x :: l) s = (s', Ok tt) -> exists s1, f s x = (s1, Ok tt) /\ stepM f l s1 = (s', Ok tt).
Proof.
  unfold stepM. cbn [fold_left]. destruct (f s x) as [s1 [[]|e]]; [eauto|]. intros H. exfalso. revert H. induction l as [|y l IH]; cbn [fold_left]; [discriminate|exact IH].
Qed.
Lemma param_default_sym nm p : param_default nm = Ok p -> p_symbol p = sym_of nm.
Proof.
  intros H. destruct nm as [|a r]; [exfalso; revert H; unfold param_default, param_new; cbn [has_space]; change (bounds_types_ok _ _) with true; cbv beta iota delta [negb]; destruct (py_gt _ _); [discriminate|]; destruct (valid_scalar _); [|discriminate]; cbn [to_float bind]; destruct (flt _ _); discriminate|].
  destruct (has_space (String a r)) eqn:E; [exfalso; revert H; unfold param_default, param_new; rewrite E; discriminate|].
  destruct (param_default_ok (String a r) ltac:(discriminate) E) as (p' & E' & S). congruence.
Qed.
Lemma add_syms st nm o st' : syms_ok st -> addParameter st nm o = (st', Ok tt) -> (o = None /\ phi_name nm = None \/ o = Some (sg nm)) ->
  syms_ok st' /\ (forall k, In k (dkeys (c_sym st')) <-> In k (dkeys (c_sym st)) \/ k = nm).
Proof.
  intros [H1 H2 H3] E Ho. unfold addParameter in E. destruct (dmem (c_coll st) nm) eqn:Ed.
  - injection E as <-. split; [split; auto|]. intros k. split; [auto|intros [| ->]; auto]. rewrite <- H1. now apply mem_In in Ed.
  - destruct (param_default nm) as [p|] eqn:Ep; [|discriminate]. injection E as <-. apply mem_nIn in Ed. apply param_default_sym in Ep. split; [split; cbn [c_coll c_sym]|].
    + rewrite !dkeys_dset_new; [now rewrite H1|rewrite <- H1; exact Ed|exact Ed].
    + apply NoDup_dset. exact H2.
    + intros k sy. rewrite dget_dset. destruct (eqb_spec k nm) as [->|]; [|auto]. intros [= <-]. destruct Ho as [[-> Hn]| ->]; cbn; [|reflexivity]. unfold sg. now rewrite Hn.
    + intros k. cbn [c_sym]. rewrite In_dkeys_dset. tauto.
Qed.
Lemma add_all_syms l : forall st st', syms_ok st -> add_all l st = (st', Ok tt) -> (forall x, In x l -> snd x = None /\ phi_name (fst x) = None \/ snd x = Some (sg (fst x))) ->
  syms_ok st' /\ (forall k, In k (dkeys (c_sym st')) <-> In k (dkeys (c_sym st)) \/ In k (map fst l)).
Proof.
  unfold add_all. induction l as [|x l IH]; intros st st' H E Hl.
  - injection E as <-. split; auto. intros k. cbn. tauto.
  - apply stepM_cons in E as (s1 & E1 & E2). destruct (add_syms st _ _ s1 H E1 (Hl x (or_introl eq_refl))) as [G1 G2]. destruct (IH s1 st' G1 E2) as [K1 K2]; [intros; apply Hl; right; auto|].
    split; auto. intros k. rewrite K2, G2. cbn. intuition congruence.
Qed.
Lemma parameterise_syms ord name n M : (forall i j, phi_name (name i j) = None) -> forall st st', syms_ok st -> parameterise ord name n M st = (st', Ok tt) ->
  syms_ok st' /\ (forall k, In k (dkeys (c_sym st)) -> In k (dkeys (c_sym st'))).
Proof.
  intros Hn. unfold parameterise. generalize (upper n). induction l as [|x l IH]; intros st st' H E; [injection E as <-; auto|].
  apply stepM_cons in E as (s1 & E1 & E2). assert (G : syms_ok s1 /\ (forall k, In k (dkeys (c_sym st)) -> In k (dkeys (c_sym s1)))).
  { unfold parameterise_entry in E1. destruct (M (fst x) (snd x)) as [e|]; [|injection E1 as <-; auto]. destruct (_ <? 2); [injection E1 as <-; auto|].
    destruct (addParameter st (name (fst x) (snd x)) None) as [s2 [[]|]] eqn:Ea; [|discriminate]. destruct (add_syms st _ _ s2 H Ea) as [G1 G2]; [left; auto|].
    assert (Es : c_coll s1 = c_coll s2 /\ c_sym s1 = c_sym s2).
    { unfold addParameterisation in E1. destruct (negb _); [discriminate|]. destruct (expr_names _ _); [|discriminate]. destruct (is_dag _ _); [|discriminate]. injection E1 as <-. auto. }
    destruct Es as [Es1 Es2]. split; [destruct G1; split; rewrite ?Es1, ?Es2; auto|]. intros k Hk. rewrite Es2. apply G2. auto. }
  destruct G as [G1 G2]. destruct (IH s1 st' G1 E2) as [K1 K2]. auto.
Qed.
Lemma sg_phi x : sg ("phi" ++ x) = ("\Phi_{" ++ x ++ "}")%string. Proof. reflexivity. Qed.
Lemma find_phi st x : syms_ok st -> In ("phi" ++ x)%string (dkeys (c_sym st)) -> getParameterFromSymbol st ("\Phi_{" ++ x ++ "}")%string = Ok ("phi" ++ x)%string.
Proof.
  intros H Hk. rewrite <- sg_phi. unfold getParameterFromSymbol.
  assert (G : find_symbol (c_sym st) (sg ("phi" ++ x)) = Some ("phi" ++ x)%string); [|now rewrite G]. revert Hk. assert (S : forall k sy, In (k, sy) (c_sym st) -> sy = sg k).
  { intros k sy Hi. apply (sk_sg st H). apply In_dget; [apply H|exact Hi]. }
  revert S. generalize (c_sym st). clear. induction d as [|[k v] d IH]; intros S Hk; [destruct Hk|]. cbn [find_symbol]. assert (E : v = sg k) by (apply S; left; reflexivity). subst v.
  destruct (Prelude.eqb_spec (sg ("phi" ++ x)) (sg k)) as [E|N].
  - apply sg_inj in E. now subst k.
  - apply IH; [intros; apply S; right; auto|]. destruct Hk as [E|Hk]; [|exact Hk]. cbn in E. exfalso. apply N. now rewrite E.
Qed.

(** ** the biases *)
Lemma flux_symbols_src s edges d : flux_symbols s edges = Ok d -> forall e l x, dget d e = Some l -> In x l -> exists b, In (e, b) (c_fbias s) /\ fb_suffix b = x.
Proof.
  unfold flux_symbols.
  assert (H0 : forall e l x, dget (fold_left (fun (d : dict edge (list string)) e => dset d e []) edges []) e = Some l -> In x l -> exists b, In (e, b) (c_fbias s) /\ fb_suffix b = x).
  { assert (G : forall es (d : dict edge (list string)), (forall e l, dget d e = Some l -> l = []) -> forall e l, dget (fold_left (fun d e => dset d e []) es d) e = Some l -> l = []).
    { induction es as [|a es IH]; intros d0 Hd e l; cbn [fold_left]; [apply Hd|]. apply IH. intros e' l'. rewrite dget_dset. destruct (eqb_spec e' a); [congruence|apply Hd]. }
    intros e l x E Hx. apply (G edges [] ltac:(discriminate)) in E. subst l. destruct Hx. }
  revert H0. generalize (fold_left (fun (d : dict edge (list string)) e => dset d e []) edges []). intros d0 H0.
  assert (G : forall fs, (forall z, In z fs -> In z (c_fbias s)) -> forall d0 d, (forall e l x, dget d0 e = Some l -> In x l -> exists b, In (e, b) (c_fbias s) /\ fb_suffix b = x) ->
    foldM (fun d x => match dget d (fst x) with None => Err KeyError | Some l => Ok (dset d (fst x) (l ++ [fb_suffix (snd x)])) end) fs d0 = Ok d ->
    forall e l x, dget d e = Some l -> In x l -> exists b, In (e, b) (c_fbias s) /\ fb_suffix b = x).
  { clear. induction fs as [|[f b] fs IH]; intros Hin d0 d H0; cbn [foldM]; [intros [= <-]; exact H0|]. cbn [fst snd]. destruct (dget d0 f) as [l0|] eqn:E0; [|discriminate]. cbn [bind].
    apply IH; [intros; apply Hin; right; auto|]. intros e l x. rewrite dget_dset. destruct (eqb_spec e f) as [->|]; [|apply H0]. intros [= <-]. rewrite in_app_iff. intros [Hx|[<-|[]]]; [eapply H0; eauto|].
    exists b. split; [apply Hin; left; reflexivity|reflexivity]. }
  apply (G (c_fbias s) ltac:(auto) d0). exact H0.
Qed.
Record bias_inv (y : ssys) : Prop := {
  bi_syms : syms_ok (ss_par y);
  bi_reg : forall e l x, dget (ss_flux y) e = Some l -> In x l -> In ("phi" ++ x)%string (dkeys (c_sym (ss_par y)));
  bi_one : forall e e' l l' x, dget (ss_flux y) e = Some l -> dget (ss_flux y) e' = Some l' -> In x l -> In x l' -> e = e'
}.
Lemma mat_name_plain p sfx i j : starts "p" p = false -> p <> "" -> phi_name (mat_name p sfx i j) = None.
Proof. intros H N. apply phi_name_not. unfold mat_name. destruct p as [|a r]; [congruence|]. exact H. Qed.
Lemma new_bias ord oracle s y : circuit s -> new_system ord oracle s = Some (Ok y) -> bias_inv y.
Proof.
  intros Hc. assert (HD := circuit_derived s Hc). unfold new_system. destruct (negb _); [discriminate|]. rewrite (wcs_wc s HD). destruct (has_resonators s); [discriminate|]. cbv zeta.
  destruct (ok_st (add_all (map (fun c => (c, None)) _) _)) as [st1|] eqn:E1; [|discriminate]. cbn [bind]. destruct (flux_symbols s (wcs s)) as [fl|] eqn:Ef; [|discriminate]. cbn [bind].
  destruct (ok_st (add_all (map (fun b => (("phi" ++ _)%string, _)) _) st1)) as [st2|] eqn:E2; [|discriminate]. cbn [bind]. destruct (ok_st (add_all (map (fun b => (("Q" ++ _)%string, _)) _) st2)) as [st3|] eqn:E3; [|discriminate]. cbn [bind].
  destruct (inductance_matrix s (wcs s)) as [M|]; [|discriminate]. cbn [bind]. destruct (ok_st (parameterise _ _ _ _ st3)) as [st4|] eqn:E4; [|discriminate]. cbn [bind]. destruct (coordinate_modes _ _); [|discriminate]. cbn [bind].
  intros H. injection H as <-. cbn [ss_par ss_flux].
  assert (OK : forall (A : Type) (x : A * res unit) a, ok_st x = Ok a -> x = (a, Ok tt)). { clear. intros A [a0 [[]|]] a; cbn; congruence. }
  apply OK in E1, E2, E3, E4.
  destruct (add_all_syms _ (mkcst [] [] [] [] []) st1 ltac:(split; [reflexivity|constructor|discriminate]) E1) as [S1 K1]. { intros x Hx. apply in_map_iff in Hx as (c & <- & Hx). left. cbn. split; [reflexivity|]. apply (registered_plain s); auto. }
  destruct (add_all_syms _ st1 st2 S1 E2) as [S2 K2]. { intros x Hx. apply in_map_iff in Hx as (c & <- & Hx). right. reflexivity. }
  destruct (add_all_syms _ st2 st3 S2 E3) as [S3 K3]. { intros x Hx. apply in_map_iff in Hx as (c & <- & Hx). right. cbn [fst snd]. unfold sg. rewrite phi_name_not by reflexivity. reflexivity. }
  destruct (parameterise_syms ord (mat_name "L" "i") _ _ ltac:(intros i j; apply mat_name_plain; [reflexivity|discriminate]) st3 st4 S3 E4) as [S4 K4].
  assert (Src := flux_symbols_src s _ fl Ef). assert (I := reachable_Inv s (circuit_reachable s Hc)). split; auto; cbn [ss_par ss_flux].
  - intros e l x He Hx. destruct (Src e l x He Hx) as (b & Hb & <-). apply K4, K3. left. apply K2. right. rewrite map_map. cbn [fst]. apply (in_map (fun b => ("phi" ++ fb_suffix b)%string)). apply (in_map snd) in Hb. exact Hb.
  - intros e e' l l' x He He' Hx Hx'. destruct (Src e l x He Hx) as (b & Hb & Eb). destruct (Src e' l' x He' Hx') as (b' & Hb' & Eb').
    assert (E := NoDup_map_eq (fun z : edge * fbias => fb_suffix (snd z)) (c_fbias s) (e, b) (e', b')). cbn [fst snd] in E.
    assert (N : NoDup (map (fun z : edge * fbias => fb_suffix (snd z)) (c_fbias s))). { assert (N := i_fs s I). unfold dvals in N. rewrite map_map in N. exact N. }
    specialize (E N Hb Hb' ltac:(congruence)). congruence.
Qed.
Lemma system_bias y : system y -> bias_inv y.
Proof.
  induction 1 as [ord oracle s y Hc Hn|y a b Hy IH]; [eapply new_bias; eauto|]. assert (MI := system_inv y Hy).
  destruct (mem_In_dec a (ss_edges y)) as [Ha|Ha]; [|rewrite move_rejected; auto].
  destruct (mem_In_dec b (ss_edges y)) as [Hb|Hb]; [|rewrite move_rejected; auto].
  assert (Hk : In a (dkeys (ss_flux y))) by (rewrite (m_keys y MI); auto). apply dkeys_dget in Hk as (x & Hx). destruct x as [|t x]; [rewrite move_rejected; auto|].
  destruct (move_ok y a b _ MI Ha Hb Hx ltac:(discriminate)) as (y' & E & _ & _ & Hf & _).
  assert (Ep : ss_par y' = ss_par y). { revert E. unfold moveFluxBias. destruct (negb _); [discriminate|]. destruct (negb _); [discriminate|]. rewrite Hx. destruct (dget (ss_red y) a); [|discriminate]. intros [= <- _]. reflexivity. }
  rewrite E. cbn [fst]. destruct IH as [I1 I2 I3].
  assert (Old : forall e l z, dget (ss_flux y') e = Some l -> In z l -> exists e0 l0, dget (ss_flux y) e0 = Some l0 /\ In z l0 /\ (e = b /\ e0 = a \/ e <> b /\ e0 = e)).
  { intros e l z. rewrite Hf. destruct (eqb_spec e b) as [->|N]; [intros [= <-] Hz; exists a, (t :: x); auto|]. destruct (eqb_spec e a) as [->|]; [intros [= <-] []|]. intros He Hz. exists e, l. auto. }
  split; rewrite ?Ep; auto.
  - intros e l z He Hz. destruct (Old e l z He Hz) as (e0 & l0 & H0 & Hz0 & _). eauto.
  - intros e e' l l' z He He' Hz Hz'. destruct (Old e l z He Hz) as (e0 & l0 & H0 & Hz0 & D). destruct (Old e' l' z He' Hz') as (e1 & l1 & H1 & Hz1 & D').
    assert (E01 := I3 e0 e1 l0 l1 z H0 H1 Hz0 Hz1). subst e1. destruct D as [[-> ->]|[N ->]], D' as [[-> D']|[N' D']]; auto.
    + subst e'. exfalso. revert He'. rewrite Hf. destruct (eqb_spec a b); [congruence|]. rewrite eqb_refl. intros [= <-]. destruct Hz'.
    + subst e. exfalso. revert He. rewrite Hf. destruct (eqb_spec a b); [congruence|]. rewrite eqb_refl. intros [= <-]. destruct Hz.
Qed.
