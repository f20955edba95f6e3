(** The unit system over the reals. *)
From Coq Require Import List Bool String Ascii ZArith Lia Reals Lra.
From Verif Require Import Prelude PreludeFacts Mat MatFacts Units UnitsSpec UnitsProofs.
Import ListNotations.
Open Scope string_scope.
Open Scope list_scope.
Open Scope R_scope.

Lemma p10_pos z : 0 < powerRZ 10 z.
Proof. apply powerRZ_lt. lra. Qed.
Lemma lit_pos m e : (0 < m)%Z -> 0 < lit (n := R_num) m e.
Proof. intros H. cbn. apply Rmult_lt_0_compat; [now apply (IZR_lt 0)|apply p10_pos]. Qed.
Lemma niszero_false (x : R) : x <> 0 -> niszero (n := R_num) x = false.
Proof. intros H. cbn. destruct (Req_EM_T x 0); tauto. Qed.
Lemma niszero_true (x : R) : niszero (n := R_num) x = true -> x = 0.
Proof. cbn. destruct (Req_EM_T x 0); [auto|discriminate]. Qed.
Lemma nzR : niszero (lit (n := R_num) 1 0) = false /\ niszero (lit (n := R_num) 1 (-15)) = false /\ niszero (lit (n := R_num) 1 (-12)) = false.
Proof. repeat split; apply niszero_false, Rgt_not_eq, lit_pos; lia. Qed.

Lemma factor_in (h : rheap) u k x : factor h (u_c u) k = Ok x <-> in_factor h u k = Some x.
Proof.
  unfold factor, load, in_factor. destruct (dget (u_c u) k) as [a|]; cbn; [|split; discriminate]. destruct (nth_error h a); cbn; split; congruence.
Qed.
Lemma factor_out (h : rheap) u k x : factor h (u_cd u) k = Ok x <-> out_factor h u k = Some x.
Proof.
  unfold factor, load, out_factor. destruct (dget (u_cd u) k) as [a|]; cbn; [|split; discriminate]. destruct (nth_error h a); cbn; split; congruence.
Qed.
Lemma pc_eq : pc_e (A := R_num) = e_SI /\ pc_h (A := R_num) = h_SI /\ pc_hbar (A := R_num) = hbar_SI /\ pc_kB (A := R_num) = kB_SI /\
  pc_phi0 (A := R_num) = phi0_SI.
Proof.
  unfold pc_e, pc_h, pc_hbar, pc_kB, pc_phi0, e_SI, h_SI, hbar_SI, kB_SI, phi0_SI. cbn -[powerRZ Rmult].
  repeat split; (rewrite <- powerRZ_neg'); reflexivity.
Qed.
Lemma lit_R m e : lit (n := R_num) m e = IZR m * powerRZ 10 e.
Proof. reflexivity. Qed.

(** [consistent] gives the defining formulas *)
Lemma formulas_prefactor s (u : runits) : u_pf u = formulas (A := R_num) (oE s) (oI s) (oU s) (sF s) (sH s) (sA s) (sV s) (sHz s) (sWb s) (sC s) ->
  forall name, getPrefactor u name = match prefactor_of s name with Some x => Ok x | None => Err KeyError end.
Proof.
  intros P name. unfold getPrefactor. rewrite P. unfold formulas, prefactor_of. destruct pc_eq as [Pe [Ph [Phb [Pk Pp]]]].
  rewrite !Phb, !Pp.
  cbn -[lit npi nmul ndiv nsq nsqrt nroot4].
  repeat match goal with |- context [String.eqb name ?x] => destruct (String.eqb name x); [apply f_equal; rewrite ?lit_R; change (powerRZ 10 0) with 1; cbn -[lit];
    unfold Rdiv; try reflexivity; try (f_equal; ring); try ring|] end.
  all: try reflexivity.
  all: rewrite ?Rmult_1_r; reflexivity.
Qed.
Lemma consistent_refreshed (h : rheap) u : wf h u -> (exists a, dget (u_c u) "Ohm" = Some a) -> consistent h u -> refreshed h u.
Proof.
  intros W _ C. destruct (wf_factors h u W) as (E & I & U & F & H & Am & V & Hz & Wb & Ch & HE & HI & HU & HF & HH & HA & HV & HHz & HWb & HC & Q).
  assert (O : exists o, factor h (u_c u) "Ohm" = Ok o) by (apply has_factor; apply W; cbn; tauto). destruct O as [o O].
  exists (mks F H o Am V Hz Wb Ch E I U). split.
  - unfold has_factors; cbn. rewrite <- !factor_in, <- !factor_out. tauto.
  - apply formulas_prefactor. unfold consistent in C. rewrite Q in C. destruct (niszero F || niszero H); [discriminate|]. cbn. now injection C as <-.
Qed.
Lemma refreshed_consistent (h : rheap) u : wf h u -> consistent h u -> refreshed h u.
Proof. intros W C. apply consistent_refreshed; auto. destruct W as [W _]. destruct (W "Ohm") as [a [E _]]; [cbn; tauto|eauto]. Qed.

(** C27 *)
Lemma world0_refreshed k u : nth_error (w_units (world0 (A := R_num))) k = Some u -> consistent (w_heap world0) u.
Proof.
  unfold world0. destruct (units_new_ok nzR heap0 "CQED1") as [l [u0 [-> [W [C _]]]]]; [exists []; now rewrite app_nil_r|].
  cbn. destruct k as [|[|k]]; cbn; [|discriminate|discriminate]. intros [= <-]. exact C.
Qed.
Lemma C27_histories l k u : clean k world0 l -> nth_error (w_units (run_world (A := R_num) world0 l)) k = Some u ->
  refreshed (w_heap (run_world world0 l)) u.
Proof.
  intros C E. pose proof (winv_run nzR l _ (winv0 nzR)) as I. apply refreshed_consistent; [now apply (winv_wf _ k)|].
  apply (clean_consistent nzR k l world0); auto; [apply winv0, nzR|]. intros v Hv. now apply (world0_refreshed k).
Qed.
Lemma reachable_winv w : reachable (A := R_num) w -> winv w.
Proof. intros [l ->]. apply winv_run; [exact nzR|apply winv0, nzR]. Qed.
Lemma C27_success w k u o h' u' : reachable w -> nth_error (w_units w) k = Some u -> run_op (A := R_num) (w_heap w) u o = (h', u', Ok tt) -> refreshed h' u'.
Proof.
  intros Rw E O. apply reachable_winv in Rw. pose proof (winv_wf w k u Rw E) as W. pose proof (run_op_outcome (w_heap w) u o (proj1 Rw) W) as Q.
  rewrite O in Q. destruct Q as [_ [W' C]]. now apply refreshed_consistent.
Qed.

(** C28 *)
Lemma prefix_table p : dget (prefixes (A := R_num)) (String p "") = match si_exponent p with Some z => Some (powerRZ 10 z) | None => None end.
Proof.
  destruct p as [[] [] [] [] [] [] [] []]; cbn -[powerRZ Rmult]; try reflexivity; apply f_equal; ring.
Qed.
Lemma SI_table : SI_units = base_units.
Proof. reflexivity. Qed.
Lemma prefixed_not_base p b : si_exponent p <> None -> In b base_units -> mem (String p b) SI_units = false.
Proof.
  intros Hp Hb. unfold mem, SI_units. cbn [existsb].
  cbn in Hb. repeat destruct Hb as [<-|Hb]; try easy; destruct p as [[] [] [] [] [] [] [] []]; cbn in Hp |- *; try reflexivity; congruence.
Qed.
Lemma mem_In_s (k : string) l : mem k l = true <-> In k l.
Proof. apply mem_In. Qed.
Lemma in_factor_alloc (h : rheap) c cd pf k e k' : inb h c ->
  in_factor (h ++ [e]) (mkun (dset c k (List.length h)) cd pf) k' = if eqb k' k then Some (e_factor e) else in_factor h (mkun c cd pf) k'.
Proof.
  intros B. unfold in_factor. cbn [u_c]. rewrite dget_dset. destruct (eqb k' k).
  - rewrite nth_error_app2, Nat.sub_diag by lia. reflexivity.
  - destruct (dget c k') as [a|] eqn:E; [|easy]. apply B in E. now rewrite nth_error_app1.
Qed.
Lemma in_name_alloc (h : rheap) c cd pf k e k' : inb h c ->
  in_name (h ++ [e]) (mkun (dset c k (List.length h)) cd pf) k' = if eqb k' k then Some (e_unit e) else in_name h (mkun c cd pf) k'.
Proof.
  intros B. unfold in_name. cbn [u_c]. rewrite dget_dset. destruct (eqb k' k).
  - rewrite nth_error_app2, Nat.sub_diag by lia. reflexivity.
  - destruct (dget c k') as [a|] eqn:E; [|easy]. apply B in E. now rewrite nth_error_app1.
Qed.
Lemma out_factor_alloc (h : rheap) c cd pf k e k' : inb h cd ->
  out_factor (h ++ [e]) (mkun c (dset cd k (List.length h)) pf) k' = if eqb k' k then Some (e_factor e) else out_factor h (mkun c cd pf) k'.
Proof.
  intros B. unfold out_factor. cbn [u_cd]. rewrite dget_dset. destruct (eqb k' k).
  - rewrite nth_error_app2, Nat.sub_diag by lia. reflexivity.
  - destruct (dget cd k') as [a|] eqn:E; [|easy]. apply B in E. now rewrite nth_error_app1.
Qed.
Lemma out_name_alloc (h : rheap) c cd pf k e k' : inb h cd ->
  out_name (h ++ [e]) (mkun c (dset cd k (List.length h)) pf) k' = if eqb k' k then Some (e_unit e) else out_name h (mkun c cd pf) k'.
Proof.
  intros B. unfold out_name. cbn [u_cd]. rewrite dget_dset. destruct (eqb k' k).
  - rewrite nth_error_app2, Nat.sub_diag by lia. reflexivity.
  - destruct (dget cd k') as [a|] eqn:E; [|easy]. apply B in E. now rewrite nth_error_app1.
Qed.
Lemma in_view_ext (h : rheap) e c cd cd' pf pf' k : inb h c ->
  in_factor (h ++ [e]) (mkun c cd' pf') k = in_factor h (mkun c cd pf) k /\ in_name (h ++ [e]) (mkun c cd' pf') k = in_name h (mkun c cd pf) k.
Proof.
  intros B. unfold in_factor, in_name. cbn [u_c]. destruct (dget c k) as [a|] eqn:E; [|easy]. apply B in E. now rewrite nth_error_app1.
Qed.
Lemma out_view_ext (h : rheap) e c c' cd pf pf' k : inb h cd ->
  out_factor (h ++ [e]) (mkun c' cd pf') k = out_factor h (mkun c cd pf) k /\ out_name (h ++ [e]) (mkun c' cd pf') k = out_name h (mkun c cd pf) k.
Proof.
  intros B. unfold out_factor, out_name. cbn [u_cd]. destruct (dget cd k) as [a|] eqn:E; [|easy]. apply B in E. now rewrite nth_error_app1.
Qed.
Lemma alloc_in_only (h : rheap) u key e pf : wf h u ->
  only_in h u (h ++ [e]) (mkun (dset (u_c u) key (List.length h)) (u_cd u) pf) key (e_factor e) (e_unit e).
Proof.
  intros W. apply wf_inb in W. destruct W as [B1 B2]. destruct u as [c cd q]. cbn [u_c u_cd] in *. unfold only_in.
  rewrite in_factor_alloc, in_name_alloc, eqb_refl by auto. split; [easy|]. split; [easy|]. split.
  - intros k N. rewrite in_factor_alloc, in_name_alloc by auto. destruct (eqb_spec k key); [contradiction|]. easy.
  - intros k. now apply out_view_ext.
Qed.
Lemma alloc_out_only (h : rheap) u key e pf : wf h u ->
  only_out h u (h ++ [e]) (mkun (u_c u) (dset (u_cd u) key (List.length h)) pf) key (e_factor e) (e_unit e).
Proof.
  intros W. apply wf_inb in W. destruct W as [B1 B2]. destruct u as [c cd q]. cbn [u_c u_cd] in *. unfold only_out.
  rewrite out_factor_alloc, out_name_alloc, eqb_refl by auto. split; [easy|]. split; [easy|]. split.
  - intros k N. rewrite out_factor_alloc, out_name_alloc by auto. destruct (eqb_spec k key); [contradiction|]. easy.
  - intros k. now apply in_view_ext.
Qed.
(** the updated prefactors exist unless F or H is zero *)
Lemma updatePrefactors_ok (h : rheap) u : wf h u -> in_factor h u "F" <> Some 0 -> in_factor h u "H" <> Some 0 ->
  exists q, updatePrefactors h u = (h, mkun (u_c u) (u_cd u) q, Ok tt).
Proof.
  intros W F0 H0. destruct (wf_factors h u W) as (E & I & U & F & H & Am & V & Hz & Wb & Ch & HE & HI & HU & HF & HH & HA & HV & HHz & HWb & HC & Q).
  rewrite factor_in in HF, HH. unfold updatePrefactors. rewrite Q.
  assert (F1 : (F : R) <> 0) by (intros Z; apply F0; rewrite HF; now f_equal).
  assert (H1 : (H : R) <> 0) by (intros Z; apply H0; rewrite HH; now f_equal).
  rewrite (niszero_false F F1), (niszero_false H H1). cbn [orb]. eauto.
Qed.
Lemma setUnit_prefixed (h : rheap) u p b z : wf h u -> si_exponent p = Some z -> In b base_units ->
  in_factor h u "F" <> Some 0 -> in_factor h u "H" <> Some 0 ->
  exists h' u', setUnit h u (String p b) = (h', u', Ok tt) /\ only_in h u h' u' b (powerRZ 10 z) (String p b).
Proof.
  intros W Z B F0 H0. unfold setUnit. rewrite prefixed_not_base by (congruence || auto). rewrite <- SI_table in B. apply mem_In_s in B. rewrite B. cbn [negb].
  rewrite prefix_table, Z. cbn [alloc].
  set (e := mkent (A := R_num) (String p b) (powerRZ 10 z)).
  assert (W' := wf_alloc_c h u b e (u_pf u) W). pose proof (proj1 (wf_inb h u W)) as B1.
  assert (P : powerRZ 10 z <> 0) by (apply Rgt_not_eq, p10_pos).
  destruct (updatePrefactors_ok _ _ W') as [q ->].
  - rewrite in_factor_alloc by auto. destruct (eqb "F" b); [cbn; intros Y; apply P; now injection Y|]. now destruct u.
  - rewrite in_factor_alloc by auto. destruct (eqb "H" b); [cbn; intros Y; apply P; now injection Y|]. now destruct u.
  - cbn [u_c u_cd]. eexists _, _. split; [reflexivity|]. now apply (alloc_in_only h u b e).
Qed.
Lemma setUnit_rejected (h : rheap) u s : mem s base_units = false ->
  (forall p b, s = String p b -> ~ In b base_units \/ si_exponent p = None) ->
  exists e, setUnit h u s = (h, u, Err e).
Proof.
  intros M N. unfold setUnit. change SI_units with base_units. rewrite M. destruct s as [|p b]; [eauto|].
  destruct (mem b base_units) eqn:Mb; cbn [negb]; [|eauto]. apply mem_In_s in Mb. destruct (N p b eq_refl) as [?|Z]; [tauto|].
  rewrite prefix_table, Z. eauto.
Qed.
Lemma parse_base b : In b base_units -> parse_out b = Ok (b, "0").
Proof. intros B. apply mem_In_s in B. unfold parse_out. change SI_units with base_units. now rewrite B. Qed.
Lemma parse_prefixed p b : si_exponent p <> None -> In b base_units -> parse_out (String p b) = Ok (b, String p "").
Proof.
  intros P B. unfold parse_out. rewrite prefixed_not_base by auto. change SI_units with base_units. apply mem_In_s in B. now rewrite B.
Qed.
Lemma set_out_ok (h : rheap) u key s p z f : wf h u -> si_exponent p = Some z -> in_factor h u "F" <> Some 0 -> in_factor h u "H" <> Some 0 ->
  exists h' u', set_out h u key s (String p "") f = (h', u', Ok tt) /\ only_out h u h' u' key (f (powerRZ 10 z)) s.
Proof.
  intros W Z F0 H0. unfold set_out. rewrite prefix_table, Z. cbn [alloc].
  set (e := mkent (A := R_num) s (f (powerRZ 10 z))).
  assert (W' := wf_alloc_cd h u key e (u_pf u) W). pose proof (proj1 (wf_inb h u W)) as B1.
  assert (V : forall k, in_factor (h ++ [e]) (mkun (u_c u) (dset (u_cd u) key (List.length h)) (u_pf u)) k = in_factor h u k).
  { intros k. destruct u as [c cd q]. cbn [u_c u_cd u_pf] in *. now apply in_view_ext. }
  destruct (updatePrefactors_ok _ _ W') as [q ->]; [now rewrite V|now rewrite V|].
  cbn [u_c u_cd]. eexists _, _. split; [reflexivity|]. now apply (alloc_out_only h u key e).
Qed.
Lemma parse_spelled s b z : In b base_units -> spelled s b z -> exists p, parse_out s = Ok (b, String p "") /\ si_exponent p = Some z.
Proof.
  intros B [[-> ->]|[p [-> P]]].
  - exists "0"%char. split; [now apply parse_base|easy].
  - exists p. split; [apply parse_prefixed; [congruence|auto]|auto].
Qed.
Lemma setEnergyUnit_ok (h : rheap) u s b z j : wf h u -> joule b = Some j -> spelled s b z -> in_factor h u "F" <> Some 0 -> in_factor h u "H" <> Some 0 ->
  exists h' u', setEnergyUnit h u s = (h', u', Ok tt) /\ only_out h u h' u' "Energy" (1 / (j * powerRZ 10 z)) s.
Proof.
  intros W J S F0 H0. assert (B : In b base_units).
  { unfold joule in J. destruct (String.eqb_spec b "Hz"); [subst; cbn; tauto|]. destruct (String.eqb_spec b "J"); [subst; cbn; tauto|].
    destruct (String.eqb_spec b "K"); [subst; cbn; tauto|]. destruct (String.eqb_spec b "eV"); [subst; cbn; tauto|discriminate]. }
  destruct (parse_spelled s b z B S) as [p [P Z]]. unfold setEnergyUnit. rewrite P. destruct pc_eq as [Pe [Ph [Phb [Pk Pp]]]]. rewrite Pe, Ph, Pk.
  unfold joule in J. change (eqb b) with (String.eqb b).
  repeat match goal with |- context [if String.eqb b ?x then _ else _] => destruct (String.eqb b x);
    [match goal with |- exists h' u', set_out h u ?k ?s ?pp ?f = _ /\ _ => destruct (set_out_ok h u k s p z f W Z F0 H0) as [h' [u' [Q1 Q2]]] end;
     exists h', u'; split; [exact Q1|]; injection J as <-; cbn -[powerRZ Rmult Rdiv] in Q2;
     change (powerRZ 10 0) with 1 in Q2; rewrite ?Rmult_1_r, ?Rmult_1_l in *; exact Q2|] end.
  discriminate.
Qed.
Lemma set_simple_ok key b (h : rheap) u s z : wf h u -> In b base_units -> spelled s b z -> in_factor h u "F" <> Some 0 -> in_factor h u "H" <> Some 0 ->
  exists h' u', set_simple key b h u s = (h', u', Ok tt) /\ only_out h u h' u' key (1 / powerRZ 10 z) s.
Proof.
  intros W B S F0 H0. destruct (parse_spelled s b z B S) as [p [P Z]]. unfold set_simple. rewrite P, eqb_refl.
  match goal with |- exists h' u', set_out h u ?k ?s ?pp ?f = _ /\ _ => destruct (set_out_ok h u k s p z f W Z F0 H0) as [h' [u' [Q1 Q2]]] end.
  exists h', u'. split; [exact Q1|]. cbn -[powerRZ Rmult Rdiv] in Q2. change (powerRZ 10 0) with 1 in Q2. rewrite ?Rmult_1_r in *. exact Q2.
Qed.
Lemma parse_inv s b p : parse_out s = Ok (b, p) -> In b base_units /\ ((s = b /\ p = "0") \/ exists c, s = String c b /\ p = String c "").
Proof.
  unfold parse_out. change SI_units with base_units. destruct (mem s base_units) eqn:M.
  - intros [= <- <-]. apply mem_In_s in M. auto.
  - destruct s as [|c b']; [discriminate|]. destruct (mem b' base_units) eqn:Mb; cbn [negb]; [|discriminate]. intros [= <- <-].
    apply mem_In_s in Mb. eauto.
Qed.
Lemma set_out_bad (h : rheap) u key s c f : si_exponent c = None -> set_out h u key s (String c "") f = (h, u, Err KeyError).
Proof. intros Z. unfold set_out. now rewrite prefix_table, Z. Qed.
Lemma setEnergyUnit_rejected (h : rheap) u s : (forall b z, joule b <> None -> ~ spelled s b z) -> exists e, setEnergyUnit h u s = (h, u, Err e).
Proof.
  intros N. unfold setEnergyUnit. destruct (parse_out s) as [[b p]|e] eqn:P; [|eauto]. apply parse_inv in P. destruct P as [B P].
  destruct (joule b) as [j|] eqn:J.
  - destruct P as [[-> ->]|[c [-> ->]]]; [exfalso; apply (N b 0%Z); [congruence|now left]|].
    destruct (si_exponent c) as [z|] eqn:Z; [exfalso; apply (N b z); [congruence|right; eauto]|].
    repeat match goal with |- context [if ?x then _ else _] => destruct x; [rewrite set_out_bad by auto; eauto|] end. eauto.
  - unfold joule in J. change (eqb b) with (String.eqb b).
    repeat match goal with |- context [if String.eqb b ?x then _ else _] => destruct (String.eqb b x); [discriminate|] end. eauto.
Qed.
Lemma set_simple_rejected key b (h : rheap) u s : (forall z, ~ spelled s b z) -> exists e, set_simple key b h u s = (h, u, Err e).
Proof.
  intros N. unfold set_simple. destruct (parse_out s) as [[b' p]|e] eqn:P; [|eauto]. apply parse_inv in P. destruct P as [B P].
  destruct (eqb_spec b' b) as [->|D]; [|eauto].
  destruct P as [[-> ->]|[c [-> ->]]]; [exfalso; apply (N 0%Z); now left|].
  destruct (si_exponent c) as [z|] eqn:Z; [exfalso; apply (N z); right; eauto|]. rewrite set_out_bad by auto. eauto.
Qed.
