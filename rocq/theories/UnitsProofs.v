(** Proofs about Units.v. *)
From Coq Require Import List Bool String Ascii ZArith Lia Reals Lra.
From Verif Require Import Prelude PreludeFacts Units UnitsSpec Mat MatFacts.
Import ListNotations.
Open Scope string_scope.
Open Scope list_scope.
Open Scope nat_scope.

Section Gen.
  Context {A : num}.
  Implicit Types (h : @heap A) (u : @units A).

  (** every key present and pointing into the heap *)
  Definition has (h : @heap A) (d : dict string nat) (k : string) : Prop := exists a, dget d k = Some a /\ a < List.length h.
  Definition wf h u : Prop := (forall k, In k SI_units -> has h (u_c u) k) /\ (forall k, In k output_units -> has h (u_cd u) k) /\
    (forall k a, dget (u_c u) k = Some a -> a < List.length h) /\ (forall k a, dget (u_cd u) k = Some a -> a < List.length h).
  Definition consistent h u : Prop := prefactors h (u_c u) (u_cd u) = Ok (u_pf u).

  Definition inb h (d : dict string nat) : Prop := forall k a, dget d k = Some a -> a < List.length h.
  Lemma load_ext h l d k : inb h d -> load (h ++ l) d k = load h d k.
  Proof.
    intros B. unfold load. destruct (dget d k) as [a|] eqn:E; [|easy]. apply B in E. now rewrite nth_error_app1.
  Qed.
  Lemma factor_ext h l d k : inb h d -> factor (h ++ l) d k = factor h d k.
  Proof. intros B. unfold factor. now rewrite load_ext. Qed.
  Lemma prefactors_ext h l c cd : inb h c -> inb h cd -> prefactors (h ++ l) c cd = prefactors h c cd.
  Proof. intros B1 B2. unfold prefactors. now rewrite !factor_ext. Qed.
  Lemma inb_ext h l d : inb h d -> inb (h ++ l) d.
  Proof. intros B k a E. apply B in E. rewrite app_length. lia. Qed.
  Lemma wf_inb h u : wf h u -> inb h (u_c u) /\ inb h (u_cd u).
  Proof. intros [_ [_ [? ?]]]. auto. Qed.
  Lemma wf_ext h l u : wf h u -> wf (h ++ l) u.
  Proof.
    intros [A1 [A2 [A3 A4]]]. repeat split; try (intros; now apply (inb_ext h l)).
    - intros k Hk. destruct (A1 k Hk) as [a [E L]]. exists a. rewrite app_length. split; [auto|lia].
    - intros k Hk. destruct (A2 k Hk) as [a [E L]]. exists a. rewrite app_length. split; [auto|lia].
    - intros k a E. apply A3 in E. rewrite app_length. lia.
    - intros k a E. apply A4 in E. rewrite app_length. lia.
  Qed.
  Lemma wf_pf h c cd p p' : wf h (mkun c cd p) -> wf h (mkun c cd p').
  Proof. easy. Qed.
  Lemma has_factor h d k : has h d k -> exists x, factor h d k = Ok x.
  Proof.
    intros [a [E L]]. unfold factor, load. rewrite E. destruct (nth_error h a) eqn:N; [cbn; eauto|]. apply nth_error_None in N. lia.
  Qed.
  Lemma wf_factors h u : wf h u -> exists E I U F H Am V Hz Wb C,
    factor h (u_cd u) "Energy" = Ok E /\ factor h (u_cd u) "Current" = Ok I /\ factor h (u_cd u) "Voltage" = Ok U /\
    factor h (u_c u) "F" = Ok F /\ factor h (u_c u) "H" = Ok H /\ factor h (u_c u) "A" = Ok Am /\ factor h (u_c u) "V" = Ok V /\
    factor h (u_c u) "Hz" = Ok Hz /\ factor h (u_c u) "Wb" = Ok Wb /\ factor h (u_c u) "C" = Ok C /\
    prefactors h (u_c u) (u_cd u) = (if niszero F || niszero H then Err ZeroDivisionError else Ok (formulas E I U F H Am V Hz Wb C)).
  Proof.
    intros [A1 [A2 _]].
    destruct (has_factor h _ _ (A2 "Energy" ltac:(cbn; tauto))) as [E ?], (has_factor h _ _ (A2 "Current" ltac:(cbn; tauto))) as [I ?],
      (has_factor h _ _ (A2 "Voltage" ltac:(cbn; tauto))) as [U ?], (has_factor h _ _ (A1 "F" ltac:(cbn; tauto))) as [F ?],
      (has_factor h _ _ (A1 "H" ltac:(cbn; tauto))) as [H' ?], (has_factor h _ _ (A1 "A" ltac:(cbn; tauto))) as [Am ?],
      (has_factor h _ _ (A1 "V" ltac:(cbn; tauto))) as [V ?], (has_factor h _ _ (A1 "Hz" ltac:(cbn; tauto))) as [Hz ?],
      (has_factor h _ _ (A1 "Wb" ltac:(cbn; tauto))) as [Wb ?], (has_factor h _ _ (A1 "C" ltac:(cbn; tauto))) as [C ?].
    exists E, I, U, F, H', Am, V, Hz, Wb, C. repeat (split; [assumption|]).
    unfold prefactors. repeat match goal with H : factor _ _ _ = Ok _ |- _ => rewrite H; clear H; cbn [bind] end. reflexivity.
  Qed.
  Lemma prefactors_err h u e : wf h u -> prefactors h (u_c u) (u_cd u) = Err e -> e = ZeroDivisionError.
  Proof.
    intros W. destruct (wf_factors h u W) as (E & I & U & F & H & Am & V & Hz & Wb & C & _ & _ & _ & _ & _ & _ & _ & _ & _ & _ & Q).
    rewrite Q. destruct (_ || _); [now intros [= <-]|discriminate].
  Qed.

  (** [upres]: what a call did. The heap only grows. *)
  Definition outcome h u h' u' (r : res unit) : Prop :=
    (exists l, h' = h ++ l) /\ wf h' u' /\
    match r with
    | Ok _ => consistent h' u'
    | Err e => e = AttributeError \/ e = ZeroDivisionError \/ h' = h /\ u' = u
    end.
  Lemma outcome_same h u e : wf h u -> outcome h u h u (Err e).
  Proof. intros W. split; [exists []; now rewrite app_nil_r|]. auto. Qed.
  Lemma outcome_update h0 u0 h u : (exists l, h = h0 ++ l) -> wf h u -> let '(h', u', r) := updatePrefactors h u in outcome h0 u0 h' u' r.
  Proof.
    intros L W. unfold updatePrefactors. destruct (prefactors h (u_c u) (u_cd u)) as [p|e] eqn:P.
    - split; [auto|]. split; [destruct u; eapply wf_pf; exact W|]. exact P.
    - split; [auto|]. split; [auto|]. right. left. eapply prefactors_err; eauto.
  Qed.
  Lemma wf_alloc_c h u k e p : wf h u -> wf (h ++ [e]) (mkun (dset (u_c u) k (List.length h)) (u_cd u) p).
  Proof.
    intros [A1 [A2 [A3 A4]]]. unfold wf. cbn [u_c u_cd]. rewrite app_length. repeat split.
    - intros k' Hk. unfold has. rewrite dget_dset, app_length. destruct (eqb k' k); [exists (List.length h); cbn; split; [auto|lia]|].
      destruct (A1 k' Hk) as [a [E L]]. exists a. cbn; split; [auto|lia].
    - intros k' Hk. destruct (A2 k' Hk) as [a [E L]]. exists a. rewrite app_length. cbn. split; [auto|lia].
    - intros k' a. rewrite dget_dset. destruct (eqb k' k); cbn; [intros [= <-]; lia|]. intros E. apply A3 in E. lia.
    - intros k' a E. apply A4 in E. cbn. lia.
  Qed.
  Lemma wf_alloc_cd h u k e p : wf h u -> wf (h ++ [e]) (mkun (u_c u) (dset (u_cd u) k (List.length h)) p).
  Proof.
    intros [A1 [A2 [A3 A4]]]. unfold wf. cbn [u_c u_cd]. rewrite app_length. repeat split.
    - intros k' Hk. destruct (A1 k' Hk) as [a [E L]]. exists a. rewrite app_length. cbn. split; [auto|lia].
    - intros k' Hk. unfold has. rewrite dget_dset, app_length. destruct (eqb k' k); [exists (List.length h); cbn; split; [auto|lia]|].
      destruct (A2 k' Hk) as [a [E L]]. exists a. cbn; split; [auto|lia].
    - intros k' a E. apply A3 in E. cbn. lia.
    - intros k' a. rewrite dget_dset. destruct (eqb k' k); cbn; [intros [= <-]; lia|]. intros E. apply A4 in E. lia.
  Qed.
  Lemma set_out_outcome h u key s p f : wf h u -> let '(h', u', r) := set_out h u key s p f in outcome h u h' u' r.
  Proof.
    intros W. unfold set_out. destruct (dget prefixes p) as [x|]; [|now apply outcome_same]. cbn.
    apply outcome_update; [eauto|]. now apply wf_alloc_cd.
  Qed.

  (** the heap starts with the presets *)
  Definition based h : Prop := exists l, h = heap0 ++ l.
  Lemma load_keys_spec src keys : forall d, (forall k, In k keys -> dget src k <> None) ->
    exists d', load_keys src keys d = Ok d' /\ forall k, dget d' k = if mem k keys then dget src k else dget d k.
  Proof.
    unfold load_keys. induction keys as [|k keys IH]; intros d Hk; [exists d; auto|]. cbn [fold_left bind].
    destruct (dget src k) as [a|] eqn:E; [|exfalso; apply (Hk k); [now left|auto]].
    destruct (IH (dset d k a)) as [d' [E' D]]; [intros; apply Hk; now right|]. exists d'. split; [exact E'|].
    intros k'. rewrite D. unfold mem. cbn [existsb]. destruct (existsb (eqb k') keys) eqn:X; [now rewrite orb_true_r|].
    rewrite orb_false_r, dget_dset. destruct (eqb_spec k' k) as [->|N]; [now rewrite E|easy].
  Qed.
  Lemma preset_bound p src : dget (units_presets (A := A)) p = Some src ->
    (forall k, In k SI_units \/ In k output_units -> dget src k <> None) /\ forall k a, dget src k = Some a -> a < 28.
  Proof.
    cbn. destruct (String.eqb p "CQED1"); [|destruct (String.eqb p "CQED2"); [|discriminate]]; intros [= <-]; (split;
      [intros k H; cbn in H; intuition (subst; discriminate)|]);
      intros k a H; cbn in H;
      repeat match type of H with (if ?b then _ else _) = _ => destruct b; [injection H as <-; lia|] end; discriminate.
  Qed.
  Lemma based_length h : based h -> 28 <= List.length h.
  Proof. intros [l ->]. rewrite app_length. cbn. lia. Qed.
  Lemma loadPreset_outcome h u p : based h -> wf h u -> let '(h', u', r) := loadPreset h u p in outcome h u h' u' r.
  Proof.
    intros B W. unfold loadPreset. destruct (dget units_presets p) as [src|] eqn:P; [|now apply outcome_same].
    destruct (preset_bound p src P) as [K1 K2]. apply based_length in B.
    destruct (load_keys_spec src output_units (u_cd u)) as [cd [-> Dcd]]; [auto|].
    destruct (load_keys_spec src SI_units (u_c u)) as [c [-> Dc]]; [auto|].
    apply outcome_update; [exists []; now rewrite app_nil_r|].
    destruct W as [A1 [A2 [A3 A4]]].
    assert (M : forall (k : string) l, In k l -> mem k l = true) by (intros k l Hk; apply existsb_exists; exists k; split; [auto|apply String.eqb_refl]).
    unfold wf. cbn [u_c u_cd]. repeat split.
    - intros k Hk. unfold has. rewrite Dc, M by auto. destruct (dget src k) as [a|] eqn:E; [|exfalso; apply (K1 k); auto].
      exists a. split; [auto|]. apply K2 in E. lia.
    - intros k Hk. unfold has. rewrite Dcd, M by auto. destruct (dget src k) as [a|] eqn:E; [|exfalso; apply (K1 k); auto].
      exists a. split; [auto|]. apply K2 in E. lia.
    - intros k a. rewrite Dc. destruct (mem k SI_units); intros E; [apply K2 in E; lia|eauto].
    - intros k a. rewrite Dcd. destruct (mem k output_units); intros E; [apply K2 in E; lia|eauto].
  Qed.
  Lemma run_op_outcome h u o : based h -> wf h u -> let '(h', u', r) := run_op h u o in outcome h u h' u' r.
  Proof.
    intros B W. destruct o as [p|s|a b v|s|s|s]; cbn [run_op].
    - now apply loadPreset_outcome.
    - unfold setUnit. destruct (mem s SI_units).
      + cbn. split; [eauto|]. split; [now apply wf_alloc_c|]. now left.
      + destruct s as [|p base]; [now apply outcome_same|]. destruct (negb (mem base SI_units)); [now apply outcome_same|].
        destruct (dget prefixes (String p "")) as [f|]; [|now apply outcome_same]. cbn. apply outcome_update; [eauto|]. now apply wf_alloc_c.
    - unfold setUnitPrefactor. destruct (negb _); [now apply outcome_same|]. cbn. apply outcome_update; [eauto|]. now apply wf_alloc_c.
    - unfold setEnergyUnit. destruct (parse_out s) as [[un p]|e]; [|now apply outcome_same].
      repeat match goal with |- context [if ?b then _ else _] => destruct b; [now apply set_out_outcome|] end. now apply outcome_same.
    - unfold setCurrentUnit, set_simple. destruct (parse_out s) as [[un p]|e]; [|now apply outcome_same].
      destruct (eqb _ _); [now apply set_out_outcome|now apply outcome_same].
    - unfold setVoltageUnit, set_simple. destruct (parse_out s) as [[un p]|e]; [|now apply outcome_same].
      destruct (eqb _ _); [now apply set_out_outcome|now apply outcome_same].
  Qed.


  Hypothesis nz : niszero (lit (n := A) 1 0) = false /\ niszero (lit (n := A) 1 (-15)) = false /\ niszero (lit (n := A) 1 (-12)) = false.
  Definition from_preset p u : Prop := forall src, dget (units_presets (A := A)) p = Some src ->
    (forall k, In k SI_units -> dget (u_c u) k = dget src k) /\ (forall k, In k output_units -> dget (u_cd u) k = dget src k).
  Lemma loadPreset_ok h u p : based h -> wf h u -> dmem (units_presets (A := A)) p = true ->
    exists u', loadPreset h u p = (h, u', Ok tt) /\ wf h u' /\ consistent h u' /\ from_preset p u'.
  Proof.
    intros B W M. pose proof (loadPreset_outcome h u p B W) as O. unfold loadPreset in *. apply dmem_dget in M. destruct M as [src P].
    rewrite P in *. destruct (preset_bound p src P) as [K1 K2].
    destruct (load_keys_spec src output_units (u_cd u)) as [cd [E1 Dcd]]; [auto|].
    destruct (load_keys_spec src SI_units (u_c u)) as [c [E2 Dc]]; [auto|]. rewrite E1, E2 in *.
    unfold updatePrefactors in *. cbn [u_c u_cd u_pf] in *. destruct (prefactors h c cd) as [q|e] eqn:Q.
    - destruct O as [_ [O2 _]]. eexists. split; [reflexivity|]. split; [exact O2|]. split; [exact Q|].
      intros src' P'. rewrite P in P'. injection P' as <-. cbn [u_c u_cd]. split; intros k Hk; [rewrite Dc|rewrite Dcd]; apply mem_In in Hk; now rewrite Hk.
    - exfalso. destruct O as [_ [O2 _]].
      destruct (wf_factors h _ O2) as (E & I & U & F & H & Am & V & Hz & Wb & C & _ & _ & _ & HF & HH & _ & _ & _ & _ & _ & R). cbn [u_c u_cd] in *.
      rewrite Q in R. unfold factor, load in HF, HH. rewrite Dc in HF, HH. destruct B as [l ->].
      assert (X : niszero F = false /\ niszero H = false).
      { revert P. cbn. destruct (String.eqb p "CQED1"); [|destruct (String.eqb p "CQED2"); [|discriminate]]; intros [= <-]; cbn in HF, HH;
          injection HF as <-; injection HH as <-; tauto. }
      destruct X as [X1 X2]. rewrite X1, X2 in R. discriminate.
  Qed.
  (** a new object *)
  Lemma units_new_ok h name : based h ->
    exists l u, units_new h name = (h ++ l, u, Ok tt) /\ wf (h ++ l) u /\ consistent (h ++ l) u /\ from_preset name u.
  Proof.
    intros B. unfold units_new.
    set (es := map (fun s : string => mkent (A := A) s (lit 1 0)) SI_units).
    set (es' := [mkent (A := A) "J" (lit 1 0); mkent "A" (lit 1 0); mkent "V" (lit 1 0)]).
    assert (X1 : alloc_all h (map (fun s : string => (s, mkent (A := A) s (lit 1 0))) SI_units) = (h ++ es, combine SI_units (seq (List.length h) 11))).
    { unfold alloc_all, alloc, es, SI_units. cbn [map fold_left fst snd seq combine].
      repeat rewrite <- app_assoc. cbn [app]. repeat rewrite app_length. cbn [List.length]. f_equal.
      cbn. repeat rewrite ?Nat.add_1_r, ?Nat.add_succ_r, ?Nat.add_0_r. reflexivity. }
    rewrite X1. set (h1 := h ++ es).
    assert (L1 : List.length h1 = List.length h + 11) by (unfold h1; now rewrite app_length).
    assert (X2 : alloc_all h1 [("Energy", mkent (A := A) "J" (lit 1 0)); ("Current", mkent "A" (lit 1 0)); ("Voltage", mkent "V" (lit 1 0))] =
      (h1 ++ es', combine output_units (seq (List.length h1) 3))).
    { unfold alloc_all, alloc, es', output_units. cbn [map fold_left fst snd seq combine].
      repeat rewrite <- app_assoc. cbn [app]. repeat rewrite app_length. cbn [List.length]. f_equal.
      cbn. repeat rewrite ?Nat.add_1_r, ?Nat.add_succ_r, ?Nat.add_0_r. reflexivity. }
    rewrite X2. set (h2 := h1 ++ es').
    assert (L2 : List.length h2 = List.length h + 14) by (unfold h2; rewrite app_length, L1; cbn; lia).
    set (c := combine SI_units (seq (List.length h) 11)). set (cd := combine output_units (seq (List.length h1) 3)).
    assert (W : forall q, wf h2 (mkun c cd q)).
    { intros q. unfold wf, has, c, cd. cbn [u_c u_cd]. rewrite L2, L1. repeat split.
      - intros k Hk. cbn in Hk. intuition (subst; eexists; split; [reflexivity|lia]).
      - intros k Hk. cbn in Hk. intuition (subst; eexists; split; [reflexivity|lia]).
      - intros k a H. cbn in H. repeat match type of H with (if ?b then _ else _) = _ => destruct b; [injection H as <-; lia|] end. discriminate.
      - intros k a H. cbn in H. repeat match type of H with (if ?b then _ else _) = _ => destruct b; [injection H as <-; lia|] end. discriminate. }
    assert (H2 : h2 = h ++ (es ++ es')) by (unfold h2, h1; now rewrite app_assoc).
    destruct (wf_factors h2 _ (W [])) as (E & I & U & F & H & Am & V & Hz & Wb & C & _ & _ & _ & HF & HH & _ & _ & _ & _ & _ & R).
    cbn [u_c u_cd] in *.
    assert (XF : F = lit 1 0).
    { unfold factor, load, c in HF. cbn -[nth_error h2] in HF. rewrite H2, nth_error_app2, Nat.sub_diag in HF by lia. cbn in HF. now injection HF as <-. }
    assert (XH : H = lit 1 0).
    { unfold factor, load, c in HH. cbn -[nth_error h2] in HH. rewrite H2, nth_error_app2 in HH by lia.
      replace (S (List.length h) - List.length h) with 1 in HH by lia. cbn in HH. now injection HH as <-. }
    subst F H. destruct nz as [NZ _]. rewrite NZ in R. cbn [orb] in R. unfold updatePrefactors. cbn [u_c u_cd u_pf]. rewrite R.
    destruct (dmem units_presets name) eqn:M.
    - assert (B2 : based h2) by (destruct B as [l ->]; rewrite H2; exists (l ++ es ++ es'); now rewrite app_assoc).
      match goal with |- context [loadPreset h2 ?uu name] => destruct (loadPreset_ok h2 uu name B2 (W _) M) as [u' [-> [Q1 [Q2 Q3]]]] end.
      exists (es ++ es'), u'. rewrite <- H2. auto.
    - eexists (es ++ es'), _. rewrite <- H2. split; [reflexivity|]. split; [apply W|]. split; [exact R|].
      intros src P. exfalso. apply dmem_false in M. congruence.
  Qed.

  (** Worlds *)
  Definition winv (w : @world A) : Prop := based (w_heap w) /\ Forall (wf (w_heap w)) (w_units w).
  Lemma winv0 : winv world0.
  Proof.
    unfold world0. destruct (units_new_ok heap0 "CQED1") as [l [u [-> [W _]]]]; [exists []; now rewrite app_nil_r|].
    split; [exists l; auto|]. apply Forall_cons; [exact W|apply Forall_nil].
  Qed.
  Lemma upd_nth {X} (l : list X) i x j : nth_error (upd l i x) j = if Nat.eqb i j then (match nth_error l i with Some _ => Some x | None => None end) else nth_error l j.
  Proof.
    revert i j. induction l as [|y l IH]; intros i j; [destruct i, j; cbn; try (now destruct (Nat.eqb _ _)); easy|].
    destruct i, j; cbn; [easy|easy|easy|apply IH].
  Qed.
  Lemma Forall_upd {X} (P : X -> Prop) l i x : Forall P l -> P x -> Forall P (upd l i x).
  Proof. intros F Hx. revert i. induction F; intros i; cbn; [constructor|]. destruct i; constructor; auto. Qed.
  Lemma Forall_wf_ext h l us : Forall (wf h) us -> Forall (wf (h ++ l)) us.
  Proof. apply Forall_impl. intros. now apply wf_ext. Qed.
  Lemma based_ext h l : based h -> based (h ++ l).
  Proof. intros [l0 ->]. exists (l0 ++ l). now rewrite app_assoc. Qed.

  (** what a step does to the Units objects *)
  Lemma call_units_spec w i o : winv w ->
    winv (call_units w i o) /\ (exists l, w_heap (call_units w i o) = w_heap w ++ l) /\ w_ns (call_units w i o) = w_ns w /\
    (forall k, k <> i -> nth_error (w_units (call_units w i o)) k = nth_error (w_units w) k) /\
    (forall u, nth_error (w_units w) i = Some u -> exists u', nth_error (w_units (call_units w i o)) i = Some u' /\
       let '(h', u'', r) := run_op (w_heap w) u o in h' = w_heap (call_units w i o) /\ u'' = u' /\ outcome (w_heap w) u h' u' r).
  Proof.
    intros [B F]. unfold call_units. destruct (nth_error (w_units w) i) as [u|] eqn:E.
    - assert (W : wf (w_heap w) u) by (rewrite Forall_forall in F; apply F; eapply nth_error_In; eauto).
      pose proof (run_op_outcome (w_heap w) u o B W) as O. destruct (run_op (w_heap w) u o) as [[h' u'] r] eqn:RO.
      pose proof O as [[l ->] [W' _]]. cbn. split; [split; [now apply based_ext|apply Forall_upd; [now apply Forall_wf_ext|auto]]|].
      split; [eauto|]. split; [easy|]. split.
      + intros k N. rewrite upd_nth. destruct (Nat.eqb_spec i k); [congruence|easy].
      + intros u0 [= <-]. exists u'. split; [rewrite upd_nth, Nat.eqb_refl, E; easy|]. rewrite RO. auto.
    - split; [now split|]. split; [exists []; now rewrite app_nil_r|]. repeat split; auto. discriminate.
  Qed.
  Lemma step_spec w o : winv w ->
    winv (step w o) /\ (exists l, w_heap (step w o) = w_heap w ++ l) /\
    (forall k u, nth_error (w_units w) k = Some u -> target w o <> Some k -> nth_error (w_units (step w o)) k = Some u) /\
    (forall k u x, nth_error (w_units w) k = Some u -> target w o = Some k -> call_of o = Some x ->
       exists u', nth_error (w_units (step w o)) k = Some u' /\
       let '(h', u'', r) := run_op (w_heap w) u x in h' = w_heap (step w o) /\ u'' = u' /\ outcome (w_heap w) u h' u' r) /\
    (forall k u, nth_error (w_units w) k = None -> nth_error (w_units (step w o)) k = Some u -> consistent (w_heap (step w o)) u).
  Proof.
    intros I. pose proof I as [B F]. destruct o as [name|[i|]|i x|j x]; cbn [step target call_of].
    - destruct (units_new_ok (w_heap w) name B) as [l [u [-> [W C]]]]. cbn.
      split; [split; [now apply based_ext|apply Forall_app; split; [now apply Forall_wf_ext|auto]]|]. split; [eauto|].
      split; [intros k u' E _; rewrite nth_error_app1; [auto|apply nth_error_Some; congruence]|]. split; [discriminate|].
      intros k u' N E. apply nth_error_None in N. rewrite nth_error_app2 in E by auto. destruct (k - List.length (w_units w)) as [|m]; cbn in E.
      + injection E as <-. exact (proj1 C).
      + destruct m; discriminate.
    - cbn. split; [now split|]. split; [exists []; now rewrite app_nil_r|]. repeat split; auto; try discriminate. intros; congruence.
    - cbn. split; [now split|]. split; [exists []; now rewrite app_nil_r|]. repeat split; auto; try discriminate. intros; congruence.
    - destruct (call_units_spec w i x I) as [I' [L [_ [N S]]]]. split; [auto|]. split; [auto|]. split; [|split].
      + intros k u E T. rewrite N; [auto|congruence].
      + intros k u x' E [= <-] [= <-]. now apply S.
      + intros k u E E'. exfalso. destruct (Nat.eq_dec k i) as [->|D]; [|rewrite N in E'; congruence].
        unfold call_units in E'. rewrite E in E'. congruence.
    - destruct (nth_error (w_ns w) j) as [i|] eqn:NS.
      + destruct (call_units_spec w i x I) as [I' [L [_ [N S]]]]. split; [auto|]. split; [auto|]. split; [|split].
        * intros k u E T. rewrite N; [auto|congruence].
        * intros k u x' E [= <-] [= <-]. now apply S.
        * intros k u E E'. exfalso. destruct (Nat.eq_dec k i) as [->|D]; [|rewrite N in E'; congruence].
          unfold call_units in E'. rewrite E in E'. congruence.
      + split; [auto|]. split; [exists []; now rewrite app_nil_r|]. repeat split; auto; try discriminate. intros; congruence.
  Qed.
  Lemma consistent_ext h l u : wf h u -> consistent h u -> consistent (h ++ l) u.
  Proof. intros W C. apply wf_inb in W. unfold consistent in *. now rewrite prefactors_ext. Qed.
  Lemma winv_wf w k u : winv w -> nth_error (w_units w) k = Some u -> wf (w_heap w) u.
  Proof. intros [_ F] E. rewrite Forall_forall in F. apply F. eapply nth_error_In; eauto. Qed.
  Lemma raised_spec (w : @world A) o k u x : target w o = Some k -> nth_error (w_units w) k = Some u -> call_of o = Some x ->
    raised w o = match snd (run_op (w_heap w) u x) with Err e => Some e | Ok _ => None end.
  Proof.
    intros T E C. unfold raised. rewrite T, C, E. destruct (run_op (w_heap w) u x) as [[h' u'] [v|e]]; easy.
  Qed.
  Lemma call_of_target (w : @world A) o k : target w o = Some k -> exists x, call_of o = Some x.
  Proof. destruct o as [?|?|? x|? x]; cbn; [discriminate|discriminate|eauto|eauto]. Qed.
  Lemma winv_run l : forall w, winv w -> winv (run_world w l).
  Proof. induction l as [|o l IH]; intros w I; cbn; [auto|]. apply IH. now apply step_spec. Qed.
  Lemma clean_consistent k l : forall w, winv w -> clean k w l ->
    (forall u, nth_error (w_units w) k = Some u -> consistent (w_heap w) u) ->
    forall u, nth_error (w_units (run_world w l)) k = Some u -> consistent (w_heap (run_world w l)) u.
  Proof.
    induction l as [|o l IH]; intros w I C Hk u; cbn; [auto|]. destruct C as [C1 C2].
    destruct (step_spec w o I) as [I' [[t L] [S1 [S2 S3]]]]. apply IH; auto. clear u. intros u E.
    destruct (nth_error (w_units w) k) as [u0|] eqn:E0; [|now apply (S3 k u)].
    specialize (Hk u0 eq_refl). pose proof (winv_wf w k u0 I E0) as W0.
    destruct (target w o) as [k'|] eqn:T.
    - destruct (Nat.eq_dec k' k) as [->|N].
      + specialize (C1 eq_refl). destruct (call_of_target w o k T) as [x X]. destruct (S2 k u0 x E0 eq_refl X) as [u' [E' O]].
        rewrite (raised_spec w o k u0 x T E0 X) in C1. destruct (run_op (w_heap w) u0 x) as [[h' u''] r].
        destruct O as [Oh [-> O]]. cbn in C1. subst h'. rewrite E' in E. injection E as <-. destruct O as [_ [_ O]].
        destruct r as [v|e]; [exact O|]. destruct C1 as [C1 C1']. destruct O as [O|[O|[O1 O2]]]; [subst; tauto|subst; tauto|].
        rewrite O1, O2. exact Hk.
      + rewrite (S1 k u0 E0) in E by congruence. injection E as <-. rewrite L. now apply consistent_ext.
    - rewrite (S1 k u0 E0) in E by congruence. injection E as <-. rewrite L. now apply consistent_ext.
  Qed.
  Lemma view_ext h l u : wf h u -> same_view h u (h ++ l) u.
  Proof.
    intros W. apply wf_inb in W. destruct W as [B1 B2]. unfold same_view, in_factor, in_name, out_factor, out_name. repeat split.
    - destruct (dget (u_c u) k) as [a|] eqn:E; [|easy]. apply B1 in E. now rewrite nth_error_app1.
    - destruct (dget (u_c u) k) as [a|] eqn:E; [|easy]. apply B1 in E. now rewrite nth_error_app1.
    - destruct (dget (u_cd u) k) as [a|] eqn:E; [|easy]. apply B2 in E. now rewrite nth_error_app1.
    - destruct (dget (u_cd u) k) as [a|] eqn:E; [|easy]. apply B2 in E. now rewrite nth_error_app1.
  Qed.
  Lemma same_view_trans h1 u1 h2 u2 h3 u3 : same_view h1 u1 h2 u2 -> same_view h2 u2 h3 u3 -> same_view h1 u1 h3 u3.
  Proof.
    intros [A1 [A2 A3]] [B1 [B2 B3]]. repeat split; try (destruct (A1 k), (B1 k); congruence); try (destruct (A2 k), (B2 k); congruence).
    intros k. now rewrite B3.
  Qed.
  Lemma same_view_refl h u : same_view h u h u.
  Proof. repeat split. Qed.
  Lemma untouched_view k l : forall w u, winv w -> untouched k w l -> nth_error (w_units w) k = Some u ->
    nth_error (w_units (run_world w l)) k = Some u /\ same_view (w_heap w) u (w_heap (run_world w l)) u.
  Proof.
    induction l as [|o l IH]; intros w u I T E; cbn; [split; [auto|apply same_view_refl]|]. destruct T as [T1 T2].
    destruct (step_spec w o I) as [I' [[t L] [S1 _]]]. specialize (S1 k u E T1). destruct (IH _ u I' T2 S1) as [E' V]. split; [auto|].
    eapply same_view_trans; [|exact V]. rewrite L. apply view_ext. eapply winv_wf; eauto.
  Qed.
End Gen.
