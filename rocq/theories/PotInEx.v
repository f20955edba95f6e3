(** Circuits for C124. *)
From Coq Require Import List Bool String Ascii Arith ZArith Reals Permutation Lra Lia.
From Verif Require Import Prelude PreludeFacts Coll Mat Graph GraphSpec GraphCircuit GraphState GraphOps GraphProofs CollLast Sweep Symbolic SymbolicSpec SymbolicInv SymbolicCap SymbolicFlux SymbolicNew SymbolicProofs MutualProofs SymHam SymHamSpec SymHamEx MoveSpec PotIn PotInSpec PotInProofs.
Import ListNotations.
Open Scope string_scope.
Open Scope list_scope.
Open Scope nat_scope.

Definition anyset (l : list string) : list string := nodup String.string_dec l.
Lemma anyset_ok : set_order anyset.
Proof. intros l. split; [apply NoDup_nodup|]. intros x. apply nodup_In. Qed.
Definition ones (k : string) : option R := Some 1%R.
Lemma ones_ok y : all_values y ones. Proof. intros k _. discriminate. Qed.
(** An rf-SQUID: a junction and an inductor in a loop, with a flux bias *)
Definition Lrf (c x : string) := [B 0 1 "C1"; B 0 1 "L1"; B 0 1 "I1"] ++ [GFlux c (PStr x) None].
Lemma Lrf_facts c x : (c, x) = ("I1", "e") \/ (c, x) = ("I1", "1") \/ (c, x) = ("L1", "e") -> exists y, system y /\ ss_nodes y = [1] /\ ss_edges y = [(0, 1, 1); (1, 0, 2)] /\
  dget (c_map (ss_cg y)) (0, 1, 1) = Some "L1" /\ dget (c_map (ss_cg y)) (1, 0, 2) = Some "I1" /\
  dget (ss_flux y) (0, 1, 1) = Some (if String.eqb c "L1" then [x] else []) /\ dget (ss_flux y) (1, 0, 2) = Some (if String.eqb c "I1" then [x] else []).
Proof.
  intros H. assert (G : circuit (grun cg_new (Lrf c x)) /\ exists y, new_system idord noor (grun cg_new (Lrf c x)) = Some (Ok y) /\ ss_nodes y = [1] /\ ss_edges y = [(0, 1, 1); (1, 0, 2)] /\
    dget (c_map (ss_cg y)) (0, 1, 1) = Some "L1" /\ dget (c_map (ss_cg y)) (1, 0, 2) = Some "I1" /\
    dget (ss_flux y) (0, 1, 1) = Some (if String.eqb c "L1" then [x] else []) /\ dget (ss_flux y) (1, 0, 2) = Some (if String.eqb c "I1" then [x] else [])).
  { destruct H as [H|[H|H]]; injection H as -> ->; (split; [apply circuit_more; [last_branch [B 0 1 "C1"; B 0 1 "L1"] 0 1 "I1"|other]|eexists; split; [vm_compute; reflexivity|repeat split; reflexivity]]). }
  destruct G as (G & y & Hn & R). exists y. split; [eapply system_new; eauto|exact R].
Qed.
Lemma rf_biased y p e x l : system y -> ss_edges y = [(0, 1, 1); (1, 0, 2)] -> dget (c_map (ss_cg y)) (0, 1, 1) = Some "L1" -> dget (c_map (ss_cg y)) (1, 0, 2) = Some "I1" ->
  dget (ss_flux y) e = Some l -> biased_at y p e x -> In x l /\ (e = (0, 1, 1) /\ p = "L"%char \/ e = (1, 0, 2) /\ p = "I"%char).
Proof.
  intros Hy E2 D1 D2 Hl ((He & c & Hc & Hp) & l' & Hl' & Hx). rewrite Hl in Hl'. injection Hl' as <-. split; auto. rewrite E2 in He. cbn in He. destruct He as [<-|[<-|[]]]; [left|right]; (split; [reflexivity|]).
  - rewrite D1 in Hc. injection Hc as <-. unfold letter in Hp; cbn [snd] in Hp; apply Ascii.eqb_eq in Hp. congruence.
  - rewrite D2 in Hc. injection Hc as <-. unfold letter in Hp; cbn [snd] in Hp; apply Ascii.eqb_eq in Hp. congruence.
Qed.
Lemma good_system : exists y, system y /\ ss_nodes y = [1] /\ free_suffixes y /\ plain_inductors y /\ biased_at y "I" (1, 0, 2) "e".
Proof.
  destruct (Lrf_facts "I1" "e") as (y & Hy & E1 & E2 & D1 & D2 & F1 & F2); [auto|]. cbn in F1, F2. exists y. do 2 (split; [assumption|]). split; [|split].
  - intros n e Hn Hb. rewrite E1 in Hn. destruct Hn as [<-|[]]. assert (He := Hb). destruct He as ((He & _) & _). rewrite E2 in He. destruct He as [<-|[<-|[]]].
    + destruct (rf_biased y _ _ _ _ Hy E2 D1 D2 F1 Hb) as [[] _].
    + destruct (rf_biased y _ _ _ _ Hy E2 D1 D2 F2 Hb) as [[H|[]] _]. vm_compute in H. discriminate.
  - intros e x Hb. assert (He := Hb). destruct He as ((He & _) & _). rewrite E2 in He. destruct He as [<-|[<-|[]]].
    + destruct (rf_biased y _ _ _ _ Hy E2 D1 D2 F1 Hb) as [[] _].
    + destruct (rf_biased y _ _ _ _ Hy E2 D1 D2 F2 Hb) as [_ [[? ?]|[_ ?]]]; discriminate.
  - split; [|eexists; split; [exact F2|left; reflexivity]]. split; [rewrite E2; right; left; reflexivity|]. exists "I1". split; auto.
Qed.
Lemma clash_system : exists y, system y /\ In 1 (ss_nodes y) /\ biased_at y "I" (1, 0, 2) (number_str 1) /\ In (1, 0, 2) (ss_edges y).
Proof.
  destruct (Lrf_facts "I1" "1") as (y & Hy & E1 & E2 & D1 & D2 & F1 & F2); [auto|]. cbn in F1, F2. exists y. split; auto. split; [rewrite E1; left; auto|]. split; [|rewrite E2; right; left; reflexivity].
  split; [|eexists; split; [exact F2|left; reflexivity]]. split; [rewrite E2; right; left; reflexivity|]. exists "I1". split; auto.
Qed.
Lemma inductor_system : exists y, system y /\ ss_nodes y = [1] /\ biased_at y "L" (0, 1, 1) "e".
Proof.
  destruct (Lrf_facts "L1" "e") as (y & Hy & E1 & E2 & D1 & D2 & F1 & F2); [auto|]. cbn in F1, F2. exists y. split; auto. split; auto.
  split; [|eexists; split; [exact F1|left; reflexivity]]. split; [rewrite E2; left; reflexivity|]. exists "L1". split; auto.
Qed.
Lemma refuted : (exists y sord val Ej El Linv, system y /\ set_order sord /\ all_values y val /\ (forall e x, ~ biased_at y "L" e x) /\ getClassicalPotentialFunction sord y val Ej El Linv = Err SyntaxError) /\
  (exists y sord val Ej El Linv, system y /\ set_order sord /\ all_values y val /\ (forall n e, In n (ss_nodes y) -> ~ biased_at y "I" e (number_str n)) /\ getClassicalPotentialFunction sord y val Ej El Linv = Err SyntaxError).
Proof.
  split.
  - destruct (Lrf_facts "I1" "1") as (y & Hy & E1 & E2 & D1 & D2 & F1 & F2); [auto|]. cbn in F1, F2. exists y, anyset, ones, 1%R, 1%R, (fun _ _ => 1%R). split; auto. split; [apply anyset_ok|]. split; [apply ones_ok|]. split.
    + intros e x Hb. assert (He := Hb). destruct He as ((He & _) & _). rewrite E2 in He. destruct He as [<-|[<-|[]]].
      * destruct (rf_biased y _ _ _ _ Hy E2 D1 D2 F1 Hb) as [[] _].
      * destruct (rf_biased y _ _ _ _ Hy E2 D1 D2 F2 Hb) as [_ [[? ?]|[_ ?]]]; discriminate.
    + apply (clash y Hy anyset anyset_ok ones 1 1 (fun _ _ => 1%R) 1 (1, 0, 2) (1, 0, 2)); [apply ones_ok|rewrite E1; left; auto| |rewrite E2; right; left; reflexivity|discriminate|left; reflexivity].
      split; [|eexists; split; [exact F2|left; reflexivity]]. split; [rewrite E2; right; left; reflexivity|]. exists "I1". split; auto.
  - destruct (Lrf_facts "L1" "e") as (y & Hy & E1 & E2 & D1 & D2 & F1 & F2); [auto|]. cbn in F1, F2. exists y, anyset, ones, 1%R, 1%R, (fun _ _ => 1%R). split; auto. split; [apply anyset_ok|]. split; [apply ones_ok|]. split.
    + intros n e _ Hb. assert (He := Hb). destruct He as ((He & _) & _). rewrite E2 in He. destruct He as [<-|[<-|[]]].
      * destruct (rf_biased y _ _ _ _ Hy E2 D1 D2 F1 Hb) as [_ [[_ ?]|[? ?]]]; discriminate.
      * destruct (rf_biased y _ _ _ _ Hy E2 D1 D2 F2 Hb) as [[] _].
    + apply (biased_inductor y Hy anyset anyset_ok ones 1 1 (fun _ _ => 1%R) (0, 1, 1) "e" 0 0); [apply ones_ok| |discriminate|right; rewrite E1; reflexivity|rewrite E1; cbn; lia|lra|lra].
      split; [|eexists; split; [exact F1|left; reflexivity]]. split; [rewrite E2; left; reflexivity|]. exists "L1". split; auto.
Qed.
Lemma unset_system : exists y, system y /\ ~ all_values y (fun _ => None).
Proof.
  destruct good_system as (y & Hy & _ & _ & _ & _ & l & Hl & Hx). exists y. split; [exact Hy|]. intros H. assert (BI := PotInSyms.system_bias y Hy).
  apply (H "phie"); [|reflexivity]. rewrite (PotInSyms.sk_keys _ (PotInSyms.bi_syms y BI)). exact (PotInSyms.bi_reg y BI _ l "e" Hl Hx).
Qed.
