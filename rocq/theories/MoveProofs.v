(** Proofs for C118. *)
From Coq Require Import List Bool String Ascii Arith ZArith Reals Permutation Lra Lia.
From Coquelicot Require Import Complex Hierarchy.
From Verif Require Import Prelude PreludeFacts Mat MatFacts Graph GraphSpec GraphView GraphForest GraphWf GraphCircuit GraphState GraphMaps GraphOps GraphProofs CollLast Sweep Symbolic SymbolicSpec RSum SymbolicInv SymbolicCap SymbolicCap2 SymbolicFlux SymbolicNew SymbolicProofs MutualProofs NumOp SymHam SymHamSpec SymHamProofs SymHamQ SymHamT SymHamEx SymTotal SymTotalSpec SymTotalProofs SymTotalMain MoveSpec.
Import ListNotations.
Open Scope string_scope.
Open Scope list_scope.
Open Scope nat_scope.

(** ** Potentials *)
Fixpoint wsum (u : edge -> R) (w : list (bool * edge)) : R :=
  match w with [] => 0%R | (d, e) :: w => ((if d then u e else - u e) + wsum u w)%R end.
Definition within (E : list edge) (w : list (bool * edge)) : Prop := forall x, In x w -> In (snd x) E.
Lemma wsum_diff (f : nat -> R) u : forall w p q, (forall x, In x w -> u (snd x) = f (src (snd x)) - f (dst (snd x)))%R -> walk w p q -> wsum u w = (f p - f q)%R.
Proof.
  induction w as [|[d e] w IH]; intros p q H Hw; [cbn in *; subst; ring|].
  assert (H0 := H _ (or_introl eq_refl)). assert (H1 := fun x Hx => H x (or_intror Hx)). cbn [snd] in H0. destruct d; destruct Hw as [-> Hw]; cbn [wsum]; rewrite (IH _ _ H1 Hw), H0; ring.
Qed.
Lemma conn_walk E x y : conn E x y -> exists w, within E w /\ walk w x y.
Proof.
  induction 1 as [x|e y He H (w & Hw & W)|e y He H (w & Hw & W)].
  - exists []. split; [intros ? []|reflexivity].
  - exists ((true, e) :: w). split; [intros z [<-|Hz]; auto|split; auto].
  - exists ((false, e) :: w). split; [intros z [<-|Hz]; auto|split; auto].
Qed.
Lemma potential E (u : edge -> R) : (forall w p, within E w -> walk w p p -> wsum u w = 0%R) -> exists f : nat -> R, forall e, In e E -> (f (src e) - f (dst e) = u e)%R.
Proof.
  induction E as [|e E IH]; intros H; [exists (fun _ => 0%R); intros ? []|].
  destruct IH as (f & Hf). { intros w p Hw. apply H. intros x Hx. right. auto. }
  destruct (conn_dec E (dst e) (src e)) as [C|C].
  - exists f. intros e' [<-|He']; auto. destruct (conn_walk E _ _ C) as (w & Hw & W).
    assert (Z := H ((true, e) :: w) (src e)). cbn [wsum] in Z. rewrite (wsum_diff f u w (dst e) (src e)) in Z; [|intros x Hx; symmetry; apply Hf; auto|exact W].
    specialize (Z (fun x Hx => match Hx with or_introl E1 => or_introl (f_equal snd E1) | or_intror E1 => or_intror (Hw x E1) end) (conj eq_refl W)). lra.
  - set (c := (f (src e) - f (dst e) - u e)%R). exists (fun n => if conn_dec E (dst e) n then f n + c else f n)%R. intros e' [<-|He'].
    + destruct (conn_dec E (dst e) (src e)); [contradiction|]. destruct (conn_dec E (dst e) (dst e)) as [_|N]; [unfold c; ring|exfalso; apply N; constructor].
    + rewrite <- (Hf e' He'). assert (Hc := conn_edge E e' He'). destruct (conn_dec E (dst e) (src e')) as [A|A], (conn_dec E (dst e) (dst e')) as [B|B]; try ring.
      * exfalso. apply B. eapply conn_trans; eauto.
      * exfalso. apply A. eapply conn_trans; [exact B|apply conn_sym; auto].
Qed.
Lemma wsum_net a b w : a <> b -> wsum (fun e => if eqb e b then 1 else if eqb e a then -1 else 0)%R w = (IZR (net b w) - IZR (net a w))%R.
Proof.
  intros Hab. induction w as [|[d e] w IH]; [cbn; ring|]. cbn [wsum net]. rewrite IH, !plus_IZR.
  destruct (Prelude.eqb_spec e b) as [E1|E1]; destruct (Prelude.eqb_spec e a) as [E2|E2]; try congruence; destruct d; cbn; ring.
Qed.

Lemma wsum_scal c u w : wsum (fun e => c * u e)%R w = (c * wsum u w)%R.
Proof. induction w as [|[[] e] w IH]; cbn; [ring|rewrite IH; ring|rewrite IH; ring]. Qed.
Lemma walk_total (f : nat -> R) u : forall w p q, walk w p q -> (forall x, In x w -> exists k : Z, (f (src (snd x)) - f (dst (snd x)) = u (snd x) + 2 * PI * IZR k)%R) ->
  exists k : Z, (f p - f q = wsum u w + 2 * PI * IZR k)%R.
Proof.
  induction w as [|[d e] w IH]; intros p q Hw H; [cbn in *; subst; exists 0%Z; ring|].
  destruct (H _ (or_introl eq_refl)) as (k & Ek). assert (H1 := fun x Hx => H x (or_intror Hx)). cbn [snd] in Ek. destruct d; destruct Hw as [-> Hw]; destruct (IH _ _ Hw H1) as (j & Ej); cbn [wsum].
  - exists (k + j)%Z. rewrite plus_IZR. lra.
  - exists (- k + j)%Z. rewrite plus_IZR, opp_IZR. lra.
Qed.
Lemma one_term {A} `{EqB A} (l : list A) a (c : R) : NoDup l -> In a l -> Rsum (map (fun f => if eqb f a then c else 0)%R l) = c.
Proof.
  induction l as [|x l IH]; [intros _ []|]. intros N Hin. inversion N as [|? ? Nx Nl]; subst. cbn [map]. rewrite Rsum_cons. destruct Hin as [->|Hin].
  - rewrite eqb_refl. rewrite (Rsum_map_0 _ l); [ring|]. intros f Hf. destruct (Prelude.eqb_spec f a) as [->|]; [contradiction|reflexivity].
  - rewrite IH by auto. destruct (Prelude.eqb_spec x a) as [->|]; [contradiction|ring].
Qed.

(** ** The Josephson energy over the branches of the system *)
Definition jterm (y : ssys) (val ph : string -> R) (phi : nat -> R) (e : edge) : R :=
  (- match lname y "I" e with Some c => val c | None => 0 end * cos (phi (src e) - phi (dst e) + branch_bias y ph e))%R.
Lemma josephson_terms y val ph phi : system y -> phi 0 = 0%R -> getClassicalJosephsonEnergies y val ph phi = Ok (Rsum (map (jterm y val ph phi) (ss_edges y))).
Proof.
  intros Hy P0. unfold getClassicalJosephsonEnergies, getJosephsonVector. rewrite (vector_ok y Hy). cbn [bind]. rewrite (bias_ok y Hy). cbn [bind]. f_equal.
  rewrite fold_seq_Rsum. etransitivity; [exact (edge_sum y Hy val "I" (signed_bias (ss_red y) ph) _ (fun i => SymHam.total ph (jbias y i)) phi P0 eq_refl (jbias_signed y Hy ph))|].
  apply Rsum_ext. intros e He. unfold hj, jterm. f_equal. f_equal. f_equal. apply (keys_edges y Hy) in He. unfold signed_bias, branch_bias. rewrite <- (m_red y (system_inv y Hy)).
  destruct (dget (ss_red y) e) as [l|]; [|congruence]. symmetry. apply total_Rsum.
Qed.
Lemma lname_kind y e : system y -> In e (ss_edges y) -> (kind_at y "I" e <-> exists c, lname y "I" e = Some c) /\ (kind_at y "L" e -> lname y "I" e = None).
Proof.
  intros Hy He. destruct (y_comp y Hy e He) as (c & Hc & _). unfold kind_at, lname. rewrite Hc. assert (L : forall p, letter p (e, c) = starts p c) by (intros p; unfold letter, starts; destruct c; reflexivity). split; [split|].
  - intros (_ & c' & E & HL). injection E as <-. rewrite L in HL. rewrite HL. eauto.
  - intros (c' & E). destruct (starts "I" c) eqn:S; [|discriminate]. injection E as <-. split; auto. exists c. rewrite L. auto.
  - intros (_ & c' & E & HL). injection E as <-. rewrite L in HL. unfold starts in *. destruct c as [|z c]; auto. destruct (Ascii.eqb_spec z "L") as [->|]; [reflexivity|discriminate].
Qed.
Lemma lname_one y e f c : system y -> In e (ss_edges y) -> In f (ss_edges y) -> lname y "I" e = Some c -> lname y "I" f = Some c -> e = f.
Proof.
  intros Hy He Hf A B. assert (HD := circuit_derived _ (m_circ y (system_inv y Hy))). unfold lname in *.
  destruct (dget (c_map (ss_cg y)) e) as [c1|] eqn:E1; [|discriminate]. destruct (starts "I" c1); [|discriminate]. injection A as ->.
  destruct (dget (c_map (ss_cg y)) f) as [c2|] eqn:E2; [|discriminate]. destruct (starts "I" c2); [|discriminate]. injection B as ->.
  apply (map_get _ HD) in E1, E2. rewrite (y_edges y Hy) in He, Hf. exact (wcs_unique _ e f HD He Hf (carries_norm _ HD e f c E1 E2)).
Qed.

(** ** What moveFluxBias keeps *)
Lemma move_frame y a b : let y' := fst (moveFluxBias y a b) in ss_cg y' = ss_cg y /\ ss_nodes y' = ss_nodes y /\ ss_edges y' = ss_edges y /\ ss_charge y' = ss_charge y.
Proof. cbv zeta. unfold moveFluxBias. destruct (negb _); auto. destruct (negb _); auto. destruct (dget (ss_flux y) a) as [[|]|]; auto. destruct (dget (ss_red y) a); cbn; auto. Qed.
Lemma lname_cg y y' p e : ss_cg y' = ss_cg y -> lname y' p e = lname y p e.
Proof. intros E. unfold lname. rewrite E. reflexivity. Qed.

Section Move.
  Variables (y : ssys) (a b : edge) (x : list string).
  Hypothesis Hy : system y.
  Hypothesis Ha : kind_at y "I" a.
  Hypothesis Hb : kind_at y "I" b.
  Hypothesis Hab : a <> b.
  Hypothesis Hx : dget (ss_flux y) a = Some x.
  Hypothesis Hxn : x <> [].
  Hypothesis Hz : dget (ss_flux y) b = Some [].
  Let y' := fst (moveFluxBias y a b).
  Let Hy' : system y' := system_move y a b Hy.
  Lemma move_done : moveFluxBias y a b = (y', Ok tt) /\ forall ph e, branch_bias y' ph e = (branch_bias y ph e + SymHam.total ph x * (if eqb e b then 1 else if eqb e a then -1 else 0))%R.
  Proof.
    destruct (move_ok y a b x (system_inv y Hy) (proj1 Ha) (proj1 Hb) Hx Hxn) as (z & Em & _ & _ & Hf & _). unfold y'. rewrite Em. cbn [fst]. split; auto.
    intros ph e. unfold branch_bias. rewrite Hf. destruct (Prelude.eqb_spec e b) as [->|]; [rewrite Hz; cbn; ring|]. destruct (Prelude.eqb_spec e a) as [->|]; [rewrite Hx; cbn; ring|]. destruct (dget (ss_flux y) e); ring.
  Qed.
  Lemma move_kind p e : kind_at y' p e <-> kind_at y p e.
  Proof. unfold kind_at. destruct (move_frame y a b) as (E1 & _ & E3 & _). unfold y'. rewrite E1, E3. tauto. Qed.
  (** the shift of unit size *)
  Lemma unit_shift : same_loops y a b -> exists f : nat -> R, f 0 = 0%R /\ forall e, kind_at y "I" e \/ kind_at y "L" e -> (f (src e) - f (dst e) = if eqb e b then 1 else if eqb e a then -1 else 0)%R.
  Proof.
    intros HS. set (conductive := fun e => match dget (c_map (ss_cg y)) e with Some c => letter "I" (e, c) || letter "L" (e, c) | None => false end).
    assert (K : forall e, In e (filter conductive (ss_edges y)) <-> kind_at y "I" e \/ kind_at y "L" e).
    { intros e. rewrite filter_In. unfold conductive, kind_at. destruct (dget (c_map (ss_cg y)) e) as [c|].
      - rewrite orb_true_iff. split; [intros (H & [H1|H1]); [left|right]; eauto|]. intros [(H & c' & E & H1)|(H & c' & E & H1)]; injection E as <-; auto.
      - split; [intros (_ & H); discriminate|]. intros [(_ & c' & E & _)|(_ & c' & E & _)]; discriminate. }
    destruct (potential (filter conductive (ss_edges y)) (fun e => if eqb e b then 1 else if eqb e a then -1 else 0)%R) as (f & Hf).
    { intros w p Hw W. rewrite wsum_net by auto. rewrite (HS w p); [ring| |auto]. intros z Hz'. apply K. auto. }
    exists (fun n => f n - f 0%nat)%R. split; [ring|]. intros e He. rewrite <- Hf by (apply K; auto). ring.
  Qed.
  Lemma not_inductor e : kind_at y "L" e -> (if eqb e b then 1 else if eqb e a then -1 else 0)%R = 0%R.
  Proof.
    intros H. assert (D : forall c, kind_at y "I" c -> c <> e).
    { intros c Hc ->. destruct (lname_kind y e Hy (proj1 H)) as [A B]. apply A in Hc as (c & Hc). rewrite (B H) in Hc. discriminate. }
    destruct (Prelude.eqb_spec e b) as [E|]; [destruct (D b Hb (eq_sym E))|]. destruct (Prelude.eqb_spec e a) as [E|]; [destruct (D a Ha (eq_sym E))|reflexivity].
  Qed.
  Lemma shift_gauge f ph : f 0 = 0%R -> (forall e, kind_at y "I" e \/ kind_at y "L" e -> (f (src e) - f (dst e) = if eqb e b then 1 else if eqb e a then -1 else 0)%R) ->
    gauge y y' ph (fun k => SymHam.total ph x * f k)%R.
  Proof.
    intros F0 Hf. split; [rewrite F0; ring|]. split.
    - intros e He. assert (E := Hf e (or_intror He)). rewrite (not_inductor e He) in E. f_equal. lra.
    - intros val phi P0. rewrite (josephson_terms y' val ph phi Hy' P0), (josephson_terms y val ph _ Hy) by (rewrite P0, F0; ring).
      destruct (move_frame y a b) as (E1 & _ & E3 & _). fold y' in E1, E3. rewrite E3. f_equal. apply Rsum_ext. intros e He. unfold jterm. rewrite (lname_cg y y' _ _ E1).
      destruct (lname y "I" e) as [c|] eqn:El; [|ring]. f_equal. f_equal. rewrite (proj2 move_done). rewrite <- (Hf e); [ring|]. left. apply (lname_kind y e Hy He). eauto.
  Qed.
  Lemma same_inductors f h : (forall e, kind_at y "L" e -> f (src e) = f (dst e)) -> forall val, inductive_form val (c_graph (ss_cg y)) (fun k => h k + f k)%R = inductive_form val (c_graph (ss_cg y)) h.
  Proof.
    intros Hf val. set (s := ss_cg y). assert (HC := m_circ y (system_inv y Hy)). fold s in HC. assert (HD := circuit_derived s HC).
    rewrite <- !(edges_total s val HD). apply Rsum_ext. intros e He. destruct (y_comp y Hy e) as (c & Hc & _); [rewrite (y_edges y Hy); exact He|]. unfold weight, ind_name. fold s in Hc. rewrite Hc. destruct (starts "L" c) eqn:S; [|ring].
    rewrite (Hf e); [ring|]. split; [rewrite (y_edges y Hy); exact He|]. exists c. split; [exact Hc|]. revert S. unfold letter, starts. destruct c; auto.
  Qed.
  Lemma full_gauge : same_loops y a b ->
    exists f : nat -> R, f 0 = 0%R /\ forall w Cinv P Q F phi, ideal y (v_par w) -> inverted y (v_par w) Cinv P -> F 0 = 0%R -> phi 0 = 0%R ->
    getClassicalHamiltonian y' w Cinv P Q F phi = getClassicalHamiltonian y w Cinv P Q (fun k => F k + SymHam.total (v_flux w) x * f k)%R (fun k => phi k + SymHam.total (v_redflux w) x * f k)%R.
  Proof.
    intros HS. destruct (unit_shift HS) as (f & F0 & Hf). exists f. split; auto. intros w Cinv P Q F phi HI HV Z P0. unfold getClassicalHamiltonian.
    destruct (shift_gauge f (v_redflux w) F0 Hf) as (_ & _ & HG). rewrite (HG (v_par w) phi P0). destruct (getClassicalJosephsonEnergies y (v_par w) (v_redflux w) _) as [j|]; auto. cbn [bind]. f_equal. f_equal. f_equal.
    - destruct (move_frame y a b) as (_ & E2 & _ & E4). fold y' in E2, E4. unfold sym_getChargingEnergies, charge_bias. rewrite E2, E4. reflexivity.
    - destruct (move_frame y a b) as (E1 & E2 & E3 & E4). fold y' in E1, E2, E3, E4.
      assert (HI' : ideal y' (v_par w)) by (unfold ideal; rewrite E1; exact HI). assert (HV' : inverted y' (v_par w) Cinv P) by (unfold inverted; rewrite E1, E2, E3; exact HV).
      rewrite (proj1 (flux_energy_at y' Hy' w Cinv P F HI' HV' Z)), (proj1 (flux_energy_at y Hy w Cinv P (fun k => F k + SymHam.total (v_flux w) x * f k)%R HI HV ltac:(cbv beta; rewrite Z, F0; ring))).
      f_equal. rewrite E1, E3. rewrite <- (same_inductors (fun k => SymHam.total (v_flux w) x * f k)%R (fun k => F k + shift (ss_cg y) (ss_edges y) (branch_bias y' (v_flux w)) k)%R).
      + unfold inductive_form. apply Rsum_ext. intros [[[p q] k] c] _.
        assert (ES : forall m, shift (ss_cg y) (ss_edges y) (branch_bias y' (v_flux w)) m = shift (ss_cg y) (ss_edges y) (branch_bias y (v_flux w)) m).
        { intros m. unfold shift. destruct (Nat.eqb m 0); auto. apply Rsum_ext. intros e He. destruct (dget (c_map (ss_cg y)) e) as [c'|] eqn:Ec; auto. destruct (letter "L" (e, c')) eqn:El; auto.
          rewrite (proj2 move_done), (not_inductor e) by (split; eauto). rewrite Rmult_0_r, Rplus_0_r. reflexivity. }
        rewrite !ES. unfold Rdiv. ring.
      + intros e He. assert (E := Hf e (or_intror He)). rewrite (not_inductor e He) in E. f_equal. lra.
  Qed.
  (** ** Necessity *)
  Lemma cos_one t : cos t = 1%R -> exists k : Z, (t = 2 * PI * IZR k)%R.
  Proof.
    intros H. assert (E : sin (t / 2) = 0%R). { replace t with (2 * (t / 2))%R in H by field. rewrite cos_2a_sin in H. assert (Q : (sin (t / 2) * sin (t / 2) = 0)%R) by lra. apply Rmult_integral in Q. tauto. }
    apply sin_eq_0_0 in E as (k & E). exists k. lra.
  Qed.
  Lemma total_const t (l : list string) : SymHam.total (fun _ => t) l = (IZR (Z.of_nat (List.length l)) * t)%R.
  Proof. induction l as [|z l IH]; [cbn; ring|]. cbn [SymHam.total fold_right List.length]. fold (SymHam.total (fun _ => t) l). rewrite IH, Nat2Z.inj_succ, succ_IZR. ring. Qed.
  Lemma gauge_needs : (forall ph, exists dl, gauge y y' ph dl) -> same_loops y a b.
  Proof.
    intros HG w p Hw W. destruct (Z.eq_dec (net a w) (net b w)) as [|N]; auto. exfalso.
    set (n := (net b w - net a w)%Z). assert (Hn : IZR n <> 0%R) by (apply not_0_IZR; unfold n; lia).
    set (l := IZR (Z.of_nat (List.length x))). assert (Hl : l <> 0%R) by (apply not_0_IZR; destruct x; [congruence|cbn; lia]).
    set (ph := fun _ : string => (PI / IZR n / l)%R). assert (EX : SymHam.total ph x = (PI / IZR n)%R) by (unfold ph; rewrite total_const; fold l; field; auto).
    destruct (HG ph) as (dl & D0 & DL & DJ).
    assert (K : forall e, kind_at y "I" e \/ kind_at y "L" e -> exists k : Z, (dl (src e) - dl (dst e) = PI / IZR n * (if eqb e b then 1 else if eqb e a then -1 else 0) + 2 * PI * IZR k)%R).
    { intros e [He|He]; [|exists 0%Z; rewrite (not_inductor e He), (DL e He); ring].
      assert (Hin := proj1 He). destruct (lname_kind y e Hy Hin) as [A _]. apply A in He as (c & Hc). clear A.
      set (val := fun z : string => if String.eqb z c then 1%R else 0%R).
      assert (J : forall phi, phi 0 = 0%R -> cos (phi (src e) - phi (dst e) + branch_bias y' ph e) = cos ((phi (src e) + dl (src e)) - (phi (dst e) + dl (dst e)) + branch_bias y ph e)).
      { intros phi P0. assert (E := DJ val phi P0). rewrite (josephson_terms y' val ph phi Hy' P0), (josephson_terms y val ph _ Hy) in E by (rewrite P0, D0; ring). injection E as E.
        destruct (move_frame y a b) as (E1 & _ & E3 & _). fold y' in E1, E3. rewrite E3 in E.
        assert (S : forall h : edge -> R, Rsum (map (fun f => - match lname y "I" f with Some c => val c | None => 0 end * h f)%R (ss_edges y)) = (- h e)%R).
        { intros h. assert (ND : NoDup (ss_edges y)) by (rewrite (y_edges y Hy); apply wcs_NoDup; exact (circuit_derived _ (m_circ y (system_inv y Hy)))).
          assert (V : forall f, In f (ss_edges y) -> match lname y "I" f with Some c => val c | None => 0%R end = if eqb f e then 1%R else 0%R).
          { intros f Hf. destruct (Prelude.eqb_spec f e) as [->|Hne]; [rewrite Hc; unfold val; rewrite String.eqb_refl; reflexivity|]. destruct (lname y "I" f) as [c'|] eqn:Ef; auto. unfold val. destruct (String.eqb_spec c' c) as [->|]; auto.
            exfalso. apply Hne. exact (lname_one y f e c Hy Hf Hin Ef Hc). }
          rewrite (Rsum_ext _ (fun f => if eqb f e then - h e else 0)%R); [apply one_term; auto|]. intros f Hf. rewrite (V f Hf). destruct (Prelude.eqb_spec f e) as [->|]; ring. }
        unfold jterm in E. rewrite (Rsum_ext _ (fun f => - match lname y "I" f with Some c => val c | None => 0 end * cos (phi (src f) - phi (dst f) + branch_bias y' ph f))%R) in E by (intros f _; rewrite (lname_cg y y' _ _ E1); reflexivity).
        rewrite (S (fun f => cos (phi (src f) - phi (dst f) + branch_bias y' ph f))), (S (fun f => cos (phi (src f) + dl (src f) - (phi (dst f) + dl (dst f)) + branch_bias y ph f))) in E. lra. }
      rewrite (proj2 move_done), EX in J. set (u := (if eqb e b then 1 else if eqb e a then -1 else 0)%R) in *.
      destruct (Nat.eq_dec (src e) (dst e)) as [Es|Es].
      - rewrite Es. specialize (J (fun _ => 0%R) eq_refl). rewrite Es in J. replace (0 - 0 + (branch_bias y ph e + PI / IZR n * u))%R with (branch_bias y ph e + PI / IZR n * u)%R in J by ring.
        replace (0 + dl (dst e) - (0 + dl (dst e)) + branch_bias y ph e)%R with (branch_bias y ph e) in J by ring.
        assert (Q : exists k : Z, (PI / IZR n * u = 2 * PI * IZR k)%R).
        { unfold u in *. destruct (Prelude.eqb_spec e b) as [->|].
          - unfold branch_bias in J. rewrite Hz in J. cbn [SymHam.total fold_right] in J. rewrite cos_0, Rplus_0_l in J. apply cos_one. exact J.
          - destruct (Prelude.eqb_spec e a) as [->|]; [|exists 0%Z; ring]. unfold branch_bias in J. rewrite Hx, EX in J. replace (PI / IZR n + PI / IZR n * -1)%R with 0%R in J by ring. rewrite cos_0 in J. apply cos_one. rewrite <- cos_neg. rewrite J. f_equal. ring. }
        destruct Q as (k & Q). exists (- k)%Z. rewrite opp_IZR. lra.
      - set (t := (- (branch_bias y ph e + PI / IZR n * u))%R).
        assert (Q : exists phi : nat -> R, phi 0 = 0%R /\ (phi (src e) - phi (dst e) = t)%R).
        { destruct (Nat.eq_dec (src e) 0) as [E0|E0].
          - exists (upd (fun _ => 0%R) (dst e) (- t)). rewrite upd_eq, !upd_neq by congruence. split; [reflexivity|ring].
          - exists (upd (fun _ => 0%R) (src e) t). rewrite upd_eq, !upd_neq by congruence. split; [reflexivity|ring]. }
        destruct Q as (phi & P0 & Pt). specialize (J phi P0). rewrite Pt in J. unfold t in J at 1. rewrite Rplus_opp_l, cos_0 in J. symmetry in J. apply cos_one in J as (k & J). exists k. unfold t in Pt. lra. }
    destruct (walk_total dl (fun e => PI / IZR n * (if eqb e b then 1 else if eqb e a then -1 else 0))%R w p p W (fun z Hz' => K (snd z) (Hw z Hz'))) as (k & E).
    rewrite wsum_scal, wsum_net in E by auto. rewrite <- minus_IZR in E. fold n in E. replace (PI / IZR n * IZR n)%R with PI in E by (field; auto).
    assert (P0 := PI_RGT_0). assert (Q : (1 + 2 * IZR k = 0)%R) by (apply (Rmult_eq_reg_l PI); lra). change 1%R with (IZR 1) in Q. change 2%R with (IZR 2) in Q. rewrite <- mult_IZR, <- plus_IZR in Q. apply eq_IZR in Q. lia.
  Qed.
End Move.
Lemma gauge_exact y a b x : system y -> kind_at y "I" a -> kind_at y "I" b -> a <> b -> dget (ss_flux y) a = Some x -> x <> [] -> dget (ss_flux y) b = Some [] ->
  (same_loops y a b <-> forall ph, exists dl, gauge y (fst (moveFluxBias y a b)) ph dl).
Proof.
  intros Hy Ka Kb N Hx Hn Hz. split.
  - intros HS ph. destruct (unit_shift y a b N HS) as (f & F0 & Hf). eexists. exact (shift_gauge y a b x Hy Ka Kb Hx Hn Hz f ph F0 Hf).
  - exact (gauge_needs y a b x Hy Ka Kb N Hx Hn Hz).
Qed.

(** ** Junctions and inductors *)
Section Any.
  Variables (y : ssys) (a b : edge) (x : list string).
  Hypothesis Hy : system y.
  Hypothesis Ha : kind_at y "I" a \/ kind_at y "L" a.
  Hypothesis Hb : kind_at y "I" b \/ kind_at y "L" b.
  Hypothesis Hab : a <> b.
  Hypothesis Hx : dget (ss_flux y) a = Some x.
  Hypothesis Hxn : x <> [].
  Hypothesis Hz : dget (ss_flux y) b = Some [].
  Let y' := fst (moveFluxBias y a b).
  Let Hy' : system y' := system_move y a b Hy.
  Lemma any_done : moveFluxBias y a b = (y', Ok tt) /\ forall ph e, branch_bias y' ph e = (branch_bias y ph e + SymHam.total ph x * (if eqb e b then 1 else if eqb e a then -1 else 0))%R.
  Proof.
    assert (Ia : In a (ss_edges y)) by (destruct Ha as [[]|[]]; auto). assert (Ib : In b (ss_edges y)) by (destruct Hb as [[]|[]]; auto).
    destruct (move_ok y a b x (system_inv y Hy) Ia Ib Hx Hxn) as (z & Em & _ & _ & Hf & _). unfold y'. rewrite Em. cbn [fst]. split; auto.
    intros ph e. unfold branch_bias. rewrite Hf. destruct (Prelude.eqb_spec e b) as [->|]; [rewrite Hz; cbn; ring|]. destruct (Prelude.eqb_spec e a) as [->|]; [rewrite Hx; cbn; ring|]. destruct (dget (ss_flux y) e); ring.
  Qed.
  Lemma total_scal ph ph' kap l : (forall z, ph' z = kap * ph z)%R -> SymHam.total ph' l = (kap * SymHam.total ph l)%R.
  Proof. intros H. induction l as [|z l IH]; [cbn; ring|]. cbn. fold (SymHam.total ph' l) (SymHam.total ph l). rewrite IH, H. ring. Qed.
  Lemma any_gauge : same_loops y a b -> exists f : nat -> R, f 0 = 0%R /\ forall w kap Cinv P Q F,
    (forall z, v_redflux w z = kap * v_flux w z)%R -> ideal y (v_par w) -> inverted y (v_par w) Cinv P -> biases_alone y (branch_bias y (v_flux w)) -> biases_alone y' (branch_bias y' (v_flux w)) -> F 0 = 0%R ->
    getClassicalHamiltonian y' w Cinv P Q F (fun k => kap * F k)%R =
    getClassicalHamiltonian y w Cinv P Q (fun k => F k + SymHam.total (v_flux w) x * f k)%R (fun k => kap * (F k + SymHam.total (v_flux w) x * f k))%R.
  Proof.
    intros HS. destruct (unit_shift y a b Hab HS) as (f & F0 & Hf). exists f. split; auto. intros w kap Cinv P Q F HR HI HV HB HB' Z. set (t := SymHam.total (v_flux w) x).
    destruct (move_frame y a b) as (E1 & E2 & E3 & E4). fold y' in E1, E2, E3, E4.
    assert (HI' : ideal y' (v_par w)) by (unfold ideal; rewrite E1; exact HI). assert (HV' : inverted y' (v_par w) Cinv P) by (unfold inverted; rewrite E1, E2, E3; exact HV).
    unfold getClassicalHamiltonian. rewrite (josephson_terms y' (v_par w) (v_redflux w) _ Hy') by (cbv beta; rewrite Z; ring). rewrite (josephson_terms y (v_par w) (v_redflux w) _ Hy) by (cbv beta; rewrite Z, F0; ring). cbn [bind].
    rewrite (proj2 (flux_energy_at y' Hy' w Cinv P F HI' HV' Z) HB'), (proj2 (flux_energy_at y Hy w Cinv P (fun k => F k + t * f k)%R HI HV ltac:(cbv beta; rewrite Z, F0; ring)) HB).
    f_equal. f_equal; [f_equal|].
    - unfold sym_getChargingEnergies, charge_bias. rewrite E2, E4. reflexivity.
    - f_equal. unfold biased_form. rewrite E1, E3. apply Rsum_ext. intros e He. destruct (dget (c_map (ss_cg y)) e) as [c|] eqn:Ec; auto. destruct (letter "L" (e, c)) eqn:El; auto.
      rewrite (proj2 any_done). fold t. rewrite <- (Hf e) by (right; split; eauto). unfold Rdiv. ring.
    - rewrite E3. apply Rsum_ext. intros e He. unfold jterm. rewrite (lname_cg y y' _ _ E1). destruct (lname y "I" e) as [c|] eqn:El; [|ring].
      f_equal. f_equal. rewrite (proj2 any_done), (total_scal (v_flux w) (v_redflux w) kap x HR). fold t. rewrite <- (Hf e) by (left; apply (lname_kind y e Hy He); eauto). ring.
  Qed.
End Any.
