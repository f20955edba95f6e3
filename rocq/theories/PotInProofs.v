(** The classical potential function (C124). *)
From Coq Require Import List Bool String Ascii Arith ZArith NArith Reals Permutation Lra Lia.
From Coquelicot Require Import Complex Hierarchy.
From Verif Require Import Prelude PreludeFacts StrFacts Coll Mat MatFacts Graph GraphSpec GraphView GraphForest GraphWf GraphCircuit GraphState GraphMaps GraphOps GraphProofs CollLast Sweep Symbolic SymbolicSpec RSum SymbolicInv SymbolicCap SymbolicCap2 SymbolicFlux SymbolicParam SymbolicNew SymbolicProofs MutualProofs NumOp SymHam SymHamSpec SymHamProofs SymHamQ SymHamT SymHamEx MoveSpec MoveProofs PotIn PotInSpec PotInSyms.
Import ListNotations.
Open Scope string_scope.
Open Scope list_scope.
Open Scope nat_scope.

Lemma psym_eqb_eq a b : psym_eqb a b = true <-> a = b.
Proof. destruct a, b; cbn; rewrite ?Nat.eqb_eq, ?String.eqb_eq; split; congruence. Qed.
Lemma lambdify_ok args free : lambdify args free = Ok tt <-> forall x, In x free -> In x args.
Proof.
  unfold lambdify. destruct (forallb _ free) eqn:E.
  - split; auto. intros _ x Hx. rewrite forallb_forall in E. apply E, existsb_exists in Hx as (z & Hz & Ez). apply psym_eqb_eq in Ez. now subst.
  - split; [discriminate|]. intros H. exfalso. rewrite <- not_true_iff_false in E. apply E, forallb_forall. intros x Hx. apply existsb_exists. exists x. split; auto. now apply psym_eqb_eq.
Qed.
Lemma lambdify_err args free x : In x free -> ~ In x args -> lambdify args free = Err SyntaxError.
Proof. intros H1 H2. assert (E := lambdify_ok args free). unfold lambdify in *. destruct (forallb _ free); auto. exfalso. apply H2, E; auto. Qed.
Lemma arg_lookup (f : string -> R) (d : dict string psym) k s : In (k, s) d -> (forall k', In (k', s) d -> k' = k) -> arg_value (dvals d) (map f (dkeys d)) s = f k.
Proof.
  intros H U. induction d as [|[k0 s0] d IH]; [destruct H|]. change (arg_value (s0 :: dvals d) (f k0 :: map f (dkeys d)) s = f k). cbn [arg_value]. destruct (psym_eqb s s0) eqn:E.
  - apply psym_eqb_eq in E. subst s0. f_equal. apply U. left. reflexivity.
  - apply IH; [|intros; apply U; right; auto]. destruct H as [H|H]; auto. injection H as -> ->. assert (psym_eqb s s = true) by now apply psym_eqb_eq. congruence.
Qed.
Lemma nat_str_number n : nat_str n = number_str n. Proof. reflexivity. Qed.

Lemma sR_1 n c (f : nat -> R) : sumn (A := R_rng) n (fun i => (c * f i)%R) = (c * sumn (A := R_rng) n f)%R.
Proof. symmetry. apply (sumn_mul_l (A := R_rng) n c f). Qed.
Lemma lform_app env a b : lform_val env (a ++ b) = (lform_val env a + lform_val env b)%R.
Proof. unfold lform_val. induction a as [|t a IH]; cbn; [ring|]. rewrite IH. ring. Qed.
Lemma lform_bias env l : lform_val env (map (fun x => (1%Z, BiasFlux x)) l) = SymHam.total (fun x => env (BiasFlux x)) l.
Proof. unfold lform_val, SymHam.total. induction l as [|x l IH]; cbn; [auto|]. rewrite IH. ring. Qed.
Lemma lform_nodes env nodes edges i l : lform_val env (flat_map (fun k => let z := rbn nodes edges k i in if (z =? 0)%Z then [] else [(z, NodeFlux (nth k nodes 0))]) l) =
  Rsum (map (fun k => (IZR (rbn nodes edges k i) * env (NodeFlux (nth k nodes 0%nat)))%R) l).
Proof.
  induction l as [|k l IH]; [reflexivity|]. cbn [flat_map map]. cbv zeta in *. rewrite lform_app, IH, Rsum_cons. destruct (Z.eqb_spec (rbn nodes edges k i) 0) as [->|]; unfold lform_val; cbn [fold_right fst snd]; ring.
Qed.
Lemma jj_val env nodes edges B i : lform_val env (jj_form nodes edges B i) =
  (branch_flux nodes edges (fun k => env (NodeFlux (nth k nodes 0%nat))) i + SymHam.total (fun x => env (BiasFlux x)) (nth i B []))%R.
Proof. unfold jj_form. rewrite lform_app, lform_nodes, lform_bias. f_equal. unfold branch_flux. now rewrite sumn_Rsum. Qed.
Lemma fold_left_Rsum (f : nat -> R) l a : fold_left (fun r i => (r + f i)%R) l a = (a + Rsum (map f l))%R.
Proof. revert a. induction l as [|x l IH]; intros a; cbn [fold_left map]; [rewrite Rsum_nil; ring|]. rewrite IH, Rsum_cons. ring. Qed.

Section P.
  Variable y : ssys.
  Hypothesis Hy : system y.
  Let nodes := ss_nodes y.
  Let edges := ss_edges y.
  Let HI : moves_inv y := system_inv y Hy.
  Let BI : bias_inv y := system_bias y Hy.
  Definition jb (p : ascii) (e : edge) : list string := match lname y p e, dget (ss_flux y) e with Some _, Some l => l | _, _ => [] end.
  Lemma letter_bias_ok p : mapM (fun e => bind (is_type p (ss_cg y) e) (fun b => if b then match dget (ss_flux y) e with Some l => Ok l | None => Err KeyError end else Ok [])) edges = Ok (map (jb p) edges).
  Proof.
    apply mapM_map. intros e He. destruct (y_comp y Hy e He) as (c & E & _ & _ & E3). destruct (E3 p) as [_ E4]. rewrite E4. cbn [bind]. unfold jb, lname. rewrite E. destruct (starts p c); auto.
    assert (Hk : In e (dkeys (ss_flux y))) by (rewrite (m_keys y HI); auto). apply dkeys_dget in Hk as (l & ->). auto.
  Qed.
  Lemma jb_biased p e x : In e edges -> (In x (jb p e) <-> biased_at y p e x).
  Proof.
    intros He. destruct (y_comp y Hy e He) as (c & Hc & _). assert (L : letter p (e, c) = starts p c) by (unfold letter, starts; destruct c; reflexivity).
    unfold jb, biased_at, kind_at, lname. rewrite Hc. split.
    - destruct (starts p c) eqn:S; [|intros []]. destruct (dget (ss_flux y) e) as [l|]; [|intros []]. intros Hx. split; [|eauto]. split; auto. exists c. split; auto.
    - intros ((_ & c' & E & Hl) & l & -> & Hx). injection E as <-. rewrite L in Hl. rewrite Hl. exact Hx.
  Qed.
  Lemma biased_edge p e x : biased_at y p e x -> In e edges. Proof. now intros ((H & _) & _). Qed.
  Variable sord : list string -> list string.
  Hypothesis Hs : set_order sord.
  Let L := sord (List.concat (map (jb "I") edges)).
  Lemma L_spec x : In x L <-> exists e, biased_at y "I" e x.
  Proof.
    unfold L. rewrite (proj2 (Hs _)), in_concat. split.
    - intros (l & Hl & Hx). apply in_map_iff in Hl as (e & <- & He). exists e. now apply jb_biased.
    - intros (e & H). exists (jb "I" e). assert (He := biased_edge _ _ _ H). split; [now apply in_map|]. now apply jb_biased.
  Qed.
  Let base := fold_left (fun d n => dset d ("phi" ++ nat_str n)%string (NodeFlux n)) nodes [].
  Definition dofs : dict string psym := fold_left (fun d x => dset d ("phi" ++ x)%string (BiasFlux x)) L base.
  Lemma format_ok : input_format sord y = Ok dofs.
  Proof.
    unfold input_format, josephson_bias. rewrite letter_bias_ok. cbn [bind]. fold L. fold nodes. fold base. unfold dofs. assert (HL : forall x, In x L -> exists e, biased_at y "I" e x) by (intros x; apply L_spec).
    revert HL. generalize base. generalize L. clear -BI. intros l. induction l as [|x l IH]; intros d HL; cbn [foldM fold_left]; auto. destruct (HL x (or_introl eq_refl)) as (e & _ & l0 & He & Hx).
    rewrite (find_phi _ x (bi_syms y BI) (bi_reg y BI e l0 x He Hx)). cbn [bind]. apply IH. intros z Hz. apply HL. right. auto.
  Qed.
  Lemma phi_inj a b : ("phi" ++ a)%string = ("phi" ++ b)%string -> a = b. Proof. now intros [= ->]. Qed.
  Lemma base_spec k s : dget base k = Some s <-> exists n, In n nodes /\ k = ("phi" ++ number_str n)%string /\ s = NodeFlux n.
  Proof.
    unfold base. assert (G : forall l d, dget (fold_left (fun d n => dset d ("phi" ++ nat_str n)%string (NodeFlux n)) l d) k = Some s <->
      (exists n, In n l /\ k = ("phi" ++ number_str n)%string /\ s = NodeFlux n) \/ (forall n, In n l -> k <> ("phi" ++ number_str n)%string) /\ dget d k = Some s).
    { induction l as [|n l IH]; intros d; cbn [fold_left].
      - split; [intros H; right; split; auto; intros n []|intros [(n & [] & _)|[_ H]]; exact H].
      - rewrite IH. rewrite dget_dset. destruct (eqb_spec k ("phi" ++ nat_str n)%string) as [->|N].
        + split.
          * intros [(m & Hm & E & ->)|[_ H]]; [left; exists m; split; [right|]; auto|]. injection H as <-. left. exists n. split; [left|]; auto.
          * intros [(m & Hm & E & ->)|[H _]]; [|exfalso; apply (H n); [left|]; auto]. apply phi_inj, dec_inj, Nnat.Nat2N.inj in E. subst m.
            destruct (in_dec Nat.eq_dec n l) as [Hi|Hi]; [left; exists n; auto|]. right. split; auto. intros m' Hm' E'. apply phi_inj, dec_inj, Nnat.Nat2N.inj in E'. now subst m'.
        + split.
          * intros [(m & Hm & E & ->)|[H1 H2]]; [left; exists m; split; [right|]; auto|]. right. split; auto. intros m [<-|Hm]; auto.
          * intros [(m & [<-|Hm] & E & ->)|[H1 H2]]; [now destruct N|left; eauto|]. right. split; auto. intros m Hm. apply H1. right. auto. }
    rewrite G. split; [intros [H|[_ H]]; [exact H|discriminate]|auto].
  Qed.
  Lemma dofs_get k s : dget dofs k = Some s <-> (exists x, In x L /\ k = ("phi" ++ x)%string /\ s = BiasFlux x) \/ (exists n, In n nodes /\ k = ("phi" ++ number_str n)%string /\ s = NodeFlux n /\ ~ In (number_str n) L).
  Proof.
    unfold dofs. assert (G : forall l d, dget (fold_left (fun d x => dset d ("phi" ++ x)%string (BiasFlux x)) l d) k = Some s <->
      (exists x, In x l /\ k = ("phi" ++ x)%string /\ s = BiasFlux x) \/ (forall x, In x l -> k <> ("phi" ++ x)%string) /\ dget d k = Some s).
    { induction l as [|n l IH]; intros d; cbn [fold_left].
      - split; [intros H; right; split; auto; intros n []|intros [(n & [] & _)|[_ H]]; exact H].
      - rewrite IH. rewrite dget_dset. destruct (eqb_spec k ("phi" ++ n)%string) as [->|N].
        + split.
          * intros [(m & Hm & E & ->)|[_ H]]; [left; exists m; split; [right|]; auto|]. injection H as <-. left. exists n. split; [left|]; auto.
          * intros [(m & Hm & E & ->)|[H _]]; [|exfalso; apply (H n); [left|]; auto]. apply phi_inj in E. subst m.
            destruct (in_dec String.string_dec n l) as [Hi|Hi]; [left; exists n; auto|]. right. split; auto. intros m' Hm' E'. apply phi_inj in E'. now subst m'.
        + split.
          * intros [(m & Hm & E & ->)|[H1 H2]]; [left; exists m; split; [right|]; auto|]. right. split; auto. intros m [<-|Hm]; auto.
          * intros [(m & [<-|Hm] & E & ->)|[H1 H2]]; [now destruct N|left; eauto|]. right. split; auto. intros m Hm. apply H1. right. auto. }
    rewrite G, base_spec. split.
    - intros [H|[H (n & Hn & -> & ->)]]; [left; exact H|]. right. exists n. do 3 (split; auto). intros H'. now apply (H _ H').
    - intros [H|(n & Hn & -> & -> & HL)]; [left; exact H|]. right. split; [|eauto]. intros x Hx E. apply phi_inj in E. now subst x.
  Qed.
  Lemma dofs_nd : NoDup (dkeys dofs).
  Proof.
    assert (G : forall {A} (f : A -> string) (g : A -> psym) l d, NoDup (dkeys d) -> NoDup (dkeys (fold_left (fun d x => dset d (f x) (g x)) l d))).
    { clear. intros A f g. induction l as [|x l IH]; intros d H; cbn [fold_left]; auto. apply IH. now apply NoDup_dset. }
    unfold dofs, base. apply (G string (fun x => ("phi" ++ x)%string) BiasFlux), (G nat (fun n => ("phi" ++ nat_str n)%string) NodeFlux). constructor.
  Qed.
  Lemma dofs_In k s : In (k, s) dofs <-> dget dofs k = Some s.
  Proof. split; [apply In_dget, dofs_nd|apply dget_In]. Qed.
  Lemma dofs_vals s : In s (dvals dofs) <-> match s with BiasFlux x => In x L | NodeFlux n => In n nodes /\ ~ In (number_str n) L end.
  Proof.
    unfold dvals. rewrite in_map_iff. split.
    - intros ([k s'] & <- & H). cbn [snd]. apply dofs_In, dofs_get in H as [(x & Hx & _ & ->)|(n & Hn & _ & -> & HL)]; auto.
    - destruct s as [n|x]; [intros [Hn HL]|intros Hx]; [exists (("phi" ++ number_str n)%string, NodeFlux n)|exists (("phi" ++ x)%string, BiasFlux x)]; (split; [reflexivity|]); apply dofs_In, dofs_get; eauto 6.
  Qed.
  Lemma dofs_env f s : In s (dvals dofs) -> arg_value (dvals dofs) (map f (dkeys dofs)) s = f match s with BiasFlux x => ("phi" ++ x)%string | NodeFlux n => ("phi" ++ number_str n)%string end.
  Proof.
    intros H. rewrite dofs_vals in H. apply arg_lookup.
    - apply dofs_In, dofs_get. destruct s; [right|left]; eauto. destruct H. eauto.
    - intros k Hk. apply dofs_In, dofs_get in Hk as [(x & _ & -> & ->)|(n & _ & -> & -> & _)]; reflexivity.
  Qed.
  Lemma dofs_keys k : In k (dkeys dofs) <-> input_name y k.
  Proof.
    rewrite dkeys_dget. unfold input_name. fold nodes. split.
    - intros (s & H). apply dofs_get in H as [(x & Hx & -> & _)|(n & Hn & -> & _)]; [right|left; eauto]. apply L_spec in Hx as (e & He). eauto.
    - intros [(n & Hn & ->)|(e & x & He & ->)].
      + destruct (in_dec String.string_dec (number_str n) L) as [Hi|Hi]; eexists; apply dofs_get; eauto 6.
      + eexists. apply dofs_get. left. exists x. split; [apply L_spec; eauto|]. auto.
  Qed.
  Variable val : string -> option R.
  Variables Ej El : R.
  Variable Linv : nat -> nat -> R.
  Let B := map (jb "I") edges.
  Let Bi := map (jb "L") edges.
  Let M i j := (1 / 2 * El * Linv i j)%R.
  Let thepot := mkpot dofs (List.length edges) (fun i => Ej * amp (value_of val) (map (lname y "I") edges) i)%R (jj_form nodes edges B) (List.length nodes) M (ind_form nodes edges Bi).
  Lemma builder_unset : ~ all_values y val -> builder sord y val Ej El Linv = Err AssertionError.
  Proof.
    intros H. unfold builder. destruct (forallb _ _) eqn:E; [|reflexivity]. exfalso. apply H. rewrite forallb_forall in E. intros k Hk Hn. specialize (E k Hk). cbv beta in E. rewrite Hn in E. discriminate.
  Qed.
  Lemma builder_set : all_values y val -> builder sord y val Ej El Linv =
    bind (lambdify (dvals dofs) (flat_map (fun i => symbols_of (jj_form nodes edges B i)) (seq 0 (List.length edges)))) (fun _ =>
    bind (lambdify (dvals dofs) (quad_symbols (List.length nodes) M (ind_form nodes edges Bi))) (fun _ => Ok thepot)).
  Proof.
    intros H. unfold builder. destruct (forallb _ _) eqn:E; [cbn [negb]|].
    2:{ exfalso. rewrite <- not_true_iff_false in E. apply E, forallb_forall. intros k Hk. specialize (H k Hk). destruct (val k); congruence. }
    unfold getJosephsonVector. rewrite (vector_ok y Hy). cbn [bind]. unfold josephson_bias. rewrite letter_bias_ok. cbn [bind]. rewrite format_ok. cbn [bind]. unfold inductor_bias. rewrite letter_bias_ok. cbn [bind]. reflexivity.
  Qed.
  Lemma nth_jb p i x : In x (nth i (map (jb p) edges) []) -> exists e, biased_at y p e x /\ nth_error edges i = Some e.
  Proof.
    intros H. destruct (nth_error edges i) as [e|] eqn:E.
    - assert (E' := map_nth_error (jb p) i edges E). rewrite (nth_error_nth _ _ [] E') in H. exists e. split; auto. apply jb_biased; auto. eapply nth_error_In; eauto.
    - exfalso. rewrite nth_overflow in H; [destruct H|]. rewrite map_length. now apply nth_error_None.
  Qed.
  Lemma jj_syms i s : In s (symbols_of (jj_form nodes edges B i)) -> match s with BiasFlux x => In x L | NodeFlux n => In n nodes end.
  Proof.
    unfold symbols_of, jj_form. rewrite map_app, in_app_iff. intros [H|H].
    - apply in_map_iff in H as ([z s'] & <- & H). apply in_flat_map in H as (k & Hk & H). cbv zeta in H. destruct (_ =? 0)%Z; [destruct H|]. destruct H as [H|[]]. injection H as <- <-. cbn. apply nth_In. apply in_seq in Hk. lia.
    - rewrite map_map in H. apply in_map_iff in H as (x & <- & H). cbn. apply nth_jb in H as (e & He & _). apply L_spec. eauto.
  Qed.
  Definition free_suffixes : Prop := forall n e, In n (ss_nodes y) -> ~ biased_at y "I" e (number_str n).
  Definition plain_inductors : Prop := forall e x, ~ biased_at y "L" e x.
  Lemma no_clash : free_suffixes -> forall n, In n nodes -> ~ In (number_str n) L.
  Proof. intros H n Hn HL. apply L_spec in HL as (e & He). exact (H n e Hn He). Qed.
  Lemma Bi_nil : plain_inductors -> forall j, nth j Bi [] = [].
  Proof. intros H j. unfold Bi. destruct (nth j (map (jb "L") edges) []) as [|x l] eqn:E; auto. exfalso. destruct (nth_jb "L" j x) as (e & He & _); [rewrite E; left; auto|]. exact (H e x He). Qed.
  Lemma ind_plain i : plain_inductors -> ind_form nodes edges Bi i = [(1%Z, NodeFlux (nth i nodes 0))].
  Proof.
    intros H. unfold ind_form. f_equal. assert (G : forall l, flat_map (fun j => let z := rbn nodes edges i j in if (z =? 0)%Z then [] else map (fun x => (z, BiasFlux x)) (nth j Bi [])) l = []); [|apply G].
    induction l as [|j l IH]; cbn [flat_map]; auto. cbv zeta in *. rewrite (Bi_nil H), IH. destruct (_ =? 0)%Z; auto.
  Qed.
  Lemma builder_ok : all_values y val -> free_suffixes -> plain_inductors -> builder sord y val Ej El Linv = Ok thepot.
  Proof.
    intros Hv Hf Hp. rewrite (builder_set Hv).
    rewrite (proj2 (lambdify_ok _ _)).
    - cbn [bind]. rewrite (proj2 (lambdify_ok _ _)); [reflexivity|]. intros s H. unfold quad_symbols in H. apply in_flat_map in H as (i & Hi & H). apply in_flat_map in H as (j & Hj & H). apply in_seq in Hi, Hj.
      destruct (Req_EM_T _ _); [destruct H|]. rewrite !(ind_plain _ Hp) in H. apply dofs_vals. cbn in H. assert (G : forall k, k < List.length nodes -> In (nth k nodes 0) nodes /\ ~ In (number_str (nth k nodes 0)) L) by (intros k Hk; assert (In (nth k nodes 0) nodes) by (now apply nth_In); split; auto; now apply no_clash). destruct H as [<-|[<-|[]]]; apply G; lia.
    - intros s H. apply in_flat_map in H as (i & _ & H). apply jj_syms in H. apply dofs_vals. destruct s; auto. split; auto. now apply no_clash.
  Qed.
  Lemma node_pos n : In n nodes -> n <> 0.
  Proof. unfold nodes. rewrite (system_nodes y Hy). intros H. apply (nodes_In _ (ss_cg y) (circuit_derived _ (m_circ y HI)) eq_refl) in H. tauto. Qed.
  Lemma scale_total c ph l : SymHam.total (fun x => c * ph x)%R l = (c * SymHam.total ph l)%R.
  Proof. unfold SymHam.total. induction l as [|x l IH]; cbn; [ring|]. rewrite IH. ring. Qed.
  Lemma total_ext ph ph' l : (forall x, In x l -> ph x = ph' x) -> SymHam.total ph l = SymHam.total ph' l.
  Proof. unfold SymHam.total. induction l as [|x l IH]; intros H; cbn; auto. rewrite H by (left; auto). rewrite IH; auto. intros; apply H; right; auto. Qed.
  Lemma value : all_values y val -> free_suffixes -> plain_inductors -> forall ph, exists K, (no_lone_selfloop (noncap (c_graph (ss_cg y))) -> K = 0%R) /\
    forall d, (forall k, input_name y k -> In k (dkeys d)) -> (forall e x, biased_at y "I" e x -> input d ("phi" ++ x) = ph x) ->
    potential_at thepot d = Ok (- Ej * (junction_energy (value_of val) (fun x => 2 * PI * ph x) (ss_flux y) (c_graph (ss_cg y)) (fun n => 2 * PI * node_input d n) + K)
      + El * energy (List.length nodes) Linv (fun i => node_input d (nth i nodes 0%nat)))%R.
  Proof.
    intros Hv Hf Hp ph. destruct (josephson_classical y (value_of val) (fun x => 2 * PI * ph x)%R Hy) as (K & HK & H). exists K. split; auto. intros d Hd Hph. unfold potential_at.
    destruct (forallb _ _) eqn:E; [cbn [negb]|].
    2:{ exfalso. rewrite <- not_true_iff_false in E. apply E, forallb_forall. intros k Hk. apply dofs_keys, Hd in Hk. apply dmem_dget. now apply dkeys_dget in Hk. }
    cbv zeta. cbn [p_dof thepot p_branches p_I p_jj p_nodes p_M p_u]. set (f := fun k : string => match dget d k with Some x => x | None => 0%R end). set (env := arg_value (dvals dofs) (map f (dkeys dofs))).
    assert (EN : forall n, In n nodes -> env (NodeFlux n) = node_input d n).
    { intros n Hn. unfold env. rewrite dofs_env; [|apply dofs_vals; split; [exact Hn|now apply no_clash]]. assert (P := node_pos n Hn). unfold node_input. destruct n; [congruence|]. reflexivity. }
    assert (EB : forall x, In x L -> env (BiasFlux x) = ph x).
    { intros x Hx. unfold env. rewrite dofs_env by now apply dofs_vals. apply L_spec in Hx as (e & He). exact (Hph e x He). }
    f_equal. f_equal.
    - specialize (H (fun n => 2 * PI * node_input d n)%R ltac:(cbn; ring)). rewrite <- (m_red y HI). unfold getClassicalJosephsonEnergies, getJosephsonVector in H. rewrite (vector_ok y Hy) in H. cbn [bind] in H. unfold josephson_bias in H. rewrite (m_red y HI), letter_bias_ok in H. cbn [bind] in H.
      rewrite (m_red y HI). injection H as H. rewrite <- H. rewrite fold_left_Rsum, fold_seq_Rsum. fold edges nodes B. rewrite Rplus_0_l. rewrite <- Rsum_map_mul. apply Rsum_ext. intros i Hi. rewrite jj_val.
      replace (branch_flux nodes edges (fun k => 2 * PI * node_input d (nth k nodes 0%nat)) i)%R with (2 * PI * branch_flux nodes edges (fun k => env (NodeFlux (nth k nodes 0%nat))) i)%R.
      2:{ unfold branch_flux. rewrite <- sR_1. apply (sR_ext (List.length nodes)). intros k Hk. rewrite EN by now apply nth_In. ring. }
      rewrite scale_total. rewrite (total_ext (fun x => env (BiasFlux x)) ph). 2:{ intros x Hx. apply EB. apply nth_jb in Hx as (e & He & _). apply L_spec. eauto. }
      rewrite Rmult_plus_distr_l. ring.
    - unfold energy. rewrite <- Rmult_assoc. rewrite <- sR_1. apply (sR_ext (List.length nodes)). intros i Hi. rewrite <- sR_1. apply (sR_ext (List.length nodes)). intros j Hj. rewrite !(ind_plain _ Hp). unfold lform_val. cbn [fold_right fst snd]. rewrite !EN by now apply nth_In. unfold M. cbn. field.
  Qed.
  Lemma missing d k : input_name y k -> ~ In k (dkeys d) -> potential_at thepot d = Err AssertionError.
  Proof.
    intros Hk Hn. unfold potential_at. destruct (forallb _ _) eqn:E; [|reflexivity]. exfalso. rewrite forallb_forall in E. apply dofs_keys in Hk. apply E in Hk. apply dmem_dget in Hk. apply Hn. now apply dkeys_dget.
  Qed.
  Lemma default_keys : dkeys (getDefaultInputs thepot) = dkeys dofs.
  Proof. unfold getDefaultInputs. cbn [p_dof thepot]. generalize (dkeys dofs). clear. intros l. unfold dkeys. rewrite map_map. cbn. apply map_id. Qed.
  Lemma result_ok : all_values y val -> free_suffixes -> plain_inductors -> exists p d, getClassicalPotentialFunction sord y val Ej El Linv = Ok (p, d) /\
    NoDup (dkeys d) /\ (forall k, In k (dkeys d) <-> input_name y k) /\ (forall k, In k (dkeys d) -> dget d k = Some 0%R) /\
    (forall ph, exists K, (no_lone_selfloop (noncap (c_graph (ss_cg y))) -> K = 0%R) /\
      forall d', (forall k, input_name y k -> In k (dkeys d')) -> (forall e x, biased_at y "I" e x -> input d' ("phi" ++ x) = ph x) ->
      potential_at p d' = Ok (- Ej * (junction_energy (value_of val) (fun x => 2 * PI * ph x) (ss_flux y) (c_graph (ss_cg y)) (fun n => 2 * PI * node_input d' n) + K)
        + El * energy (List.length (ss_nodes y)) Linv (fun i => node_input d' (nth i (ss_nodes y) 0%nat)))%R) /\
    (forall d' k, input_name y k -> ~ In k (dkeys d') -> potential_at p d' = Err AssertionError).
  Proof.
    intros Hv Hf Hp. exists thepot, (getDefaultInputs thepot). unfold getClassicalPotentialFunction. rewrite builder_ok by auto. split; [reflexivity|]. rewrite default_keys. split; [apply dofs_nd|]. split; [apply dofs_keys|]. split.
    - intros k Hk. unfold getDefaultInputs. cbn [p_dof thepot]. revert Hk. clear. generalize (dkeys dofs). induction l as [|a l IH]; [intros []|]. intros Hk. cbn [map dget]. destruct (eqb_spec k a); auto. apply IH. destruct Hk; congruence.
    - split; [exact (value Hv Hf Hp)|exact missing].
  Qed.
  Lemma unset : ~ all_values y val -> getClassicalPotentialFunction sord y val Ej El Linv = Err AssertionError.
  Proof. intros H. unfold getClassicalPotentialFunction. now rewrite builder_unset. Qed.
  (** a bias named like the coordinate of a node *)
  Lemma clash n e f : all_values y val -> In n (ss_nodes y) -> biased_at y "I" f (number_str n) -> In e (ss_edges y) -> src e <> dst e -> src e = n \/ dst e = n ->
    getClassicalPotentialFunction sord y val Ej El Linv = Err SyntaxError.
  Proof.
    intros Hv Hn Hf He Hne Hor. unfold getClassicalPotentialFunction. rewrite builder_set by auto. rewrite (lambdify_err _ _ (NodeFlux n)); auto.
    - apply In_nth_error in He as (i & Hi). apply In_nth_error in Hn as (k & Hk). assert (Hil : i < List.length edges) by (apply nth_error_Some; unfold edges; congruence). assert (Hkl : k < List.length nodes) by (apply nth_error_Some; unfold nodes; congruence).
      apply in_flat_map. exists i. split; [apply in_seq; lia|]. unfold symbols_of, jj_form. rewrite map_app. apply in_or_app. left. apply in_map_iff. exists (rbn nodes edges k i, NodeFlux n). split; [reflexivity|].
      apply in_flat_map. exists k. split; [apply in_seq; lia|]. cbv zeta. rewrite (nth_error_nth nodes k 0 Hk).
      destruct (Z.eqb_spec (rbn nodes edges k i) 0) as [E|E]; [|left; reflexivity]. exfalso. revert E. unfold rbn, nodes, edges. rewrite Hk, Hi. destruct (Nat.eqb_spec (src e) (dst e)); [congruence|]. destruct (Nat.eqb_spec (src e) n); [discriminate|]. destruct (Nat.eqb_spec (dst e) n); [discriminate|]. tauto.
    - rewrite dofs_vals. intros [_ H]. apply H, L_spec. eauto.
  Qed.
  (** a bias on an inductor *)
  Lemma biased_inductor e x i j : all_values y val -> biased_at y "L" e x -> src e <> dst e -> nth_error (ss_nodes y) i = Some (src e) \/ nth_error (ss_nodes y) i = Some (dst e) -> j < List.length (ss_nodes y) -> El <> 0%R -> Linv i j <> 0%R ->
    getClassicalPotentialFunction sord y val Ej El Linv = Err SyntaxError.
  Proof.
    intros Hv Hb Hne Hi Hj HE HL. unfold getClassicalPotentialFunction. rewrite builder_set by auto. destruct (lambdify _ _) as [[]|er] eqn:E1; cbn [bind].
    2:{ unfold lambdify in E1. destruct (forallb _ _); [discriminate|]. congruence. }
    assert (He := biased_edge _ _ _ Hb). assert (He' := He). apply In_nth_error in He' as (m & Hm). rewrite (lambdify_err _ _ (BiasFlux x)); auto.
    - assert (Hil : i < List.length nodes) by (apply nth_error_Some; unfold nodes; destruct Hi; congruence). unfold quad_symbols. apply in_flat_map. exists i. split; [apply in_seq; lia|]. apply in_flat_map. exists j. split; [apply in_seq; fold nodes in Hj; lia|].
      destruct (Req_EM_T (M i j) 0) as [E|_]; [exfalso; unfold M in E; apply Rmult_integral in E as [E|E]; [lra|auto]|]. apply in_or_app. left. unfold symbols_of, ind_form. cbn [map]. right.
      apply in_map_iff. exists (rbn nodes edges i m, BiasFlux x). split; [reflexivity|]. apply in_flat_map. assert (Hml : m < List.length edges) by (apply nth_error_Some; congruence). exists m. split; [apply in_seq; lia|]. cbv zeta.
      destruct (Z.eqb_spec (rbn nodes edges i m) 0) as [E|E].
      + exfalso. revert E. unfold rbn. rewrite Hm. unfold nodes. destruct Hi as [-> | ->].
        * destruct (Nat.eqb_spec (src e) (dst e)); [congruence|]. rewrite Nat.eqb_refl. discriminate.
        * destruct (Nat.eqb_spec (src e) (dst e)); [congruence|]. rewrite Nat.eqb_refl. discriminate.
      + apply (in_map (fun x => (rbn nodes edges i m, BiasFlux x))). unfold Bi. rewrite (nth_error_nth _ _ [] (map_nth_error (jb "L") m edges Hm)). now apply jb_biased.
    - rewrite dofs_vals. intros H. apply L_spec in H as (f & (Kf & l' & Hl' & Hx')). destruct Hb as (Ke & l & Hl & Hx). assert (E := bi_one y BI e f l l' x Hl Hl' Hx Hx'). subst f.
      destruct (lname_kind y e Hy He) as [K1 K2]. apply K1 in Kf as (c & Hc). rewrite (K2 Ke) in Hc. discriminate.
  Qed.
End P.
