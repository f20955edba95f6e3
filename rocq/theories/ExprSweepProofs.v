(** Proofs of C109. *)
From Coq Require Import List Bool String Arith Lia ZArith Permutation.
From Verif Require Import Prelude PreludeFacts Float Param Expr Sweep SweepProofs SweepResultProofs Coll NumSweep NumSweepSpec NumSubs ExprSweep.
Import ListNotations.
Open Scope string_scope.
Open Scope list_scope.

Lemma call_all_ok {D B} (f : D -> res B) (ds : list D) bs : Forall2 (fun d b => f d = Ok b) ds bs ->
  call_all (fun (_ : unit) d => (tt, f d)) tt ds = (tt, bs, Ok tt).
Proof. induction 1 as [|d b ds bs E _ IH]; [reflexivity|]. cbn. now rewrite E, IH. Qed.

Lemma f2_nth {X Y} (R : X -> Y -> Prop) l l' i x : Forall2 R l l' -> nth_error l i = Some x -> exists y, nth_error l' i = Some y /\ R x y.
Proof. intros F. revert i. induction F as [|a b l l' H F IH]; intros [|i] E; cbn in *; try discriminate; [injection E as <-; eauto | auto]. Qed.

Lemma grid_of_unique st names s1 s2 : grid_of st names s1 -> grid_of st names s2 -> s1 = s2.
Proof. intros F. revert s2. induction F as [|k s l l' E F IH]; intros s2 G; inversion G; subst; [reflexivity|]. f_equal; [congruence | now apply IH]. Qed.
Lemma grid_of_length st names sweeps : grid_of st names sweeps -> List.length names = List.length sweeps.
Proof. apply SweepProofs.Forall2_length. Qed.

Lemma fst_combine {X Y} (l : list X) (m : list Y) : List.length l = List.length m -> map fst (combine l m) = l.
Proof. revert m. induction l; intros [|x m] H; cbn in *; try lia; auto. f_equal. apply IHl. lia. Qed.

Section A.
  Context {A : alg} (LAW : alg_ok A).
  Lemma point_subs_ok sq syparams names (e : E A) params syms : good_sq sq -> NoDup syms ->
    Forall2 (fun p s => dget syparams p = Some s) names syms -> (forall p, In p names -> dget params p <> None) ->
    exists e', point_subs sq syparams names e params = Ok e' /\
      forall r v, eval e (fun s => match dget (combine syms names) s with
                                   | Some p => match dget params p with Some x => Some (ofF x) | None => None end
                                   | None => r s end) = Some v -> eval e' r = Some v.
  Proof.
    intros SQ ND F P.
    assert (M : exists vals, List.length vals = List.length names /\ Forall2 (fun p x => dget params p = Some x) names vals /\
      mapM (fun p => match dget syparams p, dget params p with Some s, Some x => Ok (s, x) | _, _ => Err KeyError end) names = Ok (combine syms vals)).
    { clear ND. induction F as [|p s names syms E F IH]; [exists []; repeat constructor|].
      destruct IH as (vals & L & G & M); [intros q Hq; apply P; now right|].
      destruct (dget params p) as [x|] eqn:X; [|now destruct (P p (or_introl eq_refl))].
      exists (x :: vals). split; [cbn; now rewrite L|]. split; [now constructor|]. cbn [mapM]. rewrite E, X. cbn [bind]. rewrite M. reflexivity. }
    destruct M as (vals & L & G & M). unfold point_subs. rewrite M. cbn [bind]. eexists. split; [reflexivity|].
    pose proof (SweepProofs.Forall2_length _ _ _ F) as LS.
    assert (C1 : map fst (combine syms vals) = syms).
    { clear -L LS. assert (H : List.length vals = List.length syms) by lia. clear L LS. revert vals H. induction syms; intros [|x vals] H; cbn in *; try lia; auto. f_equal. apply IHsyms. lia. }
    assert (C2 : map snd (combine syms vals) = vals).
    { clear -L LS. assert (H : List.length vals = List.length syms) by lia. clear L LS. revert vals H. induction syms; intros [|x vals] H; cbn in *; try lia; auto. f_equal. apply IHsyms. lia. }
    rewrite C1, C2. destruct (dict_zip_get syms vals ND ltac:(lia)) as [K V].
    intros r v H. apply (subs_seq_eval LAW). rewrite <- H. apply (eval_ext _ LAW). intros s _. unfold asg.
    rewrite (perm_dget (sq (dict_zip syms vals)) (dict_zip syms vals) s (SQ _)).
    2: { unfold dkeys. eapply Permutation_NoDup; [apply Permutation_map; symmetry; apply SQ|]. fold (dkeys (dict_zip syms vals)). now rewrite K. }
    destruct (mem s syms) eqn:Ms.
    - apply mem_In in Ms. apply In_nth_error in Ms as [i Hi]. rewrite (V i s Hi).
      assert (NK : NoDup (dkeys (combine syms names))).
      { unfold dkeys. assert (Q : map fst (combine syms names) = syms); [|now rewrite Q].
        clear -LS. symmetry in LS. revert names LS. induction syms; intros [|x names] H; cbn in *; try lia; auto. f_equal. apply IHsyms. lia. }
      destruct (nth_error names i) as [p|] eqn:Np; [|apply nth_error_None in Np; assert (i < List.length syms) by (apply nth_error_Some; congruence); lia].
      assert (I : In (s, p) (combine syms names)).
      { apply nth_error_In with i. clear -Hi Np. revert names i Hi Np. induction syms; intros [|y names] [|i] Hi Np; cbn in *; try discriminate; [now injection Hi as ->; injection Np as ->|]. now apply IHsyms. }
      rewrite (In_dget _ _ _ NK I).
      destruct (f2_nth _ _ _ i p G Np) as (x & Hx & Ex). rewrite Hx, Ex. reflexivity.
    - assert (~ In s syms) by (intros I; apply mem_In in I; congruence).
      rewrite (proj2 (dget_None _ _)), (proj2 (dget_None _ _)); auto.
      + intros I. apply H0. unfold dkeys in I. apply in_map_iff in I as [[a b] [<- I]]. now apply in_combine_l in I.
      + now rewrite K.
  Qed.

  Lemma names_syms (syparams : dict string string) names : (forall n, In n names -> dget syparams n <> None) ->
    exists syms, Forall2 (fun p s => dget syparams p = Some s) names syms.
  Proof.
    induction names as [|n names IH]; intros H; [exists []; constructor|]. destruct IH as [syms F]; [intros m I; apply H; now right|].
    destruct (dget syparams n) as [s|] eqn:E; [|now destruct (H n (or_introl eq_refl))]. exists (s :: syms). now constructor.
  Qed.
  Lemma syms_nodup (syparams : dict string string) names syms : NoDup names -> Forall2 (fun p s => dget syparams p = Some s) names syms ->
    (forall n m s, In n names -> In m names -> dget syparams n = Some s -> dget syparams m = Some s -> n = m) -> NoDup syms.
  Proof.
    intros ND F. revert ND. induction F as [|p s names syms E F IH]; intros ND I; [constructor|]. inversion ND as [|? ? N1 N2]; subst. constructor.
    - intros J. apply In_nth_error in J as [i J]. destruct (f2_nth (fun s p => dget syparams p = Some s) syms names i s) as (q & Hq & Eq); auto.
      { clear -F. induction F; constructor; auto. }
      apply N1. rewrite (I p q s); auto; [now apply nth_error_In in Hq | now left | right; now apply nth_error_In in Hq].
    - apply IH; auto. intros n m s0 Hn Hm. apply I; now right.
  Qed.
  Lemma c109 sq old syparams (expr : E A) st specs st' : good_sq sq -> ndSweep st specs = (st', Ok tt) -> specs <> [] -> NoDup (map sp_name specs) ->
    (forall n, In n (map sp_name specs) -> dget syparams n <> None) ->
    (forall n m s, In n (map sp_name specs) -> In m (map sp_name specs) -> dget syparams n = Some s -> dget syparams m = Some s -> n = m) ->
    exists sweeps results, grid_of st' (map sp_name specs) sweeps /\
      computeExprSweep sq old (Some syparams) (Some (Ok expr)) st specs = (st', results, Ok tt) /\
      List.length results = prodn (map (@List.length f64) sweeps) /\
      forall idx, inr (map (@List.length f64) sweeps) idx ->
        exists j e, collapsedIndices st' (map Z.of_nat idx) = Ok (Z.of_nat j) /\ nth_error results j = Some e /\
          forall r r' v,
            (forall k name sw s x, nth_error (map sp_name specs) k = Some name -> nth_error sweeps k = Some sw -> dget syparams name = Some s ->
               nth_error sw (nth k idx 0) = Some x -> r' s = Some (ofF x)) ->
            (forall s, (forall name, In name (map sp_name specs) -> dget syparams name <> Some s) -> r' s = r s) ->
            eval expr r' = Some v -> eval e r = Some v.
  Proof.
    intros SQ ES NE ND HS HI. destruct (names_syms syparams _ HS) as [syms F]. pose proof (syms_nodup _ _ _ ND F HI) as NS.
    set (names := map sp_name specs) in *.
    destruct (computeFuncSweep_calls (fun (_ : unit) params => (tt, point_subs sq syparams names expr params)) st specs tt st' ES NE ND) as (sweeps & ds & G & L & H & C).
    fold names in G, H. exists sweeps.
    assert (PN : s_params st' = names).
    { destruct (ndSweep_swept _ _ _ ES ND) as (Ns & sw & S0 & _). apply (sw_params _ _ _ _ S0). }
    assert (KD : forall d, In d ds -> forall p, In p names -> dget d p <> None).
    { intros d Hd p Hp. apply In_nth_error in Hd as [j Hj]. assert (Lj : j < List.length ds) by (apply nth_error_Some; congruence). rewrite L in Lj.
      destruct (flat_surj (map (@List.length f64) sweeps) j Lj) as (idx & Hi & Fl). destruct (H idx Hi) as (j' & d' & A1 & A2 & A3 & _).
      assert (j' = j) as ->.
      { destruct (ndSweep_swept _ _ _ ES ND) as (Ns & sw & S0 & _). pose proof (sw_len _ _ _ _ S0) as EN.
        pose proof (swept_sweeps _ _ _ _ S0) as G2. fold names in G2.
        assert (sw = sweeps) as -> by exact (grid_of_unique _ _ _ _ G2 G). rewrite EN in Hi, Fl.
        rewrite (collapsedIndices_flat _ _ _ _ _ S0 (inr_length _ _ Hi)) in A1. injection A1 as A1. lia. }
      rewrite Hj in A2. injection A2 as <-. intros N. apply dget_None in N. apply N. now rewrite A3. }
    assert (EX : exists results, Forall2 (fun d b => point_subs sq syparams names expr d = Ok b) ds results).
    { clear -KD F NS SQ LAW. induction ds as [|d ds IH]; [exists []; constructor|].
      destruct IH as [rs R]; [intros d' Hd; apply KD; now right|].
      destruct (point_subs_ok sq syparams names expr d syms SQ NS F (KD d (or_introl eq_refl))) as (e & E & _). exists (e :: rs). now constructor. }
    destruct EX as [results R]. exists results. split; [exact G|]. split; [|split].
    - rewrite (call_all_ok _ _ _ R) in C. unfold computeFuncSweep in C. unfold computeExprSweep. rewrite ES in *. rewrite PN.
      destruct (s_clen st') as [n|]; [|discriminate C]. injection C as C. rewrite C. reflexivity.
    - rewrite <- L. symmetry. apply (SweepProofs.Forall2_length _ _ _ R).
    - intros idx Hi. destruct (H idx Hi) as (j & d & A1 & A2 & A3 & A4). destruct (f2_nth _ _ _ j d R A2) as (e & B1 & B2).
      exists j, e. split; [exact A1|]. split; [exact B1|]. intros r r' v R1 R2 EV.
      destruct (point_subs_ok sq syparams names expr d syms SQ NS F) as (e' & E' & EE); [intros p Hp; apply (KD d); [now apply nth_error_In in A2 | exact Hp]|].
      rewrite B2 in E'. injection E' as <-. apply EE. rewrite <- EV. apply (eval_ext _ LAW). intros s _. symmetry.
      pose proof (SweepProofs.Forall2_length _ _ _ F) as LS.
      destruct (dget (combine syms names) s) as [p|] eqn:Q.
      + apply dget_In in Q. apply In_nth_error in Q as [k Q].
        assert (Q1 : nth_error syms k = Some s /\ nth_error names k = Some p).
        { clear -Q. clearbody names. revert names k Q. induction syms as [|a syms IHs]; intros [|y names] [|k] Q; cbn in Q |- *; try discriminate; [injection Q as -> ->; auto | now apply IHs]. }
        destruct Q1 as [Q1 Q2]. destruct (f2_nth _ _ _ k p F Q2) as (s' & Q3 & Q4). rewrite Q1 in Q3. injection Q3 as <-.
        destruct (nth_error sweeps k) as [sw|] eqn:Sk.
        * pose proof (A4 k p sw Q2 Sk) as X. destruct (dget d p) as [x|] eqn:Dp; [|exfalso; apply (KD d) with p; [now apply nth_error_In in A2 | now apply nth_error_In in Q2 | exact Dp]].
          apply (R1 k p sw s x Q2 Sk Q4). now symmetry.
        * exfalso. apply nth_error_None in Sk. assert (k < List.length names) by (apply nth_error_Some; congruence).
          rewrite <- (grid_of_length _ _ _ G) in Sk. lia.
      + apply R2. intros name Hn E. apply dget_None in Q. apply Q. apply In_nth_error in Hn as [k Hk]. destruct (f2_nth _ _ _ k name F Hk) as (s' & Q3 & Q4).
        rewrite E in Q4. injection Q4 as <-. unfold dkeys. replace (map fst (combine syms names)) with syms; [now apply nth_error_In in Q3|].
        symmetry. apply fst_combine. now symmetry.
  Qed.
End A.

(** x + y with the symbols of the derived names *)
Definition ex_expr : E tree_alg := TAdd (TSym "sa") (TMul (TSym "sb") (TSym "free")).
