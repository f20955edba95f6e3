From Coq Require Import List Bool String Ascii NArith Lia.
From Verif Require Import Prelude PreludeFacts LatexProofs StrFacts Temp.
Import ListNotations.
Open Scope string_scope.

Section P.
  Context {D : Type}.
  Implicit Types (w : world D) (l : list (op D)) (t : temp).

  (** Session identifiers (memory addresses) are not shared by two objects. *)
  Definition unique_ids l : Prop :=
    forall i j id, In (OSession i id) l -> In (OSession j id) l -> i = j.

  Definition good l (j : nat) t : Prop :=
    (session_exists t = true /\ exists id, In (OSession j id) l /\ session_path t = session_dir id)
    \/ (session_exists t = false /\ (session_path t = temp_out_root \/ session_path t = "")).

  Definition Good l w : Prop := forall j t, dget (objs w) j = Some t -> good l j t.

  Lemma session_dir_inj a b x y :
    session_dir a ++ x = session_dir b ++ y -> a = b /\ x = y.
  Proof.
    unfold session_dir, temp_out_root. rewrite !app_str_assoc.
    intros E. apply app_str_inj_l in E. apply app_str_inj_l in E.
    change ("/" ++ x) with (String "/" x) in E. change ("/" ++ y) with (String "/" y) in E.
    apply split_char in E; [|exact (hex_no_slash a)|exact (hex_no_slash b)].
    destruct E as [E ->]. split; [|reflexivity]. exact (hex_tail_inj _ _ E).
  Qed.

  Lemma root_not_session x a y : temp_out_root ++ "part-" ++ x <> session_dir a ++ y.
  Proof.
    unfold session_dir. rewrite !app_str_assoc. intros E. apply app_str_inj_l in E.
    discriminate.
  Qed.
  Lemma cwd_not_session x a y : "part-" ++ x <> session_dir a ++ y.
  Proof. unfold session_dir, temp_out_root. rewrite !app_str_assoc. discriminate. Qed.

  Lemma step_Good l w o : In o l -> Good l w -> Good l (fst (step w o)).
  Proof.
    intros Hin HG j t. destruct o as [i|i id|i d|i]; cbn [step].
    - cbn. rewrite dget_dset. destruct (eqb_spec j i); [|apply HG].
      intros [= <-]. right. cbn. auto.
    - destruct (dget (objs w) i) as [u|] eqn:E; [|apply HG].
      cbn. rewrite dget_dset. destruct (eqb_spec j i); [subst|apply HG].
      intros [= <-]. left. cbn. eauto.
    - destruct (dget (objs w) i) as [u|] eqn:E; [|apply HG].
      unfold writePart. destruct (eqb (session_path u) "" || mem (session_path u) (dirs (wfs w)));
      cbn; rewrite dget_dset; (destruct (eqb_spec j i); [subst|apply HG]);
      intros [= <-]; specialize (HG _ _ E); exact HG.
    - destruct (dget (objs w) i) as [u|] eqn:E; [|apply HG].
      unfold clearSessionData. destruct (session_exists u) eqn:S.
      + destruct (rmtree (wfs w) (session_path u)); cbn; rewrite dget_dset;
        (destruct (eqb_spec j i); [subst|apply HG]); intros [= <-].
        * right; cbn; auto.
        * exact (HG _ _ E).
      + cbn. rewrite dget_dset. destruct (eqb_spec j i); [subst|apply HG].
        intros [= <-]. right; cbn; auto.
  Qed.

  Lemma run_Good L l w : incl l L -> Good L w -> Good L (run w l).
  Proof.
    revert w. induction l as [|o l IH]; intros w Hi HG; cbn; [assumption|].
    apply IH; [intros x Hx; apply Hi; now right|].
    apply step_Good; [apply Hi; now left|assumption].
  Qed.
  Lemma world0_Good L : Good L world0.
  Proof. intros j t. cbn. discriminate. Qed.

  (** What must persist after object [i] wrote part [k] of session [id]. *)
  Definition Kept (i : nat) (id k : N) (d : D) w : Prop :=
    dget (files (wfs w)) (session_dir id ++ "part-" ++ dec k ++ ".bin") = Some d /\
    exists t, dget (objs w) i = Some t /\ (k < part_count t)%N.

  Lemma part_name_neq L i j id k w t :
    unique_ids L -> In (OSession i id) L ->
    Good L w -> dget (objs w) j = Some t ->
    (i = j -> (k < part_count t)%N) ->
    session_dir id ++ "part-" ++ dec k ++ ".bin" <> part_name t.
  Proof.
    intros HU Hin HG Hj Hk E. unfold part_name in E.
    destruct (HG _ _ Hj) as [[_ (id' & Hin' & P)]|[_ [P|P]]]; rewrite P in E.
    - apply session_dir_inj in E. destruct E as [<- E].
      assert (i = j) by (eapply HU; eauto). specialize (Hk H).
      apply app_str_inj_l in E. apply app_str_inj_r in E. apply dec_inj in E. lia.
    - symmetry in E. now apply root_not_session in E.
    - symmetry in E. cbn [append] in E.
      exact (cwd_not_session _ _ _ E).
  Qed.

  Lemma step_Kept L i id k d w o :
    unique_ids L -> In (OSession i id) L -> In o L ->
    o <> ONew i -> o <> OClear i ->
    Good L w -> Kept i id k d w -> Kept i id k d (fst (step w o)).
  Proof.
    intros HU Hid Hin N1 N2 HG [HF (t & Ht & Hk)].
    destruct o as [j|j id'|j d'|j]; cbn [step].
    - cbn. split; cbn.
      + unfold ensure_dir. destruct (mem _ _); exact HF.
      + exists t. rewrite dget_dset_neq by congruence. auto.
    - destruct (dget (objs w) j) as [u|] eqn:E; [|split; eauto].
      split; cbn.
      + unfold ensure_dir. destruct (mem _ _); exact HF.
      + rewrite dget_dset. destruct (eqb_spec i j); [subst|eauto].
        rewrite Ht in E. injection E as <-. eexists. split; [reflexivity|]. exact Hk.
    - destruct (dget (objs w) j) as [u|] eqn:E; [|split; eauto].
      unfold writePart.
      destruct (eqb (session_path u) "" || mem (session_path u) (dirs (wfs w))).
      + split; cbn [fst wfs files objs].
        * rewrite dget_dset_neq; [exact HF|].
          eapply part_name_neq; eauto. intros <-. rewrite Ht in E. now injection E as <-.
        * rewrite dget_dset. destruct (eqb_spec i j); [subst|eauto].
          rewrite Ht in E. injection E as <-. eexists. split; [reflexivity|].
          cbn. lia.
      + split; cbn [fst wfs files objs]; [exact HF|].
        rewrite dget_dset. destruct (eqb_spec i j); [subst|eauto].
        rewrite Ht in E. injection E as <-. eauto.
    - destruct (dget (objs w) j) as [u|] eqn:E; [|split; eauto].
      assert (Hij : i <> j) by congruence.
      unfold clearSessionData. destruct (session_exists u) eqn:S.
      + unfold rmtree. destruct (mem (session_path u) (dirs (wfs w))).
        * split; cbn [fst wfs files objs].
          -- destruct (HG _ _ E) as [[_ (id' & Hin' & P)]|[F _]]; [|congruence].
             rewrite P.
             assert (NP : prefix (session_dir id')
                       (session_dir id ++ "part-" ++ dec k ++ ".bin") = false).
             { destruct (prefix _ _) eqn:Q; [|reflexivity].
               apply prefix_split in Q. destruct Q as (v & Q).
               apply session_dir_inj in Q. destruct Q as [<- _].
               exfalso. apply Hij. eapply HU; eauto. }
             revert HF NP. generalize (session_dir id ++ "part-" ++ dec k ++ ".bin").
             intros p HF NP. induction (files (wfs w)) as [|[q x] r IH]; [discriminate|].
             cbn [filter fst dget] in *. destruct (eqb_spec p q).
             ++ subst q. rewrite NP. cbn [negb dget]. rewrite eqb_refl. exact HF.
             ++ destruct (negb (prefix (session_dir id') q)); [|auto].
                cbn [dget]. destruct (eqb_spec p q); [congruence|auto].
          -- exists t. rewrite dget_dset_neq by congruence. auto.
        * split; cbn [fst wfs files objs]; [exact HF|].
          exists t. rewrite dget_dset_neq by congruence. auto.
      + split; cbn [fst wfs files objs]; [exact HF|].
        exists t. rewrite dget_dset_neq by congruence. auto.
  Qed.

  Lemma run_Kept L i id k d l w :
    unique_ids L -> In (OSession i id) L -> incl l L ->
    ~ In (ONew i) l -> ~ In (OClear i) l ->
    Good L w -> Kept i id k d w -> Kept i id k d (run w l).
  Proof.
    intros HU Hid. revert w. induction l as [|o l IH]; intros w Hi N1 N2 HG HK; cbn; [assumption|].
    apply IH.
    - intros x Hx. apply Hi. now right.
    - intros X. apply N1. now right.
    - intros X. apply N2. now right.
    - apply step_Good; [apply Hi; now left|assumption].
    - eapply step_Kept; eauto.
      + apply Hi. now left.
      + intros ->. apply N1. now left.
      + intros ->. apply N2. now left.
  Qed.

  (** Round trip: whatever happens later, except clearing (or re-creating)
      object [i] itself, the part written by [i] reads back unchanged. *)
  Lemma temp_roundtrip l1 l2 i d t f :
    unique_ids (l1 ++ OWrite i d :: l2) ->
    ~ In (ONew i) l2 -> ~ In (OClear i) l2 ->
    dget (objs (run world0 l1)) i = Some t -> session_exists t = true ->
    snd (step (run world0 l1) (OWrite i d)) = OutPath f ->
    readPart (wfs (run world0 (l1 ++ OWrite i d :: l2))) f = Ok d.
  Proof.
    intros HU N1 N2 Ht Hs Hf. set (L := (l1 ++ OWrite i d :: l2)%list) in *.
    assert (HG : Good L (run world0 l1)).
    { apply run_Good; [intros x Hx; apply in_or_app; now left|apply world0_Good]. }
    destruct (HG _ _ Ht) as [[_ (id & Hid & P)]|[F _]]; [|congruence].
    unfold L at 1. unfold run. rewrite fold_left_app. cbn [fold_left].
    change (fold_left (fun w o => fst (step w o)) l1 world0) with (run world0 l1).
    set (w1 := fst (step (run world0 l1) (OWrite i d))).
    assert (HK : Kept i id (part_count t) d w1 /\ f = session_dir id ++ "part-" ++ dec (part_count t) ++ ".bin").
    { unfold w1. cbn [step] in *. rewrite Ht in *. unfold writePart in *.
      destruct (eqb (session_path t) "" || mem (session_path t) (dirs (wfs (run world0 l1)))).
      - cbn [snd] in Hf. injection Hf as <-. unfold part_name. rewrite P.
        split; [|reflexivity]. split; cbn [fst wfs files objs].
        + apply dget_dset_eq.
        + rewrite dget_dset_eq. eexists. split; [reflexivity|]. cbn. lia.
      - discriminate. }
    destruct HK as [HK ->].
    change (fold_left (fun w o => fst (step w o)) l2 w1) with (run w1 l2).
    assert (HK2 : Kept i id (part_count t) d (run w1 l2)).
    { apply run_Kept with (L := L); auto.
      - intros x Hx. apply in_or_app. right. now right.
      - apply step_Good; [apply in_or_app; right; now left|assumption]. }
    destruct HK2 as [HK2 _]. unfold readPart. now rewrite HK2.
  Qed.

  (** Clearing removes exactly the files of that session and touches no other
      object. *)
  Lemma clear_exact w i t w' :
    dget (objs w) i = Some t -> session_exists t = true ->
    step w (OClear i) = (w', OutNone) ->
    (forall p, readPart (wfs w') p =
       if prefix (session_path t) p then Err FileNotFoundError else readPart (wfs w) p) /\
    (forall j, j <> i -> dget (objs w') j = dget (objs w) j) /\
    dget (objs w') i = Some (mktemp "" false 0).
  Proof.
    intros Ht Hs. cbn [step]. rewrite Ht. unfold clearSessionData. rewrite Hs.
    unfold rmtree. destruct (mem (session_path t) (dirs (wfs w))); [|discriminate].
    intros E. injection E as <-. cbn [wfs objs files]. repeat split.
    - intros p. unfold readPart. cbn [files].
      assert (G : dget (filter (fun kv => negb (prefix (session_path t) (fst kv))) (files (wfs w))) p
                  = if prefix (session_path t) p then None else dget (files (wfs w)) p).
      { induction (files (wfs w)) as [|[q x] r IH]; cbn [filter dget fst].
        - now destruct (prefix _ _).
        - destruct (prefix (session_path t) q) eqn:Q; cbn [negb].
          + rewrite IH. destruct (eqb_spec p q); [subst; now rewrite Q|reflexivity].
          + cbn [dget]. destruct (eqb_spec p q); [subst; now rewrite Q|exact IH]. }
      rewrite G. now destruct (prefix (session_path t) p).
    - intros j Hj. now rewrite dget_dset_neq.
    - apply dget_dset_eq.
  Qed.
End P.
