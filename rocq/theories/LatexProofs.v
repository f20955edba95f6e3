From Coq Require Import List Bool String Ascii PeanoNat Lia.
From Verif Require Import Prelude PreludeFacts Latex LatexSpec.
Import ListNotations.
Open Scope string_scope.

(** ** Specification vocabulary (independent of the model) *)

(** [s] occurs in [t] at offset [i]. *)
Definition occurs_at (s t : string) (i : nat) : Prop :=
  exists u v, t = u ++ s ++ v /\ String.length u = i.

Lemma prefix_app s v : prefix s (s ++ v) = true.
Proof.
  induction s as [|c s IH]; cbn [prefix append]; [destruct v; reflexivity|].
  cbn [prefix]. destruct (ascii_dec c c); [assumption|congruence].
Qed.
Lemma prefix_split s t : prefix s t = true -> exists v, t = s ++ v.
Proof.
  revert t. induction s as [|c s IH]; intros t.
  - exists t. reflexivity.
  - destruct t as [|d t]; [discriminate|]. cbn [prefix].
    intros E. destruct (ascii_dec c d); [subst|discriminate E].
    destruct (IH _ E) as (v & ->). exists v. reflexivity.
Qed.
Lemma drop_app s v : drop (String.length s) (s ++ v) = v.
Proof. induction s; cbn; auto. Qed.

Lemma append_nil_r (s : string) : s ++ "" = s.
Proof. induction s; cbn; congruence. Qed.

Lemma app_str_assoc (a b c : string) : (a ++ b) ++ c = a ++ (b ++ c).
Proof. induction a; cbn; congruence. Qed.

Lemma app_str_inj_l (a b c : string) : a ++ b = a ++ c -> b = c.
Proof. induction a; cbn; [auto|]. intros E. injection E. auto. Qed.

Lemma app_str_len (a b : string) :
  String.length (a ++ b) = String.length a + String.length b.
Proof. induction a; cbn; auto. Qed.

Lemma app_str_inj_r (a b c : string) : b ++ a = c ++ a -> b = c.
Proof.
  revert c. induction b as [|x b IH]; destruct c as [|y c]; cbn; intros E.
  - reflexivity.
  - exfalso. apply (f_equal String.length) in E. cbn in E.
    rewrite app_str_len in E. lia.
  - exfalso. apply (f_equal String.length) in E. cbn in E.
    rewrite app_str_len in E. lia.
  - injection E as -> E. f_equal. auto.
Qed.

(** [rfind] is what Python documents: the greatest offset of an occurrence. *)
Lemma rfind_sound s t i : rfind s t = Some i -> occurs_at s t i.
Proof.
  revert i. induction t as [|c t IH]; intros i; cbn [rfind].
  - destruct (prefix s "") eqn:E; [|discriminate].
    intros [= <-]. apply prefix_split in E. destruct E as (v & ->).
    exists "", v. auto.
  - destruct (rfind s t) as [j|] eqn:E.
    + intros [= <-]. destruct (IH _ eq_refl) as (u & v & -> & <-).
      exists (String c u), v. auto.
    + destruct (prefix s (String c t)) eqn:P; [|discriminate].
      intros [= <-]. apply prefix_split in P. destruct P as (v & ->).
      exists "", v. auto.
Qed.
Lemma rfind_none s t : rfind s t = None -> forall i, ~ occurs_at s t i.
Proof.
  induction t as [|c t IH]; cbn [rfind]; intros E i (u & v & Ht & Hu).
  - destruct u; [|discriminate]. cbn in Ht. rewrite Ht, prefix_app in E. discriminate.
  - destruct (rfind s t) as [j|] eqn:F; [discriminate|].
    destruct u as [|d u].
    + cbn in Ht. rewrite Ht, prefix_app in E. discriminate.
    + cbn in Ht. injection Ht as -> ->. apply (IH eq_refl (String.length u)).
      exists u, v. auto.
Qed.
Lemma rfind_max s t i j : rfind s t = Some i -> occurs_at s t j -> j <= i.
Proof.
  revert i j. induction t as [|c t IH]; cbn [rfind]; intros i j E (u & v & Ht & Hu).
  - destruct u; [cbn in Hu; lia|discriminate].
  - destruct u as [|d u]; [cbn in Hu; lia|].
    cbn in Ht, Hu. injection Ht as -> ->.
    destruct (rfind s (u ++ s ++ v)) as [k|] eqn:F.
    + injection E as <-. subst j. apply le_n_S. apply (IH _ _ eq_refl).
      exists u, v. auto.
    + exfalso. apply (rfind_none _ _ F (String.length u)). exists u, v. auto.
Qed.

(** ** No key is a prefix of another *)
Lemma keys_prefix_free :
  forallb (fun a => forallb (fun b => implb (prefix a b) (String.eqb a b)) supported_symbols)
          supported_symbols = true.
Proof. vm_compute. reflexivity. Qed.

Lemma prefix_of_both a b t : prefix a t = true -> prefix b t = true ->
  prefix a b = true \/ prefix b a = true.
Proof.
  revert b t. induction a as [|x a IH]; intros b t Ha Hb; [left; destruct b; reflexivity|].
  destruct b as [|y b]; [right; reflexivity|].
  destruct t as [|z t]; [discriminate|]. cbn [prefix] in *.
  destruct (ascii_dec x z), (ascii_dec y z); try discriminate. subst.
  destruct (ascii_dec z z); [|congruence]. eauto.
Qed.

Lemma keys_unique a b t :
  In a supported_symbols -> In b supported_symbols ->
  prefix a t = true -> prefix b t = true -> a = b.
Proof.
  intros Ha Hb Pa Pb.
  pose proof keys_prefix_free as F. rewrite forallb_forall in F.
  destruct (prefix_of_both _ _ _ Pa Pb) as [P|P].
  - specialize (F _ Ha). rewrite forallb_forall in F. specialize (F _ Hb).
    cbn beta in F. rewrite P in F. now apply String.eqb_eq in F.
  - specialize (F _ Hb). rewrite forallb_forall in F. specialize (F _ Ha).
    cbn beta in F. rewrite P in F. symmetry. now apply String.eqb_eq in F.
Qed.

Lemma rfind_0_prefix s t : rfind s t = Some 0 -> prefix s t = true.
Proof.
  intros E. apply rfind_sound in E. destruct E as (u & v & -> & Hu).
  destruct u; [|discriminate]. exact (prefix_app s v).
Qed.

Lemma find_symbol_sound keys t s :
  find_symbol keys t = Some s -> In s keys /\ rfind s t = Some 0.
Proof.
  induction keys as [|k r IH]; cbn; [discriminate|].
  destruct (rfind k t) as [[|i]|] eqn:E; intros F.
  - injection F as ->. auto.
  - destruct (IH F). auto.
  - destruct (IH F). auto.
Qed.
Lemma find_symbol_complete keys t s :
  In s keys -> rfind s t = Some 0 -> exists s', find_symbol keys t = Some s'.
Proof.
  induction keys as [|k r IH]; cbn; [tauto|].
  intros [->|Hin] E.
  - rewrite E. eauto.
  - destruct (rfind k t) as [[|i]|]; eauto.
Qed.

Lemma find_symbol_exact t s :
  In s supported_symbols -> rfind s t = Some 0 -> find_symbol supported_symbols t = Some s.
Proof.
  intros Hs E. destruct (find_symbol_complete _ _ _ Hs E) as (s' & F).
  rewrite F. f_equal. apply find_symbol_sound in F. destruct F as [Hs' E'].
  symmetry. eapply keys_unique; eauto using rfind_0_prefix.
Qed.

Lemma latexify_greek s rest :
  In s supported_symbols ->
  (forall i, occurs_at s (s ++ rest) i -> i = 0) ->
  latexify_param_name (s ++ rest) =
    Ok (String "\" s ++ "_\mathrm{" ++ rest ++ "}").
Proof.
  intros Hs Hocc. unfold latexify_param_name.
  rewrite (find_symbol_exact _ s Hs).
  - now rewrite drop_app.
  - destruct (rfind s (s ++ rest)) as [i|] eqn:E.
    + apply rfind_sound in E. now rewrite (Hocc _ E).
    + exfalso. apply (rfind_none _ _ E 0). exists "", rest. auto.
Qed.

(** ** Losslessness *)
Fixpoint no_us (s : string) : bool :=
  match s with
  | EmptyString => true
  | String c r => negb (Ascii.eqb c "_") && no_us r
  end.
Lemma split_us a b x y :
  no_us a = true -> no_us b = true ->
  a ++ String "_" x = b ++ String "_" y -> a = b /\ x = y.
Proof.
  revert b. induction a as [|c a IH]; destruct b as [|d b]; cbn; intros Ha Hb E.
  - injection E as ->. auto.
  - injection E as <- E. discriminate.
  - injection E as -> E. discriminate.
  - injection E as -> E. apply andb_true_iff in Ha, Hb.
    destruct (IH b) as [-> ->]; tauto.
Qed.
Lemma keys_no_us s : In s supported_symbols -> no_us s = true.
Proof.
  assert (F : forallb no_us supported_symbols = true) by (vm_compute; reflexivity).
  rewrite forallb_forall in F. apply F.
Qed.
Lemma keys_nonempty s : In s supported_symbols -> exists c r, s = String c r /\ Ascii.eqb c "_" = false.
Proof.
  assert (F : forallb (fun s => match s with EmptyString => false | String c _ => negb (Ascii.eqb c "_") end)
                supported_symbols = true) by (vm_compute; reflexivity).
  rewrite forallb_forall in F. intros Hs. specialize (F _ Hs).
  destruct s as [|c r]; [discriminate|]. exists c, r. split; [reflexivity|].
  now apply negb_true_iff in F.
Qed.

(** Case split of a successful call. *)
Lemma latexify_cases t l : latexify_param_name t = Ok l ->
  (exists s r, In s supported_symbols /\ t = s ++ r /\
       l = String "\" s ++ "_\mathrm{" ++ r ++ "}") \/
  (exists c r, t = String c r /\ l = String c ("_\mathrm{" ++ r ++ "}")).
Proof.
  unfold latexify_param_name. destruct (find_symbol supported_symbols t) as [s|] eqn:E.
  - intros [= <-]. left. apply find_symbol_sound in E. destruct E as [Hs E].
    apply rfind_0_prefix, prefix_split in E. destruct E as (v & ->).
    exists s, v. rewrite drop_app. auto.
  - destruct t as [|c r]; [discriminate|]. intros [= <-]. right. eauto.
Qed.

Lemma latexify_injective a b l :
  latexify_param_name a = Ok l -> latexify_param_name b = Ok l -> a = b.
Proof.
  intros Ha Hb.
  destruct (latexify_cases _ _ Ha) as [(s & r & Hs & -> & ->)|(c & r & -> & ->)];
  destruct (latexify_cases _ _ Hb) as [(s' & r' & Hs' & -> & E)|(c' & r' & -> & E)].
  - change (String "\" s ++ "_\mathrm{" ++ r ++ "}") with
      (String "\" s ++ String "_" ("\mathrm{" ++ r ++ "}")) in E.
    change (String "\" s' ++ "_\mathrm{" ++ r' ++ "}") with
      (String "\" s' ++ String "_" ("\mathrm{" ++ r' ++ "}")) in E.
    apply split_us in E; [|cbn; now apply keys_no_us|cbn; now apply keys_no_us].
    destruct E as [E1 E2]. injection E1 as ->. apply app_str_inj_l in E2.
    apply app_str_inj_r in E2. now subst.
  - exfalso. destruct (keys_nonempty _ Hs) as (d & q & -> & Hd).
    cbn in E. injection E as _ E. subst d. discriminate.
  - exfalso. destruct (keys_nonempty _ Hs') as (d & q & -> & Hd).
    cbn in E. injection E as _ E. subst d. discriminate.
  - injection E as -> E. apply app_str_inj_r in E. now subst.
Qed.

Lemma latexify_total t : t <> "" -> exists l, latexify_param_name t = Ok l.
Proof.
  intros Ht. unfold latexify_param_name.
  destruct (find_symbol supported_symbols t); [eauto|].
  destruct t; [congruence|eauto].
Qed.

Lemma latexify_empty : latexify_param_name "" = Err IndexError.
Proof. reflexivity. Qed.

(** ** The supported symbols are the Greek letters other than iota *)
Lemma greek_supported s : In s greek_letters /\ s <> "iota" <-> In s supported_symbols.
Proof.
  assert (A : forallb (fun s => orb (String.eqb s "iota") (existsb (String.eqb s) supported_symbols)) greek_letters = true) by (vm_compute; reflexivity).
  assert (B : forallb (fun s => andb (negb (String.eqb s "iota")) (existsb (String.eqb s) greek_letters)) supported_symbols = true) by (vm_compute; reflexivity).
  rewrite forallb_forall in A, B. split.
  - intros [Hs N]. specialize (A s Hs). apply Bool.orb_true_iff in A. destruct A as [A|A]; [now apply String.eqb_eq in A|].
    apply existsb_exists in A. destruct A as (x & Hx & E). apply String.eqb_eq in E. now subst.
  - intros Hs. specialize (B s Hs). apply Bool.andb_true_iff in B. destruct B as [B1 B2]. split.
    + apply existsb_exists in B2. destruct B2 as (x & Hx & E). apply String.eqb_eq in E. now subst.
    + intros ->. discriminate.
Qed.
Lemma latexify_greek_letters s rest : In s greek_letters -> s <> "iota" ->
  (forall i, occurs_at s (s ++ rest) i -> i = 0) ->
  latexify_param_name (s ++ rest) = Ok (String "\" s ++ "_\mathrm{" ++ rest ++ "}").
Proof. intros H N. apply latexify_greek. now apply greek_supported. Qed.
Lemma latexify_plain c r : (forall s v, In s greek_letters -> s <> "iota" -> String c r <> s ++ v) ->
  latexify_param_name (String c r) = Ok (String c ("_\mathrm{" ++ r ++ "}")).
Proof.
  intros H. unfold latexify_param_name. destruct (find_symbol supported_symbols (String c r)) as [s|] eqn:E; [|reflexivity].
  apply find_symbol_sound in E. destruct E as [Hs E]. apply rfind_0_prefix, prefix_split in E. destruct E as [v E].
  apply greek_supported in Hs. destruct Hs as [Hs N]. now destruct (H s v Hs N).
Qed.
Lemma latexify_iota rest : latexify_param_name ("iota" ++ rest) = Ok ("i_\mathrm{ota" ++ rest ++ "}").
Proof.
  apply (latexify_plain "i" ("ota" ++ rest)). intros s v Hs N E.
  assert (A : forallb (fun s => orb (String.eqb s "iota") (match s with String "i" _ => false | EmptyString => false | _ => true end)) greek_letters = true) by (vm_compute; reflexivity).
  rewrite forallb_forall in A. specialize (A s Hs). apply Bool.orb_true_iff in A. destruct A as [A|A]; [now apply String.eqb_eq in A|].
  destruct s as [|c s]; [discriminate|]. injection E as <- _. discriminate.
Qed.
