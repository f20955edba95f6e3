(** Property theorems: C26. *)
From Coq Require Import List String Ascii Lia.
From Verif Require Import Prelude Latex LatexSpec LatexProofs.
Import ListNotations.
Open Scope string_scope.

(** C26: total on non-empty names, and two names never share a LaTeX name. *)
Theorem C26_latexify_total_injective :
  (forall t, t <> "" -> exists l, latexify_param_name t = Ok l) /\
  latexify_param_name "" = Err IndexError /\
  (forall a b l, latexify_param_name a = Ok l -> latexify_param_name b = Ok l -> a = b).
Proof. exact (conj latexify_total (conj latexify_empty latexify_injective)). Qed.
Print Assumptions C26_latexify_total_injective.

Example C26_latexify_total_injective_nonvacuous :
  latexify_param_name "phi1e" = Ok "\phi_\mathrm{1e}" /\
  latexify_param_name "Lphi" = Ok "L_\mathrm{phi}".
Proof. vm_compute. auto. Qed.

(** C26: a name that starts with a Greek letter other than iota which does not
    occur again later is rendered with that letter. *)
Theorem C26_latexify_greek_partial : forall s rest,
  In s greek_letters -> s <> "iota" ->
  (forall i, occurs_at s (s ++ rest) i -> i = 0) ->
  latexify_param_name (s ++ rest) =
    Ok (String "\" s ++ "_\mathrm{" ++ rest ++ "}").
Proof. exact latexify_greek_letters. Qed.
Print Assumptions C26_latexify_greek_partial.

Example C26_latexify_greek_partial_nonvacuous :
  In "phi" greek_letters /\ "phi" <> "iota" /\
  (forall i, occurs_at "phi" ("phi" ++ "ext") i -> i = 0).
Proof.
  split; [vm_compute; intuition|]. split; [discriminate|]. intros i Hi.
  assert (E : rfind "phi" ("phi" ++ "ext") = Some 0) by (vm_compute; reflexivity).
  pose proof (rfind_max _ _ _ _ E Hi). lia.
Qed.

(** C26: without the restriction the claim is false: [rfind] misses a symbol
    name that occurs again later ("phi_phi" is not rendered with \phi), *)
Theorem C26_latexify_greek_refuted : exists s rest,
  In s greek_letters /\ s <> "iota" /\
  latexify_param_name (s ++ rest) <>
    Ok (String "\" s ++ "_\mathrm{" ++ rest ++ "}").
Proof. exists "phi", "_phi". split; [vm_compute; intuition | split; [discriminate | vm_compute; discriminate]]. Qed.
Print Assumptions C26_latexify_greek_refuted.
(** and iota is never rendered as a Greek letter. *)
Theorem C26_iota_refuted : forall rest,
  latexify_param_name ("iota" ++ rest) = Ok ("i_\mathrm{ota" ++ rest ++ "}").
Proof. exact latexify_iota. Qed.
Print Assumptions C26_iota_refuted.

(** C26: any other name keeps its first character, the rest becomes the
    subscript. *)
Theorem C26_latexify_plain : forall c r,
  (forall s v, In s greek_letters -> s <> "iota" -> String c r <> s ++ v) ->
  latexify_param_name (String c r) = Ok (String c ("_\mathrm{" ++ r ++ "}")).
Proof. exact latexify_plain. Qed.
Print Assumptions C26_latexify_plain.
Example C26_latexify_plain_nonvacuous : forall s v, In s greek_letters -> s <> "iota" -> String "L" "phi" <> s ++ v.
Proof. intros s v H _ E. cbn in H. repeat (destruct H as [<-|H]; [discriminate|]). easy. Qed.
