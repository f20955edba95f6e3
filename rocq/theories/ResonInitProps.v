(** C88, C123: the constructor of circuits with resonators. *)
From Coq Require Import List Bool String Ascii Arith Reals Lia.
From Verif Require Import Prelude Param Expr Coll CollSpec CollLast Mat Graph GraphSpec GraphMaps GraphProofs Symbolic SymbolicSpec SymbolicInit Sweep Reson ResonSpec ResonEx ResonInit ResonInitSpec ResonInitMain ResonInitEx.
Import ListNotations.
Open Scope string_scope.
Open Scope list_scope.
Open Scope nat_scope.

(** C88. If the extended circuit exists (C88_extended_partial), the whole
    constructor succeeds, and stores the expressions of the design values and
    of the elements of the inverse matrices. Missing: mutual inductances and
    couplings, components named like matrix entries, biases on branches that
    the extension turns round. *)
Theorem C88_constructed_partial : forall ord X o s e st st', good_ord ord -> circuit s -> In 0 (g_nodes (c_graph s)) -> (forall k, valid_orders (o k)) -> extended o s st = ((e, st'), Ok tt) -> has_resonators s = true ->
  c_coupled s = [] -> (forall b, In b (dvals (c_fbias s)) -> fb_mutual b = None) -> (forall c, In c (registered_names s) -> legal c) ->
  (forall n r, In (n, r) (coupled_resonators s) -> has_space (r_coupling r) = false) -> (forall b, In b (dvals (c_fbias s)) -> has_space (fb_suffix b) = false) -> (forall b, In b (dvals (c_cbias s)) -> has_space (cb_suffix b) = false) ->
  (forall f, In f (dkeys (c_fbias s)) -> In f (wcs s) /\ In f (wcs e)) -> unnumbered e "L" "i" -> unnumbered e "C" "" -> unnumbered e "C" "i" ->
  sympy_ok X (List.length (sys_nodes e)) -> (forall d, coupled_indices s e = Ok d -> inverse_found ord X e d) ->
  exists d Me N, coupled_indices s e = Ok d /\ map fst d = map fst (coupled_resonators s) /\ capacitance_matrix e = Ok Me /\
  forall fuel, N <= fuel -> exists y, new_full ord X fuel o s = Ok y /\ ss_cg y = s /\ ss_nodes y = sys_nodes s /\ ss_edges y = wcs s /\
  forall n i j r, In (n, (i, j)) d -> In (n, r) (coupled_resonators s) ->
  stored y (r_Cr r) (sy_C X (sym_of (r_fr r)) (sym_of (r_Zr r))) /\ stored y (r_Lr r) (sy_L X (sym_of (r_fr r)) (sym_of (r_Zr r))) /\
  exists a b l, stored y (r_frl r) (sy_f X a b l) /\ stored y (r_Zrl r) (sy_Z X a b l) /\ stored y (r_gC r) (sy_g X a b l) /\
    (List.length (sys_nodes e) <= 111 -> forall v W, inverse (List.length (sys_nodes e)) (fun i j => lval (fun c => v (sym_of c)) (Me i j)) W -> rval v a = W j j /\ rval v b = W i j) /\
    (forall v, (forall b, In b (branches_of "L"%char (c_graph e)) -> v (sym_of (snd b)) <> 0%R) -> rval v l = (/ v (sym_of (r_Lr r)))%R).
Proof. exact constructed. Qed.
Print Assumptions C88_constructed_partial.
(** C123. The loaded frequency, impedance and coupling of each resonator are
    stored as expressions of three values, which are those of C87 for all values
    of the parameters: W is the inverse capacitance matrix of the extended
    circuit, and by C86_loading that of the circuit. *)
Theorem C123_loaded_partial : forall ord X o s e st st', good_ord ord -> circuit s -> In 0 (g_nodes (c_graph s)) -> (forall k, valid_orders (o k)) -> extended o s st = ((e, st'), Ok tt) -> has_resonators s = true ->
  c_coupled s = [] -> (forall b, In b (dvals (c_fbias s)) -> fb_mutual b = None) -> (forall c, In c (registered_names s) -> legal c) ->
  (forall n r, In (n, r) (coupled_resonators s) -> has_space (r_coupling r) = false) -> (forall b, In b (dvals (c_fbias s)) -> has_space (fb_suffix b) = false) -> (forall b, In b (dvals (c_cbias s)) -> has_space (cb_suffix b) = false) ->
  (forall f, In f (dkeys (c_fbias s)) -> In f (wcs s) /\ In f (wcs e)) -> unnumbered e "L" "i" -> unnumbered e "C" "" -> unnumbered e "C" "i" ->
  sympy_ok X (List.length (sys_nodes e)) -> (forall d, coupled_indices s e = Ok d -> inverse_found ord X e d) -> List.length (sys_nodes e) <= 111 ->
  exists Me N, capacitance_matrix e = Ok Me /\ forall fuel, N <= fuel -> exists y, new_full ord X fuel o s = Ok y /\
  forall n r, In (n, r) (coupled_resonators s) -> exists i a b l, nth_error (sys_nodes s) i = Some n /\ stored y (r_frl r) (sy_f X a b l) /\ stored y (r_Zrl r) (sy_Z X a b l) /\ stored y (r_gC r) (sy_g X a b l) /\
  forall v W, inverse (List.length (sys_nodes e)) (fun i j => lval (fun c => v (sym_of c)) (Me i j)) W ->
    (forall b, In b (branches_of "L"%char (c_graph e)) -> v (sym_of (snd b)) <> 0%R) -> (forall n r, In (n, r) (coupled_resonators s) -> (v (sym_of (r_coupling r)) + v (sym_of (r_Cr r)) <> 0)%R) ->
    let cc := v (sym_of (r_coupling r)) in let cr := v (sym_of (r_Cr r)) in
    (rval v a = 1 / (cc + cr) + (cc / (cc + cr)) * (cc / (cc + cr)) * W i i /\ rval v b = cc / (cc + cr) * W i i /\ rval v l = / v (sym_of (r_Lr r)))%R.
Proof. exact loaded_values. Qed.
Print Assumptions C123_loaded_partial.
(** A circuit with a flux bias, a charge bias and a resonator, and a sympy
    that inverts 2 x 2 matrices. *)
Example C123_witness : good_ord idord /\ circuit sW /\ In 0 (g_nodes (c_graph sW)) /\ (forall k : nat, valid_orders sorto) /\ extended (fun _ => sorto) sW stR = ((eW, stW), Ok tt) /\ has_resonators sW = true /\
  c_coupled sW = [] /\ (forall b, In b (dvals (c_fbias sW)) -> fb_mutual b = None) /\ (forall c, In c (registered_names sW) -> legal c) /\
  (forall n r, In (n, r) (coupled_resonators sW) -> has_space (r_coupling r) = false) /\ (forall b, In b (dvals (c_fbias sW)) -> has_space (fb_suffix b) = false) /\ (forall b, In b (dvals (c_cbias sW)) -> has_space (cb_suffix b) = false) /\
  (forall f, In f (dkeys (c_fbias sW)) -> In f (wcs sW) /\ In f (wcs eW)) /\ unnumbered eW "L" "i" /\ unnumbered eW "C" "" /\ unnumbered eW "C" "i" /\
  sympy_ok XW (List.length (sys_nodes eW)) /\ (forall d, coupled_indices sW eW = Ok d -> inverse_found idord XW eW d) /\ List.length (sys_nodes eW) <= 111 /\ coupled_resonators sW = [(1, rR)] /\
  exists y, new_full idord XW 50 (fun _ => sorto) sW = Ok y /\ stored y "C1r" (sy_C XW "f_{1r}" "Z_{1r}").
Proof.
  split; [exact idord_good|]. split; [exact LW_circuit|]. split; [exact LW_ground|]. split; [exact (proj1 LR_ok)|]. split; [exact LW_extended|]. destruct LW_res as [R1 R2]. split; [exact R1|].
  destruct LW_bias as (B1 & B2 & B3 & B4). split; [exact B1|]. split; [rewrite B2; intros b [<-|[]]; reflexivity|]. split; [rewrite LW_names; intros c H; cbn in H; intuition (subst c; split; [discriminate|reflexivity])|].
  split; [rewrite R2; intros n r [E|[]]; injection E as <- <-; reflexivity|]. split; [rewrite B2; intros b [<-|[]]; reflexivity|]. split; [rewrite B3; intros b [<-|[]]; reflexivity|].
  split; [rewrite B4; intros f [<-|[]]; exact LW_edges|]. destruct LW_unnumbered as (U1 & U2 & U3). split; [exact U1|]. split; [exact U2|]. split; [exact U3|]. rewrite (proj2 (proj2 LW_elements)).
  split; [exact XW_ok|]. split; [exact LW_found|]. split; [cbn; lia|]. split; [exact R2|exact LW_new].
Qed.
