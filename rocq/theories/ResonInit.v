(** Model of pyscqed/symbolic_system.py 15-88 [__init__] for circuits with
    resonators (mode_transform=False), with 194-224 and 690-755. sympy's results
    are arguments: [oracle] as in Symbolic.v, [inv] the inverse of a matrix,
    [dC dL] the expressions of lines 747-748 for two symbols, [fl zl gl] those of
    lines 732-734 for Ci_jj, Ci_ij and Li_jj. *)
From Coq Require Import List Bool String Ascii Arith Reals.
From Verif Require Import Prelude Param Expr Coll Mat Graph Symbolic Sweep Reson.
Import ListNotations.
Open Scope string_scope.
Open Scope list_scope.
Open Scope nat_scope.

Definition tmat := nat -> nat -> option tree.
Record sympy := mksy {
  sy_pinv : imat -> nat -> nat -> option tree;
  sy_inv : nat -> tmat -> res tmat;
  sy_C : string -> string -> tree;
  sy_L : string -> string -> tree;
  sy_f : tree -> tree -> tree -> tree;
  sy_Z : tree -> tree -> tree -> tree;
  sy_g : tree -> tree -> tree -> tree
}.

(** lines 196-224 [getInverseCapacitanceMatrix] with parameterise=True and no
    transform; [sy_inv] includes the exceptions of 203-209 *)
Definition getInverseCapacitanceMatrix (ord : ordr) (X : sympy) (y : ssys) : ssys * res tmat :=
  match getCapacitanceMatrix ord y with
  | (y, Err e) => (y, Err e)
  | (y, Ok M) =>
      match sy_inv X (List.length (ss_nodes y)) M with
      | Err e => (y, Err e)
      | Ok K =>
          match parameterise ord (mat_name "C" "i") (List.length (ss_nodes y)) K (ss_par y) with
          | (st, Err e) => (set_par y st, Err e)
          | (st, Ok _) => (set_par y st, Ok (with_symbols (mat_name "C" "i") st K))
          end
      end
  end.
(** lines 363-385 [getInverseInductanceMatrix] in node mode *)
Definition getInverseInductanceMatrix (ord : ordr) (X : sympy) (y : ssys) : ssys * res tmat :=
  match inductance_matrix (ss_cg y) (ss_edges y) with
  | Err e => (y, Err e)
  | Ok M =>
      let L := linv_tree (sy_pinv X) (ss_cg y) (ss_nodes y) (ss_edges y) M in
      match parameterise ord (mat_name "L" "i") (List.length (ss_nodes y)) L (ss_par y) with
      | (st, Err e) => (set_par y st, Err e)
      | (st, Ok _) => (set_par y st, Ok (with_symbols (mat_name "L" "i") st L))
      end
  end.
(** lines 729-730: getParameterFromSymbol raises ValueError for what is not a
    symbol of the collection *)
Definition expanded (ord : ordr) (fuel : nat) (st : cst tree_alg) (e : option tree) : res tree :=
  match e with
  | Some (TSym x) => bind (getParameterFromSymbol st x) (fun p => getParametricExpression ord [] fuel st p true)
  | _ => Err ValueError
  end.
(** lines 724-755, one round; [y]: the extended system, [st]: the outer
    collection *)
Definition load_one (ord : ordr) (X : sympy) (fuel : nat) (s : cg) (y : ssys) (K L : tmat) (st : cst tree_alg) (x : nat * (nat * nat)) : cst tree_alg * res unit :=
  let (i, j) := snd x in
  match bind (expanded ord fuel (ss_par y) (K j j)) (fun a => bind (expanded ord fuel (ss_par y) (K i j)) (fun b =>
        match dget (c_res s) (fst x) with
        | Some (Some r) => bind (getSymbol st (r_fr r)) (fun f => bind (getSymbol st (r_Zr r)) (fun z => Ok (a, b, r, f, z)))
        | _ => Err KeyError
        end)) with
  | Err e => (st, Err e)
  | Ok (a, b, r, f, z) =>
      let l := match L j j with Some e => e | None => TNum 0 end in
      stepM (fun st p => addParameterisation ord st (fst p) (snd p : E tree_alg))
        [(r_Cr r, sy_C X f z); (r_Lr r, sy_L X f z); (r_frl r, sy_f X a b l); (r_Zrl r, sy_Z X a b l); (r_gC r, sy_g X a b l)] st
  end.
(** lines 690-755 [_create_loaded_resonator_parameters]. The orders of sets
    inside the extended system are [ord], as in the outer one. *)
Definition load_resonators (ord : ordr) (X : sympy) (fuel : nat) (o : nat -> orders) (s : cg) (st : cst tree_alg) : res (cst tree_alg) :=
  match extended o s st with
  | (_, Err x) => Err x
  | ((e, st), Ok _) =>
      bind (coupled_indices s e) (fun d =>
      match new_system ord (sy_pinv X) e with
      | None => Err PlainException          (* not reached: e has no resonators *)
      | Some (Err x) => Err x
      | Some (Ok y) =>
          match getInverseCapacitanceMatrix ord X y with
          | (_, Err x) => Err x
          | (y, Ok K) =>
              match getInverseInductanceMatrix ord X y with
              | (_, Err x) => Err x
              | (y, Ok L) => ok_st (stepM (load_one ord X fuel s y K L) d st)
              end
          end
      end)
  end.
(** lines 15-88. [create_symbols] (Reson.v) repeats [flux_symbols], whose result
    is kept in the object. *)
Definition new_full (ord : ordr) (X : sympy) (fuel : nat) (o : nat -> orders) (s : cg) : res ssys :=
  if negb (mem 0 (g_nodes (c_graph s))) then Err PlainException else
  match c_wc s with
  | None => Err AttributeError
  | Some edges =>
      let nodes := sys_nodes s in
      bind (create_symbols s edges) (fun st => bind (flux_symbols s edges) (fun fl =>
      bind (if has_resonators s then load_resonators ord X fuel o s st else Ok st) (fun st =>
      bind (inductance_matrix s edges) (fun M =>
      let L := linv_tree (sy_pinv X) s nodes edges M in
      bind (ok_st (parameterise ord (mat_name "L" "i") (List.length nodes) L st)) (fun st =>
      bind (coordinate_modes (fun i j => match L i j with None => true | Some _ => false end) nodes) (fun modes =>
      Ok (mkss s nodes edges st fl fl
            (fold_left (fun d x => dset d ("phi" ++ fb_suffix (snd x))%string (fst x)) (c_fbias s) [])
            (charge_symbols s nodes)
            (fold_left (fun d x => dset d ("Q" ++ cb_suffix (snd x))%string (fst x)) (c_cbias s) []) modes)))))))
  end.
