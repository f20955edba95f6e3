(** Model of pyscqed/units.py and pyscqed/physical_constants.py. *)
From Coq Require Import List Bool String Ascii ZArith.
From Verif Require Import Prelude.
Import ListNotations.
Open Scope string_scope.
Open Scope list_scope.

(** Numbers with the operations the formulas use. [lit m e]: the literal
    m * 10^e. Instances: the reals (UnitsSpec.v) and any other. *)
Record num := mknum {
  N :> Type; lit : Z -> Z -> N; nmul : N -> N -> N; ndiv : N -> N -> N;
  nsq : N -> N (* x**2 *); nsqrt : N -> N (* numpy.sqrt *); nroot4 : N -> N (* x**0.25 *);
  npi : N; niszero : N -> bool
}.
Arguments lit {n}. Arguments nmul {n}. Arguments ndiv {n}. Arguments nsq {n}. Arguments nsqrt {n}. Arguments nroot4 {n}.
Arguments npi {n}. Arguments niszero {n}.

Section Units.
  Context {A : num}.
  Let one : A := lit 1 0.

  (** physical_constants.py *)
  Definition pc_e : A := lit 160217662 (-27).
  Definition pc_h : A := lit 662607004 (-42).
  Definition pc_hbar : A := lit 1054571800 (-43).
  Definition pc_kB : A := lit 138064852 (-31).
  Definition pc_phi0 : A := lit 2067833831 (-24).

  (** The dictionaries {'unit':..., 'factor':...} are objects shared by
      reference (units.py lines 173 and 175 store the preset's own object), so
      they live in a heap; an address is a position in it. *)
  Record entry := mkent { e_unit : string; e_factor : A }.
  Definition heap := list entry.
  Definition load (h : heap) (d : dict string nat) (k : string) : res entry :=
    match dget d k with
    | None => Err KeyError
    | Some a => match nth_error h a with Some e => Ok e | None => Err KeyError end
    end.
  Definition factor (h : heap) (d : dict string nat) (k : string) : res A := bind (load h d k) (fun e => Ok (e_factor e)).
  (** a new dictionary object, stored under [k] *)
  Definition alloc (h : heap) (d : dict string nat) (k : string) (e : entry) : heap * dict string nat :=
    (h ++ [e], dset d k (List.length h)).

  (** lines 88, 102 *)
  Definition SI_units : list string := ["F"; "H"; "Ohm"; "A"; "V"; "Hz"; "Wb"; "C"; "J"; "K"; "eV"].
  Definition output_units : list string := ["Energy"; "Current"; "Voltage"].
  (** lines 103-121 *)
  Definition prefixes : dict string A :=
    [("E", lit 1 18); ("P", lit 1 15); ("T", lit 1 12); ("G", lit 1 9); ("M", lit 1 6); ("k", lit 1 3); ("h", lit 1 2);
     ("D", lit 1 1); ("0", lit 1 0); ("d", lit 1 (-1)); ("c", lit 1 (-2)); ("m", lit 1 (-3)); ("u", lit 1 (-6));
     ("n", lit 1 (-9)); ("p", lit 1 (-12)); ("f", lit 1 (-15)); ("a", lit 1 (-18))].
  (** lines 38-71 *)
  Definition preset_entries (i : Z) (iu vu : string) : list (string * entry) :=
    [("Energy", mkent "GHz" (ndiv one (nmul pc_h (lit 1 9)))); ("Current", mkent iu (ndiv one (lit 1 i)));
     ("Voltage", mkent vu (ndiv one (lit 1 i))); ("F", mkent "fF" (lit 1 (-15))); ("H", mkent "pH" (lit 1 (-12)));
     ("Ohm", mkent "Ohm" one); ("A", mkent iu (lit 1 i)); ("V", mkent vu (lit 1 i)); ("Hz", mkent "GHz" (lit 1 9));
     ("Wb", mkent "phi0" pc_phi0); ("C", mkent "2e" (nmul (lit 2 0) pc_e)); ("J", mkent "J" one); ("K", mkent "K" one);
     ("eV", mkent "eV" one)].
  Definition cqed1 := preset_entries (-6) "uA" "uV".
  Definition cqed2 := preset_entries (-9) "nA" "nV".
  (** the heap after import, and units_presets *)
  Definition heap0 : heap := map snd (cqed1 ++ cqed2).
  Definition units_presets : dict string (dict string nat) :=
    [("CQED1", combine (map fst cqed1) (seq 0 14)); ("CQED2", combine (map fst cqed2) (seq 14 14))].

  (** One Units object: self.c, self.cd, self.prefactors. *)
  Record units := mkun { u_c : dict string nat; u_cd : dict string nat; u_pf : dict string A }.

  (** lines 353-421 [_get...Unit], [_updatePrefactors]. The divisions of
      Python floats by F and H raise on 0 (lines 356, 359); those involving a
      numpy.sqrt result do not. Simplification: factors are numbers and no
      operation overflows. *)
  Definition formulas (E I U F H Amp V Hz Wb C : A) : dict string A :=
    let two_pi := nmul (lit 2 0) npi in
    [("Ec", ndiv (nmul E (nsq C)) F);
     ("El", ndiv (nmul E (nsq Wb)) H);
     ("Ej", ndiv (nmul (nmul E Wb) Amp) two_pi);
     ("Ep", ndiv (nmul (nmul E C) V) two_pi);
     ("Freq", ndiv one (nmul (nmul (nmul Hz (nsqrt (nmul F H))) (lit 2 0)) npi));
     ("Impe", nsqrt (ndiv H F));
     ("FlxOsc", ndiv (nsqrt pc_hbar) Wb);
     ("ChgOsc", ndiv (nsqrt pc_hbar) C);
     ("Vop", ndiv (nmul U C) F);
     ("IopL", ndiv (nmul I Wb) H);
     ("IopJ", nmul I Amp);
     ("Flx", Wb);
     ("Chg", C);
     ("Pha", ndiv Wb pc_phi0);
     ("ChgOscCpl", ndiv (nmul (nmul E (nsqrt pc_hbar)) C) (nmul F (nroot4 (ndiv H F))));
     ("FlxOscCpl", lit 0 0)].
  Definition prefactors (h : heap) (c cd : dict string nat) : res (dict string A) :=
    bind (factor h cd "Energy") (fun E => bind (factor h c "C") (fun C => bind (factor h c "F") (fun F =>
    bind (factor h c "Wb") (fun Wb => bind (factor h c "H") (fun H => bind (factor h c "A") (fun Amp =>
    bind (factor h c "V") (fun V => bind (factor h c "Hz") (fun Hz => bind (factor h cd "Voltage") (fun U =>
    bind (factor h cd "Current") (fun I =>
    if niszero F || niszero H then Err ZeroDivisionError else Ok (formulas E I U F H Amp V Hz Wb C))))))))))).
  Definition updatePrefactors (h : heap) (u : units) : heap * units * res unit :=
    match prefactors h (u_c u) (u_cd u) with
    | Ok p => (h, mkun (u_c u) (u_cd u) p, Ok tt)
    | Err e => (h, u, Err e)
    end.

  (** lines 162-176 [loadPreset] *)
  Definition load_keys (src : dict string nat) (keys : list string) (d : dict string nat) : res (dict string nat) :=
    fold_left (fun acc k => bind acc (fun d => match dget src k with Some a => Ok (dset d k a) | None => Err KeyError end)) keys (Ok d).
  Definition loadPreset (h : heap) (u : units) (preset : string) : heap * units * res unit :=
    match dget units_presets preset with
    | None => (h, u, Err KeyError)
    | Some src =>
        match load_keys src output_units (u_cd u), load_keys src SI_units (u_c u) with
        | Ok cd, Ok c => updatePrefactors h (mkun c cd (u_pf u))
        | Err e, _ | _, Err e => (h, u, Err e)
        end
    end.
  (** lines 142-160 [__init__] *)
  Definition alloc_all (h : heap) (l : list (string * entry)) : heap * dict string nat :=
    fold_left (fun hd ke => alloc (fst hd) (snd hd) (fst ke) (snd ke)) l (h, []).
  Definition units_new (h : heap) (name : string) : heap * units * res unit :=
    let '(h, c) := alloc_all h (map (fun u => (u, mkent u one)) SI_units) in
    let '(h, cd) := alloc_all h [("Energy", mkent "J" one); ("Current", mkent "A" one); ("Voltage", mkent "V" one)] in
    let '(h, u, r) := updatePrefactors h (mkun c cd []) in
    match r with
    | Ok _ => if dmem units_presets name then loadPreset h u name else (h, u, Ok tt)
    | Err e => (h, u, Err e)
    end.

  (** lines 178-202 [setUnit]. Line 193 calls [self.updatePrefactors], which
      does not exist. *)
  Definition setUnit (h : heap) (u : units) (new_unit : string) : heap * units * res unit :=
    if mem new_unit SI_units then
      let '(h, c) := alloc h (u_c u) new_unit (mkent new_unit one) in
      (h, mkun c (u_cd u) (u_pf u), Err AttributeError)
    else
      match new_unit with
      | EmptyString => (h, u, Err IndexError)
      | String p base =>
          if negb (mem base SI_units) then (h, u, Err PlainException)
          else match dget prefixes (String p "") with
               | None => (h, u, Err KeyError)
               | Some f =>
                   let '(h, c) := alloc h (u_c u) base (mkent new_unit f) in
                   updatePrefactors h (mkun c (u_cd u) (u_pf u))
               end
      end.
  (** lines 204-225 [setUnitPrefactor] *)
  Definition setUnitPrefactor (h : heap) (u : units) (unit_ new_unit : string) (value : A) : heap * units * res unit :=
    if negb (mem unit_ SI_units) then (h, u, Err PlainException)
    else let '(h, c) := alloc h (u_c u) unit_ (mkent new_unit value) in
         updatePrefactors h (mkun c (u_cd u) (u_pf u)).
  (** lines 227-241 [getUnitPrefactor] *)
  Definition getUnitPrefactor (h : heap) (u : units) (unit_ : string) : res A :=
    if negb (mem unit_ SI_units) then Err PlainException else factor h (u_c u) unit_.
  (** the parsing shared by lines 255-262, 288-295, 314-321 *)
  Definition parse_out (new_unit : string) : res (string * string) :=
    if mem new_unit SI_units then Ok (new_unit, "0")
    else match new_unit with
         | EmptyString => Err PlainException
         | String p base => if negb (mem base SI_units) then Err PlainException else Ok (base, String p "")
         end.
  (** store an output factor computed from the prefix *)
  Definition set_out (h : heap) (u : units) (key new_unit p : string) (f : A -> A) : heap * units * res unit :=
    match dget prefixes p with
    | None => (h, u, Err KeyError)
    | Some x => let '(h, cd) := alloc h (u_cd u) key (mkent new_unit (f x)) in
                updatePrefactors h (mkun (u_c u) cd (u_pf u))
    end.
  (** lines 243-274 [setEnergyUnit] *)
  Definition setEnergyUnit (h : heap) (u : units) (new_unit : string) : heap * units * res unit :=
    match parse_out new_unit with
    | Err e => (h, u, Err e)
    | Ok (unit_, p) =>
        if eqb unit_ "Hz" then set_out h u "Energy" new_unit p (fun x => ndiv one (nmul pc_h x))
        else if eqb unit_ "J" then set_out h u "Energy" new_unit p (fun x => ndiv one x)
        else if eqb unit_ "K" then set_out h u "Energy" new_unit p (fun x => ndiv one (nmul pc_kB x))
        else if eqb unit_ "eV" then set_out h u "Energy" new_unit p (fun x => ndiv one (nmul pc_e x))
        else (h, u, Err PlainException)
    end.
  (** lines 276-300 [setCurrentUnit], 302-326 [setVoltageUnit] *)
  Definition set_simple (key base : string) (h : heap) (u : units) (new_unit : string) : heap * units * res unit :=
    match parse_out new_unit with
    | Err e => (h, u, Err e)
    | Ok (unit_, p) => if eqb unit_ base then set_out h u key new_unit p (fun x => ndiv one x) else (h, u, Err PlainException)
    end.
  Definition setCurrentUnit := set_simple "Current" "A".
  Definition setVoltageUnit := set_simple "Voltage" "V".
  (** lines 343-351 [getPrefactor] *)
  Definition getPrefactor (u : units) (name : string) : res A :=
    match dget (u_pf u) name with Some x => Ok x | None => Err KeyError end.

  (** numerical_system.py lines 1271-1287 [_set_parameter_units] for one
      resonator: multiplies (parameters.py line 625) the parameterisations of
      Cr, Lr, gC, frl and Zrl held by the SymbolicSystem. [mults]: the product
      of the factors applied so far. The divisions by unit factors raise on
      zero. *)
  Record mults := mkmu { m_Cr : A; m_Lr : A; m_gC : A; m_frl : A; m_Zrl : A }.
  Definition set_parameter_units (h : heap) (u : units) (m : mults) : res mults :=
    bind (getUnitPrefactor h u "Hz") (fun Uf => bind (getUnitPrefactor h u "Ohm") (fun Uo =>
    bind (getUnitPrefactor h u "F") (fun Uc => bind (getUnitPrefactor h u "H") (fun Ul =>
    if niszero (nmul (nmul Uf Uo) Uc) || niszero (nmul Uf Ul) then Err ZeroDivisionError
    else
    bind (getPrefactor u "ChgOscCpl") (fun g => bind (getPrefactor u "Freq") (fun f => bind (getPrefactor u "Impe") (fun z =>
    Ok (mkmu (nmul (m_Cr m) (ndiv one (nmul (nmul Uf Uo) Uc))) (nmul (m_Lr m) (ndiv Uo (nmul Uf Ul)))
             (nmul (m_gC m) g) (nmul (m_frl m) f) (nmul (m_Zrl m) z))))))))).

  (** A call of a method that can change a Units object. *)
  Inductive uop :=
  | OpLoad (preset : string) | OpSetUnit (s : string) | OpSetPref (unit_ new_unit : string) (v : A)
  | OpEnergy (s : string) | OpCurrent (s : string) | OpVoltage (s : string).
  Definition run_op (h : heap) (u : units) (o : uop) : heap * units * res unit :=
    match o with
    | OpLoad p => loadPreset h u p
    | OpSetUnit s => setUnit h u s
    | OpSetPref a b v => setUnitPrefactor h u a b v
    | OpEnergy s => setEnergyUnit h u s
    | OpCurrent s => setCurrentUnit h u s
    | OpVoltage s => setVoltageUnit h u s
    end.

  (** Any number of Units objects and NumericalSystem objects. Objects are
      numbered in order of creation; number 0 is the default argument of
      numerical_system.py line 33, created at import. A NumericalSystem holds
      a reference to a Units object (line 48). *)
  Record world := mkw { w_heap : heap; w_units : list units; w_ns : list nat }.
  Inductive wop :=
  | NewUnits (name : string)
  | NewNS (unit_ : option nat)             (* NumericalSystem(SS, unit) / NumericalSystem(SS) *)
  | CallUnits (i : nat) (o : uop)          (* units_i.method(...) *)
  | CallNS (j : nat) (o : uop).            (* ns_j.units.method(...) *)
  Definition world0 : world :=
    let '(h, u, _) := units_new heap0 "CQED1" in mkw h [u] [].
  Fixpoint upd {X} (l : list X) (i : nat) (x : X) : list X :=
    match l, i with [], _ => [] | _ :: r, O => x :: r | y :: r, S i => y :: upd r i x end.
  Definition call_units (w : world) (i : nat) (o : uop) : world :=
    match nth_error (w_units w) i with
    | None => w
    | Some u => let '(h, u, _) := run_op (w_heap w) u o in mkw h (upd (w_units w) i u) (w_ns w)
    end.
  Definition step (w : world) (o : wop) : world :=
    match o with
    | NewUnits name => let '(h, u, _) := units_new (w_heap w) name in mkw h (w_units w ++ [u]) (w_ns w)
    | NewNS (Some i) => mkw (w_heap w) (w_units w) (w_ns w ++ [i])
    | NewNS None => mkw (w_heap w) (w_units w) (w_ns w ++ [0])
    | CallUnits i o => call_units w i o
    | CallNS j o => match nth_error (w_ns w) j with None => w | Some i => call_units w i o end
    end.
  Definition run_world (w : world) (l : list wop) : world := fold_left step l w.
End Units.
