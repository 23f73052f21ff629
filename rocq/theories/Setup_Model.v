(** Setting up the physics of the blocks: src/interfaces/physics/physicsInterface_construct.hpp,
    _util.hpp and _functions.hpp, src/physics/physicsImporter.cpp, the bases of a block
    (discretizationInterface_construct.hpp) and of the discretized parameters
    (parameterManager_setup.hpp). Strings are byte strings; one template type. *)
From Coq Require Import Bool Arith ZArith QArith String Ascii List.
From Verif Require Import BCond_Model Settings_Model.
Import ListNotations.
Local Open Scope string_scope.

(** breakupList(list, ", "), physicsInterface_util.hpp 14-32. *)
Fixpoint split_list (acc s : string) : list string :=
  match s with
  | EmptyString => [acc]
  | String "," (String " " r) => acc :: split_list "" r
  | String c r => split_list (acc ++ String c "") r
  end.
Definition breakup (s : string) : list string := split_list "" s.

(** PhysicsImporter::import, physicsImporter.cpp 66-262: one test per module, in turn; the result is
    named by the class that is created. Optional modules (Mirage, Piezo) left out. *)
Definition module_table : list (list string * string) :=
  [ (["physicsTest"], "physicsTest"); (["porous"], "porous"); (["porous mixed"], "porousMixed");
    (["porous mixed hybridized"], "porousMixedHybrid"); (["porous weak Galerkin"], "porousWeakGalerkin");
    (["cdr"; "CDR"], "cdr"); (["cdr2"; "CDR2"], "cdr2"); (["thermal"], "thermal"); (["ellipticPrior"], "ellipticPrior");
    (["shallow water"], "shallowwater"); (["shallow ice"], "shallowice"); (["shallow water hybridized"], "shallowwaterHybridized");
    (["maxwell"], "maxwell"); (["maxwell_control"], "maxwell_control"); (["maxwell bianisotropic"], "maxwell_bianisotropic");
    (["msphasefield"], "msphasefield"); (["stokes"; "Stokes"], "stokes"); (["navier stokes"; "Navier Stokes"], "navierstokes");
    (["hartmann"], "hartmann"); (["linearelasticity"; "linear elasticity"], "linearelasticity"); (["elastodynamics"], "elastodynamics");
    (["neohookean"; "neo hookean"], "neohookean"); (["helmholtz"], "helmholtz"); (["maxwells_freq_pot"], "maxwells_fp"); (["ODE"], "ODE");
    (["Burgers"], "Burgers"); (["Kuramoto-Sivashinsky"], "KuramotoSivashinsky"); (["llamas"], "llamas"); (["VDNS"], "VDNS");
    (["Euler"; "euler"], "euler"); (["VFP0d2v"], "VFP0d2v"); (["VFP1d2v"], "VFP1d2v"); (["VFP"], "VFP"); (["phase elliptic"], "PhaseElliptic");
    (["incompressible saturation"; "inc sat"], "incompressibleSaturation"); (["levelSet"], "levelSet") ].
Definition import_one (name : string) : list string :=
  flat_map (fun e => if existsb (String.eqb name) (fst e) then [snd e] else []) module_table.
Definition import (names : list string) : list string := flat_map import_one names.

(** A variable as a module or "Extra variables" declares it, and after importPhysics step 2
    (lines 219-293): the mark "-DG" is looked for anywhere, the last three characters are dropped. *)
Record decl := { d_name : string; d_type : string }.
Record variable := { v_name : string; v_type : string; v_dg : bool; v_order : nat }.
Definition drop3 (s : string) : string := substring 0 (String.length s - 3) s.
Definition make_var (order : string -> option nat) (d : decl) : variable :=
  let dg := contains "-DG" (d_type d) in
  {| v_name := d_name d; v_type := if dg then drop3 (d_type d) else d_type d; v_dg := dg;
     v_order := match order (d_name d) with Some o => o | None => 1 end |}.
(** The variables of one physics set on one block: of the modules in turn, then the extra ones. *)
Definition block_vars (vars_of : string -> list decl) (order : string -> option nat) (modules : list string) (extra : list decl) : list variable :=
  map (make_var order) (flat_map vars_of modules ++ extra)%list.

(** Step 3, lines 316-376: pairs (type, order) without repetition and, for each variable of the
    sets in turn, where its pair is. *)
Definition basis_eqb (a b : string * nat) : bool := String.eqb (fst a) (fst b) && Nat.eqb (snd a) (snd b).
Definition matches (u : list (string * nat)) (b : string * nat) : list nat :=
  map fst (filter (fun e => basis_eqb (snd e) b) (combine (seq 0 (List.length u)) u)).
Definition uniq_step (st : list (string * nat) * list nat) (b : string * nat) : list (string * nat) * list nat :=
  match matches (fst st) b with
  | [] => ((fst st ++ [b])%list, (snd st ++ [List.length (fst st)])%list)
  | ks => (fst st, (snd st ++ ks)%list)
  end.
Definition pair_of (v : variable) : string * nat := (v_type v, v_order v).
Definition unique_vars (sets : list (list variable)) : list (string * nat) * list nat :=
  fold_left uniq_step (map pair_of (List.concat sets)) ([], []).
Definition add_param (u : list (string * nat)) (b : string * nat) : list (string * nat) :=
  match matches u b with [] => (u ++ [b])%list | _ => u end.
(** An exception if the block has no variables (line 325). *)
Definition block_unique (sets : list (list variable)) (params : list (string * nat)) : option (list (string * nat) * list nat) :=
  match List.concat sets with
  | [] => None
  | _ => let u := unique_vars sets in Some (fold_left add_param params (fst u), snd u)
  end.

(** getUniqueIndex(set, block, var), physicsInterface_util.hpp 67-80: the loop variable hides the
    argument "set". *)
Definition scan_set (idx : list nat) (var : string) (prog : nat) (vs : list variable) (index : nat) : nat :=
  fold_left (fun index (jv : nat * variable) => if String.eqb (v_name (snd jv)) var then nth (fst jv + prog)%nat idx 0%nat else index)
            (combine (seq 0 (List.length vs)) vs) index.
Definition get_unique_index (sets : list (list variable)) (idx : list nat) (set : nat) (var : string) : nat :=
  fst (fold_left (fun (st : nat * nat) vs => (scan_set idx var (snd st) vs (fst st), (snd st + List.length vs)%nat)) sets (0, 0)%nat).

(** The bases of a block, discretizationInterface_construct.hpp 74-97: once per set over the unique
    list, those already done skipped. *)
Definition disc_bases (nsets : nat) (u : list (string * nat)) : list (string * nat) :=
  fold_left (fun done _ => fold_left (fun done b => if existsb (fun d => basis_eqb d b) done then done else (done ++ [b])%list) u done)
            (seq 0 nsets) [].

(** setupDiscretizedParameters, parameterManager_setup.hpp 247-261: positions in the list of the first block. *)
Definition param_usebasis (blocks : list (list (string * nat))) (params : list (string * nat)) : list nat :=
  flat_map (matches (nth 0 blocks [])) params.

(** defineFunctions, physicsInterface_functions.hpp 89-122 and 478-535: the functions of a block. *)
Definition is_leaf (n : node) : bool := match n with Leaf _ => true | Node _ => false end.
Definition block_functions (l : plist) (block : string) : plist :=
  let base := fold_left (fun acc e => if is_leaf (snd e) then set_entry (fst e) (snd e) acc else acc) l [] in
  fold_left (fun acc e => match snd e with
                          | Node sl => if contains block (fst e) then overlay acc sl else acc
                          | Leaf _ => acc
                          end) l base.

(** Initial conditions, lines 152-176 (scalar variables): text, number with six decimals, or "0.0". *)
Definition initial_entry (ic : list (string * BCond_Model.bval)) (var : string) : BCond_Model.entry :=
  match BCond_Model.assoc var ic with
  | Some (BCond_Model.VStr t) => BCond_Model.EText t
  | Some (BCond_Model.VDbl q) => BCond_Model.to_string q
  | _ => BCond_Model.EText "0.0"
  end.
(** Mass weights and norm weights, lines 438-476. *)
Definition weight (wts : list (string * BCond_Model.bval)) (var : string) : Q :=
  match BCond_Model.assoc var wts with Some (BCond_Model.VDbl q) => q | _ => 1%Q end.
