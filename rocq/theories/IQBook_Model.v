(** Who gets which integrated quantity, and what becomes of it.
    src/managers/postprocess/postprocessManager_construct.hpp (setup, lines 297-333),
    postprocessManager_integrated_quantities.hpp (lines 12-73, 130-283), src/tools/workset.cpp
    (addIntegratedQuantities, lines 1482-1498), the modules in src/physics that ask for quantities
    (thermal.cpp lines 413-446, variableDensityNS.cpp lines 1239-1320, vlasov_fokker_planck*.cpp),
    src/managers/parameter/parameterManager_update.hpp (updateDynamicParams, lines 107-170) and
    src/managers/solver/solverManager_solvers.hpp (transientSolver, lines 62-165).
    Simplified: one integral of a function over a block or its boundary is a given number [measure]
    (its computation is PostErr_Model); a function is looked up by name and place, the first
    registration counting (FuncReg, C07). *)
From Coq Require Import Bool Arith Reals String List.
From Verif Require Import VDNS_Model.
Import ListNotations.
Local Open Scope string_scope.

(** integrand, name and place ("volume" or "boundary") *)
Record quantity := { q_integrand : string; q_name : string; q_place : string }.
Definition mkq (i n p : string) : quantity := {| q_integrand := i; q_name := n; q_place := p |}.

(** What a module asks for (setupIntegratedQuantities) and the storage it reserves (setWorkset). *)
Record pmodule := { asks : list quantity; reserves : nat }.

(** setup, lines 300-333: the modules' quantities, then the user's. *)
Definition block_list (mods : list pmodule) (user : list quantity) : list quantity :=
  (concat (map asks mods) ++ user)%list.

(** addFunction for every quantity; [place_ok]: lines 27-34 register at "ip" or "side ip" only. *)
Definition place_ok (p : string) : bool := String.eqb p "volume" || String.eqb p "boundary".
Fixpoint first_integrand (qs : list quantity) (n p : string) : option string :=
  match qs with
  | [] => None
  | q :: r => if String.eqb (q_name q) n && String.eqb (q_place q) p then Some (q_integrand q)
              else first_integrand r n p
  end.

(** lines 151-250: the value, summed over processes; zero for any other place *)
Definition value (measure : string -> string -> R) (qs : list quantity) (q : quantity) : R :=
  if place_ok (q_place q) then
    match first_integrand qs (q_name q) (q_place q) with
    | Some f => measure f (q_place q)
    | None => 0%R
    end
  else 0%R.
Definition values (measure : string -> string -> R) (qs : list quantity) : list R := map (value measure qs) qs.

(** addIntegratedQuantities: the start of each module and the final extent *)
Fixpoint starts_from (s : nat) (mods : list pmodule) : list nat :=
  match mods with [] => [] | m :: r => s :: starts_from (s + reserves m) r end.
Fixpoint extent (mods : list pmodule) : nat :=
  match mods with [] => 0 | m :: r => reserves m + extent r end.

(** lines 146-148, 243-247, 270-273: what is copied to the workset *)
Definition host_sums (n : nat) (vals : list R) : list R := map (fun i => nth i vals 0%R) (seq 0 n).
Definition module_reads (measure : string -> string -> R) (mods : list pmodule) (user : list quantity) (k j : nat) : R :=
  nth (nth k (starts_from 0 mods) 0 + j)
      (host_sums (extent mods) (values measure (block_list mods user))) 0%R.

(** The modules of the code. *)
Inductive kind := Thermal | VDensity | Vlasov | Other.
Definition asked (spaceDim : nat) (test_IQs openSystem inoutflow : bool) (k : kind) : list quantity :=
  let sel {A} (a b c : A) := match spaceDim with 1 => a | 2 => b | _ => c end in
  match k with
  | Thermal => if test_IQs then
      [ mkq "T" "thermal vol total T" "volume"; mkq "T" "thermal bnd total T" "boundary";
        mkq (sel "(n[x]*grad(T)[x])" "(n[x]*grad(T)[x] + n[y]*grad(T)[y])"
                 "(n[x]*grad(T)[x] + n[y]*grad(T)[y] + n[z]*grad(T)[z])") "thermal bnd heat flux" "boundary" ]
      else []
  | VDensity => if openSystem then [] else if inoutflow then
      [ mkq "1." "VDNS vol total volume" "volume"; mkq "source T*(gamma-1.)" "VDNS vol Q total" "volume";
        mkq (sel "(gamma-1.)*lambda*(n[x]*grad(T)[x])" "(gamma-1.)*lambda*(n[x]*grad(T)[x] + n[y]*grad(T)[y])"
                 "(gamma-1.)*lambda*(n[x]*grad(T)[x] + n[y]*grad(T)[y] + n[z]*grad(T)[z])")
            "VDNS bnd heat flux (scaled by gamma - 1)" "boundary";
        mkq (sel "gamma*n[x]*ux" "gamma*(n[x]*ux + n[y]*uy)" "gamma*(n[x]*ux + n[y]*uy + n[z]*uz)")
            "VDNS bnd vel flux (scaled by gamma)" "boundary" ]
      else [ mkq "rho*RGas" "VDNS vol total mass times R" "volume"; mkq "1./T" "VDNS vol inverse temp" "volume" ]
  | Vlasov =>
      [ mkq "H" "VFP0d2v mean H" "volume"; mkq "C" "VFP0d2v mean C" "volume"; mkq "G" "VFP0d2v mean G" "volume";
        mkq "x*H" "VFP0d2v varx H" "volume"; mkq "x*C" "VFP0d2v varx C" "volume"; mkq "x*G" "VFP0d2v varx G" "volume";
        mkq "y*H" "VFP0d2v vary H" "volume"; mkq "y*C" "VFP0d2v vary C" "volume"; mkq "y*G" "VFP0d2v vary G" "volume" ]
  | Other => []
  end.
Definition reserved (test_IQs openSystem inoutflow : bool) (k : kind) : nat :=
  match k with
  | Thermal => if test_IQs then 3 else 0
  | VDensity => if openSystem then 0 else if inoutflow then 4 else 2
  | Vlasov => 9
  | Other => 0
  end.
Definition the_module (spaceDim : nat) (t o f : bool) (k : kind) : pmodule :=
  {| asks := asked spaceDim t o f k; reserves := reserved t o f k |}.

(** The background pressure over a transient run.  [table]: the parameter values by time index
    (one row unless the parameters are dynamic); [cur] and [cur_ad]: what the worksets for values and
    for derivatives see. *)
Record pstate := { cur : R; cur_ad : R }.
(** updateDynamicParams, lines 108-137 *)
Definition update_dynamic (table : nat -> R) (dynamic : bool) (timestep : nat) (s : pstate) : pstate :=
  let index := if dynamic then timestep else 0%nat in
  {| cur := table index; cur_ad := table index |}.
(** postproc->record: computeIntegratedQuantities and, block by block, the update of the modules for
    values (physics->modules); all blocks share the parameter *)
Definition record_blocks (upds : list (R -> R)) (s : pstate) : pstate :=
  {| cur := fold_left (fun p u => u p) upds (cur s); cur_ad := cur_ad s |}.
(** One step of transientSolver: what the residual sees (values, derivatives) and the state after. *)
Definition time_step (table : nat -> R) (dynamic : bool) (upds : nat -> list (R -> R)) (n : nat) (s : pstate)
  : (R * R) * pstate :=
  let s1 := update_dynamic table dynamic n s in
  ((cur s1, cur_ad s1), record_blocks (upds n) s1).
Fixpoint run (table : nat -> R) (dynamic : bool) (upds : nat -> list (R -> R)) (n k : nat) (s : pstate)
  : list (R * R * pstate) :=
  match k with
  | O => []
  | S k' => let '(seen, s') := time_step table dynamic upds n s in
            (seen, s') :: run table dynamic upds (S n) k' s'
  end.
