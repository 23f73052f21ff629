(** Weights of the inner product of field parameters.
    Files modelled (all in /repo/src):
    - managers/assembly/assemblyManager_mass.hpp 283-550 (getParamMass of all
      groups: diagonal or lumped vector) and 984-1050 (mass table of a group);
    - managers/solver/solverManager_setup.hpp 124-173 (setupDiscretizedParamMass);
    - optimization/MrHyDE_OptVector.hpp 1044-1064 (primal and dual inner products
      with these weights).
    The blocks are those of Mass_Model with the parameters in the place of the
    variables; the mass weight is one.  The full parameter mass matrix, which
    the code builds but reads nowhere, is left out, and so is the exchange
    between processes (contributions are added). *)
From Coq Require Import Bool Arith List Reals.
From Verif Require Import Sparse_Model BProj_Model Mass_Model.
Import ListNotations.
Local Open Scope R_scope.

(** Line 1012: mwt = 1.0 for each parameter. *)
Definition param_block (b : block) : block :=
  {| offs := offs b; elems := elems b; nq := nq b; ndim := ndim b;
     mwt := fun _ => 1; db := db b; ndb := ndb b; ndof := ndof b |}.

(** Lines 403-428 without lumping: val = localmass(elem,row,row). *)
Definition jacobi_elem (b : block) (e : elem) : list (nat * R) :=
  map (fun vi => let row := off b (fst vi) (snd vi) in
                 (lid e row, stored_mass b e row row)) (rows b).

(** The vector of weights.  [lumped] is the setting "lump mass"; [avail] is
    whether the linear algebra can read the assembly's memory (lines 318-322):
    lines 411-416 take absolute values, lines 482-487 do not. *)
Definition param_weights (lumped avail : bool) (bs : list block) : vector :=
  let ps := map param_block bs in
  if lumped then
    lump (if avail then LumpHost false else LumpDevice false) ps (fun _ => 0)
  else
    scatter (flat_map (fun b => flat_map (jacobi_elem b) (elems b)) ps)
            (fun _ => 0).

(** OptVector 1055-1063 (both vectors primal) and 1045-1054 (both dual). *)
Definition primal_dot (n : nat) (D x y : vector) : R :=
  sm (seq 0 n) (fun r => x r * (y r * D r)).
Definition dual_dot (n : nat) (D x y : vector) : R :=
  sm (seq 0 n) (fun r => x r * (y r / D r)).
