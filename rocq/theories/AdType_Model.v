(** Model of the selection of the automatic-differentiation type.

    Sources (under /repo/src):
      interfaces/discretization/discretizationInterface_dof.hpp:22, 87-98
      managers/parameter/parameterManager_setup.hpp:165-172, 285-294
      managers/assembly/assemblyManager_construct.hpp:124-170
      managers/assembly/assemblyManager_workset.hpp:20-234
      preferences.hpp:48-90

    Degree-of-freedom counts per element are inputs (they come from Panzer).
    Phase-space discretisations are not modelled. *)
From Coq Require Import List ZArith Bool.
From Verif Require Import Outcome.
Import ListNotations.
Local Open Scope Z_scope.

(** What the setup sees: for each physics set the number of unknowns per element
    on each block; number of active scalar parameters; for discretized
    parameters, if any, the number of parameter unknowns per element on each
    block. *)
Record problem := {
  p_sets : list (list Z);
  p_active : Z;
  p_disc : option (list Z)
}.

Fixpoint zip_max (a b : list Z) : list Z :=
  match a, b with
  | x :: a', y :: b' => (if y >? x then y else x) :: zip_max a' b'
  | _, _ => a
  end.

(** discretizationInterface_dof.hpp:25-97, for all sets: update the requirement
    of each block, then throw if the count exceeds MAXDERIVS. *)
Fixpoint dof_req (maxd : Z) (sets : list (list Z)) (req : list Z) : outcome (list Z) :=
  match sets with
  | [] => Ok req
  | s :: sets' =>
      if existsb (fun n => n >? maxd) s then Exn else dof_req maxd sets' (zip_max req s)
  end.

(** parameterManager_setup.hpp:166-171 *)
Definition param_req (maxd active : Z) (req : list Z) : outcome (list Z) :=
  if active >? maxd then Exn else Ok (map (fun r => if active >? r then active else r) req).

(** parameterManager_setup.hpp:285-293 *)
Definition disc_req (maxd : Z) (d : option (list Z)) (req : list Z) : outcome (list Z) :=
  match d with
  | None => Ok req
  | Some s => if existsb (fun n => n >? maxd) s then Exn else Ok (zip_max req s)
  end.

(** [num_derivs_required] when AssemblyManager copies it
    (assemblyManager_construct.hpp:122-125). *)
Definition requirements (maxd : Z) (nblocks : nat) (p : problem) : outcome (list Z) :=
  obind (dof_req maxd (p_sets p) (repeat 0 nblocks)) (fun r =>
  obind (param_req maxd (p_active p) r) (fun r =>
  disc_req maxd (p_disc p) r)).

(** assemblyManager_construct.hpp:128-170 *)
Definition select_type (req : list Z) (multiscale : list bool) (allow_autotune fully_explicit : bool) : Z :=
  let max_ndr := fold_left Z.max req 0 in
  let t :=
    if (max_ndr >? 0) && (max_ndr <=? 2) then 2
    else if (max_ndr >? 2) && (max_ndr <=? 4) then 4
    else if (max_ndr >? 4) && (max_ndr <=? 8) then 8
    else if (max_ndr >? 8) && (max_ndr <=? 16) then 16
    else if (max_ndr >? 16) && (max_ndr <=? 18) then 18
    else if (max_ndr >? 18) && (max_ndr <=? 24) then 24
    else if (max_ndr >? 24) && (max_ndr <=? 32) then 32
    else -1 in
  let t := if existsb (fun b => b) multiscale then -1 else t in
  let t := if negb allow_autotune then -1 else t in
  if fully_explicit then 0 else t.

(** preferences.hpp:79-90 with importPhysicsAD and the workset types: the number
    of derivatives a value of the selected type carries. *)
Definition capacity (maxd t : Z) : Z := if t =? -1 then maxd else t.

(* ------------------------------------------------------------------ *)
(** ** Worksets — assemblyManager_workset.hpp:20-234 *)

(** State: for each AD type, the vector of worksets, each recorded by the block
    it was made for ([None] for the placeholder made on an empty block). *)
Record wksets := { w_AD : list (option nat); w_spec : list (option nat) }.

(** Line 187-193: push_back, then write to element [block]. *)
Definition push_at (v : list (option nat)) (b : nat) : outcome (list (option nat)) :=
  if (b <? S (length v))%nat then
    if (b =? length v)%nat then Ok (v ++ [Some b])
    else (* the freshly pushed workset is left without block, [v[b]] is renamed *)
      Ok (firstn b v ++ Some b :: skipn (S b) v ++ [None])
  else UB.

(** One iteration of the loop over blocks.  [t] is type_AD; the seven specialised
    vectors behave alike and only the one selected by [t] is ever used, so one
    vector [w_spec] represents it. *)
Definition create_block (t : Z) (autotune fully_explicit forward : bool) (w : wksets)
    (b : nat) (has_groups ms : bool) : outcome wksets :=
  let special := existsb (Z.eqb t) [2; 4; 8; 16; 18; 24; 32] in
  if has_groups then
    let requires_AD := negb (fully_explicit && forward) in
    let found := requires_AD && special in
    obind (if found then push_at (w_spec w) b else Ok (w_spec w)) (fun spec =>
    obind (if (requires_AD && negb found) || ms || negb autotune
           then push_at (w_AD w) b else Ok (w_AD w)) (fun ad =>
    Ok {| w_AD := ad; w_spec := spec |}))
  else
    Ok (if t =? -1 then {| w_AD := w_AD w ++ [None]; w_spec := w_spec w |}
        else if special then {| w_AD := w_AD w; w_spec := w_spec w ++ [None] |}
        else w).

Fixpoint create_from (t : Z) (autotune fully_explicit forward : bool) (w : wksets)
    (b : nat) (blocks : list (bool * bool)) : outcome wksets :=
  match blocks with
  | [] => Ok w
  | (has_groups, ms) :: rest =>
      obind (create_block t autotune fully_explicit forward w b has_groups ms) (fun w' =>
      create_from t autotune fully_explicit forward w' (S b) rest)
  end.

(** [blocks]: for each block whether this process has groups on it and whether
    it is multiscale. *)
Definition create_worksets t autotune fully_explicit forward blocks :=
  create_from t autotune fully_explicit forward {| w_AD := []; w_spec := [] |} 0 blocks.

(** assemblyManager_jacres.hpp:36-105: the type used to assemble on a block with
    groups; [-1] stands for the type of length MAXDERIVS.  [autotune] is the flag
    at the time of the call (it is switched off at the first multiscale block and
    stays off). *)
Definition dispatch (t : Z) (autotune ms : bool) : Z :=
  if negb (autotune && negb ms) then -1
  else if existsb (Z.eqb t) [2; 4; 8; 16; 18; 24; 32] then t else -1.

(** The vector of worksets that goes with a type. *)
Definition worksets_of (w : wksets) (t : Z) : list (option nat) :=
  if t =? -1 then w_AD w else w_spec w.
