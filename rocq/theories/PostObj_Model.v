(** Objective functions and their gradients: src/managers/postprocess/
    postprocessManager_objectives.hpp (computeObjective, lines 79-571; reportObjective, lines
    577-640) and postprocessManager_objective_gradient.hpp (computeObjectiveGradParam, lines
    114-946; computeObjectiveGradState, lines 1050-1500; computeSensitivities, the objective's
    part, lines 1602-1650), with the times at which the transient adjoint calls them
    (src/managers/solver/solverManager_solvers.hpp, lines 226-272 and 470-477).
    Simplified: one objective, one physics set, one block; exact arithmetic; vectors are indexed
    by global numbers; automatic differentiation appears as the derivatives [dfu], [dfp], [dfs],
    [dresp], [drespp] next to the functions; regularizations in the volume only; the derivatives
    of an integrated response by scalar parameters (evaluated in a workset that was not
    refreshed, line 384) are left out. *)
From Coq Require Import Bool Arith Reals List.
Import ListNotations.
From Verif Require Import BProj_Model.
Local Open Scope R_scope.

Inductive otype := IntegratedControl | DiscreteControl | IntegratedResponse | Sensors.

(** An element: quadrature, the numbers of its unknowns and of its parameter unknowns. *)
Record melem := {
  npt : nat; wt : nat -> R;
  ndof : nat; lid : nat -> nat;
  npdof : nat; plid : nat -> nat
}.
(** The parameters: unknowns of the discretized ones, active scalars. *)
Record pars := { disc : nat -> R; scal : nat -> R }.
(** What an element sees: [at_elem] for the state, [pars_at] for the parameters. *)
Definition at_elem (u : nat -> R) (l : nat -> nat) : nat -> R := fun k => u (l k).
Definition pars_at (p : pars) (e : melem) : pars := {| disc := at_elem (disc p) (plid e); scal := scal p |}.

Record sensor := {
  s_elem : melem;                              (* sensor_owners *)
  resp : (nat -> R) -> pars -> R;
  dresp : (nat -> R) -> pars -> nat -> R;      (* by the element's unknowns *)
  drespp : (nat -> R) -> pars -> nat -> R;     (* by the element's parameter unknowns *)
  s_data : nat -> R                            (* sensor_data(pt, time index) *)
}.
(** A process: its groups of elements and its sensors. *)
Record proc := { groups : list (list melem); sensors : list sensor }.

Inductive reg :=
| Integrated (regwt : R) (rf : pars -> melem -> nat -> R) (drf : pars -> melem -> nat -> nat -> R)
| L2Norm (regwt : R).

Record objective := {
  typ : otype; weight : R; target : R;
  func : (nat -> R) -> pars -> melem -> nat -> R;         (* at a point of an element *)
  dfu : (nat -> R) -> pars -> melem -> nat -> nat -> R;   (* by the element's unknowns *)
  dfp : (nat -> R) -> pars -> melem -> nat -> nat -> R;   (* by its parameter unknowns *)
  dfs : (nat -> R) -> pars -> melem -> nat -> nat -> R;   (* by the scalar parameters *)
  sensor_times : list R;
  regs : list reg
}.

(** computeObjective, lines 284-295: the last time within 1e-12 *)
Fixpoint find_time (i : nat) (l : list R) (cur : R) : option nat :=
  match l with
  | [] => None
  | t :: r => match find_time (S i) r cur with
              | Some j => Some j
              | None => if Rlt_dec (Rabs (cur - t)) (1 / 10 ^ 12) then Some i else None
              end
  end.
Definition is_some {A} (o : option A) : bool := match o with Some _ => true | None => false end.

Record setup := {
  nunk : nat;                       (* unknowns of the state *)
  npar : nat; nscal : nat;          (* parameter unknowns, active scalar parameters *)
  dsol : R -> nat -> R;             (* datagen_soln at a time *)
  compute_response : bool; compute_objective : bool
}.

(** computeObjective on one process; [root]: rank 0. Lines 131-178 and 208-254. *)
Definition group_integral (g : list melem) (f : melem -> nat -> R) : R :=
  sm g (fun e => sm (seq 0 (npt e)) (fun pt => f e pt * wt e pt)).
Definition main_value (root : bool) (o : objective) (s : setup) (pr : proc) (u : nat -> R) (p : pars) (cur : R) : R :=
  match typ o with
  | IntegratedControl =>
      sm (groups pr) (fun g => weight o * group_integral g (fun e => func o (at_elem u (lid e)) (pars_at p e) e))
  | IntegratedResponse =>
      sm (groups pr) (fun g => group_integral g (fun e => func o (at_elem u (lid e)) (pars_at p e) e))
  | DiscreteControl =>                                             (* lines 179-207 *)
      if root then let n := sqrt (sm (seq 0 (nunk s)) (fun i => (u i - dsol s cur i) ^ 2)) in weight o * n * n else 0
  | Sensors =>                                                     (* lines 272-444 *)
      sm (sensors pr) (fun q =>
        let found := find_time 0 (sensor_times o) cur in
        let tindex := match found with Some t => t | None => 0%nat end in
        if (compute_response s || is_some found)%bool
        then if compute_objective s
             then let diff := resp q (at_elem u (lid (s_elem q))) (pars_at p (s_elem q)) - s_data q tindex in weight o * diff * diff
             else 0
        else 0)
  end.
(** lines 450-561 *)
Definition reg_value (root : bool) (s : setup) (pr : proc) (p : pars) (g : reg) : R :=
  match g with
  | Integrated w rf _ => sm (groups pr) (fun gr => sm gr (fun e => sm (seq 0 (npt e)) (fun pt => w * (wt e pt * rf (pars_at p e) e pt))))
  | L2Norm w => if root then sm (seq 0 (nscal s)) (fun k => w * scal p k * scal p k) else 0
  end.
Definition proc_value (root : bool) (o : objective) (s : setup) (pr : proc) (u : nat -> R) (p : pars) (cur : R) : R :=
  main_value root o s pr u p cur + sm (regs o) (reg_value root s pr p).
(** Teuchos::reduceAll, REDUCE_SUM *)
Definition reduce (ranks : list proc) (f : bool -> proc -> R) : R :=
  match ranks with [] => 0 | r0 :: r => f true r0 + sm r (f false) end.

(** The records (lines 564-568): how many, their times, the states at them. *)
Record history := { nrec : nat; times : nat -> R; states : nat -> nat -> R }.
Definition contrib (o : objective) (s : setup) (ranks : list proc) (h : history) (p : pars) (t : nat) : R :=
  reduce ranks (fun root pr => proc_value root o s pr (states h t) p (times h t)).
Definition is_sensors (o : objective) : bool := match typ o with Sensors => true | _ => false end.
(** reportObjective, lines 591-621 *)
Definition value_of (o : objective) (s : setup) (ranks : list proc) (h : history) (p : pars) : R :=
  if (nrec h =? 1)%nat then contrib o s ranks h p 0
  else sm (seq 1 (nrec h - 1)) (fun t =>
    if is_sensors o then contrib o s ranks h p t else contrib o s ranks h p t * (times h t - times h (t - 1))).
(** lines 622-628 *)
Definition report (o : objective) (s : setup) (ranks : list proc) (h : history) (p : pars) : R :=
  let value := value_of o s ranks h p in
  match typ o with
  | IntegratedResponse => let diff := value - target o in weight o * diff * diff
  | _ => value
  end.

(** computeObjectiveGradState, lines 1132-1144: the step that ended at the current time *)
Definition dt_at (h : history) (cur : R) : R :=
  fold_left (fun d t => if Rlt_dec (Rabs (times h t - cur) / cur) (1 / 10 ^ 12) then times h t - times h (t - 1) else d)
    (seq 1 (nrec h - 1)) 1.
(** scatterRes and exportVectorFromOverlapped *)
Definition gather_add (ranks : list proc) (loc : melem -> nat -> R) (i : nat) : R :=
  sm ranks (fun pr => sm (groups pr) (fun g => sm g (fun e =>
    sm (seq 0 (ndof e)) (fun k => if (lid e k =? i)%nat then loc e k else 0)))).
(** lines 1146-1500; [cur] is the end of the step, [u] the state there *)
Definition grad_state (o : objective) (s : setup) (ranks : list proc) (h : history) (p : pars) (u : nat -> R) (cur : R) (i : nat) : R :=
  let dt := dt_at h cur in
  let du e k pt := dfu o (at_elem u (lid e)) (pars_at p e) e pt k in
  match typ o with
  | IntegratedControl =>
      dt * gather_add ranks (fun e k => sm (seq 0 (npt e)) (fun pt => - weight o * du e k pt * wt e pt)) i
  | IntegratedResponse =>
      dt * (2 * weight o * (value_of o s ranks h p - target o) *
            gather_add ranks (fun e k => sm (seq 0 (npt e)) (fun pt => - (du e k pt * wt e pt))) i)
  | DiscreteControl => - 2 * dt * weight o * (u i - dsol s cur i)
  | Sensors =>
      sm ranks (fun pr => sm (sensors pr) (fun q =>
        match find_time 0 (sensor_times o) cur with
        | Some t => let ul := at_elem u (lid (s_elem q)) in
                    let pl := pars_at p (s_elem q) in
                    let diff := resp q ul pl - s_data q t in
                    sm (seq 0 (ndof (s_elem q))) (fun k => if (lid (s_elem q) k =? i)%nat
                      then - (weight o * (dresp q ul pl k * diff + diff * dresp q ul pl k)) else 0)
        | None => 0 end))
  end.

(** computeObjectiveGradParam for discretized parameters, one step: [u] the state at its end,
    [cur] the time handed over. The objective itself: lines 256-315 and 447-513, where the
    derivatives are first summed over the elements of a group; lines 540-770. *)
Definition grad_param_main (o : objective) (s : setup) (ranks : list proc) (h : history) (p : pars) (u : nat -> R) (cur dt : R) (i : nat) : R :=
  let group_sum g k := sm g (fun e => sm (seq 0 (npt e)) (fun pt => dfp o (at_elem u (lid e)) (pars_at p e) e pt k * wt e pt)) in
  let spread w := sm ranks (fun pr => sm (groups pr) (fun g => sm g (fun e =>
      sm (seq 0 (npdof e)) (fun k => if (plid e k =? i)%nat then w * group_sum g k else 0)))) in
  match typ o with
  | IntegratedControl => spread (weight o) * dt
  | IntegratedResponse => 2 * dt * weight o * (value_of o s ranks h p - target o) * spread 1
  | DiscreteControl => 0
  | Sensors =>
      sm ranks (fun pr => sm (sensors pr) (fun q =>
        let found := find_time 0 (sensor_times o) cur in
        let tindex := match found with Some t => t | None => 0%nat end in
        if ((compute_response s || is_some found) && compute_objective s)%bool
        then let ul := at_elem u (lid (s_elem q)) in
             let pl := pars_at p (s_elem q) in
             let diff := resp q ul pl - s_data q tindex in
             sm (seq 0 (npdof (s_elem q))) (fun k => if (plid (s_elem q) k =? i)%nat
               then weight o * (drespp q ul pl k * diff + diff * drespp q ul pl k) else 0)
        else 0))
  end.
(** The regularizations: lines 779-845. *)
Definition grad_param_reg (o : objective) (ranks : list proc) (p : pars) (dt : R) (i : nat) : R :=
  sm ranks (fun pr => sm (regs o) (fun g => match g with
    | Integrated w _ drf => sm (groups pr) (fun gr => sm gr (fun e => sm (seq 0 (npt e)) (fun pt =>
        sm (seq 0 (npdof e)) (fun k => if (plid e k =? i)%nat then w * dt * (wt e pt * drf (pars_at p e) e pt k) else 0))))
    | L2Norm _ => 0 end)).
(** The objective's part of the gradient over a transient adjoint run: step [t] is called with
    the state at its end and the time at its start (solverManager_solvers.hpp, lines 255-270). *)
Definition grad_param (o : objective) (s : setup) (ranks : list proc) (h : history) (p : pars) (i : nat) : R :=
  sm (seq 1 (nrec h - 1)) (fun t =>
    let dt := times h t - times h (t - 1) in
    grad_param_main o s ranks h p (states h t) (times h (t - 1)) dt i + grad_param_reg o ranks p dt i).

(** Derivatives by the scalar parameters as one process sees them: lines 198-253 and 912-930
    of computeObjectiveGradParam, added to the gradient unreduced in computeSensitivities,
    lines 1604-1617. *)
Definition grad_scalar_at (o : objective) (pr : proc) (p : pars) (u : nat -> R) (dt : R) (j : nat) : R :=
  match typ o with
  | IntegratedControl =>
      sm (groups pr) (fun g => weight o * group_integral g (fun e pt => dfs o (at_elem u (lid e)) (pars_at p e) e pt j)) * dt
  | _ => 0
  end
  + sm (regs o) (fun g => match g with L2Norm w => w * dt * 2 * scal p j | Integrated _ _ _ => 0 end).
Definition grad_scalar (o : objective) (h : history) (pr : proc) (p : pars) (j : nat) : R :=
  sm (seq 1 (nrec h - 1)) (fun t => grad_scalar_at o pr p (states h t) (times h t - times h (t - 1)) j).
