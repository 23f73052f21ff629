(** Which steps, times and step sizes the forward and the adjoint sweep of a run use:
    src/managers/solver/solverManager_solvers.hpp, transientSolver (lines 40-282), nonlinearSolver
    (lines 470-478), solverManager_models.hpp, adjointModel (lines 83-104),
    src/managers/postprocess/postprocessManager_util.hpp, record (lines 14-72) and
    postprocessManager_objective_gradient.hpp, computeObjectiveGradState (lines 952-970),
    computeSensitivities (lines 1509-1536).

    Simplified: one physics set, one stage; whether the nonlinear solver converged is an input, one
    entry per attempt; real numbers for times. *)
From Coq Require Import Bool Arith Lia ZArith Reals List.
Import ListNotations.
Local Open Scope R_scope.

(** A step taken: number of the dynamic parameters (updateDynamicParams), time it starts from and
    step size (updateStage). *)
Record tstep := { ts_par : nat; ts_from : R; ts_dt : R }.

(** [f_times]: times at which the solution was stored, in order; [f_steps]: accepted steps. *)
Record fwd := { f_time : R; f_dt : R; f_cuts : nat; f_steps : list tstep; f_times : list R }.

(** Lines 46-63: the initial state is recorded. *)
Definition fwd_start (t0 dt : R) : fwd :=
  {| f_time := t0; f_dt := dt; f_cuts := 0; f_steps := []; f_times := [t0] |}.

(** One attempt, lines 76-178. *)
Definition fwd_attempt (ok : bool) (s : fwd) : fwd :=
  if ok then
    {| f_time := f_time s + f_dt s; f_dt := f_dt s; f_cuts := f_cuts s;
       f_steps := f_steps s ++ [{| ts_par := length (f_steps s); ts_from := f_time s; ts_dt := f_dt s |}];
       f_times := f_times s ++ [f_time s + f_dt s] |}
  else
    {| f_time := f_time s; f_dt := f_dt s * (1 / 2); f_cuts := S (f_cuts s); f_steps := f_steps s; f_times := f_times s |}.

Section Forward.
Variable end_time : R.
Variable maxcuts : nat.

(** Line 75. *)
Definition fwd_continues (s : fwd) : bool :=
  (if Rlt_dec (f_time s) (end_time - end_time * / 1000000) then true else false) && Nat.leb (f_cuts s) maxcuts.

Fixpoint fwd_run (outcomes : list bool) (s : fwd) : fwd :=
  match outcomes with
  | [] => s
  | ok :: outcomes => if fwd_continues s then fwd_run outcomes (fwd_attempt ok s) else s
  end.
End Forward.

(** record: the objective is evaluated at step [k], time [t]; util.hpp 18-21 and 38. *)
Definition records (wf : nat) (start stop : R) (k : nat) (t : R) : bool :=
  Nat.eqb (k mod wf) 0 && (if Rle_dec start (t + / 10 ^ 100) then true else false)
    && (if Rle_dec (t - / 10 ^ 100) stop then true else false).

Definition number_times (ts : list R) : list (nat * R) := combine (seq 0 (length ts)) ts.

Definition objective_evaluations (wf : nat) (start stop : R) (ts : list R) : list (nat * R) :=
  filter (fun kt => records wf start stop (fst kt) (snd kt)) (number_times ts).

(** An adjoint step for forward step [k] = cindex, lines 226-276. *)
Record astep := {
  as_states : nat * nat;            (* indices of the forward solutions taken as u and u_prev *)
  as_step : tstep;                  (* updateDynamicParams, updateStage *)
  as_state_grad : option (nat * R); (* computeObjectiveGradState: index, time; None: not recorded *)
  as_param_grad : nat * R           (* computeObjectiveGradParam: index, time *)
}.

Definition adj_one (wf : nat) (ts : list R) (dt : R) (k : nat) : astep :=
  let t := nth (k - 1) ts 0 in
  {| as_states := (k, k - 1)%nat;
     as_step := {| ts_par := k - 1; ts_from := t; ts_dt := dt |};
     as_state_grad := if Nat.eqb (k mod wf) 0 then Some (k, t + dt) else None;
     as_param_grad := (k, t) |}.

(** The whole sweep: numFwdSteps = number of stored times - 1, from the last step to the first;
    the step size is the member deltat as the forward run left it. *)
Definition adj_run (wf : nat) (s : fwd) : list astep :=
  map (fun i => adj_one wf (f_times s) (f_dt s) (length (f_times s) - 1 - i)) (seq 0 (length (f_times s) - 1)).

Definition state_gradients (l : list astep) : list (nat * R) :=
  flat_map (fun a => match as_state_grad a with Some x => [x] | None => [] end) l.

(** Sensor data: the last time that agrees to 1e-12; computeObjective,
    postprocessManager_objectives.hpp 294-303, and computeObjectiveGradParam 543-552. *)
Definition sensor_index (sensor_times : list R) (t : R) : option nat :=
  fold_left (fun found kt => if Rlt_dec (Rabs (t - snd kt)) (/ 1000000000000) then Some (fst kt) else found)
    (number_times sensor_times) None.

(** Steady state: the value is recorded with (time, step) = (current_time, 0), line 29;
    computeSensitivities(sol, zero_vec, zero_vec, phi, 0, current_time, deltat, gradient) gives the
    parameter current_time the value 0 (and tindex the time), models.hpp 102. *)
Definition steady_value_time (current_time : R) : R := current_time.
Definition steady_sensitivity_time (current_time : R) : R := 0.
