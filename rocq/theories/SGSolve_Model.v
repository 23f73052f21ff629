(** Model of the solver of the subgrid problems: local time stepping, Newton's method, the
    derivative with respect to the coarse unknowns, interpolation of the coarse solution in time,
    the flux handed back, and the bookkeeping when the coarse step advances.

    Source:
      /repo/src/subgrid/subgridDtN_solver.cpp
        136-555 solve, 564-632 lagrangeInterpolate, 903-1042 nonlinearSolver,
        1070-1388 forwardSensitivityPropagation, 1536-1616 updateFlux
      /repo/src/subgrid/subgridDtN.cpp
        985-1116 subgridSolver, 2026-2063 advance, advanceStage, getPreviousTime
      /repo/src/tools/group.cpp
        444-478 resetPrevSoln, 510-533 resetStageSoln, 539-562 updateStageSoln
      /repo/src/managers/solver/solverManager_solvers.hpp
        78-183 the coarse time loop, as far as it calls the multiscale manager

    Simplifications: one macro group, one process for the subgrid problem, one column of the
    derivatives (one coarse unknown) at a time; the assembled residual and its derivatives are
    arguments, the linear solver is a function of the operator; reals instead of floating point. *)
From Coq Require Import Bool Reals List Arith Lia Lra.
From Verif Require Import Tableau_Model.
Import ListNotations.
Local Open Scope R_scope.

Definition gvec := nat -> R.
Definition gv0 : gvec := fun _ => 0.
Definition gset {A} (l : list A) (n : nat) (x : A) : list A := firstn n l ++ match skipn n l with nil => nil | _ :: r => x :: r end.

(** What the physics sees: stage time, stage, local step, coarse values, earlier steps, stages. *)
Record gctx := { x_time : R; x_stage : nat; x_dt : R; x_lam : gvec; x_hist : list gvec; x_stg : list gvec }.
(** Assembled residual and its derivatives in a direction: with respect to the unknowns (seed 1),
    the coarse values (4), an earlier step (2) and an earlier stage (3). *)
Record gproblem := {
  p_res : gctx -> gvec -> gvec;
  p_ju : gctx -> gvec -> gvec -> gvec;
  p_jl : gctx -> gvec -> gvec -> gvec;
  p_jp : gctx -> gvec -> nat -> gvec -> gvec;
  p_js : gctx -> gvec -> nat -> gvec -> gvec }.

Section Solver.
Variable norm : gvec -> R.                       (* normInf *)
Variable lsolve : (gvec -> gvec) -> gvec -> gvec. (* linear solver *)
Variable tol : R.
Variable maxit : nat.
Variable direct : bool.                          (* "use direct solver" *)
Variable p : gproblem.

(** nonlinearSolver, 936-1032.  Returns the solution, the operator factored last and the operator
    assembled last; scaled, r0, iter: resnorm_scaled, resnorm_initial, iter. *)
Fixpoint g_iter (fuel : nat) (c : gctx) (scaled r0 : R) (iter : nat) (u : gvec) (fact asm : gvec -> gvec)
  : gvec * (gvec -> gvec) * (gvec -> gvec) :=
  match fuel with
  | O => (u, fact, asm)
  | S k =>
      if Rlt_dec tol scaled then
        let op := p_ju p c u in
        let r := fun i => - p_res p c u i in
        let r0' := if Nat.eqb iter 0 then norm r else r0 in
        let sc := if Nat.eqb iter 0 then (if Rlt_dec 0 (norm r) then 1 else 0) else norm r / r0 in
        if Rlt_dec tol sc then
          let du := lsolve op r in
          g_iter k c sc r0' (S iter) (fun i => u i + du i) op op
        else g_iter k c sc r0' (S iter) u fact op
      else (u, fact, asm)
  end.
Definition g_newton (c : gctx) (u : gvec) (fact : gvec -> gvec) : gvec * (gvec -> gvec) * (gvec -> gvec) :=
  g_iter maxit c (10 * tol) (10 * tol) 0 u fact fact.

Definition gsum (n : nat) (f : nat -> R) : R := fold_right (fun k a => f k + a) 0 (seq 0 n).

(** forwardSensitivityPropagation, 1255-1356, one column: e is the direction in the coarse values,
    scale is lambda_scale; dp, ds: derivatives of the earlier steps and stages. *)
Definition g_sens (c : gctx) (u : gvec) (op : gvec -> gvec) (scale : R) (e : gvec) (dp ds : list gvec) : gvec :=
  lsolve op (fun i => - scale * p_jl p c u e i
                      - gsum (length dp) (fun q => p_jp p c u q (nth q dp gv0) i)
                      - gsum (x_stage c) (fun s => p_js p c u s (nth s ds gv0) i)).

(* ---------------------------------------------------------------- local time stepping *)

(** cur: curr_sol; tmp: prev_sol_tmp; hist, stg: sol_prev and sol_stage of the groups; d: d_sol;
    dp, ds: d_sol_prev_saved, d_sol_stage_saved; fact: the factorisation held by the solver. *)
Record gstate := { s_cur : gvec; s_tmp : gvec; s_hist : list gvec; s_stg : list gvec;
                   s_d : gvec; s_dp : list gvec; s_ds : list gvec; s_fact : gvec -> gvec }.

Variable T : tab.                                (* tableau of the subgrid integrator *)
(** Coarse values at a time and their derivative with respect to the current ones. *)
Variable lam_at : R -> gvec * R.
Variable mbeta : R.                              (* macro_beta, 344 *)
Variable e : gvec.

(** One stage, 380-417. *)
Definition g_stage (t dt : R) (x : gstate) (s : nat) : gstate :=
  let ts := t + ci T s * dt in
  let lb := lam_at ts in
  let c := {| x_time := ts; x_stage := s; x_dt := dt; x_lam := fst lb; x_hist := s_hist x; x_stg := s_stg x |} in
  let '(u, fact, asm) := g_newton c (s_tmp x) (s_fact x) in
  let dv := g_sens c u (if direct then fact else asm) (snd lb * mbeta) e (s_dp x) (s_ds x) in
  {| s_cur := fun i => s_cur x i + u i - s_tmp x i; s_tmp := s_tmp x; s_hist := s_hist x; s_stg := gset (s_stg x) s u;
     s_d := fun i => s_d x i + dv i - nth 0 (s_dp x) gv0 i; s_dp := s_dp x; s_ds := gset (s_ds x) s dv; s_fact := fact |}.
(** One local step, 354-484. *)
Definition g_step (x : gstate) (tdt : R * R) : gstate :=
  let y := fold_left (g_stage (fst tdt) (snd tdt)) (seq 0 (nst T)) x in
  {| s_cur := s_cur y; s_tmp := s_cur y; s_hist := s_cur y :: removelast (s_hist y); s_stg := repeat (s_cur y) (length (s_stg y));
     s_d := s_d y; s_dp := gset (s_dp y) 0 (s_d y); s_ds := s_ds y; s_fact := s_fact y |}.
(** The beginning times of the local steps, 217, 339, 484. *)
Fixpoint g_times (t dt : R) (n : nat) : list (R * R) :=
  match n with O => nil | S k => (t, dt) :: g_times (t + dt) dt k end.
(** Set-up of a transient solve without synchronous stepping, 207-212, 318-336. *)
Definition g_start (prev : gvec) (x : gstate) : gstate :=
  {| s_cur := prev; s_tmp := prev; s_hist := prev :: removelast (s_hist x); s_stg := repeat prev (length (s_stg x));
     s_d := gv0; s_dp := gset (s_dp x) 0 gv0; s_ds := s_ds x; s_fact := s_fact x |}.
(** All of them; ptime: previous_time, time: the coarse (stage) time. *)
Definition g_solve (n : nat) (ptime time : R) (prev : gvec) (x : gstate) : gstate :=
  fold_left g_step (g_times ptime ((time - ptime) / INR n) n) (g_start prev x).
End Solver.

(* ---------------------------------------------------------------- coarse values in time *)

(** coarse_times and lagrangeInterpolate, 363-373, 564-632: hist holds the earlier coarse values,
    latest first.  With any other number of them nothing is computed. *)
Definition g_interp (hist : list gvec) (cur : gvec) (ptime dt : R) (t : R) : gvec * R :=
  match hist with
  | [h0] =>
      let t1 := ptime in let t0 := ptime + dt in
      let a1 := (t0 - t) / (t0 - t1) in let a := (t - t1) / (t0 - t1) in
      (fun i => a1 * h0 i + a * cur i, a)
  | [h0; h1] =>
      let t2 := ptime - dt in let t1 := ptime in let t0 := ptime + dt in
      let d0 := t0 - t1 in let d1 := t1 - t2 in
      let a1 := ((t - t2) * (t0 - t)) / (d0 * d1) in
      let a2 := - 1 * ((t0 - t) * (t - t1)) / (2 * d0 * d1) in
      let a := ((t - t2) * (t - t1)) / (2 * d0 * d1) in
      (fun i => a1 * h0 i + a2 * h1 i + a * cur i, a)
  | _ => (gv0, 1)
  end.

(* ---------------------------------------------------------------- coarse steps *)

(** previous_time, current_time, prev_soln, curr_soln of a macro group. *)
Record gclock := { k_prev : R; k_cur : R; k_psol : gvec; k_csol : gvec; k_stage : gvec }.
(** subgridSolver at a coarse stage: not synchronous 318-336, 403 (the result replaces curr_soln),
    or synchronous 302-316 (the result is the stage solution). *)
Definition g_visit (sync : bool) (run : R -> R -> gvec -> gvec) (first : bool) (time : R) (k : gclock) : gclock :=
  let c := if first then k_psol k else k_csol k in
  if sync then {| k_prev := k_prev k; k_cur := time; k_psol := k_psol k; k_csol := c; k_stage := run (k_prev k) time (k_psol k) |}
  else {| k_prev := k_prev k; k_cur := time; k_psol := k_psol k; k_csol := run (k_prev k) time (k_psol k); k_stage := k_stage k |}.
(** advanceStage, 2038-2051. *)
Definition g_advance_stage (sync : bool) (k : gclock) : gclock :=
  if sync then {| k_prev := k_prev k; k_cur := k_cur k; k_psol := k_psol k;
                  k_csol := fun i => k_csol k i + k_stage k i - k_psol k i; k_stage := k_stage k |}
  else {| k_prev := k_cur k; k_cur := k_cur k; k_psol := k_csol k; k_csol := k_csol k; k_stage := k_stage k |}.
(** advance, 2026-2032. *)
Definition g_advance (k : gclock) : gclock :=
  {| k_prev := k_cur k; k_cur := k_cur k; k_psol := k_csol k; k_csol := k_csol k; k_stage := k_stage k |}.
(** The stages of a coarse step from t with step dt: the subgrid problem is visited (the number of
    coarse Newton iterations) times, then told that the stage is over (solverManager 123-156). *)
Definition g_coarse_stage (sync : bool) (run : R -> R -> gvec -> gvec) (tc0 : nat -> R) (t dt : R) (visits : nat -> nat)
  (k : gclock) (s : nat) : gclock :=
  g_advance_stage sync (Nat.iter (visits s) (g_visit sync run (Nat.eqb s 0) (t + tc0 s * dt)) k).
Definition g_coarse_step (sync : bool) (run : R -> R -> gvec -> gvec) (T : tab) (t dt : R) (visits : nat -> nat)
  (accepted : bool) (k : gclock) : gclock :=
  let k1 := fold_left (g_coarse_stage sync run (ci T) t dt visits) (seq 0 (nst T)) k in
  if accepted then g_advance k1 else k1.

(* ---------------------------------------------------------------- flux *)

(** updateFlux, 1586-1606: points of the boundary groups with their macro element, variable, flux
    and weight; basis j of variable n has the value basis n j at the point, and row off n j. *)
Record gpoint := { q_elem : nat; q_flux : nat -> R; q_wt : R; q_basis : nat -> nat -> R }.
Fixpoint g_add (off : nat -> nat -> nat) (q : gpoint) (pairs : list (nat * nat)) (res : nat -> nat -> R) : nat -> nat -> R :=
  match pairs with
  | nil => res
  | (n, j) :: r =>
      g_add off q r (fun m k => if Nat.eqb m (q_elem q) && Nat.eqb k (off n j) then res m k + q_basis q n j * q_flux q n * q_wt q else res m k)
  end.
Definition g_pairs (nvars : nat) (card : nat -> nat) : list (nat * nat) :=
  flat_map (fun n => map (fun j => (n, j)) (seq 0 (card n))) (seq 0 nvars).
(** macrowkset.reset() first, 1556. *)
Definition g_flux (off : nat -> nat -> nat) (nvars : nat) (card : nat -> nat) (pts : list gpoint) : nat -> nat -> R :=
  fold_left (fun res q => g_add off q (g_pairs nvars card) res) pts (fun _ _ => 0).
(** "time average flux", 463-476, 486-495: the mean of the fluxes computed after every local step;
    every one of them with the coarse values and the time of the end (464, 1579). *)
Definition g_average (flux : R -> gvec -> gvec -> R) (time : R) (lam : gvec) (us : list gvec) : R :=
  fold_left (fun a u => a + flux time lam u / INR (length us)) us 0.
