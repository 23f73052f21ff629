(** Model of the forward time loop.

    Source: /repo/src/managers/solver/solverManager_solvers.hpp
      40-190   transientSolver (forward branch)
      649-805  explicitSolver with lumped mass
    /repo/src/managers/solver/solverManager_construct.hpp 209-224 (initial schemes)
    /repo/src/managers/solver/solverManager_setup.hpp 413-437, 500-527
    /repo/src/managers/solver/solverManager_util.hpp 60-141 setDirichlet
    /repo/src/managers/assembly/assemblyManager_workset.hpp updateStage (stage time)

    Vectors are functions from the (overlapped) index to reals; time is real.  The
    stage solver is an arbitrary function ([solve]); it also receives the number of the
    attempt so that it may behave differently on a retry.  Output and the multiscale
    manager are not modelled. *)
From Coq Require Import Bool Arith Lia Reals Lra List.
From Verif Require Import Sparse_Model Tableau_Model.
Import ListNotations.
Local Open Scope R_scope.

Definition vec := nat -> R.
Definition vzero : vec := fun _ => 0.

(** Options of a physics set, solverManager_construct.hpp:141-196. *)
Record options := { o_tab : tab; o_bdf : nat; o_stab : tab; o_sbdf : nat; o_ssteps : nat }.

(** Scheme in use: weights, tableau, number of stages, largest numbers so far. *)
Record scheme := { s_wts : list R; s_tab : tab; s_maxsteps : nat; s_numstages : nat; s_maxstages : nat }.

(** setBackwardDifference (isTransient): the number of steps is extent-1, compared as int. *)
Definition set_bdf (order : nat) (s : scheme) : scheme :=
  {| s_wts := bdf order; s_tab := s_tab s; s_maxsteps := Nat.max (s_maxsteps s) (length (bdf order) - 1);
     s_numstages := s_numstages s; s_maxstages := s_maxstages s |}.
(** setButcherTableau: maxnumstages = max(numstages, new), lines 417-420. *)
Definition set_tab (t : tab) (s : scheme) : scheme :=
  {| s_wts := s_wts s; s_tab := t; s_maxsteps := s_maxsteps s;
     s_numstages := length (tA t); s_maxstages := Nat.max (s_numstages s) (length (tA t)) |}.

(** solverManager_construct.hpp:209-224 *)
Definition initial_scheme (o : options) : scheme :=
  let s0 := {| s_wts := []; s_tab := bwe; s_maxsteps := 0; s_numstages := 0; s_maxstages := 0 |} in
  let s1 := set_tab (o_tab o) (set_bdf (o_bdf o) s0) in
  if Nat.ltb 1 (o_bdf o) then set_tab (o_stab o) (set_bdf (o_sbdf o) s1) else s1.

(** State of a set: scheme, solution, history (sol_prev). *)
Record sset := { x_scheme : scheme; x_sol : vec; x_prev : list vec }.

Record tstate := { t_time : R; t_dt : R; t_cuts : nat; t_step : nat; t_attempt : nat; t_sets : list sset }.

Section Loop.
Variable opts : list options.
(** Prescribed values of a set at a time (setDirichlet); None for free unknowns. *)
Variable dbc : nat -> R -> nat -> option R.
(** attempt, set, stage, stage time, dt, scheme, solutions of all sets, stage solutions,
    history of the set; returns the stage solution and the status. *)
Variable solve : nat -> nat -> nat -> R -> R -> scheme -> list vec -> list vec -> list vec -> vec * nat.
Variable maxcuts : nat.
Variable end_time : R.

Definition set_dirichlet (set : nat) (time : R) (u : vec) : vec :=
  fun i => match dbc set time i with Some g => g | None => u i end.

Fixpoint upd {A} (l : list A) (n : nat) (x : A) : list A :=
  match l, n with
  | [], _ => []
  | _ :: l, O => x :: l
  | y :: l, S n => y :: upd l n x
  end.

(** One stage, lines 124-155.  With one stage the stage solution is the solution. *)
Definition do_stage (attempt set stage : nat) (time dt : R) (sch : scheme) (prev : list vec)
    (acc : list vec * list vec * nat) : list vec * list vec * nat :=
  let '(sols, stages, status) := acc in
  let ts := time + ci (s_tab sch) stage * dt in
  if Nat.eqb (s_maxstages sch) 1 then
    let u := set_dirichlet set ts (nth set sols vzero) in
    let sols1 := upd sols set u in
    let '(v, st) := solve attempt set stage ts dt sch sols1 [u] prev in
    (upd sols1 set v, [v], (status + st)%nat)
  else
    let u := set_dirichlet set ts (nth stage stages vzero) in
    let stages1 := upd stages stage u in
    let '(v, st) := solve attempt set stage ts dt sch sols stages1 prev in
    let stages2 := upd stages1 stage v in
    (* sol += stage; sol -= prev[0] *)
    let w := nth set sols vzero in
    (upd sols set (fun i => w i + v i - nth 0 prev vzero i), stages2, (status + st)%nat).

(** One set, lines 87-156.  An empty history (no valid BDF order) is read out of bounds
    by the code; the theorems assume that it is not empty. *)
Definition do_set (attempt step : nat) (time dt : R) (acc : list sset * nat) (set : nat) : list sset * nat :=
  let '(xs, status) := acc in
  match nth_error xs set, nth_error opts set with
  | Some x, Some o =>
      let sch := if Nat.ltb 1 (o_bdf o) && Nat.eqb step (o_ssteps o)
                 then set_tab (o_tab o) (set_bdf (o_bdf o) (x_scheme x)) else x_scheme x in
      let prev := match x_prev x with [] => [] | _ => x_sol x :: removelast (x_prev x) end in
      let '(sols, _, st) :=
        fold_left (fun acc stage => do_stage attempt set stage time dt sch prev acc)
          (seq 0 (s_numstages sch))
          (map x_sol xs, repeat (x_sol x) (s_maxstages sch), 0%nat) in
      (upd xs set {| x_scheme := sch; x_sol := nth set sols vzero; x_prev := prev |}, (status + st)%nat)
  | _, _ => (xs, status)
  end.

(** One pass of the while loop, lines 76-183. *)
Definition attempt (st : tstate) : tstate :=
  let '(xs, status) := fold_left (do_set (t_attempt st) (t_step st) (t_time st) (t_dt st))
                         (seq 0 (length (t_sets st))) (t_sets st, 0%nat) in
  if Nat.eqb status 0 then
    {| t_time := t_time st + t_dt st; t_dt := t_dt st; t_cuts := t_cuts st; t_step := S (t_step st);
       t_attempt := S (t_attempt st); t_sets := xs |}
  else
    {| t_time := t_time st; t_dt := t_dt st * (1 / 2); t_cuts := S (t_cuts st); t_step := t_step st;
       t_attempt := S (t_attempt st);
       t_sets := map (fun x => {| x_scheme := x_scheme x; x_sol := nth 0 (x_prev x) vzero; x_prev := x_prev x |}) xs |}.

Definition timetol : R := end_time * / 1000000.
(** The loop condition, line 76. *)
Definition continues (st : tstate) : bool :=
  (if Rlt_dec (t_time st) (end_time - timetol) then true else false) && Nat.leb (t_cuts st) maxcuts.

(** [n] passes at most; None if the loop has not ended. *)
Fixpoint run (n : nat) (st : tstate) : option tstate :=
  if continues st then match n with O => None | S n => run n (attempt st) end else Some st.

(** Start: history of zeros, lines 62-71. *)
Definition start (time dt : R) (initial : list vec) : tstate :=
  {| t_time := time; t_dt := dt; t_cuts := 0; t_step := 0; t_attempt := 0;
     t_sets := map (fun ou => let sch := initial_scheme (fst ou) in
        {| x_scheme := sch; x_sol := set_dirichlet (snd (snd ou)) time (fst (snd ou));
           x_prev := repeat vzero (s_maxsteps sch) |})
        (combine opts (combine initial (seq 0 (length initial)))) |}.
End Loop.

(** *** Explicit solver with lumped mass, lines 649-805 *)
Section Explicit.
(** Assembled residual: set, stage time, state and time derivative presented. *)
Variable res : nat -> R -> vec -> vec -> vec.
Variable mass : nat -> vec.               (* diagMass *)
Variable norm2 : vec -> R.
Variable dbc : nat -> R -> nat -> option R.

Definition explicit_solver (attempt set stage : nat) (ts dt : R) (sch : scheme)
    (sols stages prev : list vec) : vec * nat :=
  (* setDirichlet(set, sol_stage[stage]), line 672 *)
  let u0 := nth (if Nat.eqb (s_maxstages sch) 1 then 0 else stage) stages vzero in
  let u := fun i => match dbc set ts i with Some g => g | None => u0 i end in
  let stg := fun s i => nth s stages vzero i in
  let state := fun i => state_of scalars (s_tab sch) stage (nth 0 prev vzero i) (fun s => stg s i) (u i) in
  let dot := fun i => dot_of scalars (s_tab sch) (s_wts sch) dt stage (fun s => nth s prev vzero i) (u i) in
  let r := res set ts state dot in
  if Rlt_dec (/ 10 ^ 100) (norm2 r) then
    (fun i => u i + dt * bi (s_tab sch) stage * r i / mass set i, 0%nat)
  else (u, 0%nat).
End Explicit.
