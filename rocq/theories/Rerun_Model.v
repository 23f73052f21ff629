(** Repeated forward runs of one solver: src/managers/solver/solverManager_models.hpp
    (forwardModel, lines 15-62), solverManager_util.hpp (setDirichlet, lines 60-141;
    setInitial, lines 158-320), solverManager_solvers.hpp (transientSolver, lines 40-190)
    and the members of the solver that live on between runs: deltat (line 169), the
    schemes (lines 93-97), have_static_Dirichlet_data with fixedDOF_soln, and
    restart_solution, which is not copied (setInitial line 169, transientSolver line 53).
    Simplified: transient runs; a run is the time loop of Transient_Model with its stage
    solver given the parameters; output is left out. *)
From Coq Require Import Bool Arith Lia Reals Lra List.
From Verif Require Import Sparse_Model Tableau_Model Transient_Model.
Import ListNotations.
Local Open Scope R_scope.

(** Dirichlet data of a set: constant, "static data" (the default), or evaluated at each use. *)
Inductive dkind := Scalar (v : R) | Static | Moving.

Record psolver := { v_dt : R; v_schemes : list scheme; v_bc : list (option vec); v_restart : list vec }.

Section Rerun.
Context {X : Type}.                                  (* parameters *)
Variable opts : list options.
Variable kinds : list dkind.
Variable fixed : nat -> nat -> bool.                 (* set, unknown *)
Variable proj : nat -> X -> R -> vec.                (* projected data: set, parameters, time *)
Variable solve : X -> nat -> nat -> nat -> R -> R -> scheme -> list vec -> list vec -> list vec -> vec * nat.
Variable init : X -> list vec.
Variable use_restart : bool.
Variable maxcuts : nat.
Variable t0 end_time : R.

(** The time loop with postproc->record. *)
Fixpoint trace (dbc : nat -> R -> nat -> option R) (x : X) (n : nat) (st : tstate) : option (tstate * list (R * list vec)) :=
  if continues maxcuts end_time st then
    match n with
    | O => None
    | S n =>
      let st' := attempt opts dbc (solve x) st in
      match trace dbc x n st' with
      | None => None
      | Some (f, l) => Some (f, (if Nat.eqb (t_step st') (t_step st) then [] else [(t_time st', map x_sol (t_sets st'))]) ++ l)
      end
    end
  else Some (st, []).

(** forwardModel lines 27-38. *)
Definition static_data (x : X) (p : psolver) : list (option vec) :=
  map (fun e => match snd (snd e) with
                | Static => match fst (snd e) with Some v => Some v | None => Some (proj (fst e) x t0) end
                | _ => fst (snd e)
                end) (combine (seq 0 (length kinds)) (combine (v_bc p) kinds)).

Definition dirichlet (x : X) (bc : list (option vec)) : nat -> R -> nat -> option R :=
  fun set t i => if fixed set i then
    Some (match nth set kinds Static with
          | Scalar v => v
          | Static => match nth set bc None with Some v => v i | None => 0 end
          | Moving => proj set x t i
          end) else None.

Definition begin (x : X) (dbc : nat -> R -> nat -> option R) (p : psolver) : tstate :=
  let initial := if use_restart then v_restart p else init x in
  {| t_time := t0; t_dt := v_dt p; t_cuts := 0; t_step := 0; t_attempt := 0;
     t_sets := map (fun e => {| x_scheme := fst e; x_sol := set_dirichlet dbc (snd (snd e)) t0 (fst (snd e));
                                x_prev := repeat vzero (s_maxsteps (fst e)) |})
                   (combine (v_schemes p) (combine initial (seq 0 (length initial)))) |}.

Definition forward (n : nat) (x : X) (p : psolver) : option (list (R * list vec) * psolver) :=
  let bc := static_data x p in
  let dbc := dirichlet x bc in
  let st := begin x dbc p in
  match trace dbc x n st with
  | None => None
  | Some (f, l) => Some ((t0, map x_sol (t_sets st)) :: l,
      {| v_dt := t_dt f; v_schemes := map x_scheme (t_sets f); v_bc := bc;
         v_restart := if use_restart then map x_sol (t_sets f) else v_restart p |})
  end.

(** A new solver. *)
Definition fresh (dt : R) (restart : list vec) : psolver :=
  {| v_dt := dt; v_schemes := map initial_scheme opts; v_bc := map (fun _ => None) kinds; v_restart := restart |}.

Fixpoint forwards (n : nat) (xs : list X) (p : psolver) : option psolver :=
  match xs with [] => Some p | x :: xs => match forward n x p with Some (_, p') => forwards n xs p' | None => None end end.
End Rerun.
