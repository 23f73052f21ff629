(** Transient adjoint and gradient:
    src/managers/solver/solverManager_solvers.hpp, transientSolver, adjoint branch (lines
    188-282), nonlinearSolver, adjoint branch (lines 464-577), and
    src/managers/postprocess/postprocessManager_objective_gradient.hpp,
    computeSensitivities, scalar parameters (lines 1510-1620).
    Simplified: one process; scalar parameters; the linearisations of the discrete
    equations and of the objective at each forward step are parameters (n = 1..N), among
    them the matrices assembled in adjoint mode (Assembly_Model.v, [Stored true]); the
    linear solver is a parameter. *)
From Coq Require Import Bool Arith Lia Reals Lra List.
From Verif Require Import Newton_Model PCG_Model.
Import ListNotations.
Local Open Scope R_scope.

Section Adjoint.
Variable n : nat.                       (* number of unknowns *)
Variable JA KA : nat -> nat -> nat -> R. (* step: adjoint-mode matrices for u_n and for u_(n-1) *)
Variable P : nat -> nat -> nvec.        (* step, parameter: d residual / d parameter *)
Variable g : nat -> nvec.               (* step: d objective / d u_n *)
Variable h : nat -> nat -> R.           (* step, parameter: explicit d objective / d parameter *)
Variable solveT : nat -> nvec -> nvec.  (* step: solve with JA *)

Definition transp (A : nat -> nat -> R) : nat -> nat -> R := fun i j => A j i.

Record adj := { a_phi : nvec; a_store : list (list nvec); a_grad : nat -> R }.

(** previous_adjoints: numsteps rows of one zero vector per set, lines 204-223. *)
Definition adj_init (numsteps numsets : nat) (phi : nvec) : adj :=
  {| a_phi := phi; a_store := repeat (repeat (fun _ => 0) numsets) numsteps; a_grad := fun _ => 0 |}.

(** previous_adjoints[i][i] for every i; None when out of range. *)
Fixpoint diagonal (i : nat) (rows : list (list nvec)) : option (list nvec) :=
  match rows with
  | [] => Some []
  | r :: rows => match nth_error r i, diagonal (S i) rows with Some v, Some l => Some (v :: l) | _, _ => None end
  end.

Definition put00 (rows : list (list nvec)) (v : nvec) : option (list (list nvec)) :=
  match rows with (_ :: r) :: rows => Some ((v :: r) :: rows) | _ => None end.

(** One adjoint step at forward step m, lines 230-278. *)
Definition adj_step (m : nat) (s : adj) : option adj :=
  match diagonal 0 (a_store s) with
  | None => None
  | Some prev =>
      (* computeObjectiveGradState adds minus the gradient *)
      let phi := adjoint_solver (apply n (JA m)) (solveT m) (fun i => - g m i) prev (a_phi s) in
      match put00 (a_store s) (apply n (KA m) phi) with
      | None => None
      | Some store =>
          (* res holds minus d residual / d parameter (scatter) *)
          let sens p := - vsum n (fun i => phi i * - P m p i) in
          Some {| a_phi := phi; a_store := store; a_grad := fun p => a_grad s p + (sens p + h m p) |}
      end
  end.

(** Steps N, N-1, ..., 1. *)
Fixpoint adj_loop (N : nat) (s : adj) : option adj :=
  match N with
  | O => Some s
  | S m => match adj_step (S m) s with Some s' => adj_loop m s' | None => None end
  end.
End Adjoint.
