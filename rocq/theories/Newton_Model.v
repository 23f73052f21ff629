(** Nonlinear solver: src/managers/solver/solverManager_solvers.hpp, nonlinearSolver
    (lines 290-643), forward branch and steady adjoint branch.
    Simplified: vectors are functions from unknowns to R; the assembled residual, its
    maximum norm and the linear solve are parameters; owned and overlapped copies are
    one vector; multiscale resets, timers and file output are left out. *)
From Coq Require Import Bool Arith ZArith Lia Reals Lra List.
Import ListNotations.
Local Open Scope R_scope.

Definition nvec := nat -> R.

(** Quotient of two nonnegative numbers in floating point: 0/0 is not a number and
    x/0 is infinite.  Comparisons with NaN are false. *)
Inductive quot := Fin (x : R) | Inf | NaN.
Definition quotient (a b : R) : quot :=
  if Req_EM_T b 0 then (if Req_EM_T a 0 then NaN else Inf) else Fin (a / b).
Definition q_gt (q : quot) (x : R) : bool :=
  match q with Fin a => if Rlt_dec x a then true else false | Inf => true | NaN => false end.
Definition q_lt (q : quot) (x : R) : bool :=
  match q with Fin a => if Rlt_dec a x then true else false | _ => false end.
Definition r_lt (a b : R) : bool := if Rlt_dec a b then true else false.

(** User settings (solverManager_construct.hpp lines 60-135). *)
Record nlopts := { nl_backtrack : bool; nl_rel : bool; nl_abs : bool; nl_tol : R; nl_abstol : R;
                   nl_max : Z; nl_rank : nat; nl_verbosity : Z }.

Record nlstate := { n_u : nvec; n_du : nvec; n_alpha : R; n_iter : nat; n_first : R }.

Section Forward.
Variable o : nlopts.
Variable resnorm : nvec -> R.            (* assembleRes + normInf, lines 371-389 *)
Variable linsolve : nat -> nvec -> nvec. (* assembleJacRes + linearSolver, lines 439-503 *)

(** The test of lines 425-437. *)
Definition stops (scaled : quot) (r : R) : bool :=
  if nl_rel o then q_lt scaled (nl_tol o) || r_lt r (/ 10 ^ 100)
  else nl_abs o && r_lt r (nl_abstol o).

(** One pass of the while loop, lines 334-611; the flag is [proceed]. *)
Definition nl_body (s : nlstate) : nlstate * bool :=
  let r := resnorm (n_u s) in
  let first := if Nat.eqb (n_iter s) 0 then r else n_first s in
  let scaled := if Nat.eqb (n_iter s) 0 then Fin 1 else quotient r first in
  let '(s', go) :=
    if nl_backtrack o && q_gt scaled (11 / 10) then
      let a := n_alpha s * (1 / 2) in
      ({| n_u := fun i => n_u s i - a * n_du s i; n_du := n_du s; n_alpha := a;
          n_iter := S (n_iter s); n_first := first |}, true)
    else if stops scaled r then
      ({| n_u := n_u s; n_du := n_du s; n_alpha := n_alpha s; n_iter := S (n_iter s); n_first := first |}, false)
    else
      let du := linsolve (n_iter s) (n_u s) in
      ({| n_u := fun i => n_u s i + 1 * du i; n_du := du; n_alpha := 1;
          n_iter := S (n_iter s); n_first := first |}, true) in
  (s', go && (Z.of_nat (n_iter s') <? nl_max o)%Z).

Fixpoint nl_loop (fuel : nat) (s : nlstate) : option nlstate :=
  match fuel with
  | O => None
  | S f => let '(s', go) := nl_body s in if go then nl_loop f s' else Some s'
  end.

(** Returned status, lines 627-638. *)
Definition nl_status (s : nlstate) : nat :=
  if Nat.eqb (nl_rank o) 0 && (nl_max o <? Z.of_nat (n_iter s))%Z && (1 <? nl_verbosity o)%Z then 1 else 0.

(** [du0] is whatever the stored update vector holds. *)
Definition nl_start (u du0 : nvec) : nlstate :=
  {| n_u := u; n_du := du0; n_alpha := 1; n_iter := 0; n_first := 10 * nl_tol o |}.
Definition nonlinear_solver (u du0 : nvec) : option (nvec * nat) :=
  option_map (fun s => (n_u s, nl_status s)) (nl_loop (S (Z.to_nat (nl_max o))) (nl_start u du0)).
End Forward.

(** *** Adjoint branch, lines 394-398, 438-441, 456-495, 511-520: one linear solve with
    the residual of the adjoint equation at the current approximation. *)
Section Adjoint.
Variable applyJ : nvec -> nvec.          (* J->apply, J assembled transposed *)
Variable solveJ : nvec -> nvec.          (* linear solver *)
Variable grad : nvec.                    (* computeObjectiveGradState *)
Variable prev_adjoints : list nvec.      (* previous_adjoints[i][i] *)
Definition adjoint_rhs (phi : nvec) : nvec :=
  fun i => fold_left (fun a v => a - v i) prev_adjoints (grad i - applyJ phi i).
Definition adjoint_solver (phi : nvec) : nvec :=
  let du := solveJ (adjoint_rhs phi) in fun i => phi i + 1 * du i.
End Adjoint.
