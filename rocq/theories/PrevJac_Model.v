(** Matrices of the transient adjoint: the derivatives with respect to the previous steps.
    /repo/src/interfaces/linear_algebra/linearAlgebraInterface_matrix.hpp (getNewMatrix, lines
    13-30; getNewPreviousMatrix, lines 80-128), linearAlgebraInterface_util.hpp (getJacobianReuse,
    getPrevJacobianReuse, lines 25-50; resetAllJacobian, resetPrevJacobian, lines 119-126, 180-186),
    linearSolverContext.hpp (reset, lines 85-91) and
    /repo/src/managers/solver/solverManager_solvers.hpp (nonlinearSolver, lines 342-352, 545-590).
    Simplified: a matrix is its value; a new matrix is [zero]; the option "reuse Jacobian" is one
    flag, as both kinds of context are made from the same settings; the number of previous steps
    does not change. *)
From Coq Require Import Bool Arith List.
Import ListNotations.

Section Contexts.
Variable M : Type.
Variable zero : M.
Variables (reuse : bool) (numsets numsteps : nat).

(** [main]: have_matrix of context[set]. [prev]: context_prev, empty until the first request; then
    for each previous step the flag and the matrix of each context. *)
Record state := { main : nat -> bool; prev : option (nat -> nat -> bool * M) }.
Definition start : state := {| main := fun _ => false; prev := None |}.

(** One iteration of the adjoint for [set]; [cur k]: the matrix that assembly would give for the
    previous step [k]. *)
Inductive op := Solve (set : nat) (cur : nat -> M) | Reset.

(** The loops of lines 89-106 push numsets contexts for each of numsets sets. *)
Definition contexts : nat := numsets * numsets.
(** getPrevJacobianReuse is called with the number of the set in place of the step (line 547);
    [None]: past the end of context_prev. *)
Definition prev_reuse (s : state) (step : nat) : option bool :=
  match prev s with
  | None => Some false
  | Some c => if step <? numsteps then Some (forallb (fun t => reuse && fst (c step t)) (seq 0 contexts)) else None
  end.
Definition allocated (s : state) : nat -> nat -> bool * M :=
  match prev s with Some c => c | None => fun _ _ => (false, zero) end.
(** getNewPreviousMatrix: the matrix handed out for a step. *)
Definition handed (s : state) (set k : nat) : M :=
  let c := allocated s k set in if reuse && fst c then snd c else zero.
(** The matrices the products are made with (line 588), and the new state. If the matrices are to be
    built they are set to zero, and assembled only if the Jacobian itself was built in this
    iteration (argument build_jacobian of line 563). *)
Definition solve (s : state) (set : nat) (cur : nat -> M) : option (state * list M) :=
  let build_jacobian := negb (reuse && main s set) in
  match prev_reuse s set with
  | None => None
  | Some r =>
    let mat k := if r then handed s set k else if build_jacobian then cur k else zero in
    Some ({| main := fun t => if t =? set then reuse || main s t else main s t;
             prev := Some (fun k t => if (t =? set) && (k <? numsteps) && reuse then (true, mat k) else allocated s k t) |},
          map mat (seq 0 numsteps))
  end.
Definition reset (s : state) : state :=
  {| main := fun _ => false; prev := option_map (fun _ => fun _ _ => (false, zero)) (prev s) |}.
(** The matrices of each solve of a run; [None]: memory not owned is read. *)
Fixpoint run (s : state) (os : list op) : option (list (list M)) :=
  match os with
  | [] => Some []
  | Reset :: r => run (reset s) r
  | Solve set cur :: r =>
    match solve s set cur with
    | None => None
    | Some (s', l) => option_map (cons l) (run s' r)
    end
  end.
End Contexts.
Arguments Solve {M}. Arguments Reset {M}. Arguments main {M}. Arguments prev {M}. Arguments start {M}. Arguments allocated {M}.
