(** Preconditioned conjugate gradients: src/managers/solver/solverManager_solvers.hpp,
    PCG (lines 812-901) and matrixFreePCG (lines 907-1029), and
    src/optimization/MrHyDE_OptVector.hpp, PCG (lines 1490-1571), the same algorithm.
    Simplified: exact real arithmetic; one vector for the owned and overlapped copies;
    the matrix is an n by n array (for the matrix-free version, the matrix of the
    operator). *)
From Coq Require Import Bool Arith ZArith Lia Reals Lra List.
From Verif Require Import Newton_Model.
Import ListNotations.
Local Open Scope R_scope.

Section PCG.
Variable n : nat.
Variable A : nat -> nat -> R.    (* J *)
Variable M : nat -> R.           (* diagonal preconditioner *)
Variable b : nvec.

Definition vsum (f : nat -> R) : R := fold_right Rplus 0 (map f (seq 0 n)).
Definition dotp (u v : nvec) : R := vsum (fun i => u i * v i).
Definition apply (u : nvec) : nvec := fun i => vsum (fun j => A i j * u j).
Definition norm2 (u : nvec) : R := sqrt (dotp u u).

Record cg := { c_x : nvec; c_r : nvec; c_p : nvec; c_rho : R; c_iter : nat }.

(** Lines 841-854 *)
Definition cg_init (x : nvec) : cg :=
  {| c_x := x; c_r := fun i => b i - apply x i; c_p := fun _ => 0; c_rho := 1; c_iter := 0 |}.

(** One pass, lines 862-894 *)
Definition cg_body (s : cg) : cg :=
  let z := fun i => c_r s i / M i in
  let rho1 := c_rho s in
  let rho := dotp (c_r s) z in
  let p := if Nat.eqb (c_iter s) 0 then z else fun i => 1 * z i + rho / rho1 * c_p s i in
  let q := apply p in
  let alpha := rho / dotp p q in
  {| c_x := fun i => alpha * p i + 1 * c_x s i; c_r := fun i => - (1) * alpha * q i + 1 * c_r s i;
     c_p := p; c_rho := rho; c_iter := S (c_iter s) |}.

(** The loop, line 860.  [k] is the number of passes still allowed. *)
Fixpoint cg_loop (r0 tol : R) (k : nat) (s : cg) : cg :=
  match k with
  | O => s
  | S k => if q_gt (quotient (norm2 (c_r s)) r0) tol then cg_loop r0 tol k (cg_body s) else s
  end.
Definition pcg (tol : R) (maxiter : Z) (x : nvec) : cg :=
  cg_loop (norm2 (c_r (cg_init x))) tol (Z.to_nat maxiter) (cg_init x).
End PCG.
