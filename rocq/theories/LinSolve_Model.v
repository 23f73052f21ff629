(** What a linear system is solved with: src/interfaces/linear_algebra/
    linearAlgebraInterface_solvers.hpp, linearSolver (lines 13-155), buildAMGPreconditioner as a
    parameter, and linearSolverContext.hpp (members, reset).

    A matrix has values and a sparsity pattern ([pat]).  Amesos2, Belos, Ifpack2 and MueLu are not
    modelled: a solve is described by the data handed to them.  Not modelled: the choice of the
    Belos method and its parameters (LinAlg_Model.v). *)
From Coq Require Import Bool Arith List.
Import ListNotations.

Inductive ptype := Schwarz | Ifpack | AMG.

Section LinSolve.
Variable M P V : Type.   (* matrices, patterns, vectors *)
Variable pat : M -> P.

Record solver_ctx := {
  use_direct : bool; use_prec : bool; prec_type : ptype; reuse_prec : bool;   (* options *)
  symb : option P;           (* have_symb_factor: pattern of the symbolic factorization *)
  have_prec : bool;
  prec : option M;           (* MueLu operator, by the matrix its values come from *)
  prec_dd : option M         (* Ifpack2 operator *)
}.

(** What the libraries are given. *)
Inductive solved :=
| Direct (factors_of : M) (symbolic : P) (rhs : V)
| Iterative (operator : M) (preconditioner : option M) (rhs : V).

Definition with_symb (c : solver_ctx) (p : P) : solver_ctx :=
  {| use_direct := use_direct c; use_prec := use_prec c; prec_type := prec_type c; reuse_prec := reuse_prec c;
     symb := Some p; have_prec := have_prec c; prec := prec c; prec_dd := prec_dd c |}.
Definition with_prec (c : solver_ctx) (m : M) : solver_ctx :=
  {| use_direct := use_direct c; use_prec := use_prec c; prec_type := prec_type c; reuse_prec := reuse_prec c;
     symb := symb c; have_prec := true; prec := Some m; prec_dd := prec_dd c |}.
Definition with_prec_dd (c : solver_ctx) (m : M) : solver_ctx :=
  {| use_direct := use_direct c; use_prec := use_prec c; prec_type := prec_type c; reuse_prec := reuse_prec c;
     symb := symb c; have_prec := true; prec := prec c; prec_dd := Some m |}.

(** reset: the symbolic factorization is kept. *)
Definition ctx_reset (c : solver_ctx) : solver_ctx :=
  {| use_direct := use_direct c; use_prec := use_prec c; prec_type := prec_type c; reuse_prec := reuse_prec c;
     symb := symb c; have_prec := false; prec := None; prec_dd := None |}.

(** Lines 19-28: create and factorize symbolically once; then new values and right-hand side. *)
Definition solve_direct (c : solver_ctx) (J : M) (r : V) : solver_ctx * solved :=
  match symb c with
  | Some p => (c, Direct J p r)
  | None => (with_symb c (pat J), Direct J (pat J) r)
  end.

(** Lines 34-101. *)
Definition solve_iterative (c : solver_ctx) (J : M) (r : V) : solver_ctx * solved :=
  if use_prec c then
    match prec_type c with
    | Schwarz | Ifpack =>
        if negb (reuse_prec c) || negb (have_prec c) then (with_prec_dd c J, Iterative J (Some J) r)
        else (c, Iterative J (prec_dd c) r)
    | AMG =>
        if negb (reuse_prec c) || negb (have_prec c) then (with_prec c J, Iterative J (Some J) r)
        else (with_prec c J, Iterative J (Some J) r)   (* ReuseTpetraPreconditioner(J, prec) *)
    end
  else (c, Iterative J None r).

Definition linear_solver (c : solver_ctx) (J : M) (r : V) : solver_ctx * solved :=
  if use_direct c then solve_direct c J r else solve_iterative c J r.

(** A history of one context. *)
Inductive call := Solve (J : M) (r : V) | ResetAll.
Fixpoint calls (c : solver_ctx) (h : list call) : solver_ctx * list solved :=
  match h with
  | [] => (c, [])
  | ResetAll :: h => calls (ctx_reset c) h
  | Solve J r :: h => let (c1, s) := linear_solver c J r in let (c2, l) := calls c1 h in (c2, s :: l)
  end.

(** linearSolverContext.hpp 77-85: a new context. *)
Definition new_ctx (direct use : bool) (t : ptype) (reuse : bool) : solver_ctx :=
  {| use_direct := direct; use_prec := use; prec_type := t; reuse_prec := reuse; symb := None; have_prec := false; prec := None; prec_dd := None |}.
End LinSolve.
