(** The values imposed on Dirichlet sides: src/managers/assembly/
    assemblyManager_constraints.hpp (computeConstraintProjection, lines 144-234;
    getDirichletBoundary, lines 276-390), assemblyManager_mass.hpp (getMassBoundary, lines
    804-910) and src/managers/solver/solverManager_util.hpp (projectDirichlet, lines 14-54).
    Simplified: exact arithmetic; degrees of freedom are named by global numbers on every
    process; groups of boundary elements only split the loops; the matrix graph contains
    every entry that is added; lumpmass is false, as in the only call; the linear solver
    returns a solution of the system. *)
From Coq Require Import Bool Arith Lia Reals Lra List.
From Verif Require Import Sparse_Model Mass_Model Assembly_Model.
Import ListNotations.
Local Open Scope R_scope.

Definition sm {A} (l : list A) (f : A -> R) : R := rsum (map f l).

(** HGRAD, HVOL and HFACE; HDIV; HCURL. *)
Inductive btype := BScalar | BDiv | BCurl.

(** A variable whose condition on the side is "Dirichlet": offsets, basis (function, point,
    component) and prescribed values (point, component). *)
Record bvar := { bty : btype; boff : list nat; psi : nat -> nat -> nat -> R; data : nat -> nat -> R }.
(** A boundary element. *)
Record bel := {
  blid : nat -> nat; bnloc : nat;
  bdim : nat; bnq : nat; bw : nat -> R; bn : nat -> nat -> R;   (* points, weights, normals *)
  bvs : list bvar
}.
Definition off (v : bvar) (i : nat) : nat := nth i (boff v) 0%nat.
Definition num (v : bvar) : nat := length (boff v).
Definition dotp (m : nat) (a b : nat -> R) : R := sm (seq 0 m) (fun d => a d * b d).

(** getMassBoundary *)
Definition mass_entry (e : bel) (v : bvar) (i j : nat) : R :=
  sm (seq 0 (bnq e)) (fun k =>
    match bty v with
    | BScalar => psi v i k 0%nat * psi v j k 0%nat * bw e k
    | BDiv => sm (seq 0 (bdim e)) (fun d => psi v i k d * bn e k d * psi v j k d * bn e k d * bw e k)
    | BCurl => (dotp (bdim e) (psi v i k) (psi v j k)
                - dotp (bdim e) (psi v i k) (bn e k) * dotp (bdim e) (psi v j k) (bn e k)) * bw e k
    end).
Definition local_mass (e : bel) : nat -> nat -> R :=
  scatter2 (flat_map (fun v => flat_map (fun i => map (fun j => (off v i, off v j, mass_entry e v i j))
              (seq 0 (num v))) (seq 0 (num v))) (bvs e)) (fun _ _ => 0).

(** getDirichletBoundary *)
Definition rhs_entry (e : bel) (v : bvar) (i : nat) : R :=
  sm (seq 0 (bnq e)) (fun k =>
    match bty v with
    | BScalar => data v k 0%nat * psi v i k 0%nat * bw e k
    | BDiv => sm (seq 0 (bdim e)) (fun d => data v k 0%nat * psi v i k d * bn e k d * bw e k)
    | BCurl => (dotp (bdim e) (data v k) (psi v i k)
                - dotp (bdim e) (data v k) (bn e k) * dotp (bdim e) (psi v i k) (bn e k)) * bw e k
    end).
Definition local_rhs (e : bel) : nat -> R :=
  scatter (flat_map (fun v => map (fun i => (off v i, rhs_entry e v i)) (seq 0 (num v))) (bvs e)) (fun _ => 0).

(** A process: its boundary elements, the unknowns of its elements, and isFixedDOF. *)
Record bproc := { bels : list bel; seen : list nat; fixed : nat -> bool }.

(** computeConstraintProjection, lines 160-203 ... *)
Definition rhs_contribs (p : bproc) (e : bel) : list (nat * R) :=
  flat_map (fun o => if fixed p (blid e o) then [(blid e o, local_rhs e o)] else []) (seq 0 (bnloc e)).
Definition mass_contribs (p : bproc) (e : bel) : list (nat * nat * R) :=
  flat_map (fun o => if fixed p (blid e o)
                     then map (fun c => (blid e o, blid e c, local_mass e o c)) (seq 0 (bnloc e)) else [])
           (seq 0 (bnloc e)).
Definition proc_rhs (p : bproc) : nat -> R := scatter (flat_map (rhs_contribs p) (bels p)) (fun _ => 0).
(** ... and lines 208-226. *)
Definition proc_mass (p : bproc) : nat -> nat -> R :=
  fold_left (fun M r => if fixed p r then M else set2 M r r 1) (seen p)
            (scatter2 (flat_map (mass_contribs p) (bels p)) (fun _ _ => 0)).

(** exportMatrixFromOverlapped and exportVectorFromOverlapped *)
Definition proj_rhs (ps : list bproc) (i : nat) : R := sm ps (fun p => proc_rhs p i).
Definition proj_mass (ps : list bproc) (i j : nat) : R := sm ps (fun p => proc_mass p i j).

(** linearSolverBoundaryL2 *)
Definition solves (n : nat) (M : nat -> nat -> R) (b x : nat -> R) : Prop :=
  forall i, (i < n)%nat -> sm (seq 0 n) (fun j => M i j * x j) = b i.
