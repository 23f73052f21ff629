(** Flux conditions: src/interfaces/physics/physicsInterface_boundary_conditions.hpp
    (fluxConditions, lines 201-275), called in src/managers/assembly/
    assemblyManager_jacres.hpp by assembleJacRes (dispatch, lines 37-106; call, line 531) and
    by the residual-only assembly (line 862).
    Simplified: values only (exact arithmetic); one side of one element; the meaning of the
    text of a condition at the points of the side is a parameter. *)
From Coq Require Import Bool Arith Lia ZArith Reals Lra String List.
From Verif Require Import Sparse_Model AdType_Model BCond_Model.
Import ListNotations.
Local Open Scope string_scope.

(** The number type with which the residual is computed. *)
Inductive etype := EScalar | EFull | ESmall (n : Z).
(** assembleJacRes, lines 42-104. *)
Definition dispatch (autotune : bool) (type_AD : Z) : etype :=
  if negb autotune then EFull
  else if existsb (Z.eqb type_AD) [2; 4; 8; 16; 18; 24; 32]%Z then ESmall type_AD else EFull.

Section Flux.
Variable meaning : entry -> nat -> R.             (* value at a point of the side *)
Variables (npts : nat) (wts : nat -> R) (basis : nat -> nat -> R).

(** What is added to the residual of basis function [i]; [None] when the condition has no
    function (exception). *)
Definition flux_term (t : etype) (b : bset) (fm : list (string * entry)) (var ty side : string) (i : nat) : option R :=
  match t with
  | ESmall _ => Some 0%R
  | _ =>
    if string_dec (var_bc b ty var side) "Flux" then
      match evaluate fm (label "Flux" var side) with
      | Some f => Some (rsum (map (fun k => (- meaning f k * wts k * basis i k)%R) (seq 0 npts)))
      | None => None
      end
    else Some 0%R
  end.
End Flux.
