(** Model of the time integration tables and of the stage formulas.

    Source:
      /repo/src/managers/solver/solverManager_setup.hpp
        181-437 setButcherTableau, 443-528 setBackwardDifference
      /repo/src/tools/workset.cpp
        521-834 computeSolnTransientSeeded

    Real arithmetic.  The tableau "custom" is read from strings by the code; here its
    coefficients are an argument. *)
From Coq Require Import Bool Arith Lia Reals Lra String List.
From Verif Require Import Sparse_Model.
Import ListNotations.
Local Open Scope R_scope.

(** Butcher tableau; entries that are not filled in are zero (Kokkos views). *)
Record tab := { tA : list (list R); tb : list R; tc : list R }.

Definition aij (t : tab) (i j : nat) : R := nth j (nth i (tA t) []) 0.
Definition bi (t : tab) (i : nat) : R := nth i (tb t) 0.
Definition ci (t : tab) (i : nat) : R := nth i (tc t) 0.
Definition nst (t : tab) : nat := length (tb t).

Definition bwe := {| tA := [[1]]; tb := [1]; tc := [1] |}.
Definition fwe := {| tA := [[0]]; tb := [1]; tc := [0] |}.
Definition cn := {| tA := [[0; 0]; [1/2; 1/2]]; tb := [1/2; 1/2]; tc := [0; 1] |}.
Definition ssprk33 := {| tA := [[0; 0; 0]; [1; 0; 0]; [1/4; 1/4; 0]]; tb := [1/6; 1/6; 2/3]; tc := [0; 1; 1/2] |}.
Definition rk44 := {| tA := [[0; 0; 0; 0]; [1/2; 0; 0; 0]; [0; 1/2; 0; 0]; [0; 0; 1; 0]];
  tb := [1/6; 1/3; 1/3; 1/6]; tc := [0; 1/2; 1/2; 1] |}.
Definition dirk12 := {| tA := [[1/2]]; tb := [1]; tc := [1/2] |}.
Definition dirk22 := {| tA := [[1/4; 0]; [1/2; 1/4]]; tb := [1/2; 1/2]; tc := [1/4; 3/4] |}.
Definition dirk23 := {| tA := [[1/2 + sqrt 3 / 6; 0]; [- sqrt 3 / 3; 1/2 + sqrt 3 / 6]]; tb := [1/2; 1/2];
  tc := [1/2 + sqrt 3 / 6; 1/2 - sqrt 3 / 6] |}.
(** The constant 0.4358665215 *)
Definition pdirk : R := 4358665215 / 10000000000.
Definition dirk33_of (p : R) := {| tA := [[p; 0; 0]; [(1 - p) / 2; p; 0]; [-3 * p * p / 2 + 4 * p - 1 / 4; 3 * p * p / 2 - 5 * p + 5 / 4; p]];
  tb := [-3 * p * p / 2 + 4 * p - 1 / 4; 3 * p * p / 2 - 5 * p + 5 / 4; p]; tc := [p; (1 + p) / 2; 1] |}.
Definition dirk33 := dirk33_of pdirk.
Definition leapfrog := {| tA := [[0; 0]; [1; 0]]; tb := [1; 1]; tc := [0; 0] |}.

(** Selection by name; None is the exception "unrecognized Butcher tableau". *)
Definition tableau (name : string) (custom : tab) : option tab :=
  if (String.eqb name "BWE" || String.eqb name "DIRK-1,1")%bool then Some bwe
  else if String.eqb name "FWE" then Some fwe
  else if String.eqb name "CN" then Some cn
  else if String.eqb name "SSPRK-3,3" then Some ssprk33
  else if String.eqb name "RK-4,4" then Some rk44
  else if String.eqb name "DIRK-1,2" then Some dirk12
  else if String.eqb name "DIRK-2,2" then Some dirk22
  else if String.eqb name "DIRK-2,3" then Some dirk23
  else if String.eqb name "DIRK-3,3" then Some dirk33
  else if String.eqb name "leap-frog" then Some leapfrog
  else if String.eqb name "custom" then
    (* lines 363-396: sizes are checked *)
    if forallb (fun r => Nat.eqb (length r) (length (tA custom))) (tA custom)
       && Nat.eqb (length (tb custom)) (length (tA custom))
       && Nat.eqb (length (tc custom)) (length (tA custom))
    then Some custom else None
  else None.

(** Lines 443-520: an order outside 1..6 leaves the list of weights empty. *)
Definition bdf (order : nat) : list R :=
  match order with
  | 1%nat => [1; -1]
  | 2%nat => [3/2; -2; 1/2]
  | 3%nat => [11/6; -3; 3/2; -1/3]
  | 4%nat => [25/12; -4; 3; -4/3; 1/4]
  | 5%nat => [137/60; -5; 5; -10/3; 75/60; -1/5]
  | 6%nat => [147/60; -6; 15/2; -20/3; 225/60; -72/60; 1/6]
  | _ => []
  end.

(** *** Stage formulas *)

(** Arithmetic of the template argument EvalT: scalars, or values with derivatives. *)
Record arith (V : Type) := { inj : R -> V; vadd : V -> V -> V; vsub : V -> V -> V; vscal : R -> V -> V }.
Arguments inj {V}. Arguments vadd {V}. Arguments vsub {V}. Arguments vscal {V}.

Definition scalars : arith R := {| inj := fun x => x; vadd := Rplus; vsub := Rminus; vscal := Rmult |}.
(** Value and derivative in the direction of the seeded unknown. *)
Definition duals : arith (R * R) :=
  {| inj := fun x => (x, 0);
     vadd := fun x y => (fst x + fst y, snd x + snd y);
     vsub := fun x y => (fst x - fst y, snd x - snd y);
     vscal := fun a x => (a * fst x, a * snd x) |}.

Section Stage.
Context {V : Type} (ar : arith V).
Variables (t : tab) (wts : list R) (dt : R) (stage : nat).

(** u: alpha_u*stageval + beta_u, lines 559-566 *)
Definition state_of (prev0 : V) (stages : nat -> V) (v : V) : V :=
  let alpha := aij t stage stage / bi t stage in
  vadd ar (vscal ar alpha v)
    (fold_left (fun acc s => vadd ar acc (vscal ar (aij t stage s / bi t s) (vsub ar (stages s) prev0)))
       (seq 0 stage) (vscal ar (1 - alpha) prev0)).

(** u_dot: alpha_t*stageval + beta_t, lines 568-574 *)
Definition dot_of (prev : nat -> V) (v : V) : V :=
  let timewt := 1 / dt / bi t stage in
  vadd ar (vscal ar (nth 0 wts 0 * timewt) v)
    (vscal ar timewt
      (fold_left (fun acc s => vadd ar acc (vscal ar (nth s wts 0) (prev (s - 1)%nat)))
         (seq 1 (length wts - 1)) (inj ar 0))).
End Stage.

(** Seeding, lines 600-800: seedwhat 1 the stage solution, 2 the previous solution
    [index], 3 the stage solution [index]. *)
Definition seeded (on : bool) (x : R) : R * R := (x, if on then 1 else 0).
Definition seed_state (t : tab) (stage seedwhat index : nat) (prev0 : R) (stages : nat -> R) (v : R) : R * R :=
  state_of duals t stage
    (seeded (Nat.eqb seedwhat 2 && Nat.eqb index 0) prev0)
    (fun s => seeded (Nat.eqb seedwhat 3 && Nat.eqb index s) (stages s))
    (seeded (Nat.eqb seedwhat 1) v).
Definition seed_dot (t : tab) (wts : list R) (dt : R) (stage seedwhat index : nat) (prev : nat -> R) (v : R) : R * R :=
  dot_of duals t wts dt stage
    (fun s => seeded (Nat.eqb seedwhat 2 && Nat.eqb index s) (prev s))
    (seeded (Nat.eqb seedwhat 1) v).
