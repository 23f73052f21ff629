(** What a uniformly refined element is: a lattice of points, cells with their
    corners, and sides on the boundary of the element. *)
From Coq Require Import List Arith ZArith Bool Reals.
Import ListNotations.
Open Scope R_scope.

(** Points of level r are lo + w k / 2^r with integers k, coordinate by coordinate. *)
Definition at_level (lo w : R) (r : nat) (z : list Z) : list R :=
  map (fun k => lo + w * IZR k / 2 ^ r) z.
(** All integer vectors of length d with entries 0 <= k < n. *)
Fixpoint grid (d n : nat) : list (list Z) :=
  match d with
  | O => [[]]
  | S d => flat_map (fun k => map (cons (Z.of_nat k)) (grid d n)) (seq 0 n)
  end.
Fixpoint vadd (a b : list Z) : list Z :=
  match a, b with x :: a, y :: b => (x + y)%Z :: vadd a b | _, _ => [] end.

(** The reference square and cube: corners in their order, and for each side
    the axis it is perpendicular to and at which end it lies. *)
Record shape := { sdim : nat; corners : list (list Z); sides : list (nat * bool) }.
Definition square : shape := {| sdim := 2;
  corners := [[0;0]; [1;0]; [1;1]; [0;1]]%Z;
  sides := [(1%nat, false); (0%nat, true); (1%nat, true); (0%nat, false)] |}.
Definition cube : shape := {| sdim := 3;
  corners := [[0;0;0]; [1;0;0]; [1;1;0]; [0;1;0]; [0;0;1]; [1;0;1]; [1;1;1]; [0;1;1]]%Z;
  sides := [(1%nat, false); (0%nat, true); (1%nat, true); (0%nat, false); (2%nat, false); (2%nat, true)] |}.
Definition ref_nodes (s : shape) : list (list R) := map (at_level (-1) 2 0) (corners s).
(** Cell a (its lowest corner) of level r touches the coarse side (axis, end). *)
Definition touches (r : nat) (a : list Z) (sd : nat * bool) : Prop :=
  nth (fst sd) a 0%Z = if snd sd then (2 ^ Z.of_nat r - 1)%Z else 0%Z.
