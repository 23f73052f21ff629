(** What sampling and data-consistent inversion are meant to do. *)
From Coq Require Import List Arith Reals.
Import ListNotations.
Open Scope R_scope.

Definition sum (l : list R) : R := fold_right Rplus 0 l.
Definition prod (l : list R) : R := fold_right Rmult 1 l.
Definition average (l : list R) : R := sum l / INR (List.length l).

(** A random engine whose uniform draws lie in the unit interval. *)
Definition unit_draws {S : Type} (units : nat -> S -> list R * S) : Prop :=
  forall n s, List.length (fst (units n s)) = n /\ Forall (fun u => 0 <= u <= 1) (fst (units n s)).
Definition counted {S : Type} (draw : nat -> S -> list R * S) : Prop :=
  forall n s, List.length (fst (draw n s)) = n.

(** Data in other units: coordinate d becomes a d * x + b d. *)
Definition convert (dim : nat) (a b : nat -> R) (p : list R) : list R :=
  map (fun d => a d * nth d p 0 + b d) (seq 0 dim).
(** The factor by which densities change. *)
Definition jacobian (dim : nat) (a : nat -> R) : R := prod (map (fun d => Rabs (a d)) (seq 0 dim)).
(** All data have this many coordinates. *)
Definition dims (dim : nat) (pts : list (list R)) : Prop := Forall (fun p => List.length p = dim) pts.
(** Two different values occur in coordinate d. *)
Definition varies (pts : list (list R)) (d : nat) : Prop :=
  exists p q, In p pts /\ In q pts /\ nth d p 0 <> nth d q 0.
