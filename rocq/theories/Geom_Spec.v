(** What a user expects of element geometry, stated without the model's own
    definitions: lengths, areas, exact quadrature, affine fields. *)
From Coq Require Import List Reals.
Import ListNotations.
Open Scope R_scope.

(** Sum of f over the quadrature points of a rule, with its weights. *)
Fixpoint quad_sum {A} (r : list (A * R)) (f : A -> R) : R :=
  match r with [] => 0 | (a, w) :: t => f a * w + quad_sum t f end.

(** Area of the polygon through the listed points (shoelace formula). *)
Definition cross2 (ax ay bx by_ : R) : R := ax * by_ - ay * bx.
Fixpoint shoelace_from (x0 y0 : R) (l : list (R * R)) : R :=
  match l with
  | [] => 0
  | [(x, y)] => cross2 x y x0 y0
  | (x, y) :: (((x', y') :: _) as t) => cross2 x y x' y' + shoelace_from x0 y0 t
  end.
Definition polygon_area (l : list (R * R)) : R :=
  match l with [] => 0 | (x, y) :: _ => shoelace_from x y l / 2 end.

Definition distance2 (ax ay bx by_ : R) : R := sqrt ((bx - ax)^2 + (by_ - ay)^2).

(** Moments of [-1,1]. *)
Definition moment (a : nat) : R := match a with 0%nat => 2 | 1%nat => 0 | _ => 2/3 end.

(** Rules that integrate what they must integrate. *)
Definition exact_line (r : list ((nat -> R) * R)) : Prop :=
  quad_sum r (fun _ => 1) = 2 /\ quad_sum r (fun p => p 0%nat) = 0.
Definition exact_quad (r : list ((nat -> R) * R)) : Prop :=
  quad_sum r (fun _ => 1) = 4 /\ quad_sum r (fun p => p 0%nat) = 0 /\
  quad_sum r (fun p => p 1%nat) = 0.
Definition exact_tri (r : list ((nat -> R) * R)) : Prop :=
  quad_sum r (fun _ => 1) = 1/2.
Definition exact_face (r : list ((nat -> R) * R)) : Prop :=
  forall a b, (a <= 2)%nat -> (b <= 2)%nat ->
    quad_sum r (fun p => p 0%nat ^ a * p 1%nat ^ b) = moment a * moment b.
Definition exact_hex (r : list ((nat -> R) * R)) : Prop :=
  forall a b c, (a <= 2)%nat -> (b <= 2)%nat -> (c <= 2)%nat ->
    quad_sum r (fun p => p 0%nat ^ a * p 1%nat ^ b * p 2%nat ^ c)
    = moment a * moment b * moment c.

(** Affine vector fields in d dimensions and their divergence. *)
Fixpoint sumto (n : nat) (f : nat -> R) : R :=
  match n with O => 0 | S k => sumto k f + f k end.
Definition affine (d : nat) (b : nat -> R) (A : nat -> nat -> R) (x : nat -> R) (i : nat) : R :=
  b i + sumto d (fun j => A i j * x j).
Definition divergence (d : nat) (A : nat -> nat -> R) : R := sumto d (fun i => A i i).
