(** What reported errors and integrated quantities are meant to be. *)
From Coq Require Import Bool Arith Reals Ascii String List.
Import ListNotations.
From Verif Require Import BProj_Model Fields_Model Fields_Spec PostErr_Model.
Local Open Scope R_scope.
Local Open Scope string_scope.

(** The kinds of field a norm of the error compares. *)
Definition kinds (dimension : nat) (n : norm) : list kind :=
  match n with
  | NL2 | NFace => [Val]
  | NGrad => map Grad (seq 0 dimension)
  | NVector => map Comp (seq 0 dimension)
  | NDiv => [Div]
  | NCurl => if (dimension =? 2)%nat then [Curl2] else map Curl (seq 0 dimension)
  end.
(** All elements of the mesh that take part. *)
Definition parts (ranks : list (list egroup)) : list eelem := flat_map eelems (filter active (concat ranks)).
Definition mesh (ranks : list (list egroup)) : list eelem := flat_map eelems (concat ranks).
(** The square of the distance of two fields at a point, summed over components. *)
Definition distance2 (fd : fielddata) (v : string) (ks : list kind) (e : eelem) (x : nat) : R :=
  sm ks (fun k => (sol fd (name k v) e x - tru fd (name k v) e x) ^ 2).
Definition mesh_integral (es : list eelem) (f : eelem -> nat -> R) : R :=
  sm es (fun e => sm (seq 0 (ept e)) (fun x => ewt e x * f e x)).
(** A list of names as one writes it. *)
Fixpoint listed (l : list string) : string :=
  match l with [] => "" | [x] => x | x :: r => x ++ ", " ++ listed r end.
Definition sides_of (asked : list string) (ranks : list (list bgroup)) : list eelem :=
  flat_map belems (filter (fun g => if in_dec string_dec (sidename g) asked then true else false) (concat ranks)).
