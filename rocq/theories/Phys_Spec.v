(** What a weak form is, independently of the loops that build it: the sum over quadrature
    points of weight times (scalar part times test function + flux dotted with its gradient). *)
From Coq Require Import Bool Arith Reals List String.
From Verif Require Import BProj_Model Phys_Model.
Import ListNotations.
Local Open Scope R_scope.

Definition axis (d : nat) : string := match d with 0%nat => "x"%string | 1%nat => "y"%string | _ => "z"%string end.
Definition bracket (d : nat) : string := ("[" ++ axis d ++ "]")%string.
Definition gradname (v : string) (d : nat) : string := ("grad(" ++ v ++ ")" ++ bracket d)%string.

(** Derivative of a field in direction d; the unit normal. *)
Definition grad (w : wks) (v : string) (d k : nat) : R := fld w (gradname v d) k.
Definition normal (w : wks) (d k : nat) : R := fld w ("n" ++ bracket d)%string k.

(** Sums over points, over directions. *)
Definition integral (w : wks) (f : nat -> R) : R := sm (seq 0 (npts w)) (fun k => wt w k * f k).
Definition sumd (w : wks) (f : nat -> R) : R := sm (seq 0 (dim w)) f.
Definition dndn (w : wks) (v : string) (k : nat) : R := sumd w (fun d => grad w v d k * normal w d k).
Definition dphidn (w : wks) (b i k : nat) : R := sumd w (fun d => bgr w b i k d * normal w d k).

Definition weak (w : wks) (b i : nat) (a : nat -> R) (F : nat -> nat -> R) : R :=
  integral w (fun k => a k * bas w b i k + sumd w (fun d => F d k * bgr w b i k d)).

(** A workset as the framework sets it up. *)
Record wf (w : wks) : Prop := {
  wf_dim : (1 <= dim w <= 3)%nat;
  wf_names : NoDup (varlist w);
  wf_offs : forall v i u j, (v < List.length (varlist w))%nat -> (u < List.length (varlist w))%nat ->
    (i < nbas w (usebasis w v))%nat -> (j < nbas w (usebasis w u))%nat -> offs w v i = offs w u j -> v = u /\ i = j
}.
Definition is_var (w : wks) (n : nat) (v : string) : Prop := nth_error (varlist w) n = Some v.
(** The row of dof i of variable n. *)
Definition row (w : wks) (n i r : nat) : Prop := (i < nbas w (usebasis w n))%nat /\ r = offs w n i.

(** The residual assembled for variable v is the weak form with parts a and F. *)
Definition equation (w : wks) (res : nat -> R) (v : string) (a : nat -> R) (F : nat -> nat -> R) : Prop :=
  forall n i, is_var w n v -> (i < nbas w (usebasis w n))%nat -> res (offs w n i) = weak w (usebasis w n) i a F.
(** Nothing is added to the rows of variables other than the given ones. *)
Definition only_rows (w : wks) (res : nat -> R) (vs : list string) : Prop :=
  forall n v i, is_var w n v -> ~ In v vs -> (i < nbas w (usebasis w n))%nat -> res (offs w n i) = 0.

(** The functions of a basis sum to one (and so their gradients to zero). *)
Definition unity (w : wks) (b : nat) : Prop := forall k, (k < npts w)%nat ->
  sm (seq 0 (nbas w b)) (fun i => bas w b i k) = 1 /\
  forall d, (d < dim w)%nat -> sm (seq 0 (nbas w b)) (fun i => bgr w b i k d) = 0.
(** Sum of the residual over the dofs of a variable: what the equation says of the whole element. *)
Definition total (w : wks) (res : nat -> R) (n : nat) : R :=
  sm (seq 0 (nbas w (usebasis w n))) (fun i => res (offs w n i)).
(** A field that is the expansion of coefficients c in the basis of variable n. *)
Definition expands (w : wks) (n : nat) (v : string) (c : nat -> R) : Prop := forall k, (k < npts w)%nat ->
  fld w v k = sm (seq 0 (nbas w (usebasis w n))) (fun i => c i * bas w (usebasis w n) i k) /\
  forall d, (d < dim w)%nat -> grad w v d k = sm (seq 0 (nbas w (usebasis w n))) (fun i => c i * bgr w (usebasis w n) i k d).
(** The residual of variable n tested with coefficients c. *)
Definition tested (w : wks) (res : nat -> R) (n : nat) (c : nat -> R) : R :=
  sm (seq 0 (nbas w (usebasis w n))) (fun i => c i * res (offs w n i)).
