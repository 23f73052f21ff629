(** The data a physics module sees for one element (src/tools/workset.hpp) and the loops by
    which it adds to the residual of the element.
    Simplified: one element at a time (the loops over elements are independent); exact
    arithmetic; the residual entries are values, not values with derivatives (the derivatives
    are those of the values); several additions to an entry in one loop body are joined.
    The same record describes the volume quadrature points or those of one side. *)
From Coq Require Import Bool Arith Reals List String.
From Verif Require Import Sparse_Model Mass_Model BProj_Model.
Import ListNotations.
Local Open Scope R_scope.

Record wks := {
  dim : nat;                                (* wkset->dimension *)
  varlist : list string;                    (* wkset->varlist *)
  usebasis : nat -> nat;                    (* wkset->usebasis *)
  npts : nat;                               (* extent(2) of the bases *)
  nbas : nat -> nat;                        (* extent(1) of the bases *)
  offs : nat -> nat -> nat;                 (* wkset->offsets: variable, dof *)
  wt : nat -> R;                            (* wkset->wts or wts_side *)
  bas : nat -> nat -> nat -> R;             (* basis or basis_side: basis, dof, pt *)
  bgr : nat -> nat -> nat -> nat -> R;      (* basis_grad or basis_grad_side: basis, dof, pt, component *)
  fld : string -> nat -> R;                 (* getSolutionField, getScalarField: name, pt *)
  fn : string -> nat -> R;                  (* functionManager->evaluate: name, pt *)
  hel : R;                                  (* getElementSize, getSideElementSize *)
  bcs : nat -> string;                      (* var_bcs of the current side *)
  sidename : string;
  isAdjoint : bool;
  isTransient : bool;
  deltat : R
}.

(** setWorkset: the number of a variable is the last position of its name. *)
Definition var_num (w : wks) (v : string) (unset : nat) : nat :=
  fold_left (fun n i => if String.eqb (nth i (varlist w) EmptyString) v then i else n)
            (seq 0 (List.length (varlist w))) unset.
Definition has_var (w : wks) (v : string) : bool := existsb (fun u => String.eqb u v) (varlist w).

(** for pt, for dof: res(off(dof)) += f(pt,dof), with the basis of one variable and the
    offsets of another (they differ only by mistake). *)
Definition fill (w : wks) (bvar ovar : nat) (f : nat -> nat -> R) : list (nat * R) :=
  flat_map (fun pt => map (fun dof => (offs w ovar dof, f pt dof)) (seq 0 (nbas w (usebasis w bvar))))
           (seq 0 (npts w)).

(** resetResidual, then the additions in turn *)
Definition residual (cs : list (nat * R)) : nat -> R := scatter cs (fun _ => 0).
