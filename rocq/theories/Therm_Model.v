(** Heat conduction, single-phase flow in porous media and convection-diffusion-reaction:
    src/physics/thermal.cpp, src/physics/porous.cpp, src/physics/cdr.cpp. *)
From Coq Require Import Bool Arith Reals List String.
From Verif Require Import Sparse_Model Mass_Model BProj_Model Phys_Model.
Import ListNotations.
Local Open Scope R_scope.
Local Open Scope string_scope.

(** *** thermal.cpp *)

(** volumeResidual, lines 71-164; have_nsvel is set in setWorkset, lines 355-385, have_advection
    is a setting. The fields of uy and uz are only looked up when there is a variable ux. *)
Definition thermal_volume (have_advection : bool) (w : wks) : list (nat * R) :=
  let T := var_num w "T" 0 in let b := usebasis w T in
  let have_nsvel := has_var w "ux" in
  fill w T T (fun pt dof =>
    (fn w "density" pt * fn w "specific heat" pt * fld w "T_t" pt - fn w "thermal source" pt) * wt w pt * bas w b dof pt
    + fn w "thermal diffusion" pt * fld w "grad(T)[x]" pt * wt w pt * bgr w b dof pt 0
    + (if (1 <? dim w)%nat then fn w "thermal diffusion" pt * fld w "grad(T)[y]" pt * wt w pt * bgr w b dof pt 1 else 0)
    + (if (2 <? dim w)%nat then fn w "thermal diffusion" pt * fld w "grad(T)[z]" pt * wt w pt * bgr w b dof pt 2 else 0)
    + (if have_nsvel then
         if (dim w =? 1)%nat then fld w "ux" pt * fld w "grad(T)[x]" pt * wt w pt * bas w b dof pt
         else if (dim w =? 2)%nat then
           (fld w "ux" pt * fld w "grad(T)[x]" pt + fld w "uy" pt * fld w "grad(T)[y]" pt) * wt w pt * bas w b dof pt
         else (fld w "ux" pt * fld w "grad(T)[x]" pt + fld w "uy" pt * fld w "grad(T)[y]" pt
               + fld w "uz" pt * fld w "grad(T)[z]" pt) * wt w pt * bas w b dof pt
       else 0)
    + (if have_advection then
         if (dim w =? 1)%nat then fn w "bx" pt * fld w "grad(T)[x]" pt * wt w pt * bas w b dof pt
         else if (dim w =? 2)%nat then
           (fn w "bx" pt * fld w "grad(T)[x]" pt + fn w "by" pt * fld w "grad(T)[y]" pt) * wt w pt * bas w b dof pt
         else (fn w "bx" pt * fld w "grad(T)[x]" pt + fn w "by" pt * fld w "grad(T)[y]" pt
               + fn w "bz" pt * fld w "grad(T)[z]" pt) * wt w pt * bas w b dof pt
       else 0)).

(** boundaryResidual, lines 172-281. *)
Definition thermal_wd (sf : R) (bdata : nat -> R) (w : wks) : list (nat * R) :=
  let T := var_num w "T" 0 in let b := usebasis w T in let epen := 10 in
  fill w T T (fun pt dof =>
    let diff := fn w "thermal diffusion" pt in
    epen / hel w * diff * (fld w "T" pt - bdata pt) * wt w pt * bas w b dof pt
    + (if (dim w =? 1)%nat then
         - diff * fld w "grad(T)[x]" pt * fld w "n[x]" pt * wt w pt * bas w b dof pt
         + - sf * diff * (fld w "T" pt - bdata pt) * wt w pt * bgr w b dof pt 0 * fld w "n[x]" pt
       else if (dim w =? 2)%nat then
         - diff * (fld w "grad(T)[x]" pt * fld w "n[x]" pt + fld w "grad(T)[y]" pt * fld w "n[y]" pt) * wt w pt * bas w b dof pt
         + - sf * diff * (fld w "T" pt - bdata pt) * wt w pt
             * (bgr w b dof pt 0 * fld w "n[x]" pt + bgr w b dof pt 1 * fld w "n[y]" pt)
       else
         - diff * (fld w "grad(T)[x]" pt * fld w "n[x]" pt + fld w "grad(T)[y]" pt * fld w "n[y]" pt
                   + fld w "grad(T)[z]" pt * fld w "n[z]" pt) * wt w pt * bas w b dof pt
         + - sf * diff * (fld w "T" pt - bdata pt) * wt w pt
             * (bgr w b dof pt 0 * fld w "n[x]" pt + bgr w b dof pt 1 * fld w "n[y]" pt + bgr w b dof pt 2 * fld w "n[z]" pt))).
Definition thermal_boundary (formparam : R) (w : wks) : list (nat * R) :=
  let T := var_num w "T" 0 in let b := usebasis w T in
  let sf := if isAdjoint w then 1 else formparam in
  if String.eqb (bcs w T) "Neumann" then
    fill w T T (fun pt dof => - fn w ("Neumann T " ++ sidename w) pt * wt w pt * bas w b dof pt)
  else if String.eqb (bcs w T) "weak Dirichlet" then thermal_wd sf (fn w ("Dirichlet T " ++ sidename w)) w
  else if String.eqb (bcs w T) "interface" then thermal_wd sf (fld w "aux T") w
  else [].

(** computeFlux, lines 288-348: what is handed to the neighbouring scale at a side point. *)
Definition thermal_flux (formparam : R) (w : wks) (pt : nat) : R :=
  let sf := if isAdjoint w then formparam else 1 in let epen := 10 in
  let diff := fn w "thermal diffusion" pt in
  epen / hel w * diff * (fld w "aux T" pt - fld w "T" pt)
  + sf * diff * fld w "grad(T)[x]" pt * fld w "n[x]" pt
  + (if (1 <? dim w)%nat then sf * diff * fld w "grad(T)[y]" pt * fld w "n[y]" pt else 0)
  + (if (2 <? dim w)%nat then sf * diff * fld w "grad(T)[z]" pt * fld w "n[z]" pt else 0).

(** *** porous.cpp *)

Definition kdens (w : wks) (pt : nat) : R :=
  fn w "permeability" pt / fn w "viscosity" pt * fn w "reference density" pt
  * (1 + fn w "compressibility" pt * (fld w "p" pt - fn w "reference pressure" pt)).
Definition dens (w : wks) (pt : nat) : R :=
  fn w "reference density" pt * (1 + fn w "compressibility" pt * (fld w "p" pt - fn w "reference pressure" pt)).
(** volumeResidual, lines 57-141. "gravity" is evaluated and not used. *)
Definition porous_volume (w : wks) : list (nat * R) :=
  let p := var_num w "p" 0 in let b := usebasis w p in
  let M pt := (fn w "porosity" pt * fn w "reference density" pt * fn w "compressibility" pt * fld w "p_t" pt
               - fn w "source" pt) * wt w pt in
  let K f pt := kdens w pt * fld w f pt * wt w pt in
  if (dim w =? 1)%nat then
    fill w p p (fun pt dof => M pt * bas w b dof pt + K "grad(p)[x]" pt * bgr w b dof pt 0)
  else if (dim w =? 2)%nat then
    fill w p p (fun pt dof => M pt * bas w b dof pt + K "grad(p)[x]" pt * bgr w b dof pt 0
                              + K "grad(p)[y]" pt * bgr w b dof pt 1)
  else if (dim w =? 3)%nat then
    fill w p p (fun pt dof => M pt * bas w b dof pt + K "grad(p)[x]" pt * bgr w b dof pt 0
                              + K "grad(p)[y]" pt * bgr w b dof pt 1 + K "grad(p)[z]" pt * bgr w b dof pt 2)
  else [].

(** boundaryResidual, lines 148-287; extent(3) of basis_grad_side is the dimension. *)
Definition porous_wd (sf : R) (pd : nat -> R) (w : wks) : list (nat * R) :=
  let p := var_num w "p" 0 in let b := usebasis w p in
  fill w p p (fun pt dof =>
    let Kval := fn w "permeability" pt / fn w "viscosity" pt * dens w pt in
    let weakDiriScale := 10 * Kval / hel w in
    let Kgradp_dot_n := (Kval * fld w "grad(p)[x]" pt * fld w "n[x]" pt
      + (if (1 <? dim w)%nat then Kval * fld w "grad(p)[y]" pt * fld w "n[y]" pt else 0)
      + (if (2 <? dim w)%nat then Kval * fld w "grad(p)[z]" pt * fld w "n[z]" pt else 0)) * wt w pt in
    let pdiff := (fld w "p" pt - pd pt) * wt w pt in
    let v := bas w b dof pt in
    let Kgradv_dot_n := Kval * bgr w b dof pt 0 * fld w "n[x]" pt
      + (if (1 <? dim w)%nat then Kval * bgr w b dof pt 1 * fld w "n[y]" pt else 0)
      + (if (2 <? dim w)%nat then Kval * bgr w b dof pt 2 * fld w "n[z]" pt else 0) in
    - Kgradp_dot_n * v - sf * Kgradv_dot_n * pdiff + weakDiriScale * pdiff * v).
(** auxvar: "p", "lambda" or "pbndry", the last of these in the list of auxiliary variables
    (setWorkset, lines 371-396) *)
Definition porous_boundary (formparam : R) (auxvar : string) (w : wks) : list (nat * R) :=
  let p := var_num w "p" 0 in let b := usebasis w p in
  let sf := if isAdjoint w then 1 else formparam in
  if String.eqb (bcs w p) "Neumann" then
    fill w p p (fun pt dof => - fn w ("Neumann p " ++ sidename w) pt * wt w pt * bas w b dof pt)
  else if String.eqb (bcs w p) "weak Dirichlet" then porous_wd sf (fn w ("Dirichlet p " ++ sidename w)) w
  else if String.eqb (bcs w p) "interface" then porous_wd sf (fld w ("aux " ++ auxvar)) w
  else [].

(** computeFlux, lines 302-364. Line 323 takes for basis_grad the values of the basis, whose
    extent(3) is 1 for the scalar (HGRAD) basis of p, so dim is 1 here.
    Simplified: the flux array holds zeros before (the sum is stored with +=). *)
Definition porous_flux (formparam : R) (auxvar : string) (w : wks) (pt : nat) : R :=
  let sf := if isAdjoint w then formparam else 1 in
  let dim := 1%nat in
  let Kval := fn w "permeability" pt / fn w "viscosity" pt * dens w pt in
  let penalty := 10 * Kval / hel w in
  let Kgradp_dot_n := Kval * fld w "grad(p)[x]" pt * fld w "n[x]" pt
    + (if (1 <? dim)%nat then Kval * fld w "grad(p)[y]" pt * fld w "n[y]" pt else 0)
    + (if (2 <? dim)%nat then Kval * (fld w "grad(p)[z]" pt - fn w "gravity" pt * dens w pt) * fld w "n[z]" pt else 0) in
  sf * Kgradp_dot_n + penalty * (fld w ("aux " ++ auxvar) pt - fld w "p" pt).

(** *** cdr.cpp, lines 63-143 (cdr2.cpp is the same with c2, source2, diffusion2, reaction2) *)
Definition cdr_volume (w : wks) : list (nat * R) :=
  let c := var_num w "c" 0 in let b := usebasis w c in
  let F f pt := 1 / (fn w "density" pt * fn w "specific heat" pt) * fn w "diffusion" pt * fld w f pt * wt w pt in
  if (dim w =? 1)%nat then
    fill w c c (fun pt dof =>
      (fld w "c_t" pt + fn w "xvel" pt * fld w "grad(c)[x]" pt + fn w "reaction" pt - fn w "source" pt) * wt w pt * bas w b dof pt
      + F "grad(c)[x]" pt * bgr w b dof pt 0)
  else if (dim w =? 2)%nat then
    fill w c c (fun pt dof =>
      (fld w "c_t" pt + fn w "xvel" pt * fld w "grad(c)[x]" pt + fn w "yvel" pt * fld w "grad(c)[y]" pt
       + fn w "reaction" pt - fn w "source" pt) * wt w pt * bas w b dof pt
      + F "grad(c)[x]" pt * bgr w b dof pt 0 + F "grad(c)[y]" pt * bgr w b dof pt 1)
  else if (dim w =? 3)%nat then
    fill w c c (fun pt dof =>
      (fld w "c_t" pt + fn w "xvel" pt * fld w "grad(c)[x]" pt + fn w "yvel" pt * fld w "grad(c)[y]" pt
       + fn w "zvel" pt * fld w "grad(c)[z]" pt + fn w "reaction" pt - fn w "source" pt) * wt w pt * bas w b dof pt
      + F "grad(c)[x]" pt * bgr w b dof pt 0 + F "grad(c)[y]" pt * bgr w b dof pt 1 + F "grad(c)[z]" pt * bgr w b dof pt 2)
  else [].
