(** Flow in porous media, mixed forms: src/physics/porousMixed.cpp, porousMixedHybridized.cpp,
    porousWeakGalerkin.cpp, src/physics/wells.hpp, src/tools/klexpansion.hpp.
    Simplified as in Phys_Model; the roots of the characteristic equation of the expansion
    (klexpansion.hpp, computeRoots) are given. *)
From Coq Require Import Bool Arith Reals List String.
From Verif Require Import Sparse_Model Mass_Model BProj_Model Phys_Model.
Import ListNotations.
Local Open Scope R_scope.
Local Open Scope string_scope.

(** A workset with bases of vectors: basis or basis_side with a component, basis_div. *)
Record dwks := {
  dw : wks;
  vb : nat -> nat -> nat -> nat -> R;       (* basis, dof, pt, component *)
  vd : nat -> nat -> nat -> R;              (* basis, dof, pt *)
  bcomp : nat -> nat                        (* extent(3) of a basis *)
}.
(** A loop over the dofs of one basis, with the offsets of a variable. *)
Definition fill_n (w : wks) (n ovar : nat) (f : nat -> nat -> R) : list (nat * R) :=
  flat_map (fun pt => map (fun dof => (offs w ovar dof, f pt dof)) (seq 0 n)) (seq 0 (npts w)).

(** *** porousMixed *)
(** volumeResidual, lines 229-339; [Kinv] the inverse permeability in each direction, [source]
    the source (with wells). *)
Definition pm_volume (Kinv : nat -> nat -> R) (source : nat -> R) (W : dwks) : list (nat * R) :=
  let w := dw W in let p := var_num w "p" 0 in let u := var_num w "u" 0 in
  let V := vb W (usebasis w u) in let mob := fn w "total_mobility" in
  app
   (if (dim w =? 1)%nat then
      fill w u u (fun pt dof =>
        let pw := fld w "p" pt * wt w pt in
        let Kiux := Kinv 0%nat pt * fld w "u" pt * wt w pt / mob pt in
        Kiux * V dof pt 0%nat - pw * bgr w (usebasis w u) dof pt 0%nat)
    else if (dim w =? 2)%nat then
      fill w u u (fun pt dof =>
        let pw := fld w "p" pt * wt w pt in
        let Kiux := Kinv 0%nat pt * fld w "u[x]" pt * wt w pt / mob pt in
        let Kiuy := Kinv 1%nat pt * fld w "u[y]" pt * wt w pt / mob pt in
        Kiux * V dof pt 0%nat + Kiuy * V dof pt 1%nat - pw * vd W (usebasis w u) dof pt)
    else
      fill w u u (fun pt dof =>
        let pw := fld w "p" pt * wt w pt in
        let Kiux := Kinv 0%nat pt * fld w "u[x]" pt * wt w pt / mob pt in
        let Kiuy := Kinv 1%nat pt * fld w "u[y]" pt * wt w pt / mob pt in
        let Kiuz := Kinv 2%nat pt * fld w "u[z]" pt * wt w pt / mob pt in
        Kiux * V dof pt 0%nat + Kiuy * V dof pt 1%nat + Kiuz * V dof pt 2%nat - pw * vd W (usebasis w u) dof pt))
   (fill w p p (fun pt dof =>
      let udiv := if (dim w =? 1)%nat then fld w "grad(u)[x]" pt else fld w "div(u)" pt in
      let F := (source pt - udiv) * wt w pt in
      F * vb W (usebasis w p) dof pt 0%nat)).
(** the product of a basis function with the normal *)
Definition vdotn (W : dwks) (b dof pt : nat) : R :=
  let w := dw W in
  vb W b dof pt 0%nat * fld w "n[x]" pt
  + (if (1 <? bcomp W b)%nat then vb W b dof pt 1%nat * fld w "n[y]" pt else 0)
  + (if (2 <? bcomp W b)%nat then vb W b dof pt 2%nat * fld w "n[z]" pt else 0).
(** boundaryResidual, lines 346-427: the basis is basis_side[unum]; the number of the variable
    stands where the number of its basis should. *)
Definition pm_boundary (auxvar : string) (W : dwks) : list (nat * R) :=
  let w := dw W in let p := var_num w "p" 0 in let u := var_num w "u" 0 in
  if String.eqb (bcs w p) "Dirichlet" then
    fill_n w (nbas w u) u (fun pt dof => fn w ("Dirichlet p " ++ sidename w) pt * wt w pt * vdotn W u dof pt)
  else if String.eqb (bcs w p) "interface" then
    fill_n w (nbas w u) u (fun pt dof => fld w ("aux " ++ auxvar) pt * wt w pt * vdotn W u dof pt)
  else [].
(** computeFlux, lines 434-490 *)
Definition pm_flux (W : dwks) (pt : nat) : R :=
  let w := dw W in
  if (dim w =? 1)%nat then fld w "u" pt * fld w "n[x]" pt
  else if (dim w =? 2)%nat then fld w "u[x]" pt * fld w "n[x]" pt + fld w "u[y]" pt * fld w "n[y]" pt
  else fld w "u[x]" pt * fld w "n[x]" pt + fld w "u[y]" pt * fld w "n[y]" pt + fld w "u[z]" pt * fld w "n[z]" pt.
(** the inverse permeability, lines 172-220 and updatePerm, lines 549-565 *)
Definition Kinv_name (d : nat) : string := match d with O => "Kinv_xx" | S O => "Kinv_yy" | _ => "Kinv_zz" end.
Definition pm_Kinv (data : option R) (KL : option (nat -> nat -> R)) (W : dwks) (d pt : nat) : R :=
  let base := match data with Some K => 1 / K | None => fn (dw W) (Kinv_name d) pt end in
  match KL with Some f => base / exp (f d pt) | None => base end.

(** *** porousMixedHybridized *)
(** volumeResidual, lines 77-188 *)
Definition hy_volume (Kinv : nat -> nat -> R) (source : nat -> R) (W : dwks) : list (nat * R) :=
  let w := dw W in let p := var_num w "p" 0 in let u := var_num w "u" 0 in
  let V := vb W (usebasis w u) in
  app
   (fill w u u (fun pt dof =>
      let pw := fld w "p" pt * wt w pt in
      let Kiux := Kinv 0%nat pt * fld w "u[x]" pt * wt w pt in
      let Kiuy := Kinv 1%nat pt * fld w "u[y]" pt * wt w pt in
      let Kiuz := Kinv 2%nat pt * fld w "u[z]" pt * wt w pt in
      let K := if (dim w =? 1)%nat then Kiux * V dof pt 0%nat
               else if (dim w =? 2)%nat then Kiux * V dof pt 0%nat + Kiuy * V dof pt 1%nat
               else Kiux * V dof pt 0%nat + Kiuy * V dof pt 1%nat + Kiuz * V dof pt 2%nat in
      K - pw * vd W (usebasis w u) dof pt))
   (fill w p p (fun pt dof =>
      let divu := fld w "div(u)" pt * wt w pt in
      let src := source pt * wt w pt in
      - divu * vb W (usebasis w p) dof pt 0%nat + src * vb W (usebasis w p) dof pt 0%nat)).
(** boundaryResidual, lines 196-274 *)
Definition hy_boundary (W : dwks) : list (nat * R) :=
  let w := dw W in let p := var_num w "p" 0 in let u := var_num w "u" 0 in
  if String.eqb (bcs w p) "Dirichlet" then
    fill w u u (fun pt dof => fn w ("Dirichlet p " ++ sidename w) pt * wt w pt * vdotn W (usebasis w u) dof pt)
  else if String.eqb (bcs w p) "interface" then
    fill w u u (fun pt dof => fld w "aux p" pt * wt w pt * vdotn W (usebasis w u) dof pt)
  else [].
(** the normal component of a vector field, with the dimension taken from the basis of u *)
Definition fieldn (v : string) (W : dwks) (b pt : nat) : R :=
  let w := dw W in
  fld w (v ++ "[x]") pt * fld w "n[x]" pt
  + (if (1 <? bcomp W b)%nat then fld w (v ++ "[y]") pt * fld w "n[y]" pt else 0)
  + (if (2 <? bcomp W b)%nat then fld w (v ++ "[z]") pt * fld w "n[z]" pt else 0).
(** faceResidual, lines 286-362 *)
Definition hy_face (W : dwks) : list (nat * R) :=
  let w := dw W in let u := var_num w "u" 0 in let l := var_num w "lambda" 0 in
  app
   (fill w u u (fun pt dof => fld w "lambda" pt * wt w pt * vdotn W (usebasis w u) dof pt))
   (fill w l l (fun pt dof => - (fieldn "u" W (usebasis w u) pt * wt w pt * vb W (usebasis w l) dof pt 0%nat))).
(** updatePerm, lines 450-464: the datum itself, not its inverse *)
Definition hy_Kinv (data : option R) (W : dwks) (d pt : nat) : R :=
  match data with Some K => K | None => fn (dw W) (Kinv_name d) pt end.

(** *** porousWeakGalerkin *)
(** volumeResidual, lines 94-315 *)
Definition wg_volume (perm source : nat -> R) (W : dwks) : list (nat * R) :=
  let w := dw W in let p := var_num w "pint" 0 in let u := var_num w "u" 0 in let t := var_num w "t" 0 in
  let V := vb W (usebasis w u) in let S := vb W (usebasis w t) in
  app (fill w u u (fun pt dof =>
      let pint := fld w "pint" pt * wt w pt in
      let ux := fld w "u[x]" pt * wt w pt in let uy := fld w "u[y]" pt * wt w pt in let uz := fld w "u[z]" pt * wt w pt in
      let s := if (dim w =? 1)%nat then ux * V dof pt 0%nat
               else if (dim w =? 2)%nat then ux * V dof pt 0%nat + uy * V dof pt 1%nat
               else ux * V dof pt 0%nat + uy * V dof pt 1%nat + uz * V dof pt 2%nat in
      s + pint * vd W (usebasis w u) dof pt))
  (app (fill w t t (fun pt dof =>
      let dx := perm pt * fld w "u[x]" pt * wt w pt + fld w "t[x]" pt * wt w pt in
      let dy := perm pt * fld w "u[y]" pt * wt w pt + fld w "t[y]" pt * wt w pt in
      let dz := perm pt * fld w "u[z]" pt * wt w pt + fld w "t[z]" pt * wt w pt in
      if (dim w =? 1)%nat then dx * S dof pt 0%nat
      else if (dim w =? 2)%nat then dx * S dof pt 0%nat + dy * S dof pt 1%nat
      else dx * S dof pt 0%nat + dy * S dof pt 1%nat + dz * S dof pt 2%nat))
   (fill w p p (fun pt dof =>
      let divt := fld w "div(t)" pt * wt w pt in let src := source pt * wt w pt in
      (divt - src) * vb W (usebasis w p) dof pt 0%nat))).
(** boundaryResidual, lines 329-416 *)
Definition wg_boundary (W : dwks) : list (nat * R) :=
  let w := dw W in let p := var_num w "pint" 0 in let u := var_num w "u" 0 in
  if String.eqb (bcs w p) "Dirichlet" then
    fill w u u (fun pt dof => - (fn w ("Dirichlet pbndry " ++ sidename w) pt * wt w pt * vdotn W (usebasis w u) dof pt))
  else if String.eqb (bcs w p) "interface" then
    fill w u u (fun pt dof => - (fld w "aux pbndry" pt * wt w pt * vdotn W (usebasis w u) dof pt))
  else [].
(** faceResidual, lines 423-505 *)
Definition wg_face (W : dwks) : list (nat * R) :=
  let w := dw W in let u := var_num w "u" 0 in let b := var_num w "pbndry" 0 in
  app
   (fill w u u (fun pt dof => - (fld w "pbndry" pt * wt w pt * vdotn W (usebasis w u) dof pt)))
   (fill w b b (fun pt dof => - (fieldn "t" W (usebasis w u) pt * (vb W (usebasis w b) dof pt 0%nat * wt w pt)))).
(** updatePerm, lines 600-609 *)
Definition wg_perm (data : option R) (W : dwks) (pt : nat) : R :=
  match data with Some K => K | None => fn (dw W) "perm" pt end.

(** *** Wells: wells.hpp, addWellSources, lines 73-126 *)
Record well := { wellname : string; welltype : string }.
Definition add_wells (ws : list well) (source : nat -> R) (h : R) (w : wks) : nat -> R :=
  fst (fold_left (fun '(acc, k) wl =>
    let C := ln (1 / 4 * exp (- (5772 / 10000)) * h / 2) in
    let f := fn w (wellname wl) in
    (fun pt =>
      let a := if (k =? 0)%nat then source pt else acc pt in
      if String.eqb (welltype wl) "flow rate" then a + f pt
      else let Kx := 1 / fn w "Kinv_xx" pt in let Ky := 1 / fn w "Kinv_yy" pt in let Kz := 1 / fn w "Kinv_zz" pt in
           a + 2 * PI / C * sqrt (Kx * Kx + Ky * Ky + Kz * Kz) * f pt, S k)) ws ((fun _ => 0), 0%nat)).

(** *** Expansion of the permeability *)
Record klexp := { kN : nat; kL : R; sigma : R; eta : R; omega : nat -> R }.
(** klexpansion.hpp, chareqn, lines 92-97 *)
Definition chareqn (K : klexp) (om : R) : R :=
  (eta K * eta K * om * om - 1) * sin (om * kL K) - 2 * eta K * om * cos (om * kL K).
(** dchareqn, lines 102-107, the slope used by Newton's method for the roots *)
Definition dchareqn (K : klexp) (om : R) : R :=
  2 * om * eta K * eta K * sin (om * kL K) + (eta K * eta K * om * om - 1) * kL K * cos (om * kL K)
  - 2 * eta K * cos (om * kL K) + 2 * eta K * om * kL K * sin (om * kL K).
(** getEval, getEvec, lines 112-127 *)
Definition getEval (K : klexp) (i : nat) : R := (2 * eta K * sigma K * sigma K) / (eta K * eta K * omega K i * omega K i + 1).
Definition getEvec (K : klexp) (i : nat) (x : R) : R :=
  1 / sqrt ((eta K * eta K * omega K i * omega K i + 1) * kL K / 2 + eta K)
  * (eta K * omega K i * cos (omega K i * x) + sin (omega K i * x)).
(** porousMixed, constructor, lines 75-125: x fastest *)
Definition kl_indices (sd : nat) (Kx Ky Kz : klexp) : list (nat * nat * nat) :=
  match sd with
  | 1%nat => map (fun i => (i, 0%nat, 0%nat)) (seq 0 (kN Kx))
  | 2%nat => flat_map (fun j => map (fun i => (i, j, 0%nat)) (seq 0 (kN Kx))) (seq 0 (kN Ky))
  | _ => flat_map (fun k => flat_map (fun j => map (fun i => (i, j, k)) (seq 0 (kN Kx))) (seq 0 (kN Ky))) (seq 0 (kN Kz))
  end.
(** updateKLPerm, lines 567-700. [uq], [st]: the parameters "KLUQcoeffs", "KLStochcoeffs"; [X]
    the coordinates. In three dimensions the first loop takes the third value from permKLy and
    adds to KL_Kxx twice. *)
Definition kl_terms (first last : nat) (t : nat -> R) : R := sm (seq first (last - first)) t.
Definition kl_perm (sd : nat) (Kx Ky Kz : klexp) (uq st : option (list R)) (X : nat -> R) (d : nat) : R :=
  let ind := kl_indices sd Kx Ky Kz in
  let ix k := fst (fst (nth k ind (0, 0, 0)%nat)) in let iy k := snd (fst (nth k ind (0, 0, 0)%nat)) in let iz k := snd (nth k ind (0, 0, 0)%nat) in
  let v1 k := sqrt (getEval Kx k) * getEvec Kx k (X 0%nat) in
  let v2 k := sqrt (getEval Kx (ix k) * getEval Ky (iy k)) * getEvec Kx (ix k) (X 0%nat) * getEvec Ky (iy k) (X 1%nat) in
  let v3 k := sqrt (getEval Kx (ix k) * getEval Ky (iy k) * getEval Kz (iz k))
              * getEvec Kx (ix k) (X 0%nat) * getEvec Ky (iy k) (X 1%nat) * getEvec Kz (iz k) (X 2%nat) in
  let v3y k := sqrt (getEval Kx (ix k) * getEval Ky (iy k) * getEval Ky (iz k))
              * getEvec Kx (ix k) (X 0%nat) * getEvec Ky (iy k) (X 1%nat) * getEvec Kz (iz k) (X 2%nat) in
  let pu := match uq with
    | None => 0
    | Some c =>
      let maxind := Nat.min (List.length c) (List.length ind) in
      match sd with
      | 1%nat => if (d =? 0)%nat then kl_terms 0 maxind (fun k => nth k c 0 * v1 k) else 0
      | 2%nat => if (d <? 2)%nat then kl_terms 0 maxind (fun k => nth k c 0 * v2 k) else 0
      | _ => if (d =? 0)%nat then kl_terms 0 maxind (fun k => nth k c 0 * v3y k + nth k c 0 * v3y k)
             else if (d =? 1)%nat then kl_terms 0 maxind (fun k => nth k c 0 * v3y k) else 0
      end
    end in
  let prog := match uq with None => 0%nat | Some c => List.length c end in
  let ps := match st with
    | None => 0
    | Some c =>
      let maxind := Nat.min (List.length ind) (prog + List.length c) in
      match sd with
      | 1%nat => if (d =? 0)%nat then kl_terms prog maxind (fun k => nth (k - prog) c 0 * v1 k) else 0
      | 2%nat => if (d <? 2)%nat then kl_terms prog maxind (fun k => nth (k - prog) c 0 * v2 k) else 0
      | _ => kl_terms prog maxind (fun k => nth (k - prog) c 0 * v3 k)
      end
    end in
  pu + ps.
