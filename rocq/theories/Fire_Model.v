(** Fire spread: src/physics/rothermal.cpp, the grid of src/tools/ExoReader.cpp
    (computeGridAndDomain, lines 146-214; unique_sorted_, lines 308-314) and the use of the
    rate of spread in src/physics/levelSet.cpp, lines 128-250.
    Simplified: exact arithmetic; one element and point at a time; reading of the file is a
    given list of coordinates and of values per element and node. *)
From Coq Require Import Bool ZArith Reals List.
Import ListNotations.
Local Open Scope R_scope.

(** *** The grid (ExoReader) *)
Record fgrid := { gx0 : R; gy0 : R; gdx : R; gdy : R; gnx : Z; gny : Z }.
(** unique_sorted_: sort, then drop entries closer than eps to the last one kept *)
Fixpoint insert (x : R) (l : list R) : list R :=
  match l with [] => [x] | y :: r => if Rle_dec x y then x :: l else y :: insert x r end.
Definition sort (l : list R) : list R := fold_right insert [] l.
Fixpoint dedup (eps a : R) (l : list R) : list R :=
  match l with [] => [] | b :: r => if Rlt_dec (Rabs (a - b)) eps then dedup eps a r else b :: dedup eps b r end.
Definition unique_sorted (eps : R) (l : list R) : list R :=
  match sort l with [] => [] | a :: r => a :: dedup eps a r end.
(** checkUniform, lines 176-188 *)
Fixpoint steps (l : list R) : list R :=
  match l with a :: ((b :: _) as r) => (b - a) :: steps r | _ => [] end.
Definition axis_tol (base : R) : R := Rmax (/ 10 ^ 8) (/ 10 ^ 4 * Rmax 1 (Rabs base)).
Definition uniform_step (ds : list R) : option R :=
  match ds with
  | [] => Some 1
  | base :: r => if forallb (fun d => if Rlt_dec (axis_tol base) (Rabs (d - base)) then false else true) r then Some base else None
  end.
(** One axis: origin, spacing, number of cells; None: an exception. *)
Definition grid_axis (cs : list R) : option (R * R * Z) :=
  match unique_sorted (/ 10 ^ 10) cs with
  | a :: b :: r => match uniform_step (steps (a :: b :: r)) with Some d => Some (a, d, (Z.of_nat (length (a :: b :: r)) - 1)%Z) | None => None end
  | _ => None
  end.
Definition grid_of (xs ys : list R) (nelem : Z) : option fgrid :=
  match grid_axis xs, grid_axis ys with
  | Some (x0, dx, nx), Some (y0, dy, ny) =>
      if (nx * ny =? nelem)%Z then Some {| gx0 := x0; gy0 := y0; gdx := dx; gdy := dy; gnx := nx; gny := ny |} else None
  | _, _ => None
  end.

(** *** getElementIds, rothermal.cpp lines 124-146 *)
Definition clampz (i n : Z) : Z := let i1 := if (i <? 0)%Z then 0%Z else i in if (n <=? i1)%Z then (n - 1)%Z else i1.
Definition element_id (g : fgrid) (x y : R) : Z :=
  (clampz (Int_part ((y - gy0 g) / gdy g)) (gny g) * gnx g + clampz (Int_part ((x - gx0 g) / gdx g)) (gnx g))%Z.

(** *** evalNodalR, lines 163-231 *)
Definition nodal_value (g : fgrid) (node : Z -> R) (x y : R) : R :=
  let sx := (x - gx0 g) / gdx g in let sy := (y - gy0 g) / gdy g in
  let i0 := clampz (Int_part sx) (gnx g) in let j0 := clampz (Int_part sy) (gny g) in
  let tx := sx - IZR i0 in let ty := sy - IZR j0 in
  let nnx := (gnx g + 1)%Z in
  (1 - tx) * (1 - ty) * node (j0 * nnx + i0)%Z + tx * (1 - ty) * node (j0 * nnx + (i0 + 1))%Z
  + (1 - tx) * ty * node ((j0 + 1) * nnx + i0)%Z + tx * ty * node ((j0 + 1) * nnx + (i0 + 1))%Z.

(** *** computeBaseEquations and computeRothermals, lines 238-323; constants, lines 76-81 *)
Record fuel := { w0 : R; delta : R; sigma : R; Mx : R }.
Definition heat : R := 8000. Definition rhoP : R := 32. Definition Mf : R := / 100.
Definition St : R := 555 / 10000. Definition Se : R := / 100.
Definition gammaMax (f : fuel) : R := Rpower (sigma f) (3 / 2) / (495 + 594 / 10000 * Rpower (sigma f) (3 / 2)).
Definition betaOp (f : fuel) : R := 3348 / 1000 * Rpower (sigma f) (- (8189 / 10000)).
Definition expA (f : fuel) : R := 1 / (4774 / 1000 * Rpower (sigma f) (/ 10) - 727 / 100).
Definition etaM (f : fuel) : R := let r := Mf / Mx f in 1 - 259 / 100 * r + 511 / 100 * (r * r) - 352 / 100 * (r * r * r).
Definition etaS : R := 174 / 1000 * Rpower Se (- (19 / 100)).
Definition wn (f : fuel) : R := w0 f / (1 + St).
Definition rhoB (f : fuel) : R := w0 f / delta f.
Definition eps_heat (f : fuel) : R := exp (-138 / sigma f).
Definition Qig : R := 250 + 1116 * Mf.
Definition reaction (f : fuel) (ratio : R) : R := gammaMax f * Rpower ratio (expA f) * exp (expA f * (1 - ratio)).
Definition base_rate (f : fuel) : R :=
  let beta := rhoB f / rhoP in
  let xi := exp ((792 / 1000 + 681 / 1000 * Rpower (sigma f) (/ 2)) * (beta + / 10)) / (192 + 2595 / 10000 * sigma f) in
  let gamma := reaction f (beta / betaOp f) in
  let IR := gamma * wn f * heat * etaM f * etaS in
  (IR * xi) / (rhoB f * eps_heat f * Qig).

(** *** computeFields, lines 340-440 *)
Definition heaviside (x : R) : R := / 2 * (1 + tanh x).
Definition zero_tol : R := / 10 ^ 8.
Record fsettings := { fthresh : R; hscale : R; burnC : R; windC : R; slopeC : R; diag : R }.
(** What is known at a point: phi and its gradient, the wind, the slope and the fuel mark of
    the cell. *)
Record fpoint := { fphi : R; fpx : R; fpy : R; fwx : R; fwy : R; fsx : R; fsy : R; fisfuel : R }.
Definition gnorm (p : fpoint) : R := sqrt (fpx p * fpx p + fpy p * fpy p + zero_tol * zero_tol).
Definition phi_scaled (s : fsettings) (p : fpoint) : R := hscale s * 2 * fphi p / diag s.
Definition gate (s : fsettings) (p : fpoint) : R := exp (- (phi_scaled s p * phi_scaled s p)).
Definition fuel_corr (s : fsettings) (p : fpoint) : R := heaviside (burnC s * phi_scaled s p - fthresh s).
Definition along (a b : R) (p : fpoint) : R := a * (fpx p * (1 / gnorm p)) + b * (fpy p * (1 / gnorm p)).
Definition size2 (a b : R) : R := sqrt (a * a + b * b + zero_tol * zero_tol).
Definition wind_corr (s : fsettings) (p : fpoint) : R := exp (gate s p * windC s * (along (fwx p) (fwy p) p / (1 + size2 (fwx p) (fwy p)))).
Definition slope_corr (s : fsettings) (p : fpoint) : R := exp (gate s p * slopeC s * along (fsx p) (fsy p) p / (1 + size2 (fsx p) (fsy p))).
Definition spread (s : fsettings) (rate : R) (p : fpoint) : R :=
  rate * fuel_corr s p * wind_corr s p * slope_corr s p * fisfuel p.

(** *** levelSet.cpp lines 195-245: the transport term, with the rate of spread *)
Definition front_velocity (ros : R) (p : fpoint) : R * R := (ros * fpx p / gnorm p, ros * fpy p / gnorm p).
Definition advection (ros : R) (p : fpoint) : R := fst (front_velocity ros p) * fpx p + snd (front_velocity ros p) * fpy p.
