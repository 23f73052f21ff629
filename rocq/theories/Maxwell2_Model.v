(** Electromagnetic waves with a control (src/physics/maxwell_control.cpp) and in
    bianisotropic media (src/physics/maxwell_bianisotropic.cpp). The constructors take the
    same options as maxwell.cpp (mx_new). *)
From Coq Require Import Bool Arith Reals Ascii String List.
From Verif Require Import Sparse_Model Mass_Model BProj_Model Phys_Model Maxwell_Model.
Import ListNotations.
Local Open Scope R_scope.
Local Open Scope string_scope.

(** maxwell_control::volumeResidual, the equation for E, lines 219-314. The equation for B,
    lines 87-217, is that of maxwell.cpp (mx_B). *)
Definition mc_E (s : mx_set) (stage : nat) (W : vwks) : list (nat * R) :=
  let w := vw W in let e := var_num w "E" 0 in
  let mu := fn w "mu" in let epsilon := fn w "epsilon" in let rindex := fn w "refractive index" in let sigma := fn w "sigma" in
  let V := vbas W (usebasis w e) in let C := vcurl W (usebasis w e) in
  if (negb (useLeapFrog s) || (stage =? 1)%nat)%bool then
    if (dim w =? 2)%nat then
      fill w e e (fun pt dof =>
        let f0 := (epsilon pt * rindex pt * rindex pt * fld w "E_t[x]" pt + (sigma pt * fld w "E[x]" pt + fn w "current x" pt)) * wt w pt in
        let f1 := (epsilon pt * rindex pt * rindex pt * fld w "E_t[y]" pt + (sigma pt * fld w "E[y]" pt + fn w "current y" pt)) * wt w pt in
        let c0 := (fn w "control current x" pt - 1 / mu pt * fld w "B" pt) * wt w pt in
        f0 * V dof pt 0%nat + c0 * C dof pt 0%nat + f1 * V dof pt 1%nat)
    else if (dim w =? 3)%nat then
      fill w e e (fun pt dof =>
        let eps := epsilon pt in
        let f0 := (rindex pt * rindex pt * fld w "E_t[x]" pt + 1 / eps * (sigma pt * fld w "E[x]" pt + fn w "current x" pt)) * wt w pt in
        let f1 := (rindex pt * rindex pt * fld w "E_t[y]" pt + 1 / eps * (sigma pt * fld w "E[y]" pt + fn w "current y" pt)) * wt w pt in
        let f2 := (rindex pt * rindex pt * fld w "E_t[z]" pt + 1 / eps * (sigma pt * fld w "E[z]" pt + fn w "current z" pt)) * wt w pt in
        let c0 := 1 / eps * (fn w "control current x" pt - 1 / mu pt * fld w "B[x]" pt) * wt w pt in
        let c1 := 1 / eps * (fn w "control current y" pt - 1 / mu pt * fld w "B[y]" pt) * wt w pt in
        let c2 := 1 / eps * (fn w "control current z" pt - 1 / mu pt * fld w "B[z]" pt) * wt w pt in
        (f0 * V dof pt 0%nat + c0 * C dof pt 0%nat) + (f1 * V dof pt 1%nat + c1 * C dof pt 1%nat) + (f2 * V dof pt 2%nat + c2 * C dof pt 2%nat))
    else []
  else [].
Definition mc_volume (s : mx_set) (stage : nat) (W : vwks) : list (nat * R) :=
  ((if include_B s then mx_B s stage W else []) ++ (if include_E s then mc_E s stage W else []))%list.

(** maxwell_control::boundaryResidual, lines 322-411: on a side where B is "Neumann" the
    rows of E are changed; nothing in two dimensions. *)
Definition mc_boundary (W : vwks) : list (nat * R) :=
  let w := vw W in let b := var_num w "B" 0 in let e := var_num w "E" 0 in
  if (dim w =? 3)%nat then
    if String.eqb (bcs w b) "Neumann" then
      let gamma := - 9944 / 10000 in
      fill w e e (fun pt dof =>
        let nx := fld w "n[x]" pt in let ny := fld w "n[y]" pt in let nz := fld w "n[z]" pt in
        let Ex := fld w "E[x]" pt in let Ey := fld w "E[y]" pt in let Ez := fld w "E[z]" pt in
        let nce_x := ny * Ez - nz * Ey in
        let nce_y := nz * Ex - nx * Ez in
        let nce_z := nx * Ey - ny * Ex in
        let c0 := - (1 + gamma) * (ny * nce_z - nz * nce_y) * wt w pt in
        let c1 := - (1 + gamma) * (nz * nce_x - nx * nce_z) * wt w pt in
        let c2 := - (1 + gamma) * (nx * nce_y - ny * nce_x) * wt w pt in
        c0 * vbas W (usebasis w e) dof pt 0%nat + c1 * vbas W (usebasis w e) dof pt 1%nat + c2 * vbas W (usebasis w e) dof pt 2%nat)
    else []
  else [].

(** maxwell_bianisotropic::defineFunctions, lines 58-122 *)
Definition nine (n : string) : list string := map (append n) ["_xx"; "_xy"; "_xz"; "_yx"; "_yy"; "_yz"; "_zx"; "_zy"; "_zz"].
Definition bi_defined : list string :=
  (["current x"; "current y"; "current z"; "mu0"; "eta0"; "refractive index"; "epsilon0"] ++
   nine "epsr" ++ nine "invmur" ++ nine "xir" ++ nine "zetar" ++ nine "sigma")%list.

(** volumeResidual, lines 233-293: the names asked for, in the order xx, xy, ..., zz. *)
Definition epsr_read : list string :=
  ["invepsr_xx"; "invepsr_xy"; "invepsr_xz"; "invepsr_yx"; "invepsr_yy"; "invepsr_yz"; "invepsr_zx"; "invepsr_yz"; "invepsr_zz"].
Definition invmur_read : list string :=
  ["mur_xx"; "mur_xy"; "mur_xz"; "mur_yx"; "mur_yy"; "mur_yz"; "mur_zx"; "mur_zy"; "mur_zz"].
Definition xir_read : list string :=
  ["xir_xx"; "xir_xy"; "xir_xz"; "xir_yz"; "xir_yy"; "xir_yz"; "xir_zx"; "xir_zy"; "xir_zz"].
Definition zetar_read : list string :=
  ["zetar_xx"; "zetar_xy"; "zetar_xz"; "zetar_yz"; "zetar_yy"; "zetar_yz"; "zetar_zx"; "zetar_zy"; "zetar_zz"].
Definition sigma_read : list string :=
  ["sigma_xx"; "sigma_xy"; "sigma_xz"; "sigma_yx"; "sigma_yy"; "sigma_yz"; "sigma_zx"; "sigma_zy"; "sigma_zz"].
Definition bi_read : list string :=
  (["current x"; "current y"; "current z"; "mu0"; "epsilon0"; "refractive index"; "eta0"] ++
   epsr_read ++ invmur_read ++ xir_read ++ zetar_read ++ sigma_read)%list.

(** functionManager_evaluate.hpp, lines 14-56: a name that is not registered raises an error. *)
Definition found (reg : list string) (names : list string) : bool :=
  forallb (fun n => existsb (String.eqb n) reg) names.

(** The matrix-vector products of lines 323-372. *)
Definition mat3 (w : wks) (pt : nat) (T : list string) (v : R * R * R) : R * R * R :=
  let '(x, y, z) := v in let t i := fn w (nth i T "") pt in
  (t 0%nat * x + t 1%nat * y + t 2%nat * z, t 3%nat * x + t 4%nat * y + t 5%nat * z, t 6%nat * x + t 7%nat * y + t 8%nat * z).

(** The equation for E, lines 296-387 *)
Definition bi_E (s : mx_set) (stage : nat) (W : vwks) : list (nat * R) :=
  let w := vw W in let e := var_num w "E" 0 in
  let V := vbas W (usebasis w e) in let C := vcurl W (usebasis w e) in
  if (negb (useLeapFrog s) || (stage =? 1)%nat)%bool then
    fill w e e (fun pt dof =>
      let dE := (fld w "E_t[x]" pt, fld w "E_t[y]" pt, fld w "E_t[z]" pt) in
      let dB := (fld w "B_t[x]" pt, fld w "B_t[y]" pt, fld w "B_t[z]" pt) in
      let E := (fld w "E[x]" pt, fld w "E[y]" pt, fld w "E[z]" pt) in
      let B := (fld w "B[x]" pt, fld w "B[y]" pt, fld w "B[z]" pt) in
      let c0 := 1 / sqrt (fn w "epsilon0" pt * fn w "mu0" pt) in
      let M := mat3 w pt in
      let '(eps_x, eps_y, eps_z) := M epsr_read dE in
      let '(xz_x, xz_y, xz_z) := M xir_read (M invmur_read (M zetar_read dE)) in
      let '(xb_x, xb_y, xb_z) := M xir_read (M invmur_read dB) in
      let '(s_x, s_y, s_z) := M sigma_read E in
      let eta0 := fn w "eta0" pt in
      let fx := (1 / c0 * (eps_x - xz_x + xb_x) + eta0 * s_x + eta0 * fn w "current x" pt) * wt w pt in
      let fy := (1 / c0 * (eps_y - xz_y + xb_y) + eta0 * s_y + eta0 * fn w "current y" pt) * wt w pt in
      let fz := (1 / c0 * (eps_z - xz_z + xb_z) + eta0 * s_z + eta0 * fn w "current z" pt) * wt w pt in
      let '(b_x, b_y, b_z) := M invmur_read B in
      let '(z_x, z_y, z_z) := M invmur_read (M zetar_read E) in
      let gx := (- b_x + z_x) * wt w pt in
      let gy := (- b_y + z_y) * wt w pt in
      let gz := (- b_z + z_z) * wt w pt in
      (fx * V dof pt 0%nat + gx * C dof pt 0%nat) + (fy * V dof pt 1%nat + gy * C dof pt 1%nat) + (fz * V dof pt 2%nat + gz * C dof pt 2%nat))
  else [].

(** The equation for B, lines 134-218 *)
Definition bi_B (s : mx_set) (stage : nat) (W : vwks) : list (nat * R) :=
  let w := vw W in let b := var_num w "B" 0 in
  let act := (negb (useLeapFrog s) || (stage =? 0)%nat)%bool in
  fill w b b (fun pt dof =>
    let c0 := 1 / sqrt (fn w "mu0" pt * fn w "epsilon0" pt) in
    let f0 := (if act then 1 / c0 * fld w "B_t[x]" pt + fld w "curl(E)[x]" pt else 1 / c0 * fld w "B_t[x]" pt) * wt w pt in
    let f1 := (if act then 1 / c0 * fld w "B_t[y]" pt + fld w "curl(E)[y]" pt else 1 / c0 * fld w "B_t[y]" pt) * wt w pt in
    let f2 := (if act then 1 / c0 * fld w "B_t[z]" pt + fld w "curl(E)[z]" pt else 1 / c0 * fld w "B_t[z]" pt) * wt w pt in
    f0 * vbas W (usebasis w b) dof pt 0%nat + f1 * vbas W (usebasis w b) dof pt 1%nat + f2 * vbas W (usebasis w b) dof pt 2%nat).

(** volumeResidual, lines 128-392: None where an error is raised. The functions are evaluated
    before the stage is looked at. *)
Definition bi_volume (reg : list string) (s : mx_set) (stage : nat) (W : vwks) : option (list (nat * R)) :=
  let rB := if include_B s then if found reg ["mu0"; "epsilon0"] then Some (bi_B s stage W) else None else Some [] in
  let rE := if include_E s then if found reg bi_read then Some (bi_E s stage W) else None else Some [] in
  match rB, rE with Some b, Some e => Some (b ++ e)%list | _, _ => None end.

(** boundaryResidual, lines 398-442 *)
Definition bi_boundary (s : mx_set) (W : vwks) : list (nat * R) :=
  let w := vw W in let b := var_num w "B" 0 in
  if (include_B s && String.eqb (bcs w b) "Neumann")%bool then
    let gamma := - 9944 / 10000 in
    fill w b b (fun pt dof =>
      let nx := fld w "n[x]" pt in let ny := fld w "n[y]" pt in let nz := fld w "n[z]" pt in
      let Ex := fld w "E[x]" pt in let Ey := fld w "E[y]" pt in let Ez := fld w "E[z]" pt in
      let nce_x := ny * Ez - nz * Ey in
      let nce_y := nz * Ex - nx * Ez in
      let nce_z := nx * Ey - ny * Ex in
      let c0 := - (1 + gamma) * (ny * nce_z - nz * nce_y) * wt w pt in
      let c1 := - (1 + gamma) * (nz * nce_x - nx * nce_z) * wt w pt in
      let c2 := - (1 + gamma) * (nx * nce_y - ny * nce_x) * wt w pt in
      c0 * vbas W (usebasis w b) dof pt 0%nat + c1 * vbas W (usebasis w b) dof pt 1%nat + c2 * vbas W (usebasis w b) dof pt 2%nat)
  else [].
