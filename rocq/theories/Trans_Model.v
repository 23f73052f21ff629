(** Transport problems: src/physics/burgers.cpp, shallowwater.cpp, ode.cpp and levelSet.cpp. *)
From Coq Require Import Bool Arith Reals List String.
From Verif Require Import Sparse_Model Mass_Model BProj_Model Phys_Model.
Import ListNotations.
Local Open Scope R_scope.
Local Open Scope string_scope.

(** *** burgers.cpp *)
Record bg_set := { use_evisc : bool; bg_SUPG : bool }.
(** Entropy viscosity, lines 105-113 *)
Definition bg_evisc (s : bg_set) (w : wks) (pt : nat) : R :=
  let evisc := if use_evisc s then
    let entres := fld w "u" pt * (fld w "u_t" pt + fld w "u" pt * fld w "grad(u)[x]" pt + fld w "u" pt * fld w "grad(u)[y]" pt) in
    fn w "C1" pt * hel w * hel w * Rabs (1 / 1000000000000 + entres) / fn w "C2" pt
  else 0 in
  if Rlt_dec (1 / 10) evisc then 1 / 10 else evisc.
(** SUPG parameter, lines 119-125 *)
Definition bg_tau (w : wks) (pt : nat) : R :=
  let nvel := fn w "xvel" pt * fn w "xvel" pt + fn w "yvel" pt * fn w "yvel" pt in
  let nvel := if Rlt_dec (1 / 1000000000000) nvel then sqrt nvel else nvel in
  fn w "supg C" pt / (fn w "supg C1" pt / deltat w + fn w "supg C2" pt * nvel / hel w).
(** volumeResidual, lines 52-161 *)
Definition bg_volume (s : bg_set) (w : wks) : list (nat * R) :=
  let u := var_num w "u" 0 in
  let B := bas w (usebasis w u) in let G := bgr w (usebasis w u) in
  let usq pt := 1 / 2 * fld w "u" pt * fld w "u" pt in
  let f pt := (fld w "u_t" pt - fn w "Burgers source" pt) * wt w pt in
  let eps := fn w "diffusion" in
  if (dim w =? 1)%nat then
    fill w u u (fun pt dof =>
      let Fx := (eps pt * fld w "grad(u)[x]" pt - fn w "xvel" pt * usq pt) * wt w pt in
      f pt * B dof pt + Fx * G dof pt 0%nat)
  else if (dim w =? 2)%nat then
    fill w u u (fun pt dof =>
      let Fx := ((eps pt + bg_evisc s w pt) * fld w "grad(u)[x]" pt - fn w "xvel" pt * usq pt) * wt w pt in
      let Fy := ((eps pt + bg_evisc s w pt) * fld w "grad(u)[y]" pt - fn w "yvel" pt * usq pt) * wt w pt in
      let sres := bg_tau w pt * (fld w "u_t" pt + fn w "xvel" pt * fld w "u" pt * fld w "grad(u)[x]" pt
                    + fn w "yvel" pt * fld w "u" pt * fld w "grad(u)[y]" pt - fn w "Burgers source" pt) * wt w pt in
      let Fx := if bg_SUPG s then Fx + sres * fld w "u" pt * fn w "xvel" pt else Fx in
      let Fy := if bg_SUPG s then Fy + sres * fld w "u" pt * fn w "yvel" pt else Fy in
      f pt * B dof pt + Fx * G dof pt 0%nat + Fy * G dof pt 1%nat)
  else if (dim w =? 3)%nat then
    fill w u u (fun pt dof =>
      let Fx := (eps pt * fld w "grad(u)[x]" pt - fn w "xvel" pt * usq pt) * wt w pt in
      let Fy := (eps pt * fld w "grad(u)[y]" pt - fn w "yvel" pt * usq pt) * wt w pt in
      let Fz := (eps pt * fld w "grad(u)[z]" pt - fn w "zvel" pt * usq pt) * wt w pt in
      f pt * B dof pt + Fx * G dof pt 0%nat + Fy * G dof pt 1%nat + Fz * G dof pt 2%nat)
  else [].
(** boundaryResidual, lines 167-204: the condition looked at is that of variable 0. *)
Definition bg_boundary (w : wks) : list (nat * R) :=
  let u := var_num w "u" 0 in
  if ((dim w =? 2)%nat && String.eqb (bcs w 0) "Neumann")%bool then
    fill w u u (fun pt dof =>
      1 / 2 * fld w "u" pt * fld w "u" pt * wt w pt * bas w (usebasis w u) dof pt
      * (fn w "xvel" pt * fld w "n[x]" pt + fn w "yvel" pt * fld w "n[y]" pt))
  else [].

(** *** shallowwater.cpp, volumeResidual, lines 69-151 (boundaryResidual and computeFlux are
    empty). "viscosity" and "Coriolis" are evaluated and not used, "bottom friction" and the
    boundary data are not evaluated. The variable called H is the elevation. *)
Definition sw_volume (gravity : R) (w : wks) : list (nat * R) :=
  let hn := var_num w "H" 0 in let un := var_num w "Hu" 0 in let vn := var_num w "Hv" 0 in
  let B v := bas w (usebasis w v) in let G v := bgr w (usebasis w v) in
  let xi := fld w "H" in let Hu := fld w "Hu" in let Hv := fld w "Hv" in
  let bath := fn w "bathymetry" in
  let H pt := xi pt + bath pt in
  (fill w hn hn (fun pt dof =>
    let f := (fld w "H_t" pt - fn w "source H" pt) * wt w pt in
    let Fx := - Hu pt * wt w pt in
    let Fy := - Hv pt * wt w pt in
    f * B hn dof pt + Fx * G hn dof pt 0%nat + Fy * G hn dof pt 1%nat) ++
  fill w un un (fun pt dof =>
    let f := (fld w "Hu_t" pt - gravity * xi pt * fn w "bathymetry_x" pt - fn w "source Hu" pt) * wt w pt in
    let Fx := - (Hu pt * Hu pt / H pt + 1 / 2 * gravity * (H pt * H pt - bath pt * bath pt)) * wt w pt in
    let Fy := - (Hu pt * Hv pt / H pt) * wt w pt in
    f * B un dof pt + Fx * G un dof pt 0%nat + Fy * G un dof pt 1%nat) ++
  fill w vn vn (fun pt dof =>
    let f := (fld w "Hv_t" pt - gravity * xi pt * fn w "bathymetry_y" pt - fn w "source Hv" pt) * wt w pt in
    let Fx := - (Hu pt * Hv pt / H pt) * wt w pt in
    let Fy := - (Hv pt * Hv pt / H pt + 1 / 2 * gravity * (H pt * H pt - bath pt * bath pt)) * wt w pt in
    f * B vn dof pt + Fx * G vn dof pt 0%nat + Fy * G vn dof pt 1%nat))%list.

(** *** ode.cpp, volumeResidual, lines 43-72: the basis is not used, only the first unknown. *)
Definition ode_volume (w : wks) : list (nat * R) :=
  let q := var_num w "q" 0 in
  map (fun pt => (offs w q 0, (fld w "q_t" pt - fn w "ODE source" pt) * wt w pt)) (seq 0 (npts w)).

(** *** levelSet.cpp, without the Rothermel spread model ("use rothermal" false). *)
Definition zero_tol : R := 1 / 100000000.       (* levelSet.hpp, line 109 *)
(** computeTau, lines 291-307, with its divisor apart *)
Definition ls_tau_div (xvl yvl : R) : R :=
  let nvel := xvl * xvl + yvl * yvl in
  let nvel := if Rlt_dec (1 / 1000000000000) nvel then sqrt nvel else nvel in
  2 * nvel.
Definition ls_tau (xvl yvl h : R) : R := 1 / 2 * h / ls_tau_div xvl yvl.
Definition ls_gradNorm (w : wks) (pt : nat) : R :=
  sqrt (fld w "grad(phi)[x]" pt * fld w "grad(phi)[x]" pt + fld w "grad(phi)[y]" pt * fld w "grad(phi)[y]" pt + zero_tol * zero_tol).
Definition ls_velMag (w : wks) (pt : nat) : R :=
  sqrt (fn w "xvel" pt * fn w "xvel" pt + fn w "yvel" pt * fn w "yvel" pt + zero_tol * zero_tol).
(** Pass 1, lines 178-221: averages over the element, and the constant of the penalty. *)
Definition ls_penalty (w : wks) : R :=
  let acc := fold_left (fun '(g, v, b, a) pt =>
    (g + ls_gradNorm w pt * wt w pt, v + ls_velMag w pt * wt w pt, b + fn w "beta" pt * wt w pt, a + wt w pt))
    (seq 0 (npts w)) (0, 0, 0, 0) in
  let '(sum_grad, sum_umag, sum_beta, sum_wts) := acc in
  let gradAvg := sum_grad / sum_wts in
  let velAvg := sum_umag / sum_wts in
  let beta_e := sum_beta / sum_wts in
  let lambda2 := 1 / 2 * beta_e * hel w * hel w * velAvg in
  lambda2 * (gradAvg - 1).
(** Pass 2, lines 224-277 *)
Definition ls_volume (w : wks) : list (nat * R) :=
  let phi := var_num w "phi" 0 in
  let B := bas w (usebasis w phi) in let G := bgr w (usebasis w phi) in
  let px := fld w "grad(phi)[x]" in let py := fld w "grad(phi)[y]" in
  let ux := fn w "xvel" in let uy := fn w "yvel" in
  fill w phi phi (fun pt dof =>
    let invGrad := 1 / ls_gradNorm w pt in
    let time_term := fld w "phi_t" pt * wt w pt in
    let adve_x := ux pt * px pt * wt w pt in
    let adve_y := uy pt * py pt * wt w pt in
    let regx := ls_penalty w * (px pt * invGrad) * wt w pt in
    let regy := ls_penalty w * (py pt * invGrad) * wt w pt in
    let stabres := fld w "phi_t" pt + ux pt * px pt + uy pt * py pt in
    let tau := ls_tau (ux pt) (uy pt) (hel w) in
    let stabx := tau * stabres * ux pt * wt w pt in
    let staby := tau * stabres * uy pt * wt w pt in
    time_term * B dof pt + adve_x * B dof pt + adve_y * B dof pt
    + regx * G dof pt 0%nat + regy * G dof pt 1%nat + stabx * G dof pt 0%nat + staby * G dof pt 1%nat).
