(** Variable-density flow at low Mach number: src/physics/variableDensityNS.cpp.
    Parameters p0 and dp0dt (background pressure and its rate) are arguments.
    "source pr" is evaluated and not used. *)
From Coq Require Import Bool Arith Reals List String.
From Verif Require Import Sparse_Model Mass_Model BProj_Model Phys_Model.
Import ListNotations.
Local Open Scope R_scope.
Local Open Scope string_scope.

(** computeTau, lines 1372-1409 *)
Definition vd_tau (rhoDiffl xvl yvl zvl rho h : R) (spaceDim : nat) (dt : R) (transient : bool) : R :=
  let C1 := 4 in let C2 := 2 in let C3 := if transient then 2 else 0 in
  let nvel := if (spaceDim =? 1)%nat then xvl * xvl
              else if (spaceDim =? 2)%nat then xvl * xvl + yvl * yvl
              else if (spaceDim =? 3)%nat then xvl * xvl + yvl * yvl + zvl * zvl else 0 in
  let nvel := if Rlt_dec (1 / 1000000000000) nvel then sqrt nvel else nvel in
  let tau := (C1 * rhoDiffl / h / h) * (C1 * rhoDiffl / h / h) + (C2 * rho * nvel / h) * (C2 * rho * nvel / h)
             + (C3 * rho / dt) * (C3 * rho / dt) in
  1 / sqrt tau.

(** Options, lines 49-57 *)
Record vd_set := { vdSUPG : bool; vdPSPG : bool; vdGRADDIV : bool; p0 : R; dp0dt : R }.

(** volumeResidual, lines 98-928 *)
Definition vd_volume (s : vd_set) (w : wks) : list (nat * R) :=
  let ux := var_num w "ux" 0 in let uy := var_num w "uy" 0 in let uz := var_num w "uz" 0 in
  let pr := var_num w "pr" 0 in let T := var_num w "T" 0 in
  let rho := fn w "rho" in let mu := fn w "mu" in let lambda := fn w "lambda" in let cp := fn w "cp" in
  let B v := bas w (usebasis w v) in let G v := bgr w (usebasis w v) in
  let h := hel w in
  let tau diff x y z pt := vd_tau diff x y z (rho pt) h (dim w) (deltat w) (isTransient w) in
  let U := fld w "ux" in let V := fld w "uy" in let W := fld w "uz" in
  if (dim w =? 1)%nat then
    (* lines 145-327 *)
    let dux_dx := fld w "grad(ux)[x]" in let dT_dx := fld w "grad(T)[x]" in
    let Fux pt := rho pt * (fld w "ux_t" pt + U pt * dux_dx pt) - fn w "source ux" pt in
    let sx pt := rho pt * (fld w "ux_t" pt + U pt * dux_dx pt) + fld w "grad(pr)[x]" pt - fn w "source ux" pt in
    let therm pt := 1 / fld w "T" pt * (fld w "T_t" pt + U pt * dT_dx pt) - 1 / p0 s * dp0dt s in
    let t pt := tau (mu pt) (U pt) 0 0 pt in
    (fill w ux ux (fun pt dof =>
       let Fx := (4 / 3 * mu pt * dux_dx pt - fld w "pr" pt) * wt w pt in
       let F := Fux pt * wt w pt in
       Fx * G ux dof pt 0%nat + F * B ux dof pt) ++
     (if vdSUPG s then fill w ux ux (fun pt dof =>
       let Sx := t pt * sx pt * rho pt * U pt * wt w pt in Sx * G ux dof pt 0%nat) else []) ++
     (if vdGRADDIV s then fill w ux ux (fun pt dof =>
       let tm := h * h / t pt in
       let S := tm * (dux_dx pt - therm pt) * wt w pt in S * G ux dof pt 0%nat) else []) ++
     fill w T T (fun pt dof =>
       let F := rho pt * (fld w "T_t" pt + U pt * dT_dx pt) * wt w pt - (dp0dt s + fn w "source T" pt) / cp pt * wt w pt in
       let Fx := lambda pt / cp pt * dT_dx pt * wt w pt in
       F * B T dof pt + Fx * G T dof pt 0%nat) ++
     (if vdSUPG s then fill w T T (fun pt dof =>
       let tT := tau (lambda pt / cp pt) (U pt) 0 0 pt in
       let strong := rho pt * (fld w "T_t" pt + U pt * dT_dx pt) - (dp0dt s + fn w "source T" pt) / cp pt in
       let Sx := tT * strong * rho pt * U pt * wt w pt in Sx * G T dof pt 0%nat) else []) ++
     fill w pr pr (fun pt dof => (dux_dx pt - therm pt) * B pr dof pt * wt w pt) ++
     (if vdPSPG s then fill w pr pr (fun pt dof =>
       let Sx := t pt * sx pt * wt w pt in Sx * G pr dof pt 0%nat) else []))%list
  else if (dim w =? 2)%nat then
    (* lines 330-618 *)
    let dux_dx := fld w "grad(ux)[x]" in let dux_dy := fld w "grad(ux)[y]" in
    let duy_dx := fld w "grad(uy)[x]" in let duy_dy := fld w "grad(uy)[y]" in
    let dT_dx := fld w "grad(T)[x]" in let dT_dy := fld w "grad(T)[y]" in
    let Fux pt := rho pt * (fld w "ux_t" pt + U pt * dux_dx pt + V pt * dux_dy pt) in
    let Fuy pt := rho pt * (fld w "uy_t" pt + U pt * duy_dx pt + V pt * duy_dy pt) in
    let sx pt := Fux pt + fld w "grad(pr)[x]" pt - fn w "source ux" pt in
    let sy pt := Fuy pt + fld w "grad(pr)[y]" pt - fn w "source uy" pt in
    let FT pt := rho pt * (fld w "T_t" pt + U pt * dT_dx pt + V pt * dT_dy pt) in
    let therm pt := 1 / fld w "T" pt * (fld w "T_t" pt + U pt * dT_dx pt + V pt * dT_dy pt) - 1 / p0 s * dp0dt s in
    let t pt := tau (mu pt) (U pt) (V pt) 0 pt in
    let supg v t st pt dof :=
      t * st * rho pt * U pt * wt w pt * G v dof pt 0%nat + t * st * rho pt * V pt * wt w pt * G v dof pt 1%nat in
    (* the divergence is built with the x derivative of uy, lines 408 and 495 *)
    let graddiv pt := h * h / t pt * ((dux_dx pt + duy_dx pt) - therm pt) * wt w pt in
    (fill w ux ux (fun pt dof =>
       let Fx := (mu pt * (2 * dux_dx pt - 2 / 3 * (dux_dx pt + duy_dy pt)) - fld w "pr" pt) * wt w pt in
       let Fy := mu pt * (dux_dy pt + duy_dx pt) * wt w pt in
       let F := (Fux pt - fn w "source ux" pt) * wt w pt in
       Fx * G ux dof pt 0%nat + Fy * G ux dof pt 1%nat + F * B ux dof pt) ++
     (if vdSUPG s then fill w ux ux (fun pt dof => supg ux (t pt) (sx pt) pt dof) else []) ++
     (if vdGRADDIV s then fill w ux ux (fun pt dof => graddiv pt * G ux dof pt 0%nat) else []) ++
     fill w uy uy (fun pt dof =>
       let Fx := mu pt * (dux_dy pt + duy_dx pt) * wt w pt in
       let Fy := (mu pt * (2 * duy_dy pt - 2 / 3 * (dux_dx pt + duy_dy pt)) - fld w "pr" pt) * wt w pt in
       let F := (Fuy pt - fn w "source uy" pt) * wt w pt in
       Fx * G uy dof pt 0%nat + Fy * G uy dof pt 1%nat + F * B uy dof pt) ++
     (if vdSUPG s then fill w uy uy (fun pt dof => supg uy (t pt) (sy pt) pt dof) else []) ++
     (if vdGRADDIV s then fill w uy uy (fun pt dof => graddiv pt * G uy dof pt 1%nat) else []) ++
     fill w T T (fun pt dof =>
       let F := FT pt * wt w pt - (dp0dt s + fn w "source T" pt) / cp pt * wt w pt in
       let Fx := lambda pt / cp pt * dT_dx pt * wt w pt in
       let Fy := lambda pt / cp pt * dT_dy pt * wt w pt in
       F * B T dof pt + Fx * G T dof pt 0%nat + Fy * G T dof pt 1%nat) ++
     (if vdSUPG s then fill w T T (fun pt dof =>
       supg T (tau (lambda pt / cp pt) (U pt) (V pt) 0 pt) (FT pt - (dp0dt s + fn w "source T" pt) / cp pt) pt dof) else []) ++
     fill w pr pr (fun pt dof => ((dux_dx pt + duy_dy pt) - therm pt) * B pr dof pt * wt w pt) ++
     (if vdPSPG s then fill w pr pr (fun pt dof =>
       let Sx := sx pt * (t pt * wt w pt) in let Sy := sy pt * (t pt * wt w pt) in
       Sx * G pr dof pt 0%nat + Sy * G pr dof pt 1%nat) else []))%list
  else if (dim w =? 3)%nat then
    (* lines 620-927; no grad-div term *)
    let dux_dx := fld w "grad(ux)[x]" in let dux_dy := fld w "grad(ux)[y]" in let dux_dz := fld w "grad(ux)[z]" in
    let duy_dx := fld w "grad(uy)[x]" in let duy_dy := fld w "grad(uy)[y]" in let duy_dz := fld w "grad(uy)[z]" in
    let duz_dx := fld w "grad(uz)[x]" in let duz_dy := fld w "grad(uz)[y]" in let duz_dz := fld w "grad(uz)[z]" in
    let dT_dx := fld w "grad(T)[x]" in let dT_dy := fld w "grad(T)[y]" in let dT_dz := fld w "grad(T)[z]" in
    let Fux pt := rho pt * (fld w "ux_t" pt + U pt * dux_dx pt + V pt * dux_dy pt + W pt * dux_dz pt) in
    let Fuy pt := rho pt * (fld w "uy_t" pt + U pt * duy_dx pt + V pt * duy_dy pt + W pt * duy_dz pt) in
    let Fuz pt := rho pt * (fld w "uz_t" pt + U pt * duz_dx pt + V pt * duz_dy pt + W pt * duz_dz pt) in
    let sx pt := Fux pt + fld w "grad(pr)[x]" pt - fn w "source ux" pt in
    let sy pt := Fuy pt + fld w "grad(pr)[y]" pt - fn w "source uy" pt in
    let sz pt := Fuz pt + fld w "grad(pr)[z]" pt - fn w "source uz" pt in
    let FT pt := rho pt * (fld w "T_t" pt + U pt * dT_dx pt + V pt * dT_dy pt + W pt * dT_dz pt) in
    let therm pt := 1 / fld w "T" pt * (fld w "T_t" pt + U pt * dT_dx pt + V pt * dT_dy pt + W pt * dT_dz pt) - 1 / p0 s * dp0dt s in
    let t pt := tau (mu pt) (U pt) (V pt) (W pt) pt in
    let div pt := dux_dx pt + duy_dy pt + duz_dz pt in
    let supg v t st pt dof :=
      t * st * rho pt * U pt * wt w pt * G v dof pt 0%nat + t * st * rho pt * V pt * wt w pt * G v dof pt 1%nat
      + t * st * rho pt * W pt * wt w pt * G v dof pt 2%nat in
    (fill w ux ux (fun pt dof =>
       let Fx := (mu pt * (2 * dux_dx pt - 2 / 3 * div pt) - fld w "pr" pt) * wt w pt in
       let Fy := mu pt * (dux_dy pt + duy_dx pt) * wt w pt in
       let Fz := mu pt * (dux_dz pt + duz_dx pt) * wt w pt in
       let F := (Fux pt - fn w "source ux" pt) * wt w pt in
       Fx * G ux dof pt 0%nat + Fy * G ux dof pt 1%nat + Fz * G ux dof pt 2%nat + F * B ux dof pt) ++
     (if vdSUPG s then fill w ux ux (fun pt dof => supg ux (t pt) (sx pt) pt dof) else []) ++
     fill w uy uy (fun pt dof =>
       let Fx := mu pt * (dux_dy pt + duy_dx pt) * wt w pt in
       let Fy := (mu pt * (2 * duy_dy pt - 2 / 3 * div pt) - fld w "pr" pt) * wt w pt in
       let Fz := mu pt * (duy_dz pt + duz_dy pt) * wt w pt in
       let F := (Fuy pt - fn w "source uy" pt) * wt w pt in
       Fx * G uy dof pt 0%nat + Fy * G uy dof pt 1%nat + Fz * G uy dof pt 2%nat + F * B uy dof pt) ++
     (if vdSUPG s then fill w uy uy (fun pt dof => supg uy (t pt) (sy pt) pt dof) else []) ++
     fill w uz uz (fun pt dof =>
       let Fx := mu pt * (duz_dx pt + dux_dz pt) * wt w pt in
       let Fy := mu pt * (duz_dy pt + duy_dz pt) * wt w pt in
       let Fz := (mu pt * (2 * duz_dz pt - 2 / 3 * div pt) - fld w "pr" pt) * wt w pt in
       let F := (Fuz pt - fn w "source uz" pt) * wt w pt in
       Fx * G uz dof pt 0%nat + Fy * G uz dof pt 1%nat + Fz * G uz dof pt 2%nat + F * B uz dof pt) ++
     (if vdSUPG s then fill w uz uz (fun pt dof => supg uz (t pt) (sz pt) pt dof) else []) ++
     fill w T T (fun pt dof =>
       let F := FT pt * wt w pt - (dp0dt s + fn w "source T" pt) / cp pt * wt w pt in
       let Fx := lambda pt / cp pt * dT_dx pt * wt w pt in
       let Fy := lambda pt / cp pt * dT_dy pt * wt w pt in
       let Fz := lambda pt / cp pt * dT_dz pt * wt w pt in
       F * B T dof pt + Fx * G T dof pt 0%nat + Fy * G T dof pt 1%nat + Fz * G T dof pt 2%nat) ++
     (if vdSUPG s then fill w T T (fun pt dof =>
       supg T (tau (lambda pt / cp pt) (U pt) (V pt) (W pt) pt) (FT pt - (dp0dt s + fn w "source T" pt) / cp pt) pt dof) else []) ++
     fill w pr pr (fun pt dof => (div pt - therm pt) * B pr dof pt * wt w pt) ++
     (if vdPSPG s then fill w pr pr (fun pt dof =>
       let Sx := sx pt * (t pt * wt w pt) in let Sy := sy pt * (t pt * wt w pt) in let Sz := sz pt * (t pt * wt w pt) in
       Sx * G pr dof pt 0%nat + Sy * G pr dof pt 1%nat + Sz * G pr dof pt 2%nat) else []))%list
  else [].

(** boundaryResidual, lines 934-1223 *)
Definition vd_boundary (w : wks) : list (nat * R) :=
  let ux := var_num w "ux" 0 in let uy := var_num w "uy" 0 in let uz := var_num w "uz" 0 in let T := var_num w "T" 0 in
  let neumann v nm :=
    if String.eqb (bcs w v) "Neumann" then
      fill w v v (fun k i => - (fn w ("Neumann " ++ nm ++ " " ++ sidename w) k * wt w k * bas w (usebasis w v) i k)) else [] in
  if (dim w =? 1)%nat then (neumann ux "ux" ++ neumann T "T")%list
  else if (dim w =? 2)%nat then (neumann ux "ux" ++ neumann uy "uy" ++ neumann T "T")%list
  else if (dim w =? 3)%nat then (neumann ux "ux" ++ neumann uy "uy" ++ neumann uz "uz" ++ neumann T "T")%list
  else [].

(** Integrated quantities of a closed system, lines 1238-1286, as numbers: for each
    quadrature point of the volume weight, temperature and heat source (gamma and RGas
    constant, the density that of the ideal gas, line 76), and for each point of the
    boundary weight, normal heat flux (lambda times the normal derivative of T) and
    normal velocity. *)
Record vpt := { v_wt : R; v_T : R; v_Q : R }.
Record bpt := { s_wt : R; s_heat : R; s_vel : R }.

Definition iq_flow (gamma : R) (vs : list vpt) (bs : list bpt) : list R :=
  [ sm vs (fun v => v_wt v * 1);
    sm vs (fun v => v_wt v * (v_Q v * (gamma - 1)));
    sm bs (fun b => s_wt b * ((gamma - 1) * s_heat b));
    sm bs (fun b => s_wt b * (gamma * s_vel b)) ].

Definition iq_closed (RGas p : R) (vs : list vpt) : list R :=
  [ sm vs (fun v => v_wt v * (p / (RGas * v_T v) * RGas)); sm vs (fun v => v_wt v * (1 / v_T v)) ].

(** updateIntegratedQuantitiesDependents, lines 1319-1366: new (p0, dp0dt). *)
Definition update_flow (iq : list R) (dt p : R) : R * R :=
  let iqs k := nth k iq 0 in
  let dp := 1 / iqs 0%nat * (iqs 3%nat + iqs 1%nat - p * iqs 2%nat) in
  (p + dt * dp, dp).

Definition update_closed (iq : list R) (dt p : R) : R * R :=
  let pnew := nth 0 iq 0 / nth 1 iq 0 in
  (pnew, (pnew - p) / dt).
