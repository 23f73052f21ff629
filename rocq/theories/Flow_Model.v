(** Incompressible flow: src/physics/stokes.cpp and src/physics/navierstokes.cpp. *)
From Coq Require Import Bool Arith Reals List String.
From Verif Require Import Sparse_Model Mass_Model BProj_Model Phys_Model.
Import ListNotations.
Local Open Scope R_scope.
Local Open Scope string_scope.

(** *** stokes.cpp, volumeResidual, lines 70-439. "source pr" is evaluated and not used. *)
Definition stokes_volume (usePSPG useLSIC : bool) (w : wks) : list (nat * R) :=
  let ux := var_num w "ux" 0 in let uy := var_num w "uy" 0 in
  let uz := var_num w "uz" 0 in let pr := var_num w "pr" 0 in
  let visc := fn w "viscosity" in
  let B v := bas w (usebasis w v) in let G v := bgr w (usebasis w v) in
  let h := hel w in let alpha := 1 in
  (if (dim w =? 1)%nat then
    fill w ux ux (fun pt dof =>
      let Fx := (visc pt * fld w "grad(ux)[x]" pt - fld w "pr" pt) * wt w pt in
      let g := - fn w "source ux" pt * wt w pt in
      Fx * G ux dof pt 0%nat + g * B ux dof pt) ++
    fill w pr pr (fun pt dof => fld w "grad(ux)[x]" pt * wt w pt * B pr dof pt) ++
    (if usePSPG then fill w pr pr (fun pt dof =>
      let tau := alpha * h * h / (2 * visc pt) in
      let stabres := fld w "grad(pr)[x]" pt + fn w "source ux" pt in
      tau * stabres * wt w pt * G pr dof pt 0%nat) else []) ++
    (if useLSIC then fill w pr pr (fun pt dof =>
      let tau := alpha * h * h / (2 * visc pt) in
      tau * fld w "grad(ux)[x]" pt * wt w pt * G pr dof pt 0%nat) else [])
  else [])%list ++
  (if (dim w =? 2)%nat then
    fill w ux ux (fun pt dof =>
      let Fx := (visc pt * fld w "grad(ux)[x]" pt - fld w "pr" pt) * wt w pt in
      let Fy := visc pt * fld w "grad(ux)[y]" pt * wt w pt in
      let g := - fn w "source ux" pt * wt w pt in
      Fx * G ux dof pt 0%nat + Fy * G ux dof pt 1%nat + g * B ux dof pt) ++
    fill w uy uy (fun pt dof =>
      let Fx := visc pt * fld w "grad(uy)[x]" pt * wt w pt in
      let Fy := (visc pt * fld w "grad(uy)[y]" pt - fld w "pr" pt) * wt w pt in
      let g := - fn w "source uy" pt * wt w pt in
      Fx * G uy dof pt 0%nat + Fy * G uy dof pt 1%nat + g * B uy dof pt) ++
    fill w pr pr (fun pt dof => (fld w "grad(ux)[x]" pt + fld w "grad(uy)[y]" pt) * wt w pt * B pr dof pt) ++
    (if usePSPG then fill w pr pr (fun pt dof =>
      let tau := alpha * h / (2 * visc pt) in
      let Sx := (fld w "grad(pr)[x]" pt + fn w "source ux" pt) * (tau * wt w pt) in
      let Sy := (fld w "grad(pr)[y]" pt + fn w "source uy" pt) * (tau * wt w pt) in
      Sx * G pr dof pt 0%nat + Sy * G pr dof pt 1%nat) else []) ++
    (if useLSIC then fill w pr pr (fun pt dof =>
      let tau := alpha * h * h / (2 * visc pt) in
      let S := tau * (fld w "grad(ux)[x]" pt + fld w "grad(uy)[y]" pt) * wt w pt in
      S * (G pr dof pt 0%nat + G pr dof pt 1%nat)) else [])
  else [])%list ++
  (if (dim w =? 3)%nat then
    fill w ux ux (fun pt dof =>
      let Fx := (visc pt * fld w "grad(ux)[x]" pt - fld w "pr" pt) * wt w pt in
      let Fy := visc pt * fld w "grad(ux)[y]" pt * wt w pt in
      let Fz := visc pt * fld w "grad(ux)[z]" pt * wt w pt in
      let g := - fn w "source ux" pt * wt w pt in
      Fx * G ux dof pt 0%nat + Fy * G ux dof pt 1%nat + Fz * G ux dof pt 2%nat + g * B ux dof pt) ++
    fill w uy uy (fun pt dof =>
      let Fx := visc pt * fld w "grad(uy)[x]" pt * wt w pt in
      let Fy := (visc pt * fld w "grad(uy)[y]" pt - fld w "pr" pt) * wt w pt in
      let Fz := visc pt * fld w "grad(uy)[z]" pt * wt w pt in
      let g := - fn w "source uy" pt * wt w pt in
      Fx * G uy dof pt 0%nat + Fy * G uy dof pt 1%nat + Fz * G uy dof pt 2%nat + g * B uy dof pt) ++
    fill w uz uz (fun pt dof =>
      let Fx := visc pt * fld w "grad(uz)[x]" pt * wt w pt in
      let Fy := visc pt * fld w "grad(uz)[y]" pt * wt w pt in
      let Fz := (visc pt * fld w "grad(uz)[z]" pt - fld w "pr" pt) * wt w pt in
      let g := - fn w "source uz" pt * wt w pt in
      Fx * G uz dof pt 0%nat + Fy * G uz dof pt 1%nat + Fz * G uz dof pt 2%nat + g * B uz dof pt) ++
    fill w pr pr (fun pt dof =>
      (fld w "grad(ux)[x]" pt + fld w "grad(uy)[y]" pt + fld w "grad(uz)[z]" pt) * wt w pt * B pr dof pt) ++
    (if usePSPG then fill w pr pr (fun pt dof =>
      let tau := alpha * h * h / (2 * visc pt) in
      let Sx := (fld w "grad(pr)[x]" pt + fn w "source ux" pt) * (tau * wt w pt) in
      let Sy := (fld w "grad(pr)[y]" pt + fn w "source uy" pt) * (tau * wt w pt) in
      let Sz := (fld w "grad(pr)[z]" pt + fn w "source uz" pt) * (tau * wt w pt) in
      Sx * G pr dof pt 0%nat + Sy * G pr dof pt 1%nat + Sz * G pr dof pt 2%nat) else []) ++
    (if useLSIC then fill w pr pr (fun pt dof =>
      let tau := alpha * h * h / (2 * visc pt) in
      let S := tau * (fld w "grad(ux)[x]" pt + fld w "grad(uy)[y]" pt + fld w "grad(uz)[z]" pt) * wt w pt in
      S * (G pr dof pt 0%nat + G pr dof pt 1%nat + G pr dof pt 2%nat)) else [])
  else [])%list.

(** *** navierstokes.cpp *)

(** computeTau, lines 1054-1082 *)
Definition ns_tau (localdiff xvl yvl zvl h : R) (spaceDim : nat) (dt : R) (transient : bool) : R :=
  let C1 := 4 in let C2 := 2 in let C3 := if transient then 2 else 0 in
  let nvel := if (spaceDim =? 1)%nat then xvl * xvl
              else if (spaceDim =? 2)%nat then xvl * xvl + yvl * yvl
              else if (spaceDim =? 3)%nat then xvl * xvl + yvl * yvl + zvl * zvl else 0 in
  let nvel := if Rlt_dec (1 / 1000000000000) nvel then sqrt nvel else nvel in
  let tau := (C1 * localdiff / h / h) * (C1 * localdiff / h / h) + (C2 * nvel / h) * (C2 * nvel / h) + (C3 / dt) * (C3 / dt) in
  1 / sqrt tau.

Record ns_set := { useSUPG : bool; nsPSPG : bool; T_ambient : R; beta : R }.

(** volumeResidual, lines 82-848; have_energy is set in setWorkset, lines 1026-1046.
    "source pr" is evaluated and not used. *)
Definition ns_volume (s : ns_set) (w : wks) : list (nat * R) :=
  let ux := var_num w "ux" 0 in let uy := var_num w "uy" 0 in
  let uz := var_num w "uz" 0 in let pr := var_num w "pr" 0 in
  let have_energy := has_var w "e" in
  let dens := fn w "density" in let visc := fn w "viscosity" in
  let B v := bas w (usebasis w v) in let G v := bgr w (usebasis w v) in
  let tau x y z pt := ns_tau (visc pt) x y z (hel w) (dim w) (deltat w) (isTransient w) in
  let en src pt := dens pt * beta s * (fld w "e" pt - T_ambient s) * fn w src pt in
  if (dim w =? 1)%nat then
    (* lines 106-196 *)
    let U := fld w "ux" in
    let sx pt := dens pt * fld w "ux_t" pt + dens pt * (U pt * fld w "grad(ux)[x]" pt) + fld w "grad(pr)[x]" pt
                 - dens pt * fn w "source ux" pt in
    (fill w ux ux (fun pt dof =>
      let Fx := (visc pt * fld w "grad(ux)[x]" pt - fld w "pr" pt) * wt w pt in
      let F := (fld w "ux_t" pt + U pt * fld w "grad(ux)[x]" pt - fn w "source ux" pt) * (dens pt * wt w pt) in
      Fx * G ux dof pt 0%nat + F * B ux dof pt) ++
    (if have_energy then fill w ux ux (fun pt dof => en "source ux" pt * wt w pt * B ux dof pt) else []) ++
    (if useSUPG s then
      fill w ux ux (fun pt dof => tau (U pt) 0 0 pt * sx pt * U pt * wt w pt * G ux dof pt 0%nat) ++
      (if have_energy then fill w ux ux (fun pt dof => tau (U pt) 0 0 pt * en "source ux" pt * U pt * wt w pt * G ux dof pt 0%nat) else [])
     else []) ++
    fill w pr pr (fun pt dof => fld w "grad(ux)[x]" pt * wt w pt * B pr dof pt) ++
    (if nsPSPG s then
      fill w pr pr (fun pt dof => tau (U pt) 0 0 pt * sx pt * wt w pt / dens pt * G pr dof pt 0%nat) ++
      (if have_energy then fill w pr pr (fun pt dof => tau (U pt) 0 0 pt * en "source ux" pt * wt w pt * G pr dof pt 0%nat) else [])
     else []))%list
  else if (dim w =? 2)%nat then
    (* lines 245-489 *)
    let U := fld w "ux" in let V := fld w "uy" in
    let sx pt := dens pt * fld w "ux_t" pt + dens pt * (U pt * fld w "grad(ux)[x]" pt + V pt * fld w "grad(ux)[y]" pt)
                 + fld w "grad(pr)[x]" pt - dens pt * fn w "source ux" pt in
    let sy pt := dens pt * fld w "uy_t" pt + dens pt * (U pt * fld w "grad(uy)[x]" pt + V pt * fld w "grad(uy)[y]" pt)
                 + fld w "grad(pr)[y]" pt - dens pt * fn w "source uy" pt in
    let t pt := tau (U pt) (V pt) 0 pt in
    let supg v s pt dof := t pt * s pt * U pt * wt w pt * G v dof pt 0%nat + t pt * s pt * V pt * wt w pt * G v dof pt 1%nat in
    (fill w ux ux (fun pt dof =>
      let Fx := (visc pt * fld w "grad(ux)[x]" pt - fld w "pr" pt) * wt w pt in
      let Fy := visc pt * fld w "grad(ux)[y]" pt * wt w pt in
      let F := (fld w "ux_t" pt + U pt * fld w "grad(ux)[x]" pt + V pt * fld w "grad(ux)[y]" pt - fn w "source ux" pt) * (dens pt * wt w pt) in
      Fx * G ux dof pt 0%nat + Fy * G ux dof pt 1%nat + F * B ux dof pt) ++
    (if have_energy then fill w ux ux (fun pt dof => en "source ux" pt * wt w pt * B ux dof pt) else []) ++
    (if useSUPG s then
      fill w ux ux (supg ux sx) ++ (if have_energy then fill w ux ux (supg ux (en "source ux")) else []) else []) ++
    fill w uy uy (fun pt dof =>
      let Fx := visc pt * fld w "grad(uy)[x]" pt * wt w pt in
      let Fy := (visc pt * fld w "grad(uy)[y]" pt - fld w "pr" pt) * wt w pt in
      let F := (fld w "uy_t" pt + U pt * fld w "grad(uy)[x]" pt + V pt * fld w "grad(uy)[y]" pt - fn w "source uy" pt) * (dens pt * wt w pt) in
      Fx * G uy dof pt 0%nat + Fy * G uy dof pt 1%nat + F * B uy dof pt) ++
    (if have_energy then fill w uy uy (fun pt dof => en "source uy" pt * wt w pt * B uy dof pt) else []) ++
    (if useSUPG s then
      fill w uy uy (supg uy sy) ++ (if have_energy then fill w uy uy (supg uy (en "source uy")) else []) else []) ++
    fill w pr pr (fun pt dof => (fld w "grad(ux)[x]" pt + fld w "grad(uy)[y]" pt) * wt w pt * B pr dof pt) ++
    (if nsPSPG s then
      fill w pr pr (fun pt dof =>
        let Sx := sx pt * (t pt * wt w pt / dens pt) in let Sy := sy pt * (t pt * wt w pt / dens pt) in
        Sx * G pr dof pt 0%nat + Sy * G pr dof pt 1%nat) ++
      (if have_energy then fill w pr pr (fun pt dof =>
        let Sx := en "source ux" pt * (t pt * wt w pt) in let Sy := en "source uy" pt * (t pt * wt w pt) in
        Sx * G pr dof pt 0%nat + Sy * G pr dof pt 1%nat) else [])
     else []))%list
  else if (dim w =? 3)%nat then
    (* lines 490-846 *)
    let U := fld w "ux" in let V := fld w "uy" in let W := fld w "uz" in
    let sx pt := dens pt * fld w "ux_t" pt + dens pt * (U pt * fld w "grad(ux)[x]" pt + V pt * fld w "grad(ux)[y]" pt
                   + W pt * fld w "grad(ux)[z]" pt) + fld w "grad(pr)[x]" pt - dens pt * fn w "source ux" pt in
    let sy pt := dens pt * fld w "uy_t" pt + dens pt * (U pt * fld w "grad(uy)[x]" pt + V pt * fld w "grad(uy)[y]" pt
                   + W pt * fld w "grad(uy)[z]" pt) + fld w "grad(pr)[y]" pt - dens pt * fn w "source uy" pt in
    let sz pt := dens pt * fld w "uz_t" pt + dens pt * (U pt * fld w "grad(uz)[x]" pt + V pt * fld w "grad(uz)[y]" pt
                   + W pt * fld w "grad(uz)[z]" pt) + fld w "grad(pr)[z]" pt - dens pt * fn w "source uz" pt in
    let t pt := tau (U pt) (V pt) (W pt) pt in
    let supg v s pt dof := t pt * s pt * U pt * wt w pt * G v dof pt 0%nat + t pt * s pt * V pt * wt w pt * G v dof pt 1%nat
                           + t pt * s pt * W pt * wt w pt * G v dof pt 2%nat in
    (fill w ux ux (fun pt dof =>
      let Fx := (visc pt * fld w "grad(ux)[x]" pt - fld w "pr" pt) * wt w pt in
      let Fy := visc pt * fld w "grad(ux)[y]" pt * wt w pt in
      let Fz := visc pt * fld w "grad(ux)[z]" pt * wt w pt in
      let F := (fld w "ux_t" pt + U pt * fld w "grad(ux)[x]" pt + V pt * fld w "grad(ux)[y]" pt + W pt * fld w "grad(ux)[z]" pt
                - fn w "source ux" pt) * (dens pt * wt w pt) in
      Fx * G ux dof pt 0%nat + Fy * G ux dof pt 1%nat + Fz * G ux dof pt 2%nat + F * B ux dof pt) ++
    (if have_energy then fill w ux ux (fun pt dof => en "source ux" pt * wt w pt * B ux dof pt) else []) ++
    (if useSUPG s then
      fill w ux ux (supg ux sx) ++ (if have_energy then fill w ux ux (supg ux (en "source ux")) else []) else []) ++
    fill w uy uy (fun pt dof =>
      let Fx := visc pt * fld w "grad(uy)[x]" pt * wt w pt in
      let Fy := (visc pt * fld w "grad(uy)[y]" pt - fld w "pr" pt) * wt w pt in
      let Fz := visc pt * fld w "grad(uy)[z]" pt * wt w pt in
      let F := (fld w "uy_t" pt + U pt * fld w "grad(uy)[x]" pt + V pt * fld w "grad(uy)[y]" pt + W pt * fld w "grad(uy)[z]" pt
                - fn w "source uy" pt) * (dens pt * wt w pt) in
      Fx * G uy dof pt 0%nat + Fy * G uy dof pt 1%nat + Fz * G uy dof pt 2%nat + F * B uy dof pt) ++
    (if have_energy then fill w uy uy (fun pt dof => en "source uy" pt * wt w pt * B uy dof pt) else []) ++
    (if useSUPG s then
      fill w uy uy (supg uy sy) ++ (if have_energy then fill w uy uy (supg uy (en "source uy")) else []) else []) ++
    (* lines 675-755: basis of uz, and off is the row of uy in wkset->offsets (line 688) *)
    fill w uz uy (fun pt dof =>
      let Fx := visc pt * fld w "grad(uz)[x]" pt * wt w pt in
      let Fy := visc pt * fld w "grad(uz)[y]" pt * wt w pt in
      let Fz := (visc pt * fld w "grad(uz)[z]" pt - fld w "pr" pt) * wt w pt in
      let F := (fld w "uz_t" pt + U pt * fld w "grad(uz)[x]" pt + V pt * fld w "grad(uz)[y]" pt + W pt * fld w "grad(uz)[z]" pt
                - fn w "source uz" pt) * (dens pt * wt w pt) in
      Fx * G uz dof pt 0%nat + Fy * G uz dof pt 1%nat + Fz * G uz dof pt 2%nat + F * B uz dof pt) ++
    (if have_energy then fill w uz uy (fun pt dof => en "source uz" pt * wt w pt * B uz dof pt) else []) ++
    (if useSUPG s then
      fill w uz uy (supg uz sz) ++ (if have_energy then fill w uz uy (supg uz (en "source uz")) else []) else []) ++
    fill w pr pr (fun pt dof =>
      (fld w "grad(ux)[x]" pt + fld w "grad(uy)[y]" pt + fld w "grad(uz)[z]" pt) * wt w pt * B pr dof pt) ++
    (if nsPSPG s then
      fill w pr pr (fun pt dof =>
        let Sx := sx pt * (t pt * wt w pt / dens pt) in let Sy := sy pt * (t pt * wt w pt / dens pt) in
        let Sz := sz pt * (t pt * wt w pt / dens pt) in
        Sx * G pr dof pt 0%nat + Sy * G pr dof pt 1%nat + Sz * G pr dof pt 2%nat) ++
      (if have_energy then fill w pr pr (fun pt dof =>
        let Sx := en "source ux" pt * (t pt * wt w pt) in let Sy := en "source uy" pt * (t pt * wt w pt) in
        let Sz := en "source uz" pt * (t pt * wt w pt) in
        Sx * G pr dof pt 0%nat + Sy * G pr dof pt 1%nat + Sz * G pr dof pt 2%nat) else [])
     else []))%list
  else [].

(** boundaryResidual, lines 855-1010. *)
Definition ns_boundary (w : wks) : list (nat * R) :=
  let ux := var_num w "ux" 0 in let uy := var_num w "uy" 0 in let uz := var_num w "uz" 0 in
  let ux_sidetype := bcs w ux in
  let uy_sidetype := if (1 <? dim w)%nat then bcs w uy else "Dirichlet" in
  let uz_sidetype := if (2 <? dim w)%nat then bcs w uz else "Dirichlet" in
  let neumann v nm := fill w v v (fun k i => - fn w ("Neumann " ++ nm ++ " " ++ sidename w) k * bas w (usebasis w v) i k * wt w k) in
  if negb (String.eqb ux_sidetype "Dirichlet") || negb (String.eqb uy_sidetype "Dirichlet") || negb (String.eqb uz_sidetype "Dirichlet") then
    if (dim w =? 1)%nat then
      (if String.eqb ux_sidetype "Neumann" then neumann ux "ux" else [])
    else if (dim w =? 2)%nat then
      ((if String.eqb ux_sidetype "Neumann" then neumann ux "ux" else []) ++
       (if String.eqb uy_sidetype "Neumann" then neumann uy "uy" else []))%list
    else if (dim w =? 3)%nat then
      ((if String.eqb ux_sidetype "Neumann" then neumann ux "ux" else []) ++
       (if String.eqb uy_sidetype "Neumann" then neumann uy "uy" else []) ++
       (if String.eqb uz_sidetype "Neumann" then neumann uz "uz" else []))%list
    else []
  else [].
