(** Finite strain elasticity (src/physics/neohookean.cpp) and first-order elastodynamics
    (src/physics/elastodynamics.cpp). *)
From Coq Require Import Bool Arith Reals String List.
From Verif Require Import Sparse_Model Mass_Model BProj_Model Phys_Model Elast_Model.
Import ListNotations.
Local Open Scope R_scope.
Local Open Scope string_scope.

(** neohookean.cpp, lines 56-62: "form_param" (default 1.0) and "penalty" (default 10.0); the
    first is stored and not used. *)
Record nh_set := { nh_form : R; nh_penalty : R }.

(** The entries of the deformation gradient, lines 826, 852-855, 895-903. *)
Definition nhF (w : wks) (i j k : nat) : R :=
  match i, j with
  | 0%nat, 0%nat => 1 + fld w "grad(dx)[x]" k
  | 0%nat, 1%nat => fld w "grad(dx)[y]" k
  | 0%nat, 2%nat => fld w "grad(dx)[z]" k
  | 1%nat, 0%nat => fld w "grad(dy)[x]" k
  | 1%nat, 1%nat => 1 + fld w "grad(dy)[y]" k
  | 1%nat, 2%nat => fld w "grad(dy)[z]" k
  | 2%nat, 0%nat => fld w "grad(dz)[x]" k
  | 2%nat, 1%nat => fld w "grad(dz)[y]" k
  | 2%nat, 2%nat => 1 + fld w "grad(dz)[z]" k
  | _, _ => 0
  end.

(** computeStress, lines 806-942: entry (i,j) at point k. *)
Definition nh_stress (w : wks) (i j k : nat) : R :=
  let lam := fn w "lambda" k in let mu := fn w "mu" k in
  let F i j := nhF w i j k in
  let F00 := F 0%nat 0%nat in let F01 := F 0%nat 1%nat in let F02 := F 0%nat 2%nat in
  let F10 := F 1%nat 0%nat in let F11 := F 1%nat 1%nat in let F12 := F 1%nat 2%nat in
  let F20 := F 2%nat 0%nat in let F21 := F 2%nat 1%nat in let F22 := F 2%nat 2%nat in
  if (dim w =? 1)%nat then
    match i, j with
    | 0%nat, 0%nat => let coeff := lam * ln F00 - mu in mu * F00 + coeff / F00
    | _, _ => 0
    end
  else if (dim w =? 2)%nat then
    let J := F00 * F11 - F01 * F10 in
    let coeff := (lam * ln J - mu) / J in
    match i, j with
    | 0%nat, 0%nat => mu * F00 + coeff * F11
    | 0%nat, 1%nat => mu * F01 + coeff * (- F01)
    | 1%nat, 0%nat => mu * F10 + coeff * (- F10)
    | 1%nat, 1%nat => mu * F11 + coeff * F00
    | _, _ => 0
    end
  else if (dim w =? 3)%nat then
    let cof00 := F11 * F22 - F12 * F21 in
    let cof01 := F12 * F20 - F10 * F22 in
    let cof02 := F10 * F21 - F11 * F20 in
    let cof10 := F02 * F21 - F01 * F22 in
    let cof11 := F00 * F22 - F02 * F20 in
    let cof12 := F01 * F20 - F00 * F21 in
    let cof20 := F01 * F12 - F02 * F11 in
    let cof21 := F02 * F10 - F00 * F12 in
    let cof22 := F00 * F11 - F01 * F10 in
    let J := F00 * cof00 + F01 * cof01 + F02 * cof02 in
    let coeff := (lam * ln J - mu) / J in
    match i, j with
    | 0%nat, 0%nat => mu * F00 + coeff * cof00
    | 0%nat, 1%nat => mu * F01 + coeff * cof01
    | 0%nat, 2%nat => mu * F02 + coeff * cof02
    | 1%nat, 0%nat => mu * F10 + coeff * cof10
    | 1%nat, 1%nat => mu * F11 + coeff * cof11
    | 1%nat, 2%nat => mu * F12 + coeff * cof12
    | 2%nat, 0%nat => mu * F20 + coeff * cof20
    | 2%nat, 1%nat => mu * F21 + coeff * cof21
    | 2%nat, 2%nat => mu * F22 + coeff * cof22
    | _, _ => 0
    end
  else 0.

(** volumeResidual, lines 99-246. *)
Definition nh_volume (w : wks) : list (nat * R) :=
  let dx := var_num w "dx" 0 in let dy := var_num w "dy" 0 in let dz := var_num w "dz" 0 in
  let stress pt i j := nh_stress w i j pt in
  let B v := bas w (usebasis w v) in let G v := bgr w (usebasis w v) in
  if (dim w =? 1)%nat then
    fill w dx dx (fun pt dof => (stress pt 0%nat 0%nat * G dx dof pt 0%nat - fn w "source dx" pt * B dx dof pt) * wt w pt)
  else if (dim w =? 2)%nat then
    (fill w dx dx (fun pt dof => (stress pt 0%nat 0%nat * G dx dof pt 0%nat + stress pt 0%nat 1%nat * G dx dof pt 1%nat
                                 - fn w "source dx" pt * B dx dof pt) * wt w pt) ++
    fill w dy dy (fun pt dof => (stress pt 1%nat 0%nat * G dy dof pt 0%nat + stress pt 1%nat 1%nat * G dy dof pt 1%nat
                                 - fn w "source dy" pt * B dy dof pt) * wt w pt))%list
  else if (dim w =? 3)%nat then
    (fill w dx dx (fun pt dof => (stress pt 0%nat 0%nat * G dx dof pt 0%nat + stress pt 0%nat 1%nat * G dx dof pt 1%nat
                                 + stress pt 0%nat 2%nat * G dx dof pt 2%nat - fn w "source dx" pt * B dx dof pt) * wt w pt) ++
    fill w dy dy (fun pt dof => (stress pt 1%nat 0%nat * G dy dof pt 0%nat + stress pt 1%nat 1%nat * G dy dof pt 1%nat
                                 + stress pt 1%nat 2%nat * G dy dof pt 2%nat - fn w "source dy" pt * B dy dof pt) * wt w pt) ++
    fill w dz dz (fun pt dof => (stress pt 2%nat 0%nat * G dz dof pt 0%nat + stress pt 2%nat 1%nat * G dz dof pt 1%nat
                                 + stress pt 2%nat 2%nat * G dz dof pt 2%nat - fn w "source dz" pt * B dz dof pt) * wt w pt))%list
  else [].

(** boundaryResidual, lines 255-606. The loops of component c (lines 306-352, 359-407, 411-455
    and so on) differ in the names and in the row of the stress only. The types of the side are
    read as for linear elasticity ([le_type]). *)
Definition nh_wd (s : nh_set) (w : wks) (c : nat) (g : nat -> R) : list (nat * R) :=
  let v := var_num w (le_comp c) 0 in let B := bas w (usebasis w v) in
  let nx := fld w "n[x]" in let ny := fld w "n[y]" in let nz := fld w "n[z]" in
  fill w v v (fun k i =>
    let penalty := nh_penalty s * (fn w "lambda" k + 2 * fn w "mu" k) / hel w in
    let delta := fld w (le_comp c) k - g k in
    let pull := if (dim w =? 1)%nat then - nh_stress w c 0 k * nx k
                else if (dim w =? 2)%nat then - nh_stress w c 0 k * nx k - nh_stress w c 1 k * ny k
                else - nh_stress w c 0 k * nx k - nh_stress w c 1 k * ny k - nh_stress w c 2 k * nz k in
    (pull * B i k + penalty * delta * B i k) * wt w k).
Definition nh_side (s : nh_set) (w : wks) (c : nat) : list (nat * R) :=
  let v := var_num w (le_comp c) 0 in
  if String.eqb (le_type w c) "Neumann" then
    fill w v v (fun k i => (- fn w ("Neumann " ++ le_comp c ++ " " ++ sidename w) k * bas w (usebasis w v) i k) * wt w k)
  else if String.eqb (le_type w c) "weak Dirichlet" then nh_wd s w c (fn w ("Dirichlet " ++ le_comp c ++ " " ++ sidename w))
  else if String.eqb (le_type w c) "interface" then nh_wd s w c (fld w ("aux " ++ le_comp c))
  else [].
Definition nh_boundary (s : nh_set) (w : wks) : list (nat * R) :=
  if negb (String.eqb (le_type w 0) "Dirichlet") || negb (String.eqb (le_type w 1) "Dirichlet")
     || negb (String.eqb (le_type w 2) "Dirichlet") then
    if (dim w =? 1)%nat then nh_side s w 0
    else if (dim w =? 2)%nat then (nh_side s w 0 ++ nh_side s w 1)%list
    else if (dim w =? 3)%nat then (nh_side s w 0 ++ nh_side s w 1 ++ nh_side s w 2)%list
    else []
  else [].

(** computeFlux, lines 614-772. [unset]: a source that no branch evaluates; [old]: what the flux
    array holds (in three dimensions other types are not written). *)
Definition nh_flux_source (unset : nat -> R) (w : wks) (c : nat) : nat -> R :=
  if String.eqb (le_type w c) "interface" then fld w ("aux " ++ le_comp c)
  else if (String.eqb (le_type w c) "weak Dirichlet" || String.eqb (le_type w c) "Dirichlet")%bool
       then fn w ("Dirichlet " ++ le_comp c ++ " " ++ sidename w)
  else unset.
Definition nh_flux (s : nh_set) (unset old : nat -> R) (w : wks) (c k : nat) : R :=
  let nx := fld w "n[x]" in let ny := fld w "n[y]" in let nz := fld w "n[z]" in
  let penalty := nh_penalty s / hel w * (fn w "lambda" k + 2 * fn w "mu" k) in
  let pen := penalty * (nh_flux_source unset w c k - fld w (le_comp c) k) in
  if (dim w =? 1)%nat then 1 * nh_stress w c 0 k * nx k + pen
  else if (dim w =? 2)%nat then 1 * (nh_stress w c 0 k * nx k + nh_stress w c 1 k * ny k) + pen
  else if (dim w =? 3)%nat then
    if (String.eqb (le_type w c) "interface" || String.eqb (le_type w c) "weak Dirichlet" || String.eqb (le_type w c) "Dirichlet")%bool
    then 1 * (nh_stress w c 0 k * nx k + nh_stress w c 1 k * ny k + nh_stress w c 2 k * nz k) + pen
    else old k
  else old k.

(** getDerivedValues, lines 956-1058: von Mises stress and stress magnitude of the Cauchy stress. *)
Definition nh_cauchy (w : wks) (i j k : nat) : R :=
  let P i j := nh_stress w i j k in let F i j := nhF w i j k in
  if (dim w =? 2)%nat then
    let J := F 0%nat 0%nat * F 1%nat 1%nat - F 0%nat 1%nat * F 1%nat 0%nat in
    1 / J * (P i 0%nat * F j 0%nat + P i 1%nat * F j 1%nat)
  else
    let J := F 0%nat 0%nat * (F 1%nat 1%nat * F 2%nat 2%nat - F 1%nat 2%nat * F 2%nat 1%nat)
           - F 0%nat 1%nat * (F 1%nat 0%nat * F 2%nat 2%nat - F 1%nat 2%nat * F 2%nat 0%nat)
           + F 0%nat 2%nat * (F 1%nat 0%nat * F 2%nat 1%nat - F 1%nat 1%nat * F 2%nat 0%nat) in
    1 / J * (P i 0%nat * F j 0%nat + P i 1%nat * F j 1%nat + P i 2%nat * F j 2%nat).
Definition nh_vm (w : wks) (k : nat) : R :=
  let S i j := nh_cauchy w i j k in
  if (dim w =? 1)%nat then
    let sxx := nh_stress w 0 0 k * nhF w 0 0 k / nhF w 0 0 k in sqrt (sxx * sxx)
  else if (dim w =? 2)%nat then
    let sxx := S 0%nat 0%nat in let syy := S 1%nat 1%nat in
    let avg := 1 / 2 * (S 0%nat 1%nat + S 1%nat 0%nat) in
    sqrt (sxx * sxx - sxx * syy + syy * syy + 3 * avg * avg)
  else
    let sxx := S 0%nat 0%nat in let syy := S 1%nat 1%nat in let szz := S 2%nat 2%nat in
    let sxy := S 0%nat 1%nat in let syz := S 1%nat 2%nat in let sxz := S 0%nat 2%nat in
    sqrt (1 / 2 * ((sxx - syy) * (sxx - syy) + (syy - szz) * (syy - szz) + (szz - sxx) * (szz - sxx))
          + 3 * (sxy * sxy + syz * syz + sxz * sxz)).
Definition nh_mag (w : wks) (k : nat) : R :=
  let S i j := nh_cauchy w i j k in
  if (dim w =? 1)%nat then
    let sxx := nh_stress w 0 0 k * nhF w 0 0 k / nhF w 0 0 k in sqrt (sxx * sxx)
  else if (dim w =? 2)%nat then sqrt (S 0%nat 0%nat * S 0%nat 0%nat + S 1%nat 1%nat * S 1%nat 1%nat)
  else sqrt (S 0%nat 0%nat * S 0%nat 0%nat + S 1%nat 1%nat * S 1%nat 1%nat + S 2%nat 2%nat * S 2%nat 2%nat).

(** elastodynamics.cpp, volumeResidual, lines 93-344: momentum balance in the rows of the
    displacements, the definition of the momenta in the rows of vx, vy, vz. In three dimensions
    the loop for vy (lines 310-325) takes the basis of vy and the rows of vx. computeStress, the
    boundary terms, the flux and the derived fields are those of linear elasticity, line by
    line ([le_stress], [le_boundary], [le_flux]). *)
Definition ed_volume (s : le_set) (w : wks) : list (nat * R) :=
  let dx := var_num w "dx" 0 in let dy := var_num w "dy" 0 in let dz := var_num w "dz" 0 in
  let vx := var_num w "vx" 0 in let vy := var_num w "vy" 0 in let vz := var_num w "vz" 0 in
  let stress pt i j := le_stress s w i j pt in
  let B v := bas w (usebasis w v) in let G v := bgr w (usebasis w v) in
  let rho := fn w "rho" in
  if (dim w =? 1)%nat then
    (fill w dx dx (fun pt dof => (stress pt 0%nat 0%nat * G dx dof pt 0%nat
                                 + (fld w "vx_t" pt - fn w "source dx" pt) * B dx dof pt) * wt w pt) ++
     fill w vx vx (fun pt dof => (rho pt * fld w "dx_t" pt - fld w "vx" pt) * B vx dof pt * wt w pt))%list
  else if (dim w =? 2)%nat then
    (fill w dx dx (fun pt dof => (stress pt 0%nat 0%nat * G dx dof pt 0%nat + stress pt 0%nat 1%nat * G dx dof pt 1%nat
                                 + (fld w "vx_t" pt - fn w "source dx" pt) * B dx dof pt) * wt w pt) ++
     fill w dy dy (fun pt dof => (stress pt 1%nat 0%nat * G dy dof pt 0%nat + stress pt 1%nat 1%nat * G dy dof pt 1%nat
                                 + (fld w "vy_t" pt - fn w "source dy" pt) * B dy dof pt) * wt w pt) ++
     fill w vx vx (fun pt dof => (rho pt * fld w "dx_t" pt - fld w "vx" pt) * B vx dof pt * wt w pt) ++
     fill w vy vy (fun pt dof => (rho pt * fld w "dy_t" pt - fld w "vy" pt) * B vy dof pt * wt w pt))%list
  else if (dim w =? 3)%nat then
    (fill w dx dx (fun pt dof => (stress pt 0%nat 0%nat * G dx dof pt 0%nat + stress pt 0%nat 1%nat * G dx dof pt 1%nat
                                 + stress pt 0%nat 2%nat * G dx dof pt 2%nat
                                 + (fld w "vx_t" pt - fn w "source dx" pt) * B dx dof pt) * wt w pt) ++
     fill w dy dy (fun pt dof => (stress pt 1%nat 0%nat * G dy dof pt 0%nat + stress pt 1%nat 1%nat * G dy dof pt 1%nat
                                 + stress pt 1%nat 2%nat * G dy dof pt 2%nat
                                 + (fld w "vy_t" pt - fn w "source dy" pt) * B dy dof pt) * wt w pt) ++
     fill w dz dz (fun pt dof => (stress pt 2%nat 0%nat * G dz dof pt 0%nat + stress pt 2%nat 1%nat * G dz dof pt 1%nat
                                 + stress pt 2%nat 2%nat * G dz dof pt 2%nat
                                 + (fld w "vz_t" pt - fn w "source dz" pt) * B dz dof pt) * wt w pt) ++
     fill w vx vx (fun pt dof => (rho pt * fld w "dx_t" pt - fld w "vx" pt) * B vx dof pt * wt w pt) ++
     fill w vy vx (fun pt dof => (rho pt * fld w "dy_t" pt - fld w "vy" pt) * B vy dof pt * wt w pt) ++
     fill w vz vz (fun pt dof => (rho pt * fld w "dz_t" pt - fld w "vz" pt) * B vz dof pt * wt w pt))%list
  else [].
