(** Linear elasticity: src/physics/linearelasticity.cpp. Not modelled: crystal elasticity
    ("use crystal elasticity"), which replaces computeStress. *)
From Coq Require Import Bool Arith Reals List String.
From Verif Require Import Sparse_Model Mass_Model BProj_Model Phys_Model.
Import ListNotations.
Local Open Scope R_scope.
Local Open Scope string_scope.

(** Settings, lines 42-60. "use Lame parameters" is read and not used. *)
Record le_set := { incplanestress : bool; addBiot : bool; le_form : R; le_penalty : R; biot_alpha : R;
                   le_T_ambient : R; alpha_T : R }.

(** computeStress, lines 915-1272: entry (i,j) at a point. The text is there twice, for sides
    and for volumes, and is the same. The last Biot block (lines 1090-1101 and 1259-1270)
    stands behind the test of the dimension, so it runs in every dimension. *)
Definition le_stress (s : le_set) (w : wks) (i j k : nat) : R :=
  let lam := fn w "lambda" k in let mu := fn w "mu" k in
  let T c := if has_var w "T" then - alpha_T s * (fld w "T" k - le_T_ambient s) * c else 0 in
  let p1 := if addBiot s then biot_alpha s * fld w "p" k else 0 in
  let p2 := if addBiot s then - biot_alpha s * fld w "p" k else 0 in
  let ddx_dx := fld w "grad(dx)[x]" k in let ddx_dy := fld w "grad(dx)[y]" k in let ddx_dz := fld w "grad(dx)[z]" k in
  let ddy_dx := fld w "grad(dy)[x]" k in let ddy_dy := fld w "grad(dy)[y]" k in let ddy_dz := fld w "grad(dy)[z]" k in
  let ddz_dx := fld w "grad(dz)[x]" k in let ddz_dy := fld w "grad(dz)[y]" k in let ddz_dz := fld w "grad(dz)[z]" k in
  if (dim w =? 1)%nat then
    match i, j with
    | 0%nat, 0%nat => (if incplanestress s then 4 * mu * ddx_dx + T (5 * mu)
                       else (2 * mu + lam) * ddx_dx + T (3 * lam + 2 * mu)) + p1 + p2
    | _, _ => 0
    end
  else if (dim w =? 2)%nat then
    match i, j with
    | 0%nat, 0%nat => (if incplanestress s then 4 * mu * ddx_dx + 2 * mu * ddy_dy + T (5 * mu)
                       else (2 * mu + lam) * ddx_dx + lam * ddy_dy + T (3 * lam + 2 * mu)) + p2 + p2
    | 0%nat, 1%nat | 1%nat, 0%nat => mu * (ddx_dy + ddy_dx)
    | 1%nat, 1%nat => (if incplanestress s then 4 * mu * ddy_dy + 2 * mu * ddx_dx + T (5 * mu)
                       else (2 * mu + lam) * ddy_dy + lam * ddx_dx + T (3 * lam + 2 * mu)) + p2 + p2
    | _, _ => 0
    end
  else if (dim w =? 3)%nat then
    match i, j with
    | 0%nat, 0%nat => (2 * mu + lam) * ddx_dx + lam * (ddy_dy + ddz_dz) + T (3 * lam + 2 * mu) + p2
    | 0%nat, 1%nat | 1%nat, 0%nat => mu * (ddx_dy + ddy_dx)
    | 0%nat, 2%nat | 2%nat, 0%nat => mu * (ddx_dz + ddz_dx)
    | 1%nat, 1%nat => (2 * mu + lam) * ddy_dy + lam * (ddx_dx + ddz_dz) + T (3 * lam + 2 * mu) + p2
    | 1%nat, 2%nat | 2%nat, 1%nat => mu * (ddy_dz + ddz_dy)
    | 2%nat, 2%nat => (2 * mu + lam) * ddz_dz + lam * (ddx_dx + ddy_dy) + T (3 * lam + 2 * mu) + p2
    | _, _ => 0
    end
  else 0.
(** The entries the last Biot block adds to; the array has extents dim and dim (lines 80-84).
    Entries out of range are not followed up above (what they hit depends on the layout). *)
Definition le_biot_entries (s : le_set) : list (nat * nat) :=
  if addBiot s then [(0, 0); (1, 1); (2, 2)]%nat else [].

(** volumeResidual, lines 91-236. *)
Definition le_volume (s : le_set) (w : wks) : list (nat * R) :=
  let dx := var_num w "dx" 0 in let dy := var_num w "dy" 0 in let dz := var_num w "dz" 0 in
  let stress pt i j := le_stress s w i j pt in
  let B v := bas w (usebasis w v) in let G v := bgr w (usebasis w v) in
  if (dim w =? 1)%nat then
    fill w dx dx (fun pt dof => (stress pt 0%nat 0%nat * G dx dof pt 0%nat - fn w "source dx" pt * B dx dof pt) * wt w pt)
  else if (dim w =? 2)%nat then
        (fill w dx dx (fun pt dof => (stress pt 0%nat 0%nat * G dx dof pt 0%nat + stress pt 0%nat 1%nat * G dx dof pt 1%nat
                                 - fn w "source dx" pt * B dx dof pt) * wt w pt) ++
    fill w dy dy (fun pt dof => (stress pt 1%nat 0%nat * G dy dof pt 0%nat + stress pt 1%nat 1%nat * G dy dof pt 1%nat
                                 - fn w "source dy" pt * B dy dof pt) * wt w pt))%list
  else if (dim w =? 3)%nat then
        (fill w dx dx (fun pt dof => (stress pt 0%nat 0%nat * G dx dof pt 0%nat + stress pt 0%nat 1%nat * G dx dof pt 1%nat
                                 + stress pt 0%nat 2%nat * G dx dof pt 2%nat - fn w "source dx" pt * B dx dof pt) * wt w pt) ++
    fill w dy dy (fun pt dof => (stress pt 1%nat 0%nat * G dy dof pt 0%nat + stress pt 1%nat 1%nat * G dy dof pt 1%nat
                                 + stress pt 1%nat 2%nat * G dy dof pt 2%nat - fn w "source dy" pt * B dy dof pt) * wt w pt) ++
    fill w dz dz (fun pt dof => (stress pt 2%nat 0%nat * G dz dof pt 0%nat + stress pt 2%nat 1%nat * G dz dof pt 1%nat
                                 + stress pt 2%nat 2%nat * G dz dof pt 2%nat - fn w "source dz" pt * B dz dof pt) * wt w pt))%list
  else [].

(** boundaryResidual, lines 243-668: the loops for a weakly imposed displacement, with data
    (gx, gy, gz); the loops for "weak Dirichlet" and for "interface" differ in the data only. *)
Definition le_wd_x (s : le_set) (w : wks) (gx gy gz : nat -> R) : list (nat * R) :=
  let dx := var_num w "dx" 0 in let B := bas w (usebasis w dx) in let G := bgr w (usebasis w dx) in
  let nx := fld w "n[x]" in let ny := fld w "n[y]" in let nz := fld w "n[z]" in
  fill w dx dx (fun k i =>
    let lam := fn w "lambda" k in let mu := fn w "mu" k in
    let penalty := le_penalty s * (lam + 2 * mu) / hel w in
    let deltadx := fld w "dx" k - gx k in let deltady := fld w "dy" k - gy k in let deltadz := fld w "dz" k - gz k in
    if (dim w =? 1)%nat then
      let bx := (lam + 2 * mu) * deltadx * nx k in
      ((- le_stress s w 0 0 k * nx k) * B i k + penalty * deltadx * B i k - le_form s * bx * G i k 0%nat) * wt w k
    else if (dim w =? 2)%nat then
      let bx := (lam + 2 * mu) * deltadx * nx k + lam * deltady * ny k in
      let by' := mu * deltady * nx k + mu * deltadx * ny k in
      ((- le_stress s w 0 0 k * nx k - le_stress s w 0 1 k * ny k) * B i k + penalty * deltadx * B i k
       - le_form s * (bx * G i k 0%nat + by' * G i k 1%nat)) * wt w k
    else
      let bx := (lam + 2 * mu) * deltadx * nx k + lam * deltady * ny k + lam * deltadz * nz k in
      let by' := mu * deltady * nx k + mu * deltadx * ny k in
      let bz := mu * deltadz * nx k + mu * deltadx * nz k in
      ((- le_stress s w 0 0 k * nx k - le_stress s w 0 1 k * ny k - le_stress s w 0 2 k * nz k) * B i k
       + penalty * deltadx * B i k - le_form s * (bx * G i k 0%nat + by' * G i k 1%nat + bz * G i k 2%nat)) * wt w k).
Definition le_wd_y (s : le_set) (w : wks) (gx gy gz : nat -> R) : list (nat * R) :=
  let dy := var_num w "dy" 0 in let B := bas w (usebasis w dy) in let G := bgr w (usebasis w dy) in
  let nx := fld w "n[x]" in let ny := fld w "n[y]" in let nz := fld w "n[z]" in
  fill w dy dy (fun k i =>
    let lam := fn w "lambda" k in let mu := fn w "mu" k in
    let penalty := le_penalty s * (lam + 2 * mu) / hel w in
    let deltadx := fld w "dx" k - gx k in let deltady := fld w "dy" k - gy k in let deltadz := fld w "dz" k - gz k in
    if (dim w =? 2)%nat then
      let bx := mu * deltady * nx k + mu * deltadx * ny k in
      let by' := lam * deltadx * nx k + (lam + 2 * mu) * deltady * ny k in
      ((- le_stress s w 1 0 k * nx k - le_stress s w 1 1 k * ny k) * B i k + penalty * deltady * B i k
       - le_form s * (bx * G i k 0%nat + by' * G i k 1%nat)) * wt w k
    else
      let bx := mu * deltady * nx k + mu * deltadx * ny k in
      let by' := lam * deltadx * nx k + (lam + 2 * mu) * deltady * ny k + lam * deltadz * nz k in
      let bz := mu * deltadz * ny k + mu * deltady * nz k in
      ((- le_stress s w 1 0 k * nx k - le_stress s w 1 1 k * ny k - le_stress s w 1 2 k * nz k) * B i k
       + penalty * deltady * B i k - le_form s * (bx * G i k 0%nat + by' * G i k 1%nat + bz * G i k 2%nat)) * wt w k).
Definition le_wd_z (s : le_set) (w : wks) (gx gy gz : nat -> R) : list (nat * R) :=
  let dz := var_num w "dz" 0 in let B := bas w (usebasis w dz) in let G := bgr w (usebasis w dz) in
  let nx := fld w "n[x]" in let ny := fld w "n[y]" in let nz := fld w "n[z]" in
  fill w dz dz (fun k i =>
    let lam := fn w "lambda" k in let mu := fn w "mu" k in
    let penalty := le_penalty s * (lam + 2 * mu) / hel w in
    let deltadx := fld w "dx" k - gx k in let deltady := fld w "dy" k - gy k in let deltadz := fld w "dz" k - gz k in
    let bx := mu * deltadz * nx k + mu * deltadx * nz k in
    let by' := mu * deltadz * ny k + mu * deltady * nz k in
    let bz := lam * deltadx * nx k + lam * deltady * ny k + (lam + 2 * mu) * deltadz * nz k in
    ((- le_stress s w 2 0 k * nx k - le_stress s w 2 1 k * ny k - le_stress s w 2 2 k * nz k) * B i k
     + penalty * deltadz * B i k - le_form s * (bx * G i k 0%nat + by' * G i k 1%nat + bz * G i k 2%nat)) * wt w k).

(** The types of the side, and the data evaluated for them (lines 246-289). A source that no
    branch evaluates is a default-constructed object: [unset]. *)
Definition le_type (w : wks) (c : nat) : string :=
  match c with
  | 0%nat => bcs w (var_num w "dx" 0)
  | 1%nat => if (1 <? dim w)%nat then bcs w (var_num w "dy" 0) else "Dirichlet"
  | _ => if (2 <? dim w)%nat then bcs w (var_num w "dz" 0) else "Dirichlet"
  end.
Definition le_comp (c : nat) : string := match c with 0%nat => "dx" | 1%nat => "dy" | _ => "dz" end.
Definition le_source (unset : nat -> R) (w : wks) (c : nat) : nat -> R :=
  if String.eqb (le_type w c) "Neumann" then fn w ("Neumann " ++ le_comp c ++ " " ++ sidename w)
  else if String.eqb (le_type w c) "weak Dirichlet" then fn w ("Dirichlet " ++ le_comp c ++ " " ++ sidename w)
  else unset.
Definition le_side (s : le_set) (unset : nat -> R) (w : wks) (c : nat) : list (nat * R) :=
  let v := var_num w (le_comp c) 0 in
  let src := le_source unset w in
  let wd := match c with 0%nat => le_wd_x | 1%nat => le_wd_y | _ => le_wd_z end in
  if String.eqb (le_type w c) "Neumann" then
    fill w v v (fun k i => (- src c k * bas w (usebasis w v) i k) * wt w k)
  else if String.eqb (le_type w c) "weak Dirichlet" then wd s w (src 0%nat) (src 1%nat) (src 2%nat)
  else if String.eqb (le_type w c) "interface" then wd s w (fld w "aux dx") (fld w "aux dy") (fld w "aux dz")
  else [].
Definition le_boundary (s : le_set) (unset : nat -> R) (w : wks) : list (nat * R) :=
  if negb (String.eqb (le_type w 0) "Dirichlet") || negb (String.eqb (le_type w 1) "Dirichlet")
     || negb (String.eqb (le_type w 2) "Dirichlet") then
    if (dim w =? 1)%nat then le_side s unset w 0
    else if (dim w =? 2)%nat then (le_side s unset w 0 ++ le_side s unset w 1)%list
    else if (dim w =? 3)%nat then (le_side s unset w 0 ++ le_side s unset w 1 ++ le_side s unset w 2)%list
    else []
  else [].

(** computeFlux, lines 676-853; [old] is what the flux array holds (not written in three
    dimensions for other types). *)
Definition le_flux_source (unset : nat -> R) (w : wks) (c : nat) : nat -> R :=
  if (String.eqb (le_type w c) "Neumann" && negb (dim w =? 3)%nat)%bool then fn w ("Neumann " ++ le_comp c ++ " " ++ sidename w)
  else if String.eqb (le_type w c) "interface" then fld w ("aux " ++ le_comp c)
  else if (String.eqb (le_type w c) "weak Dirichlet" || String.eqb (le_type w c) "Dirichlet")%bool
       then fn w ("Dirichlet " ++ le_comp c ++ " " ++ sidename w)
  else unset.
Definition le_flux (s : le_set) (unset old : nat -> R) (w : wks) (c k : nat) : R :=
  let nx := fld w "n[x]" in let ny := fld w "n[y]" in let nz := fld w "n[z]" in
  let penalty := le_penalty s / hel w * (fn w "lambda" k + 2 * fn w "mu" k) in
  let pen := penalty * (le_flux_source unset w c k - fld w (le_comp c) k) in
  if (dim w =? 1)%nat then 1 * le_stress s w c 0 k * nx k + pen
  else if (dim w =? 2)%nat then 1 * (le_stress s w c 0 k * nx k + le_stress s w c 1 k * ny k) + pen
  else if (dim w =? 3)%nat then
    if (String.eqb (le_type w c) "interface" || String.eqb (le_type w c) "weak Dirichlet" || String.eqb (le_type w c) "Dirichlet")%bool
    then 1 * (le_stress s w c 0 k * nx k + le_stress s w c 1 k * ny k + le_stress s w c 2 k * nz k) + pen
    else old k
  else old k.

(** getDerivedValues, lines 1305-1365. *)
Definition le_vm (s : le_set) (w : wks) (k : nat) : R :=
  let S i j := le_stress s w i j k in
  if (dim w =? 1)%nat then sqrt (S 0%nat 0%nat * S 0%nat 0%nat)
  else if (dim w =? 2)%nat then
    let sxx := S 0%nat 0%nat in let syy := S 1%nat 1%nat in let sxy := S 0%nat 1%nat in
    sqrt (sxx * sxx - sxx * syy + syy * syy + 3 * sxy * sxy)
  else
    let sxx := S 0%nat 0%nat in let syy := S 1%nat 1%nat in let szz := S 2%nat 2%nat in
    let sxy := S 0%nat 1%nat in let syz := S 1%nat 2%nat in let szx := S 2%nat 0%nat in
    sqrt (1 / 2 * ((sxx - syy) * (sxx - syy) + (syy - szz) * (syy - szz) + (szz - sxx) * (szz - sxx))
          + 3 * (sxy * sxy + syz * syz + szx * szx)).
Definition le_mag (s : le_set) (w : wks) (k : nat) : R :=
  let S i j := le_stress s w i j k in
  if (dim w =? 1)%nat then sqrt (S 0%nat 0%nat * S 0%nat 0%nat)
  else if (dim w =? 2)%nat then sqrt (S 0%nat 0%nat * S 0%nat 0%nat + S 1%nat 1%nat * S 1%nat 1%nat)
  else sqrt (S 0%nat 0%nat * S 0%nat 0%nat + S 1%nat 1%nat * S 1%nat 1%nat + S 2%nat 2%nat * S 2%nat 2%nat).
