(** Small physics modules: src/physics/cdr2.cpp, ellipticPrior.cpp, shallowice.cpp,
    kuramotoSivashinsky.cpp, hartmann.cpp, incompressibleSaturation.cpp and helmholtz.cpp.
    Simplified as in Phys_Model; an access outside a view or vector is [None]. *)
From Coq Require Import Bool Arith Reals List String.
From Verif Require Import Sparse_Model Mass_Model BProj_Model Phys_Model Darcy_Model.
Import ListNotations.
Local Open Scope R_scope.
Local Open Scope string_scope.

(** *** cdr2.cpp, volumeResidual, lines 63-142 ("SUPG tau" is evaluated and not used;
    boundaryResidual and computeFlux are empty) *)
Definition cd_volume (w : wks) : list (nat * R) :=
  let c := var_num w "c2" 0 in
  let B := bas w (usebasis w c) in let G := bgr w (usebasis w c) in
  let diff pt := 1 / (fn w "density" pt * fn w "specific heat" pt) * fn w "diffusion2" pt in
  if (dim w =? 1)%nat then
    fill w c c (fun pt dof =>
      let f := (fld w "c2_t" pt + fn w "xvel" pt * fld w "grad(c2)[x]" pt + fn w "reaction2" pt - fn w "source2" pt) * wt w pt in
      let Fx := diff pt * fld w "grad(c2)[x]" pt * wt w pt in
      f * B dof pt + Fx * G dof pt 0%nat)
  else if (dim w =? 2)%nat then
    fill w c c (fun pt dof =>
      let f := (fld w "c2_t" pt + fn w "xvel" pt * fld w "grad(c2)[x]" pt + fn w "yvel" pt * fld w "grad(c2)[y]" pt
                + fn w "reaction2" pt - fn w "source2" pt) * wt w pt in
      let Fx := diff pt * fld w "grad(c2)[x]" pt * wt w pt in
      let Fy := diff pt * fld w "grad(c2)[y]" pt * wt w pt in
      f * B dof pt + Fx * G dof pt 0%nat + Fy * G dof pt 1%nat)
  else if (dim w =? 3)%nat then
    fill w c c (fun pt dof =>
      let f := (fld w "c2_t" pt + fn w "xvel" pt * fld w "grad(c2)[x]" pt + fn w "yvel" pt * fld w "grad(c2)[y]" pt
                + fn w "zvel" pt * fld w "grad(c2)[z]" pt + fn w "reaction2" pt - fn w "source2" pt) * wt w pt in
      let Fx := diff pt * fld w "grad(c2)[x]" pt * wt w pt in
      let Fy := diff pt * fld w "grad(c2)[y]" pt * wt w pt in
      let Fz := diff pt * fld w "grad(c2)[z]" pt * wt w pt in
      f * B dof pt + Fx * G dof pt 0%nat + Fy * G dof pt 1%nat + Fz * G dof pt 2%nat)
  else [].

(** *** ellipticPrior.cpp, volumeResidual, lines 58-112 (boundaryResidual is empty) *)
Definition ep_volume (w : wks) : list (nat * R) :=
  let t := var_num w "T" 0 in
  let B := bas w (usebasis w t) in let G := bgr w (usebasis w t) in
  let diff := fn w "ellipticPrior diffusion" in
  fill w t t (fun pt dof =>
    (fld w "T_t" pt - fn w "ellipticPrior source" pt) * wt w pt * B dof pt
    + (diff pt * fld w "grad(T)[x]" pt * wt w pt * G dof pt 0%nat + fn w "ellipticPrior reaction" pt * fld w "T" pt * wt w pt * B dof pt)
    + (if (1 <? dim w)%nat then diff pt * fld w "grad(T)[y]" pt * wt w pt * G dof pt 1%nat else 0)
    + (if (2 <? dim w)%nat then diff pt * fld w "grad(T)[z]" pt * wt w pt * G dof pt 2%nat else 0)).
(** computeFlux, lines 127-180, at one point of a side; [reg] are the functions that are
    registered on sides (defineFunctions, lines 45-50), [aux] the mortar unknowns. *)
Definition ep_side_functions : list string := ["robin alpha"].
Definition ep_flux (aux : list string) (w : wks) (pt : nat) : option R :=
  if existsb (String.eqb "ellipticPrior diffusion") ep_side_functions && existsb (String.eqb "e") aux then
    let diff := fn w "ellipticPrior diffusion" in
    Some (10 / hel w * diff pt * (fld w "aux e" pt - fld w "T" pt) + 1 * diff pt * fld w "grad(T)[x]" pt * fld w "n[x]" pt
      + (if (1 <? dim w)%nat then 1 * diff pt * fld w "grad(T)[y]" pt * fld w "n[y]" pt else 0)
      + (if (2 <? dim w)%nat then 1 * diff pt * fld w "grad(T)[z]" pt * fld w "n[z]" pt else 0))
  else None.

(** *** shallowice.cpp, volumeResidual, lines 50-109 (boundaryResidual is empty) *)
Definition si_volume (w : wks) : list (nat * R) :=
  let s := var_num w "s" 0 in
  let B := bas w (usebasis w s) in let G := bgr w (usebasis w s) in
  let diff := fn w "diffusion" in
  let f pt := (fld w "s_t" pt - fn w "source" pt) * wt w pt in
  if (dim w =? 1)%nat then
    fill w s s (fun pt dof => f pt * B dof pt + diff pt * fld w "grad(s)[x]" pt * wt w pt * G dof pt 0%nat)
  else if (dim w =? 2)%nat then
    fill w s s (fun pt dof => f pt * B dof pt + diff pt * fld w "grad(s)[x]" pt * wt w pt * G dof pt 0%nat
      + diff pt * fld w "grad(s)[y]" pt * wt w pt * G dof pt 1%nat)
  else [].

(** *** kuramotoSivashinsky.cpp, volumeResidual, lines 43-183: both equations with the basis
    of u *)
Definition ks_volume (w : wks) : list (nat * R) :=
  let u := var_num w "u" 0 in let wn := var_num w "w" 0 in
  let B := bas w (usebasis w u) in let G := bgr w (usebasis w u) in
  let gux := fld w "grad(u)[x]" in let guy := fld w "grad(u)[y]" in let guz := fld w "grad(u)[z]" in
  ((if (dim w =? 1)%nat then
    fill w u u (fun pt dof =>
      let sq := 1 / 2 * gux pt * gux pt in
      let f := (fld w "u_t" pt + fld w "w" pt + sq) * wt w pt in
      f * B dof pt + - fld w "grad(w)[x]" pt * wt w pt * G dof pt 0%nat)
  else if (dim w =? 2)%nat then
    fill w u u (fun pt dof =>
      let sq := 1 / 2 * (gux pt * gux pt + guy pt * guy pt) in
      let f := (fld w "u_t" pt + fld w "w" pt + sq) * wt w pt in
      f * B dof pt + - fld w "grad(w)[x]" pt * wt w pt * G dof pt 0%nat + - fld w "grad(w)[y]" pt * wt w pt * G dof pt 1%nat)
  else if (dim w =? 3)%nat then
    fill w u u (fun pt dof =>
      let sq := 1 / 2 * (gux pt * gux pt + guy pt * guy pt + guz pt * guz pt) in
      let f := (fld w "u_t" pt + fld w "w" pt + sq) * wt w pt in
      f * B dof pt + - fld w "grad(w)[x]" pt * wt w pt * G dof pt 0%nat + - fld w "grad(w)[y]" pt * wt w pt * G dof pt 1%nat
        + - fld w "grad(w)[z]" pt * wt w pt * G dof pt 2%nat)
  else []) ++
  (if (dim w =? 1)%nat then
    fill w u wn (fun pt dof => fld w "w" pt * wt w pt * B dof pt + gux pt * wt w pt * G dof pt 0%nat)
  else if (dim w =? 2)%nat then
    fill w u wn (fun pt dof => fld w "w" pt * wt w pt * B dof pt + gux pt * wt w pt * G dof pt 0%nat + guy pt * wt w pt * G dof pt 1%nat)
  else if (dim w =? 3)%nat then
    fill w u wn (fun pt dof => fld w "w" pt * wt w pt * B dof pt + gux pt * wt w pt * G dof pt 0%nat + guy pt * wt w pt * G dof pt 1%nat
      + guz pt * wt w pt * G dof pt 2%nat)
  else []))%list.

(** *** hartmann.cpp, volumeResidual, lines 47-109: x derivatives in every dimension *)
Definition hm_volume (w : wks) : list (nat * R) :=
  let u := var_num w "u" 0 in let b := var_num w "b" 0 in
  let B v := bas w (usebasis w v) in let G v := bgr w (usebasis w v) in
  (fill w u u (fun pt dof =>
    let Fx := - fld w "grad(u)[x]" pt * wt w pt in
    let F := (fn w "hartmannNum" pt * fld w "grad(b)[x]" pt - fn w "source u" pt) * wt w pt in
    Fx * G u dof pt 0%nat + F * B u dof pt) ++
  fill w b b (fun pt dof =>
    let Fx := - fld w "grad(b)[x]" pt * wt w pt in
    let F := fn w "hartmannNum" pt * fld w "grad(u)[x]" pt * wt w pt in
    Fx * G b dof pt 0%nat + F * B b dof pt))%list.
(** boundaryResidual, lines 116-158: on every side, whatever its condition *)
Definition hm_boundary (w : wks) : list (nat * R) :=
  let b := var_num w "b" 0 in
  fill w b b (fun pt dof => fn w ("Neumann b " ++ sidename w) pt * wt w pt * bas w (usebasis w b) dof pt).

(** *** incompressibleSaturation.cpp, volumeResidual and computeFluxVector, lines 77-166 and
    212-273: a loop over all the variables of the set; the vector of sources and the third
    dimension of the fluxes have one entry.  [wells]: use well source. *)
Definition sa_source (wells : option (list well)) (w : wks) : nat -> R :=
  match wells with None => fn w "source_S" | Some ws => add_wells ws (fn w "source_S") (hel w) w end.
Definition sa_equation (phi : R) (wells : option (list well)) (w : wks) (iEqn : nat) : list (nat * R) :=
  let B := bas w (usebasis w iEqn) in let G := bgr w (usebasis w iEqn) in
  let St := fld w (nth iEqn (varlist w) "" ++ "_t") in
  let F d pt := fn w "f_w" pt * fn w (match d with 0%nat => "ux" | 1%nat => "uy" | _ => "uz" end) pt in
  let src := sa_source wells w in
  if (dim w =? 1)%nat then
    fill w iEqn iEqn (fun pt dof => phi * St pt * B dof pt * wt w pt
      + - (F 0%nat pt * G dof pt 0%nat + src pt * B dof pt) * wt w pt)
  else if (dim w =? 2)%nat then
    fill w iEqn iEqn (fun pt dof => phi * St pt * B dof pt * wt w pt
      + - (F 0%nat pt * G dof pt 0%nat + F 1%nat pt * G dof pt 1%nat + src pt * B dof pt) * wt w pt)
  else if (dim w =? 3)%nat then
    fill w iEqn iEqn (fun pt dof => phi * St pt * B dof pt * wt w pt
      + - (F 0%nat pt * G dof pt 0%nat + F 1%nat pt * G dof pt 1%nat + F 2%nat pt * G dof pt 2%nat + src pt * B dof pt) * wt w pt)
  else [].
Definition sa_volume (phi : R) (wells : option (list well)) (w : wks) : option (list (nat * R)) :=
  if (List.length (varlist w) <=? 1)%nat
  then Some (flat_map (sa_equation phi wells w) (seq 0 (List.length (varlist w)))) else None.

(** *** helmholtz.cpp *)
(** The loops run over the functions of the basis of ureal, with those of uimag beside;
    [fr]: fractional; [pw] is pow *)
Section Helmholtz.
Variable pw : R -> R -> R.
Definition hz_dir (w : wks) (d : nat) (s : string) (pt : nat) : R := if (d <? dim w)%nat then fld w s pt else 0.
Definition hz_grd (w : wks) (d : nat) (x : R) : R := if (d <? dim w)%nat then x else 0.
(** volumeResidual, lines 77-245 *)
Definition hz_volume (fr : bool) (w : wks) : list (nat * R) :=
  let r := var_num w "ureal" 0 in let i := var_num w "uimag" 0 in
  let ur := fld w "ureal" in let ui := fld w "uimag" in
  let o2r := fn w "omega2r" in let o2i := fn w "omega2i" in
  let entries pt dof :=
    let vr := bas w (usebasis w r) dof pt in let vi := bas w (usebasis w i) dof pt in
    let durdx := fld w "grad(ureal)[x]" pt in let duidx := fld w "grad(uimag)[x]" pt in
    let durdy := hz_dir w 1 "grad(ureal)[y]" pt in let duidy := hz_dir w 1 "grad(uimag)[y]" pt in
    let durdz := hz_dir w 2 "grad(ureal)[z]" pt in let duidz := hz_dir w 2 "grad(uimag)[z]" pt in
    let dvrdx := bgr w (usebasis w r) dof pt 0%nat in let dvidx := bgr w (usebasis w i) dof pt 0%nat in
    let dvrdy := hz_grd w 1 (bgr w (usebasis w r) dof pt 1%nat) in let dvidy := hz_grd w 1 (bgr w (usebasis w i) dof pt 1%nat) in
    let dvrdz := hz_grd w 2 (bgr w (usebasis w r) dof pt 2%nat) in let dvidz := hz_grd w 2 (bgr w (usebasis w i) dof pt 2%nat) in
    let crx := fn w "c2r_x" pt in let cix := fn w "c2i_x" pt in
    let cry := fn w "c2r_y" pt in let ciy := fn w "c2i_y" pt in
    let crz := fn w "c2r_z" pt in let ciz := fn w "c2i_z" pt in
    let stiff_r := crx * (durdx * dvrdx + duidx * dvidx) + cry * (durdy * dvrdy + duidy * dvidy) + crz * (durdz * dvrdz + duidz * dvidz)
      - cix * (duidx * dvrdx - durdx * dvidx) - ciy * (duidy * dvrdy - durdy * dvidy) - ciz * (duidz * dvrdz - durdz * dvidz) in
    let stiff_i := crx * (duidx * dvrdx - durdx * dvidx) + cry * (duidy * dvrdy - durdy * dvidy) + crz * (duidz * dvrdz - durdz * dvidz)
      + cix * (durdx * dvrdx + duidx * dvidx) + ciy * (durdy * dvrdy + duidy * dvidy) + ciz * (durdz * dvrdz + duidz * dvidz) in
    let src_r := fn w "source_r" pt * vr + fn w "source_i" pt * vi in
    let src_i := fn w "source_i" pt * vr - fn w "source_r" pt * vi in
    if negb fr then
      [ (offs w r dof, (- o2r pt * (ur pt * vr + ui pt * vi) + o2i pt * (ui pt * vr - ur pt * vi) + stiff_r - src_r) * wt w pt);
        (offs w i dof, (- o2r pt * (ui pt * vr - ur pt * vi) - o2i pt * (ur pt * vr + ui pt * vi) + stiff_i - src_i) * wt w pt) ]
    else
      let hr := fn w "alphaHr" pt * pw (sqrt (o2r pt)) (2 * fn w "freqExp" pt) in
      let hi := fn w "alphaHi" pt * pw (sqrt (o2i pt)) (2 * fn w "freqExp" pt) in
      [ (offs w r dof, (hr * (ur pt * vr + ui pt * vi) + hr * (- ui pt * vr + ur pt * vi) + hi * (- ui pt * vr + ur pt * vi)
           + hi * (- ur pt * vr - ui pt * vi) + stiff_r - src_r) * wt w pt);
        (offs w i dof, (hr * (ui pt * vr - ur pt * vi) + hr * (ur pt * vr + ui pt * vi) + hi * (ur pt * vr + ui pt * vi)
           + hi * (- ui pt * vr + ur pt * vi) + stiff_i - src_i) * wt w pt) ] in
  flat_map (fun pt => flat_map (entries pt) (seq 0 (nbas w (usebasis w r)))) (seq 0 (npts w)).

(** boundaryResidual, lines 254-404: n[y] is read without being set in one dimension, and
    alphaTr, alphaTi are read without being evaluated when fractional. *)
Definition hz_boundary (fr : bool) (w : wks) : option (list (nat * R)) :=
  let r := var_num w "ureal" 0 in let i := var_num w "uimag" 0 in
  let ur := fld w "ureal" in let ui := fld w "uimag" in
  if negb (String.eqb (bcs w r) "Neumann") then Some [] else
  if (dim w <=? 1)%nat then None else if fr then None else
  let entries pt dof :=
    let vr := bas w (usebasis w r) dof pt in let vi := bas w (usebasis w i) dof pt in
    let durdx := fld w "grad(ureal)[x]" pt in let duidx := fld w "grad(uimag)[x]" pt in
    let durdy := fld w "grad(ureal)[y]" pt in let duidy := fld w "grad(uimag)[y]" pt in
    let durdz := hz_dir w 2 "grad(ureal)[z]" pt in let duidz := hz_dir w 2 "grad(uimag)[z]" pt in
    let nx := fld w "n[x]" pt in let ny := fld w "n[y]" pt in let nz := hz_dir w 2 "n[z]" pt in
    let durdn := durdx * nx + durdy * ny + durdz * nz in
    let duidn := duidx * nx + duidy * ny + duidz * nz in
    let c2durdn := (fn w "c2r_x" pt * durdx - fn w "c2i_x" pt * duidx) * nx + (fn w "c2r_y" pt * durdy - fn w "c2i_y" pt * duidy) * ny
      + (fn w "c2r_z" pt * durdz - fn w "c2i_z" pt * duidz) * nz in
    let c2duidn := (fn w "c2r_x" pt * duidx + fn w "c2i_x" pt * durdx) * nx + (fn w "c2r_y" pt * duidy + fn w "c2i_y" pt * durdy) * ny
      + (fn w "c2r_z" pt * duidz + fn w "c2i_z" pt * durdz) * nz in
    let ar := fn w "robin_alpha_r" pt in let ai := fn w "robin_alpha_i" pt in
    let sr := fn w "source_r_side" pt in let si := fn w "source_i_side" pt in
    [ (offs w r dof, (ar * (ur pt * vr + ui pt * vi) - ai * (ui pt * vr - ur pt * vi) + (durdn * vr + duidn * vi)
         - (sr * vr + si * vi) - (c2durdn * vr + c2duidn * vi)) * wt w pt);
      (offs w i dof, (ar * (ui pt * vr - ur pt * vi) + ai * (ur pt * vr + ui pt * vi) + (duidn * vr - durdn * vi)
         - (si * vr - sr * vi) - (c2duidn * vr - c2durdn * vi)) * wt w pt) ] in
  Some (flat_map (fun pt => flat_map (entries pt) (seq 0 (nbas w (usebasis w r)))) (seq 0 (npts w))).
End Helmholtz.
