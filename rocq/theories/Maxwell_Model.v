(** Electromagnetic waves: src/physics/maxwell.cpp. *)
From Coq Require Import Bool Arith Reals Ascii String List.
From Verif Require Import Sparse_Model Mass_Model BProj_Model Phys_Model.
Import ListNotations.
Local Open Scope R_scope.
Local Open Scope string_scope.

(** A workset with bases of vectors: wkset->basis or basis_side with a component, and
    wkset->basis_curl (in two dimensions of one component). *)
Record vwks := {
  vw : wks;
  vbas : nat -> nat -> nat -> nat -> R;     (* basis, dof, pt, component *)
  vcurl : nat -> nat -> nat -> nat -> R     (* basis, dof, pt, component *)
}.
Record mx_set := { include_E : bool; include_B : bool; useLeapFrog : bool }.

(** constructor, lines 12-51: "active variables" is searched for the letters. *)
Fixpoint has_char (c : Ascii.ascii) (s : string) : bool :=
  match s with EmptyString => false | String d r => (Ascii.eqb c d || has_char c r)%bool end.
Definition mx_new (active : option string) (leap : bool) : mx_set :=
  match active with
  | Some a => {| include_E := has_char "E"%char a; include_B := has_char "B"%char a; useLeapFrog := leap |}
  | None => {| include_E := true; include_B := true; useLeapFrog := leap |}
  end.

(** volumeResidual, the equation for B, lines 79-206. Where the leap frog is used, curl E acts
    in stage 0 only. *)
Definition mx_B (s : mx_set) (stage : nat) (W : vwks) : list (nat * R) :=
  let w := vw W in let b := var_num w "B" 0 in
  let act := (negb (useLeapFrog s) || (stage =? 0)%nat)%bool in
  let c n pt := if act then fld w n pt else 0 in
  if (dim w =? 2)%nat then
    fill w b b (fun pt dof =>
      let f0 := (fld w "B_t" pt + c "curl(E)" pt) * wt w pt in
      f0 * vbas W (usebasis w b) dof pt 0%nat)
  else if (dim w =? 3)%nat then
    fill w b b (fun pt dof =>
      let f0 := (fld w "B_t[x]" pt + c "curl(E)[x]" pt) * wt w pt in
      let f1 := (fld w "B_t[y]" pt + c "curl(E)[y]" pt) * wt w pt in
      let f2 := (fld w "B_t[z]" pt + c "curl(E)[z]" pt) * wt w pt in
      f0 * vbas W (usebasis w b) dof pt 0%nat + f1 * vbas W (usebasis w b) dof pt 1%nat + f2 * vbas W (usebasis w b) dof pt 2%nat)
  else [].
(** the equation for E, lines 208-300: in two dimensions the permittivity multiplies the time
    derivative, in three everything else is divided by it. *)
Definition mx_E (s : mx_set) (stage : nat) (W : vwks) : list (nat * R) :=
  let w := vw W in let e := var_num w "E" 0 in
  let mu := fn w "mu" in let epsilon := fn w "epsilon" in let rindex := fn w "refractive index" in let sigma := fn w "sigma" in
  let V := vbas W (usebasis w e) in let C := vcurl W (usebasis w e) in
  if (negb (useLeapFrog s) || (stage =? 1)%nat)%bool then
    if (dim w =? 2)%nat then
      fill w e e (fun pt dof =>
        let f0 := (epsilon pt * rindex pt * rindex pt * fld w "E_t[x]" pt + (sigma pt * fld w "E[x]" pt + fn w "current x" pt)) * wt w pt in
        let f1 := (epsilon pt * rindex pt * rindex pt * fld w "E_t[y]" pt + (sigma pt * fld w "E[y]" pt + fn w "current y" pt)) * wt w pt in
        let c0 := - 1 / mu pt * fld w "B" pt * wt w pt in
        f0 * V dof pt 0%nat + c0 * C dof pt 0%nat + f1 * V dof pt 1%nat)
    else if (dim w =? 3)%nat then
      fill w e e (fun pt dof =>
        let eps := epsilon pt in
        let f0 := (rindex pt * rindex pt * fld w "E_t[x]" pt + 1 / eps * (sigma pt * fld w "E[x]" pt + fn w "current x" pt)) * wt w pt in
        let f1 := (rindex pt * rindex pt * fld w "E_t[y]" pt + 1 / eps * (sigma pt * fld w "E[y]" pt + fn w "current y" pt)) * wt w pt in
        let f2 := (rindex pt * rindex pt * fld w "E_t[z]" pt + 1 / eps * (sigma pt * fld w "E[z]" pt + fn w "current z" pt)) * wt w pt in
        let c0 := - 1 / mu pt * 1 / eps * fld w "B[x]" pt * wt w pt in
        let c1 := - 1 / mu pt * 1 / eps * fld w "B[y]" pt * wt w pt in
        let c2 := - 1 / mu pt * 1 / eps * fld w "B[z]" pt * wt w pt in
        (f0 * V dof pt 0%nat + c0 * C dof pt 0%nat) + (f1 * V dof pt 1%nat + c1 * C dof pt 1%nat) + (f2 * V dof pt 2%nat + c2 * C dof pt 2%nat))
    else []
  else [].
Definition mx_volume (s : mx_set) (stage : nat) (W : vwks) : list (nat * R) :=
  ((if include_B s then mx_B s stage W else []) ++ (if include_E s then mx_E s stage W else []))%list.

(** boundaryResidual, lines 309-400: on a side where B is "Neumann". In two dimensions the loop
    has no body. *)
Definition mx_boundary (s : mx_set) (W : vwks) : list (nat * R) :=
  let w := vw W in let b := var_num w "B" 0 in
  if (dim w =? 3)%nat then
    if (include_B s && String.eqb (bcs w b) "Neumann")%bool then
      let gamma := - 9944 / 10000 in
      fill w b b (fun pt dof =>
        let nx := fld w "n[x]" pt in let ny := fld w "n[y]" pt in let nz := fld w "n[z]" pt in
        let Ex := fld w "E[x]" pt in let Ey := fld w "E[y]" pt in let Ez := fld w "E[z]" pt in
        let nce_x := ny * Ez - nz * Ey in
        let nce_y := nz * Ex - nx * Ez in
        let nce_z := nx * Ey - ny * Ex in
        let c0 := - (1 + gamma) * (ny * nce_z - nz * nce_y) * wt w pt in
        let c1 := - (1 + gamma) * (nz * nce_x - nx * nce_z) * wt w pt in
        let c2 := - (1 + gamma) * (nx * nce_y - ny * nce_x) * wt w pt in
        c0 * vbas W (usebasis w b) dof pt 0%nat + c1 * vbas W (usebasis w b) dof pt 1%nat + c2 * vbas W (usebasis w b) dof pt 2%nat)
    else []
  else [].
