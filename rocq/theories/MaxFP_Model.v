(** Maxwell's equations by potentials at a fixed frequency: src/physics/maxwells_fp.cpp.
    Simplified: the interior sources (getInteriorCurrent, getInteriorCharge, lines 903-982: zero
    or the manufactured ones of the settings test = 1, 2, 3) are given functions of the point.
    boundaryResidual (lines 443-775) adds nothing: the kind of boundary it branches on is fixed
    to 0 (line 493) and only the kinds 1 and 2 have terms. *)
From Coq Require Import Bool Arith Reals String List.
From Verif Require Import Sparse_Model Mass_Model BProj_Model Phys_Model.
Import ListNotations.
Local Open Scope R_scope.
Local Open Scope string_scope.

(** The values gathered at a quadrature point, the test functions and the coefficients:
    local variables of volumeResidual, lines 84-108. *)
Record vals := {
  Axr : R; dAxrdx : R; dAxrdy : R; dAxrdz : R; Axi : R; dAxidx : R; dAxidy : R; dAxidz : R; Ayr : R; dAyrdx : R; dAyrdy : R; dAyrdz : R; Ayi : R;
  dAyidx : R; dAyidy : R; dAyidz : R; Azr : R; dAzrdx : R; dAzrdy : R; dAzrdz : R; Azi : R; dAzidx : R; dAzidy : R; dAzidz : R; phir : R; dphirdx : R;
  dphirdy : R; dphirdz : R; phii : R; dphiidx : R; dphiidy : R; dphiidz : R }.
Record tests := {
  vr : R; vi : R; dvrdx : R; dvrdy : R; dvrdz : R; dvidx : R; dvidy : R; dvidz : R }.
Record coefs := {
  omega : R; epsr : R; epsi : R; mur : R; mui : R; invmur : R; invmui : R; Jxr : R; Jxi : R; Jyr : R; Jyi : R; Jzr : R; Jzi : R; rhor : R; rhoi : R }.

(** The rows of volumeResidual, lines 302-430: what is added at one point for one test function *)
Definition row_Axr (p : vals) (t : tests) (c : coefs) : R :=
  ( (  dvrdz t*(dAxrdz p - dAzrdx p) - dvrdy t*(dAyrdx p - dAxrdy p)
  -(dvidz t*(dAxidz p - dAzidx p) - dvidy t*(dAyidx p - dAxidy p)))*invmur c
  - (  dvrdz t*(dAxidz p - dAzidx p) - dvrdy t*(dAyidx p - dAxidy p)
  + dvidz t*(dAxrdz p - dAzrdx p) - dvidy t*(dAyrdx p - dAxrdy p) )*invmui c)
  + ( (  dvrdx t*(dAxrdx p + dAyrdy p + dAzrdz p)
  - dvidx t*(dAxidx p + dAyidy p + dAzidz p) )*invmur c
  - (  dvrdx t*(dAxidx p + dAyidy p + dAzidz p)
  + dvidx t*(dAxrdx p + dAyrdy p + dAzrdz p) )*invmui c)
  - omega c*omega c*(epsr c*vr t*Axr p - epsr c*vi t*Axi p - epsi c*vr t*Axi p - epsi c*vi t*Axr p)
  + omega c*(  epsi c*(dphirdx p*vr t + phir p*dvrdx t)
  + epsr c*(dphiidx p*vr t + phii p*dvrdx t)
  + epsr c*(dphirdx p*vi t + phir p*dvidx t)
  - epsi c*(dphiidx p*vi t + phii p*dvidx t))
  - (vr t*Jxr c - vi t*Jxi c).
Definition row_Axi (p : vals) (t : tests) (c : coefs) : R :=
  ( (  dvrdz t*(dAxidz p - dAzidx p) - dvrdy t*(dAyidx p - dAxidy p)
  + dvidz t*(dAxrdz p - dAzrdx p) - dvidy t*(dAyrdx p - dAxrdy p))*invmur c
  + (  dvrdz t*(dAxrdz p - dAzrdx p) - dvrdy t*(dAyrdx p - dAxrdy p)
  -(dvidz t*(dAxidz p - dAzidx p) - dvidy t*(dAyidx p - dAxidy p)))*invmui c)
  + ( (  dvrdx t*(dAxidx p + dAyidy p + dAzidz p)
  + dvidx t*(dAxrdx p + dAyrdy p + dAzrdz p) )*invmur c
  + (  dvrdx t*(dAxrdx p + dAyrdy p + dAzrdz p)
  - dvidx t*(dAxidx p + dAyidy p + dAzidz p) )*invmui c)
  - omega c*omega c*(-epsi c*vi t*Axi p + epsi c*vr t*Axr p + epsr c*vi t*Axr p + epsr c*vr t*Axi p)
  - omega c*(- epsr c*(dphiidx p*vi t + phii p*dvidx t)
  - epsi c*(dphirdx p*vi t + phir p*dvidx t)
  - epsi c*(dphiidx p*vr t + phii p*dvrdx t)
  + epsr c*(dphirdx p*vr t + phir p*dvrdx t))
  - (vr t*Jxi c + vi t*Jxr c).
Definition row_phir (p : vals) (t : tests) (c : coefs) : R :=
  (  epsr c*(dvrdx t*dphirdx p + dvrdy t*dphirdy p + dvrdz t*dphirdz p)
  - epsr c*(dvidx t*dphiidx p + dvidy t*dphiidy p + dvidz t*dphiidz p)
  - epsi c*(dvrdx t*dphiidx p + dvrdy t*dphiidy p + dvrdz t*dphiidz p)
  - epsi c*(dvidx t*dphirdx p + dvidy t*dphirdy p + dvidz t*dphirdz p))
  - omega c*omega c*( (epsr c*epsr c-epsi c*epsi c)*mur c*vr t*phir p
  - (2 * epsr c*epsi c)*mui c*vr t*phir p
  - (2 * epsr c*epsi c)*mur c*vi t*phir p
  - (2 * epsr c*epsi c)*mur c*vr t*phii p
  - (epsr c*epsr c-epsi c*epsi c)*mui c*vi t*phir p
  - (epsr c*epsr c-epsi c*epsi c)*mui c*vr t*phii p
  - (epsr c*epsr c-epsi c*epsi c)*mur c*vi t*phii p
  + (2 * epsr c*epsi c)*mui c*vi t*phii p)
  + omega c*(  epsi c*(dvrdx t*Axr p + vr t*dAxrdx p + dvrdy t*Ayr p + vr t*dAyrdy p + dvrdz t*Azr p + vr t*dAzrdz p)
  + epsr c*(dvidx t*Axr p + vi t*dAxrdx p + dvidy t*Ayr p + vi t*dAyrdy p + dvidz t*Azr p + vi t*dAzrdz p)
  + epsr c*(dvrdx t*Axi p + vr t*dAxidx p + dvrdy t*Ayi p + vr t*dAyidy p + dvrdz t*Azi p + vr t*dAzidz p)
  - epsi c*(dvidx t*Axi p + vi t*dAxidx p + dvidy t*Ayi p + vi t*dAyidy p + dvidz t*Azi p + vi t*dAzidz p))
  - (vr t*rhor c - vi t*rhoi c).
Definition row_phii (p : vals) (t : tests) (c : coefs) : R :=
  (- epsi c*(dvidx t*dphiidx p + dvidy t*dphiidy p + dvidz t*dphiidz p)
  + epsi c*(dvrdx t*dphirdx p + dvrdy t*dphirdy p + dvrdz t*dphirdz p)
  + epsr c*(dvidx t*dphirdx p + dvidy t*dphirdy p + dvidz t*dphirdz p)
  + epsr c*(dvrdx t*dphiidx p + dvrdy t*dphiidy p + dvrdz t*dphiidz p))
  - omega c*omega c*( (2 * epsr c*epsi c)*mur c*vr t*phir p
  + (epsr c*epsr c-epsi c*epsi c)*mui c*vr t*phir p
  + (epsr c*epsr c-epsi c*epsi c)*mur c*vi t*phir p
  + (epsr c*epsr c-epsi c*epsi c)*mur c*vr t*phii p
  - (epsr c*epsr c-epsi c*epsi c)*mui c*vi t*phii p
  - (2 * epsr c*epsi c)*mur c*vi t*phii p
  - (2 * epsr c*epsi c)*mui c*vr t*phii p
  - (2 * epsr c*epsi c)*mui c*vi t*phir p)
  - omega c*(- epsr c*(dvidx t*Axi p + vi t*dAxidx p + dvidy t*Ayi p + vi t*dAyidy p + dvidz t*Azi p + vi t*dAzidz p)
  - epsi c*(dvrdx t*Axi p + vr t*dAxidx p + dvrdy t*Ayi p + vr t*dAyidy p + dvrdz t*Azi p + vr t*dAzidz p)
  - epsi c*(dvidx t*Axr p + vi t*dAxrdx p + dvidy t*Ayr p + vi t*dAyrdy p + dvidz t*Azr p + vi t*dAzrdz p)
  + epsr c*(dvrdx t*Axr p + vr t*dAxrdx p + dvrdy t*Ayr p + vr t*dAyrdy p + dvrdz t*Azr p + vr t*dAzrdz p))
  - (vr t*rhoi c + vi t*rhor c).
Definition row_Ayr (p : vals) (t : tests) (c : coefs) : R :=
  ( (  -dvrdz t*(dAzrdy p - dAyrdz p) + dvrdx t*(dAyrdx p - dAxrdy p)
  -(-dvidz t*(dAzidy p - dAyidz p) + dvidx t*(dAyidx p - dAxidy p)))*invmur c
  - (  -dvrdz t*(dAzidy p - dAyidz p) + dvrdx t*(dAyidx p - dAxidy p)
  +(-dvidz t*(dAzrdy p - dAyrdz p) + dvidx t*(dAyrdx p - dAxrdy p)))*invmui c)
  + ( ( dvrdy t*(dAxrdx p + dAyrdy p + dAzrdz p)
  - dvidy t*(dAxidx p + dAyidy p + dAzidz p) )*invmur c
  - ( dvrdy t*(dAxidx p + dAyidy p + dAzidz p)
  + dvidy t*(dAxrdx p + dAyrdy p + dAzrdz p) )*invmui c)
  - omega c*omega c*(epsr c*vr t*Ayr p - epsr c*vi t*Ayi p - epsi c*vr t*Ayi p - epsi c*vi t*Ayr p)
  + omega c*(  epsi c*(dphirdy p*vr t + phir p*dvrdy t)
  + epsr c*(dphiidy p*vr t + phii p*dvrdy t)
  + epsr c*(dphirdy p*vi t + phir p*dvidy t)
  - epsi c*(dphiidy p*vi t + phii p*dvidy t))
  - (vr t*Jyr c - vi t*Jyi c).
Definition row_Ayi (p : vals) (t : tests) (c : coefs) : R :=
  ( (  -dvrdz t*(dAzidy p - dAyidz p) + dvrdx t*(dAyidx p - dAxidy p)
  +(-dvidz t*(dAzrdy p - dAyrdz p) + dvidx t*(dAyrdx p - dAxrdy p)))*invmur c
  + (  -dvrdz t*(dAzrdy p - dAyrdz p) + dvrdx t*(dAyrdx p - dAxrdy p)
  -(-dvidz t*(dAzidy p - dAyidz p) + dvidx t*(dAyidx p - dAxidy p)))*invmui c)
  + ( ( dvrdy t*(dAxidx p + dAyidy p + dAzidz p)
  + dvidy t*(dAxrdx p + dAyrdy p + dAzrdz p) )*invmur c
  + ( dvrdy t*(dAxrdx p + dAyrdy p + dAzrdz p)
  - dvidy t*(dAxidx p + dAyidy p + dAzidz p) )*invmui c)
  - omega c*omega c*(-epsi c*vi t*Ayi p + epsi c*vr t*Ayr p + epsr c*vi t*Ayr p + epsr c*vr t*Ayi p)
  - omega c*(- epsr c*(dphiidy p*vi t + phii p*dvidy t)
  - epsi c*(dphirdy p*vi t + phir p*dvidy t)
  - epsi c*(dphiidy p*vr t + phii p*dvrdy t)
  + epsr c*(dphirdy p*vr t + phir p*dvrdy t))
  - (vr t*Jyi c + vi t*Jyr c).
Definition row_Azr (p : vals) (t : tests) (c : coefs) : R :=
  ( (  dvrdy t*(dAzrdy p - dAyrdz p) - dvrdx t*(dAxrdz p - dAzrdx p)
  -(dvidy t*(dAzidy p - dAyidz p) - dvidx t*(dAxidz p - dAzidx p)))*invmur c
  - ( dvrdy t*(dAzidy p - dAyidz p) - dvrdx t*(dAxidz p - dAzidx p)
  + dvidy t*(dAzrdy p - dAyrdz p) - dvidx t*(dAxrdz p - dAzrdx p))*invmui c)
  + ( ( dvrdz t*(dAxrdx p + dAyrdy p + dAzrdz p)
  - dvidz t*(dAxidx p + dAyidy p + dAzidz p) )*invmur c
  - ( dvrdz t*(dAxidx p + dAyidy p + dAzidz p)
  + dvidz t*(dAxrdx p + dAyrdy p + dAzrdz p) )*invmui c)
  - omega c*omega c*(epsr c*vr t*Azr p - epsr c*vi t*Azi p - epsi c*vr t*Azi p - epsi c*vi t*Azr p)
  + omega c*(  epsi c*(dphirdz p*vr t + phir p*dvrdz t)
  + epsr c*(dphiidz p*vr t + phii p*dvrdz t)
  + epsr c*(dphirdz p*vi t + phir p*dvidz t)
  - epsi c*(dphiidz p*vi t + phii p*dvidz t))
  - (vr t*Jzr c - vi t*Jzi c).
Definition row_Azi (p : vals) (t : tests) (c : coefs) : R :=
  ( (  dvrdy t*(dAzidy p - dAyidz p) - dvrdx t*(dAxidz p - dAzidx p)
  + dvidy t*(dAzrdy p - dAyrdz p) - dvidx t*(dAxrdz p - dAzrdx p))*invmur c
  + (  dvrdy t*(dAzrdy p - dAyrdz p) - dvrdx t*(dAxrdz p - dAzrdx p)
  -(dvidy t*(dAzidy p - dAyidz p) - dvidx t*(dAxidz p - dAzidx p)))*invmui c)
  + ( ( dvrdz t*(dAxidx p + dAyidy p + dAzidz p)
  + dvidz t*(dAxrdx p + dAyrdy p + dAzrdz p) )*invmur c
  + ( dvrdz t*(dAxrdx p + dAyrdy p + dAzrdz p)
  - dvidz t*(dAxidx p + dAyidy p + dAzidz p) )*invmui c)
  - omega c*omega c*(-epsi c*vi t*Azi p + epsi c*vr t*Azr p + epsr c*vi t*Azr p + epsr c*vr t*Azi p)
  - omega c*(- epsr c*(dphiidz p*vi t + phii p*dvidz t)
  - epsi c*(dphirdz p*vi t + phir p*dvidz t)
  - epsi c*(dphiidz p*vr t + phii p*dvrdz t)
  + epsr c*(dphirdz p*vr t + phir p*dvrdz t))
  - (vr t*Jzi c + vi t*Jzr c).


(** Lines 184-247: values that need a further dimension stay zero *)
Definition fd (w : wks) (m : nat) (s : string) (pt : nat) : R := if (m <=? dim w)%nat then fld w s pt else 0.
Definition gathered (w : wks) (k : nat) : vals := {|
  Axr := fd w 1 "Arx" k; dAxrdx := fd w 1 "grad(Arx)[x]" k; dAxrdy := fd w 2 "grad(Arx)[y]" k; dAxrdz := fd w 3 "grad(Arx)[z]" k; Axi := fd w 1 "Aix"
  k; dAxidx := fd w 1 "grad(Aix)[x]" k; dAxidy := fd w 2 "grad(Aix)[y]" k; dAxidz := fd w 3 "grad(Aix)[z]" k; Ayr := fd w 2 "Ary" k; dAyrdx := fd w 2
  "grad(Ary)[x]" k; dAyrdy := fd w 2 "grad(Ary)[y]" k; dAyrdz := fd w 3 "grad(Ary)[z]" k; Ayi := fd w 2 "Aiy" k; dAyidx := fd w 2 "grad(Aiy)[x]" k;
  dAyidy := fd w 2 "grad(Aiy)[y]" k; dAyidz := fd w 3 "grad(Aiy)[z]" k; Azr := fd w 3 "Arz" k; dAzrdx := fd w 3 "grad(Arz)[x]" k; dAzrdy := fd w 3
  "grad(Arz)[y]" k; dAzrdz := fd w 3 "grad(Arz)[z]" k; Azi := fd w 3 "Aiz" k; dAzidx := fd w 3 "grad(Aiz)[x]" k; dAzidy := fd w 3 "grad(Aiz)[y]" k;
  dAzidz := fd w 3 "grad(Aiz)[z]" k; phir := fd w 1 "phir" k; dphirdx := fd w 1 "grad(phir)[x]" k; dphirdy := fd w 2 "grad(phir)[y]" k; dphirdz := fd
  w 3 "grad(phir)[z]" k; phii := fd w 1 "phii" k; dphiidx := fd w 1 "grad(phii)[x]" k; dphiidy := fd w 2 "grad(phii)[y]" k; dphiidz := fd w 3
  "grad(phii)[z]" k |}.
(** Lines 250-256, 268-281 *)
Definition testing (w : wks) (br bi i k : nat) : tests := {|
  vr := bas w br i k; vi := bas w bi i k; dvrdx := bgr w br i k 0%nat; dvidx := bgr w bi i k 0%nat;
  dvrdy := if (2 <=? dim w)%nat then bgr w br i k 1%nat else 0; dvidy := if (2 <=? dim w)%nat then bgr w bi i k 1%nat else 0;
  dvrdz := if (3 <=? dim w)%nat then bgr w br i k 2%nat else 0; dvidz := if (3 <=? dim w)%nat then bgr w bi i k 2%nat else 0 |}.

(** The settings and the parameter maxwells_fp_freq: getFreq, lines 799-812 *)
Record fp_set := { test : nat; freq : option R }.
(** getPermeability, getInvPermeability, getPermittivity, lines 814-900 *)
Definition fp_mu (s : fp_set) (x : R) : R * R := match test s with
  | 1%nat => (2, 1) | 2%nat => (2 / (x * x + 1), 1 / (x * x + 1)) | 3%nat => (1 / (x * x + 1), 0) | _ => (1, 0) end.
Definition fp_invmu (s : fp_set) (x : R) : R * R := match test s with
  | 1%nat => (4 / 10, - (2 / 10)) | 2%nat => (4 / 10 * (x * x + 1), - (2 / 10) * (x * x + 1)) | 3%nat => (x * x + 1, 0) | _ => (1, 0) end.
Definition fp_eps (s : fp_set) (x y : R) : R * R := match test s with
  | 1%nat => (1, 1) | 2%nat => (x * x + 1, x * x + 1) | 3%nat => (2 * (x * x + 1), 0)
  | 4%nat => if Rle_dec ((x - 10) * (x - 10) + y * y) 100 then (2 / 10, 0) else (1961 / 100000, 3922 / 1000000)
  | _ => (1, 0) end.
(** Interior sources: current (by direction) and charge at a point, real and imaginary parts *)
Record sources := { cur : nat -> nat -> R * R; chg : nat -> R * R }.
Definition coefficients (s : fp_set) (j : sources) (w : wks) (k : nat) : coefs :=
  let x := fd w 1 "x" k in let y := fd w 2 "y" k in
  {| omega := match freq s with Some o => o | None => 0 end;
     epsr := fst (fp_eps s x y); epsi := snd (fp_eps s x y); mur := fst (fp_mu s x); mui := snd (fp_mu s x);
     invmur := fst (fp_invmu s x); invmui := snd (fp_invmu s x); Jxr := fst (cur j 0%nat k); Jxi := snd (cur j 0%nat k);
     Jyr := if (2 <=? dim w)%nat then fst (cur j 1%nat k) else 0; Jyi := if (2 <=? dim w)%nat then snd (cur j 1%nat k) else 0;
     Jzr := if (3 <=? dim w)%nat then fst (cur j 2%nat k) else 0; Jzi := if (3 <=? dim w)%nat then snd (cur j 2%nat k) else 0;
     rhor := fst (chg j k); rhoi := snd (chg j k) |}.

(** Lines 287-299: the rates are added to the first eight rows of the element, for every test
    function. *)
Definition fp_rates (w : wks) : list (nat * R) :=
  let br := usebasis w (var_num w "phir" 0) in let bi := usebasis w (var_num w "phii" 0) in
  flat_map (fun pt => flat_map (fun i =>
    let vr := bas w br i pt in let vi := bas w bi i pt in
    let pair r a b := [(r, fld w a pt * vr - fld w b pt * vi); (S r, fld w a pt * vi + fld w b pt * vr)] in
    (pair 0%nat "Arx_t" "Aix_t" ++ pair 2%nat "phir_t" "phii_t" ++
     (if (2 <=? dim w)%nat then pair 4%nat "Ary_t" "Aiy_t" else []) ++ (if (3 <=? dim w)%nat then pair 6%nat "Arz_t" "Aiz_t" else []))%list)
    (seq 0 (nbas w br))) (seq 0 (npts w)).
(** volumeResidual, lines 72-437. There are no quadrature weights, and the loop is over the
    basis of phir for every unknown. *)
Definition fp_row (s : fp_set) (j : sources) (w : wks) (v : string) (r : vals -> tests -> coefs -> R) : list (nat * R) :=
  let pr := var_num w "phir" 0 in let pi := var_num w "phii" 0 in
  fill w pr (var_num w v 0) (fun k i => r (gathered w k) (testing w (usebasis w pr) (usebasis w pi) i k) (coefficients s j w k)).
Definition fp_steady (s : fp_set) (j : sources) (w : wks) : list (nat * R) :=
  (fp_row s j w "Arx" row_Axr ++ fp_row s j w "Aix" row_Axi ++ fp_row s j w "phir" row_phir ++ fp_row s j w "phii" row_phii ++
   (if (2 <=? dim w)%nat then fp_row s j w "Ary" row_Ayr ++ fp_row s j w "Aiy" row_Ayi else []) ++
   (if (3 <=? dim w)%nat then fp_row s j w "Arz" row_Azr ++ fp_row s j w "Aiz" row_Azi else []))%list.
Definition fp_volume (s : fp_set) (j : sources) (w : wks) : list (nat * R) := (fp_rates w ++ fp_steady s j w)%list.
