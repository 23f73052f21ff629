(** Multiple-species phase field (src/physics/msphasefield.cpp), the operators of the test module
    (physics_test.cpp) and the phase-space test module (phase_elliptic.cpp). *)
From Coq Require Import Bool Arith Reals String List.
From Verif Require Import Sparse_Model Mass_Model BProj_Model Phys_Model.
Import ListNotations.
Local Open Scope R_scope.

(** *** msphasefield.cpp *)
(** What volumeResidual reads: fields by phase, element, point; basis by element, dof, point.
    [p_nums] is phi_num as setWorkset leaves it (lines 455-468). *)
Record pdata := {
  p_dim : nat; p_phases : nat; p_nel : nat; p_npt : nat; p_nb : nat;
  p_sol : nat -> nat -> nat -> R; p_dot : nat -> nat -> nat -> R; p_grad : nat -> nat -> nat -> nat -> R;   (* the first of p_grad: direction *)
  p_bas : nat -> nat -> nat -> R; p_bgr : nat -> nat -> nat -> nat -> R;                                     (* element, dof, point (, direction) *)
  p_wts : nat -> nat -> R; p_off : nat -> nat -> nat; p_nums : list nat;
  p_par : string -> option R; p_varmob : bool }.

(** The vectors phi, phi_dot, dphidx, dphidy, dphidz (lines 206-211) live through the whole call. *)
Record pvecs := { v_phi : list R; v_dot : list R; v_dx : list R; v_dy : list R; v_dz : list R }.
Definition p_push (p : pdata) (e k : nat) (v : pvecs) : pvecs :=
  let js := seq 0 (p_phases p) in
  {| v_phi := v_phi v ++ map (fun j => p_sol p j e k) js; v_dot := v_dot v ++ map (fun j => p_dot p j e k) js;
     v_dx := v_dx v ++ map (fun j => p_grad p 0 j e k) js;
     v_dy := if (1 <? p_dim p)%nat then v_dy v ++ map (fun j => p_grad p 1 j e k) js else v_dy v;
     v_dz := if (2 <? p_dim p)%nat then v_dz v ++ map (fun j => p_grad p 2 j e k) js else v_dz v |}%list.
Definition p_get (p : pdata) (n : string) : R := match p_par p n with Some x => x | None => 1 end.
(** Lines 291-318. *)
Definition p_mobility (p : pdata) (v : pvecs) : R :=
  let L := p_get p "L"%string in let js := seq 0 (p_phases p) in
  let ph j := nth j (v_phi v) 0 in
  let Lnum := sm js (fun i => sm js (fun j => L * ph i * ph i * ph j * ph j)) in
  let Lden := sm js (fun i => sm js (fun j => ph i * ph i * ph j * ph j)) in
  if Rlt_dec Lden (1 / 100000000) then 1 / 100 else Lnum / Lden.
(** Lines 320-357: what dof i of phase j receives at point k of element e. *)
Definition p_term (p : pdata) (v : pvecs) (e k i j : nat) : R :=
  let L := p_get p "L"%string in let A := p_get p "A"%string in let D := p_get p "thermal_diff"%string in
  let ph := nth j (v_phi v) 0 in
  let sumphi := sm (seq 0 (p_phases p)) (fun l => nth l (v_phi v) 0 * nth l (v_phi v) 0) in
  let bv := p_bas p e i k in let w := p_wts p e k in
  match p_dim p with
  | 2%nat => ((if p_varmob p then p_mobility p v else L) * (16 * A * ph * (- ph + sumphi) * bv
              + D * D * (nth j (v_dx v) 0 * p_bgr p e i k 0 + nth j (v_dy v) 0 * p_bgr p e i k 1))) * w
  | 3%nat => (L * (4 * A * ph * (- ph + sumphi) * bv
              + D * D * (nth j (v_dx v) 0 * p_bgr p e i k 0 + nth j (v_dy v) 0 * p_bgr p e i k 1 + nth j (v_dz v) 0 * p_bgr p e i k 2))) * w
  | _ => 0
  end + nth j (v_dot v) 0 * bv * w.
Definition p_visits (p : pdata) : list (nat * nat) := flat_map (fun e => map (fun k => (e, k)) (seq 0 (p_npt p))) (seq 0 (p_nel p)).
(** The loop: contributions (element, row, value). *)
Definition p_step (p : pdata) (s : pvecs * list (nat * nat * R)) (ek : nat * nat) : pvecs * list (nat * nat * R) :=
  let v := p_push p (fst ek) (snd ek) (fst s) in
  (v, (snd s ++ flat_map (fun i => map (fun j => (fst ek, p_off p (nth j (p_nums p) 0%nat) i, p_term p v (fst ek) (snd ek) i j)) (seq 0 (p_phases p)))
                (seq 0 (p_nb p)))%list).
Definition p_empty : pvecs := {| v_phi := []; v_dot := []; v_dx := []; v_dy := []; v_dz := [] |}.
Definition p_volume (p : pdata) : list (nat * nat * R) := snd (fold_left (p_step p) (p_visits p) (p_empty, [])).
Definition p_res (p : pdata) (e r : nat) : R :=
  sm (p_volume p) (fun c => if ((fst (fst c) =? e) && (snd (fst c) =? r))%nat%bool then snd c else 0).

(** *** physics_test.cpp, scalar bases: lines 44-115. Vector bases: lines 117-170, not rendered. *)
Definition pt_volume (op : string) (w : wks) : list (nat * R) :=
  let pn := var_num w "p" 0 in let b := usebasis w pn in
  if String.eqb op "projection" then fill w pn pn (fun k i => fld w "p" k * wt w k * bas w b i k)
  else if String.eqb op "Laplace" then
    match dim w with
    | 1%nat => fill w pn pn (fun k i => fld w "grad(p)[x]" k * wt w k * bgr w b i k 0)
    | 2%nat => fill w pn pn (fun k i => fld w "grad(p)[x]" k * wt w k * bgr w b i k 0 + fld w "grad(p)[y]" k * wt w k * bgr w b i k 1)
    | 3%nat => fill w pn pn (fun k i => fld w "grad(p)[x]" k * wt w k * bgr w b i k 0 + fld w "grad(p)[y]" k * wt w k * bgr w b i k 1
                                        + fld w "grad(p)[z]" k * wt w k * bgr w b i k 2)
    | _ => []
    end
  else [].

(** *** phase_elliptic.cpp, lines 125-147. *)
Record phasedata := { f_npt : nat; f_pel : nat; f_ppt : nat; f_nb : nat; f_pnb : nat; f_wt : nat -> R; f_pwt : nat -> nat -> R;
  f_bas : nat -> nat -> R; f_pbas : nat -> nat -> nat -> R; f_dot : nat -> R; f_src : nat -> R; f_off : nat -> nat; f_poff : nat -> nat }.
Definition f_volume (f : phasedata) : list (nat * R) :=
  let numPhaseIP := (f_pel f * f_ppt f)%nat in
  flat_map (fun dof => flat_map (fun pt => flat_map (fun pelem => flat_map (fun pdof => map (fun ppt =>
      let ptind := (pt * numPhaseIP + ppt)%nat in
      ((f_off f dof * f_pnb f + f_poff f pdof)%nat,
       (f_dot f ptind - f_src f ptind) * f_wt f pt * f_pwt f pelem ppt * f_bas f dof pt * f_pbas f pelem pdof ppt))
    (seq 0 (f_ppt f))) (seq 0 (f_pnb f))) (seq 0 (f_pel f))) (seq 0 (f_npt f))) (seq 0 (f_nb f)).
