(** The hybridized shallow water module (src/physics/shallowwaterHybridized.cpp) and the
    hybridized Euler module (src/physics/euler.cpp): fluxes, eigen-decompositions of the normal
    flux Jacobian, stabilization, boundary terms and element equations.
    The trace unknowns of the skeleton are the fields "aux v".
    Simplified: as in Phys_Model; the work arrays (Kokkos views, zero when made) are functions
    of their indices; the thread-private vectors of a point are made anew. *)
From Coq Require Import Bool Arith Reals List String.
From Verif Require Import BProj_Model Phys_Model.
Import ListNotations.
Local Open Scope R_scope.

(** View_EvalT1 / View_EvalT2 filled entry by entry *)
Definition vec := nat -> R.
Definition mat := nat -> nat -> R.
Definition ofv (l : list R) : vec := fun i => nth i l 0.
Definition ofm (l : list (list R)) : mat := fun i j => nth j (nth i l []) 0.
(** assignments a(i) = v in program order: the last one made to an entry stays *)
Definition assign {A} (l : list (nat * A)) (z : A) : nat -> A :=
  fun i => fold_left (fun r c => if Nat.eqb (fst c) i then snd c else r) l z.

(** euler.hpp:268-279, shallowwaterHybridized.hpp:169-182 *)
Definition matVec (n : nat) (A : mat) (x : vec) : vec := fun i => sm (seq 0 n) (fun j => A i j * x j).

(** shallowwaterHybridized.cpp:561-567, euler.cpp:1058-1064: L deltaS, times |Lambda|, times R *)
Definition roe_term (n : nat) (L : mat) (lam : vec) (Rt : mat) (dS : vec) : vec :=
  matVec n Rt (fun i => matVec n L dS i * Rabs (lam i)).
(** shallowwaterHybridized.cpp:574-579, euler.cpp:1067-1077 *)
Definition maxev_term (vn a : R) (dS : vec) : vec := fun i => dS i * Rmax (Rabs (vn + a)) (Rabs (vn - a)).
(** shallowwaterHybridized.cpp:691-727, euler.cpp:1217-1256 *)
Definition far_term (n : nat) (L : mat) (lam : vec) (Rt : mat) (dS dinf : vec) : vec :=
  let b := matVec n Rt (fun i => matVec n L dS i * ((lam i + Rabs (lam i)) / 2)) in
  let d := matVec n Rt (fun i => matVec n L dinf i * ((lam i - Rabs (lam i)) / 2)) in
  fun i => b i - d i.

(** "aux " is prefixed on sides: the trace unknowns *)
Definition sf (w : wks) (on_side : bool) (v : string) (pt : nat) : R :=
  fld w (if on_side then "aux " ++ v else v)%string pt.
Definition nx w pt := fld w "n[x]"%string pt.
Definition ny w pt := fld w "n[y]"%string pt.
Definition nz w pt := fld w "n[z]"%string pt.

(** ** Shallow water *)
Record swp := { grav : R; swroe : bool }.   (* "g" (62), "Roe-like stabilization" (54) *)

Definition H_num w := var_num w "H" 0.
Definition Hux_num w := var_num w "Hux" 0.
Definition Huy_num w := var_num w "Huy" 0.

(** constructor, 29-33 *)
Definition sw_myvars (d : nat) : list string :=
  (["H"; "Hux"] ++ (if (1 <? d)%nat then ["Huy"] else []))%list%string.

(** computeFluxVector, 414-479 *)
Definition sw_fluxes (p : swp) (w : wks) (on_side : bool) (pt eqn dir : nat) : R :=
  let H := sf w on_side "H" pt in let Hux := sf w on_side "Hux" pt in let Huy := sf w on_side "Huy" pt in
  match dim w with
  | 1%nat => assign [ (H_num w, ofv [Hux]);
                      (Hux_num w, ofv [Hux*Hux/H + 1/2*H*H*grav p]) ] (fun _ => 0) eqn dir
  | 2%nat => assign [ (H_num w, ofv [Hux; Huy]);
                      (Hux_num w, ofv [Hux*Hux/H + 1/2*H*H*grav p; Hux*Huy/H]);
                      (Huy_num w, ofv [Hux*Huy/H; Huy*Huy/H + 1/2*H*H*grav p]) ] (fun _ => 0) eqn dir
  | _ => 0
  end.

(** eigendecompFluxJacobian, 765-790 (one space dimension; the normal is not an argument) *)
Definition sw_eig1 (g Hux H : R) : mat * vec * mat :=
  let a := sqrt (H * g) in
  (ofm [ [(Hux/H + a)/(2*a); -1/(2*a)]; [(a - Hux/H)/(2*a); 1/(2*a)] ],
   ofv [Hux/H - a; Hux/H + a],
   ofm [ [1; 1]; [Hux/H - a; Hux/H + a] ]).
(** 792-826 (two) *)
Definition sw_eig2 (g Hux Huy H nx ny : R) : mat * vec * mat :=
  let vn := Hux/H*nx + Huy/H*ny in
  let a := sqrt (H * g) in
  (ofm [ [1/2 - vn/(2*a); nx/(2*a); ny/(2*a)];
         [(ny*Hux/H - nx*Huy/H)/a; -ny/a; nx/a];
         [1/2 + vn/(2*a); -nx/(2*a); -ny/(2*a)] ],
   ofv [vn + a; vn; vn - a],
   ofm [ [1; 0; 1];
         [Hux/H + a*nx; -a*ny; Hux/H - a*nx];
         [Huy/H + a*ny; a*nx; Huy/H - a*ny] ]).
Definition sw_eig (p : swp) (w : wks) (pt : nat) : mat * vec * mat :=
  let Hh := sf w true "H" pt in let Huxh := sf w true "Hux" pt in let Huyh := sf w true "Huy" pt in
  match dim w with
  | 1%nat => sw_eig1 (grav p) Huxh Hh
  | 2%nat => sw_eig2 (grav p) Huxh Huyh Hh (nx w pt) (ny w pt)
  | _ => (fun _ _ => 0, fun _ => 0, fun _ _ => 0)
  end.

(** S minus the trace, 541-547 *)
Definition sw_dS (w : wks) (S Sx Sy : R) (pt : nat) : vec :=
  assign ([ (H_num w, S - sf w true "H" pt); (Hux_num w, Sx - sf w true "Hux" pt) ] ++
          (if (1 <? dim w)%nat then [ (Huy_num w, Sy - sf w true "Huy" pt) ] else []))%list 0.
Definition sw_jump (w : wks) (pt : nat) : vec := sw_dS w (sf w false "H" pt) (sf w false "Hux" pt) (sf w false "Huy" pt) pt.

(** computeStabilizationTerm, 486-583 *)
Definition sw_stab (p : swp) (w : wks) (pt : nat) : vec :=
  let nVar := List.length (varlist w) in
  if swroe p then let '(L, lam, Rt) := sw_eig p w pt in roe_term nVar L lam Rt (sw_jump w pt)
  else
    let Hh := sf w true "H" pt in
    let vn := nx w pt * sf w true "Hux" pt / Hh + (if (1 <? dim w)%nat then ny w pt * sf w true "Huy" pt / Hh else 0) in
    maxev_term vn (sqrt (Hh * grav p)) (sw_jump w pt).

(** computeBoundaryTerm, 590-756 *)
Definition sw_bound (p : swp) (w : wks) (pt : nat) : vec :=
  let nVar := List.length (varlist w) in
  if String.eqb (bcs w (H_num w)) "Far-field" then
    let '(L, lam, Rt) := sw_eig p w pt in
    let far v := fn w ("Far-field " ++ v ++ " " ++ sidename w)%string pt in
    far_term nVar L lam Rt (sw_jump w pt) (sw_dS w (far "H"%string) (far "Hux"%string) (far "Huy"%string) pt)
  else
    let H := sf w false "H" pt in let Hux := sf w false "Hux" pt in let Huy := sf w false "Huy" pt in
    let Hh := sf w true "H" pt in let Huxh := sf w true "Hux" pt in let Huyh := sf w true "Huy" pt in
    let vn := nx w pt * Hux / H + (if (1 <? dim w)%nat then ny w pt * Huy / H else 0) in
    assign ([ (H_num w, H - Hh); (Hux_num w, (Hux/H - vn * nx w pt) - Huxh/Hh) ] ++
            (if (1 <? dim w)%nat then [ (Huy_num w, (Huy/H - vn * ny w pt) - Huyh/Hh) ] else []))%list 0.

(** F(trace) . n + stabilization, as written in the loops 231-259 and 323-355 *)
Definition sw_numerical (p : swp) (w : wks) (pt eqn : nat) : R :=
  match dim w with
  | 1%nat => sw_fluxes p w true pt eqn 0 * nx w pt + sw_stab p w pt eqn
  | 2%nat => sw_fluxes p w true pt eqn 0 * nx w pt + sw_fluxes p w true pt eqn 1 * ny w pt + sw_stab p w pt eqn
  | _ => 0
  end.

(** computeFlux, 268-368: what the skeleton is given (None: left as it was, with a message) *)
Definition sw_computeFlux (p : swp) (w : wks) (pt eqn : nat) : option R :=
  let sidetype := bcs w (H_num w) in
  if (String.eqb sidetype "Far-field" || String.eqb sidetype "Slip")%bool then Some (sw_bound p w pt eqn)
  else if String.eqb sidetype "interface" then Some (sw_numerical p w pt eqn)
  else None.

(** volumeResidual, 106-183 *)
Definition sw_volume (p : swp) (w : wks) : list (nat * R) :=
  let sourceterms := [ fn w "source H"%string; fn w "source Hux"%string; fn w "source Huy"%string ] in
  flat_map (fun iEqn =>
    let b := usebasis w iEqn in
    let St := fld w (nth iEqn (varlist w) "" ++ "_t")%string in
    let source := nth iEqn sourceterms (fun _ => 0) in
    match dim w with
    | 1%nat => fill w iEqn iEqn (fun pt dof => St pt * bas w b dof pt * wt w pt +
        - (sw_fluxes p w false pt iEqn 0 * bgr w b dof pt 0 + source pt * bas w b dof pt) * wt w pt)
    | 2%nat => fill w iEqn iEqn (fun pt dof => St pt * bas w b dof pt * wt w pt +
        - (sw_fluxes p w false pt iEqn 0 * bgr w b dof pt 0 + sw_fluxes p w false pt iEqn 1 * bgr w b dof pt 1
           + source pt * bas w b dof pt) * wt w pt)
    | _ => []
    end) (seq 0 (List.length (varlist w))).

(** boundaryResidual, 188-262 *)
Definition sw_boundary (p : swp) (w : wks) : list (nat * R) :=
  flat_map (fun iEqn =>
    let b := usebasis w iEqn in
    match dim w with
    | 1%nat | 2%nat => fill w iEqn iEqn (fun pt dof => sw_numerical p w pt iEqn * wt w pt * bas w b dof pt)
    | _ => []
    end) (seq 0 (List.length (varlist w))).

(** ** Euler *)
Record eup := { gam : R; URef : R; RGas : R; TRef : R; euroe : bool }.   (* 71-84, 61 *)
(** reference Mach number, 86-89 *)
Definition MRef (p : eup) : R := URef p / sqrt (gam p * RGas p * TRef p).

Definition rho_num w := var_num w "rho" 0.
Definition rhoux_num w := var_num w "rhoux" 0.
Definition rhouy_num w := var_num w "rhouy" 0.
Definition rhouz_num w := var_num w "rhouz" 0.
Definition rhoE_num w := var_num w "rhoE" 0.

(** constructor, 27-35: the order in which the unknowns are listed *)
Definition eu_myvars (d : nat) : list string :=
  (["rho"; "rhoux"; "rhoE"] ++ (if (1 <? d)%nat then ["rhouy"] else []) ++
   (if (2 <? d)%nat then ["rhouz"] else []))%list%string.

(** computeThermoProps, 901-957 *)
Definition eu_p (p : eup) (w : wks) (s : bool) (pt : nat) : R :=
  (gam p - 1) * (sf w s "rhoE" pt - 1/2 * sf w s "rhoux" pt * sf w s "rhoux" pt / sf w s "rho" pt)
  + (if (1 <? dim w)%nat then (gam p - 1) * (-(1/2) * sf w s "rhouy" pt * sf w s "rhouy" pt / sf w s "rho" pt) else 0)
  + (if (2 <? dim w)%nat then (gam p - 1) * (-(1/2) * sf w s "rhouz" pt * sf w s "rhouz" pt / sf w s "rho" pt) else 0).
Definition eu_T (p : eup) (w : wks) (s : bool) (pt : nat) : R := gam p * MRef p * MRef p * eu_p p w s pt / sf w s "rho" pt.
Definition eu_a (p : eup) (w : wks) (s : bool) (pt : nat) : R := sqrt (eu_T p w s pt) / MRef p.

(** computeInviscidFluxes, 753-893 (three dimensions: no entry for rhouz) *)
Definition eu_fluxes (p : eup) (w : wks) (s : bool) (pt eqn dir : nat) : R :=
  let rho := sf w s "rho" pt in let rhoux := sf w s "rhoux" pt in let rhoE := sf w s "rhoE" pt in
  let rhouy := sf w s "rhouy" pt in let rhouz := sf w s "rhouz" pt in let p0 := eu_p p w s pt in
  match dim w with
  | 1%nat => assign [ (rho_num w, ofv [rhoux]);
                      (rhoux_num w, ofv [rhoux*rhoux/rho + p0]);
                      (rhoE_num w, ofv [rhoE*rhoux/rho + p0*rhoux/rho]) ] (fun _ => 0) eqn dir
  | 2%nat => assign [ (rho_num w, ofv [rhoux; rhouy]);
                      (rhoux_num w, ofv [rhoux*rhoux/rho + p0; rhoux*rhouy/rho]);
                      (rhouy_num w, ofv [rhoux*rhouy/rho; rhouy*rhouy/rho + p0]);
                      (rhoE_num w, ofv [rhoE*rhoux/rho + p0*rhoux/rho; rhoE*rhouy/rho + p0*rhouy/rho]) ]
                    (fun _ => 0) eqn dir
  | _ => assign [ (rho_num w, ofv [rhoux; rhouy; rhouz]);
                  (rhoux_num w, ofv [rhoux*rhoux/rho + p0; rhoux*rhouy/rho; rhoux*rhouz/rho]);
                  (rhouy_num w, ofv [rhoux*rhouy/rho; rhouy*rhouy/rho + p0; rhouy*rhouz/rho]);
                  (rhoE_num w, ofv [rhoE*rhoux/rho + p0*rhoux/rho; rhoE*rhouy/rho + p0*rhouy/rho;
                                    rhoE*rhouz/rho + p0*rhouz/rho]) ]
                (fun _ => 0) eqn dir
  end.

(** eigendecompFluxJacobian, 1291-1332 *)
Definition eu_eig1 (rhoux rho a gamma : R) : mat * vec * mat :=
  let gm1 := gamma - 1 in
  (ofm [ [gm1/4*rhoux*rhoux/(rho*rho)/(a*a) + rhoux/rho/(2*a); -gm1/(a*a*a)*rhoux/rho - 1/(2*a); gm1/(2*a*a)];
         [1 - gm1/2*rhoux*rhoux/(rho*rho)/(a*a); gm1*rhoux/rho/(a*a); -gm1/(a*a)];
         [gm1/4*rhoux*rhoux/(rho*rho)/(a*a) - rhoux/rho/(2*a); -gm1/(a*a*a)*rhoux/rho + 1/(2*a); gm1/(2*a*a)] ],
   ofv [rhoux/rho - a; rhoux/rho; rhoux/rho + a],
   ofm [ [1; 1; 1];
         [rhoux/rho - a; rhoux/rho; rhoux/rho + a];
         [a*a/gm1 + 1/2*rhoux*rhoux/(rho*rho) - rhoux/rho*a; 1/2*rhoux*rhoux/(rho*rho);
          a*a/gm1 + 1/2*rhoux*rhoux/(rho*rho) + rhoux/rho*a] ]).

(** 1334-1390 *)
Definition eu_eig2 (rhoux rhouy rho nx ny a gamma : R) : mat * vec * mat :=
  let vn := rhoux/rho*nx + rhouy/rho*ny in
  let ek := 1/2 * (rhoux*rhoux + rhouy*rhouy)/(rho*rho) in
  let gm1 := gamma - 1 in
  (ofm [ [1/(2*a*a) * (gm1*ek + a*vn); 1/(2*a*a) * (-gm1*rhoux/rho - a*nx); 1/(2*a*a) * (-gm1*rhouy/rho - a*ny);
          1/(2*a*a) * gm1];
         [1/(a*a) * (a*a - gm1*ek); 1/(a*a) * (gm1*rhoux/rho); 1/(a*a) * (gm1*rhouy/rho); 1/(a*a) * (-gm1)];
         [1/(2*a*a) * (gm1*ek - a*vn); 1/(2*a*a) * (-gm1*rhoux/rho + a*nx); 1/(2*a*a) * (-gm1*rhouy/rho + a*ny);
          1/(2*a*a) * gm1];
         [rhouy/rho*nx - rhoux/rho*ny; ny; -nx; 0] ],
   ofv [vn - a; vn; vn + a; vn],
   ofm [ [1; 1; 1; 0];
         [rhoux/rho - a*nx; rhoux/rho; rhoux/rho + a*nx; ny];
         [rhouy/rho - a*ny; rhouy/rho; rhouy/rho + a*ny; -nx];
         [a*a/gm1 + ek - vn*a; ek; a*a/gm1 + ek + vn*a; rhoux/rho*ny - rhouy/rho*nx] ]).

Definition rgtb (x y : R) : bool := if Rlt_dec y x then true else false.
(** 1404-1424 *)
Definition whichMat (nx ny nz : R) : nat :=
  if (rgtb (Rabs ny) (Rabs nx) || rgtb (Rabs nz) (Rabs nx))%bool
  then (if rgtb (Rabs nz) (Rabs ny) then 3 else 2)%nat else 1%nat.

(** 1392-1556 *)
Definition eu_eig3 (rhoux rhouy rhouz rho nx ny nz a gamma : R) : mat * vec * mat :=
  let vn := rhoux/rho*nx + rhouy/rho*ny + rhouz/rho*nz in
  let ek := 1/2 * (rhoux*rhoux + rhouy*rhouy + rhouz*rhouz)/(rho*rho) in
  let gm1 := gamma - 1 in
  let Lrows := match whichMat nx ny nz with
    | 1%nat => [ [(rhouy/rho - vn*ny)/nx; ny; (ny*ny-1)/nx; ny*nz/nx; 0];
                 [(vn*nz - rhouz/rho)/nx; -nz; -ny*nz/nx; (1-nz*nz)/nx; 0] ]
    | 2%nat => [ [(vn*nx - rhoux/rho)/ny; (1-nx*nx)/ny; -nx; -nx*nz/ny; 0];
                 [(rhouz/rho - vn*nz)/ny; nx*nz/ny; nz; (nz*nz-1)/ny; 0] ]
    | _ => [ [(rhoux/rho - vn*nx)/nz; (nx*nx-1)/nz; nx*ny/nz; nx; 0];
             [(vn*ny - rhouy/rho)/nz; -nx*ny/nz; (1-ny*ny)/nz; -ny; 0] ]
    end in
  let c3 := match whichMat nx ny nz with
    | 1%nat | 2%nat => [0; ny; -nx; 0; rhoux/rho*ny - rhouy/rho*nx]
    | _ => [0; -nz; 0; nx; rhouz/rho*nx - rhoux/rho*nz]
    end in
  let c4 := match whichMat nx ny nz with
    | 1%nat => [0; -nz; 0; nx; rhouz/rho*nx - rhoux/rho*nz]
    | _ => [0; 0; nz; -ny; rhouy/rho*nz - rhouz/rho*ny]
    end in
  (ofm ([ [1/(2*a*a) * (gm1*ek + a*vn); 1/(2*a*a) * (-gm1*rhoux/rho - a*nx); 1/(2*a*a) * (-gm1*rhouy/rho - a*ny);
           1/(2*a*a) * (-gm1*rhouz/rho - a*nz); 1/(2*a*a) * gm1];
          [1/(a*a) * (a*a - gm1*ek); 1/(a*a) * (gm1*rhoux/rho); 1/(a*a) * (gm1*rhouy/rho);
           1/(a*a) * (gm1*rhouz/rho); 1/(a*a) * (-gm1)];
          [1/(2*a*a) * (gm1*ek - a*vn); 1/(2*a*a) * (-gm1*rhoux/rho + a*nx); 1/(2*a*a) * (-gm1*rhouy/rho + a*ny);
           1/(2*a*a) * (-gm1*rhouz/rho + a*nz); 1/(2*a*a) * gm1] ] ++ Lrows),
   ofv [vn - a; vn; vn + a; vn; vn],
   fun i j => nth i (nth j
     [ [1; rhoux/rho - a*nx; rhouy/rho - a*ny; rhouz/rho - a*nz; a*a/gm1 + ek - vn*a];
       [1; rhoux/rho; rhouy/rho; rhouz/rho; ek];
       [1; rhoux/rho + a*nx; rhouy/rho + a*ny; rhouz/rho + a*nz; a*a/gm1 + ek + vn*a];
       c3; c4 ] []) 0)%list.

Definition eu_eig (p : eup) (w : wks) (pt : nat) : mat * vec * mat :=
  let s v := sf w true v pt in
  match dim w with
  | 1%nat => eu_eig1 (s "rhoux"%string) (s "rho"%string) (eu_a p w true pt) (gam p)
  | 2%nat => eu_eig2 (s "rhoux"%string) (s "rhouy"%string) (s "rho"%string) (nx w pt) (ny w pt) (eu_a p w true pt) (gam p)
  | _ => eu_eig3 (s "rhoux"%string) (s "rhouy"%string) (s "rhouz"%string) (s "rho"%string)
                 (nx w pt) (ny w pt) (nz w pt) (eu_a p w true pt) (gam p)
  end.

(** 1034-1045, 1208-1216, 1232-1242 *)
Definition eu_dS (w : wks) (S : string -> R) (pt : nat) : vec :=
  assign ([ (rho_num w, S "rho"%string - sf w true "rho" pt); (rhoux_num w, S "rhoux"%string - sf w true "rhoux" pt);
            (rhoE_num w, S "rhoE"%string - sf w true "rhoE" pt) ] ++
          (if (1 <? dim w)%nat then [ (rhouy_num w, S "rhouy"%string - sf w true "rhouy" pt) ] else []) ++
          (if (2 <? dim w)%nat then [ (rhouz_num w, S "rhouz"%string - sf w true "rhouz" pt) ] else []))%list 0.
Definition eu_jump (w : wks) (pt : nat) : vec := eu_dS w (fun v => sf w false v pt) pt.

(** nx*rhoux/rho + ..., 1068-1070, 1260-1262 *)
Definition eu_vn (w : wks) (s : bool) (pt : nat) : R :=
  nx w pt * sf w s "rhoux" pt / sf w s "rho" pt
  + (if (1 <? dim w)%nat then ny w pt * sf w s "rhouy" pt / sf w s "rho" pt else 0)
  + (if (2 <? dim w)%nat then nz w pt * sf w s "rhouz" pt / sf w s "rho" pt else 0).

(** computeStabilizationTerm, 969-1083 *)
Definition eu_stab (p : eup) (w : wks) (pt : nat) : vec :=
  if euroe p then let '(L, lam, Rt) := eu_eig p w pt in roe_term (dim w + 2) L lam Rt (eu_jump w pt)
  else maxev_term (eu_vn w true pt) (eu_a p w true pt) (eu_jump w pt).

(** computeBoundaryTerm, 1090-1284 *)
Definition eu_bound (p : eup) (w : wks) (pt : nat) : vec :=
  if String.eqb (bcs w (rho_num w)) "Far-field" then
    let '(L, lam, Rt) := eu_eig p w pt in
    far_term (dim w + 2) L lam Rt (eu_jump w pt)
             (eu_dS w (fun v => fn w ("Far-field " ++ v ++ " " ++ sidename w)%string pt) pt)
  else
    let vn := eu_vn w false pt in
    let u v := sf w false v pt / sf w false "rho" pt in
    let uh v := sf w true v pt / sf w true "rho" pt in
    assign ([ (rho_num w, sf w false "rho" pt - sf w true "rho" pt); (rhoE_num w, sf w false "rhoE" pt - sf w true "rhoE" pt);
              (rhoux_num w, (u "rhoux"%string - vn * nx w pt) - uh "rhoux"%string) ] ++
            (if (1 <? dim w)%nat then [ (rhouy_num w, (u "rhouy"%string - vn * ny w pt) - uh "rhouy"%string) ] else []) ++
            (if (2 <? dim w)%nat then [ (rhouz_num w, (u "rhouz"%string - vn * nz w pt) - uh "rhouz"%string) ] else []))%list 0.

(** 500-585, 652-696 *)
Definition eu_numerical (p : eup) (w : wks) (pt eqn : nat) : R :=
  match dim w with
  | 1%nat => eu_fluxes p w true pt eqn 0 * nx w pt + eu_stab p w pt eqn
  | 2%nat => eu_fluxes p w true pt eqn 0 * nx w pt + eu_fluxes p w true pt eqn 1 * ny w pt + eu_stab p w pt eqn
  | _ => eu_fluxes p w true pt eqn 0 * nx w pt + eu_fluxes p w true pt eqn 1 * ny w pt
         + eu_fluxes p w true pt eqn 2 * nz w pt + eu_stab p w pt eqn
  end.

(** computeFlux, 593-705 *)
Definition eu_computeFlux (p : eup) (w : wks) (pt eqn : nat) : option R :=
  let sidetype := bcs w (rho_num w) in
  if (String.eqb sidetype "Far-field" || String.eqb sidetype "Slip")%bool then Some (eu_bound p w pt eqn)
  else if String.eqb sidetype "interface" then Some (eu_numerical p w pt eqn)
  else None.

(** one block of volumeResidual *)
Definition eu_row (p : eup) (w : wks) (v : string) (num : nat) : list (nat * R) :=
  let b := usebasis w num in
  let St := fld w (v ++ "_t")%string in
  let source := fn w ("source " ++ v)%string in
  match dim w with
  | 1%nat => fill w num num (fun pt dof => St pt * bas w b dof pt * wt w pt +
      - (eu_fluxes p w false pt num 0 * bgr w b dof pt 0 + source pt * bas w b dof pt) * wt w pt)
  | 2%nat => fill w num num (fun pt dof => St pt * bas w b dof pt * wt w pt +
      - (eu_fluxes p w false pt num 0 * bgr w b dof pt 0 + eu_fluxes p w false pt num 1 * bgr w b dof pt 1
         + source pt * bas w b dof pt) * wt w pt)
  | _ => fill w num num (fun pt dof => St pt * bas w b dof pt * wt w pt +
      - (eu_fluxes p w false pt num 0 * bgr w b dof pt 0 + eu_fluxes p w false pt num 1 * bgr w b dof pt 1
         + eu_fluxes p w false pt num 2 * bgr w b dof pt 2 + source pt * bas w b dof pt) * wt w pt)
  end.
(** volumeResidual, 150-466 *)
Definition eu_volume (p : eup) (w : wks) : list (nat * R) :=
  (eu_row p w "rho" (rho_num w) ++ eu_row p w "rhoux" (rhoux_num w)
   ++ (if (1 <? dim w)%nat then eu_row p w "rhouy" (rhouy_num w) else [])
   ++ (if (2 <? dim w)%nat then eu_row p w "rhouz" (rhouz_num w) else [])
   ++ eu_row p w "rhoE" (rhoE_num w))%list.

(** boundaryResidual, 471-587 *)
Definition eu_boundary (p : eup) (w : wks) : list (nat * R) :=
  flat_map (fun iEqn => fill w iEqn iEqn (fun pt dof =>
      eu_numerical p w pt iEqn * wt w pt * bas w (usebasis w iEqn) dof pt))
    (seq 0 (dim w + 2)).
