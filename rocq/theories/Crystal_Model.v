(** Crystal elasticity: src/physics/CrystalElasticity.cpp. *)
From Coq Require Import Bool Arith Reals String List.
From Verif Require Import Sparse_Model Mass_Model BProj_Model.
Import ListNotations.
Local Open Scope R_scope.

(** The members: thirteen stiffnesses and the two moduli used for thermal stress. *)
Record stiff := { c11 : R; c22 : R; c33 : R; c44 : R; c55 : R; c66 : R; c12 : R; c13 : R; c23 : R;
                  c15 : R; c25 : R; c35 : R; c46 : R; ce_lambda : R; ce_mu : R }.

(** Constructor, lines 30-77. [get name] is the value of "Crystal elastic parameters" if given. *)
Definition dflt (o : option R) (d : R) : R := match o with Some v => v | None => d end.
Definition ce_new (get : string -> option R) : stiff :=
  let E := dflt (get "E"%string) 1 in let nu := dflt (get "nu"%string) (4 / 10) in
  let tlambda := (E * nu) / ((1 + nu) * (1 - 2 * nu)) in
  let tmu := E / (2 * (1 + nu)) in
  let t11 := dflt (get "C11"%string) (2 * tmu + tlambda) in
  let t44 := dflt (get "C44"%string) (2 * tmu) in
  let t12 := dflt (get "C12"%string) tlambda in
  {| c11 := t11; c22 := dflt (get "C22"%string) t11; c33 := dflt (get "C33"%string) t11;
     c44 := t44; c55 := dflt (get "C55"%string) t44; c66 := dflt (get "C66"%string) t44;
     c12 := t12; c13 := dflt (get "C13"%string) t12; c23 := dflt (get "C23"%string) t12;
     c15 := dflt (get "C15"%string) 0; c25 := dflt (get "C25"%string) 0;
     c35 := dflt (get "C35"%string) 0; c46 := dflt (get "C46"%string) 0;
     ce_lambda := t12; ce_mu := t44 / 2 |}.

(** updateParams, lines 143-227, called by every computeStress; [par name] is the first value of
    an active parameter. Line 157 stores whether "mu" was found in the flag for "lambda", so
    foundmu stays false and the last branch is never taken. *)
Definition ce_update (par : string -> option R) (c : stiff) : stiff :=
  let lambda := dflt (par "lambda"%string) (ce_lambda c) in
  let foundlam := match par "mu"%string with Some _ => true | None => false end in
  let foundmu := false in
  let mu := ce_mu c in
  let cubic a b d l m := {| c11 := a; c22 := a; c33 := a; c44 := d; c55 := d; c66 := d; c12 := b; c13 := b; c23 := b;
                            c15 := 0; c25 := 0; c35 := 0; c46 := 0; ce_lambda := l; ce_mu := m |} in
  if negb foundlam || negb foundmu then
    match par "youngs_mod"%string, par "poisson_ratio"%string with
    | Some E, Some nu =>
        let lambda := (E * nu) / ((1 + nu) * (1 - 2 * nu)) in
        let mu := E / (2 * (1 + nu)) in
        cubic (2 * mu + lambda) lambda (2 * mu) lambda mu
    | _, _ => cubic (c11 c) (c12 c) (c44 c) lambda mu
    end
  else cubic (2 * mu + lambda) lambda (2 * mu) lambda mu.

(** computeLatticeTensor, lines 90-139: the assignments in turn; an entry has the value of the
    last one to it and otherwise the initial zero. *)
Definition lattice_writes (c : stiff) : list (nat * nat * nat * nat * R) :=
  [ (0, 0, 0, 0, c11 c); (1, 1, 1, 1, c22 c); (2, 2, 2, 2, c33 c);
    (0, 0, 1, 1, c12 c); (1, 1, 0, 0, c12 c); (0, 0, 2, 2, c13 c); (2, 2, 0, 0, c13 c);
    (1, 1, 2, 2, c23 c); (2, 2, 1, 1, c23 c);
    (0, 1, 0, 1, c66 c); (1, 0, 1, 0, c66 c); (0, 1, 1, 0, c66 c); (1, 0, 0, 1, c66 c);
    (2, 0, 2, 0, c55 c); (0, 2, 0, 2, c55 c); (2, 0, 0, 2, c55 c); (0, 2, 0, 0, c55 c);
    (2, 1, 2, 1, c44 c); (1, 2, 1, 2, c44 c); (1, 2, 2, 1, c44 c); (2, 1, 1, 2, c44 c);
    (0, 0, 0, 2, c15 c); (0, 0, 2, 0, c15 c); (0, 2, 0, 0, c15 c); (2, 0, 0, 0, c15 c);
    (1, 1, 0, 2, c25 c); (1, 1, 2, 0, c25 c); (0, 2, 1, 1, c25 c); (2, 0, 1, 1, c25 c);
    (2, 2, 0, 2, c35 c); (2, 2, 2, 0, c35 c); (0, 2, 2, 2, c35 c); (2, 0, 2, 2, c35 c);
    (1, 2, 0, 1, c46 c); (1, 2, 1, 0, c46 c); (2, 1, 0, 1, c46 c); (2, 1, 1, 0, c46 c);
    (0, 1, 1, 2, c46 c); (1, 0, 1, 2, c46 c); (0, 1, 2, 1, c46 c); (1, 0, 2, 1, c46 c) ]%nat.
Definition lattice (c : stiff) (i j k l : nat) : R :=
  fold_left (fun v e => match e with (i', j', k', l', x) =>
    if ((i =? i') && (j =? j') && (k =? k') && (l =? l'))%nat%bool then x else v end) (lattice_writes c) 0.

(** computeRotatedTensor, lines 366-460. The matrix from Bunge angles in degrees, lines 399-425. *)
Definition bunge (phi1d Phid phi2d : R) (i j : nat) : R :=
  let degtorad := atan 1 / 45 in
  let a := phi1d * degtorad in let b := Phid * degtorad in let g := phi2d * degtorad in
  match i, j with
  | 0%nat, 0%nat => cos a * cos g - sin a * cos b * sin g
  | 1%nat, 0%nat => sin a * cos g + cos a * cos b * sin g
  | 2%nat, 0%nat => sin b * sin g
  | 0%nat, 1%nat => - cos a * sin g - sin a * cos b * cos g
  | 1%nat, 1%nat => - sin a * sin g + cos a * cos b * cos g
  | 2%nat, 1%nat => sin b * cos g
  | 0%nat, 2%nat => sin a * sin b
  | 1%nat, 2%nat => - cos a * sin b
  | 2%nat, 2%nat => cos b
  | _, _ => 0
  end.
(** Which matrix, lines 396-443: angles, a matrix from the mesh data, or the identity. *)
Definition ce_rl (allow use_phi use_rotation : bool) (phi : nat -> R) (rotation : nat -> nat -> R) (i j : nat) : R :=
  if allow then
    if use_phi then bunge (phi 0%nat) (phi 1%nat) (phi 2%nat) i j
    else if use_rotation then (if (i <? 3)%nat && (j <? 3)%nat then rotation i j else 0)%bool
    else (if (i =? j)%nat && (i <? 3)%nat then 1 else 0)%bool
  else (if (i =? j)%nat && (i <? 3)%nat then 1 else 0)%bool.
(** Lines 445-460. *)
Definition ce_rotated (d : nat) (rl : nat -> nat -> R) (C : nat -> nat -> nat -> nat -> R) (i j k l : nat) : R :=
  sm (seq 0 d) (fun i1 => sm (seq 0 d) (fun j1 => sm (seq 0 d) (fun k1 => sm (seq 0 d) (fun l1 =>
    rl i i1 * rl j j1 * rl k k1 * rl l l1 * C i1 j1 k1 l1)))).

(** computeStress, lines 232-361: the strain from the gradients g c d of the displacements, the
    stress, and the thermal part ([theta]: T - e_ref times alpha_T, if there is a temperature). *)
Definition ce_strain (g : nat -> nat -> R) (i j : nat) : R :=
  if (i =? j)%nat then g i i else 1 / 2 * g i j + 1 / 2 * g j i.
Definition ce_stress (d : nat) (c : stiff) (rl : nat -> nat -> R) (g : nat -> nat -> R) (theta : option R) (i j : nat) : R :=
  sm (seq 0 d) (fun k => sm (seq 0 d) (fun l => ce_rotated d rl (lattice c) i j k l * ce_strain g k l))
  + match theta with Some t => if (i =? j)%nat then - t * (3 * ce_lambda c + 2 * ce_mu c) else 0 | None => 0 end.

(** The matrix rl is one array for all the elements of the parallel loop (lines 369 and 393-460):
    an element stores its matrix there and then reads it. A run is the list of these steps. *)
Inductive step := Store (e : nat) | Use (e : nat).
Definition run (rot : nat -> nat -> nat -> R) (s : list step) (mem : nat -> nat -> R) : list (nat * (nat -> nat -> R)) * (nat -> nat -> R) :=
  fold_left (fun st x => match x with
    | Store e => (fst st, rot e)
    | Use e => ((fst st ++ [(e, snd st)])%list, snd st) end) s ([], mem).
