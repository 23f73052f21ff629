(** Databases of integration points and of side basis functions:
    src/managers/assembly/assemblyManager_database.hpp, buildDatabase (lines 13-73),
    identifyVolumetricIPDatabase (lines 395-643), buildVolumetricIPDatabase (lines 954-1032) and
    buildBoundaryDatabase (lines 1038-1118); their use in src/tools/group.cpp, computeBasis
    (lines 134-170), and src/tools/boundaryGroup.cpp, computeBasis (lines 140-174).

    Simplified: one coordinate at a time (the code repeats the same loop for x, y, z); a first user
    is recorded in the simple-mesh branch by its element number instead of the pair (group, place
    in the group); real numbers. The choice of representatives for the basis (C18) is
    Database_Model.v. *)
From Coq Require Import Bool Arith Reals List.
Import ListNotations.
Local Open Scope R_scope.

Definition coords := nat -> R.   (* one coordinate of the integration points of an element *)

(** *** General branch, lines 468-560 *)

(** Points of an element compared with an entry of the database. *)
Definition same_pts (tol : R) (numip : nat) (a b : coords) : bool :=
  forallb (fun pt => if Rlt_dec tol (sqrt ((a pt - b pt) * (a pt - b pt))) then false else true) (seq 0 numip).

(** The while loop over the database: first entry that is not ruled out. *)
Fixpoint db_find (tol : R) (numip : nat) (a : coords) (db : list coords) : option nat :=
  match db with
  | [] => None
  | b :: db => if same_pts tol numip a b then Some 0%nat else option_map S (db_find tol numip a db)
  end.

(** first_users and database after one element, and the index of that element. *)
Definition db_elem (tol : R) (numip : nat) (st : list (nat * nat) * list coords) (grp e : nat) (a : coords)
  : (list (nat * nat) * list coords) * nat :=
  match db_find tol numip a (snd st) with
  | Some k => (st, k)
  | None => ((fst st ++ [(grp, e)], snd st ++ [a]), length (fst st))
  end.

Fixpoint db_group (tol : R) (numip : nat) (st : list (nat * nat) * list coords) (grp e : nat) (g : list coords)
  : (list (nat * nat) * list coords) * list nat :=
  match g with
  | [] => (st, [])
  | a :: g =>
      let (st1, k) := db_elem tol numip st grp e a in
      let (st2, ks) := db_group tol numip st1 grp (S e) g in
      (st2, k :: ks)
  end.

Fixpoint db_groups (tol : R) (numip : nat) (st : list (nat * nat) * list coords) (grp : nat) (gs : list (list coords))
  : (list (nat * nat) * list coords) * list (list nat) :=
  match gs with
  | [] => (st, [])
  | g :: gs =>
      let (st1, ks) := db_group tol numip st grp 0 g in
      let (st2, kss) := db_groups tol numip st1 (S grp) gs in
      (st2, ks :: kss)
  end.

(** buildVolumetricIPDatabase: the points of the first users. *)
Definition db_build (gs : list (list coords)) (users : list (nat * nat)) : list coords :=
  map (fun u => nth (snd u) (nth (fst u) gs []) (fun _ => 0)) users.

(** What a group reads at element [e], point [pt]: CompressedView. *)
Definition db_read (tol : R) (numip : nat) (gs : list (list coords)) (grp e pt : nat) : R :=
  let r := db_groups tol numip ([], []) 0 gs in
  nth (nth e (nth grp (snd r) []) 0%nat) (db_build gs (fst (fst r))) (fun _ => 0) pt.

(** *** Simple mesh in two dimensions, lines 409-466 *)

(** First users for x: elements with a number below NX, until NX are found. *)
Fixpoint simple_x (NX prog : nat) (gs : list (list nat)) : list nat :=
  match gs with
  | [] => []
  | g :: gs =>
      if Nat.ltb prog NX then
        let l := filter (fun el => Nat.ltb el NX) g in
        l ++ simple_x NX (prog + length l) gs
      else []
  end.

(** One pass over a group for y. *)
Definition simple_y_pass (NX : nat) (prog : nat) (g : list nat) : nat * list nat :=
  fold_left (fun s el => if Nat.eqb el (fst s * NX) then (S (fst s), snd s ++ [el]) else s) g (prog, []).

(** The while loop for y; [None]: not finished after [fuel] iterations. *)
Fixpoint simple_y (fuel NX NY prog : nat) (gs : list (list nat)) : option (list nat) :=
  match gs with
  | [] => Some []
  | g :: gs' =>
      if Nat.ltb prog NY then
        match fuel with
        | O => None
        | S fuel =>
            if Nat.leb (hd 0%nat g) (prog * NX) && Nat.leb (prog * NX) (last g 0%nat) then
              let (prog', l) := simple_y_pass NX prog g in
              option_map (app l) (simple_y fuel NX NY prog' gs)
            else simple_y fuel NX NY prog gs'
        end
      else Some []
  end.

(** What a group reads for an element with number [el]; [X], [Y]: points of an element by number. *)
Definition simple_read_x (NX : nat) (gs : list (list nat)) (X : nat -> coords) (el pt : nat) : R :=
  nth (el mod NX) (map X (simple_x NX 0 gs)) (fun _ => 0) pt.
Definition simple_read_y (fuel NX NY : nat) (gs : list (list nat)) (Y : nat -> coords) (el pt : nat) : option R :=
  option_map (fun us => nth (el / NX) (map Y us) (fun _ => 0) pt) (simple_y fuel NX NY 0 gs).

(** *** Which branch, by the settings: buildDatabase is only called for "use basis database"
    (assemblyManager_groups.hpp line 494), a simple mesh is only handled in two dimensions, and the
    groups take their points from the database whenever "use ip database" is set. [None]: the index
    has no entries. *)
Record ip_settings := { ips_basis : bool; ips_ip : bool; ips_simple : bool; ips_dim : nat; ips_tol : R; ips_numip : nat; ips_NX : nat }.
Definition ip_coord_x (s : ip_settings) (ids : list (list nat)) (X : nat -> coords) (grp e pt : nat) : option R :=
  let actual := X (nth e (nth grp ids []) 0%nat) in
  if ips_ip s then
    if ips_basis s then
      if ips_simple s then
        if Nat.eqb (ips_dim s) 2 then Some (simple_read_x (ips_NX s) ids X (nth e (nth grp ids []) 0%nat) pt) else None
      else Some (db_read (ips_tol s) (ips_numip s) (map (map X) ids) grp e pt)
    else None
  else Some (actual pt).

(** *** Side basis functions *)

(** Of an HGRAD basis on the side of an element: values and gradients at (dof, point[, direction]). *)
Record side_basis := { sb_val : nat -> nat -> R; sb_grad : nat -> nat -> nat -> R }.
(** buildBoundaryDatabase: the values of the first users are copied, the gradients are allocated
    (and so zero) but not copied (lines 1107-1111). *)
Definition side_db (users : list side_basis) : list side_basis :=
  map (fun u => {| sb_val := sb_val u; sb_grad := fun _ _ _ => 0 |}) users.
(** boundaryGroup computeBasis: read through the index. *)
Definition side_read (users : list side_basis) (k : nat) : side_basis :=
  nth k (side_db users) {| sb_val := fun _ _ => 0; sb_grad := fun _ _ _ => 0 |}.
(** Without the database the functions of the element itself are used. *)
(** A field on the side from its coefficients: the normal derivative used by flux and weak
    Dirichlet terms. *)
Definition normal_derivative (b : side_basis) (ndof dim : nat) (u : nat -> R) (n : nat -> R) (pt : nat) : R :=
  fold_right Rplus 0 (map (fun dof => u dof * fold_right Rplus 0 (map (fun d => sb_grad b dof pt d * n d) (seq 0 dim))) (seq 0 ndof)).
