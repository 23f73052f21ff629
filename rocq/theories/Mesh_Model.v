(** Model of the built-in structured meshes: tools/simplemeshmanager.hpp
    (rectangle :506-724, distributed rectangle :733-1038, brick :1314-1601), of
    the way the mesh interface fills their geometry
    (interfaces/mesh/meshInterface_construct.hpp:33-73, 248-276), and of the list
    of owned unknowns (interfaces/discretization/discretizationInterface_dof.hpp:244-285).

    Counts are natural numbers; the counters [nodeCt], [cellCt] of the C++ run
    through the arrays in loop order, so each array is the list of the values
    written, in loop order.  Coordinates are real numbers. *)
From Coq Require Import List Arith ZArith Bool Reals.
From Verif Require Import Outcome.
Import ListNotations.

(** Two and three nested counting loops writing one value per iteration. *)
Definition grid2 {A} (w h : nat) (f : nat -> nat -> A) : list A :=
  flat_map (fun j => map (fun i => f i j) (seq 0 w)) (seq 0 h).
Definition grid3 {A} (w h d : nat) (f : nat -> nat -> nat -> A) : list A :=
  flat_map (fun k => grid2 w h (fun i j => f i j k)) (seq 0 d).

(** ** Rectangle *)
Section Rectangle.
  Context (width height X0 Y0 : R) (nx ny : nat).

  Definition num_cells2 := nx * ny.
  Definition num_nodes2 := (nx + 1) * (ny + 1).
  Definition num_edges2 := (nx + 1) * ny + (ny + 1) * nx.

  (** :633-650 *)
  Definition nodes2 : list (R * R) :=
    let dx := (width / INR nx)%R in
    let dy := (height / INR ny)%R in
    grid2 (nx + 1) (ny + 1) (fun i j => (X0 + INR i * dx, Y0 + INR j * dy)%R).

  (** :653-669 *)
  Definition cell_to_node2 : list (list nat) :=
    grid2 nx ny (fun i j =>
      [ j * (nx + 1) + i; j * (nx + 1) + (i + 1);
        (j + 1) * (nx + 1) + (i + 1); (j + 1) * (nx + 1) + i ]).

  (** :672-688 *)
  Definition cell_to_edge2 : list (list nat) :=
    grid2 nx ny (fun i j =>
      [ j * (2 * nx + 1) + i; j * (2 * nx + 1) + nx + (i + 1);
        (j + 1) * (2 * nx + 1) + i; j * (2 * nx + 1) + nx + i ]).

  (** :691-714: cells of side set 0, by local side number *)
  Definition side_sets2 : list (list nat) :=
    [ map (fun i => i) (seq 0 nx);
      map (fun i => (i + 1) * nx - 1) (seq 0 ny);
      map (fun i => i + nx * (ny - 1)) (seq 0 nx);
      map (fun i => i * nx) (seq 0 ny) ].

  (** :577-584, 794-801 *)
  Definition cell_coords2 (cell : nat) : outcome (list (R * R)) :=
    obind (at_ cell_to_node2 cell) (fun row => map_outcome (at_ nodes2) row).
End Rectangle.

(** ** Distributed rectangle *)
Section Parallel.
  Context (W H X0 Y0 : R) (NX NY : nat) (xprocs yprocs procid : nat).

  (** :797-821 *)
  Definition PX := procid mod xprocs.
  Definition PY := procid / xprocs.
  Definition accepted : bool := (1 <=? xprocs) && (1 <=? yprocs) && negb (xprocs * yprocs <? procid).
  Definition lnx := NX / xprocs.
  Definition lny := NY / yprocs.

  (** :939-960: the local nodes are those of a shifted rectangle *)
  Definition local_nodes : list (R * R) :=
    let width := (W / INR xprocs)%R in
    let height := (H / INR yprocs)%R in
    nodes2 width height (X0 + INR PX * width) (Y0 + INR PY * height) lnx lny.

  (** :893-901 *)
  Definition local_to_global (lid : Z) : Z :=
    let nx := Z.of_nat lnx in let ny := Z.of_nat lny in
    let xid := Z.rem lid (nx + 1) in
    let yid := Z.quot lid (nx + 1) in
    let ystride := (Z.of_nat xprocs * nx + 1)%Z in
    (xid + yid * ystride + Z.of_nat PX * nx + Z.of_nat PY * ny * ystride)%Z.

  (** :904-915 *)
  Definition global_to_local (gid : Z) : Z :=
    let nx := Z.of_nat lnx in let ny := Z.of_nat lny in
    let ystride := (Z.of_nat xprocs * nx + 1)%Z in
    let lgi := (gid - Z.of_nat PX * nx - Z.of_nat PY * ny * ystride)%Z in
    let yid := Z.quot lgi ystride in
    let xid := Z.rem lgi ystride in
    (xid + yid * (nx + 1))%Z.

  (** :1022-1031 *)
  Definition on_right (lid : nat) : bool := lid mod (lnx + 1) =? lnx.
  Definition on_top (lid : nat) : bool := lid / (lnx + 1) =? lny.

  (** :918-936; [xprocs_-1] and [yprocs_-1] are positive-or-zero after the checks *)
  Definition is_shared (lid : nat) : bool :=
    if (PX <? xprocs - 1) && (PY <? yprocs - 1) then on_right lid || on_top lid
    else if (PX <? xprocs - 1) && (PY =? yprocs - 1) then on_right lid
    else if (PY <? yprocs - 1) && (PX =? xprocs - 1) then on_top lid
    else false.
End Parallel.

(** ** Brick *)
Section Brick.
  Context (width depth height X0 Y0 Z0 : R) (nx ny nz : nat).

  Definition num_cells3 := nx * ny * nz.
  Definition num_nodes3 := (nx + 1) * (ny + 1) * (nz + 1).
  Definition num_edges3 := ((nx + 1) * ny + (ny + 1) * nx) * (nz + 1) + (nx + 1) * (ny + 1) * nz.

  (** :1451-1475 *)
  Definition nodes3 : list (R * R * R) :=
    let dx := (width / INR nx)%R in
    let dy := (depth / INR ny)%R in
    let dz := (height / INR nz)%R in
    grid3 (nx + 1) (ny + 1) (nz + 1) (fun i j k =>
      (X0 + INR i * dx, Y0 + INR j * dy, Z0 + INR k * dz)%R).

  (** :1478-1505 *)
  Definition cell_to_node3 : list (list nat) :=
    let nxy := (nx + 1) * (ny + 1) in
    grid3 nx ny nz (fun i j k =>
      [ k * nxy + j * (nx + 1) + i; k * nxy + j * (nx + 1) + (i + 1);
        k * nxy + (j + 1) * (nx + 1) + (i + 1); k * nxy + (j + 1) * (nx + 1) + i;
        (k + 1) * nxy + j * (nx + 1) + i; (k + 1) * nxy + j * (nx + 1) + (i + 1);
        (k + 1) * nxy + (j + 1) * (nx + 1) + (i + 1); (k + 1) * nxy + (j + 1) * (nx + 1) + i ]).

  (** :1508-1543, entries in the order 0, ..., 11 *)
  Definition cell_to_edge3 : list (list nat) :=
    let exy := (nx + 1) * ny + (ny + 1) * nx in
    let ez := (nx + 1) * (ny + 1) in
    let exyz := exy + ez in
    grid3 nx ny nz (fun i j k =>
      [ k * exyz + j * (2 * nx + 1) + i; k * exyz + j * (2 * nx + 1) + nx + (i + 1);
        k * exyz + (j + 1) * (2 * nx + 1) + i; k * exyz + j * (2 * nx + 1) + nx + i;
        (k + 1) * exyz + j * (2 * nx + 1) + i; (k + 1) * exyz + j * (2 * nx + 1) + nx + (i + 1);
        (k + 1) * exyz + (j + 1) * (2 * nx + 1) + i; (k + 1) * exyz + j * (2 * nx + 1) + nx + i;
        k * exyz + exy + j * (nx + 1) + i; k * exyz + exy + j * (nx + 1) + (i + 1);
        k * exyz + exy + (j + 1) * (nx + 1) + (i + 1); k * exyz + exy + (j + 1) * (nx + 1) + i ]).

  (** :1546-1597; each loop writes position [i + extent*j], which is loop order *)
  Definition side_sets3 : list (list nat) :=
    let nxny := nx * ny in
    [ grid2 nx nz (fun i j => i + nxny * j);
      grid2 ny nz (fun i j => (i + 1) * nx - 1 + nxny * j);
      grid2 nx nz (fun i j => nx * (ny - 1) + i + nxny * j);
      grid2 ny nz (fun i j => i * nx + nxny * j);
      grid2 nx ny (fun i j => i + nx * j);
      grid2 nx ny (fun i j => i + nx * j + nxny * (nz - 1)) ].
End Brick.

(** ** Mesh interface *)

(** The entries of the "Mesh" (or "Phase Mesh") section. *)
Record box := { xmin : R; xmax : R; ymin : R; ymax : R; zmin : R; zmax : R }.

(** interfaces/mesh/meshInterface_construct.hpp:36-47 and the constructors
    :547-566, :1361-1386: "Height" is taken from the y range, "Depth" from the z
    range; the brick uses depth in y and height in z. *)
Definition interface_nodes2 (b : box) (nx ny : nat) : list (R * R) :=
  nodes2 (xmax b - xmin b) (ymax b - ymin b) (xmin b) (ymin b) nx ny.
Definition interface_nodes2_parallel (b : box) (NX NY xprocs yprocs procid : nat) : list (R * R) :=
  local_nodes (xmax b - xmin b) (ymax b - ymin b) (xmin b) (ymin b) NX NY xprocs yprocs procid.
Definition interface_nodes3 (b : box) (nx ny nz : nat) : list (R * R * R) :=
  nodes3 (xmax b - xmin b) (zmax b - zmin b) (ymax b - ymin b) (xmin b) (ymin b) (zmin b) nx ny nz.

(** :250-273: the phase mesh; the lower ends subtracted are those of "Mesh". *)
Definition phase_nodes2 (m p : box) (nx ny : nat) : list (R * R) :=
  nodes2 (xmax p - xmin m) (ymax p - ymin m) (xmin p) (ymin p) nx ny.

(** discretizationInterface_dof.hpp:252-274: allocation of [num_owned] entries, then
    one write per node that is not shared; a write past the allocation is undefined
    behaviour. *)
Definition owned_dofs (phase_dimension : nat) (shared : nat -> bool) (l2g : nat -> Z) (num_nodes : nat)
    : outcome (list Z) :=
  let kept := filter (fun i => negb (shared i)) (seq 0 num_nodes) in
  let num_owned := if 0 <? phase_dimension then length kept else 0 in
  if length kept <=? num_owned then Ok (map l2g kept) else UB.
