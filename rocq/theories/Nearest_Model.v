(** Point data: src/tools/data.cpp (importPoints lines 162-214, importGridPoints 219-289,
    importDataOneFile 294-327, findClosestPoint 374-419, findClosestGridPoint 439-519),
    src/interfaces/compadre/CompadreInterface.hpp (constructNeighborLists) and their use in
    src/managers/assembly/assemblyManager_util.hpp (importMeshData 430-560,
    importNewMicrostructure 811-979).
    Simplified: exact real arithmetic; a line of a point file is either a point or has no
    number at its start; the Compadre search is an oracle that gives a list of neighbour
    numbers for each query. *)
From Coq Require Import Bool Arith Lia Reals Lra List.
Import ListNotations.
Local Open Scope R_scope.

(** RAND_MAX of the GNU C library. *)
Definition rand_max : R := 2147483647.

(** The search along one axis, lines 449-456 (and 465-472, 473-480, ...). *)
Fixpoint scan (x : R) (g : list R) (i node : nat) (dist : R) : nat * R :=
  match g with
  | [] => (node, dist)
  | a :: g => let d := (x - a) * (x - a) in
              if Rlt_dec d dist then scan x g (S i) i d else scan x g (S i) node dist
  end.

Definition closest1 (x : R) (gx : list R) : nat * R :=
  let '(i, dx) := scan x gx 0 0 rand_max in (i, sqrt dx).
Definition closest2 (x y : R) (gx gy : list R) : nat * R :=
  let '(i, dx) := scan x gx 0 0 rand_max in
  let '(j, dy) := scan y gy 0 0 rand_max in
  ((j * length gx + i)%nat, sqrt (dx + dy)).
Definition closest3 (x y z : R) (gx gy gz : list R) : nat * R :=
  let '(i, dx) := scan x gx 0 0 rand_max in
  let '(j, dy) := scan y gy 0 0 rand_max in
  let '(k, dz) := scan z gz 0 0 rand_max in
  ((k * length gx * length gy + j * length gx + i)%nat, sqrt (dx + dy + dz)).

(** Reading [v (0 * stride)], ..., [v ((n-1) * stride)]; None when out of range. *)
Fixpoint strided (v : list R) (stride n : nat) : option (list R) :=
  match n with
  | O => Some []
  | S m => match strided v stride m, nth_error v (m * stride) with
           | Some l, Some a => Some (l ++ [a]) | _, _ => None end
  end.

(** importGridPoints, lines 253-287, for two and three dimensions. *)
Definition import_grid2 (pts : list (R * R)) (nx ny : nat) : option (list R * list R) :=
  match strided (map fst pts) 1 nx, strided (map snd pts) nx ny with
  | Some gx, Some gy => Some (gx, gy) | _, _ => None end.
Definition import_grid3 (pts : list (R * R * R)) (nx ny nz : nat) : option (list R * list R * list R) :=
  match strided (map (fun p => fst (fst p)) pts) 1 nx, strided (map (fun p => snd (fst p)) pts) nx ny,
        strided (map snd pts) (nx * ny) nz with
  | Some gx, Some gy, Some gz => Some (gx, gy, gz) | _, _, _ => None end.

(** importPoints, lines 178-199: a line without a number repeats the point read last
    (an undetermined point, [None], on the first line). *)
Fixpoint import_points {A} (last : option A) (lines : list (option A)) : list (option A) :=
  match lines with
  | [] => []
  | Some p :: lines => Some p :: import_points (Some p) lines
  | None :: lines => last :: import_points last lines
  end.

(** importDataOneFile: one row per line, padded with zeros to the longest. *)
Definition max_states (rows : list (list R)) : nat := fold_left Nat.max (map (@length R) rows) 0%nat.
Definition import_rows (rows : list (list R)) : list (list R) :=
  map (fun r => r ++ repeat 0 (max_states rows - length r)) rows.

(** findClosestPoint, lines 405-411. [flat] are the concatenated lists, [counts] their
    lengths. *)
Fixpoint take_first (flat : list nat) (counts : list nat) (prog : nat) : list (option nat) :=
  match counts with
  | [] => []
  | np :: counts => nth_error flat prog :: take_first flat counts (prog + np)
  end.
Definition find_closest (nbrs : list (list nat)) (distance : list R) : list (option nat) * list R :=
  (take_first (concat nbrs) (map (@length nat) nbrs) 0, distance).

(** importMeshData: the row of the nearest point, for each element. *)
Definition mesh_data (nbrs : list (list nat)) (rows : list (list R)) : list (option (list R)) :=
  map (fun o => match o with Some c => nth_error (import_rows rows) c | None => None end)
      (fst (find_closest nbrs (map (fun _ => 0) nbrs))).

(** importNewMicrostructure, lines 926-952: entry [prog] of the concatenated lists. *)
Definition microstructure (nbrs : list (list nat)) : list (option nat) :=
  map (nth_error (concat nbrs)) (seq 0 (length nbrs)).

(** importNewMicrostructure, lines 840-868: the rotation of a seed. *)
Definition rotation (x y z w : R) : nat -> R :=
  let r := sqrt (x * x + y * y + z * z + w * w) in
  let x := x * (1 / r) in let y := y * (1 / r) in let z := z * (1 / r) in let w := w * (1 / r) in
  fun k => match k with
  | 0%nat => w * w + x * x - y * y - z * z
  | 1%nat => 2 * (x * y - w * z)
  | 2%nat => 2 * (x * z + w * y)
  | 3%nat => 2 * (x * y + w * z)
  | 4%nat => w * w - x * x + y * y - z * z
  | 5%nat => 2 * (y * z - w * x)
  | 6%nat => 2 * (x * z - w * y)
  | 7%nat => 2 * (y * z + w * x)
  | 8%nat => w * w - x * x - y * y + z * z
  | _ => 0
  end.
