(** The second implementation of subgrid models (subgrid model type "DtN2"): meshes and boundary groups.
      /repo/src/subgrid/subgridTools2.cpp 63-394 createSubMesh, 398-1150 refineSubCell,
        1262-1278 getBoundaryGroups
      /repo/src/subgrid/subgridDtN2.cpp 403-528 createNewBoundaryGroups, 533-586 createNewGroups,
        591-632 setBoundaryGroupAuxLIDs
      /repo/src/subgrid/subgridMacroData2.hpp 32-48 setMacroIDs
    Simplified: as Subgrid_Model (real coordinates, "inline" meshes).  The points, children and cleared
    sides of refineSubCell are, line by line, those of subgridTools.cpp, so the tables of Subgrid_Model
    are used; here the side maps are boolean and carry no index of a coarse side. *)
From Coq Require Import List Arith ZArith Bool Reals.
From Verif Require Import Subgrid_Model.
Import ListNotations.
Local Open Scope nat_scope.

(** subnodes_, subconnectivity_, subsidemap_ *)
Record sub2 := { snodes2 : list node; sconn2 : list (list nat); smaps2 : list (list bool) }.
Definition clear2 (m : list bool) (zs : list nat) : list bool :=
  map (fun j => if existsb (Nat.eqb j) zs then false else nth j m false) (seq 0 (List.length m)).
(** refineSubCell, 440-1150 *)
Definition refine_cell2 (T : table) (st : sub2) (e : nat) : sub2 :=
  let c := nth e (sconn2 st) [] in
  let m := nth e (smaps2 st) [] in
  let (n, idx) := place_all (tol_ T) (snodes2 st) (map (average (snodes2 st) c) (points T)) in
  {| snodes2 := n;
     sconn2 := sconn2 st ++ map (map (child_node c idx)) (children T);
     smaps2 := smaps2 st ++ map (clear2 m) (cleared T) |}.
(** createSubMesh, 368-376 *)
Definition refine_all2 (T : table) (st : sub2) : sub2 :=
  let n := List.length (sconn2 st) in
  let st' := fold_left (refine_cell2 T) (seq 0 n) st in
  {| snodes2 := snodes2 st'; sconn2 := skipn n (sconn2 st'); smaps2 := skipn n (smaps2 st') |}.
Fixpoint refine2 (T : table) (r : nat) (st : sub2) : sub2 :=
  match r with O => st | S r => refine2 T r (refine_all2 T st) end.
(** createSubMesh, 197-237 *)
Definition start2 (refnodes : list node) (nsides : nat) : sub2 :=
  {| snodes2 := refnodes; sconn2 := [seq 0 (List.length refnodes)]; smaps2 := [repeat true nsides] |}.

(** getBoundaryGroups *)
Definition side_group2 (st : sub2) (numMacro s : nat) : list nat :=
  flat_map (fun m => flat_map (fun c => if nth s (nth c (smaps2 st) []) false
                                        then [m * List.length (smaps2 st) + c] else [])
                              (seq 0 (List.length (smaps2 st)))) (seq 0 numMacro).
Definition boundary_groups2 (st : sub2) (numMacro : nat) : list (list nat) :=
  map (side_group2 st numMacro) (seq 0 (List.length (nth 0 (smaps2 st) []))).

(** createNewBoundaryGroups: element index, side and unknowns of the group of side [s] of a set of
    [numMacro] coarse elements; [num0]: the number in the first set; [lids]: the unknowns of the
    elements of the first set. *)
Record bgroup2 (L : Type) := { bg_elems : list nat; bg_side : nat; bg_lids : list L }.
Arguments bg_elems {L}. Arguments bg_side {L}. Arguments bg_lids {L}.
Definition first_group {L} (lids : nat -> L) (st : sub2) (num0 s : nat) : bgroup2 L :=
  let g := side_group2 st num0 s in
  {| bg_elems := g; bg_side := s; bg_lids := map lids g |}.
Definition new_group {L} (lids : nat -> L) (d : L) (st : sub2) (num0 numMacro s : nat) : bgroup2 L :=
  let g0 := first_group lids st num0 s in
  let g := side_group2 st numMacro s in
  if List.length g =? List.length (bg_elems g0) then
    {| bg_elems := bg_elems g0; bg_side := s; bg_lids := bg_lids g0 |}
  else
    {| bg_elems := g; bg_side := s; bg_lids := map (fun e => nth e (bg_lids g0) d) (seq 0 (List.length g)) |}.
(** createNewGroups: unknowns of the elements of a set; [d]: read beyond the end *)
Definition new_lids {L} (lids : nat -> L) (d : L) (st : sub2) (num0 numMacro : nat) : list L :=
  let max := num0 * List.length (sconn2 st) in
  let num := numMacro * List.length (sconn2 st) in
  let LIDs_0 := map lids (seq 0 max) in
  if num =? max then LIDs_0 else map (fun e => nth e LIDs_0 d) (seq 0 num).

(** setMacroIDs and setBoundaryGroupAuxLIDs: the unknowns of the coarse element *)
Definition macro_ids (numElem numMacro : nat) : list nat :=
  flat_map (fun i => repeat i (numElem / numMacro)) (seq 0 numMacro).
Definition aux_lids {L M} (macro : nat -> M) (ids : list nat) (g : bgroup2 L) : list M :=
  map (fun e => macro (nth e ids 0)) (bg_elems g).
