(** Subgrid meshes: src/subgrid/subgridTools.cpp ("inline" meshes).

    Simplified: real coordinates; the Kokkos views are lists; meshes made by
    Panzer ("panzer", "Exodus") are not modelled. *)
From Coq Require Import List Arith ZArith Bool Reals String.
From Verif Require Import Geom_Model.
Import ListNotations.
Open Scope R_scope.

(** A node is a vector<ScalarT>; an element lists its nodes; a side map holds
    for each side (marked, index of the coarse side). *)
Definition node := list R.
Definition smap := list (Z * Z).
(** subnodes_, subconnectivity_, subsidemap_ *)
Record sub := { snodes : list node; sconn : list (list nat); smaps : list smap }.

(** *** checkExistingSubNodes, lines 1212-1230 *)
Definition sqdist (a p : node) : R :=
  fold_left Rplus (map (fun j => (nth j a 0 - nth j p 0) * (nth j a 0 - nth j p 0)) (seq 0 (List.length p))) 0.
Definition close (tol : R) (p a : node) : bool := if Rlt_dec (sqrt (sqdist a p)) tol then true else false.
(** The first node that is close. *)
Fixpoint find_from (tol : R) (p : node) (l : list node) (i : nat) : option nat :=
  match l with
  | [] => None
  | a :: r => if close tol p a then Some i else find_from tol p r (S i)
  end.
(** found = checkExistingSubNodes(..); if (!found) push_back *)
Definition place (tol : R) (nodes : list node) (p : node) : list node * nat :=
  match find_from tol p nodes 0 with
  | Some i => (nodes, i)
  | None => ((nodes ++ [p])%list, List.length nodes)
  end.

(** *** refineSubCell, lines 406-1206

    The branches for triangles, quadrilaterals, tetrahedra and hexahedra have
    the same form: new points are averages of nodes of the element, each is
    looked for among the nodes and added when not found, then the children are
    appended, with the side map of the parent in which some sides are cleared.
    A table holds, for each shape, the averages, the children and the sides
    cleared, in the order of the code. *)
Inductive src := Old (k : nat) | New (m : nat).
Record table := { tol_ : R; points : list (list nat); children : list (list src); cleared : list (list nat) }.

Definition average (nodes : list node) (c : list nat) (S : list nat) : node :=
  let p0 := nth (nth 0 c 0%nat) nodes [] in
  map (fun j => / INR (List.length S) * fold_left Rplus (map (fun k => nth j (nth (nth k c 0%nat) nodes []) 0) S) 0)
      (seq 0 (List.length p0)).
Fixpoint place_all (tol : R) (nodes : list node) (ps : list node) : list node * list nat :=
  match ps with
  | [] => (nodes, [])
  | p :: r => let (n1, i) := place tol nodes p in
              let (n2, is) := place_all tol n1 r in (n2, i :: is)
  end.
Definition child_node (c idx : list nat) (s : src) : nat :=
  match s with Old k => nth k c 0%nat | New m => nth m idx 0%nat end.
Definition clear (m : smap) (zs : list nat) : smap :=
  map (fun j => if existsb (Nat.eqb j) zs then (0, 0)%Z else nth j m (0, 0)%Z) (seq 0 (List.length m)).
Definition refine_cell (T : table) (st : sub) (e : nat) : sub :=
  let c := nth e (sconn st) [] in
  let m := nth e (smaps st) [] in
  let (n, idx) := place_all (tol_ T) (snodes st) (map (average (snodes st) c) (points T)) in
  {| snodes := n;
     sconn := (sconn st ++ map (map (child_node c idx)) (children T))%list;
     smaps := (smaps st ++ map (clear m) (cleared T))%list |}.
(** createSubMesh, lines 377-385: refine every element, then erase the old ones *)
Definition refine_all (T : table) (st : sub) : sub :=
  let n := List.length (sconn st) in
  let st' := fold_left (refine_cell T) (seq 0 n) st in
  {| snodes := snodes st'; sconn := skipn n (sconn st'); smaps := skipn n (smaps st') |}.
Fixpoint refine (T : table) (r : nat) (st : sub) : sub :=
  match r with O => st | S r => refine T r (refine_all T st) end.

(** Quadrilaterals, lines 533-650 *)
Definition quad_table : table := {| tol_ := 1 / 1000000;
  points := [[0;1;2;3]; [0;1]; [1;2]; [2;3]; [0;3]]%nat;
  children := [[Old 0; New 1; New 0; New 4]; [New 1; Old 1; New 2; New 0];
               [New 0; New 2; Old 2; New 3]; [New 4; New 0; New 3; Old 3]]%nat;
  cleared := [[1;2]; [2;3]; [0;3]; [0;1]]%nat |}.
(** Triangles, lines 441-531 *)
Definition tri_table : table := {| tol_ := 1 / 10000000000;
  points := [[0;1]; [1;2]; [0;2]]%nat;
  children := [[Old 0; New 0; New 2]; [Old 1; New 0; New 1]; [Old 2; New 2; New 1]; [New 0; New 1; New 2]]%nat;
  cleared := [[1]; [1]; [1]; [0;1;2]]%nat |}.
(** Tetrahedra, lines 656-822 *)
Definition tet_table : table := {| tol_ := 1 / 10000000000;
  points := [[0;1]; [1;2]; [0;2]; [0;3]; [1;3]; [2;3]]%nat;
  children := [[Old 0; New 0; New 2; New 3]; [Old 1; New 1; New 0; New 4]; [Old 2; New 2; New 1; New 5];
               [New 3; New 4; New 5; Old 3]; [New 0; New 1; New 2; New 3];
               [New 3; New 4; New 5; New 1]; [New 3; New 4; New 5; New 1]; [New 3; New 4; New 5; New 1]]%nat;
  cleared := [[2]; [2]; [2]; [0]; [1;2;3]; [2]; []; []]%nat |}.
(** Hexahedra, lines 824-1200; the points are, in this order, 0123, 01, 12, 23,
    03, center, 04, 15, 26, 37, 0145, 1256, 2367, 0347, 4567, 45, 56, 67, 47 *)
Definition hex_table : table := {| tol_ := 1 / 1000000;
  points := [[0;1;2;3]; [0;1]; [1;2]; [2;3]; [0;3]; [0;1;2;3;4;5;6;7]; [0;4]; [1;5]; [2;6]; [3;7];
             [0;1;4;5]; [1;2;5;6]; [2;3;6;7]; [0;3;4;7]; [4;5;6;7]; [4;5]; [5;6]; [6;7]; [4;7]]%nat;
  children :=
   [[Old 0; New 1; New 0; New 4; New 6; New 10; New 5; New 13];
    [New 1; Old 1; New 2; New 0; New 10; New 7; New 11; New 5];
    [New 0; New 2; Old 2; New 3; New 5; New 11; New 8; New 12];
    [New 4; New 0; New 3; Old 3; New 13; New 5; New 12; New 9];
    [New 6; New 10; New 5; New 13; Old 4; New 15; New 14; New 18];
    [New 10; New 7; New 11; New 5; New 15; Old 5; New 16; New 14];
    [New 5; New 11; New 8; New 12; New 14; New 16; Old 6; New 17];
    [New 13; New 5; New 12; New 9; New 18; New 14; New 17; Old 7]]%nat;
  cleared := [[1;2;5]; [2;3;5]; [0;3;5]; [0;1;5]; [1;2;4]; [2;3;4]; [0;3;4]; [0;1;4]]%nat |}.

(** Intervals, lines 408-438: the index taken for the new node is the size of
    the list after the node has been added. *)
Definition refine_cell1 (st : sub) (e : nat) : sub :=
  let c := nth e (sconn st) [] in
  let x k := nth 0 (nth (nth k c 0%nat) (snodes st) []) 0 in
  let mid := [1 / 2 * (x 0%nat + x 1%nat)] in
  let n := (snodes st ++ [mid])%list in
  let i := List.length n in
  let m := nth e (smaps st) [] in
  {| snodes := n;
     sconn := (sconn st ++ [[nth 0 c 0; i]; [i; nth 1 c 0]])%nat%list;
     smaps := (smaps st ++ [clear m [1%nat]; clear m [0%nat]])%list |}.
Definition refine_all1 (st : sub) : sub :=
  let n := List.length (sconn st) in
  let st' := fold_left refine_cell1 (seq 0 n) st in
  {| snodes := snodes st'; sconn := skipn n (sconn st'); smaps := skipn n (smaps st') |}.
Fixpoint refine1 (r : nat) (st : sub) : sub :=
  match r with O => st | S r => refine1 r (refine_all1 st) end.

(** *** createSubMesh, lines 200-375: the mesh before refinement *)
(** Same shape, lines 201-219 *)
Definition start (refnodes : list node) (nsides : nat) : sub :=
  {| snodes := refnodes; sconn := [seq 0 (List.length refnodes)];
     smaps := [map (fun s => (1, Z.of_nat s)%Z) (seq 0 nsides)] |}.
(** index of a coarse side, or -1 when the coarse side has no condition: the
    pattern of lines 251-277 and 323-357; [cond k] is sideinfo_(0,0,k,0) *)
Definition coarse_side (cond : nat -> Z) (k : nat) : Z * Z :=
  (1, if (0 <? cond k) then Z.of_nat k else -1)%Z.
Definition midpoint (ns : list node) (S : list nat) : node :=
  map (fun j => / INR (List.length S) * fold_left Rplus (map (fun k => nth j (nth k ns []) 0) S) 0) (seq 0 2).
(** Quadrilateral split into triangles, lines 226-285 *)
Definition start_quad_tri (refnodes : list node) (cond : nat -> Z) : sub :=
  {| snodes := (refnodes ++ [midpoint refnodes [0;1;2;3]%nat])%list;
     sconn := [[0;1;4]; [1;2;4]; [2;3;4]; [3;0;4]]%nat;
     smaps := map (fun k => [coarse_side cond k; (0, 0)%Z; (0, 0)%Z]) [0;1;2;3]%nat |}.
(** Triangle split into quadrilaterals, lines 287-364 *)
Definition start_tri_quad (refnodes : list node) (cond : nat -> Z) : sub :=
  {| snodes := (refnodes ++ map (midpoint refnodes) [[0;1;2]; [0;1]; [1;2]; [0;2]])%nat%list;
     sconn := [[0;4;3;6]; [1;5;3;4]; [2;6;3;5]]%nat;
     smaps := [[coarse_side cond 0; (0, 0)%Z; (0, 0)%Z; coarse_side cond 2];
               [coarse_side cond 1; (0, 0)%Z; (0, 0)%Z; coarse_side cond 0];
               [coarse_side cond 2; (0, 0)%Z; (0, 0)%Z; coarse_side cond 1]] |}.

(** *** getPhysicalConnectivity, lines 1334-1349 *)
Definition physical_conn (st : sub) (reps : nat) : list (list nat) :=
  flat_map (fun k => map (map (fun i => i + k * List.length (snodes st))%nat) (sconn st)) (seq 0 reps).
(** getListOfPhysicalNodes, lines 1235-1258, and getPhysicalNodes, lines
    1264-1292, for any map to the physical frame *)
Definition physical_list {P : Type} (frame : nat -> node -> P) (st : sub) (nmacro : nat) : list P :=
  flat_map (fun k => map (frame k) (snodes st)) (seq 0 nmacro).
Definition physical_nodes {P : Type} (frame : nat -> node -> P) (st : sub) (nmacro : nat) : list (list P) :=
  flat_map (fun k => map (map (fun i => nth i (map (frame k) (snodes st)) (frame k []))) (sconn st)) (seq 0 nmacro).

(** *** getPhysicalSideinfo, lines 1298-1328. [macro k i j] is the side
    information of coarse element k, variable i, side j: (kind, index).
    [nsides] is sideinfo_.extent(2), the number of sides of the coarse
    element, also taken for the result.  None: an access out of range. *)
Definition physical_side (st : sub) (nsides : nat) (macro : nat -> nat -> nat -> Z * Z)
    (k e i j : nat) : option (Z * Z) :=
  let m := nth e (smaps st) [] in
  if (j <? List.length m)%nat then
    let (mark, idx) := nth j m (0, 0)%Z in
    if (0 <? mark)%Z then
      if ((idx <? 0) || (Z.of_nat nsides <=? idx))%Z then None
      else if (nsides <=? j)%nat then None
      else if (1 <? fst (macro k i (Z.to_nat idx)))%Z then Some (macro k i (Z.to_nat idx))
      else Some (5, -1)%Z
    else Some (0, 0)%Z
  else Some (0, 0)%Z.

(** *** getUniqueSides, lines 1355-1405. [si c i j] as above; nc elements, nv
    variables, ns sides. *)
Definition uniq_step (acc : list (Z * nat)) (j : nat) (info : Z * Z) : list (Z * nat) :=
  if (0 <? fst info)%Z then
    if existsb (fun s => ((snd info =? fst s)%Z && (j =? snd s)%nat)%bool) acc then acc
    else (acc ++ [(snd info, j)])%list
  else acc.
Definition unique_sides (nc nv ns : nat) (si : nat -> nat -> nat -> Z * Z) : list (Z * nat) :=
  fold_left (fun acc c => fold_left (fun acc i => fold_left (fun acc j => uniq_step acc j (si c i j))
     (seq 0 ns) acc) (seq 0 nv) acc) (seq 0 nc) [].
Definition side_group (nc nv : nat) (si : nat -> nat -> nat -> Z * Z) (s : Z * nat) : list nat :=
  filter (fun c => existsb (fun i => ((0 <? fst (si c i (snd s))) && (snd (si c i (snd s)) =? fst s))%Z)
                           (seq 0 nv)) (seq 0 nc).
Definition boundary_groups (nc nv ns : nat) (si : nat -> nat -> nat -> Z * Z) : list (list nat) :=
  map (side_group nc nv si) (unique_sides nc nv ns si).
Definition side_name (names : list string) (s : Z) : option string :=
  if (s =? -1)%Z then Some "interior"%string else nth_error names (Z.to_nat s).
