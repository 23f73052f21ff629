(** Model of the combined subgrid mesh and of the subgrid mesh factory.

    Source:
      /repo/src/subgrid/subgridDtN.cpp 1350-1389 setupCombinedExodus (subgridDtN2.cpp 1097-1134: the same)
      /repo/src/subgrid/subgridMeshFactory.hpp 25-41 constructors
      /repo/src/subgrid/subgridMeshFactory.cpp 23-35 addElems, 104-147 modifyMesh

    A patch is a list of nodes (of any type of coordinates) and, for every element, its list of nodes
    in the patch.  The mesh database is the list of nodes by number, from 1, and the list of the
    nodes of every element. *)
From Coq Require Import List Arith.
Import ListNotations.

Definition patch (P : Type) := (list P * list (list nat))%type.
(** setupCombinedExodus: the patches of the macro groups are joined, the nodes of an element are
    shifted by the number of nodes before its patch. *)
Fixpoint f_combine {P : Type} (nprog : nat) (ps : list (patch P)) : patch P :=
  match ps with
  | nil => (nil, nil)
  | (nodes, conn) :: r =>
      let '(n', c') := f_combine (nprog + length nodes) r in
      (nodes ++ n', map (map (fun n => n + nprog)) conn ++ c')
  end.
(** modifyMesh: the patches given to the factory.  cprog starts at 1 and grows by the number of
    elements of the patch (ccprog is incremented once per element). *)
Fixpoint f_elems {P : Type} (cprog : nat) (ps : list (patch P)) : list (list nat) :=
  match ps with
  | nil => nil
  | (nodes, conn) :: r => map (map (fun n => n + cprog)) conn ++ f_elems (cprog + length conn) r
  end.
Definition f_mesh {P : Type} (ps : list (patch P)) : list P * list (list nat) := (flat_map fst ps, f_elems 1 ps).
(** Coordinates of the nodes of an element of the mesh; node numbers start at 1. *)
Definition f_coords {P : Type} (m : list P * list (list nat)) : list (list (option P)) :=
  map (map (fun id => match id with O => None | S k => nth_error (fst m) k end)) (snd m).
