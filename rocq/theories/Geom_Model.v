(** Reference-to-physical geometry: integration points and weights, side
    normals, measures, and the mapping of basis functions.

    Modelled from /repo/src/interfaces/discretization/
      discretizationInterface_integration.hpp,
      discretizationInterface_basis.hpp, discretizationInterface_util.hpp,
      /repo/src/tools/boundaryGroup.cpp, group.cpp and
      /repo/src/tools/Intrepid2_HDIV_AC_QUAD_I1_FEMDef.hpp.

    The cell topologies, shape functions, sub-cell parametrisations and the
    pointwise array tools (CellTools, FuncTools, RealTools) belong to Intrepid2
    and Shards, which are not in the repository.  They are written out here
    from the conventions of those libraries (reference cells [-1,1]^d, edge
    and face numbering of Shards); that is part of the trusted base.  Which of
    these tools is called, with which arguments and in which order is the
    repository's code and is modelled line by line. *)
From Coq Require Import List Reals Lra.
Import ListNotations.
Open Scope R_scope.

Definition pt := nat -> R.
Definition mk (x y z : R) : pt := fun d => match d with O => x | 1%nat => y | _ => z end.

(** A cell: nodes [k < nn], reference shape functions and their partial
    derivatives (Intrepid2 HGRAD C1 on the topology; library). *)
Record cell := {
  cdim  : nat;
  nn    : nat;
  shape : nat -> pt -> R;
  dshape : nat -> nat -> pt -> R;   (* node, direction *)
  nsides : nat;
  side_pt : nat -> pt -> pt;        (* mapToReferenceSubcell, library *)
  side_u : nat -> pt;               (* reference edge tangent / face tangent U *)
  side_v : nat -> pt                (* reference face tangent V *)
}.

Fixpoint sumn (n : nat) (f : nat -> R) : R :=
  match n with O => 0 | S k => sumn k f + f k end.
Fixpoint suml {A} (l : list A) (f : A -> R) : R :=
  match l with [] => 0 | a :: t => f a + suml t f end.

Definition nodes := nat -> pt.

(** CellTools::mapToPhysicalFrame, called at
    discretizationInterface_integration.hpp:134, 215, 462, 591. *)
Definition phys (c : cell) (X : nodes) (p : pt) : pt :=
  fun d => sumn (nn c) (fun k => shape c k p * X k d).

(** CellTools::setJacobian, integration.hpp:236, 484, 613; entry (i,j) is the
    derivative of coordinate i along reference direction j. *)
Definition jac (c : cell) (X : nodes) (p : pt) (i j : nat) : R :=
  sumn (nn c) (fun k => dshape c k j p * X k i).

(** RealTools::matvec *)
Definition matvec (d : nat) (M : nat -> nat -> R) (v : pt) : pt :=
  fun i => sumn d (fun j => M i j * v j).

(** CellTools::setJacobianDet, by dimension. *)
Definition det (d : nat) (M : nat -> nat -> R) : R :=
  match d with
  | 1%nat => M 0%nat 0%nat
  | 2%nat => M 0%nat 0%nat * M 1%nat 1%nat - M 0%nat 1%nat * M 1%nat 0%nat
  | _ => M 0%nat 0%nat * (M 1%nat 1%nat * M 2%nat 2%nat - M 1%nat 2%nat * M 2%nat 1%nat)
       - M 0%nat 1%nat * (M 1%nat 0%nat * M 2%nat 2%nat - M 1%nat 2%nat * M 2%nat 0%nat)
       + M 0%nat 2%nat * (M 1%nat 0%nat * M 2%nat 1%nat - M 1%nat 1%nat * M 2%nat 0%nat)
  end.

(** CellTools::setJacobianInv, by dimension (adjugate over determinant). *)
Definition inv (d : nat) (M : nat -> nat -> R) : nat -> nat -> R :=
  match d with
  | 1%nat => fun _ _ => / M 0%nat 0%nat
  | 2%nat => fun i j =>
      match i, j with
      | O, O => M 1%nat 1%nat / det 2 M
      | O, _ => - M 0%nat 1%nat / det 2 M
      | _, O => - M 1%nat 0%nat / det 2 M
      | _, _ => M 0%nat 0%nat / det 2 M
      end
  | _ => fun i j =>
      let r1 := match j with O => 1%nat | 1%nat => 2%nat | _ => 0%nat end in
      let r2 := match j with O => 2%nat | 1%nat => 0%nat | _ => 1%nat end in
      let c1 := match i with O => 1%nat | 1%nat => 2%nat | _ => 0%nat end in
      let c2 := match i with O => 2%nat | 1%nat => 0%nat | _ => 1%nat end in
      (M r1 c1 * M r2 c2 - M r1 c2 * M r2 c1) / det 3 M
  end.

(** A quadrature rule: reference points with weights. *)
Definition rule := list (pt * R).

(** getPhysicalIntegrationData, integration.hpp:236-239: weights are the
    Jacobian determinant times the reference weight (computeCellMeasure). *)
Definition phys_wt (c : cell) (X : nodes) (q : pt * R) : R :=
  det (cdim c) (jac c X (fst q)) * snd q.
Definition phys_wts (c : cell) (X : nodes) (r : rule) : list R :=
  map (phys_wt c X) r.

(** getMeasure, integration.hpp:389-408. *)
Definition measure (c : cell) (X : nodes) (r : rule) : R :=
  suml (phys_wts c X r) (fun w => w).

Definition dot (d : nat) (a b : pt) : R := sumn d (fun i => a i * b i).
(** RealTools::vectorNorm, NORM_TWO. *)
Definition norm2 (d : nat) (a : pt) : R := sqrt (dot d a a).
(** RealTools::vecprod. *)
Definition vecprod (a b : pt) : pt :=
  mk (a 1%nat * b 2%nat - a 2%nat * b 1%nat)
     (a 2%nat * b 0%nat - a 0%nat * b 2%nat)
     (a 0%nat * b 1%nat - a 1%nat * b 0%nat).
(** The rotation matrix, integration.hpp:641-648. *)
Definition rotate (a : pt) : pt := mk (a 1%nat) (- a 0%nat) 0.

(** getPhysicalBoundaryIntegrationData, integration.hpp:586-774.  The unscaled
    normal, the weight and the rescaled normal at one side quadrature point.
    In 1D the normal is the reference one and the weight is one. *)
Definition ref_normal1 (s : nat) : pt :=          (* integration.hpp:45-48 *)
  fun _ => match s with O => -1 | _ => 1 end.
Definition side_tangent (c : cell) (X : nodes) (s : nat) (p : pt) : pt :=
  matvec (cdim c) (jac c X (side_pt c s p)) (side_u c s).
Definition side_raw (c : cell) (X : nodes) (s : nat) (p : pt) : pt :=
  match cdim c with
  | 1%nat => ref_normal1 s
  | 2%nat => rotate (side_tangent c X s p)
  | _ => vecprod (matvec 3 (jac c X (side_pt c s p)) (side_u c s))
                 (matvec 3 (jac c X (side_pt c s p)) (side_v c s))
  end.
Definition side_wt (c : cell) (X : nodes) (s : nat) (q : pt * R) : R :=
  match cdim c with
  | 1%nat => 1
  | 2%nat => norm2 2 (side_tangent c X s (fst q)) * snd q
  | _ => norm2 3 (side_raw c X s (fst q)) * snd q
  end.
Definition side_n (c : cell) (X : nodes) (s : nat) (q : pt * R) : pt :=
  let m := side_raw c X s (fst q) in
  fun d => m d * (1 / norm2 (cdim c) m).          (* :756-772 *)
Definition side_x (c : cell) (X : nodes) (s : nat) (q : pt * R) : pt :=
  phys c X (side_pt c s (fst q)).

(** getPhysicalFaceIntegrationData, integration.hpp:447-566: the same for the
    interior faces, but with no branch for one dimension, so there the normal
    and the weight keep the zeros they were allocated with, and the rescaling
    divides zero by zero.  [None] is the IEEE not-a-number this produces. *)
Definition face_wt (c : cell) (X : nodes) (s : nat) (q : pt * R) : R :=
  match cdim c with
  | 1%nat => 0
  | 2%nat => norm2 2 (side_tangent c X s (fst q)) * snd q
  | _ => norm2 3 (side_raw c X s (fst q)) * snd q
  end.
Definition face_raw (c : cell) (X : nodes) (s : nat) (q : pt * R) : pt :=
  match cdim c with
  | 1%nat => fun _ => 0
  | _ => side_raw c X s (fst q)
  end.
Definition face_n (c : cell) (X : nodes) (s : nat) (q : pt * R) : option pt :=
  let m := face_raw c X s q in
  let len := norm2 (cdim c) m in
  if Req_EM_T len 0 then None else Some (fun d => m d / len).

(** BoundaryGroup::computeSize, boundaryGroup.cpp:109-124, and
    Group::computeFaceSize, group.cpp:96-117. *)
Definition side_size (c : cell) (X : nodes) (s : nat) (r : rule) : R :=
  Rpower (suml r (side_wt c X s)) (1 / (INR (cdim c) - 1)).

(** ** The library's cells *)

(** Line on [-1,1]; its sides are the end points (integration.hpp:27-49). *)
Definition line2 : cell := {|
  cdim := 1; nn := 2;
  shape := fun k p => match k with O => (1 - p 0%nat) / 2 | _ => (1 + p 0%nat) / 2 end;
  dshape := fun k _ _ => match k with O => -1/2 | _ => 1/2 end;
  nsides := 2;
  side_pt := fun s _ => mk (match s with O => -1 | _ => 1 end) 0 0;
  side_u := fun _ => mk 0 0 0; side_v := fun _ => mk 0 0 0 |}.

(** Quadrilateral on [-1,1]^2, nodes counter-clockwise from (-1,-1), edge s
    from node s to the next. *)
Definition qx (k : nat) : R := match k with 0%nat | 3%nat => -1 | _ => 1 end.
Definition qy (k : nat) : R := match k with 0%nat | 1%nat => -1 | _ => 1 end.
Definition quad4 : cell := {|
  cdim := 2; nn := 4;
  shape := fun k p => / 4 * (1 + qx k * p 0%nat) * (1 + qy k * p 1%nat);
  dshape := fun k j p => match j with
                         | O => / 4 * qx k * (1 + qy k * p 1%nat)
                         | _ => / 4 * qy k * (1 + qx k * p 0%nat) end;
  nsides := 4;
  side_pt := fun s p => match s with
                        | 0%nat => mk (p 0%nat) (-1) 0
                        | 1%nat => mk 1 (p 0%nat) 0
                        | 2%nat => mk (- p 0%nat) 1 0
                        | _ => mk (-1) (- p 0%nat) 0 end;
  side_u := fun s => match s with
                     | 0%nat => mk 1 0 0
                     | 1%nat => mk 0 1 0
                     | 2%nat => mk (-1) 0 0
                     | _ => mk 0 (-1) 0 end;
  side_v := fun _ => mk 0 0 0 |}.

(** Triangle with nodes (0,0), (1,0), (0,1); the edges are parametrised over
    [-1,1], so the reference tangent is half the edge. *)
Definition tri3 : cell := {|
  cdim := 2; nn := 3;
  shape := fun k p => match k with
                      | 0%nat => 1 - p 0%nat - p 1%nat
                      | 1%nat => p 0%nat
                      | _ => p 1%nat end;
  dshape := fun k j _ => match k, j with
                         | 0%nat, _ => -1
                         | 1%nat, O => 1
                         | 1%nat, _ => 0
                         | _, O => 0
                         | _, _ => 1 end;
  nsides := 3;
  side_pt := fun s p => match s with
                        | 0%nat => mk ((1 + p 0%nat) / 2) 0 0
                        | 1%nat => mk ((1 - p 0%nat) / 2) ((1 + p 0%nat) / 2) 0
                        | _ => mk 0 ((1 - p 0%nat) / 2) 0 end;
  side_u := fun s => match s with
                     | 0%nat => mk (1/2) 0 0
                     | 1%nat => mk (-1/2) (1/2) 0
                     | _ => mk 0 (-1/2) 0 end;
  side_v := fun _ => mk 0 0 0 |}.

(** Hexahedron on [-1,1]^3; nodes 0-3 on the bottom counter-clockwise, 4-7
    above them; faces {0,1,5,4} {1,2,6,5} {2,3,7,6} {0,4,7,3} {0,3,2,1}
    {4,5,6,7}, each parametrised over [-1,1]^2 with U along its first edge and
    V along its last. *)
Definition hx (k : nat) : R := match k with 0%nat | 3%nat | 4%nat | 7%nat => -1 | _ => 1 end.
Definition hy (k : nat) : R := match k with 0%nat | 1%nat | 4%nat | 5%nat => -1 | _ => 1 end.
Definition hz (k : nat) : R := match k with 0%nat | 1%nat | 2%nat | 3%nat => -1 | _ => 1 end.
Definition hex8 : cell := {|
  cdim := 3; nn := 8;
  shape := fun k p => / 8 * (1 + hx k * p 0%nat) * (1 + hy k * p 1%nat) * (1 + hz k * p 2%nat);
  dshape := fun k j p => match j with
    | 0%nat => / 8 * hx k * (1 + hy k * p 1%nat) * (1 + hz k * p 2%nat)
    | 1%nat => / 8 * hy k * (1 + hx k * p 0%nat) * (1 + hz k * p 2%nat)
    | _ => / 8 * hz k * (1 + hx k * p 0%nat) * (1 + hy k * p 1%nat) end;
  nsides := 6;
  side_pt := fun s p => let u := p 0%nat in let v := p 1%nat in
    match s with
    | 0%nat => mk u (-1) v
    | 1%nat => mk 1 u v
    | 2%nat => mk (- u) 1 v
    | 3%nat => mk (-1) v u
    | 4%nat => mk v u (-1)
    | _ => mk u v 1 end;
  side_u := fun s => match s with
    | 0%nat => mk 1 0 0
    | 1%nat => mk 0 1 0
    | 2%nat => mk (-1) 0 0
    | 3%nat => mk 0 0 1
    | 4%nat => mk 0 1 0
    | _ => mk 1 0 0 end;
  side_v := fun s => match s with
    | 0%nat => mk 0 0 1
    | 1%nat => mk 0 0 1
    | 2%nat => mk 0 0 1
    | 3%nat => mk 0 1 0
    | 4%nat => mk 1 0 0
    | _ => mk 0 1 0 end |}.

(** ** Mapping basis functions *)

(** HGRADtransformGRAD with the inverse Jacobian, basis.hpp:449, 1028, 1211,
    1593: the inverse transpose times the reference gradient. *)
Definition map_grad (d : nat) (J : nat -> nat -> R) (g : pt) : pt :=
  fun i => sumn d (fun j => inv d J j i * g j).
(** HDIVtransformVALUE, basis.hpp:501, 1062, 1251, 1384. *)
Definition map_div_value (d : nat) (J : nat -> nat -> R) (v : pt) : pt :=
  fun i => sumn d (fun j => J i j * v j) / det d J.
(** HDIVtransformDIV, basis.hpp:537. *)
Definition map_div (d : nat) (J : nat -> nat -> R) (q : R) : R := q / det d J.
(** HCURLtransformVALUE, basis.hpp:559, 1080, 1267, 1410. *)
Definition map_curl_value (d : nat) (J : nat -> nat -> R) (v : pt) : pt :=
  fun i => sumn d (fun j => inv d J j i * v j).

(** Basis values at the element's nodes, basis.hpp:515-528 (HDIV) and 569-583
    (HCURL): the reference values are those at the reference nodes, but the
    Jacobians handed to the transformation are the ones computed at the
    integration points (lines 409-419).  Value k takes entry k of both. *)
Definition node_values (c : cell) (X : nodes) (r : rule)
    (refnode : nat -> pt) (phi : pt -> pt) (k : nat) : option pt :=
  match nth_error r k with
  | Some q => Some (map_div_value (cdim c) (jac c X (fst q)) (phi (refnode k)))
  | None => None                                   (* read past the end *)
  end.

(** Gradients of an HGRAD basis on the interior faces, basis.hpp:1022-1039:
    the mapped gradients are bgrad1; bgrad2, which is what is kept, is written
    only when the basis needs orientations.  The other branch assigns bvals2
    instead.  [orient] is modifyBasisByOrientation. *)
Definition face_grads (orient : list pt -> list pt) (requires : bool)
    (d : nat) (J : nat -> nat -> R) (refgrads : list pt) : list pt :=
  let bgrad1 := map (map_grad d J) refgrads in
  let bgrad2 := map (fun _ => mk 0 0 0) refgrads in
  if requires then orient bgrad1 else bgrad2.
(** The same gradients on boundary sides, basis.hpp:1205-1222. *)
Definition boundary_grads (orient : list pt -> list pt) (requires : bool)
    (d : nat) (J : nat -> nat -> R) (refgrads : list pt) : list pt :=
  let bgrad1 := map (map_grad d J) refgrads in
  if requires then orient bgrad1 else bgrad1.

(** Nodes and orientations of the elements of a group.  [my_elements block]
    lists the process-local numbers of the elements of a block
    (discretizationInterface_util.hpp:51-64, basis.hpp:931-954).  The ids of
    (interior) groups are positions in that list; [use_block] says whether orientations translate. *)
Section Ids.
Context {N O : Type}.
Variable my_elements : nat -> list nat.
Variable mesh_nodes : nat -> N.
Variable panzer_orientations : list O.
Variable o0 : O.
Definition translate (block id : nat) : nat := nth id (my_elements block) 0%nat.
Definition my_nodes (block : nat) (ids : list nat) : list N :=
  map (fun e => mesh_nodes (translate block e)) ids.
Definition my_orientations (use_block : bool) (block : nat) (ids : list nat) : list O :=
  map (fun e => let e' := if use_block then translate block e else e in
                if (length panzer_orientations <=? e')%nat
                then nth 0 panzer_orientations o0
                else nth e' panzer_orientations o0) ids.
(** Group constructor, group.cpp:70, and the basis it requests, basis.hpp:357. *)
Definition group_elements block ids :=
  combine (my_nodes block ids) (my_orientations true block ids).
(** Boundary groups.  Their ids are process-local numbers, not positions in
    [my_elements] (assemblyManager_groups.hpp:210).  A group whose basis is
    stored keeps the nodes of the sides' elements found when it was made and
    orientations that are not translated (assemblyManager_groups.hpp:161-216,
    boundaryGroup.cpp:66-90, 144-147). *)
Definition boundary_stored (block : nat) (ids : list nat) :=
  combine (map mesh_nodes ids) (my_orientations false block ids).
(** A group whose basis is not stored, and an entry of the boundary database,
    ask for the basis by id (assemblyManager_workset.hpp:858-864,
    assemblyManager_database.hpp:1075-1105, basis.hpp:1123-1136): the nodes go
    through [my_elements], the orientations do not. *)
Definition boundary_recomputed block ids :=
  combine (my_nodes block ids) (my_orientations false block ids).
(** What the boundary database compares elements by
    (assemblyManager_database.hpp:260, 297): both go through [my_elements]. *)
Definition boundary_key block ids :=
  combine (my_nodes block ids) (my_orientations true block ids).
End Ids.

(** ** The AC basis on quadrilaterals,
    Intrepid2_HDIV_AC_QUAD_I1_FEMDef.hpp:66-95 *)
Definition ac_value (i : nat) (p : pt) : pt :=
  match i with
  | 0%nat => mk 0 1 0
  | 1%nat => mk 1 0 0
  | 2%nat => mk ((1 + p 0%nat) / 2) ((1 + p 1%nat) / 2) 0
  | _ => mk (p 0%nat) (- p 1%nat) 0
  end.
Definition ac_div (i : nat) (_ : pt) : R :=
  match i with 2%nat => 1 | _ => 0 end.
(** dof coordinates and coefficients, FEMDef.hpp (constructor) *)
Definition ac_dof_pt (e : nat) : pt :=
  match e with 0%nat => mk 0 (-1) 0 | 1%nat => mk 1 0 0 | 2%nat => mk 0 1 0 | _ => mk (-1) 0 0 end.
Definition ac_dof_coef (e : nat) : pt :=
  match e with 0%nat => mk 0 (-1) 0 | 1%nat => mk 1 0 0 | 2%nat => mk 0 1 0 | _ => mk (-1) 0 0 end.
(** On the element every function of this type goes through the HDIV
    transformation: the type is matched by its first four letters,
    basis.hpp:492-512. *)
Definition ac_phys (X : nodes) (i : nat) (p : pt) : pt :=
  map_div_value 2 (jac quad4 X p) (ac_value i p).
Definition ac_phys_div (X : nodes) (i : nat) (p : pt) : R :=
  map_div 2 (jac quad4 X p) (ac_div i p).
