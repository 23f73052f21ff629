(** Face (trace) bases of MrHyDE: src/tools/Intrepid2_HFACE_{QUAD,TRI,HEX,TET}_In_FEM.hpp and
    ..._FEMdef.hpp, used for the basis type "HFACE"
    (discretizationInterface_basis.hpp 324-341).

    The one-dimensional and triangular Lagrange bases they call belong to Intrepid2 and are
    parameters here (what is needed of them is stated in the theorems).  A point of the
    reference cell is given by its coordinates.  Not modelled: the scratch memory, OPERATOR_GRAD
    (empty in the code), getDofCoeffs. *)
From Coq Require Import Bool Arith Reals List.
From Verif Require Import Mass_Model BProj_Model.
Import ListNotations.
Local Open Scope R_scope.

Definition hpt := nat -> R.
Definition horig : hpt := fun _ => 0.
Definition hpt2 (x y : R) : hpt := fun d => match d with O => x | 1%nat => y | _ => 0 end.
Definition hpt3 (x y z : R) : hpt := fun d => match d with O => x | 1%nat => y | 2%nat => z | _ => 0 end.

(** Basis_HGRAD_LINE_Cn_FEM: its cardinality, its functions on [-1,1] and its nodes
    (constructed at QUAD def 282-289, TRI def 258-265, HEX def 349-356). *)
Record hline := { hl_card : nat; hl_fun : nat -> R -> R; hl_node : nat -> R }.
(** Basis_HGRAD_TRI_Cn_FEM_ORTH and the inverse Vandermonde matrix (TET def 76-99, 243-262). *)
Record htri := { ht_card : nat; ht_phi : nat -> R -> R -> R; ht_vinv : nat -> nat -> R; ht_node : nat -> R * R }.

(** std::abs(a) < 1.0e-12 *)
Definition hnear (a : R) : bool := if Rlt_dec (Rabs a) (/ 10 ^ 12) then true else false.

(** One block of rows: if the first point of the batch is on the side, the line functions of
    coordinate t, otherwise zeros (QUAD def 92-115, and so on for each side). *)
Definition h_side (L : hline) (on : hpt -> bool) (t : nat) (batch : list hpt) : list (list R) :=
  map (fun j => map (fun p => if on (hd horig batch) then hl_fun L j (p t) else 0) batch) (seq 0 (hl_card L)).

(** Basis_HFACE_QUAD_In_FEM::Serial::getValues, def 63-207: left, bottom, right, top *)
Definition h_quad_serial (L : hline) (batch : list hpt) : list (list R) :=
  (h_side L (fun p => hnear (p 0%nat + 1)) 1 batch ++
   h_side L (fun p => hnear (p 1%nat + 1)) 0 batch ++
   h_side L (fun p => hnear (p 0%nat - 1)) 1 batch ++
   h_side L (fun p => hnear (p 1%nat - 1)) 0 batch)%list.
(** Basis_HFACE_TRI_In_FEM::Serial::getValues, def 63-183: x=0, y=0, x+y=1 *)
Definition h_tri_serial (L : hline) (batch : list hpt) : list (list R) :=
  (h_side L (fun p => hnear (p 0%nat - 0)) 1 batch ++
   h_side L (fun p => hnear (p 1%nat - 0)) 0 batch ++
   h_side L (fun p => hnear (p 0%nat + p 1%nat - 1)) 0 batch)%list.

(** One face of the hexahedron: outer loop j, inner loop i; function a of coordinate s times
    function b of coordinate t (HEX def 99-125 ...). *)
Definition h_face (L : hline) (on : hpt -> bool) (val : nat -> nat -> hpt -> R) (batch : list hpt) : list (list R) :=
  flat_map (fun j => map (fun i => map (fun p => if on (hd horig batch) then val j i p else 0) batch)
    (seq 0 (hl_card L))) (seq 0 (hl_card L)).
(** Basis_HFACE_HEX_In_FEM::Serial::getValues, def 63-279 *)
Definition h_hex_serial (L : hline) (batch : list hpt) : list (list R) :=
  (h_face L (fun p => hnear (p 0%nat + 1)) (fun j i p => hl_fun L i (p 1%nat) * hl_fun L j (p 2%nat)) batch ++
   h_face L (fun p => hnear (p 1%nat + 1)) (fun j i p => hl_fun L i (p 0%nat) * hl_fun L j (p 2%nat)) batch ++
   h_face L (fun p => hnear (p 0%nat - 1)) (fun j i p => hl_fun L j (p 1%nat) * hl_fun L i (p 2%nat)) batch ++
   h_face L (fun p => hnear (p 1%nat - 1)) (fun j i p => hl_fun L i (p 0%nat) * hl_fun L j (p 2%nat)) batch ++
   h_face L (fun p => hnear (p 2%nat + 1)) (fun j i p => hl_fun L i (p 0%nat) * hl_fun L j (p 1%nat)) batch ++
   h_face L (fun p => hnear (p 2%nat - 1)) (fun j i p => hl_fun L i (p 0%nat) * hl_fun L j (p 1%nat)) batch)%list.

(** One face of the tetrahedron; the test is made at every point, and the triangle functions are
    evaluated at the first two coordinates of the point (TET def 90-125). *)
Definition h_tface (T : htri) (on : hpt -> bool) (batch : list hpt) : list (list R) :=
  map (fun i => map (fun p => if on p
      then sm (seq 0 (ht_card T)) (fun k => ht_vinv T k i * ht_phi T k (p 0%nat) (p 1%nat)) else 0) batch)
    (seq 0 (ht_card T)).
(** Basis_HFACE_TET_In_FEM::Serial::getValues, def 66-180 *)
Definition h_tet_serial (T : htri) (batch : list hpt) : list (list R) :=
  (h_tface T (fun p => hnear (p 1%nat - 0)) batch ++
   h_tface T (fun p => hnear (p 0%nat + p 1%nat + p 2%nat - 1)) batch ++
   h_tface T (fun p => hnear (p 0%nat - 0)) batch ++
   h_tface T (fun p => hnear (p 2%nat - 0)) batch)%list.

(** Functor::operator(), FEM.hpp 121-150: the points are handed to Serial in batches of m
    (m = Parameters::MaxNumPtsPerBasisEval, which is 1 in Intrepid2); the value of function idx
    at point k. *)
Definition h_values (serial : list hpt -> list (list R)) (m : nat) (pts : list hpt) (idx k : nat) : R :=
  nth (k mod m) (nth idx (serial (firstn m (skipn (k / m * m) pts))) []) 0.

(** Tags (dimension of the side, its number, index on the side, number on the side):
    QUAD def 308-351, TRI def 284-317, HEX def 381-457, TET def 297-333 *)
Definition h_tag : Type := nat * nat * nat * nat.
Definition h_tags (dim n : nat) (sides : list nat) : list h_tag :=
  flat_map (fun e => map (fun j => (dim, e, j, n)) (seq 0 n)) sides.
Definition h_quad_tags (L : hline) : list h_tag := h_tags 1 (hl_card L) [3; 0; 1; 2]%nat.
Definition h_tri_tags (L : hline) : list h_tag := h_tags 1 (hl_card L) [2; 0; 1]%nat.
Definition h_hex_tags (L : hline) : list h_tag :=
  flat_map (fun e => flat_map (fun j => map (fun i => (2, e, j * hl_card L + i, hl_card L * hl_card L)%nat)
    (seq 0 (hl_card L))) (seq 0 (hl_card L))) [3; 0; 1; 2; 4; 5]%nat.
Definition h_tet_tags (T : htri) : list h_tag := h_tags 2 (ht_card T) [0; 1; 2; 3]%nat.

(** Points of the degrees of freedom: QUAD def 386-418, TRI def 352-377, HEX def 491-555, TET def 369-403 *)
Definition h_quad_coords (L : hline) : list hpt :=
  (map (fun j => hpt2 (-1) (hl_node L j)) (seq 0 (hl_card L)) ++
   map (fun j => hpt2 (hl_node L j) (-1)) (seq 0 (hl_card L)) ++
   map (fun j => hpt2 1 (hl_node L j)) (seq 0 (hl_card L)) ++
   map (fun j => hpt2 (hl_node L j) 1) (seq 0 (hl_card L)))%list.
Definition h_tri_coords (L : hline) : list hpt :=
  (map (fun j => hpt2 0 (hl_node L j)) (seq 0 (hl_card L)) ++
   map (fun j => hpt2 (hl_node L j) 0) (seq 0 (hl_card L)) ++
   map (fun j => hpt2 (hl_node L j) (1 - hl_node L j)) (seq 0 (hl_card L)))%list.
Definition h_grid (L : hline) (f : R -> R -> hpt) : list hpt :=
  flat_map (fun j => map (fun i => f (hl_node L j) (hl_node L i)) (seq 0 (hl_card L))) (seq 0 (hl_card L)).
Definition h_hex_coords (L : hline) : list hpt :=
  (h_grid L (fun a b => hpt3 (-1) a b) ++ h_grid L (fun a b => hpt3 a (-1) b) ++
   h_grid L (fun a b => hpt3 1 a b) ++ h_grid L (fun a b => hpt3 a 1 b) ++
   h_grid L (fun a b => hpt3 a b (-1)) ++ h_grid L (fun a b => hpt3 a b 1))%list.
Definition h_tet_coords (T : htri) : list hpt :=
  (map (fun j => hpt3 (fst (ht_node T j)) 0 (snd (ht_node T j))) (seq 0 (ht_card T)) ++
   map (fun j => hpt3 (fst (ht_node T j)) (snd (ht_node T j)) (1 - fst (ht_node T j) - snd (ht_node T j))) (seq 0 (ht_card T)) ++
   map (fun j => hpt3 0 (fst (ht_node T j)) (snd (ht_node T j))) (seq 0 (ht_card T)) ++
   map (fun j => hpt3 (fst (ht_node T j)) (snd (ht_node T j)) 0) (seq 0 (ht_card T)))%list.
