(** Coarse basis functions at the boundary points of subgrid cells.
      /repo/src/subgrid/subgridDtN2.cpp 637-759 computeMacroBasisSubgridIP
      /repo/src/subgrid/subgridDtN.cpp 737-872 (the same lines inside setUpSubgridModels)
      /repo/src/subgrid/subgridTools2.cpp 1209-1236 getPhysicalNodes
    Simplified: scalar basis values; the orientation of an element acts on the vector of values of its
    functions at a point (applyOrientation); the map to the reference element (an iteration of
    Intrepid2) is a function [inv].  Quadrilaterals for the physical points. *)
From Coq Require Import List Arith Bool Reals.
From Verif Require Import Subgrid_Model Sub2_Model.
Import ListNotations.
Local Open Scope R_scope.

(** The bilinear map of the quadrilateral with corners [P 0] ... [P 3]. *)
Definition qmap (P : nat -> R * R) (x : R * R) : R * R :=
  let (s, t) := x in
  let n0 := (1 - s) * (1 - t) / 4 in let n1 := (1 + s) * (1 - t) / 4 in
  let n2 := (1 + s) * (1 + t) / 4 in let n3 := (1 - s) * (1 + t) / 4 in
  (n0 * fst (P 0%nat) + n1 * fst (P 1%nat) + n2 * fst (P 2%nat) + n3 * fst (P 3%nat),
   n0 * snd (P 0%nat) + n1 * snd (P 1%nat) + n2 * snd (P 2%nat) + n3 * snd (P 3%nat)).
(** Corner [k] of fine cell [c] on the reference element, and on the coarse element with corners [P]. *)
Definition ref_corner (st : sub2) (c k : nat) : R * R :=
  let n := nth (nth k (nth c (sconn2 st) []) 0%nat) (snodes2 st) [] in (nth 0 n 0, nth 1 n 0).
Definition phys_corner (st : sub2) (P : nat -> R * R) (c k : nat) : R * R := qmap P (ref_corner st c k).
(** Point of fine element [e] of a set with coarse corners [Ps], at local coordinates [y]. *)
Definition fine_ip (st : sub2) (Ps : nat -> nat -> R * R) (e : nat) (y : R * R) : R * R :=
  let N := List.length (sconn2 st) in qmap (phys_corner st (Ps (e / N)%nat) (e mod N)%nat) y.

Section Basis.
Context {O Q Pt : Type}.
Variable bas : Pt -> nat -> R.
Variable orient : O -> (nat -> R) -> nat -> R.
(** Lines 661-745, first set: [g] the elements of the group, [mid] their coarse elements, [ip] their
    points, [inv0] the map to the reference element of coarse element 0, [mo] the orientations.
    None: division by the count zero. *)
Definition aux_first (mid : nat -> nat) (ip : nat -> Q -> Pt) (inv0 : Pt -> Pt) (mo : nat -> O) (g : list nat) : option (list (Q -> nat -> R)) :=
  let mcount := List.length (filter (fun e => (mid e =? 0)%nat) g) in
  match mcount with
  | 0%nat => None
  | _ => let numIDs := (List.length g / mcount)%nat in
         let refbasis n q := bas (inv0 (ip (nth n g 0%nat) q)) in
         Some (map (fun index q => if (index <? numIDs * mcount)%nat
                                   then orient (mo (index / mcount)%nat) (refbasis (index mod mcount)%nat q) else fun _ => 0)
                   (seq 0 (List.length g)))
  end.
(** Lines 746-757: the table of set [mindex]; the sets after the first share that of the first. *)
Fixpoint aux_sets (first : option (list (Q -> nat -> R))) (nsets : nat) : list (option (list (Q -> nat -> R))) :=
  match nsets with 0%nat => [] | S n => aux_sets first n ++ [match n with 0%nat => first | _ => nth 0 (aux_sets first n) None end] end.
End Basis.
