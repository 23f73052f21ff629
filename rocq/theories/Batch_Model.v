(** Sums of optimization vectors over the batches of samples.
    File modelled: /repo/src/optimization/MrHyDE_TeuchosBatchManager.hpp 17-66
    (sumAll of vectors; the batch manager made in
    managers/analysis/analysisManager_solve.hpp 831).
    A vector has field parts and scalar parts, one of each per time step when the
    parameter is time dependent (MrHyDE_OptVector.hpp 29-30); a field part has
    columns.  The copies made by the function share their data with the vectors
    passed in, so writes are seen by the caller.  The sum over processes is exact. *)
From Coq Require Import Bool Arith List Reals.
From Verif Require Import BProj_Model.
Import ListNotations.
Local Open Scope R_scope.

Record bvec := BV { bv_fields : list (list (list R)); bv_scalars : list (list R) }.

(** reduceAll of raw data: entry by entry. *)
Definition sum_raw (len : nat) (parts : list (list R)) : list R :=
  map (fun i => sm parts (fun p => nth i p 0)) (seq 0 len).

(** Lines 37-54: the first field part, column by column; sizes must agree. *)
Definition sum_field (ins : list (list (list R))) (inp out : list (list R)) : option (list (list R)) :=
  if (length inp =? length out)%nat &&
     forallb (fun ab => (length (fst ab) =? length (snd ab))%nat) (combine inp out) then
    Some (map (fun c => sum_raw (length (nth c inp [])) (map (fun p => nth c p []) ins))
              (seq 0 (length inp)))
  else None.

(** Lines 61-71: the first scalar part. *)
Definition sum_scalar (ins : list (list R)) (inp out : list R) : option (list R) :=
  if (length inp =? length out)%nat then Some (sum_raw (length inp) ins) else None.

Definition first_of {A} (d : A) (l : list A) : A := nth 0 l d.

(** One process: [ins] are the inputs of all processes. *)
Definition sum_all (ins : list bvec) (inp out : bvec) : option bvec :=
  let fields :=
    match bv_fields inp, bv_fields out with
    | [], o => Some o
    | i0 :: _, o0 :: o =>
        match sum_field (map (fun p => first_of [] (bv_fields p)) ins) i0 o0 with
        | Some r => Some (r :: o) | None => None end
    | _ :: _, [] => None
    end in
  let scalars :=
    match bv_scalars inp, bv_scalars out with
    | [], o => Some o
    | i0 :: _, o0 :: o =>
        match sum_scalar (map (fun p => first_of [] (bv_scalars p)) ins) i0 o0 with
        | Some r => Some (r :: o) | None => None end
    | _ :: _, [] => None
    end in
  match fields, scalars with
  | Some f, Some s => Some (BV f s)
  | _, _ => None
  end.
