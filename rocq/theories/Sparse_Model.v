(** Model of the compressed storage of local (element) matrices.

    Source: /repo/src/tools/sparse3DView.hpp:22-158 (class Sparse3DView).

    Entries are real numbers (exact arithmetic).  [D e i j] is the dense table with
    extents [ne], [nr], [nc]. *)
From Coq Require Import Bool Arith Lia List Reals Lra.
Import ListNotations.
Local Open Scope R_scope.

Definition rsum (l : list R) : R := fold_right Rplus 0 l.

Section Sparse.
Variables (ne nr nc : nat) (D : nat -> nat -> nat -> R) (tol : R).
(** Whether the host mirror of nnz_row_ is the same memory (host builds) or a copy. *)
Variable same_memory : bool.

(** Lines 41-53 *)
Definition maxval : R :=
  fold_left (fun m e => fold_left (fun m i => fold_left (fun m j =>
    if Rlt_dec m (Rabs (D e i j)) then Rabs (D e i j) else m)
    (seq 0 nc) m) (seq 0 nr) m) (seq 0 ne) 0.

(** [std::abs(a)/maxval > tol_]; 0/0 is not greater than anything (lines 62, 82). *)
Definition keep (a : R) : bool :=
  if Req_EM_T maxval 0 then false
  else if Rlt_dec tol (Rabs a / maxval) then true else false.

(** The retained entries of a row, in column order, lines 78-92. *)
Definition entries (e i : nat) : list (nat * R) :=
  map (fun j => (j, D e i j)) (filter (fun j => keep (D e i j)) (seq 0 nc)).

(** nnz_row_, lines 55-70.  [deep_copy(nnz_host,nnz_row_)] copies from the device view
    to the host one, so with separate memory nnz_row_ keeps its initial zeros. *)
Definition nnz (e i : nat) : nat := if same_memory then length (entries e i) else 0%nat.

(** values_ and columns_, zero beyond the retained entries. *)
Definition values (e i k : nat) : R := nth k (map snd (entries e i)) 0.
Definition columns (e i k : nat) : nat := nth k (map fst (entries e i)) 0%nat.

(** size(), lines 103-113 *)
Definition size : nat :=
  list_sum (map (fun e => list_sum (map (fun i => nnz e i) (seq 0 nr))) (seq 0 ne)).

(** Product of a row with a vector as formed by the users of the class. *)
Definition sparse_row (e i : nat) (x : nat -> R) : R :=
  rsum (map (fun k => values e i k * x (columns e i k)) (seq 0 (nnz e i))).
Definition dense_row (e i : nat) (x : nat -> R) : R :=
  rsum (map (fun j => D e i j * x j) (seq 0 nc)).

(** setLocalColumns, lines 135-154.  [offs] lists, per variable, the local positions
    of its degrees of freedom; local_columns_ starts at zero. *)
Definition find_last_pos (c : nat) (off : list nat) (cur : nat) : nat :=
  fold_left (fun cur j => if (nth j off 0 =? c)%nat then j else cur) (seq 0 (length off)) cur.

Definition local_columns (offs : list (list nat)) (e row k : nat) : nat :=
  fold_left (fun cur off =>
    fold_left (fun cur r => if (r =? row)%nat && (k <? nnz e row)%nat
                            then find_last_pos (columns e row k) off cur else cur)
      off cur) offs 0%nat.

End Sparse.
