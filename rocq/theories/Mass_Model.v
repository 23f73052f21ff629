(** Model of the weighted mass matrix: assembled, lumped and matrix-free.

    Source: /repo/src/managers/assembly/assemblyManager_mass.hpp
      13-277   getWeightedMass(set, mass, diagMass)
      554-737  applyMassMatrixFree
      1064-1140 getWeightedMass(block, grp, masswts)

    Groups of elements only split the loops over elements and are not represented.
    The graph of the matrix is assumed to contain every pair of unknowns of an element
    (sumIntoValues ignores other columns).  Real arithmetic. *)
From Coq Require Import Bool Arith Lia List Reals Lra.
From Verif Require Import Sparse_Model.
Import ListNotations.
Local Open Scope R_scope.

Record elem := {
  lid : nat -> nat;                         (* LIDs(e, local position) *)
  eidx : nat;                               (* basis_index(e): entry of the database *)
  bas : nat -> nat -> nat -> nat -> R;      (* basis of variable v: (i, point, dim) *)
  wts : nat -> R                            (* quadrature weights *)
}.

Record block := {
  offs : list (list nat);                   (* offsets(v, i) for i < num_dof(v) *)
  elems : list elem;
  nq : nat;                                 (* quadrature points *)
  ndim : nat -> nat;                        (* 1 for HGRAD/HVOL, space dim for HDIV/HCURL *)
  mwt : nat -> R;                           (* mass weights of the variables *)
  db : nat -> nat -> nat -> R;              (* database_mass *)
  ndb : nat;                                (* entries of the database *)
  ndof : nat                                (* unknowns per element *)
}.

Definition vector := nat -> R.

Definition off (b : block) (v i : nat) : nat := nth i (nth v (offs b) []) 0%nat.
Definition num (b : block) (v : nat) : nat := length (nth v (offs b) []).

(** Loops "for var, for i". *)
Definition rows (b : block) : list (nat * nat) :=
  flat_map (fun v => map (fun i => (v, i)) (seq 0 (num b v))) (seq 0 (length (offs b))).

(** Quadrature, lines 603-606 and 628-632. *)
Definition massval (b : block) (e : elem) (v i j : nat) : R :=
  rsum (map (fun k => rsum (map (fun d => bas e v i k d * bas e v j k d * wts e k * mwt b v)
                                (seq 0 (ndim b v)))) (seq 0 (nq b))).

(** Additions to a vector and to a table. *)
Definition add_at (y : vector) (r : nat) (a : R) : vector :=
  fun i => if (i =? r)%nat then y i + a else y i.
Definition scatter (cs : list (nat * R)) (y : vector) : vector :=
  fold_left (fun y c => add_at y (fst c) (snd c)) cs y.
Definition add_at2 (m : nat -> nat -> R) (r c : nat) (a : R) : nat -> nat -> R :=
  fun i j => if ((i =? r) && (j =? c))%nat then m i j + a else m i j.
Definition scatter2 (cs : list (nat * nat * R)) (m : nat -> nat -> R) : nat -> nat -> R :=
  fold_left (fun m c => add_at2 m (fst (fst c)) (snd (fst c)) (snd c)) cs m.

(** The local mass table of an element, lines 1086-1130 (zero initialised). *)
Definition stored_mass (b : block) (e : elem) : nat -> nat -> R :=
  scatter2 (flat_map (fun vi => map (fun j =>
      (off b (fst vi) (snd vi), off b (fst vi) j, massval b e (fst vi) (snd vi) j))
      (seq 0 (num b (fst vi)))) (rows b)) (fun _ _ => 0).

(** Lines 1073-1080: with a database the table of the representative element is used. *)
Definition local_mass (use_db : bool) (b : block) (e : elem) : nat -> nat -> R :=
  if use_db then db b (eidx e) else stored_mass b e.

(** *** Matrix-free application *)

(** One element, local masses given by a table, lines 692-733. *)
Definition mf_table (M : nat -> nat -> R) (b : block) (e : elem) (x : vector) : list (nat * R) :=
  flat_map (fun vi => map (fun j =>
      (lid e (off b (fst vi) (snd vi)),
       M (off b (fst vi) (snd vi)) (off b (fst vi) j) * x (lid e (off b (fst vi) j))))
      (seq 0 (num b (fst vi)))) (rows b).

(** Local masses recomputed, lines 579-644. *)
Definition mf_recompute (b : block) (e : elem) (x : vector) : list (nat * R) :=
  flat_map (fun vi => map (fun j =>
      (lid e (off b (fst vi) (snd vi)),
       massval b e (fst vi) (snd vi) j * x (lid e (off b (fst vi) j))))
      (seq 0 (num b (fst vi)))) (rows b).

(** Sparse database, lines 652-688. *)
Definition mf_sparse (tol : R) (sm : bool) (b : block) (e : elem) (x : vector) : list (nat * R) :=
  flat_map (fun vi =>
      let row := off b (fst vi) (snd vi) in
      map (fun k =>
        let lc := local_columns (ndb b) (ndof b) (ndof b) (db b) tol sm (offs b) (eidx e) row k in
        (lid e row, values (ndb b) (ndof b) (ndof b) (db b) tol (eidx e) row k
                    * x (lid e (off b (fst vi) lc))))
      (seq 0 (nnz (ndb b) (ndof b) (ndof b) (db b) tol sm (eidx e) row))) (rows b).

Inductive variant :=
| Recompute                    (* mass not stored *)
| StoredLocal                  (* local_mass *)
| DenseDatabase
| SparseDatabase (tol : R) (same_memory : bool).

Definition mf_elem (v : variant) (b : block) (e : elem) (x : vector) : list (nat * R) :=
  match v with
  | Recompute => mf_recompute b e x
  | StoredLocal => mf_table (stored_mass b e) b e x
  | DenseDatabase => mf_table (db b (eidx e)) b e x
  | SparseDatabase tol sm => mf_sparse tol sm b e x
  end.

Definition mf_contribs (v : variant) (bs : list block) (x : vector) : list (nat * R) :=
  flat_map (fun b => flat_map (fun e => mf_elem v b e x) (elems b)) bs.

(** applyMassMatrixFree: y += M x. *)
Definition apply_mf (v : variant) (bs : list block) (x y : vector) : vector :=
  scatter (mf_contribs v bs x) y.

(** *** Assembly *)

(** Lines 152-177 and 233-259; the sparse branch (lines 71-115) fills only the
    diagonal vector. *)
Definition mat_elem (use_db sparse : bool) (b : block) (e : elem) : list (nat * nat * R) :=
  if sparse then []
  else flat_map (fun vi => map (fun j =>
      (lid e (off b (fst vi) (snd vi)), lid e (off b (fst vi) j),
       local_mass use_db b e (off b (fst vi) (snd vi)) (off b (fst vi) j)))
      (seq 0 (num b (fst vi)))) (rows b).

Definition assemble (use_db sparse : bool) (bs : list block) : nat -> nat -> R :=
  scatter2 (flat_map (fun b => flat_map (mat_elem use_db sparse b) (elems b)) bs) (fun _ _ => 0).

(** Lumped diagonal: dense with data on the assembly device (lines 121-150, absolute
    values), dense copied to the linear algebra device (lines 200-231, no absolute
    values), sparse (lines 84-112). *)
Inductive lumping :=
| LumpHost (use_db : bool)
| LumpDevice (use_db : bool)
| LumpSparse (tol : R) (same_memory : bool).

Definition lump_elem (l : lumping) (b : block) (e : elem) : list (nat * R) :=
  map (fun vi =>
    let row := off b (fst vi) (snd vi) in
    (lid e row,
     match l with
     | LumpHost d => rsum (map (fun k => Rabs (local_mass d b e row (off b (fst vi) k)))
                               (seq 0 (num b (fst vi))))
     | LumpDevice d => rsum (map (fun k => local_mass d b e row (off b (fst vi) k))
                                 (seq 0 (num b (fst vi))))
     | LumpSparse tol sm =>
         rsum (map (fun k => values (ndb b) (ndof b) (ndof b) (db b) tol (eidx e) row k)
                   (seq 0 (nnz (ndb b) (ndof b) (ndof b) (db b) tol sm (eidx e) row)))
     end)) (rows b).

Definition lump (l : lumping) (bs : list block) (diag : vector) : vector :=
  scatter (flat_map (fun b => flat_map (lump_elem l b) (elems b)) bs) diag.
