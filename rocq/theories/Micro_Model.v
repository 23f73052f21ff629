(** Model of random microstructures: the seeds, and the rotations drawn again for every sample.

    Source:
      /repo/src/interfaces/mesh/meshInterface_util.hpp 133-298 generateNewMicrostructure
      /repo/src/managers/assembly/assemblyManager_util.hpp 813-1064 importNewMicrostructure
      /repo/src/managers/analysis/analysisManager_util.hpp 70-163 updateRotationData
      /repo/src/managers/analysis/analysisManager_solve.hpp 253-262 (UQ)

    The random numbers are arguments.  Host build: the device view of the seeds is the host one
    (on a device the well spaced seeds are compared with a copy that is not yet filled).  The
    search for the nearest seed is in Nearest_Model. *)
From Coq Require Import Reals List Arith.
From Verif Require Import Nearest_Model.
Import ListNotations.
Local Open Scope R_scope.

Definition mpt := (R * R * R)%type.

(* ---------------------------------------------------------------- fast and crude, 155-205 *)

Definition m_spacing (lo hi : R) (n : nat) : R := (hi - lo) / INR (n + 1).
Definition m_line (lo hi : R) (n k : nat) : R := lo + INR (k + 1) * m_spacing lo hi n.
(** The order of the three loops. *)
Definition m_lattice (nx ny nz : nat) : list (nat * nat * nat) :=
  flat_map (fun i => flat_map (fun j => map (fun k => (i, j, k)) (seq 0 nz)) (seq 0 ny)) (seq 0 nx).
Fixpoint m_mapi {A B} (f : nat -> A -> B) (n : nat) (l : list A) : list B :=
  match l with nil => nil | a :: r => f n a :: m_mapi f (S n) r end.
Record mbox := { b_x0 : R; b_x1 : R; b_y0 : R; b_y1 : R; b_z0 : R; b_z1 : R }.
(** draw n: the n-th number of the distribution on (-1/4, 1/4). *)
Definition m_fast (b : mbox) (nx ny nz : nat) (draw : nat -> R) : list mpt :=
  m_mapi (fun prog t => let '(i, j, k) := t in
    (m_line (b_x0 b) (b_x1 b) nx i + draw (3 * prog)%nat * m_spacing (b_x0 b) (b_x1 b) nx,
     m_line (b_y0 b) (b_y1 b) ny j + draw (3 * prog + 1)%nat * m_spacing (b_y0 b) (b_y1 b) ny,
     m_line (b_z0 b) (b_z1 b) nz k + draw (3 * prog + 2)%nat * m_spacing (b_z0 b) (b_z1 b) nz)) 0 (m_lattice nx ny nz).

(* ---------------------------------------------------------------- well spaced, 208-275 *)

Definition m_weights (w : mpt) : mpt :=
  let '(x, y, z) := w in let n := sqrt (x * x + y * y + z * z) in (x * (3 / n), y * (3 / n), z * (3 / n)).
Definition m_dist (w a b : mpt) : R :=
  let '(wx, wy, wz) := w in let '(ax, ay, az) := a in let '(bx, by_, bz) := b in
  wx * (ax - bx) * (ax - bx) + wy * (ay - by_) * (ay - by_) + wz * (az - bz) * (az - bz).
Definition m_big : R := 10 ^ 200.
(** Smallest distance to the seeds so far, from 1e200. *)
Definition m_near (w : mpt) (seeds : list mpt) (c : mpt) : R :=
  fold_left (fun m s => if Rlt_dec (m_dist w c s) m then m_dist w c s else m) seeds m_big.
(** Best candidate: largest distance so far (from 0) and its number (from 0). *)
Fixpoint m_best (w : mpt) (seeds : list mpt) (k : nat) (cands : list mpt) (maxdist : R) (best : nat) : nat :=
  match cands with
  | nil => best
  | c :: r => if Rlt_dec maxdist (m_near w seeds c) then m_best w seeds (S k) r (m_near w seeds c) k else m_best w seeds (S k) r maxdist best
  end.
Definition m_origin : mpt := (0, 0, 0).
Definition m_pick (w : mpt) (seeds cands : list mpt) : mpt :=
  nth (match seeds with nil => 0%nat | _ => m_best w seeds 0 cands 0 0 end) cands m_origin.
(** The loop over the seeds; batch prog: the candidates drawn for seed prog. *)
Fixpoint m_spaced (w : mpt) (batch : nat -> list mpt) (n : nat) : list mpt :=
  match n with
  | O => nil
  | S n => let seeds := m_spaced w batch n in seeds ++ [m_pick (m_weights w) seeds (batch n)]
  end.

(* ---------------------------------------------------------------- rotations *)

(** importNewMicrostructure, 940-960: what an element keeps of its nearest seed; the boundary
    elements keep nothing (the code that filled them is commented out). *)
Definition m_data_seed (cpt : nat) : nat := cpt mod 100.
Definition m_import_vol (cnode : list nat) : list nat := map m_data_seed cnode.
Definition m_import_bnd (cnode : list nat) : list nat := nil.
(** updateRotationData: seeds of the elements of every process; the largest, plus one. *)
Definition m_numseeds (procs : list (list nat)) : nat := S (fold_left Nat.max (map (fun p => fold_left (fun a s => if Nat.ltb a s then s else a) p 0%nat) procs) 0%nat).
(** Four normal numbers per row. *)
Definition m_row (normal : nat -> R) (k : nat) : nat -> R :=
  rotation (normal (4 * k)%nat) (normal (4 * k + 1)%nat) (normal (4 * k + 2)%nat) (normal (4 * k + 3)%nat).
Definition m_table (normal : nat -> R) (n : nat) : list (nat -> R) := map (m_row normal) (seq 0 n).
(** The data of element e: out of bounds if there is no seed e or no such row. *)
Definition m_element (table : list (nat -> R)) (seeds : list nat) (e : nat) : option (nat -> R) :=
  match nth_error seeds e with Some s => nth_error table s | None => None end.
Definition m_update (normal : nat -> R) (procs : list (list nat)) (seeds : list nat) (e : nat) : option (nat -> R) :=
  m_element (m_table normal (m_numseeds procs)) seeds e.
