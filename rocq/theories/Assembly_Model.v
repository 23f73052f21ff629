(** Assembly of residuals and Jacobians:
    src/managers/assembly/assemblyManager_scatter.hpp (scatterJac lines 13-68, scatterRes
    74-111 and 285-330, scatter 162-278), assemblyManager_jacres.hpp (assembleJacRes
    14-115 and 119-630, updateRes 1363-1402, updateJac 1448-1493),
    assemblyManager_constraints.hpp (setJacobianConstraints 96-138, dofConstraints
    240-270), assemblyManager_gather.hpp (performGather 181-260).
    Simplified: exact arithmetic; degrees of freedom are named by global numbers on every
    process; the sparsity graph contains every entry that is added; per element, [rv o] is
    the value (or one parameter derivative) of the element residual at local row [o] and
    [rd o c] its derivative with respect to local unknown [c]; the loop over variables and
    their degrees of freedom is one list of offsets.  The export adds the contributions of
    all processes. *)
From Coq Require Import Bool Arith Lia Reals Lra List.
From Verif Require Import Sparse_Model Mass_Model.
Import ListNotations.
Local Open Scope R_scope.

Record elt := { lids : list nat; offsets : list nat; rv : nat -> R; rd : nat -> nat -> R }.
Definition elid (e : elt) (o : nat) : nat := nth o (lids e) 0%nat.
Definition ndofs (e : elt) : nat := length (lids e).

(** Gather: the element's unknowns, by offset. *)
Definition gather (x : nat -> R) (e : elt) (o : nat) : R := x (elid e o).

(** The direct path: scatter, lines 203-239 ... *)
Definition direct_res (fx : nat -> bool) (e : elt) : list (nat * R) :=
  flat_map (fun o => if fx (elid e o) then [] else [(elid e o, - rv e o)]) (offsets e).

(** ... and lines 243-274.  The array of values is not initialised, [junk]. *)
Definition direct_jac (junk : nat -> R) (lump : bool) (fx : nat -> bool) (e : elt) : list (nat * nat * R) :=
  flat_map (fun o => if fx (elid e o) then [] else
    map (fun c => (elid e o, if lump then elid e o else elid e c,
                   if existsb (Nat.eqb c) (offsets e) then rd e o c else junk c)) (seq 0 (ndofs e))) (offsets e).

(** The stored path: updateRes and updateJac fill local tables, ... *)
Definition local_res (e : elt) : nat -> R :=
  scatter (map (fun o => (o, - rv e o)) (offsets e)) (fun _ => 0).
Definition local_jac (adjoint : bool) (e : elt) : nat -> nat -> R :=
  scatter2 (flat_map (fun o => map (fun c => (if adjoint then (c, o) else (o, c), rd e o c)) (offsets e)) (offsets e)) (fun _ _ => 0).

(** ... scatterRes (lines 93-110, flags of the first set) and scatterJac (lines 49-65). *)
Definition stored_res (fx0 : nat -> bool) (t : nat -> R) (e : elt) : list (nat * R) :=
  flat_map (fun o => if fx0 (elid e o) then [] else [(elid e o, t o)]) (seq 0 (ndofs e)).
Definition stored_jac (fx : nat -> bool) (t : nat -> nat -> R) (e : elt) : list (nat * nat * R) :=
  flat_map (fun o => if fx (elid e o) then [] else map (fun c => (elid e o, elid e c, t o c)) (seq 0 (ndofs e))) (seq 0 (ndofs e)).

(** How a block is assembled: assembleJacRes, lines 170-175. *)
Inductive mode := Direct (junk : nat -> R) (lump : bool) | Stored (adjoint : bool).

(** A process: its blocks with elements (volume and boundary groups), the degrees of
    freedom fixed by Dirichlet conditions of the set and of the first set, and the point
    constraints. *)
Record proc := { pblocks : list (list elt); pfixed : list nat; pfixed0 : list nat; ppoint : list nat }.
Definition flag (l : list nat) (i : nat) : bool := existsb (Nat.eqb i) l.

Definition res_contribs (m : mode) (p : proc) (e : elt) : list (nat * R) :=
  match m with
  | Direct _ _ => direct_res (flag (pfixed p)) e
  | Stored _ => stored_res (flag (pfixed0 p)) (local_res e) e
  end.
Definition jac_contribs (m : mode) (p : proc) (e : elt) : list (nat * nat * R) :=
  match m with
  | Direct junk lump => direct_jac junk lump (flag (pfixed p)) e
  | Stored adj => stored_jac (flag (pfixed p)) (local_jac adj e) e
  end.

Definition set2 (J : nat -> nat -> R) (r c : nat) (v : R) : nat -> nat -> R :=
  fun i j => if ((i =? r) && (j =? c))%nat then v else J i j.
Definition zero_row (J : nat -> nat -> R) (r : nat) : nat -> nat -> R :=
  fun i j => if (i =? r)%nat then 0 else J i j.

(** dofConstraints: ones for the Dirichlet rows (124-138), identity rows for the point
    constraints (96-119). *)
Definition constrain (p : proc) (J : nat -> nat -> R) : nat -> nat -> R :=
  fold_left (fun J d => set2 (zero_row J d) d d 1) (ppoint p)
    (fold_left (fun J d => set2 J d d 1) (pfixed p) J).

(** "fix zero rows", lines 609-628; [n] columns. *)
Definition fix_zero_rows (n : nat) (J : nat -> nat -> R) : nat -> nat -> R :=
  fun i j => if Rlt_dec (rsum (map (fun c => Rabs (J i c)) (seq 0 n))) (/ 100000000000000)
             then (if (i =? j)%nat then 1 else J i j) else J i j.

(** assembleJacRes over the blocks of a process. *)
Definition proc_res (m : mode) (p : proc) : nat -> R :=
  fold_left (fun r b => scatter (flat_map (res_contribs m p) b) r) (pblocks p) (fun _ => 0).
Definition proc_jac (m : mode) (fzr : option nat) (p : proc) : nat -> nat -> R :=
  fold_left (fun J b =>
    let J := constrain p (scatter2 (flat_map (jac_contribs m p) b) J) in
    match fzr with Some n => fix_zero_rows n J | None => J end) (pblocks p) (fun _ _ => 0).

(** exportVectorFromOverlapped and exportMatrixFromOverlapped. *)
Definition asm_res (m : mode) (ps : list proc) : nat -> R := fun i => rsum (map (fun p => proc_res m p i) ps).
Definition asm_jac (m : mode) (fzr : option nat) (ps : list proc) : nat -> nat -> R :=
  fun i j => rsum (map (fun p => proc_jac m fzr p i j) ps).
