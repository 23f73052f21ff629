(** src/interfaces/linear_algebra: maps and graphs (linearAlgebraInterface_construct.hpp), exchange
    of vectors (_vector.hpp), matrices kept for reuse (_matrix.hpp, _util.hpp,
    linearSolverContext.hpp) and options of the linear solvers. Simplified: Tpetra maps are lists of
    global numbers, a graph is a list of inserted pairs, one physics set except for reuse. *)
From Coq Require Import Bool Arith ZArith Reals String List.
From Verif Require Import BProj_Model.
Import ListNotations.
Local Open Scope nat_scope.

(** *** Unknowns and graphs, setupLinearAlgebra, construct.hpp 138-263 *)

(** total_local_dof, lines 166-172: each spatial unknown times the unknowns in phase space. *)
Definition expand (n : nat) (dofs : list nat) : list nat := flat_map (fun g => map (fun p => g * n + p) (seq 0 n)) dofs.

(** max_entriesPerRow, lines 208-227: what is added to row [r]; [n] unknowns and [np] elements in
    phase space; getPhaseGIDs (discretizationInterface_dof.hpp 799-806) gives 0 .. n-1 for each. *)
Definition row_size (n np : nat) (elems : list (list nat)) (r : nat) : nat :=
  list_sum (flat_map (fun e => flat_map (fun g => flat_map (fun _ => flat_map (fun j =>
    if n * g + j =? r then [length e * n] else []) (seq 0 n)) (seq 0 np)) e) elems).
Definition max_size (n np : nat) (elems : list (list nat)) (rows : list nat) : nat :=
  fold_left (fun m r => Nat.max m (row_size n np elems r)) rows 0.

(** overlapped_graph, lines 241-258: the columns inserted are the spatial unknowns of the element. *)
Definition graph (n np : nat) (elems : list (list nat)) : list (nat * nat) :=
  flat_map (fun e => flat_map (fun g => flat_map (fun _ => flat_map (fun j =>
    map (fun c => (n * g + j, c)) e) (seq 0 n)) (seq 0 np)) e) elems.
Definition columns (gr : list (nat * nat)) (r : nat) : list nat := map snd (filter (fun rc => fst rc =? r) gr).

(** *** Exchange of vectors, _vector.hpp 51-117 *)

(** A process: the numbers it owns and those it has copies of. A vector: process, place -> value. *)
Record pmap := { own : list nat; over : list nat }.
Definition vec := nat -> nat -> R.
Definition part (ps : list pmap) (p : nat) : pmap := nth p ps {| own := []; over := [] |}.
Definition number (l : list nat) (k : nat) : nat := nth k l 0.
(** All copies of number [g]: process and place. *)
Definition copies (f : pmap -> list nat) (ps : list pmap) (g : nat) : list (nat * nat) :=
  flat_map (fun q => map (fun i => (q, i)) (filter (fun i => number (f (part ps q)) i =? g) (seq 0 (length (f (part ps q))))))
           (seq 0 (length ps)).
(** exportVectorFromOverlapped: a plain copy on one process. *)
Definition export_add (ps : list pmap) (v : vec) : vec :=
  fun p k => if length ps =? 1 then v p k
             else sm (copies over ps (number (own (part ps p)) k)) (fun qi => v (fst qi) (snd qi)).
(** exportVectorFromOverlappedReplace: the copies are written one over another. *)
Definition export_replace (ps : list pmap) (v : vec) : vec :=
  fun p k => if length ps =? 1 then v p k
             else fold_left (fun _ qi => v (fst qi) (snd qi)) (copies over ps (number (own (part ps p)) k)) 0%R.
(** importVectorToOverlapped: what the owner has is added to zero. *)
Definition import_over (ps : list pmap) (w : vec) : vec :=
  fun p i => sm (copies own ps (number (over (part ps p)) i)) (fun qk => w (fst qk) (snd qk)).

(** *** Matrices kept for reuse *)

(** LinearSolverContext: reuse_matrix, have_matrix, matrix; reset. *)
Record ctx {M : Type} := { reuse : bool; have : bool; kept : option M }.
Arguments ctx : clear implicits.
Definition reset_ctx {M} (c : ctx M) : ctx M := {| reuse := reuse c; have := false; kept := None |}.
(** Operations in a run, per physics set: the mass matrix of an explicit run (setupExplicitMass,
    solverManager_setup.hpp 53-91), the reset when a forward or adjoint run begins
    (solverManager_models.hpp 26 and 83), and one nonlinear iteration (solverManager_solvers.hpp
    342-352): getJacobianReuse, getNewMatrix, assembly only if not reused. *)
Inductive op {M : Type} := Mass (s : nat) (m : M) | Reset | Iterate (s : nat) (current : M).
Arguments op : clear implicits.
Definition upd {A} (l : nat -> A) (s : nat) (a : A) : nat -> A := fun t => if t =? s then a else l t.
Definition take {M} (c : ctx M) (built : M) : ctx M * option M :=
  if reuse c && have c then (c, kept c)
  else if reuse c then ({| reuse := true; have := true; kept := Some built |}, Some built) else (c, Some built).
(** The contexts after an operation and the matrix the linear system is solved with. *)
Definition step {M} (cs : nat -> ctx M) (o : op M) : (nat -> ctx M) * option (nat * option M) :=
  match o with
  | Mass s m => let '(c, _) := take (cs s) m in (upd cs s c, None)
  | Reset => (fun s => reset_ctx (cs s), None)
  | Iterate s j => let '(c, m) := take (cs s) j in (upd cs s c, Some (s, m))
  end.
Fixpoint run {M} (cs : nat -> ctx M) (os : list (op M)) : list (nat * option M) :=
  match os with
  | [] => []
  | o :: os => let '(cs', u) := step cs o in match u with Some x => x :: run cs' os | None => run cs' os end
  end.
Fixpoint after {M} (cs : nat -> ctx M) (os : list (op M)) : nat -> ctx M :=
  match os with [] => cs | o :: os => after (fst (step cs o)) os end.

(** *** Options: construct.hpp 30-128, linearSolverContext.hpp 58-85, _util.hpp 84-115,
    _solvers.hpp 55 (preconditioner variant). A value of another kind is an exception, left out. *)
Local Open Scope string_scope.
Inductive oval := OB (b : bool) | OS (s : string) | OI (z : Z).
Definition olist := list (string * oval).
Fixpoint get (n : string) (l : olist) : option oval :=
  match l with [] => None | (m, v) :: l => if string_dec m n then Some v else get n l end.
Definition get_b (n : string) (d : bool) (l : olist) : bool := match get n l with Some (OB b) => b | _ => d end.
Definition get_s (n d : string) (l : olist) : string := match get n l with Some (OS s) => s | _ => d end.
Definition get_i (n : string) (d : Z) (l : olist) : Z := match get n l with Some (OI z) => z | _ => d end.
Inductive kind := State | StateL2 | StateBndry | Param | ParamL2 | ParamBndry | ParamState.
Definition section_of (k : kind) : string :=
  match k with
  | State => "State linear solver" | StateL2 => "State L2 linear solver" | StateBndry => "State boundary L2 linear solver"
  | Param => "Parameter linear solver" | ParamL2 => "Parameter L2 linear solver"
  | ParamBndry => "Parameter boundary L2 linear solver" | ParamState => "Parameter state linear solver"
  end.
(** The section "Solver": its entries and its sublists. *)
Record solver_list := { entries : olist; sublists : list (string * olist) }.
Fixpoint sub (n : string) (l : list (string * olist)) : option olist :=
  match l with [] => None | (m, s) :: l => if string_dec m n then Some s else sub n l end.
Definition chosen (s : solver_list) (k : kind) : olist :=
  let l := match sub (section_of k) (sublists s) with Some l => l | None => entries s end in
  match k with StateBndry => ("use preconditioner", OB false) :: l | _ => l end.
Record options := {
  o_amesos : string; o_belos : string; o_direct : bool; o_prec : string; o_use_prec : bool; o_reuse_prec : bool;
  o_right : bool; o_reuse : bool;
  (* taken from the general section *)
  o_iters : Z; o_blocks : Z; o_variant : string; o_scaling : string }.
Definition options_of (s : solver_list) (k : kind) : options :=
  let l := chosen s k in
  {| o_amesos := get_s "Amesos solver" "KLU2" l; o_belos := get_s "Belos solver" "Block GMRES" l;
     o_direct := get_b "use direct solver" false l; o_prec := get_s "preconditioner type" "AMG" l;
     o_use_prec := get_b "use preconditioner" true l; o_reuse_prec := get_b "reuse preconditioner" true l;
     o_right := get_b "right preconditioner" false l; o_reuse := get_b "reuse Jacobian" false l;
     o_iters := get_i "max linear iters" 100 (entries s); o_blocks := get_i "max linear iters" 100 (entries s);
     o_variant := get_s "preconditioner variant" "RELAXATION" (entries s);
     o_scaling := get_s "Belos implicit residual scaling" "None" (entries s) |}.
