(** Initial conditions: src/managers/assembly/assemblyManager_initial.hpp (setInitial,
    setInitialFace, getInitial, getInitialFace), getMass and getMassFace of
    assemblyManager_mass.hpp, src/interfaces/physics/physicsInterface_initial.hpp and
    setInitial of src/managers/solver/solverManager_util.hpp, lines 157-312.
    Simplified: exact arithmetic; unknowns are named by global numbers on every process;
    groups only split the loops; the entries of local matrices between different variables,
    which are zero, are left out; the matrix graph contains every entry that is added; the
    linear solver returns a solution of the system; no restart data. *)
From Coq Require Import Bool Arith Reals String List.
From Verif Require Import Mass_Model BProj_Model.
Import ListNotations.
Local Open Scope R_scope.

(** HGRAD and HVOL; HDIV and HCURL; others. *)
Inductive itype := IScalar | IVector | IOther.
(** A variable on an element: offsets, basis (function, point, component), initial values at
    the points (point, component). *)
Record ivar := { ity : itype; ioff : list nat; ibas : nat -> nat -> nat -> R; iini : nat -> nat -> R }.
Record iel := { ilid : nat -> nat; idim : nat; inpt : nat; iwt : nat -> R; ivs : list ivar }.
Definition ioffset (v : ivar) (i : nat) : nat := nth i (ioff v) 0%nat.
Definition inum (v : ivar) : nat := List.length (ioff v).
Definition icomp (e : iel) (v : ivar) : nat := match ity v with IScalar => 1%nat | IVector => idim e | IOther => 0%nat end.

(** getMass, assemblyManager_mass.hpp lines 916-973 *)
Definition imass (e : iel) (v : ivar) (i j : nat) : R :=
  sm (seq 0 (inpt e)) (fun k => sm (seq 0 (icomp e v)) (fun d => ibas v i k d * ibas v j k d * iwt e k)).
(** getInitial with project, lines 263-306; getInitial of physicsInterface_initial.hpp lines 39-95 *)
Definition irhs (e : iel) (v : ivar) (i : nat) : R :=
  sm (seq 0 (inpt e)) (fun k => sm (seq 0 (icomp e v)) (fun d => iini v k d * ibas v i k d * iwt e k)).

(** setInitial, lines 66-112: additions to the vector and to the matrix *)
Definition rhs_adds (e : iel) : list (nat * R) :=
  flat_map (fun v => map (fun i => (ilid e (ioffset v i), irhs e v i)) (seq 0 (inum v))) (ivs e).
Definition mass_adds (lump : bool) (e : iel) : list (nat * nat * R) :=
  flat_map (fun v => flat_map (fun i => map (fun j =>
     (ilid e (ioffset v i), if lump then ilid e (ioffset v i) else ilid e (ioffset v j), imass e v i j)) (seq 0 (inum v))) (seq 0 (inum v))) (ivs e).
Definition vec_of (cs : list (nat * R)) (r : nat) : R := sm cs (fun c => if (fst c =? r)%nat then snd c else 0).
Definition mat_of (cs : list (nat * nat * R)) (r c : nat) : R :=
  sm cs (fun a => if (fst (fst a) =? r)%nat && (snd (fst a) =? c)%nat then snd a else 0).
(** lines 115-134: rows of (nearly) zeros; [rows]: the rows of the process *)
Definition row_abs (n : nat) (M : nat -> nat -> R) (r : nat) : R := sm (seq 0 n) (fun c => Rabs (M r c)).
Definition tiny : R := / 10 ^ 14.
Definition fix_rows (rows : list nat) (n : nat) (M : nat -> nat -> R) (r c : nat) : R :=
  if existsb (Nat.eqb r) rows then if Rlt_dec (row_abs n M r) tiny then if (r =? c)%nat then 1 else M r c else M r c else M r c.
(** A process: its rows and its blocks, lists of elements.  The rows are repaired after each
    block (lines 22-26, 115). *)
Record iproc := { irows : list nat; iblocks : list (list iel) }.
Definition proc_matrix (lump : bool) (n : nat) (p : iproc) : nat -> nat -> R :=
  fold_left (fun M b => fix_rows (irows p) n (fun r c => M r c + mat_of (flat_map (mass_adds lump) b) r c)) (iblocks p) (fun _ _ => 0).
Definition proc_vector (p : iproc) : nat -> R := vec_of (flat_map rhs_adds (concat (iblocks p))).
(** exports, lines 261-262 of solverManager_util.hpp *)
Definition init_matrix (lump : bool) (n : nat) (ps : list iproc) (r c : nat) : R := sm ps (fun p => proc_matrix lump n p r c).
Definition init_vector (ps : list iproc) (r : nat) : R := sm ps (fun p => proc_vector p r).

(** setInitialFace, lines 160-245: the points are those of all faces of the element (getMassFace
    lines 1148-1190, getInitialFace lines 362-398), of HFACE variables; rows are repaired once.
    The lumped matrix adds the sum of a row in the column of the last unknown (lines 193-204);
    the call passes is_adjoint for lumpmass (solverManager_util.hpp line 277). *)
Definition face_matrix (n : nat) (p : iproc) : nat -> nat -> R :=
  fix_rows (irows p) n (mat_of (flat_map (mass_adds false) (concat (iblocks p)))).
Definition face_all (n : nat) (ps : list iproc) (r c : nat) : R := sm ps (fun p => face_matrix n p r c).
Definition face_lumped_adds (e : iel) : list (nat * nat * R) :=
  let all := flat_map (fun v => ioff v) (ivs e) in
  flat_map (fun v => flat_map (fun i => map (fun j => (ilid e (ioffset v i), ilid e (last all 0%nat), imass e v i j)) (seq 0 (inum v))) (seq 0 (inum v))) (ivs e).

(** *** Interpolation: setInitial, lines 143-158, getInitial without project, lines 307-352.
    [nodal v k]: the initial value of variable v at node k; offsets are a table padded with
    zeros to the longest list (solverManager_setup.hpp lines 565-582). *)
Record nvar := { noff : list nat; nval : nat -> R }.
Record nel := { nlid : nat -> nat; nloc : nat; nnode : nat; nvs : list nvar }.
Definition write (f : nat -> R) (i : nat) (v : R) (j : nat) : R := if (j =? i)%nat then v else f j.
Definition node_values (e : nel) : nat -> R :=
  fold_left (fun f v => fold_left (fun f k => write f (nth k (noff v) 0%nat) (nval v k)) (seq 0 (nnode e)) f) (nvs e) (fun _ => 0).
Definition interp_el (x : nat -> R) (e : nel) : nat -> R :=
  fold_left (fun x row => write x (nlid e row) (node_values e row)) (seq 0 (nloc e)) x.
Definition interpolate (es : list nel) : nat -> R := fold_left interp_el es (fun _ => 0).

(** *** Scalar data: solverManager_construct.hpp lines 256-290.  [sets]: for each set whether
    its data are scalars, and the values. *)
Definition scalar_values {A} (sets : list (bool * A)) : list A := map snd (filter fst sets).
(** The values used for set s (solverManager_util.hpp lines 193-206). *)
Definition scalar_for {A} (sets : list (bool * A)) (s : nat) : option A :=
  match nth_error sets s with Some (true, _) => nth_error (scalar_values sets) s | _ => None end.

(** *** The choice, solverManager_util.hpp lines 248-300: [None] stays the zero vector *)
Inductive imethod := Projection | FaceProjection | Interpolation.
Definition init_method (ty : string) : option imethod :=
  if String.eqb ty "L2-projection" then Some Projection
  else if String.eqb ty "L2-projection-HFACE" then Some FaceProjection
  else if String.eqb ty "interpolation" then Some Interpolation else None.
