(** Model of the visualization output: what is written to the mesh file and under which names.

    Source:
      /repo/src/managers/postprocess/postprocessManager_exodus.hpp
        14-672 writeSolution, 677-724 getExtraCellFields, 730-1000 writeOptimizationSolution
      /repo/src/managers/postprocess/postprocessManager_derived_quantities.hpp 13-66
      /repo/src/managers/assembly/assemblyManager_gather.hpp 183-234 performGather
      /repo/src/managers/assembly/assemblyManager_util.hpp
        148-199 computeSolutionAverage, 205-257 computeParameterAverage, 264-287 getSolutionAtNodes
      /repo/src/managers/assembly/assemblyManager_workset.hpp 965-1049 updateWorkset
      /repo/src/interfaces/mesh/meshInterface_construct.hpp 371-515 finalize
      /repo/src/managers/parameter/parameterManager_setup.hpp 244-261

    Simplifications: one block, one process (two vectors of parameters, owned and overlapped, in the
    last part); groups do not keep their own solutions (have_sols is false); the number of unknowns
    of a variable is not bounded in the gather. *)
From Coq Require Import Bool String Reals List Arith.
Import ListNotations.
Local Open Scope R_scope.

(* ---------------------------------------------------------------- gather and scatter *)

(** A group: local element numbers, rows of the unknowns of a set (set, element, entry), rows of
    the parameters, weights of the points. *)
Record vgroup := { vg_elem : list nat; vg_lid : nat -> nat -> nat -> nat; vg_plid : nat -> nat -> nat; vg_wts : nat -> list R }.
Definition vbuf := nat -> nat -> R.
(** groupData: one buffer per set and one for the parameters, shared by the groups of a block. *)
Record vdata := { vd_sol : nat -> vbuf; vd_par : vbuf }.
(** performGather of type 0 and 4. *)
Definition v_gather_sol (vec : nat -> R) (set : nat) (g : vgroup) (d : vdata) : vdata :=
  {| vd_sol := fun s e k => if Nat.eqb s set && Nat.ltb e (length (vg_elem g)) then vec (vg_lid g set e k) else vd_sol d s e k;
     vd_par := vd_par d |}.
Definition v_gather_par (vec : nat -> R) (g : vgroup) (d : vdata) : vdata :=
  {| vd_sol := vd_sol d;
     vd_par := fun e k => if Nat.ltb e (length (vg_elem g)) then vec (vg_plid g e k) else vd_par d e k |}.
(** soln_dev(eID(elem),i) = row(elem,i). *)
Fixpoint v_put (row : vbuf) (pos : nat) (elems : list nat) (out : vbuf) : vbuf :=
  match elems with
  | nil => out
  | x :: r => v_put row (S pos) r (fun y k => if Nat.eqb y x then row pos k else out y k)
  end.
(** The loop over the groups: gather, compute, put. *)
Fixpoint v_loop (step : vgroup -> vdata -> vdata) (val : vgroup -> vdata -> vbuf) (gs : list vgroup) (d : vdata) (out : vbuf) : vdata * vbuf :=
  match gs with
  | nil => (d, out)
  | g :: r => let d1 := step g d in v_loop step val r d1 (v_put (val g d1) 0 (vg_elem g) out)
  end.
Definition v_zero : vbuf := fun _ _ => 0.
(** HGRAD without the basis at the nodes, HVOL: 135-190; HGRAD and HVOL parameters: 310-365. *)
Definition v_write_sol (vec : nat -> R) (set : nat) (gs : list vgroup) (d : vdata) : vdata * vbuf :=
  v_loop (v_gather_sol vec set) (fun _ d => vd_sol d set) gs d v_zero.
Definition v_write_par (vec : nat -> R) (gs : list vgroup) (d : vdata) : vdata * vbuf :=
  v_loop (v_gather_par vec) (fun _ d => vd_par d) gs d v_zero.
Definition v_sum (l : list R) : R := fold_right Rplus 0 l.
(** HGRAD with the basis at the nodes (107-134, getSolutionAtNodes): bn g elem dof node. *)
Definition v_write_nodes (bn : vgroup -> nat -> nat -> nat -> R) (ndof : nat) (vec : nat -> R) (set : nat) (gs : list vgroup) (d : vdata) : vdata * vbuf :=
  v_loop (v_gather_sol vec set)
    (fun g d e pt => v_sum (map (fun dof => vd_sol d set e dof * bn g e dof pt) (seq 0 ndof))) gs d v_zero.

(* ---------------------------------------------------------------- averages *)

(** computeSolutionAverage, one element and one component: b dof pt. *)
Definition v_average (ndof : nat) (u : nat -> R) (b : nat -> nat -> R) (wts : list R) : R :=
  v_sum (map (fun dof => v_sum (map (fun pt => u dof * b dof pt * nth pt wts 0) (seq 0 (length wts)))) (seq 0 ndof)) / v_sum wts.
(** Face average (HFACE), 239-288: value and weight at every point of every face. *)
Definition v_face_average (pts : list (R * R)) : R :=
  fold_left (fun a p => a + fst p * snd p) pts 0 * (1 / fold_left (fun a p => a + snd p) pts 0).
(** getExtraCellFields and getDerivedQuantities: "extra grp field reduction". *)
Inductive vred := VMean | VMax | VMin | VOther.
Definition v_reduce (how : vred) (vals : list (R * R)) : R :=
  match how with
  | VMean => let meas := fold_left (fun a p => a + snd p) vals 0 in fold_left (fun a p => a + fst p * snd p / meas) vals 0
  | VMax => fold_left (fun a p => if Rlt_dec a (fst p) then fst p else a) vals 0
  | VMin => fold_left (fun a p => if Rlt_dec (fst p) a then fst p else a) vals 0
  | VOther => 0
  end.

(** A cell field: a function of the values of all the sets and of the parameters on the element, at
    every point (updateWorkset, evaluate). *)
Definition vfun := (nat -> nat -> R) -> (nat -> R) -> nat -> R.
Definition v_cell_value (how : vred) (f : vfun) (sol : nat -> nat -> R) (par : nat -> R) (wts : list R) : R :=
  v_reduce how (combine (map (f sol par) (seq 0 (length wts))) wts).
(** "Extra cell fields", 429-471: set 0 and the parameters are gathered. *)
Definition v_extra (how : vred) (f : vfun) (svec pvec : nat -> R) (gs : list vgroup) (d : vdata) : vdata * vbuf :=
  v_loop (fun g d => v_gather_par pvec g (v_gather_sol svec 0 g d))
    (fun g d e _ => v_cell_value how f (fun s => vd_sol d s e) (vd_par d e) (vg_wts g e)) gs d v_zero.
(** Derived quantities, 478-516: set 0 only is gathered. *)
Definition v_derived (how : vred) (f : vfun) (svec : nat -> R) (gs : list vgroup) (d : vdata) : vdata * vbuf :=
  v_loop (fun g d => v_gather_sol svec 0 g d)
    (fun g d e _ => v_cell_value how f (fun s => vd_sol d s e) (vd_par d e) (vg_wts g e)) gs d v_zero.
(** "Extra fields" are filled with zeros, 417-427. *)
Definition v_extra_nodal (f : nat -> nat -> R) : vbuf := v_zero.

(* ---------------------------------------------------------------- names *)

Inductive vkind := Nodal | Cell.
Local Open Scope string_scope.
Local Infix "^^" := String.append (at level 60, right associativity).
Definition v_comps (dim : nat) (name : string) : list (vkind * string) :=
  ((Cell, name ^^ "x") :: (if Nat.ltb 1 dim then (Cell, name ^^ "y") :: nil else nil) ++ (if Nat.ltb 2 dim then (Cell, name ^^ "z") :: nil else nil))%list.
(** What the user set: variables with types per set, parameters with the number of their basis, the
    types of the bases, extra fields, derived quantities per set and module, flags. *)
Record vset := {
  vs_vars : list (list (string * string)); vs_params : list (string * nat); vs_types : list string;
  vs_extra : list string; vs_cell : list string; vs_derived : list (list (list string));
  vs_dim : nat; vs_hface : bool; vs_groupnum : bool; vs_database : bool; vs_subgrid : bool;
  vs_meshdata : bool }.
Definition v_ptype (s : vset) (bnum : nat) : string := nth bnum (vs_types s) "".
(** finalize, 399-512, one append string and one block: declared fields. *)
Definition v_declared1 (s : vset) (app : string) : list (vkind * string) :=
  flat_map (fun vd : list (string * string) * list (list string) =>
    flat_map (fun v => let '(n, t) := v in
      if String.eqb t "HGRAD" then [(Nodal, n ^^ app)]
      else if String.eqb t "HVOL" then [(Cell, n ^^ app)]
      else if String.eqb t "HFACE" then [(Cell, n ^^ app)]
      else if String.eqb t "HDIV" || String.eqb t "HCURL" then v_comps (vs_dim s) (n ^^ app) else []) (fst vd)
    ++ map (fun n => (Nodal, n ^^ app)) (vs_extra s)
    ++ flat_map (fun n => (Cell, n ^^ app) :: (if vs_subgrid s then [(Cell, "subgrid_mean_" ^^ n ^^ app)] else [])) (vs_cell s)
    ++ flat_map (fun l => map (fun n => (Cell, n ^^ app)) l) (snd vd)
    ++ (if vs_meshdata s then [(Cell, "mesh_data_seed"); (Cell, "mesh_data")] else [])
    ++ (if vs_subgrid s then [(Cell, "subgrid model")] else [])
    ++ (if vs_groupnum s then [(Cell, "group number")] else [])
    ++ (if vs_database s then [(Cell, "unique Jacobian ID")] else [])
    ++ flat_map (fun p : string * nat => let t := v_ptype s (snd p) in
         if String.eqb t "HGRAD" then [(Nodal, fst p ^^ app)]
         else if String.eqb t "HVOL" then [(Cell, fst p ^^ app)]
         else if String.eqb t "HDIV" || String.eqb t "HCURL" then v_comps (vs_dim s) (fst p ^^ app) else []) (vs_params s))%list
    (combine (vs_vars s) (vs_derived s)).
(** 380-396: the append strings: one per sample in a UQ analysis, else the empty one. *)
Definition v_declared (s : vset) (apps : list string) : list (vkind * string) := flat_map (v_declared1 s) apps.
(** The branch taken for parameter number n, 308-413: the test for HCURL reads entry n. *)
Definition v_param_fields (s : vset) (app : string) (n : nat) (p : string * nat) : list (vkind * string) :=
  let t := v_ptype s (snd p) in
  if String.eqb t "HGRAD" then [(Nodal, fst p ^^ app)]
  else if String.eqb t "HVOL" then [(Cell, fst p ^^ app)]
  else if String.eqb t "HDIV" || String.eqb (v_ptype s n) "HCURL" then v_comps (vs_dim s) (fst p ^^ app) else [].
Fixpoint v_number {A B} (f : nat -> A -> list B) (n : nat) (l : list A) : list B :=
  match l with nil => nil | a :: r => (f n a ++ v_number f (S n) r)%list end.
(** writeSolution: written fields. *)
Definition v_written (s : vset) (app : string) : list (vkind * string) :=
  (flat_map (fun vars => flat_map (fun v => let '(n, t) := v in
      if String.eqb t "HGRAD" then [(Nodal, n ^^ app)]
      else if String.eqb t "HVOL" then [(Cell, n ^^ app)]
      else if String.eqb t "HDIV" || String.eqb t "HCURL" then v_comps (vs_dim s) (n ^^ app)
      else if String.eqb t "HFACE" && vs_hface s then [(Cell, n ^^ app)] else []) vars) (vs_vars s)
   ++ v_number (v_param_fields s app) 0 (vs_params s)
   ++ map (fun n => (Nodal, n)) (vs_extra s)
   ++ map (fun n => (Cell, n ^^ app)) (vs_cell s)
   ++ flat_map (fun m => flat_map (fun l => map (fun n => (Cell, n ^^ app)) l) m) (vs_derived s)
   ++ (if vs_meshdata s then [(Cell, "mesh_data_seed"); (Cell, "mesh_data")] else [])
   ++ (if vs_groupnum s then [(Cell, "group number")] else [])
   ++ (if vs_database s then [(Cell, "unique Jacobian ID")] else [])
   ++ (if vs_subgrid s then [(Cell, "subgrid model")] else []))%list.

(* ---------------------------------------------------------------- optimization movie *)

(** writeOptimizationSolution gathers from the owned vector of parameters (getDiscretizedParams)
    with the rows of the overlapped one; a row past its end is out of bounds. *)
Definition v_movie (owned : list R) (plid : nat -> nat) (card : nat) : list (option R) :=
  map (fun k => nth_error owned (plid k)) (seq 0 card).
(** writeSolution gathers from the overlapped vector. *)
Definition v_final (over : list R) (plid : nat -> nat) (card : nat) : list (option R) :=
  map (fun k => nth_error over (plid k)) (seq 0 card).
