(** Sensors: src/managers/postprocess/postprocessManager_sensors.hpp, the output of sensors in
    postprocessManager_util.hpp (reportResponses) and the data files of src/tools/data.cpp.
    Simplified: one block, exact numbers; processes are list entries and a reduction combines
    the entries of all of them; the loops over groups and points are exchanged (what happens to
    one point does not depend on the others). *)
From Coq Require Import Bool Arith Reals String Ascii List.
From Verif Require Import Mass_Model BProj_Model.
Import ListNotations.
Local Open Scope R_scope.

(** *** Locating points *)
Definition point := nat -> R.
Definition rltb (a b : R) : bool := if Rlt_dec a b then true else false.
Section Locate.
Variable dim : nat.
Variable E : Type.                       (* elements *)
Variable nodes : E -> list point.
Variable inside : E -> point -> bool.    (* checkInclusionPhysicalData *)

(** locateSensorPoints, lines 984-1001: bounding box *)
Definition box_min (e : E) (d : nat) : R := fold_left (fun m n => Rmin m (n d)) (nodes e) (10 ^ 300).
Definition box_max (e : E) (d : nat) : R := fold_left (fun m n => Rmax m (n d)) (nodes e) (- 10 ^ 300).
(** lines 1009-1031 *)
Definition in_box_dir (e : E) (x : point) (d : nat) : bool :=
  let buff := 1 / 10 * (box_max e d - box_min e d) in
  negb (rltb (x d) (box_min e d - buff) || rltb (box_max e d + buff) (x d)).
Definition in_box (e : E) (x : point) : bool := forallb (in_box_dir e x) (seq 0 dim).
(** lines 1003-1066, for one point: a group is searched when no earlier group had the point,
    and searched to its end *)
Definition scan_group (g : nat) (es : list E) (x : point) : option (nat * nat) :=
  fold_left (fun acc '(p, e) => if in_box e x && inside e x then Some (g, p) else acc)
            (combine (seq 0 (length es)) es) None.
Definition locate (groups : list (list E)) (x : point) : option (nat * nat) :=
  fold_left (fun acc '(g, es) => match acc with Some _ => acc | None => scan_group g es x end)
            (combine (seq 0 (length groups)) groups) None.
(** The same with the reads of the box checked: lines 1009-1011 read directions 0, 1 and 2 of
    a box with [dim] of them. *)
Definition locate_checked (groups : list (list E)) (x : point) : option (option (nat * nat)) :=
  if forallb (fun d => d <? dim)%nat [0; 1; 2]%nat || forallb (fun es => (length es =? 0)%nat) groups
  then Some (locate groups x) else None.

(** *** Processes; lines 1074-1090.  [check] is checkprocs; [xs r]: the point of process r at the
    place of its list that is being looked at (the same on all processes, unless the lists are) *)
Definition found_on (procs : list (list (list E))) (r : nat) (x : point) : bool :=
  match locate (nth r procs []) x with Some _ => true | None => false end.
Definition flag (procs : list (list (list E))) (r : nat) (x : point) : nat :=
  if found_on procs r x then r else (length procs + 1)%nat.
Definition lowest (procs : list (list (list E))) (xs : nat -> point) : nat :=
  fold_right (fun r m => Nat.min (flag procs r (xs r)) m) (length procs + 1)%nat (seq 0 (length procs)).
Definition keeps (check : bool) (procs : list (list (list E))) (r : nat) (xs : nat -> point) : bool :=
  if check && negb (r =? lowest procs xs)%nat then false else found_on procs r (xs r).

(** *** What a process stores: importSensorsFromFiles, lines 395-470, importSensorsOnGrid and
    importSensorsOnQuadrature likewise.  [n] points; [f] what is stored for a point. *)
Definition stored {A} (found : nat -> bool) (n : nat) (f : nat -> A) : list A :=
  flat_map (fun pt => if found pt then [f pt] else []) (seq 0 n).
(** reportResponses, postprocessManager_util.hpp lines 455-462 *)
Definition sindex (found : nat -> bool) (ss : nat) : nat := length (filter found (seq 0 ss)).

(** *** computeSensorSolution, lines 1173-1207, one sensor: gather (assemblyManager_gather.hpp
    lines 181-230) of the element's coefficients and sum over the dofs.  [lid e var dof]: the
    entry of the solution vector; [basis e var dof x d]; [ncomp var] components: 1 or [dim]. *)
Variable nsol : nat.
Variable ndof : nat -> nat.
Variable ncomp : nat -> nat.
Variable lid : E -> nat -> nat -> nat.
Variable basis : E -> nat -> nat -> point -> nat -> R.
Definition sensor_value (sol : nat -> R) (e : E) (x : point) (var d : nat) : R :=
  if (d <? ncomp var)%nat then sm (seq 0 (ndof var)) (fun dof => sol (lid e var dof) * basis e var dof x d) else 0.

(** *** The process's share of the table (postprocessManager_util.hpp lines 395-408, 452-486).  [sols]: the solution vectors
    at the times; the element of a stored sensor is that of its stored owner. *)
Definition owner_elem (groups : list (list E)) (o : nat * nat) : option E := nth_error (nth (fst o) groups []) (snd o).
Record proc := { p_n : nat; p_found : nat -> bool; p_pts : list point; p_val : list (nat -> nat -> R) (* sensor: time, field *) }.
Definition build (check : bool) (procs : list (list (list E))) (sols : list (nat -> R)) (n : nat -> nat) (pts : nat -> nat -> point) (r : nat) : proc :=
  let found pt := keeps check procs r (fun r' => pts r' pt) in
  {| p_n := n r; p_found := found;
     p_pts := stored found (n r) (pts r);
     p_val := stored found (n r) (fun pt t field =>
       match locate (nth r procs []) (pts r pt) with
       | Some o => match owner_elem (nth r procs []) o with
                   | Some e => sensor_value (nth t sols (fun _ => 0)) e (pts r pt) (field / dim) (field mod dim)
                   | None => 0 end
       | None => 0 end) |}.
Definition row_coords (p : proc) (ss : nat) (d : nat) : R :=
  if p_found p ss then nth (sindex (p_found p) ss) (p_pts p) (fun _ => 0) d else 0.
Definition row_value (p : proc) (ss : nat) (field t : nat) : R :=
  if p_found p ss then nth (sindex (p_found p) ss) (p_val p) (fun _ _ => 0) t field else 0.
(** one line per point of sensor_found: coordinates, then the values; each entry summed over
    the processes.  [None]: the processes do not take part in the same reductions. *)
Definition table_row (ps : list proc) (T field ss : nat) : list R :=
  (map (fun d => sm ps (fun p => row_coords p ss d)) (seq 0 dim) ++ map (fun t => sm ps (fun p => row_value p ss field t)) (seq 0 T))%list.
Definition table (ps : list proc) (T field : nat) : option (list (list R)) :=
  match ps with
  | [] => None
  | p0 :: _ => if forallb (fun p => (p_n p =? p_n p0)%nat) ps then Some (map (table_row ps T field) (seq 0 (p_n p0))) else None
  end.
(** importSensorsFromExodus (lines 51-277) stores points, data and owners, but does not set the
    list of flags: it stays empty. *)
Definition exodus_proc (p : proc) : proc := {| p_n := 0; p_found := fun _ => false; p_pts := p_pts p; p_val := p_val p |}.
(** HDF5 output, postprocessManager_util.hpp lines 541-557: the row of sensor [s] of process [p] goes to line [sensorIDs s]
    of the file and is read at row [sensorIDs s] of the process's data. *)
Definition sensor_ids (p : proc) : list nat := stored (p_found p) (p_n p) (fun pt => pt).
Definition hdf5_line (p : proc) (s field t : nat) : option (nat * R) :=
  match nth_error (sensor_ids p) s with
  | None => None
  | Some id => match nth_error (p_val p) id with Some v => Some (id, v t field) | None => None end
  end.
End Locate.

(** *** importSensorsOnGrid, lines 492-560 *)
Fixpoint grid1 (x dx : R) (n : nat) : list R := match n with O => [] | Datatypes.S k => x :: grid1 (x + dx) dx k end.
Definition spacing (lo hi : R) (n : nat) : R := if (1 <? n)%nat then (hi - lo) / (INR n - 1) else 0.
Definition grid_points (dim : nat) (lo hi : nat -> R) (N : nat -> nat) : option (list (list R)) :=
  if (dim =? 3)%nat then
    let g d := grid1 (lo d) (spacing (lo d) (hi d) (N d)) (N d) in
    Some (flat_map (fun x => flat_map (fun y => map (fun z => [x; y; z]) (g 2%nat)) (g 1%nat)) (g 0%nat))
  else None.

(** *** Data files, data.cpp.  A file is the list of its lines, a line the list of numbers on it. *)
(** importPoints, lines 168-219: sscanf leaves the variables of the numbers a line does not
    have as they were; before the first line they are not set. *)
Definition read_line (prev : list (option R)) (dim : nat) (line : list R) : list (option R) :=
  map (fun d => match nth_error line d with Some v => Some v | None => nth d prev None end) (seq 0 dim).
Fixpoint import_points (prev : list (option R)) (dim : nat) (file : list (list R)) : list (list (option R)) :=
  match file with [] => [] | l :: rest => let cur := read_line prev dim l in cur :: import_points cur dim rest end.
(** importDataOneFile, lines 291-327 *)
Definition maxstates (values : list (list R)) : nat := fold_left (fun m l => Nat.max m (length l)) values 0%nat.
Definition import_data (values : list (list R)) : list (nat -> R) := map (fun l j => nth j l 0) values.
(** importSensorsFromFiles, lines 335-380: number of times, times, data.  A missing points file
    gives points with no coordinates. *)
Definition import_sensors (dim : nat) (points : option (list (list R))) (values : list (list R)) : option (nat * (nat -> R) * (nat -> nat -> R)) :=
  match points with
  | None => None
  | Some file => if (length file + 1 =? length values)%nat
                 then Some (maxstates values, nth 0 (import_data values) (fun _ => 0), fun s => nth (s + 1) (import_data values) (fun _ => 0))
                 else None
  end.

(** *** File names with the rank, importSensorsFromFiles lines 298-316; [resize] of a string pads with NUL *)
Fixpoint str_take (n : nat) (s : string) : string :=
  match n with O => EmptyString | Datatypes.S k =>
    match s with EmptyString => String zero (str_take k EmptyString) | String c r => String c (str_take k r) end end.
Definition ends_dat (s : string) : bool := String.eqb (substring (String.length s - 4) 4 s) ".dat".
Definition points_name (rank s : string) : string :=
  let s' := if ends_dat s then str_take (String.length s - 4) s else s in (s' ++ "." ++ rank ++ ".dat")%string.
Definition data_name (rank pts s : string) : string :=
  let s' := if ends_dat s then str_take (String.length (points_name rank pts) - 4) s else s in (s' ++ "." ++ rank ++ ".dat")%string.

(** *** Discrete Fourier transform, computeSensorSolution lines 1208-1232: called at every time with the value s;
    [k * j / N] is a division of integers *)
Definition dft_step (N : nat) (s : R) (acc : nat -> R * R) (k : nat) : R * R :=
  fold_left (fun a j => let freq := INR (k * j / N) * (-2 * PI) in (fst a + s * cos freq, snd a + s * sin freq)) (seq 0 N) (acc k).
Definition dft (N : nat) (series : list R) : nat -> R * R := fold_left (fun acc s => dft_step N s acc) series (fun _ => (0, 0)).
(** Output "dft", postprocessManager_util.hpp lines 125-143: the sizes are read from the first
    entry of the list of solutions, to which nothing was added (line 1235 of postprocessManager_sensors.hpp is the other case). *)
Definition solution_list (output : string) (series : list R) : list R :=
  if String.eqb output "dft" || String.eqb output "integrated dft" then [] else series.
Definition dft_output (N : nat) (series : list R) : option (nat -> R) :=
  match nth_error (solution_list "dft" series) 0 with None => None | Some _ => Some (fun k => fst (dft N series k)) end.

(** *** Near field to far field, postprocessManager_util.hpp lines 199-257: for a list of groups of boundary quadrature
    points; [phase nt q] the factor at a point, [src k t] the transform at sensor k.  The number
    of the sensor advances once for every direction and not for every point. *)
Section FarField.
Variable Q : Type.
Variable kernel : nat -> Q -> R -> R.   (* direction, point, source value: one addition (real parts) *)
Definition far_field (groups : list (list Q)) (ndir : nat) (src : nat -> R) (dir : nat) : R :=
  sm (seq 0 (length groups)) (fun g => sm (nth g groups []) (fun q => kernel dir q (src (g * ndir + dir)%nat))).
End FarField.
(** The sums over the processes: only the first of the four potentials is reduced; all four are
    then replaced by the reduced arrays (lines 259-300). *)
Definition far_reduce (procs : list (R * R * R * R)) : R * R * R * R := (sm procs (fun '(a, _, _, _) => a), 0, 0, 0).

(** *** Bases and their gradients at the sensors: computeSensorBasis, lines 856-946.  A list of
    views is made with one entry for every basis of certain types; what is computed for basis k,
    when of such a type, goes to entry k.  [types]: type and number of functions.
    [None]: outside the list, or a copy between views of different sizes. *)
Definition store_by (made : string -> bool) (types : list (string * nat)) : option (list (nat * nat)) :=   (* (basis, functions of the view) *)
  let views := map snd (filter (fun t => made (fst t)) types) in
  fold_left (fun acc k => match acc with None => None | Some l =>
    let '(ty, card) := nth k types (EmptyString, 0%nat) in
    if made ty then
      match nth_error views k with
      | Some c => if (c =? card)%nat then Some (l ++ [(k, c)])%list else None
      | None => None end
    else acc end) (seq 0 (length types)) (Some []).
Definition has_values (ty : string) : bool := String.eqb ty "HGRAD" || String.eqb ty "HVOL" || String.eqb ty "HDIV" || String.eqb ty "HCURL".
Definition has_grads (ty : string) : bool := String.eqb ty "HGRAD".
Definition store_values := store_by has_values.
Definition store_grads := store_by has_grads.
