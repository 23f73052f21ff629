(** Solution fields of a workset: src/tools/fields.hpp, src/tools/workset.cpp.
    Simplified: one element; exact arithmetic; values without derivatives; allocation of the
    data is immediate (zeros); getSolutionField with its default arguments. *)
From Coq Require Import Bool Arith Reals Ascii String List.
Import ListNotations.
Local Open Scope R_scope.
Local Open Scope string_scope.

(** std::string::find(p) != npos *)
Fixpoint starts (p s : string) : bool :=
  match p, s with
  | EmptyString, _ => true
  | String a p', String b s' => (Ascii.eqb a b && starts p' s')%bool
  | _, EmptyString => false
  end.
Fixpoint contains (p s : string) : bool :=
  (starts p s || match s with EmptyString => false | String _ r => contains p r end)%bool.

Record sfield := {
  expression : string; vartype : string; set_index : nat; var_index : nat;
  derivative_type : string; component : nat;
  data : nat -> R;                 (* data_(elem,pt) *)
  updated : bool                   (* is_updated_ *)
}.

(** fields.hpp, constructor, lines 43-127: each test in turn overwrites the previous ones. *)
Definition parse_component (e : string) : nat :=
  let c := 0%nat in
  let c := if contains "[x]" e then 0%nat else c in
  let c := if contains "[y]" e then 1%nat else c in
  let c := if contains "[z]" e then 2%nat else c in
  let c := if contains "[u]" e then 3%nat else c in
  let c := if contains "[v]" e then 4%nat else c in
  if contains "[w]" e then 5%nat else c.
Definition parse_derivative (e : string) : string :=
  let d := "" in
  let d := if contains "grad" e then "grad" else d in
  let d := if contains "div" e then "div" else d in
  let d := if contains "curl" e then "curl" else d in
  let d := if contains "phasegrad" e then "phasegrad" else d in
  let d := if contains "phasediv" e then "phasediv" else d in
  let d := if contains "phasecurl" e then "phasecurl" else d in
  if contains "_t" e then "time" else d.
Definition new_field (set : nat) (soltype : string) (var : nat) (e : string) : sfield := {|
  expression := e; vartype := soltype; set_index := set; var_index := var;
  derivative_type := parse_derivative e; component := parse_component e;
  data := fun _ => 0; updated := false |}.

(** workset.cpp, addSolutionField, lines 343-437: the fields of the volume and of the sides. *)
Definition volume_fields (dimension : nat) (basistype var : string) : list string :=
  if starts "HGRAD" basistype then
    [var; "grad(" ++ var ++ ")[x]"; "grad(" ++ var ++ ")[y]"; "grad(" ++ var ++ ")[z]"; var ++ "_t"]
  else if starts "HDIV" basistype then
    [var ++ "[x]"; var ++ "[y]"; var ++ "[z]"; "div(" ++ var ++ ")"; var ++ "_t[x]"; var ++ "_t[y]"; var ++ "_t[z]"]
  else if starts "HVOL" basistype then [var; var ++ "_t"]
  else if starts "HCURL" basistype then
    app [var ++ "[x]"; var ++ "[y]"; var ++ "[z]"]
     (app (if (dimension =? 2)%nat then ["curl(" ++ var ++ ")"]
           else ["curl(" ++ var ++ ")[x]"; "curl(" ++ var ++ ")[y]"; "curl(" ++ var ++ ")[z]"])
      [var ++ "_t[x]"; var ++ "_t[y]"; var ++ "_t[z]"; "div(" ++ var ++ ")"])
  else [].
Definition side_fields (dimension : nat) (basistype var : string) : list string :=
  if starts "HGRAD" basistype then
    [var; "grad(" ++ var ++ ")[x]"; "grad(" ++ var ++ ")[y]"; "grad(" ++ var ++ ")[z]"]
  else if starts "HDIV" basistype then [var ++ "[x]"; var ++ "[y]"; var ++ "[z]"; "div(" ++ var ++ ")"]
  else if starts "HVOL" basistype then [var]
  else if starts "HCURL" basistype then
    app [var ++ "[x]"; var ++ "[y]"; var ++ "[z]"]
     (if (dimension =? 2)%nat then ["curl(" ++ var ++ ")"]
      else ["curl(" ++ var ++ ")[x]"; "curl(" ++ var ++ ")[y]"; "curl(" ++ var ++ ")[z]"])
  else if starts "HFACE" basistype then [var]
  else [].

(** A variable: name, type of its basis, number of its basis. *)
Record variable := { vname : string; vbtype : string; vbasis : nat }.
(** createSolutionFields, lines 146-280: the variables of each set, then the discretized parameters. *)
Definition enum {A} (l : list A) : list (nat * A) := combine (seq 0 (List.length l)) l.
Definition create (fields : nat -> string -> string -> list string) (dimension : nat) (sets : list (list variable)) (params : list variable) : list sfield :=
  (flat_map (fun '(s, vs) => flat_map (fun '(i, v) => map (new_field s "solution" i) (fields dimension (vbtype v) (vname v))) (enum vs)) (enum sets) ++
   flat_map (fun '(i, v) => map (new_field 0 "param" i) (fields dimension (vbtype v) (vname v))) (enum params))%list.

(** What is loaded for an element or a side: coefficients (computeSolnTransientSeeded,
    computeSolnSteadySeeded, computeParamSteadySeeded) and bases. *)
Record loaded := {
  sol_vals : nat -> nat -> nat -> R;          (* set, variable, dof *)
  sol_dot_vals : nat -> nat -> nat -> R;
  pvals : nat -> nat -> R;
  nb : nat -> nat;                            (* extent(1) of a basis *)
  vdim : nat -> nat;                          (* extent(3) of basis, basis_side *)
  gdim : nat -> nat;                          (* of basis_grad, basis_grad_side *)
  cdim : nat -> nat;                          (* of basis_curl *)
  basis : nat -> nat -> nat -> nat -> R;      (* basis, dof, pt, component *)
  basis_grad : nat -> nat -> nat -> nat -> R;
  basis_curl : nat -> nat -> nat -> nat -> R;
  basis_div : nat -> nat -> nat -> R;
  basis_side : nat -> nat -> nat -> nat -> R;
  basis_grad_side : nat -> nat -> nat -> nat -> R
}.
Record fstate := {
  f_sets : list (list variable); f_params : list variable; f_transient : bool; on_side : bool;
  env : loaded; soln_fields : list sfield; side_soln_fields : list sfield
}.
Definition new_state (dimension : nat) (sets : list (list variable)) (params : list variable) (transient : bool) (e : loaded) : fstate := {|
  f_sets := sets; f_params := params; f_transient := transient; on_side := false; env := e;
  soln_fields := create volume_fields dimension sets params; side_soln_fields := create side_fields dimension sets params |}.

Definition dummy : variable := {| vname := ""; vbtype := ""; vbasis := 0 |}.
Definition basis_of (st : fstate) (f : sfield) : nat :=
  if String.eqb (vartype f) "param" then vbasis (nth (var_index f) (f_params st) dummy)
  else vbasis (nth (var_index f) (nth (set_index f) (f_sets st) []) dummy).
Definition coefs (st : fstate) (f : sfield) : nat -> R :=
  if String.eqb (vartype f) "param" then pvals (env st) (var_index f)
  else if String.eqb (derivative_type f) "time" then sol_dot_vals (env st) (set_index f) (var_index f)
  else sol_vals (env st) (set_index f) (var_index f).
(** the loops over dofs, lines 1058-1066, 1099-1107: the first dof sets, the others add *)
Definition dofsum (n : nat) (g : nat -> R) : R := fold_left (fun a i => a + g i) (seq 1 (n - 1)) (g 0%nat).
Definition set_data (f : sfield) (d : nat -> R) (u : bool) : sfield := {|
  expression := expression f; vartype := vartype f; set_index := set_index f; var_index := var_index f;
  derivative_type := derivative_type f; component := component f; data := d; updated := u |}.

(** evaluateSolutionField, lines 978-1112 (not on a point) *)
Definition eval_volume (st : fstate) (f : sfield) : sfield :=
  let e := env st in
  let proceed := (negb (String.eqb (derivative_type f) "time" && (negb (f_transient st) || on_side st || String.eqb (vartype f) "param"))
                  && negb (String.eqb (vartype f) "aux"))%bool in
  if proceed then
    let b := basis_of st f in let c := coefs st f in
    if String.eqb (derivative_type f) "div" then
      set_data f (fun pt => dofsum (nb e b) (fun i => c i * basis_div e b i pt)) true
    else
      let '(B, n) := if String.eqb (derivative_type f) "grad" then (basis_grad e b, gdim e b)
                     else if String.eqb (derivative_type f) "curl" then (basis_curl e b, cdim e b)
                     else (basis e b, vdim e b) in
      if (n <=? component f)%nat then set_data f (fun _ => 0) true
      else set_data f (fun pt => dofsum (nb e b) (fun i => c i * B i pt (component f))) true
  else f.
(** evaluateSideSolutionField, lines 1117-1230: curl has no case of its own. *)
Definition eval_side (st : fstate) (f : sfield) : sfield :=
  let e := env st in
  let proceed := (negb (String.eqb (derivative_type f) "time" && (negb (f_transient st) || on_side st || String.eqb (vartype f) "param"))
                  && negb (String.eqb (vartype f) "aux"))%bool in
  if proceed then
    let b := basis_of st f in let c := coefs st f in
    if String.eqb (derivative_type f) "div" then
      set_data f (fun pt => dofsum (nb e b) (fun i => c i * basis_div e b i pt)) true
    else
      let '(B, n) := if String.eqb (derivative_type f) "grad" then (basis_grad_side e b, gdim e b)
                     else (basis_side e b, vdim e b) in
      if (n <=? component f)%nat then set_data f (fun _ => 0) true
      else set_data f (fun pt => dofsum (nb e b) (fun i => c i * B i pt (component f))) true
  else f.

(** getSolutionField, lines 1537-1617: the first field with this name, evaluated unless it is
    marked as updated; None where no field has the name (the code then reads past the end). *)
Fixpoint get_in (ev : sfield -> sfield) (label : string) (l : list sfield) : option ((nat -> R) * list sfield) :=
  match l with
  | [] => None
  | f :: r => if String.eqb label (expression f)
              then let f' := if updated f then f else ev f in Some (data f', f' :: r)
              else match get_in ev label r with Some (d, r') => Some (d, f :: r') | None => None end
  end.
Definition with_fields (st : fstate) (v s : list sfield) : fstate := {|
  f_sets := f_sets st; f_params := f_params st; f_transient := f_transient st; on_side := on_side st; env := env st;
  soln_fields := v; side_soln_fields := s |}.
Definition get (st : fstate) (label : string) : option ((nat -> R) * fstate) :=
  if on_side st then
    match get_in (eval_side st) label (side_soln_fields st) with
    | Some (d, s) => Some (d, with_fields st (soln_fields st) s) | None => None end
  else
    match get_in (eval_volume st) label (soln_fields st) with
    | Some (d, v) => Some (d, with_fields st v (side_soln_fields st)) | None => None end.
(** updateWorkset, updateWorksetBoundary (managers/assembly/assemblyManager_workset.hpp, lines
    965-1045 and 680-745): reset, then load; updateWorksetOnSide, line 436. *)
Definition load (st : fstate) (e : loaded) : fstate :=
  let reset := map (fun f => set_data f (data f) false) in {|
  f_sets := f_sets st; f_params := f_params st; f_transient := f_transient st; on_side := on_side st; env := e;
  soln_fields := reset (soln_fields st); side_soln_fields := reset (side_soln_fields st) |}.
Definition set_side (st : fstate) (b : bool) : fstate := {|
  f_sets := f_sets st; f_params := f_params st; f_transient := f_transient st; on_side := b; env := env st;
  soln_fields := soln_fields st; side_soln_fields := side_soln_fields st |}.

(** A history of the workset. *)
Inductive fop := Load (e : loaded) | OnSide (b : bool) | Get (label : string).
Definition fstep (st : fstate) (o : fop) : fstate :=
  match o with
  | Load e => load st e
  | OnSide b => set_side st b
  | Get l => match get st l with Some (_, st') => st' | None => st end
  end.
