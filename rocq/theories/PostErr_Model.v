(** Errors against a true solution and integrated quantities: src/managers/postprocess/
    postprocessManager_error_estimation.hpp (addTrueSolutions, lines 14-166; computeError, lines
    172-500), postprocessManager_util.hpp (report, lines 751-797) and
    postprocessManager_integrated_quantities.hpp (computeIntegratedQuantities, lines 78-283).
    Simplified: one block; exact arithmetic; the workset's fields and the evaluated functions are
    given as functions of element and point; no subgrid models. *)
From Coq Require Import Bool Arith Reals Ascii String List.
Import ListNotations.
From Verif Require Import BProj_Model Fields_Model.
Local Open Scope R_scope.
Local Open Scope string_scope.

Inductive norm := NL2 | NGrad | NFace | NVector | NDiv | NCurl.

(** the components of a vector in the dimension *)
Definition axes (dimension : nat) : list string :=
  app ["[x]"] (app (if (1 <? dimension)%nat then ["[y]"] else []) (if (2 <? dimension)%nat then ["[z]"] else [])).
(** the fields (and true functions) that are compared *)
Definition compared (dimension : nat) (n : norm) (v : string) : list string :=
  match n with
  | NL2 | NFace => [v]
  | NGrad => map (fun a => "grad(" ++ v ++ ")" ++ a) (axes dimension)
  | NVector => map (fun a => v ++ a) (axes dimension)
  | NDiv => ["div(" ++ v ++ ")"]
  | NCurl => map (fun a => "curl(" ++ v ++ ")" ++ a) (axes dimension)
  end.

(** addTrueSolutions: [sols] the names in the "True solutions" list; [None]: an exception *)
Definition given (sols : list string) (x : string) : bool := existsb (String.eqb x) sols.
Definition some_axis (sols : list string) (f : string -> string) : bool := existsb (fun a => given sols (f a)) ["[x]"; "[y]"; "[z]"].
Definition all_axes (dimension : nat) (sols : list string) (f : string -> string) : bool := forallb (fun a => given sols (f a)) (axes dimension).
Definition add (a b : option (list (string * norm))) : option (list (string * norm)) :=
  match a, b with Some x, Some y => Some (app x y) | _, _ => None end.
Definition requests_of (dimension : nat) (sols : list string) (v btype : string) : option (list (string * norm)) :=
  let on (b : bool) (x : option (list (string * norm))) := if b then x else Some [] in
  let vec (f : string -> string) (ok : bool) (n : norm) :=
    on (some_axis sols f) (if all_axes dimension sols f then if ok then Some [(v, n)] else None else None) in
  add (on (given sols v) (if (starts "HGRAD" btype || starts "HVOL" btype)%bool then Some [(v, NL2)] else Some []))
  (add (vec (fun a => "grad(" ++ v ++ ")" ++ a) (starts "HGRAD" btype) NGrad)
  (add (on (given sols (v ++ " face")) (if (starts "HGRAD" btype || starts "HFACE" btype)%bool then Some [(v, NFace)] else None))
  (add (vec (fun a => v ++ a) (starts "HDIV" btype || starts "HCURL" btype)%bool NVector)
  (add (on (given sols ("div(" ++ v ++ ")")) (if starts "HDIV" btype then Some [(v, NDiv)] else None))
       (vec (fun a => "curl(" ++ v ++ ")" ++ a) (starts "HCURL" btype) NCurl))))).
Definition requests (dimension : nat) (sols : list string) (vars : list variable) : option (list (string * norm)) :=
  fold_right (fun v r => add (requests_of dimension sols (vname v) (vbtype v)) r) (Some []) vars.

(** An element: its quadrature, in the volume and on its faces. *)
Record eelem := { ept : nat; ewt : nat -> R; efaces : nat; fpt : nat -> nat; fwt : nat -> nat -> R }.
Record egroup := { active : bool; eelems : list eelem }.
(** Solution fields and true functions, in the volume and on a face. *)
Record fielddata := {
  sol : string -> eelem -> nat -> R; tru : string -> eelem -> nat -> R;
  fsol : string -> eelem -> nat -> nat -> R; ftru : string -> eelem -> nat -> nat -> R
}.
(** computeError, one group *)
Definition group_error (dimension : nat) (fd : fielddata) (v : string) (n : norm) (g : egroup) : R :=
  match n with
  | NFace =>
      sm (eelems g) (fun e => sm (seq 0 (efaces e)) (fun f =>
        let facemeasure := sm (seq 0 (fpt e f)) (fun pt => fwt e f pt) in
        sm (seq 0 (fpt e f)) (fun pt =>
          let diff := fsol fd v e f pt - ftru fd v e f pt in 1 / 2 / facemeasure * diff * diff * fwt e f pt)))
  | _ =>
      if active g then
        sm (compared dimension n v) (fun name => sm (eelems g) (fun e => sm (seq 0 (ept e)) (fun pt =>
          let diff := sol fd name e pt - tru fd name e pt in diff * diff * ewt e pt)))
      else 0
  end.
(** report, lines 766-797 *)
Definition reported_error (dimension : nat) (fd : fielddata) (v : string) (n : norm) (ranks : list (list egroup)) : R :=
  sqrt (sm ranks (fun gs => sm gs (group_error dimension fd v n))).

(** computeIntegratedQuantities *)
Record bgroup := { sidename : string; belems : list eelem }.
Definition integrate (es : list eelem) (f : eelem -> nat -> R) : R :=
  sm es (fun e => sm (seq 0 (ept e)) (fun pt => ewt e pt * f e pt)).
Definition volume_quantity (ranks : list (list egroup)) (f : eelem -> nat -> R) : R :=
  sm ranks (fun gs => sm gs (fun g => integrate (eelems g) f)).
Definition boundary_quantity (boundarynames : string) (ranks : list (list bgroup)) (f : eelem -> nat -> R) : R :=
  sm ranks (fun gs => sm gs (fun g =>
    if (contains (sidename g) boundarynames || String.eqb boundarynames "all")%bool then integrate (belems g) f else 0)).
