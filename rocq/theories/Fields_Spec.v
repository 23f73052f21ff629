(** Specification of the solution fields: the names a module or an expression may request, and
    the expansions they stand for. *)
From Coq Require Import Bool Arith Reals Ascii String List.
Import ListNotations.
From Verif Require Import Fields_Model.
Local Open Scope R_scope.
Local Open Scope string_scope.

Inductive kind := Val | Dt | Grad (d : nat) | Comp (d : nat) | CompDt (d : nat) | Div | Curl2 | Curl (d : nat).
Definition ax (d : nat) : string := match d with O => "[x]" | S O => "[y]" | _ => "[z]" end.
Definition name (k : kind) (v : string) : string :=
  match k with
  | Val => v
  | Dt => v ++ "_t"
  | Grad d => "grad(" ++ v ++ ")" ++ ax d
  | Comp d => v ++ ax d
  | CompDt d => v ++ "_t" ++ ax d
  | Div => "div(" ++ v ++ ")"
  | Curl2 => "curl(" ++ v ++ ")"
  | Curl d => "curl(" ++ v ++ ")" ++ ax d
  end.

(** the space of a variable *)
Inductive space := HGRAD | HVOL | HDIV | HCURL | HFACE.
Definition label_of (s : space) : string :=
  match s with HGRAD => "HGRAD" | HVOL => "HVOL" | HDIV => "HDIV" | HCURL => "HCURL" | HFACE => "HFACE" end.
Definition in_space (v : variable) (s : space) : Prop := exists rest, vbtype v = label_of s ++ rest.

(** the requests that make sense in a space, in the interior and on a side *)
Definition volume_kind (dimension : nat) (s : space) (k : kind) : Prop :=
  match s, k with
  | HGRAD, (Val | Dt) => True
  | HGRAD, Grad d => (d < 3)%nat
  | HVOL, (Val | Dt) => True
  | HDIV, (Comp d | CompDt d) => (d < 3)%nat
  | HDIV, Div => True
  | HCURL, (Comp d | CompDt d) => (d < 3)%nat
  | HCURL, Div => True
  | HCURL, Curl2 => dimension = 2%nat
  | HCURL, Curl d => dimension <> 2%nat /\ (d < 3)%nat
  | _, _ => False
  end.
Definition side_kind (s : space) (k : kind) : Prop :=
  match s, k with
  | (HGRAD | HVOL | HFACE), Val => True
  | HGRAD, Grad d => (d < 3)%nat
  | (HDIV | HCURL), Comp d => (d < 3)%nat
  | _, _ => False
  end.

(** names free of the reserved pieces *)
Definition piece (p s : string) : Prop := exists a b, s = a ++ p ++ b.
Definition reserved : list string := ["[x]"; "[y]"; "[z]"; "[u]"; "[v]"; "[w]"; "grad"; "div"; "curl"; "_t"].
Definition plain (v : string) : Prop := forall p, In p reserved -> ~ piece p v.

(** the expansion in the basis functions; components that the basis does not have are zero *)
Fixpoint upto (n : nat) (g : nat -> R) : R := match n with O => 0 | S m => upto m g + g m end.
Definition expand (n : nat) (c : nat -> R) (phi : nat -> R) : R := upto n (fun i => c i * phi i).
Definition part (have want : nat) (r : R) : R := if (want <? have)%nat then r else 0.

(** [u], [udot]: coefficients of the variable and of its time derivative; [b] its basis *)
Definition wanted (e : loaded) (b : nat) (u udot : nat -> R) (k : kind) (pt : nat) : R :=
  match k with
  | Val => part (vdim e b) 0 (expand (nb e b) u (fun i => basis e b i pt 0%nat))
  | Dt => part (vdim e b) 0 (expand (nb e b) udot (fun i => basis e b i pt 0%nat))
  | Grad d => part (gdim e b) d (expand (nb e b) u (fun i => basis_grad e b i pt d))
  | Comp d => part (vdim e b) d (expand (nb e b) u (fun i => basis e b i pt d))
  | CompDt d => part (vdim e b) d (expand (nb e b) udot (fun i => basis e b i pt d))
  | Div => expand (nb e b) u (fun i => basis_div e b i pt)
  | Curl2 => part (cdim e b) 0 (expand (nb e b) u (fun i => basis_curl e b i pt 0%nat))
  | Curl d => part (cdim e b) d (expand (nb e b) u (fun i => basis_curl e b i pt d))
  end.
Definition wanted_side (e : loaded) (b : nat) (u : nat -> R) (k : kind) (pt : nat) : R :=
  match k with
  | Val => part (vdim e b) 0 (expand (nb e b) u (fun i => basis_side e b i pt 0%nat))
  | Comp d => part (vdim e b) d (expand (nb e b) u (fun i => basis_side e b i pt d))
  | Grad d => part (gdim e b) d (expand (nb e b) u (fun i => basis_grad_side e b i pt d))
  | _ => 0
  end.

(** the history: what was loaded last, and whether the workset is on a side *)
Fixpoint last_load (e0 : loaded) (ops : list fop) : loaded :=
  match ops with [] => e0 | Load e :: r => last_load e r | _ :: r => last_load e0 r end.
Fixpoint last_side (b0 : bool) (ops : list fop) : bool :=
  match ops with [] => b0 | OnSide b :: r => last_side b r | _ :: r => last_side b0 r end.

(** the unknowns: variables of the physics sets, or discretized parameters *)
Definition all_names (sets : list (list variable)) (params : list variable) : list string :=
  map vname (concat sets ++ params)%list.
Definition unknown (sets : list (list variable)) (params : list variable) (transient : bool) (e : loaded)
  (v : variable) (u udot : nat -> R) : Prop :=
  (exists s i vs, nth_error sets s = Some vs /\ nth_error vs i = Some v /\
     u = sol_vals e s i /\ udot = (if transient then sol_dot_vals e s i else fun _ => 0)) \/
  (exists i, nth_error params i = Some v /\ u = pvals e i /\ udot = fun _ => 0).
