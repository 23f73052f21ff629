(** Scalar parameters: src/managers/parameter/parameterManager_setup.hpp (setupParameters,
    lines 15-228), parameterManager_update.hpp (updateParams, lines 25-84 and 182-210),
    parameterManager_access.hpp (getParams, lines 186-292; getActiveParamBounds, lines
    298-318), parameterManager_util.hpp (setParam, lines 101-126) and
    parameterManager_sacadoize.hpp (sacadoizeParams).
    Simplified: values are abstract; printing, files and discretized fields are left out;
    reading outside a vector is undefined behaviour, [None]. *)
From Coq Require Import Bool Arith Lia String List.
Import ListNotations.

Section Params.
Context {V : Type}.

(** Usage: 0 inactive, 1 active, 2 stochastic, 3 discrete, 4 discretized. *)
Record pman := {
  pnames : list string;
  ptypes : list nat;
  pvals : list (list (list V));     (* time, parameter, component *)
  plower : list (list V);
  pupper : list (list V);
  dynamic : bool;                   (* have_dynamic_scalar *)
  tindex : nat                      (* dynamic_timeindex *)
}.

(** An entry of the "Parameters" list. *)
Record entry := { e_name : string; e_usage : string; e_vals : list V; e_dyn : bool; e_lo : list V; e_up : list V }.

Definition usage_type (u : string) : option nat :=
  if string_dec u "inactive" then Some 0 else if string_dec u "active" then Some 1
  else if string_dec u "stochastic" then Some 2 else if string_dec u "discrete" then Some 3
  else if string_dec u "discretized" then Some 4 else None.

(** Lines 21-160: an unknown usage adds no type. *)
Definition setup (es : list entry) (numsteps : nat) : pman :=
  let dyn := existsb (fun e => match usage_type (e_usage e) with Some 1 => e_dyn e | _ => false end) es in
  {| pnames := map e_name es;
     ptypes := flat_map (fun e => match usage_type (e_usage e) with Some t => [t] | None => [] end) es;
     pvals := repeat (map e_vals es) (if dyn then numsteps else 1);
     plower := map e_lo es; pupper := map e_up es; dynamic := dyn; tindex := 0 |}.

Definition with_vals (s : pman) vs : pman :=
  {| pnames := pnames s; ptypes := ptypes s; pvals := vs; plower := plower s; pupper := pupper s; dynamic := dynamic s; tindex := tindex s |}.

(** The loops that copy newparams[pprog++] into the parameters of one type. *)
Fixpoint fill (t : nat) (types : list nat) (ps : list (list V)) (vec : list V) : option (list (list V)) :=
  match ps with
  | [] => Some []
  | p :: ps =>
    match types with
    | [] => None
    | ty :: types =>
      if ty =? t then
        if length vec <? length p then None
        else option_map (cons (firstn (length p) vec)) (fill t types ps (skipn (length p) vec))
      else option_map (cons p) (fill t types ps vec)
    end
  end.

Fixpoint set_nth {A} (i : nat) (a : A) (l : list A) : list A :=
  match l with [] => [] | b :: l => match i with O => a :: l | S i => b :: set_nth i a l end end.

(** updateParams(vector, index of type), lines 69-84: first time only. *)
Definition update_int (vec : list V) (t : nat) (s : pman) : option pman :=
  match pvals s with
  | [] => None
  | ps :: rest => option_map (fun ps' => with_vals s (ps' :: rest)) (fill t (ptypes s) ps vec)
  end.

(** updateParams(vector, string), lines 182-210; an unknown string is type -1. *)
Definition class_type (u : string) : option nat :=
  match usage_type u with Some 4 => None | t => t end.
Definition update_at (i : nat) (vec : list V) (t : nat) (s : pman) : option pman :=
  match nth_error (pvals s) i with
  | None => Some s
  | Some ps => option_map (fun ps' => with_vals s (set_nth i ps' (pvals s))) (fill t (ptypes s) ps vec)
  end.
Definition update_str (vec : list V) (u : string) (s : pman) : option pman :=
  match class_type u with
  | None => Some s
  | Some t => update_at (if dynamic s then tindex s else 0) vec t s
  end.

(** updateParams(MrHyDE_OptVector), lines 25-46, for a vector with scalars. *)
Fixpoint fill_all (types : list nat) (pvs : list (list (list V))) (ss : list (list V)) : option (list (list (list V))) :=
  match pvs with
  | [] => Some []
  | ps :: pvs =>
    match ss with
    | s :: ss => match fill 1 types ps s, fill_all types pvs ss with Some a, Some b => Some (a :: b) | _, _ => None end
    | [] => None
    end
  end.
Definition update_opt (ss : list (list V)) (s : pman) : option pman :=
  option_map (with_vals s) (fill_all (ptypes s) (pvals s) ss).

(** updateDynamicParams, line 110. *)
Definition set_time (i : nat) (s : pman) : pman :=
  {| pnames := pnames s; ptypes := ptypes s; pvals := pvals s; plower := plower s; pupper := pupper s; dynamic := dynamic s; tindex := i |}.

(** getParams: the components of one type at one time, lines 191-196. *)
Fixpoint collect {A} (t : nat) (types : list nat) (ps : list (list A)) : list A :=
  match ps, types with
  | p :: ps, ty :: types => (if ty =? t then p else []) ++ collect t types ps
  | _, _ => []
  end.
Definition get_int (t : nat) (s : pman) : list (list V) := map (collect t (ptypes s)) (pvals s).
Definition get_str (u : string) (s : pman) : list V :=
  match class_type u with Some t => concat (get_int t s) | None => [] end.
Definition get_str_at (u : string) (i : nat) (s : pman) : option (list V) :=
  match nth_error (pvals s) i with
  | None => None
  | Some ps => Some (match class_type u with Some t => collect t (ptypes s) ps | None => [] end)
  end.

(** setParam, lines 101-126: every parameter of the name, from one running index. *)
Fixpoint fill_name (n : string) (names : list string) (ps : list (list V)) (vec : list V) : option (list (list V)) :=
  match ps, names with
  | p :: ps, nm :: names =>
      if string_dec nm n then
        if length vec <? length p then None
        else option_map (cons (firstn (length p) vec)) (fill_name n names ps (skipn (length p) vec))
      else option_map (cons p) (fill_name n names ps vec)
  | _, _ => Some ps
  end.
Definition set_param (vec : list V) (n : string) (s : pman) : option pman :=
  let i := if dynamic s then tindex s else 0 in
  match nth_error (pvals s) i with
  | None => Some s
  | Some ps => option_map (fun ps' => with_vals s (set_nth i ps' (pvals s))) (fill_name n (pnames s) ps vec)
  end.

(** getActiveParamBounds. *)
Definition bounds (s : pman) : list V * list V := (collect 1 (ptypes s) (plower s), collect 1 (ptypes s) (pupper s)).

(** Derivative seeds, sacadoizeParams lines 38-48: per parameter and component. *)
Fixpoint seeds (types : list nat) (ps : list (list V)) (prog : nat) : list (list (option nat)) :=
  match ps, types with
  | p :: ps, ty :: types =>
      if ty =? 1 then map Some (seq prog (length p)) :: seeds types ps (prog + length p)
      else map (fun _ => None) p :: seeds types ps prog
  | _, _ => []
  end.
(** Lines 118-132: an index beyond the width of the derivative type gives no derivative. *)
Definition seeded (width : nat) (o : option nat) : option nat :=
  match o with Some k => if k <? width then Some k else None | None => None end.
End Params.
Arguments pman : clear implicits.
Arguments entry : clear implicits.
