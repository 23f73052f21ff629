(** Boundary conditions, from the settings to the unknowns:
    src/interfaces/discretization/discretizationInterface_dof.hpp (setBCData, lines 341-640;
    setDirichletData, lines 643-737), src/interfaces/physics/physicsInterface_functions.hpp
    (lines 229-436), src/interfaces/physics/physicsInterface_boundary_conditions.hpp
    (getDirichlet and getDirichletVector, lines 46-121), src/managers/assembly/
    assemblyManager_constraints.hpp (createConstraints, lines 14-93),
    src/managers/solver/solverManager_setup.hpp (setupFixedDOFs, lines 690-755) and
    src/managers/solver/solverManager_util.hpp (setDirichlet, lines 60-141).
    Simplified: numbers are rationals; the function manager keeps the first definition of a
    name (C07), represented as a list of names; the mesh is a table of sides with their
    elements; unknowns have the same number on every process; an exception is [None]. *)
From Coq Require Import Bool Arith Lia ZArith QArith String List.
Import ListNotations.
Local Open Scope string_scope.

(** *** Settings *)
Inductive bval := VStr (s : string) | VDbl (q : Q) | VInt (z : Z).
Definition sub := list (string * bval).
Definition conds := list (string * sub).
Definition point_set := string.
Record bset := {
  dbc : conds; nbc : conds; fbc : conds; sbc : conds; flx : conds;
  weak : bool;                                  (* "use weak Dirichlet" *)
  bvars : list (string * string);               (* variables and their types *)
  points : list (string * string)               (* variable, text of "<var>_point_DBCs" *)
}.

Fixpoint assoc {A} (n : string) (l : list (string * A)) : option A :=
  match l with [] => None | (m, a) :: l => if string_dec m n then Some a else assoc n l end.
Definition all_b : string := "all boundaries".
Definition is_param (n : string) (s : sub) : bool := match assoc n s with Some _ => true | None => false end.
(** [sublist] gives an empty list for an unknown name. *)
Definition sublist (n : string) (l : conds) : sub := match assoc n l with Some s => s | None => [] end.

Definition named (l : conds) (var side : string) : bool :=
  is_param all_b (sublist var l) || is_param side (sublist var l).
(** Lines 440-441. *)
Definition is_vector (ty : string) : bool := prefix "HCURL" ty || prefix "HDIV" ty.
Definition is_diri (b : bset) (ty var side : string) : bool :=
  named (dbc b) var side || (is_vector ty && existsb (fun c => named (dbc b) (var ++ c) side) ["x"; "y"; "z"]).

(** var_bcs, lines 464-486: later conditions overwrite. *)
Definition var_bc (b : bset) (ty var side : string) : string :=
  let s := if is_diri b ty var side then (if weak b then "weak Dirichlet" else "Dirichlet") else "none" in
  let s := if named (nbc b) var side then "Neumann" else s in
  let s := if named (fbc b) var side then "Far-field" else s in
  let s := if named (sbc b) var side then "Slip" else s in
  if named (flx b) var side then "Flux" else s.

(** side_info, lines 497-522: the first condition counts. *)
Definition side_code (b : bset) (ty var side : string) : nat :=
  if is_diri b ty var side then (if weak b then 4 else 1)
  else if named (nbc b) var side then 2
  else if named (fbc b) var side then 6
  else if named (sbc b) var side then 7
  else if named (flx b) var side then 8
  else 0.

(** *** Fixed unknowns *)

(** The elements on a side of a block, each with the number of its local side. *)
Definition side_table := list (string * list (nat * nat)).

Section Fixed.
Variable lids : nat -> nat -> nat.                (* element, offset *)
Variable closure : nat -> nat -> list nat.        (* variable, local side: offsets on the side *)

Fixpoint insert (x : nat) (l : list nat) : list nat :=
  match l with [] => [x] | y :: r => if (x <=? y)%nat then x :: l else y :: insert x r end.
Definition sort (l : list nat) : list nat := fold_right insert [] l.
(** std::unique *)
Fixpoint unique (l : list nat) : list nat :=
  match l with
  | x :: r => match r with y :: _ => if (x =? y)%nat then unique r else x :: unique r | [] => [x] end
  | [] => []
  end.

(** setDirichletData, lines 670-722, for variable number [j]. *)
Definition var_dofs (b : bset) (sides : side_table) (j : nat) (var ty : string) : list nat :=
  unique (sort (flat_map (fun sd =>
    if is_diri b ty var (fst sd) && negb (weak b)
    then flat_map (fun e => map (lids (fst e)) (closure j (snd e))) (snd sd) else []) sides)).
Definition block_dofs (b : bset) (sides : side_table) : list (list nat) :=
  map (fun jv => var_dofs b sides (fst jv) (fst (snd jv)) (snd (snd jv)))
      (combine (seq 0 (List.length (bvars b))) (bvars b)).
(** createConstraints *)
Definition is_fixed (blocks : list (list (list nat))) (i : nat) : bool :=
  existsb (existsb (existsb (Nat.eqb i))) blocks.
End Fixed.

(** setupFixedDOFs, lines 719-745. *)
Definition as_number (v : bval) : option Q := match v with VDbl q => Some q | _ => None end.
Fixpoint last_number (s : sub) (v : Q) : option Q :=
  match s with
  | [] => Some v
  | (_, w) :: s => match as_number w with Some q => last_number s q | None => None end
  end.
Definition scalar_value (b : bset) (var : string) : option Q :=
  match assoc var (dbc b) with
  | None => Some 0%Q
  | Some s => match assoc all_b s with Some v => as_number v | None => last_number s 0%Q end
  end.

(** setDirichlet, lines 86-138: one list of fixed unknowns per variable, with what they are
    set to; then the point conditions. *)
Definition set_list {V} (u : nat -> V) (dofs : list nat) (v : nat -> V) : nat -> V :=
  fun i => if existsb (Nat.eqb i) dofs then v i else u i.
Definition set_dirichlet {V} (zero : V) (u : nat -> V) (fixed : list (list nat * (nat -> V))) (point : list nat) : nat -> V :=
  set_list (fold_left (fun u e => set_list u (fst e) (snd e)) fixed u) point (fun _ => zero).


(** setDirichletData, lines 679-696, and setupFixedDOFs, lines 695-697: whether values are
    imposed at all, from the sides of the mesh. *)
Definition have_dirichlet (blocks : list (bset * side_table)) : bool :=
  existsb (fun bs => existsb (fun v => existsb (fun sd => is_diri (fst bs) (snd v) (fst v) (fst sd)) (snd bs)) (bvars (fst bs))) blocks.
(** setDirichlet for the blocks, with projected values. *)
Definition impose {V} (strong : bool) (zero : V) (lids : nat -> nat -> nat) (closure : nat -> nat -> list nat)
    (blocks : list (bset * side_table)) (proj : nat -> V) (point : list nat) (u : nat -> V) : nat -> V :=
  if strong && have_dirichlet blocks
  then set_dirichlet zero u (map (fun d => (d, proj)) (flat_map (fun bs => block_dofs lids closure (fst bs) (snd bs)) blocks)) point
  else u.

(** *** Expressions *)

(** What a function is defined by: a text, or the decimal text of a number. *)
Inductive entry := EText (s : string) | ENum (q : Q).

(** std::to_string: six decimals, half to even. *)
Definition round_even (q : Q) : Z :=
  let n := Qnum q in let d := Zpos (Qden q) in
  let f := (n / d)%Z in let r := (2 * (n - f * d))%Z in
  if (r <? d)%Z then f else if (d <? r)%Z then (f + 1)%Z else if Z.even f then f else (f + 1)%Z.
Definition to_string (q : Q) : entry := ENum (Qred (inject_Z (round_even (q * 1000000)) / 1000000)%Q).

Definition label (kind var side : string) : string := kind ++ " " ++ var ++ " " ++ side.

(** Dirichlet, lines 238-273. *)
Definition reg_dir (l : conds) (sides : list string) (var : string) : list (string * entry) :=
  match assoc var l with
  | None => []
  | Some s =>
    match assoc all_b s with
    | Some (VStr t) => map (fun sd => (label "Dirichlet" var sd, EText t)) sides
    | Some (VDbl q) => map (fun sd => (label "Dirichlet" var sd, to_string q)) sides
    | _ => flat_map (fun e => match snd e with
                              | VStr t => [(label "Dirichlet" var (fst e), EText t)]
                              | VDbl q => [(label "Dirichlet" var (fst e), to_string q)]
                              | VInt _ => [] end) s
    end
  end.
Definition reg_dir_var (b : bset) (sides : list string) (v : string * string) : list (string * entry) :=
  (reg_dir (dbc b) sides (fst v) ++
   if is_vector (snd v) then flat_map (fun c => reg_dir (dbc b) sides (fst v ++ c)) ["x"; "y"; "z"] else [])%list.

(** The other kinds, lines 322-436: a value that is not a text is an exception. *)
Fixpoint texts (kind var : string) (s : sub) : option (list (string * entry)) :=
  match s with
  | [] => Some []
  | (n, VStr t) :: s => option_map (cons (label kind var n, EText t)) (texts kind var s)
  | _ => None
  end.
Definition reg_str (kind : string) (l : conds) (sides : list string) (var : string) : option (list (string * entry)) :=
  match assoc var l with
  | None => Some []
  | Some s =>
    match assoc all_b s with
    | Some (VStr t) => Some (map (fun sd => (label kind var sd, EText t)) sides)
    | Some _ => None
    | None => texts kind var s
    end
  end.
Fixpoint collect {A B} (f : A -> option (list B)) (l : list A) : option (list B) :=
  match l with
  | [] => Some []
  | a :: l => match f a, collect f l with Some x, Some y => Some (x ++ y)%list | _, _ => None end
  end.
Definition reg_kind (kind : string) (get : bset -> conds) (sides : list string) (sets : list bset) : option (list (string * entry)) :=
  collect (fun b => collect (fun v => reg_str kind (get b) sides (fst v)) (bvars b)) sets.

(** addFunction of the function manager of a block (C07). *)
Definition add_fn (fm : list (string * entry)) (e : string * entry) : list (string * entry) :=
  match assoc (fst e) fm with Some _ => fm | None => (fm ++ [e])%list end.
Definition register (user : list (string * entry)) (sides : list string) (sets : list bset) : option (list (string * entry)) :=
  match reg_kind "Neumann" nbc sides sets, reg_kind "Far-field" fbc sides sets,
        reg_kind "Slip" sbc sides sets, reg_kind "Flux" flx sides sets with
  | Some n, Some f, Some s, Some x =>
      Some (fold_left add_fn (flat_map (fun b => flat_map (reg_dir_var b sides) (bvars b)) sets ++ n ++ f ++ s ++ x)%list
                      (fold_left add_fn user []))
  | _, _, _, _ => None
  end.
(** evaluate *)
Definition evaluate (fm : list (string * entry)) (n : string) : option entry := assoc n fm.

(** getDirichletVector, lines 73-121: [None] inside is the zero component. *)
Definition dirichlet_vector (fm : list (string * entry)) (var side : string) : option (list (option entry)) :=
  match evaluate fm (label "Dirichlet" (var ++ "x") side) with
  | Some _ => Some (map (fun c => evaluate fm (label "Dirichlet" (var ++ c) side)) ["x"; "y"; "z"])
  | None => match evaluate fm (label "Dirichlet" var side) with
            | Some e => Some [Some e; Some e; Some e]
            | None => None
            end
  end.

(** *** Point conditions *)

(** Node sets of a block on a process: pairs of an element and a local node. *)
Definition node_table := list (string * list (nat * nat)).

(** point_DBCs.find(name) *)
Definition contains (text name : string) : bool :=
  match index 0 name text with Some _ => true | None => false end.

Section Points.
Variable gids : nat -> list Z.                    (* unknowns of an element *)
Variable offs : nat -> nat -> nat.                (* variable, local node *)

(** Lines 549-565: the list of unknowns is not cleared between the elements. *)
Fixpoint node_dofs (j : nat) (acc : list Z) (l : list (nat * nat)) : list (option Z) :=
  match l with
  | [] => []
  | (e, k) :: l => let acc := (acc ++ gids e)%list in nth_error acc (offs j k) :: node_dofs j acc l
  end.
Definition point_dofs (b : bset) (nodes : node_table) : list (option Z) :=
  flat_map (fun jv =>
    let text := match assoc (fst (snd jv)) (points b) with Some t => t | None => "" end in
    flat_map (fun ns => if contains text (fst ns) && negb (weak b) then node_dofs (fst jv) [] (snd ns) else []) nodes)
    (combine (seq 0 (List.length (bvars b))) (bvars b)).
End Points.

(** Lines 574-625: gathered from all processes, padded with -1, and restricted to the
    unknowns of the process. *)
Fixpoint zinsert (x : Z) (l : list Z) : list Z :=
  match l with [] => [x] | y :: r => if (x <=? y)%Z then x :: l else y :: zinsert x r end.
Definition zsort (l : list Z) : list Z := fold_right zinsert [] l.
Fixpoint zunique (l : list Z) : list Z :=
  match l with
  | x :: r => match r with y :: _ => if (x =? y)%Z then zunique r else x :: zunique r | [] => [x] end
  | [] => []
  end.
(** std::set_intersection *)
Fixpoint intersection (a : list Z) : list Z -> list Z :=
  match a with
  | [] => fun _ => []
  | x :: a' => fix go (b : list Z) : list Z :=
      match b with
      | [] => []
      | y :: b' => if (x <? y)%Z then intersection a' b
                   else if (y <? x)%Z then go b' else x :: intersection a' b'
      end
  end.
Definition gather (locals : list (list Z)) : list Z :=
  let locals := map (fun l => zunique (zsort l)) locals in
  let n := list_sum (map (@List.length Z) locals) in
  flat_map (fun l => (firstn n l ++ repeat (-1)%Z (n - List.length l))%list) locals.
Definition final_points (locals : list (list Z)) (owned : list Z) : list Z :=
  intersection (zsort (gather locals)) (zsort owned).
