(** Model of the function registry of the function manager.

    Sources (under /repo/src):
      managers/function/functionManager_construct.hpp:36-39  (the four forests)
      managers/function/functionManager_create.hpp:13-61     (addFunction, two overloads)
      managers/function/functionManager_util.hpp:43-57       (hasFunction)
      managers/function/functionManager_evaluate.hpp:13-45   (lookup part of evaluate)
      tools/dag.hpp:127-160, 225-280                         (Tree, Forest) *)
From Coq Require Import Ascii String Bool Arith Lia List.
From Verif Require Import Outcome Interp_Model.
Import ListNotations.

(** What a tree was registered with: a text or a number
    (the overloads for [string] and for [ScalarT &]). *)
Inductive body (V : Type) :=
| BText (s : str)
| BValue (v : V).
Arguments BText {V}. Arguments BValue {V}.

Definition reg_tree (V : Type) : Type := (str * body V)%type.      (* name_, definition *)
Definition forest (V : Type) : Type := (str * list (reg_tree V))%type. (* location_, trees_ *)

(** functionManager_construct.hpp:36-39. *)
Definition locations : list str :=
  List.map s_ ["ip"; "side ip"; "tensor ip"; "point"]%string.
Definition init_forests (V : Type) : list (forest V) :=
  List.map (fun l => (l, [])) locations.

(** Inner loop over the trees (create.hpp:20-25): no early exit, so the last match
    stays. *)
Fixpoint scan_trees {V} (fname : str) (ts : list (reg_tree V)) (j : nat)
         (st : bool * nat) : bool * nat :=
  match ts with
  | [] => st
  | t :: r => scan_trees fname r (S j)
                (if seq_str (fst t) fname then (true, j) else st)
  end.

(** addFunction, create.hpp:13-35 (and 41-61).  [found] and [findex] are shared by
    all the forests visited. *)
Fixpoint add_loop {V} (fname : str) (b : body V) (location : str)
         (fs : list (forest V)) (st : bool * nat) : list (forest V) * (bool * nat) :=
  match fs with
  | [] => ([], st)
  | (loc, ts) :: r =>
      if seq_str loc location then
        let st1 := scan_trees fname ts 0 st in
        if fst st1 then
          let '(r', st2) := add_loop fname b location r st1 in ((loc, ts) :: r', st2)
        else
          let ts' := ts ++ [(fname, b)] in
          let '(r', st2) :=
            add_loop fname b location r (fst st1, length ts' - 1) in
          ((loc, ts') :: r', st2)
      else
        let '(r', st2) := add_loop fname b location r st in ((loc, ts) :: r', st2)
  end.

Definition addFunction {V} (fs : list (forest V)) (fname : str) (b : body V)
           (location : str) : list (forest V) * nat :=
  let '(fs', st) := add_loop fname b location fs (false, 0) in (fs', snd st).

(** hasFunction, util.hpp:43-57. *)
Definition hasFunction {V} (fs : list (forest V)) (fname location : str) : bool :=
  existsb (fun f => seq_str (fst f) location &&
                    existsb (fun t => seq_str (fst t) fname) (snd f)) fs.

(** Lookup performed by evaluate(fname, location), evaluate.hpp:13-45: the first
    forest with the location, in it the first tree with the name; otherwise an
    exception.  (When the location is found but the name is not, [titer] has run to
    the end and the loop [while(!ffound ...)] stops.) *)
Fixpoint find_tree {V} (fname : str) (ts : list (reg_tree V)) (j : nat)
  : option (nat * body V) :=
  match ts with
  | [] => None
  | t :: r => if seq_str fname (fst t) then Some (j, snd t) else find_tree fname r (S j)
  end.

Fixpoint lookup {V} (fs : list (forest V)) (fname location : str)
  : outcome (nat * body V) :=
  match fs with
  | [] => Exn
  | (loc, ts) :: r =>
      if seq_str loc location then
        match find_tree fname ts 0 with Some x => Ok x | None => Exn end
      else lookup r fname location
  end.

(** A history of registrations starting from a fresh manager; the returned indices
    are collected. *)
Record reg (V : Type) := { r_name : str; r_body : body V; r_loc : str }.
Arguments r_name {V}. Arguments r_body {V}. Arguments r_loc {V}.

Fixpoint run_regs {V} (fs : list (forest V)) (h : list (reg V))
  : list (forest V) * list nat :=
  match h with
  | [] => (fs, [])
  | x :: r =>
      let '(fs1, i) := addFunction fs (r_name x) (r_body x) (r_loc x) in
      let '(fs2, is) := run_regs fs1 r in (fs2, i :: is)
  end.
