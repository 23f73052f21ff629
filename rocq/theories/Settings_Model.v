(** Settings: Teuchos::ParameterList (setParameters, setEntry, isSublist, isParameter, get)
    as used by src/interfaces/user/userInterface.hpp (UserInterface, lines 92-426),
    src/interfaces/physics/physicsInterface_construct.hpp (lines 30-129) and
    src/managers/solver/solverManager_construct.hpp (lines 137-196).
    Simplified: values are strings and integers; the reading of files is a table from names
    to contents; the Mirage translator, printing and timers are left out; an exception is
    [None]. *)
From Coq Require Import Bool Arith Lia ZArith String List.
Import ListNotations.
Local Open Scope string_scope.

Inductive value := Str (s : string) | Int (z : Z).
Inductive node := Leaf (v : value) | Node (l : list (string * node)).
Definition plist := list (string * node).

Fixpoint lookup (n : string) (l : plist) : option node :=
  match l with [] => None | (m, a) :: l => if string_dec m n then Some a else lookup n l end.
(** setEntry: replaced in place or appended. *)
Fixpoint set_entry (n : string) (a : node) (l : plist) : plist :=
  match l with
  | [] => [(n, a)]
  | (m, b) :: l => if string_dec m n then (m, a) :: l else (m, b) :: set_entry n a l
  end.
Definition is_sublist (n : string) (l : plist) : bool := match lookup n l with Some (Node _) => true | _ => false end.

(** setParameters (Teuchos_ParameterList.cpp): lists are merged, other entries replaced; the
    sublist of a name held by a value is an exception. *)
Fixpoint merge_node (d : option node) (s : node) {struct s} : option node :=
  match s with
  | Leaf v => Some (Leaf v)
  | Node l =>
    let go := fix go (dl : plist) (l : list (string * node)) : option plist :=
      match l with
      | [] => Some dl
      | (n, a) :: l => match merge_node (lookup n dl) a with Some r => go (set_entry n r dl) l | None => None end
      end in
    match d with
    | None => option_map Node (go [] l)
    | Some (Node dl) => option_map Node (go dl l)
    | Some (Leaf _) => None
    end
  end.
Fixpoint set_parameters (dl : plist) (l : plist) : option plist :=
  match l with
  | [] => Some dl
  | (n, a) :: l => match merge_node (lookup n dl) a with Some r => set_parameters (set_entry n r dl) l | None => None end
  end.

(** *** UserInterface *)

Inductive need := Required | Optional | OrEmpty.
Definition sections : list (string * need) :=
  [("Mesh", Required); ("Physics", Required); ("Discretization", Required); ("Solver", Required); ("Analysis", Required);
   ("Postprocess", OrEmpty); ("Parameters", OrEmpty); ("Subgrid", Optional); ("Functions", Optional);
   ("Aux Physics", Optional); ("Aux Discretization", Optional)].
Definition file_key (s : string) : string := s ++ " input file".

Section Files.
Variable files : string -> option plist.

(** One of the blocks "if (!have_...)". *)
Definition section_step (have : bool) (s : string) (nd : need) (settings : plist) : option plist :=
  if have then Some settings else
  match lookup (file_key s) settings with
  | Some (Leaf (Str f)) => match files f with Some c => set_parameters settings c | None => None end
  | Some _ => None
  | None => match nd with
            | Required => None
            | Optional => Some settings
            | OrEmpty => match lookup s settings with
                         | Some (Node _) => Some settings
                         | Some (Leaf _) => None
                         | None => Some (set_entry s (Node []) settings)
                         end
            end
  end.
Fixpoint sections_run (main : plist) (ss : list (string * need)) (settings : plist) : option plist :=
  match ss with
  | [] => Some settings
  | (s, nd) :: ss => match section_step (is_sublist s main) s nd settings with Some t => sections_run main ss t | None => None end
  end.
(** The flags are those of the main file, lines 411-417. *)
Definition user_interface (main : plist) : option plist :=
  match sections_run main sections main with
  | Some t => if Bool.eqb (is_sublist "Aux Discretization" main) (is_sublist "Aux Physics" main) then Some t else None
  | None => None
  end.
End Files.

(** *** Settings of a block: physicsInterface_construct.hpp 52-75 *)

(** string::find(...) != npos *)
Fixpoint contains (p s : string) : bool :=
  prefix p s || match s with EmptyString => false | String _ s => contains p s end.

Definition overlay (base : plist) (l : plist) : plist := fold_left (fun acc e => set_entry (fst e) (snd e) acc) l base.
Definition block_settings (l : plist) (block : string) : plist :=
  fold_left (fun acc e => match snd e with
                          | Node sl => if contains block (fst e) then overlay acc sl else acc
                          | Leaf _ => acc
                          end) l l.

(** *** Options of a physics set: solverManager_construct.hpp 137-196 *)

(** get<T>(name, default): a value of another type is an exception. *)
Definition get_str (n : string) (d : string) (l : plist) : option string :=
  match lookup n l with None => Some d | Some (Leaf (Str s)) => Some s | Some _ => None end.
Definition get_int (n : string) (d : Z) (l : plist) : option Z :=
  match lookup n l with None => Some d | Some (Leaf (Int z)) => Some z | Some _ => None end.

Record topts := { b_tab : string; b_bdf : Z; b_stab : string; b_sbdf : Z; b_ssteps : Z }.

Definition kTab := "transient Butcher tableau".
Definition kBdf := "transient BDF order".
Definition kSTab := "transient startup Butcher tableau".
Definition kSBdf := "transient startup BDF order".
Definition kSSteps := "transient startup steps".

Definition bind {A B} (o : option A) (f : A -> option B) : option B := match o with Some a => f a | None => None end.
Definition scheme_ok (t : string) (o : Z) : bool :=
  (o <=? 1)%Z || (t =? "custom") || (t =? "BWE") || (t =? "DIRK-1,1").

Definition set_options (general setl : plist) : option topts :=
  bind (get_str kTab "BWE" general) (fun t0 =>
  bind (get_int kBdf 1 general) (fun o0 =>
  bind (get_str kSTab t0 general) (fun s0 =>
  bind (get_int kSBdf o0 general) (fun q0 =>
  bind (get_int kSSteps o0 general) (fun n0 =>
  bind (get_str kTab t0 setl) (fun t =>
  bind (get_int kBdf 1 setl) (fun o =>
  bind (get_str kSTab s0 setl) (fun s =>
  bind (get_int kSBdf q0 setl) (fun q =>
  bind (get_int kSSteps n0 setl) (fun n =>
  if scheme_ok t o && scheme_ok s q then Some {| b_tab := t; b_bdf := o; b_stab := s; b_sbdf := q; b_ssteps := n |} else None)))))))))).

(** The list of a set and its first block, physicsInterface_construct.hpp 40-49. *)
Definition set_list (solver : plist) (set : string) : option plist :=
  if string_dec set "default" then Some solver
  else match lookup set solver with Some (Node l) => Some l | None => Some [] | Some (Leaf _) => None end.
Definition options_of (solver : plist) (set block : string) : option topts :=
  bind (set_list solver set) (fun l => set_options solver (block_settings l block)).
