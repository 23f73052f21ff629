(** Model of the data-type analysis of the function manager, with its detection of
    circular definitions.

    Sources (under /repo/src):
      managers/function/functionManager_create.hpp:502-548 (loop over all branches)
      managers/function/functionManager_create.hpp:587-619 (checkDepDataType)

    All the trees of one forest (location) are given in decomposed form, see
    [Flat_Model].  A branch is a pair (tree, branch). *)
From Coq Require Import Ascii String Bool Arith Lia List.
From Verif Require Import Outcome Interp_Model Flat_Model.
Import ListNotations.

Definition node : Type := (nat * nat)%type.
Definition flat_forest := list (list branch).

Definition node_eqb (a b : node) : bool :=
  (fst a =? fst b)%nat && (snd a =? snd b)%nat.

Definition get_branch (F : flat_forest) (n : node) : option branch :=
  match nth_error F (fst n) with
  | Some bs => nth_error bs (snd n)
  | None => None
  end.

(** is_constant_, is_view_, is_AD_ *)
Record flags := { f_const : bool; f_view : bool; f_AD : bool }.
Definition flags0 := {| f_const := true; f_view := false; f_AD := false |}.

(** Flags of the leaves as set during decomposition, create.hpp:108-459. *)
Definition leaf_flags (l : leaf) : flags :=
  match l with
  | LSoln _ => {| f_const := false; f_view := true; f_AD := true |}
  | LScal _ => {| f_const := false; f_view := true; f_AD := false |}
  | LPar _ _ | LParDot _ _ => {| f_const := false; f_view := true; f_AD := true |}
  | LNum _ | LPi => {| f_const := true; f_view := false; f_AD := false |}
  | LTime | LUnset _ | LFun _ => {| f_const := false; f_view := false; f_AD := false |}
  end.

(** Lines 596-605. *)
Definition add_leaf (l : leaf) (st : flags) : flags :=
  {| f_const := if f_const (leaf_flags l) then f_const st else false;
     f_view := if f_view (leaf_flags l) then true else f_view st;
     f_AD := if f_AD (leaf_flags l) then true else f_AD st |}.

(** The calls made below a branch, lines 606-616. *)
Definition next (n : node) (b : branch) : list node :=
  match b_leaf b with
  | Some (LFun j) => [(j, 0)]
  | Some _ => []
  | None => map (fun d => (fst n, snd d)) (b_deps b)
  end.

Definition own (b : branch) (st : flags) : flags :=
  match b_leaf b with
  | Some (LFun _) => st
  | Some l => add_leaf l st
  | None => st
  end.

(** checkDepDataType.  The flag [currently_checking_] is set on entry and cleared on
    return, so the branches carrying it are those on the call stack: [path].
    [None]: out of fuel (excluded by [check_total]). *)
Fixpoint check (fuel : nat) (F : flat_forest) (path : list node) (n : node) (st : flags)
  : option (outcome flags) :=
  match fuel with
  | 0 => None
  | S f =>
      if existsb (node_eqb n) path then Some Exn
      else match get_branch F n with
           | None => Some UB
           | Some b =>
               (fix go (ns : list node) (st : flags) : option (outcome flags) :=
                  match ns with
                  | [] => Some (Ok st)
                  | m :: r => match check f F (n :: path) m st with
                              | Some (Ok st') => go r st'
                              | o => o
                              end
                  end) (next n b) (own b st)
           end
  end.

Definition size (F : flat_forest) : nat := list_sum (map (@length branch) F).

(** All branches of the forest in loop order. *)
Definition all_nodes (F : flat_forest) : list node :=
  flat_map (fun t => map (fun b => (t, b)) (seq 0 (length (nth t F []))))
           (seq 0 (length F)).

(** Lines 505-531: each branch is analysed from fresh flags.  (Writing the result
    back into the branch does not disturb later calls: only the flags of leaves are
    read, and for a leaf the result is what was there.) *)
Fixpoint check_all (F : flat_forest) (ns : list node) : option (outcome (list flags)) :=
  match ns with
  | [] => Some (Ok [])
  | n :: r =>
      match check (S (size F)) F [] n flags0 with
      | Some (Ok st) =>
          match check_all F r with
          | Some (Ok l) => Some (Ok (st :: l))
          | o => o
          end
      | Some Exn => Some Exn
      | Some UB => Some UB
      | None => None
      end
  end.

Definition prepare (F : flat_forest) : option (outcome (list flags)) :=
  check_all F (all_nodes F).

(** Decomposition of all definitions of a location followed by the analysis:
    decomposeFunctions, create.hpp:78-531, for one forest. *)
Definition env_of (soln scal par : list str) (defs : list (str * str)) : env :=
  {| e_soln := soln; e_scal := scal; e_par := par; e_fun := map fst defs |}.

Definition decompose_all (E : env) (defs : list (str * str)) : outcome flat_forest :=
  map_outcome (fun d => flat_decompose E (snd d)) defs.

Definition decompose_functions (soln scal par : list str) (defs : list (str * str))
  : option (outcome (flat_forest * list flags)) :=
  match decompose_all (env_of soln scal par defs) defs with
  | Ok F => match prepare F with
            | Some (Ok l) => Some (Ok (F, l))
            | Some Exn => Some Exn
            | Some UB => Some UB
            | None => None
            end
  | Exn => Some Exn
  | UB => Some UB
  end.
