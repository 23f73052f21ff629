(** Which postprocessing entries hold on which block.
    /repo/src/managers/postprocess/postprocessManager_construct.hpp (setup, lines 209-279, 291-292,
    319-320), with the function registry of FuncReg_Model (the first registration of a name at a
    place counts) and the lists of Settings_Model.
    Simplified: the functions registered before setup and the true solutions (addTrueSolutions, see
    PostErr_Model) are given; entries that are not texts, and a value where a list is expected by
    blockPpSettings.sublist, are exceptions ([None]). *)
From Coq Require Import Bool ZArith String List.
From Verif Require Import Settings_Model.
Import ListNotations.
Local Open Scope string_scope.

(** A registration: place, name, text. *)
Definition registration : Type := (string * string * string)%type.

(** The entries of a list in order, get<string> of each (lines 211-218 and the like). *)
Fixpoint texts (l : plist) : option (list (string * string)) :=
  match l with
  | [] => Some []
  | (n, Leaf (Str s)) :: r => option_map (cons (n, s)) (texts r)
  | _ :: _ => None
  end.
(** if isSublist(n) (lines 211, 220, 229): anything else is passed over. *)
Definition optional_list (n : string) (l : plist) : option (list (string * string)) :=
  match lookup n l with Some (Node s) => texts s | _ => Some [] end.
(** l.sublist(n): an empty list if absent. *)
Definition sub_list (n : string) (l : plist) : option plist :=
  match lookup n l with Some (Node s) => Some s | Some (Leaf _) => None | None => Some [] end.
Definition bind {A B} (o : option A) (f : A -> option B) : option B := match o with Some a => f a | None => None end.

(** blockPpSettings, lines 239-245. *)
Definition block_settings (pp : plist) (block : string) : plist :=
  match lookup block pp with Some (Node s) => s | _ => pp end.

Definition at_place (p : string) (l : list (string * string)) : list registration := map (fun e => (p, fst e, snd e)) l.
(** Extra fields are registered at both places, one after the other (lines 257-266). *)
Definition at_both (l : list (string * string)) : list registration :=
  flat_map (fun e => [("ip", fst e, snd e); ("point", fst e, snd e)]) l.

(** What setup does for one block: the names of the extra fields, of the extra cell fields, and the
    registrations in order. [trues]: what addTrueSolutions registers for a given list. *)
Record features := { extra : list string; cell : list string; regs : list registration }.
Definition setup_block (trues : plist -> option (list registration)) (pp : plist) (block : string) : option features :=
  bind (optional_list "Responses" pp) (fun r =>
  bind (optional_list "Weights" pp) (fun w =>
  bind (optional_list "Targets" pp) (fun t =>
  let b := block_settings pp block in
  bind (bind (sub_list "True solutions" b) trues) (fun ts =>
  bind (bind (sub_list "Extra fields" b) texts) (fun ef =>
  bind (bind (sub_list "Extra cell fields" b) texts) (fun cf =>
  Some {| extra := map fst ef; cell := map fst cf;
          regs := at_place "ip" r ++ at_place "ip" w ++ at_place "ip" t ++ ts ++ at_both ef ++ at_place "ip" cf |})))))).
(** The lists given to addObjectiveFunctions, addFluxResponses and addIntegratedQuantities (lines
    291-296, 319-320). *)
Definition handed (pp : plist) (block n : string) : option plist := sub_list n (block_settings pp block).

(** What a name means at a place: the first registration. *)
Fixpoint meaning (rs : list registration) (p n : string) : option string :=
  match rs with
  | [] => None
  | (p', n', s) :: r => if String.eqb p' p && String.eqb n' n then Some s else meaning r p n
  end.
