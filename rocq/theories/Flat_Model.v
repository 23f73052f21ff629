(** The decomposition of one definition as the code runs it: a growing vector of
    branches visited round by round.

    Sources: managers/function/functionManager_create.hpp:84-500 (loop over rounds
    and branches), tools/interpreter.cpp (branches.push_back in split/isOperator),
    tools/dag.hpp:33-50 (a new branch).

    [Interp_Model.decomp] is the recursive reading of this loop; [Flat_Props] proves
    that the two agree. *)
From Coq Require Import Ascii String Bool Arith Lia List.
From Verif Require Import Outcome Interp_Model.
Import ListNotations.

Record branch := {
  b_text : str;                    (* expression_ *)
  b_done : bool;                   (* is_leaf_ or is_decomposed_ *)
  b_leaf : option leaf;            (* what the leaf refers to, or the function *)
  b_deps : list (str * nat)        (* dep_ops_ and dep_list_ *)
}.

Definition new_branch (s : str) : branch :=
  {| b_text := s; b_done := false; b_leaf := None; b_deps := [] |}.

Fixpoint set_nth {A} (l : list A) (k : nat) (x : A) : list A :=
  match l, k with
  | [], _ => []
  | _ :: r, 0 => x :: r
  | y :: r, S k' => y :: set_nth r k' x
  end.

(** Numbers given to the new branches: branches.size() before each push_back. *)
Fixpoint number (d : list dep) (i : nat) : list (str * nat) :=
  match d with
  | [] => []
  | x :: r => (fst x, i) :: number r (S i)
  end.

(** Body of the loop over k, create.hpp:93-485. *)
Definition visit (E : env) (bs : list branch) (k : nat) : outcome (list branch) :=
  match nth_error bs k with
  | None => UB
  | Some b =>
      if b_done b then Ok bs
      else match decomp_step E (b_text b) with
           | Ok (SLeaf l) =>
               Ok (set_nth bs k {| b_text := b_text b; b_done := true;
                                   b_leaf := Some l; b_deps := [] |})
           | Ok (SDeps d) =>
               Ok (set_nth bs k {| b_text := b_text b; b_done := true;
                                   b_leaf := None;
                                   b_deps := number d (length bs) |}
                   ++ map (fun x => new_branch (snd x)) d)
           | Exn => Exn
           | UB => UB
           end
  end.

Fixpoint visit_all (E : env) (bs : list branch) (ks : list nat) : outcome (list branch) :=
  match ks with
  | [] => Ok bs
  | k :: r => match visit E bs k with
              | Ok bs' => visit_all E bs' r
              | Exn => Exn
              | UB => UB
              end
  end.

(** One round: [Nbranches] is read before the loop (line 91). *)
Definition round (E : env) (bs : list branch) : outcome (list branch) :=
  visit_all E bs (seq 0 (length bs)).

Definition all_done (bs : list branch) : bool := forallb b_done bs.

(** while (!done && iter < maxiter), then the exception of line 498. *)
Fixpoint rounds (E : env) (n : nat) (bs : list branch) : outcome (list branch) :=
  match n with
  | 0 => Exn
  | S m => match round E bs with
           | Ok bs' => if all_done bs' then Ok bs' else rounds E m bs'
           | Exn => Exn
           | UB => UB
           end
  end.

Definition flat_decompose (E : env) (s : str) : outcome (list branch) :=
  rounds E maxiter [new_branch s].
