(** Objectives given to the optimizer: src/optimization/MrHyDE_Objective.hpp (value, lines
    61-75; gradient, 78-97; checkNewParams, 99-115) and
    src/optimization/MrHyDE_Stochastic_Objective.hpp (value, 62-79; gradient, 82-106;
    Instantiate_Solution_Storage, Cache_State, Set_State, 114-164; IdentifySample, 166-190).
    Simplified: the forward solve is a function of the parameters (C58 is about that);
    [None] is undefined behaviour or an exception; the adjoint solve is represented by what
    it is computed from: the parameters in use and the stored forward solution. *)
From Coq Require Import Bool Arith Lia Reals Lra List.
From Verif Require Import Sparse_Model OptVec_Model.
Import ListNotations.
Local Open Scope R_scope.

(** Parameters held by the parameter manager: fields, scalar parts, mass. *)
Record pset := { q_f : list (list R); q_s : list (list R); q_diag : option (list R); q_mass : bool }.
Definition current (q : pset) : ovec := make_current (q_f q) (q_s q) (q_diag q) (q_mass q).

Fixpoint somes (l : list (option (list R))) : option (list (list R)) :=
  match l with
  | [] => Some []
  | Some s :: l => option_map (cons s) (somes l)
  | None :: _ => None
  end.

(** updateParams(MrHyDE_OptVector), parameterManager_update.hpp 25-60. *)
Definition update (q : pset) (x : ovec) : option pset :=
  if compat (current q) x then
    match (if hscl x then somes (scls x) else Some (q_s q)) with
    | Some ss => Some {| q_f := if hfld x then flds x else q_f q; q_s := ss; q_diag := q_diag q; q_mass := q_mass q |}
    | None => None
    end
  else None.

Definition bind {A B} (o : option A) (f : A -> option B) : option B := match o with Some a => f a | None => None end.
Definition rltb (a b : R) : bool := if Rlt_dec a b then true else false.

(** checkNewParams; in floating point 0/0 compares false and a/0 compares true. *)
Definition reltol : R := / 10 ^ 12.
Definition is_new (q : pset) (x : ovec) : option bool :=
  let c := current q in
  bind (clone c) (fun d0 => bind (oset (zero d0) c) (fun d1 => bind (axpy (-1) d1 x) (fun d =>
  bind (norm d) (fun dn => bind (norm c) (fun rn =>
  Some (if Req_EM_T rn 0 then rltb 0 dn else rltb reltol (dn / rn))))))).

Section Deterministic.
Context {St : Type}.
Variable fwd : pset -> St.

Record ostate := { cur : pset; stored : option St }.

Definition value (x : ovec) (s : ostate) : option ostate :=
  bind (update (cur s) x) (fun q => Some {| cur := q; stored := Some (fwd q) |}).
(** The result of the gradient: what the adjoint is linearised about. *)
Definition gradient (x : ovec) (s : ostate) : option (ostate * (pset * option St)) :=
  bind (is_new (cur s) x) (fun b =>
  bind (if b then value x s else Some s) (fun s' => Some (s', (cur s', stored s')))).

Inductive call := Value (x : ovec) | Gradient (x : ovec).
Definition exec (c : call) (s : ostate) : option (ostate * option (pset * option St)) :=
  match c with
  | Value x => bind (value x s) (fun s' => Some (s', None))
  | Gradient x => bind (gradient x s) (fun r => Some (fst r, Some (snd r)))
  end.
Fixpoint run (cs : list call) (s : ostate) : option (ostate * list (option (pset * option St))) :=
  match cs with
  | [] => Some (s, [])
  | c :: cs => bind (exec c s) (fun r => bind (run cs (fst r)) (fun t => Some (fst t, snd r :: snd t)))
  end.
End Deterministic.
Arguments ostate : clear implicits.

Section Stochastic.
Context {St : Type}.
Variable fwd : pset -> list R -> St.     (* parameters, sample *)
Variable zero_st : St.                   (* new vectors *)
Variable samples : list (list R).

Record sstate := { scur : pset; sample : list R; cache : option (list St); sstored : option St }.

Definition dist2 (p q : list R) : R := rsum (map (fun k => (nth k p 0 - nth k q 0) ^ 2) (seq 0 (length p))).
(** IdentifySample; None is -1, used as an index. *)
Fixpoint identify (l : list (list R)) (i : nat) (param : list R) : option nat :=
  match l with
  | [] => None
  | p :: l => if rltb (dist2 p param) (/ 10 ^ 14) then Some i else identify l (S i) param
  end.

Fixpoint set_at {A} (i : nat) (a : A) (l : list A) : list A :=
  match l, i with [], _ => [] | _ :: l, O => a :: l | b :: l, S i => b :: set_at i a l end.

Definition cache_state (i : nat) (st : St) (c : option (list St)) : option (list St) :=
  Some (set_at i st (match c with Some l => l | None => repeat zero_st (length samples) end)).

Definition set_parameter (p : list R) (s : sstate) : sstate :=
  {| scur := scur s; sample := p; cache := cache s; sstored := sstored s |}.
Definition svalue (x : ovec) (s : sstate) : option sstate :=
  bind (update (scur s) x) (fun q =>
  bind (identify samples 0 (sample s)) (fun i =>
  Some {| scur := q; sample := sample s; cache := cache_state i (fwd q (sample s)) (cache s); sstored := Some (fwd q (sample s)) |})).
(** Set_State: an empty cache is indexed out of range. *)
Definition set_state (i : nat) (s : sstate) : option sstate :=
  bind (cache s) (fun l => bind (nth_error l i) (fun st =>
  Some {| scur := scur s; sample := sample s; cache := cache s; sstored := Some st |})).
Definition sgradient (x : ovec) (s : sstate) : option (sstate * (pset * list R * option St)) :=
  bind (is_new (scur s) x) (fun b =>
  bind (identify samples 0 (sample s)) (fun i =>
  bind (if b then svalue x s else set_state i s) (fun s' => Some (s', (scur s', sample s', sstored s'))))).

Inductive scall := SSample (p : list R) | SValue (x : ovec) | SGradient (x : ovec).
Definition sexec (c : scall) (s : sstate) : option (sstate * option (pset * list R * option St)) :=
  match c with
  | SSample p => Some (set_parameter p s, None)
  | SValue x => bind (svalue x s) (fun s' => Some (s', None))
  | SGradient x => bind (sgradient x s) (fun r => Some (fst r, Some (snd r)))
  end.
Fixpoint srun (cs : list scall) (s : sstate) : option (sstate * list (option (pset * list R * option St))) :=
  match cs with
  | [] => Some (s, [])
  | c :: cs => bind (sexec c s) (fun r => bind (srun cs (fst r)) (fun t => Some (fst t, snd r :: snd t)))
  end.
End Stochastic.
Arguments sstate : clear implicits.
