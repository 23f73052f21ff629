(** Model of the evaluation of decomposed functions with their storage classes.

    Sources (under /repo/src):
      managers/function/functionManager_evaluate.hpp:13-52    (evaluate by name)
      managers/function/functionManager_evaluate.hpp:58-229   (evaluate a branch)
      managers/function/functionManager_evaluate.hpp:235-565  (evaluateOpVToV)
      managers/function/functionManager_evaluate.hpp:567-886  (evaluateOpParamToV)
      managers/function/functionManager_evaluate.hpp:888-1237 (evaluateOpSToV)
      managers/function/functionManager_evaluate.hpp:1240-1357 (evaluateOpSToS)
      managers/function/functionManager_create.hpp:502-551    (constants at setup)
      tools/dag.hpp:163-215 (setupVista, updateVista)

    A view is a function of element and point; all the views of a forest have the
    extents of the forest ([dim1] points per element, at least one), so the minima
    of extents taken by evaluateOpVToV are not represented. *)
From Coq Require Import Ascii String Bool Arith Lia List.
From Verif Require Import Outcome Interp_Model Flat_Model FuncMan_Model.
Import ListNotations.

Section Eval.
Context {V : Type} (O : ops V).

(** Exponent handled by repeated multiplication in evaluateOpSToV
    (lines 952-966: within 1e-12 of 2, 3 or 4), as the number of factors. *)
Variable near : V -> option nat.
Variable dim1 : nat.
(** [(ScalarT)dim1] *)
Variable of_nat : nat -> V.

Definition field := nat -> nat -> V.

Definition plain_funs : list str :=
  List.map s_ ["sin"; "cos"; "exp"; "log"; "tan"; "sinh"; "cosh"]%string.

(** acc = base; for (j=1; j<n; ++j) acc = acc*base; *)
Fixpoint unrolled (n : nat) (x : V) : V :=
  match n with
  | 0 => x
  | 1 => x
  | S m => o_mul O (unrolled m x) x
  end.

(** Pointwise part of the four operator tables. *)

(** evaluateOpVToV at one point, lines 235-565. *)
Definition ptVV (op : str) (d t : V) : V :=
  if seq_str op [] then t
  else if seq_str op (s_ "plus") then o_add O d t
  else if seq_str op (s_ "minus") then o_add O d (o_neg O t)
  else if seq_str op (s_ "times") then o_mul O d t
  else if seq_str op (s_ "divide") then o_div O d t
  else if seq_str op (s_ "power") then o_pow O d t
  else if seq_str op (s_ "abs") then (if o_gt O (o_zero O) t then o_neg O t else t)
  else if seq_str op (s_ "sqrt") then
         (if o_ge O (o_zero O) t then o_zero O else o_fun O op t)
  else if mem op plain_funs then o_fun O op t
  else if seq_str op (s_ "max") then (if o_gt O t d then t else d)
  else if seq_str op (s_ "min") then (if o_gt O d t then t else d)
  else if seq_str op (s_ "mean") then o_add O (o_mul O (o_half O) d) (o_mul O (o_half O) t)
  else if seq_str op (s_ "lt") then (if o_gt O t d then o_one O else o_zero O)
  else if seq_str op (s_ "lte") then (if o_ge O t d then o_one O else o_zero O)
  else if seq_str op (s_ "gt") then (if o_gt O d t then o_one O else o_zero O)
  else if seq_str op (s_ "gte") then (if o_ge O d t then o_one O else o_zero O)
  else d.

(** evaluateOpParamToV at one point, lines 567-886. *)
Definition ptPV (op : str) (d t : V) : V :=
  if seq_str op [] then t
  else if seq_str op (s_ "plus") then o_add O d t
  else if seq_str op (s_ "minus") then o_add O d (o_neg O t)
  else if seq_str op (s_ "times") then o_mul O d t
  else if seq_str op (s_ "divide") then o_div O d t
  else if seq_str op (s_ "power") then o_pow O d t
  else if seq_str op (s_ "abs") then (if o_gt O (o_zero O) t then o_neg O t else t)
  else if seq_str op (s_ "sqrt") then
         (if o_ge O (o_zero O) t then o_zero O else o_fun O op t)
  else if mem op plain_funs then o_fun O op t
  else if seq_str op (s_ "max") then (if o_gt O t d then t else d)
  else if seq_str op (s_ "min") then (if o_gt O d t then t else d)
  else if seq_str op (s_ "mean") then o_add O (o_mul O (o_half O) d) (o_mul O (o_half O) t)
  else if seq_str op (s_ "lt") then (if o_gt O t d then o_one O else o_zero O)
  else if seq_str op (s_ "lte") then (if o_ge O t d then o_one O else o_zero O)
  else if seq_str op (s_ "gt") then (if o_gt O d t then o_one O else o_zero O)
  else if seq_str op (s_ "gte") then (if o_ge O d t then o_one O else o_zero O)
  else d.

(** evaluateOpSToV at one point, lines 888-1237.  Small integer exponents are
    unrolled; the guard of sqrt is strict. *)
Definition ptSV (op : str) (d t : V) : V :=
  if seq_str op [] then t
  else if seq_str op (s_ "plus") then o_add O d t
  else if seq_str op (s_ "minus") then o_add O d (o_neg O t)
  else if seq_str op (s_ "times") then o_mul O d t
  else if seq_str op (s_ "divide") then o_div O d t
  else if seq_str op (s_ "power") then (match near t with
       | Some n => unrolled n d
       | None => o_pow O d t
       end)
  else if seq_str op (s_ "abs") then (if o_gt O (o_zero O) t then o_neg O t else t)
  else if seq_str op (s_ "sqrt") then
         (if o_gt O (o_zero O) t then o_zero O else o_fun O op t)
  else if mem op plain_funs then o_fun O op t
  else if seq_str op (s_ "max") then (if o_gt O t d then t else d)
  else if seq_str op (s_ "min") then (if o_gt O d t then t else d)
  else if seq_str op (s_ "mean") then o_add O (o_mul O (o_half O) d) (o_mul O (o_half O) t)
  else if seq_str op (s_ "lt") then (if o_gt O t d then o_one O else o_zero O)
  else if seq_str op (s_ "lte") then (if o_ge O t d then o_one O else o_zero O)
  else if seq_str op (s_ "gt") then (if o_gt O d t then o_one O else o_zero O)
  else if seq_str op (s_ "gte") then (if o_ge O d t then o_one O else o_zero O)
  else d.

(** evaluateOpSToS, lines 1240-1357, without the three reductions. *)
Definition ptSS (op : str) (d t : V) : V :=
  if seq_str op [] then t
  else if seq_str op (s_ "plus") then o_add O d t
  else if seq_str op (s_ "minus") then o_add O d (o_neg O t)
  else if seq_str op (s_ "times") then o_mul O d t
  else if seq_str op (s_ "divide") then o_div O d t
  else if seq_str op (s_ "power") then o_pow O d t
  else if seq_str op (s_ "abs") then (if o_gt O (o_zero O) t then o_neg O t else t)
  else if seq_str op (s_ "sqrt") then
         (if o_ge O (o_zero O) t then o_zero O else o_fun O op t)
  else if mem op plain_funs then o_fun O op t
  else if seq_str op (s_ "max") then (if o_gt O t d then t else d)
  else if seq_str op (s_ "min") then (if o_gt O d t then t else d)
  else if seq_str op (s_ "mean") then o_add O (o_mul O (o_half O) d) (o_mul O (o_half O) t)
  else if seq_str op (s_ "lt") then (if o_gt O t d then o_one O else o_zero O)
  else if seq_str op (s_ "lte") then (if o_ge O t d then o_one O else o_zero O)
  else if seq_str op (s_ "gt") then (if o_gt O d t then o_one O else o_zero O)
  else if seq_str op (s_ "gte") then (if o_ge O d t then o_one O else o_zero O)
  else d.

(** Reductions over the points of an element, lines 413-458.  Loops over n with
    data(e,0) as accumulator. *)
Definition emax_row (r : nat -> V) : V :=
  fold_left (fun a n => if o_gt O (r n) (r 0) then r n else a) (seq 0 dim1) (r 0).
Definition emin_row (r : nat -> V) : V :=
  fold_left (fun a n => if o_gt O (r 0) (r n) then r n else a) (seq 0 dim1) (r 0).
Definition emean_row (r : nat -> V) : V :=
  fold_left (fun a n => o_add O a (o_div O (r n) (of_nat dim1))) (seq 0 dim1)
            (o_div O (r 0) (of_nat dim1)).

(** The four tables on whole views. *)
Definition opVV (op : str) (d t : field) : field :=
  if seq_str op (s_ "emax") then fun e _ => emax_row (t e)
  else if seq_str op (s_ "emin") then fun e _ => emin_row (t e)
  else if seq_str op (s_ "emean") then fun e _ => emean_row (t e)
  else fun e p => ptVV op (d e p) (t e p).

Definition is_reduction (op : str) : bool :=
  mem op (List.map s_ ["emax"; "emin"; "emean"]%string).

Definition opPV (op : str) (d : field) (t : V) : field :=
  if is_reduction op then fun _ _ => t else fun e p => ptPV op (d e p) t.

Definition opSV (op : str) (d : field) (t : V) : field :=
  if is_reduction op then fun _ _ => t else fun e p => ptSV op (d e p) t.

Definition opSS (op : str) (d t : V) : V :=
  if is_reduction op then t else ptSS op d t.

(** What a branch holds after evaluation: data_Sc_, viewdata_Sc_, viewdata_, or (for
    a parameter) param_data_(param_index_) next to an allocated but never written
    viewdata_. *)
Inductive operand :=
| OSc (v : V)
| OView (f : field)
| OAD (f : field)
| OPar (v : V).

(** Data available to the leaves: fields, parameters, time, numbers.  [w_unset] is
    the indeterminate content of data_Sc_ of a known variable without data. *)
Record world := {
  w_soln : nat -> field;
  w_scal : nat -> field;
  w_par : nat -> nat -> V;
  w_pardot : nat -> nat -> V;
  w_time : V;
  w_unset : str -> V
}.

(** Numbers and pi do not change between evaluations. *)
Variable num : str -> V.
Variable pi_ : V.

Definition leaf_operand (w : world) (l : leaf) : option operand :=
  match l with
  | LSoln j => Some (OAD (w_soln w j))
  | LScal j => Some (OView (w_scal w j))
  | LPar j k => Some (OPar (w_par w j k))
  | LParDot j k => Some (OPar (w_pardot w j k))
  | LNum s => Some (OSc (num s))
  | LTime => Some (OSc (w_time w))
  | LPi => Some (OSc pi_)
  | LUnset s => Some (OSc (w_unset w s))
  | LFun _ => None
  end.

(** Content of the storage of a branch before it is evaluated: arbitrary. *)
Variable stale_sc : V.
Variable stale_view : field.

(** Fresh allocation: Kokkos views are zero-initialised. *)
Definition zero_view : field := fun _ _ => o_zero O.

Definition merge (st g : flags) : flags :=
  {| f_const := if f_const g then f_const st else false;
     f_view := if f_view g then true else f_view st;
     f_AD := if f_AD g then true else f_AD st |}.

(** Flags of a branch by checkDepDataType, here on the inductive tree; [fl j] are
    the flags of definition j. *)
Section Ctx.
Variable fl : nat -> option flags.      (* flags of the other definitions *)
Variable fr : nat -> option operand.    (* content of their branch 0 after evaluation *)
Variable w : world.

Fixpoint tflags (t : tree) (st : flags) : option flags :=
  match t with
  | Leaf (LFun j) => match fl j with Some g => Some (merge st g) | None => None end
  | Leaf l => Some (add_leaf l st)
  | Node d =>
      fold_left (fun acc x => match acc with Some s => tflags (snd x) s | None => None end)
                d (Some st)
  end.

(** Copy from branch 0 of a function, lines 116-136: which member is copied depends
    on the flags of the copying branch.  A parameter has an allocated, zero
    viewdata_. *)
Definition copy (g : flags) (o : operand) : option operand :=
  if f_AD g then
    if f_view g then
      match o with
      | OAD f => Some (OAD f)
      | OPar _ => Some (OAD zero_view)
      | _ => None
      end
    else None                             (* data_ is never used: see C10 proofs *)
  else if f_view g then match o with OView f => Some (OView f) | _ => None end
  else match o with OSc v => Some (OSc v) | _ => None end.

(** One dependency, lines 144-226.  Combinations marked "error" in the code leave
    the data unchanged. *)
Definition step (data : operand) (op : str) (term : operand) : operand :=
  match data, term with
  | OAD d, OPar v => OAD (opPV op d v)
  | OAD d, OAD t => OAD (opVV op d t)
  | OAD d, OView t => OAD (opVV op d t)
  | OAD d, OSc v => OAD (opSV op d v)
  | OView d, OView t => OView (opVV op d t)
  | OView d, OSc v => OView (opSV op d v)
  | OSc d, OSc v => OSc (opSS op d v)
  | _, _ => data
  end.

Definition start (g : flags) : operand :=
  if f_view g then if f_AD g then OAD stale_view else OView stale_view
  else OSc stale_sc.

Fixpoint teval (t : tree) : option operand :=
  match t with
  | Leaf (LFun j) =>
      match fl j, fr j with
      | Some g, Some o => copy (merge flags0 g) o
      | _, _ => None
      end
  | Leaf l => leaf_operand w l
  | Node d =>
      match tflags (Node d) flags0 with
      | None => None
      | Some g =>
          fold_left (fun acc x =>
                       match acc, teval (snd x) with
                       | Some data, Some term => Some (step data (fst x) term)
                       | _, _ => None
                       end) d (Some (start g))
      end
  end.
End Ctx.

(** Definitions of one forest; references between them are followed at most [fuel]
    times ([None] afterwards; C08 excludes it for accepted definitions). *)
Variable Ts : list tree.

Fixpoint fflags (fuel j : nat) : option flags :=
  match fuel with
  | 0 => None
  | S n => match nth_error Ts j with
           | Some t => tflags (fflags n) t flags0
           | None => None
           end
  end.

Fixpoint froot (w : world) (fuel j : nat) : option operand :=
  match fuel with
  | 0 => None
  | S n => match nth_error Ts j with
           | Some t => teval (fflags n) (froot w n) w t
           | None => None
           end
  end.

(** Value handed to the caller, lines 13-52 with setupVista/updateVista: a constant
    keeps the value computed at setup (in the world [w0] of that time), anything else
    is evaluated now; a parameter at the root is read from param_data_. *)
Definition vista (w0 w : world) (fuel j : nat) : option field :=
  match fflags fuel j with
  | None => None
  | Some g =>
      match froot (if f_const g then w0 else w) fuel j with
      | Some (OSc v) => Some (fun _ _ => v)
      | Some (OView f) => Some f
      | Some (OAD f) => Some f
      | Some (OPar v) => Some (fun _ _ => v)
      | None => None
      end
  end.

End Eval.

Arguments OSc {V}. Arguments OView {V}. Arguments OAD {V}. Arguments OPar {V}.
