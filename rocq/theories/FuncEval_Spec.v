(** What a set of definitions is worth at a point, without storage classes: every
    leaf is a field, every operator acts point by point (element maximum and minimum
    act on the rows).  [None]: a never-set variable is read or the references do not
    end within the given depth. *)
From Coq Require Import Ascii String Bool Arith Lia List.
From Verif Require Import Outcome Interp_Model FuncMan_Model FuncEval_Model.
Import ListNotations.

Section Spec.
Context {V : Type} (O : ops V) (dim1 : nat) (num : str -> V) (pi_ : V).
Notation field := (nat -> nat -> V).

(** Square root of a negative number is zero; absolute value by cases. *)
Definition guarded : ops V :=
  {| o_zero := o_zero O; o_add := o_add O; o_neg := o_neg O; o_mul := o_mul O;
     o_div := o_div O; o_pow := o_pow O;
     o_fun := fun f x =>
       if seq_str f (s_ "sqrt") then if o_ge O (o_zero O) x then o_zero O else o_fun O f x
       else if seq_str f (s_ "abs") then if o_gt O (o_zero O) x then o_neg O x else x
       else o_fun O f x;
     o_gt := o_gt O; o_ge := o_ge O; o_one := o_one O; o_half := o_half O |}.

Definition fop (op : str) (f g : field) : field :=
  if seq_str op (s_ "emax") then fun e _ => emax_row O dim1 (g e)
  else if seq_str op (s_ "emin") then fun e _ => emin_row O dim1 (g e)
  else fun e p => apply_op guarded op (f e p) (g e p).

Definition lval (w : world (V:=V)) (l : leaf) : option field :=
  match l with
  | LSoln j => Some (w_soln w j)
  | LScal j => Some (w_scal w j)
  | LPar j k => Some (fun _ _ => w_par w j k)
  | LParDot j k => Some (fun _ _ => w_pardot w j k)
  | LNum s => Some (fun _ _ => num s)
  | LTime => Some (fun _ _ => w_time w)
  | LPi => Some (fun _ _ => pi_)
  | LUnset _ => None
  | LFun _ => None
  end.

Section Ctx.
Variable w : world (V:=V).
Variable ff : nat -> option field.
Fixpoint fe (t : tree) : option field :=
  match t with
  | Leaf (LFun j) => ff j
  | Leaf l => lval w l
  | Node d =>
      fold_left (fun acc x =>
                   match acc, fe (snd x) with
                   | Some a, Some b => Some (fop (fst x) a b)
                   | _, _ => None
                   end) d (Some (fun _ _ => o_zero O))
  end.
End Ctx.

Variable Ts : list tree.
Fixpoint ffield (w : world) (depth j : nat) : option field :=
  match depth with
  | 0 => None
  | S n => match nth_error Ts j with
           | Some t => fe w (ffield w n) t
           | None => None
           end
  end.

End Spec.

(** The first operation of every node overwrites the storage of the node. *)
Definition overwrites (op : str) : bool :=
  seq_str op [] || mem op unary_ops || is_reduction op.

Fixpoint clean (t : tree) : bool :=
  match t with
  | Leaf _ => true
  | Node d =>
      match d with [] => false | x :: _ => overwrites (fst x) end
      && forallb (fun x => clean (snd x)) d
  end.

Fixpoint no_op (o : str) (t : tree) : bool :=
  match t with
  | Leaf _ => true
  | Node d => forallb (fun x => negb (seq_str (fst x) o) && no_op o (snd x)) d
  end.

Definition bare_parameter (t : tree) : bool :=
  match t with Leaf (LPar _ _) | Leaf (LParDot _ _) => true | _ => false end.
