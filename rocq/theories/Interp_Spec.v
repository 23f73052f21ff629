(** Independent specification of the expression language: abstract syntax,
    printer with minimal parentheses, denotation.  Nothing here refers to the
    scanner; only the types of strings, environments and operations are shared. *)

From Coq Require Import List Ascii String Bool ZArith Arith Lia.
From Verif Require Import Interp_Model.
Import ListNotations.

Inductive bop := BAdd | BSub | BMul | BDiv | BLt | BGt | BPow.

Inductive expr :=
| Num (s : str)                    (* numeral *)
| Var (s : str)                    (* name of a field, parameter or function *)
| Par (a : expr)                   (* explicit parentheses *)
| Neg (a : expr)                   (* leading minus *)
| Bin (o : bop) (a b : expr)
| Fn (f : str) (a : expr)          (* elementary function of one argument *)
| Fn2 (f : str) (a b : expr).      (* max, min, mean *)

Definition bsym (o : bop) : ascii :=
  match o with
  | BAdd => "+" | BSub => "-" | BMul => "*" | BDiv => "/"
  | BLt => "<" | BGt => ">" | BPow => "^"
  end%char.

Definition blev (o : bop) : nat :=
  match o with
  | BAdd | BSub => 1
  | BMul | BDiv | BLt | BGt => 2
  | BPow => 3
  end.

(** A numeral is any text made of an optional sign, digits, at most one dot, and
    at most one exponent mark; it is plain when it has no sign (neither in front
    nor in the exponent) and does not end in the exponent mark. *)
Definition plain_num (s : str) : bool :=
  negb (existsb (fun c => aeq c "+"%char || aeq c "-"%char) s)
  && negb (is_e (last s "0"%char)).

(** Binding strength: 0 needs parentheses everywhere, 4 nowhere. *)
Definition lev (e : expr) : nat :=
  match e with
  | Num s => if plain_num s then 4 else 0
  | Var _ | Par _ | Fn _ _ | Fn2 _ _ _ => 4
  | Neg _ => 1
  | Bin o _ _ => blev o
  end.

Definition wrap (b : bool) (s : str) : str :=
  if b then ["("%char] ++ s ++ [")"%char] else s.

Fixpoint pr (e : expr) : str :=
  match e with
  | Num s => s
  | Var s => s
  | Par a => wrap true (pr a)
  | Neg a => "-"%char :: wrap (lev a <? 2)%nat (pr a)
  | Bin o a b =>
      wrap (lev a <? blev o)%nat (pr a) ++ [bsym o]
        ++ wrap (lev b <? S (blev o))%nat (pr b)
  | Fn f a => f ++ wrap true (pr a)
  | Fn2 f a b => f ++ wrap true (pr a ++ [","%char] ++ pr b)
  end.

(** Denotation: the usual recursive value. *)
Section Den.
Context {V : Type} (O : ops V).
Variable num : str -> V.          (* value of a numeral *)
Variable nv : str -> V.           (* value of a name *)

Definition den_bin (o : bop) (x y : V) : V :=
  match o with
  | BAdd => o_add O x y
  | BSub => o_add O x (o_neg O y)
  | BMul => o_mul O x y
  | BDiv => o_div O x y
  | BPow => o_pow O x y
  | BLt => if o_gt O y x then o_one O else o_zero O
  | BGt => if o_gt O x y then o_one O else o_zero O
  end.

Definition den_fn2 (f : str) (x y : V) : V :=
  if seq_str f (s_ "max") then (if o_gt O y x then y else x)
  else if seq_str f (s_ "min") then (if o_gt O x y then y else x)
  else o_add O (o_mul O (o_half O) x) (o_mul O (o_half O) y).

Fixpoint den (e : expr) : V :=
  match e with
  | Num s => num s
  | Var s => nv s
  | Par a => den a
  | Neg a => o_add O (num (s_ "0.0")) (o_neg O (den a))
  | Bin o a b => den_bin o (den a) (den b)
  | Fn f a => o_fun O f (den a)
  | Fn2 f a b => den_fn2 f (den a) (den b)
  end.
End Den.

(** Nesting: running depth of a text. *)
Definition pval (c : ascii) : Z :=
  if aeq c "("%char then 1%Z else if aeq c ")"%char then (-1)%Z else 0%Z.

Fixpoint bal (s : str) : Z :=
  match s with [] => 0%Z | c :: r => (pval c + bal r)%Z end.

Definition nested (s : str) : Prop :=
  bal s = 0%Z /\ forall u v, s = u ++ v -> (0 <= bal u)%Z.

Definition special (c : ascii) : bool :=
  existsb (aeq c) (list_ascii_of_string "+-*/^<>=, ").

Fixpoint starts_with (p s : str) : bool :=
  match p, s with
  | [], _ => true
  | x :: p', y :: s' => aeq x y && starts_with p' s'
  | _ :: _, [] => false
  end.

(** Texts that can serve as names: properly nested, no operator, comma, blank or
    '=', not a numeral, not starting like an application of a known function or
    a parenthesis.  Examples: [x], [e_t], [grad(u)[x]], [p(3)]. *)
Definition name_ok (s : str) : Prop :=
  nested s /\ (forall c, In c s -> special c = false)
  /\ isScalar s = false
  /\ starts_with ["("%char] s = false
  /\ (forall f, In f known_ops -> starts_with (f ++ ["("%char]) s = false).

(** Names declared by the user: all of the above; parameters are not called like
    a known function (otherwise [sin(3)] would mean a component of it). *)
Definition env_ok (E : env) : Prop :=
  (forall s, In s (e_soln E) -> name_ok s)
  /\ (forall s, In s (e_scal E) -> name_ok s)
  /\ (forall s, In s (e_fun E) -> name_ok s)
  /\ (forall s, In s (e_par E) -> name_ok s /\ ~ In s known_ops).

Definition fn2_names : list str := List.map s_ ["max"; "min"; "mean"]%string.

(** Well-formed expressions over the names of [E].  The arguments of a
    two-argument function must be free of closing parentheses. *)
Fixpoint wf (E : env) (e : expr) : Prop :=
  match e with
  | Num s => isScalar s = true /\ mantissa_has_digit s = true
  | Var s => name_ok s /\ exists l, classify E s = Some (Ok l)
  | Par a | Neg a => wf E a
  | Bin _ a b => wf E a /\ wf E b
  | Fn f a => In f unary_ops /\ wf E a
  | Fn2 f a b => In f fn2_names /\ wf E a /\ wf E b
                 /\ ~ In ")"%char (pr a) /\ ~ In ")"%char (pr b)
  end.

Fixpoint vars (e : expr) : list str :=
  match e with
  | Num _ => []
  | Var s => [s]
  | Par a | Neg a | Fn _ a => vars a
  | Bin _ a b | Fn2 _ a b => vars a ++ vars b
  end.

(** Height of the syntax tree; operators count twice because an operand may need
    parentheses. *)
Fixpoint height (e : expr) : nat :=
  match e with
  | Num _ | Var _ => 1
  | Par a | Fn _ a => 1 + height a
  | Neg a => 2 + height a
  | Bin _ a b => 2 + Nat.max (height a) (height b)
  | Fn2 _ a b => 1 + Nat.max (height a) (height b)
  end.
