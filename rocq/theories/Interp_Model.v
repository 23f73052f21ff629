(** Model of the expression interpreter and of the decomposition of function
    definitions.

    Sources (all under /repo/src):
      tools/interpreter.cpp                         (isScalar, split, isOperator)
      managers/function/functionManager_create.hpp  (decomposeFunctions)
      managers/function/functionManager_evaluate.hpp (evaluate, evaluateOpVToV etc.)

    A C++ [std::string] is a [list ascii].  Exceptions and undefined behaviour
    are distinct outcomes. *)

From Coq Require Import List Ascii String Bool ZArith Arith Lia.
From Verif Require Export Outcome.
Import ListNotations.

Definition str := list ascii.

(** Literal helper: [s_ "abc"]. *)
Definition s_ (s : string) : str := list_ascii_of_string s.

Definition aeq (a b : ascii) : bool := Ascii.eqb a b.

Fixpoint seq_str (a b : str) : bool :=
  match a, b with
  | [], [] => true
  | x :: a', y :: b' => aeq x y && seq_str a' b'
  | _, _ => false
  end.

Definition is_digit (c : ascii) : bool :=
  let n := nat_of_ascii c in (48 <=? n)%nat && (n <=? 57)%nat.

Definition is_e (c : ascii) : bool := aeq c "e"%char || aeq c "E"%char.

(* ------------------------------------------------------------------ *)
(** ** isScalar — tools/interpreter.cpp:17-58.
    [prev] is [s[k-1]] ([None] at k = 0).  As in the code the flag is only ever
    cleared and the scan always runs to the end. *)
Fixpoint isScalar_scan (s : str) (prev : option ascii) (numdots nume : nat)
         (isnum : bool) : bool :=
  match s with
  | [] => isnum
  | c :: r =>
      if is_digit c then isScalar_scan r (Some c) numdots nume isnum
      else if aeq c "."%char then
        if (numdots =? 0)%nat
        then isScalar_scan r (Some c) (numdots + 1) nume isnum
        else isScalar_scan r (Some c) numdots nume false
      else if is_e c then
        if (nume =? 0)%nat
        then isScalar_scan r (Some c) numdots (nume + 1) isnum
        else isScalar_scan r (Some c) numdots nume false
      else if aeq c "+"%char || aeq c "-"%char then
        match prev with
        | None => isScalar_scan r (Some c) numdots nume isnum
        | Some p => if is_e p then isScalar_scan r (Some c) numdots nume isnum
                    else isScalar_scan r (Some c) numdots nume false
        end
      else isScalar_scan r (Some c) numdots nume false
  end.

Definition isScalar (s : str) : bool := isScalar_scan s None 0 0 true.

(* ------------------------------------------------------------------ *)
(** ** split — tools/interpreter.cpp:64-351. *)

(** A dependency: operator name and text of the new branch
    ([dep_ops_], [dep_list_] + [branches.push_back]). *)
Definition dep : Type := (str * str)%type.

Record counts := { c_pm : nat; c_mdp : nat; c_pow : nat }.

Definition is_pm (c : ascii) : bool := aeq c "+"%char || aeq c "-"%char.
Definition is_mdp (c : ascii) : bool :=
  aeq c "*"%char || aeq c "/"%char || aeq c "<"%char || aeq c ">"%char.
Definition is_pow (c : ascii) : bool := aeq c "^"%char.

(** Counting loop, interpreter.cpp:98-119. *)
Fixpoint count_loop (s : str) (paren : Z) (n : counts) : counts :=
  match s with
  | [] => n
  | c :: r =>
      if aeq c "("%char then count_loop r (paren + 1)%Z n
      else if aeq c ")"%char then count_loop r (paren - 1)%Z n
      else if (paren =? 0)%Z then
        count_loop r paren
          {| c_pm  := if is_pm c then c_pm n + 1 else c_pm n;
             c_mdp := if is_mdp c then c_mdp n + 1 else c_mdp n;
             c_pow := if is_pow c then c_pow n + 1 else c_pow n |}
      else count_loop r paren n
  end.

Definition zero_counts := {| c_pm := 0; c_mdp := 0; c_pow := 0 |}.

Definition nonempty (s : str) : bool :=
  match s with [] => false | _ => true end.

(** Sum loop, interpreter.cpp:122-179: blanks and '=' are skipped at every
    depth.  The code tests [i == s.length()-1] at the end of each round; since
    the string is not empty this is the test for the end of the list. *)
Fixpoint pm_loop (s : str) (paren : Z) (cur op : str) (acc : list dep)
  : list dep * Z :=
  match s with
  | [] => (if nonempty cur then acc ++ [(op, cur)] else acc, paren)
  | c :: r =>
      if aeq c " "%char then pm_loop r paren cur op acc
      else if aeq c "="%char then pm_loop r paren cur op acc
      else if aeq c "("%char then pm_loop r (paren + 1)%Z (cur ++ [c]) op acc
      else if aeq c ")"%char then pm_loop r (paren - 1)%Z (cur ++ [c]) op acc
      else if (paren =? 0)%Z && aeq c "+"%char && nonempty cur
        then pm_loop r paren [] (s_ "plus") (acc ++ [(op, cur)])
      else if (paren =? 0)%Z && aeq c "-"%char && nonempty cur
        then pm_loop r paren [] (s_ "minus") (acc ++ [(op, cur)])
      else pm_loop r paren (cur ++ [c]) op acc
  end.

(** Product / comparison loop, interpreter.cpp:180-267.  ['<'] followed by ['=']
    consumes two characters ([++i]).  The last branch is pushed even if empty. *)
Fixpoint mdp_loop (s : str) (paren : Z) (cur op : str) (acc : list dep)
  : list dep * Z :=
  match s with
  | [] => (acc ++ [(op, cur)], paren)
  | c :: r =>
      if aeq c " "%char then mdp_loop r paren cur op acc
      else if aeq c "("%char then mdp_loop r (paren + 1)%Z (cur ++ [c]) op acc
      else if aeq c ")"%char then mdp_loop r (paren - 1)%Z (cur ++ [c]) op acc
      else if (paren =? 0)%Z && aeq c "*"%char
        then mdp_loop r paren [] (s_ "times") (acc ++ [(op, cur)])
      else if (paren =? 0)%Z && aeq c "/"%char
        then mdp_loop r paren [] (s_ "divide") (acc ++ [(op, cur)])
      else if (paren =? 0)%Z && aeq c "<"%char
        then match r with
             | d :: r' => if aeq d "="%char
                          then mdp_loop r' paren [] (s_ "lte") (acc ++ [(op, cur)])
                          else mdp_loop r paren [] (s_ "lt") (acc ++ [(op, cur)])
             | [] => mdp_loop r paren [] (s_ "lt") (acc ++ [(op, cur)])
             end
      else if (paren =? 0)%Z && aeq c ">"%char
        then match r with
             | d :: r' => if aeq d "="%char
                          then mdp_loop r' paren [] (s_ "gte") (acc ++ [(op, cur)])
                          else mdp_loop r paren [] (s_ "gt") (acc ++ [(op, cur)])
             | [] => mdp_loop r paren [] (s_ "gt") (acc ++ [(op, cur)])
             end
      else mdp_loop r paren (cur ++ [c]) op acc
  end.

(** Power loop, interpreter.cpp:268-305: no skipping of blanks. *)
Fixpoint pow_loop (s : str) (paren : Z) (cur op : str) (acc : list dep)
  : list dep * Z :=
  match s with
  | [] => (acc ++ [(op, cur)], paren)
  | c :: r =>
      if aeq c "("%char then pow_loop r (paren + 1)%Z (cur ++ [c]) op acc
      else if aeq c ")"%char then pow_loop r (paren - 1)%Z (cur ++ [c]) op acc
      else if (paren =? 0)%Z && aeq c "^"%char
        then pow_loop r paren [] (s_ "power") (acc ++ [(op, cur)])
      else pow_loop r paren (cur ++ [c]) op acc
  end.

Definition first_is (c : ascii) (s : str) : bool :=
  match s with x :: _ => aeq x c | [] => false end.

Fixpoint last_is (c : ascii) (s : str) : bool :=
  match s with
  | [] => false
  | [x] => aeq x c
  | _ :: r => last_is c r
  end.

(** Text before and after the first occurrence of [c]. *)
Fixpoint break_at (c : ascii) (s : str) : option (str * str) :=
  match s with
  | [] => None
  | x :: r => if aeq x c then Some ([], r)
              else match break_at c r with
                   | Some (a, b) => Some (x :: a, b)
                   | None => None
                   end
  end.

(** Last branch of split, interpreter.cpp:306-342: whole text in parentheses, or
    [name(text)].  The first '(' is searched for k in 1 .. length-2; position 0
    needs no separate treatment because [s[0] == '('] with a final ')' is the
    first case and without a final ')' nothing is pushed. *)
Definition wrap_case (s : str) : list dep :=
  if first_is "("%char s && last_is ")"%char s
  then [([], removelast (tl s))]
  else match s with
       | [] => []
       | x :: r =>
           match break_at "("%char (removelast r) with
           | Some (a, b) =>
               if last_is ")"%char s then [(x :: a, b)] else []
           | None => []
           end
       end.

Definition split (s0 : str) : outcome (list dep) :=
  let s := if first_is "-"%char s0 then s_ "0.0" ++ s0 else s0 in
  match s with
  | [] => Ok []
  | [c] => Ok [([], [c])]
  | _ =>
      let n := count_loop s 0 zero_counts in
      let '(deps, paren) :=
        if (0 <? c_pm n)%nat then pm_loop s 0 [] [] []
        else if (0 <? c_mdp n)%nat then mdp_loop s 0 [] [] []
        else if (0 <? c_pow n)%nat then pow_loop s 0 [] [] []
        else (wrap_case s, 0%Z) in
      if (0 <? paren)%Z then Exn
      else if (paren <? 0)%Z then Exn
      else Ok deps
  end.

(* ------------------------------------------------------------------ *)
(** ** isOperator — tools/interpreter.cpp:358-444. *)

Fixpoint drop_prefix (p s : str) : option str :=
  match p, s with
  | [], _ => Some s
  | x :: p', y :: s' => if aeq x y then drop_prefix p' s' else None
  | _ :: _, [] => None
  end.

Definition has (c : ascii) (s : str) : bool := existsb (aeq c) s.

(** [op_argument op s = Some u] iff s is op ++ "(" ++ u ++ ")" and u has no ')'
    (lines 368-399). *)
Definition op_argument (op s : str) : option str :=
  match drop_prefix op s with
  | Some (c :: r) =>
      if aeq c "("%char && last_is ")"%char r
         && negb (has ")"%char (removelast r))
      then Some (removelast r) else None
  | _ => None
  end.

Fixpoint find_op (ops : list str) (s : str) : option (str * str) :=
  match ops with
  | [] => None
  | op :: r => match op_argument op s with
               | Some u => Some (op, u)
               | None => find_op r s
               end
  end.

(** Split at the last comma (lines 404-425). *)
Fixpoint break_last (c : ascii) (s : str) : option (str * str) :=
  match s with
  | [] => None
  | x :: r => match break_last c r with
              | Some (a, b) => Some (x :: a, b)
              | None => if aeq x c then Some ([], r) else None
              end
  end.

(** The comma scan runs over indices < length-1; a comma in the last position is
    not seen.  For an empty argument [argument.length()-1] wraps around and the
    scan reads past the end: undefined behaviour. *)
Definition op_deps (op u : str) : outcome (list dep) :=
  match u with
  | [] => UB
  | _ => match break_last ","%char (removelast u) with
         | Some (a, b) => Ok [([], a); (op, b ++ [last u " "%char])]
         | None => Ok [(op, u)]
         end
  end.

Definition known_ops : list str :=
  List.map s_ ["sin"; "cos"; "exp"; "log"; "tan"; "abs"; "max"; "min"; "mean";
       "emax"; "emin"; "emean"; "sqrt"; "sinh"; "cosh"]%string.

Definition isOperator (s : str) : option (outcome (list dep)) :=
  match find_op known_ops s with
  | Some (op, u) => Some (op_deps op u)
  | None => None
  end.

(* ------------------------------------------------------------------ *)
(** ** Leaves — functionManager_create.hpp:106-459.
    The names visible at one location (one forest): AD fields, scalar fields,
    parameters and function names. *)
Record env := {
  e_soln : list str;      (* soln_fields of the location; [] for "tensor ip" *)
  e_scal : list str;      (* scalar_fields of the location *)
  e_par  : list str;      (* parameters_ *)
  e_fun  : list str       (* names of the trees of the forest *)
}.

Inductive leaf :=
| LSoln (j : nat)
| LScal (j : nat)
| LPar (j k : nat)        (* parameter j, component k *)
| LParDot (j k : nat)     (* its time derivative *)
| LFun (j : nat)          (* another tree of the same forest *)
| LNum (s : str)          (* std::stod(s) *)
| LTime
| LPi
| LUnset (s : str).       (* known variable without data: data_Sc_ never set *)

Fixpoint find_first (s : str) (l : list str) (j : nat) : option nat :=
  match l with
  | [] => None
  | x :: r => if seq_str s x then Some j else find_first s r (S j)
  end.

(** The loops over parameters and trees do not stop at a match: the last match
    is the one that stays. *)
Fixpoint find_last {A} (f : str -> option A) (l : list str) (j : nat)
  : option (nat * A) :=
  match l with
  | [] => None
  | x :: r => match find_last f r (S j) with
              | Some y => Some y
              | None => match f x with Some a => Some (j, a) | None => None end
              end
  end.

Definition digit_val (c : ascii) : nat := nat_of_ascii c - 48.

(** [p], [p(d)] or [p(dd)] — lines 242-306 (and 330-394 with [p_t]). *)
Definition param_match (s p : str) : option nat :=
  match drop_prefix p s with
  | Some [] => Some 0
  | Some [a; d; b] =>
      if aeq a "("%char && aeq b ")"%char && is_digit d
      then Some (digit_val d) else None
  | Some [a; d1; d2; b] =>
      if aeq a "("%char && aeq b ")"%char && is_digit d1 && is_digit d2
      then Some (10 * digit_val d1 + digit_val d2) else None
  | _ => None
  end.

Definition known_vars : list str :=
  List.map s_ ["x"; "y"; "z"; "u"; "v"; "w"; "t"; "pi"; "h"]%string.

(** std::stod throws std::invalid_argument when no conversion is possible, i.e.
    (for a text accepted by isScalar) when there is no digit before the first
    'e'.  Range errors are not modelled. *)
Fixpoint mantissa_has_digit (s : str) : bool :=
  match s with
  | [] => false
  | c :: r => if is_digit c then true
              else if is_e c then false
              else mantissa_has_digit r
  end.

Definition classify (E : env) (s : str) : option (outcome leaf) :=
  match find_first s (e_soln E) 0 with
  | Some j => Some (Ok (LSoln j))
  | None =>
  match find_first s (e_scal E) 0 with
  | Some j => Some (Ok (LScal j))
  | None =>
  match find_last (param_match s) (e_par E) 0 with
  | Some (j, k) => Some (Ok (LPar j k))
  | None =>
  match find_last (fun p => param_match s (p ++ s_ "_t")) (e_par E) 0 with
  | Some (j, k) => Some (Ok (LParDot j k))
  | None =>
  match find_last (fun f => if seq_str s f then Some tt else None) (e_fun E) 0 with
  | Some (j, _) => Some (Ok (LFun j))
  | None =>
      if isScalar s then
        if mantissa_has_digit s then Some (Ok (LNum s)) else Some Exn
      else match find_first s known_vars 0 with
           | Some _ => if seq_str s (s_ "t") then Some (Ok LTime)
                       else if seq_str s (s_ "pi") then Some (Ok LPi)
                       else Some (Ok (LUnset s))
           | None => None
           end
  end end end end end.

(** Texts that may stay without dependencies — lines 478. *)
Definition may_be_bare (s : str) : bool :=
  existsb (seq_str s)
    (List.map s_ ["n[x]"; "n[y]"; "n[z]"; "t[x]"; "t[y]"; "t[z]"]%string).

(* ------------------------------------------------------------------ *)
(** ** One decomposition step for one branch — functionManager_create.hpp:98-485. *)
Inductive step_result :=
| SLeaf (l : leaf)
| SDeps (d : list dep).

Definition decomp_step (E : env) (s : str) : outcome step_result :=
  match classify E s with
  | Some (Ok l) => Ok (SLeaf l)
  | Some Exn => Exn
  | Some UB => UB
  | None =>
      match isOperator s with
      | Some (Ok d) => Ok (SDeps d)
      | Some Exn => Exn
      | Some UB => UB
      | None =>
          match split s with
          | Ok [] => if may_be_bare s then Ok (SDeps []) else Exn
          | Ok d => Ok (SDeps d)
          | Exn => Exn
          | UB => UB
          end
      end
  end.

(** A decomposed definition. *)
Inductive tree :=
| Leaf (l : leaf)
| Node (d : list (str * tree)).

(** The whole decomposition of one tree — functionManager_create.hpp:84-500.
    In the code each round visits the branches that existed at the start of the
    round, so a branch of depth d is visited in round d+1; after [maxiter] = 100
    rounds an exception is raised.  Here: recursion with the number of remaining
    rounds.  The order in which branches of different subtrees are visited (and
    hence which of two exceptions comes first) is not represented; the flat,
    round-by-round version is in [Flat_Model]. *)
Fixpoint decomp (E : env) (rounds : nat) (s : str) : outcome tree :=
  match rounds with
  | 0 => Exn
  | S n =>
      match decomp_step E s with
      | Ok (SLeaf l) => Ok (Leaf l)
      | Ok (SDeps d) =>
          match map_outcome
                  (fun x => match decomp E n (snd x) with
                            | Ok t => Ok (fst x, t)
                            | Exn => Exn
                            | UB => UB
                            end) d with
          | Ok ts => Ok (Node ts)
          | Exn => Exn
          | UB => UB
          end
      | Exn => Exn
      | UB => UB
      end
  end.

Definition maxiter : nat := 100.

Definition decompose (E : env) (s : str) : outcome tree := decomp E maxiter s.

(* ------------------------------------------------------------------ *)
(** ** Evaluation at one point — functionManager_evaluate.hpp:58-229 with the
    operator tables of evaluateOpVToV / OpParamToV / OpSToV / OpSToS.

    The carrier and the elementary operations are parameters, so the results
    hold for doubles, AD types and reals alike.  emax/emin/emean couple points
    and are modelled in [FuncEval_Model]; at a single point they copy. *)
Record ops (V : Type) := {
  o_zero : V;                      (* value of freshly allocated data *)
  o_add : V -> V -> V;
  o_neg : V -> V;
  o_mul : V -> V -> V;
  o_div : V -> V -> V;
  o_pow : V -> V -> V;
  o_fun : str -> V -> V;           (* sin cos exp log tan abs sqrt sinh cosh *)
  o_gt  : V -> V -> bool;
  o_ge  : V -> V -> bool;
  o_one : V;
  o_half : V
}.
Arguments o_zero {V}. Arguments o_add {V}. Arguments o_neg {V}.
Arguments o_mul {V}. Arguments o_div {V}. Arguments o_pow {V}.
Arguments o_fun {V}. Arguments o_gt {V}. Arguments o_ge {V}.
Arguments o_one {V}. Arguments o_half {V}.

Definition unary_ops : list str :=
  List.map s_ ["sin"; "cos"; "exp"; "log"; "tan"; "abs"; "sqrt"; "sinh"; "cosh"]%string.

Definition mem (s : str) (l : list str) : bool := existsb (seq_str s) l.

Section Eval.
Context {V : Type} (O : ops V).

(** [data op= tdata]; an operator name that matches none of the tests leaves
    [data] as it is (functionManager_evaluate.hpp:235-1138). *)
Definition apply_op (op : str) (data tdata : V) : V :=
  if seq_str op [] then tdata
  else if seq_str op (s_ "plus") then o_add O data tdata
  else if seq_str op (s_ "minus") then o_add O data (o_neg O tdata)
  else if seq_str op (s_ "times") then o_mul O data tdata
  else if seq_str op (s_ "divide") then o_div O data tdata
  else if seq_str op (s_ "power") then o_pow O data tdata
  else if mem op unary_ops then o_fun O op tdata
  else if seq_str op (s_ "max") then (if o_gt O tdata data then tdata else data)
  else if seq_str op (s_ "min") then (if o_gt O data tdata then tdata else data)
  else if seq_str op (s_ "mean") then
         o_add O (o_mul O (o_half O) data) (o_mul O (o_half O) tdata)
  else if seq_str op (s_ "lt") then (if o_gt O tdata data then o_one O else o_zero O)
  else if seq_str op (s_ "lte") then (if o_ge O tdata data then o_one O else o_zero O)
  else if seq_str op (s_ "gt") then (if o_gt O data tdata then o_one O else o_zero O)
  else if seq_str op (s_ "gte") then (if o_ge O data tdata then o_one O else o_zero O)
  else if mem op (List.map s_ ["emax"; "emin"; "emean"]%string) then tdata
  else data.

(** Values of the leaves at the point: [None] for data that was never set. *)
Variable rho : leaf -> option V.

(** Content of the branch's own storage before the evaluation: zero for a fresh
    view, indeterminate for a scalar ([data_Sc_] is not set by the constructor,
    tools/dag.hpp:33-50), the previous result afterwards. *)
Variable stale : V.

(** Branch evaluation, functionManager_evaluate.hpp:58-229.  Reading a never-set
    leaf is [None].  A function leaf ([LFun]) is evaluated through [rho]. *)
Fixpoint eval (t : tree) : option V :=
  match t with
  | Leaf l => rho l
  | Node d =>
      fold_left (fun acc x =>
                   match acc, eval (snd x) with
                   | Some data, Some td => Some (apply_op (fst x) data td)
                   | _, _ => None
                   end) d (Some stale)
  end.

End Eval.
