(** What a decimal numeral is and what it is worth, independently of any parser. *)
From Coq Require Import List Ascii String Bool ZArith QArith Arith Lia.
From Verif Require Import Interp_Model.
Import ListNotations.

Inductive sign := NoSign | Plus | Minus.

(** [sign] whole [. frac] [e [sign] exponent] *)
Record numeral := {
  n_sign : sign;
  n_whole : list nat;
  n_frac : option (list nat);
  n_exp : option (bool * sign * list nat)     (* true: capital E *)
}.

Definition digits_ok (d : list nat) : Prop := Forall (fun x => (x < 10)%nat) d.

Definition numeral_ok (n : numeral) : Prop :=
  digits_ok (n_whole n)
  /\ match n_frac n with Some f => digits_ok f | None => True end
  /\ (n_whole n <> [] \/ exists d f, n_frac n = Some (d :: f))
  /\ match n_exp n with Some (_, _, d) => digits_ok d /\ d <> [] | None => True end.

Definition dchar (x : nat) : ascii := ascii_of_nat (48 + x).

Definition pr_sign (s : sign) : str :=
  match s with NoSign => [] | Plus => ["+"%char] | Minus => ["-"%char] end.

Definition pr_numeral (n : numeral) : str :=
  pr_sign (n_sign n) ++ map dchar (n_whole n)
  ++ match n_frac n with Some f => "."%char :: map dchar f | None => [] end
  ++ match n_exp n with
     | Some (cap, s, d) => (if cap then "E"%char else "e"%char) :: pr_sign s ++ map dchar d
     | None => []
     end.

(** Value: sum of digit times place value, times the power of ten. *)
Fixpoint whole (d : list nat) : Z :=
  match d with
  | [] => 0%Z
  | x :: r => (Z.of_nat x * 10 ^ Z.of_nat (List.length r) + whole r)%Z
  end.

Fixpoint frac (d : list nat) : Q :=
  match d with
  | [] => 0%Q
  | x :: r => ((inject_Z (Z.of_nat x) + frac r) / 10)%Q
  end.

Definition sgn (s : sign) : Z := match s with Minus => (-1)%Z | _ => 1%Z end.

Definition value (n : numeral) : Q :=
  (inject_Z (sgn (n_sign n))
   * (inject_Z (whole (n_whole n)) + match n_frac n with Some f => frac f | None => 0 end)
   * Qpower 10 (match n_exp n with Some (_, s, d) => sgn s * whole d | None => 0 end))%Q.
