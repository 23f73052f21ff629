(** Numerals: std::stod as used by functionManager_create.hpp:415-419 on texts
    accepted by Interpreter::isScalar.  Decimal notation only (the characters of
    such texts cannot spell hexadecimal, "inf" or "nan").  The result is the
    exact rational; rounding to double and range errors are not modelled. *)
From Coq Require Import List Ascii String Bool ZArith QArith Arith Lia.
From Verif Require Import Interp_Model.
Import ListNotations.

Fixpoint take_digits (s : str) : list nat * str :=
  match s with
  | c :: r => if is_digit c then let '(d, t) := take_digits r in (digit_val c :: d, t)
              else ([], s)
  | [] => ([], [])
  end.

Definition take_sign (s : str) : bool * str :=
  match s with
  | c :: r => if aeq c "-"%char then (true, r)
              else if aeq c "+"%char then (false, r) else (false, s)
  | [] => (false, [])
  end.

Definition dec (d : list nat) : Z :=
  fold_left (fun a x => (10 * a + Z.of_nat x)%Z) d 0%Z.

(** Exponent part: used only if at least one digit follows. *)
Definition take_exp (s : str) : Z :=
  match s with
  | c :: r => if is_e c then
                let '(neg, r1) := take_sign r in
                let '(d, _) := take_digits r1 in
                if neg then (- dec d)%Z else dec d
              else 0%Z
  | [] => 0%Z
  end.

Definition take_frac (s : str) : list nat * str :=
  match s with
  | c :: r => if aeq c "."%char then take_digits r else ([], s)
  | [] => ([], [])
  end.

(** Longest prefix that is a number; [None] is std::invalid_argument. *)
Definition stod (s : str) : option Q :=
  let '(neg, s1) := take_sign s in
  let '(ip, s2) := take_digits s1 in
  let '(fp, s3) := take_frac s2 in
  match ip ++ fp with
  | [] => None
  | m => Some ((inject_Z (if neg then - dec m else dec m))
               * Qpower 10 (take_exp s3 - Z.of_nat (List.length fp)))%Q
  end.
