(** Model of the compression of element data:
    managers/assembly/assemblyManager_database.hpp:78-235 (volume) and
    :241-389 (boundary).

    Real numbers stand for doubles; the IEEE results of a division by zero are
    written out in [rel_lt] and [ratio_gt].  What is stored for a new
    representative is the element's own data, so the database is a list of
    elements. *)
From Coq Require Import List Arith Bool Reals.
Import ListNotations.
Local Open Scope R_scope.

Definition Rltb (x y : R) : bool := if Rlt_dec x y then true else false.
Definition Reqb (x y : R) : bool := if Req_EM_T x y then true else false.

(** [std::abs(a/b) < tol]: with b = 0 the quotient is infinite or NaN and the
    comparison is false. *)
Definition rel_lt (a b tol : R) : bool :=
  if Reqb b 0 then false else Rltb (Rabs (a / b)) tol.

(** [a/b > tol] for a, b >= 0: with b = 0 the quotient is +inf if a > 0 and NaN
    if a = 0. *)
Definition ratio_gt (a b tol : R) : bool :=
  if Reqb b 0 then Rltb 0 a else Rltb tol (a / b).

(** An element as seen by the search: orientation (interned, lines 95-127), side
    identifiers (constant 0 for volume elements), measure, and for each
    integration point the entries of the Jacobian in storage order. *)
Record element := {
  orient : nat; side_id : nat; side_num : nat;
  measure : R; jac : list (list R)
}.

(** Lines 95-126 (volume) and 258-289 (boundary): orientation strings are interned
    in order of appearance, over all groups, and each element gets the index. *)
Section Intern.
  Context {S : Type} (eqb : S -> S -> bool).
  Fixpoint lookup (s : S) (u : list S) (i : nat) : option nat :=
    match u with
    | [] => None
    | x :: u' => if eqb s x then Some i else lookup s u' (Datatypes.S i)
    end.
  Definition intern1 (u : list S) (s : S) : list S * nat :=
    match lookup s u 0 with
    | Some i => (u, i)
    | None => (u ++ [s], length u)
    end.
  Definition set_orient (i : nat) (e : element) : element :=
    {| orient := i; side_id := side_id e; side_num := side_num e;
       measure := measure e; jac := jac e |}.
  Fixpoint intern_row (u : list S) (l : list (S * element)) : list S * list element :=
    match l with
    | [] => (u, [])
    | (s, e) :: l' => let '(u1, i) := intern1 u s in
                      let '(u2, es) := intern_row u1 l' in (u2, set_orient i e :: es)
    end.
  Fixpoint intern_rows (u : list S) (g : list (list (S * element))) : list S * list (list element) :=
    match g with
    | [] => (u, [])
    | l :: g' => let '(u1, es) := intern_row u l in
                 let '(u2, ess) := intern_rows u1 g' in (u2, es :: ess)
    end.
End Intern.

(** Lines 181-190 *)
Fixpoint fro_diff2 (a b : list R) : R :=
  match a, b with
  | x :: a', y :: b' => (x - y) * (x - y) + fro_diff2 a' b'
  | _, _ => 0
  end.
Fixpoint fro2 (a : list R) : R :=
  match a with [] => 0 | x :: a' => x * x + fro2 a' end.

(** Lines 178-195: ruled out at some point. *)
Fixpoint ruled_out (tol : R) (je jr : list (list R)) : bool :=
  match je, jr with
  | a :: je', b :: jr' =>
      if ratio_gt (sqrt (fro_diff2 a b)) (sqrt (fro2 a)) tol then true
      else ruled_out tol je' jr'
  | _, _ => false
  end.

(** Lines 167-204. *)
Definition vol_matches (tol : R) (e r : element) : bool :=
  (orient e =? orient r)%nat
  && rel_lt (Rabs (measure e - measure r)) (measure r) tol
  && negb (ruled_out tol (jac e) (jac r)).

Fixpoint abs_diff (a b : list R) : R :=
  match a, b with
  | x :: a', y :: b' => Rabs (x - y) + abs_diff a' b'
  | _, _ => 0
  end.
Fixpoint abs_sum (a : list R) : R :=
  match a with [] => 0 | x :: a' => Rabs x + abs_sum a' end.

(** Lines 316-347 (boundary). *)
Definition bnd_matches (tol : R) (e r : element) : bool :=
  ((side_id e =? side_id r)%nat && (side_num e =? side_num r)%nat)
  && (orient e =? orient r)%nat
  && rel_lt (Rabs (measure e - measure r)) (measure r) tol
  && rel_lt (abs_diff (concat (jac e)) (concat (jac r))) (abs_sum (concat (jac r))) tol.

(** ** The search, for either test *)
Section Search.
  Context {E : Type} (matches : E -> E -> bool).

  (** Lines 158-213 / 310-364: index of the first matching representative. *)
  Fixpoint find_from (e : E) (db : list E) (prog : nat) : option nat :=
    match db with
    | [] => None
    | r :: db' => if matches e r then Some prog else find_from e db' (S prog)
    end.

  (** One element; [anyway] is [store_anyway] (line 153, false on boundaries).
      Result: index, database, [first_users]. *)
  Definition place (anyway : bool) (ge : nat * nat) (e : E)
      (st : list E * list (nat * nat)) : nat * (list E * list (nat * nat)) :=
    let '(db, users) := st in
    match find_from e db 0, anyway with
    | Some i, false => (i, st)
    | _, _ => (length users, (db ++ [e], users ++ [ge]))
    end.

  Fixpoint place_all (anyway : bool) (grp k : nat) (es : list E)
      (st : list E * list (nat * nat)) : list nat * (list E * list (nat * nat)) :=
    match es with
    | [] => ([], st)
    | e :: es' =>
        let '(i, st1) := place anyway (grp, k) e st in
        let '(is, st2) := place_all anyway grp (S k) es' st1 in
        (i :: is, st2)
    end.

  (** Loop over groups; [small_limit] is 10 for volume groups (line 154) and 0
      for boundary groups (never stored anyway). *)
  Fixpoint identify (small_limit grp : nat) (groups : list (list E))
      (st : list E * list (nat * nat)) : list (list nat) * (list E * list (nat * nat)) :=
    match groups with
    | [] => ([], st)
    | es :: groups' =>
        let '(is, st1) := place_all (length es <? small_limit)%nat grp 0 es st in
        let '(iss, st2) := identify small_limit (S grp) groups' st1 in
        (is :: iss, st2)
    end.
End Search.

(** [identifyVolumetricDatabase] and [identifyBoundaryDatabase] on elements given
    with their orientation strings. *)
Definition identify_volume {S} (eqb : S -> S -> bool) (tol : R) (groups : list (list (S * element))) :=
  identify (vol_matches tol) 10 0 (snd (intern_rows eqb [] groups)) ([], []).
Definition identify_boundary {S} (eqb : S -> S -> bool) (tol : R) (groups : list (list (S * element))) :=
  identify (bnd_matches tol) 0 0 (snd (intern_rows eqb [] groups)) ([], []).
