(** Model of the solution storage.

    Source: /repo/src/tools/solutionStorage.hpp:20-300 (class SolutionStorage).

    Vectors are objects on a heap, named by handles (Teuchos::RCP); the storage keeps
    handles.  [A] is the content of a vector.  Times are rational numbers (exact
    arithmetic instead of double). *)
From Coq Require Import Bool Arith Lia List QArith Qabs.
From Verif Require Import Outcome.
Import ListNotations.
Local Close Scope Q_scope.

Section Storage.
Context {A : Type}.

Record state := {
  heap : nat -> option A;       (* content of the vector behind a handle *)
  fresh : nat;                  (* next unused handle *)
  times : list (list Q);        (* times_ *)
  data : list (list nat)        (* data_ *)
}.

Definition init : state :=
  {| heap := fun _ => None; fresh := 0; times := []; data := [] |}.

Definition upd (h : nat -> option A) (k : nat) (a : A) : nat -> option A :=
  fun i => if (i =? k)%nat then Some a else h i.

(** [l[i].push_back(x)] *)
Fixpoint push_at {B} (i : nat) (x : B) (l : list (list B)) : list (list B) :=
  match l, i with
  | [], _ => []
  | y :: r, 0 => (y ++ [x]) :: r
  | y :: r, S j => y :: push_at j x r
  end.

(** A client creates a vector; the handle is the old value of [fresh]. *)
Definition new_vec (a : A) (s : state) : state :=
  {| heap := upd (heap s) (fresh s) a; fresh := S (fresh s);
     times := times s; data := data s |}.

(** A client writes to a vector it has a handle of. *)
Definition write (h : nat) (a : A) (s : state) : state :=
  {| heap := upd (heap s) h a; fresh := fresh s; times := times s; data := data s |}.

(** store, lines 208-227: deep copy, then append; an index beyond the number of sets
    appends a new set (whatever the index).  Storing a null handle: no effect here. *)
Definition store (h : nat) (t : Q) (index : nat) (s : state) : state :=
  match heap s h with
  | None => s
  | Some a =>
      let k := fresh s in
      let hp := upd (heap s) k a in
      if (length (times s) <=? index)%nat then
        {| heap := hp; fresh := S k; times := times s ++ [[t]]; data := data s ++ [[k]] |}
      else
        {| heap := hp; fresh := S k;
           times := push_at index t (times s); data := push_at index k (data s) |}
  end.

(** reset, lines 264-269 *)
Definition reset (s : state) : state :=
  {| heap := heap s; fresh := fresh s;
     times := map (fun _ => []) (times s); data := map (fun _ => []) (data s) |}.

(** extract by time index, lines 44-73: the handle, or not found. *)
Definition extract_index (s : state) (timeindex index : nat) : option nat :=
  match nth_error (data s) index with
  | Some l => nth_error l timeindex
  | None => None
  end.

(** The comparison of lines 85-99: relative to [currtime] unless that is zero. *)
Definition close (tol t currtime : Q) : bool :=
  if negb (Qeq_bool currtime 0) then negb (Qle_bool tol (Qabs (t - currtime) / currtime))
  else negb (Qle_bool tol (Qabs (t - currtime))).

(** The comparison of lines 131-170, without the test for zero: dividing by zero
    gives an infinity or a NaN, neither of which is below the tolerance. *)
Definition close_rel (tol t currtime : Q) : bool :=
  if Qeq_bool currtime 0 then false
  else negb (Qle_bool tol (Qabs (t - currtime) / currtime)).

(** The loop: the last matching position wins. *)
Fixpoint last_match (f : Q -> bool) (l : list Q) (j : nat) (acc : option nat) : option nat :=
  match l with
  | [] => acc
  | t :: r => last_match f r (S j) (if f t then Some j else acc)
  end.

Definition get_handle (s : state) (index j : nat) : outcome nat :=
  match nth_error (data s) index with
  | Some l => match nth_error l j with Some h => Ok h | None => UB end
  | None => UB
  end.

(** extract by time, lines 78-126; also gives the time index. *)
Definition extract_time (tol : Q) (s : state) (index : nat) (currtime : Q)
  : outcome (option (nat * nat)) :=
  match nth_error (times s) index with
  | None => UB
  | Some l =>
      match last_match (fun t => close tol t currtime) l 0 None with
      | None => Ok None
      | Some j => match get_handle s index j with
                  | Ok h => Ok (Some (h, j))
                  | _ => UB
                  end
      end
  end.

(** extractPrevious and extractNext, lines 131-170: also give the time. *)
Definition neighbour (pick : nat -> nat -> nat) (tol : Q) (s : state) (index : nat)
  (currtime : Q) : outcome (option (nat * Q)) :=
  match nth_error (times s) index with
  | None => UB
  | Some l =>
      match last_match (fun t => close_rel tol t currtime) l 0 None with
      | None => Ok None
      | Some j =>
          let k := pick (length l) j in
          match get_handle s index k, nth_error l k with
          | Ok h, Some t => Ok (Some (h, t))
          | _, _ => UB
          end
      end
  end.
Definition extract_previous := neighbour (fun _ j => j - 1).
Definition extract_next := neighbour (fun n j => if (j <? n - 1)%nat then S j else j).

(** extractLast, lines 175-181 *)
Definition extract_last (s : state) (index : nat) : outcome (nat * Q) :=
  match nth_error (times s) index with
  | None => UB
  | Some l =>
      match length l with
      | 0 => UB
      | S n => match get_handle s index n, nth_error l n with
               | Ok h, Some t => Ok (h, t)
               | _, _ => UB
               end
      end
  end.

(** Histories. *)
Inductive op :=
| New (a : A)
| Write (h : nat) (a : A)
| Store (h : nat) (t : Q) (index : nat)
| Reset.

Definition exec (o : op) (s : state) : state :=
  match o with
  | New a => new_vec a s
  | Write h a => write h a s
  | Store h t i => store h t i s
  | Reset => reset s
  end.

Fixpoint run (l : list op) (s : state) : state :=
  match l with [] => s | o :: r => run r (exec o s) end.

End Storage.
Arguments state : clear implicits.
Arguments op : clear implicits.
