(** Outcomes shared by all models: a normal result, a C++ exception, or
    undefined behaviour (out-of-range access, division by zero, ...). *)
From Coq Require Import List.
Import ListNotations.

(** Outcome of an operation that may throw or run into undefined behaviour. *)
Inductive outcome (A : Type) : Type :=
| Ok (a : A)
| Exn            (* a C++ exception leaves the call *)
| UB.            (* undefined behaviour *)
Arguments Ok {A} _.
Arguments Exn {A}.
Arguments UB {A}.

Definition obind {A B} (x : outcome A) (f : A -> outcome B) : outcome B :=
  match x with Ok a => f a | Exn => Exn | UB => UB end.

(** [v[i]] without a bounds check. *)
Definition at_ {A} (l : list A) (i : nat) : outcome A :=
  match nth_error l i with Some x => Ok x | None => UB end.

Fixpoint map_outcome {A B} (f : A -> outcome B) (l : list A) : outcome (list B) :=
  match l with
  | [] => Ok []
  | x :: r =>
      match f x with
      | Ok y => match map_outcome f r with
                | Ok ys => Ok (y :: ys)
                | Exn => Exn
                | UB => UB
                end
      | Exn => Exn
      | UB => UB
      end
  end.

Lemma map_outcome_ok {A B} (f : A -> outcome B) (g : A -> B) l :
  (forall x, In x l -> f x = Ok (g x)) -> map_outcome f l = Ok (map g l).
Proof.
  induction l as [|x l IH]; intros H; cbn [map_outcome map]; auto.
  rewrite (H x) by (left; auto). rewrite IH; auto. intros; apply H; right; auto.
Qed.

Lemma at_ok {A} (l : list A) i d : i < length l -> at_ l i = Ok (nth i l d).
Proof. intros H. unfold at_. rewrite (nth_error_nth' l d) by auto. reflexivity. Qed.
