(** Tactics for reading off the rows of a residual. *)
From Coq Require Import Bool Arith Lia Reals Lra List String.
From Verif Require Import Sparse_Model Sparse_Props Mass_Model Mass_Props BProj_Model BProj_Proofs Phys_Model Phys_Spec Phys_Proofs.
Import ListNotations.
Local Open Scope R_scope.

Ltac names := unfold grad, normal, gradname, bracket, axis; cbn [append].
Ltac names_in H := unfold grad, normal, gradname, bracket, axis in H; cbn [append] in H.
Lemma has_var_dec w v : has_var w v = if in_dec string_dec v (varlist w) then true else false.
Proof.
  destruct (in_dec string_dec v (varlist w)) as [I | I]; [apply has_var_spec; exact I |].
  destruct (has_var w v) eqn:E; [apply has_var_spec in E; contradiction | reflexivity].
Qed.
Ltac differ := let X := fresh in intros X; subst;
  match goal with A : is_var ?w ?n ?a, B : is_var ?w ?n ?b |- _ => pose proof (is_var_inj _ _ _ _ A B); (discriminate || congruence) end.
Ltac lt_var := eapply is_var_lt; eassumption.
Ltac rows W Hi :=
  rewrite ?at_row_app, ?at_row_nil;
  repeat match goal with
  | |- context [at_row (offs ?w ?n ?i) (fill ?w ?b ?m ?f)] =>
      first [ rewrite (fill_own w b f n i W ltac:(lt_var) Hi eq_refl)
            | rewrite (fill_other w b f n m i W ltac:(lt_var) ltac:(lt_var) Hi ltac:(differ) eq_refl)
            | rewrite (fill_other w b f n m i W ltac:(lt_var) ltac:(lt_var) Hi ltac:(assumption) eq_refl) ]
  end;
  rewrite ?Rplus_0_r, ?Rplus_0_l.
Lemma nth_var w v : In v (varlist w) -> exists n, is_var w n v.
Proof. intros I. apply In_nth_error, I. Qed.
