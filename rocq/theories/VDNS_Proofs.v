(** The variable-density flow residual, row by row. *)
From Coq Require Import Bool Arith Lia Reals Lra List String.
From Verif Require Import Sparse_Model Sparse_Props Mass_Model Mass_Props BProj_Model BProj_Proofs Phys_Model Phys_Spec Phys_Proofs VDNS_Model.
Import ListNotations.
Local Open Scope R_scope.

(** *** Specification *)
Definition vel (d : nat) : string := ("u" ++ axis d)%string.
Definition force (w : wks) (c k : nat) : R := fn w ("source " ++ vel c)%string k.
Definition delta (c d : nat) : R := if (c =? d)%nat then 1 else 0.
Definition div (w : wks) (k : nat) : R := sumd w (fun d => grad w (vel d) d k).
(** One variable per velocity component, pressure and temperature. *)
Definition vd_vars (w : wks) : Prop :=
  In "pr"%string (varlist w) /\ In "T"%string (varlist w) /\ forall d, (d < dim w)%nat -> In (vel d) (varlist w).
Definition vd_names (w : wks) : list string := "pr"%string :: "T"%string :: map vel (seq 0 (dim w)).

(** Convective derivative u_t + u . grad u of a field *)
Definition material (w : wks) (v : string) (k : nat) : R :=
  fld w (v ++ "_t")%string k + sumd w (fun d => fld w (vel d) k * grad w v d k).
(** Stress of a Newtonian gas: mu (grad u + grad u^T - 2/3 div u I) - p I *)
Definition stress (w : wks) (c d k : nat) : R :=
  fn w "mu" k * (grad w (vel c) d k + grad w (vel d) c k - delta c d * (2 / 3) * div w k) - delta c d * fld w "pr" k.
(** Momentum without the stress, its strong residual without second derivatives *)
Definition mom (w : wks) (c k : nat) : R := fn w "rho" k * material w (vel c) k - force w c k.
Definition strong_mom (w : wks) (c k : nat) : R := mom w c k + grad w "pr" c k.
(** Energy: rho DT/Dt - (dp0/dt + Q)/cp *)
Definition energy (s : vd_set) (w : wks) (k : nat) : R :=
  fn w "rho" k * material w "T" k - (dp0dt s + fn w "source T" k) / fn w "cp" k.
(** Continuity of the ideal gas: div u = 1/T DT/Dt - 1/p0 dp0/dt *)
Definition mass (s : vd_set) (w : wks) (k : nat) : R :=
  div w k - (material w "T" k / fld w "T" k - dp0dt s / p0 s).

Definition vtau (w : wks) (diff : R) (k : nat) : R :=
  vd_tau diff (fld w "ux" k) (if (2 <=? dim w)%nat then fld w "uy" k else 0)
         (if (3 <=? dim w)%nat then fld w "uz" k else 0) (fn w "rho" k) (hel w) (dim w) (deltat w) (isTransient w).
Definition tau_m (w : wks) (k : nat) : R := vtau w (fn w "mu" k) k.
Definition tau_T (w : wks) (k : nat) : R := vtau w (fn w "lambda" k / fn w "cp" k) k.

(** The term that is assembled with the grad-div option. *)
Definition penalty (s : vd_set) (w : wks) (k : nat) : R :=
  if (dim w =? 1)%nat then mass s w k
  else if (dim w =? 2)%nat then mass s w k - grad w "uy" 1 k + grad w "uy" 0 k
  else 0.
Definition vd_F (s : vd_set) (w : wks) (pen : nat -> R) (c d k : nat) : R :=
  stress w c d k + (if vdSUPG s then tau_m w k * strong_mom w c k * fn w "rho" k * fld w (vel d) k else 0)
  + (if vdGRADDIV s then delta c d * (hel w * hel w / tau_m w k * pen k) else 0).
Definition vd_TF (s : vd_set) (w : wks) (d k : nat) : R :=
  fn w "lambda" k / fn w "cp" k * grad w "T" d k
  + (if vdSUPG s then tau_T w k * energy s w k * fn w "rho" k * fld w (vel d) k else 0).
Definition vd_pF (s : vd_set) (w : wks) (d k : nat) : R :=
  if vdPSPG s then tau_m w k * strong_mom w d k else 0.

(** *** Tactics *)
Ltac names := unfold grad, force, vel, gradname, bracket, axis; cbn [append].
Ltac differ := let X := fresh in intros X; subst;
  match goal with A : is_var ?w ?n ?a, B : is_var ?w ?n ?b |- _ => pose proof (is_var_inj _ _ _ _ A B); (discriminate || congruence) end.
Ltac lt_var := eapply is_var_lt; eassumption.
Ltac hide := repeat match goal with |- context [fill ?w ?b ?m ?f] =>
  tryif is_var f then fail else (let F := fresh "F" in set (F := f)) end.
Ltac reveal := repeat match goal with F := _ : nat -> nat -> R |- _ => subst F end.
Ltac rows W Hi :=
  rewrite ?at_row_app, ?at_row_nil;
  repeat match goal with
  | |- context [at_row (offs ?w ?n ?i) (fill ?w ?b ?m ?f)] =>
      first [ rewrite (fill_own w b f n i W ltac:(lt_var) Hi eq_refl)
            | rewrite (fill_other w b f n m i W ltac:(lt_var) ltac:(lt_var) Hi ltac:(differ) eq_refl) ]
  end;
  rewrite ?Rplus_0_r, ?Rplus_0_l, <- ?sm_add.
Lemma if_zero (b : bool) : (if b then 0 else 0) = 0.
Proof. destruct b; reflexivity. Qed.
Lemma sm_if {A} (b : bool) (l : list A) f : (if b then sm l f else 0) = sm l (fun x => if b then f x else 0).
Proof. destruct b; [reflexivity | symmetry; apply sm_zero; reflexivity]. Qed.

Lemma vars_get w v : In v (varlist w) -> exists n, is_var w n v.
Proof. intros I. apply In_nth_error, I. Qed.

Ltac vnum W := repeat match goal with |- context [var_num ?w ?v 0] =>
  match goal with H : is_var w ?n v |- _ => rewrite (var_num_is w n v 0 W H) end end.

Ltac vd_open := rewrite residual_at; unfold vd_volume, vd_F, vd_TF, vd_pF, tau_m, tau_T, vtau, penalty; cbv zeta.
Ltac vd_go w s W Hi D :=
  hide; rewrite ?at_row_app, ?at_row_nil, ?at_row_if, ?at_row_nil; rows W Hi;
  repeat (first [rewrite if_zero | rewrite Rplus_0_r | rewrite Rplus_0_l | rewrite sm_if | rewrite <- sm_add]);
  unfold weak, integral; apply sm_ext; intros k _; reveal;
  cbv beta zeta; unfold stress, strong_mom, energy, mass, mom, material, div;
  rewrite ?(sumd_1 _ _ D), ?(sumd_2 _ _ D), ?(sumd_3 _ _ D);
  names; unfold delta; cbn [Nat.eqb]; replace (4 / 3) with (2 - 2 / 3) by field; unfold Rdiv;
  repeat match goal with |- context [if ?b then _ else _] => destruct b end; ring.

Lemma vd_1 s w : wf w -> vd_vars w -> dim w = 1%nat ->
  equation w (residual (vd_volume s w)) "ux" (mom w 0) (vd_F s w (penalty s w) 0) /\
  equation w (residual (vd_volume s w)) "T" (energy s w) (vd_TF s w) /\
  equation w (residual (vd_volume s w)) "pr" (mass s w) (vd_pF s w).
Proof.
  intros W (P & T & V) D.
  destruct (vars_get _ _ P) as (p & Hp). destruct (vars_get _ _ T) as (t & Ht).
  destruct (vars_get _ _ (V 0%nat ltac:(lia))) as (x & Hx). change (vel 0) with "ux"%string in Hx.
  repeat match goal with |- _ /\ _ => split end; intros n i Hn Hi; vd_open; vnum W; rewrite D; cbn [Nat.eqb Nat.leb];
   match goal with
   | Hn : is_var w n "ux" |- _ => pose proof (is_var_uniq w n x _ W Hn Hx)
   | Hn : is_var w n "T" |- _ => pose proof (is_var_uniq w n t _ W Hn Ht)
   | Hn : is_var w n "pr" |- _ => pose proof (is_var_uniq w n p _ W Hn Hp)
   end; subst n; vd_go w s W Hi D.
Qed.

Lemma vd_2 s w : wf w -> vd_vars w -> dim w = 2%nat ->
  equation w (residual (vd_volume s w)) "ux" (mom w 0) (vd_F s w (penalty s w) 0) /\
  equation w (residual (vd_volume s w)) "uy" (mom w 1) (vd_F s w (penalty s w) 1) /\
  equation w (residual (vd_volume s w)) "T" (energy s w) (vd_TF s w) /\
  equation w (residual (vd_volume s w)) "pr" (mass s w) (vd_pF s w).
Proof.
  intros W (P & T & V) D.
  destruct (vars_get _ _ P) as (p & Hp). destruct (vars_get _ _ T) as (t & Ht).
  destruct (vars_get _ _ (V 0%nat ltac:(lia))) as (x & Hx). change (vel 0) with "ux"%string in Hx.
  destruct (vars_get _ _ (V 1%nat ltac:(lia))) as (y & Hy). change (vel 1) with "uy"%string in Hy.
  repeat match goal with |- _ /\ _ => split end; intros n i Hn Hi; vd_open; vnum W; rewrite D; cbn [Nat.eqb Nat.leb];
   match goal with
   | Hn : is_var w n "ux" |- _ => pose proof (is_var_uniq w n x _ W Hn Hx)
   | Hn : is_var w n "uy" |- _ => pose proof (is_var_uniq w n y _ W Hn Hy)
   | Hn : is_var w n "T" |- _ => pose proof (is_var_uniq w n t _ W Hn Ht)
   | Hn : is_var w n "pr" |- _ => pose proof (is_var_uniq w n p _ W Hn Hp)
   end; subst n; vd_go w s W Hi D.
Qed.

Lemma vd_3 s w : wf w -> vd_vars w -> dim w = 3%nat ->
  equation w (residual (vd_volume s w)) "ux" (mom w 0) (vd_F s w (penalty s w) 0) /\
  equation w (residual (vd_volume s w)) "uy" (mom w 1) (vd_F s w (penalty s w) 1) /\
  equation w (residual (vd_volume s w)) "uz" (mom w 2) (vd_F s w (penalty s w) 2) /\
  equation w (residual (vd_volume s w)) "T" (energy s w) (vd_TF s w) /\
  equation w (residual (vd_volume s w)) "pr" (mass s w) (vd_pF s w).
Proof.
  intros W (P & T & V) D.
  destruct (vars_get _ _ P) as (p & Hp). destruct (vars_get _ _ T) as (t & Ht).
  destruct (vars_get _ _ (V 0%nat ltac:(lia))) as (x & Hx). change (vel 0) with "ux"%string in Hx.
  destruct (vars_get _ _ (V 1%nat ltac:(lia))) as (y & Hy). change (vel 1) with "uy"%string in Hy.
  destruct (vars_get _ _ (V 2%nat ltac:(lia))) as (z & Hz). change (vel 2) with "uz"%string in Hz.
  repeat match goal with |- _ /\ _ => split end; intros n i Hn Hi; vd_open; vnum W; rewrite D; cbn [Nat.eqb Nat.leb];
   match goal with
   | Hn : is_var w n "ux" |- _ => pose proof (is_var_uniq w n x _ W Hn Hx)
   | Hn : is_var w n "uy" |- _ => pose proof (is_var_uniq w n y _ W Hn Hy)
   | Hn : is_var w n "uz" |- _ => pose proof (is_var_uniq w n z _ W Hn Hz)
   | Hn : is_var w n "T" |- _ => pose proof (is_var_uniq w n t _ W Hn Ht)
   | Hn : is_var w n "pr" |- _ => pose proof (is_var_uniq w n p _ W Hn Hp)
   end; subst n; vd_go w s W Hi D.
Qed.
