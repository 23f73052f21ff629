(** The Navier-Stokes residual, row by row. *)
From Coq Require Import Bool Arith Lia Reals Lra List String.
From Verif Require Import Sparse_Model Sparse_Props Mass_Model Mass_Props BProj_Model BProj_Proofs Phys_Model Phys_Spec Phys_Proofs Flow_Model Flow_Props.
Import ListNotations.
Local Open Scope R_scope.

Definition ns_a (s : ns_set) (w : wks) (c k : nat) : R := inertia w c k + buoyancy s w c k.
Definition ns_F (s : ns_set) (w : wks) (c d k : nat) : R :=
  stokes_F w c d k + (if useSUPG s then tau w k * strong s w c k * fld w (vel d) k else 0).
Definition ns_pF (s : ns_set) (w : wks) (d k : nat) : R :=
  if nsPSPG s then tau w k * ((inertia w d k + grad w "pr" d k) / fn w "density" k + buoyancy s w d k) else 0.

Ltac ns_open w s := rewrite residual_at; unfold ns_volume, ns_a, ns_F, ns_pF, stokes_F, strong, inertia, buoyancy, tau; cbv zeta;
  rewrite has_var_dec.
Lemma if_zero (b : bool) : (if b then 0 else 0) = 0.
Proof. destruct b; reflexivity. Qed.
Lemma sm_if {A} (b : bool) (l : list A) f : (if b then sm l f else 0) = sm l (fun x => if b then f x else 0).
Proof. destruct b; [reflexivity | symmetry; apply sm_zero; reflexivity]. Qed.
Ltac ns_go w s W Hi D :=
  hide; rows W Hi; rewrite ?at_row_app, ?at_row_nil, ?at_row_if, ?at_row_app, ?at_row_nil; rows W Hi;
  repeat (first [rewrite if_zero | rewrite Rplus_0_r | rewrite Rplus_0_l | rewrite sm_if | rewrite <- sm_add]);
  unfold weak, integral; apply sm_ext; intros k _; reveal;
  cbv beta zeta; try match goal with E : usebasis w _ = usebasis w _ |- _ => rewrite ?E end;
  unfold div, convected; rewrite ?(sumd_1 _ _ D), ?(sumd_2 _ _ D), ?(sumd_3 _ _ D);
  names; unfold delta; cbn [Nat.eqb]; unfold Rdiv;
  destruct (in_dec string_dec "e"%string (varlist w)); destruct (useSUPG s), (nsPSPG s); cbv beta iota; ring.

Lemma ns_12 s w : wf w -> flow_vars w -> (dim w <= 2)%nat ->
  (forall c, (c < dim w)%nat -> equation w (residual (ns_volume s w)) (vel c) (ns_a s w c) (ns_F s w c)) /\
  equation w (residual (ns_volume s w)) "pr" (div w) (ns_pF s w).
Proof.
  intros W V L. split.
  - intros c Hc n i Hn Hi. ns_open w s.
    setup w W V D; rewrite ?D; cbn [Nat.eqb Nat.leb]; [| | lia]; hide; rewrite ?at_row_app, ?at_row_nil, ?at_row_if;
      (destruct c as [| [| c]]; [| try lia ..]);
      match goal with
      | Hn : is_var w n (vel 0) |- _ => pose proof (is_var_uniq w n x _ W Hn Hx)
      | Hn : is_var w n (vel 1) |- _ => pose proof (is_var_uniq w n y _ W Hn Hy)
      end; subst n; ns_go w s W Hi D.
  - intros n i Hn Hi. ns_open w s.
    setup w W V D; rewrite ?D; cbn [Nat.eqb Nat.leb]; [| | lia]; hide; rewrite ?at_row_app, ?at_row_nil, ?at_row_if;
      pose proof (is_var_uniq w n p _ W Hn Hp); subst n; ns_go w s W Hi D.
Qed.

(** In three dimensions, with one basis for all velocity components. *)
Definition one_basis (w : wks) : Prop := forall n m c d, (c < dim w)%nat -> (d < dim w)%nat ->
  is_var w n (vel c) -> is_var w m (vel d) -> usebasis w n = usebasis w m.
Lemma ns_3 s w : wf w -> flow_vars w -> dim w = 3%nat -> one_basis w ->
  equation w (residual (ns_volume s w)) "ux" (ns_a s w 0) (ns_F s w 0) /\
  equation w (residual (ns_volume s w)) "pr" (div w) (ns_pF s w) /\
  equation w (residual (ns_volume s w)) "uy" (fun k => ns_a s w 1 k + ns_a s w 2 k) (fun d k => ns_F s w 1 d k + ns_F s w 2 d k) /\
  equation w (residual (ns_volume s w)) "uz" (fun _ => 0) (fun _ _ => 0).
Proof.
  intros W V L O. repeat match goal with |- _ /\ _ => split end; intros n i Hn Hi; ns_open w s;
    (setup w W V D; [lia | lia |]); rewrite ?D; cbn [Nat.eqb Nat.leb]; hide;
    assert (usebasis w z = usebasis w y) as Ezy by (apply (O z y 2%nat 1%nat); (assumption || lia));
    rewrite ?at_row_app, ?at_row_nil, ?at_row_if.
  - pose proof (is_var_uniq w n x _ W Hn Hx); subst n. ns_go w s W Hi D.
  - pose proof (is_var_uniq w n p _ W Hn Hp); subst n. ns_go w s W Hi D.
  - pose proof (is_var_uniq w n y _ W Hn Hy); subst n. ns_go w s W Hi D.
  - pose proof (is_var_uniq w n z _ W Hn Hz); subst n.
    hide; rows W Hi; rewrite ?at_row_app, ?at_row_nil, ?at_row_if, ?at_row_app, ?at_row_nil; rows W Hi.
    repeat (first [rewrite if_zero | rewrite Rplus_0_r | rewrite Rplus_0_l]).
    symmetry. apply integral_zero. intros k _. rewrite sumd_zero; [ring | intros; ring].
Qed.

Lemma ns_rows s w : wf w -> flow_vars w -> ((dim w <= 2)%nat \/ one_basis w) ->
  only_rows w (residual (ns_volume s w)) (flow_names w).
Proof.
  intros W V O n v i Hn Hv Hi. rewrite residual_at. unfold ns_volume. cbv zeta. unfold flow_names in Hv.
  setup w W V D; rewrite D in *; cbn [Nat.eqb]; hide; rewrite ?at_row_app, ?at_row_nil, ?at_row_if, ?at_row_app, ?at_row_nil, ?at_row_if;
    cbn in Hv;
    try (assert (n <> x) by (intros ->; apply Hv; pose proof (is_var_inj _ _ _ _ Hn Hx); subst; auto));
    try (assert (n <> y) by (intros ->; apply Hv; pose proof (is_var_inj _ _ _ _ Hn Hy); subst; auto));
    try (assert (n <> z) by (intros ->; apply Hv; pose proof (is_var_inj _ _ _ _ Hn Hz); subst; auto));
    try (assert (usebasis w z = usebasis w y) as Ezy by
      (destruct O as [O | O]; [lia | apply (O z y 2%nat 1%nat); (assumption || lia)]));
    assert (n <> p) by (intros ->; apply Hv; pose proof (is_var_inj _ _ _ _ Hn Hp); subst; auto);
    repeat match goal with |- context [at_row _ (fill w ?b ?m ?f)] =>
      first [ rewrite (fill_other w b f n m i W (is_var_lt _ _ _ Hn) ltac:(lt_var) Hi ltac:(assumption) eq_refl)
            | rewrite (fill_other w b f n m i W (is_var_lt _ _ _ Hn) ltac:(lt_var) Hi ltac:(assumption) Ezy)] end;
    rewrite ?at_row_nil, ?if_zero; repeat (first [rewrite if_zero | rewrite Rplus_0_r | rewrite Rplus_0_l]); reflexivity.
Qed.

