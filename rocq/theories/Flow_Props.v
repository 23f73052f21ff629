(** C71 (Stokes flow), C80 (fluid at rest); what NS_Props states about Navier-Stokes. *)
From Coq Require Import Bool Arith Lia Reals Lra List String.
From Verif Require Import Sparse_Model Sparse_Props Mass_Model Mass_Props BProj_Model BProj_Proofs Phys_Model Phys_Spec Phys_Proofs Flow_Model.
Import ListNotations.
Local Open Scope R_scope.

(** *** Specification *)
Definition vel (d : nat) : string := ("u" ++ axis d)%string.
Definition force (w : wks) (c k : nat) : R := fn w ("source " ++ vel c)%string k.
Definition delta (c d : nat) : R := if (c =? d)%nat then 1 else 0.
Definition div (w : wks) (k : nat) : R := sumd w (fun d => grad w (vel d) d k).
(** A flow problem: one variable per velocity component, and the pressure. *)
Definition flow_vars (w : wks) : Prop :=
  In "pr"%string (varlist w) /\ forall d, (d < dim w)%nat -> In (vel d) (varlist w).
Definition flow_names (w : wks) : list string := "pr"%string :: map vel (seq 0 (dim w)).

(** - div (mu grad u - p I) = f, div u = 0 *)
Definition stokes_F (w : wks) (c d k : nat) : R :=
  fn w "viscosity" k * grad w (vel c) d k - delta c d * fld w "pr" k.
(** rho (u_t + u . grad u - f) - div (mu grad u - p I) = 0, with the buoyancy term of a
    coupled energy e *)
Definition convected (w : wks) (c k : nat) : R := sumd w (fun d => fld w (vel d) k * grad w (vel c) d k).
Definition buoyancy (s : ns_set) (w : wks) (c k : nat) : R :=
  if in_dec string_dec "e"%string (varlist w)
  then fn w "density" k * beta s * (fld w "e" k - T_ambient s) * force w c k else 0.
Definition inertia (w : wks) (c k : nat) : R :=
  fn w "density" k * (fld w (vel c ++ "_t")%string k + convected w c k - force w c k).
(** Strong momentum residual without second derivatives. *)
Definition strong (s : ns_set) (w : wks) (c k : nat) : R := inertia w c k + grad w "pr" c k + buoyancy s w c k.
Definition tau (w : wks) (k : nat) : R :=
  ns_tau (fn w "viscosity" k) (fld w "ux" k) (if (2 <=? dim w)%nat then fld w "uy" k else 0)
         (if (3 <=? dim w)%nat then fld w "uz" k else 0) (hel w) (dim w) (deltat w) (isTransient w).

(** *** Tactics *)
Ltac names := unfold grad, force, vel, gradname, bracket, axis; cbn [append].
Lemma has_var_dec w v : has_var w v = if in_dec string_dec v (varlist w) then true else false.
Proof.
  destruct (in_dec string_dec v (varlist w)) as [I | I]; [apply has_var_spec; exact I |].
  destruct (has_var w v) eqn:E; [apply has_var_spec in E; contradiction | reflexivity].
Qed.
Ltac differ := let X := fresh in intros X; subst;
  match goal with A : is_var ?w ?n ?a, B : is_var ?w ?n ?b |- _ => pose proof (is_var_inj _ _ _ _ A B); (discriminate || congruence) end.
Ltac lt_var := eapply is_var_lt; eassumption.
Ltac hide := repeat match goal with |- context [fill ?w ?b ?m ?f] =>
  tryif is_var f then fail else (let F := fresh "F" in set (F := f)) end.
Ltac reveal := repeat match goal with F := _ : nat -> nat -> R |- _ => subst F end.
Ltac rows W Hi :=
  rewrite ?at_row_app, ?at_row_nil;
  repeat match goal with
  | |- context [at_row (offs ?w ?n ?i) (fill ?w ?b ?m ?f)] =>
      first [ rewrite (fill_own w b f n i W ltac:(lt_var) Hi eq_refl)
            | rewrite (fill_other w b f n m i W ltac:(lt_var) ltac:(lt_var) Hi ltac:(differ) eq_refl)
            | rewrite (fill_own w b f n i W ltac:(lt_var) Hi ltac:(assumption))
            | rewrite (fill_other w b f n m i W ltac:(lt_var) ltac:(lt_var) Hi ltac:(differ) ltac:(assumption)) ]
  end;
  rewrite ?Rplus_0_r, ?Rplus_0_l, <- ?sm_add.
Ltac get V w k H := destruct (In_nth_error _ _ (V k ltac:(lia))) as [?n H]; change (is_var w n (vel k)) in H.

Lemma vars_1 w : flow_vars w -> dim w = 1%nat -> exists x p, is_var w x "ux" /\ is_var w p "pr".
Proof.
  intros [P V] D. destruct (In_nth_error _ _ P) as [p Hp]. destruct (In_nth_error _ _ (V 0%nat ltac:(lia))) as [x Hx].
  exists x, p. split; assumption.
Qed.
Lemma vars_2 w : flow_vars w -> dim w = 2%nat -> exists x y p, is_var w x "ux" /\ is_var w y "uy" /\ is_var w p "pr".
Proof.
  intros [P V] D. destruct (In_nth_error _ _ P) as [p Hp]. destruct (In_nth_error _ _ (V 0%nat ltac:(lia))) as [x Hx].
  destruct (In_nth_error _ _ (V 1%nat ltac:(lia))) as [y Hy]. exists x, y, p. repeat split; assumption.
Qed.
Lemma vars_3 w : flow_vars w -> dim w = 3%nat ->
  exists x y z p, is_var w x "ux" /\ is_var w y "uy" /\ is_var w z "uz" /\ is_var w p "pr".
Proof.
  intros [P V] D. destruct (In_nth_error _ _ P) as [p Hp]. destruct (In_nth_error _ _ (V 0%nat ltac:(lia))) as [x Hx].
  destruct (In_nth_error _ _ (V 1%nat ltac:(lia))) as [y Hy]. destruct (In_nth_error _ _ (V 2%nat ltac:(lia))) as [z Hz].
  exists x, y, z, p. repeat split; assumption.
Qed.
Ltac setup w W V D :=
  destruct (dims w W) as [D | [D | D]];
  [ destruct (vars_1 w V D) as (x & p & Hx & Hp)
  | destruct (vars_2 w V D) as (x & y & p & Hx & Hy & Hp)
  | destruct (vars_3 w V D) as (x & y & z & p & Hx & Hy & Hz & Hp) ];
  repeat match goal with H : is_var w ?n ?s |- context [var_num w ?s 0] => rewrite (var_num_is w n s 0 W H) end.
Ltac finish D :=
  unfold weak, integral; rewrite <- ?sm_add; apply sm_ext; intros k _; reveal; cbv beta zeta;
  unfold div, convected; rewrite ?(sumd_1 _ _ D), ?(sumd_2 _ _ D), ?(sumd_3 _ _ D);
  cbn [delta Nat.eqb Nat.leb]; names; unfold delta; cbn [Nat.eqb]; unfold Rdiv; try ring.

(** *** C71 *)
Definition lsic_tau (w : wks) (k : nat) : R := hel w * hel w / (2 * fn w "viscosity" k).
Definition pspg_tau (w : wks) (k : nat) : R := (if (dim w =? 2)%nat then hel w else hel w * hel w) / (2 * fn w "viscosity" k).
Definition stokes_stab (pspg lsic : bool) (w : wks) (d k : nat) : R :=
  (if pspg then pspg_tau w k * (grad w "pr" d k + force w d k) else 0)
  + (if lsic then lsic_tau w k * div w k else 0).

Theorem C71_stokes_equations pspg lsic w : wf w -> flow_vars w ->
  (forall c, (c < dim w)%nat ->
     equation w (residual (stokes_volume pspg lsic w)) (vel c) (fun k => - force w c k) (stokes_F w c)) /\
  equation w (residual (stokes_volume pspg lsic w)) "pr" (div w) (stokes_stab pspg lsic w) /\
  only_rows w (residual (stokes_volume pspg lsic w)) (flow_names w).
Proof.
  intros W V. split; [| split].
  - intros c Hc n i Hn Hi. rewrite residual_at. unfold stokes_volume, stokes_F. cbv zeta.
    setup w W V D; rewrite D; cbn [Nat.eqb]; hide; rewrite ?at_row_app, ?at_row_nil, ?at_row_if;
      (destruct c as [| [| [| c]]]; [| try lia ..]);
      match goal with
      | Hn : is_var w n (vel 0) |- _ => pose proof (is_var_uniq w n x _ W Hn Hx)
      | Hn : is_var w n (vel 1) |- _ => pose proof (is_var_uniq w n y _ W Hn Hy)
      | Hn : is_var w n (vel 2) |- _ => pose proof (is_var_uniq w n z _ W Hn Hz)
      end; subst n; rows W Hi; destruct pspg, lsic; rewrite ?Rplus_0_r, ?Rplus_0_l; finish D.
  - intros n i Hn Hi. rewrite residual_at. unfold stokes_volume, stokes_stab, pspg_tau, lsic_tau. cbv zeta.
    setup w W V D; rewrite D; cbn [Nat.eqb]; hide; rewrite ?at_row_app, ?at_row_nil, ?at_row_if;
      pose proof (is_var_uniq w n p _ W Hn Hp); subst n; rows W Hi; destruct pspg, lsic; rewrite ?Rplus_0_r, ?Rplus_0_l, <- ?sm_add; finish D.
  - intros n v i Hn Hv Hi. rewrite residual_at. unfold stokes_volume. cbv zeta. unfold flow_names in Hv.
    setup w W V D; rewrite D in *; cbn [Nat.eqb]; hide; rewrite ?at_row_app, ?at_row_nil, ?at_row_if;
      cbn in Hv;
      try (assert (n <> x) by (intros ->; apply Hv; pose proof (is_var_inj _ _ _ _ Hn Hx); subst; auto));
      try (assert (n <> y) by (intros ->; apply Hv; pose proof (is_var_inj _ _ _ _ Hn Hy); subst; auto));
      try (assert (n <> z) by (intros ->; apply Hv; pose proof (is_var_inj _ _ _ _ Hn Hz); subst; auto));
      assert (n <> p) by (intros ->; apply Hv; pose proof (is_var_inj _ _ _ _ Hn Hp); subst; auto);
      repeat match goal with |- context [at_row _ (fill w ?b ?m ?f)] =>
        rewrite (fill_other w b f n m i W (is_var_lt _ _ _ Hn) ltac:(lt_var) Hi ltac:(assumption) eq_refl) end;
      rewrite ?at_row_nil; destruct pspg, lsic; ring.
Qed.
Print Assumptions C71_stokes_equations.

(** Tested with the velocity and pressure themselves, the pressure does no work and the
    viscous terms dissipate: what is left is viscous dissipation less the work of the force. *)
Theorem C71_energy w num p c q : wf w -> flow_vars w -> is_var w p "pr" -> expands w p "pr" q ->
  (forall d, (d < dim w)%nat -> is_var w (num d) (vel d) /\ expands w (num d) (vel d) (c d)) ->
  sumd w (fun d => tested w (residual (stokes_volume false false w)) (num d) (c d))
  + tested w (residual (stokes_volume false false w)) p q =
  integral w (fun k => fn w "viscosity" k * sumd w (fun a => sumd w (fun d => grad w (vel a) d k * grad w (vel a) d k))
                       - sumd w (fun d => force w d k * fld w (vel d) k)).
Proof.
  intros W V Hp Xp Xv. destruct (C71_stokes_equations false false w W V) as [Em [Ep _]].
  rewrite (sumd_ext w _ (fun a => integral w (fun k => - force w a k * fld w (vel a) k + sumd w (fun d => stokes_F w a d k * grad w (vel a) d k)))).
  2:{ intros d D. destruct (Xv d D) as [Hn X]. apply (tested_expands w (num d) (vel d) (c d) _ _ _ X).
      intros i Hi. apply (Em d D); assumption. }
  rewrite (tested_expands w p "pr" q (div w) (stokes_stab false false w) _ Xp) by (intros i Hi; apply Ep; assumption).
  unfold sumd at 1. rewrite integral_sum, <- integral_add. apply integral_ext. intros k _.
  fold (sumd w (fun x => - force w x k * fld w (vel x) k + sumd w (fun d => stokes_F w x d k * grad w (vel x) d k))).
  unfold stokes_F, stokes_stab, div, delta.
  destruct (dims w W) as [D | [D | D]]; rewrite ?(sumd_1 _ _ D), ?(sumd_2 _ _ D), ?(sumd_3 _ _ D); cbn [Nat.eqb]; ring.
Qed.
Print Assumptions C71_energy.

(** Fluid at rest, with the pressure gradient balancing the force: an exact solution. *)
Definition at_rest (w : wks) : Prop := forall k, (k < npts w)%nat ->
  (forall c, (c < dim w)%nat -> fld w (vel c) k = 0 /\ fld w (vel c ++ "_t")%string k = 0 /\
     forall d, (d < dim w)%nat -> grad w (vel c) d k = 0).
Definition hydrostatic (w : wks) : Prop := at_rest w /\ forall k, (k < npts w)%nat ->
  forall c, (c < dim w)%nat -> grad w "pr" c k = force w c k.
Lemma rest_div w k : at_rest w -> (k < npts w)%nat -> div w k = 0.
Proof. intros A K. apply sumd_zero. intros d D. apply (A k K); assumption. Qed.

(** The continuity equation holds for it without pressure stabilization ... *)
Theorem C80_hydrostatic_partial lsic w : wf w -> flow_vars w -> hydrostatic w -> forall p i, is_var w p "pr" ->
  (i < nbas w (usebasis w p))%nat -> residual (stokes_volume false lsic w) (offs w p i) = 0.
Proof.
  intros W V [A B] p i Hp Hi. destruct (C71_stokes_equations false lsic w W V) as [_ [E _]]. rewrite (E p i Hp Hi).
  apply integral_zero. intros k K. rewrite (rest_div w k A K), Rmult_0_l, Rplus_0_l. apply sumd_zero. intros d D.
  unfold stokes_stab. rewrite (rest_div w k A K). destruct lsic; ring.
Qed.
Print Assumptions C80_hydrostatic_partial.

Definition line (n : nat) (f g : string -> R) : wks := {|
  dim := n; varlist := firstn (S n) ["pr"; "ux"; "uy"; "uz"]%string; usebasis := fun _ => 0%nat; npts := 1; nbas := fun _ => 2%nat;
  offs := fun v i => (2 * v + i)%nat; wt := fun _ => 1; bas := fun _ _ _ => 1 / 2;
  bgr := fun _ i _ _ => if (i =? 0)%nat then -1 else 1;
  fld := fun s _ => f s; fn := fun s _ => g s; hel := 1; bcs := fun _ => "Neumann"%string; sidename := "s"%string;
  isAdjoint := false; isTransient := true; deltat := 1 |}.
Lemma line_wf n f g : (1 <= n <= 3)%nat -> wf (line n f g).
Proof.
  intros H. split; [exact H | | cbn; intros; lia].
  cbn [varlist line]. destruct n as [| [| [| [| n]]]]; try lia; cbn; repeat constructor; cbn; intuition discriminate.
Qed.
Lemma line_vars n f g : (1 <= n <= 3)%nat -> flow_vars (line n f g).
Proof.
  intros H. split; [cbn; destruct n; auto |]. cbn [dim line varlist]. intros d D.
  destruct n as [| [| [| [| n]]]]; try lia; destruct d as [| [| [| d]]]; try lia; cbn; auto.
Qed.

(** ... but the pressure stabilization, which adds the force where the momentum equation
    subtracts it, disturbs it. *)
Definition pool : wks := line 1 (fun s => if String.eqb s "grad(pr)[x]" then 1 else 0) (fun _ => 1).
Theorem C80_hydrostatic_refuted : exists w p i, wf w /\ flow_vars w /\ hydrostatic w /\ is_var w p "pr" /\
  (i < nbas w (usebasis w p))%nat /\ residual (stokes_volume true false w) (offs w p i) <> 0.
Proof.
  exists pool, 0%nat, 1%nat. split; [apply line_wf; lia |]. split; [apply line_vars; lia |]. split.
  - split.
    + intros k _ c Hc. cbn in Hc. replace c with 0%nat by lia. split; [reflexivity |]. split; [reflexivity |].
      intros d Hd. cbn in Hd. replace d with 0%nat by lia. reflexivity.
    + intros k _ c Hc. cbn in Hc. replace c with 0%nat by lia. reflexivity.
  - split; [reflexivity |]. split; [cbn; lia |].
    destruct (C71_stokes_equations true false pool) as [_ [E _]]; [apply line_wf; lia | apply line_vars; lia |].
    rewrite (E 0%nat 1%nat) by (reflexivity || (cbn; lia)).
    unfold weak, integral, sumd, div, sumd, stokes_stab, pspg_tau, grad, force, sm, rsum. cbn. lra.
Qed.
Print Assumptions C80_hydrostatic_refuted.

(** *** The hypotheses can be met: a channel of width one with two unknowns per variable. *)
Example C71_channel : let w := line 2 (fun s => if String.eqb s "grad(ux)[y]" then 3 else 0) (fun _ => 1) in
  wf w /\ flow_vars w /\ residual (stokes_volume true true w) (offs w 1 1) = 5 / 2.
Proof.
  intros w. assert (wf w) as W by (apply line_wf; lia). assert (flow_vars w) as V by (apply line_vars; lia).
  split; [exact W |]. split; [exact V |]. destruct (C71_stokes_equations true true w W V) as [E _].
  rewrite (E 0%nat) by (reflexivity || (cbn; lia)). unfold weak, integral, sumd, stokes_F, grad, force, sm, rsum. cbn. unfold rsum. cbn. lra.
Qed.
