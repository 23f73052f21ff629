(** C72 (Navier-Stokes momentum, continuity and traction), C73 (stabilization). *)
From Coq Require Import Bool Arith Lia Reals Lra List String.
From Verif Require Import Sparse_Model Sparse_Props Mass_Model Mass_Props BProj_Model BProj_Proofs Phys_Model Phys_Spec Phys_Proofs Flow_Model Flow_Props NS_Proofs.
Import ListNotations.
Local Open Scope R_scope.

(** *** C72 *)
(** The momentum and continuity equations: all of them in one and two dimensions; in three
    the first momentum equation and continuity, with one basis for the velocity. *)
Theorem C72_equations_partial s w : wf w -> flow_vars w -> ((dim w <= 2)%nat \/ one_basis w) ->
  (forall c, (c < dim w)%nat -> ((dim w <= 2)%nat \/ c = 0%nat) ->
     equation w (residual (ns_volume s w)) (vel c) (ns_a s w c) (ns_F s w c)) /\
  equation w (residual (ns_volume s w)) "pr" (div w) (ns_pF s w) /\
  only_rows w (residual (ns_volume s w)) (flow_names w).
Proof.
  intros W V O. destruct (le_lt_dec (dim w) 2) as [L | L].
  - destruct (ns_12 s w W V L) as [A B]. split; [intros; apply A; assumption |]. split; [exact B |]. apply ns_rows; assumption.
  - assert (dim w = 3%nat) as D by (pose proof (wf_dim w W); lia). destruct O as [O | O]; [lia |].
    destruct (ns_3 s w W V D O) as [A [B _]]. split; [| split; [exact B | apply ns_rows; auto]].
    intros c _ [L' | ->]; [lia | exact A].
Qed.
Print Assumptions C72_equations_partial.

(** In three dimensions the third momentum equation is added to the rows of the second, and
    the rows of the third component are empty. *)
Theorem C72_third_component s w : wf w -> flow_vars w -> dim w = 3%nat -> one_basis w ->
  equation w (residual (ns_volume s w)) "uy" (fun k => ns_a s w 1 k + ns_a s w 2 k) (fun d k => ns_F s w 1 d k + ns_F s w 2 d k) /\
  equation w (residual (ns_volume s w)) "uz" (fun _ => 0) (fun _ _ => 0).
Proof. intros W V D O. apply (ns_3 s w W V D O). Qed.
Print Assumptions C72_third_component.

Definition plain : ns_set := {| useSUPG := false; nsPSPG := false; T_ambient := 0; beta := 1 |}.
Lemma line_basis n f g : one_basis (line n f g).
Proof. intros a b c d _ _ _ _. reflexivity. Qed.
Theorem C72_equations_refuted : exists s w c n i, wf w /\ flow_vars w /\ one_basis w /\ (c < dim w)%nat /\ is_var w n (vel c) /\
  (i < nbas w (usebasis w n))%nat /\ residual (ns_volume s w) (offs w n i) <> weak w (usebasis w n) i (ns_a s w c) (ns_F s w c).
Proof.
  exists plain, (line 3 (fun _ => 0) (fun _ => 1)), 2%nat, 3%nat, 0%nat.
  assert (wf (line 3 (fun _ => 0) (fun _ => 1))) as W by (apply line_wf; lia).
  assert (flow_vars (line 3 (fun _ => 0) (fun _ => 1))) as V by (apply line_vars; lia).
  split; [exact W |]. split; [exact V |]. split; [apply line_basis |]. split; [cbn; lia |]. split; [reflexivity |]. split; [cbn; lia |].
  destruct (C72_third_component plain _ W V eq_refl (line_basis _ _ _)) as [_ E].
  rewrite (E 3%nat 0%nat) by (reflexivity || (cbn; lia)).
  unfold weak, integral, sumd, ns_a, ns_F, stokes_F, inertia, buoyancy, convected, sumd, grad, force, sm, rsum. cbn. unfold rsum, sm; cbn. lra.
Qed.
Print Assumptions C72_equations_refuted.

(** A side where component c is given a traction g contributes - g to its equation; any other
    side contributes nothing. *)
Theorem C72_traction w : wf w -> flow_vars w ->
  (forall c n, (c < dim w)%nat -> is_var w n (vel c) -> equation w (residual (ns_boundary w)) (vel c)
     (fun k => if String.eqb (bcs w n) "Neumann" then - fn w ("Neumann " ++ vel c ++ " " ++ sidename w) k else 0) (fun _ _ => 0)) /\
  only_rows w (residual (ns_boundary w)) (map vel (seq 0 (dim w))).
Proof.
  intros W V. split.
  - intros c n Hc Hm n' i Hn Hi. pose proof (is_var_uniq w n' n _ W Hn Hm). subst n'.
    rewrite residual_at. unfold ns_boundary. cbv zeta.
    setup w W V D; rewrite D; cbn [Nat.eqb Nat.ltb Nat.leb]; hide;
      (destruct c as [| [| [| c]]]; [| try lia ..]);
      match goal with
      | Hn : is_var w n (vel 0) |- _ => pose proof (is_var_uniq w n x _ W Hn Hx)
      | Hn : is_var w n (vel 1) |- _ => pose proof (is_var_uniq w n y _ W Hn Hy)
      | Hn : is_var w n (vel 2) |- _ => pose proof (is_var_uniq w n z _ W Hn Hz)
      end; subst n; rewrite ?at_row_if, ?at_row_app, ?at_row_nil, ?at_row_if, ?at_row_nil; rows W Hi;
      repeat (first [rewrite if_zero | rewrite Rplus_0_r | rewrite Rplus_0_l | rewrite sm_if | rewrite <- sm_add]);
      unfold weak, integral;
      apply sm_ext; intros k _; reveal; cbv beta zeta; rewrite ?sumd_zero by (intros; ring); names;
      repeat (match goal with |- context [String.eqb (bcs w ?a) ?b] => destruct (String.eqb_spec (bcs w a) b) end; cbn [orb negb]);
      rewrite ?if_zero; try ring; congruence.
  - intros n v i Hn Hv Hi. rewrite residual_at. unfold ns_boundary. cbv zeta.
    setup w W V D; rewrite D in *; cbn [Nat.eqb Nat.ltb Nat.leb]; hide; rewrite ?at_row_if, ?at_row_app, ?at_row_nil, ?at_row_if, ?at_row_nil;
    cbn in Hv;
    try (assert (n <> x) by (intros ->; apply Hv; pose proof (is_var_inj _ _ _ _ Hn Hx); subst; auto));
    try (assert (n <> y) by (intros ->; apply Hv; pose proof (is_var_inj _ _ _ _ Hn Hy); subst; auto));
    try (assert (n <> z) by (intros ->; apply Hv; pose proof (is_var_inj _ _ _ _ Hn Hz); subst; auto));
    repeat match goal with |- context [at_row _ (fill w ?b ?m ?f)] =>
      rewrite (fill_other w b f n m i W (is_var_lt _ _ _ Hn) ltac:(lt_var) Hi ltac:(assumption) eq_refl) end;
    repeat (first [rewrite if_zero | rewrite Rplus_0_r | rewrite Rplus_0_l]); reflexivity.
Qed.
Print Assumptions C72_traction.

(** *** C73 *)
Definition unstabilized (s : ns_set) : ns_set := {| useSUPG := false; nsPSPG := false; T_ambient := T_ambient s; beta := beta s |}.
(** Where the strong residual vanishes the stabilization adds nothing ... *)
Theorem C73_consistent_partial s w : wf w -> flow_vars w -> ((dim w <= 2)%nat \/ one_basis w) ->
  (forall k c, (k < npts w)%nat -> (c < dim w)%nat -> strong s w c k = 0) ->
  (forall k, (k < npts w)%nat -> fn w "density" k <> 0) ->
  (~ In "e"%string (varlist w) \/ forall k, (k < npts w)%nat -> fn w "density" k = 1) ->
  forall n v i, is_var w n v -> (i < nbas w (usebasis w n))%nat ->
  residual (ns_volume s w) (offs w n i) = residual (ns_volume (unstabilized s) w) (offs w n i).
Proof.
  intros W V O S R0 E n v i Hn Hi.
  assert (forall c, (c < dim w)%nat -> weak w (usebasis w n) i (ns_a s w c) (ns_F s w c)
    = weak w (usebasis w n) i (ns_a (unstabilized s) w c) (ns_F (unstabilized s) w c)) as Q.
  { intros c Hc. apply integral_ext. intros k K. unfold ns_a, buoyancy. cbn. f_equal. apply sumd_ext. intros d _. unfold ns_F. cbn.
    rewrite (S k c K Hc). destruct (useSUPG s); ring. }
  assert (weak w (usebasis w n) i (div w) (ns_pF s w) = weak w (usebasis w n) i (div w) (ns_pF (unstabilized s) w)) as P.
  { apply integral_ext. intros k K. f_equal. apply sumd_ext. intros d Hd. unfold ns_pF. cbn. destruct (nsPSPG s); [| ring].
    pose proof (S k d K Hd) as Z. unfold strong in Z. unfold buoyancy in *.
    destruct (in_dec string_dec "e"%string (varlist w)) as [I | I].
    - destruct E as [E | E]; [contradiction |]. rewrite (E k K) in *. unfold Rdiv. rewrite Rinv_1.
      replace ((inertia w d k + grad w "pr" d k) * 1 + _) with 0 by lra. ring.
    - replace (inertia w d k + grad w "pr" d k) with 0 by lra. unfold Rdiv. ring. }
  destruct (C72_equations_partial s w W V O) as [A [B C]].
  destruct (C72_equations_partial (unstabilized s) w W V O) as [A' [B' C']].
  destruct (in_dec string_dec v (flow_names w)) as [I | I].
  2:{ rewrite (C n v i), (C' n v i) by assumption. reflexivity. }
  cbn in I. destruct I as [<- | I]; [rewrite (B n i Hn Hi), (B' n i Hn Hi); exact P |].
  apply in_map_iff in I. destruct I as [c [<- I]]. apply in_seq in I.
  destruct (le_lt_dec (dim w) 2) as [L | L].
  { rewrite (A c ltac:(lia) (or_introl L) n i Hn Hi), (A' c ltac:(lia) (or_introl L) n i Hn Hi). apply Q. lia. }
  destruct O as [O | O]; [lia |]. assert (dim w = 3%nat) as D by (pose proof (wf_dim w W); lia).
  destruct c as [| [| [| c]]]; [| | | lia].
  - rewrite (A 0%nat ltac:(lia) (or_intror eq_refl) n i Hn Hi), (A' 0%nat ltac:(lia) (or_intror eq_refl) n i Hn Hi). apply Q. lia.
  - destruct (C72_third_component s w W V D O) as [X _]. destruct (C72_third_component (unstabilized s) w W V D O) as [X' _].
    rewrite (X n i Hn Hi), (X' n i Hn Hi). apply integral_ext. intros k K. unfold ns_a, buoyancy. cbn. f_equal. apply sumd_ext. intros d _.
    unfold ns_F. cbn. rewrite (S k 1%nat K), (S k 2%nat K) by lia. destruct (useSUPG s); ring.
  - destruct (C72_third_component s w W V D O) as [_ X]. destruct (C72_third_component (unstabilized s) w W V D O) as [_ X'].
    rewrite (X n i Hn Hi), (X' n i Hn Hi). reflexivity.
Qed.
Print Assumptions C73_consistent_partial.

(** ... so fluid at rest under its own weight stays at rest. *)
Theorem C73_hydrostatic s w : wf w -> flow_vars w -> ((dim w <= 2)%nat \/ one_basis w) -> ~ In "e"%string (varlist w) ->
  at_rest w -> (forall k, (k < npts w)%nat -> fn w "density" k <> 0) ->
  (forall k c, (k < npts w)%nat -> (c < dim w)%nat -> grad w "pr" c k = fn w "density" k * force w c k) ->
  forall p i, is_var w p "pr" -> (i < nbas w (usebasis w p))%nat -> residual (ns_volume s w) (offs w p i) = 0.
Proof.
  intros W V O E A R0 B p i Hp Hi. rewrite (C73_consistent_partial s w W V O) with (v := "pr"%string); [| | assumption | left; assumption | assumption ..].
  - destruct (C72_equations_partial (unstabilized s) w W V O) as [_ [X _]]. rewrite (X p i Hp Hi). apply integral_zero. intros k K.
    rewrite (rest_div w k A K), sumd_zero; [ring |]. intros d _. unfold ns_pF. cbn. ring.
  - intros k c K C. unfold strong, inertia, buoyancy, convected. destruct (in_dec _ _ _) as [I | I]; [contradiction |].
    destruct (A k K c C) as [Z [Zt Zg]]. rewrite Zt, (B k c K C), sumd_zero; [ring |]. intros d D. rewrite (Zg d D). ring.
Qed.
Print Assumptions C73_hydrostatic.

(** With a coupled energy and a density other than one, the pressure stabilization does not
    vanish with the strong residual. *)
Definition warm : wks := {| dim := 1; varlist := ["pr"; "ux"; "e"]%string; usebasis := fun _ => 0%nat; npts := 1; nbas := fun _ => 2%nat;
  offs := fun v i => (2 * v + i)%nat; wt := fun _ => 1; bas := fun _ _ _ => 1 / 2;
  bgr := fun _ i _ _ => if (i =? 0)%nat then -1 else 1;
  fld := fun s _ => if String.eqb s "e" then 2 else if String.eqb s "grad(pr)[x]" then -2 else 0;
  fn := fun s _ => if String.eqb s "density" then 2 else 1; hel := 1; bcs := fun _ => "Neumann"%string; sidename := "s"%string;
  isAdjoint := false; isTransient := true; deltat := 1 |}.
Definition stabilized : ns_set := {| useSUPG := true; nsPSPG := true; T_ambient := 0; beta := 1 |}.
Lemma warm_wf : wf warm.
Proof. split; [cbn; lia | cbn; repeat constructor; cbn; intuition discriminate | cbn; intros; lia]. Qed.
Lemma warm_vars : flow_vars warm.
Proof. split; [cbn; auto |]. cbn. intros d D. replace d with 0%nat by lia. cbn. auto. Qed.
Lemma tau_pos v x y z h n dt t : 0 < v -> 0 < h -> 0 < dt -> 0 < ns_tau v x y z h n dt t.
Proof.
  intros Hv Hh Hd. unfold ns_tau. cbv zeta. apply Rdiv_lt_0_compat; [lra |]. apply sqrt_lt_R0.
  assert (0 < 4 * v / h / h) as A by (repeat apply Rdiv_lt_0_compat; lra).
  pose proof (Rmult_lt_0_compat _ _ A A). rewrite Rplus_assoc.
  apply Rplus_lt_le_0_compat; [assumption |]. apply Rplus_le_le_0_compat; apply Rle_0_sqr.
Qed.
Theorem C73_consistent_refuted : exists s w p i, wf w /\ flow_vars w /\ (dim w <= 2)%nat /\
  (forall k c, (k < npts w)%nat -> (c < dim w)%nat -> strong s w c k = 0) /\
  (forall k, (k < npts w)%nat -> fn w "density" k <> 0) /\ is_var w p "pr" /\ (i < nbas w (usebasis w p))%nat /\
  residual (ns_volume s w) (offs w p i) <> residual (ns_volume (unstabilized s) w) (offs w p i).
Proof.
  exists stabilized, warm, 0%nat, 1%nat. split; [exact warm_wf |]. split; [exact warm_vars |]. split; [cbn; lia |]. split.
  - intros k c _ Hc. cbn in Hc. replace c with 0%nat by lia. unfold strong, inertia, convected, buoyancy, sumd, grad, force, sm, rsum. cbn. lra.
  - split; [intros; cbn; lra |]. split; [reflexivity |]. split; [cbn; lia |].
    pose proof (tau_pos 1 0 0 0 1 1 1 true ltac:(lra) ltac:(lra) ltac:(lra)) as T.
    intros Y. unfold sm, rsum in Y. cbn -[ns_tau] in Y. lra.
Qed.
Print Assumptions C73_consistent_refuted.

(** The stabilization parameter: with speed |u| above 1e-6, 1/tau^2 is the sum of the squares
    of the diffusive, convective and (if transient) time rates; tau is at most the shortest of
    the three times. *)
Definition speed2 (w : wks) (k : nat) : R := sumd w (fun d => fld w (vel d) k * fld w (vel d) k).
Theorem C73_tau w k : wf w -> 0 < hel w -> 0 < deltat w -> 0 < fn w "viscosity" k ->
  0 < tau w k /\
  tau w k <= hel w * hel w / (4 * fn w "viscosity" k) /\
  (isTransient w = true -> tau w k <= deltat w / 2) /\
  (1 / 1000000000000 < speed2 w k ->
     tau w k <= hel w / (2 * sqrt (speed2 w k)) /\
     1 / (tau w k * tau w k) = (4 * fn w "viscosity" k / (hel w * hel w)) ^ 2 + 4 * speed2 w k / (hel w * hel w)
                               + (if isTransient w then 4 / (deltat w * deltat w) else 0)).
Proof.
  intros W H T V. split; [apply tau_pos; assumption |].
  set (A := 4 * fn w "viscosity" k / hel w / hel w).
  set (B := 2 * (if Rlt_dec (1 / 1000000000000) (speed2 w k) then sqrt (speed2 w k) else speed2 w k) / hel w).
  set (C := (if isTransient w then 2 else 0) / deltat w).
  assert (tau w k = 1 / sqrt (A * A + B * B + C * C)) as E.
  { unfold tau, ns_tau, A, B, C, speed2. destruct (dims w W) as [D | [D | D]]; rewrite ?D; cbn [Nat.eqb Nat.leb];
      rewrite ?(sumd_1 _ _ D), ?(sumd_2 _ _ D), ?(sumd_3 _ _ D); cbv zeta; unfold vel, axis; cbn [append]; reflexivity. }
  assert (0 < A) as HA by (unfold A; repeat apply Rdiv_lt_0_compat; lra).
  assert (0 <= C) as HC by (unfold C; destruct (isTransient w); [left; apply Rdiv_lt_0_compat; lra | unfold Rdiv; rewrite Rmult_0_l; lra]).
  assert (forall X, 0 < X -> X * X <= A * A + B * B + C * C -> tau w k <= 1 / X) as Q.
  { intros X HX L. rewrite E. unfold Rdiv. rewrite !Rmult_1_l. apply Rinv_le_contravar; [exact HX |].
    rewrite <- (sqrt_square X) by lra. apply sqrt_le_1_alt. exact L. }
  assert (0 <= A * A) by apply Rle_0_sqr. assert (0 <= B * B) by apply Rle_0_sqr. assert (0 <= C * C) by apply Rle_0_sqr.
  split; [| split].
  - replace (hel w * hel w / (4 * fn w "viscosity" k)) with (1 / A) by (unfold A; field; lra). apply Q; lra.
  - intros Tr. assert (C = 2 / deltat w) as EC by (unfold C; rewrite Tr; reflexivity).
    assert (0 < 2 / deltat w) by (apply Rdiv_lt_0_compat; lra).
    replace (deltat w / 2) with (1 / C) by (rewrite EC; field; lra). apply Q; [rewrite EC; assumption | lra].
  - intros S. assert (B = 2 * sqrt (speed2 w k) / hel w) as EB.
    { unfold B. destruct (Rlt_dec _ _); [reflexivity | contradiction]. }
    assert (0 < sqrt (speed2 w k)) as HS by (apply sqrt_lt_R0; lra).
    split.
    + replace (hel w / (2 * sqrt (speed2 w k))) with (1 / B) by (rewrite EB; field; lra). apply Q; [| lra].
      rewrite EB. apply Rdiv_lt_0_compat; lra.
    + assert (0 < A * A + B * B + C * C) as P by (pose proof (Rmult_lt_0_compat _ _ HA HA); lra).
      assert (tau w k * tau w k = 1 / (A * A + B * B + C * C)) as TT.
      { rewrite E. replace (1 / sqrt (A * A + B * B + C * C) * (1 / sqrt (A * A + B * B + C * C)))
          with (1 / (sqrt (A * A + B * B + C * C) * sqrt (A * A + B * B + C * C))) by (field; apply Rgt_not_eq, sqrt_lt_R0; exact P).
        rewrite sqrt_sqrt by lra. reflexivity. }
      rewrite TT. replace (1 / (1 / (A * A + B * B + C * C))) with (A * A + B * B + C * C) by (field; lra).
      assert (B * B = 4 * speed2 w k / (hel w * hel w)) as BB.
      { rewrite EB. transitivity (4 * (sqrt (speed2 w k) * sqrt (speed2 w k)) / (hel w * hel w)); [field; lra |].
        rewrite sqrt_sqrt by lra. reflexivity. }
      rewrite BB. unfold A, C. destruct (isTransient w); field; lra.
Qed.
Print Assumptions C73_tau.

(** *** The hypotheses can be met: shear flow in two dimensions, fluid at rest in three. *)
Example C72_shear : let w := line 2 (fun s => if String.eqb s "grad(ux)[y]" then 3 else if String.eqb s "uy" then 1 else 0) (fun _ => 1) in
  wf w /\ flow_vars w /\ residual (ns_volume plain w) (offs w 1 1) = 4.
Proof.
  intros w. assert (wf w) as W by (apply line_wf; lia). assert (flow_vars w) as V by (apply line_vars; lia).
  split; [exact W |]. split; [exact V |].
  assert (dim w <= 2)%nat as L by (cbn; lia). destruct (C72_equations_partial plain w W V (or_introl L)) as [E _].
  rewrite (E 0%nat) by ((left; cbn; lia) || reflexivity || (cbn; lia)).
  unfold weak, integral, sumd, ns_a, ns_F, inertia, convected, buoyancy, stokes_F, sumd, grad, force, sm, rsum. cbn. unfold sm, rsum. cbn. lra.
Qed.
Example C73_pool : let w := line 3 (fun s => if String.eqb s "grad(pr)[z]" then -6 else 0)
    (fun s => if String.eqb s "density" then 2 else if String.eqb s "source uz" then -3 else if String.eqb s "viscosity" then 1 else 0) in
  wf w /\ flow_vars w /\ one_basis w /\ ~ In "e"%string (varlist w) /\ at_rest w /\
  (forall k c, (k < npts w)%nat -> (c < dim w)%nat -> grad w "pr" c k = fn w "density" k * force w c k).
Proof.
  intros w. split; [apply line_wf; lia |]. split; [apply line_vars; lia |]. split; [apply line_basis |].
  split; [cbn; intuition discriminate |]. split.
  - intros k _ c Hc. cbn in Hc. destruct c as [| [| [| c]]]; [| | | lia]; (split; [reflexivity |]; split; [reflexivity |];
      intros d Hd; cbn in Hd; destruct d as [| [| [| d]]]; [| | | lia]; reflexivity).
  - intros k c _ Hc. cbn in Hc. destruct c as [| [| [| c]]]; [| | | lia]; cbn; lra.
Qed.
