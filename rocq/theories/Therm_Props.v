(** C67 (heat conduction), C68 (its boundary conditions and interface flux), C69 (porous
    media), C70 (convection-diffusion-reaction). *)
From Coq Require Import Bool Arith Lia Reals Lra List String.
From Verif Require Import Sparse_Model Sparse_Props Mass_Model Mass_Props BProj_Model BProj_Proofs Phys_Model Phys_Spec Phys_Proofs Therm_Model.
Import ListNotations.
Local Open Scope R_scope.

(** *** Specification *)

(** Velocity of the coupled flow, if there is one, plus the prescribed advection, if switched on. *)
Definition vcomp (d : nat) : string := ("u" ++ axis d)%string.
Definition bcomp (d : nat) : string := ("b" ++ axis d)%string.
Definition carrier (adv : bool) (w : wks) (d k : nat) : R :=
  (if in_dec string_dec "ux"%string (varlist w) then fld w (vcomp d) k else 0) + (if adv then fn w (bcomp d) k else 0).
(** rho cp T_t + v . grad T - source - div (kappa grad T), tested. *)
Definition heat_a (adv : bool) (w : wks) (k : nat) : R :=
  fn w "density" k * fn w "specific heat" k * fld w "T_t" k - fn w "thermal source" k
  + sumd w (fun d => carrier adv w d k * grad w "T" d k).
Definition heat_F (w : wks) (d k : nat) : R := fn w "thermal diffusion" k * grad w "T" d k.

(** Weakly imposed value: penalty, consistency and (scaled by sf) adjoint consistency terms. *)
Definition weak_value (w : wks) (b : nat) (v : string) (kap g : nat -> R) (sf : R) (i : nat) : R :=
  integral w (fun k => kap k * (10 / hel w * (fld w v k - g k) * bas w b i k
    - dndn w v k * bas w b i k - sf * (fld w v k - g k) * dphidn w b i k)).

(** *** Tactics *)
Ltac names := unfold grad, normal, gradname, vcomp, bcomp, bracket, axis; cbn [append].
Ltac by_dim W := destruct (dims _ W) as [D | [D | D]];
  rewrite ?D; rewrite ?(sumd_1 _ _ D), ?(sumd_2 _ _ D), ?(sumd_3 _ _ D);
  cbn [Nat.eqb Nat.ltb Nat.leb]; names.
Lemma has_var_dec w v : has_var w v = if in_dec string_dec v (varlist w) then true else false.
Proof.
  destruct (in_dec string_dec v (varlist w)) as [I | I]; [apply has_var_spec; exact I |].
  destruct (has_var w v) eqn:E; [apply has_var_spec in E; contradiction | reflexivity].
Qed.

(** *** C67 *)
Theorem C67_heat_equation adv w : wf w -> In "T"%string (varlist w) ->
  equation w (residual (thermal_volume adv w)) "T" (heat_a adv w) (heat_F w) /\
  only_rows w (residual (thermal_volume adv w)) ["T"%string].
Proof.
  intros W I. apply In_nth_error in I. destruct I as [t Ht]. split.
  - intros n i Hn Hi. rewrite residual_at. unfold thermal_volume. rewrite (var_num_is w n "T" 0 W Hn).
    rewrite (fill_own w n _ n i W (is_var_lt _ _ _ Hn) Hi eq_refl). unfold weak, integral. apply sm_ext. intros k _.
    unfold heat_a, heat_F, carrier. rewrite has_var_dec.
    by_dim W; destruct (in_dec string_dec "ux"%string (varlist w)), adv; ring.
  - intros n v i Hn Hv Hi. rewrite residual_at. unfold thermal_volume. rewrite (var_num_is w t "T" 0 W Ht).
    apply fill_other; auto; try (eapply is_var_lt; eassumption). intros ->. apply Hv. left. eapply is_var_inj; eassumption.
Qed.
Print Assumptions C67_heat_equation.

(** The whole element gains exactly what the source supplies, less storage and advection:
    conduction inside an element creates no heat. *)
Theorem C67_heat_balance adv w n : wf w -> is_var w n "T" -> unity w (usebasis w n) ->
  total w (residual (thermal_volume adv w)) n = integral w (heat_a adv w).
Proof.
  intros W Hn U. apply total_weak with (F := heat_F w); [exact U |]. intros i Hi.
  apply (C67_heat_equation adv w W (nth_error_In _ _ Hn)); assumption.
Qed.
Print Assumptions C67_heat_balance.

(** Conduction dissipates: tested with the temperature itself it gives the integral of
    kappa |grad T|^2, which is not negative. *)
Theorem C67_dissipation w n c : wf w -> is_var w n "T" -> ~ In "ux"%string (varlist w) -> expands w n "T" c ->
  (forall k, (k < npts w)%nat -> fld w "T_t" k = 0 /\ fn w "thermal source" k = 0) ->
  tested w (residual (thermal_volume false w)) n c =
    integral w (fun k => fn w "thermal diffusion" k * sumd w (fun d => grad w "T" d k * grad w "T" d k)) /\
  ((forall k, (k < npts w)%nat -> 0 <= wt w k /\ 0 <= fn w "thermal diffusion" k) ->
   0 <= tested w (residual (thermal_volume false w)) n c).
Proof.
  intros W Hn Nu X Z.
  assert (tested w (residual (thermal_volume false w)) n c =
    integral w (fun k => fn w "thermal diffusion" k * sumd w (fun d => grad w "T" d k * grad w "T" d k))) as E.
  { rewrite (tested_expands w n "T" c (heat_a false w) (heat_F w) _ X).
    - apply integral_ext. intros k K. destruct (Z k K) as [Z1 Z2]. unfold heat_a, heat_F, carrier. rewrite Z1, Z2.
      rewrite (sumd_zero w (fun d => (_ + _) * _)).
      + rewrite <- sumd_scal. rewrite Rmult_0_r, Rminus_0_r, Rplus_0_r, Rmult_0_l, Rplus_0_l. apply sumd_ext. intros; ring.
      + intros d _. destruct (in_dec string_dec "ux"%string (varlist w)); [contradiction | ring].
    - intros i Hi. apply (C67_heat_equation false w W (nth_error_In _ _ Hn)); assumption. }
  split; [exact E |]. intros P. rewrite E. apply integral_nonneg. intros k K. destruct (P k K) as [P1 P2]. split; [exact P1 |].
  apply Rmult_le_pos; [exact P2 |]. apply sm_nonneg. intros d _. apply Rle_0_sqr.
Qed.
Print Assumptions C67_dissipation.

(** *** C68 *)
Lemma thermal_wd_eq sf g w n i : wf w -> is_var w n "T" -> (i < nbas w (usebasis w n))%nat ->
  residual (thermal_wd sf g w) (offs w n i) = weak_value w (usebasis w n) "T" (fn w "thermal diffusion") g sf i.
Proof.
  intros W Hn Hi. rewrite residual_at. unfold thermal_wd. rewrite (var_num_is w n "T" 0 W Hn).
  rewrite (fill_own w n _ n i W (is_var_lt _ _ _ Hn) Hi eq_refl). unfold weak_value, integral. apply sm_ext. intros k _.
  unfold dndn, dphidn. by_dim W; ring.
Qed.

(** The value imposed and the kind of condition. *)
Definition imposed (w : wks) (v : string) (aux : string) (n : nat) (g : nat -> R) : Prop :=
  (bcs w n = "weak Dirichlet"%string /\ g = fn w ("Dirichlet " ++ v ++ " " ++ sidename w)%string) \/
  (bcs w n = "interface"%string /\ g = fld w ("aux " ++ aux)%string).

Theorem C68_boundary_terms fp w n i : wf w -> is_var w n "T" -> (i < nbas w (usebasis w n))%nat ->
  (bcs w n = "Neumann"%string -> residual (thermal_boundary fp w) (offs w n i) =
     - integral w (fun k => fn w ("Neumann T " ++ sidename w)%string k * bas w (usebasis w n) i k)) /\
  (forall g, imposed w "T" "T" n g -> isAdjoint w = false -> residual (thermal_boundary fp w) (offs w n i) =
     weak_value w (usebasis w n) "T" (fn w "thermal diffusion") g fp i) /\
  (bcs w n <> "Neumann"%string -> bcs w n <> "weak Dirichlet"%string -> bcs w n <> "interface"%string ->
     residual (thermal_boundary fp w) (offs w n i) = 0).
Proof.
  intros W Hn Hi. unfold thermal_boundary. rewrite (var_num_is w n "T" 0 W Hn). split; [| split].
  - intros ->. cbn [String.eqb Ascii.eqb Bool.eqb]. rewrite residual_at.
    rewrite (fill_own w n _ n i W (is_var_lt _ _ _ Hn) Hi eq_refl). rewrite integral_opp. apply sm_ext. intros; ring.
  - intros g [[-> ->] | [-> ->]] A; cbn [String.eqb Ascii.eqb Bool.eqb]; rewrite A; apply thermal_wd_eq; assumption.
  - intros N1 N2 N3. rewrite (proj2 (String.eqb_neq _ _) N1), (proj2 (String.eqb_neq _ _) N2), (proj2 (String.eqb_neq _ _) N3). reflexivity.
Qed.
Print Assumptions C68_boundary_terms.

(** A side where the temperature equals the imposed value contributes only the conductive
    flux through it, whatever form_param and the penalty are: the exact solution is not disturbed. *)
Theorem C68_consistent fp w n i g : wf w -> is_var w n "T" -> (i < nbas w (usebasis w n))%nat ->
  imposed w "T" "T" n g -> (forall k, (k < npts w)%nat -> fld w "T" k = g k) ->
  residual (thermal_boundary fp w) (offs w n i) =
  - integral w (fun k => fn w "thermal diffusion" k * dndn w "T" k * bas w (usebasis w n) i k).
Proof.
  intros W Hn Hi Im E. unfold thermal_boundary. rewrite (var_num_is w n "T" 0 W Hn).
  assert (forall sf, residual (thermal_wd sf g w) (offs w n i) =
    - integral w (fun k => fn w "thermal diffusion" k * dndn w "T" k * bas w (usebasis w n) i k)) as G.
  { intros sf. rewrite thermal_wd_eq by assumption. unfold weak_value. rewrite integral_opp.
    apply integral_ext. intros k K. rewrite (E k K). ring. }
  destruct Im as [[-> ->] | [-> ->]]; cbn [String.eqb Ascii.eqb Bool.eqb]; apply G.
Qed.
Print Assumptions C68_consistent.

(** The terms of a unit coefficient on dof j tested with dof i. *)
Definition side_matrix (w : wks) (b : nat) (kap : nat -> R) (sf : R) (i j : nat) : R :=
  integral w (fun k => kap k * (10 / hel w * bas w b j k * bas w b i k
    - dphidn w b j k * bas w b i k - sf * bas w b j k * dphidn w b i k)).
(** With form_param 1 the weakly imposed value keeps the system symmetric (homogeneous data). *)
Theorem C68_symmetric w n c i : wf w -> is_var w n "T" -> (i < nbas w (usebasis w n))%nat ->
  bcs w n = "weak Dirichlet"%string -> isAdjoint w = false -> expands w n "T" c ->
  (forall k, (k < npts w)%nat -> fn w ("Dirichlet T " ++ sidename w)%string k = 0) -> forall fp,
  residual (thermal_boundary fp w) (offs w n i) =
    sm (seq 0 (nbas w (usebasis w n))) (fun j => side_matrix w (usebasis w n) (fn w "thermal diffusion") fp i j * c j) /\
  (fp = 1 -> forall j, side_matrix w (usebasis w n) (fn w "thermal diffusion") fp i j =
                       side_matrix w (usebasis w n) (fn w "thermal diffusion") fp j i).
Proof.
  intros W Hn Hi B A X Z fp. split.
  - destruct (C68_boundary_terms fp w n i W Hn Hi) as [_ [G _]].
    rewrite (G _ (or_introl (conj B eq_refl)) A). clear G. unfold weak_value, side_matrix.
    rewrite (sm_ext _ (fun j => integral w _ * c j) (fun j => integral w (fun k => fn w "thermal diffusion" k * ((10 / hel w * bas w (usebasis w n) i k - fp * dphidn w (usebasis w n) i k) * (c j * bas w (usebasis w n) j k)
      - bas w (usebasis w n) i k * (c j * dphidn w (usebasis w n) j k)))))
      by (intros j _; rewrite Rmult_comm, <- integral_scal; apply integral_ext; intros; ring).
    rewrite integral_sum. apply integral_ext. intros k K. rewrite sm_scal, sm_sub, !sm_scal.
    destruct (X k K) as [X1 X2]. change ("Dirichlet " ++ "T" ++ " " ++ sidename w)%string with ("Dirichlet T " ++ sidename w)%string.
    rewrite (Z k K), X1. unfold dndn, dphidn.
    rewrite (sumd_ext w (fun d => grad w "T" d k * normal w d k) (fun d => sm (seq 0 (nbas w (usebasis w n))) (fun j => c j * (bgr w (usebasis w n) j k d * normal w d k)))).
    2:{ intros d D. rewrite (X2 d D), <- sm_scal_r. apply sm_ext. intros; ring. }
    rewrite <- sumd_swap.
    rewrite (sm_ext _ (fun i0 => sumd w (fun d => c i0 * _)) (fun j => c j * sumd w (fun d => bgr w (usebasis w n) j k d * normal w d k)))
      by (intros; apply sumd_scal). ring.
  - intros -> j. unfold side_matrix. apply integral_ext. intros; ring.
Qed.
Print Assumptions C68_symmetric.

(** What leaves the element through an interface is exactly what computeFlux reports to the
    other side (forward problem). *)
Theorem C68_interface_balance fp w n : wf w -> is_var w n "T" -> bcs w n = "interface"%string ->
  isAdjoint w = false -> unity w (usebasis w n) ->
  total w (residual (thermal_boundary fp w)) n = - integral w (thermal_flux fp w).
Proof.
  intros W Hn B A U. unfold total.
  rewrite (sm_ext _ _ (fun i => weak_value w (usebasis w n) "T" (fn w "thermal diffusion") (fld w "aux T") fp i)).
  2:{ intros i I. apply in_seq in I. destruct (C68_boundary_terms fp w n i W Hn) as [_ [G _]]; [lia |].
      apply (G _ (or_intror (conj B eq_refl)) A). }
  unfold weak_value. rewrite integral_sum. rewrite integral_opp.
  apply integral_ext. intros k K. destruct (U k K) as [U1 U2]. set (b := usebasis w n) in *.
  rewrite (sm_ext _ _ (fun i => fn w "thermal diffusion" k * (10 / hel w * (fld w "T" k - fld w "aux T" k) - dndn w "T" k) * bas w b i k
     + (- fn w "thermal diffusion" k * fp * (fld w "T" k - fld w "aux T" k)) * dphidn w b i k)) by (intros; ring).
  rewrite sm_add, !sm_scal, U1.
  rewrite (sm_ext _ (fun x => dphidn w b x k) (fun i => sumd w (fun d => bgr w b i k d * normal w d k))) by reflexivity.
  rewrite sumd_swap. rewrite (sumd_zero w (fun d => sm _ _)).
  2:{ intros d D. rewrite sm_scal_r, (U2 d D). ring. }
  unfold thermal_flux, dndn. rewrite A. by_dim W; ring.
Qed.
Print Assumptions C68_interface_balance.

(** A side of a one-dimensional element with one linear function of slope one. *)
Definition line (kind : string) (adj : bool) : wks := {|
  dim := 1; varlist := ["T"%string]; usebasis := fun _ => 0%nat; npts := 1; nbas := fun _ => 1%nat;
  offs := fun _ i => i; wt := fun _ => 1; bas := fun _ _ _ => 1; bgr := fun _ _ _ _ => 1;
  fld := fun s _ => if String.eqb s "T" then 1 else if String.eqb s "grad(T)[x]" then 1 else if String.eqb s "n[x]" then 1 else 0;
  fn := fun s _ => if String.eqb s "thermal diffusion" then 1 else 0; hel := 1; bcs := fun _ => kind; sidename := "s"%string;
  isAdjoint := adj; isTransient := false; deltat := 1 |}.
Lemma line_wf kind adj : wf (line kind adj).
Proof. split; [cbn; lia | repeat constructor; cbn; intuition discriminate | cbn; intros; lia]. Qed.

(** The same element seen by the adjoint solve. *)
Definition adjoint_of (w : wks) : wks :=
  {| dim := dim w; varlist := varlist w; usebasis := usebasis w; npts := npts w; nbas := nbas w;
     offs := offs w; wt := wt w; bas := bas w; bgr := bgr w; fld := fld w; fn := fn w; hel := hel w;
     bcs := bcs w; sidename := sidename w; isAdjoint := true; isTransient := isTransient w; deltat := deltat w |}.
(** The adjoint solve is meant to use the transpose of the forward operator. The terms of a
    weakly imposed temperature are not the same function of the solution in the two modes
    unless form_param is one, and the reported flux no longer balances them. *)
Theorem C68_adjoint_refuted :
  exists fp w n i, wf w /\ is_var w n "T" /\ bcs w n = "weak Dirichlet"%string /\ isAdjoint w = false /\
    (i < nbas w (usebasis w n))%nat /\
    residual (thermal_boundary fp (adjoint_of w)) (offs w n i) <> residual (thermal_boundary fp w) (offs w n i).
Proof.
  exists (-1), (line "weak Dirichlet" false), 0%nat, 0%nat. repeat (split; [first [apply line_wf | reflexivity | cbn; lia] |]).
  cbn. unfold scatter, add_at. cbn. lra.
Qed.
Print Assumptions C68_adjoint_refuted.
Theorem C68_adjoint_interface_refuted :
  exists fp w n, wf w /\ is_var w n "T" /\ bcs w n = "interface"%string /\ isAdjoint w = true /\
    total w (residual (thermal_boundary fp w)) n <> - integral w (thermal_flux fp w).
Proof.
  exists (-1), (line "interface" true), 0%nat. repeat (split; [first [apply line_wf | reflexivity] |]).
  unfold total, integral, sm, residual, scatter, add_at, thermal_flux. cbn. unfold rsum; cbn. lra.
Qed.
Print Assumptions C68_adjoint_interface_refuted.
(** With form_param one there is no difference between the modes. *)
Theorem C68_adjoint_partial w : isAdjoint w = false ->
  residual (thermal_boundary 1 (adjoint_of w)) = residual (thermal_boundary 1 w).
Proof. intros A. unfold thermal_boundary. cbn [isAdjoint adjoint_of]. rewrite A. reflexivity. Qed.
Print Assumptions C68_adjoint_partial.

(** *** C69 *)
Definition mobility (w : wks) (k : nat) : R :=
  fn w "permeability" k / fn w "viscosity" k *
  (fn w "reference density" k * (1 + fn w "compressibility" k * (fld w "p" k - fn w "reference pressure" k))).
Definition darcy_a (w : wks) (k : nat) : R :=
  fn w "porosity" k * fn w "reference density" k * fn w "compressibility" k * fld w "p_t" k - fn w "source" k.
Definition darcy_F (w : wks) (d k : nat) : R := mobility w k * grad w "p" d k.

Theorem C69_mass_equation w : wf w -> In "p"%string (varlist w) ->
  equation w (residual (porous_volume w)) "p" (darcy_a w) (darcy_F w) /\
  only_rows w (residual (porous_volume w)) ["p"%string].
Proof.
  intros W I. apply In_nth_error in I. destruct I as [t Ht]. split.
  - intros n i Hn Hi. rewrite residual_at. unfold porous_volume. rewrite (var_num_is w n "p" 0 W Hn).
    rewrite !at_row_if, !(fill_own w n _ n i W (is_var_lt _ _ _ Hn) Hi eq_refl).
    unfold weak, integral, darcy_a, darcy_F, kdens, mobility.
    destruct (dims _ W) as [D | [D | D]]; rewrite D; cbn [Nat.eqb]; apply sm_ext; intros k _;
      rewrite ?(sumd_1 _ _ D), ?(sumd_2 _ _ D), ?(sumd_3 _ _ D); names; ring.
  - intros n v i Hn Hv Hi. rewrite residual_at. unfold porous_volume. rewrite (var_num_is w t "p" 0 W Ht).
    rewrite !at_row_if. assert (n <> t) as NE by (intros ->; apply Hv; left; eapply is_var_inj; eassumption).
    rewrite !(fill_other w t _ n t i W (is_var_lt _ _ _ Hn) (is_var_lt _ _ _ Ht) Hi NE eq_refl), at_row_nil.
    destruct (dim w =? 1)%nat, (dim w =? 2)%nat, (dim w =? 3)%nat; reflexivity.
Qed.
Print Assumptions C69_mass_equation.
Theorem C69_mass_balance w n : wf w -> is_var w n "p" -> unity w (usebasis w n) ->
  total w (residual (porous_volume w)) n = integral w (darcy_a w).
Proof.
  intros W Hn U. apply total_weak with (F := darcy_F w); [exact U |]. intros i Hi.
  apply (C69_mass_equation w W (nth_error_In _ _ Hn)); assumption.
Qed.
Print Assumptions C69_mass_balance.

Lemma porous_wd_eq sf g w n i : wf w -> is_var w n "p" -> (i < nbas w (usebasis w n))%nat ->
  residual (porous_wd sf g w) (offs w n i) = weak_value w (usebasis w n) "p" (mobility w) g sf i.
Proof.
  intros W Hn Hi. rewrite residual_at. unfold porous_wd. rewrite (var_num_is w n "p" 0 W Hn).
  rewrite (fill_own w n _ n i W (is_var_lt _ _ _ Hn) Hi eq_refl). unfold weak_value, integral. apply sm_ext. intros k _.
  unfold dndn, dphidn, dens, mobility, Rdiv. by_dim W; ring.
Qed.
Theorem C69_boundary_terms fp aux w n i : wf w -> is_var w n "p" -> (i < nbas w (usebasis w n))%nat ->
  (bcs w n = "Neumann"%string -> residual (porous_boundary fp aux w) (offs w n i) =
     - integral w (fun k => fn w ("Neumann p " ++ sidename w)%string k * bas w (usebasis w n) i k)) /\
  (forall g, imposed w "p" aux n g -> isAdjoint w = false -> residual (porous_boundary fp aux w) (offs w n i) =
     weak_value w (usebasis w n) "p" (mobility w) g fp i) /\
  (forall g, imposed w "p" aux n g -> (forall k, (k < npts w)%nat -> fld w "p" k = g k) ->
     residual (porous_boundary fp aux w) (offs w n i) =
     - integral w (fun k => mobility w k * dndn w "p" k * bas w (usebasis w n) i k)).
Proof.
  intros W Hn Hi. unfold porous_boundary. rewrite (var_num_is w n "p" 0 W Hn). split; [| split].
  - intros ->. cbn [String.eqb Ascii.eqb Bool.eqb]. rewrite residual_at.
    rewrite (fill_own w n _ n i W (is_var_lt _ _ _ Hn) Hi eq_refl). rewrite integral_opp. apply sm_ext. intros; ring.
  - intros g [[-> ->] | [-> ->]] A; cbn [String.eqb Ascii.eqb Bool.eqb]; rewrite A; apply porous_wd_eq; assumption.
  - intros g Im E.
    assert (forall sf, residual (porous_wd sf g w) (offs w n i) =
      - integral w (fun k => mobility w k * dndn w "p" k * bas w (usebasis w n) i k)) as G.
    { intros sf. rewrite porous_wd_eq by assumption. unfold weak_value. rewrite integral_opp.
      apply integral_ext. intros k K. rewrite (E k K). ring. }
    destruct Im as [[-> ->] | [-> ->]]; cbn [String.eqb Ascii.eqb Bool.eqb]; apply G.
Qed.
Print Assumptions C69_boundary_terms.

(** In one dimension the flux reported at an interface balances the residual ... *)
Theorem C69_interface_balance_partial fp aux w n : wf w -> dim w = 1%nat -> is_var w n "p" -> bcs w n = "interface"%string ->
  isAdjoint w = false -> unity w (usebasis w n) ->
  total w (residual (porous_boundary fp aux w)) n = - integral w (porous_flux fp aux w).
Proof.
  intros W D1 Hn B A U. unfold total.
  rewrite (sm_ext _ _ (fun i => weak_value w (usebasis w n) "p" (mobility w) (fld w ("aux " ++ aux)%string) fp i)).
  2:{ intros i I. apply in_seq in I. destruct (C69_boundary_terms fp aux w n i W Hn) as [_ [G _]]; [lia |].
      apply (G _ (or_intror (conj B eq_refl)) A). }
  unfold weak_value. rewrite integral_sum. rewrite integral_opp.
  apply integral_ext. intros k K. destruct (U k K) as [U1 U2]. set (b := usebasis w n) in *.
  rewrite (sm_ext _ _ (fun i => mobility w k * (10 / hel w * (fld w "p" k - fld w ("aux " ++ aux)%string k) - dndn w "p" k) * bas w b i k
     + (- mobility w k * fp * (fld w "p" k - fld w ("aux " ++ aux)%string k)) * dphidn w b i k)) by (intros; ring).
  rewrite sm_add, !sm_scal, U1.
  rewrite (sm_ext _ (fun x => dphidn w b x k) (fun i => sumd w (fun d => bgr w b i k d * normal w d k))) by reflexivity.
  rewrite sumd_swap. rewrite (sumd_zero w (fun d => sm _ _)).
  2:{ intros d D. rewrite sm_scal_r, (U2 d D). ring. }
  unfold porous_flux, dndn. rewrite A. rewrite (sumd_1 _ _ D1). cbn [Nat.ltb Nat.leb]. names. unfold mobility, dens, Rdiv. ring.
Qed.
Print Assumptions C69_interface_balance_partial.

(** ... but in two dimensions flow in direction y is missing from the flux. *)
Definition plane : wks := {|
  dim := 2; varlist := ["p"%string]; usebasis := fun _ => 0%nat; npts := 1; nbas := fun _ => 1%nat;
  offs := fun _ i => i; wt := fun _ => 1; bas := fun _ _ _ => 1; bgr := fun _ _ _ _ => 0;
  fld := fun s _ => if String.eqb s "grad(p)[y]" then 1 else if String.eqb s "n[y]" then 1 else 0;
  fn := fun s _ => if String.eqb s "compressibility" then 0 else 1; hel := 1; bcs := fun _ => "interface"%string; sidename := "s"%string;
  isAdjoint := false; isTransient := false; deltat := 1 |}.
Lemma plane_wf : wf plane.
Proof. split; [cbn; lia | repeat constructor; cbn; intuition discriminate | cbn; intros; lia]. Qed.
Theorem C69_interface_balance_refuted :
  exists fp aux w n, wf w /\ is_var w n "p" /\ bcs w n = "interface"%string /\ isAdjoint w = false /\ unity w (usebasis w n) /\
    total w (residual (porous_boundary fp aux w)) n <> - integral w (porous_flux fp aux w).
Proof.
  exists 1, "p"%string, plane, 0%nat. split; [apply plane_wf |]. do 3 (split; [reflexivity |]). split.
  - intros k K. split; [cbn; unfold sm, rsum; cbn; ring | intros d _; unfold sm, rsum; cbn; ring].
  - unfold total, integral, sm, residual, scatter, add_at, porous_flux, dens. cbn. unfold rsum, add_at, dens; cbn. lra.
Qed.
Print Assumptions C69_interface_balance_refuted.

(** *** C70 *)
Definition vel (d : nat) : string := (axis d ++ "vel")%string.
Definition cdr_a (w : wks) (k : nat) : R :=
  fld w "c_t" k + sumd w (fun d => fn w (vel d) k * grad w "c" d k) + fn w "reaction" k - fn w "source" k.
Definition cdr_F (w : wks) (d k : nat) : R :=
  fn w "diffusion" k / (fn w "density" k * fn w "specific heat" k) * grad w "c" d k.
Theorem C70_transport_equation w : wf w -> In "c"%string (varlist w) ->
  equation w (residual (cdr_volume w)) "c" (cdr_a w) (cdr_F w) /\
  only_rows w (residual (cdr_volume w)) ["c"%string].
Proof.
  intros W I. apply In_nth_error in I. destruct I as [t Ht]. split.
  - intros n i Hn Hi. rewrite residual_at. unfold cdr_volume. rewrite (var_num_is w n "c" 0 W Hn).
    rewrite !at_row_if, !(fill_own w n _ n i W (is_var_lt _ _ _ Hn) Hi eq_refl).
    unfold weak, integral, cdr_a, cdr_F, vel.
    destruct (dims _ W) as [D | [D | D]]; rewrite D; cbn [Nat.eqb]; apply sm_ext; intros k _;
      rewrite ?(sumd_1 _ _ D), ?(sumd_2 _ _ D), ?(sumd_3 _ _ D); names; unfold Rdiv; ring.
  - intros n v i Hn Hv Hi. rewrite residual_at. unfold cdr_volume. rewrite (var_num_is w t "c" 0 W Ht).
    rewrite !at_row_if. assert (n <> t) as NE by (intros ->; apply Hv; left; eapply is_var_inj; eassumption).
    rewrite !(fill_other w t _ n t i W (is_var_lt _ _ _ Hn) (is_var_lt _ _ _ Ht) Hi NE eq_refl), at_row_nil.
    destruct (dim w =? 1)%nat, (dim w =? 2)%nat, (dim w =? 3)%nat; reflexivity.
Qed.
Print Assumptions C70_transport_equation.
Theorem C70_balance w n : wf w -> is_var w n "c" -> unity w (usebasis w n) ->
  total w (residual (cdr_volume w)) n = integral w (cdr_a w).
Proof.
  intros W Hn U. apply total_weak with (F := cdr_F w); [exact U |]. intros i Hi.
  apply (C70_transport_equation w W (nth_error_In _ _ Hn)); assumption.
Qed.
Print Assumptions C70_balance.

(** *** The hypotheses can be met: a bilinear element of temperature beside a velocity. *)
Definition square : wks := {|
  dim := 2; varlist := ["ux"; "T"; "uy"]%string; usebasis := fun _ => 0%nat; npts := 1; nbas := fun _ => 4%nat;
  offs := fun v i => (4 * v + i)%nat; wt := fun _ => 1; bas := fun _ _ _ => 1 / 4;
  bgr := fun _ i _ d => if (d =? 0)%nat then (if (i =? 0)%nat || (i =? 3)%nat then - 1 / 2 else 1 / 2)
                        else (if (i <? 2)%nat then - 1 / 2 else 1 / 2);
  fld := fun s _ => if String.eqb s "T_t" then 2 else if String.eqb s "grad(T)[x]" then 1 else if String.eqb s "ux" then 3 else 0;
  fn := fun _ _ => 1; hel := 1; bcs := fun _ => "Neumann"%string; sidename := "left"%string;
  isAdjoint := false; isTransient := true; deltat := 1 |}.
Lemma square_wf : wf square.
Proof. split; [cbn; lia | repeat constructor; cbn; intuition discriminate | cbn; intros; lia]. Qed.
Example C67_square : wf square /\ is_var square 1 "T" /\ unity square (usebasis square 1) /\
  total square (residual (thermal_volume true square)) 1 = 5.
Proof.
  assert (unity square (usebasis square 1)) as U.
  { intros k _. split; [unfold sm, rsum; cbn; lra |]. intros d D. destruct d as [| [| d]]; [| | cbn in D; lia]; unfold sm, rsum; cbn; lra. }
  split; [apply square_wf |]. split; [reflexivity |]. split; [exact U |].
  rewrite C67_heat_balance; [| apply square_wf | reflexivity | exact U].
  unfold integral, sm, rsum, heat_a, carrier, sumd, sm, rsum, grad. cbn. lra.
Qed.
Example C68_side : wf (line "weak Dirichlet" false) /\ expands (line "weak Dirichlet" false) 0 "T" (fun _ => 1) /\
  residual (thermal_boundary 1 (line "weak Dirichlet" false)) 0%nat = 8.
Proof.
  split; [apply line_wf |]. split; [intros k _; split; [unfold sm, rsum; cbn; ring | intros [| d] D; [unfold sm, rsum, grad; cbn; ring | cbn in D; lia]] |].
  cbn. unfold scatter, add_at. cbn. lra.
Qed.
Example C69_plane : wf plane /\ residual (porous_boundary 1 "p" plane) 0%nat = -1.
Proof. split; [apply plane_wf |]. cbn. unfold scatter, add_at, dens. cbn. lra. Qed.
