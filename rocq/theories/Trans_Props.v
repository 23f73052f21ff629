(** C83 (Burgers equation), C84 (its outflow sides), C85 (shallow water), C86 (options of the
    shallow water module), C87 (ordinary differential equations), C88 (level set),
    C89 (level set where nothing moves). *)
From Coq Require Import Bool Arith Lia Reals Lra List String.
From Verif Require Import Sparse_Model Sparse_Props Mass_Model Mass_Props BProj_Model BProj_Proofs Phys_Model Phys_Spec Phys_Proofs Phys_Tac Trans_Model.
Import ListNotations.
Local Open Scope R_scope.

(** *** C83: u_t + div (v u^2/2 - (eps + nu) grad u) = s *)
Definition velo (w : wks) (d k : nat) : R := fn w (axis d ++ "vel")%string k.
(** u_t + u v . grad u - s *)
Definition strong (w : wks) (k : nat) : R :=
  fld w "u_t" k + sumd w (fun d => velo w d k * fld w "u" k * grad w "u" d k) - fn w "Burgers source" k.
(** The two additions of the two-dimensional case: a viscosity C1 h^2 |r| / C2, at most 1/10,
    where r is the entropy residual for unit velocities, and streamline diffusion with
    parameter C / (C1 / dt + C2 |v| / h), the speed not being rooted where it is below 1e-6. *)
Definition entropy_residual (w : wks) (k : nat) : R :=
  fld w "u" k * (fld w "u_t" k + sumd w (fun d => fld w "u" k * grad w "u" d k)).
Definition evisc (s : bg_set) (w : wks) (k : nat) : R :=
  if ((dim w =? 2)%nat && use_evisc s)%bool then
    Rmin (1 / 10) (fn w "C1" k * (hel w) ^ 2 * Rabs (1 / 1000000000000 + entropy_residual w k) / fn w "C2" k)
  else 0.
Definition bg_speed (w : wks) (k : nat) : R :=
  let v2 := sumd w (fun d => velo w d k * velo w d k) in
  if Rlt_dec (1 / 1000000000000) v2 then sqrt v2 else v2.
Definition supg_tau (w : wks) (k : nat) : R :=
  fn w "supg C" k / (fn w "supg C1" k / deltat w + fn w "supg C2" k * bg_speed w k / hel w).
Definition supg (s : bg_set) (w : wks) (d k : nat) : R :=
  if ((dim w =? 2)%nat && bg_SUPG s)%bool then supg_tau w k * strong w k * fld w "u" k * velo w d k else 0.
Lemma evisc_model s w k : dim w = 2%nat -> bg_evisc s w k = evisc s w k.
Proof.
  intros D. unfold bg_evisc, evisc, entropy_residual. rewrite D, (sumd_2 w _ D). cbn [Nat.eqb andb]. names.
  destruct (use_evisc s); cbv zeta.
  - rewrite Rplus_assoc. replace (fn w "C1" k * hel w ^ 2) with (fn w "C1" k * hel w * hel w) by ring.
    unfold Rmin. destruct (Rlt_dec _ _) as [L | L]; destruct (Rle_dec _ _) as [M | M]; lra.
  - destruct (Rlt_dec _ _); lra.
Qed.
Lemma tau_model w k : dim w = 2%nat -> bg_tau w k = supg_tau w k.
Proof. intros D. unfold bg_tau, supg_tau, bg_speed, velo. rewrite (sumd_2 w _ D). reflexivity. Qed.
Definition burgers_F (s : bg_set) (w : wks) (d k : nat) : R :=
  (fn w "diffusion" k + evisc s w k) * grad w "u" d k - velo w d k * (fld w "u" k * fld w "u" k / 2) + supg s w d k.

Theorem C83_equation s w : wf w -> In "u"%string (varlist w) ->
  equation w (residual (bg_volume s w)) "u" (fun k => fld w "u_t" k - fn w "Burgers source" k) (burgers_F s w) /\
  only_rows w (residual (bg_volume s w)) ["u"%string].
Proof.
  intros W V. destruct (nth_var w _ V) as [u Hu]. split.
  - intros n i Hn Hi. pose proof (is_var_uniq w n u _ W Hn Hu); subst n. rewrite residual_at.
    unfold bg_volume. rewrite (var_num_is w u _ 0 W Hu). cbv zeta. unfold burgers_F.
    destruct (dims w W) as [D | [D | D]]; rewrite !D; cbn [Nat.eqb andb]; rows W Hi; unfold weak, integral; apply sm_ext; intros k _.
    + unfold evisc, supg, velo. rewrite D. cbn [Nat.eqb andb]. rewrite (sumd_1 w _ D). names. cbn [append]. field.
    + rewrite (evisc_model s w k D), (tau_model w k D), (sumd_2 w _ D). unfold supg, strong. rewrite D. cbn [Nat.eqb andb].
      rewrite (sumd_2 w _ D). generalize (evisc s w k) as ev. generalize (supg_tau w k) as ta. intros ta ev. unfold velo.
      names. cbn [append]. destruct (bg_SUPG s); field.
    + unfold evisc, supg, velo. rewrite D. cbn [Nat.eqb andb]. rewrite (sumd_3 w _ D). names. cbn [append]. field.
  - intros n v i Hn Hv Hi. assert (n <> u) by (intros ->; apply Hv; left; symmetry; apply (is_var_inj w u); assumption).
    rewrite residual_at. unfold bg_volume. rewrite (var_num_is w u _ 0 W Hu). cbv zeta.
    destruct (dims w W) as [D | [D | D]]; rewrite !D; cbn [Nat.eqb]; rows W Hi; reflexivity.
Qed.
Print Assumptions C83_equation.

(** Nothing is created inside an element. *)
Theorem C83_conservation s w n : wf w -> is_var w n "u" -> unity w (usebasis w n) ->
  total w (residual (bg_volume s w)) n = integral w (fun k => fld w "u_t" k - fn w "Burgers source" k).
Proof.
  intros W N U. destruct (C83_equation s w W (nth_error_In _ _ N)) as [E _].
  eapply total_weak; [exact U |]. intros i I. apply E; assumption.
Qed.
Print Assumptions C83_conservation.

(** Where the solution satisfies the inviscid equation, SUPG adds nothing. *)
Theorem C83_consistent s w n i : wf w -> is_var w n "u" -> (i < nbas w (usebasis w n))%nat ->
  (forall k, (k < npts w)%nat -> strong w k = 0) ->
  residual (bg_volume s w) (offs w n i) =
  residual (bg_volume {| use_evisc := use_evisc s; bg_SUPG := false |} w) (offs w n i).
Proof.
  intros W N I Z. pose proof (nth_error_In _ _ N) as V.
  destruct (C83_equation s w W V) as [E _]. destruct (C83_equation {| use_evisc := use_evisc s; bg_SUPG := false |} w W V) as [E' _].
  rewrite (E n i N I), (E' n i N I). apply integral_ext. intros k K. f_equal. apply sumd_ext. intros d D. f_equal.
  unfold burgers_F, supg. rewrite (Z k K). cbn [bg_SUPG]. rewrite andb_false_r.
  replace (evisc {| use_evisc := use_evisc s; bg_SUPG := false |} w k) with (evisc s w k) by reflexivity.
  destruct (_ && _)%bool; ring.
Qed.
Print Assumptions C83_consistent.

(** The entropy viscosity lies between 0 and 1/10, so that the diffusion never becomes negative. *)
Theorem C83_viscosity s w k : 0 <= fn w "C1" k -> 0 < fn w "C2" k -> 0 <= evisc s w k <= 1 / 10.
Proof.
  intros A B. unfold evisc. destruct (_ && _)%bool; [| lra]. split; [| apply Rmin_l].
  apply Rmin_glb; [lra |].
  apply Rmult_le_pos; [| left; apply Rinv_0_lt_compat; assumption]. apply Rmult_le_pos; [| apply Rabs_pos].
  apply Rmult_le_pos; [exact A | apply pow2_ge_0].
Qed.
Print Assumptions C83_viscosity.

(** Tested with u, where the velocity is zero: diffusion only dissipates. *)
Theorem C83_energy s w n c : wf w -> is_var w n "u" -> expands w n "u" c ->
  (forall k, (k < npts w)%nat -> 0 <= wt w k /\ 0 <= fn w "diffusion" k /\ 0 <= fn w "C1" k /\ 0 < fn w "C2" k /\
     forall d, (d < dim w)%nat -> velo w d k = 0) ->
  integral w (fun k => (fld w "u_t" k - fn w "Burgers source" k) * fld w "u" k) <= tested w (residual (bg_volume s w)) n c.
Proof.
  intros W N X P. destruct (C83_equation s w W (nth_error_In _ _ N)) as [E _].
  rewrite (tested_expands w n "u" c _ _ _ X (fun i I => E n i N I)). rewrite integral_add.
  match goal with |- ?a <= ?a + ?b => enough (0 <= b) by lra end.
  apply integral_nonneg. intros k K. destruct (P k K) as (A & B & C & D & V). split; [exact A |].
  apply sm_nonneg. intros d I. apply in_seq in I. unfold burgers_F. rewrite (V d) by lia.
  replace (supg s w d k) with 0 by (unfold supg; rewrite (V d) by lia; destruct (_ && _)%bool; ring).
  pose proof (C83_viscosity s w k C D). replace ((_ * grad w "u" d k - _ + 0) * _) with ((fn w "diffusion" k + evisc s w k) * (grad w "u" d k * grad w "u" d k)) by ring.
  apply Rmult_le_pos; [lra | apply Rle_0_sqr].
Qed.
Print Assumptions C83_energy.

(** *** C84: what is convected through a Neumann side *)
Definition outflow (w : wks) (k : nat) : R := fld w "u" k * fld w "u" k / 2 * sumd w (fun d => velo w d k * normal w d k).
Definition neumann (w : wks) (v : string) : Prop := exists n, is_var w n v /\ bcs w n = "Neumann"%string.
Definition outflow_stated (w : wks) : Prop :=
  (neumann w "u" -> equation w (residual (bg_boundary w)) "u" (outflow w) (fun _ _ => 0)) /\
  (~ neumann w "u" -> forall n v i, is_var w n v -> (i < nbas w (usebasis w n))%nat -> residual (bg_boundary w) (offs w n i) = 0).

(** In two dimensions, with u the first variable: *)
Theorem C84_outflow_partial w : wf w -> dim w = 2%nat -> is_var w 0 "u" ->
  outflow_stated w /\ only_rows w (residual (bg_boundary w)) ["u"%string].
Proof.
  intros W D Hu. unfold outflow_stated, bg_boundary. rewrite (var_num_is w 0 _ 0 W Hu), D. cbn [Nat.eqb andb]. cbv zeta.
  split; [split |].
  - intros [m [Hm Nm]] n i Hn Hi. pose proof (is_var_uniq w n 0 _ W Hn Hu); subst n. pose proof (is_var_uniq w m 0 _ W Hm Hu); subst m.
    rewrite Nm, String.eqb_refl, residual_at. rows W Hi. unfold weak, integral, outflow, velo. apply sm_ext. intros k _.
    rewrite ?(sumd_2 w _ D). names. cbn [append]. field.
  - intros NN n v i Hn Hi. destruct (String.eqb_spec (bcs w 0) "Neumann") as [E | _]; [exfalso; apply NN; exists 0%nat; split; assumption | reflexivity].
  - intros n v i Hn Hv Hi. assert (n <> 0%nat) by (intros ->; apply Hv; left; symmetry; apply (is_var_inj w 0); assumption).
    rewrite residual_at. destruct (String.eqb _ _); [| reflexivity]. rows W Hi. reflexivity.
Qed.
Print Assumptions C84_outflow_partial.

Definition cell (n : nat) (vs : list string) (f g : string -> R) (b : nat -> string) : wks := {|
  dim := n; varlist := vs; usebasis := fun _ => 0%nat; npts := 1; nbas := fun _ => 2%nat;
  offs := fun v i => (2 * v + i)%nat; wt := fun _ => 1; bas := fun _ _ _ => 1 / 2;
  bgr := fun _ i _ _ => if (i =? 0)%nat then -1 else 1;
  fld := fun s _ => f s; fn := fun s _ => g s; hel := 1; bcs := b; sidename := "s"%string;
  isAdjoint := false; isTransient := true; deltat := 1 |}.
Lemma cell_wf n vs f g b : (1 <= n <= 3)%nat -> NoDup vs -> wf (cell n vs f g b).
Proof. intros H N. split; [exact H | exact N | cbn; intros; lia]. Qed.
Ltac nodup := repeat constructor; cbn; intuition discriminate.

(** In one dimension (and three) nothing is added, ... *)
Theorem C84_outflow_refuted : exists w, wf w /\ is_var w 0 "u" /\ ~ outflow_stated w.
Proof.
  set (w := cell 1 ["u"%string] (fun _ => 1) (fun _ => 1) (fun _ => "Neumann"%string)).
  assert (wf w) as W by (apply cell_wf; [lia | nodup]). exists w. split; [exact W |]. split; [reflexivity |].
  intros [H _]. assert (neumann w "u") as N by (exists 0%nat; split; reflexivity). specialize (H N 0%nat 0%nat eq_refl).
  cbn in H. specialize (H ltac:(lia)). unfold weak, integral, outflow, sumd, velo, normal, sm, rsum in H. cbn in H. lra.
Qed.
Print Assumptions C84_outflow_refuted.
(** ... and in two the condition of the first variable decides, whichever it is. *)
Theorem C84_first_variable_refuted : exists w, wf w /\ dim w = 2%nat /\ In "u"%string (varlist w) /\ ~ outflow_stated w.
Proof.
  set (w := cell 2 ["T"%string; "u"%string] (fun _ => 1) (fun _ => 1) (fun n => if (n =? 0)%nat then "Neumann"%string else "Dirichlet"%string)).
  assert (wf w) as W by (apply cell_wf; [lia | nodup]). exists w. split; [exact W |]. split; [reflexivity |]. split; [cbn; auto |].
  intros [_ H]. assert (~ neumann w "u") as N.
  { intros [m [A B]]. destruct m as [| m]; [discriminate | cbn in B; discriminate]. }
  specialize (H N 1%nat "u"%string 0%nat eq_refl ltac:(cbn; lia)).
  rewrite residual_at in H. unfold at_row, bg_boundary, sm, rsum, pick in H. cbn in H. lra.
Qed.
Print Assumptions C84_first_variable_refuted.

(** *** C85: shallow water *)
(** Depth, velocities; momentum along axis c is the variable mom c. *)
Definition mom (c : nat) : string := match c with 0%nat => "Hu"%string | _ => "Hv"%string end.
Definition bedslope (c : nat) : string := ("bathymetry_" ++ axis c)%string.
Definition depth (w : wks) (k : nat) : R := fld w "H" k + fn w "bathymetry" k.
Definition delta (c d : nat) : R := if (c =? d)%nat then 1 else 0.
Definition water_vars (w : wks) : Prop := In "H"%string (varlist w) /\ In "Hu"%string (varlist w) /\ In "Hv"%string (varlist w).

(** xi_t + div (Hu, Hv) = s and, with the depth D = xi + b and the velocity u_c = mom c / D,
    (mom c)_t + div (u_c mom) + d_c (g (D^2 - b^2) / 2) - g xi d_c b = s_c *)
Theorem C85_equations g w : wf w -> dim w = 2%nat -> water_vars w ->
  equation w (residual (sw_volume g w)) "H" (fun k => fld w "H_t" k - fn w "source H" k) (fun d k => - fld w (mom d) k) /\
  (forall c, (c < 2)%nat -> equation w (residual (sw_volume g w)) (mom c)
     (fun k => fld w (mom c ++ "_t")%string k - g * fld w "H" k * fn w (bedslope c) k - fn w ("source " ++ mom c)%string k)
     (fun d k => - (fld w (mom c) k * fld w (mom d) k / depth w k
                    + delta c d * (g / 2 * (depth w k * depth w k - fn w "bathymetry" k * fn w "bathymetry" k))))) /\
  only_rows w (residual (sw_volume g w)) ["H"; "Hu"; "Hv"]%string.
Proof.
  intros W D (A & B & C). destruct (nth_var w _ A) as [hn Hh]. destruct (nth_var w _ B) as [un Hu]. destruct (nth_var w _ C) as [vn Hv].
  unfold sw_volume. rewrite (var_num_is w hn _ 0 W Hh), (var_num_is w un _ 0 W Hu), (var_num_is w vn _ 0 W Hv). cbv zeta.
  split; [| split].
  - intros n i Hn Hi. pose proof (is_var_uniq w n hn _ W Hn Hh); subst n. rewrite residual_at. rows W Hi.
    unfold weak, integral. apply sm_ext. intros k _. rewrite (sumd_2 w _ D). cbn [mom]. ring.
  - intros c Hc n i Hn Hi. destruct c as [| [| c]]; [| | lia]; cbn [mom] in *.
    + pose proof (is_var_uniq w n un _ W Hn Hu); subst n. rewrite residual_at. rows W Hi.
      unfold weak, integral. apply sm_ext. intros k _. rewrite (sumd_2 w _ D). unfold depth, delta, bedslope, axis. cbn [Nat.eqb mom append]. unfold Rdiv. ring.
    + pose proof (is_var_uniq w n vn _ W Hn Hv); subst n. rewrite residual_at. rows W Hi.
      unfold weak, integral. apply sm_ext. intros k _. rewrite (sumd_2 w _ D). unfold depth, delta, bedslope, axis. cbn [Nat.eqb mom append]. unfold Rdiv. ring.
  - intros n v i Hn Nv Hi.
    assert (n <> hn) by (intros ->; apply Nv; rewrite (is_var_inj w _ _ _ Hn Hh); cbn; auto).
    assert (n <> un) by (intros ->; apply Nv; rewrite (is_var_inj w _ _ _ Hn Hu); cbn; auto).
    assert (n <> vn) by (intros ->; apply Nv; rewrite (is_var_inj w _ _ _ Hn Hv); cbn; auto).
    rewrite residual_at. rows W Hi. reflexivity.
Qed.
Print Assumptions C85_equations.

(** Nothing flows through the boundary of the domain: the volume changes by the source only. *)
Theorem C85_volume g w n : wf w -> dim w = 2%nat -> water_vars w -> is_var w n "H" -> unity w (usebasis w n) ->
  total w (residual (sw_volume g w)) n = integral w (fun k => fld w "H_t" k - fn w "source H" k).
Proof.
  intros W D V N U. destruct (C85_equations g w W D V) as [E _]. eapply total_weak; [exact U |]. intros i I. apply E; assumption.
Qed.
Print Assumptions C85_volume.

(** The pressure and bed terms are together g D times the slope of the surface. *)
Theorem C85_surface_slope g (xi b : R -> R) x dxi db :
  derivable_pt_lim xi x dxi -> derivable_pt_lim b x db ->
  derivable_pt_lim (fun y => g / 2 * ((xi y + b y) * (xi y + b y) - b y * b y)) x (g * (xi x + b x) * dxi + g * xi x * db).
Proof.
  intros A B. pose proof (derivable_pt_lim_plus _ _ _ _ _ A B) as P.
  pose proof (derivable_pt_lim_mult _ _ _ _ _ P P) as Q. pose proof (derivable_pt_lim_mult _ _ _ _ _ B B) as Q2.
  pose proof (derivable_pt_lim_scal _ (g / 2) _ _ (derivable_pt_lim_minus _ _ _ _ _ Q Q2)) as Z.
  unfold mult_real_fct, minus_fct, mult_fct, plus_fct in Z.
  replace (g * (xi x + b x) * dxi + g * xi x * db) with (g / 2 * ((dxi + db) * (xi x + b x) + (xi x + b x) * (dxi + db) - (db * b x + b x * db))) by field.
  exact Z.
Qed.
Print Assumptions C85_surface_slope.

(** Water at rest with a level surface. *)
Definition lake (w : wks) (level : R) : Prop := forall k, (k < npts w)%nat -> fld w "H" k = level /\ fld w "H_t" k = 0 /\
  fn w "source H" k = 0 /\ forall c, (c < 2)%nat -> fld w (mom c) k = 0 /\ fld w (mom c ++ "_t")%string k = 0 /\ fn w ("source " ++ mom c)%string k = 0.
(** At level zero every row vanishes, whatever the bed; at another level what remains is the
    integral of the derivative of (b + level/2) times the test function, which the quadrature
    gives as zero for test functions vanishing on the boundary when it is exact for it. *)
Theorem C85_lake g w level n v i : wf w -> dim w = 2%nat -> water_vars w -> lake w level -> is_var w n v ->
  (i < nbas w (usebasis w n))%nat ->
  (forall c, (c < 2)%nat -> v = mom c ->
     level * integral w (fun k => fn w (bedslope c) k * bas w (usebasis w n) i k
                          + (fn w "bathymetry" k + level / 2) * bgr w (usebasis w n) i k c) = 0) ->
  residual (sw_volume g w) (offs w n i) = 0.
Proof.
  intros W D V L N I Z. destruct (C85_equations g w W D V) as [E [F O]].
  destruct (string_dec v "H") as [-> | N1].
  - rewrite (E n i N I). apply integral_zero. intros k K. destruct (L k K) as (_ & L2 & L3 & L4).
    rewrite (sumd_2 w _ D), L2, L3, (proj1 (L4 0%nat ltac:(lia))), (proj1 (L4 1%nat ltac:(lia))). ring.
  - assert (forall c, (c < 2)%nat -> v = mom c -> residual (sw_volume g w) (offs w n i) = 0) as M.
    { intros c C ->. rewrite (F c C n i N I). unfold weak.
      transitivity (- g * (level * integral w (fun k => fn w (bedslope c) k * bas w (usebasis w n) i k
                          + (fn w "bathymetry" k + level / 2) * bgr w (usebasis w n) i k c))); [| rewrite (Z c C eq_refl); ring].
      rewrite <- !integral_scal. apply integral_ext. intros k K. destruct (L k K) as (L1 & _ & _ & L4).
      destruct (L4 c C) as (L5 & L6 & L7). rewrite L6, L7, (sumd_2 w _ D). unfold depth. rewrite L1, L5. unfold delta.
      destruct c as [| [| c]]; [| | lia]; cbn [Nat.eqb]; unfold Rdiv; rewrite !Rmult_0_l; field. }
    destruct (string_dec v "Hu") as [-> | N2]; [apply (M 0%nat); [lia | reflexivity] |].
    destruct (string_dec v "Hv") as [-> | N3]; [apply (M 1%nat); [lia | reflexivity] |].
    apply (O n v i N); [cbn; intuition congruence | exact I].
Qed.
Print Assumptions C85_lake.
(** A level different from zero, on an element with an interior function. *)
Definition pond : wks := {|
  dim := 2; varlist := ["H"; "Hu"; "Hv"]%string; usebasis := fun _ => 0%nat; npts := 2; nbas := fun _ => 1%nat;
  offs := fun v i => (v + i)%nat; wt := fun _ => 1; bas := fun _ _ _ => 1;
  bgr := fun _ _ k _ => if (k =? 0)%nat then 2 else -2;
  fld := fun s _ => if String.eqb s "H" then 2 else 0;
  fn := fun s k => if String.eqb s "bathymetry" then (if (k =? 0)%nat then 1 else 2)
                   else if String.eqb s "bathymetry_x" then 1 else if String.eqb s "bathymetry_y" then 1 else 0; hel := 1;
  bcs := fun _ => "none"%string; sidename := "s"%string; isAdjoint := false; isTransient := true; deltat := 1 |}.
Example C85_pond : wf pond /\ lake pond 2 /\ residual (sw_volume 10 pond) 1 = 0 /\ residual (sw_volume 10 pond) 2 = 0.
Proof.
  assert (wf pond) as W by (split; [cbn; lia | nodup | cbn; intros; lia]).
  assert (lake pond 2) as L by (intros k _; repeat split; destruct c as [| [|]]; reflexivity || lia).
  split; [exact W |]. split; [exact L |].
  assert (water_vars pond) as V by (unfold water_vars; cbn; tauto).
  split; [apply (C85_lake 10 pond 2 1 "Hu" 0) | apply (C85_lake 10 pond 2 2 "Hv" 0)]; try assumption; try reflexivity; try (cbn; lia).
  all: intros c C E; destruct c as [| [|]]; try lia; try discriminate E; unfold integral, sm, rsum; cbn; lra.
Qed.

(** *** C86: options of the shallow water module *)
(** The sources act with their weight ... *)
Definition with_fn (w : wks) (f : string -> nat -> R) : wks := {|
  dim := dim w; varlist := varlist w; usebasis := usebasis w; npts := npts w; nbas := nbas w; offs := offs w; wt := wt w; bas := bas w;
  bgr := bgr w; fld := fld w; fn := f; hel := hel w; bcs := bcs w; sidename := sidename w; isAdjoint := isAdjoint w;
  isTransient := isTransient w; deltat := deltat w |}.
Theorem C86_sources_partial g w f c n i : wf w -> dim w = 2%nat -> water_vars w -> (c < 2)%nat -> is_var w n (mom c) ->
  (i < nbas w (usebasis w n))%nat -> (forall s k, s <> ("source " ++ mom c)%string -> f s k = fn w s k) ->
  residual (sw_volume g (with_fn w f)) (offs w n i) = residual (sw_volume g w) (offs w n i)
  + integral w (fun k => (fn w ("source " ++ mom c)%string k - f ("source " ++ mom c)%string k) * bas w (usebasis w n) i k).
Proof.
  intros W D V C N I S.
  assert (wf (with_fn w f)) as W' by (destruct W; split; assumption).
  destruct (C85_equations g w W D V) as [_ [F _]]. destruct (C85_equations g (with_fn w f) W' D V) as [_ [F' _]].
  rewrite (F c C n i N I). change (offs w n i) with (offs (with_fn w f) n i). rewrite (F' c C n i N I). unfold weak.
  change (integral (with_fn w f)) with (integral w). rewrite <- integral_add. apply integral_ext. intros k K.
  change (sumd (with_fn w f)) with (sumd w). unfold depth. cbn [fn with_fn fld bas bgr usebasis].
  rewrite !(S "bathymetry"%string) by (destruct c as [| [|]]; discriminate). rewrite (S (bedslope c)) by (destruct c as [| [|]]; discriminate). ring.
Qed.
Print Assumptions C86_sources_partial.
(** ... but rotation, viscosity, bottom friction and the boundary data are accepted and change
    nothing. *)
Definition ignored : list string := ["Coriolis"; "viscosity"; "bottom friction"; "flux left"; "flux right"; "flux top"; "flux bottom";
  "Neumann source Hu"; "Neumann source Hv"; "bathymetry side"]%string.
Theorem C86_options_refuted g w f : (forall s k, ~ In s ignored -> f s k = fn w s k) ->
  sw_volume g (with_fn w f) = sw_volume g w.
Proof.
  intros S. unfold sw_volume. cbv zeta. change (var_num (with_fn w f)) with (var_num w).
  assert (forall b o F1 F2, (forall k i, F1 k i = F2 k i) -> fill (with_fn w f) b o F1 = fill w b o F2) as X.
  { intros b o F1 F2 H. unfold fill. cbn [offs with_fn npts nbas usebasis]. apply flat_map_ext. intros k. apply map_ext. intros i. rewrite H. reflexivity. }
  f_equal; [| f_equal]; apply X; intros k i; cbn [fn with_fn fld bas bgr usebasis wt];
    rewrite ?(S "bathymetry"%string), ?(S "bathymetry_x"%string), ?(S "bathymetry_y"%string), ?(S "source H"%string), ?(S "source Hu"%string), ?(S "source Hv"%string)
      by (cbn; intuition discriminate); reflexivity.
Qed.
Print Assumptions C86_options_refuted.
Example C86_options : let w := cell 2 ["H"; "Hu"; "Hv"]%string (fun _ => 1) (fun _ => 1) (fun _ => "none"%string) in
  let f s (k : nat) := if String.eqb s "Coriolis" then 5 else 1 in
  (forall s k, ~ In s ignored -> f s k = fn w s k) /\ f "Coriolis"%string 0%nat <> fn w "Coriolis"%string 0%nat.
Proof.
  intros w f. split; [| cbn; lra]. intros s k N. unfold f. destruct (String.eqb_spec s "Coriolis") as [-> | _]; [exfalso; apply N; cbn; auto | reflexivity].
Qed.

(** *** C87: q' = f *)
Theorem C87_equation w n : wf w -> is_var w n "q" -> nbas w (usebasis w n) = 1%nat ->
  (forall k, (k < npts w)%nat -> bas w (usebasis w n) 0 k = 1) ->
  equation w (residual (ode_volume w)) "q" (fun k => fld w "q_t" k - fn w "ODE source" k) (fun _ _ => 0) /\
  only_rows w (residual (ode_volume w)) ["q"%string].
Proof.
  intros W N NB O. unfold ode_volume. rewrite (var_num_is w n _ 0 W N). cbv zeta.
  split.
  - intros m i M I. pose proof (is_var_uniq w m n _ W M N); subst m. replace i with 0%nat in * by lia.
    rewrite residual_at. unfold at_row. rewrite sm_map. unfold weak, integral. apply sm_ext. intros k K. apply in_seq in K.
    unfold pick. cbn [fst snd]. rewrite Nat.eqb_refl, O by lia. rewrite sumd_zero by (intros; ring). ring.
  - intros m v i M NV I. assert (m <> n) by (intros ->; apply NV; left; symmetry; apply (is_var_inj w n); assumption).
    rewrite residual_at. unfold at_row. rewrite sm_map. apply sm_zero. intros k K. unfold pick. cbn [fst snd].
    destruct (Nat.eqb_spec (offs w n 0) (offs w m i)) as [E | _]; [| reflexivity].
    apply (wf_offs w W) in E; [lia | eapply is_var_lt; eassumption | eapply is_var_lt; eassumption | lia | exact I].
Qed.
Print Assumptions C87_equation.
(** A solution has the derivative given, where the derivative and the source do not vary over
    the element: the volume of the element does not matter. *)
Theorem C87_solution w n q s : wf w -> is_var w n "q" -> nbas w (usebasis w n) = 1%nat ->
  (forall k, (k < npts w)%nat -> bas w (usebasis w n) 0 k = 1 /\ fld w "q_t" k = q /\ fn w "ODE source" k = s) ->
  integral w (fun _ => 1) <> 0 ->
  (residual (ode_volume w) (offs w n 0) = 0 <-> q = s).
Proof.
  intros W N NB O V. destruct (C87_equation w n W N NB) as [E _]; [intros k K; apply (O k K) |].
  rewrite (E n 0%nat N) by lia. unfold weak. rewrite (integral_ext w _ (fun _ => (q - s) * 1)).
  - rewrite integral_scal. split; [intros H | intros ->; ring].
    apply Rmult_integral in H. destruct H as [H | H]; [lra | contradiction].
  - intros k K. destruct (O k K) as (A & -> & ->). rewrite A, sumd_zero by (intros; ring). ring.
Qed.
Print Assumptions C87_solution.
Example C87_one : let w := {| dim := 1; varlist := ["q"%string]; usebasis := fun _ => 0%nat; npts := 2; nbas := fun _ => 1%nat;
    offs := fun v i => (v + i)%nat; wt := fun k => if (k =? 0)%nat then 1 else 3; bas := fun _ _ _ => 1; bgr := fun _ _ _ _ => 0;
    fld := fun _ _ => 7; fn := fun _ _ => 5; hel := 1; bcs := fun _ => ""%string; sidename := ""%string;
    isAdjoint := false; isTransient := true; deltat := 1 |} in
  wf w /\ is_var w 0 "q" /\ residual (ode_volume w) 0 = 8.
Proof.
  intros w. assert (wf w) as W by (split; [cbn; lia | nodup | cbn; intros; lia]). split; [exact W |]. split; [reflexivity |].
  destruct (C87_equation w 0 W eq_refl eq_refl) as [E _]; [reflexivity |]. change (residual (ode_volume w) (offs w 0 0) = 8).
  rewrite (E 0%nat 0%nat eq_refl) by (cbn; lia). unfold weak, integral, sumd, sm, rsum. cbn. lra.
Qed.

(** *** C88: phi_t + v . grad phi = 0, with streamline stabilization and the penalty that keeps
    the average length of the gradient near one *)
Definition transported (w : wks) (k : nat) : R := fld w "phi_t" k + sumd w (fun d => velo w d k * grad w "phi" d k).
Definition average (w : wks) (f : nat -> R) : R := integral w f / integral w (fun _ => 1).
Definition reg (x : R) : R := sqrt (x + zero_tol * zero_tol).
Definition gradlen (w : wks) (k : nat) : R := reg (sumd w (fun d => grad w "phi" d k * grad w "phi" d k)).
Definition speed (w : wks) (k : nat) : R := reg (sumd w (fun d => velo w d k * velo w d k)).
Definition penalty (w : wks) : R :=
  average w (fn w "beta") * (hel w * hel w) / 2 * average w (speed w) * (average w (gradlen w) - 1).
Definition level_F (w : wks) (d k : nat) : R :=
  penalty w * (grad w "phi" d k / gradlen w k) + ls_tau (velo w 0 k) (velo w 1 k) (hel w) * transported w k * velo w d k.

Lemma penalty_acc w l a b c e :
  fold_left (fun '(g, v, b, a) pt => (g + ls_gradNorm w pt * wt w pt, v + ls_velMag w pt * wt w pt, b + fn w "beta" pt * wt w pt, a + wt w pt)) l (a, b, c, e)
  = (a + sm l (fun k => wt w k * ls_gradNorm w k), b + sm l (fun k => wt w k * ls_velMag w k),
     c + sm l (fun k => wt w k * fn w "beta" k), e + sm l (fun k => wt w k * 1)).
Proof.
  revert a b c e. induction l as [| x l IH]; intros a b c e; [unfold sm, rsum; cbn; rewrite !Rplus_0_r; reflexivity |].
  cbn [fold_left]. rewrite IH.
  assert (forall f, sm (x :: l) f = f x + sm l f) as C by reflexivity. rewrite !C.
  f_equal; [f_equal; [f_equal |] |]; ring.
Qed.
Lemma penalty_is w : dim w = 2%nat -> ls_penalty w = penalty w.
Proof.
  intros D. unfold ls_penalty. rewrite penalty_acc. cbv zeta. rewrite !Rplus_0_l. unfold penalty, average.
  assert (forall k, gradlen w k = ls_gradNorm w k) as A by (intros k; unfold gradlen, reg, ls_gradNorm; rewrite (sumd_2 w _ D); reflexivity).
  assert (forall k, speed w k = ls_velMag w k) as B by (intros k; unfold speed, reg, ls_velMag, velo; rewrite (sumd_2 w _ D); reflexivity).
  rewrite (integral_ext w (speed w) (ls_velMag w)) by (intros; apply B). rewrite (integral_ext w (gradlen w) (ls_gradNorm w)) by (intros; apply A).
  unfold integral, Rdiv. ring.
Qed.
Theorem C88_equation w : wf w -> dim w = 2%nat -> In "phi"%string (varlist w) ->
  equation w (residual (ls_volume w)) "phi" (transported w) (level_F w) /\
  only_rows w (residual (ls_volume w)) ["phi"%string].
Proof.
  intros W D V. destruct (nth_var w _ V) as [p Hp]. unfold ls_volume. rewrite (var_num_is w p _ 0 W Hp). cbv zeta. split.
  - intros n i Hn Hi. pose proof (is_var_uniq w n p _ W Hn Hp); subst n. rewrite residual_at. rows W Hi.
    unfold weak, integral. apply sm_ext. intros k _. unfold level_F, transported. rewrite (penalty_is w D).
    unfold gradlen, reg, ls_gradNorm. rewrite !(sumd_2 w _ D). unfold velo, axis. cbn [append]. names. unfold Rdiv. ring.
  - intros n v i Hn Nv Hi. assert (n <> p) by (intros ->; apply Nv; left; symmetry; apply (is_var_inj w p); assumption).
    rewrite residual_at. rows W Hi. reflexivity.
Qed.
Print Assumptions C88_equation.
Theorem C88_total w n : wf w -> dim w = 2%nat -> is_var w n "phi" -> unity w (usebasis w n) ->
  total w (residual (ls_volume w)) n = integral w (transported w).
Proof.
  intros W D N U. destruct (C88_equation w W D (nth_error_In _ _ N)) as [E _]. eapply total_weak; [exact U |]. intros i I. apply E; assumption.
Qed.
Print Assumptions C88_total.
(** A transported function with gradient of (regularized) length one on the average solves the
    equation exactly, and so does one that does not vary. *)
Theorem C88_exact w n i : wf w -> dim w = 2%nat -> is_var w n "phi" -> (i < nbas w (usebasis w n))%nat ->
  (forall k, (k < npts w)%nat -> transported w k = 0) ->
  (average w (gradlen w) = 1 \/ forall k d, (k < npts w)%nat -> (d < dim w)%nat -> grad w "phi" d k = 0) ->
  residual (ls_volume w) (offs w n i) = 0.
Proof.
  intros W D N I T H. destruct (C88_equation w W D (nth_error_In _ _ N)) as [E _]. rewrite (E n i N I).
  apply integral_zero. intros k K. rewrite (T k K), Rmult_0_l, Rplus_0_l. apply sumd_zero. intros d Hd. unfold level_F. rewrite (T k K).
  destruct H as [H | H]; [unfold penalty; rewrite H | rewrite (H k d K Hd); unfold Rdiv]; ring.
Qed.
Print Assumptions C88_exact.
(** Length one up to the regularization. *)
Theorem C88_regularized x : 0 <= x -> sqrt x <= reg x <= sqrt x + zero_tol.
Proof.
  intros X. unfold reg. assert (0 < zero_tol) as Z by (unfold zero_tol; lra). split; [apply sqrt_le_1_alt; nra |].
  pose proof (sqrt_pos x). rewrite <- (sqrt_square (sqrt x + zero_tol)) by lra. apply sqrt_le_1_alt.
  pose proof (sqrt_sqrt x X). nra.
Qed.
Print Assumptions C88_regularized.
Example C88_front : let w := cell 2 ["phi"%string] (fun s => if String.eqb s "phi_t" then -2 else if String.eqb s "grad(phi)[x]" then 1 else 0)
    (fun s => if String.eqb s "xvel" then 2 else 1) (fun _ => ""%string) in
  wf w /\ dim w = 2%nat /\ forall k, transported w k = 0.
Proof.
  intros w. split; [apply cell_wf; [lia | nodup] |]. split; [reflexivity |].
  intros k. unfold transported, sumd, velo, grad, sm, rsum. cbn. lra.
Qed.

(** The stabilization parameter is h/4 over the speed where this is not tiny. *)
Theorem C88_tau x y h : 1 / 1000000000000 < x * x + y * y -> ls_tau x y h = h / (4 * sqrt (x * x + y * y)).
Proof.
  intros H. unfold ls_tau, ls_tau_div. cbv zeta. destruct (Rlt_dec _ _) as [_ | N]; [| contradiction].
  field. apply Rgt_not_eq, sqrt_lt_R0. lra.
Qed.
Print Assumptions C88_tau.

(** *** C89: the residual is a number: no division by zero *)
(** Divisors met at a point: volume, regularized gradient, and that of the stabilization. *)
Definition level_defined (w : wks) : Prop := integral w (fun _ => 1) <> 0 /\
  forall k, (k < npts w)%nat -> ls_gradNorm w k <> 0 /\ ls_tau_div (velo w 0 k) (velo w 1 k) <> 0.
Theorem C89_defined_partial w : integral w (fun _ => 1) <> 0 ->
  (forall k, (k < npts w)%nat -> velo w 0 k <> 0 \/ velo w 1 k <> 0) -> level_defined w.
Proof.
  intros V N. split; [exact V |]. intros k K. split.
  - unfold ls_gradNorm. apply Rgt_not_eq, sqrt_lt_R0. unfold zero_tol.
    pose proof (Rle_0_sqr (fld w "grad(phi)[x]" k)) as A. pose proof (Rle_0_sqr (fld w "grad(phi)[y]" k)) as B. unfold Rsqr in A, B. lra.
  - assert (0 < velo w 0 k * velo w 0 k + velo w 1 k * velo w 1 k) as P.
    { pose proof (Rle_0_sqr (velo w 0 k)) as A. pose proof (Rle_0_sqr (velo w 1 k)) as B.
      destruct (N k K) as [X | X]; apply Rsqr_pos_lt in X; unfold Rsqr in *; lra. }
    unfold ls_tau_div. cbv zeta. destruct (Rlt_dec _ _); [| lra]. pose proof (sqrt_lt_R0 _ P). lra.
Qed.
Print Assumptions C89_defined_partial.
(** Where the given velocity is zero the stabilization divides by zero. *)
Theorem C89_defined_refuted w : (0 < npts w)%nat -> velo w 0 0 = 0 -> velo w 1 0 = 0 -> ~ level_defined w.
Proof.
  intros P A B [_ H]. destruct (H 0%nat P) as [_ H2]. apply H2. rewrite A, B. unfold ls_tau_div. cbv zeta.
  destruct (Rlt_dec _ _); [| ring]. replace (0 * 0 + 0 * 0) with 0 by ring. rewrite sqrt_0. ring.
Qed.
Print Assumptions C89_defined_refuted.
Example C89_still : let w := cell 2 ["phi"%string] (fun _ => 1) (fun _ => 0) (fun _ => ""%string) in
  wf w /\ ~ level_defined w.
Proof. intros w. split; [apply cell_wf; [lia | nodup] |]. apply C89_defined_refuted; [cbn; lia | reflexivity | reflexivity]. Qed.
