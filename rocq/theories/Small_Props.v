(** C156 (convection-diffusion-reaction of c2), C157 (elliptic prior), C158 (shallow ice),
    C159, C160 (Kuramoto-Sivashinsky), C161, C162 (Hartmann), C163, C164 (saturation),
    C165-C167, C170 (Helmholtz), C168 (functions of these modules that are read and not used),
    C169 (shallow ice in space). *)
From Coq Require Import Bool Arith Lia Reals Lra List String.
From Verif Require Import Sparse_Model Sparse_Props Mass_Model Mass_Props BProj_Model BProj_Proofs Phys_Model Phys_Spec Phys_Proofs Phys_Tac Darcy_Model KL_Props Small_Model.
Import ListNotations.
Local Open Scope R_scope.

Definition cell (n : nat) (vs : list string) (ub : nat -> nat) (f g : string -> R) (b : nat -> string) : wks := {|
  dim := n; varlist := vs; usebasis := ub; npts := 1; nbas := fun _ => 2%nat;
  offs := fun v i => (2 * v + i)%nat; wt := fun _ => 1; bas := fun b _ _ => if (b =? 0)%nat then 1 / 2 else 1;
  bgr := fun _ i _ _ => if (i =? 0)%nat then -1 else 1;
  fld := fun s _ => f s; fn := fun s _ => g s; hel := 1; bcs := b; sidename := "s"%string;
  isAdjoint := false; isTransient := true; deltat := 1 |}.
Lemma cell_wf n vs ub f g b : (1 <= n <= 3)%nat -> NoDup vs -> wf (cell n vs ub f g b).
Proof. intros H N. split; [exact H | exact N | cbn; intros; lia]. Qed.
Ltac nodup := repeat constructor; cbn; intuition discriminate.
Lemma other_var w n u v (x : string) : is_var w u x -> is_var w n v -> ~ In v [x] -> n <> u.
Proof. intros A B H ->. apply H. left. apply (is_var_inj w u); assumption. Qed.

(** *** C156: c_t + v . grad c + r - s = div (D / (rho cp) grad c) *)
Definition velo (w : wks) (d k : nat) : R := fn w (axis d ++ "vel")%string k.
Definition cd_a (w : wks) (k : nat) : R :=
  fld w "c2_t" k + sumd w (fun d => velo w d k * grad w "c2" d k) + fn w "reaction2" k - fn w "source2" k.
Definition cd_F (w : wks) (d k : nat) : R := fn w "diffusion2" k / (fn w "density" k * fn w "specific heat" k) * grad w "c2" d k.
Theorem C156_equation w : wf w -> In "c2"%string (varlist w) ->
  equation w (residual (cd_volume w)) "c2" (cd_a w) (cd_F w) /\ only_rows w (residual (cd_volume w)) ["c2"%string].
Proof.
  intros W V. destruct (nth_var w _ V) as [u Hu]. split.
  - intros n i Hn Hi. pose proof (is_var_uniq w n u _ W Hn Hu); subst n. rewrite residual_at.
    unfold cd_volume. rewrite (var_num_is w u _ 0 W Hu). cbv zeta. unfold cd_a, cd_F.
    destruct (dims w W) as [D | [D | D]]; rewrite !D; cbn [Nat.eqb]; rows W Hi; unfold weak, integral, velo, Rdiv; apply sm_ext; intros k _;
      rewrite ?(sumd_1 w _ D), ?(sumd_2 w _ D), ?(sumd_3 w _ D); names; ring.
  - intros n v i Hn Hv Hi. pose proof (other_var w n u v _ Hu Hn Hv). rewrite residual_at. unfold cd_volume. rewrite (var_num_is w u _ 0 W Hu). cbv zeta.
    destruct (dims w W) as [D | [D | D]]; rewrite !D; cbn [Nat.eqb]; rows W Hi; reflexivity.
Qed.
Print Assumptions C156_equation.
(** The element's balance: diffusion moves c2 and does not make any. *)
Theorem C156_conservation w n : wf w -> is_var w n "c2" -> unity w (usebasis w n) -> total w (residual (cd_volume w)) n = integral w (cd_a w).
Proof.
  intros W N U. destruct (C156_equation w W (nth_error_In _ _ N)) as [E _].
  eapply total_weak; [exact U |]. intros i I. apply E; assumption.
Qed.
Print Assumptions C156_conservation.
(** Tested with c2: what diffuses is dissipated. *)
Theorem C156_energy w n c : wf w -> is_var w n "c2" -> expands w n "c2" c ->
  (forall k, (k < npts w)%nat -> 0 <= wt w k /\ 0 <= fn w "diffusion2" k /\ 0 < fn w "density" k /\ 0 < fn w "specific heat" k) ->
  integral w (fun k => cd_a w k * fld w "c2" k) <= tested w (residual (cd_volume w)) n c.
Proof.
  intros W N X P. destruct (C156_equation w W (nth_error_In _ _ N)) as [E _].
  rewrite (tested_expands w n "c2" c _ _ _ X (fun i I => E n i N I)). rewrite integral_add.
  match goal with |- ?a <= ?a + ?b => enough (0 <= b) by lra end.
  apply integral_nonneg. intros k K. destruct (P k K) as (A & B & C & D). split; [exact A |].
  apply sm_nonneg. intros d _. unfold cd_F. rewrite Rmult_assoc. apply Rmult_le_pos; [| apply Rle_0_sqr].
  apply Rmult_le_pos; [exact B |]. left. apply Rinv_0_lt_compat, Rmult_lt_0_compat; assumption.
Qed.
Print Assumptions C156_energy.
Example C156_case : let w := cell 2 ["c2"%string] (fun _ => 0%nat) (fun s => if String.eqb s "grad(c2)[x]" then 3 else 2) (fun _ => 1) (fun _ => ""%string) in
  wf w /\ is_var w 0 "c2" /\ residual (cd_volume w) 0%nat = (2 + 3 + 2) / 2 - 5 /\ residual (cd_volume w) 1%nat = (2 + 3 + 2) / 2 + 5.
Proof.
  cbv zeta. split; [apply cell_wf; [lia | nodup] |]. split; [reflexivity |].
  rewrite !residual_at. unfold at_row, cd_volume, sm, rsum, pick. cbn. split; field.
Qed.

(** *** C157: T_t - div (D grad T) + r T = s *)
Definition ep_a (w : wks) (k : nat) : R := fld w "T_t" k + fn w "ellipticPrior reaction" k * fld w "T" k - fn w "ellipticPrior source" k.
Definition ep_F (w : wks) (d k : nat) : R := fn w "ellipticPrior diffusion" k * grad w "T" d k.
Theorem C157_equation w : wf w -> In "T"%string (varlist w) ->
  equation w (residual (ep_volume w)) "T" (ep_a w) (ep_F w) /\ only_rows w (residual (ep_volume w)) ["T"%string].
Proof.
  intros W V. destruct (nth_var w _ V) as [u Hu]. split.
  - intros n i Hn Hi. pose proof (is_var_uniq w n u _ W Hn Hu); subst n. rewrite residual_at.
    unfold ep_volume. rewrite (var_num_is w u _ 0 W Hu). cbv zeta. unfold ep_a, ep_F. rows W Hi. unfold weak, integral. apply sm_ext. intros k _.
    destruct (dims w W) as [D | [D | D]]; rewrite !D; cbn [Nat.ltb Nat.leb]; 
      rewrite ?(sumd_1 w _ D), ?(sumd_2 w _ D), ?(sumd_3 w _ D); names; ring.
  - intros n v i Hn Hv Hi. pose proof (other_var w n u v _ Hu Hn Hv). rewrite residual_at. unfold ep_volume. rewrite (var_num_is w u _ 0 W Hu). cbv zeta.
    rows W Hi. reflexivity.
Qed.
Print Assumptions C157_equation.
(** The same element with other values of the fields. *)
Definition with_fld (w : wks) (f : string -> nat -> R) : wks := {|
  dim := dim w; varlist := varlist w; usebasis := usebasis w; npts := npts w; nbas := nbas w; offs := offs w; wt := wt w; bas := bas w;
  bgr := bgr w; fld := f; fn := fn w; hel := hel w; bcs := bcs w; sidename := sidename w; isAdjoint := isAdjoint w;
  isTransient := isTransient w; deltat := deltat w |}.
(** The precision operator of the prior (no source, at rest) is symmetric, ... *)
Theorem C157_symmetric w n c f c' : wf w -> is_var w n "T" ->
  let w' := with_fld w f in
  expands w n "T" c -> expands w' n "T" c' ->
  (forall k, (k < npts w)%nat -> fld w "T_t" k = 0 /\ f "T_t"%string k = 0 /\ fn w "ellipticPrior source" k = 0) ->
  tested w (residual (ep_volume w)) n c' = tested w' (residual (ep_volume w')) n c.
Proof.
  intros W N w' X X' Z. assert (wf w') as W' by (destruct W; split; assumption). assert (is_var w' n "T") as N' by exact N.
  destruct (C157_equation w W (nth_error_In _ _ N)) as [E _]. destruct (C157_equation w' W' (nth_error_In _ _ N')) as [E' _].
  rewrite (tested_weak w _ n c' _ _ _ eq_refl (fun i I => E n i N I)).
  rewrite (tested_weak w' _ n c _ _ _ eq_refl (fun i I => E' n i N' I)).
  unfold integral. apply sm_ext. intros k K. apply in_seq in K. cbn [npts with_fld w'] in *. assert (k < npts w)%nat as K' by lia.
  destruct (X k K') as [X1 X2]. destruct (X' k K') as [X1' X2']. destruct (Z k K') as (Z1 & Z2 & Z3).
  change (wt w' k) with (wt w k). f_equal. cbn [bas nbas usebasis with_fld w'] in *.
  unfold sumd. cbn [dim with_fld w']. f_equal.
  - rewrite <- X1, <- X1'. unfold ep_a. cbn [fld fn with_fld w']. rewrite Z1, Z2, Z3. ring.
  - apply sm_ext. intros d I. apply in_seq in I. cbn [bgr nbas usebasis dim with_fld w'] in *. rewrite <- (X2 d) by lia. rewrite <- (X2' d) by lia.
    unfold ep_F. cbn [fn with_fld w']. ring.
Qed.
Print Assumptions C157_symmetric.
(** ... and positive. *)
Theorem C157_positive w n c : wf w -> is_var w n "T" -> expands w n "T" c ->
  (forall k, (k < npts w)%nat -> fld w "T_t" k = 0 /\ fn w "ellipticPrior source" k = 0) ->
  (forall k, (k < npts w)%nat -> 0 <= wt w k /\ 0 <= fn w "ellipticPrior diffusion" k /\ 0 <= fn w "ellipticPrior reaction" k) ->
  tested w (residual (ep_volume w)) n c =
    integral w (fun k => fn w "ellipticPrior reaction" k * Rsqr (fld w "T" k) + fn w "ellipticPrior diffusion" k * sumd w (fun d => Rsqr (grad w "T" d k))) /\
  0 <= tested w (residual (ep_volume w)) n c.
Proof.
  intros W N X Z P. destruct (C157_equation w W (nth_error_In _ _ N)) as [E _].
  rewrite (tested_expands w n "T" c _ _ _ X (fun i I => E n i N I)).
  assert (forall k, (k < npts w)%nat -> ep_a w k * fld w "T" k + sumd w (fun d => ep_F w d k * grad w "T" d k) =
    fn w "ellipticPrior reaction" k * Rsqr (fld w "T" k) + fn w "ellipticPrior diffusion" k * sumd w (fun d => Rsqr (grad w "T" d k))) as R.
  { intros k K. destruct (Z k K) as [Z1 Z2]. rewrite <- sumd_scal. unfold ep_a, ep_F, Rsqr. rewrite Z1, Z2. f_equal; [ring |]. apply sumd_ext. intros. ring. }
  rewrite (integral_ext _ _ _ R). split; [reflexivity |].
  apply integral_nonneg. intros k K. destruct (P k K) as (A & B & C). split; [exact A |].
  apply Rplus_le_le_0_compat; apply Rmult_le_pos; try assumption; [apply Rle_0_sqr |]. apply sm_nonneg. intros; apply Rle_0_sqr.
Qed.
Print Assumptions C157_positive.
Definition prior_cell : wks := cell 1 ["T"%string] (fun _ => 0%nat)
  (fun s => if String.eqb s "T" then 3 else if String.eqb s "grad(T)[x]" then 2 else 0)
  (fun s => if String.eqb s "ellipticPrior source" then 0 else 1) (fun _ => ""%string).
Example C157_case : let c := fun i => if (i =? 0)%nat then 2 else 4 in
  wf prior_cell /\ is_var prior_cell 0 "T" /\ expands prior_cell 0 "T" c /\ tested prior_cell (residual (ep_volume prior_cell)) 0 c = 13.
Proof.
  cbv zeta. assert (wf prior_cell) by (apply cell_wf; [lia | nodup]). split; [assumption |]. split; [reflexivity |].
  assert (expands prior_cell 0 "T" (fun i => if (i =? 0)%nat then 2 else 4)).
  { intros k K. unfold grad, sm, rsum. cbn. split; [field |]. intros [| d] I; [| lia]. cbn. ring. }
  split; [assumption |]. 
  rewrite (proj1 (C157_positive prior_cell 0 _ H eq_refl H0 ltac:(intros; cbn; auto) ltac:(intros; cbn; lra))).
  unfold integral, sumd, grad, sm, rsum, Rsqr. cbn. ring.
Qed.

(** *** C158: s_t - div (D grad s) = f *)
Definition ice_stated (w : wks) : Prop :=
  equation w (residual (si_volume w)) "s" (fun k => fld w "s_t" k - fn w "source" k) (fun d k => fn w "diffusion" k * grad w "s" d k) /\
  only_rows w (residual (si_volume w)) ["s"%string].
Theorem C158_equation w : wf w -> (dim w <= 2)%nat -> In "s"%string (varlist w) -> ice_stated w.
Proof.
  intros W L V. destruct (nth_var w _ V) as [u Hu]. split.
  - intros n i Hn Hi. pose proof (is_var_uniq w n u _ W Hn Hu); subst n. rewrite residual_at.
    unfold si_volume. rewrite (var_num_is w u _ 0 W Hu). cbv zeta.
    destruct (dims w W) as [D | [D | D]]; [| | lia]; rewrite !D; cbn [Nat.eqb]; rows W Hi; unfold weak, integral; apply sm_ext; intros k _;
      rewrite ?(sumd_1 w _ D), ?(sumd_2 w _ D); names; ring.
  - intros n v i Hn Hv Hi. pose proof (other_var w n u v _ Hu Hn Hv). rewrite residual_at. unfold si_volume. rewrite (var_num_is w u _ 0 W Hu). cbv zeta.
    destruct (dims w W) as [D | [D | D]]; rewrite !D; cbn [Nat.eqb]; rows W Hi; reflexivity.
Qed.
Print Assumptions C158_equation.
Theorem C158_conservation w n : wf w -> (dim w <= 2)%nat -> is_var w n "s" -> unity w (usebasis w n) ->
  total w (residual (si_volume w)) n = integral w (fun k => fld w "s_t" k - fn w "source" k).
Proof.
  intros W L N U. destruct (C158_equation w W L (nth_error_In _ _ N)) as [E _].
  eapply total_weak; [exact U |]. intros i I. apply E; assumption.
Qed.
Print Assumptions C158_conservation.
(** C169: in three dimensions every row is zero, whatever the fields. *)
Theorem C169_space_refuted : (forall w r, dim w = 3%nat -> residual (si_volume w) r = 0) /\
  exists w, wf w /\ In "s"%string (varlist w) /\ ~ ice_stated w.
Proof.
  split.
  - intros w r D. rewrite residual_at. unfold si_volume. rewrite D. reflexivity.
  - set (w := cell 3 ["s"%string] (fun _ => 0%nat) (fun s => if String.eqb s "s_t" then 1 else 0) (fun _ => 0) (fun _ => ""%string)).
    exists w. split; [apply cell_wf; [lia | nodup] |]. split; [cbn; auto |]. intros [E _].
    specialize (E 0%nat 0%nat eq_refl ltac:(cbn; lia)). rewrite residual_at in E.
    unfold weak, integral, sumd, grad, sm, rsum in E. cbn in E. lra.
Qed.
Print Assumptions C169_space_refuted.

(** *** C159: u_t + lap w + w + |grad u|^2 / 2 = 0, w = lap u *)
Definition ks_a (w : wks) (k : nat) : R := fld w "u_t" k + fld w "w" k + sumd w (fun d => Rsqr (grad w "u" d k)) / 2.
Definition ks_stated (w : wks) : Prop :=
  equation w (residual (ks_volume w)) "u" (ks_a w) (fun d k => - grad w "w" d k) /\
  equation w (residual (ks_volume w)) "w" (fld w "w") (fun d k => grad w "u" d k) /\
  only_rows w (residual (ks_volume w)) ["u"; "w"]%string.
(** u and w with the same basis *)
Theorem C159_equation w n m : wf w -> is_var w n "u" -> is_var w m "w" -> usebasis w n = usebasis w m -> ks_stated w.
Proof.
  intros W Hu Hw B. repeat split.
  - intros n' i Hn Hi. pose proof (is_var_uniq w n' n _ W Hn Hu); subst n'. rewrite residual_at.
    unfold ks_volume. rewrite (var_num_is w n _ 0 W Hu), (var_num_is w m _ 0 W Hw). cbv zeta. unfold ks_a.
    destruct (dims w W) as [D | [D | D]]; rewrite !D; cbn [Nat.eqb]; rewrite at_row_app;
    rewrite (fill_own w _ _ n i W ltac:(lt_var) Hi eq_refl);
    rewrite (fill_other w n _ n m i W ltac:(lt_var) ltac:(lt_var) Hi ltac:(differ) B), Rplus_0_r;
    unfold weak, integral, Rsqr; apply sm_ext; intros k _; rewrite ?(sumd_1 w _ D), ?(sumd_2 w _ D), ?(sumd_3 w _ D); names; field.
  - intros n' i Hn Hi. pose proof (is_var_uniq w n' m _ W Hn Hw); subst n'. rewrite residual_at.
    unfold ks_volume. rewrite (var_num_is w n _ 0 W Hu), (var_num_is w m _ 0 W Hw). cbv zeta.
    destruct (dims w W) as [D | [D | D]]; rewrite !D; cbn [Nat.eqb]; rewrite at_row_app;
    rewrite (fill_own w _ _ m i W ltac:(lt_var) Hi B);
    rewrite (fill_other w n _ m n i W ltac:(lt_var) ltac:(lt_var) Hi ltac:(differ) eq_refl), Rplus_0_l;
    rewrite B; unfold weak, integral; apply sm_ext; intros k _; rewrite ?(sumd_1 w _ D), ?(sumd_2 w _ D), ?(sumd_3 w _ D); names; field.
  - intros n' v i Hn Hv Hi.
    assert (n' <> n) by (intros ->; apply Hv; left; symmetry; apply (is_var_inj w n); assumption).
    assert (n' <> m) by (intros ->; apply Hv; right; left; symmetry; apply (is_var_inj w m); assumption).
    rewrite residual_at. unfold ks_volume. rewrite (var_num_is w n _ 0 W Hu), (var_num_is w m _ 0 W Hw). cbv zeta.
    destruct (dims w W) as [D | [D | D]]; rewrite !D; cbn [Nat.eqb]; rewrite at_row_app;
    rewrite (fill_other w n _ n' n i W ltac:(lt_var) ltac:(lt_var) Hi ltac:(assumption) eq_refl);
    rewrite (fill_other w n _ n' m i W ltac:(lt_var) ltac:(lt_var) Hi ltac:(assumption) B); ring.
Qed.
Print Assumptions C159_equation.
(** Where both equations hold on an element, the mean of u can only fall. *)
Theorem C159_mean w n m : wf w -> is_var w n "u" -> is_var w m "w" -> usebasis w n = usebasis w m -> unity w (usebasis w n) ->
  (forall k, (k < npts w)%nat -> 0 <= wt w k) ->
  (forall i, (i < nbas w (usebasis w n))%nat -> residual (ks_volume w) (offs w n i) = 0 /\ residual (ks_volume w) (offs w m i) = 0) ->
  integral w (fld w "u_t") = - integral w (fun k => sumd w (fun d => Rsqr (grad w "u" d k))) / 2 /\ integral w (fld w "u_t") <= 0.
Proof.
  intros W Hu Hw B U P Z. destruct (C159_equation w n m W Hu Hw B) as (E1 & E2 & _).
  pose proof (total_weak w n _ _ _ U (fun i I => E1 n i Hu I)) as T1.
  assert (unity w (usebasis w m)) as U' by (rewrite <- B; exact U).
  pose proof (total_weak w m _ _ _ U' (fun i I => E2 m i Hw I)) as T2.
  assert (total w (residual (ks_volume w)) n = 0) as A1 by (apply sm_zero; intros i I; apply in_seq in I; apply Z; lia).
  assert (total w (residual (ks_volume w)) m = 0) as A2 by (apply sm_zero; intros i I; apply in_seq in I; apply Z; rewrite B; lia).
  rewrite A1 in T1. rewrite A2 in T2. unfold ks_a in T1. rewrite !integral_add in T1. 
  rewrite (integral_ext w (fun k => _ / 2) (fun k => / 2 * sumd w (fun d => Rsqr (grad w "u" d k)))) in T1 by (intros; unfold Rdiv; ring).
  rewrite integral_scal in T1. change (integral w (fun k => fld w "u_t" k)) with (integral w (fld w "u_t")) in T1.
  change (integral w (fun k => fld w "w" k)) with (integral w (fld w "w")) in T1.
  assert (0 <= integral w (fun k => sumd w (fun d => Rsqr (grad w "u" d k)))).
  { apply integral_nonneg. intros k K. split; [apply P; exact K |]. apply sm_nonneg. intros; apply Rle_0_sqr. }
  split; lra.
Qed.
Print Assumptions C159_mean.
Example C159_case : let w := cell 1 ["u"; "w"]%string (fun _ => 0%nat) (fun s => if String.eqb s "w" then 0 else if String.eqb s "u_t" then -2 else if String.eqb s "grad(u)[x]" then 2 else 0) (fun _ => 1) (fun _ => ""%string) in
  wf w /\ is_var w 0 "u" /\ is_var w 1 "w" /\ residual (ks_volume w) 0%nat = 0 /\ residual (ks_volume w) 1%nat = 0 /\ residual (ks_volume w) 2%nat = -2.
Proof.
  cbv zeta. split; [apply cell_wf; [lia | nodup] |]. split; [reflexivity |]. split; [reflexivity |].
  rewrite !residual_at. unfold at_row, ks_volume, sm, rsum, pick. cbn. repeat split; field.
Qed.
(** *** C160: the equation of w is tested with the basis of u *)
Theorem C160_basis_refuted : exists w, wf w /\ In "u"%string (varlist w) /\ In "w"%string (varlist w) /\ ~ ks_stated w.
Proof.
  set (w := cell 1 ["u"; "w"]%string (fun n => n) (fun _ => 1) (fun _ => 0) (fun _ => ""%string)).
  exists w. split; [apply cell_wf; [lia | nodup] |]. split; [cbn; auto |]. split; [cbn; auto |]. intros (_ & E & _).
  specialize (E 1%nat 0%nat eq_refl ltac:(cbn; lia)). rewrite residual_at in E.
  unfold weak, integral, sumd, grad, at_row, ks_volume, sm, rsum, pick in E. cbn in E. lra.
Qed.
Print Assumptions C160_basis_refuted.
(** What does hold then: the rows of w are those of the basis of u, as many as it has, and u's
    rows are right as long as w's dofs reach that far. *)
Theorem C160_partial w n m i : wf w -> is_var w n "u" -> is_var w m "w" ->
  (nbas w (usebasis w n) <= nbas w (usebasis w m))%nat -> (i < nbas w (usebasis w n))%nat ->
  residual (ks_volume w) (offs w m i) = weak w (usebasis w n) i (fld w "w") (fun d k => grad w "u" d k).
Proof.
  intros W Hu Hw L Hi. assert (i < nbas w (usebasis w m))%nat as Hi' by lia. rewrite residual_at.
  unfold ks_volume. rewrite (var_num_is w n _ 0 W Hu), (var_num_is w m _ 0 W Hw). cbv zeta.
  assert (forall f, at_row (offs w m i) (fill w n m f) = sm (seq 0 (npts w)) (fun k => f k i)) as Own.
  { intros f. unfold at_row, fill. rewrite sm_flat. apply sm_ext. intros k _. rewrite sm_map.
    rewrite (sm_ext _ _ (fun j => if (j =? i)%nat then f k j else 0)).
    - apply (sm_single _ i (f k)). exact Hi.
    - intros j J. apply in_seq in J. unfold pick. cbn [fst snd]. destruct (Nat.eqb_spec j i) as [-> | NE]; [rewrite Nat.eqb_refl; reflexivity |].
      destruct (Nat.eqb_spec (offs w m j) (offs w m i)) as [E |]; [| reflexivity].
      destruct (wf_offs w W m j m i) as [_ ?]; try lia; try lt_var. }
  destruct (dims w W) as [D | [D | D]]; rewrite !D; cbn [Nat.eqb]; rewrite at_row_app, Own;
  rewrite (fill_other w n _ m n i W ltac:(lt_var) ltac:(lt_var) Hi' ltac:(differ) eq_refl), Rplus_0_l;
  unfold weak, integral; apply sm_ext; intros k _; rewrite ?(sumd_1 w _ D), ?(sumd_2 w _ D), ?(sumd_3 w _ D); names; field.
Qed.
Print Assumptions C160_partial.

(** *** C161: lap u + Ha b_x = s_u, lap b + Ha u_x = 0 *)
Definition hm_stated (w : wks) : Prop :=
  equation w (residual (hm_volume w)) "u" (fun k => fn w "hartmannNum" k * grad w "b" 0 k - fn w "source u" k) (fun d k => - grad w "u" d k) /\
  equation w (residual (hm_volume w)) "b" (fun k => fn w "hartmannNum" k * grad w "u" 0 k) (fun d k => - grad w "b" d k) /\
  only_rows w (residual (hm_volume w)) ["u"; "b"]%string.
Theorem C161_equation w : wf w -> dim w = 1%nat -> In "u"%string (varlist w) -> In "b"%string (varlist w) -> hm_stated w.
Proof.
  intros W D V1 V2. destruct (nth_var w _ V1) as [u Hu]. destruct (nth_var w _ V2) as [b Hb]. repeat split.
  - intros n i Hn Hi. pose proof (is_var_uniq w n u _ W Hn Hu); subst n. rewrite residual_at.
    unfold hm_volume. rewrite (var_num_is w u _ 0 W Hu), (var_num_is w b _ 0 W Hb). cbv zeta. rows W Hi.
    unfold weak, integral. apply sm_ext. intros k _. rewrite (sumd_1 w _ D). names. ring.
  - intros n i Hn Hi. pose proof (is_var_uniq w n b _ W Hn Hb); subst n. rewrite residual_at.
    unfold hm_volume. rewrite (var_num_is w u _ 0 W Hu), (var_num_is w b _ 0 W Hb). cbv zeta. rows W Hi.
    unfold weak, integral. apply sm_ext. intros k _. rewrite (sumd_1 w _ D). names. ring.
  - intros n v i Hn Hv Hi.
    assert (n <> u) by (intros ->; apply Hv; left; symmetry; apply (is_var_inj w u); assumption).
    assert (n <> b) by (intros ->; apply Hv; right; left; symmetry; apply (is_var_inj w b); assumption).
    rewrite residual_at. unfold hm_volume. rewrite (var_num_is w u _ 0 W Hu), (var_num_is w b _ 0 W Hb). cbv zeta.
    rows W Hi. reflexivity.
Qed.
Print Assumptions C161_equation.
(** The power of the source is what viscosity and resistance dissipate, less what passes as (u b)'. *)
Theorem C161_energy w n m c e : wf w -> dim w = 1%nat -> is_var w n "u" -> is_var w m "b" -> expands w n "u" c -> expands w m "b" e ->
  tested w (residual (hm_volume w)) n c + tested w (residual (hm_volume w)) m e =
  integral w (fun k => fn w "hartmannNum" k * (fld w "u" k * grad w "b" 0 k + grad w "u" 0 k * fld w "b" k))
  - integral w (fun k => fn w "source u" k * fld w "u" k) - integral w (fun k => Rsqr (grad w "u" 0 k) + Rsqr (grad w "b" 0 k)).
Proof.
  intros W D N M X Y. destruct (C161_equation w W D (nth_error_In _ _ N) (nth_error_In _ _ M)) as (E1 & E2 & _).
  rewrite (tested_expands w n "u" c _ _ _ X (fun i I => E1 n i N I)), (tested_expands w m "b" e _ _ _ Y (fun i I => E2 m i M I)).
  unfold Rminus. rewrite !integral_opp, <- !integral_add. apply integral_ext. intros k K. rewrite !(sumd_1 w _ D). unfold Rsqr. ring.
Qed.
Print Assumptions C161_energy.
Example C161_case : let w := cell 1 ["u"; "b"]%string (fun _ => 0%nat) (fun s => if String.eqb s "grad(b)[x]" then 3 else 2) (fun _ => 1) (fun _ => ""%string) in
  wf w /\ dim w = 1%nat /\ residual (hm_volume w) 0%nat = 3 /\ residual (hm_volume w) 1%nat = -1 /\ residual (hm_volume w) 2%nat = 4 /\ residual (hm_volume w) 3%nat = -2.
Proof.
  cbv zeta. split; [apply cell_wf; [lia | nodup] |]. split; [reflexivity |].
  rewrite !residual_at. unfold at_row, hm_volume, sm, rsum, pick. cbn. repeat split; field.
Qed.
(** *** C162: in two and three dimensions; the condition of a side *)
Theorem C162_partial w r : wf w -> In "u"%string (varlist w) -> In "b"%string (varlist w) ->
  (forall v d k, In v ["u"; "b"]%string -> (1 <= d < dim w)%nat -> grad w v d k = 0) -> hm_stated w /\
  (fn w ("Neumann b " ++ sidename w)%string = (fun _ => 0) -> residual (hm_boundary w) r = 0).
Proof.
  intros W V1 V2 Flat. split.
  { destruct (nth_var w _ V1) as [u Hu]. destruct (nth_var w _ V2) as [b Hb].
    assert (forall v F, In v ["u"; "b"]%string -> forall k, sumd w (fun d => - grad w v d k * F d) = - grad w v 0 k * F 0%nat) as One.
    { intros v F I k. destruct (dims w W) as [D | [D | D]]; rewrite ?(sumd_1 w _ D), ?(sumd_2 w _ D), ?(sumd_3 w _ D); [reflexivity | |].
      - rewrite (Flat v 1%nat k I) by lia. ring.
      - rewrite (Flat v 1%nat k I), (Flat v 2%nat k I) by lia. ring. }
    repeat split.
    - intros n i Hn Hi. pose proof (is_var_uniq w n u _ W Hn Hu); subst n. rewrite residual_at.
      unfold hm_volume. rewrite (var_num_is w u _ 0 W Hu), (var_num_is w b _ 0 W Hb). cbv zeta. rows W Hi.
      unfold weak, integral. apply sm_ext. intros k _. rewrite (One "u"%string) by (cbn; auto). names. ring.
    - intros n i Hn Hi. pose proof (is_var_uniq w n b _ W Hn Hb); subst n. rewrite residual_at.
      unfold hm_volume. rewrite (var_num_is w u _ 0 W Hu), (var_num_is w b _ 0 W Hb). cbv zeta. rows W Hi.
      unfold weak, integral. apply sm_ext. intros k _. rewrite (One "b"%string) by (cbn; auto). names. ring.
    - intros n v i Hn Hv Hi.
      assert (n <> u) by (intros ->; apply Hv; left; symmetry; apply (is_var_inj w u); assumption).
      assert (n <> b) by (intros ->; apply Hv; right; left; symmetry; apply (is_var_inj w b); assumption).
      rewrite residual_at. unfold hm_volume. rewrite (var_num_is w u _ 0 W Hu), (var_num_is w b _ 0 W Hb). cbv zeta.
      rows W Hi. reflexivity. }
  intros Z. rewrite residual_at. unfold hm_boundary. cbv zeta. rewrite Z. unfold at_row, fill. rewrite sm_flat. apply sm_zero. intros k _.
  rewrite sm_map. apply sm_zero. intros j _. unfold pick. cbn [fst snd]. destruct (_ =? _)%nat; ring.
Qed.
Print Assumptions C162_partial.
Theorem C162_plane_refuted : exists w, wf w /\ dim w = 2%nat /\ In "u"%string (varlist w) /\ In "b"%string (varlist w) /\ ~ hm_stated w.
Proof.
  set (w := cell 2 ["u"; "b"]%string (fun _ => 0%nat) (fun s => if String.eqb s "grad(u)[y]" then 1 else 0) (fun _ => 0) (fun _ => ""%string)).
  exists w. split; [apply cell_wf; [lia | nodup] |]. split; [reflexivity |]. split; [cbn; auto |]. split; [cbn; auto |]. intros (E & _).
  specialize (E 0%nat 0%nat eq_refl ltac:(cbn; lia)). rewrite residual_at in E.
  unfold weak, integral, sumd, grad, at_row, hm_volume, sm, rsum, pick in E. cbn in E. lra.
Qed.
Print Assumptions C162_plane_refuted.
Theorem C162_side_refuted : exists w n i, wf w /\ is_var w n "b" /\ bcs w n <> "Neumann"%string /\ (i < nbas w (usebasis w n))%nat /\
  residual (hm_boundary w) (offs w n i) <> 0.
Proof.
  set (w := cell 1 ["u"; "b"]%string (fun _ => 0%nat) (fun s => 1) (fun _ => 1) (fun _ => "Dirichlet"%string)).
  exists w, 1%nat, 0%nat. split; [apply cell_wf; [lia | nodup] |]. split; [reflexivity |]. split; [discriminate |]. split; [cbn; lia |].
  rewrite residual_at. unfold at_row, hm_boundary, sm, rsum, pick. cbn. lra.
Qed.
Print Assumptions C162_side_refuted.

(** *** C163: phi S_t + div (f_w u) = s *)
Definition sa_flux (w : wks) (d k : nat) : R := fn w "f_w" k * fn w ("u" ++ axis d)%string k.
(** wells of given rate *)
Definition rates (wells : option (list well)) : Prop :=
  match wells with None => True | Some ws => ws <> [] /\ forall wl, In wl ws -> welltype wl = "flow rate"%string end.
Definition inflow (wells : option (list well)) (w : wks) (k : nat) : R :=
  fn w "source_S" k + match wells with None => 0 | Some ws => sm ws (fun wl => fn w (wellname wl) k) end.
Lemma sa_source_is wells w k : rates wells -> sa_source wells w k = inflow wells w k.
Proof.
  intros H. unfold sa_source, inflow. destruct wells as [ws |]; [| ring]. destruct H as [NE T].
  rewrite C115_wells_partial by exact NE. f_equal. apply sm_ext. intros wl I. unfold well_rate. rewrite (T wl I). reflexivity.
Qed.
Theorem C163_equation phi wells w : wf w -> varlist w = ["S"%string] -> rates wells ->
  exists res, sa_volume phi wells w = Some res /\
  equation w (residual res) "S" (fun k => phi * fld w "S_t" k - inflow wells w k) (fun d k => - sa_flux w d k).
Proof.
  intros W V RT. unfold sa_volume. rewrite V. cbn [List.length Nat.leb seq flat_map]. rewrite app_nil_r. eexists. split; [reflexivity |].
  assert (is_var w 0 "S") as H0 by (unfold is_var; rewrite V; reflexivity).
  intros n i Hn Hi. pose proof (is_var_uniq w n 0 _ W Hn H0); subst n. rewrite residual_at. unfold sa_equation. cbv zeta.
  rewrite V. cbn [nth append].
  destruct (dims w W) as [D | [D | D]]; rewrite !D; cbn [Nat.eqb]; rows W Hi; unfold weak, integral, sa_flux; apply sm_ext; intros k _;
    rewrite (sa_source_is wells w k RT), ?(sumd_1 w _ D), ?(sumd_2 w _ D), ?(sumd_3 w _ D); names; ring.
Qed.
Print Assumptions C163_equation.
(** What a cell gains is what the sources give it: the water displaced stays in the cell's sum. *)
Theorem C163_conservation phi wells w : wf w -> varlist w = ["S"%string] -> rates wells -> unity w (usebasis w 0) ->
  exists res, sa_volume phi wells w = Some res /\
  total w (residual res) 0 = phi * integral w (fld w "S_t") - integral w (inflow wells w).
Proof.
  intros W V RT U. destruct (C163_equation phi wells w W V RT) as [res [H E]]. exists res. split; [exact H |].
  assert (is_var w 0 "S") as H0 by (unfold is_var; rewrite V; reflexivity).
  rewrite (total_weak w 0 _ _ _ U (fun i I => E 0%nat i H0 I)). unfold Rminus. rewrite integral_opp, <- integral_scal, <- integral_add.
  reflexivity.
Qed.
Print Assumptions C163_conservation.
Example C163_case : exists res, let w := cell 1 ["S"%string] (fun _ => 0%nat) (fun _ => 4) (fun s => if String.eqb s "ux" then 3 else 1) (fun _ => ""%string) in
  wf w /\ sa_volume (1 / 2) (Some [{| wellname := "W"%string; welltype := "flow rate"%string |}]) w = Some res /\ residual res 0%nat = 3 /\ residual res 1%nat = -3.
Proof.
  eexists. cbv zeta. split; [apply cell_wf; [lia | nodup] |]. split; [reflexivity |].
  rewrite !residual_at. unfold at_row, sa_equation, sa_source, add_wells, sm, rsum, pick. cbn. split; field.
Qed.
(** *** C164: with another variable in the block, the loop leaves the arrays *)
Theorem C164_partial phi wells w : wf w -> rates wells -> In "S"%string (varlist w) ->
  (sa_volume phi wells w <> None <-> varlist w = ["S"%string]).
Proof.
  intros W RT I. unfold sa_volume. destruct (Nat.leb_spec (List.length (varlist w)) 1) as [L | L]; split; intros H; try congruence.
  - destruct (varlist w) as [| a [| b l]]; [destruct I | | cbn in L; lia]. destruct I as [-> | []]. reflexivity.
  - rewrite H in L. cbn in L. lia.
Qed.
Print Assumptions C164_partial.
Theorem C164_refuted : exists w, wf w /\ In "S"%string (varlist w) /\ forall phi wells, sa_volume phi wells w = None.
Proof.
  exists (cell 2 ["p"; "S"]%string (fun _ => 0%nat) (fun _ => 0) (fun _ => 0) (fun _ => ""%string)).
  split; [apply cell_wf; [lia | nodup] |]. split; [cbn; auto |]. reflexivity.
Qed.
Print Assumptions C164_refuted.

(** *** C165: Helmholtz, - omega^2 u - div (c^2 grad u) = s in complex numbers *)
Record cx := { Re : R; Im : R }.
Definition cadd (a b : cx) : cx := {| Re := Re a + Re b; Im := Im a + Im b |}.
Definition csub (a b : cx) : cx := {| Re := Re a - Re b; Im := Im a - Im b |}.
Definition cmul (a b : cx) : cx := {| Re := Re a * Re b - Im a * Im b; Im := Re a * Im b + Im a * Re b |}.
Definition creal (r : R) : cx := {| Re := r; Im := 0 |}.
Definition csumd (w : wks) (f : nat -> cx) : cx := {| Re := sumd w (fun d => Re (f d)); Im := sumd w (fun d => Im (f d)) |}.
Definition cintegral (w : wks) (f : nat -> cx) : cx := {| Re := integral w (fun k => Re (f k)); Im := integral w (fun k => Im (f k)) |}.
Definition hz_u (w : wks) (k : nat) : cx := {| Re := fld w "ureal" k; Im := fld w "uimag" k |}.
Definition hz_du (w : wks) (d k : nat) : cx := {| Re := grad w "ureal" d k; Im := grad w "uimag" d k |}.
Definition hz_c2 (w : wks) (d k : nat) : cx := {| Re := fn w ("c2r_" ++ axis d)%string k; Im := fn w ("c2i_" ++ axis d)%string k |}.
Definition hz_omega2 (w : wks) (k : nat) : cx := {| Re := fn w "omega2r" k; Im := fn w "omega2i" k |}.
Definition hz_source (w : wks) (k : nat) : cx := {| Re := fn w "source_r" k; Im := fn w "source_i" k |}.
(** The weak form with the real test function of dof i of basis b. *)
Definition hz_weak (w : wks) (b i : nat) (mass : nat -> cx) : cx := cintegral w (fun k =>
  cadd (cmul (csub (cmul (mass k) (hz_u w k)) (hz_source w k)) (creal (bas w b i k)))
       (csumd w (fun d => cmul (cmul (hz_c2 w d k) (hz_du w d k)) (creal (bgr w b i k d))))).
Definition minus_omega2 (w : wks) (k : nat) : cx := cmul {| Re := -1; Im := 0 |} (hz_omega2 w k).
Definition hz_vars (w : wks) (r i : nat) : Prop := wf w /\ is_var w r "ureal" /\ is_var w i "uimag" /\ usebasis w r = usebasis w i.

(** two entries per point and dof *)
Lemma pairs w r i (f g : nat -> nat -> R) n j : wf w -> (r < List.length (varlist w))%nat -> (i < List.length (varlist w))%nat -> r <> i ->
  (n < List.length (varlist w))%nat -> usebasis w r = usebasis w i -> (j < nbas w (usebasis w n))%nat ->
  at_row (offs w n j) (flat_map (fun pt => flat_map (fun dof => [(offs w r dof, f pt dof); (offs w i dof, g pt dof)]) (seq 0 (nbas w (usebasis w r)))) (seq 0 (npts w)))
  = (if (n =? r)%nat then sm (seq 0 (npts w)) (fun k => f k j) else 0) + (if (n =? i)%nat then sm (seq 0 (npts w)) (fun k => g k j) else 0).
Proof.
  intros W Lr Li NE Ln B J.
  transitivity (at_row (offs w n j) (fill w r r f) + at_row (offs w n j) (fill w r i g)).
  - unfold at_row, fill. rewrite !sm_flat, <- sm_add. apply sm_ext. intros k _. rewrite sm_flat, !sm_map, <- sm_add. apply sm_ext. intros d _.
    unfold sm, rsum. cbn. ring.
  - f_equal.
    + destruct (Nat.eqb_spec n r) as [-> |]; [apply fill_own; auto | apply fill_other; auto].
    + destruct (Nat.eqb_spec n i) as [-> |]; [apply fill_own; auto | apply fill_other; auto].
Qed.
(** The rows of ureal hold Re + Im of the weak form and those of uimag Im - Re, ... *)
Theorem C165_rows pw w r i j : hz_vars w r i -> (j < nbas w (usebasis w r))%nat ->
  let A := hz_weak w (usebasis w r) j (minus_omega2 w) in
  residual (hz_volume pw false w) (offs w r j) = Re A + Im A /\ residual (hz_volume pw false w) (offs w i j) = Im A - Re A.
Proof.
  intros (W & Hr & Hi & B) J. cbv zeta. assert (r <> i) as NE by differ. assert (i <> r) as NE' by congruence.
  rewrite !residual_at. unfold hz_volume. rewrite (var_num_is w r _ 0 W Hr), (var_num_is w i _ 0 W Hi). cbv zeta. cbn [negb].
  assert (j < nbas w (usebasis w i))%nat as J' by (rewrite <- B; exact J).
  split.
  - rewrite (pairs w r i _ _ r j W ltac:(lt_var) ltac:(lt_var) NE ltac:(lt_var) B J), Nat.eqb_refl. destruct (Nat.eqb_spec r i); [contradiction |].
    rewrite Rplus_0_r. unfold hz_weak, cintegral, integral. cbn [Re Im]. rewrite <- sm_add. apply sm_ext. intros k _.
    unfold minus_omega2, cadd, csub, cmul, csumd, creal, hz_u, hz_du, hz_c2, hz_omega2, hz_source, hz_dir, hz_grd. cbn [Re Im]. rewrite <- B.
    destruct (dims w W) as [D | [D | D]]; rewrite ?(sumd_1 w _ D), ?(sumd_2 w _ D), ?(sumd_3 w _ D), !D; cbn [Nat.ltb Nat.leb]; names; ring.
  - rewrite (pairs w r i _ _ i j W ltac:(lt_var) ltac:(lt_var) NE ltac:(lt_var) B J'), Nat.eqb_refl. destruct (Nat.eqb_spec i r); [contradiction |].
    rewrite Rplus_0_l. unfold hz_weak, cintegral, integral. cbn [Re Im]. rewrite <- sm_sub. apply sm_ext. intros k _.
    unfold minus_omega2, cadd, csub, cmul, csumd, creal, hz_u, hz_du, hz_c2, hz_omega2, hz_source, hz_dir, hz_grd. cbn [Re Im]. rewrite <- B.
    destruct (dims w W) as [D | [D | D]]; rewrite ?(sumd_1 w _ D), ?(sumd_2 w _ D), ?(sumd_3 w _ D), !D; cbn [Nat.ltb Nat.leb]; names; ring.
Qed.
Print Assumptions C165_rows.
(** ... so that a state solves the discrete problem exactly when the complex weak form vanishes. *)
Theorem C165_solution pw w r i : hz_vars w r i ->
  ((forall j, (j < nbas w (usebasis w r))%nat -> residual (hz_volume pw false w) (offs w r j) = 0 /\ residual (hz_volume pw false w) (offs w i j) = 0) <->
   (forall j, (j < nbas w (usebasis w r))%nat -> hz_weak w (usebasis w r) j (minus_omega2 w) = {| Re := 0; Im := 0 |})).
Proof.
  intros V. split; intros H j J.
  - destruct (H j J) as [H1 H2]. destruct (C165_rows pw w r i j V J) as [E1 E2]. rewrite E1 in H1. rewrite E2 in H2.
    destruct (hz_weak w (usebasis w r) j (minus_omega2 w)) as [a b]. cbn [Re Im] in *. f_equal; lra.
  - destruct (C165_rows pw w r i j V J) as [E1 E2]. rewrite E1, E2, (H j J). cbn. lra.
Qed.
Print Assumptions C165_solution.
Theorem C165_others pw fr w r i : hz_vars w r i -> only_rows w (residual (hz_volume pw fr w)) ["ureal"; "uimag"]%string.
Proof.
  intros (W & Hr & Hi & B) n v j Hn Hv J.
  assert (n <> r) by (intros ->; apply Hv; left; symmetry; apply (is_var_inj w r); assumption).
  assert (n <> i) by (intros ->; apply Hv; right; left; symmetry; apply (is_var_inj w i); assumption).
  assert (r <> i) as NE by differ.
  rewrite residual_at. unfold hz_volume. rewrite (var_num_is w r _ 0 W Hr), (var_num_is w i _ 0 W Hi). cbv zeta.
  destruct fr; cbn [negb];
  rewrite (pairs w r i _ _ n j W ltac:(lt_var) ltac:(lt_var) NE ltac:(lt_var) B J);
  (destruct (Nat.eqb_spec n r); [contradiction |]); (destruct (Nat.eqb_spec n i); [contradiction |]); ring.
Qed.
Print Assumptions C165_others.
Definition wave_cell (o2 : R) : wks := cell 2 ["ureal"; "uimag"]%string (fun _ => 0%nat)
  (fun s => if String.eqb s "ureal" then 3 else if String.eqb s "uimag" then 5 else 0)
  (fun s => if String.eqb s "omega2r" then o2 else if String.eqb s "omega2i" then 1 else if String.eqb s "source_r" then 5 - 3 * o2 else
            if String.eqb s "source_i" then -3 - 5 * o2 else if String.eqb s "alphaHr" then -1 else 2) (fun _ => ""%string).
Example C165_case o2 pw : hz_vars (wave_cell o2) 0 1 /\ residual (hz_volume pw false (wave_cell o2)) 0%nat = 0 /\ residual (hz_volume pw false (wave_cell o2)) 2%nat = 0.
Proof.
  split; [split; [apply cell_wf; [lia | nodup] | repeat split] |]. rewrite !residual_at.
  unfold at_row, hz_volume, hz_dir, hz_grd, sm, rsum, pick. cbn. split; field.
Qed.

(** *** C166: the fractional case, where the mass coefficient is
    alphaHr (omega2r)^freqExp + i alphaHi (omega2i)^freqExp *)
Definition hz_mass (pw : R -> R -> R) (w : wks) (k : nat) : cx :=
  {| Re := fn w "alphaHr" k * pw (sqrt (fn w "omega2r" k)) (2 * fn w "freqExp" k);
     Im := fn w "alphaHi" k * pw (sqrt (fn w "omega2i" k)) (2 * fn w "freqExp" k) |}.
Definition fractional_stated pw w r i : Prop :=
  (forall j, (j < nbas w (usebasis w r))%nat -> residual (hz_volume pw true w) (offs w r j) = 0 /\ residual (hz_volume pw true w) (offs w i j) = 0) <->
  (forall j, (j < nbas w (usebasis w r))%nat -> hz_weak w (usebasis w r) j (hz_mass pw w) = {| Re := 0; Im := 0 |}).
(** The stiffness and the source enter as Re + Im, Im - Re; the mass as 2 Re, 2 Im. *)
Theorem C166_partial pw w r i j : hz_vars w r i -> (j < nbas w (usebasis w r))%nat ->
  let A := hz_weak w (usebasis w r) j (fun _ => {| Re := 0; Im := 0 |}) in
  let M := cintegral w (fun k => cmul (cmul (hz_mass pw w k) (hz_u w k)) (creal (bas w (usebasis w r) j k))) in
  residual (hz_volume pw true w) (offs w r j) = 2 * Re M + (Re A + Im A) /\
  residual (hz_volume pw true w) (offs w i j) = 2 * Im M + (Im A - Re A).
Proof.
  intros (W & Hr & Hi & B) J. cbv zeta. assert (r <> i) as NE by differ. assert (i <> r) as NE' by congruence.
  rewrite !residual_at. unfold hz_volume. rewrite (var_num_is w r _ 0 W Hr), (var_num_is w i _ 0 W Hi). cbv zeta. cbn [negb].
  assert (j < nbas w (usebasis w i))%nat as J' by (rewrite <- B; exact J).
  split.
  - rewrite (pairs w r i _ _ r j W ltac:(lt_var) ltac:(lt_var) NE ltac:(lt_var) B J), Nat.eqb_refl. destruct (Nat.eqb_spec r i); [contradiction |].
    rewrite Rplus_0_r. unfold hz_weak, cintegral, integral. cbn [Re Im]. rewrite <- sm_scal, <- !sm_add. apply sm_ext. intros k _.
    unfold hz_mass, cadd, csub, cmul, csumd, creal, hz_u, hz_du, hz_c2, hz_source, hz_dir, hz_grd. cbn [Re Im]. rewrite <- B.
    destruct (dims w W) as [D | [D | D]]; rewrite ?(sumd_1 w _ D), ?(sumd_2 w _ D), ?(sumd_3 w _ D), !D; cbn [Nat.ltb Nat.leb]; names; ring.
  - rewrite (pairs w r i _ _ i j W ltac:(lt_var) ltac:(lt_var) NE ltac:(lt_var) B J'), Nat.eqb_refl. destruct (Nat.eqb_spec i r); [contradiction |].
    rewrite Rplus_0_l. unfold hz_weak, cintegral, integral. cbn [Re Im]. rewrite <- sm_scal, <- sm_sub, <- sm_add. apply sm_ext. intros k _.
    unfold hz_mass, cadd, csub, cmul, csumd, creal, hz_u, hz_du, hz_c2, hz_source, hz_dir, hz_grd. cbn [Re Im]. rewrite <- B.
    destruct (dims w W) as [D | [D | D]]; rewrite ?(sumd_1 w _ D), ?(sumd_2 w _ D), ?(sumd_3 w _ D), !D; cbn [Nat.ltb Nat.leb]; names; ring.
Qed.
Print Assumptions C166_partial.
Theorem C166_refuted : exists pw w r i, hz_vars w r i /\ ~ fractional_stated pw w r i.
Proof.
  set (w := cell 1 ["ureal"; "uimag"]%string (fun _ => 0%nat) (fun s => if String.eqb s "ureal" then 1 else 0)
    (fun s => if String.eqb s "alphaHr" then 1 else if String.eqb s "source_r" then 1 else 0) (fun _ => ""%string)).
  exists (fun _ _ => 1), w, 0%nat, 1%nat. split; [split; [apply cell_wf; [lia | nodup] | repeat split] |].
  intros [_ H].
  assert (forall j, (j < nbas w (usebasis w 0))%nat -> hz_weak w (usebasis w 0) j (hz_mass (fun _ _ => 1) w) = {| Re := 0; Im := 0 |}) as Z.
  { intros j J. unfold hz_weak, cintegral, integral, csumd, sumd, sm, rsum, hz_mass, cadd, csub, cmul, creal, hz_u, hz_du, hz_c2, hz_source, grad. cbn. f_equal; field. }
  specialize (H Z 0%nat ltac:(cbn; lia)). destruct H as [H _]. rewrite residual_at in H.
  unfold at_row, hz_volume, hz_dir, hz_grd, sm, rsum, pick in H. cbn in H. lra.
Qed.
Print Assumptions C166_refuted.

(** *** C167: alpha u + du/dn = s on the sides with the condition "Neumann" *)
Definition hz_side_source (w : wks) (k : nat) : cx := {| Re := fn w "source_r_side" k; Im := fn w "source_i_side" k |}.
Definition hz_alpha (w : wks) (k : nat) : cx := {| Re := fn w "robin_alpha_r" k; Im := fn w "robin_alpha_i" k |}.
Definition hz_robin (w : wks) (k : nat) : cx :=
  csub (cadd (cmul (hz_alpha w k) (hz_u w k)) (csumd w (fun d => cmul (hz_du w d k) (creal (normal w d k))))) (hz_side_source w k).
(** with the term left by the integration by parts *)
Definition hz_side (w : wks) (b j : nat) : cx := cintegral w (fun k =>
  cmul (csub (hz_robin w k) (csumd w (fun d => cmul (cmul (hz_c2 w d k) (hz_du w d k)) (creal (normal w d k))))) (creal (bas w b j k))).
Definition side_stated fr w r i : Prop := exists res, hz_boundary fr w = Some res /\
  (bcs w r <> "Neumann"%string -> forall row, residual res row = 0) /\
  (bcs w r = "Neumann"%string -> forall j, (j < nbas w (usebasis w r))%nat -> let A := hz_side w (usebasis w r) j in
     residual res (offs w r j) = Re A + Im A /\ residual res (offs w i j) = Im A - Re A).
Theorem C167_side w r i : hz_vars w r i -> (2 <= dim w)%nat -> side_stated false w r i.
Proof.
  intros (W & Hr & Hi & B) L. assert (r <> i) as NE by differ. assert (i <> r) as NE' by congruence.
  unfold side_stated, hz_boundary. rewrite (var_num_is w r _ 0 W Hr), (var_num_is w i _ 0 W Hi). cbv zeta.
  destruct (String.eqb_spec (bcs w r) "Neumann") as [E | E]; cbn [negb].
  2: { eexists. split; [reflexivity |]. split; [| congruence]. intros _ row. reflexivity. }
  destruct (Nat.leb_spec (dim w) 1); [lia |]. eexists. split; [reflexivity |]. split; [congruence |]. intros _ j J.
  assert (j < nbas w (usebasis w i))%nat as J' by (rewrite <- B; exact J). rewrite !residual_at.
  split.
  - rewrite (pairs w r i _ _ r j W ltac:(lt_var) ltac:(lt_var) NE ltac:(lt_var) B J), Nat.eqb_refl. destruct (Nat.eqb_spec r i); [contradiction |].
    rewrite Rplus_0_r. unfold hz_side, cintegral, integral. cbn [Re Im]. rewrite <- sm_add. apply sm_ext. intros k _.
    unfold hz_robin, hz_alpha, hz_side_source, cadd, csub, cmul, csumd, creal, hz_u, hz_du, hz_c2, hz_dir. cbn [Re Im]. rewrite <- B.
    destruct (dims w W) as [D | [D | D]]; [lia | |]; rewrite ?(sumd_2 w _ D), ?(sumd_3 w _ D), !D; cbn [Nat.ltb Nat.leb]; names; ring.
  - rewrite (pairs w r i _ _ i j W ltac:(lt_var) ltac:(lt_var) NE ltac:(lt_var) B J'), Nat.eqb_refl. destruct (Nat.eqb_spec i r); [contradiction |].
    rewrite Rplus_0_l. unfold hz_side, cintegral, integral. cbn [Re Im]. rewrite <- sm_sub. apply sm_ext. intros k _.
    unfold hz_robin, hz_alpha, hz_side_source, cadd, csub, cmul, csumd, creal, hz_u, hz_du, hz_c2, hz_dir. cbn [Re Im]. rewrite <- B.
    destruct (dims w W) as [D | [D | D]]; [lia | |]; rewrite ?(sumd_2 w _ D), ?(sumd_3 w _ D), !D; cbn [Nat.ltb Nat.leb]; names; ring.
Qed.
Print Assumptions C167_side.
(** A state with alpha u + du/dn = s on the side leaves only the term of the integration by parts. *)
Theorem C167_consistent w r i : hz_vars w r i -> (2 <= dim w)%nat -> bcs w r = "Neumann"%string ->
  (forall k, (k < npts w)%nat -> hz_robin w k = {| Re := 0; Im := 0 |}) ->
  (forall d k, (d < dim w)%nat -> (k < npts w)%nat -> cmul (hz_c2 w d k) (hz_du w d k) = {| Re := 0; Im := 0 |}) ->
  exists res, hz_boundary false w = Some res /\
  forall j, (j < nbas w (usebasis w r))%nat -> residual res (offs w r j) = 0 /\ residual res (offs w i j) = 0.
Proof.
  intros V L E Z Y. destruct (C167_side w r i V L) as (res & H & _ & A). exists res. split; [exact H |]. intros j J.
  destruct (A E j J) as [A1 A2]. rewrite A1, A2.
  assert (hz_side w (usebasis w r) j = {| Re := 0; Im := 0 |}) as ->; [| cbn; lra].
  unfold hz_side, cintegral. f_equal; apply integral_zero; intros k K; rewrite (Z k K); unfold csumd, csub, cmul at 1, creal; cbn [Re Im];
    rewrite !sumd_zero by (intros d D; rewrite (Y d k D K); cbn; ring); ring.
Qed.
Print Assumptions C167_consistent.
Example C167_case : let w := cell 2 ["ureal"; "uimag"]%string (fun _ => 0%nat) (fun s => if String.eqb s "uimag" then 1 else if String.eqb s "n[x]" then 1 else 0)
    (fun s => if String.eqb s "robin_alpha_r" then 2 else if String.eqb s "source_i_side" then 2 else 0) (fun _ => "Neumann"%string) in
  hz_vars w 0 1 /\ (2 <= dim w)%nat /\ (forall k, hz_robin w k = {| Re := 0; Im := 0 |}) /\ hz_alpha w 0 = {| Re := 2; Im := 0 |}.
Proof.
  cbv zeta. split; [split; [apply cell_wf; [lia | nodup] | repeat split] |]. split; [cbn; lia |]. split; [| reflexivity].
  intros k. unfold hz_robin, csub, cadd, cmul, csumd, creal, sumd, sm, rsum, hz_alpha, hz_u, hz_du, hz_side_source, grad, normal. cbn. f_equal; ring.
Qed.
(** C170 *)
Theorem C170_line_refuted : exists w r i, hz_vars w r i /\ ~ side_stated false w r i.
Proof.
  exists (cell 1 ["ureal"; "uimag"]%string (fun _ => 0%nat) (fun _ => 1) (fun _ => 1) (fun _ => "Neumann"%string)), 0%nat, 1%nat.
  split; [split; [apply cell_wf; [lia | nodup] | repeat split] |]. intros (res & H & _). discriminate H.
Qed.
Print Assumptions C170_line_refuted.
Theorem C170_fractional_refuted w r i : hz_vars w r i -> bcs w r = "Neumann"%string -> ~ side_stated true w r i.
Proof.
  intros (W & Hr & Hi & B) E (res & H & _). unfold hz_boundary in H. rewrite (var_num_is w r _ 0 W Hr), E in H. rewrite String.eqb_refl in H. cbn [negb] in H. destruct (dim w <=? 1)%nat; discriminate H.
Qed.
Print Assumptions C170_fractional_refuted.

(** *** C168: a function a module asks for has an effect on what it assembles *)
Definition with_fn (w : wks) (g : string -> nat -> R) : wks := {|
  dim := dim w; varlist := varlist w; usebasis := usebasis w; npts := npts w; nbas := nbas w; offs := offs w; wt := wt w; bas := bas w;
  bgr := bgr w; fld := fld w; fn := g; hel := hel w; bcs := bcs w; sidename := sidename w; isAdjoint := isAdjoint w;
  isTransient := isTransient w; deltat := deltat w |}.
Definition set_fn (w : wks) (name : string) (f : nat -> R) : wks := with_fn w (fun s => if String.eqb s name then f else fn w s).
Definition matters (name : string) (volume : wks -> list (nat * R)) : Prop := exists w f r, wf w /\ residual (volume (set_fn w name f)) r <> residual (volume w) r.
Theorem C168_partial : matters "source2" cd_volume /\ matters "ellipticPrior reaction" ep_volume /\ matters "hartmannNum" hm_volume.
Proof.
  repeat split.
  - exists (cell 1 ["c2"%string] (fun _ => 0%nat) (fun _ => 1) (fun _ => 1) (fun _ => ""%string)), (fun _ => 2), 0%nat.
    split; [apply cell_wf; [lia | nodup] |]. rewrite !residual_at. unfold at_row, cd_volume, sm, rsum, pick. cbn. lra.
  - exists (cell 1 ["T"%string] (fun _ => 0%nat) (fun _ => 1) (fun _ => 1) (fun _ => ""%string)), (fun _ => 2), 0%nat.
    split; [apply cell_wf; [lia | nodup] |]. rewrite !residual_at. unfold at_row, ep_volume, sm, rsum, pick. cbn. lra.
  - exists (cell 1 ["u"; "b"]%string (fun _ => 0%nat) (fun _ => 1) (fun _ => 1) (fun _ => ""%string)), (fun _ => 2), 0%nat.
    split; [apply cell_wf; [lia | nodup] |]. rewrite !residual_at. unfold at_row, hm_volume, sm, rsum, pick. cbn. lra.
Qed.
Print Assumptions C168_partial.
Theorem C168_refuted : ~ matters "SUPG tau" cd_volume /\ ~ matters "robin alpha" cd_volume /\ ~ matters "robin alpha" ep_volume /\
  ~ matters "resistivity" hm_volume /\ ~ matters "resistivity" hm_boundary.
Proof.
  assert (forall name volume, (forall w f, volume (set_fn w name f) = volume w) -> ~ matters name volume) as K.
  { intros name volume H (w & f & r & _ & N). apply N. rewrite H. reflexivity. }
  repeat split; apply K; reflexivity.
Qed.
Print Assumptions C168_refuted.
(** The flux of the prior on the sides of subgrid cells is never available. *)
Theorem C168_flux_refuted aux w pt : ep_flux aux w pt = None.
Proof. reflexivity. Qed.
Print Assumptions C168_flux_refuted.
