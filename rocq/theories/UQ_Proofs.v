(** Lemmas for sampling and data-consistent inversion. *)
From Coq Require Import List Arith ZArith Bool Reals Lra Lia Permutation.
From Verif Require Import UQ_Model UQ_Spec.
Import ListNotations.
Open Scope R_scope.

Lemma fold_sum l : forall a, fold_left Rplus l a = a + sum l.
Proof. unfold sum. induction l as [|x l IH]; intros a; cbn; [lra|]. rewrite IH. lra. Qed.
Lemma fold_prod l : forall a, fold_left Rmult l a = a * prod l.
Proof. unfold prod. induction l as [|x l IH]; intros a; cbn; [lra|]. rewrite IH. lra. Qed.
Lemma sum_perm l l' : Permutation l l' -> sum l = sum l'.
Proof. unfold sum. induction 1; cbn; lra. Qed.
Lemma sum_ext {A} (f g : A -> R) l : (forall x, In x l -> f x = g x) -> sum (map f l) = sum (map g l).
Proof. unfold sum. induction l as [|x l IH]; intros H; cbn; auto. rewrite H, IH by (cbn; auto; intros; apply H; cbn; auto). auto. Qed.
Lemma prod_ext {A} (f g : A -> R) l : (forall x, In x l -> f x = g x) -> prod (map f l) = prod (map g l).
Proof. unfold prod. induction l as [|x l IH]; intros H; cbn; auto. rewrite H, IH by (cbn; auto; intros; apply H; cbn; auto). auto. Qed.
Lemma sum_scale {A} c (f : A -> R) l : sum (map (fun x => c * f x) l) = c * sum (map f l).
Proof. unfold sum. induction l as [|x l IH]; cbn; [lra|]. rewrite IH. lra. Qed.
Lemma sum_plus {A} (f g : A -> R) l : sum (map (fun x => f x + g x) l) = sum (map f l) + sum (map g l).
Proof. unfold sum. induction l as [|x l IH]; cbn; [lra|]. rewrite IH. lra. Qed.
Lemma sum_const {A} c (l : list A) : sum (map (fun _ => c) l) = INR (length l) * c.
Proof. induction l as [|x l IH]; [cbn; lra|]. cbn [map sum fold_right length]. rewrite S_INR. unfold sum in IH. rewrite IH. lra. Qed.
Lemma prod_mult {A} (f g : A -> R) l : prod (map (fun x => f x * g x) l) = prod (map f l) * prod (map g l).
Proof. unfold prod. induction l as [|x l IH]; cbn; [lra|]. rewrite IH. lra. Qed.
Lemma prod_pos l : Forall (fun x => 0 < x) l -> 0 < prod l.
Proof. unfold prod. induction 1; cbn; [lra|]. apply Rmult_lt_0_compat; auto. Qed.
Lemma sum_nonneg l : Forall (fun x => 0 <= x) l -> 0 <= sum l.
Proof. induction 1; cbn; [lra|]. unfold sum in IHForall. lra. Qed.
Lemma sum_pos l : l <> [] -> Forall (fun x => 0 < x) l -> 0 < sum l.
Proof.
  intros N F. destruct F as [|x l Hx F]; [congruence|]. cbn. pose proof (sum_nonneg l) as P. unfold sum in P.
  assert (Forall (fun x => 0 <= x) l) by (eapply Forall_impl; [|exact F]; cbn; intros; lra). specialize (P H). lra.
Qed.
Lemma sum_zero l : Forall (fun x => 0 <= x) l -> sum l = 0 -> Forall (fun x => x = 0) l.
Proof.
  induction 1 as [|x l Hx F IH]; cbn; intros E; auto. pose proof (sum_nonneg l F) as P. unfold sum in *. constructor; [lra|]. apply IH. lra.
Qed.
Lemma sum_le {A} (f g : A -> R) l : (forall x, In x l -> f x <= g x) -> sum (map f l) <= sum (map g l).
Proof.
  induction l as [|x l IH]; intros H; cbn; [lra|]. pose proof (H x (or_introl eq_refl)). assert (sum (map f l) <= sum (map g l)) by (apply IH; intros; apply H; cbn; auto).
  unfold sum in *. lra.
Qed.
Lemma INR_length_pos {A} (l : list A) : l <> [] -> 0 < INR (length l).
Proof. intros H. apply lt_0_INR. destruct l; [congruence|]. cbn. lia. Qed.

Lemma mean_average vs : mean vs = average vs.
Proof. unfold mean, average. rewrite fold_sum. f_equal. lra. Qed.
Lemma mean2_average vs : mean2 vs = average vs.
Proof.
  unfold mean2, average. rewrite fold_sum, Rplus_0_l. rewrite (sum_ext _ (fun v => / INR (length vs) * (fun x => x) v)) by (intros; unfold Rdiv; ring).
  rewrite sum_scale, map_id. unfold Rdiv. ring.
Qed.
Lemma variance2_sum vs : variance2 vs = sum (map (fun v => (v - average vs) * (v - average vs)) vs) / (INR (length vs) - 1).
Proof.
  unfold variance2. rewrite fold_sum, Rplus_0_l, mean2_average.
  rewrite (sum_ext _ (fun v => / (INR (length vs) - 1) * ((v - average vs) * (v - average vs)))) by (intros; unfold Rdiv; ring).
  rewrite sum_scale. unfold Rdiv. ring.
Qed.

Lemma average_affine a b vs : vs <> [] -> average (map (fun v => a * v + b) vs) = a * average vs + b.
Proof.
  intros H. unfold average. rewrite map_length, sum_plus, sum_const. rewrite (sum_scale a (fun x => x)), map_id. field. pose proof (INR_length_pos _ H). lra.
Qed.
Lemma variance2_affine a b vs : vs <> [] -> variance2 (map (fun v => a * v + b) vs) = a * a * variance2 vs.
Proof.
  intros H. rewrite !variance2_sum, average_affine, map_length, map_map by auto.
  rewrite (sum_ext _ (fun v => (a * a) * ((v - average vs) * (v - average vs)))) by (intros; ring). rewrite sum_scale. unfold Rdiv. ring.
Qed.
Lemma variance2_nonneg vs : (1 < length vs)%nat -> 0 <= variance2 vs.
Proof.
  intros H. rewrite variance2_sum. apply lt_INR in H. cbn in H. apply Rmult_le_pos; [|left; apply Rinv_0_lt_compat; lra].
  apply sum_nonneg, Forall_forall. intros x Hx. apply in_map_iff in Hx as (v & <- & _). apply Rle_0_sqr.
Qed.
Lemma variance2_zero vs : (1 < length vs)%nat -> variance2 vs = 0 -> forall v w, In v vs -> In w vs -> v = w.
Proof.
  intros H E. rewrite variance2_sum in E. apply lt_INR in H. cbn in H.
  assert (Z : sum (map (fun v => (v - average vs) * (v - average vs)) vs) = 0).
  { apply Rmult_eq_reg_r with (/ (INR (length vs) - 1)); [|apply Rinv_neq_0_compat; lra]. unfold Rdiv in E. rewrite E. ring. }
  apply sum_zero in Z; [|apply Forall_forall; intros x Hx; apply in_map_iff in Hx as (v & <- & _); apply Rle_0_sqr].
  rewrite Forall_forall in Z. assert (Q : forall v, In v vs -> v = average vs).
  { intros v Hv. assert (Y : (v - average vs) * (v - average vs) = 0) by (apply Z, in_map_iff; eauto). apply Rmult_integral in Y. lra. }
  intros v w Hv Hw. rewrite (Q v Hv), (Q w Hw). auto.
Qed.
Lemma variance2_const vs : (forall v w, In v vs -> In w vs -> v = w) -> variance2 vs = 0.
Proof.
  intros H. rewrite variance2_sum. destruct vs as [|x vs]; [cbn; unfold Rdiv; ring|].
  assert (A : average (x :: vs) = x).
  { unfold average. replace (sum (x :: vs)) with (sum (map (fun _ => x) (x :: vs))).
    - rewrite sum_const. field. apply Rgt_not_eq, INR_length_pos. congruence.
    - rewrite <- (map_id (x :: vs)) at 2. apply sum_ext. intros y Hy. apply H; cbn; auto. }
  rewrite A. rewrite (sum_ext _ (fun _ => 0)).
  - rewrite sum_const. unfold Rdiv. ring.
  - intros y Hy. rewrite (H y x Hy (or_introl eq_refl)). ring.
Qed.

(** *** The estimate *)
Lemma PIc_pos : 0 < PIc.
Proof. unfold PIc. lra. Qed.
Lemma convert_nth dim a b p d : (d < dim)%nat -> nth d (convert dim a b p) 0 = a d * nth d p 0 + b d.
Proof.
  intros H. unfold convert. rewrite (nth_indep _ 0 ((fun d => a d * nth d p 0 + b d) 0%nat)) by (rewrite map_length, seq_length; auto).
  rewrite (map_nth (fun d => a d * nth d p 0 + b d)), seq_nth by auto. auto.
Qed.
Lemma coord_convert dim a b pts d : (d < dim)%nat -> coord (map (convert dim a b) pts) d = map (fun v => a d * v + b d) (coord pts d).
Proof. intros H. unfold coord. rewrite !map_map. apply map_ext. intros p. apply convert_nth. auto. Qed.

Lemma coord_perm pts pts' d : Permutation pts pts' -> Permutation (coord pts d) (coord pts' d).
Proof. apply Permutation_map. Qed.
Lemma average_perm l l' : Permutation l l' -> average l = average l'.
Proof. intros H. unfold average. rewrite (sum_perm _ _ H), (Permutation_length H). auto. Qed.
Lemma variance2_perm l l' : Permutation l l' -> variance2 l = variance2 l'.
Proof.
  intros H. rewrite !variance2_sum, (average_perm _ _ H), (Permutation_length H). f_equal. apply sum_perm, Permutation_map. auto.
Qed.

Lemma defined_spec seeds dim : kde_defined seeds dim = true <-> (1 < length seeds)%nat /\ (forall d, (d < dim)%nat -> variance2 (coord seeds d) <> 0).
Proof.
  unfold kde_defined. rewrite andb_true_iff, Nat.ltb_lt, forallb_forall. split; intros [H1 H2]; split; auto.
  - intros d Hd E. specialize (H2 d). rewrite in_seq in H2. destruct (Req_EM_T (variance2 (coord seeds d)) 0); [|tauto]. assert (false = true) by (apply H2; lia). discriminate.
  - intros d Hd. apply in_seq in Hd. destruct (Req_EM_T (variance2 (coord seeds d)) 0) as [E|]; auto. elim (H2 d); auto; lia.
Qed.
Lemma coord_length pts d : length (coord pts d) = length pts.
Proof. apply map_length. Qed.

Lemma bandwidth_pos seeds dim d : kde_defined seeds dim = true -> (d < dim)%nat -> 0 < bandwidth seeds dim d.
Proof.
  intros D Hd. apply defined_spec in D as [L V]. specialize (V d Hd). unfold bandwidth.
  apply Rmult_lt_0_compat; [|apply exp_pos]. apply Rmult_lt_0_compat; [lra|]. apply sqrt_lt_R0.
  pose proof (variance2_nonneg (coord seeds d)) as N. rewrite coord_length in N. specialize (N L). lra.
Qed.
Lemma kcoeff_val s : 0 < s -> kcoeff s = 1 / (sqrt (2 * PIc) * s).
Proof.
  intros H. unfold kcoeff. pose proof PIc_pos. replace (2 * PIc * s * s) with ((2 * PIc) * (s * s)) by ring.
  rewrite sqrt_mult by nra. rewrite sqrt_square by lra. auto.
Qed.
Lemma sqrt_2pi : 0 < sqrt (2 * PIc).
Proof. apply sqrt_lt_R0. pose proof PIc_pos. lra. Qed.
Lemma kcoeff_pos s : 0 < s -> 0 < kcoeff s.
Proof.
  intros H. rewrite kcoeff_val by auto. apply Rdiv_lt_0_compat; [lra|]. apply Rmult_lt_0_compat; auto. apply sqrt_2pi.
Qed.

Lemma bandwidth_convert dim a b seeds d : seeds <> [] -> (d < dim)%nat ->
  bandwidth (map (convert dim a b) seeds) dim d = Rabs (a d) * bandwidth seeds dim d.
Proof.
  intros N Hd. unfold bandwidth. rewrite coord_convert, variance2_affine, map_length; auto; [|destruct seeds; cbn; congruence].
  rewrite sqrt_mult_alt by apply Rle_0_sqr. replace (sqrt (a d * a d)) with (Rabs (a d)) by (symmetry; apply sqrt_Rsqr_abs). ring.
Qed.
Lemma kernel_convert dim a b seeds x s : kde_defined seeds dim = true -> (forall d, (d < dim)%nat -> a d <> 0) ->
  kernel (map (convert dim a b) seeds) dim (convert dim a b x) (convert dim a b s) = / jacobian dim a * kernel seeds dim x s.
Proof.
  intros D A. assert (N : seeds <> []) by (apply defined_spec in D as [L _]; intros ->; cbn in L; lia).
  unfold kernel, jacobian. rewrite !fold_prod, !Rmult_1_l.
  assert (I : / prod (map (fun d => Rabs (a d)) (seq 0 dim)) = prod (map (fun d => / Rabs (a d)) (seq 0 dim))).
  { assert (F : forall d, In d (seq 0 dim) -> a d <> 0) by (intros d Hd; apply in_seq in Hd; apply A; lia).
    induction (seq 0 dim) as [|d l IH]; cbn; [apply Rinv_1|]. pose proof (Rabs_no_R0 _ (F d (or_introl eq_refl))).
    unfold prod in IH. rewrite <- IH by (intros; apply F; cbn; auto). apply Rinv_mult. }
  rewrite I, <- prod_mult. apply prod_ext. intros d Hd. apply in_seq in Hd. cbv zeta. rewrite bandwidth_convert by (auto; lia). rewrite !convert_nth by lia.
  assert (P : 0 < bandwidth seeds dim d) by (apply bandwidth_pos; auto; lia). set (sg := bandwidth seeds dim d) in *.
  assert (Ad : 0 < Rabs (a d)) by (apply Rabs_pos_lt, A; lia).
  rewrite !kcoeff_val by (auto; apply Rmult_lt_0_compat; auto).
  assert (Q : Rabs (a d) * Rabs (a d) = a d * a d) by (rewrite <- Rabs_mult; apply Rabs_right; apply Rle_ge, Rle_0_sqr).
  replace (-1 * (a d * nth d x 0 + b d - (a d * nth d s 0 + b d)) * (a d * nth d x 0 + b d - (a d * nth d s 0 + b d)) / (2 * (Rabs (a d) * sg) * (Rabs (a d) * sg)))
    with (-1 * (nth d x 0 - nth d s 0) * (nth d x 0 - nth d s 0) / (2 * sg * sg)).
  - pose proof sqrt_2pi. field. repeat split; lra.
  - replace (2 * (Rabs (a d) * sg) * (Rabs (a d) * sg)) with ((a d * a d) * (2 * sg * sg)) by (rewrite <- Q; ring). field. split; [lra|]. apply A; lia.
Qed.
Lemma defined_convert dim a b seeds : (forall d, (d < dim)%nat -> a d <> 0) -> kde_defined (map (convert dim a b) seeds) dim = kde_defined seeds dim.
Proof.
  intros A. apply eq_true_iff_eq. rewrite !defined_spec, map_length. split; intros [L V]; split; auto; intros d Hd; specialize (V d Hd).
  - rewrite coord_convert, variance2_affine in V by (try assumption; try (intros Z; destruct seeds; cbn in *; [lia|discriminate])). intros E. rewrite E in V. apply V. ring.
  - rewrite coord_convert, variance2_affine by (try assumption; try (intros Z; destruct seeds; cbn in *; [lia|discriminate])). specialize (A d Hd).
    repeat (apply Rmult_integral_contrapositive_currified; auto).
Qed.
Lemma jacobian_pos dim a : (forall d, (d < dim)%nat -> a d <> 0) -> 0 < jacobian dim a.
Proof.
  intros A. apply prod_pos, Forall_forall. intros y Hy. apply in_map_iff in Hy as (e & <- & He). apply in_seq in He. apply Rabs_pos_lt, A. lia.
Qed.
Lemma kernel_pos seeds dim x s : kde_defined seeds dim = true -> 0 < kernel seeds dim x s.
Proof.
  intros D. unfold kernel. rewrite fold_prod, Rmult_1_l. apply prod_pos, Forall_forall. intros y Hy. apply in_map_iff in Hy as (d & <- & Hd). apply in_seq in Hd.
  apply Rmult_lt_0_compat; [|apply exp_pos]. apply kcoeff_pos, bandwidth_pos; auto. lia.
Qed.

(** *** Rejection *)
Lemma largest_spec rs : forall C, 0 <= C ->
  C <= fold_left bigger rs C /\ (forall x, In (Some x) rs -> Rabs x <= fold_left bigger rs C) /\
  (fold_left bigger rs C = C \/ exists x, In (Some x) rs /\ fold_left bigger rs C = Rabs x).
Proof.
  induction rs as [|r rs IH]; intros C HC; cbn [fold_left].
  - split; [lra|]. split; [intros x []|auto].
  - assert (B : C <= bigger C r /\ (forall x, r = Some x -> Rabs x <= bigger C r) /\ (bigger C r = C \/ exists x, r = Some x /\ bigger C r = Rabs x)).
    { unfold bigger. destruct r as [x|]; [destruct (Rlt_dec C (Rabs x))|].
      - split; [lra|]. split; [intros y E; injection E as <-; lra|eauto].
      - split; [lra|]. split; [intros y E; injection E as <-; lra|auto].
      - split; [lra|]. split; [discriminate|auto]. }
    destruct B as (B1 & B2 & B3). destruct (IH (bigger C r)) as (I1 & I2 & I3); [lra|]. split; [lra|]. split.
    + intros x [->|H]; [|auto]. specialize (B2 x eq_refl). lra.
    + destruct I3 as [E|(x & Hx & E)]; [|right; exists x; cbn; auto]. rewrite E. destruct B3 as [->|(x & -> & E')]; auto. right. exists x. cbn. auto.
Qed.
