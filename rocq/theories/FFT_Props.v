(** Time histories of sensors in the frequency domain: C351-C352. *)
From Coq Require Import Arith Lia Reals Lra List.
From Verif Require Import FFT_Model.
Import ListNotations.
Local Open Scope R_scope.
Local Notation length := List.length.

(** *** Specification *)
(** Sample at the opposite time. *)
Definition opposite (n j : nat) : nat := ((n - j) mod n)%nat.

(** *** Sums *)
Lemma sumn_S n f : sumn (S n) f = sumn n f + f n.
Proof.
  unfold sumn. rewrite seq_S, map_app, fold_right_app. cbn [map fold_right].
  generalize (map f (seq 0 n)). induction l as [|a l IH]; cbn [fold_right]; [cbn; ring|]. rewrite IH. ring.
Qed.
Lemma sumn_ext n f g : (forall j, (j < n)%nat -> f j = g j) -> sumn n f = sumn n g.
Proof. induction n as [|n IH]; intros H; [reflexivity|]. rewrite !sumn_S, IH, H; auto. Qed.
Lemma sumn_add n f g : sumn n (fun j => f j + g j) = sumn n f + sumn n g.
Proof. induction n as [|n IH]; [unfold sumn; cbn; ring|]. rewrite !sumn_S, IH. ring. Qed.
Lemma sumn_scal n c f : sumn n (fun j => c * f j) = c * sumn n f.
Proof. induction n as [|n IH]; [unfold sumn; cbn; ring|]. rewrite !sumn_S, IH. ring. Qed.
Lemma sumn_swap n m f : sumn n (fun i => sumn m (fun j => f i j)) = sumn m (fun j => sumn n (fun i => f i j)).
Proof.
  induction n as [|n IH].
  - replace (sumn m (fun j => sumn 0 (fun i => f i j))) with (sumn m (fun j => 0 * 0)).
    + rewrite sumn_scal. unfold sumn at 1. cbn. ring.
    + apply sumn_ext. intros. unfold sumn. cbn. ring.
  - rewrite sumn_S, IH, <- sumn_add. apply sumn_ext. intros. now rewrite sumn_S.
Qed.
Lemma sumn_pick n c v : sumn n (fun j => if (j =? c)%nat then v j else 0) = if (c <? n)%nat then v c else 0.
Proof.
  induction n as [|n IH]; [reflexivity|]. rewrite sumn_S, IH.
  destruct (Nat.ltb_spec c n), (Nat.ltb_spec c (S n)), (Nat.eqb_spec n c); try lia; subst; ring.
Qed.

(** *** Roots of unity *)
Lemma angle_period n m q k : (0 < n)%nat -> cos (angle n (m + n * q) k) = cos (angle n m k).
Proof.
  intros Hn. replace (angle n (m + n * q) k) with (angle n m k + 2 * INR (q * k) * PI); [apply cos_period|].
  unfold angle. rewrite plus_INR, !mult_INR. field. apply not_0_INR. lia.
Qed.

Lemma cos_sum n m : (0 < n)%nat ->
  sumn n (fun k => cos (angle n m k)) = if (m mod n =? 0)%nat then INR n else 0.
Proof.
  intros Hn. assert (N0 : INR n <> 0) by (apply not_0_INR; lia).
  rewrite (sumn_ext n _ (fun k => cos (angle n (m mod n) k))).
  2: { intros k _. rewrite (Nat.div_mod m n) at 1 by lia. rewrite Nat.add_comm. apply angle_period, Hn. }
  pose proof (Nat.mod_upper_bound m n ltac:(lia)) as U. set (r := (m mod n)%nat) in *. clearbody r.
  destruct (Nat.eqb_spec r 0) as [->|NR].
  - rewrite (sumn_ext n _ (fun _ => 1 * 1)).
    + rewrite sumn_scal. clear. induction n as [|n IH]; [unfold sumn; cbn; ring|].
      rewrite sumn_S, S_INR. rewrite Rmult_1_l in *. rewrite IH. reflexivity.
    + intros k _. replace (angle n 0 k) with 0; [rewrite cos_0; ring|]. unfold angle. cbn [INR]. field. exact N0.
  - set (t := 2 * PI * INR r / INR n).
    assert (S2 : sin (t / 2) <> 0).
    { apply Rgt_not_eq. unfold Rgt. replace (t / 2) with (PI * (INR r / INR n)) by (unfold t; field; exact N0).
      assert (0 < INR n) by (apply lt_0_INR; lia). assert (0 < INR r) by (apply lt_0_INR; lia).
      assert (INR r < INR n) by (apply lt_INR; lia). pose proof PI_RGT_0.
      assert (0 < INR r / INR n < 1).
      { split; [apply Rdiv_lt_0_compat; lra|]. apply (Rmult_lt_reg_r (INR n)); [lra|].
        unfold Rdiv. rewrite Rmult_assoc, Rinv_l, Rmult_1_r by lra. lra. }
      apply sin_gt_0; nra. }
    assert (T : forall k, 2 * sin (t / 2) * sumn k (fun j => cos (angle n r j)) = sin (INR k * t - t / 2) + sin (t / 2)).
    { induction k as [|k IH].
      - unfold sumn. cbn [seq map fold_right INR]. replace (0 * t - t / 2) with (- (t / 2)) by field. rewrite sin_neg. ring.
      - rewrite sumn_S, Rmult_plus_distr_l, IH, S_INR.
        replace (angle n r k) with (INR k * t) by (unfold angle, t; field; exact N0).
        replace ((INR k + 1) * t - t / 2) with (INR k * t + t / 2) by field.
        rewrite sin_plus, sin_minus. ring. }
    specialize (T n). replace (INR n * t - t / 2) with (- (t / 2) + 2 * INR r * PI) in T by (unfold t; field; exact N0).
    rewrite sin_period, sin_neg in T. assert (2 * sin (t / 2) * sumn n (fun j => cos (angle n r j)) = 0) as T0 by lra.
    apply Rmult_integral in T0 as [T0|T0]; [|exact T0]. exfalso. apply S2. lra.
Qed.

(** *** C351 *)

(** The output of each history is the real part of its transform; frequencies k
    and n - k agree; and the history's even part is recovered by the same sum. *)
Theorem C351_real n data sens i k : fft_compute n data sens i k = sumn n (fun j => data sens i j * cos (2 * PI * (INR j * INR k) / INR n)).
Proof. unfold fft_compute, dft. cbn [fst snd]. apply sumn_ext. intros. unfold angle. ring. Qed.
Print Assumptions C351_real.

Theorem C351_symmetric n data sens i k : (0 < n)%nat -> (k <= n)%nat ->
  fft_compute n data sens i (n - k) = fft_compute n data sens i k.
Proof.
  intros Hn Hk. rewrite !C351_real. apply sumn_ext. intros j _. f_equal.
  rewrite minus_INR by exact Hk.
  replace (2 * PI * (INR j * (INR n - INR k)) / INR n) with (- (2 * PI * (INR j * INR k) / INR n) + 2 * INR j * PI)
    by (field; apply not_0_INR; lia).
  rewrite cos_period. apply cos_neg.
Qed.
Print Assumptions C351_symmetric.

Theorem C351_even_part n data sens i j : (j < n)%nat ->
  sumn n (fun k => fft_compute n data sens i k * cos (2 * PI * (INR j * INR k) / INR n)) / INR n =
  (data sens i j + data sens i (opposite n j)) / 2.
Proof.
  intros Hj. assert (Hn : (0 < n)%nat) by lia. assert (N0 : INR n <> 0) by (apply not_0_INR; lia).
  set (x := data sens i).
  rewrite (sumn_ext n _ (fun k => sumn n (fun a => x a * (cos (angle n a k) * cos (angle n j k))))).
  2: { intros k _. rewrite C351_real. rewrite Rmult_comm, <- sumn_scal. apply sumn_ext. intros a _. unfold angle, x. ring. }
  rewrite sumn_swap.
  rewrite (sumn_ext n _ (fun a => INR n / 2 * ((if (a =? j)%nat then x a else 0) + (if (a =? opposite n j)%nat then x a else 0)))).
  - rewrite sumn_scal, sumn_add, !sumn_pick.
    assert (opposite n j < n)%nat by (apply Nat.mod_upper_bound; lia).
    destruct (Nat.ltb_spec j n), (Nat.ltb_spec (opposite n j) n); try lia. field. exact N0.
  - intros a Ha. rewrite sumn_scal.
    assert (E : forall k, cos (angle n a k) * cos (angle n j k) =
                /2 * cos (angle n ((a - j) + (j - a)) k) + /2 * cos (angle n (a + j) k)).
    { intros k. assert (P : angle n (a + j) k = angle n a k + angle n j k)
        by (unfold angle; rewrite plus_INR; field; exact N0).
      assert (M : cos (angle n ((a - j) + (j - a)) k) = cos (angle n a k - angle n j k)).
      { destruct (le_lt_dec j a) as [H|H].
        - replace ((a - j) + (j - a))%nat with (a - j)%nat by lia. f_equal. unfold angle. rewrite minus_INR by lia. field. exact N0.
        - replace ((a - j) + (j - a))%nat with (j - a)%nat by lia. rewrite <- cos_neg. f_equal.
          unfold angle. rewrite minus_INR by lia. field. exact N0. }
      rewrite P, M, cos_minus, cos_plus. field. }
    rewrite (sumn_ext n _ _ (fun k _ => E k)), sumn_add, !sumn_scal, !cos_sum by exact Hn.
    rewrite (Nat.mod_small ((a - j) + (j - a))) by lia.
    assert (Q : ((a + j) mod n =? 0)%nat = (a =? opposite n j)%nat).
    { unfold opposite. destruct j as [|j].
      - rewrite Nat.add_0_r, Nat.sub_0_r, Nat.mod_same, Nat.mod_small by lia. reflexivity.
      - rewrite (Nat.mod_small (n - S j)) by lia. destruct (Nat.eqb_spec a (n - S j)) as [->|NA].
        + replace (n - S j + S j)%nat with n by lia. rewrite Nat.mod_same by lia. reflexivity.
        + apply Nat.eqb_neq. intros C. apply NA. apply Nat.mod_divides in C as (q & C); [|lia].
          destruct q as [|[|q]]; nia. }
    rewrite Q. destruct (Nat.eqb_spec ((a - j) + (j - a)) 0) as [Z|Z], (Nat.eqb_spec a j) as [Z2|Z2]; try lia;
      destruct (a =? opposite n j)%nat; field.
Qed.
Print Assumptions C351_even_part.

Example C351_case : opposite 4 1 = 3%nat /\ opposite 4 0 = 0%nat /\ (1 < 4)%nat.
Proof. repeat split. lia. Qed.

Example C351_case2 : fft_compute 2 (fun _ _ j => INR (S j)) 0 0 1 = -1.
Proof.
  rewrite C351_real. unfold sumn. cbn [seq map fold_right]. cbn [INR].
  replace (2 * PI * (0 * 1) / (1 + 1)) with 0 by field. replace (2 * PI * (1 * 1) / (1 + 1)) with PI by field.
  rewrite cos_0, cos_PI. ring.
Qed.

(** *** C352 *)

(** Wanted: the output determines the time history, or at least which frequencies
    it has.  True for histories equal to their reversal.  Missing: the others. *)
Theorem C352_history_partial n x y :
  (forall j, (j < n)%nat -> x 0%nat 0%nat (opposite n j) = x 0%nat 0%nat j) ->
  (forall j, (j < n)%nat -> y 0%nat 0%nat (opposite n j) = y 0%nat 0%nat j) ->
  (forall k, (k < n)%nat -> fft_compute n x 0 0 k = fft_compute n y 0 0 k) ->
  forall j, (j < n)%nat -> x 0%nat 0%nat j = y 0%nat 0%nat j.
Proof.
  intros X Y E j Hj. pose proof (C351_even_part n x 0 0 j Hj) as A. pose proof (C351_even_part n y 0 0 j Hj) as B.
  rewrite X in A by exact Hj. rewrite Y in B by exact Hj.
  rewrite (sumn_ext n _ (fun k => fft_compute n y 0 0 k * cos (2 * PI * (INR j * INR k) / INR n))) in A
    by (intros k Hk; rewrite E by exact Hk; reflexivity).
  lra.
Qed.
Print Assumptions C352_history_partial.

(** A history and its reversal give the same output; a history that changes sign
    under reversal, such as a sine wave at any frequency, gives zero everywhere. *)
Lemma reverse_sum n f : sumn n f = sumn n (fun j => f (opposite n j)).
Proof.
  destruct n as [|n]; [reflexivity|].
  assert (R : forall m g, sumn m g = sumn m (fun j => g (m - 1 - j)%nat)).
  { clear. induction m as [|m IH]; intros g; [reflexivity|].
    assert (H : forall h, sumn (S m) h = h 0%nat + sumn m (fun j => h (S j))).
    { intros h. unfold sumn. cbn [seq map fold_right]. rewrite <- seq_shift, map_map. reflexivity. }
    rewrite sumn_S, (H (fun j => g (S m - 1 - j)%nat)). rewrite IH.
    replace (S m - 1 - 0)%nat with m by lia. rewrite Rplus_comm. f_equal.
    apply sumn_ext. intros j Hj. f_equal. lia. }
  assert (H : forall h, sumn (S n) h = h 0%nat + sumn n (fun j => h (S j))).
  { intros h. unfold sumn. cbn [seq map fold_right]. rewrite <- seq_shift, map_map. reflexivity. }
  rewrite !H. unfold opposite. rewrite Nat.sub_0_r, Nat.mod_same by lia. f_equal.
  rewrite R. apply sumn_ext. intros j Hj. f_equal. rewrite Nat.mod_small by lia. lia.
Qed.

Lemma angle_opposite n j k : (j < n)%nat -> cos (angle n (opposite n j) k) = cos (angle n j k).
Proof.
  intros Hj. unfold opposite. destruct j as [|j].
  - rewrite Nat.sub_0_r, Nat.mod_same by lia. reflexivity.
  - rewrite Nat.mod_small by lia. unfold angle. rewrite minus_INR by lia.
    replace (2 * PI * ((INR n - INR (S j)) * INR k) / INR n) with (- (2 * PI * (INR (S j) * INR k) / INR n) + 2 * INR k * PI)
      by (field; apply not_0_INR; lia).
    rewrite cos_period. apply cos_neg.
Qed.

Theorem C352_history_refuted :
  (forall n x sens i k, fft_compute n (fun s f j => x s f (opposite n j)) sens i k = fft_compute n x sens i k) /\
  (forall n m k, (0 < n)%nat -> fft_compute n (fun _ _ j => sin (2 * PI * (INR j * INR m) / INR n)) 0 0 k = 0) /\
  sin (2 * PI * (INR 1 * INR 1) / INR 4) = 1.
Proof.
  assert (A : forall n x sens i k, fft_compute n (fun s f j => x s f (opposite n j)) sens i k = fft_compute n x sens i k).
  { intros n x sens i k. rewrite !C351_real.
    rewrite (reverse_sum n (fun j => x sens i j * cos (2 * PI * (INR j * INR k) / INR n))).
    apply sumn_ext. intros j Hj. f_equal. symmetry. exact (angle_opposite n j k Hj). }
  split; [exact A|]. split.
  - intros n m k Hn.
    pose proof (A n (fun _ _ j => sin (2 * PI * (INR j * INR m) / INR n)) 0%nat 0%nat k) as E. cbv beta in E.
    rewrite !C351_real in *.
    rewrite (sumn_ext n _ (fun j => (-1) * (sin (2 * PI * (INR j * INR m) / INR n) * cos (2 * PI * (INR j * INR k) / INR n)))) in E.
    + rewrite sumn_scal in E. lra.
    + intros j Hj. replace (sin (2 * PI * (INR (opposite n j) * INR m) / INR n)) with (- sin (2 * PI * (INR j * INR m) / INR n)); [ring|].
      unfold opposite. destruct j as [|j].
      * rewrite Nat.sub_0_r, Nat.mod_same by lia. cbn [INR]. replace (2 * PI * (0 * INR m) / INR n) with 0; [rewrite sin_0; ring|].
        field. apply not_0_INR. lia.
      * rewrite Nat.mod_small by lia. rewrite minus_INR by lia.
        replace (2 * PI * ((INR n - INR (S j)) * INR m) / INR n) with (- (2 * PI * (INR (S j) * INR m) / INR n) + 2 * INR m * PI)
          by (field; apply not_0_INR; lia).
        rewrite sin_period, sin_neg. reflexivity.
  - replace (2 * PI * (INR 1 * INR 1) / INR 4) with (PI / 2); [apply sin_PI2|]. cbn [INR]. field.
Qed.
Print Assumptions C352_history_refuted.
