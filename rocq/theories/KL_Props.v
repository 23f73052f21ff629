(** C113 (random permeability), C114 (modes of the expansion), C115 (wells). *)
From Coq Require Import Bool Arith Lia Reals Lra List String.
From Coquelicot Require Import Coquelicot.
From Verif Require Import Sparse_Model Sparse_Props Mass_Model Mass_Props BProj_Model BProj_Proofs Phys_Model Darcy_Model.
Import ListNotations.
Local Open Scope R_scope.

(** *** C114 *)
(** The modes: covariance sigma^2 exp(-|x-y|/eta) on [0, L]. *)
Definition cov (K : klexp) (x y : R) : R := sigma K * sigma K * exp (- Rabs (x - y) / eta K).
Definition medium (K : klexp) : Prop := 0 < eta K /\ 0 < kL K.
Definition nrm (K : klexp) (i : nat) : R := 1 / sqrt ((eta K * eta K * omega K i * omega K i + 1) * kL K / 2 + eta K).
Definition raw (e om y : R) : R := e * om * cos (om * y) + sin (om * y).
Lemma evec_raw K i y : getEvec K i y = nrm K i * raw (eta K) (omega K i) y.
Proof. reflexivity. Qed.

Lemma FTC (F f : R -> R) a b : (forall y, is_derive F y (f y)) -> (forall y, continuous f y) -> is_RInt f a b (F b - F a).
Proof. intros D C. apply (is_RInt_derive F f); intros; [apply D | apply C]. Qed.
Lemma below e om x : e <> 0 -> is_RInt (fun y => exp ((y - x) / e) * raw e om y) 0 x (e * sin (om * x)).
Proof.
  intros E. evar_last.
  - apply (FTC (fun y => e * exp ((y - x) / e) * sin (om * y))).
    + intros y. unfold raw. auto_derive; [exact I |]. unfold Rminus, Rdiv. field. exact E.
    + intros y. apply (ex_derive_continuous (fun y => exp ((y - x) / e) * raw e om y)). unfold raw. auto_derive. exact I.
  - cbn. replace ((x - x) / e) with 0 by (field; exact E). rewrite exp_0, Rmult_0_r, sin_0. ring.
Qed.
Lemma above e om x L : 0 < e -> (e * e * om * om - 1) * sin (om * L) - 2 * e * om * cos (om * L) = 0 ->
  is_RInt (fun y => exp ((x - y) / e) * raw e om y) x L
    (2 * e * e * om / (e * e * om * om + 1) * cos (om * x) - e * (e * e * om * om - 1) / (e * e * om * om + 1) * sin (om * x)).
Proof.
  intros E C. assert (0 < e * e * om * om + 1) as P by nra.
  evar_last.
  - apply (FTC (fun y => exp ((x - y) / e) * (e / (e * e * om * om + 1)) * ((e * e * om * om - 1) * sin (om * y) - 2 * e * om * cos (om * y)))).
    + intros y. unfold raw. auto_derive; [exact I |]. unfold Rminus, Rdiv. field. split; lra.
    + intros y. apply (ex_derive_continuous (fun y => exp ((x - y) / e) * raw e om y)). unfold raw. auto_derive. exact I.
  - cbn. rewrite C. replace ((x - x) / e) with 0 by (field; lra). rewrite exp_0. field. lra.
Qed.
Theorem C114_eigen K i x : medium K -> chareqn K (omega K i) = 0 -> 0 <= x <= kL K ->
  is_RInt (fun y => cov K x y * getEvec K i y) 0 (kL K) (getEval K i * getEvec K i x).
Proof.
  intros [E L] C X. set (s := sigma K * sigma K * nrm K i).
  assert (0 < eta K * eta K * omega K i * omega K i + 1) as P by nra.
  pose proof (below (eta K) (omega K i) x ltac:(lra)) as A. pose proof (above (eta K) (omega K i) x (kL K) E C) as B.
  apply (is_RInt_scal _ _ _ s) in A. apply (is_RInt_scal _ _ _ s) in B.
  evar_last.
  - apply (is_RInt_Chasles _ 0 x (kL K)).
    + eapply is_RInt_ext; [| exact A]. intros y [Y1 Y2]. rewrite Rmin_left in Y1 by lra. rewrite Rmax_right in Y2 by lra.
      rewrite evec_raw. unfold cov, s, scal. cbn. unfold mult. cbn. rewrite Rabs_pos_eq by lra.
      replace (- (x - y) / eta K) with ((y - x) / eta K) by (field; lra). ring.
    + eapply is_RInt_ext; [| exact B]. intros y [Y1 Y2]. rewrite Rmin_left in Y1 by lra. rewrite Rmax_right in Y2 by lra.
      rewrite evec_raw. unfold cov, s, scal. cbn. unfold mult. cbn. rewrite Rabs_left1 by lra.
      replace (- - (x - y) / eta K) with ((x - y) / eta K) by (field; lra). ring.
  - rewrite evec_raw. unfold getEval, raw, s, plus, scal. cbn. unfold mult. cbn. field. lra.
Qed.
Print Assumptions C114_eigen.
Lemma nrm_sq K i : medium K -> nrm K i * nrm K i * ((eta K * eta K * omega K i * omega K i + 1) * kL K / 2 + eta K) = 1.
Proof.
  intros [E L]. assert (0 < eta K * eta K * omega K i * omega K i + 1) as P by nra.
  assert (0 < (eta K * eta K * omega K i * omega K i + 1) * kL K / 2 + eta K) as Q by (assert (0 < (eta K * eta K * omega K i * omega K i + 1) * kL K) by nra; lra).
  unfold nrm. set (q := _ + eta K) in *. pose proof (sqrt_lt_R0 q Q) as S. pose proof (sqrt_sqrt q ltac:(lra)) as SS.
  replace (1 / sqrt q * (1 / sqrt q) * q) with (q / (sqrt q * sqrt q)) by (field; lra). rewrite SS. field. lra.
Qed.
(** Of norm one. *)
Theorem C114_unit K i : medium K -> omega K i <> 0 -> chareqn K (omega K i) = 0 ->
  is_RInt (fun y => getEvec K i y * getEvec K i y) 0 (kL K) 1.
Proof.
  intros M NZ C. pose proof M as [E L]. set (e := eta K) in *. set (om := omega K i) in *.
  assert (is_RInt (fun y => raw e om y * raw e om y) 0 (kL K) ((e * e * om * om + 1) * kL K / 2 + e)) as H.
  { evar_last.
    - apply (FTC (fun y => (e * e * om * om + 1) / 2 * y + (e * e * om * om - 1) / (2 * om) * (sin (om * y) * cos (om * y)) + e * (sin (om * y) * sin (om * y)))).
      + intros y. unfold raw. auto_derive; [exact I |].
        pose proof (sin2_cos2 (om * y)) as SC. unfold Rsqr in SC. set (S := sin (om * y)) in *. set (Cc := cos (om * y)) in *.
        replace ((e * e * om * om + 1) / 2 * 1) with ((e * e * om * om + 1) / 2 * (S * S + Cc * Cc)) by (rewrite SC; ring). field. exact NZ.
      + intros y. apply (ex_derive_continuous (fun y => raw e om y * raw e om y)). unfold raw. auto_derive. exact I.
    - cbn. rewrite !Rmult_0_r, sin_0, cos_0. unfold chareqn in C. fold e in C.
      pose proof (sin2_cos2 (om * kL K)) as SC. unfold Rsqr in SC. set (S := sin (om * kL K)) in *. set (Cc := cos (om * kL K)) in *.
      replace ((e * e * om * om - 1) / (2 * om) * (S * Cc)) with (((e * e * om * om - 1) * S) * Cc / (2 * om)) by (field; exact NZ).
      replace ((e * e * om * om - 1) * S) with (2 * e * om * Cc) by lra.
      replace (2 * e * om * Cc * Cc / (2 * om)) with (e * (Cc * Cc)) by (field; exact NZ).
      replace (Cc * Cc) with (1 - S * S) by lra. field. exact NZ. }
  apply (is_RInt_scal _ _ _ (nrm K i * nrm K i)) in H. evar_last.
  - eapply is_RInt_ext; [| exact H]. intros y _. rewrite evec_raw. unfold scal. cbn. unfold mult. cbn. fold e om. ring.
  - unfold scal. cbn. unfold mult. cbn. apply (nrm_sq K i M).
Qed.
Print Assumptions C114_unit.
(** Modes of different frequency are orthogonal. *)
Theorem C114_orthogonal K i j : medium K -> chareqn K (omega K i) = 0 -> chareqn K (omega K j) = 0 ->
  omega K i * omega K i <> omega K j * omega K j -> is_RInt (fun y => getEvec K i y * getEvec K j y) 0 (kL K) 0.
Proof.
  intros [E L] Ci Cj D. set (e := eta K) in *. set (a := omega K i) in *. set (b := omega K j) in *.
  assert (a * a - b * b <> 0) as NZ by lra.
  assert (is_RInt (fun y => raw e a y * raw e b y) 0 (kL K) 0) as H.
  { evar_last.
    - apply (FTC (fun y => (raw e a y * (- e * b * b * sin (b * y) + b * cos (b * y)) - (- e * a * a * sin (a * y) + a * cos (a * y)) * raw e b y) / (a * a - b * b))).
      + intros y. unfold raw. auto_derive; [exact I |]. field. exact NZ.
      + intros y. apply (ex_derive_continuous (fun y => raw e a y * raw e b y)). unfold raw. auto_derive. exact I.
    - cbn. unfold raw. rewrite !Rmult_0_r, sin_0, cos_0. unfold chareqn in Ci, Cj. fold e in Ci, Cj.
      set (Sa := sin (a * kL K)) in *. set (Ca := cos (a * kL K)) in *. set (Sb := sin (b * kL K)) in *. set (Cb := cos (b * kL K)) in *.
      replace (e * a * Ca + Sa) with (- e * (- e * a * a * Sa + a * Ca)) by lra.
      replace (e * b * Cb + Sb) with (- e * (- e * b * b * Sb + b * Cb)) by lra. field. exact NZ. }
  apply (is_RInt_scal _ _ _ (nrm K i * nrm K j)) in H. evar_last.
  - eapply is_RInt_ext; [| exact H]. intros y _. rewrite !evec_raw. unfold scal. cbn. unfold mult. cbn. fold e a b. ring.
  - unfold scal. cbn. unfold mult. cbn. ring.
Qed.
Print Assumptions C114_orthogonal.
(** The slope given to Newton's method is the derivative. *)
Theorem C114_slope K om : is_derive (chareqn K) om (dchareqn K om).
Proof. unfold chareqn, dchareqn. auto_derive; [exact I |]. ring. Qed.
Print Assumptions C114_slope.
(** A medium and a root: eta = 1, L = PI/2, omega = 1. *)
Example C114_root : let K := {| kN := 1; kL := PI / 2; sigma := 1; eta := 1; omega := fun _ => 1 |} in
  medium K /\ chareqn K (omega K 0) = 0 /\ omega K 0 <> 0 /\ getEval K 0 = 1.
Proof.
  pose proof PI_RGT_0. split; [split; cbn; lra |]. split; [unfold chareqn; cbn; rewrite !Rmult_1_l, cos_PI2; ring |]. split; [cbn; lra |]. unfold getEval. cbn. field.
Qed.

(** *** C113 *)
(** The logarithm of the factor by which the permeability is multiplied: coefficient k times the
    mode with numbers k mod Nx, (k / Nx) mod Ny, k / (Nx Ny); the deterministic coefficients come
    first, the random ones follow; those beyond the last mode are left out. It is the same in
    each direction. *)
Definition mode1 (K : klexp) (i : nat) (x : R) : R := sqrt (getEval K i) * getEvec K i x.
Definition kl_mode (sd : nat) (Kx Ky Kz : klexp) (X : nat -> R) (k : nat) : R :=
  match sd with
  | 1%nat => mode1 Kx k (X 0%nat)
  | 2%nat => mode1 Kx (k mod kN Kx) (X 0%nat) * mode1 Ky (k / kN Kx) (X 1%nat)
  | _ => mode1 Kx (k mod kN Kx) (X 0%nat) * mode1 Ky ((k / kN Kx) mod kN Ky) (X 1%nat) * mode1 Kz (k / (kN Kx * kN Ky)) (X 2%nat)
  end.
Definition kl_count (sd : nat) (Kx Ky Kz : klexp) : nat :=
  match sd with 1%nat => kN Kx | 2%nat => (kN Kx * kN Ky)%nat | _ => (kN Kx * kN Ky * kN Kz)%nat end.
Definition coeffs (c : option (list R)) : list R := match c with None => [] | Some l => l end.
Definition kl_sum (sd : nat) (Kx Ky Kz : klexp) (uq st : option (list R)) (X : nat -> R) : R :=
  sm (seq 0 (Nat.min (kl_count sd Kx Ky Kz) (List.length (coeffs uq ++ coeffs st)%list)))
     (fun k => nth k (coeffs uq ++ coeffs st)%list 0 * kl_mode sd Kx Ky Kz X k).

Lemma flat_length {A} (g : nat -> list A) N M : (forall j, List.length (g j) = N) -> List.length (flat_map g (seq 0 M)) = (M * N)%nat.
Proof.
  intros H. assert (forall s, List.length (flat_map g (seq s M)) = (M * N)%nat) as G; [| apply G].
  induction M as [| M IH]; intros s; cbn; [reflexivity |]. rewrite app_length, H, IH. lia.
Qed.
Lemma flat_nth {A} (g : nat -> list A) N M k (d : A) : (forall j, List.length (g j) = N) -> (k < M * N)%nat ->
  nth k (flat_map g (seq 0 M)) d = nth (k mod N) (g (k / N)%nat) d.
Proof.
  intros H K. assert (N <> 0)%nat as NZ by (intros ->; lia).
  assert (forall M s k, (k < M * N)%nat -> nth k (flat_map g (seq s M)) d = nth (k mod N) (g (s + k / N)%nat) d) as G; [| apply (G M 0%nat k K)].
  clear M k K. induction M as [| M IH]; intros s k K; [lia |]. cbn [seq flat_map]. destruct (Nat.lt_ge_cases k N) as [B | B].
  - rewrite app_nth1 by (rewrite H; lia). rewrite Nat.mod_small, Nat.div_small by lia. rewrite Nat.add_0_r. reflexivity.
  - rewrite app_nth2 by (rewrite H; lia). rewrite H, IH by lia.
    replace k with ((k - N) + 1 * N)%nat at 3 4 by lia. rewrite Nat.mod_add, Nat.div_add by lia. f_equal. f_equal. lia.
Qed.
Lemma map_seq_nth {A} (f : nat -> A) N k d : (k < N)%nat -> nth k (map f (seq 0 N)) d = f k.
Proof. intros K. rewrite (nth_indep _ d (f 0%nat)) by (rewrite map_length, seq_length; exact K). rewrite map_nth, seq_nth by exact K. reflexivity. Qed.
Lemma ind_length sd Kx Ky Kz : List.length (kl_indices sd Kx Ky Kz) = kl_count sd Kx Ky Kz.
Proof.
  destruct sd as [| [| [| sd]]]; cbn [kl_indices kl_count].
  2:{ rewrite map_length, seq_length. reflexivity. }
  2:{ rewrite (flat_length _ (kN Kx)) by (intros; rewrite map_length, seq_length; reflexivity). lia. }
  all: rewrite (flat_length _ (kN Ky * kN Kx)) by (intros; rewrite (flat_length _ (kN Kx)) by (intros; rewrite map_length, seq_length; reflexivity); reflexivity); lia.
Qed.
Lemma ind_2 Kx Ky Kz k : (k < kN Kx * kN Ky)%nat -> nth k (kl_indices 2 Kx Ky Kz) (0, 0, 0)%nat = (k mod kN Kx, k / kN Kx, 0)%nat.
Proof.
  intros K. cbn [kl_indices]. rewrite (flat_nth _ (kN Kx)) by (try lia; intros; rewrite map_length, seq_length; reflexivity).
  assert (kN Kx <> 0)%nat by (intros E; rewrite E in K; lia). rewrite map_seq_nth by (apply Nat.mod_upper_bound; assumption). reflexivity.
Qed.
Lemma ind_3 Kx Ky Kz k : (k < kN Kx * kN Ky * kN Kz)%nat ->
  nth k (kl_indices 3 Kx Ky Kz) (0, 0, 0)%nat = (k mod kN Kx, (k / kN Kx) mod kN Ky, k / (kN Kx * kN Ky))%nat.
Proof.
  intros K. assert (kN Kx <> 0)%nat as X by (intros E; rewrite E in K; lia). assert (kN Ky <> 0)%nat as Y by (intros E; rewrite E in K; lia).
  cbn [kl_indices]. rewrite (flat_nth _ (kN Ky * kN Kx)) by (try lia; intros; rewrite (flat_length _ (kN Kx)) by (intros; rewrite map_length, seq_length; reflexivity); reflexivity).
  rewrite (flat_nth _ (kN Kx)) by (try (apply Nat.mod_upper_bound; lia); intros; rewrite map_length, seq_length; reflexivity).
  rewrite map_seq_nth by (apply Nat.mod_upper_bound; assumption).
  rewrite (Nat.mul_comm (kN Ky) (kN Kx)). rewrite Nat.mod_mul_r by assumption.
  rewrite (Nat.mul_comm (kN Kx) ((k / kN Kx) mod kN Ky)).
  rewrite Nat.mod_add, Nat.div_add, Nat.mod_mod by assumption. rewrite (Nat.div_small (k mod kN Kx)) by (apply Nat.mod_upper_bound; assumption). reflexivity.
Qed.
Lemma getEval_nonneg K i : 0 < eta K -> 0 <= getEval K i.
Proof.
  intros E. unfold getEval. assert (0 < eta K * eta K * omega K i * omega K i + 1) as P by nra.
  apply Rmult_le_pos; [| left; apply Rinv_0_lt_compat, P]. assert (0 <= sigma K * sigma K) by nra. nra.
Qed.
Lemma seq_shift_sum a n f : sm (seq a n) f = sm (seq 0 n) (fun k => f (a + k)%nat).
Proof.
  unfold sm. f_equal. replace (map f (seq a n)) with (map f (map (fun k => (a + k)%nat) (seq 0 n))); [rewrite map_map; reflexivity |].
  f_equal. revert a. induction n as [| n IH]; intros a; cbn; [reflexivity |]. f_equal; [lia |]. rewrite <- seq_shift, map_map, <- (IH (S a)).
  apply map_ext. intros; lia.
Qed.
(** Deterministic terms followed by random ones. *)
Lemma kl_split cu cs n (v : nat -> R) :
  kl_terms 0 (Nat.min (List.length cu) n) (fun k => nth k cu 0 * v k)
  + kl_terms (List.length cu) (Nat.min n (List.length cu + List.length cs)) (fun k => nth (k - List.length cu) cs 0 * v k) =
  sm (seq 0 (Nat.min n (List.length (cu ++ cs)%list))) (fun k => nth k (cu ++ cs)%list 0 * v k).
Proof.
  unfold kl_terms. rewrite app_length, Nat.sub_0_r. set (a := List.length cu). set (b := List.length cs).
  replace (Nat.min n (a + b)) with (Nat.min a n + (Nat.min n (a + b) - a))%nat at 2 by lia. rewrite seq_app. unfold sm at 3. rewrite map_app, rsum_app.
  fold (sm (seq 0 (Nat.min a n)) (fun k => nth k (cu ++ cs) 0 * v k)).
  fold (sm (seq (0 + Nat.min a n) (Nat.min n (a + b) - a)) (fun k => nth k (cu ++ cs) 0 * v k)). f_equal.
  - apply sm_ext. intros k I. apply in_seq in I. rewrite app_nth1 by (fold a; lia). reflexivity.
  - destruct (Nat.le_gt_cases a n) as [L | L].
    + replace (0 + Nat.min a n)%nat with a by lia. apply sm_ext. intros k I. apply in_seq in I. rewrite app_nth2 by (fold a; lia). reflexivity.
    + replace (Nat.min n (a + b) - a)%nat with 0%nat by lia. reflexivity.
Qed.
Lemma kl_terms_ext a b f g : (forall k, (a <= k < b)%nat -> f k = g k) -> kl_terms a b f = kl_terms a b g.
Proof. intros H. apply sm_ext. intros k I. apply in_seq in I. apply H. lia. Qed.

Theorem C113_field_partial sd Kx Ky Kz uq st X d : 0 < eta Kx -> 0 < eta Ky -> 0 < eta Kz -> (1 <= sd <= 3)%nat -> (d < sd)%nat ->
  (sd = 3%nat -> uq = None) -> kl_perm sd Kx Ky Kz uq st X d = kl_sum sd Kx Ky Kz uq st X.
Proof.
  intros Ex Ey Ez B D U3. unfold kl_sum. rewrite <- (ind_length sd Kx Ky Kz), <- kl_split.
  assert (forall k, (k < kN Kx * kN Ky)%nat -> sqrt (getEval Kx (fst (fst (nth k (kl_indices 2 Kx Ky Kz) (0, 0, 0)%nat))) * getEval Ky (snd (fst (nth k (kl_indices 2 Kx Ky Kz) (0, 0, 0)%nat))))
     * getEvec Kx (fst (fst (nth k (kl_indices 2 Kx Ky Kz) (0, 0, 0)%nat))) (X 0%nat) * getEvec Ky (snd (fst (nth k (kl_indices 2 Kx Ky Kz) (0, 0, 0)%nat))) (X 1%nat) = kl_mode 2 Kx Ky Kz X k) as M2.
  { intros k K. rewrite (ind_2 Kx Ky Kz k K). cbn [fst snd kl_mode]. rewrite sqrt_mult by (apply getEval_nonneg; assumption). unfold mode1. ring. }
  assert (sd = 1%nat \/ sd = 2%nat \/ sd = 3%nat) as [S1 | [S2 | S3]] by lia; subst sd; unfold kl_perm.
  - assert (d = 0%nat) by lia. subst d. cbn [Nat.eqb]. rewrite ind_length. cbn [kl_count]. f_equal.
    + destruct uq as [c |]; cbn [coeffs List.length]; reflexivity.
    + destruct st as [c |]; cbn [coeffs List.length].
      * destruct uq; reflexivity.
      * destruct uq; cbn [coeffs List.length]; unfold kl_terms; (replace (Nat.min _ _ - _)%nat with 0%nat by lia); reflexivity.
  - replace (d <? 2)%nat with true by (symmetry; apply Nat.ltb_lt; exact D). rewrite ind_length. cbn [kl_count]. f_equal.
    + destruct uq as [c |]; cbn [coeffs List.length]; [| reflexivity]. apply kl_terms_ext. intros k K. rewrite M2 by lia. reflexivity.
    + destruct st as [c |]; cbn [coeffs List.length].
      * destruct uq; apply kl_terms_ext; intros k K; rewrite M2 by lia; reflexivity.
      * destruct uq; cbn [coeffs List.length]; unfold kl_terms; (replace (Nat.min _ _ - _)%nat with 0%nat by lia); reflexivity.
  - rewrite (U3 eq_refl). cbn [coeffs List.length]. rewrite ind_length. cbn [kl_count]. f_equal.
    destruct st as [c |]; cbn [coeffs List.length].
    + apply kl_terms_ext. intros k K. rewrite (ind_3 Kx Ky Kz k) by lia. cbn [fst snd kl_mode].
      pose proof (getEval_nonneg Kx (k mod kN Kx) Ex). pose proof (getEval_nonneg Ky ((k / kN Kx) mod kN Ky) Ey). pose proof (getEval_nonneg Kz (k / (kN Kx * kN Ky)) Ez).
      rewrite !sqrt_mult by (first [assumption | apply Rmult_le_pos; assumption]). unfold mode1. ring.
    + unfold kl_terms. replace (Nat.min _ _ - _)%nat with 0%nat by lia. reflexivity.
Qed.
Print Assumptions C113_field_partial.
(** In the inverse permeability: 1 / (K exp of the field), with the same field in each direction. *)
Theorem C113_factor_partial sd Kx Ky Kz uq st X data W d pt : 0 < eta Kx -> 0 < eta Ky -> 0 < eta Kz -> (1 <= sd <= 3)%nat -> (d < sd)%nat ->
  (sd = 3%nat -> uq = None) ->
  pm_Kinv data (Some (fun d pt => kl_perm sd Kx Ky Kz uq st (X pt) d)) W d pt * exp (kl_sum sd Kx Ky Kz uq st (X pt)) = pm_Kinv data None W d pt.
Proof.
  intros Ex Ey Ez B D U3. unfold pm_Kinv. rewrite (C113_field_partial sd Kx Ky Kz uq st (X pt) d Ex Ey Ez B D U3).
  field. apply Rgt_not_eq, exp_pos.
Qed.
Print Assumptions C113_factor_partial.
(** In three dimensions with deterministic coefficients the z direction gets nothing. *)
Definition KL1 : klexp := {| kN := 1; kL := 1; sigma := 1; eta := 1; omega := fun _ => 1 |}.
Theorem C113_field_refuted : exists X, kl_perm 3 KL1 KL1 KL1 (Some [1]) None X 2 <> kl_sum 3 KL1 KL1 KL1 (Some [1]) None X /\
  kl_perm 3 KL1 KL1 KL1 (Some [1]) None X 0 <> kl_perm 3 KL1 KL1 KL1 (Some [1]) None X 1.
Proof.
  exists (fun _ => 0). assert (mode1 KL1 0 0 <> 0) as NZ.
  { unfold mode1, getEval, getEvec. cbn [KL1 sigma eta omega kL]. rewrite !Rmult_1_l, sin_0, cos_0.
    apply Rmult_integral_contrapositive_currified; [apply Rgt_not_eq, sqrt_lt_R0; lra |].
    apply Rmult_integral_contrapositive_currified; [| lra]. apply Rgt_not_eq. apply Rdiv_lt_0_compat; [lra | apply sqrt_lt_R0; lra]. }
  set (m := mode1 KL1 0 0) in *.
  assert (m * m * m <> 0) as NZ3 by (apply Rmult_integral_contrapositive_currified; [apply Rmult_integral_contrapositive_currified |]; exact NZ).
  assert (0 <= getEval KL1 0) as P by (apply getEval_nonneg; cbn; lra).
  assert (sqrt (getEval KL1 0 * getEval KL1 0 * getEval KL1 0) * getEvec KL1 0 0 * getEvec KL1 0 0 * getEvec KL1 0 0 = m * m * m) as V
    by (rewrite !sqrt_mult by (first [assumption | apply Rmult_le_pos; assumption]); unfold m, mode1; ring).
  assert (kl_sum 3 KL1 KL1 KL1 (Some [1]) None (fun _ => 0) = m * m * m) as S by (unfold kl_sum, m; cbn; ring).
  assert (kl_perm 3 KL1 KL1 KL1 (Some [1]) None (fun _ => 0) 2 = 0) as Z by (unfold kl_perm; cbn; ring).
  assert (kl_perm 3 KL1 KL1 KL1 (Some [1]) None (fun _ => 0) 0 = 2 * (m * m * m)) as Q0
    by (rewrite <- V; unfold kl_perm, kl_terms, sm; cbn -[getEval getEvec]; ring).
  assert (kl_perm 3 KL1 KL1 KL1 (Some [1]) None (fun _ => 0) 1 = m * m * m) as Q1
    by (rewrite <- V; unfold kl_perm, kl_terms, sm; cbn -[getEval getEvec]; ring).
  rewrite Z, S, Q0, Q1. split; lra.
Qed.
Print Assumptions C113_field_refuted.
Example C113_case : kl_count 2 KL1 {| kN := 3; kL := 1; sigma := 1; eta := 1; omega := INR |} KL1 = 3%nat /\ 0 < eta KL1.
Proof. split; [reflexivity | cbn; lra]. Qed.

(** *** C115 *)
(** The wells add to the source: given rates as they are, the others by Peaceman's formula. *)
Definition well_rate (h : R) (w : wks) (wl : well) (pt : nat) : R :=
  if String.eqb (welltype wl) "flow rate" then fn w (wellname wl) pt
  else 2 * PI / ln (h * exp (- (5772 / 10000)) / 8) *
       sqrt ((/ fn w "Kinv_xx" pt)² + (/ fn w "Kinv_yy" pt)² + (/ fn w "Kinv_zz" pt)²) * fn w (wellname wl) pt.
Lemma wells_from h w source pt : forall ws acc k, (1 <= k)%nat ->
  fst (fold_left (fun '(acc, k) wl =>
    (fun pt =>
      let a := if (k =? 0)%nat then source pt else acc pt in
      if String.eqb (welltype wl) "flow rate" then a + fn w (wellname wl) pt
      else a + 2 * PI / ln (1 / 4 * exp (- (5772 / 10000)) * h / 2) * sqrt (1 / fn w "Kinv_xx" pt * (1 / fn w "Kinv_xx" pt)
             + 1 / fn w "Kinv_yy" pt * (1 / fn w "Kinv_yy" pt) + 1 / fn w "Kinv_zz" pt * (1 / fn w "Kinv_zz" pt)) * fn w (wellname wl) pt, S k)) ws (acc, k)) pt
  = acc pt + sm ws (fun wl => well_rate h w wl pt).
Proof.
  induction ws as [| wl ws IH]; intros acc k K; [cbn; unfold sm; cbn; ring |]. cbn [fold_left]. rewrite IH by lia.
  replace (k =? 0)%nat with false by (symmetry; apply Nat.eqb_neq; lia). unfold sm. cbn [map]. change (rsum (?a :: ?l)) with (a + rsum l). unfold well_rate at 2.
  replace (1 / 4 * exp (- (5772 / 10000)) * h / 2) with (h * exp (- (5772 / 10000)) / 8) by field.
  unfold Rsqr, Rdiv. rewrite !Rmult_1_l. destruct (String.eqb (welltype wl) "flow rate"); ring.
Qed.
Theorem C115_wells_partial ws source h w pt : ws <> [] -> add_wells ws source h w pt = source pt + sm ws (fun wl => well_rate h w wl pt).
Proof.
  intros NE. destruct ws as [| wl ws]; [contradiction |]. unfold add_wells. cbn [fold_left]. cbv zeta. rewrite wells_from by lia. cbn [Nat.eqb].
  unfold sm. cbn [map]. change (rsum (?a :: ?l)) with (a + rsum l). unfold well_rate at 2.
  replace (1 / 4 * exp (- (5772 / 10000)) * h / 2) with (h * exp (- (5772 / 10000)) / 8) by field.
  unfold Rsqr, Rdiv. rewrite !Rmult_1_l. destruct (String.eqb (welltype wl) "flow rate"); ring.
Qed.
Print Assumptions C115_wells_partial.
(** A module asked to use wells but given none loses its source. *)
Theorem C115_wells_refuted : exists source, forall h w pt, add_wells [] source h w pt <> source pt + sm [] (fun wl => well_rate h w wl pt).
Proof. exists (fun _ => 1). intros h w pt. unfold sm. cbn. lra. Qed.
Print Assumptions C115_wells_refuted.
(** In the plane, the rate of a well depends on the permeability across it. *)
Definition field_of (kz : R) : wks := {| dim := 2; varlist := ["p"; "u"]%string; usebasis := fun v => v; npts := 1; nbas := fun _ => 1%nat;
  offs := fun v _ => v; wt := fun _ => 1; bas := fun _ _ _ => 0; bgr := fun _ _ _ _ => 0; fld := fun _ _ => 0;
  fn := fun s _ => if String.eqb s "Kinv_zz" then kz else 1; hel := 1; bcs := fun _ => "none"%string; sidename := "s"%string;
  isAdjoint := false; isTransient := false; deltat := 1 |}.
Theorem C115_plane_refuted : exists ws h, 0 < h /\ add_wells ws (fun _ => 0) h (field_of 1) 0 <> add_wells ws (fun _ => 0) h (field_of 2) 0.
Proof.
  exists [{| wellname := "w"; welltype := "pressure" |}]. exists (16 * exp (5772 / 10000)). split; [pose proof (exp_pos (5772 / 10000)); lra |].
  rewrite !C115_wells_partial by discriminate. unfold sm, well_rate. cbn.
  replace (16 * exp (5772 / 10000) * exp (- (5772 / 10000)) / 8) with 2 by (rewrite exp_Ropp; field; apply Rgt_not_eq, exp_pos).
  assert (0 < ln 2) as L by (rewrite <- ln_1; apply ln_increasing; lra). pose proof PI_RGT_0.
  assert (0 < 2 * PI / ln 2) as Q by (apply Rdiv_lt_0_compat; lra).
  assert (sqrt ((/ 1)² + (/ 1)² + (/ 2)²) < sqrt ((/ 1)² + (/ 1)² + (/ 1)²)) as S
    by (unfold Rsqr; apply sqrt_lt_1; lra). nra.
Qed.
Print Assumptions C115_plane_refuted.
