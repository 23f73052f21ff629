(** C201 (stress from the stored energy), C202 (equilibrium), C203 (two dimensions), C204 (Cauchy
    stress), C205 (boundary terms and flux), C206 (settings and outputs that do not do what they
    say), C207 (elastodynamics in one and two dimensions), C208 (in three). *)
From Coq Require Import Bool Arith Lia Reals Lra String List.
From Verif Require Import Sparse_Model Sparse_Props Mass_Model Mass_Props BProj_Model BProj_Proofs Phys_Model Phys_Spec Phys_Proofs
  Elast_Model Elast_Props NeoH_Model.
Import ListNotations.
Local Open Scope R_scope.
Local Notation length := List.length.

(** *** Specification *)
(** Deformation gradient, determinant, stored energy of a compressible neo-Hookean solid. *)
Definition defgrad (w : wks) (k c d : nat) : R := delta c d + grad w (dsp c) d k.
Definition det (n : nat) (F : nat -> nat -> R) : R :=
  match n with
  | 1%nat => F 0%nat 0%nat
  | 2%nat => F 0%nat 0%nat * F 1%nat 1%nat - F 0%nat 1%nat * F 1%nat 0%nat
  | _ => F 0%nat 0%nat * (F 1%nat 1%nat * F 2%nat 2%nat - F 1%nat 2%nat * F 2%nat 1%nat)
         - F 0%nat 1%nat * (F 1%nat 0%nat * F 2%nat 2%nat - F 1%nat 2%nat * F 2%nat 0%nat)
         + F 0%nat 2%nat * (F 1%nat 0%nat * F 2%nat 1%nat - F 1%nat 1%nat * F 2%nat 0%nat)
  end.
Definition frob (n : nat) (A B : nat -> nat -> R) : R := sm (seq 0 n) (fun c => sm (seq 0 n) (fun d => A c d * B c d)).
Definition stored (n : nat) (lam mu : R) (F : nat -> nat -> R) : R :=
  mu / 2 * (frob n F F - 3) + lam / 2 * (ln (det n F) * ln (det n F)) - mu * ln (det n F).
(** P is the derivative of the energy: along every direction. *)
Definition is_stress (n : nat) (lam mu : R) (F P : nat -> nat -> R) : Prop :=
  forall E, derivable_pt_lim (fun t => stored n lam mu (fun c d => F c d + t * E c d)) 0 (frob n P E).
(** A rotation; the product of two matrices. *)
Definition mul3 (A B : nat -> nat -> R) (c d : nat) : R := sm (seq 0 3) (fun e => A c e * B e d).
Definition rotation (Q : nat -> nat -> R) : Prop :=
  (forall c d, (c < 3)%nat -> (d < 3)%nat -> sm (seq 0 3) (fun e => Q e c * Q e d) = delta c d) /\ det 3 Q = 1.

(** *** Derivatives *)
Lemma dlim_eq f g x l l' : derivable_pt_lim f x l -> (forall t, g t = f t) -> l' = l -> derivable_pt_lim g x l'.
Proof. intros D E -> eps He. destruct (D eps He) as [del H]. exists del. intros h H0 H1. rewrite !E. apply H; assumption. Qed.
Lemma dlim_poly a b c d : derivable_pt_lim (fun t => a + b * t + c * (t * t) + d * (t * (t * t))) 0 b.
Proof.
  pose proof (derivable_pt_lim_id 0) as I.
  pose proof (derivable_pt_lim_mult id id 0 _ _ I I) as I2.
  pose proof (derivable_pt_lim_mult id (mult_fct id id) 0 _ _ I I2) as I3.
  pose proof (derivable_pt_lim_plus _ _ 0 _ _ (derivable_pt_lim_plus _ _ 0 _ _ (derivable_pt_lim_plus _ _ 0 _ _ (derivable_pt_lim_const a 0)
    (derivable_pt_lim_scal _ b 0 _ I)) (derivable_pt_lim_scal _ c 0 _ I2)) (derivable_pt_lim_scal _ d 0 _ I3)) as A.
  refine (dlim_eq _ _ _ _ _ A _ _).
  - intros t. reflexivity.
  - unfold id, mult_fct. ring.
Qed.
Lemma dlim_ln g l : derivable_pt_lim g 0 l -> 0 < g 0 -> derivable_pt_lim (fun t => ln (g t)) 0 (l / g 0).
Proof.
  intros D P. refine (dlim_eq _ _ _ _ _ (derivable_pt_lim_comp g ln 0 l (/ g 0) D (derivable_pt_lim_ln _ P)) _ _).
  - reflexivity.
  - unfold Rdiv. ring.
Qed.
Lemma dlim_vol lam mu g l : derivable_pt_lim g 0 l -> 0 < g 0 ->
  derivable_pt_lim (fun t => lam / 2 * (ln (g t) * ln (g t)) - mu * ln (g t)) 0 ((lam * ln (g 0) - mu) / g 0 * l).
Proof.
  intros D P. pose proof (dlim_ln g l D P) as L.
  refine (dlim_eq _ _ _ _ _ (derivable_pt_lim_minus _ _ 0 _ _ (derivable_pt_lim_scal _ (lam / 2) 0 _ (derivable_pt_lim_mult _ _ 0 _ _ L L))
    (derivable_pt_lim_scal _ mu 0 _ L)) _ _).
  - reflexivity.
  - field. lra.
Qed.
Lemma dlim_lin lam mu g l h m (e : R) : derivable_pt_lim g 0 l -> g 0 = 1 -> derivable_pt_lim h 0 m ->
  derivable_pt_lim (fun t => mu * e * t + (lam * ln (g t) - mu) / g t * h t) 0 (mu * e + (lam + mu) * l * h 0 - mu * m).
Proof.
  intros D G H. assert (0 < g 0) as P by lra. pose proof (dlim_ln g l D P) as L.
  pose proof (derivable_pt_lim_minus _ _ 0 _ _ (derivable_pt_lim_scal _ lam 0 _ L) (derivable_pt_lim_const mu 0)) as N.
  assert (g 0 <> 0) as G0 by lra.
  pose proof (derivable_pt_lim_mult _ _ 0 _ _ (derivable_pt_lim_div _ _ 0 _ _ N D G0) H) as A.
  refine (dlim_eq _ _ _ _ _ (derivable_pt_lim_plus _ _ 0 _ _ (derivable_pt_lim_scal _ (mu * e) 0 _ (derivable_pt_lim_id 0)) A) _ _).
  - intros t. reflexivity.
  - unfold div_fct, minus_fct, mult_real_fct, fct_cte, Rsqr. rewrite G, ln_1. field.
Qed.

(** *** C201 *)
Lemma nhF_is w k c d : (c < 3)%nat -> (d < 3)%nat -> nhF w c d k = defgrad w k c d.
Proof. intros C D. comps c; comps d; unfold defgrad, delta, nhF; cbn [Nat.eqb]; names; ring. Qed.
Lemma frob_1 A B : frob 1 A B = A 0%nat 0%nat * B 0%nat 0%nat.
Proof. unfold frob, sm, rsum. cbn. ring. Qed.
Lemma frob_2 A B : frob 2 A B = A 0%nat 0%nat * B 0%nat 0%nat + A 0%nat 1%nat * B 0%nat 1%nat + A 1%nat 0%nat * B 1%nat 0%nat + A 1%nat 1%nat * B 1%nat 1%nat.
Proof. unfold frob, sm, rsum. cbn. ring. Qed.
Lemma frob_3 A B : frob 3 A B = A 0%nat 0%nat * B 0%nat 0%nat + A 0%nat 1%nat * B 0%nat 1%nat + A 0%nat 2%nat * B 0%nat 2%nat
  + A 1%nat 0%nat * B 1%nat 0%nat + A 1%nat 1%nat * B 1%nat 1%nat + A 1%nat 2%nat * B 1%nat 2%nat
  + A 2%nat 0%nat * B 2%nat 0%nat + A 2%nat 1%nat * B 2%nat 1%nat + A 2%nat 2%nat * B 2%nat 2%nat.
Proof. unfold frob, sm, rsum. cbn. ring. Qed.

(** Cofactors in three dimensions. *)
Definition cof (F : nat -> nat -> R) (c d : nat) : R :=
  match c, d with
  | 0%nat, 0%nat => F 1%nat 1%nat * F 2%nat 2%nat - F 1%nat 2%nat * F 2%nat 1%nat
  | 0%nat, 1%nat => F 1%nat 2%nat * F 2%nat 0%nat - F 1%nat 0%nat * F 2%nat 2%nat
  | 0%nat, 2%nat => F 1%nat 0%nat * F 2%nat 1%nat - F 1%nat 1%nat * F 2%nat 0%nat
  | 1%nat, 0%nat => F 0%nat 2%nat * F 2%nat 1%nat - F 0%nat 1%nat * F 2%nat 2%nat
  | 1%nat, 1%nat => F 0%nat 0%nat * F 2%nat 2%nat - F 0%nat 2%nat * F 2%nat 0%nat
  | 1%nat, 2%nat => F 0%nat 1%nat * F 2%nat 0%nat - F 0%nat 0%nat * F 2%nat 1%nat
  | 2%nat, 0%nat => F 0%nat 1%nat * F 1%nat 2%nat - F 0%nat 2%nat * F 1%nat 1%nat
  | 2%nat, 1%nat => F 0%nat 2%nat * F 1%nat 0%nat - F 0%nat 0%nat * F 1%nat 2%nat
  | 2%nat, 2%nat => F 0%nat 0%nat * F 1%nat 1%nat - F 0%nat 1%nat * F 1%nat 0%nat
  | _, _ => 0
  end.
Lemma stress_3 w k c d : dim w = 3%nat -> (c < 3)%nat -> (d < 3)%nat ->
  nh_stress w c d k = fn w "mu" k * defgrad w k c d
    + (fn w "lambda" k * ln (det 3 (defgrad w k)) - fn w "mu" k) / det 3 (defgrad w k) * cof (defgrad w k) c d.
Proof.
  intros D C E. unfold nh_stress. rewrite D. cbn [Nat.eqb]. cbv zeta. rewrite !nhF_is by lia.
  set (F := defgrad w k). replace (F 0%nat 0%nat * (F 1%nat 1%nat * F 2%nat 2%nat - F 1%nat 2%nat * F 2%nat 1%nat) +
    F 0%nat 1%nat * (F 1%nat 2%nat * F 2%nat 0%nat - F 1%nat 0%nat * F 2%nat 2%nat) +
    F 0%nat 2%nat * (F 1%nat 0%nat * F 2%nat 1%nat - F 1%nat 1%nat * F 2%nat 0%nat)) with (det 3 F) by (unfold det; ring).
  comps c; comps d; reflexivity.
Qed.
Lemma det_line F E t : det 3 (fun c d => F c d + t * E c d) = det 3 F + frob 3 (cof F) E * t + frob 3 (cof E) F * (t * t) + det 3 E * (t * (t * t)).
Proof. rewrite !frob_3. unfold det, cof. ring. Qed.

Theorem C201_energy w k : dim w = 1%nat \/ dim w = 3%nat -> 0 < det (dim w) (defgrad w k) ->
  is_stress (dim w) (fn w "lambda" k) (fn w "mu" k) (defgrad w k) (fun c d => nh_stress w c d k).
Proof.
  intros [D | D] P E; rewrite D in *; set (F := defgrad w k) in *; set (lam := fn w "lambda" k); set (mu := fn w "mu" k).
  - assert (derivable_pt_lim (fun t => F 0%nat 0%nat + t * E 0%nat 0%nat) 0 (E 0%nat 0%nat)) as G.
    { refine (dlim_eq _ _ _ _ _ (dlim_poly (F 0%nat 0%nat) (E 0%nat 0%nat) 0 0) _ eq_refl). intros t. ring. }
    assert (0 < F 0%nat 0%nat + 0 * E 0%nat 0%nat) as P' by (rewrite Rmult_0_l, Rplus_0_r; exact P).
    refine (dlim_eq _ _ _ _ _ (derivable_pt_lim_plus _ _ 0 _ _ (dlim_poly (mu / 2 * (F 0%nat 0%nat * F 0%nat 0%nat - 3)) (mu * F 0%nat 0%nat * E 0%nat 0%nat)
      (mu / 2 * E 0%nat 0%nat * E 0%nat 0%nat) 0) (dlim_vol lam mu _ _ G P')) _ _).
    + intros t. unfold stored, plus_fct. rewrite frob_1. unfold det. field.
    + rewrite frob_1. unfold nh_stress. rewrite D. cbn [Nat.eqb]. cbv zeta. rewrite nhF_is by lia. fold F lam mu.
      rewrite Rmult_0_l, Rplus_0_r. cbn [det] in P. field. lra.
  - assert (derivable_pt_lim (fun t => det 3 (fun c d => F c d + t * E c d)) 0 (frob 3 (cof F) E)) as G.
    { refine (dlim_eq _ _ _ _ _ (dlim_poly (det 3 F) (frob 3 (cof F) E) (frob 3 (cof E) F) (det 3 E)) _ eq_refl). intros t. apply det_line. }
    assert (det 3 (fun c d => F c d + 0 * E c d) = det 3 F) as Z by (unfold det; ring).
    assert (0 < det 3 (fun c d => F c d + 0 * E c d)) as P' by (rewrite Z; exact P).
    refine (dlim_eq _ _ _ _ _ (derivable_pt_lim_plus _ _ 0 _ _ (dlim_poly (mu / 2 * (frob 3 F F - 3)) (mu * frob 3 F E)
      (mu / 2 * frob 3 E E) 0) (dlim_vol lam mu _ _ G P')) _ _).
    + intros t. unfold stored, plus_fct. set (dd := det 3 _). rewrite !frob_3. field.
    + cbv beta. rewrite Z. rewrite (frob_3 (fun c d => nh_stress w c d k)), !(stress_3 w k) by (assumption || lia). fold F lam mu.
      rewrite (frob_3 F E), (frob_3 (cof F) E). field. lra.
Qed.
Print Assumptions C201_energy.

(** At rest, and to first order in the displacement, it is the stress of linear elasticity. *)
Lemma det_I : det 3 (fun c d => delta c d) = 1.
Proof. unfold det, delta. cbn [Nat.eqb]. ring. Qed.
Theorem C201_rest w k c d : dim w = 1%nat \/ dim w = 3%nat -> (c < dim w)%nat -> (d < dim w)%nat ->
  (forall a b, (a < dim w)%nat -> (b < dim w)%nat -> grad w (dsp a) b k = 0) -> nh_stress w c d k = 0.
Proof.
  intros [D | D] C E Z; rewrite D in *.
  - assert (c = 0%nat) by lia. assert (d = 0%nat) by lia. subst. unfold nh_stress. rewrite D. cbn [Nat.eqb]. cbv zeta. rewrite nhF_is by lia.
    unfold defgrad. rewrite Z by lia. unfold delta. cbn [Nat.eqb]. rewrite Rplus_0_r, ln_1. field.
  - rewrite (stress_3 w k c d D C E). assert (det 3 (defgrad w k) = 1) as J.
    { rewrite <- det_I. unfold det, defgrad. rewrite !Z by lia. ring. }
    rewrite J, ln_1. unfold cof, defgrad. comps c; comps d; rewrite !Z by lia; unfold delta; cbn [Nat.eqb]; field.
Qed.
Print Assumptions C201_rest.
Theorem C201_linear s (fam : R -> wks) n lam mu k c d : n = 1%nat \/ n = 3%nat -> (c < n)%nat -> (d < n)%nat ->
  mechanical s (fam 1) -> incplanestress s = false ->
  (forall t, dim (fam t) = n /\ fn (fam t) "lambda" k = lam /\ fn (fam t) "mu" k = mu /\
     forall a b, (a < n)%nat -> (b < n)%nat -> grad (fam t) (dsp a) b k = t * grad (fam 1) (dsp a) b k) ->
  derivable_pt_lim (fun t => nh_stress (fam t) c d k) 0 (hooke s (fam 1) c d k).
Proof.
  intros N C D M P H. set (E := fun a b => grad (fam 1) (dsp a) b k).
  destruct (H 1) as [D1 [L1 [M1 _]]].
  assert (hooke s (fam 1) c d k = lam * sm (seq 0 n) (fun e => E e e) * delta c d + mu * (E c d + E d c)) as HK.
  { unfold hooke, elastic, thermal, pore, lame. destruct M as [B T]. rewrite B, P. destruct (in_dec _ _ _); [contradiction |]. cbn [andb].
    rewrite L1, M1. unfold sumd. rewrite D1. rewrite (sm_ext _ _ (fun e => E e e)); [unfold strain, E; field |]. intros e _. unfold strain, E. field. }
  rewrite HK. destruct N as [-> | ->].
  - assert (c = 0%nat) by lia. assert (d = 0%nat) by lia. subst c d.
    pose proof (dlim_poly 1 (E 0%nat 0%nat) 0 0) as G. pose proof (dlim_poly 1 0 0 0) as U.
    refine (dlim_eq _ _ _ _ _ (derivable_pt_lim_plus _ _ 0 _ _ (derivable_pt_lim_const mu 0) (dlim_lin lam mu _ _ _ _ (E 0%nat 0%nat) G ltac:(cbv beta; ring) U)) _ _).
    + intros t. destruct (H t) as [D' [L' [M' G']]]. unfold nh_stress. rewrite D'. cbn [Nat.eqb]. cbv zeta. rewrite nhF_is by lia.
      unfold defgrad. rewrite L', M', (G' 0%nat 0%nat) by lia. fold (E 0%nat 0%nat). unfold delta. cbn [Nat.eqb]. unfold plus_fct, fct_cte.
      replace (1 + E 0%nat 0%nat * t + 0 * (t * t) + 0 * (t * (t * t))) with (1 + t * E 0%nat 0%nat) by ring. unfold Rdiv. ring.
    + unfold sm, rsum, delta. cbn. ring.
  - set (I := fun a b => delta a b).
    assert (forall t, det 3 (defgrad (fam t) k) = 1 + (E 0%nat 0%nat + E 1%nat 1%nat + E 2%nat 2%nat) * t + frob 3 (cof E) I * (t * t) + det 3 E * (t * (t * t))) as DT.
    { intros t. destruct (H t) as [_ [_ [_ G']]]. rewrite frob_3. unfold det, defgrad. rewrite !G' by lia. unfold cof, I, delta, E. cbn [Nat.eqb]. ring. }
    pose proof (dlim_poly 1 (E 0%nat 0%nat + E 1%nat 1%nat + E 2%nat 2%nat) (frob 3 (cof E) I) (det 3 E)) as G.
    assert (exists m, derivable_pt_lim (fun t => cof (defgrad (fam t) k) c d) 0 m /\ cof (defgrad (fam 0) k) c d = I c d /\
      m = (E 0%nat 0%nat + E 1%nat 1%nat + E 2%nat 2%nat) * I c d - E d c) as [m [Hm [H0 Em]]].
    { eexists. split; [| split; [| reflexivity]].
      - refine (dlim_eq _ _ _ _ _ (dlim_poly (I c d) ((E 0%nat 0%nat + E 1%nat 1%nat + E 2%nat 2%nat) * I c d - E d c) (cof E c d) 0) _ eq_refl).
        intros t. destruct (H t) as [_ [_ [_ G']]]. comps c; comps d; unfold cof, defgrad; rewrite !G' by lia; unfold I, delta, E; cbn [Nat.eqb]; ring.
      - destruct (H 0) as [_ [_ [_ G']]]. comps c; comps d; unfold cof, defgrad; rewrite !G' by lia; unfold I, delta; cbn [Nat.eqb]; ring. }
    refine (dlim_eq _ _ _ _ _ (derivable_pt_lim_plus _ _ 0 _ _ (derivable_pt_lim_const (mu * I c d) 0) (dlim_lin lam mu _ _ _ _ (E c d) G ltac:(cbv beta; ring) Hm)) _ _).
    + intros t. destruct (H t) as [D' [L' [M' G']]]. rewrite (stress_3 _ _ _ _ D' C D), L', M', DT.
      unfold plus_fct, fct_cte. unfold defgrad at 1. rewrite (G' c d C D). fold (E c d). fold (I c d). unfold Rdiv. ring.
    + rewrite H0, Em. unfold sm, rsum, I. cbn [seq map fold_right]. ring.
Qed.
Print Assumptions C201_linear.

(** Rotating the deformed body rotates the stress with it. *)
Lemma mul3_eq A B c d : mul3 A B c d = A c 0%nat * B 0%nat d + A c 1%nat * B 1%nat d + A c 2%nat * B 2%nat d.
Proof. unfold mul3, sm, rsum. cbn. ring. Qed.
Lemma det_mul A B : det 3 (mul3 A B) = det 3 A * det 3 B.
Proof. unfold det. rewrite !mul3_eq. ring. Qed.
Lemma cof_mul A B c d : (c < 3)%nat -> (d < 3)%nat -> cof (mul3 A B) c d = mul3 (cof A) (cof B) c d.
Proof. intros C D. comps c; comps d; rewrite mul3_eq; unfold cof; rewrite !mul3_eq; ring. Qed.
(** cof(Q) Q^T = det(Q) I, entry by entry. *)
Lemma cof_adj Q c e : (c < 3)%nat -> (e < 3)%nat ->
  cof Q c 0%nat * Q e 0%nat + cof Q c 1%nat * Q e 1%nat + cof Q c 2%nat * Q e 2%nat = det 3 Q * delta c e.
Proof. intros C E. comps c; comps e; unfold cof, det, delta; cbn [Nat.eqb]; ring. Qed.
Lemma cof_rot Q c d : rotation Q -> (c < 3)%nat -> (d < 3)%nat -> cof Q c d = Q c d.
Proof.
  intros [O J] C D.
  assert (forall a b, (a < 3)%nat -> (b < 3)%nat -> Q 0%nat a * Q 0%nat b + Q 1%nat a * Q 1%nat b + Q 2%nat a * Q 2%nat b = delta a b) as O'.
  { intros a b A B. rewrite <- (O a b A B). unfold sm, rsum. cbn. ring. }
  transitivity (sm (seq 0 3) (fun e => sm (seq 0 3) (fun a => cof Q c a * Q e a) * Q e d)).
  - assert (sm (seq 0 3) (fun e => sm (seq 0 3) (fun a => cof Q c a * Q e a) * Q e d) =
      cof Q c 0%nat * (Q 0%nat 0%nat * Q 0%nat d + Q 1%nat 0%nat * Q 1%nat d + Q 2%nat 0%nat * Q 2%nat d) +
      cof Q c 1%nat * (Q 0%nat 1%nat * Q 0%nat d + Q 1%nat 1%nat * Q 1%nat d + Q 2%nat 1%nat * Q 2%nat d) +
      cof Q c 2%nat * (Q 0%nat 2%nat * Q 0%nat d + Q 1%nat 2%nat * Q 1%nat d + Q 2%nat 2%nat * Q 2%nat d)) as ->
      by (unfold sm, rsum; cbn [seq map fold_right]; ring).
    rewrite !O' by lia. unfold delta. comps d; cbn [Nat.eqb]; ring.
  - assert (forall e, (e < 3)%nat -> sm (seq 0 3) (fun a => cof Q c a * Q e a) = delta c e) as X.
    { intros e E. rewrite <- (Rmult_1_l (delta c e)), <- J, <- (cof_adj Q c e C E). unfold sm, rsum. cbn [seq map fold_right]. ring. }
    rewrite (sm_ext _ _ (fun e => delta c e * Q e d)); [| intros e He; apply in_seq in He; rewrite X by lia; reflexivity].
    unfold sm, rsum, delta. cbn [seq map fold_right]. comps c; cbn [Nat.eqb]; ring.
Qed.
Theorem C201_objective w w' k Q c d : dim w = 3%nat -> dim w' = 3%nat -> rotation Q ->
  fn w' "lambda" k = fn w "lambda" k -> fn w' "mu" k = fn w "mu" k ->
  (forall a b, (a < 3)%nat -> (b < 3)%nat -> defgrad w' k a b = mul3 Q (defgrad w k) a b) -> (c < 3)%nat -> (d < 3)%nat ->
  nh_stress w' c d k = mul3 Q (fun a b => nh_stress w a b k) c d.
Proof.
  intros D D' O L M H C E. rewrite (stress_3 w' k c d D' C E), mul3_eq, !(stress_3 w k) by (assumption || lia). rewrite L, M.
  assert (det 3 (defgrad w' k) = det 3 (defgrad w k)) as J.
  { transitivity (det 3 (mul3 Q (defgrad w k))); [unfold det; rewrite !H by lia; reflexivity |]. rewrite det_mul, (proj2 O). ring. }
  assert (cof (defgrad w' k) c d = mul3 Q (cof (defgrad w k)) c d) as K.
  { transitivity (cof (mul3 Q (defgrad w k)) c d); [comps c; comps d; unfold cof; rewrite !H by lia; reflexivity |].
    rewrite (cof_mul _ _ _ _ C E), !mul3_eq, !(cof_rot Q) by (assumption || lia). reflexivity. }
  rewrite J, K, (H c d C E), !mul3_eq. unfold Rdiv. ring.
Qed.
Print Assumptions C201_objective.
(** A stretch: J = 2, and a quarter turn. *)
Definition stretch (n : nat) : wks := bar n [] (fun s => if String.eqb s "grad(dx)[x]" then 1 else 0) (fun _ => 1) (fun _ => "Neumann"%string).
Example C201_stretched : forall n, n = 1%nat \/ n = 3%nat -> dim (stretch n) = n /\ det n (defgrad (stretch n) 0) = 2 /\
  nh_stress (stretch n) 0 0 0 = 2 + (ln 2 - 1) / 2.
Proof.
  intros n N. destruct N as [-> | ->]; (split; [reflexivity |]); split;
    [unfold det, defgrad, delta, grad; cbn; ring | unfold nh_stress; cbn; replace (1 + 1) with 2 by ring; field
    | unfold det, defgrad, delta, grad; cbn; ring | unfold nh_stress; cbn].
  replace ((1 + 1) * ((1 + 0) * (1 + 0) - 0 * 0) + 0 * (0 * 0 - 0 * (1 + 0)) + 0 * (0 * 0 - (1 + 0) * 0)) with 2 by ring. field.
Qed.
Example C201_quarter_turn : rotation (fun c d => match c, d with 0%nat, 1%nat => -1 | 1%nat, 0%nat => 1 | 2%nat, 2%nat => 1 | _, _ => 0 end).
Proof.
  split; [| unfold det; ring]. intros c d C D. comps c; comps d; unfold sm, rsum, delta; cbn; ring.
Qed.

(** *** C202 *)
Ltac dims_of w W D := destruct (dims w W) as [D | [D | D]].
(** - Div P = f, component by component, with whatever computeStress left; nothing else is touched. *)
Theorem C202_equations w : wf w -> solid_vars w ->
  (forall c, (c < dim w)%nat -> equation w (residual (nh_volume w)) (dsp c) (fun k => - load w c k) (fun d k => nh_stress w c d k)) /\
  only_rows w (residual (nh_volume w)) (solid_names w).
Proof.
  intros W V. split.
  - intros c C n i Hn Hi. rewrite residual_at. unfold nh_volume. cbv zeta.
    dims_of w W D; rewrite D in *; cbn [Nat.eqb];
      (destruct (solid_pos w 0 V ltac:(lia)) as [x Hx]); try (destruct (solid_pos w 1 V ltac:(lia)) as [y Hy]);
      try (destruct (solid_pos w 2 V ltac:(lia)) as [z Hz]); unfold dsp, axis in *; cbn [append] in *;
      repeat match goal with H : is_var w ?n ?s |- context [var_num w ?s 0] => rewrite (var_num_is w n s 0 W H) end;
      comps c; try lia;
      match goal with
      | Hn : is_var w n "dx" |- _ => pose proof (is_var_uniq w n x _ W Hn Hx)
      | Hn : is_var w n "dy" |- _ => pose proof (is_var_uniq w n y _ W Hn Hy)
      | Hn : is_var w n "dz" |- _ => pose proof (is_var_uniq w n z _ W Hn Hz)
      end; subst n; rows W Hi; unfold weak, integral; apply sm_ext; intros k _;
      rewrite ?(sumd_1 w _ D), ?(sumd_2 w _ D), ?(sumd_3 w _ D); names; ring.
  - intros n v i Hn Hv Hi. rewrite residual_at. unfold nh_volume. cbv zeta. unfold solid_names in Hv.
    dims_of w W D; rewrite D in *; cbn [Nat.eqb];
      (destruct (solid_pos w 0 V ltac:(lia)) as [x Hx]); try (destruct (solid_pos w 1 V ltac:(lia)) as [y Hy]);
      try (destruct (solid_pos w 2 V ltac:(lia)) as [z Hz]); unfold dsp, axis in *; cbn [append] in *; cbn in Hv;
      repeat match goal with H : is_var w ?n ?s |- context [var_num w ?s 0] => rewrite (var_num_is w n s 0 W H) end;
      try (assert (n <> x) by (intros ->; apply Hv; pose proof (is_var_inj _ _ _ _ Hn Hx); subst; auto));
      try (assert (n <> y) by (intros ->; apply Hv; pose proof (is_var_inj _ _ _ _ Hn Hy); subst; auto));
      try (assert (n <> z) by (intros ->; apply Hv; pose proof (is_var_inj _ _ _ _ Hn Hz); subst; auto));
      rewrite ?at_row_app;
      repeat match goal with |- context [at_row _ (fill w ?b ?m ?f)] =>
        rewrite (fill_other w b f n m i W (is_var_lt _ _ _ Hn) ltac:(lt_var) Hi ltac:(assumption) eq_refl) end; ring.
Qed.
Print Assumptions C202_equations.
(** The internal forces on the whole element balance the load. *)
Theorem C202_balance w c n : wf w -> solid_vars w -> (c < dim w)%nat -> is_var w n (dsp c) -> unity w (usebasis w n) ->
  total w (residual (nh_volume w)) n = - integral w (load w c).
Proof.
  intros W V C Hn U. rewrite integral_opp. apply total_weak with (F := fun d k => nh_stress w c d k); [exact U |].
  intros i Hi. apply (C202_equations w W V); assumption.
Qed.
Print Assumptions C202_balance.
(** Tested with a virtual displacement u: the first variation of the energy stored in the element,
    less the work of the load (one and three dimensions). *)
Theorem C202_virtual_work w num u (du : nat -> nat -> R) (dgu : nat -> nat -> nat -> R) : wf w -> solid_vars w -> dim w <> 2%nat ->
  (forall k, (k < npts w)%nat -> 0 < det (dim w) (defgrad w k)) ->
  (forall c, (c < dim w)%nat -> is_var w (num c) (dsp c) /\ forall k, (k < npts w)%nat ->
     du c k = sm (seq 0 (nbas w (usebasis w (num c)))) (fun i => u c i * bas w (usebasis w (num c)) i k) /\
     forall d, (d < dim w)%nat -> dgu c d k = sm (seq 0 (nbas w (usebasis w (num c)))) (fun i => u c i * bgr w (usebasis w (num c)) i k d)) ->
  exists dW, (forall k, (k < npts w)%nat ->
      derivable_pt_lim (fun t => stored (dim w) (fn w "lambda" k) (fn w "mu" k) (fun c d => defgrad w k c d + t * dgu c d k)) 0 (dW k)) /\
    sumd w (fun c => tested w (residual (nh_volume w)) (num c) (u c)) =
    integral w (fun k => dW k - sumd w (fun c => load w c k * du c k)).
Proof.
  intros W V D2 J H. exists (fun k => frob (dim w) (fun c d => nh_stress w c d k) (fun c d => dgu c d k)). split.
  - intros k K. apply (C201_energy w k); [pose proof (wf_dim w W); lia | apply J; exact K].
  - rewrite (sumd_ext w _ (fun c => integral w (fun k => - load w c k * du c k + sumd w (fun d => nh_stress w c d k * dgu c d k)))).
    + unfold sumd at 1. rewrite integral_sum. apply integral_ext. intros k K. unfold frob. fold (sumd w).
      change (sm (seq 0 (dim w))) with (sumd w).
      dims_of w W D; rewrite ?(sumd_1 _ _ D), ?(sumd_2 _ _ D), ?(sumd_3 _ _ D), ?(sumd_1 _ _ D), ?(sumd_2 _ _ D), ?(sumd_3 _ _ D); ring.
    + intros c C. destruct (H c C) as [Hn X].
      rewrite (tested_weak w _ (num c) (u c) (fun k => - load w c k) (fun d k => nh_stress w c d k) _ eq_refl).
      * apply integral_ext. intros k K. destruct (X k K) as [X0 X1]. rewrite X0. f_equal. apply sumd_ext. intros d E. rewrite (X1 d E). reflexivity.
      * intros i Hi. apply (C202_equations w W V); assumption.
Qed.
Print Assumptions C202_virtual_work.
Example C202_nontrivial : wf (stretch 3) /\ solid_vars (stretch 3) /\ residual (nh_volume (stretch 3)) 1 <> 0.
Proof.
  split; [apply bar_wf; [lia | distinct] |]. split; [apply bar_vars; lia |].
  unfold residual, scatter, nh_volume. cbn. unfold nh_stress. cbn.
  match goal with |- ?x <> 0 => replace x with (2 + (ln 2 - 1) / 2 - 1 / 2) end.
  - assert (0 < ln 2) by (rewrite <- ln_1; apply ln_increasing; lra). lra.
  - replace ((1 + 1) * ((1 + 0) * (1 + 0) - 0 * 0) + 0 * (0 * 0 - 0 * (1 + 0)) + 0 * (0 * 0 - (1 + 0) * 0)) with 2 by ring. field.
Qed.

(** *** C203 *)
Definition cof2 (F : nat -> nat -> R) (c d : nat) : R :=
  match c, d with
  | 0%nat, 0%nat => F 1%nat 1%nat | 0%nat, 1%nat => - F 1%nat 0%nat
  | 1%nat, 0%nat => - F 0%nat 1%nat | 1%nat, 1%nat => F 0%nat 0%nat | _, _ => 0
  end.
Lemma stress_of_energy_2 lam mu F : 0 < det 2 F ->
  is_stress 2 lam mu F (fun c d => mu * F c d + (lam * ln (det 2 F) - mu) / det 2 F * cof2 F c d).
Proof.
  intros P E.
  assert (derivable_pt_lim (fun t => det 2 (fun c d => F c d + t * E c d)) 0 (frob 2 (cof2 F) E)) as G.
  { refine (dlim_eq _ _ _ _ _ (dlim_poly (det 2 F) (frob 2 (cof2 F) E) (det 2 E) 0) _ eq_refl). intros t. rewrite frob_2. unfold det, cof2. ring. }
  assert (det 2 (fun c d => F c d + 0 * E c d) = det 2 F) as Z by (unfold det; ring).
  assert (0 < det 2 (fun c d => F c d + 0 * E c d)) as P' by (rewrite Z; exact P).
  refine (dlim_eq _ _ _ _ _ (derivable_pt_lim_plus _ _ 0 _ _ (dlim_poly (mu / 2 * (frob 2 F F - 3)) (mu * frob 2 F E)
    (mu / 2 * frob 2 E E) 0) (dlim_vol lam mu _ _ G P')) _ _).
  - intros t. unfold stored, plus_fct. set (dd := det 2 _). rewrite !frob_2. field.
  - cbv beta. rewrite Z, !frob_2. field. lra.
Qed.
Lemma stress_2 w k c d : dim w = 2%nat -> (c < 2)%nat -> (d < 2)%nat ->
  nh_stress w c d k = fn w "mu" k * defgrad w k c d
    + (fn w "lambda" k * ln (det 2 (defgrad w k)) - fn w "mu" k) / det 2 (defgrad w k) * cof2 (defgrad w k) d c.
Proof.
  intros D C E. unfold nh_stress. rewrite D. cbn [Nat.eqb]. cbv zeta. rewrite !nhF_is by lia. comps c; try lia; comps d; try lia; reflexivity.
Qed.
(** Missing in general: what is proved is the case of a symmetric deformation gradient (no
    rotation), where the transposed cofactors are the cofactors. *)
Theorem C203_energy_partial w k : dim w = 2%nat -> 0 < det 2 (defgrad w k) -> defgrad w k 0 1 = defgrad w k 1 0 ->
  is_stress 2 (fn w "lambda" k) (fn w "mu" k) (defgrad w k) (fun c d => nh_stress w c d k).
Proof.
  intros D P S E. refine (dlim_eq _ _ _ _ _ (stress_of_energy_2 _ _ _ P E) (fun _ => eq_refl) _).
  rewrite !frob_2, !(stress_2 w k) by (assumption || lia). unfold cof2. rewrite S. ring.
Qed.
Print Assumptions C203_energy_partial.
Definition shear : wks := bar 2 [] (fun s => if String.eqb s "grad(dx)[y]" then 1 else 0) (fun _ => 1) (fun _ => "Neumann"%string).
Theorem C203_energy_refuted : exists w k, wf w /\ solid_vars w /\ dim w = 2%nat /\ 0 < det 2 (defgrad w k) /\
  ~ is_stress 2 (fn w "lambda" k) (fn w "mu" k) (defgrad w k) (fun c d => nh_stress w c d k).
Proof.
  exists shear, 0%nat. split; [apply bar_wf; [lia | distinct] |]. split; [apply bar_vars; lia |]. split; [reflexivity |].
  assert (det 2 (defgrad shear 0) = 1) as J by (unfold det, defgrad, delta, grad; cbn; ring). rewrite J. split; [lra |]. intros X.
  set (E := fun c d : nat => if ((c =? 0) && (d =? 1))%nat%bool then 1 else 0).
  assert (0 < det 2 (defgrad shear 0)) as P by (rewrite J; lra).
  pose proof (uniqueness_limite _ _ _ _ (X E) (stress_of_energy_2 _ _ _ P E)) as U.
  rewrite !frob_2, !(stress_2 shear 0) in U by (reflexivity || lia). rewrite J, ln_1 in U.
  unfold E, cof2, defgrad, delta, grad in U. cbn in U. lra.
Qed.
Print Assumptions C203_energy_refuted.
(** A rigid rotation (a quarter turn) is not free of stress. *)
Theorem C203_rotation_refuted : exists w k, wf w /\ solid_vars w /\ dim w = 2%nat /\ det 2 (defgrad w k) = 1 /\
  (forall c d, (c < 2)%nat -> (d < 2)%nat -> defgrad w k 0 c * defgrad w k 0 d + defgrad w k 1 c * defgrad w k 1 d = delta c d) /\
  0 < fn w "mu" k /\ nh_stress w 0 1 k = -2 * fn w "mu" k.
Proof.
  exists (bar 2 [] (fun s => if String.eqb s "grad(dx)[x]" then -1 else if String.eqb s "grad(dy)[y]" then -1
    else if String.eqb s "grad(dx)[y]" then -1 else if String.eqb s "grad(dy)[x]" then 1 else 0) (fun _ => 1) (fun _ => "Neumann"%string)), 0%nat.
  split; [apply bar_wf; [lia | distinct] |]. split; [apply bar_vars; lia |]. split; [reflexivity |].
  split; [unfold det, defgrad, delta, grad; cbn; ring |].
  split; [intros c d C D; comps c; try lia; comps d; try lia; unfold defgrad, delta, grad; cbn; ring |]. split; [cbn; lra |].
  unfold nh_stress; cbn. replace ((1 + -1) * (1 + -1) - -1 * 1) with 1 by ring. rewrite ln_1. field.
Qed.
Print Assumptions C203_rotation_refuted.
(** Nor is it linear elasticity for small displacements: the shear stress of a shear is twice it. *)
Theorem C203_linear_refuted : exists s (fam : R -> wks), mechanical s (fam 1) /\ incplanestress s = false /\
  (forall t, wf (fam t) /\ solid_vars (fam t) /\ dim (fam t) = 2%nat /\ fn (fam t) = fn (fam 1) /\
     forall a b, (a < 2)%nat -> (b < 2)%nat -> grad (fam t) (dsp a) b 0 = t * grad (fam 1) (dsp a) b 0) /\
  derivable_pt_lim (fun t => nh_stress (fam t) 0 1 0) 0 (2 * hooke s (fam 1) 0 1 0) /\ hooke s (fam 1) 0 1 0 <> 0.
Proof.
  exists soft, (fun t => bar 2 [] (fun s => if String.eqb s "grad(dx)[y]" then t else 0) (fun _ => 1) (fun _ => "Neumann"%string)).
  split; [split; [reflexivity | cbn; intuition discriminate] |]. split; [reflexivity |]. split.
  - intros t. split; [apply bar_wf; [lia | distinct] |]. split; [apply bar_vars; lia |]. split; [reflexivity |]. split; [reflexivity |].
    intros a b A B. comps a; try lia; comps b; try lia; cbn; ring.
  - assert (hooke soft (bar 2 [] (fun s => if String.eqb s "grad(dx)[y]" then 1 else 0) (fun _ => 1) (fun _ => "Neumann"%string)) 0 1 0 = 1) as H
      by (unfold hooke, elastic, thermal, pore, strain, sumd, delta, lame, grad, sm, rsum; cbn; field).
    rewrite H. split; [| lra].
    refine (dlim_eq _ _ _ _ _ (dlim_poly 0 2 0 0) _ _); [| ring]. intros t. unfold nh_stress; cbn.
    replace ((1 + 0) * (1 + 0) - t * 0) with 1 by ring. rewrite ln_1. field.
Qed.
Print Assumptions C203_linear_refuted.

(** *** C204 *)
Definition cauchy (w : wks) (k c d : nat) : R := / det 3 (defgrad w k) * sm (seq 0 3) (fun e => nh_stress w c e k * defgrad w k d e).
Lemma cauchy_is w k c d : dim w = 3%nat -> (c < 3)%nat -> (d < 3)%nat -> nh_cauchy w c d k = cauchy w k c d.
Proof.
  intros D C E. unfold nh_cauchy, cauchy. rewrite D. cbn [Nat.eqb]. cbv zeta. rewrite !nhF_is by lia.
  unfold sm, rsum, det. cbn [seq map fold_right]. unfold Rdiv. ring.
Qed.
(** The Cauchy stress of the stress used is symmetric: mu (b - 1) + lambda ln J 1, over J. *)
Theorem C204_cauchy w k c d : dim w = 3%nat -> 0 < det 3 (defgrad w k) -> (c < 3)%nat -> (d < 3)%nat ->
  cauchy w k c d = cauchy w k d c /\
  cauchy w k c d = / det 3 (defgrad w k) * (fn w "mu" k * (sm (seq 0 3) (fun e => defgrad w k c e * defgrad w k d e) - delta c d)
    + fn w "lambda" k * ln (det 3 (defgrad w k)) * delta c d).
Proof.
  intros D P C E.
  assert (forall c d, (c < 3)%nat -> (d < 3)%nat -> cauchy w k c d = / det 3 (defgrad w k) *
    (fn w "mu" k * (sm (seq 0 3) (fun e => defgrad w k c e * defgrad w k d e) - delta c d) + fn w "lambda" k * ln (det 3 (defgrad w k)) * delta c d)) as X.
  { clear c d C E. intros c d C E. unfold cauchy. f_equal.
    transitivity (fn w "mu" k * sm (seq 0 3) (fun e => defgrad w k c e * defgrad w k d e) + (fn w "lambda" k * ln (det 3 (defgrad w k)) - fn w "mu" k) / det 3 (defgrad w k) *
      (cof (defgrad w k) c 0%nat * defgrad w k d 0%nat + cof (defgrad w k) c 1%nat * defgrad w k d 1%nat + cof (defgrad w k) c 2%nat * defgrad w k d 2%nat)).
    - unfold sm, rsum. cbn [seq map fold_right]. rewrite !(stress_3 w k) by (assumption || lia). ring.
    - rewrite cof_adj by assumption. field. lra. }
  split; [| apply X; assumption]. rewrite !X by assumption. f_equal. f_equal; f_equal.
  - f_equal; [| unfold delta; rewrite Nat.eqb_sym; reflexivity]. apply sm_ext. intros e _. ring.
  - unfold delta; rewrite Nat.eqb_sym; reflexivity.
Qed.
Print Assumptions C204_cauchy.
Theorem C204_von_mises w k : dim w = 3%nat -> 0 < det 3 (defgrad w k) ->
  0 <= nh_vm w k /\ nh_vm w k * nh_vm w k = 3 / 2 * sq3 (deviator (cauchy w k) (trace w (cauchy w k))).
Proof.
  intros D P. unfold nh_vm. rewrite D. cbn [Nat.eqb]. cbv zeta. split; [apply sqrt_pos |]. rewrite !cauchy_is by (assumption || lia).
  rewrite sqrt_sqrt.
  - unfold sq3, deviator, trace, sm, rsum. cbn [map fold_right]. rewrite (sumd_3 w _ D).
    rewrite (proj1 (C204_cauchy w k 1 0 D P ltac:(lia) ltac:(lia))), (proj1 (C204_cauchy w k 2 0 D P ltac:(lia) ltac:(lia))),
      (proj1 (C204_cauchy w k 2 1 D P ltac:(lia) ltac:(lia))). unfold delta. cbn [Nat.eqb seq map fold_right]. field.
  - assert (forall x, 0 <= x * x) as SQ by (intros; apply Rle_0_sqr).
    repeat match goal with |- context [?x * ?x] => lazymatch goal with _ : 0 <= x * x |- _ => fail | _ => pose proof (SQ x) end end. lra.
Qed.
Print Assumptions C204_von_mises.
Theorem C204_uniaxial w k : dim w = 1%nat -> 0 < det 1 (defgrad w k) ->
  nh_vm w k = Rabs (nh_stress w 0 0 k) /\ nh_mag w k = Rabs (nh_stress w 0 0 k).
Proof.
  intros D P. unfold nh_vm, nh_mag. rewrite D. cbn [Nat.eqb]. cbv zeta. rewrite nhF_is by lia. cbn [det] in P.
  replace (nh_stress w 0 0 k * defgrad w k 0 0 / defgrad w k 0 0) with (nh_stress w 0 0 k) by (field; lra).
  change (nh_stress w 0 0 k * nh_stress w 0 0 k) with (Rsqr (nh_stress w 0 0 k)). rewrite sqrt_Rsqr_abs. auto.
Qed.
Print Assumptions C204_uniaxial.
Example C204_nontrivial : dim (stretch 3) = 3%nat /\ 0 < det 3 (defgrad (stretch 3) 0) /\ cauchy (stretch 3) 0 0 0 <> cauchy (stretch 3) 0 1 1.
Proof.
  assert (det 3 (defgrad (stretch 3) 0) = 2) as J by (unfold det, defgrad, delta, grad; cbn; ring).
  split; [reflexivity |]. split; [lra |].
  assert (0 < det 3 (defgrad (stretch 3) 0)) as P by (rewrite J; lra).
  rewrite (proj2 (C204_cauchy (stretch 3) 0 0 0 eq_refl P ltac:(lia) ltac:(lia))), (proj2 (C204_cauchy (stretch 3) 0 1 1 eq_refl P ltac:(lia) ltac:(lia))), J.
  unfold sm, rsum, defgrad, delta, grad. cbn. lra.
Qed.

(** *** C205 *)
(** Terms of a weakly imposed displacement g for component c: traction and penalty. *)
Definition nh_wd_a (s : nh_set) (w : wks) (g : nat -> R) (c k : nat) : R :=
  nh_penalty s * (fn w "lambda" k + 2 * fn w "mu" k) / hel w * (fld w (dsp c) k - g k)
  - traction (fun c d => nh_stress w c d k) w c k.
(** What the kind of the side prescribes for a component: nothing, a traction or a displacement. *)
Definition prescribed (w : wks) (n c : nat) (g : nat -> R) : Prop :=
  bcs w n = "weak Dirichlet"%string /\ g = fn w (given w c) \/ bcs w n = "interface"%string /\ g = fld w ("aux " ++ dsp c)%string.

Lemma nh_wd_row s w g c n i : wf w -> (c < dim w)%nat -> is_var w n (dsp c) -> (i < nbas w (usebasis w n))%nat ->
  at_row (offs w n i) (nh_wd s w c g) = integral w (fun k => nh_wd_a s w g c k * bas w (usebasis w n) i k).
Proof.
  intros W C Hn Hi. unfold nh_wd. cbv zeta. rewrite le_comp_is, (var_num_is w n _ 0 W Hn).
  rewrite (fill_own w n _ n i W (is_var_lt _ _ _ Hn) Hi eq_refl). unfold integral. apply sm_ext. intros k _.
  unfold nh_wd_a, traction. dims_of w W D; rewrite ?D; cbn [Nat.eqb]; rewrite ?(sumd_1 _ _ D), ?(sumd_2 _ _ D), ?(sumd_3 _ _ D);
    unfold normal, bracket, axis; cbn [append]; unfold Rdiv; ring.
Qed.
Lemma nh_side_other s w c n v i : wf w -> solid_vars w -> (c < dim w)%nat -> is_var w n v -> v <> dsp c -> (i < nbas w (usebasis w n))%nat ->
  at_row (offs w n i) (nh_side s w c) = 0.
Proof.
  intros W V C Hn NE Hi. destruct (solid_pos w c V C) as [m Hm].
  assert (n <> m) as NM by (intros ->; apply NE; eapply is_var_inj; eassumption).
  pose proof (is_var_lt _ _ _ Hn). pose proof (is_var_lt _ _ _ Hm).
  unfold nh_side, nh_wd. cbv zeta. rewrite le_comp_is, (var_num_is w m _ 0 W Hm), !at_row_if, at_row_nil.
  rewrite !fill_self_other by assumption; repeat match goal with |- context [if ?b then _ else _] => destruct b end; reflexivity.
Qed.
Lemma nh_boundary_row s w c n i : wf w -> solid_vars w -> (c < dim w)%nat -> is_var w n (dsp c) -> (i < nbas w (usebasis w n))%nat ->
  residual (nh_boundary s w) (offs w n i) = at_row (offs w n i) (nh_side s w c).
Proof.
  intros W V C Hn Hi. rewrite residual_at. unfold nh_boundary.
  assert (forall c', (c' < dim w)%nat -> c <> c' -> at_row (offs w n i) (nh_side s w c') = 0) as O.
  { intros c' C' NE. apply (nh_side_other s w c' n (dsp c)); try assumption. pose proof (wf_dim w W).
    unfold dsp, axis. comps c; comps c'; cbn; congruence || lia. }
  destruct (negb _ || negb _ || negb _)%bool eqn:T.
  - dims_of w W D; rewrite D; cbn [Nat.eqb]; rewrite ?at_row_app; rewrite D in *;
      comps c; try lia; rewrite ?(O 0%nat), ?(O 1%nat), ?(O 2%nat) by lia; ring.
  - pose proof (wf_dim w W). apply orb_false_elim in T. destruct T as [T T2].
    apply orb_false_elim in T. destruct T as [T0 T1]. apply negb_false_iff in T0, T1, T2. rewrite at_row_nil. unfold nh_side.
    assert (String.eqb (le_type w c) "Dirichlet" = true) as E by (comps c; assumption). apply String.eqb_eq in E. rewrite E. reflexivity.
Qed.
(** Component by component, whatever the kinds of the other components. *)
Theorem C205_boundary_terms s w c n i : wf w -> solid_vars w -> (c < dim w)%nat -> is_var w n (dsp c) -> (i < nbas w (usebasis w n))%nat ->
  (bcs w n = "Neumann"%string -> residual (nh_boundary s w) (offs w n i) =
     - integral w (fun k => fn w (applied w c) k * bas w (usebasis w n) i k)) /\
  (forall g, prescribed w n c g -> residual (nh_boundary s w) (offs w n i) =
     integral w (fun k => nh_wd_a s w g c k * bas w (usebasis w n) i k)) /\
  (bcs w n <> "Neumann"%string -> bcs w n <> "weak Dirichlet"%string -> bcs w n <> "interface"%string ->
     residual (nh_boundary s w) (offs w n i) = 0).
Proof.
  intros W V C Hn Hi. rewrite (nh_boundary_row s w c n i W V C Hn Hi). unfold nh_side. cbv zeta.
  rewrite (le_type_is w c n W C Hn), le_comp_is, (var_num_is w n _ 0 W Hn). split; [| split].
  - intros B. rewrite B. cbn [String.eqb Ascii.eqb Bool.eqb]. rewrite (fill_own w n _ n i W (is_var_lt _ _ _ Hn) Hi eq_refl).
    rewrite integral_opp. unfold integral, applied. apply sm_ext. intros k _. ring.
  - intros g [[B ->] | [B ->]]; rewrite B; cbn [String.eqb Ascii.eqb Bool.eqb]; apply nh_wd_row; assumption.
  - intros B1 B2 B3. apply String.eqb_neq in B1, B2, B3. rewrite B1, B2, B3, at_row_nil. reflexivity.
Qed.
Print Assumptions C205_boundary_terms.
(** Nothing is added to the rows of other variables. *)
Theorem C205_only_displacements s w : wf w -> solid_vars w -> only_rows w (residual (nh_boundary s w)) (solid_names w).
Proof.
  intros W V n v i Hn Hv Hi. rewrite residual_at. unfold nh_boundary. destruct (_ || _)%bool; [| apply at_row_nil].
  assert (forall c, (c < dim w)%nat -> at_row (offs w n i) (nh_side s w c) = 0) as O.
  { intros c C. apply (nh_side_other s w c n v i W V C Hn); [| exact Hi]. intros ->. apply Hv. unfold solid_names. apply in_map, in_seq. lia. }
  dims_of w W D; rewrite D; cbn [Nat.eqb]; rewrite ?at_row_app, ?(O 0%nat), ?(O 1%nat), ?(O 2%nat) by lia; ring.
Qed.
Print Assumptions C205_only_displacements.
(** Where the displacement has the given values only the traction is left; where the traction
    is the applied one, the term of the side is the traction too. *)
Theorem C205_consistent s w c n i : wf w -> solid_vars w -> (c < dim w)%nat -> is_var w n (dsp c) -> (i < nbas w (usebasis w n))%nat ->
  (exists g, prescribed w n c g /\ forall k, (k < npts w)%nat -> fld w (dsp c) k = g k) \/
  bcs w n = "Neumann"%string /\ (forall k, (k < npts w)%nat -> fn w (applied w c) k = traction (fun a b => nh_stress w a b k) w c k) ->
  residual (nh_boundary s w) (offs w n i) =
  - integral w (fun k => traction (fun a b => nh_stress w a b k) w c k * bas w (usebasis w n) i k).
Proof.
  intros W V C Hn Hi H. destruct (C205_boundary_terms s w c n i W V C Hn Hi) as [A [B _]].
  destruct H as [[g [G E]] | [N E]].
  - rewrite (B g G), integral_opp. apply integral_ext. intros k K. unfold nh_wd_a. rewrite (E k K). ring.
  - rewrite (A N), !integral_opp. apply integral_ext. intros k K. rewrite (E k K). reflexivity.
Qed.
Print Assumptions C205_consistent.
(** The flux handed to the coarse scale is what the side terms take from the element as a whole. *)
Theorem C205_flux s u old w g c n : wf w -> solid_vars w -> (c < dim w)%nat -> is_var w n (dsp c) -> prescribed w n c g -> unity w (usebasis w n) ->
  total w (residual (nh_boundary s w)) n = - integral w (fun k => nh_flux s u old w c k).
Proof.
  intros W V C Hn G U. rewrite (total_weak w n (nh_wd_a s w g c) (fun _ _ => 0)); [| exact U |].
  2:{ intros i Hi. rewrite (proj1 (proj2 (C205_boundary_terms s w c n i W V C Hn Hi)) g G). apply integral_ext. intros k K.
      rewrite sumd_zero; [ring |]. intros d D. ring. }
  rewrite integral_opp. apply integral_ext. intros k _. unfold nh_wd_a, traction, nh_flux, nh_flux_source. cbv zeta.
  rewrite (le_type_is w c n W C Hn), le_comp_is.
  destruct G as [[B ->] | [B ->]]; rewrite B; cbn [String.eqb Ascii.eqb Bool.eqb orb]; unfold given;
    dims_of w W D; rewrite D in *; cbn [Nat.eqb]; rewrite ?(sumd_1 _ _ D), ?(sumd_2 _ _ D), ?(sumd_3 _ _ D);
    unfold normal, bracket, axis; cbn [append]; unfold Rdiv; ring.
Qed.
Print Assumptions C205_flux.
Definition clamp1 : wks := bar 2 [] (fun s => if String.eqb s "dx" then 1 else if String.eqb s "n[x]" then 1 else if String.eqb s "grad(dx)[x]" then 1 else 0)
  (fun s => if String.eqb s (given (bar 2 [] (fun _ => 0) (fun _ => 0) (fun _ => ""%string)) 0) then 3 else 1) (fun n => if (n =? 0)%nat then "weak Dirichlet"%string else "Neumann"%string).
Example C205_nontrivial : wf clamp1 /\ solid_vars clamp1 /\ is_var clamp1 0 (dsp 0) /\ prescribed clamp1 0 0 (fun _ => 3) /\ unity clamp1 0.
Proof.
  split; [apply bar_wf; [lia | distinct] |]. split; [apply bar_vars; lia |]. split; [reflexivity |]. split; [left; split; reflexivity |].
  intros k K. split; [unfold sm, rsum; cbn; field |]. intros d D. unfold sm, rsum; cbn; ring.
Qed.

(** *** C206 *)
(** On a side with a given traction the flux is not the traction. *)
Theorem C206_flux_refuted : exists s u old w n, wf w /\ solid_vars w /\ is_var w n (dsp 0) /\ bcs w n = "Neumann"%string /\
  (forall k, (k < npts w)%nat -> traction (fun a b => nh_stress w a b k) w 0 k = fn w (applied w 0) k) /\
  exists k, (k < npts w)%nat /\ nh_flux s u old w 0 k <> fn w (applied w 0) k.
Proof.
  exists {| nh_form := 1; nh_penalty := 10 |}, (fun _ => 1), (fun _ => 0), (bar 1 [] (fun s => if String.eqb s "n[x]" then 1 else 0)
    (fun s => if String.eqb s "lambda" then 1 else if String.eqb s "mu" then 1 else 0) (fun _ => "Neumann"%string)), 0%nat.
  split; [apply bar_wf; [lia | distinct] |]. split; [apply bar_vars; lia |]. split; [reflexivity |]. split; [reflexivity |]. split.
  - intros k _. unfold traction, normal, nh_stress, sumd, sm, rsum. cbn. unfold rsum; cbn; replace (1 + 0) with 1 by ring; rewrite ln_1. field.
  - exists 0%nat. split; [cbn; lia |]. unfold nh_flux, nh_flux_source, le_type, nh_stress. cbn. replace (1 + 0) with 1 by ring. rewrite ln_1.
    match goal with |- ?x <> _ => replace x with 30 by field end. lra.
Qed.
Print Assumptions C206_flux_refuted.
(** The stress magnitude leaves out the shear stresses (proved: it is the norm without them). *)
Theorem C206_magnitude_partial w k : dim w = 3%nat -> 0 < det 3 (defgrad w k) ->
  (forall c d, (c < 3)%nat -> (d < 3)%nat -> c <> d -> cauchy w k c d = 0) -> nh_mag w k = sqrt (sq3 (cauchy w k)).
Proof.
  intros D P Z. unfold nh_mag. rewrite D. cbn [Nat.eqb]. cbv zeta. rewrite !cauchy_is by (assumption || lia). f_equal.
  unfold sq3, sm, rsum. cbn [map fold_right].
  rewrite (Z 0%nat 1%nat), (Z 0%nat 2%nat), (Z 1%nat 0%nat), (Z 1%nat 2%nat), (Z 2%nat 0%nat), (Z 2%nat 1%nat) by lia. ring.
Qed.
Print Assumptions C206_magnitude_partial.
Theorem C206_magnitude_refuted : exists w k, wf w /\ solid_vars w /\ dim w = 3%nat /\ 0 < det 3 (defgrad w k) /\
  nh_mag w k * nh_mag w k <> sq3 (cauchy w k).
Proof.
  set (w := bar 3 [] (fun s => if String.eqb s "grad(dx)[y]" then 1 else 0) (fun _ => 1) (fun _ => "Neumann"%string)).
  assert (det 3 (defgrad w 0) = 1) as J by (unfold det, defgrad, delta, grad; cbn; ring).
  assert (0 < det 3 (defgrad w 0)) as P by (rewrite J; lra).
  exists w, 0%nat. split; [apply bar_wf; [lia | distinct] |]. split; [apply bar_vars; lia |]. split; [reflexivity |]. split; [exact P |].
  unfold nh_mag. cbn [dim w bar Nat.eqb]. cbv zeta. fold w. rewrite !(cauchy_is w 0) by (reflexivity || lia).
  rewrite sqrt_sqrt by (repeat apply Rplus_le_le_0_compat; apply Rle_0_sqr).
  unfold sq3. rewrite ?sm_cons, ?sm_nil. unfold sm at 1, rsum. cbn [map fold_right].
  unfold sm, rsum. cbn [map fold_right].
  rewrite !(proj2 (C204_cauchy w 0 0 0 eq_refl P ltac:(lia) ltac:(lia))), !(proj2 (C204_cauchy w 0 0 1 eq_refl P ltac:(lia) ltac:(lia))),
    !(proj2 (C204_cauchy w 0 0 2 eq_refl P ltac:(lia) ltac:(lia))), !(proj2 (C204_cauchy w 0 1 0 eq_refl P ltac:(lia) ltac:(lia))),
    !(proj2 (C204_cauchy w 0 1 1 eq_refl P ltac:(lia) ltac:(lia))), !(proj2 (C204_cauchy w 0 1 2 eq_refl P ltac:(lia) ltac:(lia))),
    !(proj2 (C204_cauchy w 0 2 0 eq_refl P ltac:(lia) ltac:(lia))), !(proj2 (C204_cauchy w 0 2 1 eq_refl P ltac:(lia) ltac:(lia))),
    !(proj2 (C204_cauchy w 0 2 2 eq_refl P ltac:(lia) ltac:(lia))), J, ln_1.
  unfold sm, rsum, defgrad, delta, grad. cbn. rewrite Rinv_1. lra.
Qed.
Print Assumptions C206_magnitude_refuted.

(** *** C207 *)
Definition mom (d : nat) : string := ("v" ++ axis d)%string.
Definition dyn_vars (w : wks) : Prop := solid_vars w /\ forall d, (d < dim w)%nat -> In (mom d) (varlist w).
Definition dyn_names (w : wks) : list string := (solid_names w ++ map mom (seq 0 (dim w)))%list.
Lemma mom_pos w c : dyn_vars w -> (c < dim w)%nat -> exists n, is_var w n (mom c).
Proof. intros [_ V] C. apply In_nth_error, V, C. Qed.
Ltac var_at w W V D :=
  (destruct (solid_pos w 0 (proj1 V) ltac:(lia)) as [x Hx]); (destruct (mom_pos w 0 V ltac:(lia)) as [p Hp]);
  try (destruct (solid_pos w 1 (proj1 V) ltac:(lia)) as [y Hy]; destruct (mom_pos w 1 V ltac:(lia)) as [q Hq]);
  try (destruct (solid_pos w 2 (proj1 V) ltac:(lia)) as [z Hz]; destruct (mom_pos w 2 V ltac:(lia)) as [r Hr]);
  unfold dsp, mom, axis in *; cbn [append] in *;
  repeat match goal with H : is_var w ?n ?s |- context [var_num w ?s 0] => rewrite (var_num_is w n s 0 W H) end.
Ltac rows_sb UB W Hi :=
  rewrite ?at_row_app;
  match type of UB with usebasis ?w ?q = usebasis ?w ?p =>
    match goal with |- context [at_row (offs w ?n ?i) (fill w q p ?f)] =>
      first [rewrite (fill_own w q f n i W ltac:(lt_var) Hi UB) | rewrite (fill_other w q f n p i W ltac:(lt_var) ltac:(lt_var) Hi ltac:(differ) UB)] end end.
Ltac same w W n :=
  match goal with A : is_var w n ?s, B : is_var w ?m ?s |- _ => tryif constr_eq n m then fail else (pose proof (is_var_uniq w n m _ W A B); subst n) end.

(** In three dimensions the loop of vy runs over the functions of vy and the rows of vx. *)
Definition same_basis (w : wks) : Prop := forall n m, is_var w n (mom 0) -> is_var w m (mom 1) -> usebasis w m = usebasis w n.
(** Momentum balance with Hooke's stress in the rows of the displacements. *)
Theorem C207_momentum s w : wf w -> dyn_vars w -> supported s w -> (dim w <= 2)%nat \/ same_basis w -> forall c, (c < dim w)%nat ->
  equation w (residual (ed_volume s w)) (dsp c) (fun k => fld w (mom c ++ "_t")%string k - load w c k) (fun d k => hooke s w c d k).
Proof.
  intros W V SU SB c C n i Hn Hi. rewrite residual_at. unfold ed_volume. cbv zeta.
  transitivity (weak w (usebasis w n) i (fun k => fld w (mom c ++ "_t")%string k - load w c k) (fun d k => le_stress s w c d k)).
  2:{ apply weak_ext; [reflexivity |]. intros d k D _. apply C74_stress; assumption. }
  dims_of w W D; rewrite D in *; cbn [Nat.eqb]; var_at w W V D; comps c; try lia; same w W n;
    try (destruct SB as [SB | SB]; [lia |]; pose proof (SB p q Hp Hq) as UB; rows_sb UB W Hi); rows W Hi;
    unfold weak, integral; apply sm_ext; intros k _; rewrite ?(sumd_1 w _ D), ?(sumd_2 w _ D), ?(sumd_3 w _ D); names; cbn [append]; ring.
Qed.
Print Assumptions C207_momentum.
(** v = rho du/dt, weakly, in the rows of v; nothing else is touched. *)
Theorem C207_definition s w : wf w -> dyn_vars w -> (dim w <= 2)%nat ->
  (forall c, (c < dim w)%nat -> equation w (residual (ed_volume s w)) (mom c)
     (fun k => fn w "rho" k * fld w (dsp c ++ "_t")%string k - fld w (mom c) k) (fun _ _ => 0)) /\
  only_rows w (residual (ed_volume s w)) (dyn_names w).
Proof.
  intros W V D2. split.
  - intros c C n i Hn Hi. rewrite residual_at. unfold ed_volume. cbv zeta.
    dims_of w W D; rewrite D in *; cbn [Nat.eqb]; try lia; var_at w W V D; comps c; try lia; same w W n; rows W Hi;
      unfold weak, integral; apply sm_ext; intros k _; rewrite ?(sumd_1 w _ D), ?(sumd_2 w _ D); names; cbn [append]; ring.
  - intros n v i Hn Hv Hi. rewrite residual_at. unfold ed_volume. cbv zeta. unfold dyn_names, solid_names in Hv.
    dims_of w W D; rewrite D in *; cbn [Nat.eqb]; try lia; var_at w W V D; cbn in Hv;
      try (assert (n <> x) by (intros ->; apply Hv; pose proof (is_var_inj _ _ _ _ Hn Hx); subst; auto));
      try (assert (n <> y) by (intros ->; apply Hv; pose proof (is_var_inj _ _ _ _ Hn Hy); subst; auto));
      try (assert (n <> p) by (intros ->; apply Hv; pose proof (is_var_inj _ _ _ _ Hn Hp); subst; auto));
      try (assert (n <> q) by (intros ->; apply Hv; pose proof (is_var_inj _ _ _ _ Hn Hq); subst; auto));
      rewrite ?at_row_app;
      repeat match goal with |- context [at_row _ (fill w ?b ?m ?f)] =>
        rewrite (fill_other w b f n m i W (is_var_lt _ _ _ Hn) ltac:(lt_var) Hi ltac:(assumption) eq_refl) end; ring.
Qed.
Print Assumptions C207_definition.
Lemma sumd_minus w f g h : (forall c, (c < dim w)%nat -> f c - g c = h c) -> sumd w f - sumd w g = sumd w h.
Proof. intros E. unfold sumd. rewrite <- sm_sub. apply sm_ext. intros c C. apply in_seq in C. apply E. lia. Qed.
(** Power balance: where the momentum equations hold, the rate of the kinetic energy plus the
    stress power is the power of the load; with v = rho u_t the first term is v_t v / rho. *)
Theorem C207_power s w num u : wf w -> dyn_vars w -> supported s w -> (dim w <= 2)%nat \/ same_basis w ->
  (forall c, (c < dim w)%nat -> is_var w (num c) (dsp c) /\ expands w (num c) (dsp c ++ "_t")%string (u c) /\
     forall i, (i < nbas w (usebasis w (num c)))%nat -> residual (ed_volume s w) (offs w (num c) i) = 0) ->
  (forall c k, (c < dim w)%nat -> (k < npts w)%nat -> 0 < fn w "rho" k /\ fld w (mom c) k = fn w "rho" k * fld w (dsp c ++ "_t")%string k) ->
  integral w (fun k => sumd w (fun c => fld w (mom c ++ "_t")%string k * fld w (mom c) k / fn w "rho" k
                 + sumd w (fun d => hooke s w c d k * grad w (dsp c ++ "_t")%string d k))) =
  integral w (fun k => sumd w (fun c => load w c k * fld w (dsp c ++ "_t")%string k)).
Proof.
  intros W V SU SB H M.
  assert (forall c, (c < dim w)%nat -> integral w (fun k => (fld w (mom c ++ "_t")%string k - load w c k) * fld w (dsp c ++ "_t")%string k
      + sumd w (fun d => hooke s w c d k * grad w (dsp c ++ "_t")%string d k)) = 0) as Z.
  { intros c C. destruct (H c C) as [Hn [X R]]. rewrite <- (tested_expands w (num c) (dsp c ++ "_t")%string (u c)
      (fun k => fld w (mom c ++ "_t")%string k - load w c k) (fun d k => hooke s w c d k) (residual (ed_volume s w))).
    - unfold tested. apply sm_zero. intros i I. apply in_seq in I. rewrite R by lia. ring.
    - exact X.
    - intros i Hi. apply C207_momentum; assumption. }
  assert (integral w (fun k => sumd w (fun c => (fld w (mom c ++ "_t")%string k - load w c k) * fld w (dsp c ++ "_t")%string k
      + sumd w (fun d => hooke s w c d k * grad w (dsp c ++ "_t")%string d k))) = 0) as T.
  { unfold sumd at 1. rewrite <- integral_sum. apply sm_zero. intros c C. apply in_seq in C. apply Z. lia. }
  match type of T with integral w ?f = 0 => assert (forall g h, (forall k, (k < npts w)%nat -> g k - h k = f k) -> integral w g = integral w h) as K end.
  { intros g h E. cut (integral w g - integral w h = 0); [lra |]. rewrite <- T. unfold integral. rewrite <- sm_sub. apply sm_ext. intros k I.
    apply in_seq in I. rewrite <- E by lia. ring. }
  apply K. intros k I. apply sumd_minus. intros c C. destruct (M c k C I) as [P E]. rewrite E. field. lra.
Qed.
Print Assumptions C207_power.
Definition dyn (n : nat) (f : string -> R) : wks := bar n (firstn n ["vx"; "vy"; "vz"])%string f (fun _ => 1) (fun _ => "Neumann"%string).
Lemma dyn_ok n f : (1 <= n <= 3)%nat -> wf (dyn n f) /\ dyn_vars (dyn n f) /\ supported soft (dyn n f).
Proof.
  intros N. split; [apply bar_wf; [lia | destruct n as [| [| [| [| n]]]]; try lia; distinct] |]. split; [split; [apply bar_vars; lia |] |].
  - intros d D. cbn in D. destruct n as [| [| [| [| n]]]]; try lia; destruct d as [| [| [| d]]]; try lia; cbn; auto 10.
  - split; discriminate.
Qed.
Example C207_nontrivial : wf (dyn 2 (fun s => if String.eqb s "vy" then 1 else 0)) /\ dyn_vars (dyn 2 (fun s => if String.eqb s "vy" then 1 else 0)) /\
  residual (ed_volume soft (dyn 2 (fun s => if String.eqb s "vy" then 1 else 0))) 6 <> 0.
Proof.
  destruct (dyn_ok 2 (fun s => if String.eqb s "vy" then 1 else 0) ltac:(lia)) as [A [B _]]. split; [exact A |]. split; [exact B |].
  unfold residual, scatter, ed_volume. cbn. lra.
Qed.

(** *** C208 *)
(** In three dimensions the rows of vy get nothing, those of vx the equations of vx and vy. *)
Theorem C208_definition_refuted : exists s w n i, wf w /\ dyn_vars w /\ supported s w /\ dim w = 3%nat /\ is_var w n (mom 1) /\ (i < nbas w (usebasis w n))%nat /\
  residual (ed_volume s w) (offs w n i) <>
  weak w (usebasis w n) i (fun k => fn w "rho" k * fld w (dsp 1 ++ "_t")%string k - fld w (mom 1) k) (fun _ _ => 0).
Proof.
  exists soft, (dyn 3 (fun s => if String.eqb s "vy" then 1 else 0)), 4%nat, 0%nat.
  destruct (dyn_ok 3 (fun s => if String.eqb s "vy" then 1 else 0) ltac:(lia)) as [A [B C]]. split; [exact A |]. split; [exact B |]. split; [exact C |].
  split; [reflexivity |]. split; [reflexivity |]. split; [cbn; lia |].
  unfold residual, scatter, ed_volume, weak, integral, sumd, sm, rsum. cbn. unfold rsum; cbn. lra.
Qed.
Print Assumptions C208_definition_refuted.
(** What is assembled instead (vx and vy with the same basis). *)
Theorem C208_rows_partial s w : wf w -> dyn_vars w -> dim w = 3%nat -> same_basis w ->
  equation w (residual (ed_volume s w)) (mom 2) (fun k => fn w "rho" k * fld w (dsp 2 ++ "_t")%string k - fld w (mom 2) k) (fun _ _ => 0) /\
  equation w (residual (ed_volume s w)) (mom 1) (fun _ => 0) (fun _ _ => 0) /\
  equation w (residual (ed_volume s w)) (mom 0) (fun k => fn w "rho" k * fld w (dsp 0 ++ "_t")%string k - fld w (mom 0) k
     + (fn w "rho" k * fld w (dsp 1 ++ "_t")%string k - fld w (mom 1) k)) (fun _ _ => 0).
Proof.
  intros W V D SB. split; [| split]; intros n i Hn Hi; rewrite residual_at; unfold ed_volume; cbv zeta; rewrite D; cbn [Nat.eqb]; var_at w W V D;
    same w W n; pose proof (SB p q Hp Hq) as UB; rows_sb UB W Hi; rows W Hi; unfold weak, integral.
  1, 3: (try rewrite <- sm_add); apply sm_ext; intros k _; rewrite (sumd_3 w _ D), ?UB; names; cbn [append]; ring.
  symmetry. apply sm_zero. intros k _. rewrite (sumd_3 w _ D). ring.
Qed.
Print Assumptions C208_rows_partial.
