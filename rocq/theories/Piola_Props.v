(** Properties C132, C137 and C138: derivatives of mapped functions on
    quadrilaterals, and the Arbogast-Correa basis. *)
From Coq Require Import List Reals Lra Lia.
From Coquelicot Require Import Coquelicot.
From Verif Require Import Geom_Model Geom_Spec Geom_Proofs Geom_Props.
Import ListNotations.
Open Scope R_scope.

(** ** C132 *)

(** The point and the local inverse of the element map do not appear: f is any
    differentiable function of the physical coordinates that agrees, near the
    reference point, with the reference function. *)
Definition pulls_back (X : nodes) (f phi : R -> R -> R) (x y : R) : Prop :=
  locally_2d (fun s t => phi s t = f (phys quad4 X (mk s t 0) 0%nat) (phys quad4 X (mk s t 0) 1%nat)) x y.

Lemma jac_x : forall X x y i,
  is_derive (fun t => phys quad4 X (mk t y 0) i) x (jac quad4 X (mk x y 0) i 0).
Proof.
  intros X x y i.
  pose proof (C127_jacobian quad4 X (mk x y 0) i 0 ltac:(cbn; auto) ltac:(cbn; lia)) as H.
  cbn [mk] in H. eapply is_derive_ext; [|exact H]. intros t.
  match goal with |- @eq _ ?a ?b => change (@eq R a b) end. cbn beta. unf. cbn [Nat.eqb]. ring.
Qed.
Lemma jac_y : forall X x y i,
  is_derive (fun t => phys quad4 X (mk x t 0) i) y (jac quad4 X (mk x y 0) i 1).
Proof.
  intros X x y i.
  pose proof (C127_jacobian quad4 X (mk x y 0) i 1 ltac:(cbn; auto) ltac:(cbn; lia)) as H.
  cbn [mk] in H. eapply is_derive_ext; [|exact H]. intros t.
  match goal with |- @eq _ ?a ?b => change (@eq R a b) end. cbn beta. unf. cbn [Nat.eqb]. ring.
Qed.

Lemma chain_x : forall X f phi x y fx fy,
  pulls_back X f phi x y ->
  differentiable_pt_lim f (phys quad4 X (mk x y 0) 0%nat) (phys quad4 X (mk x y 0) 1%nat) fx fy ->
  is_derive (fun t => phi t y) x
    (fx * jac quad4 X (mk x y 0) 0%nat 0%nat + fy * jac quad4 X (mk x y 0) 1%nat 0%nat).
Proof.
  intros X f phi x y fx fy PB D.
  eapply is_derive_ext_loc.
  - apply locally_2d_1d_const_y in PB. revert PB. apply filter_imp. intros t E. symmetry. exact E.
  - apply is_derive_Reals.
    apply (derivable_pt_lim_comp_2d f (fun t => phys quad4 X (mk t y 0) 0%nat)
             (fun t => phys quad4 X (mk t y 0) 1%nat)); [exact D| |];
      apply is_derive_Reals; apply jac_x.
Qed.
Lemma chain_y : forall X f phi x y fx fy,
  pulls_back X f phi x y ->
  differentiable_pt_lim f (phys quad4 X (mk x y 0) 0%nat) (phys quad4 X (mk x y 0) 1%nat) fx fy ->
  is_derive (fun t => phi x t) y
    (fx * jac quad4 X (mk x y 0) 0%nat 1%nat + fy * jac quad4 X (mk x y 0) 1%nat 1%nat).
Proof.
  intros X f phi x y fx fy PB D.
  eapply is_derive_ext_loc.
  - apply locally_2d_1d_const_x in PB. revert PB. apply filter_imp. intros t E. symmetry. exact E.
  - apply is_derive_Reals.
    apply (derivable_pt_lim_comp_2d f (fun t => phys quad4 X (mk x t 0) 0%nat)
             (fun t => phys quad4 X (mk x t 0) 1%nat)); [exact D| |];
      apply is_derive_Reals; apply jac_y.
Qed.

(** The mapped gradient is the gradient in physical coordinates. *)
Theorem C132_gradient : forall X f phi x y fx fy gx gy,
  det 2 (jac quad4 X (mk x y 0)) <> 0 ->
  pulls_back X f phi x y ->
  differentiable_pt_lim f (phys quad4 X (mk x y 0) 0%nat) (phys quad4 X (mk x y 0) 1%nat) fx fy ->
  is_derive (fun t => phi t y) x gx -> is_derive (fun t => phi x t) y gy ->
  map_grad 2 (jac quad4 X (mk x y 0)) (mk gx gy 0) 0%nat = fx /\
  map_grad 2 (jac quad4 X (mk x y 0)) (mk gx gy 0) 1%nat = fy.
Proof.
  intros X f phi x y fx fy gx gy N PB D GX GY.
  pose proof (is_derive_unique _ _ _ GX) as EX. pose proof (is_derive_unique _ _ _ GY) as EY.
  rewrite (is_derive_unique _ _ _ (chain_x X f phi x y fx fy PB D)) in EX.
  rewrite (is_derive_unique _ _ _ (chain_y X f phi x y fx fy PB D)) in EY.
  unfold map_grad. cbn [sumn mk inv]. rewrite <- EX, <- EY.
  unfold det in *. split; field; exact N.
Qed.

(** The divergence handed out for a mapped HDIV function is the divergence of
    the mapped function in physical coordinates. *)
Section Bilinear.
Variable X : nodes.
Definition bc (sx sy : bool) (i : nat) : R :=
  let f (s : bool) (v : R) := if s then v else 1 in
  / 4 * (f sx (-1) * f sy (-1) * X 0%nat i + f sx 1 * f sy (-1) * X 1%nat i
       + f sx 1 * f sy 1 * X 2%nat i + f sx (-1) * f sy 1 * X 3%nat i).
Lemma j0 : forall x y i, jac quad4 X (mk x y 0) i 0%nat = bc true false i + bc true true i * y.
Proof. intros x y i. unf. cbv [bc]. field. Qed.
Lemma j1 : forall x y i, jac quad4 X (mk x y 0) i 1%nat = bc false true i + bc true true i * x.
Proof. intros x y i. unf. cbv [bc]. field. Qed.
End Bilinear.

Lemma derive_eq : forall (f g : R -> R) x l m,
  is_derive f x l -> is_derive g x m -> (forall t, f t = g t) -> l = m.
Proof.
  intros f g x l m F G E. rewrite <- (is_derive_unique f x l F), <- (is_derive_unique g x m G).
  apply Derive_ext. exact E.
Qed.
Lemma quotient_x : forall (a b c d : R) (D : R -> R) (p q : R -> R) x dD dp dq,
  is_derive p x dp -> is_derive q x dq -> is_derive D x dD -> D x <> 0 ->
  is_derive (fun t => (a * p t + (b + c * t) * q t) / D t) x
    (((a * dp + (c * q x + (b + c * x) * dq)) * D x - (a * p x + (b + c * x) * q x) * dD) / (D x) ^ 2).
Proof.
  intros a b c d D p q x dD dp dq P Q DD N.
  apply is_derive_Reals in P. apply is_derive_Reals in Q. apply is_derive_Reals in DD.
  apply is_derive_Reals.
  assert (A : derivable_pt_lim (fun t => a * p t) x (a * dp))
    by (apply (derivable_pt_lim_scal p a x dp P)).
  assert (L : derivable_pt_lim (fun t => b + c * t) x c).
  { apply is_derive_Reals. auto_derive; [exact I|ring]. }
  pose proof (derivable_pt_lim_mult _ _ x _ _ L Q) as B.
  pose proof (derivable_pt_lim_plus _ _ x _ _ A B) as S.
  pose proof (derivable_pt_lim_div _ _ x _ _ S DD N) as V.
  unfold plus_fct, mult_fct, div_fct in V.
  replace (((a * dp + (c * q x + (b + c * x) * dq)) * D x - (a * p x + (b + c * x) * q x) * dD) / D x ^ 2)
    with (((a * dp + (c * q x + (b + c * x) * dq)) * D x - dD * (a * p x + (b + c * x) * q x)) / Rsqr (D x)).
  - exact V.
  - unfold Rsqr. field. exact N.
Qed.

Theorem C132_divergence : forall X v1 v2 p1 p2 x y v1x v1y v2x v2y p1x p1y p2x p2y,
  let J := jac quad4 X in
  det 2 (J (mk x y 0)) <> 0 ->
  pulls_back X v1 (fun s t => map_div_value 2 (J (mk s t 0)) (mk (p1 s t) (p2 s t) 0) 0%nat) x y ->
  pulls_back X v2 (fun s t => map_div_value 2 (J (mk s t 0)) (mk (p1 s t) (p2 s t) 0) 1%nat) x y ->
  differentiable_pt_lim v1 (phys quad4 X (mk x y 0) 0%nat) (phys quad4 X (mk x y 0) 1%nat) v1x v1y ->
  differentiable_pt_lim v2 (phys quad4 X (mk x y 0) 0%nat) (phys quad4 X (mk x y 0) 1%nat) v2x v2y ->
  is_derive (fun t => p1 t y) x p1x -> is_derive (fun t => p1 x t) y p1y ->
  is_derive (fun t => p2 t y) x p2x -> is_derive (fun t => p2 x t) y p2y ->
  map_div 2 (J (mk x y 0)) (p1x + p2y) = v1x + v2y.
Proof.
  intros X v1 v2 p1 p2 x y v1x v1y v2x v2y p1x p1y p2x p2y J N PB1 PB2 D1 D2 P1X P1Y P2X P2Y.
  set (a1 := bc X true false 0). set (a2 := bc X false true 0). set (a3 := bc X true true 0).
  set (b1 := bc X true false 1). set (b2 := bc X false true 1). set (b3 := bc X true true 1).
  assert (J00 : forall s t, J (mk s t 0) 0%nat 0%nat = a1 + a3 * t) by (intros; apply j0).
  assert (J10 : forall s t, J (mk s t 0) 1%nat 0%nat = b1 + b3 * t) by (intros; apply j0).
  assert (J01 : forall s t, J (mk s t 0) 0%nat 1%nat = a2 + a3 * s) by (intros; apply j1).
  assert (J11 : forall s t, J (mk s t 0) 1%nat 1%nat = b2 + b3 * s) by (intros; apply j1).
  pose (D := fun s t => (a1 + a3 * t) * (b2 + b3 * s) - (a2 + a3 * s) * (b1 + b3 * t)).
  assert (DD : forall s t, det 2 (J (mk s t 0)) = D s t).
  { intros s t. unfold det. rewrite J00, J10, J01, J11. reflexivity. }
  assert (ND : D x y <> 0) by (rewrite <- DD; exact N).
  assert (DX : is_derive (fun t => D t y) x ((a1 + a3 * y) * b3 - a3 * (b1 + b3 * y))).
  { unfold D. auto_derive; [exact I|ring]. }
  assert (DY : is_derive (fun t => D x t) y (a3 * (b2 + b3 * x) - (a2 + a3 * x) * b3)).
  { unfold D. auto_derive; [exact I|ring]. }
  assert (W1 : forall s t, map_div_value 2 (J (mk s t 0)) (mk (p1 s t) (p2 s t) 0) 0%nat
                 = ((a1 + a3 * t) * p1 s t + (a2 + a3 * s) * p2 s t) / D s t).
  { intros s t. unfold map_div_value. cbn [sumn mk]. rewrite DD, J00, J01. f_equal. ring. }
  assert (W2 : forall s t, map_div_value 2 (J (mk s t 0)) (mk (p1 s t) (p2 s t) 0) 1%nat
                 = ((b1 + b3 * t) * p1 s t + (b2 + b3 * s) * p2 s t) / D s t).
  { intros s t. unfold map_div_value. cbn [sumn mk]. rewrite DD, J10, J11. f_equal. ring. }
  pose proof (chain_x X v1 _ x y v1x v1y PB1 D1) as C1X.
  pose proof (chain_y X v1 _ x y v1x v1y PB1 D1) as C1Y.
  pose proof (chain_x X v2 _ x y v2x v2y PB2 D2) as C2X.
  pose proof (chain_y X v2 _ x y v2x v2y PB2 D2) as C2Y.
  fold J in C1X, C1Y, C2X, C2Y. rewrite J00, J10 in C1X, C2X. rewrite J01, J11 in C1Y, C2Y.
  (* derivatives along x *)
  pose proof (quotient_x (a1 + a3 * y) a2 a3 0 (fun t => D t y) (fun t => p1 t y) (fun t => p2 t y) x _ _ _
                P1X P2X DX ND) as Q1X.
  pose proof (quotient_x (b1 + b3 * y) b2 b3 0 (fun t => D t y) (fun t => p1 t y) (fun t => p2 t y) x _ _ _
                P1X P2X DX ND) as Q2X.
  (* along y, with the roles of the components exchanged *)
  pose proof (quotient_x (a2 + a3 * x) a1 a3 0 (fun t => D x t) (fun t => p2 x t) (fun t => p1 x t) y _ _ _
                P2Y P1Y DY ND) as Q1Y.
  pose proof (quotient_x (b2 + b3 * x) b1 b3 0 (fun t => D x t) (fun t => p2 x t) (fun t => p1 x t) y _ _ _
                P2Y P1Y DY ND) as Q2Y.
  cbn beta in Q1X, Q2X, Q1Y, Q2Y.
  pose proof (derive_eq _ _ x _ _ C1X Q1X (fun t => W1 t y)) as E1.
  pose proof (derive_eq _ _ x _ _ C2X Q2X (fun t => W2 t y)) as E2.
  assert (E3 := derive_eq _ _ y _ _ C1Y Q1Y
    (fun t => eq_trans (W1 x t) (f_equal (fun a => a / D x t) (Rplus_comm _ _)))).
  assert (E4 := derive_eq _ _ y _ _ C2Y Q2Y
    (fun t => eq_trans (W2 x t) (f_equal (fun a => a / D x t) (Rplus_comm _ _)))).
  unfold map_div. rewrite DD.
  assert (S1 : v1x * D x y = (v1x * (a1 + a3 * y) + v1y * (b1 + b3 * y)) * (b2 + b3 * x)
                           - (v1x * (a2 + a3 * x) + v1y * (b2 + b3 * x)) * (b1 + b3 * y)).
  { unfold D. ring. }
  assert (S2 : v2y * D x y = (v2x * (a2 + a3 * x) + v2y * (b2 + b3 * x)) * (a1 + a3 * y)
                           - (v2x * (a1 + a3 * y) + v2y * (b1 + b3 * y)) * (a2 + a3 * x)).
  { unfold D. ring. }
  rewrite E1, E3 in S1. rewrite E2, E4 in S2.
  assert (S : (v1x + v2y) * D x y = p1x + p2y).
  { rewrite Rmult_plus_distr_r, S1, S2. unfold D in ND |- *. field. exact ND. }
  rewrite <- S. field. exact ND.
Qed.

(** The hypotheses are met on a square by f(x,y) = x y. *)
Definition square : nodes := fun k => mk (qx k) (qy k) 0.
Lemma square_phys : forall x y i, phys quad4 square (mk x y 0) i = mk x y 0 i.
Proof. intros x y i. destruct i as [|[|i]]; unf; cbv [square mk qx qy]; field. Qed.
Example C132_case : pulls_back square (fun x y => x * y) (fun x y => x * y) 2 3 /\
  differentiable_pt_lim (fun x y => x * y) (phys quad4 square (mk 2 3 0) 0%nat)
    (phys quad4 square (mk 2 3 0) 1%nat) 3 2 /\
  det 2 (jac quad4 square (mk 2 3 0)) <> 0.
Proof.
  split; [|split].
  - unfold pulls_back. apply locally_2d_forall. intros s t. rewrite !square_phys. reflexivity.
  - rewrite !square_phys. cbn [mk].
    apply (differentiable_pt_lim_ext (fun x y => x * y) (fun x y => x * y)).
    + apply locally_2d_forall. reflexivity.
    + intros eps. exists (mkposreal (Rmin 1 eps) (Rmin_glb_lt _ _ _ Rlt_0_1 (cond_pos eps))). cbn.
      intros u v Hu Hv.
      replace (u * v - 2 * 3 - (3 * (u - 2) + 2 * (v - 3))) with ((u - 2) * (v - 3)) by ring.
      rewrite Rabs_mult.
      assert (Rabs (u - 2) <= eps) by (apply Rlt_le; eapply Rlt_le_trans; [exact Hu|apply Rmin_r]).
      apply Rmult_le_compat; try apply Rabs_pos; [assumption|apply Rmax_r].
  - unf. cbv [square mk qx qy]. lra.
Qed.

(** ** C137: what holds of the AC basis *)

(** Its tabulated divergences are the divergences of its functions. *)
Theorem C137_divergence : forall i x y, (i < 4)%nat ->
  exists ax by_, is_derive (fun t => ac_value i (mk t y 0) 0%nat) x ax /\
                 is_derive (fun t => ac_value i (mk x t 0) 1%nat) y by_ /\
                 ac_div i (mk x y 0) = ax + by_.
Proof.
  intros i x y L. destruct i as [|[|[|[|i]]]]; try lia; cbn [ac_value ac_div mk].
  - exists 0, 0. split; [auto_derive; [exact I|ring]|split; [auto_derive; [exact I|ring]|ring]].
  - exists 0, 0. split; [auto_derive; [exact I|ring]|split; [auto_derive; [exact I|ring]|ring]].
  - exists (1/2), (1/2). split; [auto_derive; [exact I|field]|split; [auto_derive; [exact I|field]|field]].
  - exists 1, (-1). split; [auto_derive; [exact I|ring]|split; [auto_derive; [exact I|ring]|ring]].
Qed.
(** Hence, on any quadrilateral, the divergence handed out is the divergence
    of the mapped function. *)
Theorem C137_mapped_divergence : forall X i x y v1 v2 v1x v1y v2x v2y, (i < 4)%nat ->
  det 2 (jac quad4 X (mk x y 0)) <> 0 ->
  pulls_back X v1 (fun s t => ac_phys X i (mk s t 0) 0%nat) x y ->
  pulls_back X v2 (fun s t => ac_phys X i (mk s t 0) 1%nat) x y ->
  differentiable_pt_lim v1 (phys quad4 X (mk x y 0) 0%nat) (phys quad4 X (mk x y 0) 1%nat) v1x v1y ->
  differentiable_pt_lim v2 (phys quad4 X (mk x y 0) 0%nat) (phys quad4 X (mk x y 0) 1%nat) v2x v2y ->
  ac_phys_div X i (mk x y 0) = v1x + v2y.
Proof.
  intros X i x y v1 v2 v1x v1y v2x v2y L N PB1 PB2 D1 D2.
  assert (EX : forall s t, ex_derive (fun u => ac_value i (mk u t 0) 0%nat) s /\
     ex_derive (fun u => ac_value i (mk s u 0) 0%nat) t /\
     ex_derive (fun u => ac_value i (mk u t 0) 1%nat) s /\
     ex_derive (fun u => ac_value i (mk s u 0) 1%nat) t).
  { intros s t. destruct i as [|[|[|[|i]]]]; try lia; cbn [ac_value mk];
    (split; [|split; [|split]]); auto_derive; exact I. }
  destruct (EX x y) as [A1 [A2 [A3 A4]]].
  apply Derive_correct in A2. apply Derive_correct in A3.
  destruct (C137_divergence i x y L) as [ax [by_ [HA [HB E]]]].
  unfold ac_phys_div. rewrite E.
  exact (C132_divergence X v1 v2 (fun s t => ac_value i (mk s t 0) 0%nat)
     (fun s t => ac_value i (mk s t 0) 1%nat) x y v1x v1y v2x v2y _ _ _ _ N PB1 PB2 D1 D2 HA A2 A3 HB).
Qed.
(** The four functions span the lowest-order Raviart-Thomas space of the
    reference square: the fields (a + b x, c + d y), each in one way. *)
Theorem C137_span : forall a b c d,
  let k := fun i : nat => match i with 0%nat => c - (b + d) / 2 | 1%nat => a - (b + d) / 2
                                  | 2%nat => b + d | _ => (b - d) / 2 end in
  (forall x y, sumto 4 (fun i => k i * ac_value i (mk x y 0) 0%nat) = a + b * x /\
               sumto 4 (fun i => k i * ac_value i (mk x y 0) 1%nat) = c + d * y) /\
  (forall k', (forall x y, sumto 4 (fun i => k' i * ac_value i (mk x y 0) 0%nat) = a + b * x /\
                           sumto 4 (fun i => k' i * ac_value i (mk x y 0) 1%nat) = c + d * y) ->
     forall i, (i < 4)%nat -> k' i = k i).
Proof.
  intros a b c d k. split.
  - intros x y. cbn [sumto ac_value mk k]. split; field.
  - intros k' H i L.
    destruct (H 0 0) as [H1 H2]. destruct (H 1 1) as [H3 H4].
    cbn [sumto ac_value mk] in H1, H2, H3, H4.
    destruct i as [|[|[|[|i]]]]; try lia; cbn [k]; lra.
Qed.
(** On every side of any quadrilateral the normal flux of each function is
    that of the reference side. *)
Theorem C137_flux : forall X i s (r : rule),
  (forall q, In q r -> norm2 2 (side_raw quad4 X s (fst q)) <> 0 /\
                       det 2 (jac quad4 X (side_pt quad4 s (fst q))) <> 0) ->
  exact_line r -> (s < 4)%nat -> (i < 4)%nat ->
  suml r (fun q => side_wt quad4 X s q *
     inner 2 (ac_phys X i (side_pt quad4 s (fst q))) (side_n quad4 X s q))
  = match i, s with
    | 0%nat, 0%nat => -2 | 0%nat, 2%nat => 2 | 0%nat, _ => 0
    | 1%nat, 1%nat => 2 | 1%nat, 3%nat => -2 | 1%nat, _ => 0
    | 2%nat, 1%nat => 2 | 2%nat, 2%nat => 2 | 2%nat, _ => 0
    | _, 0%nat => -2 | _, 1%nat => 2 | _, 2%nat => -2 | _, _ => 2
    end.
Proof.
  intros X i s r H E Ls Li.
  pose proof (C133_flux quad4 X s r (ac_value i) (or_introl eq_refl) H) as F.
  cbn [cdim quad4] in F. unfold ac_phys. cbn [cdim quad4]. rewrite F.
  assert (Q : forall k, @quad_sum (nat -> R) r (fun _ => k) = 2 * k).
  { intros k. rewrite (qs_ext r _ (fun p => k + 0 * p 0%nat)) by (intros; ring).
    apply exact_line_affine. exact E. }
  destruct i as [|[|[|[|i]]]]; try lia; destruct s as [|[|[|[|s]]]]; try lia;
  unfold inner; cbn [sumto ac_value side_pt quad4 ref_area_normal cdim rotate side_u mk];
  (match goal with |- _ = ?v => rewrite (qs_ext r _ (fun _ => v / 2)) by (intros; field) end);
  rewrite Q; field.
Qed.
Example C137_case : exact_line gline /\
  (forall q, In q gline -> norm2 2 (side_raw quad4 trapezoid 0 (fst q)) <> 0).
Proof.
  split; [apply C127_rules|]. intros q _. rewrite raw_quad, norm_rot, norm_tan; [|cbn; auto|cbn; lia].
  unfold side_length, distance2, next. cbn [nsides quad4 Nat.modulo Nat.divmod Nat.add fst snd Nat.sub].
  cbv [trapezoid mk]. replace ((4 - 0) ^ 2 + (0 - 0) ^ 2) with (4 * 4) by ring.
  rewrite sqrt_square by lra. lra.
Qed.

Lemma span_ex : forall a b c d, exists k, forall x y,
  sumto 4 (fun i => k i * ac_value i (mk x y 0) 0%nat) = a + b * x /\
  sumto 4 (fun i => k i * ac_value i (mk x y 0) 1%nat) = c + d * y.
Proof. intros a b c d. eexists. exact (proj1 (C137_span a b c d)). Qed.
(** Every constant field is a combination of the mapped functions. *)
Theorem C137_constants : forall X c1 c2,
  exists k, forall x y, det 2 (jac quad4 X (mk x y 0)) <> 0 ->
    sumto 4 (fun i => k i * ac_phys X i (mk x y 0) 0%nat) = c1 /\
    sumto 4 (fun i => k i * ac_phys X i (mk x y 0) 1%nat) = c2.
Proof.
  intros X c1 c2.
  (* the reference field det J J^-1 c is (a + b x, c + d y) *)
  destruct (span_ex (bc X false true 1 * c1 - bc X false true 0 * c2)
                      (bc X true true 1 * c1 - bc X true true 0 * c2)
                      (- bc X true false 1 * c1 + bc X true false 0 * c2)
                      (- bc X true true 1 * c1 + bc X true true 0 * c2)) as [kk S].
  exists kk. intros x y N. destruct (S x y) as [S1 S2].
  set (J := jac quad4 X (mk x y 0)) in *.
  assert (E : forall r, sumto 4 (fun i => kk i * ac_phys X i (mk x y 0) r)
     = (J r 0%nat * sumto 4 (fun i => kk i * ac_value i (mk x y 0) 0%nat)
        + J r 1%nat * sumto 4 (fun i => kk i * ac_value i (mk x y 0) 1%nat)) / det 2 J).
  { intros r. unfold ac_phys, map_div_value. fold J. cbn [sumto sumn]. unfold Rdiv. ring. }
  rewrite !E, S1, S2.
  assert (A : J 0%nat 0%nat = bc X true false 0 + bc X true true 0 * y) by apply j0.
  assert (B : J 1%nat 0%nat = bc X true false 1 + bc X true true 1 * y) by apply j0.
  assert (C : J 0%nat 1%nat = bc X false true 0 + bc X true true 0 * x) by apply j1.
  assert (F : J 1%nat 1%nat = bc X false true 1 + bc X true true 1 * x) by apply j1.
  unfold det in *. rewrite A, B, C, F in *. split; field; exact N.
Qed.

(** ** C138: what the AC element is for *)

(** On a parallelogram every constant is the divergence of some combination. *)
Theorem C138_divergence_partial : forall X c, affine_map quad4 X ->
  (exists p, det 2 (jac quad4 X p) <> 0) ->
  exists k, forall x y, sumto 4 (fun i => k i * ac_phys_div X i (mk x y 0)) = c.
Proof.
  intros X c A [p0 N].
  exists (fun i => match i with 2%nat => c * det 2 (jac quad4 X p0) | _ => 0 end). intros x y.
  unfold ac_phys_div, map_div. cbn [sumto ac_div].
  rewrite (det_affine quad4 X (mk x y 0) p0 A : det 2 _ = det 2 _). field. exact N.
Qed.
Example C138_case : affine_map quad4 slab /\ det 2 (jac quad4 slab (mk 0 0 0)) <> 0.
Proof. split; [apply C135_case|]. unf. cbv [slab mk]. lra. Qed.
(** On a general quadrilateral it is not, which is what the element was
    introduced for: no combination of the four mapped functions has divergence
    one all over this trapezoid. *)
Theorem C138_divergence_refuted : exists X, (forall x y, -1 <= x <= 1 -> -1 <= y <= 1 ->
    0 < det 2 (jac quad4 X (mk x y 0))) /\
  ~ exists k, forall x y, -1 <= x <= 1 -> -1 <= y <= 1 ->
      sumto 4 (fun i => k i * ac_phys_div X i (mk x y 0)) = 1.
Proof.
  exists trapezoid.
  assert (D : forall x y, det 2 (jac quad4 trapezoid (mk x y 0)) = (3 - y) / 2).
  { intros x y. unf. cbv [trapezoid mk]. field. }
  split.
  - intros x y Hx Hy. rewrite D. lra.
  - intros [k H].
    pose proof (H 0 0 ltac:(lra) ltac:(lra)) as H0. pose proof (H 0 1 ltac:(lra) ltac:(lra)) as H1.
    unfold ac_phys_div, map_div in H0, H1. rewrite D in H0, H1. cbn [sumto ac_div] in H0, H1.
    replace ((3 - 0) / 2) with (3 / 2) in H0 by field. replace ((3 - 1) / 2) with 1 in H1 by field.
    lra.
Qed.
(** Nor are its functions dual to the degrees of freedom it declares (the
    normal components at the middle of the sides). *)
Theorem C138_dual_refuted : exists i e, (i < 4)%nat /\ (e < 4)%nat /\ i <> e /\
  inner 2 (ac_value i (ac_dof_pt e)) (ac_dof_coef e) <> 0.
Proof. exists 0%nat, 2%nat. repeat split; try lia. unfold inner. cbn. lra. Qed.
(** So the flux of one unknown through a side is not confined to the side it
    is attached to: function 1 carries as much through side 3 as through side
    1, and a neighbour across side 3 knows nothing of it. *)
Theorem C138_conforming_refuted : exists i e e', (e < 4)%nat /\ (e' < 4)%nat /\ e <> e' /\ i = e /\
  inner 2 (ac_value i (ac_dof_pt e)) (ac_dof_coef e) = 1 /\
  inner 2 (ac_value i (ac_dof_pt e')) (ac_dof_coef e') = -1.
Proof. exists 1%nat, 1%nat, 3%nat. unfold inner. cbn. repeat split; lia || lra. Qed.
Print Assumptions C132_gradient.
Print Assumptions C132_divergence.
Print Assumptions C137_divergence.
Print Assumptions C137_mapped_divergence.
Print Assumptions C137_span.
Print Assumptions C137_flux.
Print Assumptions C137_constants.
Print Assumptions C138_divergence_partial.
Print Assumptions C138_divergence_refuted.
Print Assumptions C138_dual_refuted.
Print Assumptions C138_conforming_refuted.
