(** Properties C127 - C131, C133 - C136: integration data and mapped bases. *)
From Coq Require Import List Reals Lra Lia.
From Coquelicot Require Import Coquelicot.
From Verif Require Import Geom_Model Geom_Spec Geom_Proofs.
Import ListNotations.
Open Scope R_scope.

(** ** C127: the weights of an element integrate over that element *)

(** The Jacobian the weights are built from is the derivative of the map the
    integration points are built from, for every cell type and node position. *)
Theorem C127_jacobian : forall c X p i j,
  In c [line2; quad4; tri3; hex8] -> (j < cdim c)%nat ->
  is_derive (fun t => phys c X (fun d => if Nat.eqb d j then t else p d) i) (p j) (jac c X p i j).
Proof.
  intros c X p i j I L. cbn in I.
  destruct I as [<-|[<-|[<-|[<-|[]]]]]; cbn [cdim line2 quad4 tri3 hex8] in L.
  - destruct j as [|j]; [|lia]. unf; cbn [Nat.eqb]. auto_derive; [exact I|]. field.
  - destruct j as [|[|j]]; [| |lia]; unf; cbn [Nat.eqb]; auto_derive; try exact I; field.
  - destruct j as [|[|j]]; [| |lia]; unf; cbn [Nat.eqb]; auto_derive; try exact I; field.
  - destruct j as [|[|[|j]]]; [| | |lia]; unf; cbn [Nat.eqb]; auto_derive; try exact I; field.
Qed.

Theorem C127_quad : forall X r, exact_quad r ->
  measure quad4 X r = polygon_area [(X 0%nat 0%nat, X 0%nat 1%nat); (X 1%nat 0%nat, X 1%nat 1%nat);
                                    (X 2%nat 0%nat, X 2%nat 1%nat); (X 3%nat 0%nat, X 3%nat 1%nat)].
Proof.
  intros X r E. rewrite measure_qs.
  pose (xx := fun s : nat => (qx 0 * X 0%nat s + qx 1 * X 1%nat s + qx 2 * X 2%nat s + qx 3 * X 3%nat s) / 4).
  pose (yy := fun s : nat => (qy 0 * X 0%nat s + qy 1 * X 1%nat s + qy 2 * X 2%nat s + qy 3 * X 3%nat s) / 4).
  pose (xy := fun s : nat => (X 0%nat s - X 1%nat s + X 2%nat s - X 3%nat s) / 4).
  rewrite (qs_ext r _ (fun p => (xx 0%nat * yy 1%nat - yy 0%nat * xx 1%nat)
      + (xx 0%nat * xy 1%nat - xy 0%nat * xx 1%nat) * p 0%nat
      + (xy 0%nat * yy 1%nat - yy 0%nat * xy 1%nat) * p 1%nat)).
  - rewrite exact_quad_affine by exact E. unfold polygon_area, shoelace_from, cross2, xx, yy.
    cbv [qx qy]. field.
  - intros p. unfold xx, yy, xy. unf. field.
Qed.

Theorem C127_tri : forall X r, exact_tri r ->
  measure tri3 X r = polygon_area [(X 0%nat 0%nat, X 0%nat 1%nat); (X 1%nat 0%nat, X 1%nat 1%nat);
                                   (X 2%nat 0%nat, X 2%nat 1%nat)].
Proof.
  intros X r E. rewrite measure_qs.
  pose (D := det 2 (jac tri3 X (mk 0 0 0))).
  rewrite (qs_ext r _ (fun p => D * 1)) by (intros p; unfold D; unf; ring).
  rewrite qs_scal, E. unfold D, polygon_area, shoelace_from, cross2. unf. field.
Qed.

Theorem C127_line : forall X r, exact_line r ->
  measure line2 X r = X 1%nat 0%nat - X 0%nat 0%nat.
Proof.
  intros X r [E0 E1]. rewrite measure_qs.
  rewrite (qs_ext r _ (fun p => ((X 1%nat 0%nat - X 0%nat 0%nat) / 2) * 1)) by (intros p; unf; field).
  rewrite qs_scal, E0. field.
Qed.

(** The one-point and the 2x2 Gauss rules meet the hypothesis. *)
Definition gauss1 : rule := [(mk 0 0 0, 4)].
Definition g3 : R := 1 / sqrt 3.
Definition gauss2 : rule :=
  [(mk (-g3) (-g3) 0, 1); (mk g3 (-g3) 0, 1); (mk g3 g3 0, 1); (mk (-g3) g3 0, 1)].
Definition gline : rule := [(mk (-g3) 0 0, 1); (mk g3 0 0, 1)].
Lemma g3_sq : g3 * g3 = 1 / 3.
Proof.
  unfold g3. pose proof (sqrt_sqrt 3 ltac:(lra)) as S.
  assert (N : sqrt 3 <> 0). { intros Z. rewrite Z in S. lra. }
  replace (1 / sqrt 3 * (1 / sqrt 3)) with (1 / (sqrt 3 * sqrt 3)) by (field; exact N).
  rewrite S. reflexivity.
Qed.
Example C127_rules : exact_quad gauss1 /\ exact_quad gauss2 /\ exact_line gline.
Proof. repeat split; cbn; ring. Qed.
Definition trapezoid : nodes := fun k => match k with
  | 0%nat => mk 0 0 0 | 1%nat => mk 4 0 0 | 2%nat => mk 3 2 0 | _ => mk 1 2 0 end.
Example C127_case : measure quad4 trapezoid gauss2 = 6.
Proof.
  rewrite C127_quad by apply C127_rules.
  unfold polygon_area, shoelace_from, cross2. cbv [trapezoid mk]. field.
Qed.

(** ** C128: side weights, normals and sizes in two dimensions *)

Definition polygon (c : cell) : nat := nsides c.
Definition next (c : cell) (s : nat) : nat := Nat.modulo (s + 1) (nsides c).
Definition side_length (c : cell) (X : nodes) (s : nat) : R :=
  distance2 (X s 0%nat) (X s 1%nat) (X (next c s) 0%nat) (X (next c s) 1%nat).

Lemma tan_any : forall c X s p d, In c [quad4; tri3] -> (s < nsides c)%nat ->
  side_tangent c X s p d = (X (next c s) d - X s d) / 2.
Proof.
  intros c X s p d [<-|[<-|[]]] L; [apply tan_quad|apply tan_tri]; exact L.
Qed.
Lemma pos_any : forall c X s q d, In c [quad4; tri3] -> (s < nsides c)%nat ->
  side_x c X s q d = (X s d + X (next c s) d) / 2 + fst q 0%nat * ((X (next c s) d - X s d) / 2).
Proof.
  intros c X s q d [<-|[<-|[]]] L; [apply pos_quad|apply pos_tri]; exact L.
Qed.
Lemma norm_tan : forall c X s p, In c [quad4; tri3] -> (s < nsides c)%nat ->
  norm2 2 (side_tangent c X s p) = side_length c X s / 2.
Proof.
  intros c X s p I L. unfold norm2, dot. cbn [sumn].
  rewrite !(tan_any c X s p _ I L). unfold side_length, distance2.
  set (a := X (next c s) 0%nat - X s 0%nat). set (b := X (next c s) 1%nat - X s 1%nat).
  replace (0 + a / 2 * (a / 2) + b / 2 * (b / 2)) with ((/2) * (/2) * (a ^ 2 + b ^ 2)) by field.
  assert (P : 0 <= a ^ 2 + b ^ 2) by (pose proof (pow2_ge_0 a); pose proof (pow2_ge_0 b); lra).
  rewrite sqrt_mult; [|lra|exact P]. rewrite sqrt_square by lra. field.
Qed.
Lemma dim2 : forall c, In c [quad4; tri3] -> cdim c = 2%nat.
Proof. intros c [<-|[<-|[]]]; reflexivity. Qed.

(** The weights on a side add up to the length of the side. *)
Theorem C128_length : forall c X s (r : rule), In c [quad4; tri3] -> (s < nsides c)%nat ->
  exact_line r -> suml r (side_wt c X s) = side_length c X s.
Proof.
  intros c X s r I L [E0 _].
  rewrite (suml_qs r _ (fun _ => (side_length c X s / 2) * 1)).
  - rewrite qs_scal, E0. field.
  - intros q _. unfold side_wt. rewrite (dim2 c I). rewrite (norm_tan c X s _ I L). ring.
Qed.

(** The mesh size of a side is its length. *)
Theorem C128_size : forall c X s (r : rule), In c [quad4; tri3] -> (s < nsides c)%nat ->
  exact_line r -> 0 < side_length c X s -> side_size c X s r = side_length c X s.
Proof.
  intros c X s r I L E P. unfold side_size. rewrite (C128_length c X s r I L E).
  rewrite (dim2 c I). cbn [INR]. replace (1 / (1 + 1 - 1)) with 1 by field.
  apply Rpower_1. exact P.
Qed.

Lemma raw_any : forall c X s p, In c [quad4; tri3] ->
  side_raw c X s p = rotate (side_tangent c X s p).
Proof. intros c X s p [<-|[<-|[]]]; reflexivity. Qed.

(** The normal has length one, is perpendicular to the side, and points away
    from every other vertex of a convex element listed counter-clockwise. *)
Definition convex_at (c : cell) (X : nodes) (s : nat) : Prop :=
  forall k, (k < nsides c)%nat -> k <> s -> k <> next c s ->
    0 < cross2 (X (next c s) 0%nat - X s 0%nat) (X (next c s) 1%nat - X s 1%nat)
               (X k 0%nat - X s 0%nat) (X k 1%nat - X s 1%nat).

Theorem C128_normal : forall c X s q, In c [quad4; tri3] -> (s < nsides c)%nat ->
  0 < side_length c X s ->
  let n := side_n c X s q in
  (n 0%nat)^2 + (n 1%nat)^2 = 1 /\
  n 0%nat * (X (next c s) 0%nat - X s 0%nat) + n 1%nat * (X (next c s) 1%nat - X s 1%nat) = 0 /\
  (convex_at c X s -> forall k, (k < nsides c)%nat -> k <> s -> k <> next c s ->
     n 0%nat * (X k 0%nat - side_x c X s q 0%nat) + n 1%nat * (X k 1%nat - side_x c X s q 1%nat) < 0).
Proof.
  intros c X s q I L P n.
  assert (N : norm2 2 (side_raw c X s (fst q)) = side_length c X s / 2).
  { rewrite (raw_any c X s _ I), norm_rot. apply norm_tan; assumption. }
  assert (NN : norm2 2 (side_raw c X s (fst q)) <> 0) by (rewrite N; lra).
  set (a := X (next c s) 0%nat - X s 0%nat) in *.
  set (b := X (next c s) 1%nat - X s 1%nat) in *.
  assert (n0 : n 0%nat = b / side_length c X s).
  { unfold n, side_n. rewrite (dim2 c I), N, (raw_any c X s _ I). cbn [rotate mk].
    rewrite (tan_any c X s _ 1 I L). fold b. field. lra. }
  assert (n1 : n 1%nat = - a / side_length c X s).
  { unfold n, side_n. rewrite (dim2 c I), N, (raw_any c X s _ I). cbn [rotate mk].
    rewrite (tan_any c X s _ 0 I L). fold a. field. lra. }
  assert (LL : side_length c X s ^ 2 = a ^ 2 + b ^ 2).
  { unfold side_length, distance2. fold a b.
    replace (sqrt (a ^ 2 + b ^ 2) ^ 2) with (sqrt (a ^ 2 + b ^ 2) * sqrt (a ^ 2 + b ^ 2)) by ring.
    apply sqrt_sqrt. pose proof (pow2_ge_0 a); pose proof (pow2_ge_0 b); lra. }
  split; [|split].
  - rewrite n0, n1. replace ((b / side_length c X s) ^ 2 + (- a / side_length c X s) ^ 2)
      with ((a ^ 2 + b ^ 2) / side_length c X s ^ 2) by (field; lra).
    rewrite <- LL. field. lra.
  - rewrite n0, n1. field. lra.
  - intros CV k Lk K1 K2. specialize (CV k Lk K1 K2). unfold cross2 in CV. fold a b in CV.
    rewrite n0, n1, !(pos_any c X s q _ I L). fold a b.
    replace (b / side_length c X s * (X k 0%nat - ((X s 0%nat + X (next c s) 0%nat) / 2 + fst q 0%nat * (a / 2)))
       + - a / side_length c X s * (X k 1%nat - ((X s 1%nat + X (next c s) 1%nat) / 2 + fst q 0%nat * (b / 2))))
      with (- (a * (X k 1%nat - X s 1%nat) - b * (X k 0%nat - X s 0%nat)) / side_length c X s)
      by (unfold a, b; field; lra).
    apply Ropp_lt_cancel. rewrite Ropp_0.
    replace (- (- (a * (X k 1%nat - X s 1%nat) - b * (X k 0%nat - X s 0%nat)) / side_length c X s))
      with ((a * (X k 1%nat - X s 1%nat) - b * (X k 0%nat - X s 0%nat)) / side_length c X s) by (field; lra).
    apply Rdiv_lt_0_compat; assumption.
Qed.

Example C128_case : forall q, let n := side_n quad4 trapezoid 1 q in
  side_length quad4 trapezoid 1 = sqrt 5 /\ convex_at quad4 trapezoid 1 /\
  (n 0%nat)^2 + (n 1%nat)^2 = 1.
Proof.
  intros q n.
  assert (LE : side_length quad4 trapezoid 1 = sqrt 5).
  { unfold side_length, distance2, next. cbn [nsides quad4 Nat.modulo Nat.divmod Nat.add fst snd Nat.sub].
    cbv [trapezoid mk]. f_equal. ring. }
  assert (LP : 0 < side_length quad4 trapezoid 1) by (rewrite LE; apply sqrt_lt_R0; lra).
  repeat split.
  - exact LE.
  - intros k Lk K1 K2. unfold next in *. cbn [nsides quad4 Nat.modulo Nat.divmod Nat.add fst snd Nat.sub] in *.
    destruct k as [|[|[|[|k]]]]; try lia; unfold cross2; cbv [trapezoid mk]; lra.
  - apply C128_normal; [cbn; auto|cbn; lia|exact LP].
Qed.

(** ** C129: the discrete divergence theorem *)

(** Flux of a field through all the sides of an element, with the weights,
    normals and points that the code hands out. *)
Definition outflow (c : cell) (X : nodes) (r : rule) (v : pt -> nat -> R) : R :=
  sumto (nsides c) (fun s =>
    suml r (fun q => side_wt c X s q *
                     sumto (cdim c) (fun i => v (side_x c X s q) i * side_n c X s q i))).
Definition proper (c : cell) (X : nodes) (r : rule) : Prop :=
  forall s q, (s < nsides c)%nat -> In q r -> norm2 (cdim c) (side_raw c X s (fst q)) <> 0.

Lemma sumto_ext : forall n f g, (forall k, (k < n)%nat -> f k = g k) -> sumto n f = sumto n g.
Proof.
  induction n as [|n IH]; intros f g H; cbn; [reflexivity|].
  rewrite (IH f g); [|intros k L; apply H; lia]. rewrite H by lia. reflexivity.
Qed.
Lemma sumto_scal : forall n c f, sumto n (fun k => c * f k) = c * sumto n f.
Proof. induction n as [|n IH]; intros c f; cbn; [lra|]. rewrite IH. lra. Qed.

Lemma outflow_raw : forall c X r v, (cdim c = 2 \/ cdim c = 3)%nat -> proper c X r ->
  outflow c X r v = sumto (nsides c) (fun s => @quad_sum (nat -> R) r (fun p =>
     sumto (cdim c) (fun i => v (phys c X (side_pt c s p)) i * side_raw c X s p i))).
Proof.
  intros c X r v D PR. unfold outflow. apply sumto_ext. intros s L.
  apply suml_qs. intros q Iq.
  transitivity (sumto (cdim c) (fun i => v (side_x c X s q) i * (side_wt c X s q * side_n c X s q i))).
  - rewrite <- sumto_scal. apply sumto_ext. intros i _. ring.
  - rewrite (sumto_ext _ _ (fun i => snd q * (v (side_x c X s q) i * side_raw c X s (fst q) i))).
    + rewrite sumto_scal. unfold side_x. ring.
    + intros i _. rewrite (wt_n c X s q i D (PR s q L Iq)). ring.
Qed.

Theorem C129_quad : forall X b A r rs, exact_quad r -> exact_line rs -> proper quad4 X rs ->
  outflow quad4 X rs (affine 2 b A) = divergence 2 A * measure quad4 X r.
Proof.
  intros X b A r rs E ES PR.
  rewrite (outflow_raw quad4 X rs _ (or_introl eq_refl) PR), (C127_quad X r E).
  rewrite (sumto_ext _ _ (fun s =>
     let s' := Nat.modulo (s + 1) 4 in
     let m := affine 2 b A (fun d => (X s d + X s' d) / 2) in
     m 0%nat * (X s' 1%nat - X s 1%nat) - m 1%nat * (X s' 0%nat - X s 0%nat))).
  - cbn [sumto nsides quad4]. unfold affine, divergence, polygon_area, shoelace_from, cross2.
    cbn [sumto Nat.modulo Nat.divmod Nat.add fst snd Nat.sub]. field.
  - intros s L. cbn [nsides quad4] in L. cbv zeta.
    set (s' := Nat.modulo (s + 1) 4).
    pose (m := affine 2 b A (fun d => (X s d + X s' d) / 2)).
    pose (t := fun i => A i 0%nat * ((X s' 0%nat - X s 0%nat) / 2) + A i 1%nat * ((X s' 1%nat - X s 1%nat) / 2)).
    rewrite (qs_ext rs _ (fun p =>
        (m 0%nat * ((X s' 1%nat - X s 1%nat) / 2) - m 1%nat * ((X s' 0%nat - X s 0%nat) / 2))
        + (t 0%nat * ((X s' 1%nat - X s 1%nat) / 2) - t 1%nat * ((X s' 0%nat - X s 0%nat) / 2)) * p 0%nat)).
    + rewrite exact_line_affine by exact ES. unfold m. field.
    + intros p. cbn [cdim quad4 sumto]. rewrite !raw_quad. cbn [rotate mk].
      rewrite !(tan_quad X s p _ L).
      pose proof (pos_quad X s (p, 0) 0 L) as P0. pose proof (pos_quad X s (p, 0) 1 L) as P1.
      unfold side_x in P0, P1. cbn [fst] in P0, P1. fold s' in P0, P1 |- *.
      unfold affine at 1 2. cbn [sumto]. rewrite P0, P1.
      unfold m, t, affine. cbn [sumto]. field.
Qed.

Theorem C129_tri : forall X b A r rs, exact_tri r -> exact_line rs -> proper tri3 X rs ->
  outflow tri3 X rs (affine 2 b A) = divergence 2 A * measure tri3 X r.
Proof.
  intros X b A r rs E ES PR.
  rewrite (outflow_raw tri3 X rs _ (or_introl eq_refl) PR), (C127_tri X r E).
  rewrite (sumto_ext _ _ (fun s =>
     let s' := Nat.modulo (s + 1) 3 in
     let m := affine 2 b A (fun d => (X s d + X s' d) / 2) in
     m 0%nat * (X s' 1%nat - X s 1%nat) - m 1%nat * (X s' 0%nat - X s 0%nat))).
  - cbn [sumto nsides tri3]. unfold affine, divergence, polygon_area, shoelace_from, cross2.
    cbn [sumto Nat.modulo Nat.divmod Nat.add fst snd Nat.sub]. field.
  - intros s L. cbn [nsides tri3] in L. cbv zeta.
    set (s' := Nat.modulo (s + 1) 3).
    pose (m := affine 2 b A (fun d => (X s d + X s' d) / 2)).
    pose (t := fun i => A i 0%nat * ((X s' 0%nat - X s 0%nat) / 2) + A i 1%nat * ((X s' 1%nat - X s 1%nat) / 2)).
    rewrite (qs_ext rs _ (fun p =>
        (m 0%nat * ((X s' 1%nat - X s 1%nat) / 2) - m 1%nat * ((X s' 0%nat - X s 0%nat) / 2))
        + (t 0%nat * ((X s' 1%nat - X s 1%nat) / 2) - t 1%nat * ((X s' 0%nat - X s 0%nat) / 2)) * p 0%nat)).
    + rewrite exact_line_affine by exact ES. unfold m. field.
    + intros p. cbn [cdim tri3 sumto]. rewrite !raw_tri. cbn [rotate mk].
      rewrite !(tan_tri X s p _ L).
      pose proof (pos_tri X s (p, 0) 0 L) as P0. pose proof (pos_tri X s (p, 0) 1 L) as P1.
      unfold side_x in P0, P1. cbn [fst] in P0, P1. fold s' in P0, P1 |- *.
      unfold affine at 1 2. cbn [sumto]. rewrite P0, P1.
      unfold m, t, affine. cbn [sumto]. field.
Qed.

(** Hexahedra with arbitrary node positions: the faces are bilinear patches
    and the normals vary over them. *)
Lemma det_hex : forall X p, det 3 (jac hex8 X p) = ev (pdet (co X)) p.
Proof. intros X p. rewrite ev_pdet. unfold det. rewrite !jac_P. reflexivity. Qed.
Lemma sub_face : forall (X : nodes) s l p, (s < 6)%nat ->
  ev l (side_pt hex8 s p) = ev (onf s l) p.
Proof.
  intros X s l p L. unfold onf.
  destruct s as [|[|[|[|[|[|s]]]]]]; try lia; cbn [fsub]; rewrite ev_psub; cbn [sval side_pt hex8];
  f_equal; rewrite ?Rmult_1_l; try reflexivity.
  replace (-1 * p 0%nat) with (- p 0%nat) by ring. reflexivity.
Qed.
Lemma ev_pscal : forall k l p, ev (pscal k l) p = k * ev l p.
Proof. intros k l p. unfold pscal. rewrite ev_mul. cbn [ev ev1]. cbn [pow]. ring. Qed.
Lemma tan_face : forall X s p i, (s < 6)%nat ->
  matvec 3 (jac hex8 X (side_pt hex8 s p)) (side_u hex8 s) i = ev (ptan (co X) (fu s) s i) p /\
  matvec 3 (jac hex8 X (side_pt hex8 s p)) (side_v hex8 s) i = ev (ptan (co X) (fv s) s i) p.
Proof.
  intros X s p i L. unfold ptan, matvec. cbn [sumn]. rewrite !jac_P, !(sub_face X s) by exact L.
  rewrite !ev_pscal.
  change (Jp X i 0) with (KJ (co X) i 0). change (Jp X i 1) with (KJ (co X) i 1).
  change (Jp X i 2) with (KJ (co X) i 2).
  destruct s as [|[|[|[|[|[|s]]]]]]; try lia; cbn [fu fv fst snd side_u side_v hex8 mk]; split; ring.
Qed.
Lemma raw_face : forall X s p i, (s < 6)%nat -> (i < 3)%nat ->
  side_raw hex8 X s p i = ev (pn (co X) s i) p.
Proof.
  intros X s p i L Li. unfold side_raw. cbn [cdim hex8]. unfold vecprod.
  destruct i as [|[|[|i]]]; try lia; cbn [mk pn];
  rewrite ev_app, ev_opp, !ev_mul;
  rewrite !(proj1 (tan_face X s p _ L)), !(proj2 (tan_face X s p _ L)); ring.
Qed.

Theorem C129_hex : forall X b A r rs, exact_hex r -> exact_face rs -> proper hex8 X rs ->
  outflow hex8 X rs (affine 3 b A) = divergence 3 A * measure hex8 X r.
Proof.
  intros X b A r rs E ES PR.
  rewrite (outflow_raw hex8 X rs _ (or_intror eq_refl) PR), measure_qs. cbn [cdim hex8 nsides].
  rewrite (qs_ext r _ (ev (pdet (co X)))) by (intros p; apply det_hex).
  rewrite (hex_integral r _ E (pdet_low (co X))).
  set (K := co X).
  assert (F : forall s, (s < 6)%nat ->
    quad_sum rs (fun p => sumto 3 (fun i => affine 3 b A (phys hex8 X (side_pt hex8 s p)) i * side_raw hex8 X s p i))
    = sumto 3 (fun i => b i * mom2 (pn K s i))
      + sumto 3 (fun i => sumto 3 (fun j => A i j * mom2 (pxn K s j i)))).
  { intros s L.
    assert (Q1 : forall i, (i < 3)%nat -> quad_sum rs (ev (pn K s i)) = mom2 (pn K s i)).
    { intros i Li. destruct (pn_ok K s i L Li). apply face_integral; assumption. }
    assert (Q2 : forall j i, (j < 3)%nat -> (i < 3)%nat ->
              quad_sum rs (ev (pxn K s j i)) = mom2 (pxn K s j i)).
    { intros j i Lj Li. destruct (pxn_ok K s j i L Lj Li). apply face_integral; assumption. }
    rewrite (qs_ext rs _ (fun p =>
       (b 0%nat * ev (pn K s 0) p + b 1%nat * ev (pn K s 1) p + b 2%nat * ev (pn K s 2) p)
     + ((A 0%nat 0%nat * ev (pxn K s 0 0) p + A 0%nat 1%nat * ev (pxn K s 1 0) p + A 0%nat 2%nat * ev (pxn K s 2 0) p)
     + (A 1%nat 0%nat * ev (pxn K s 0 1) p + A 1%nat 1%nat * ev (pxn K s 1 1) p + A 1%nat 2%nat * ev (pxn K s 2 1) p)
     + (A 2%nat 0%nat * ev (pxn K s 0 2) p + A 2%nat 1%nat * ev (pxn K s 1 2) p + A 2%nat 2%nat * ev (pxn K s 2 2) p)))).
    - rewrite !qs_add, !(fun k f => qs_scal rs k f), !Q1, !Q2 by lia. cbn [sumto]. ring.
    - intros p. cbn [sumto]. rewrite !raw_face by lia. unfold affine. cbn [sumto].
      rewrite !phys_P, !(sub_face X s) by exact L.
      change (P X 0) with (KP K 0). change (P X 1) with (KP K 1). change (P X 2) with (KP K 2).
      fold K. unfold pxn. rewrite !ev_mul. ring. }
  rewrite (sumto_ext 6 _ _ F).
  pose proof (closed_faces K 0 ltac:(lia)) as Z0. pose proof (closed_faces K 1 ltac:(lia)) as Z1.
  pose proof (closed_faces K 2 ltac:(lia)) as Z2.
  pose proof (gauss_faces K 0 0 ltac:(lia) ltac:(lia)) as G00.
  pose proof (gauss_faces K 0 1 ltac:(lia) ltac:(lia)) as G01.
  pose proof (gauss_faces K 0 2 ltac:(lia) ltac:(lia)) as G02.
  pose proof (gauss_faces K 1 0 ltac:(lia) ltac:(lia)) as G10.
  pose proof (gauss_faces K 1 1 ltac:(lia) ltac:(lia)) as G11.
  pose proof (gauss_faces K 1 2 ltac:(lia) ltac:(lia)) as G12.
  pose proof (gauss_faces K 2 0 ltac:(lia) ltac:(lia)) as G20.
  pose proof (gauss_faces K 2 1 ltac:(lia) ltac:(lia)) as G21.
  pose proof (gauss_faces K 2 2 ltac:(lia) ltac:(lia)) as G22.
  cbn [Nat.eqb] in *.
  pose (n := fun s i => mom2 (pn K s i)). pose (x := fun s j i => mom2 (pxn K s j i)).
  clear F.
  assert (LIN : sumto 6 (fun s => sumto 3 (fun i => b i * n s i)
        + sumto 3 (fun i => sumto 3 (fun j => A i j * x s j i)))
     = sumto 3 (fun i => b i * sumto 6 (fun s => n s i))
       + sumto 3 (fun i => sumto 3 (fun j => A i j * sumto 6 (fun s => x s j i)))).
  { generalize n x. intros n' x'. cbn [sumto]. ring. }
  unfold n, x in LIN. rewrite LIN. unfold divergence.
  change (sumto 3 (fun i => b i * sumto 6 (fun s => mom2 (pn K s i))))
    with (0 + b 0%nat * sumto 6 (fun s => mom2 (pn K s 0)) + b 1%nat * sumto 6 (fun s => mom2 (pn K s 1))
          + b 2%nat * sumto 6 (fun s => mom2 (pn K s 2))).
  rewrite Z0, Z1, Z2.
  set (S := fun j i => sumto 6 (fun s => mom2 (pxn K s j i))).
  assert (SS : sumto 3 (fun i => sumto 3 (fun j => A i j * sumto 6 (fun s => mom2 (pxn K s j i))))
             = sumto 3 (fun i => A i i) * mom (pdet K)).
  { change (sumto 3 (fun i => sumto 3 (fun j => A i j * S j i)) = sumto 3 (fun i => A i i) * mom (pdet K)).
    change (S 0%nat 0%nat = mom (pdet K)) in G00. change (S 1%nat 1%nat = mom (pdet K)) in G11.
    change (S 2%nat 2%nat = mom (pdet K)) in G22.
    change (S 0%nat 1%nat = 0) in G01. change (S 0%nat 2%nat = 0) in G02.
    change (S 1%nat 0%nat = 0) in G10. change (S 1%nat 2%nat = 0) in G12.
    change (S 2%nat 0%nat = 0) in G20. change (S 2%nat 1%nat = 0) in G21.
    clearbody S. cbn [sumto]. rewrite G00, G01, G02, G10, G11, G12, G20, G21, G22. ring. }
  rewrite SS. ring.
Qed.

(** Simpson's rule, tensorised, is exact enough. *)
Definition simp : list (R * R) := [(-1, 1/3); (0, 4/3); (1, 1/3)].
Definition simpson2 : rule :=
  flat_map (fun a => map (fun b => (mk (fst a) (fst b) 0, snd a * snd b)) simp) simp.
Definition simpson3 : rule :=
  flat_map (fun a => flat_map (fun b => map (fun c =>
    (mk (fst a) (fst b) (fst c), snd a * snd b * snd c)) simp) simp) simp.
Example C129_rules : exact_face simpson2 /\ exact_hex simpson3.
Proof.
  split.
  - intros a b La Lb. destruct a as [|[|[|a]]]; try lia; destruct b as [|[|[|b]]]; try lia;
    cbv [simpson2 simp flat_map map app quad_sum fst snd mk moment pow]; field.
  - intros a b c La Lb Lc. destruct a as [|[|[|a]]]; try lia; destruct b as [|[|[|b]]]; try lia;
    destruct c as [|[|[|c]]]; try lia;
    cbv [simpson3 simp flat_map map app quad_sum fst snd mk moment pow]; field.
Qed.
(** A hexahedron with a raised corner: its top is a curved patch. *)
Definition bent : nodes := fun k => match k with
  | 0%nat => mk 0 0 0 | 1%nat => mk 1 0 0 | 2%nat => mk 1 1 0 | 3%nat => mk 0 1 0
  | 4%nat => mk 0 0 1 | 5%nat => mk 1 0 1 | 6%nat => mk 1 1 2 | _ => mk 0 1 1 end.
Lemma bent_proper : forall (rs : rule), (forall q, In q rs -> -1 <= fst q 0%nat <= 1 /\ -1 <= fst q 1%nat <= 1) ->
  proper hex8 bent rs.
Proof.
  intros rs B s q L Iq Z. destruct (B q Iq) as [[Bu Bu2] [Bv Bv2]].
  set (m := side_raw hex8 bent s (fst q)) in *.
  pose proof (norm_sq 3 m) as Q. cbn [cdim hex8] in Z. rewrite Z in Q.
  unfold dot in Q. cbn [sumn] in Q.
  assert (m0 : m 0%nat = 0 /\ m 1%nat = 0 /\ m 2%nat = 0).
  { pose proof (Rle_0_sqr (m 0%nat)); pose proof (Rle_0_sqr (m 1%nat)); pose proof (Rle_0_sqr (m 2%nat)).
    unfold Rsqr in *. repeat split; nra. }
  destruct m0 as [M0 [M1 M2]]. unfold m in M0, M1, M2.
  unfold side_raw in M0, M1, M2.
  cbn [nsides hex8] in L.
  destruct s as [|[|[|[|[|[|s]]]]]]; try lia; clear m Q Z Iq B.
  - assert (V : -1/4 = 0) by (rewrite <- M1; unf; cbv [bent mk]; field). lra.
  - assert (V : (3 + fst q 0%nat) / 8 = 0) by (rewrite <- M0; unf; cbv [bent mk]; field). lra.
  - assert (V : (3 - fst q 0%nat) / 8 = 0) by (rewrite <- M1; unf; cbv [bent mk]; field). lra.
  - assert (V : -1/4 = 0) by (rewrite <- M0; unf; cbv [bent mk]; field). lra.
  - assert (V : -1/4 = 0) by (rewrite <- M2; unf; cbv [bent mk]; field). lra.
  - assert (V : 1/4 = 0) by (rewrite <- M2; unf; cbv [bent mk]; field). lra.
Qed.
Example C129_case : outflow hex8 bent simpson2 (affine 3 (fun _ => 0) (fun i j => if Nat.eqb i j then 1 else 0))
  = 3 * (5/4).
Proof.
  rewrite (C129_hex bent _ _ simpson3 simpson2); [|apply C129_rules|apply C129_rules|].
  - unfold divergence. cbn [sumto Nat.eqb]. f_equal; [ring|].
    rewrite measure_qs. cbv [simpson3 simp flat_map map app quad_sum fst snd]. unf. cbv [bent mk]. field.
  - apply bent_proper. intros q Iq.
    cbv [simpson2 simp flat_map map app In] in Iq.
    repeat (destruct Iq as [<-|Iq]; [cbn; lra|]). destruct Iq.
Qed.

(** ** C130, C131: one-dimensional elements *)

Theorem C130_line : forall X b A r, exact_line r ->
  outflow line2 X [(mk 0 0 0, 1)] (affine 1 b A) = divergence 1 A * measure line2 X r.
Proof.
  intros X b A r E. rewrite (C127_line X r E).
  assert (N : forall s, (s < 2)%nat -> norm2 1 (ref_normal1 s) = 1).
  { intros s L. unfold norm2, dot. cbn [sumn]. unfold ref_normal1.
    destruct s as [|s]; [replace (0 + -1 * -1) with 1 by ring|replace (0 + 1 * 1) with 1 by ring]; apply sqrt_1. }
  unfold outflow. cbn [sumto nsides line2 suml cdim]. unfold side_n, side_wt, side_x, side_raw.
  cbn [cdim line2]. rewrite !N by lia. unfold affine, divergence, ref_normal1. cbn [sumto]. unf. field.
Qed.
Example C130_case : let X := fun k => mk (2 + INR k) 0 0 in
  outflow line2 X [(mk 0 0 0, 1)] (affine 1 (fun _ => 7) (fun _ _ => 3)) = 3.
Proof.
  cbv zeta. rewrite (C130_line _ _ _ gline) by apply C127_rules.
  rewrite C127_line by apply C127_rules. unfold divergence. cbn [sumto mk INR]. ring.
Qed.

(** Interior faces in two and three dimensions carry the same data as
    boundary sides. *)
Theorem C131_faces_partial : forall c X s q, (cdim c = 2 \/ cdim c = 3)%nat ->
  norm2 (cdim c) (side_raw c X s (fst q)) <> 0 ->
  face_wt c X s q = side_wt c X s q /\
  exists n, face_n c X s q = Some n /\ forall d, n d = side_n c X s q d.
Proof.
  intros c X s q D N. split.
  - unfold face_wt, side_wt. destruct D as [D|D]; rewrite D; reflexivity.
  - assert (FR : face_raw c X s q = side_raw c X s (fst q)).
    { unfold face_raw. destruct D as [D|D]; rewrite D; reflexivity. }
    unfold face_n. rewrite FR. destruct (Req_EM_T _ _) as [Z|_]; [contradiction|].
    eexists. split; [reflexivity|]. intros d. unfold side_n. field. exact N.
Qed.
(** In one dimension they carry none: every interior face has weight zero and
    a normal that is not a number. *)
Theorem C131_faces_1d_refuted : forall X s q,
  face_wt line2 X s q = 0 /\ face_n line2 X s q = None /\ side_wt line2 X s q = 1.
Proof.
  intros X s q. split; [reflexivity|split; [|reflexivity]].
  unfold face_n, face_raw, norm2, dot. cbn [cdim line2 sumn].
  replace (0 + 0 * 0) with 0 by ring. rewrite sqrt_0.
  destruct (Req_EM_T 0 0) as [_|N]; [reflexivity|contradiction N; reflexivity].
Qed.
Example C131_case : norm2 2 (side_raw quad4 trapezoid 1 (mk 0 0 0)) <> 0.
Proof.
  rewrite raw_quad, norm_rot, norm_tan; [|cbn; auto|cbn; lia].
  rewrite (proj1 (C128_case (mk 0 0 0, 0))).
  assert (0 < sqrt 5) by (apply sqrt_lt_R0; lra). lra.
Qed.

(** ** C133: fluxes and circulations survive the mapping *)

Definition inner (d : nat) (a b : nat -> R) : R := sumto d (fun i => a i * b i).

Lemma piola_flux2 : forall J v t, det 2 J <> 0 ->
  inner 2 (map_div_value 2 J v) (rotate (matvec 2 J t)) = inner 2 v (rotate t).
Proof.
  intros J v t N. unfold inner, map_div_value. cbv [rotate matvec sumn sumto mk].
  unfold det in *. field. exact N.
Qed.
Lemma piola_flux3 : forall J v a b, det 3 J <> 0 ->
  inner 3 (map_div_value 3 J v) (vecprod (matvec 3 J a) (matvec 3 J b)) = inner 3 v (vecprod a b).
Proof.
  intros J v a b N. unfold inner, map_div_value. cbv [vecprod matvec sumn sumto mk].
  unfold det in *. field. exact N.
Qed.

(** Flux through a side of an element of a mapped HDIV function, computed with
    the code's weights and normals, equals the flux of the reference function
    through the reference side: it does not depend on the element's shape. *)
Definition ref_area_normal (c : cell) (s : nat) : pt :=
  match cdim c with 2%nat => rotate (side_u c s) | _ => vecprod (side_u c s) (side_v c s) end.
Theorem C133_flux : forall c X s (r : rule) phi, (cdim c = 2 \/ cdim c = 3)%nat ->
  (forall q, In q r -> norm2 (cdim c) (side_raw c X s (fst q)) <> 0 /\
                       det (cdim c) (jac c X (side_pt c s (fst q))) <> 0) ->
  suml r (fun q => side_wt c X s q *
     inner (cdim c) (map_div_value (cdim c) (jac c X (side_pt c s (fst q))) (phi (side_pt c s (fst q))))
                    (side_n c X s q))
  = quad_sum r (fun p => inner (cdim c) (phi (side_pt c s p)) (ref_area_normal c s)).
Proof.
  intros c X s r phi D H. apply suml_qs. intros q Iq. destruct (H q Iq) as [N DT].
  set (v := map_div_value _ _ _).
  transitivity (inner (cdim c) v (side_raw c X s (fst q)) * snd q).
  - unfold inner. rewrite <- sumto_scal, Rmult_comm, <- sumto_scal. apply sumto_ext. intros i _.
    replace (side_wt c X s q * (v i * side_n c X s q i)) with (v i * (side_wt c X s q * side_n c X s q i)) by ring.
    rewrite (wt_n c X s q i D N). ring.
  - f_equal. unfold v, side_raw, ref_area_normal, side_tangent. destruct D as [D|D]; rewrite D in *.
    + apply piola_flux2. exact DT.
    + apply piola_flux3. exact DT.
Qed.

(** The tangential component of a mapped HCURL function along the image of a
    direction is that of the reference function along the direction. *)
Theorem C133_circulation : forall d J v t, (d = 2 \/ d = 3)%nat -> det d J <> 0 ->
  inner d (map_curl_value d J v) (matvec d J t) = inner d v t.
Proof.
  intros d J v t [D|D] N; subst d; unfold inner, map_curl_value; cbv [matvec sumn sumto inv];
  unfold det in *; field; exact N.
Qed.
(** The same for gradients: directional derivatives survive. *)
Theorem C133_gradient : forall d J g t, (d = 2 \/ d = 3)%nat -> det d J <> 0 ->
  inner d (map_grad d J g) (matvec d J t) = inner d g t.
Proof.
  intros d J v t [D|D] N; subst d; unfold inner, map_grad; cbv [matvec sumn sumto inv];
  unfold det in *; field; exact N.
Qed.
Example C133_case : norm2 2 (side_raw quad4 trapezoid 1 (mk 0 0 0)) <> 0 /\
  det 2 (jac quad4 trapezoid (side_pt quad4 1 (mk 0 0 0))) <> 0.
Proof. split; [apply C131_case|]. unf. cbv [trapezoid mk]. lra. Qed.

(** ** C134: gradients on faces *)

(** A list of physical gradients is right for a list of reference gradients
    when directional derivatives agree. *)
Definition true_gradients (d : nat) (J : nat -> nat -> R) (refs phys : list pt) : Prop :=
  length phys = length refs /\
  forall k t, (k < length refs)%nat ->
    inner d (nth k phys (mk 0 0 0)) (matvec d J t) = inner d (nth k refs (mk 0 0 0)) t.
Lemma map_grads_true : forall d J gs, (d = 2 \/ d = 3)%nat -> det d J <> 0 ->
  true_gradients d J gs (map (map_grad d J) gs).
Proof.
  intros d J gs D N. split; [apply map_length|]. intros k t L.
  rewrite (nth_indep _ (mk 0 0 0) (map_grad d J (mk 0 0 0))) by (rewrite map_length; exact L).
  rewrite map_nth. apply C133_gradient; assumption.
Qed.
(** Boundary sides: the gradients of an HGRAD basis are the physical ones, and
    are recombined by the orientation when the basis asks for it. *)
Theorem C134_boundary_partial : forall orient requires d J gs, (d = 2 \/ d = 3)%nat -> det d J <> 0 ->
  exists l, true_gradients d J gs l /\
    boundary_grads orient requires d J gs = if requires then orient l else l.
Proof.
  intros orient requires d J gs D N. exists (map (map_grad d J) gs).
  split; [apply map_grads_true; assumption|]. destruct requires; reflexivity.
Qed.
(** Interior faces: the same only when it does. *)
Theorem C134_faces_oriented_partial : forall orient d J gs, (d = 2 \/ d = 3)%nat -> det d J <> 0 ->
  exists l, true_gradients d J gs l /\ face_grads orient true d J gs = orient l.
Proof.
  intros orient d J gs D N. exists (map (map_grad d J) gs).
  split; [apply map_grads_true; assumption|reflexivity].
Qed.
(** Otherwise (linear quadrilaterals and hexahedra need none) every gradient
    on an interior face is zero, whatever the element and the function. *)
Theorem C134_faces_refuted : forall orient d J gs k i,
  nth k (face_grads orient false d J gs) (mk 0 0 0) i = 0.
Proof.
  intros orient d J gs k i. unfold face_grads.
  assert (Z : forall x : pt, In x (map (fun _ => mk 0 0 0) gs) -> x i = 0).
  { intros x H. apply in_map_iff in H. destruct H as [y [<- _]]. destruct i as [|[|i]]; reflexivity. }
  destruct (nth_in_or_default k (map (fun _ : pt => mk 0 0 0) gs) (mk 0 0 0)) as [H|H].
  - apply Z. exact H.
  - rewrite H. destruct i as [|[|i]]; reflexivity.
Qed.
Example C134_case : let J := fun i j => if Nat.eqb i j then 2 else 0 in
  nth 0 (boundary_grads (fun l => l) false 2 J [mk 1 0 0]) (mk 0 0 0) 0%nat = 1/2 /\
  nth 0 (face_grads (fun l => l) false 2 J [mk 1 0 0]) (mk 0 0 0) 0%nat = 0.
Proof.
  split; [|apply C134_faces_refuted]. cbn [boundary_grads map nth]. cbv [map_grad sumn inv det Nat.eqb mk]. field.
Qed.

(** ** C135: basis values at the nodes *)

Definition affine_map (c : cell) (X : nodes) : Prop := forall p q i j, jac c X p i j = jac c X q i j.
Lemma det_affine : forall c X p q, affine_map c X -> det (cdim c) (jac c X p) = det (cdim c) (jac c X q).
Proof.
  intros c X p q H. unfold det. destruct (cdim c) as [|[|[|n]]]; rewrite !(H p _ _ q) || idtac;
  repeat match goal with |- context [jac c X p ?i ?j] => rewrite (H p q i j) end; reflexivity.
Qed.
(** On elements whose map is affine, and with at least as many integration
    points as nodes, the value at node k is the mapped reference value. *)
Theorem C135_affine_partial : forall c X r refnode phi k, affine_map c X -> (k < length r)%nat ->
  exists v, node_values c X r refnode phi k = Some v /\
  forall i, v i = map_div_value (cdim c) (jac c X (refnode k)) (phi (refnode k)) i.
Proof.
  intros c X r refnode phi k A L. unfold node_values.
  destruct (nth_error r k) as [q|] eqn:E.
  - eexists. split; [reflexivity|]. intros i. unfold map_div_value.
    rewrite (det_affine c X (fst q) (refnode k) A). f_equal. apply sumn_ext. intros j _.
    rewrite (A (fst q) (refnode k) i j). reflexivity.
  - apply nth_error_None in E. lia.
Qed.
Definition quad_node (k : nat) : pt := mk (qx k) (qy k) 0.
Definition slab : nodes := fun k => match k with
  | 0%nat => mk 0 0 0 | 1%nat => mk 3 1 0 | 2%nat => mk 4 3 0 | _ => mk 1 2 0 end.
Example C135_case : affine_map quad4 slab /\ (3 < length gauss2)%nat.
Proof.
  split; [|cbn; lia]. intros p q i j. destruct i as [|[|i]]; destruct j as [|j]; unf; cbv [slab mk]; field.
Qed.
(** With a general quadrilateral it is not: the Jacobian at an integration
    point is used for the value at a node. *)
Theorem C135_general_refuted : exists X r phi k v,
  exact_quad r /\ node_values quad4 X r quad_node phi k = Some v /\
  v 0%nat <> map_div_value 2 (jac quad4 X (quad_node k)) (phi (quad_node k)) 0%nat.
Proof.
  exists trapezoid, [(mk 0 0 0, 4)], (fun _ => mk 0 1 0), 0%nat. eexists.
  split; [apply C127_rules|]. split; [reflexivity|].
  unfold map_div_value. cbn [sumn]. cbv [quad_node]. unf. cbv [trapezoid mk qx qy fst].
  match goal with |- ?a <> ?b =>
    replace a with 0 by (field; lra); replace b with (1/4) by (field; lra) end. lra.
Qed.
(** With fewer integration points than nodes the Jacobian array is read past
    its end. *)
Theorem C135_short_refuted : forall X phi,
  node_values quad4 X gauss1 quad_node phi 1 = None.
Proof. reflexivity. Qed.

(** ** C136: orientations of boundary elements *)

Section Orient.
Context {N O : Type}.
Variable mesh_nodes : nat -> N.
Variable orients : list O.
Variable o0 : O.

(** Interior groups: nodes and orientation of the same element, whatever the
    blocks. *)
Theorem C136_interior_partial : forall my_elements block ids k,
  (k < length ids)%nat ->
  let e := nth (nth k ids 0%nat) (my_elements block) 0%nat in
  (e < length orients)%nat ->
  nth_error (group_elements my_elements mesh_nodes orients o0 block ids) k
  = Some (mesh_nodes e, nth e orients o0).
Proof.
  intros my_elements block ids k L e LO. unfold group_elements, my_nodes, my_orientations.
  revert k L e LO. induction ids as [|i ids IH]; intros k L e LO; [cbn in L; lia|].
  destruct k as [|k].
  - cbn [map combine nth_error]. cbn [nth] in e. fold (translate my_elements block i) in e.
    fold e. destruct (Nat.leb_spec (length orients) e) as [H|_]; [lia|]. reflexivity.
  - cbn [map combine nth_error]. apply IH; [cbn in L; lia|exact LO].
Qed.
(** Boundary groups whose basis is stored: the same, whatever the blocks. *)
Theorem C136_boundary_partial : forall my_elements block ids k,
  (k < length ids)%nat ->
  let e := nth k ids 0%nat in
  (e < length orients)%nat ->
  nth_error (boundary_stored my_elements mesh_nodes orients o0 block ids) k
  = Some (mesh_nodes e, nth e orients o0).
Proof.
  intros my_elements block ids k L e LO. unfold boundary_stored, my_orientations.
  revert k L e LO. induction ids as [|i ids IH]; intros k L e LO; [cbn in L; lia|].
  destruct k as [|k].
  - cbn [map combine nth_error]. cbn [nth] in e. subst e.
    destruct (Nat.leb_spec (length orients) i) as [H|_]; [lia|]. reflexivity.
  - cbn [map combine nth_error]. apply IH; [cbn in L; lia|exact LO].
Qed.
(** Recomputed, and the keys of the database: when the block lists the
    process's elements in their own order, as with a single block. *)
Theorem C136_recomputed_partial : forall my_elements block ids k,
  (forall e, (e < length orients)%nat -> nth e (my_elements block) 0%nat = e) ->
  (forall e, In e ids -> (e < length orients)%nat) ->
  (k < length ids)%nat ->
  let e := nth k ids 0%nat in
  nth_error (boundary_recomputed my_elements mesh_nodes orients o0 block ids) k
  = Some (mesh_nodes e, nth e orients o0) /\
  nth_error (boundary_key my_elements mesh_nodes orients o0 block ids) k
  = Some (mesh_nodes e, nth e orients o0).
Proof.
  intros my_elements block ids k ID B L e. unfold boundary_recomputed, boundary_key, my_nodes, my_orientations.
  revert k L e. induction ids as [|i ids IH]; intros k L e; [cbn in L; lia|].
  destruct k as [|k].
  - cbn [map combine nth_error]. cbn [nth] in e. subst e.
    assert (Li : (i < length orients)%nat) by (apply B; left; reflexivity).
    unfold translate. rewrite (ID i Li).
    destruct (Nat.leb_spec (length orients) i) as [H|_]; [lia|]. split; reflexivity.
  - cbn [map combine nth_error]. apply IH; [|cbn in L; lia].
    intros x I. apply B. right. exact I.
Qed.
End Orient.
(** With two blocks, the second holding elements 1 to 3 of the process, a side
    of element 1 whose basis is not stored gets the nodes of element 2 with the
    orientation of element 1, and the database files it under element 2. *)
Theorem C136_boundary_refuted : exists (my_elements : nat -> list nat) block e,
  In e (my_elements block) /\
  nth_error (boundary_stored my_elements (fun e => e) [10; 11; 12; 13]%nat 0%nat block [e]) 0
    = Some (1, 11)%nat /\
  nth_error (boundary_recomputed my_elements (fun e => e) [10; 11; 12; 13]%nat 0%nat block [e]) 0
    = Some (2, 11)%nat /\
  nth_error (boundary_key my_elements (fun e => e) [10; 11; 12; 13]%nat 0%nat block [e]) 0
    = Some (2, 12)%nat.
Proof.
  exists (fun b => match b with O => [0]%nat | _ => [1; 2; 3]%nat end), 1%nat, 1%nat.
  split; [left; reflexivity|]. repeat split; reflexivity.
Qed.
Example C136_case : nth_error (boundary_stored (fun _ => [0; 1; 2]%nat) (fun e => e) [10; 11; 12]%nat 0%nat 0 [2; 1]%nat) 0
  = Some (2, 12)%nat.
Proof. reflexivity. Qed.
Print Assumptions C127_jacobian.
Print Assumptions C127_quad.
Print Assumptions C127_tri.
Print Assumptions C127_line.
Print Assumptions C128_length.
Print Assumptions C128_size.
Print Assumptions C128_normal.
Print Assumptions C129_quad.
Print Assumptions C129_tri.
Print Assumptions C129_hex.
Print Assumptions C130_line.
Print Assumptions C131_faces_partial.
Print Assumptions C131_faces_1d_refuted.
Print Assumptions C133_flux.
Print Assumptions C133_circulation.
Print Assumptions C133_gradient.
Print Assumptions C134_boundary_partial.
Print Assumptions C134_faces_oriented_partial.
Print Assumptions C134_faces_refuted.
Print Assumptions C135_affine_partial.
Print Assumptions C135_general_refuted.
Print Assumptions C135_short_refuted.
Print Assumptions C136_interior_partial.
Print Assumptions C136_boundary_partial.
Print Assumptions C136_recomputed_partial.
Print Assumptions C136_boundary_refuted.
