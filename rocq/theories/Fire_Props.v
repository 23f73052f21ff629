(** C192-C200: fire spread. *)
From Coq Require Import Bool ZArith Lia Reals Lra Psatz List Sorted.
From Verif Require Import Fire_Model.
Import ListNotations.
Local Open Scope R_scope.

Lemma floor_eq z r : IZR z <= r < IZR z + 1 -> Int_part r = z.
Proof.
  intros [A B]. destruct (base_Int_part r) as [C D]. assert (E : (Int_part r < z + 1)%Z) by (apply lt_IZR; rewrite plus_IZR; lra).
  assert (F : (z < Int_part r + 1)%Z) by (apply lt_IZR; rewrite plus_IZR; lra). lia.
Qed.
Lemma clamp_in i n : (0 <= i < n)%Z -> clampz i n = i.
Proof. intros H. unfold clampz. destruct (Z.ltb_spec i 0); [lia|]. destruct (Z.leb_spec n i); [lia|auto]. Qed.
Lemma clamp_range i n : (0 < n)%Z -> (0 <= clampz i n < n)%Z.
Proof. intros H. unfold clampz. destruct (Z.ltb_spec i 0); [destruct (Z.leb_spec n 0); lia|destruct (Z.leb_spec n i); lia]. Qed.
Lemma floor_cell a d x i : 0 < d -> a + IZR i * d <= x < a + (IZR i + 1) * d -> Int_part ((x - a) / d) = i.
Proof.
  intros P [A B]. apply floor_eq. split; [apply (Rmult_le_reg_r d)|apply (Rmult_lt_reg_r d)]; auto; replace ((x - a) / d * d) with (x - a) by (field; lra); lra.
Qed.

(** *** C192: the cell of a point *)
Definition in_cell (g : fgrid) (i j : Z) (x y : R) : Prop :=
  (0 <= i < gnx g)%Z /\ (0 <= j < gny g)%Z /\ gx0 g + IZR i * gdx g <= x < gx0 g + (IZR i + 1) * gdx g /\ gy0 g + IZR j * gdy g <= y < gy0 g + (IZR j + 1) * gdy g.
Definition gridok (g : fgrid) : Prop := 0 < gdx g /\ 0 < gdy g /\ (0 < gnx g)%Z /\ (0 < gny g)%Z.
(** Cells are numbered row by row, from the lower left. *)
Theorem C192_cell g i j x y : gridok g -> in_cell g i j x y -> element_id g x y = (j * gnx g + i)%Z.
Proof. intros (Px & Py & _) (I & J & X & Y). unfold element_id. rewrite (floor_cell _ _ _ i Px X), (floor_cell _ _ _ j Py Y), !clamp_in by lia. auto. Qed.
(** Any point gets a number of a cell ... *)
Theorem C192_range g x y : gridok g -> (0 <= element_id g x y < gnx g * gny g)%Z.
Proof. intros (_ & _ & Nx & Ny). unfold element_id. pose proof (clamp_range (Int_part ((x - gx0 g) / gdx g)) _ Nx). pose proof (clamp_range (Int_part ((y - gy0 g) / gdy g)) _ Ny). nia. Qed.
(** ... points outside that of the nearest point of the domain. *)
Definition nearest (a d : R) (n : Z) (x : R) : R := Rmax a (Rmin x (a + IZR n * d)).
Lemma clamp_nearest a d n x : 0 < d -> (0 < n)%Z -> clampz (Int_part ((x - a) / d)) n = clampz (Int_part ((nearest a d n x - a) / d)) n.
Proof.
  intros P N. assert (NP : 0 < IZR n) by (apply IZR_lt; auto). assert (ND : 0 < IZR n * d) by (apply Rmult_lt_0_compat; auto).
  unfold nearest. destruct (Rle_lt_dec a x) as [A|A].
  - destruct (Rle_lt_dec x (a + IZR n * d)) as [B|B].
    + rewrite Rmin_left, Rmax_right by lra. auto.
    + rewrite Rmin_right, Rmax_right by lra. rewrite (floor_cell a d (a + IZR n * d) n) by lra.
      assert (F : (n <= Int_part ((x - a) / d))%Z).
      { destruct (base_Int_part ((x - a) / d)) as [C D]. enough ((n < Int_part ((x - a) / d) + 1)%Z) by lia. apply lt_IZR. rewrite plus_IZR. enough (IZR n < (x - a) / d) by lra.
        apply (Rmult_lt_reg_r d); auto. replace ((x - a) / d * d) with (x - a) by (field; lra). lra. }
      unfold clampz. destruct (Z.ltb_spec (Int_part ((x - a) / d)) 0); [lia|]. destruct (Z.leb_spec n (Int_part ((x - a) / d))); [|lia]. destruct (Z.ltb_spec n 0); [lia|]. destruct (Z.leb_spec n n); lia.
  - rewrite Rmin_left, Rmax_left by lra. replace (Int_part ((a - a) / d)) with 0%Z by (symmetry; apply (floor_cell a d a 0); lra).
    assert (F : (Int_part ((x - a) / d) < 0)%Z).
    { destruct (base_Int_part ((x - a) / d)) as [C D]. apply lt_IZR. apply Rle_lt_trans with (1 := C). apply (Rmult_lt_reg_r d); auto. replace ((x - a) / d * d) with (x - a) by (field; lra). lra. }
    unfold clampz. destruct (Z.ltb_spec (Int_part ((x - a) / d)) 0); [|lia]. destruct (Z.ltb_spec 0 0); [lia|auto].
Qed.
Theorem C192_outside g x y : gridok g -> element_id g x y = element_id g (nearest (gx0 g) (gdx g) (gnx g) x) (nearest (gy0 g) (gdy g) (gny g) y).
Proof. intros (Px & Py & Nx & Ny). unfold element_id. rewrite (clamp_nearest (gx0 g)), (clamp_nearest (gy0 g)) by auto. auto. Qed.
(** Different cells have different numbers. *)
Theorem C192_distinct g i j x y i' j' x' y' : gridok g -> in_cell g i j x y -> in_cell g i' j' x' y' -> element_id g x y = element_id g x' y' -> i = i' /\ j = j'.
Proof. intros G C C' E. rewrite (C192_cell g i j), (C192_cell g i' j') in E by auto. destruct C as (I & J & _), C' as (I' & J' & _).
  destruct (Z.lt_trichotomy j j') as [L|[->|L]]; [exfalso|split; lia|exfalso].
  - assert ((j + 1) * gnx g <= j' * gnx g)%Z by (apply Z.mul_le_mono_nonneg_r; lia). lia.
  - assert ((j' + 1) * gnx g <= j * gnx g)%Z by (apply Z.mul_le_mono_nonneg_r; lia). lia.
Qed.
Print Assumptions C192_cell.
Print Assumptions C192_range.
Print Assumptions C192_outside.
Print Assumptions C192_distinct.
Definition grid32 : fgrid := {| gx0 := 1; gy0 := 0; gdx := 2; gdy := 1 / 2; gnx := 3; gny := 2 |}.
Example C192_case : gridok grid32 /\ in_cell grid32 2 1 6 (3 / 4) /\ in_cell grid32 0 0 1 0.
Proof. unfold gridok, in_cell; cbn. repeat split; try lia; try lra. Qed.

(** *** C193: values at nodes *)
(** bilinear functions are reproduced, everywhere *)
Theorem C193_bilinear g node a b c d : gridok g ->
  (forall i j, (0 <= i <= gnx g)%Z -> (0 <= j <= gny g)%Z -> node (j * (gnx g + 1) + i)%Z = let X := gx0 g + IZR i * gdx g in let Y := gy0 g + IZR j * gdy g in a + b * X + c * Y + d * X * Y) ->
  forall x y, nodal_value g node x y = a + b * x + c * y + d * x * y.
Proof.
  intros (Px & Py & Nx & Ny) H x y. unfold nodal_value. cbv zeta.
  pose proof (clamp_range (Int_part ((x - gx0 g) / gdx g)) _ Nx) as I. pose proof (clamp_range (Int_part ((y - gy0 g) / gdy g)) _ Ny) as J.
  revert I J. generalize (clampz (Int_part ((x - gx0 g) / gdx g)) (gnx g)) as i. generalize (clampz (Int_part ((y - gy0 g) / gdy g)) (gny g)) as j. intros j i I J.
  rewrite !H by lia. cbv zeta. rewrite !plus_IZR. field. lra.
Qed.
(** at a node, its value *)
Theorem C193_node g node i j : gridok g -> (0 <= i <= gnx g)%Z -> (0 <= j <= gny g)%Z ->
  nodal_value g node (gx0 g + IZR i * gdx g) (gy0 g + IZR j * gdy g) = node (j * (gnx g + 1) + i)%Z.
Proof.
  intros (Px & Py & Nx & Ny) I J. unfold nodal_value. cbv zeta.
  replace (Int_part ((gx0 g + IZR i * gdx g - gx0 g) / gdx g)) with i by (symmetry; apply floor_cell; [auto|lra]).
  replace (Int_part ((gy0 g + IZR j * gdy g - gy0 g) / gdy g)) with j by (symmetry; apply floor_cell; [auto|lra]).
  replace ((gx0 g + IZR i * gdx g - gx0 g) / gdx g) with (IZR i) by (field; lra). replace ((gy0 g + IZR j * gdy g - gy0 g) / gdy g) with (IZR j) by (field; lra).
  assert (K : forall k n, (0 <= k <= n)%Z -> (0 < n)%Z -> (clampz k n = k \/ (k = n /\ clampz k n = (k - 1)%Z))).
  { intros k n Hk Hn. destruct (Z.eq_dec k n) as [->|Ne]; [right|left; apply clamp_in; lia]. split; auto. unfold clampz. destruct (Z.ltb_spec n 0); [lia|]. destruct (Z.leb_spec n n); lia. }
  destruct (K i _ I Nx) as [->|(Ei & ->)], (K j _ J Ny) as [->|(Ej & ->)]; rewrite ?minus_IZR.
  - replace (IZR i - IZR i) with 0 by ring. replace (IZR j - IZR j) with 0 by ring. ring.
  - replace (IZR i - IZR i) with 0 by ring. replace (IZR j - (IZR j - 1)) with 1 by ring. replace ((j - 1 + 1) * (gnx g + 1) + i)%Z with (j * (gnx g + 1) + i)%Z by ring. ring.
  - replace (IZR i - (IZR i - 1)) with 1 by ring. replace (IZR j - IZR j) with 0 by ring. replace (i - 1 + 1)%Z with i by ring. ring.
  - replace (IZR i - (IZR i - 1)) with 1 by ring. replace (IZR j - (IZR j - 1)) with 1 by ring. replace ((j - 1 + 1) * (gnx g + 1) + (i - 1 + 1))%Z with (j * (gnx g + 1) + i)%Z by ring. ring.
Qed.
(** inside the domain, between the smallest and the largest value *)
Lemma frac_range a d n x : 0 < d -> (0 < n)%Z -> a <= x <= a + IZR n * d -> 0 <= (x - a) / d - IZR (clampz (Int_part ((x - a) / d)) n) <= 1.
Proof.
  intros P N [A B]. set (s := (x - a) / d). assert (S0 : 0 <= s) by (apply Rmult_le_pos; [lra|left; apply Rinv_0_lt_compat; auto]).
  assert (S1 : s <= IZR n) by (apply (Rmult_le_reg_r d); auto; unfold s; replace ((x - a) / d * d) with (x - a) by (field; lra); lra).
  destruct (base_Int_part s) as [C D]. assert (F : (0 <= Int_part s)%Z) by (enough ((-1 < Int_part s)%Z) by lia; apply lt_IZR; lra).
  unfold clampz. destruct (Z.ltb_spec (Int_part s) 0); [lia|]. destruct (Z.leb_spec n (Int_part s)) as [G|G]; [|lra].
  apply IZR_le in G. rewrite minus_IZR. lra.
Qed.
Theorem C193_between g node lo hi x y : gridok g -> (forall i j, (0 <= i <= gnx g)%Z -> (0 <= j <= gny g)%Z -> lo <= node (j * (gnx g + 1) + i)%Z <= hi) ->
  gx0 g <= x <= gx0 g + IZR (gnx g) * gdx g -> gy0 g <= y <= gy0 g + IZR (gny g) * gdy g -> lo <= nodal_value g node x y <= hi.
Proof.
  intros (Px & Py & Nx & Ny) H X Y. unfold nodal_value. cbv zeta. pose proof (frac_range _ _ _ _ Px Nx X) as TX. pose proof (frac_range _ _ _ _ Py Ny Y) as TY.
  pose proof (clamp_range (Int_part ((x - gx0 g) / gdx g)) _ Nx) as I. pose proof (clamp_range (Int_part ((y - gy0 g) / gdy g)) _ Ny) as J.
  set (i := clampz (Int_part ((x - gx0 g) / gdx g)) (gnx g)) in *. set (j := clampz (Int_part ((y - gy0 g) / gdy g)) (gny g)) in *.
  pose proof (H i j ltac:(lia) ltac:(lia)) as H1. pose proof (H (i + 1)%Z j ltac:(lia) ltac:(lia)) as H2. pose proof (H i (j + 1)%Z ltac:(lia) ltac:(lia)) as H3. pose proof (H (i + 1)%Z (j + 1)%Z ltac:(lia) ltac:(lia)) as H4.
  set (tx := (x - gx0 g) / gdx g - IZR i) in *. set (ty := (y - gy0 g) / gdy g - IZR j) in *.
  assert (L : forall t p q, 0 <= t <= 1 -> lo <= p <= hi -> lo <= q <= hi -> lo <= (1 - t) * p + t * q <= hi) by (intros; nra).
  pose proof (L tx _ _ TX H1 H2) as A. pose proof (L tx _ _ TX H3 H4) as B. pose proof (L ty _ _ TY A B) as C. lra.
Qed.
Print Assumptions C193_bilinear.
Print Assumptions C193_node.
Print Assumptions C193_between.
Example C193_case : gridok grid32 /\ (gx0 grid32 <= 4 <= gx0 grid32 + IZR (gnx grid32) * gdx grid32) /\ forall i j, (0 <= i <= gnx grid32)%Z -> (0 <= j <= gny grid32)%Z -> 0 <= (fun k => IZR k) (j * (gnx grid32 + 1) + i)%Z <= 11.
Proof. split; [apply C192_case|]. split; [cbn; lra|]. cbn. intros i j I J. split; apply IZR_le; lia. Qed.

(** *** C199: the grid of a file *)
Lemma insert_in x l a : In a (insert x l) <-> a = x \/ In a l.
Proof. induction l as [|y r IH]; cbn; [intuition|]. destruct Rle_dec; cbn; rewrite ?IH; intuition. Qed.
Lemma sort_in l a : In a (sort l) <-> In a l.
Proof. induction l as [|x l IH]; cbn; [tauto|]. rewrite insert_in, IH. intuition. Qed.
Lemma insert_sorted x l : StronglySorted Rle l -> StronglySorted Rle (insert x l).
Proof.
  induction 1 as [|y r S IH F]; cbn; [repeat constructor|]. destruct Rle_dec as [L|L].
  - constructor; [constructor; auto|]. constructor; [auto|]. rewrite Forall_forall in *. intros z Z. specialize (F z Z). lra.
  - constructor; auto. rewrite Forall_forall in *. intros z Z. apply insert_in in Z. destruct Z as [->|Z]; [lra|auto].
Qed.
Lemma sort_sorted l : StronglySorted Rle (sort l).
Proof. induction l; cbn; [constructor|apply insert_sorted; auto]. Qed.
Lemma dedup_spec eps l : forall a, StronglySorted Rle (a :: l) -> 0 < eps -> (forall x y, In x (a :: l) -> In y (a :: l) -> x < y -> x + eps <= y) ->
  StronglySorted Rlt (a :: dedup eps a l) /\ forall z, In z (a :: dedup eps a l) <-> In z (a :: l).
Proof.
  induction l as [|b l IH]; intros a S E G; cbn [dedup]; [split; [constructor; constructor|tauto]|].
  inversion S as [|? ? S1 F]; subst. assert (AB : a <= b) by (rewrite Forall_forall in F; apply F; cbn; auto).
  destruct (Rlt_dec (Rabs (a - b)) eps) as [L|L].
  - assert (Eab : a = b). { destruct AB as [AB|AB]; auto. pose proof (G a b ltac:(cbn; auto) ltac:(cbn; auto) AB). rewrite Rabs_left in L by lra. lra. }
    subst b. destruct (IH a) as [P Q]; auto. { intros x y X Y. apply G; cbn in *; tauto. } split; auto. intros z. rewrite Q. cbn. tauto.
  - assert (LT : a < b). { destruct AB as [AB|AB]; auto. exfalso. subst b. apply L. replace (a - a) with 0 by ring. rewrite Rabs_R0. auto. }
    destruct (IH b) as [P Q]; auto. { intros x y X Y. apply G; cbn in *; tauto. } split.
    + constructor; auto. rewrite Forall_forall. intros z Z. apply Q in Z. destruct Z as [<-|Z]; auto. inversion S1 as [|? ? _ F1]; subst. rewrite Forall_forall in F1. specialize (F1 z Z). lra.
    + intros z. specialize (Q z). cbn [In] in *. tauto.
Qed.
Lemma strict_unique l : forall m, StronglySorted Rlt l -> StronglySorted Rlt m -> (forall z, In z l <-> In z m) -> l = m.
Proof.
  induction l as [|a l IH]; intros m S T E.
  - destruct m as [|b m]; auto. exfalso. apply (E b). cbn; auto.
  - destruct m as [|b m]; [exfalso; apply (E a); cbn; auto|]. inversion S as [|? ? S1 F]; inversion T as [|? ? T1 G]; subst. rewrite Forall_forall in F, G.
    assert (AB : a = b).
    { destruct (proj1 (E a) (or_introl eq_refl)) as [|A]; auto. destruct (proj2 (E b) (or_introl eq_refl)) as [|B]; auto. specialize (F b B). specialize (G a A). lra. }
    subst b. f_equal. apply IH; auto. intros z. split; intros Z.
    + destruct (proj1 (E z) (or_intror Z)) as [->|]; auto. specialize (F z Z). lra.
    + destruct (proj2 (E z) (or_intror Z)) as [->|]; auto. specialize (G z Z). lra.
Qed.
Definition axis_points (a d : R) (n : nat) : list R := map (fun i => a + INR i * d) (seq 0 (S n)).
(** cs are coordinates of a uniform axis of n cells, in any order and number *)
Definition uniform_axis (a d : R) (n : nat) (cs : list R) : Prop := forall c, In c cs <-> exists i, (i <= n)%nat /\ c = a + INR i * d.
Lemma axis_sorted a d : 0 < d -> forall n k, StronglySorted Rlt (map (fun i => a + INR i * d) (seq k n)).
Proof.
  intros P. induction n as [|n IH]; intros k; cbn; constructor; auto. rewrite Forall_forall. intros z Z. apply in_map_iff in Z. destruct Z as (i & <- & I). apply in_seq in I.
  assert (INR k < INR i) by (apply lt_INR; lia). nra.
Qed.
Lemma unique_axis a d n cs eps : 0 < eps -> eps <= d -> uniform_axis a d n cs -> unique_sorted eps cs = axis_points a d n.
Proof.
  intros E D U. unfold unique_sorted. pose proof (sort_sorted cs) as S. pose proof (sort_in cs) as SI. destruct (sort cs) as [|b r].
  - exfalso. apply (SI (a + INR 0 * d)). apply U. exists 0%nat. split; [lia|auto].
  - destruct (dedup_spec eps r b S E) as [P Q].
    + intros x y X Y L. apply SI, U in X. apply SI, U in Y. destruct X as (i & Hi & ->), Y as (j & Hj & ->). assert (INR i < INR j) by nra. apply INR_lt in H. assert (INR (Datatypes.S i) <= INR j) by (apply le_INR; lia). rewrite S_INR in H0. nra.
    + apply strict_unique; auto; [apply axis_sorted; lra|]. intros z. rewrite Q, SI, (U z). unfold axis_points. rewrite in_map_iff. split; intros (i & A & B).
      * exists i. split; auto. apply in_seq. lia.
      * exists i. apply in_seq in B. split; [lia|auto].
Qed.
Lemma steps_axis a d n : forall k, Forall (fun s => s = d) (steps (map (fun i => a + INR i * d) (seq k n))).
Proof.
  induction n as [|[|n] IH]; intros k; cbn [seq map steps]; try constructor.
  - rewrite S_INR. ring.
  - apply (IH (Datatypes.S k)).
Qed.
Lemma pow10_pos k : 0 < / 10 ^ k. Proof. apply Rinv_0_lt_compat, pow_lt. lra. Qed.
Theorem C199_axis a d n cs : (1 <= n)%nat -> / 10 ^ 10 <= d -> uniform_axis a d n cs -> grid_axis cs = Some (a, d, Z.of_nat n).
Proof.
  intros N D U. unfold grid_axis. rewrite (unique_axis a d n cs _ (pow10_pos 10) D U). destruct n as [|n]; [lia|]. pose proof (steps_axis a d (Datatypes.S (Datatypes.S n)) 0) as F.
  assert (X : forall b l, b = d -> Forall (fun s => s = d) l -> forallb (fun e => if Rlt_dec (axis_tol b) (Rabs (e - b)) then false else true) l = true).
  { intros b l -> Hl. apply forallb_forall. intros e I. rewrite Forall_forall in Hl. rewrite (Hl e I). replace (d - d) with 0 by ring. rewrite Rabs_R0. destruct Rlt_dec as [L|]; auto. exfalso.
    assert (0 < axis_tol d) by (unfold axis_tol; eapply Rlt_le_trans; [apply (pow10_pos 8)|apply Rmax_l]). lra. }
  unfold axis_points. cbn [seq map] in *. cbn [steps uniform_step] in *. inversion F as [|? ? E F']; subst.
  rewrite X; [|exact E|exact F']. match goal with |- Some (?o, ?s, ?k) = _ => replace s with d by (symmetry; exact E); replace o with a by (cbn; ring) end. repeat f_equal. cbn [length]. rewrite map_length, seq_length. lia.
Qed.
(** A file of a uniform rectangular grid gives that grid, if the number of elements is right. *)
Theorem C199_grid x0 dx nx xs y0 dy ny ys ne : (1 <= nx)%nat -> (1 <= ny)%nat -> / 10 ^ 10 <= dx -> / 10 ^ 10 <= dy -> uniform_axis x0 dx nx xs -> uniform_axis y0 dy ny ys ->
  grid_of xs ys ne = if (Z.of_nat nx * Z.of_nat ny =? ne)%Z then Some {| gx0 := x0; gy0 := y0; gdx := dx; gdy := dy; gnx := Z.of_nat nx; gny := Z.of_nat ny |} else None.
Proof. intros Nx Ny Dx Dy Ux Uy. unfold grid_of. rewrite (C199_axis x0 dx nx), (C199_axis y0 dy ny) by auto. reflexivity. Qed.
Print Assumptions C199_axis.
Print Assumptions C199_grid.
Example C199_case : uniform_axis 1 2 3 [5; 1; 7; 3; 1; 5].
Proof.
  intros c. split.
  - intros I. assert (E : exists i, (i <= 3)%nat /\ c = 1 + INR i * 2).
    { cbn in I. destruct I as [<-|[<-|[<-|[<-|[<-|[<-|[]]]]]]]; [exists 2%nat|exists 0%nat|exists 3%nat|exists 1%nat|exists 0%nat|exists 2%nat]; (split; [lia|cbn; lra]). } exact E.
  - intros (i & Hi & ->). destruct i as [|[|[|[|]]]]; try lia; cbn; [right; left; lra|right; right; right; left; lra|left; lra|right; right; left; lra].
Qed.

(** *** C194: values of the elements of a file *)
(** [cell e]: the column and row of element e of the file. *)
(** Row-wise numbered files: at a point of an element, its own value is used ... *)
Theorem C194_partial {V} g (val : Z -> V) (cell : Z -> Z * Z) e x y : gridok g ->
  (forall i j, (0 <= i < gnx g)%Z -> (0 <= j < gny g)%Z -> forall e, cell e = (i, j) -> e = (j * gnx g + i)%Z) ->
  in_cell g (fst (cell e)) (snd (cell e)) x y -> val (element_id g x y) = val e.
Proof. intros G C I. rewrite (C192_cell g _ _ x y G I). destruct I as (A & B & _). rewrite <- (C _ _ A B e) by (destruct (cell e); auto). auto. Qed.
(** ... a file numbered column by column is accepted, and values of other elements are used. *)
Theorem C194_refuted : let cell := fun e : Z => (e / 2, e mod 2)%Z in
  exists g, grid_of [0; 0; 0; 1; 1; 1; 2; 2; 2] [0; 1; 2; 0; 1; 2; 0; 1; 2] 4 = Some g /\ in_cell g (fst (cell 1%Z)) (snd (cell 1%Z)) (/ 2) (3 / 2) /\ element_id g (/ 2) (3 / 2) = 2%Z.
Proof.
  intros cell. assert (U : forall cs, (forall c, In c cs <-> c = 0 \/ c = 1 \/ c = 2) -> uniform_axis 0 1 2 cs).
  { intros cs H c. rewrite H. split; [intros [->|[->| ->]]; [exists 0%nat|exists 1%nat|exists 2%nat]; (split; [lia|cbn; lra])|].
    intros (i & Hi & ->). destruct i as [|[|[|]]]; try lia; cbn; [left|right; left|right; right]; lra. }
  assert (T : / 10 ^ 10 <= 1) by (pose proof (Rinv_le_contravar 1 (10 ^ 10) ltac:(lra) ltac:(apply pow_R1_Rle; lra)); lra).
  eexists. split; [|].
  - rewrite (C199_grid 0 1 2 _ 0 1 2); auto; [reflexivity|apply U; intros c; cbn; intuition|apply U; intros c; cbn; intuition].
  - split.
    + unfold in_cell; cbn. repeat split; try lia; lra.
    + rewrite (C192_cell _ 0 1); [reflexivity| |]; [unfold gridok; cbn; repeat split; try lia; lra|unfold in_cell; cbn; repeat split; try lia; lra].
Qed.
Print Assumptions C194_partial.
Print Assumptions C194_refuted.

(** *** C200: uneven grids are refused *)
(** With spacing at least one: the spacings of an accepted grid agree to 1e-4 of the first ... *)
Theorem C200_partial cs a d n : grid_axis cs = Some (a, d, n) -> 1 <= d -> forall s, In s (steps (unique_sorted (/ 10 ^ 10) cs)) -> Rabs (s - d) <= d / 10 ^ 4.
Proof.
  intros H D s I. unfold grid_axis in H. destruct (unique_sorted _ cs) as [|p [|q r]]; try discriminate. destruct (uniform_step _) as [b|] eqn:U; [|discriminate]. injection H. intros _ -> _. clear H.
  cbn [steps] in U, I. cbn [uniform_step] in U. destruct (forallb _ _) eqn:F; [|discriminate]. injection U. intros <-. assert (P : 0 < / 10 ^ 4) by apply pow10_pos.
  destruct I as [<-|I].
  - rewrite Rminus_diag_eq, Rabs_R0 by auto. unfold Rdiv. nra.
  - rewrite forallb_forall in F. specialize (F s I). cbn beta in F. destruct Rlt_dec as [|L]; [discriminate|]. apply Rnot_lt_le in L. unfold axis_tol in L. rewrite (Rabs_right (q - p)), (Rmax_right 1 (q - p)) in L by lra.
    eapply Rle_trans; [exact L|]. apply Rmax_lub; [|unfold Rdiv; lra]. assert (/ 10 ^ 8 <= / 10 ^ 4) by (apply Rinv_le_contravar; [apply pow_lt; lra|apply Rle_pow; [lra|lia]]). unfold Rdiv. nra.
Qed.
(** ... small cells: spacings of 1e-5 and 9e-5 are taken as even. *)
Theorem C200_refuted : grid_axis [0; / 10 ^ 5; / 10 ^ 4] = Some (0, / 10 ^ 5, 2%Z) /\ steps (unique_sorted (/ 10 ^ 10) [0; / 10 ^ 5; / 10 ^ 4]) = [/ 10 ^ 5; 9 * / 10 ^ 5].
Proof.
  set (t := / 10 ^ 5). assert (T : 0 < t) by apply pow10_pos. assert (E4 : / 10 ^ 4 = 10 * t) by (unfold t; field). rewrite E4.
  assert (E10 : / 10 ^ 10 = t * t) by (unfold t; field). assert (T1 : t <= / 10) by (unfold t; lra).
  assert (U : unique_sorted (/ 10 ^ 10) [0; t; 10 * t] = [0; t; 10 * t]).
  { unfold unique_sorted. assert (S : sort [0; t; 10 * t] = [0; t; 10 * t]) by (cbn; destruct (Rle_dec t (10 * t)); [|lra]; cbn; destruct (Rle_dec 0 t); [auto|lra]). rewrite S. cbn [dedup]. rewrite E10.
    destruct (Rlt_dec (Rabs (0 - t)) (t * t)) as [L|]; [rewrite Rabs_left in L by lra; nra|]. destruct (Rlt_dec (Rabs (t - 10 * t)) (t * t)) as [L|]; [rewrite Rabs_left in L by lra; nra|auto]. }
  unfold grid_axis. rewrite U. cbn [steps uniform_step forallb length]. split.
  - destruct (Rlt_dec _ _) as [L|L]; cbn [andb].
    + exfalso. assert (A : 10 * t <= axis_tol (t - 0)). { unfold axis_tol. rewrite <- E4. eapply Rle_trans; [|apply Rmax_r]. rewrite <- (Rmult_1_r (/ 10 ^ 4)) at 1. apply Rmult_le_compat_l; [left; apply pow10_pos|apply Rmax_l]. }
      rewrite Rabs_right in L by lra. lra.
    + rewrite Rminus_0_r. reflexivity.
  - f_equal; [ring|f_equal; ring].
Qed.
Print Assumptions C200_partial.
Print Assumptions C200_refuted.

(** *** C195: the rate of spread *)
Lemma tol_pos : 0 < zero_tol. Proof. apply pow10_pos. Qed.
Lemma gnorm_pos p : 0 < gnorm p.
Proof. pose proof tol_pos. apply sqrt_lt_R0. nra. Qed.
Lemma gnorm_sq p : gnorm p * gnorm p = fpx p * fpx p + fpy p * fpy p + zero_tol * zero_tol.
Proof. pose proof tol_pos. apply sqrt_sqrt. nra. Qed.
Lemma size2_sq a b : size2 a b * size2 a b = a * a + b * b + zero_tol * zero_tol.
Proof. pose proof tol_pos. apply sqrt_sqrt. nra. Qed.
Lemma size2_nn a b : 0 <= size2 a b. Proof. apply sqrt_pos. Qed.
Lemma along_le a b p : Rabs (along a b p) <= size2 a b.
Proof.
  apply Rsqr_le_abs_0_alt || idtac. rewrite <- (Rabs_right (size2 a b)) by (apply Rle_ge, size2_nn). apply Rsqr_le_abs_0. unfold Rsqr. rewrite size2_sq.
  unfold along. pose proof (gnorm_pos p) as G. pose proof (gnorm_sq p) as GS. pose proof tol_pos as T.
  replace ((a * (fpx p * (1 / gnorm p)) + b * (fpy p * (1 / gnorm p))) * (a * (fpx p * (1 / gnorm p)) + b * (fpy p * (1 / gnorm p)))) with ((a * fpx p + b * fpy p) * (a * fpx p + b * fpy p) / (gnorm p * gnorm p)) by (field; lra).
  assert (P : 0 < gnorm p * gnorm p) by nra. apply (Rmult_le_reg_r (gnorm p * gnorm p)); auto. unfold Rdiv. rewrite Rmult_assoc, Rinv_l, Rmult_1_r by lra. rewrite GS.
  assert (0 <= (a * fpy p - b * fpx p) * (a * fpy p - b * fpx p)) by apply Rle_0_sqr. assert (0 <= zero_tol * zero_tol) by nra. nra.
Qed.
Lemma heaviside_range x : 0 < heaviside x < 1.
Proof.
  unfold heaviside, tanh, sinh, cosh. pose proof (exp_pos x) as A. pose proof (exp_pos (- x)) as B.
  replace (/ 2 * (1 + (exp x - exp (- x)) / 2 / ((exp x + exp (- x)) / 2))) with (exp x / (exp x + exp (- x))) by (field; lra). split; [apply Rmult_lt_0_compat; auto; apply Rinv_0_lt_compat; lra|].
  apply (Rmult_lt_reg_r (exp x + exp (- x))); [lra|]. unfold Rdiv. rewrite Rmult_assoc, Rinv_l by lra. lra.
Qed.
Lemma gate_range s p : 0 < gate s p <= 1.
Proof. unfold gate. split; [apply exp_pos|]. rewrite <- exp_0. assert (- (phi_scaled s p * phi_scaled s p) <= 0) by (pose proof (Rle_0_sqr (phi_scaled s p)); unfold Rsqr in *; lra). destruct H; [left; apply exp_increasing; auto|rewrite H; lra]. Qed.
Lemma exp_mono a b : a <= b -> exp a <= exp b.
Proof. intros [L| ->]; [left; apply exp_increasing; auto|lra]. Qed.
Lemma effect_le g c a m : 0 < g <= 1 -> 0 <= c -> 0 <= m -> Rabs a <= m -> g * c * (a / (1 + m)) <= c.
Proof.
  intros G C M A. assert (L : a / (1 + m) <= 1). { apply (Rmult_le_reg_r (1 + m)); [lra|]. unfold Rdiv. rewrite Rmult_assoc, Rinv_l by lra. pose proof (Rle_abs a); lra. }
  assert (0 <= g * c) by nra. nra.
Qed.
Lemma wind_le s p : 0 <= windC s -> wind_corr s p <= exp (windC s).
Proof. intros C. apply exp_mono. apply effect_le; auto; [apply gate_range|apply size2_nn|apply along_le]. Qed.
Lemma slope_le s p : 0 <= slopeC s -> slope_corr s p <= exp (slopeC s).
Proof.
  intros C. apply exp_mono. replace (gate s p * slopeC s * along (fsx p) (fsy p) p / (1 + size2 (fsx p) (fsy p))) with (gate s p * slopeC s * (along (fsx p) (fsy p) p / (1 + size2 (fsx p) (fsy p)))) by (unfold Rdiv; ring).
  apply effect_le; auto; [apply gate_range|apply size2_nn|apply along_le].
Qed.
(** It is not negative and at most the base rate times the largest factors of wind and slope. *)
Theorem C195_bounds s rate p : 0 <= rate -> 0 <= fisfuel p <= 1 -> 0 <= windC s -> 0 <= slopeC s -> 0 <= spread s rate p <= rate * exp (windC s) * exp (slopeC s).
Proof.
  intros R0 [F0 F1] Wc Sc. unfold spread. pose proof (wind_le s p Wc) as W. pose proof (slope_le s p Sc) as S. pose proof (exp_pos (gate s p * windC s * (along (fwx p) (fwy p) p / (1 + size2 (fwx p) (fwy p))))) as WP. fold (wind_corr s p) in WP.
  assert (SP : 0 < slope_corr s p) by apply exp_pos. pose proof (heaviside_range (burnC s * phi_scaled s p - fthresh s)) as H. fold (fuel_corr s p) in H.
  set (w := wind_corr s p) in *. set (k := slope_corr s p) in *. set (h := fuel_corr s p) in *. set (f := fisfuel p) in *. set (W' := exp (windC s)) in *. set (S' := exp (slopeC s)) in *.
  assert (A : 0 <= rate * h <= rate) by nra. assert (B : 0 <= rate * h * w <= rate * W') by nra. assert (C : 0 <= rate * h * w * k <= rate * W' * S') by nra. nra.
Qed.
(** No spread without fuel. *)
Theorem C195_none s rate p : fisfuel p = 0 -> spread s rate p = 0.
Proof. intros H. unfold spread. rewrite H. ring. Qed.
(** Calm and flat: the base rate, the fuel correction and the mark. *)
Theorem C195_calm s rate p : fwx p = 0 -> fwy p = 0 -> fsx p = 0 -> fsy p = 0 -> spread s rate p = rate * fuel_corr s p * fisfuel p.
Proof.
  intros A B C D. unfold spread, wind_corr, slope_corr, along. rewrite A, B, C, D. rewrite !Rmult_0_l, Rplus_0_l.
  replace (gate s p * windC s * (0 / (1 + size2 0 0))) with 0 by (unfold Rdiv; ring). replace (gate s p * slopeC s * 0 / (1 + size2 0 0)) with 0 by (unfold Rdiv; ring). rewrite exp_0. ring.
Qed.
(** Wind blowing the way of the front does not slow it; against it, does not speed it up. *)
Definition with_wind (p : fpoint) (a b : R) : fpoint := {| fphi := fphi p; fpx := fpx p; fpy := fpy p; fwx := a; fwy := b; fsx := fsx p; fsy := fsy p; fisfuel := fisfuel p |}.
Theorem C195_wind s rate p : 0 <= rate -> 0 <= fisfuel p -> 0 <= windC s ->
  (0 <= fwx p * fpx p + fwy p * fpy p -> spread s rate (with_wind p 0 0) <= spread s rate p) /\
  (fwx p * fpx p + fwy p * fpy p <= 0 -> spread s rate p <= spread s rate (with_wind p 0 0)).
Proof.
  intros R0 F0 Wc. assert (Z : wind_corr s (with_wind p 0 0) = 1).
  { unfold wind_corr, along. cbn [fwx fwy with_wind]. replace (_ * windC s * _) with 0 by (unfold Rdiv; ring). apply exp_0. }
  assert (E : along (fwx p) (fwy p) p = (fwx p * fpx p + fwy p * fpy p) * / gnorm p) by (unfold along, Rdiv; ring). pose proof (gnorm_pos p) as G. apply Rinv_0_lt_compat in G.
  assert (K : forall q, 0 <= rate * fuel_corr s q * slope_corr s q * fisfuel p).
  { intros q. pose proof (heaviside_range (burnC s * phi_scaled s q - fthresh s)) as H. fold (fuel_corr s q) in H. assert (0 < slope_corr s q) by apply exp_pos. assert (0 <= rate * fuel_corr s q) by nra. assert (0 <= rate * fuel_corr s q * slope_corr s q) by nra. nra. }
  assert (S0 : spread s rate p = rate * fuel_corr s p * slope_corr s p * fisfuel p * wind_corr s p) by (unfold spread; ring).
  assert (S1 : spread s rate (with_wind p 0 0) = rate * fuel_corr s p * slope_corr s p * fisfuel p * 1).
  { unfold spread. rewrite Z. change (fuel_corr s (with_wind p 0 0)) with (fuel_corr s p). change (slope_corr s (with_wind p 0 0)) with (slope_corr s p). change (fisfuel (with_wind p 0 0)) with (fisfuel p). ring. }
  rewrite S0, S1. pose proof (K p) as Kp. pose proof (gate_range s p) as Gt. assert (0 <= gate s p * windC s) by nra. pose proof (size2_nn (fwx p) (fwy p)) as Sz. assert (I : 0 < / (1 + size2 (fwx p) (fwy p))) by (apply Rinv_0_lt_compat; lra).
  split; intros D; apply Rmult_le_compat_l; auto; unfold wind_corr; rewrite E; unfold Rdiv.
  - apply Rle_trans with (exp 0); [rewrite exp_0; lra|apply exp_mono]. apply Rmult_le_pos; auto. apply Rmult_le_pos; [apply Rmult_le_pos; lra|lra].
  - apply Rle_trans with (exp 0); [apply exp_mono|rewrite exp_0; lra]. assert ((fwx p * fpx p + fwy p * fpy p) * / gnorm p <= 0) by nra. assert ((fwx p * fpx p + fwy p * fpy p) * / gnorm p * / (1 + size2 (fwx p) (fwy p)) <= 0) by nra. nra.
Qed.
(** Turning the front, the wind and the slope by the same angle does not change it. *)
Definition turn (c t : R) (p : fpoint) : fpoint :=
  {| fphi := fphi p; fpx := c * fpx p - t * fpy p; fpy := t * fpx p + c * fpy p; fwx := c * fwx p - t * fwy p; fwy := t * fwx p + c * fwy p; fsx := c * fsx p - t * fsy p; fsy := t * fsx p + c * fsy p; fisfuel := fisfuel p |}.
Lemma turn_dot c t a b x y : c * c + t * t = 1 -> (c * a - t * b) * (c * x - t * y) + (t * a + c * b) * (t * x + c * y) = a * x + b * y.
Proof. intros H. replace ((c * a - t * b) * (c * x - t * y) + (t * a + c * b) * (t * x + c * y)) with ((c * c + t * t) * (a * x + b * y)) by ring. rewrite H. ring. Qed.
Theorem C195_turned s rate p c t : c * c + t * t = 1 -> spread s rate (turn c t p) = spread s rate p.
Proof.
  intros H. assert (G : gnorm (turn c t p) = gnorm p) by (unfold gnorm; cbn [fpx fpy turn]; rewrite (turn_dot c t (fpx p) (fpy p) (fpx p) (fpy p) H); auto).
  assert (Z : forall a b, size2 (c * a - t * b) (t * a + c * b) = size2 a b) by (intros; unfold size2; rewrite turn_dot; auto).
  assert (A : forall a b, along (c * a - t * b) (t * a + c * b) (turn c t p) = along a b p).
  { intros a b. unfold along. rewrite G. cbn [fpx fpy turn]. replace ((c * a - t * b) * ((c * fpx p - t * fpy p) * (1 / gnorm p)) + (t * a + c * b) * ((t * fpx p + c * fpy p) * (1 / gnorm p)))
      with (((c * a - t * b) * (c * fpx p - t * fpy p) + (t * a + c * b) * (t * fpx p + c * fpy p)) * (1 / gnorm p)) by ring. rewrite turn_dot by auto. ring. }
  unfold spread, wind_corr, slope_corr. change (fwx (turn c t p)) with (c * fwx p - t * fwy p). change (fwy (turn c t p)) with (t * fwx p + c * fwy p). change (fsx (turn c t p)) with (c * fsx p - t * fsy p). change (fsy (turn c t p)) with (t * fsx p + c * fsy p).
  rewrite !A, !Z. reflexivity.
Qed.
Print Assumptions C195_bounds.
Print Assumptions C195_none.
Print Assumptions C195_calm.
Print Assumptions C195_wind.
Print Assumptions C195_turned.
Example C195_case : let p := {| fphi := 1; fpx := 3; fpy := 4; fwx := 2; fwy := 0; fsx := 0; fsy := 1; fisfuel := 1 |} in 0 <= fwx p * fpx p + fwy p * fpy p /\ 0 <= fisfuel p <= 1 /\ (3 / 5) * (3 / 5) + (4 / 5) * (4 / 5) = 1.
Proof. cbn. repeat split; lra. Qed.

(** *** C196: the front moves at the rate of spread *)
(** The transport term is the rate times the length of the gradient, up to the tolerance of
    1e-8 in the normal; the velocity is not longer than the rate. *)
Theorem C196_speed ros p : 0 <= ros -> let g := sqrt (fpx p * fpx p + fpy p * fpy p) in
  ros * (g - zero_tol) <= advection ros p <= ros * g /\ sqrt (fst (front_velocity ros p) * fst (front_velocity ros p) + snd (front_velocity ros p) * snd (front_velocity ros p)) <= ros.
Proof.
  intros R0 g. pose proof (gnorm_pos p) as N. pose proof (gnorm_sq p) as NS. pose proof tol_pos as T. assert (G0 : 0 <= g) by apply sqrt_pos.
  assert (GS : g * g = fpx p * fpx p + fpy p * fpy p) by (apply sqrt_sqrt; nra).
  assert (A : advection ros p = ros * (g * g / gnorm p)) by (unfold advection, front_velocity; cbn [fst snd]; rewrite GS; field; lra).
  assert (NG : g <= gnorm p) by nra. assert (NT : gnorm p <= g + zero_tol) by nra.
  assert (U : g * g / gnorm p <= g). { apply (Rmult_le_reg_r (gnorm p)); auto. unfold Rdiv. rewrite Rmult_assoc, Rinv_l by lra. nra. }
  assert (L : g - zero_tol <= g * g / gnorm p).
  { apply (Rmult_le_reg_r (gnorm p)); auto. unfold Rdiv. rewrite (Rmult_assoc (g * g)), Rinv_l by lra. rewrite Rmult_1_r. destruct (Rle_lt_dec g zero_tol); nra. }
  split; [rewrite A; split; apply Rmult_le_compat_l; auto|].
  apply Rle_trans with (sqrt (ros * ros)); [|rewrite sqrt_square by auto; lra]. apply sqrt_le_1; [nra|nra|]. unfold front_velocity. cbn [fst snd].
  replace (ros * fpx p / gnorm p * (ros * fpx p / gnorm p) + ros * fpy p / gnorm p * (ros * fpy p / gnorm p)) with (ros * ros * (g * g / (gnorm p * gnorm p))) by (rewrite GS; field; lra).
  assert (Q : g * g / (gnorm p * gnorm p) <= 1). { assert (N2 : 0 < gnorm p * gnorm p) by nra. apply (Rmult_le_reg_r (gnorm p * gnorm p)); auto. unfold Rdiv. rewrite Rmult_assoc, Rinv_l by lra. assert (g * g <= gnorm p * gnorm p) by (apply Rmult_le_compat; lra). lra. } assert (Rr : 0 <= ros * ros) by (apply Rmult_le_pos; auto). pose proof (Rmult_le_compat_l (ros * ros) _ 1 Rr Q). lra.
Qed.
Print Assumptions C196_speed.
Example C196_case : let p := {| fphi := 0; fpx := 3; fpy := 4; fwx := 1; fwy := 0; fsx := 0; fsy := 0; fisfuel := 1 |} in sqrt (fpx p * fpx p + fpy p * fpy p) = 5.
Proof. cbn. replace (3 * 3 + 4 * 4) with (5 * 5) by ring. apply sqrt_square. lra. Qed.

(** *** C197: reaction velocity *)
Lemma exponent_pos f : 68 <= sigma f -> 0 < expA f.
Proof.
  intros H. unfold expA. apply Rmult_lt_0_compat; [lra|]. apply Rinv_0_lt_compat. enough (727 / 4774 * 10 < Rpower (sigma f) (/ 10)) by lra.
  apply Rlt_le_trans with (15229 / 10000); [lra|]. set (b := 15229 / 10000). replace b with (Rpower (Rpower b (INR 10)) (/ 10)).
  2:{ rewrite Rpower_mult. replace (INR 10 * / 10) with 1 by (cbn; field). apply Rpower_1. unfold b; lra. }
  rewrite Rpower_pow by (unfold b; lra). apply Rle_Rpower_l; [lra|]. split; [apply pow_lt; unfold b; lra|]. unfold b. cbn. lra.
Qed.
Lemma gammaMax_pos f : 0 < sigma f -> 0 < gammaMax f.
Proof. intros H. unfold gammaMax. assert (0 < Rpower (sigma f) (3 / 2)) by apply exp_pos. apply Rmult_lt_0_compat; auto. apply Rinv_0_lt_compat. lra. Qed.
Lemma ln_le x : 0 < x -> ln x <= x - 1.
Proof. intros P. destruct (Req_dec x 1) as [->|N]; [rewrite ln_1; lra|]. destruct (Rle_lt_dec (ln x) (x - 1)) as [|L]; auto. exfalso. pose proof (exp_ineq1_le (ln x)) as E. rewrite exp_ln in E by auto. lra. Qed.
(** For fuels with surface to volume ratio 68 or more: the reaction velocity is positive and
    largest at the optimum packing ratio, where it is the maximum reaction velocity. *)
Theorem C197_optimum f ratio : 68 <= sigma f -> 0 < ratio -> 0 < reaction f ratio <= gammaMax f /\ reaction f 1 = gammaMax f.
Proof.
  intros H P. pose proof (exponent_pos f H) as A. pose proof (gammaMax_pos f ltac:(lra)) as G. unfold reaction, Rpower. rewrite ln_1, Rmult_0_r, exp_0. replace (expA f * (1 - 1)) with 0 by ring. rewrite exp_0.
  split; [|ring]. rewrite Rmult_assoc, <- exp_plus. assert (E : exp (expA f * ln ratio + expA f * (1 - ratio)) <= 1).
  { apply Rle_trans with (exp 0); [apply exp_mono|rewrite exp_0; lra]. pose proof (ln_le ratio P) as LL. assert (0 <= expA f * (ratio - 1 - ln ratio)) by (apply Rmult_le_pos; lra). lra. } pose proof (exp_pos (expA f * ln ratio + expA f * (1 - ratio))). nra.
Qed.
Print Assumptions C197_optimum.
Example C197_case : 68 <= sigma {| w0 := 1 / 10; delta := 1; sigma := 3500; Mx := 12 / 100 |}.
Proof. cbn. lra. Qed.

(** Rothermel's model (1972) in its own terms, English units; low heat content 8000, particle density 32, moisture 0.01,
    mineral contents 0.0555 and 0.01. *)
Definition rothermel (load depth ratio extinction : R) : R :=
  let p x y := exp (y * ln x) in
  let moisture := 1 / 100 / extinction in
  let bulk := load / depth in let packing := bulk / 32 in
  let optimum := 3.348 * p ratio (-0.8189) in
  let A := 1 / (4.774 * p ratio 0.1 - 7.27) in
  let vmax := p ratio 1.5 / (495 + 0.0594 * p ratio 1.5) in
  let velocity := vmax * p (packing / optimum) A * exp (A * (1 - packing / optimum)) in
  let intensity := velocity * (load / 1.0555) * 8000 * (1 - 2.59 * moisture + 5.11 * moisture ^ 2 - 3.52 * moisture ^ 3) * (0.174 * p 0.01 (-0.19)) in
  let propagating := exp ((0.792 + 0.681 * p ratio 0.5) * (packing + 0.1)) / (192 + 0.2595 * ratio) in
  intensity * propagating / (bulk * exp (-138 / ratio) * 261.16).
Theorem C197_rate f : base_rate f = rothermel (w0 f) (delta f) (sigma f) (Mx f).
Proof.
  unfold base_rate, rothermel, reaction, gammaMax, betaOp, expA, etaM, etaS, wn, rhoB, eps_heat, Qig, heat, rhoP, Mf, St, Se, Rpower. cbv zeta.
  replace (- (8189 / 10000)) with (-0.8189) by lra. replace (3348 / 1000) with 3.348 by lra. replace (4774 / 1000) with 4.774 by lra.
  replace (727 / 100) with 7.27 by lra. replace (/ 10) with 0.1 by lra. replace (3 / 2) with 1.5 by lra. replace (594 / 10000) with 0.0594 by lra.
  replace (- (19 / 100)) with (-0.19) by lra. replace (174 / 1000) with 0.174 by lra. replace (/ 2) with 0.5 by lra. replace (681 / 1000) with 0.681 by lra.
  replace (792 / 1000) with 0.792 by lra. replace (2595 / 10000) with 0.2595 by lra. replace (250 + 1116 * / 100) with 261.16 by lra.
  replace (1 + 555 / 10000) with 1.0555 by lra. replace (259 / 100) with 2.59 by lra. replace (511 / 100) with 5.11 by lra. replace (352 / 100) with 3.52 by lra.
  replace (1 / 100) with 0.01 by lra. replace (/ 100) with 0.01 by lra.
  f_equal. f_equal. f_equal. f_equal. ring.
Qed.
Print Assumptions C197_rate.

(** *** C198: moisture *)
Definition burnable (f : fuel) : Prop := 0 < w0 f /\ 0 < delta f /\ 0 < sigma f.
Lemma rate_sign f : burnable f -> exists k, 0 < k /\ base_rate f = k * etaM f.
Proof.
  intros (W & D & Sg). unfold base_rate. cbv zeta. set (beta := rhoB f / rhoP).
  set (xi := exp ((792 / 1000 + 681 / 1000 * Rpower (sigma f) (/ 2)) * (beta + / 10)) / (192 + 2595 / 10000 * sigma f)).
  assert (X : 0 < xi) by (apply Rmult_lt_0_compat; [apply exp_pos|apply Rinv_0_lt_compat; lra]).
  assert (G : 0 < reaction f (beta / betaOp f)). { unfold reaction. apply Rmult_lt_0_compat; [apply Rmult_lt_0_compat; [apply gammaMax_pos; auto|apply exp_pos]|apply exp_pos]. }
  assert (Wn : 0 < wn f) by (unfold wn, St; apply Rmult_lt_0_compat; auto; apply Rinv_0_lt_compat; lra). assert (H : 0 < heat) by (unfold heat; lra).
  assert (Es : 0 < etaS) by (unfold etaS; apply Rmult_lt_0_compat; [lra|apply exp_pos]). assert (B : 0 < rhoB f) by (unfold rhoB; apply Rmult_lt_0_compat; auto; apply Rinv_0_lt_compat; auto).
  assert (Ep : 0 < eps_heat f) by apply exp_pos. assert (Q : 0 < Qig) by (unfold Qig, Mf; lra).
  exists (reaction f (beta / betaOp f) * wn f * heat * etaS * xi / (rhoB f * eps_heat f * Qig)). split; [|field; repeat split; apply Rgt_not_eq; unfold Rgt; assumption].
  apply Rmult_lt_0_compat; [do 4 (apply Rmult_lt_0_compat; [|assumption]); assumption|apply Rinv_0_lt_compat; do 2 (apply Rmult_lt_0_compat; [|assumption]); assumption].
Qed.
Lemma etaM_factor f : Mx f <> 0 -> let r := Mf / Mx f in etaM f = (1 - r) * (1 - 159 / 100 * r + 352 / 100 * (r * r)).
Proof. intros H r. unfold etaM. fold r. field. Qed.
(** Fuel no wetter than its moisture of extinction: the base rate is not negative, and zero
    exactly at extinction ... *)
Theorem C198_partial f : burnable f -> Mf <= Mx f -> 0 <= base_rate f /\ (base_rate f = 0 <-> Mx f = Mf).
Proof.
  intros Bn M. assert (P : 0 < Mf) by (unfold Mf; lra). destruct (rate_sign f Bn) as (k & K & ->). rewrite etaM_factor by lra. cbv zeta. set (r := Mf / Mx f).
  assert (R1 : r <= 1). { apply (Rmult_le_reg_r (Mx f)); [lra|]. unfold r, Rdiv. rewrite Rmult_assoc, Rinv_l by lra. lra. }
  assert (Q : 0 < 1 - 159 / 100 * r + 352 / 100 * (r * r)) by nra. assert (0 <= (1 - r) * (1 - 159 / 100 * r + 352 / 100 * (r * r))) by nra. split; [nra|]. split.
  - intros E. apply Rmult_integral in E. destruct E as [E|E]; [lra|]. apply Rmult_integral in E. destruct E as [E|E]; [|lra]. assert (r = 1) by lra. unfold r in H0. apply (f_equal (fun z => z * Mx f)) in H0. unfold Rdiv in H0. rewrite Rmult_assoc, Rinv_l in H0 by lra. lra.
  - intros E. assert (r = 1) by (unfold r; rewrite E; field; lra). rewrite H0. ring.
Qed.
(** ... wetter fuel gets a negative rate: the front runs backwards. *)
Theorem C198_refuted : let f := {| w0 := 1 / 10; delta := 1; sigma := 3500; Mx := / 200 |} in burnable f /\ base_rate f < 0.
Proof.
  intros f. assert (Bn : burnable f) by (unfold burnable, f; cbn; lra). split; auto. destruct (rate_sign f Bn) as (k & K & ->). assert (etaM f < 0) by (unfold etaM, f, Mf; cbn [Mx]; cbv zeta; replace (/ 100 / / 200) with 2 by field; lra). nra.
Qed.
Print Assumptions C198_partial.
Print Assumptions C198_refuted.
