(** C44, C45, C57: nearest data points and microstructure seeds. *)
From Coq Require Import Bool Arith Lia Reals Lra List.
From Verif Require Import Nearest_Model.
Import ListNotations.
Local Open Scope R_scope.

Lemma scan_spec x g : forall i node dist,
  let '(k, d) := scan x g i node dist in
  (d = dist /\ k = node /\ forall j a, nth_error g j = Some a -> dist <= (x - a) * (x - a)) \/
  (exists a, (i <= k)%nat /\ nth_error g (k - i) = Some a /\ d = (x - a) * (x - a) /\ d < dist /\
     (forall j b, nth_error g j = Some b -> d <= (x - b) * (x - b)) /\
     (forall j b, (j < k - i)%nat -> nth_error g j = Some b -> d < (x - b) * (x - b))).
Proof.
  induction g as [|a g IH]; intros i node dist; cbn [scan].
  - left. split; auto. split; auto. intros [|j] b H; discriminate.
  - destruct (Rlt_dec _ dist) as [L|L].
    + specialize (IH (S i) i ((x - a) * (x - a))). destruct (scan x g (S i) i _) as [k d].
      destruct IH as [(-> & -> & H)|(b & Hk & Hb & -> & Hl & Hm & Hf)].
      * right. exists a. replace (i - i)%nat with 0%nat by lia. split; [lia|]. split; [reflexivity|]. split; [auto|]. split; [auto|].
        split; [|intros; lia]. intros [|j] b Hj; cbn in Hj; [injection Hj as <-; lra|]. exact (H j b Hj).
      * right. exists b. replace (k - i)%nat with (S (k - S i)) by lia. split; [lia|]. split; [exact Hb|]. split; [auto|]. split; [lra|].
        split; intros [|j] b' Hj; try (intros Hj'); cbn in *.
        -- injection Hj as <-. lra.
        -- eauto.
        -- injection Hj' as <-. lra.
        -- apply (Hf j); auto. lia.
    + specialize (IH (S i) node dist). destruct (scan x g (S i) node dist) as [k d].
      destruct IH as [(-> & -> & H)|(b & Hk & Hb & -> & Hl & Hm & Hf)].
      * left. split; auto. split; auto. intros [|j] b Hj; cbn in Hj; [injection Hj as <-; lra|]. exact (H j b Hj).
      * right. exists b. replace (k - i)%nat with (S (k - S i)) by lia. split; [lia|]. split; [exact Hb|]. split; [auto|]. split; [auto|].
        split; intros [|j] b' Hj; try (intros Hj'); cbn in *.
        -- injection Hj as <-. lra.
        -- eauto.
        -- injection Hj' as <-. lra.
        -- apply (Hf j); auto. lia.
Qed.

Definition in_range (x : R) (g : nat -> R) (n : nat) := exists i, (i < n)%nat /\ (x - g i) * (x - g i) < rand_max.

Lemma scan_axis x g n l : in_range x g n -> length l = n -> (forall i, (i < n)%nat -> nth_error l i = Some (g i)) ->
  exists k, scan x l 0 0 rand_max = (k, (x - g k) * (x - g k)) /\ (k < n)%nat /\
    (forall j, (j < n)%nat -> (x - g k) * (x - g k) <= (x - g j) * (x - g j)) /\
    (forall j, (j < k)%nat -> (x - g k) * (x - g k) < (x - g j) * (x - g j)).
Proof.
  intros (i & Hi & Hr) Hl Hn. pose proof (scan_spec x l 0 0 rand_max) as S.
  destruct (scan x l 0 0 rand_max) as [k d]. destruct S as [(_ & _ & H)|(a & _ & Ha & Hd & _ & Hm & Hf)].
  - specialize (H i (g i) (Hn i Hi)). lra.
  - rewrite Nat.sub_0_r in *.
    assert (Hk : (k < n)%nat). { rewrite <- Hl. apply nth_error_Some. rewrite Ha. discriminate. }
    rewrite (Hn k Hk) in Ha. injection Ha as <-. exists k. rewrite Hd in *. split; auto. split; auto. split.
    + intros j Hj. exact (Hm j (g j) (Hn j Hj)).
    + intros j Hj. apply (Hf j (g j)); auto. apply Hn. lia.
Qed.

Lemma strided_ok v stride n (g : nat -> R) : (forall i, (i < n)%nat -> nth_error v (i * stride) = Some (g i)) ->
  strided v stride n = Some (map g (seq 0 n)).
Proof.
  induction n as [|n IH]; intros H; [reflexivity|]. cbn [strided].
  rewrite IH by (intros; apply H; lia). rewrite H by lia. rewrite seq_S, map_app. reflexivity.
Qed.

Lemma axis_list (g : nat -> R) n i : (i < n)%nat -> nth_error (map g (seq 0 n)) i = Some (g i).
Proof.
  intros H. erewrite map_nth_error; [reflexivity|]. rewrite nth_error_nth' with (d := 0%nat) by (rewrite seq_length; lia).
  rewrite seq_nth by lia. reflexivity.
Qed.

(** Specification: squared Euclidean distances and nearest points of a list. *)
Definition dist1 (x a : R) := (x - a) * (x - a).
Definition dist2 (q p : R * R) := dist1 (fst q) (fst p) + dist1 (snd q) (snd p).
Definition dist3 (q p : R * R * R) := dist2 (fst q) (fst p) + dist1 (snd q) (snd p).

(** [c] is the first nearest point of [pts] and [d] its distance. *)
Definition first_nearest {A} (dd : A -> R) (pts : list A) (c : nat) (d : R) : Prop :=
  exists p, nth_error pts c = Some p /\ d = sqrt (dd p) /\
    (forall i q, nth_error pts i = Some q -> dd p <= dd q) /\
    (forall i q, (i < c)%nat -> nth_error pts i = Some q -> dd p < dd q).

(** Files that list a tensor grid, first coordinate fastest. *)
Definition grid_file2 (pts : list (R * R)) gx gy nx ny :=
  length pts = (nx * ny)%nat /\
  forall i j, (i < nx)%nat -> (j < ny)%nat -> nth_error pts (j * nx + i) = Some (gx i, gy j).
Definition grid_file3 (pts : list (R * R * R)) gx gy gz nx ny nz :=
  length pts = (nx * ny * nz)%nat /\
  forall i j k, (i < nx)%nat -> (j < ny)%nat -> (k < nz)%nat ->
    nth_error pts (k * nx * ny + j * nx + i) = Some (gx i, gy j, gz k).

Theorem C45_grid1 x pts n : in_range x (fun i => nth i pts 0) n -> length pts = n ->
  let '(c, d) := closest1 x pts in first_nearest (dist1 x) pts c d.
Proof.
  intros Hr Hl. unfold closest1.
  destruct (scan_axis x (fun i => nth i pts 0) n pts Hr Hl) as (k & E & Hk & Hm & Hf).
  { intros i Hi. apply nth_error_nth'. lia. }
  rewrite E. exists (nth k pts 0). split; [apply nth_error_nth'; lia|]. split; [reflexivity|]. split.
  - intros i q Hq. specialize (Hm i). cbv beta in Hm. rewrite (nth_error_nth pts i 0 Hq) in Hm. apply Hm.
    rewrite <- Hl. apply nth_error_Some. rewrite Hq. discriminate.
  - intros i q Hi Hq. specialize (Hf i Hi). cbv beta in Hf. rewrite (nth_error_nth pts i 0 Hq) in Hf. exact Hf.
Qed.
Print Assumptions C45_grid1.

Theorem C45_grid2 x y pts gx gy nx ny : grid_file2 pts gx gy nx ny -> in_range x gx nx -> in_range y gy ny ->
  exists ax ay, import_grid2 pts nx ny = Some (ax, ay) /\
    let '(c, d) := closest2 x y ax ay in first_nearest (dist2 (x, y)) pts c d.
Proof.
  intros (Hlen & Hg) Hx Hy.
  assert (Nx : (0 < nx)%nat) by (destruct Hx as (? & ? & _); lia).
  assert (Ny : (0 < ny)%nat) by (destruct Hy as (? & ? & _); lia).
  exists (map gx (seq 0 nx)), (map gy (seq 0 ny)). split.
  - unfold import_grid2. rewrite (strided_ok _ 1 nx gx), (strided_ok _ nx ny gy).
    + reflexivity.
    + intros j Hj. erewrite map_nth_error; [|rewrite <- (Nat.add_0_r (j * nx)); apply Hg; lia]. reflexivity.
    + intros i Hi. rewrite Nat.mul_1_r. erewrite map_nth_error; [|apply (Hg i 0%nat); lia]. reflexivity.
  - unfold closest2.
    destruct (scan_axis x gx nx (map gx (seq 0 nx)) Hx) as (i & Ei & Hi & Mi & Fi); [rewrite map_length, seq_length; auto|apply axis_list|].
    destruct (scan_axis y gy ny (map gy (seq 0 ny)) Hy) as (j & Ej & Hj & Mj & Fj); [rewrite map_length, seq_length; auto|apply axis_list|].
    rewrite Ei, Ej, map_length, seq_length. exists (gx i, gy j). split; [apply Hg; auto|]. split; [reflexivity|].
    assert (DEC : forall m q, nth_error pts m = Some q -> exists i' j', (i' < nx)%nat /\ (j' < ny)%nat /\ m = (j' * nx + i')%nat /\ q = (gx i', gy j')).
    { intros m q Hm. assert (m < nx * ny)%nat by (rewrite <- Hlen; apply nth_error_Some; rewrite Hm; discriminate).
      exists (m mod nx)%nat, (m / nx)%nat.
      assert (m mod nx < nx)%nat by (apply Nat.mod_upper_bound; lia).
      assert (m / nx < ny)%nat by (apply Nat.div_lt_upper_bound; lia).
      assert (m = (m / nx * nx + m mod nx)%nat) by (rewrite Nat.mul_comm; apply Nat.div_mod; lia).
      repeat (split; auto). rewrite H2, Hg in Hm by auto. congruence. }
    split.
    + intros m q Hm. destruct (DEC m q Hm) as (i' & j' & A & B & _ & ->). unfold dist2, dist1. cbn [fst snd]. specialize (Mi i' A). specialize (Mj j' B). lra.
    + intros m q Hlt Hm. destruct (DEC m q Hm) as (i' & j' & A & B & -> & ->). unfold dist2, dist1. cbn [fst snd]. specialize (Mi i' A). specialize (Mj j' B).
      destruct (lt_dec j' j) as [L|L]; [specialize (Fj j' L); lra|].
      assert (j' = j). { assert (~ (j < j')%nat); [|lia]. intros G. assert ((j + 1) * nx <= j' * nx)%nat by (apply Nat.mul_le_mono_r; lia). lia. }
      subst. specialize (Fi i' ltac:(lia)). lra.
Qed.
Print Assumptions C45_grid2.

Theorem C45_grid3 x y z pts gx gy gz nx ny nz : grid_file3 pts gx gy gz nx ny nz ->
  in_range x gx nx -> in_range y gy ny -> in_range z gz nz ->
  exists ax ay az, import_grid3 pts nx ny nz = Some (ax, ay, az) /\
    let '(c, d) := closest3 x y z ax ay az in first_nearest (dist3 (x, y, z)) pts c d.
Proof.
  intros (Hlen & Hg) Hx Hy Hz.
  assert (Nx : (0 < nx)%nat) by (destruct Hx as (? & ? & _); lia).
  assert (Ny : (0 < ny)%nat) by (destruct Hy as (? & ? & _); lia).
  assert (Nz : (0 < nz)%nat) by (destruct Hz as (? & ? & _); lia).
  exists (map gx (seq 0 nx)), (map gy (seq 0 ny)), (map gz (seq 0 nz)). split.
  - unfold import_grid3. rewrite (strided_ok _ 1 nx gx), (strided_ok _ nx ny gy), (strided_ok _ (nx * ny) nz gz).
    + reflexivity.
    + intros k Hk. erewrite map_nth_error; [|pose proof (Hg 0%nat 0%nat k Nx Ny Hk) as E; rewrite Nat.mul_0_l, !Nat.add_0_r in E; rewrite Nat.mul_assoc; exact E]. reflexivity.
    + intros j Hj. erewrite map_nth_error; [|pose proof (Hg 0%nat j 0%nat Nx Hj Nz) as E; rewrite !Nat.mul_0_l, Nat.add_0_r in E; exact E]. reflexivity.
    + intros i Hi. rewrite Nat.mul_1_r. erewrite map_nth_error; [|apply (Hg i 0%nat 0%nat); lia]. reflexivity.
  - unfold closest3.
    destruct (scan_axis x gx nx (map gx (seq 0 nx)) Hx) as (i & Ei & Hi & Mi & Fi); [rewrite map_length, seq_length; auto|apply axis_list|].
    destruct (scan_axis y gy ny (map gy (seq 0 ny)) Hy) as (j & Ej & Hj & Mj & Fj); [rewrite map_length, seq_length; auto|apply axis_list|].
    destruct (scan_axis z gz nz (map gz (seq 0 nz)) Hz) as (k & Ek & Hk & Mk & Fk); [rewrite map_length, seq_length; auto|apply axis_list|].
    rewrite Ei, Ej, Ek, !map_length, !seq_length. exists (gx i, gy j, gz k). split; [apply Hg; auto|]. split; [reflexivity|].
    assert (DEC : forall m q, nth_error pts m = Some q -> exists i' j' k', (i' < nx)%nat /\ (j' < ny)%nat /\ (k' < nz)%nat /\
      m = (k' * nx * ny + j' * nx + i')%nat /\ q = (gx i', gy j', gz k')).
    { intros m q Hm. assert (m < nx * ny * nz)%nat by (rewrite <- Hlen; apply nth_error_Some; rewrite Hm; discriminate).
      set (t := (m / nx)%nat).
      assert (T : (m = t * nx + m mod nx)%nat) by (unfold t; rewrite Nat.mul_comm; apply Nat.div_mod; lia).
      assert (T' : (t = (t / ny) * ny + t mod ny)%nat) by (rewrite (Nat.mul_comm (t / ny)); apply Nat.div_mod; lia).
      exists (m mod nx)%nat, (t mod ny)%nat, (t / ny)%nat.
      assert (A : (m mod nx < nx)%nat) by (apply Nat.mod_upper_bound; lia).
      assert (B : (t mod ny < ny)%nat) by (apply Nat.mod_upper_bound; lia).
      assert (C : (t / ny < nz)%nat). { apply Nat.div_lt_upper_bound; [lia|]. unfold t. apply Nat.div_lt_upper_bound; [lia|]. lia. }
      assert (M : (m = t / ny * nx * ny + t mod ny * nx + m mod nx)%nat).
      { rewrite T at 1. f_equal. rewrite T' at 1. ring. }
      split; auto. split; auto. split; auto. split; auto. rewrite M, Hg in Hm by auto. congruence. }
    split.
    + intros m q Hm. destruct (DEC m q Hm) as (i' & j' & k' & A & B & C & _ & ->). unfold dist3, dist2, dist1. cbn [fst snd].
      specialize (Mi i' A). specialize (Mj j' B). specialize (Mk k' C). lra.
    + intros m q Hlt Hm. destruct (DEC m q Hm) as (i' & j' & k' & A & B & C & -> & ->). unfold dist3, dist2, dist1. cbn [fst snd].
      specialize (Mi i' A). specialize (Mj j' B). specialize (Mk k' C).
      destruct (lt_dec k' k) as [L|L]; [specialize (Fk k' L); lra|].
      assert (Q : (j' * nx + i' < ny * nx)%nat). { assert ((j' + 1) * nx <= ny * nx)%nat by (apply Nat.mul_le_mono_r; lia). lia. }
      assert (Q' : (j * nx + i < ny * nx)%nat). { assert ((j + 1) * nx <= ny * nx)%nat by (apply Nat.mul_le_mono_r; lia). lia. }
      assert (k' = k). { assert (~ (k < k')%nat); [|lia]. intros G. assert ((k + 1) * (nx * ny) <= k' * (nx * ny))%nat by (apply Nat.mul_le_mono_r; lia). lia. }
      subst k'. destruct (lt_dec j' j) as [L'|L']; [specialize (Fj j' L'); lra|].
      assert (j' = j). { assert (~ (j < j')%nat); [|lia]. intros G. assert ((j + 1) * nx <= j' * nx)%nat by (apply Nat.mul_le_mono_r; lia). lia. }
      subst j'. specialize (Fi i' ltac:(lia)). lra.
Qed.
Print Assumptions C45_grid3.

(** Far from the grid the search returns node 0 although another node is nearer. *)
Theorem C45_far_refuted : exists x pts, let '(c, d) := closest1 x pts in c = 0%nat /\ ~ first_nearest (dist1 x) pts c d.
Proof.
  exists 100000, [0; 1]. unfold closest1, scan, rand_max.
  destruct (Rlt_dec ((100000 - 0) * (100000 - 0)) 2147483647) as [L|L]; [lra|].
  destruct (Rlt_dec ((100000 - 1) * (100000 - 1)) 2147483647) as [M|M]; [lra|].
  split; auto. intros (p & Hp & _ & H & _). injection Hp as <-. specialize (H 1%nat 1 eq_refl). unfold dist1 in H. lra.
Qed.
Print Assumptions C45_far_refuted.

Example C45_example : grid_file3 [((0,0),0); ((1,0),0); ((0,2),0); ((1,2),0); ((0,0),3); ((1,0),3); ((0,2),3); ((1,2),3)]
    INR (fun j => 2 * INR j) (fun k => 3 * INR k) 2 2 2 /\ in_range 5 INR 2.
Proof.
  split.
  - split; [reflexivity|]. intros [|[|i]] [|[|j]] [|[|k]] A B C; try lia; cbn [nth_error Nat.mul Nat.add INR]; repeat f_equal; ring.
  - exists 1%nat. split; [lia|]. unfold rand_max. cbn [INR]. lra.
Qed.

(** C44: the scattered-point search. *)
Lemma take_first_spec nbrs : forall pre, (forall l, In l nbrs -> l <> []) ->
  take_first (pre ++ concat nbrs) (map (@length nat) nbrs) (length pre) = map (fun l => nth_error l 0) nbrs.
Proof.
  induction nbrs as [|l nbrs IH]; intros pre H; [reflexivity|]. cbn [map take_first concat]. f_equal.
  - rewrite nth_error_app2, Nat.sub_diag by lia. destruct l as [|a l]; [exfalso; apply (H []); cbn; auto|reflexivity].
  - rewrite <- app_length, app_assoc. apply IH. intros. apply H. right. auto.
Qed.

(** For every result of the search in which each query has at least one neighbour, listed
    nearest first, every query gets a nearest point. *)
Theorem C44_nearest {A} (dd : A -> A -> R) (pts qs : list A) nbrs dist :
  Forall2 (fun q l => exists c l' p, l = c :: l' /\ nth_error pts c = Some p /\ forall p', In p' pts -> dd q p <= dd q p') qs nbrs ->
  Forall2 (fun q o => exists c p, o = Some c /\ nth_error pts c = Some p /\ forall p', In p' pts -> dd q p <= dd q p')
    qs (fst (find_closest nbrs dist)).
Proof.
  intros H. unfold find_closest. cbn [fst].
  pose proof (take_first_spec nbrs []) as TF. cbn [app length] in TF. rewrite TF.
  - clear TF. induction H as [|q l qs nbrs (c & l' & p & -> & Hc & Hm) H IH]; cbn [map]; constructor; auto. exists c, p. auto.
  - clear TF. intros l Hl ->. induction H as [|q l qs nbrs (c & l' & p & E & _) H IH]; [destruct Hl|]. destruct Hl as [Hl|Hl]; [|auto]. congruence.
Qed.
Print Assumptions C44_nearest.

(** The reported distances are whatever the caller passed in. *)
Theorem C44_distance_refuted : exists (pts qs : list R) nbrs,
  Forall2 (fun q l => exists c l' p, l = c :: l' /\ nth_error pts c = Some p /\ forall p', In p' pts -> dist1 q p <= dist1 q p') qs nbrs /\
  snd (find_closest nbrs (map (fun _ => 0) qs)) = [0] /\ forall p, In p pts -> sqrt (dist1 (nth 0 qs 0) p) <> 0.
Proof.
  exists [1], [0], [[0%nat]]. split; [|split].
  - constructor; [|constructor]. exists 0%nat, [], 1. split; auto. split; auto. intros p' [<-|[]]. lra.
  - reflexivity.
  - intros p [<-|[]]. cbn [nth]. unfold dist1. replace ((0 - 1) * (0 - 1)) with 1 by ring. rewrite sqrt_1. lra.
Qed.
Print Assumptions C44_distance_refuted.

(** Microstructure seeds: right when every element has exactly one neighbour ... *)
Theorem C44_microstructure nbrs : (forall l, In l nbrs -> length l = 1%nat) -> microstructure nbrs = map (fun l => nth_error l 0) nbrs.
Proof.
  intros H. unfold microstructure.
  assert (G : forall pre, map (nth_error (pre ++ concat nbrs)) (seq (length pre) (length nbrs)) = map (fun l => nth_error l 0) nbrs).
  { induction nbrs as [|l nbrs IH]; intros pre; [reflexivity|]. cbn [length seq map concat].
    assert (L : length l = 1%nat) by (apply H; left; auto). destruct l as [|a [|b l]]; try discriminate. f_equal.
    - rewrite nth_error_app2, Nat.sub_diag by lia. reflexivity.
    - specialize (IH ltac:(intros; apply H; right; auto) (pre ++ [a])). rewrite app_length, <- app_assoc in IH. cbn [length app] in IH.
      rewrite Nat.add_1_r in IH. exact IH. }
  exact (G []).
Qed.
Print Assumptions C44_microstructure.

(** ... but an element with two seeds in the search radius shifts all later elements. *)
Theorem C44_microstructure_refuted : exists (pts qs : list R) nbrs,
  Forall2 (fun q l => exists c l' p, l = c :: l' /\ nth_error pts c = Some p /\ forall p', In p' pts -> dist1 q p <= dist1 q p') qs nbrs /\
  exists c q p p', nth_error (microstructure nbrs) 1 = Some (Some c) /\ nth_error qs 1 = Some q /\ nth_error pts c = Some p /\
    In p' pts /\ dist1 q p' < dist1 q p.
Proof.
  exists [0; 2; 10], [1; 9], [[0%nat; 1%nat]; [2%nat]]. split.
  - constructor; [|constructor; [|constructor]].
    + exists 0%nat, [1%nat], 0. split; auto. split; auto. intros p' [<-|[<-|[<-|[]]]]; unfold dist1; lra.
    + exists 2%nat, [], 10. split; auto. split; auto. intros p' [<-|[<-|[<-|[]]]]; unfold dist1; lra.
  - exists 1%nat, 9, 2, 10. split; [reflexivity|]. split; [reflexivity|]. split; [reflexivity|]. split; [cbn; auto|]. unfold dist1. lra.
Qed.
Print Assumptions C44_microstructure_refuted.

(** Reading points: every line with a point gives that point ... *)
Theorem C44_import (A : Type) (pts : list A) last : import_points last (map Some pts) = map Some pts.
Proof. revert last. induction pts as [|p pts IH]; intros last; cbn; f_equal; auto. Qed.
Print Assumptions C44_import.

(** ... and a blank line becomes one more copy of the point before it, so that all later
    points are paired with the wrong data row. *)
Theorem C44_blank_refuted (A : Type) (pre post : list A) p last :
  import_points last (map Some pre ++ Some p :: None :: map Some post) = map Some (pre ++ p :: p :: post).
Proof.
  revert last. induction pre as [|q pre IH]; intros last; cbn.
  - rewrite C44_import. reflexivity.
  - f_equal. apply IH.
Qed.
Print Assumptions C44_blank_refuted.

(** Data rows keep their number and their values; shorter rows are padded with zeros. *)
Lemma fold_max l : forall b, (b <= fold_left Nat.max l b)%nat /\ forall x, In x l -> (x <= fold_left Nat.max l b)%nat.
Proof.
  induction l as [|a l IH]; intros b; cbn [fold_left]; [split; [lia|intros _ []]|].
  destruct (IH (Nat.max b a)) as (H1 & H2). split; [lia|]. intros x [<-|Hx]; [lia|auto].
Qed.

Theorem C44_rows rows i r : nth_error rows i = Some r ->
  exists r', nth_error (import_rows rows) i = Some r' /\ length r' = max_states rows /\
    forall j, nth j r' 0 = nth j r 0.
Proof.
  intros H. unfold import_rows. erewrite map_nth_error by exact H. eexists. split; [reflexivity|].
  assert (L : (length r <= max_states rows)%nat).
  { apply fold_max. apply in_map. eapply nth_error_In; eauto. }
  split.
  - rewrite app_length, repeat_length. lia.
  - intros j. destruct (lt_dec j (length r)).
    + apply app_nth1. auto.
    + rewrite app_nth2 by lia. rewrite nth_repeat. rewrite nth_overflow by lia. reflexivity.
Qed.
Print Assumptions C44_rows.

(** With one data row per point, every element gets the row of a nearest point. *)
Theorem C44_mesh_data {A} (dd : A -> A -> R) (pts qs : list A) nbrs rows :
  length rows = length pts ->
  Forall2 (fun q l => exists c l' p, l = c :: l' /\ nth_error pts c = Some p /\ forall p', In p' pts -> dd q p <= dd q p') qs nbrs ->
  Forall2 (fun q o => exists c p r r', o = Some r' /\ nth_error pts c = Some p /\ nth_error rows c = Some r /\
      (forall p', In p' pts -> dd q p <= dd q p') /\ forall j, nth j r' 0 = nth j r 0)
    qs (mesh_data nbrs rows).
Proof.
  intros Hl H. unfold mesh_data.
  pose proof (C44_nearest dd pts qs nbrs (map (fun _ => 0) nbrs) H) as G.
  clear H.   induction G as [|q o qs' l (c & p & -> & Hc & Hm) G IH]; cbn [map]; constructor; auto.
  destruct (nth_error rows c) as [r|] eqn:Er.
  - destruct (C44_rows rows c r Er) as (r' & E1 & _ & E2). exists c, p, r, r'. auto.
  - exfalso. apply nth_error_None in Er. assert (c < length pts)%nat by (apply nth_error_Some; rewrite Hc; discriminate). lia.
Qed.
Print Assumptions C44_mesh_data.

(** C57: seeds carry proper rotations. *)
Definition entry (m : nat -> R) (i j : nat) : R := m (3 * i + j)%nat.
Definition det3 (m : nat -> R) : R :=
  entry m 0 0 * (entry m 1 1 * entry m 2 2 - entry m 1 2 * entry m 2 1)
  - entry m 0 1 * (entry m 1 0 * entry m 2 2 - entry m 1 2 * entry m 2 0)
  + entry m 0 2 * (entry m 1 0 * entry m 2 1 - entry m 1 1 * entry m 2 0).

Lemma rotation_unit x y z w : (x, y, z, w) <> (0, 0, 0, 0) ->
  exists a b c d, a * a + b * b + c * c + d * d = 1 /\ sqrt (a * a + b * b + c * c + d * d) = 1 /\
    forall k, rotation x y z w k = rotation a b c d k.
Proof.
  intros H. set (r := sqrt (x * x + y * y + z * z + w * w)).
  assert (P : 0 < x * x + y * y + z * z + w * w).
  { destruct (Req_dec x 0) as [->|Hx]; [|nra]. destruct (Req_dec y 0) as [->|Hy]; [|nra].
    destruct (Req_dec z 0) as [->|Hz]; [|nra]. destruct (Req_dec w 0) as [->|Hw]; [|nra]. congruence. }
  assert (Hr : 0 < r) by (apply sqrt_lt_R0; auto).
  assert (Hrr : r * r = x * x + y * y + z * z + w * w) by (apply sqrt_sqrt; lra).
  assert (U : x * (1 / r) * (x * (1 / r)) + y * (1 / r) * (y * (1 / r)) + z * (1 / r) * (z * (1 / r)) + w * (1 / r) * (w * (1 / r)) = 1).
  { replace (_ + _ + _ + _) with ((x * x + y * y + z * z + w * w) * (1 / r) * (1 / r)) by ring. rewrite <- Hrr. field. lra. }
  exists (x * (1 / r)), (y * (1 / r)), (z * (1 / r)), (w * (1 / r)). split; auto. split; [rewrite U; apply sqrt_1|].
  intros k. unfold rotation. rewrite U, sqrt_1. fold r. replace (1 / 1) with 1 by field. rewrite !Rmult_1_r. reflexivity.
Qed.

Theorem C57_rotation x y z w : (x, y, z, w) <> (0, 0, 0, 0) ->
  let m := rotation x y z w in
  (forall i j, (i < 3)%nat -> (j < 3)%nat ->
     entry m i 0 * entry m j 0 + entry m i 1 * entry m j 1 + entry m i 2 * entry m j 2 = if Nat.eqb i j then 1 else 0) /\
  det3 m = 1.
Proof.
  intros H m. destruct (rotation_unit x y z w H) as (a & b & c & d & U & S1 & E).
  assert (F : forall k, m k = rotation a b c d k) by (intros k; apply (E k)).
  assert (D : d * d = 1 - a * a - b * b - c * c) by lra.
  assert (D4 : d * d * (d * d) = (1 - a * a - b * b - c * c) * (1 - a * a - b * b - c * c)) by (rewrite D; ring).
  split.
  - intros i j Hi Hj. unfold entry. rewrite !F. unfold rotation. rewrite S1. replace (1 / 1) with 1 by field. rewrite !Rmult_1_r.
    destruct i as [|[|[|i]]]; try lia; destruct j as [|[|[|j]]]; try lia; cbn [Nat.mul Nat.add Nat.eqb];
      match goal with |- _ = 1 => replace 1 with ((a * a + b * b + c * c + d * d) * (a * a + b * b + c * c + d * d)) by (rewrite U; ring) | _ => idtac end; ring.
  - unfold det3, entry. rewrite !F. unfold rotation. rewrite S1. replace (1 / 1) with 1 by field. rewrite !Rmult_1_r. cbn [Nat.mul Nat.add].
    replace 1 with ((a * a + b * b + c * c + d * d) * (a * a + b * b + c * c + d * d) * (a * a + b * b + c * c + d * d)) at 1 by (rewrite U; ring). ring.
Qed.
Print Assumptions C57_rotation.
Example C57_example : rotation 1 1 0 0 1%nat = 1.
Proof.
  unfold rotation. replace (1 * 1 + 1 * 1 + 0 * 0 + 0 * 0) with 2 by ring.
  replace (2 * (1 * (1 / sqrt 2) * (1 * (1 / sqrt 2)) - 0 * (1 / sqrt 2) * (0 * (1 / sqrt 2)))) with (2 / (sqrt 2 * sqrt 2)).
  - rewrite sqrt_sqrt by lra. field.
  - field. apply Rgt_not_eq, sqrt_lt_R0. lra.
Qed.
