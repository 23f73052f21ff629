(** Properties C33, C36 (rectangle), C34, C51, C52. *)
From Coq Require Import List Arith ZArith Bool Reals Lia Lra.
From Verif Require Import Outcome Mesh_Model Mesh_Proofs.
Import ListNotations.

(* ------------------------------------------------------------------ *)
(** ** C33: rectangle connectivity *)

(** The grid lines. *)
Definition line (lo len : R) (n a : nat) : R := (lo + INR a * (len / INR n))%R.

Lemma nodes2_at W H X0 Y0 nx ny a b : a <= nx -> b <= ny ->
  nth_error (nodes2 W H X0 Y0 nx ny) (b * (nx + 1) + a) = Some (line X0 W nx a, line Y0 H ny b).
Proof. intros. unfold nodes2. rewrite grid2_nth by lia. reflexivity. Qed.

Lemma nodes2_inv W H X0 Y0 nx ny n p : nth_error (nodes2 W H X0 Y0 nx ny) n = Some p ->
  exists a b, a <= nx /\ b <= ny /\ n = b * (nx + 1) + a /\ p = (line X0 W nx a, line Y0 H ny b).
Proof.
  intros E. unfold nodes2 in E. apply grid2_inv in E. destruct E as (a & b & A & B & -> & ->).
  exists a, b. repeat split; lia || reflexivity.
Qed.

Lemma step_pos len n : (0 < len)%R -> 0 < n -> (0 < len / INR n)%R.
Proof. intros. apply Rdiv_lt_0_compat; auto. apply lt_0_INR; auto. Qed.

Lemma line_le lo len n a b : (0 < len)%R -> 0 < n -> (line lo len n a <= line lo len n b)%R <-> a <= b.
Proof.
  intros Hl Hn. unfold line. pose proof (step_pos _ _ Hl Hn) as P. split; intros H.
  - apply INR_le. apply (Rmult_le_reg_r (len / INR n)); auto. lra.
  - apply le_INR in H. apply (Rmult_le_compat_r (len / INR n)) in H; lra.
Qed.
Lemma line_inj lo len n a b : (0 < len)%R -> 0 < n -> line lo len n a = line lo len n b -> a = b.
Proof. intros Hl Hn E. apply Nat.le_antisymm; apply (line_le lo len n); auto; lra. Qed.

(** Cells are numbered row by row and the four nodes of a cell are, in
    counter-clockwise order, the corners of its rectangle. *)
Theorem C33_geometry W H X0 Y0 nx ny i j :
  i < nx -> j < ny ->
  let x := line X0 W nx in let y := line Y0 H ny in
  length (cell_to_node2 nx ny) = nx * ny
  /\ length (nodes2 W H X0 Y0 nx ny) = (nx + 1) * (ny + 1)
  /\ cell_coords2 W H X0 Y0 nx ny (j * nx + i)
     = Ok [(x i, y j); (x (i + 1), y j); (x (i + 1), y (j + 1)); (x i, y (j + 1))].
Proof.
  intros Hi Hj x y. split; [unfold cell_to_node2; rewrite grid2_length; lia|].
  split; [unfold nodes2; rewrite grid2_length; lia|].
  unfold cell_coords2. unfold at_ at 1. unfold cell_to_node2. rewrite grid2_nth by auto.
  cbn [obind map_outcome]. unfold at_. rewrite !nodes2_at by lia. reflexivity.
Qed.
Print Assumptions C33_geometry.

Lemma cell2_inv nx ny c row : nth_error (cell_to_node2 nx ny) c = Some row ->
  exists i j, i < nx /\ j < ny /\ c = j * nx + i /\ row = row2 nx i j.
Proof. intros E. unfold cell_to_node2 in E. apply grid2_inv in E. exact E. Qed.
Lemma cell2_at nx ny i j : i < nx -> j < ny -> nth_error (cell_to_node2 nx ny) (j * nx + i) = Some (row2 nx i j).
Proof. intros. unfold cell_to_node2. rewrite grid2_nth by auto. reflexivity. Qed.

(** No two nodes coincide, no cell repeats a node, all nodes are used. *)
Theorem C33_nodes W H X0 Y0 nx ny : (0 < W)%R -> (0 < H)%R -> 0 < nx -> 0 < ny ->
  NoDup (nodes2 W H X0 Y0 nx ny)
  /\ (forall c row, nth_error (cell_to_node2 nx ny) c = Some row -> length row = 4 /\ NoDup row)
  /\ (forall n, n < (nx + 1) * (ny + 1) <-> exists c row, nth_error (cell_to_node2 nx ny) c = Some row /\ In n row).
Proof.
  intros HW HH Hx Hy. split; [|split].
  - unfold nodes2. apply grid2_nodup. intros i j i' j' _ _ _ _ E. injection E as E1 E2.
    split; [apply (line_inj X0 W nx)|apply (line_inj Y0 H ny)]; auto.
  - intros c row E. apply cell2_inv in E. destruct E as (i & j & Hi & Hj & -> & ->). split; [reflexivity|].
    unfold row2. repeat (apply NoDup_cons; [cbn [In]; intros K;
      repeat (destruct K as [K|K]; [apply nid_inj in K; lia|]); exact K|]). apply NoDup_nil.
  - intros n. split.
    + intros L. rewrite Nat.mul_comm in L. destruct (radix_split _ _ _ L) as (a & b & A & B & ->).
      pose (i := if a =? nx then a - 1 else a). pose (j := if b =? ny then b - 1 else b).
      assert (Hi : i < nx /\ i <= a <= i + 1) by (unfold i; destruct (Nat.eqb_spec a nx); lia).
      assert (Hj : j < ny /\ j <= b <= j + 1) by (unfold j; destruct (Nat.eqb_spec b ny); lia).
      exists (j * nx + i), (row2 nx i j). split; [apply cell2_at; tauto|]. apply in_row2; lia.
    + intros (c & row & E & K). apply cell2_inv in E. destruct E as (i & j & Hi & Hj & -> & ->).
      eapply row2_inv in K; eauto. destruct K as (a & b & A & B & -> & _).
      rewrite (Nat.mul_comm (nx + 1) (ny + 1)). apply radix_lt; lia.
Qed.
Print Assumptions C33_nodes.

(** The mesh is conforming: a node belongs to a cell exactly when its point lies in
    the closed rectangle of the cell (spanned by its first and third node). *)
Theorem C33_conforming W H X0 Y0 nx ny c row n px py :
  (0 < W)%R -> (0 < H)%R ->
  nth_error (cell_to_node2 nx ny) c = Some row ->
  nth_error (nodes2 W H X0 Y0 nx ny) n = Some (px, py) ->
  exists x0 y0 x1 y1,
    nth_error (nodes2 W H X0 Y0 nx ny) (nth 0 row 0) = Some (x0, y0)
    /\ nth_error (nodes2 W H X0 Y0 nx ny) (nth 2 row 0) = Some (x1, y1)
    /\ (x0 < x1)%R /\ (y0 < y1)%R
    /\ (In n row <-> (x0 <= px <= x1)%R /\ (y0 <= py <= y1)%R).
Proof.
  intros HW HH E N. apply cell2_inv in E. destruct E as (i & j & Hi & Hj & -> & ->).
  apply nodes2_inv in N. destruct N as (a & b & A & B & -> & N). injection N as -> ->.
  exists (line X0 W nx i), (line Y0 H ny j), (line X0 W nx (i + 1)), (line Y0 H ny (j + 1)).
  cbn [nth row2]. rewrite !nodes2_at by lia. split; [reflexivity|]. split; [reflexivity|].
  assert (S1 : forall lo len n k, (0 < len)%R -> 0 < n -> (line lo len n k < line lo len n (k + 1))%R).
  { intros lo len n k Hl Hn. apply Rnot_le_lt. intros K. apply line_le in K; auto. lia. }
  split; [apply S1; auto; lia|]. split; [apply S1; auto; lia|].
  rewrite in_row2 by lia. rewrite !line_le by (auto; lia). tauto.
Qed.
Print Assumptions C33_conforming.

(** Local side s of a quadrilateral joins corners s and s+1 (mod 4). *)
Definition side_ends2 (row : list nat) (s : nat) : nat * nat := (nth s row 0, nth ((s + 1) mod 4) row 0).

Lemma side_ends2_key nx i j s : s < 4 ->
  side_ends2 (row2 nx i j) s = ends2 nx (ekey2 i j s)
  \/ side_ends2 (row2 nx i j) s = (snd (ends2 nx (ekey2 i j s)), fst (ends2 nx (ekey2 i j s))).
Proof. intros H. do 4 (destruct s as [|s]; [cbn; auto|]). lia. Qed.

(** Edge numbers: two sides carry the same number exactly when they join the same
    two nodes; the numbers used are exactly 0, ..., numEdges-1. *)
Theorem C33_edges nx ny : 0 < nx -> 0 < ny ->
  (forall c c' s s' row row' er er', s < 4 -> s' < 4 ->
     nth_error (cell_to_node2 nx ny) c = Some row -> nth_error (cell_to_node2 nx ny) c' = Some row' ->
     nth_error (cell_to_edge2 nx ny) c = Some er -> nth_error (cell_to_edge2 nx ny) c' = Some er' ->
     (nth s er 0 = nth s' er' 0 <->
      forall n, (n = fst (side_ends2 row s) \/ n = snd (side_ends2 row s))
            <-> (n = fst (side_ends2 row' s') \/ n = snd (side_ends2 row' s'))))
  /\ (forall e, e < num_edges2 nx ny <->
        exists c er s, nth_error (cell_to_edge2 nx ny) c = Some er /\ s < 4 /\ nth s er 0 = e).
Proof.
  intros Hx Hy.
  assert (EK : forall i j s, s < 4 -> nth s [ j * (2 * nx + 1) + i; j * (2 * nx + 1) + nx + (i + 1);
        (j + 1) * (2 * nx + 1) + i; j * (2 * nx + 1) + nx + i ] 0 = eid2 nx (ekey2 i j s)).
  { intros i j s Hs. do 4 (destruct s as [|s]; [cbn [nth eid2 ekey2]; lia|]). lia. }
  split.
  - intros c c' s s' row row' er er' Hs Hs' R R' E E'.
    apply cell2_inv in R, R'. destruct R as (i & j & Hi & Hj & -> & ->). destruct R' as (i' & j' & Hi' & Hj' & -> & ->).
    unfold cell_to_edge2 in E, E'. rewrite grid2_nth in E, E' by auto. injection E as <-. injection E' as <-.
    rewrite !EK by auto.
    assert (K := key_ok2_cell nx ny i j s Hi Hj). assert (K' := key_ok2_cell nx ny i' j' s' Hi' Hj').
    assert (X : forall i j s n, s < 4 ->
       (n = fst (side_ends2 (row2 nx i j) s) \/ n = snd (side_ends2 (row2 nx i j) s)) <->
       (n = fst (ends2 nx (ekey2 i j s)) \/ n = snd (ends2 nx (ekey2 i j s)))).
    { intros i0 j0 s0 n Hs0. destruct (side_ends2_key nx i0 j0 s0 Hs0) as [->| ->]; cbn [fst snd]; tauto. }
    split.
    + intros EE. apply (eid2_inj nx ny) in EE; auto. intros n. rewrite !X by auto. rewrite EE. tauto.
    + intros EE. f_equal. apply (ends2_inj nx ny); auto. intros n. rewrite <- !X by auto. apply EE.
  - intros e. split.
    + intros L. apply eid2_surj in L. destruct L as (k & Kk & <-).
      destruct (key2_used nx ny k Hx Hy Kk) as (i & j & s & Hi & Hj & Hs & <-).
      exists (j * nx + i), [ j * (2 * nx + 1) + i; j * (2 * nx + 1) + nx + (i + 1);
        (j + 1) * (2 * nx + 1) + i; j * (2 * nx + 1) + nx + i ], s.
      split; [unfold cell_to_edge2; rewrite grid2_nth by auto; reflexivity|]. split; auto.
    + intros (c & er & s & E & Hs & <-). unfold cell_to_edge2 in E. apply grid2_inv in E.
      destruct E as (i & j & Hi & Hj & -> & ->). rewrite EK by auto. apply eid2_lt. apply key_ok2_cell; auto.
Qed.
Print Assumptions C33_edges.

Example C33_case :
  nth_error (cell_to_node2 3 2) 4 = Some [5; 6; 10; 9] /\ nth_error (cell_to_edge2 3 2) 4 = Some [8; 12; 15; 11].
Proof. split; reflexivity. Qed.

(* ------------------------------------------------------------------ *)
(** ** C36: side sets of the rectangle *)

(** The side set lists (cell, local side) exactly when no other cell contains the
    two end nodes of that side, each once. *)
Theorem C36_rectangle nx ny s : 0 < nx -> 0 < ny -> s < 4 ->
  NoDup (nth s (side_sets2 nx ny) [])
  /\ (forall c, In c (nth s (side_sets2 nx ny) []) <->
       exists row, nth_error (cell_to_node2 nx ny) c = Some row
         /\ forall c' row', nth_error (cell_to_node2 nx ny) c' = Some row' ->
              In (fst (side_ends2 row s)) row' -> In (snd (side_ends2 row s)) row' -> c' = c).
Proof.
  intros Hx Hy Hs. split.
  - destruct s as [|[|[|[|s]]]]; [..|lia]; cbn [nth side_sets2]; apply map_seq_nodup; intros i i' Hi Hi' E; try lia.
    + apply (Nat.mul_cancel_r i i' nx); nia.
    + apply (Nat.mul_cancel_r i i' nx); lia.
  - intros c.
    (* listed iff on the corresponding line of cells *)
    assert (L : In c (nth s (side_sets2 nx ny) []) <-> exists i j, i < nx /\ j < ny /\ c = j * nx + i /\
              match s with 0 => j = 0 | 1 => i = nx - 1 | 2 => j = ny - 1 | _ => i = 0 end).
    { destruct s as [|[|[|[|s]]]]; [..|lia]; cbn [nth side_sets2]; rewrite in_map_iff; (split;
        [intros (t & <- & Ht); apply in_seq in Ht|intros (i & j & Hi & Hj & -> & Hk)]).
      - exists t, 0. lia.
      - exists i. split; [lia|apply in_seq; lia].
      - exists (nx - 1), t. repeat split; try lia; nia.
      - exists j. split; [nia|apply in_seq; lia].
      - exists t, (ny - 1). repeat split; lia.
      - exists i. split; [subst; lia|apply in_seq; lia].
      - exists 0, t. repeat split; lia.
      - exists j. split; [lia|apply in_seq; lia]. }
    rewrite L. clear L. split.
    + intros (i & j & Hi & Hj & -> & Hk). exists (row2 nx i j). split; [apply cell2_at; auto|].
      intros c' row' E' A B. apply cell2_inv in E'. destruct E' as (i' & j' & Hi' & Hj' & -> & ->).
      assert (i' = i /\ j' = j) as [-> ->]; [|reflexivity].
      destruct s as [|[|[|[|s]]]]; [..|lia]; change ((0 + 1) mod 4) with 1 in *;
        change ((1 + 1) mod 4) with 2 in *; change ((2 + 1) mod 4) with 3 in *; change ((3 + 1) mod 4) with 0 in *;
        unfold side_ends2 in A, B; cbn [fst snd nth row2] in A, B;
        (apply in_row2 in A; [|lia|lia]); (apply in_row2 in B; [|lia|lia]); lia.
    + intros (row & E & U). apply cell2_inv in E. destruct E as (i & j & Hi & Hj & -> & ->).
      exists i, j. split; [auto|]. split; [auto|]. split; [auto|].
      destruct s as [|[|[|[|s]]]]; [..|lia]; unfold side_ends2 in U; change ((0 + 1) mod 4) with 1 in *;
        change ((1 + 1) mod 4) with 2 in *; change ((2 + 1) mod 4) with 3 in *; change ((3 + 1) mod 4) with 0 in *;
        cbn [fst snd nth row2] in U.
      * destruct (Nat.eq_dec j 0) as [|N]; [auto|exfalso].
        assert (C : (j - 1) * nx + i = j * nx + i) by
          (apply (U _ _ (cell2_at nx ny i (j - 1) ltac:(lia) ltac:(lia))); apply in_row2; lia).
        nia.
      * destruct (Nat.eq_dec i (nx - 1)) as [|N]; [auto|exfalso].
        assert (C : j * nx + (i + 1) = j * nx + i) by
          (apply (U _ _ (cell2_at nx ny (i + 1) j ltac:(lia) ltac:(lia))); apply in_row2; lia).
        lia.
      * destruct (Nat.eq_dec j (ny - 1)) as [|N]; [auto|exfalso].
        assert (C : (j + 1) * nx + i = j * nx + i) by
          (apply (U _ _ (cell2_at nx ny i (j + 1) ltac:(lia) ltac:(lia))); apply in_row2; lia).
        nia.
      * destruct (Nat.eq_dec i 0) as [|N]; [auto|exfalso].
        assert (C : j * nx + (i - 1) = j * nx + i) by
          (apply (U _ _ (cell2_at nx ny (i - 1) j ltac:(lia) ltac:(lia))); apply in_row2; lia).
        lia.
Qed.
Print Assumptions C36_rectangle.

Example C36_case : side_sets2 3 2 = [[0;1;2]; [2;5]; [3;4;5]; [0;3]].
Proof. reflexivity. Qed.
