(** Properties C34 (distributed rectangle), C51 (requested box), C52 (owned unknowns). *)
From Coq Require Import List Arith ZArith Bool Reals Lia Lra.
From Verif Require Import Outcome Mesh_Model Mesh_Proofs Mesh_Props.
Import ListNotations.

(* ------------------------------------------------------------------ *)
(** ** Lemmas *)
  Lemma quot_rem w a b : a < w -> Z.quot (Z.of_nat (b * w + a)) (Z.of_nat w) = Z.of_nat b
                                  /\ Z.rem (Z.of_nat (b * w + a)) (Z.of_nat w) = Z.of_nat a.
  Proof.
    intros H. split.
    - symmetry. apply Z.quot_unique with (r := Z.of_nat a); lia.
    - symmetry. apply Z.rem_unique with (q := Z.of_nat b); lia.
  Qed.

  (** Ownership in one direction. *)
  Lemma own1_unique P n p a p' a' : p < P -> p' < P -> a <= n -> a' <= n ->
    (a < n \/ p = P - 1) -> (a' < n \/ p' = P - 1) -> p * n + a = p' * n + a' -> p = p' /\ a = a'.
  Proof.
    intros Hp Hp' Ha Ha' O O' E.
    destruct (Nat.eq_dec a n) as [->|N], (Nat.eq_dec a' n) as [->|N'].
    - split; lia.
    - assert (p = P - 1) by lia. subst p. assert (p' * n + n <= P * n) by nia. nia.
    - assert (p' = P - 1) by lia. subst p'. assert (p * n + n <= P * n) by nia. nia.
    - destruct (radix n a p a' p') as [-> ->]; auto; lia.
  Qed.
  Lemma own1_exists P n A : 0 < P -> A <= P * n -> exists p a, p < P /\ a <= n /\ (a < n \/ p = P - 1) /\ A = p * n + a.
  Proof.
    intros HP HA. destruct (Nat.eq_dec A (P * n)) as [->|N].
    - exists (P - 1), n. repeat split; try lia. nia.
    - destruct (radix_split n P A) as (a & p & Ha & Hp & ->); [lia|]. exists p, a. repeat split; lia.
  Qed.
Section Par.
  Context (NX NY xprocs yprocs : nat).
  Hypothesis Hxp : 0 < xprocs.
  Hypothesis Hyp : 0 < yprocs.
  Notation nx := (lnx NX xprocs).
  Notation ny := (lny NY yprocs).
  Notation l2g := (local_to_global NX NY xprocs yprocs).
  Notation g2l := (global_to_local NX NY xprocs yprocs).
  Notation PX p := (PX xprocs p).
  Notation PY p := (PY xprocs p).
  Notation gid A B := (B * (xprocs * nx + 1) + A).

  Lemma PX_lt p : PX p < xprocs.
  Proof. clear Hyp. apply Nat.mod_upper_bound. lia. Qed.
  Lemma PY_lt p : p < xprocs * yprocs -> PY p < yprocs.
  Proof. clear Hyp. intros. apply Nat.div_lt_upper_bound; lia. Qed.
  Lemma proc_split p : p = PY p * xprocs + PX p.
  Proof. clear Hyp. unfold Mesh_Model.PX, Mesh_Model.PY. pose proof (Nat.div_mod p xprocs ltac:(lia)). lia. Qed.
  Lemma proc_of px py : px < xprocs -> PX (py * xprocs + px) = px /\ PY (py * xprocs + px) = py.
  Proof. clear Hyp.
    intros H. unfold Mesh_Model.PX, Mesh_Model.PY.
    rewrite Nat.add_comm, Nat.mod_add, Nat.div_add, Nat.mod_small, Nat.div_small by lia. split; lia.
  Qed.

  Lemma l2g_at p a b : a <= nx ->
    l2g p (Z.of_nat (b * (nx + 1) + a)) = Z.of_nat (gid (PX p * nx + a) (PY p * ny + b)).
  Proof. clear Hxp Hyp.
    intros Ha. unfold local_to_global.
    replace (Z.of_nat nx + 1)%Z with (Z.of_nat (nx + 1)) by lia.
    destruct (quot_rem (nx + 1) a b ltac:(lia)) as [-> ->].
    rewrite !Nat2Z.inj_add, !Nat2Z.inj_mul, !Nat2Z.inj_add, !Nat2Z.inj_mul. ring.
  Qed.

  Lemma px_nx p a : a <= nx -> PX p * nx + a < xprocs * nx + 1.
  Proof. clear Hyp. pose proof (PX_lt p). nia. Qed.

  Lemma shared_eq p lid : p < xprocs * yprocs ->
    is_shared NX NY xprocs yprocs p lid =
    ((PX p <? xprocs - 1) && on_right NX xprocs lid) || ((PY p <? yprocs - 1) && on_top NX NY xprocs yprocs lid).
  Proof. clear Hyp.
    intros Hp. pose proof (PX_lt p). pose proof (PY_lt p Hp). unfold is_shared.
    destruct (Nat.ltb_spec (PX p) (xprocs - 1)), (Nat.ltb_spec (PY p) (yprocs - 1));
      cbn [andb orb]; auto.
    - rewrite (proj2 (Nat.eqb_eq _ _)) by lia. rewrite orb_false_r. reflexivity.
    - rewrite (proj2 (Nat.eqb_eq _ _)) by lia. reflexivity.
  Qed.

  Lemma on_right_at a b : a <= nx -> on_right NX xprocs (b * (nx + 1) + a) = (a =? nx).
  Proof. clear Hxp Hyp. intros. unfold on_right. rewrite Nat.add_comm, Nat.mod_add, Nat.mod_small by lia. auto. Qed.
  Lemma on_top_at a b : a <= nx -> on_top NX NY xprocs yprocs (b * (nx + 1) + a) = (b =? ny).
  Proof. clear Hxp Hyp. intros. unfold on_top. rewrite Nat.div_add_l, Nat.div_small by lia. rewrite Nat.add_0_r. auto. Qed.

End Par.

(* ------------------------------------------------------------------ *)
(** ** C34 *)

(** Global numbering restricted to a processor can be undone. *)
Theorem C34_round_trip NX NY xprocs yprocs p lid :
  0 < xprocs -> 0 < yprocs -> p < xprocs * yprocs ->
  lid < num_nodes2 (lnx NX xprocs) (lny NY yprocs) ->
  global_to_local NX NY xprocs yprocs p (local_to_global NX NY xprocs yprocs p (Z.of_nat lid)) = Z.of_nat lid.
Proof.
  intros Hx Hy Hp HL. unfold num_nodes2 in HL. rewrite Nat.mul_comm in HL.
  destruct (radix_split _ _ _ HL) as (a & b & Ha & Hb & ->).
  rewrite l2g_at by lia. unfold global_to_local.
  set (nx := lnx NX xprocs) in *. set (ny := lny NY yprocs) in *.
  set (px := PX xprocs p). set (py := PY xprocs p).
  replace (Z.of_nat ((py * ny + b) * (xprocs * nx + 1) + (px * nx + a)) - Z.of_nat px * Z.of_nat nx
           - Z.of_nat py * Z.of_nat ny * (Z.of_nat xprocs * Z.of_nat nx + 1))%Z
    with (Z.of_nat (b * (xprocs * nx + 1) + a)).
  2:{ rewrite !Nat2Z.inj_add, !Nat2Z.inj_mul, !Nat2Z.inj_add, !Nat2Z.inj_mul. ring. }
  replace (Z.of_nat xprocs * Z.of_nat nx + 1)%Z with (Z.of_nat (xprocs * nx + 1)) by lia.
  destruct (quot_rem (xprocs * nx + 1) a b ltac:(nia)) as [-> ->]. lia.
Qed.
Print Assumptions C34_round_trip.

(** Every global node is owned by exactly one processor (and each local node has a
    global number in range). *)
Theorem C34_ownership NX NY xprocs yprocs :
  0 < xprocs -> 0 < yprocs ->
  let nn := num_nodes2 (lnx NX xprocs) (lny NY yprocs) in
  let total := num_nodes2 (xprocs * lnx NX xprocs) (yprocs * lny NY yprocs) in
  let l2g p lid := local_to_global NX NY xprocs yprocs p (Z.of_nat lid) in
  (forall p lid, p < xprocs * yprocs -> lid < nn -> (0 <= l2g p lid < Z.of_nat total)%Z)
  /\ (forall g, g < total -> exists p lid,
        (p < xprocs * yprocs /\ lid < nn /\ is_shared NX NY xprocs yprocs p lid = false /\ l2g p lid = Z.of_nat g)
        /\ forall p' lid', p' < xprocs * yprocs -> lid' < nn ->
             is_shared NX NY xprocs yprocs p' lid' = false -> l2g p' lid' = Z.of_nat g -> p' = p /\ lid' = lid).
Proof.
  intros Hx Hy nn total l2g. unfold nn, total, l2g, num_nodes2. clear nn total l2g.
  set (nx := lnx NX xprocs). set (ny := lny NY yprocs).
  assert (SH : forall p a b, p < xprocs * yprocs -> a <= nx ->
     is_shared NX NY xprocs yprocs p (b * (nx + 1) + a) = false ->
     (a <> nx \/ PX xprocs p = xprocs - 1) /\ (b <> ny \/ PY xprocs p = yprocs - 1)).
  { intros p a b Hp Ha S. rewrite shared_eq, on_right_at, on_top_at in S by auto.
    apply orb_false_iff in S. destruct S as [S1 S2]. rewrite !andb_false_iff, !Nat.ltb_ge, !Nat.eqb_neq in *.
    pose proof (PX_lt xprocs Hx p). pose proof (PY_lt xprocs yprocs Hx p Hp). fold nx in S1. fold ny in S2. lia. }
  split.
  - intros p lid Hp HL. rewrite Nat.mul_comm in HL.
    destruct (radix_split _ _ _ HL) as (a & b & Ha & Hb & ->). unfold nx, ny. rewrite l2g_at by (fold nx; lia).
    fold nx ny. split; [lia|]. apply Nat2Z.inj_lt. rewrite (Nat.mul_comm (xprocs * nx + 1)).
    pose proof (PX_lt xprocs Hx p). pose proof (PY_lt xprocs yprocs Hx p Hp).
    apply radix_lt; nia.
  - intros g Hg. rewrite Nat.mul_comm in Hg.
    destruct (radix_split _ _ _ Hg) as (A & B & HA & HB & ->).
    destruct (own1_exists xprocs nx A Hx ltac:(lia)) as (px & a & Hpx & Ha & Oa & ->).
    destruct (own1_exists yprocs ny B Hy ltac:(lia)) as (py & b & Hpy & Hb & Ob & ->).
    destruct (proc_of xprocs Hx px py Hpx) as [EX EY].
    assert (Hp : py * xprocs + px < xprocs * yprocs) by (rewrite (Nat.mul_comm xprocs); apply radix_lt; auto).
    exists (py * xprocs + px), (b * (nx + 1) + a). split.
    + split; [auto|]. split; [rewrite (Nat.mul_comm (nx + 1)); apply radix_lt; lia|]. split.
      * rewrite shared_eq, on_right_at, on_top_at, EX, EY by auto. fold nx ny.
        apply orb_false_iff. rewrite !andb_false_iff, !Nat.ltb_ge, !Nat.eqb_neq. lia.
      * rewrite l2g_at by auto. rewrite EX, EY. reflexivity.
    + intros p' lid' Hp' HL' S E. rewrite Nat.mul_comm in HL'.
      destruct (radix_split _ _ _ HL') as (a' & b' & Ha' & Hb' & ->).
      apply SH in S; [|auto|lia]. unfold nx, ny in E. rewrite l2g_at in E by (fold nx; lia). fold nx ny in E.
      apply Nat2Z.inj in E.
      pose proof (PX_lt xprocs Hx p'). pose proof (PY_lt xprocs yprocs Hx p' Hp').
      apply radix in E; [|apply px_nx; fold nx; lia|nia]. destruct E as [E1 E2].
      apply (own1_unique xprocs nx) in E1; [|lia..]. apply (own1_unique yprocs ny) in E2; [|lia..].
      destruct E1 as [X1 ->], E2 as [Y1 ->]. split; [|auto].
      rewrite (proc_split xprocs Hx p'), X1, Y1. reflexivity.
Qed.
Print Assumptions C34_ownership.

(** When the processor grid divides the mesh, the distributed mesh is the serial one:
    a local node has the coordinates of the serial node with its global number, and the
    nodes of a local cell, numbered globally, are the nodes of the serial cell. *)
Theorem C34_matches_serial W H X0 Y0 kx ky xprocs yprocs p :
  0 < xprocs -> 0 < yprocs -> 0 < kx -> 0 < ky -> p < xprocs * yprocs ->
  let NX := kx * xprocs in let NY := ky * yprocs in
  let l2g lid := Z.to_nat (local_to_global NX NY xprocs yprocs p (Z.of_nat lid)) in
  (forall lid, lid < num_nodes2 kx ky ->
     nth_error (local_nodes W H X0 Y0 NX NY xprocs yprocs p) lid
     = nth_error (nodes2 W H X0 Y0 NX NY) (l2g lid))
  /\ (forall i j, i < kx -> j < ky -> exists lrow,
        nth_error (cell_to_node2 kx ky) (j * kx + i) = Some lrow
        /\ nth_error (cell_to_node2 NX NY) ((PY xprocs p * ky + j) * NX + (PX xprocs p * kx + i)) = Some (map l2g lrow)).
Proof.
  intros Hx Hy Hkx Hky Hp NX NY l2g.
  assert (EX : lnx NX xprocs = kx) by (unfold lnx, NX; apply Nat.div_mul; lia).
  assert (EY : lny NY yprocs = ky) by (unfold lny, NY; apply Nat.div_mul; lia).
  pose proof (PX_lt xprocs Hx p) as LX. pose proof (PY_lt xprocs yprocs Hx p Hp) as LY.
  assert (L : forall a b, a <= kx -> l2g (b * (kx + 1) + a) = (PY xprocs p * ky + b) * (NX + 1) + (PX xprocs p * kx + a)).
  { intros a b Ha. unfold l2g. pose proof (l2g_at NX NY xprocs yprocs p a b) as Q. rewrite EX, EY in Q.
    rewrite Q by auto. rewrite Nat2Z.id. unfold NX. rewrite (Nat.mul_comm kx xprocs). reflexivity. }
  split.
  - intros lid HL. unfold num_nodes2 in HL. rewrite Nat.mul_comm in HL.
    destruct (radix_split _ _ _ HL) as (a & b & Ha & Hb & ->). rewrite L by lia.
    unfold local_nodes. rewrite EX, EY. rewrite !nodes2_at by (unfold NX, NY; nia).
    unfold line, NX, NY. rewrite !plus_INR, !mult_INR.
    assert (INR kx <> 0%R) by (apply not_0_INR; lia). assert (INR ky <> 0%R) by (apply not_0_INR; lia).
    assert (INR xprocs <> 0%R) by (apply not_0_INR; lia). assert (INR yprocs <> 0%R) by (apply not_0_INR; lia).
    f_equal. f_equal; field; auto.
  - intros i j Hi Hj. exists (row2 kx i j). split; [apply cell2_at; auto|].
    rewrite cell2_at by (unfold NX, NY; nia). unfold row2. cbn [map]. rewrite !L by lia.
    rewrite !Nat.add_assoc. reflexivity.
Qed.
Print Assumptions C34_matches_serial.

(** If the processor grid does not divide the mesh, the requested number of cells is
    silently not built. *)
Theorem C34_nondivisible_refuted :
  exists NX NY xprocs yprocs, 0 < xprocs /\ 0 < yprocs /\ 0 < lnx NX xprocs /\ 0 < lny NY yprocs /\
    accepted xprocs yprocs 0 = true /\
    xprocs * yprocs * num_cells2 (lnx NX xprocs) (lny NY yprocs) <> NX * NY.
Proof. exists 3, 1, 2, 1. cbn. repeat split; lia. Qed.
Print Assumptions C34_nondivisible_refuted.

(** The check of the processor number lets one processor too many pass; its nodes lie
    outside the rectangle. *)
Theorem C34_rank_check_refuted :
  ~ (forall W H X0 Y0 NX NY xprocs yprocs p x y, (0 < W)%R -> (0 < H)%R ->
       accepted xprocs yprocs p = true -> 0 < lnx NX xprocs -> 0 < lny NY yprocs ->
       In (x, y) (local_nodes W H X0 Y0 NX NY xprocs yprocs p) -> (y <= Y0 + H)%R).
Proof.
  intros C.
  assert (K : (line 1 1 1 1 <= 0 + 1)%R).
  { apply (C 1%R 1%R 0%R 0%R 1 1 1 1 1 (line 0 1 1 0)); auto; try lra.
    unfold local_nodes. change (lnx 1 1) with 1. change (lny 1 1) with 1. change (PX 1 1) with 0. change (PY 1 1) with 1.
    eapply nth_error_In. replace (0 + INR 1 * (1 / INR 1))%R with 1%R by (cbn; field).
    replace (1 / INR 1)%R with 1%R by (cbn; field).
    replace (0 + INR 0 * 1)%R with 0%R by (cbn; ring). apply (nodes2_at 1 1 0 1 1 1 0 1); lia. }
  unfold line in K. cbn in K. lra.
Qed.
Print Assumptions C34_rank_check_refuted.

Example C34_case :
  map (fun lid => local_to_global 4 2 2 2 3 (Z.of_nat lid)) (seq 0 6) = [7; 8; 9; 12; 13; 14]%Z
  /\ map (is_shared 4 2 2 2 0) (seq 0 6) = [false; false; true; true; true; true].
Proof. split; reflexivity. Qed.

(* ------------------------------------------------------------------ *)
(** ** C51: the built-in mesh covers the requested box *)

Definition covers2 (b : box) (nodes : list (R * R)) : Prop :=
  (forall x y, In (x, y) nodes -> (xmin b <= x <= xmax b)%R /\ (ymin b <= y <= ymax b)%R)
  /\ In (xmin b, ymin b) nodes /\ In (xmax b, ymin b) nodes
  /\ In (xmax b, ymax b) nodes /\ In (xmin b, ymax b) nodes.
Definition covers3 (b : box) (nodes : list (R * R * R)) : Prop :=
  (forall x y z, In (x, y, z) nodes ->
     (xmin b <= x <= xmax b)%R /\ (ymin b <= y <= ymax b)%R /\ (zmin b <= z <= zmax b)%R)
  /\ (forall x y z, (x = xmin b \/ x = xmax b) -> (y = ymin b \/ y = ymax b) -> (z = zmin b \/ z = zmax b) ->
        In (x, y, z) nodes).
Definition proper (b : box) : Prop := (xmin b < xmax b /\ ymin b < ymax b /\ zmin b < zmax b)%R.

Lemma line_0 lo len n : line lo len n 0 = lo.
Proof. unfold line. cbn. ring. Qed.
Lemma line_n lo len n : 0 < n -> line lo len n n = (lo + len)%R.
Proof. intros. unfold line. field. apply not_0_INR. lia. Qed.
Lemma line_in lo len n a : (0 < len)%R -> 0 < n -> a <= n -> (lo <= line lo len n a <= lo + len)%R.
Proof.
  intros Hl Hn Ha.
  pose proof (proj2 (line_le lo len n 0 a Hl Hn) (Nat.le_0_l a)) as P.
  pose proof (proj2 (line_le lo len n a n Hl Hn) Ha) as Q.
  rewrite line_0 in P. rewrite line_n in Q by auto. auto.
Qed.

Lemma nodes2_covers lx ly (b : box) nx ny : (xmin b < xmax b)%R -> (ymin b < ymax b)%R -> 0 < nx -> 0 < ny ->
  (xmin b + lx = xmax b)%R -> (ymin b + ly = ymax b)%R ->
  covers2 b (nodes2 lx ly (xmin b) (ymin b) nx ny).
Proof.
  intros Bx By Hx Hy Ex Ey. assert (Lx : (0 < lx)%R) by lra. assert (Ly : (0 < ly)%R) by lra.
  assert (C : forall a c, a <= nx -> c <= ny -> In (line (xmin b) lx nx a, line (ymin b) ly ny c)
                                  (nodes2 lx ly (xmin b) (ymin b) nx ny)).
  { intros a c A B. eapply nth_error_In. apply nodes2_at; auto. }
  split.
  - intros x y I. apply In_nth_error in I. destruct I as [n I]. apply nodes2_inv in I.
    destruct I as (a & c & A & B & _ & I). injection I as -> ->.
    pose proof (line_in (xmin b) lx nx a Lx Hx A). pose proof (line_in (ymin b) ly ny c Ly Hy B). lra.
  - pose proof (C 0 0 ltac:(lia) ltac:(lia)) as C1. pose proof (C nx 0 ltac:(lia) ltac:(lia)) as C2.
    pose proof (C nx ny ltac:(lia) ltac:(lia)) as C3. pose proof (C 0 ny ltac:(lia) ltac:(lia)) as C4.
    rewrite !line_0 in C1. rewrite line_n, line_0, Ex in C2 by auto.
    rewrite !line_n, Ex, Ey in C3 by auto. rewrite line_n, line_0, Ey in C4 by auto. auto.
Qed.

Theorem C51_rectangle (b : box) nx ny : proper b -> 0 < nx -> 0 < ny ->
  covers2 b (interface_nodes2 b nx ny).
Proof. intros (Bx & By & _) Hx Hy. unfold interface_nodes2. apply nodes2_covers; auto; lra. Qed.
Print Assumptions C51_rectangle.

(** The same for the nodes of all processes together, when the processor grid divides the mesh. *)
Theorem C51_rectangle_parallel (b : box) kx ky xprocs yprocs : proper b -> 0 < kx -> 0 < ky -> 0 < xprocs -> 0 < yprocs ->
  covers2 b (flat_map (interface_nodes2_parallel b (kx * xprocs) (ky * yprocs) xprocs yprocs) (seq 0 (xprocs * yprocs))).
Proof.
  intros B Hkx Hky Hx Hy. set (NX := kx * xprocs). set (NY := ky * yprocs).
  assert (HX : 0 < NX) by (unfold NX; nia). assert (HY : 0 < NY) by (unfold NY; nia).
  assert (EX : lnx NX xprocs = kx) by (unfold lnx, NX; apply Nat.div_mul; lia).
  assert (EY : lny NY yprocs = ky) by (unfold lny, NY; apply Nat.div_mul; lia).
  pose proof (C51_rectangle b NX NY B HX HY) as C.
  assert (S : forall v, In v (flat_map (interface_nodes2_parallel b NX NY xprocs yprocs) (seq 0 (xprocs * yprocs))) <-> In v (interface_nodes2 b NX NY)).
  { intros v. rewrite in_flat_map. unfold interface_nodes2, interface_nodes2_parallel. split.
    - intros (p & Hp & I). apply in_seq in Hp. apply In_nth_error in I. destruct I as [lid I].
      assert (L : lid < num_nodes2 kx ky).
      { assert (nth_error (local_nodes (xmax b - xmin b) (ymax b - ymin b) (xmin b) (ymin b) NX NY xprocs yprocs p) lid <> None) as N by congruence.
        pose proof I as I'. unfold local_nodes in I'. rewrite EX, EY in I'. apply nodes2_inv in I'. destruct I' as (a & c & A & D & -> & _).
        unfold num_nodes2. rewrite (Nat.mul_comm (kx + 1)). apply radix_lt; lia. }
      destruct (C34_matches_serial (xmax b - xmin b) (ymax b - ymin b) (xmin b) (ymin b) kx ky xprocs yprocs p) as [M _]; auto; [lia|].
      fold NX NY in M. rewrite M in I by auto. eapply nth_error_In. exact I.
    - intros I. apply In_nth_error in I. destruct I as [g I].
      assert (L : g < num_nodes2 NX NY).
      { pose proof I as I'. apply nodes2_inv in I'. destruct I' as (a & c & A & D & -> & _). unfold num_nodes2. rewrite (Nat.mul_comm (NX + 1)). apply radix_lt; lia. }
      destruct (C34_ownership NX NY xprocs yprocs Hx Hy) as [_ O]. cbn zeta in O. rewrite EX, EY in O.
      rewrite (Nat.mul_comm xprocs kx), (Nat.mul_comm yprocs ky) in O. fold NX NY in O.
      destruct (O g L) as (p & lid & (Hp & Hl & _ & E) & _). exists p. split; [apply in_seq; lia|].
      destruct (C34_matches_serial (xmax b - xmin b) (ymax b - ymin b) (xmin b) (ymin b) kx ky xprocs yprocs p) as [M _]; auto.
      fold NX NY in M. specialize (M lid Hl). rewrite E, Nat2Z.id, I in M. eapply nth_error_In. exact M. }
  destruct C as (C0 & C1 & C2 & C3 & C4). split; [intros x y I; apply C0, S; auto|]. repeat split; apply S; auto.
Qed.
Print Assumptions C51_rectangle_parallel.

(** In three dimensions this needs equal extents in y and z ... *)
Theorem C51_brick_partial (b : box) nx ny nz : proper b -> 0 < nx -> 0 < ny -> 0 < nz ->
  (ymax b - ymin b = zmax b - zmin b)%R ->
  covers3 b (interface_nodes3 b nx ny nz).
Proof.
  intros (Bx & By & Bz) Hx Hy Hz E. unfold interface_nodes3, nodes3. split.
  - intros x y z I. apply In_nth_error in I. destruct I as [n I]. apply grid3_inv in I.
    destruct I as (a & c & d & A & B & D & _ & I). injection I as -> -> ->.
    pose proof (line_in (xmin b) (xmax b - xmin b) nx a ltac:(lra) Hx ltac:(lia)) as P1.
    pose proof (line_in (ymin b) (zmax b - zmin b) ny c ltac:(lra) Hy ltac:(lia)) as P2.
    pose proof (line_in (zmin b) (ymax b - ymin b) nz d ltac:(lra) Hz ltac:(lia)) as P3.
    unfold line in P1, P2, P3. lra.
  - intros x y z Ex Ey Ez.
    assert (HX : exists a, a < nx + 1 /\ x = line (xmin b) (xmax b - xmin b) nx a).
    { destruct Ex as [->| ->]; [exists 0|exists nx]; (split; [lia|]); rewrite ?line_0, ?line_n by auto; ring. }
    assert (HY : exists a, a < ny + 1 /\ y = line (ymin b) (zmax b - zmin b) ny a).
    { destruct Ey as [->| ->]; [exists 0|exists ny]; (split; [lia|]); rewrite ?line_0, ?line_n by auto; lra. }
    assert (HZ : exists a, a < nz + 1 /\ z = line (zmin b) (ymax b - ymin b) nz a).
    { destruct Ez as [->| ->]; [exists 0|exists nz]; (split; [lia|]); rewrite ?line_0, ?line_n by auto; lra. }
    destruct HX as (a & A & ->), HY as (c & C & ->), HZ as (d & D & ->).
    eapply nth_error_In. rewrite (grid3_nth _ _ _ _ a c d) by auto. reflexivity.
Qed.
Print Assumptions C51_brick_partial.

(** ... because the y extent is laid out in z and conversely: the claim fails for
    every box with different extents. *)
Theorem C51_brick_refuted (b : box) nx ny nz : proper b -> 0 < nx -> 0 < ny -> 0 < nz ->
  (ymax b - ymin b <> zmax b - zmin b)%R -> ~ covers3 b (interface_nodes3 b nx ny nz).
Proof.
  intros (Bx & By & Bz) Hx Hy Hz N [C _].
  assert (I : In (line (xmin b) (xmax b - xmin b) nx 0, line (ymin b) (zmax b - zmin b) ny ny,
                  line (zmin b) (ymax b - ymin b) nz nz) (interface_nodes3 b nx ny nz)).
  { unfold interface_nodes3, nodes3. eapply nth_error_In. rewrite (grid3_nth _ _ _ _ 0 ny nz) by lia. reflexivity. }
  apply C in I. rewrite !line_n in I by auto. lra.
Qed.
Print Assumptions C51_brick_refuted.

(** The phase mesh takes the lower ends to subtract from the spatial section: it
    covers its box exactly when the two sections have the same lower ends. *)
Theorem C51_phase_refuted (m p : box) nx ny : proper p -> 0 < nx -> 0 < ny ->
  (xmin m < xmax p)%R -> (ymin m < ymax p)%R ->
  (covers2 p (phase_nodes2 m p nx ny) <-> (xmin m = xmin p /\ ymin m = ymin p)).
Proof.
  intros (Bx & By & _) Hx Hy Lx Ly. unfold phase_nodes2. split.
  - intros (C & _ & _ & C3 & _).
    assert (I : In (line (xmin p) (xmax p - xmin m) nx nx, line (ymin p) (ymax p - ymin m) ny ny)
                   (nodes2 (xmax p - xmin m) (ymax p - ymin m) (xmin p) (ymin p) nx ny)).
    { eapply nth_error_In. apply nodes2_at; auto. }
    apply C in I. rewrite !line_n in I by auto.
    apply In_nth_error in C3. destruct C3 as [n C3]. apply nodes2_inv in C3.
    destruct C3 as (a & c & A & B & _ & E). injection E as E1 E2.
    pose proof (line_in (xmin p) (xmax p - xmin m) nx a ltac:(lra) Hx A).
    pose proof (line_in (ymin p) (ymax p - ymin m) ny c ltac:(lra) Hy B). lra.
  - intros [E1 E2]. apply nodes2_covers; auto; lra.
Qed.
Print Assumptions C51_phase_refuted.

Example C51_case :
  let b := {| xmin := 0; xmax := 1; ymin := 0; ymax := 1; zmin := 0; zmax := 2 |}%R in
  proper b /\ (ymax b - ymin b <> zmax b - zmin b)%R.
Proof. cbn. unfold proper; cbn. repeat split; lra. Qed.

(* ------------------------------------------------------------------ *)
(** ** C52: list of owned unknowns of a built-in mesh *)

(** With a phase mesh: exactly the unshared nodes, by global number. *)
Theorem C52_owned_partial pd shared l2g n : 0 < pd ->
  exists l, owned_dofs pd shared l2g n = Ok l
    /\ forall g, In g l <-> exists lid, lid < n /\ shared lid = false /\ l2g lid = g.
Proof.
  intros H. unfold owned_dofs. rewrite (proj2 (Nat.ltb_lt 0 pd) H), Nat.leb_refl.
  eexists. split; [reflexivity|]. intros g. rewrite in_map_iff. split.
  - intros (i & <- & I). apply filter_In in I. destruct I as [I S]. apply in_seq in I.
    exists i. split; [lia|]. split; auto. destruct (shared i); auto; discriminate.
  - intros (i & I & S & <-). exists i. split; auto. apply filter_In. rewrite S. split; auto. apply in_seq. lia.
Qed.
Print Assumptions C52_owned_partial.

(** Without one the array has length zero and is written past its end, on every mesh
    that owns a node. *)
Theorem C52_no_phase_refuted shared l2g n lid : lid < n -> shared lid = false ->
  owned_dofs 0 shared l2g n = UB.
Proof.
  intros H S. unfold owned_dofs. cbn [Nat.ltb Nat.leb].
  destruct (filter _ (seq 0 n)) eqn:F; [|reflexivity]. exfalso.
  assert (In lid (filter (fun i => negb (shared i)) (seq 0 n))).
  { apply filter_In. rewrite S. split; auto. apply in_seq. lia. }
  rewrite F in *. contradiction.
Qed.
Print Assumptions C52_no_phase_refuted.

Example C52_case : owned_dofs 1 (fun i => i =? 1) (fun i => Z.of_nat (10 + i)) 3 = Ok [10; 12]%Z
  /\ owned_dofs 0 (fun i => i =? 1) (fun i => Z.of_nat (10 + i)) 3 = UB.
Proof. split; reflexivity. Qed.
