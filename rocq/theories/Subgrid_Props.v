(** C139-C146: meshes inside a coarse element. *)
From Coq Require Import List Arith ZArith Bool Reals Lia Lra Permutation.
From Verif Require Import Geom_Model Geom_Spec Subgrid_Model Subgrid_Spec Subgrid_Proofs.
Import ListNotations.
Open Scope R_scope.

(** A mesh of the reference element s with 2^r cells in each direction: [os]
    lists the lowest corners of the cells in the order of the mesh. *)
Definition uniform_mesh (s : shape) (r : nat) (st : sub) (os : list (list Z)) : Prop :=
  Permutation os (grid (sdim s) (2 ^ r)) /\
  Permutation (snodes st) (map (at_level (-1) 2 r) (grid (sdim s) (2 ^ r + 1))) /\
  Forall2 (fun c a => List.length c = List.length (corners s) /\
     forall j, (j < List.length (corners s))%nat ->
       nth_error (snodes st) (nth j c 0%nat) = Some (at_level (-1) 2 r (vadd a (nth j (corners s) [])))) (sconn st) os.
Definition marked_sides (s : shape) (r : nat) (st : sub) (os : list (list Z)) : Prop :=
  Forall2 (fun m a => List.length m = List.length (sides s) /\
     forall j, (j < List.length (sides s))%nat ->
       let sd := nth j (sides s) (0%nat, false) in
       (touches r a sd -> nth j m (0, 0)%Z = (1, Z.of_nat j)%Z) /\
       (~ touches r a sd -> nth j m (0, 0)%Z = (0, 0)%Z)) (smaps st) os.

Lemma Forall2_map_r : forall {A B C} (f : B -> C) (R : A -> C -> Prop) l m,
  Forall2 R l (map f m) -> Forall2 (fun a b => R a (f b)) l m.
Proof.
  intros A B C f R l m. revert l. induction m as [|b m IH]; intros l F; inversion F; subst; constructor; auto.
Qed.
Lemma Forall2_map_l : forall {A B} (f : B -> A) (R : A -> B -> Prop) m,
  (forall b, In b m -> R (f b) b) -> Forall2 R (map f m) m.
Proof.
  intros A B f R m. induction m as [|b m IH]; intros H; cbn; constructor; [apply H; left; reflexivity|].
  apply IH. intros x X. apply H. right. exact X.
Qed.
Lemma state_mesh : forall s T r st, good s T -> state s r st ->
  uniform_mesh s r st (origins s r) /\ marked_sides s r st (origins s r).
Proof.
  intros s T r st G H. pose proof (state_nodes s T G r st H) as N. destruct H as [[La [F2 LM]] M].
  split; [split; [|split]|].
  - apply (origins_perm s T G).
  - exact N.
  - apply Forall2_map_r in F2. eapply Forall2_mono; [|exact F2]. intros c a [L D]. unfold cell in L, D.
    rewrite map_length in L, D. split; [exact L|]. intros j J. rewrite (D j J).
    rewrite (nth_indep _ [] (vadd a [])) by (rewrite map_length; exact J). rewrite map_nth. reflexivity.
  - unfold marked_sides. rewrite M. apply Forall2_map_l. intros a _. unfold marks. rewrite map_length, seq_length.
    split; [reflexivity|]. intros j J. cbv zeta.
    set (F := fun j => if touched r a (nth j (sides s) (0%nat, false)) then (1, Z.of_nat j)%Z else (0, 0)%Z).
    rewrite (nth_indep _ (0, 0)%Z (F 0%nat)) by (rewrite map_length, seq_length; exact J).
    rewrite map_nth, seq_nth by exact J. cbn [Nat.add]. unfold F, touched, touches.
    set (sd := nth j (sides s) (0%nat, false)).
    destruct (Z.eqb_spec (nth (fst sd) a 0%Z) (if snd sd then (2 ^ Z.of_nat r - 1)%Z else 0%Z)); split; intros; congruence.
Qed.
Lemma start_state : forall s T, good s T ->
  (forall j, (j < List.length (corners s))%nat -> vadd (repeat 0%Z (sdim s)) (nth j (corners s) []) = nth j (corners s) []) ->
  (forall j, (j < List.length (sides s))%nat -> nth (fst (nth j (sides s) (0%nat, false))) (repeat 0%Z (sdim s)) 0%Z = 0%Z) ->
  state s 0 (start (ref_nodes s) (List.length (sides s))).
Proof.
  intros s T G V _. split.
  - split; [|split].
    + split.
      * cbn [snodes start]. unfold ref_nodes. apply NoDup_map_inj; [|apply (g_nd s T G)].
        intros x y _ _ E. eapply (pos_inj (-1) 2); [lra|exact E].
      * intros p I. cbn [snodes start] in I. unfold ref_nodes in I. apply in_map_iff in I. destruct I as [z [<- I]].
        apply (g_cor s T G), in_grid in I. destruct I as [L F]. exists z. split; [exact L|]. split; [reflexivity|].
        eapply Forall_impl; [|exact F]. intros k K. cbn in *. lia.
    + cbn [snodes sconn start origins map]. constructor; [|constructor]. unfold ref_nodes, cell. rewrite map_length.
      split; [rewrite seq_length, map_length; reflexivity|]. intros j J. rewrite map_length in J.
      rewrite seq_nth by exact J. cbn [Nat.add]. rewrite (map_nth_error _ _ _ (nth_error_nth' _ [] J)).
      rewrite (nth_indep (map (vadd _) _) [] (vadd (repeat 0%Z (sdim s)) [])) by (rewrite map_length; exact J).
      rewrite map_nth, V by exact J. reflexivity.
    + reflexivity.
  - cbn [smaps start origins map]. unfold marks. f_equal. apply map_ext. intros j. unfold touched. cbn [Z.of_nat].
    rewrite nth_repeat. destruct (snd _); reflexivity.
Qed.
Lemma refined : forall s T r, good s T ->
  (forall j, (j < List.length (corners s))%nat -> vadd (repeat 0%Z (sdim s)) (nth j (corners s) []) = nth j (corners s) []) ->
  2 ^ r * tol_ T <= 2 -> state s r (refine T r (start (ref_nodes s) (List.length (sides s)))).
Proof.
  intros s T r G V Sp. apply (state_refine s T G r 0); [exact Sp|]. apply (start_state s T G V).
  intros j J. apply nth_repeat.
Qed.
Lemma square_refined : forall r, 2 ^ r * (1 / 1000000) <= 2 -> state square r (refine quad_table r (start (ref_nodes square) 4)).
Proof.
  intros r Sp. apply (refined square quad_table r good_square); [|exact Sp].
  intros [|[|[|[|j]]]] J; try reflexivity. cbn in J. lia.
Qed.
Lemma cube_refined : forall r, 2 ^ r * (1 / 1000000) <= 2 -> state cube r (refine hex_table r (start (ref_nodes cube) 6)).
Proof.
  intros r Sp. apply (refined cube hex_table r good_cube); [|exact Sp].
  intros [|[|[|[|[|[|[|[|j]]]]]]]] J; try reflexivity. cbn in J. lia.
Qed.

(** ** C139: refining a quadrilateral or hexahedron r times gives the uniform
    grid: each cell of the grid once, each grid point one node, the nodes of a
    cell in the order of the coarse element; at every level whose grid spacing
    2/2^r is not below the tolerance of the search for nodes *)
Theorem C139_quads : forall r, 2 ^ r * (1 / 1000000) <= 2 ->
  exists os, uniform_mesh square r (refine quad_table r (start (ref_nodes square) 4)) os.
Proof.
  intros r Sp. exists (origins square r). apply (state_mesh square quad_table); [apply good_square|apply square_refined; exact Sp].
Qed.
Theorem C139_hexes : forall r, 2 ^ r * (1 / 1000000) <= 2 ->
  exists os, uniform_mesh cube r (refine hex_table r (start (ref_nodes cube) 6)) os.
Proof.
  intros r Sp. exists (origins cube r). apply (state_mesh cube hex_table); [apply good_cube|apply cube_refined; exact Sp].
Qed.
(** twenty levels are resolved *)
Theorem C139_levels : forall r, (r <= 20)%nat -> 2 ^ r * (1 / 1000000) <= 2.
Proof.
  intros r H. assert (2 ^ r <= 2 ^ 20) by (apply Rle_pow; [lra|exact H]). cbn [pow] in *. lra.
Qed.

(** The quadrilaterals obtained by mapping the cells into any coarse
    quadrilateral have together its area. *)
Definition total_ (l : list R) : R := fold_right Rplus 0 l.
Definition vertex (X : Geom_Model.nodes) (ns : list node) (i : nat) : R * R :=
  let p := phys quad4 X (fun j => nth j (nth i ns []) 0) in (p 0%nat, p 1%nat).

Lemma total_perm : forall l m, Permutation l m -> total_ l = total_ m.
Proof. intros l m P. unfold total_. induction P; cbn; lra. Qed.
Lemma total_app : forall l m, total_ (l ++ m) = total_ l + total_ m.
Proof. unfold total_. induction l as [|x l IH]; intros m; cbn; [lra|]. rewrite IH. lra. Qed.
Lemma total_grid2 : forall n (f : list Z -> R),
  total_ (map f (grid 2 n)) = total_ (map (fun i => total_ (map (fun j => f [Z.of_nat i; Z.of_nat j]) (seq 0 n))) (seq 0 n)).
Proof.
  intros n f. cbn [grid].
  assert (E : flat_map (fun k => map (cons (Z.of_nat k)) [[]]) (seq 0 n) = map (fun k => [Z.of_nat k]) (seq 0 n)).
  { induction (seq 0 n) as [|k l IH]; [reflexivity|]. cbn in *. rewrite IH. reflexivity. }
  rewrite E. generalize (seq 0 n) at 2 4. intros l. induction l as [|k l IH]; [reflexivity|].
  cbn [flat_map map]. rewrite map_app, total_app, IH, !map_map. cbn. reflexivity.
Qed.
Lemma total_affine : forall n m a b,
  total_ (map (fun j => a + b * (2 * INR j + 1 - INR n)) (seq 0 m)) = INR m * a + b * (INR m * INR m - INR n * INR m).
Proof.
  intros n m a b. induction m as [|m IH]; [unfold total_; cbn; lra|].
  rewrite seq_S, map_app, total_app, IH. cbn [map Nat.add]. unfold total_. cbn [fold_right]. rewrite S_INR. ring.
Qed.
Lemma total_ext : forall {A} (f g : A -> R) l, (forall x, In x l -> f x = g x) -> total_ (map f l) = total_ (map g l).
Proof. intros A f g l H. f_equal. apply map_ext_in. exact H. Qed.

Definition jdet (X : Geom_Model.nodes) (u v : R) : R := det 2 (jac quad4 X (fun j => match j with O => u | _ => v end)).
Definition quad_at (X : Geom_Model.nodes) (p : list R) : R * R :=
  let q := phys quad4 X (fun j => nth j p 0) in (q 0%nat, q 1%nat).
Lemma cell_area : forall X u v h,
  polygon_area (map (quad_at X) [[u; v]; [u + h; v]; [u + h; v + h]; [u; v + h]]) = h * h * jdet X (u + h / 2) (v + h / 2).
Proof.
  intros X u v h. unfold polygon_area, jdet, quad_at. cbn [map]. unfold shoelace_from, cross2.
  unfold phys, jac, det, quad4. cbn [nn Geom_Model.shape dshape cdim sumn nth fst snd]. cbv [qx qy]. field.
Qed.
Lemma jdet_affine : forall X, exists A B C, (forall u v, jdet X u v = A + B * u + C * v) /\
  4 * A = polygon_area [(X 0%nat 0%nat, X 0%nat 1%nat); (X 1%nat 0%nat, X 1%nat 1%nat);
                        (X 2%nat 0%nat, X 2%nat 1%nat); (X 3%nat 0%nat, X 3%nat 1%nat)].
Proof.
  intros X. exists (jdet X 0 0), (jdet X 1 0 - jdet X 0 0), (jdet X 0 1 - jdet X 0 0). split.
  - intros u v. unfold jdet, jac, det, quad4. cbn [nn dshape cdim sumn]. cbv [qx qy]. field.
  - unfold polygon_area, shoelace_from, cross2, jdet, jac, det, quad4. cbn [nn dshape cdim sumn fst snd]. cbv [qx qy]. field.
Qed.
Theorem C139_area : forall r X, 2 ^ r * (1 / 1000000) <= 2 ->
  let st := refine quad_table r (start (ref_nodes square) 4) in
  total_ (map (fun c => polygon_area (map (vertex X (snodes st)) c)) (sconn st))
  = polygon_area [(X 0%nat 0%nat, X 0%nat 1%nat); (X 1%nat 0%nat, X 1%nat 1%nat);
                  (X 2%nat 0%nat, X 2%nat 1%nat); (X 3%nat 0%nat, X 3%nat 1%nat)].
Proof.
  intros r X Sp st. destruct (C139_quads r Sp) as [os [P [_ F]]]. fold st in F.
  set (n := (2 ^ r)%nat) in *. assert (Nn : INR n = 2 ^ r) by (unfold n; rewrite pow_INR; reflexivity).
  pose proof (pow2_pos r) as P2.
  destruct (jdet_affine X) as [A [B [C [J1 J2]]]].
  set (h := 2 / 2 ^ r).
  set (area := fun a : list Z => h * h * (A + B * (-1 + h * IZR (nth 0 a 0%Z) + h / 2) + C * (-1 + h * IZR (nth 1 a 0%Z) + h / 2))).
  assert (E : total_ (map (fun c => polygon_area (map (vertex X (snodes st)) c)) (sconn st)) = total_ (map area os)).
  { assert (LO : forall a, In a os -> List.length a = 2%nat).
    { intros a I. apply (Permutation_in _ P), in_grid in I. destruct I as [L _]. exact L. }
    clear P. induction F as [|c a cs os [L H] F IH]; [reflexivity|]. cbn [map]. unfold total_ in *. cbn [fold_right].
    rewrite IH by (intros x I; apply LO; right; exact I). f_equal.
    pose proof (LO a (or_introl eq_refl)) as La. destruct a as [|x [|y [|]]]; try discriminate.
    cbn [corners square List.length] in L, H. destruct c as [|c0 [|c1 [|c2 [|c3 [|]]]]]; try discriminate.
    assert (V : forall k, (k < 4)%nat -> vertex X (snodes st) (nth k [c0; c1; c2; c3] 0%nat)
       = quad_at X (at_level (-1) 2 r (vadd [x; y] (nth k (corners square) [])))).
    { intros k K. unfold vertex. fold (quad_at X (nth (nth k [c0; c1; c2; c3] 0%nat) (snodes st) [])). f_equal.
      apply nth_error_nth. exact (H k K). }
    cbn [map]. pose proof (V 0%nat ltac:(lia)) as V0. pose proof (V 1%nat ltac:(lia)) as V1.
    pose proof (V 2%nat ltac:(lia)) as V2. pose proof (V 3%nat ltac:(lia)) as V3.
    cbn [nth corners square] in V0, V1, V2, V3. rewrite V0, V1, V2, V3.
    set (u := -1 + h * IZR x). set (v := -1 + h * IZR y).
    assert (Q : forall p q, at_level (-1) 2 r (vadd [x; y] [p; q]) = [u + h * IZR p; v + h * IZR q]).
    { intros p q. unfold at_level, u, v, h. cbn [vadd map]. rewrite !plus_IZR. f_equal; [|f_equal]; field; lra. }
    rewrite !Q. replace (u + h * 0) with u by ring. replace (v + h * 0) with v by ring. rewrite !Rmult_1_r.
    pose proof (cell_area X u v h) as CA. cbn [map] in CA. rewrite CA, J1. unfold area, u, v. cbn [nth]. reflexivity. }
  rewrite E, (total_perm _ _ (Permutation_map area P)). cbn [sdim square]. rewrite total_grid2, <- J2.
  assert (I1 : forall i, total_ (map (fun j => area [Z.of_nat i; Z.of_nat j]) (seq 0 n))
     = h * h * (INR n * (A + B * (-1 + h * INR i + h / 2)))).
  { intros i. rewrite (total_ext _ (fun j => h * h * (A + B * (-1 + h * INR i + h / 2)) + h * h * C * (h / 2) * (2 * INR j + 1 - INR n))).
    - rewrite total_affine. ring.
    - intros j _. unfold area. cbn [nth]. rewrite <- !INR_IZR_INZ, Nn. unfold h. field. lra. }
  rewrite (total_ext _ (fun i => h * h * INR n * A + h * h * INR n * B * (h / 2) * (2 * INR i + 1 - INR n))).
  - rewrite total_affine, Nn. unfold h. field. lra.
  - intros i _. rewrite I1, Nn. unfold h. field. lra.
Qed.
Print Assumptions C139_quads.
Print Assumptions C139_hexes.
Print Assumptions C139_levels.
Print Assumptions C139_area.
(** three levels: 64 cells and 81 nodes; the hypothesis holds *)
Example C139_count : List.length (sconn (refine quad_table 3 (start (ref_nodes square) 4))) = 64%nat /\
  List.length (snodes (refine quad_table 3 (start (ref_nodes square) 4))) = 81%nat.
Proof.
  destruct (C139_quads 3 (C139_levels 3 ltac:(lia))) as [os [P [N F]]].
  apply Permutation_length in N. apply Forall2_length_ in F. rewrite F, (Permutation_length P), N, map_length.
  split; vm_compute; reflexivity.
Qed.

(** ** C140: a side of a cell is marked with a coarse side exactly when it
    lies on it, so that conditions of the coarse sides are applied there and
    nowhere else *)
Theorem C140_quads : forall r, 2 ^ r * (1 / 1000000) <= 2 ->
  let st := refine quad_table r (start (ref_nodes square) 4) in
  exists os, uniform_mesh square r st os /\ marked_sides square r st os.
Proof.
  intros r Sp st. exists (origins square r). apply (state_mesh square quad_table); [apply good_square|apply square_refined; exact Sp].
Qed.
Theorem C140_hexes : forall r, 2 ^ r * (1 / 1000000) <= 2 ->
  let st := refine hex_table r (start (ref_nodes cube) 6) in
  exists os, uniform_mesh cube r st os /\ marked_sides cube r st os.
Proof.
  intros r Sp st. exists (origins cube r). apply (state_mesh cube hex_table); [apply good_cube|apply cube_refined; exact Sp].
Qed.
(** In terms of the nodes: side j of cell e is marked iff all its nodes lie in
    the plane of coarse side j; nothing else is marked. *)
Definition side_nodes (s : shape) (j : nat) : list nat :=
  let sd := nth j (sides s) (0%nat, false) in
  filter (fun k => (nth (fst sd) (nth k (corners s) []) 0 =? (if snd sd then 1 else 0))%Z) (seq 0 (List.length (corners s))).
Definition on_side (s : shape) (j : nat) (p : node) : Prop :=
  let sd := nth j (sides s) (0%nat, false) in nth (fst sd) p 0 = if snd sd then 1 else -1.
Lemma on_side_iff : forall s r a j k, (k < List.length (corners s))%nat ->
  (fst (nth j (sides s) (0%nat, false)) < sdim s)%nat -> List.length a = sdim s -> List.length (nth k (corners s) []) = sdim s ->
  In k (side_nodes s j) ->
  (on_side s j (at_level (-1) 2 r (vadd a (nth k (corners s) []))) <-> touches r a (nth j (sides s) (0%nat, false))).
Proof.
  intros s r a j k K A La Lk I. unfold on_side, touches, side_nodes in *. set (sd := nth j (sides s) (0%nat, false)) in *.
  apply filter_In in I. destruct I as [_ I]. apply Z.eqb_eq in I.
  rewrite pos_nth by (rewrite vadd_length; congruence). rewrite vadd_nth by congruence. rewrite I.
  pose proof (pow2_pos r) as P2.
  assert (PZ : IZR (2 ^ Z.of_nat r) = 2 ^ r) by (rewrite <- pow_IZR; reflexivity).
  destruct (snd sd); split; intros E.
  - apply eq_IZR. rewrite minus_IZR, PZ. rewrite plus_IZR in E.
    assert (Q : (IZR (nth (fst sd) a 0%Z) + 1) / 2 ^ r = 1) by lra.
    apply (f_equal (fun x => x * 2 ^ r)) in Q. field_simplify in Q; lra.
  - rewrite E. replace (2 ^ Z.of_nat r - 1 + 1)%Z with (2 ^ Z.of_nat r)%Z by lia. rewrite PZ. field. lra.
  - apply eq_IZR. rewrite plus_IZR in E.
    assert (Q : (IZR (nth (fst sd) a 0%Z) + 0) / 2 ^ r = 0) by lra.
    apply (f_equal (fun x => x * 2 ^ r)) in Q. field_simplify in Q; lra.
  - rewrite E. cbn [Z.add]. field. lra.
Qed.
Lemma Forall2_nth : forall {A B} (R : A -> B -> Prop) l m e x y, Forall2 R l m -> (e < List.length m)%nat -> R (nth e l x) (nth e m y).
Proof.
  intros A B R l m e x y F. revert e. induction F as [|a b l m H F IH]; intros [|e] L; cbn in *; try lia; [exact H|]. apply IH. lia.
Qed.
Lemma marked_geometric : forall s T r st, good s T -> state s r st ->
  (forall j, (j < List.length (sides s))%nat -> side_nodes s j <> []) ->
  forall e j, (e < List.length (sconn st))%nat -> (j < List.length (sides s))%nat ->
  nth j (nth e (smaps st) []) (0, 0)%Z = (1, Z.of_nat j)%Z /\
    (forall k, In k (side_nodes s j) -> on_side s j (nth (nth k (nth e (sconn st) []) 0%nat) (snodes st) [])) \/
  nth j (nth e (smaps st) []) (0, 0)%Z = (0, 0)%Z /\
    (forall k, In k (side_nodes s j) -> ~ on_side s j (nth (nth k (nth e (sconn st) []) 0%nat) (snodes st) [])).
Proof.
  intros s T r st G H NE e j E J. destruct (state_mesh s T r st G H) as [[P [_ F]] M].
  set (os := origins s r) in *. assert (LE : (e < List.length os)%nat) by (rewrite <- (Forall2_length_ _ _ _ F); exact E).
  pose proof (Forall2_nth _ _ _ e [] [] F LE) as [Lc Pc]. pose proof (Forall2_nth _ _ _ e [] [] M LE) as [Lm Mm].
  set (a := nth e os []) in *. specialize (Mm j J). cbv zeta in Mm.
  assert (A : (fst (nth j (sides s) (0%nat, false)) < sdim s)%nat).
  { pose proof (g_side s T G) as Q. rewrite Forall_forall in Q. apply Q, nth_In. exact J. }
  assert (La : List.length a = sdim s) by (apply (origins_length s T G r); apply nth_In; exact LE).
  assert (K : forall k, In k (side_nodes s j) -> (on_side s j (nth (nth k (nth e (sconn st) []) 0%nat) (snodes st) [])
      <-> touches r a (nth j (sides s) (0%nat, false)))).
  { intros k I. assert (Kl : (k < List.length (corners s))%nat).
    { unfold side_nodes in I. apply filter_In in I. destruct I as [I _]. apply in_seq in I. lia. }
    assert (EP : nth (nth k (nth e (sconn st) []) 0%nat) (snodes st) [] = at_level (-1) 2 r (vadd a (nth k (corners s) [])))
      by (apply nth_error_nth; exact (Pc k Kl)).
    rewrite EP. apply on_side_iff; try assumption.
    apply (corner_length s T G). apply nth_In. exact Kl. }
  destruct (Z.eq_dec (nth (fst (nth j (sides s) (0%nat, false))) a 0%Z)
     (if snd (nth j (sides s) (0%nat, false)) then (2 ^ Z.of_nat r - 1)%Z else 0%Z)) as [D|D].
  - left. split; [apply (proj1 Mm); exact D|]. intros k I. apply K; [exact I|exact D].
  - right. split; [apply (proj2 Mm); exact D|]. intros k I C. apply K in C; [|exact I]. contradiction.
Qed.
Theorem C140_quad_sides : forall r, 2 ^ r * (1 / 1000000) <= 2 ->
  let st := refine quad_table r (start (ref_nodes square) 4) in
  forall e j, (e < List.length (sconn st))%nat -> (j < 4)%nat ->
  nth j (nth e (smaps st) []) (0, 0)%Z = (1, Z.of_nat j)%Z /\
    (forall k, In k (side_nodes square j) -> on_side square j (nth (nth k (nth e (sconn st) []) 0%nat) (snodes st) [])) \/
  nth j (nth e (smaps st) []) (0, 0)%Z = (0, 0)%Z /\
    (forall k, In k (side_nodes square j) -> ~ on_side square j (nth (nth k (nth e (sconn st) []) 0%nat) (snodes st) [])).
Proof.
  intros r Sp st e j. apply (marked_geometric square quad_table r); [apply good_square|apply square_refined; exact Sp|].
  intros [|[|[|[|i]]]] I; try discriminate. cbn in I. lia.
Qed.
Theorem C140_hex_sides : forall r, 2 ^ r * (1 / 1000000) <= 2 ->
  let st := refine hex_table r (start (ref_nodes cube) 6) in
  forall e j, (e < List.length (sconn st))%nat -> (j < 6)%nat ->
  nth j (nth e (smaps st) []) (0, 0)%Z = (1, Z.of_nat j)%Z /\
    (forall k, In k (side_nodes cube j) -> on_side cube j (nth (nth k (nth e (sconn st) []) 0%nat) (snodes st) [])) \/
  nth j (nth e (smaps st) []) (0, 0)%Z = (0, 0)%Z /\
    (forall k, In k (side_nodes cube j) -> ~ on_side cube j (nth (nth k (nth e (sconn st) []) 0%nat) (snodes st) [])).
Proof.
  intros r Sp st e j. apply (marked_geometric cube hex_table r); [apply good_cube|apply cube_refined; exact Sp|].
  intros [|[|[|[|[|[|i]]]]]] I; try discriminate. cbn in I. lia.
Qed.
(** The nodes of the sides, as in the coarse element. *)
Example C140_side_nodes : map (side_nodes square) (seq 0 4) = [[0;1]; [1;2]; [2;3]; [0;3]]%nat /\
  map (side_nodes cube) (seq 0 6) = [[0;1;4;5]; [1;2;5;6]; [2;3;6;7]; [0;3;4;7]; [0;1;2;3]; [4;5;6;7]]%nat.
Proof. split; vm_compute; reflexivity. Qed.
Print Assumptions C140_quads.
Print Assumptions C140_hexes.
Print Assumptions C140_quad_sides.
Print Assumptions C140_hex_sides.

(** ** C144: conditions passed from the coarse element to the sides of the cells *)
Theorem C144_quads : forall r macro k e i j, 2 ^ r * (1 / 1000000) <= 2 ->
  let st := refine quad_table r (start (ref_nodes square) 4) in
  (e < List.length (sconn st))%nat -> (j < 4)%nat ->
  let on := forall n, In n (side_nodes square j) -> on_side square j (nth (nth n (nth e (sconn st) []) 0%nat) (snodes st) []) in
  (on -> (1 < fst (macro k i j))%Z -> physical_side st 4 macro k e i j = Some (macro k i j)) /\
  (on -> (fst (macro k i j) <= 1)%Z -> physical_side st 4 macro k e i j = Some (5, -1)%Z) /\
  (~ on -> physical_side st 4 macro k e i j = Some (0, 0)%Z).
Proof.
  intros r macro k e i j Sp st E J on. pose proof (C140_quad_sides r Sp e j) as H. cbv zeta in H. fold st in H. specialize (H E J).
  pose proof (square_refined r Sp) as S. fold st in S.
  assert (LM : List.length (nth e (smaps st) []) = 4%nat).
  { destruct (state_mesh square quad_table r st good_square S) as [[P [_ F]] M].
    assert (LE : (e < List.length (origins square r))%nat) by (rewrite <- (Forall2_length_ _ _ _ F); exact E).
    exact (proj1 (Forall2_nth _ _ _ e [] [] M LE)). }
  unfold physical_side. rewrite LM. replace (j <? 4)%nat with true by (symmetry; apply Nat.ltb_lt; exact J).
  replace (4 <=? j)%nat with false by (symmetry; apply Nat.leb_gt; exact J).
  assert (NE : exists n, In n (side_nodes square j)) by (destruct j as [|[|[|[|]]]]; try lia; eexists; left; reflexivity).
  destruct H as [[-> H]|[-> H]].
  - cbn [Z.ltb Z.compare]. replace (Z.of_nat j <? 0)%Z with false by (symmetry; apply Z.ltb_ge; lia).
    replace (Z.of_nat 4 <=? Z.of_nat j)%Z with false by (symmetry; apply Z.leb_gt; lia). cbn [orb]. rewrite Nat2Z.id.
    split; [|split].
    + intros _ L. replace (1 <? fst (macro k i j))%Z with true by (symmetry; apply Z.ltb_lt; exact L). reflexivity.
    + intros _ L. replace (1 <? fst (macro k i j))%Z with false by (symmetry; apply Z.ltb_ge; exact L). reflexivity.
    + intros N. exfalso. apply N. exact H.
  - cbn [Z.ltb Z.compare]. destruct NE as [n N].
    split; [|split]; [intros O; exfalso; apply (H n N), O, N..|reflexivity].
Qed.
Theorem C144_hexes : forall r macro k e i j, 2 ^ r * (1 / 1000000) <= 2 ->
  let st := refine hex_table r (start (ref_nodes cube) 6) in
  (e < List.length (sconn st))%nat -> (j < 6)%nat ->
  let on := forall n, In n (side_nodes cube j) -> on_side cube j (nth (nth n (nth e (sconn st) []) 0%nat) (snodes st) []) in
  (on -> (1 < fst (macro k i j))%Z -> physical_side st 6 macro k e i j = Some (macro k i j)) /\
  (on -> (fst (macro k i j) <= 1)%Z -> physical_side st 6 macro k e i j = Some (5, -1)%Z) /\
  (~ on -> physical_side st 6 macro k e i j = Some (0, 0)%Z).
Proof.
  intros r macro k e i j Sp st E J on. pose proof (C140_hex_sides r Sp e j) as H. cbv zeta in H. fold st in H. specialize (H E J).
  pose proof (cube_refined r Sp) as S. fold st in S.
  assert (LM : List.length (nth e (smaps st) []) = 6%nat).
  { destruct (state_mesh cube hex_table r st good_cube S) as [[P [_ F]] M].
    assert (LE : (e < List.length (origins cube r))%nat) by (rewrite <- (Forall2_length_ _ _ _ F); exact E).
    exact (proj1 (Forall2_nth _ _ _ e [] [] M LE)). }
  unfold physical_side. rewrite LM. replace (j <? 6)%nat with true by (symmetry; apply Nat.ltb_lt; exact J).
  replace (6 <=? j)%nat with false by (symmetry; apply Nat.leb_gt; exact J).
  assert (NE : exists n, In n (side_nodes cube j)) by (destruct j as [|[|[|[|[|[|]]]]]]; try lia; eexists; left; reflexivity).
  destruct H as [[-> H]|[-> H]].
  - cbn [Z.ltb Z.compare]. replace (Z.of_nat j <? 0)%Z with false by (symmetry; apply Z.ltb_ge; lia).
    replace (Z.of_nat 6 <=? Z.of_nat j)%Z with false by (symmetry; apply Z.leb_gt; lia). cbn [orb]. rewrite Nat2Z.id.
    split; [|split].
    + intros _ L. replace (1 <? fst (macro k i j))%Z with true by (symmetry; apply Z.ltb_lt; exact L). reflexivity.
    + intros _ L. replace (1 <? fst (macro k i j))%Z with false by (symmetry; apply Z.ltb_ge; exact L). reflexivity.
    + intros N. exfalso. apply N. exact H.
  - cbn [Z.ltb Z.compare]. destruct NE as [n N].
    split; [|split]; [intros O; exfalso; apply (H n N), O, N..|reflexivity].
Qed.
Print Assumptions C144_quads.
Print Assumptions C144_hexes.

(** ** C147: a coarse element and cells of different shapes *)
(** Where the first coarse element has a condition on every side, the sides of
    the triangles cut from a quadrilateral get the information of the sides
    they lie on. *)
Theorem C147_quad_tri_partial : forall refnodes cond macro k e i,
  (forall j, (j < 4)%nat -> (0 < cond j)%Z) -> (e < 4)%nat ->
  physical_side (start_quad_tri refnodes cond) 4 macro k e i 0
  = Some (if (1 <? fst (macro k i e))%Z then macro k i e else (5, -1)%Z) /\
  physical_side (start_quad_tri refnodes cond) 4 macro k e i 1 = Some (0, 0)%Z /\
  physical_side (start_quad_tri refnodes cond) 4 macro k e i 2 = Some (0, 0)%Z.
Proof.
  intros refnodes cond macro k e i H E. unfold physical_side, start_quad_tri. cbn [smaps map].
  assert (P : forall j, (j < 4)%nat -> coarse_side cond j = (1, Z.of_nat j)%Z).
  { intros j J. unfold coarse_side. pose proof (H j J). replace (0 <? cond j)%Z with true by (symmetry; apply Z.ltb_lt; assumption). reflexivity. }
  rewrite !P by lia. destruct e as [|[|[|[|]]]]; try lia; cbn; repeat split; destruct (macro k i _) as [[|p|p] q]; cbn; try reflexivity; destruct p; reflexivity.
Qed.
(** A quadrilateral inside the domain has no condition: the index of the coarse
    side is -1, and reading the side information with it is out of range. *)
Theorem C147_quad_tri_refuted : forall refnodes macro k i,
  physical_side (start_quad_tri refnodes (fun _ => 0%Z)) 4 macro k 0 i 0 = None.
Proof. intros. reflexivity. Qed.
(** A triangle cut into quadrilaterals: the fourth side of the cells is beyond
    the side information, which has three sides per cell. *)
Theorem C147_tri_quad_refuted : forall refnodes cond macro k i e,
  (forall j, (j < 3)%nat -> (0 < cond j)%Z) -> (e < 3)%nat ->
  physical_side (start_tri_quad refnodes cond) 3 macro k e i 3 = None.
Proof.
  intros refnodes cond macro k i e H E. unfold physical_side, start_tri_quad. cbn [smaps].
  assert (P : forall j, (j < 3)%nat -> coarse_side cond j = (1, Z.of_nat j)%Z).
  { intros j J. unfold coarse_side. pose proof (H j J). replace (0 <? cond j)%Z with true by (symmetry; apply Z.ltb_lt; assumption). reflexivity. }
  rewrite !P by lia. destruct e as [|[|[|]]]; try lia; reflexivity.
Qed.
(** Where the cells lie: the triangles cut from any quadrilateral meet in its centre and have
    together its area; the quadrilaterals cut from any triangle have each a third of its area. *)
Definition corner (ns : list node) (i : nat) : R * R := (nth 0 (nth i ns []) 0, nth 1 (nth i ns []) 0).
Definition cell_areas (st : sub) : list R := map (fun c => polygon_area (map (corner (snodes st)) c)) (sconn st).
Theorem C147_quad_tri_cover : forall x0 y0 x1 y1 x2 y2 x3 y3 cond,
  let st := start_quad_tri [[x0; y0]; [x1; y1]; [x2; y2]; [x3; y3]] cond in
  total_ (cell_areas st) = polygon_area [(x0, y0); (x1, y1); (x2, y2); (x3, y3)] /\
  Forall (fun c => corner (snodes st) (nth 2 c 0%nat) = ((x0 + x1 + x2 + x3) / 4, (y0 + y1 + y2 + y3) / 4)) (sconn st) /\
  map (fun c => (nth 0 c 0, nth 1 c 0)%nat) (sconn st) = [(0, 1); (1, 2); (2, 3); (3, 0)]%nat.
Proof.
  intros. unfold st, cell_areas, corner, start_quad_tri, midpoint, polygon_area, shoelace_from, cross2, total_. cbn.
  repeat split; [field |]. repeat constructor; cbn; f_equal; field.
Qed.
Theorem C147_tri_quad_cover : forall x0 y0 x1 y1 x2 y2 cond,
  let st := start_tri_quad [[x0; y0]; [x1; y1]; [x2; y2]] cond in
  cell_areas st = repeat (polygon_area [(x0, y0); (x1, y1); (x2, y2)] / 3) 3 /\
  Forall (fun c => corner (snodes st) (nth 2 c 0%nat) = ((x0 + x1 + x2) / 3, (y0 + y1 + y2) / 3)) (sconn st) /\
  map (fun c => nth 0 c 0%nat) (sconn st) = [0; 1; 2]%nat.
Proof.
  intros. unfold st, cell_areas, corner, start_tri_quad, midpoint, polygon_area, shoelace_from, cross2. cbn.
  assert (K : forall (a b : R) l m, a = b -> l = m -> a :: l = b :: m) by (intros; congruence).
  split; [repeat (apply K; [field |]); reflexivity |]. split; [| reflexivity]. repeat constructor; cbn; f_equal; field.
Qed.
Print Assumptions C147_quad_tri_cover.
Print Assumptions C147_tri_quad_cover.
Print Assumptions C147_quad_tri_partial.
Print Assumptions C147_quad_tri_refuted.
Print Assumptions C147_tri_quad_refuted.
Example C147_case : (forall j, (j < 4)%nat -> (0 < (fun j => Z.of_nat j + 1) j)%Z) /\
  physical_side (start_quad_tri [] (fun j => Z.of_nat j + 1)%Z) 4 (fun _ _ j => (2, Z.of_nat j)%Z) 0 3 0 0 = Some (2, 3)%Z.
Proof. split; [intros; lia|reflexivity]. Qed.

(** ** C145: the mesh over all coarse elements *)
Definition in_range (st : sub) : Prop := forall c i, In c (sconn st) -> In i c -> (i < List.length (snodes st))%nat.
Lemma nth_physical : forall {P} (frame : nat -> node -> P) st n k i d, (k < n)%nat -> (i < List.length (snodes st))%nat ->
  nth (i + k * List.length (snodes st)) (physical_list frame st n) d = frame k (nth i (snodes st) []).
Proof.
  intros P frame st n k i d K I. unfold physical_list.
  assert (H : forall m a j, (j < m)%nat ->
     nth (i + j * List.length (snodes st)) (flat_map (fun k => map (frame k) (snodes st)) (seq a m)) d = frame (a + j)%nat (nth i (snodes st) [])).
  { induction m as [|m IH]; intros a j J; [lia|]. cbn [seq flat_map]. destruct j as [|j].
    - rewrite app_nth1 by (rewrite map_length; lia). rewrite !Nat.add_0_r.
      rewrite (nth_indep _ d (frame a [])) by (rewrite map_length; exact I). apply map_nth.
    - rewrite app_nth2 by (rewrite map_length; lia). rewrite map_length.
      replace (i + S j * List.length (snodes st) - List.length (snodes st))%nat with (i + j * List.length (snodes st))%nat by lia.
      rewrite IH by lia. f_equal. lia. }
  apply (H n 0%nat k K).
Qed.
(** The nodes of the cells are the nodes of the list under the connectivity. *)
Theorem C145_nodes : forall (P : Type) (frame : nat -> node -> P) st n d, in_range st ->
  physical_nodes frame st n = map (map (fun i => nth i (physical_list frame st n) d)) (physical_conn st n).
Proof.
  intros P frame st n d R. unfold physical_nodes, physical_conn.
  rewrite !flat_map_concat_map, concat_map, !map_map. f_equal. apply map_ext_in. intros k K. apply in_seq in K.
  rewrite map_map. apply map_ext_in. intros c C. rewrite map_map. apply map_ext_in. intros i I.
  pose proof (R c i C I) as L. rewrite nth_physical by (try lia; exact L). apply map_nth.
Qed.
(** Cell e of coarse element k uses only the nodes of that element; nodes of
    different coarse elements differ, and each node has its own position in
    the list. *)
Theorem C145_disjoint : forall st n k e, in_range st -> (k < n)%nat -> (e < List.length (sconn st))%nat ->
  let c := nth (k * List.length (sconn st) + e) (physical_conn st n) [] in
  c = map (fun i => i + k * List.length (snodes st))%nat (nth e (sconn st) []) /\
  forall i, In i c -> (k * List.length (snodes st) <= i < (k + 1) * List.length (snodes st))%nat.
Proof.
  intros st n k e R K E c.
  assert (H : forall m a j, (j < m)%nat ->
     nth (j * List.length (sconn st) + e) (flat_map (fun k => map (map (fun i => i + k * List.length (snodes st))%nat) (sconn st)) (seq a m)) []
     = map (fun i => i + (a + j) * List.length (snodes st))%nat (nth e (sconn st) [])).
  { induction m as [|m IH]; intros a j J; [lia|]. cbn [seq flat_map]. destruct j as [|j].
    - rewrite app_nth1 by (rewrite map_length; lia). rewrite Nat.add_0_r. cbn [Nat.mul Nat.add].
      apply (map_nth (map (fun i => i + a * List.length (snodes st))%nat) (sconn st) []).
    - rewrite app_nth2 by (rewrite map_length; lia). rewrite map_length.
      replace (S j * List.length (sconn st) + e - List.length (sconn st))%nat with (j * List.length (sconn st) + e)%nat by lia.
      rewrite IH by lia. apply map_ext. intros i. lia. }
  assert (C : c = map (fun i => i + k * List.length (snodes st))%nat (nth e (sconn st) [])) by apply (H n 0%nat k K).
  split; [exact C|]. intros i I. rewrite C in I. apply in_map_iff in I. destruct I as [x [<- X]].
  pose proof (R _ x (nth_In _ [] E) X). lia.
Qed.
Theorem C145_range : forall r, 2 ^ r * (1 / 1000000) <= 2 -> in_range (refine quad_table r (start (ref_nodes square) 4)).
Proof.
  intros r Sp c i C I. destruct (C139_quads r Sp) as [os [_ [_ F]]].
  set (st := refine quad_table r (start (ref_nodes square) 4)) in *.
  apply (In_nth _ _ []) in C. destruct C as [e [E <-]].
  assert (E' : (e < List.length os)%nat) by (rewrite <- (Forall2_length_ _ _ _ F); exact E).
  destruct (Forall2_nth _ _ _ e [] [] F E') as [L H].
  apply (In_nth _ _ 0%nat) in I. destruct I as [j [J <-]]. apply nth_error_Some. rewrite H by (rewrite <- L; exact J). discriminate.
Qed.
Print Assumptions C145_nodes.
Print Assumptions C145_disjoint.
Print Assumptions C145_range.
Example C145_case : physical_conn (start (ref_nodes square) 4) 2 = [[0;1;2;3]; [4;5;6;7]]%nat.
Proof. reflexivity. Qed.

(** ** C146: groups of sides with a condition *)
Section Unique.
Variables (nc nv ns : nat) (si : nat -> nat -> nat -> Z * Z).
Lemma uniq_in : forall acc j info s, In s (uniq_step acc j info) <-> In s acc \/ ((0 < fst info)%Z /\ s = (snd info, j)).
Proof.
  intros acc j info s. unfold uniq_step. destruct (Z.ltb_spec 0 (fst info)).
  - destruct (existsb _ acc) eqn:E.
    + split; [intros I; left; exact I|]. intros [I|[_ ->]]; [exact I|]. apply existsb_exists in E.
      destruct E as [[p q] [I E]]. cbn in E. apply andb_true_iff in E. destruct E as [E1 E2].
      apply Z.eqb_eq in E1. apply Nat.eqb_eq in E2. subst. exact I.
    + rewrite in_app_iff. cbn. intuition.
  - split; [intros I; left; exact I|]. intros [I|[I _]]; [exact I|lia].
Qed.
Lemma uniq_nodup : forall acc j info, NoDup acc -> NoDup (uniq_step acc j info).
Proof.
  intros acc j info N. unfold uniq_step. destruct (0 <? fst info)%Z; [|exact N].
  destruct (existsb _ acc) eqn:E; [exact N|].
  apply NoDup_Add with (a := (snd info, j)) (l := acc).
  - clear. induction acc; cbn; constructor; assumption.
  - split; [exact N|]. intros I. assert (existsb (fun s => ((snd info =? fst s)%Z && (j =? snd s)%nat)%bool) acc = true); [|congruence].
    apply existsb_exists. exists (snd info, j). split; [exact I|]. cbn. rewrite Z.eqb_refl, Nat.eqb_refl. reflexivity.
Qed.
Lemma fold_in : forall {A} (step : list (Z * nat) -> A -> list (Z * nat)) (Q : A -> Z * nat -> Prop) l acc s,
  (forall acc x s, In s (step acc x) <-> In s acc \/ Q x s) ->
  In s (fold_left step l acc) <-> In s acc \/ exists x, In x l /\ Q x s.
Proof.
  intros A step Q l. induction l as [|x l IH]; intros acc s H; cbn [fold_left].
  - split; [intros I; left; exact I|]. intros [I|[x [[] _]]]. exact I.
  - rewrite (IH _ s H), H. split.
    + intros [[I|q]|[y [I q]]]; [left; exact I|right; exists x; split; [left; reflexivity|exact q]|right; exists y; split; [right|]; assumption].
    + intros [I|[y [[<-|I] q]]]; [left; left; exact I|left; right; exact q|right; exists y; split; assumption].
Qed.
Lemma fold_nodup : forall {A} (step : list (Z * nat) -> A -> list (Z * nat)) l acc,
  (forall acc x, NoDup acc -> NoDup (step acc x)) -> NoDup acc -> NoDup (fold_left step l acc).
Proof. intros A step l. induction l as [|x l IH]; intros acc H N; [exact N|]. cbn. apply IH; [exact H|]. apply H, N. Qed.

(** The sides listed are those with a condition, each once. *)
Theorem C146_sides : NoDup (unique_sides nc nv ns si) /\
  forall s j, In (s, j) (unique_sides nc nv ns si) <->
    (j < ns)%nat /\ exists c i, (c < nc)%nat /\ (i < nv)%nat /\ (0 < fst (si c i j))%Z /\ snd (si c i j) = s.
Proof.
  split.
  - unfold unique_sides. repeat (apply fold_nodup; [intros|try constructor; try assumption]). apply uniq_nodup. assumption.
  - intros s j. unfold unique_sides.
    rewrite (fold_in _ (fun c p => exists i, In i (seq 0 nv) /\ exists j', In j' (seq 0 ns) /\ ((0 < fst (si c i j'))%Z /\ p = (snd (si c i j'), j')))).
    + split.
      * intros [[]|[c [C [i [I [j' [J [K E]]]]]]]]. injection E as -> ->. apply in_seq in C. apply in_seq in I. apply in_seq in J.
        split; [lia|]. exists c, i. repeat split; try lia; assumption.
      * intros [J [c [i [C [I [K <-]]]]]]. right. exists c. split; [apply in_seq; lia|]. exists i. split; [apply in_seq; lia|].
        exists j. split; [apply in_seq; lia|]. split; [exact K|reflexivity].
    + intros acc c p. apply (fold_in _ (fun i p => exists j', In j' (seq 0 ns) /\ ((0 < fst (si c i j'))%Z /\ p = (snd (si c i j'), j')))).
      intros acc' i p'. apply (fold_in _ (fun j' p => (0 < fst (si c i j'))%Z /\ p = (snd (si c i j'), j'))).
      intros acc'' j' p''. apply uniq_in.
Qed.
(** Every side with a condition is in the group of its condition and side, each
    element at most once in a group, and groups contain nothing else. *)
Theorem C146_groups : forall c i j, (c < nc)%nat -> (i < nv)%nat -> (j < ns)%nat -> (0 < fst (si c i j))%Z ->
  exists g, nth_error (unique_sides nc nv ns si) g = Some (snd (si c i j), j) /\
    In c (nth g (boundary_groups nc nv ns si) []) /\
    forall g', nth_error (unique_sides nc nv ns si) g' = Some (snd (si c i j), j) -> g' = g.
Proof.
  intros c i j C I J K. destruct C146_sides as [ND M].
  assert (H : In (snd (si c i j), j) (unique_sides nc nv ns si)).
  { apply M. split; [exact J|]. exists c, i. repeat split; assumption. }
  apply In_nth_error in H. destruct H as [g G]. exists g. split; [exact G|].
  assert (L : (g < List.length (unique_sides nc nv ns si))%nat) by (apply nth_error_Some; congruence).
  split.
  - unfold boundary_groups. rewrite (nth_indep _ [] (side_group nc nv si (0%Z, 0%nat))) by (rewrite map_length; exact L).
    rewrite map_nth, (nth_error_nth _ _ _ G). unfold side_group. apply filter_In. split; [apply in_seq; lia|].
    apply existsb_exists. exists i. split; [apply in_seq; lia|]. cbn [fst snd]. apply andb_true_iff.
    split; [apply Z.ltb_lt; exact K|apply Z.eqb_refl].
  - intros g' G'. symmetry. apply (proj1 (NoDup_nth_error _) ND g g' L). congruence.
Qed.
Theorem C146_only : forall g c s j, nth_error (unique_sides nc nv ns si) g = Some (s, j) ->
  In c (nth g (boundary_groups nc nv ns si) []) ->
  (c < nc)%nat /\ exists i, (i < nv)%nat /\ (0 < fst (si c i j))%Z /\ snd (si c i j) = s.
Proof.
  intros g c s j G I.
  assert (L : (g < List.length (unique_sides nc nv ns si))%nat) by (apply nth_error_Some; congruence).
  unfold boundary_groups in I. rewrite (nth_indep _ [] (side_group nc nv si (0%Z, 0%nat))) in I by (rewrite map_length; exact L).
  rewrite map_nth, (nth_error_nth _ _ _ G) in I. unfold side_group in I. apply filter_In in I. destruct I as [C E].
  apply in_seq in C. split; [lia|]. apply existsb_exists in E. destruct E as [i [I E]]. apply in_seq in I.
  apply andb_true_iff in E. destruct E as [E1 E2]. apply Z.ltb_lt in E1. apply Z.eqb_eq in E2. cbn [fst snd] in *.
  exists i. split; [lia|]. split; assumption.
Qed.
Theorem C146_once : forall g, NoDup (nth g (boundary_groups nc nv ns si) []).
Proof.
  intros g. destruct (nth_in_or_default g (boundary_groups nc nv ns si) []) as [I|E]; [|rewrite E; constructor].
  unfold boundary_groups in *. apply in_map_iff in I. destruct I as [s [<- _]]. unfold side_group. apply NoDup_filter, seq_NoDup.
Qed.
End Unique.
Print Assumptions C146_sides.
Print Assumptions C146_groups.
Print Assumptions C146_only.
Print Assumptions C146_once.
Example C146_case :
  unique_sides 3 1 3 (fun c (i : nat) j => nth j (nth c [[(5, -1); (0, 0); (2, 3)]; [(5, -1); (0, 0); (0, 0)]; [(0, 0); (0, 0); (2, 3)]]%Z []) (0, 0)%Z)
  = [((-1)%Z, 0%nat); (3%Z, 2%nat)] /\
  boundary_groups 3 1 3 (fun c (i : nat) j => nth j (nth c [[(5, -1); (0, 0); (2, 3)]; [(5, -1); (0, 0); (0, 0)]; [(0, 0); (0, 0); (2, 3)]]%Z []) (0, 0)%Z)
  = [[0;1]; [0;2]]%nat.
Proof. split; reflexivity. Qed.

(** ** C141: triangles *)
Definition tri_nodes : list node := [[0; 0]; [1; 0]; [0; 1]].
Definition area2 (ns : list node) (c : list nat) : R :=
  let x k := nth 0 (nth (nth k c 0%nat) ns []) 0 in let y k := nth 1 (nth (nth k c 0%nat) ns []) 0 in
  (x 1%nat - x 0%nat) * (y 2%nat - y 0%nat) - (x 2%nat - x 0%nat) * (y 1%nat - y 0%nat).
Definition crossZ (D : list (list Z)) : Z :=
  let x k := nth 0 (nth k D []) 0%Z in let y k := nth 1 (nth k D []) 0%Z in
  ((x 1%nat - x 0%nat) * (y 2%nat - y 0%nat) - (x 2%nat - x 0%nat) * (y 1%nat - y 0%nat))%Z.
Definition tri_ok (B : Z) (D : list (list Z)) : Prop :=
  exists a b c d e f, D = [[a; b]; [c; d]; [e; f]] /\ Z.abs (crossZ D) = 1%Z /\
  (0 <= a /\ 0 <= b /\ a + b <= B /\ 0 <= c /\ 0 <= d /\ c + d <= B /\ 0 <= e /\ 0 <= f /\ e + f <= B)%Z.
Lemma half : forall x, (2 * x / 2 = x)%Z.
Proof. intros x. rewrite Z.mul_comm. apply Z.div_mul. lia. Qed.
Lemma tri_split : forall a b c d e f,
  split_cell 2 tri_table [[a; b]; [c; d]; [e; f]] =
  [[[2 * a; 2 * b]; [a + c; b + d]; [a + e; b + f]];
   [[2 * c; 2 * d]; [a + c; b + d]; [c + e; d + f]];
   [[2 * e; 2 * f]; [a + e; b + f]; [c + e; d + f]];
   [[a + c; b + d]; [c + e; d + f]; [a + e; b + f]]]%Z.
Proof.
  intros. unfold split_cell, src_vec, vavg, vsum. cbn [children tri_table map points nth seq fold_left length].
  change (Z.of_nat 2) with 2%Z. rewrite !half. cbn [Z.add]. reflexivity.
Qed.
Lemma tri_cell_ok : forall B D, (0 <= B)%Z -> tri_ok B D -> cell_ok 2 3 tri_table B D.
Proof.
  intros B D PB [a [b [c [d [e [f [-> [_ H]]]]]]]]. split; [reflexivity|]. split.
  - repeat constructor; lia.
  - unfold divides, vsum. cbn [points tri_table map seq fold_left length nth]. change (Z.of_nat 2) with 2%Z.
    repeat constructor; rewrite half; reflexivity.
Qed.
Lemma tri_split_ok : forall B D, tri_ok B D -> Forall (tri_ok (2 * B)) (split_cell 2 tri_table D).
Proof.
  intros B D [a [b [c [d [e [f [-> [X H]]]]]]]]. rewrite tri_split.
  assert (X' : (crossZ [[a; b]; [c; d]; [e; f]] = 1 \/ crossZ [[a; b]; [c; d]; [e; f]] = -1)%Z) by lia.
  unfold crossZ in X'. cbn [nth] in X'.
  repeat constructor; do 6 eexists; (split; [reflexivity|]); (split; [|lia]); unfold crossZ; cbn [nth].
  1-4: match goal with |- Z.abs ?u = _ => enough (u = 1 \/ u = -1)%Z by lia end.
  1-4: destruct X' as [X'|X'];
    match type of X' with ?l = ?v => match goal with |- (?u = 1 \/ ?u = -1)%Z =>
      (left; transitivity l; [ring|lia]) || (right; transitivity l; [ring|lia]) ||
      (left; transitivity (- l)%Z; [ring|lia]) || (right; transitivity (- l)%Z; [ring|lia]) end end.
Qed.
Definition tri_state (r : nat) (st : sub) : Prop :=
  exists Ds, inv 0 1 2 r (2 ^ Z.of_nat r) st Ds /\ Forall (tri_ok (2 ^ Z.of_nat r)) Ds /\ List.length Ds = (4 ^ r)%nat.
Lemma flat_length : forall {A B} (f : A -> list B) k l, (forall x, In x l -> List.length (f x) = k) ->
  List.length (flat_map f l) = (k * List.length l)%nat.
Proof.
  intros A B f k l. induction l as [|x l IH]; intros H; cbn [flat_map List.length]; [lia|].
  rewrite app_length, IH, (H x (or_introl eq_refl)) by (intros y I; apply H; right; exact I). lia.
Qed.
Lemma tri_table_wf : table_wf tri_table 3.
Proof. split; repeat constructor; cbn; try lia; discriminate. Qed.
Lemma tri_tol : 0 < tol_ tri_table. Proof. cbn. lra. Qed.
Lemma tri_step : forall r st, 2 ^ (S r) * tol_ tri_table <= 1 -> tri_state r st -> tri_state (S r) (refine_all tri_table st).
Proof.
  intros r st Sp [Ds [I [OK L]]]. assert (PB : (0 <= 2 ^ Z.of_nat r)%Z) by (apply Z.pow_nonneg; lia).
  assert (P1 : 0 < 1) by lra.
  assert (OK' : Forall (cell_ok 2 3 tri_table (2 ^ Z.of_nat r)) Ds) by (eapply Forall_impl; [|exact OK]; intros D; apply tri_cell_ok; exact PB).
  destruct (refine_all_spec 0 1 2 3 r tri_table (2 ^ Z.of_nat r) P1 tri_tol ltac:(lia) ltac:(lia) tri_table_wf Sp PB st Ds I OK' eq_refl) as [I' _].
  replace (2 * 2 ^ Z.of_nat r)%Z with (2 ^ Z.of_nat (S r))%Z in I' by (rewrite Nat2Z.inj_succ, Z.pow_succ_r; lia).
  exists (flat_map (split_cell 2 tri_table) Ds). split; [exact I'|]. split.
  - rewrite Forall_forall in *. intros D H. apply in_flat_map in H. destruct H as [E [H1 H2]].
    pose proof (tri_split_ok _ E (OK E H1)) as Q. rewrite Forall_forall in Q.
    replace (2 ^ Z.of_nat (S r))%Z with (2 * 2 ^ Z.of_nat r)%Z by (rewrite Nat2Z.inj_succ, Z.pow_succ_r; lia). apply Q. exact H2.
  - rewrite (flat_length _ 4); [cbn [Nat.pow]; lia|]. intros D _. reflexivity.
Qed.
Lemma pos0 : forall x y, at_level 0 1 0 [x; y] = [IZR x; IZR y].
Proof. intros. unfold at_level. cbn [map pow]. f_equal; [|f_equal]; field. Qed.
Lemma tri_start : tri_state 0 (start tri_nodes 3).
Proof.
  exists [[[0; 0]; [1; 0]; [0; 1]]]%Z. split; [|split].
  - split; [|split].
    + split.
      * cbn [snodes start tri_nodes]. repeat constructor; cbn; intros H; repeat destruct H as [H|H]; try (injection H; intros; lra); contradiction.
      * intros p I. cbn in I. destruct I as [<-|[<-|[<-|[]]]];
          [exists [0; 0]%Z|exists [1; 0]%Z|exists [0; 1]%Z]; (split; [reflexivity|]); rewrite pos0; (split; [reflexivity|]); repeat constructor; cbn; lia.
    + cbn [snodes sconn start]. constructor; [|constructor]. split; [reflexivity|].
      intros [|[|[|j]]] J; try (cbn in J; lia); cbn [nth seq List.length tri_nodes nth_error]; rewrite pos0; reflexivity.
    + reflexivity.
  - constructor; [|constructor]. do 6 eexists. split; [reflexivity|]. split; [reflexivity|]. cbn. lia.
  - reflexivity.
Qed.
Lemma tri_refine : forall n r st, 2 ^ (r + n) * tol_ tri_table <= 1 -> tri_state r st -> tri_state (r + n) (refine tri_table n st).
Proof.
  induction n as [|n IH]; intros r st Sp H; [rewrite Nat.add_0_r; exact H|].
  cbn [refine]. replace (r + S n)%nat with (S r + n)%nat in * by lia. apply IH; [exact Sp|]. apply tri_step; [|exact H].
  eapply Rle_trans; [|exact Sp]. apply Rmult_le_compat_r; [apply Rlt_le, tri_tol|]. apply Rle_pow; [lra|lia].
Qed.
Lemma tri_area2 : forall r ns c D B, tri_ok B D -> described 0 1 r ns c D ->
  area2 ns c = IZR (crossZ D) / 2 ^ r / 2 ^ r.
Proof.
  intros r ns c D B [x1 [y1 [x2 [y2 [x3 [y3 [-> _]]]]]]] [L H].
  pose proof (H 0%nat ltac:(cbn; lia)) as H0. pose proof (H 1%nat ltac:(cbn; lia)) as H1. pose proof (H 2%nat ltac:(cbn; lia)) as H2.
  unfold area2. cbv zeta. rewrite (@nth_error_nth node _ _ _ [] H0), (@nth_error_nth node _ _ _ [] H1), (@nth_error_nth node _ _ _ [] H2).
  unfold crossZ, at_level. cbn [nth map]. rewrite minus_IZR, !mult_IZR, !minus_IZR. pose proof (pow2_pos r). field. lra.
Qed.
(** What holds: distinct nodes, 4^r cells, each with the same area up to sign
    and with its nodes in the triangle. *)
Theorem C141_partial : forall r, 2 ^ r * (1 / 10000000000) <= 1 ->
  let st := refine tri_table r (start tri_nodes 3) in
  NoDup (snodes st) /\ List.length (sconn st) = (4 ^ r)%nat /\
  Forall (fun c => List.length c = 3%nat /\ Rabs (area2 (snodes st) c) = / 4 ^ r /\
     forall i, In i c -> exists x y, nth_error (snodes st) i = Some [x; y] /\ 0 <= x /\ 0 <= y /\ x + y <= 1) (sconn st).
Proof.
  intros r Sp st. pose proof (tri_refine r 0 _ Sp tri_start) as S. cbn [Nat.add] in S. fold st in S.
  destruct S as [Ds [[[ND _] [F _]] [OK L]]]. split; [exact ND|]. split; [rewrite (Forall2_length_ _ _ _ F); exact L|].
  rewrite Forall_forall. intros c C. apply (In_nth _ _ []) in C. destruct C as [e [E <-]].
  assert (E' : (e < List.length Ds)%nat) by (rewrite <- (Forall2_length_ _ _ _ F); exact E).
  pose proof (Forall2_nth _ _ _ e [] [] F E') as H. rewrite Forall_forall in OK.
  pose proof (OK _ (nth_In _ [] E')) as O. set (c := nth e (sconn st) []) in *. set (D := nth e Ds []) in *.
  pose proof (tri_area2 _ _ _ _ _ O H) as A. pose proof (pow2_pos r) as P2.
  destruct O as [x1 [y1 [x2 [y2 [x3 [y3 [ED [X O]]]]]]]]. destruct H as [Lc H]. rewrite ED in Lc.
  split; [exact Lc|]. split.
  - rewrite A. assert (XX : Rabs (IZR (crossZ D)) = 1) by (rewrite <- abs_IZR, X; reflexivity).
    unfold Rdiv. rewrite !Rabs_mult, XX, Rabs_inv, (Rabs_pos_eq (2 ^ r)) by lra.
    replace 4 with (2 * 2) by ring. rewrite Rpow_mult_distr. field. lra.
  - intros i I. apply (In_nth _ _ 0%nat) in I. destruct I as [j [J <-]].
    assert (Jd : (j < List.length D)%nat) by (rewrite ED, <- Lc; exact J). rewrite (H j Jd).
    assert (PZ : IZR (2 ^ Z.of_nat r) = 2 ^ r) by (rewrite <- pow_IZR; reflexivity).
    assert (Q : forall u v, (0 <= u)%Z -> (0 <= v)%Z -> (u + v <= 2 ^ Z.of_nat r)%Z ->
       0 <= 0 + 1 * IZR u / 2 ^ r /\ 0 <= 0 + 1 * IZR v / 2 ^ r /\ 0 + 1 * IZR u / 2 ^ r + (0 + 1 * IZR v / 2 ^ r) <= 1).
    { intros u v U V UV. apply IZR_le in U, V, UV. rewrite plus_IZR, PZ in UV.
      assert (0 < / 2 ^ r) by (apply Rinv_0_lt_compat; exact P2). unfold Rdiv. split; [nra|]. split; [nra|].
      replace (0 + 1 * IZR u * / 2 ^ r + (0 + 1 * IZR v * / 2 ^ r)) with ((IZR u + IZR v) * / 2 ^ r) by ring.
      apply (Rmult_le_reg_r (2 ^ r)); [exact P2|]. rewrite Rmult_assoc, Rinv_l by lra. lra. }
    rewrite ED in Jd |- *. unfold at_level. destruct j as [|[|[|j]]]; [..|cbn in Jd; lia]; cbn [nth map]; do 2 eexists; (split; [reflexivity|]); apply Q; lia.
Qed.
(** What is wrong: the second cell runs clockwise, and its third side, which
    joins (1/2,1/2) and (1,0) on the second coarse side, is marked with the
    third coarse side. *)
Theorem C141_refuted : let st := refine tri_table 1 (start tri_nodes 3) in
  area2 (snodes st) (nth 1 (sconn st) []) = - (1 / 4) /\
  nth_error (snodes st) (nth 2 (nth 1 (sconn st) []) 0%nat) = Some [1 / 2; 1 / 2] /\
  nth_error (snodes st) (nth 0 (nth 1 (sconn st) []) 0%nat) = Some [1; 0] /\
  nth 2 (nth 1 (smaps st) []) (0, 0)%Z = (1, 2)%Z.
Proof.
  intros st. destruct tri_start as [Ds [I [OK _]]].
  assert (P1 : 0 < 1) by lra. assert (Sp : 2 ^ 1 * tol_ tri_table <= 1) by (cbn; lra).
  pose (D0 := [[[0; 0]; [1; 0]; [0; 1]]]%Z).
  assert (I0 : inv 0 1 2 0 (2 ^ Z.of_nat 0) (start tri_nodes 3) D0).
  { destruct I as [La [F LM]]. split; [exact La|]. split; [|exact LM].
    constructor; [|constructor]. split; [reflexivity|].
    intros [|[|[|j]]] J; try (cbn in J; lia); cbn [nth seq List.length tri_nodes nth_error sconn start snodes D0]; rewrite pos0; reflexivity. }
  assert (OK0 : Forall (cell_ok 2 3 tri_table (2 ^ Z.of_nat 0)) D0).
  { constructor; [|constructor]. apply tri_cell_ok; [cbn; lia|]. do 6 eexists. split; [reflexivity|]. split; [reflexivity|]. cbn. lia. }
  destruct (refine_all_spec 0 1 2 3 0 tri_table (2 ^ Z.of_nat 0) P1 tri_tol ltac:(lia) ltac:(lia) tri_table_wf Sp ltac:(cbn; lia) _ D0 I0 OK0 eq_refl) as [[_ [F _]] M].
  change (refine_all tri_table (start tri_nodes 3)) with st in F, M. clearbody st.
  unfold D0 in F. cbn [flat_map] in F. rewrite tri_split, app_nil_r in F. cbn in F.
  pose proof (Forall2_nth _ _ _ 1 [] [] F ltac:(cbn; lia)) as H. cbn [nth] in H.
  assert (O : tri_ok 2 [[2; 0]; [1; 0]; [1; 1]]%Z).
  { do 6 eexists. split; [reflexivity|]. split; [reflexivity|]. lia. }
  pose proof (tri_area2 _ _ _ _ _ O H) as A. destruct H as [_ H].
  pose proof (H 2%nat ltac:(cbn; lia)) as H2. pose proof (H 0%nat ltac:(cbn; lia)) as H0.
  split; [|split; [|split]].
  - rewrite A. unfold crossZ. cbn. field.
  - rewrite H2. unfold at_level. cbn [nth map pow]. f_equal. f_equal; [|f_equal]; field.
  - rewrite H0. unfold at_level. cbn [nth map pow]. f_equal. f_equal; [|f_equal]; field.
  - rewrite M. reflexivity.
Qed.
Print Assumptions C141_partial.
Print Assumptions C141_refuted.
Example C141_case : 2 ^ 5 * (1 / 10000000000) <= 1.
Proof. cbn. lra. Qed.

(** ** C142: intervals *)
(** Number of cells and marks of the ends, at every level. *)
Definition end_marks (n e : nat) : smap :=
  [if (e =? 0)%nat then (1, 0)%Z else (0, 0)%Z; if (S e =? n)%nat then (1, 1)%Z else (0, 0)%Z].
Lemma fold1 : forall k a st, (a + k <= length (smaps st))%nat -> length (smaps st) = length (sconn st) ->
  let st' := fold_left refine_cell1 (seq a k) st in
  smaps st' = (smaps st ++ flat_map (fun e => [clear (nth e (smaps st) []) [1%nat]; clear (nth e (smaps st) []) [0%nat]]) (seq a k))%list /\
  length (smaps st') = length (sconn st') /\ exists new, sconn st' = (sconn st ++ new)%list.
Proof.
  induction k as [|k IH]; intros a st L E; cbn [seq fold_left].
  - cbn. rewrite app_nil_r. split; [reflexivity|]. split; [exact E|]. exists []. symmetry. apply app_nil_r.
  - set (s1 := refine_cell1 st a). destruct (IH (S a) s1) as [M [E1 [new C]]].
    + unfold s1, refine_cell1. cbn [smaps]. rewrite app_length. cbn. lia.
    + unfold s1, refine_cell1. cbn [smaps sconn]. rewrite !app_length. cbn. lia.
    + cbv zeta. split; [|split; [exact E1|]].
      * rewrite M. unfold s1 at 1. unfold refine_cell1 at 1. cbn [smaps flat_map]. rewrite <- app_assoc. f_equal. cbn [app]. f_equal. f_equal.
        apply flat_map_ext_in_. intros e I. apply in_seq in I. unfold s1, refine_cell1. cbn [smaps].
        rewrite app_nth1 by lia. reflexivity.
      * rewrite C. unfold s1 at 1. unfold refine_cell1 at 1. cbn [sconn]. rewrite <- app_assoc. eexists. reflexivity.
Qed.
Lemma refine_all1_maps : forall st, length (smaps st) = length (sconn st) ->
  smaps (refine_all1 st) = flat_map (fun m => [clear m [1%nat]; clear m [0%nat]]) (smaps st) /\
  length (smaps (refine_all1 st)) = length (sconn (refine_all1 st)).
Proof.
  intros st E. destruct (fold1 (length (sconn st)) 0 st) as [M [E' [new C]]]; [lia|exact E|].
  unfold refine_all1. cbn [smaps sconn]. set (st' := fold_left _ _ _) in *. split.
  - rewrite M, <- E, skipn_app, skipn_all, Nat.sub_diag. cbn [app skipn].
    apply (flat_map_nth_seq (fun m => [clear m [1%nat]; clear m [0%nat]])).
  - rewrite !skipn_length, E'. reflexivity.
Qed.
Lemma double_marks : forall n, (0 < n)%nat ->
  flat_map (fun m => [clear m [1%nat]; clear m [0%nat]]) (map (end_marks n) (seq 0 n)) = map (end_marks (2 * n)) (seq 0 (2 * n)).
Proof.
  intros n Pn. rewrite flat_map_concat_map, map_map, <- flat_map_concat_map.
  assert (H : forall k a, (a + k <= n)%nat ->
     flat_map (fun e => [clear (end_marks n e) [1%nat]; clear (end_marks n e) [0%nat]]) (seq a k) = map (end_marks (2 * n)) (seq (2 * a) (2 * k))).
  { induction k as [|k IH]; intros a L; [reflexivity|].
    replace (2 * S k)%nat with (S (S (2 * k))) by lia. cbn [seq flat_map map app].
    replace (S (S (2 * a))) with (2 * S a)%nat by lia. rewrite IH by lia. f_equal; [|f_equal].
    - unfold end_marks.
      replace (2 * a =? 0)%nat with (a =? 0)%nat by (apply eq_true_iff_eq; rewrite !Nat.eqb_eq; lia).
      replace (S (2 * a) =? 2 * n)%nat with false by (symmetry; apply Nat.eqb_neq; lia).
      destruct (a =? 0)%nat; destruct (S a =? n)%nat; reflexivity.
    - unfold end_marks.
      replace (S (S (2 * a)) =? 2 * n)%nat with (S a =? n)%nat by (apply eq_true_iff_eq; rewrite !Nat.eqb_eq; lia).
      replace (S (2 * a) =? 0)%nat with false by reflexivity.
      destruct (a =? 0)%nat; destruct (S a =? n)%nat; reflexivity. }
  apply (H n 0%nat). lia.
Qed.
Theorem C142_marks_partial : forall a b r, let st := refine1 r (start [[a]; [b]] 2) in
  List.length (sconn st) = (2 ^ r)%nat /\ smaps st = map (end_marks (2 ^ r)) (seq 0 (2 ^ r)).
Proof.
  intros a b r.
  assert (H : forall r n st, (0 < n)%nat -> length (smaps st) = length (sconn st) -> smaps st = map (end_marks n) (seq 0 n) ->
     length (smaps (refine1 r st)) = length (sconn (refine1 r st)) /\
     smaps (refine1 r st) = map (end_marks (2 ^ r * n)) (seq 0 (2 ^ r * n))).
  { clear. induction r as [|r IH]; intros n st P E M; cbn [refine1 Nat.pow].
    - rewrite Nat.mul_1_l. split; assumption.
    - destruct (refine_all1_maps st E) as [M' E'].
      replace (2 * 2 ^ r * n)%nat with (2 ^ r * (2 * n))%nat by lia.
      apply IH; [lia|exact E'|]. rewrite M', M. apply double_marks. exact P. }
  destruct (H r 1%nat (start [[a]; [b]] 2)) as [E M]; [lia|reflexivity|reflexivity|]. rewrite Nat.mul_1_r in M.
  split; [|exact M]. rewrite <- E, M, map_length, seq_length. reflexivity.
Qed.
(** The cells are not those of the interval: after one refinement both refer
    to node 3 of 3. *)
Theorem C142_refuted : forall a b, let st := refine1 1 (start [[a]; [b]] 2) in
  snodes st = [[a]; [b]; [1 / 2 * (a + b)]] /\ sconn st = [[0; 3]; [3; 1]]%nat /\ ~ in_range st.
Proof.
  intros a b st. split; [reflexivity|]. split; [reflexivity|].
  intros R. pose proof (R [0; 3]%nat 3%nat (or_introl eq_refl) ltac:(cbn; tauto)) as H. cbn in H. lia.
Qed.
Print Assumptions C142_marks_partial.
Print Assumptions C142_refuted.
Example C142_case : smaps (refine1 2 (start [[-1]; [1]] 2)) = [[(1, 0); (0, 0)]; [(0, 0); (0, 0)]; [(0, 0); (0, 0)]; [(0, 0); (1, 1)]]%Z.
Proof. reflexivity. Qed.

(** ** C143: tetrahedra *)
Definition tet_nodes : list node := [[0; 0; 0]; [1; 0; 0]; [0; 1; 0]; [0; 0; 1]].
Definition volZ (D : list (list Z)) : Z :=
  let x k j := (nth j (nth k D []) 0 - nth j (nth 0 D []) 0)%Z in
  (x 1%nat 0%nat * (x 2%nat 1%nat * x 3%nat 2%nat - x 2%nat 2%nat * x 3%nat 1%nat)
   - x 1%nat 1%nat * (x 2%nat 0%nat * x 3%nat 2%nat - x 2%nat 2%nat * x 3%nat 0%nat)
   + x 1%nat 2%nat * (x 2%nat 0%nat * x 3%nat 1%nat - x 2%nat 1%nat * x 3%nat 0%nat))%Z.
(** six times the volume of a cell *)
Definition vol6 (ns : list node) (c : list nat) : R :=
  let x k j := nth j (nth (nth k c 0%nat) ns []) 0 - nth j (nth (nth 0 c 0%nat) ns []) 0 in
  x 1%nat 0%nat * (x 2%nat 1%nat * x 3%nat 2%nat - x 2%nat 2%nat * x 3%nat 1%nat)
   - x 1%nat 1%nat * (x 2%nat 0%nat * x 3%nat 2%nat - x 2%nat 2%nat * x 3%nat 0%nat)
   + x 1%nat 2%nat * (x 2%nat 0%nat * x 3%nat 1%nat - x 2%nat 1%nat * x 3%nat 0%nat).
Definition inside (B : Z) (a b c : Z) : Prop := (0 <= a /\ 0 <= b /\ 0 <= c /\ a + b + c <= B)%Z.
Definition tet_ok (B : Z) (D : list (list Z)) : Prop :=
  exists a1 a2 a3 b1 b2 b3 c1 c2 c3 d1 d2 d3, D = [[a1; a2; a3]; [b1; b2; b3]; [c1; c2; c3]; [d1; d2; d3]] /\
  (volZ D = 1 \/ volZ D = -1)%Z /\ inside B a1 a2 a3 /\ inside B b1 b2 b3 /\ inside B c1 c2 c3 /\ inside B d1 d2 d3.
Lemma tet_split : forall a1 a2 a3 b1 b2 b3 c1 c2 c3 d1 d2 d3,
  split_cell 3 tet_table [[a1; a2; a3]; [b1; b2; b3]; [c1; c2; c3]; [d1; d2; d3]] =
  (let m u v w x y z := [u + x; v + y; w + z] in
   let ab := m a1 a2 a3 b1 b2 b3 in let bc := m b1 b2 b3 c1 c2 c3 in let ac := m a1 a2 a3 c1 c2 c3 in
   let ad := m a1 a2 a3 d1 d2 d3 in let bd := m b1 b2 b3 d1 d2 d3 in let cd := m c1 c2 c3 d1 d2 d3 in
   [[[2 * a1; 2 * a2; 2 * a3]; ab; ac; ad]; [[2 * b1; 2 * b2; 2 * b3]; bc; ab; bd]; [[2 * c1; 2 * c2; 2 * c3]; ac; bc; cd];
    [ad; bd; cd; [2 * d1; 2 * d2; 2 * d3]]; [ab; bc; ac; ad]; [ad; bd; cd; bc]; [ad; bd; cd; bc]; [ad; bd; cd; bc]])%Z.
Proof.
  intros. unfold split_cell, src_vec, vavg, vsum. cbn [children tet_table map points nth seq fold_left length].
  change (Z.of_nat 2) with 2%Z. rewrite !half. cbn [Z.add]. reflexivity.
Qed.
Lemma tet_cell_ok : forall B D, (0 <= B)%Z -> tet_ok B D -> cell_ok 3 4 tet_table B D.
Proof.
  intros B D PB [a1 [a2 [a3 [b1 [b2 [b3 [c1 [c2 [c3 [d1 [d2 [d3 [-> [_ H]]]]]]]]]]]]]]. unfold inside in H. split; [reflexivity|]. split.
  - repeat constructor; lia.
  - unfold divides, vsum. cbn [points tet_table map seq fold_left length nth]. change (Z.of_nat 2) with 2%Z.
    repeat constructor; rewrite half; reflexivity.
Qed.
Lemma tet_split_ok : forall B D, tet_ok B D -> Forall (tet_ok (2 * B)) (split_cell 3 tet_table D).
Proof.
  intros B D [a1 [a2 [a3 [b1 [b2 [b3 [c1 [c2 [c3 [d1 [d2 [d3 [-> [X [Ha [Hb [Hc Hd]]]]]]]]]]]]]]]]]. rewrite tet_split. cbv zeta.
  unfold inside in *. unfold volZ in X. cbn [nth] in X.
  repeat constructor; do 12 eexists; (split; [reflexivity|]); (split; [|unfold inside; lia]); unfold volZ; cbn [nth].
  all: destruct X as [X|X];
    match type of X with ?l = ?v => match goal with |- (?u = 1 \/ ?u = -1)%Z =>
      (left; transitivity l; [ring|exact X]) || (right; transitivity l; [ring|exact X]) ||
      (left; transitivity (- l)%Z; [ring|rewrite X; reflexivity]) || (right; transitivity (- l)%Z; [ring|rewrite X; reflexivity]) end end.
Qed.
Lemma tet_table_wf : table_wf tet_table 4.
Proof. split; repeat constructor; cbn; try lia; discriminate. Qed.
Lemma tet_tol : 0 < tol_ tet_table. Proof. cbn. lra. Qed.
Definition tet_state (r : nat) (st : sub) : Prop :=
  exists Ds, inv 0 1 3 r (2 ^ Z.of_nat r) st Ds /\ Forall (tet_ok (2 ^ Z.of_nat r)) Ds /\ List.length Ds = (8 ^ r)%nat.
Lemma tet_step : forall r st, 2 ^ (S r) * tol_ tet_table <= 1 -> tet_state r st -> tet_state (S r) (refine_all tet_table st).
Proof.
  intros r st Sp [Ds [I [OK L]]]. assert (PB : (0 <= 2 ^ Z.of_nat r)%Z) by (apply Z.pow_nonneg; lia).
  assert (P1 : 0 < 1) by lra.
  assert (OK' : Forall (cell_ok 3 4 tet_table (2 ^ Z.of_nat r)) Ds) by (eapply Forall_impl; [|exact OK]; intros D; apply tet_cell_ok; exact PB).
  destruct (refine_all_spec 0 1 3 4 r tet_table (2 ^ Z.of_nat r) P1 tet_tol ltac:(lia) ltac:(lia) tet_table_wf Sp PB st Ds I OK' eq_refl) as [I' _].
  replace (2 * 2 ^ Z.of_nat r)%Z with (2 ^ Z.of_nat (S r))%Z in I' by (rewrite Nat2Z.inj_succ, Z.pow_succ_r; lia).
  exists (flat_map (split_cell 3 tet_table) Ds). split; [exact I'|]. split.
  - rewrite Forall_forall in *. intros D H. apply in_flat_map in H. destruct H as [E [H1 H2]].
    pose proof (tet_split_ok _ E (OK E H1)) as Q. rewrite Forall_forall in Q.
    replace (2 ^ Z.of_nat (S r))%Z with (2 * 2 ^ Z.of_nat r)%Z by (rewrite Nat2Z.inj_succ, Z.pow_succ_r; lia). apply Q. exact H2.
  - rewrite (flat_length _ 8); [cbn [Nat.pow]; lia|]. intros D _. reflexivity.
Qed.
Definition tet0 : list (list Z) := [[0; 0; 0]; [1; 0; 0]; [0; 1; 0]; [0; 0; 1]]%Z.
Lemma tet0_ok : tet_ok 1 tet0.
Proof. do 12 eexists. split; [reflexivity|]. split; [left; reflexivity|]. unfold inside. lia. Qed.
Lemma pos03 : forall x y z, at_level 0 1 0 [x; y; z] = [IZR x; IZR y; IZR z].
Proof. intros. unfold at_level. cbn [map pow]. f_equal; [|f_equal; [|f_equal]]; field. Qed.
Lemma tet_inv : inv 0 1 3 0 (2 ^ Z.of_nat 0) (start tet_nodes 4) [tet0].
Proof.
  split; [|split].
  - split.
    + cbn [snodes start tet_nodes]. repeat constructor; cbn; intros H; repeat destruct H as [H|H]; try (injection H; intros; lra); contradiction.
    + intros p I. cbn in I. destruct I as [<-|[<-|[<-|[<-|[]]]]];
        [exists [0; 0; 0]%Z|exists [1; 0; 0]%Z|exists [0; 1; 0]%Z|exists [0; 0; 1]%Z]; (split; [reflexivity|]); rewrite pos03; (split; [reflexivity|]); repeat constructor; cbn; lia.
  - cbn [snodes sconn start]. constructor; [|constructor]. split; [reflexivity|].
    intros [|[|[|[|j]]]] J; try (cbn in J; lia); cbn [nth seq List.length tet_nodes nth_error tet0]; rewrite pos03; reflexivity.
  - reflexivity.
Qed.
Lemma tet_start : tet_state 0 (start tet_nodes 4).
Proof.
  exists [tet0]. split; [apply tet_inv|]. split; [|reflexivity]. constructor; [apply tet0_ok|constructor].
Qed.
Lemma tet_refine : forall n r st, 2 ^ (r + n) * tol_ tet_table <= 1 -> tet_state r st -> tet_state (r + n) (refine tet_table n st).
Proof.
  induction n as [|n IH]; intros r st Sp H; [rewrite Nat.add_0_r; exact H|].
  cbn [refine]. replace (r + S n)%nat with (S r + n)%nat in * by lia. apply IH; [exact Sp|]. apply tet_step; [|exact H].
  eapply Rle_trans; [|exact Sp]. apply Rmult_le_compat_r; [apply Rlt_le, tet_tol|]. apply Rle_pow; [lra|lia].
Qed.
Lemma tet_vol6 : forall r ns c D B, tet_ok B D -> described 0 1 r ns c D ->
  vol6 ns c = IZR (volZ D) / 2 ^ r / 2 ^ r / 2 ^ r.
Proof.
  intros r ns c D B [a1 [a2 [a3 [b1 [b2 [b3 [c1 [c2 [c3 [d1 [d2 [d3 [-> _]]]]]]]]]]]]] [L H].
  pose proof (H 0%nat ltac:(cbn; lia)) as H0. pose proof (H 1%nat ltac:(cbn; lia)) as H1. pose proof (H 2%nat ltac:(cbn; lia)) as H2.
  pose proof (H 3%nat ltac:(cbn; lia)) as H3.
  unfold vol6. cbv zeta. rewrite (@nth_error_nth node _ _ _ [] H0), (@nth_error_nth node _ _ _ [] H1), (@nth_error_nth node _ _ _ [] H2), (@nth_error_nth node _ _ _ [] H3).
  unfold volZ, at_level. cbn [nth map]. rewrite plus_IZR, minus_IZR, !mult_IZR, !minus_IZR, !mult_IZR, !minus_IZR. pose proof (pow2_pos r). field. lra.
Qed.
(** What holds: distinct nodes, 8^r cells, each with an equal share of the volume up to sign. *)
Theorem C143_partial : forall r, 2 ^ r * (1 / 10000000000) <= 1 ->
  let st := refine tet_table r (start tet_nodes 4) in
  NoDup (snodes st) /\ List.length (sconn st) = (8 ^ r)%nat /\
  Forall (fun c => List.length c = 4%nat /\ Rabs (vol6 (snodes st) c) = / 8 ^ r) (sconn st).
Proof.
  intros r Sp st. pose proof (tet_refine r 0 _ Sp tet_start) as S. cbn [Nat.add] in S. fold st in S.
  destruct S as [Ds [[[ND _] [F _]] [OK L]]]. split; [exact ND|]. split; [rewrite (Forall2_length_ _ _ _ F); exact L|].
  rewrite Forall_forall. intros c C. apply (In_nth _ _ []) in C. destruct C as [e [E <-]].
  assert (E' : (e < List.length Ds)%nat) by (rewrite <- (Forall2_length_ _ _ _ F); exact E).
  pose proof (Forall2_nth _ _ _ e [] [] F E') as H. rewrite Forall_forall in OK.
  pose proof (OK _ (nth_In _ [] E')) as O. set (c := nth e (sconn st) []) in *. set (D := nth e Ds []) in *.
  pose proof (tet_vol6 _ _ _ _ _ O H) as A. pose proof (pow2_pos r) as P2.
  destruct O as [a1 [a2 [a3 [b1 [b2 [b3 [c1 [c2 [c3 [d1 [d2 [d3 [ED [X _]]]]]]]]]]]]]]. destruct H as [Lc H]. rewrite ED in Lc.
  split; [exact Lc|].
  rewrite A. assert (XX : Rabs (IZR (volZ D)) = 1) by (rewrite <- abs_IZR; destruct X as [-> | ->]; reflexivity).
  unfold Rdiv. rewrite !Rabs_mult, XX, Rabs_inv, (Rabs_pos_eq (2 ^ r)) by lra.
  replace 8 with (2 * (2 * 2)) by ring. rewrite !Rpow_mult_distr. field. lra.
Qed.
(** What is wrong: the last three cells are the same, so part of the
    tetrahedron is counted three times and part is missing; the first cell
    keeps a mark on its interior side and loses one on a coarse side. *)
Theorem C143_refuted : let st := refine tet_table 1 (start tet_nodes 4) in
  nth 5 (sconn st) [] = nth 6 (sconn st) [] /\ nth 6 (sconn st) [] = nth 7 (sconn st) [] /\
  nth 1 (nth 0 (smaps st) []) (0, 0)%Z = (1, 1)%Z /\
  map (fun k => nth (nth k (nth 0 (sconn st) []) 0%nat) (snodes st) []) [1; 2; 3]%nat = [[1 / 2; 0; 0]; [0; 1 / 2; 0]; [0; 0; 1 / 2]] /\
  nth 2 (nth 0 (smaps st) []) (0, 0)%Z = (0, 0)%Z /\
  map (fun k => nth 0 (nth (nth k (nth 0 (sconn st) []) 0%nat) (snodes st) []) 0) [0; 3; 2]%nat = [0; 0; 0].
Proof.
  intros st.
  assert (EQ : nth 5 (sconn st) [] = nth 6 (sconn st) [] /\ nth 6 (sconn st) [] = nth 7 (sconn st) []).
  { unfold st. cbn [refine]. unfold refine_all. cbn [sconn start List.length seq fold_left]. unfold refine_cell.
    destruct (place_all _ _ _) as [n idx]. cbn. split; reflexivity. }
  destruct EQ as [E1 E2]. split; [exact E1|]. split; [exact E2|]. clear E1 E2.
  assert (P1 : 0 < 1) by lra. assert (Sp : 2 ^ 1 * tol_ tet_table <= 1) by (cbn; lra).
  assert (OK0 : Forall (cell_ok 3 4 tet_table (2 ^ Z.of_nat 0)) [tet0]).
  { constructor; [|constructor]. apply tet_cell_ok; [cbn; lia|apply tet0_ok]. }
  destruct (refine_all_spec 0 1 3 4 0 tet_table (2 ^ Z.of_nat 0) P1 tet_tol ltac:(lia) ltac:(lia) tet_table_wf Sp ltac:(cbn; lia) _ [tet0] tet_inv OK0 eq_refl) as [[_ [F _]] M].
  change (refine_all tet_table (start tet_nodes 4)) with st in F, M. clearbody st.
  unfold tet0 in F. cbn [flat_map] in F. rewrite tet_split, app_nil_r in F. cbn in F.
  pose proof (Forall2_nth _ _ _ 0 [] [] F ltac:(cbn; lia)) as [_ H]. cbn [nth] in H.
  pose proof (H 0%nat ltac:(cbn; lia)) as H0. pose proof (H 1%nat ltac:(cbn; lia)) as H1. pose proof (H 2%nat ltac:(cbn; lia)) as H2.
  pose proof (H 3%nat ltac:(cbn; lia)) as H3.
  cbn [map]. rewrite (@nth_error_nth node _ _ _ [] H0), (@nth_error_nth node _ _ _ [] H1), (@nth_error_nth node _ _ _ [] H2), (@nth_error_nth node _ _ _ [] H3).
  rewrite M. split; [reflexivity|]. unfold at_level. cbn [nth map pow]. split; [|split; [reflexivity|]].
  - f_equal; [f_equal; [|f_equal; [|f_equal]]; field|]. f_equal; [f_equal; [|f_equal; [|f_equal]]; field|].
    f_equal. f_equal; [|f_equal; [|f_equal]]; field.
  - f_equal; [field|]. f_equal; [field|]. f_equal. field.
Qed.
Print Assumptions C143_partial.
Print Assumptions C143_refuted.
